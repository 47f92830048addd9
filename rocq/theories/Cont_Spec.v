(** Specification vocabulary for the continuation properties; independent of
    the definitions in Cont_Model.v except for the trajectory record. *)
From Verif Require Import Base Cont_Model.
From Coq Require Import Reals.

(** Value bound to a name in an association list. *)
Fixpoint assoc {A} (name : string) (l : list (string * A)) : option A :=
  match l with
  | [] => None
  | (n, a) :: l' => if String.eqb n name then Some a else assoc name l'
  end.

(** [c'] is obtained from the constants [c0] (named by [cn]) by replacing every
    constant that has a target [T] in [tg] by [f old T] and leaving all others. *)
Definition moved_by {F} (cn : list string) (tg : list (string * F)) (f : F -> F -> F)
    (c0 c' : list F) : Prop :=
  length c' = length c0 /\
  forall j name, nth_error cn j = Some name ->
    nth_error c' j =
      match assoc name tg with
      | Some T => option_map (fun x0 => f x0 T) (nth_error c0 j)
      | None => nth_error c0 j
      end.

(** All continued constants at their targets. *)
Definition at_targets {F} (cn : list string) (tg : list (string * F)) (c0 c' : list F) : Prop :=
  moved_by cn tg (fun _ T => T) c0 c'.

(** Point [i] of the evenly spaced grid of [n] points from start to target. *)
Definition at_grid (cn : list string) (tg : list (string * R)) (n : Z) (i : nat)
    (c0 c' : list R) : Prop :=
  moved_by cn tg (fun x0 T => (x0 + INR i * (T - x0) / IZR (n - 1))%R) c0 c'.

(** The names and targets the user asked for. *)
Definition targets {F} (vs : list (cvar F)) : list (string * F) :=
  map (fun v => (v_name v, v_target v)) vs.

(** A solver that returns a solution with the constants of the guess. *)
Definition keeps_const {F P} (slv : solver F P) : Prop :=
  forall k g sol, slv k g = Ok sol -> t_const sol = t_const g.

(** A solver that never raises. *)
Definition total_solver {F P} (slv : solver F P) : Prop :=
  forall k g, exists sol, slv k g = Ok sol.

Definition converged {F P} (t : traj F P) : Prop := truthy (t_conv t) = true.

(** A solver that solves every problem it is given. *)
Definition good_solver {F P} (slv : solver F P) : Prop :=
  forall k g, exists sol, slv k g = Ok sol /\ t_const sol = t_const g /\ converged sol.

(** Problem named consistently: as many constants as names, no
    name twice. *)
Definition well_named {F} (cn : list string) (c0 : list F) : Prop :=
  NoDup cn /\ length cn = length c0.

(** [l1] is obtained from [l2] by deleting elements. *)
Inductive Subseq {A} : list A -> list A -> Prop :=
| Sub_nil : Subseq [] []
| Sub_skip a l1 l2 : Subseq l1 l2 -> Subseq l1 (a :: l2)
| Sub_take a l1 l2 : Subseq l1 l2 -> Subseq (a :: l1) (a :: l2).

(** Log of solver calls of an outcome. *)
Definition log_of {F P} (o : outcome F P) : list (call F P) :=
  match o with
  | Finished _ _ calls => calls
  | Raised _ _ calls => calls
  | OutOfFuel => []
  end.

(** L1 distance of two vectors of constants. *)
Fixpoint dist (c1 c2 : list R) : R :=
  match c1, c2 with
  | a :: c1', b :: c2' => (Rabs (b - a) + dist c1' c2')%R
  | _, _ => 0%R
  end.

(** Moving from [a] to [b] is a (weak) move in the direction from [x0] to [T]. *)
Definition toward (x0 T a b : R) : Prop := ((x0 <= T -> a <= b) /\ (T <= x0 -> b <= a))%R.

(** Converged solutions of a log, in call order. *)
Definition converged_sols {F P} (calls : list (call F P)) : list (traj F P) :=
  filter (fun t => truthy (t_conv t)) (map snd calls).

(** Every stretch of consecutive failing calls has at most [b] members. *)
Definition failures_at_most {F P} (b : Z) (calls : list (call F P)) : Prop :=
  forall pre mid post, map snd calls = pre ++ mid ++ post ->
    Forall (fun t => ~ converged t) mid -> Z.of_nat (length mid) <= b.

(** The last [b] calls all failed. *)
Definition ends_with_failures {F P} (b : Z) (calls : list (call F P)) : Prop :=
  exists pre mid, map snd calls = pre ++ mid /\ Z.of_nat (length mid) = b /\
    Forall (fun t => ~ converged t) mid.

(** The solver reports convergence with the objects True and False. *)
Definition real_flags {F P} (calls : list (call F P)) : Prop :=
  forall c, In c calls -> t_conv (snd c) <> FFalsy.

(** All distances between solved and requested constants are below 9e99. *)
Definition close_enough {P} (calls : list (call R P)) : Prop :=
  forall c d, In c calls -> In d calls ->
    (dist (t_const (snd c)) (t_const (fst d)) < IZR (9 * 10 ^ 99))%R.

(** The first guess carries the data of the incoming guess; every later one
    those of the nearest converged earlier solution, the earliest on ties. *)
Definition warm_started {P} (guess0 : traj R P) (calls : list (call R P)) : Prop :=
  (forall g sol, nth_error calls 0 = Some (g, sol) -> t_body g = t_body guess0) /\
  (forall i g sol, nth_error calls (S i) = Some (g, sol) ->
     exists j gj solj, (j <= i)%nat /\ nth_error calls j = Some (gj, solj) /\ converged solj /\
       t_body g = t_body solj /\
       (forall m gm solm, (m <= i)%nat -> nth_error calls m = Some (gm, solm) -> converged solm ->
          (dist (t_const solj) (t_const g) <= dist (t_const solm) (t_const g))%R) /\
       (forall m gm solm, (m < j)%nat -> nth_error calls m = Some (gm, solm) -> converged solm ->
          (dist (t_const solj) (t_const g) < dist (t_const solm) (t_const g))%R)).

(** What a caller sees of a run of one step: the exception or the value of the
    running guess, and the solver calls. *)
Inductive seen (F P : Type) : Type :=
| SeenDone (last : traj F P) (calls : list (call F P))
| SeenRaise (e : exn) (calls : list (call F P))
| SeenNothing.
Arguments SeenDone {F P}. Arguments SeenRaise {F P}. Arguments SeenNothing {F P}.
Definition observe {F P} (o : outcome F P) : seen F P :=
  match o with
  | Finished _ lst calls => SeenDone lst calls
  | Raised e _ calls => SeenRaise e calls
  | OutOfFuel => SeenNothing
  end.

(** The state of the strategy object after a run. *)
Definition state_after {F P} (o : outcome F P) : option (strat F P) :=
  match o with
  | Finished s _ _ => Some s
  | Raised _ s _ => Some s
  | OutOfFuel => None
  end.

(** Value of constant [name] in the constants [c] named by [cn]. *)
Definition const_is {F} (cn : list string) (c : list F) (name : string) (x : F) : Prop :=
  exists j, nth_error cn j = Some name /\ nth_error c j = Some x.

(** All constants whose name is not in [names] are as in [c0]. *)
Definition rest_unchanged {F} (cn names : list string) (c0 c : list F) : Prop :=
  length c = length c0 /\
  forall j name, nth_error cn j = Some name -> ~ In name names -> nth_error c j = nth_error c0 j.

(** Point of the product grid with [n] values per constant: constant [m] of
    the list of targets is at index [d] of the [n] evenly spaced values from
    its start to its target, for [d] the [m]-th entry of [ds]. *)
Definition grid_value (x0 T : R) (n : Z) (d : nat) : R := (x0 + INR d * (T - x0) / IZR (n - 1))%R.

Definition at_point (cn : list string) (tg : list (string * R)) (ns : list Z) (ds : list nat)
    (c0 c : list R) : Prop :=
  rest_unchanged cn (map fst tg) c0 c /\
  forall m name T d n x0, nth_error tg m = Some (name, T) -> nth_error ds m = Some d ->
    nth_error ns m = Some n -> const_is cn c0 name x0 -> const_is cn c name (grid_value x0 T n d).

(** Two cases that differ in at most one constant. *)
Definition differ_in_one {F} (c c' : list F) : Prop :=
  length c = length c' /\ exists j0, forall j, j <> j0 -> nth_error c j = nth_error c' j.

(** The digits of [i] in base [n], most significant first, [v] of them. *)
Fixpoint digits (n v i : nat) : list nat :=
  match v with
  | 0%nat => []
  | S v' => (i / n ^ v' mod n)%nat :: digits n v' i
  end.

(** 1 + sum over n of (prod_{k<n} M_k)(M_n - 1)(m_n + 1). *)
Fixpoint sparse_count (prod : Z) (M m : list Z) : Z :=
  match M, m with
  | Mn :: M', mn :: m' => prod * (Mn - 1) * (mn + 1) + sparse_count (prod * Mn) M' m'
  | _, _ => 0
  end.

(** Groups of solver calls of consecutive steps, one per step: within a group
    every call is the solver's answer (calls are numbered through all steps),
    the first guess carries the data of the solution the group starts from,
    and the next group starts from the last solution of this one (or from the
    same place if this one is empty). *)
Inductive chained {F P} (slv : solver F P) : nat -> traj F P -> list (list (call F P)) -> Prop :=
| chained_nil k guess : chained slv k guess []
| chained_cons k guess calls groups :
    (forall i g sol, nth_error calls i = Some (g, sol) -> slv (k + i)%nat g = Ok sol) ->
    (forall g sol, nth_error calls 0 = Some (g, sol) -> t_body g = t_body guess) ->
    chained slv (k + length calls) (last (map snd calls) guess) groups ->
    chained slv k guess (calls :: groups).

(** Names accepted by add_step. *)
Definition known_strategy (name : string) (kd : kind) : Prop :=
  (name = "manual"%string /\ kd = Manual) \/ (name = "bisection"%string /\ kd = Bisection) \/
  (name = "productspace"%string /\ kd = Product) \/ (name = "sparse_product"%string /\ kd = Sparse).

(** A sequence of add_step calls: final list and the results returned. *)
Fixpoint add_all {S} (mk : kind -> S) (l : list S) (args : list (step_arg S)) : list S * list (res S) :=
  match args with
  | [] => (l, [])
  | a :: args' =>
      let '(l1, r) := add_step mk l a in
      let '(l2, rs) := add_all mk l1 args' in (l2, r :: rs)
  end.
