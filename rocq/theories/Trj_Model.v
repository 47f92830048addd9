(** Trajectory as a container: numeric/data_classes/Trajectory.py lines 15-62 and
    158-193 (calling a trajectory, lines 64-156, is in Ivp_Model.v). *)
From Verif Require Import Base.
From Verif Require Sym_Model.
Open Scope Z_scope.
Open Scope list_scope.

(** Python's [l[i]] with negative indices, and [l[a:b]] with step one. *)
Definition item {A} (l : list A) (i : Z) : res A :=
  let n := Z.of_nat (length l) in
  let j := if i <? 0 then i + n else i in
  if (0 <=? j) && (j <? n) then get l (Z.to_nat j) else Raise IndexError.
Definition clip (n i : Z) : Z := if i <? 0 then Z.max 0 (i + n) else Z.min i n.
Definition slice {A} (l : list A) (a b : option Z) : list A :=
  let n := Z.of_nat (length l) in
  let lo := clip n (match a with Some a => a | None => 0 end) in
  let hi := clip n (match b with Some b => b | None => n end) in
  firstn (Z.to_nat (hi - lo)) (skipn (Z.to_nat lo) l).

Section Container.
  (** [T]: entries of t; [V]: rows of y, q, u (a number for one-dimensional arrays). *)
  Context {T V : Type}.

  (** What [interpolate] is: scipy's interp1d of some kind, or the user's function. *)
  Inductive interp : Type := Kind (k : string) | Custom (id : nat).

  (** The arrays indexed by samples; the others of lines 29-40 play no part here. *)
  Record trj : Type := mkTrj {
    tr_t : list T; tr_y : list V; tr_q : list V; tr_u : list V;
    tr_type : string; tr_interp : option interp }.

  (** Objects live in a store; a trajectory is an address. *)
  Definition store : Type := list trj.

  (** set_interpolate_function, lines 158-168, for a callable or a string. *)
  Definition set_interpolate (f : interp) (x : trj) : trj :=
    mkTrj (tr_t x) (tr_y x) (tr_q x) (tr_u x) (tr_type x)
      (Some (match f with Kind k => Kind (Sym_Model.lower k) | Custom i => Custom i end)).
  (** __init__, lines 60-62. *)
  Definition init (x : trj) : trj :=
    set_interpolate (Kind (tr_type x)) (mkTrj (tr_t x) (tr_y x) (tr_q x) (tr_u x) (tr_type x) None).
  (** Trajectory(t, y, q, u, interpolation_type=kind): __new__, lines 15-58, then
      __init__; left-out arguments are empty arrays. *)
  Definition fresh (t : list T) (y q u : list V) (kind : option string) (h : store) : store * nat :=
    (h ++ [init (mkTrj t y q u (Sym_Model.lower (match kind with Some k => k | None => "linear" end)) None)], length h).
  (** Trajectory(gamma) for a trajectory gamma: __new__ returns gamma itself (lines
      26-27) and Python calls __init__ on it. *)
  Definition wrap (a : nat) (h : store) : res (store * nat) :=
    x <- get h a ; h' <- set_nth h a (init x) ; Ok (h', a).

  (** __getitem__, lines 170-188; [None] is np.array([]). *)
  Definition pick {A B} (f : list A -> res B) (l : list A) : res (option B) :=
    match l with [] => Ok None | _ => b <- f l ; Ok (Some b) end.
  Definition getitem (x : trj) (i : Z) : res (option T * option V * option V * option V) :=
    t <- pick (fun l => item l i) (tr_t x) ; y <- pick (fun l => item l i) (tr_y x) ;
    q <- pick (fun l => item l i) (tr_q x) ; u <- pick (fun l => item l i) (tr_u x) ; Ok (t, y, q, u).
  (** The same with a slice; a slice of an empty array is the empty array. *)
  Definition getslice (x : trj) (a b : option Z) : list T * list V * list V * list V :=
    (slice (tr_t x) a b, slice (tr_y x) a b, slice (tr_q x) a b, slice (tr_u x) a b).
  (** __len__, lines 189-193. *)
  Definition len (x : trj) : nat := length (tr_t x).

  (** for ... in trajectory: Python asks for item 0, 1, 2, ... until IndexError.
      [None]: not finished within the fuel. *)
  Fixpoint iterate (fuel : nat) (x : trj) (i : Z) : option (res (list (option T * option V * option V * option V))) :=
    match fuel with
    | O => None
    | S n =>
        match getitem x i with
        | Ok s => match iterate n x (i + 1) with
                  | Some (Ok l) => Some (Ok (s :: l))
                  | r => r
                  end
        | Raise IndexError => Some (Ok [])
        | Raise e => Some (Raise e)
        end
    end.
End Container.
Arguments trj : clear implicits.
Arguments store : clear implicits.
