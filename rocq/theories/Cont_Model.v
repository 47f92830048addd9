(** Model of beluga/continuation/continuation.py. *)
From Verif Require Import Base.

(** The [converged] attribute of a trajectory.  The code tests it both by
    truth value (line 121, 250, 318, 407) and by identity with the object
    [False] (line 100).  scipy's SLSQP reports failure as [numpy.False_], which
    is falsy but is not the object [False]; hence three values. *)
Inductive flag : Type := FTrue | FFalse | FFalsy.
Definition truthy (f : flag) : bool := match f with FTrue => true | _ => false end.
Definition is_False (f : flag) : bool := match f with FFalse => true | _ => false end.

(** Value of the [spacing] argument (lines 199-206, 268-274, 216-226). *)
Inductive spacing : Type := Linear | Log | OtherSpacing.

Inductive kind : Type := Manual | Bisection | Product | Sparse.

Section Cont.
  Context {F : Type} (O : NumOps F) {P : Type}.

  (** Trajectory, numeric/data_classes/Trajectory.py 15-58, reduced to the
      attributes continuation uses: [const], [converged] and everything else. *)
  Record traj : Type := mkTraj { t_const : list F; t_conv : flag; t_body : P }.

  (** ContinuationVariable, lines 57-69 ([value] starts as nan: None). *)
  Record cvar : Type := mkVar {
    v_name : string; v_target : F; v_value : option F; v_steps : list F }.

  (** State of a strategy object (ContinuationStrategy.__init__ 73-79,
      ManualStrategy.__init__ 158-171, BisectionStrategy.__init__ 235-241,
      ProductStrategy.__init__ 298-312, SparseProductStrategy.__init__ 385-401).
      [s_vars] is the insertion-ordered dict of continuation variables.
      Attributes never read by the code (last_sol, orig_num_cases, case_list,
      sol, sols, solution_reference) are left out. *)
  Record strat : Type := mkStrat {
    s_kind : kind;
    s_gammas : list traj;
    s_vars : list cvar;
    s_ctr : nat;
    s_num : option Z;
    s_spacing : spacing;
    s_cnames : list string;
    s_ndiv : Z;
    s_maxdiv : Z;
    s_divctr : Z;
    s_nsub : Z;
    s_sub : list Z * list Z }.

  Definition upd_gammas s g := mkStrat (s_kind s) g (s_vars s) (s_ctr s) (s_num s) (s_spacing s)
    (s_cnames s) (s_ndiv s) (s_maxdiv s) (s_divctr s) (s_nsub s) (s_sub s).
  Definition upd_vars s v := mkStrat (s_kind s) (s_gammas s) v (s_ctr s) (s_num s) (s_spacing s)
    (s_cnames s) (s_ndiv s) (s_maxdiv s) (s_divctr s) (s_nsub s) (s_sub s).
  Definition upd_ctr s c := mkStrat (s_kind s) (s_gammas s) (s_vars s) c (s_num s) (s_spacing s)
    (s_cnames s) (s_ndiv s) (s_maxdiv s) (s_divctr s) (s_nsub s) (s_sub s).
  Definition upd_num s n := mkStrat (s_kind s) (s_gammas s) (s_vars s) (s_ctr s) n (s_spacing s)
    (s_cnames s) (s_ndiv s) (s_maxdiv s) (s_divctr s) (s_nsub s) (s_sub s).
  Definition upd_spacing s sp := mkStrat (s_kind s) (s_gammas s) (s_vars s) (s_ctr s) (s_num s) sp
    (s_cnames s) (s_ndiv s) (s_maxdiv s) (s_divctr s) (s_nsub s) (s_sub s).
  Definition upd_cnames s c := mkStrat (s_kind s) (s_gammas s) (s_vars s) (s_ctr s) (s_num s) (s_spacing s)
    c (s_ndiv s) (s_maxdiv s) (s_divctr s) (s_nsub s) (s_sub s).
  Definition upd_divctr s d := mkStrat (s_kind s) (s_gammas s) (s_vars s) (s_ctr s) (s_num s) (s_spacing s)
    (s_cnames s) (s_ndiv s) (s_maxdiv s) d (s_nsub s) (s_sub s).
  Definition upd_nsub s n := mkStrat (s_kind s) (s_gammas s) (s_vars s) (s_ctr s) (s_num s) (s_spacing s)
    (s_cnames s) (s_ndiv s) (s_maxdiv s) (s_divctr s) n (s_sub s).

  (** Constructors with their default arguments (lines 158, 235, 298, 385). *)
  Definition new_manual (num : Z) : strat :=
    mkStrat Manual [] [] 0 (Some num) Linear [] 0 0 0 0 ([], []).
  Definition new_bisection (initial_num maxdiv ndiv : Z) : strat :=
    mkStrat Bisection [] [] 0 (Some initial_num) Linear [] ndiv maxdiv 0 0 ([], []).
  Definition new_product (nsub : Z) : strat :=
    mkStrat Product [] [] 0 None Linear [] 0 0 0 nsub ([], []).
  Definition new_sparse (sub : list Z * list Z) : strat :=
    mkStrat Sparse [] [] 0 None Linear [] 0 0 0 0 sub.

  (** [set]/[const] (lines 208-214, 334-339, 423-428): dict assignment; an
      existing name keeps its position and gets a fresh variable object. *)
  Fixpoint set_var (vs : list cvar) (name : string) (target : F) : list cvar :=
    match vs with
    | [] => [mkVar name target None []]
    | v :: vs' => if String.eqb (v_name v) name then mkVar name target None [] :: vs'
                  else v :: set_var vs' name target
    end.
  Definition set_const (s : strat) (name : string) (target : F) : strat :=
    upd_vars s (set_var (s_vars s) name target).

  (** ManualStrategy.num_cases(num, spacing) as a setter, lines 216-226. *)
  Definition set_num_cases (s : strat) (num : Z) (sp : spacing) : strat * res unit :=
    if Nat.ltb 0 (s_ctr s) then (s, Raise RuntimeError)
    else (upd_spacing (upd_num s (Some num)) sp, Ok tt).

  (** gamma_norm, lines 19-21: sum(abs(const2 - const1)), starting from 0.
      (For arrays of different lengths numpy raises; here the longer one is
      truncated.  All gammas of a step have the length of the guess's constants
      when the solver keeps the constants.) *)
  Fixpoint norm_from (acc : F) (c1 c2 : list F) : F :=
    match c1, c2 with
    | a :: c1', b :: c2' => norm_from (nadd O acc (nabs O (nsub O b a))) c1' c2'
    | _, _ => acc
    end.
  Definition gamma_norm (c1 c2 : list F) : F := norm_from (n0 O) c1 c2.

  (** The literal 9e99 of line 101. *)
  Definition big : F := nofZ O (9 * 10 ^ 99).

  (** One entry of [norms], lines 99-103. *)
  Definition norm_entry (const : list F) (g : traj) : F :=
    if is_False (t_conv g) then big else gamma_norm (t_const g) const.

  (** numpy.argmin: first smallest element; the first NaN wins ([x <> x]). *)
  Definition is_nan (x : F) : bool := negb (neqb O x x).
  Fixpoint argmin_from (i best : nat) (bv : F) (l : list F) : nat :=
    match l with
    | [] => best
    | x :: l' =>
        if negb (is_nan bv) && (is_nan x || nltb O x bv)
        then argmin_from (S i) i x l'
        else argmin_from (S i) best bv l'
    end.
  Definition argmin (l : list F) : res nat :=
    match l with
    | [] => Raise ValueError
    | x :: l' => Ok (argmin_from 1 0 x l')
    end.

  (** get_closest_gamma, lines 97-105. *)
  Definition closest_gamma (gammas : list traj) (const : list F) : res nat :=
    argmin (map (norm_entry const) gammas).

  (** Lines 130-134: copy of the constants with the continued ones replaced by
      [steps[ctr]]; the unused [total_change] is left out. *)
  Fixpoint put_vars (cnames : list string) (vs : list cvar) (ctr : nat) (const : list F)
    : res (list F) :=
    match vs with
    | [] => Ok const
    | v :: vs' =>
        jj <- index_of (v_name v) cnames ;
        x <- get (v_steps v) ctr ;
        const' <- set_nth const jj x ;
        put_vars cnames vs' ctr const'
    end.

  Definition last_gamma (s : strat) : option traj := nth_error (rev (s_gammas s)) 0.

  (** ContinuationStrategy.next, lines 117-141. *)
  Definition next_base (s : strat) (ignore_last : bool) : strat * res traj :=
    match last_gamma s with
    | None => (s, Raise ValueError)
    | Some lg =>
        if negb ignore_last && negb (Nat.eqb (length (s_gammas s)) 1) && negb (truthy (t_conv lg))
        then (s, Raise RuntimeError)
        else
          match s_num s with
          | None => (s, Raise TypeError)
          | Some num =>
              if num <=? Z.of_nat (s_ctr s) then (s, Raise StopIteration)
              else
                match put_vars (s_cnames s) (s_vars s) (s_ctr s) (t_const lg) with
                | Raise e => (s, Raise e)
                | Ok const0 =>
                    match closest_gamma (s_gammas s) const0 with
                    | Raise e => (s, Raise e)
                    | Ok i =>
                        match nth_error (s_gammas s) i with
                        | None => (s, Raise IndexError)
                        | Some g => (upd_ctr s (S (s_ctr s)),
                                     Ok (mkTraj const0 (t_conv g) (t_body g)))
                        end
                    end
                end
          end
    end.

  (** Lines 267-281 for one variable: new values between the last two steps. *)
  Definition divide_var (sp : spacing) (ndiv : Z) (ctr : nat) (v : cvar) : res cvar :=
    a <- get (v_steps v) (ctr - 2) ;
    b <- get (v_steps v) (ctr - 1) ;
    new <- match sp with
           | Linear => linspace O a b (ndiv + 1)
           | Log => logspace O a b (ndiv + 1)
           | OtherSpacing => Raise ValueError
           end ;
    st <- np_insert (v_steps v) (ctr - 1) (inner new) ;
    Ok (mkVar (v_name v) (v_target v) (v_value v) st).

  (** The loop of lines 266-281; on an exception the variables processed so
      far keep their new steps. *)
  Fixpoint divide_vars (sp : spacing) (ndiv : Z) (ctr : nat) (vs : list cvar)
    : list cvar * res unit :=
    match vs with
    | [] => ([], Ok tt)
    | v :: vs' =>
        match divide_var sp ndiv ctr v with
        | Raise e => (v :: vs', Raise e)
        | Ok v' => let '(vs'', r) := divide_vars sp ndiv ctr vs' in (v' :: vs'', r)
        end
    end.

  Definition last_conv (s : strat) : res bool :=
    match last_gamma s with
    | None => Raise IndexError
    | Some g => Ok (truthy (t_conv g))
    end.

  (** BisectionStrategy.next, lines 243-289 ([ctr == 0 or gammas[-1].converged]
      short-circuits, so an empty gamma list is only an error for ctr > 0). *)
  Definition next_bisection (s : strat) : strat * res traj :=
    match (if Nat.eqb (s_ctr s) 0 then Ok true else last_conv s) with
    | Raise e => (s, Raise e)
    | Ok true => next_base (upd_divctr s 0) false
    | Ok false =>
        if Nat.eqb (s_ctr s) 1 then (s, Raise RuntimeError)
        else if s_maxdiv s <? s_divctr s then (s, Raise RuntimeError)
        else
          match divide_vars (s_spacing s) (s_ndiv s) (s_ctr s) (s_vars s) with
          | (vs, Raise e) => (upd_vars s vs, Raise e)
          | (vs, Ok _) =>
              let s1 := upd_ctr (upd_vars s vs) (s_ctr s - 1) in
              let s2 := upd_num s1 (match s_num s with
                                    | Some n => Some (n + s_ndiv s - 1) | None => None end) in
              next_base (upd_divctr s2 (s_divctr s + 1)) true
          end
    end.

  (** ProductStrategy.next / SparseProductStrategy.next, lines 317-327, 406-416. *)
  Definition next_product (s : strat) : strat * res traj :=
    match (if Nat.eqb (s_ctr s) 0 then Ok true else last_conv s) with
    | Raise e => (s, Raise e)
    | Ok true => next_base (upd_divctr s 0) false
    | Ok false =>
        if Nat.eqb (s_ctr s) 1 then (s, Raise RuntimeError) else next_base s true
    end.

  Definition next (s : strat) : strat * res traj :=
    match s_kind s with
    | Manual => next_base s false
    | Bisection => next_bisection s
    | Product | Sparse => next_product s
    end.

  (** reset, lines 176-179, 329-332, 418-421. *)
  Definition reset (s : strat) : strat := upd_ctr s 0.

  (** ContinuationStrategy.init, lines 107-115. *)
  Definition init_base (s : strat) (g : traj) (cnames : list string) : strat :=
    upd_cnames (upd_gammas s [mkTraj (t_const g) FFalse (t_body g)]) cnames.

  (** One round of the loop of ManualStrategy.init, lines 191-206. *)
  Definition manual_init_var (sp : spacing) (num : Z) (cnames : list string) (const : list F)
      (v : cvar) : res cvar :=
    jj <- index_of (v_name v) cnames ;
    x <- get const jj ;
    st <- match sp with
          | Linear => linspace O x (v_target v) num
          | Log => logspace O x (v_target v) num
          | OtherSpacing => Ok (v_steps v)
          end ;
    Ok (mkVar (v_name v) (v_target v) (Some x) st).

  Fixpoint manual_init_vars sp num cnames const (vs : list cvar) : list cvar * res unit :=
    match vs with
    | [] => ([], Ok tt)
    | v :: vs' =>
        match manual_init_var sp num cnames const v with
        | Raise e => (v :: vs', Raise e)
        | Ok v' => let '(vs'', r) := manual_init_vars sp num cnames const vs' in (v' :: vs'', r)
        end
    end.

  Definition init_manual (s : strat) (g : traj) (cnames : list string) : strat * res unit :=
    let s1 := init_base s g cnames in
    match s_num s1 with
    | None => (s1, Raise TypeError)
    | Some num =>
        let '(vs, r) := manual_init_vars (s_spacing s1) num cnames (t_const g) (s_vars s1) in
        (upd_vars s1 vs, r)
    end.

  (** Lines 346-348, 437-441: current values of the continued constants. *)
  Fixpoint read_values (cnames : list string) (const : list F) (vs : list cvar)
    : res (list cvar) :=
    match vs with
    | [] => Ok []
    | v :: vs' =>
        jj <- index_of (v_name v) cnames ;
        x <- get const jj ;
        r <- read_values cnames const vs' ;
        Ok (mkVar (v_name v) (v_target v) (Some x) (v_steps v) :: r)
    end.

  (** itertools.product: the last factor varies fastest. *)
  Fixpoint cart (ls : list (list F)) : list (list F) :=
    match ls with
    | [] => [[]]
    | l :: ls' => flat_map (fun x => map (cons x) (cart ls')) l
    end.

  (** Lines 352-356, 475-477: append coordinate [n] of every point to the steps
      of variable [n].  Points have one coordinate per variable by construction,
      so the default of [nth] is never used. *)
  Fixpoint append_points (n : nat) (pts : list (list F)) (vs : list cvar) : list cvar :=
    match vs with
    | [] => []
    | v :: vs' =>
        mkVar (v_name v) (v_target v) (v_value v)
              (v_steps v ++ map (fun p => nth n p (n0 O)) pts)
        :: append_points (S n) pts vs'
    end.

  Definition var_value (v : cvar) : F := match v_value v with Some x => x | None => n0 O end.

  (** num_cases(n) as used inside init, lines 358-367, 479-488. *)
  Definition set_num_product (s : strat) (num : Z) : strat * res unit :=
    if Nat.ltb 0 (s_ctr s) then (s, Raise RuntimeError) else (upd_num s (Some num), Ok tt).

  (** ProductStrategy.init, lines 341-356. *)
  Definition init_product (s : strat) (g : traj) (cnames : list string) : strat * res unit :=
    let s1 := init_base s g cnames in
    match set_num_product s1 (s_nsub s1 ^ Z.of_nat (length (s_vars s1))) with
    | (s2, Raise e) => (s2, Raise e)
    | (s2, Ok _) =>
        match read_values cnames (t_const g) (s_vars s2) with
        | Raise e => (s2, Raise e)
        | Ok vs =>
            match mapM (fun v => linspace O (var_value v) (v_target v) (s_nsub s2)) vs with
            | Raise e => (upd_vars s2 vs, Raise e)
            | Ok ls => (upd_vars s2 (append_points 0 (cart ls) vs), Ok tt)
            end
        end
    end.

  (** Lines 454-458: the points of one major line. *)
  Definition major_line (n : nat) (p : list F) (series : list F) : res (list (list F)) :=
    mapM (fun x => set_nth p n x) series.

  (** Lines 460-468: minor points between consecutive major points, then the
      right major point. *)
  Fixpoint line_steps (n : nat) (minor : Z) (line : list (list F)) : res (list (list F)) :=
    match line with
    | p0 :: ((p1 :: _) as line') =>
        a <- get p0 n ;
        b <- get p1 n ;
        ms <- linspace_gen O false a b (minor + 1) ;
        mins <- mapM (fun x => set_nth p0 n x) (tl ms) ;
        rest <- line_steps n minor line' ;
        Ok (mins ++ [p1] ++ rest)
    | _ => Ok []
    end.

  (** Lines 453-470 for one variable: new steps and new major points. *)
  Fixpoint sweep (n : nat) (series : list F) (minor : Z) (cloud : list (list F))
    : res (list (list F) * list (list F)) :=
    match cloud with
    | [] => Ok ([], [])
    | p :: cloud' =>
        line <- major_line n p series ;
        st <- line_steps n minor line ;
        r <- sweep n series minor cloud' ;
        Ok (st ++ fst r, tl line ++ snd r)
    end.

  (** The outer loop, lines 450-471: [n] counts up, [todo] variables remain.
      [minor_num_steps[n]] is only read when a line has two points. *)
  Fixpoint sparse_loop (todo n : nat) (lower upper : list F) (majors minors : list Z)
      (steps cloud : list (list F)) : res (list (list F)) :=
    match todo with
    | 0%nat => Ok steps
    | S todo' =>
        a <- get lower n ;
        b <- get upper n ;
        mj <- get majors n ;
        series <- linspace O a b mj ;
        mn <- (if Nat.ltb (length series) 2 then Ok 0 else get minors n) ;
        r <- sweep n series mn cloud ;
        sparse_loop todo' (S n) lower upper majors minors (steps ++ fst r) (cloud ++ snd r)
    end.

  Definition sparse_points (lower upper : list F) (majors minors : list Z) : res (list (list F)) :=
    sparse_loop (length lower) 0 lower upper majors minors [lower] [lower].

  (** SparseProductStrategy.init, lines 430-477. *)
  Definition init_sparse (s : strat) (g : traj) (cnames : list string) : strat * res unit :=
    let s1 := init_base s g cnames in
    match read_values cnames (t_const g) (s_vars s1) with
    | Raise e => (s1, Raise e)
    | Ok vs =>
        match sparse_points (map var_value vs) (map v_target vs)
                            (fst (s_sub s1)) (snd (s_sub s1)) with
        | Raise e => (upd_vars s1 vs, Raise e)
        | Ok pts =>
            match set_num_product (upd_vars s1 vs) (Z.of_nat (length pts)) with
            | (s2, Raise e) => (s2, Raise e)
            | (s2, Ok _) => (upd_vars s2 (append_points 0 pts (s_vars s2)), Ok tt)
            end
        end
    end.

  Definition init (s : strat) (g : traj) (cnames : list string) : strat * res unit :=
    match s_kind s with
    | Manual | Bisection => init_manual s g cnames
    | Product => init_product s g cnames
    | Sparse => init_sparse s g cnames
    end.

  (** add_gamma, lines 94-95. *)
  Definition add_gamma (s : strat) (g : traj) : strat := upd_gammas s (s_gammas s ++ [g]).

  (** One call of the solver: the guess handed in and the solution returned. *)
  Definition call : Type := (traj * traj)%type.

  Inductive outcome : Type :=
  | Finished (s : strat) (last : traj) (calls : list call)
  | Raised (e : exn) (s : strat) (calls : list call)
  | OutOfFuel.

  (** The solver stands for lines 575-601: scaling, [bvp_algorithm.solve],
      unscaling and residual evaluation.  It is an arbitrary function of the
      number of the call and the guess, so every (also history dependent)
      behaviour is covered; it may raise. *)
  Definition solver : Type := nat -> traj -> res traj.

  (** The for-loop of lines 567-616 over one step; [k] is the number of solver
      calls made before, [guess] the value of [sol_guess]. *)
  Fixpoint iterate (fuel : nat) (slv : solver) (k : nat) (s : strat) (guess : traj)
      (calls : list call) : outcome :=
    match fuel with
    | 0%nat => OutOfFuel
    | S fuel' =>
        match next s with
        | (s', Raise StopIteration) => Finished s' guess calls
        | (s', Raise e) => Raised e s' calls
        | (s', Ok g) =>
            match slv k g with
            | Raise e => Raised e s' calls
            | Ok sol => iterate fuel' slv (S k) (add_gamma s' sol) sol (calls ++ [(g, sol)])
            end
        end
    end.

  (** Lines 554-616: reset, init, iterate. *)
  Definition run_step (fuel : nat) (slv : solver) (k : nat) (s : strat) (guess : traj)
      (cnames : list string) : outcome :=
    match init (reset s) guess cnames with
    | (s', Raise e) => Raised e s' []
    | (s', Ok _) => iterate fuel slv k s' guess []
    end.

  (** Result of run_continuation_set: the list of lists of solutions, or the
      exception that propagated. *)
  Inductive set_outcome : Type :=
  | SetDone (out : list (list traj))
  | SetRaised (e : exn)
  | SetFuel.

  Fixpoint run_steps (fuel : nat) (slv : solver) (k : nat) (ss : list strat) (guess : traj)
      (cnames : list string) (acc : list (list traj)) : set_outcome :=
    match ss with
    | [] => SetDone acc
    | s :: ss' =>
        match run_step fuel slv k s guess cnames with
        | OutOfFuel => SetFuel
        | Raised e _ _ => SetRaised e
        | Finished _ last calls =>
            run_steps fuel slv (k + length calls) ss' last cnames (acc ++ [map snd calls])
        end
    end.

  (** run_continuation_set, lines 500-618 ([steps is None]: one solve). *)
  Definition run_set (fuel : nat) (slv : solver) (steps : option (list strat)) (guess : traj)
      (cnames : list string) : set_outcome :=
    match steps with
    | None => match slv 0%nat guess with Raise e => SetRaised e | Ok sol => SetDone [[sol]] end
    | Some ss => run_steps fuel slv 0 ss guess cnames []
    end.
End Cont.

Arguments traj : clear implicits.
Arguments cvar : clear implicits.
Arguments strat : clear implicits.
Arguments outcome : clear implicits.
Arguments set_outcome : clear implicits.
Arguments solver : clear implicits.
Arguments call : clear implicits.

(** ContinuationList.add_step, lines 37-54, on the names found by lines 30-35.
    An argument is either a string or an already built strategy object; the
    strategy constructed for a name is represented by its kind. *)
Inductive step_arg (S : Type) : Type := Named (name : string) | Object (s : S).
Arguments Named {S}. Arguments Object {S}.

Definition strategy_of_name (name : string) : option kind :=
  if String.eqb name "manual" then Some Manual
  else if String.eqb name "bisection" then Some Bisection
  else if String.eqb name "productspace" then Some Product
  else if String.eqb name "sparse_product" then Some Sparse
  else None.

Definition add_step {S} (mk : kind -> S) (l : list S) (a : step_arg S) : list S * res S :=
  match a with
  | Named name =>
      match strategy_of_name name with
      | Some k => (l ++ [mk k], Ok (mk k))
      | None => (l, Raise ValueError)
      end
  | Object s => (l ++ [s], Ok s)
  end.
