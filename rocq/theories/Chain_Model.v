(** The mappers that the functors build: constructors of
    beluga/numeric/data_classes/trajectory_mappers.py (lines 36-47, 66-95,
    112-127, 150-152, 179-219, 230-232, 248-250, 349-355), called by
    beluga/symbolic/data_classes/mapping_functions.py (lines 180-181, 218-223,
    277, 392, 415, 455, 494, 679, 718), and the reported cost, compile_cost of
    beluga/numeric/compilation/component_compilation.py lines 40-59.

    Values are real numbers; numba is transparent: a function that it cannot
    compile stays a Python function (jit.py lines 54-61).  scipy's [simpson] is a
    parameter. *)
From Coq Require Import Reals.
From Verif Require Import Base Map_Model Sym_Expr Sym_Model Jac_Model Unit_Model.
Open Scope list_scope.
Open Scope nat_scope.

Section Chain.
  Variable fn : string -> nat -> R -> R.
  (** [scipy.integrate.simpson(values, times)]. *)
  Variable simpson : list R -> list R -> res R.

  Definition call1 (groups : list (list string)) (e : expr) (vals : list (list R)) : res R :=
    r <- call fn groups [e] vals ; get r 0.
  (** [_a[0, :]] and [_a[-1, :]]; IndexError on a one-dimensional array and
      without rows. *)
  Definition first_row (a : arr R) : res (list R) :=
    match a with E1 => Raise IndexError | Mat _ rows => get rows 0 end.
  Definition last_row (a : arr R) : res (list R) :=
    match a with E1 => Raise IndexError | Mat _ rows => match rows with [] => Raise IndexError | _ => Ok (last rows []) end end.

  (** compute_cost, lines 46-57; [p] is the problem that Dualize keeps (DualizeMapper,
      trajectory_mappers.py lines 117-127).  The independent variable is no
      argument. *)
  Definition compute_cost (p : prob) (t : list R) (y q u : arr R) (pp k : list R) : res R :=
    let bc_args := [syms (p_states p); syms (p_quads p); p_params p; p_consts p] in
    let dyn_args := [syms (p_states p); p_controls p; p_params p; p_consts p] in
    y0 <- first_row y ;
    q0 <- (if 0 <? alen q then first_row q else Ok []) ;
    c0 <- call1 bc_args (p_cost_i p) [y0; q0; pp; k] ;
    yf <- last_row y ;
    qf <- (if 0 <? alen q then last_row q else Ok []) ;
    cf <- call1 bc_args (p_cost_t p) [yf; qf; pp; k] ;
    path <- mapM (fun yu => call1 dyn_args (p_cost_p p) [fst yu; snd yu; pp; k]) (combine (arows y) (arows u)) ;
    s <- simpson path t ;
    Ok (c0 + cf + s)%R.

  (** AlgebraicControlMapper, lines 184-218: the arguments are those of the problem
      with the control law.  A symbol that is no argument is a NameError in the
      code; here it has the value 0. *)
  Definition law_args (p : prob) : list string := p_ind p :: syms (p_states p) ++ syms (p_costates p) ++ p_params p ++ p_consts p.
  Definition law_options (p : prob) (t : R) (y d pp k : list R) : list (list R) :=
    map (map (eval fn (env (law_args p) (t :: y ++ d ++ pp ++ k)))) (p_law p).
  Definition ham_args (p : prob) : list string := p_ind p :: syms (p_states p) ++ syms (p_costates p) ++ p_controls p ++ p_params p ++ p_consts p.
  Definition law_ham (p : prob) (t : R) (y d u pp k : list R) : R :=
    match p_ham p with Some h => eval fn (env (ham_args p) (t :: y ++ d ++ u ++ pp ++ k)) h | None => 0%R end.

  (** EpsTrigMapper, lines 66-95. *)
  Definition eps_args (p : prob) : list string := p_ind p :: syms (p_states p) ++ p_params p ++ p_consts p.
  Definition eps_at (p : prob) (e : expr) (t : R) (y pp k : list R) : R := eval fn (env (eps_args p) (t :: y ++ pp ++ k)) e.
  Definition eps_fwd (p : prob) (lo up : expr) (x t : R) (y pp k : list R) : R :=
    let a := eps_at p lo t y pp k in let b := eps_at p up t y pp k in asin ((x - (b + a) / 2) / (b - a))%R.
  Definition eps_bwd (p : prob) (lo up : expr) (x t : R) (y pp k : list R) : R :=
    let a := eps_at p lo t y pp k in let b := eps_at p up t y pp k in ((b - a) / 2 * sin x + (b + a) / 2)%R.

  (** The mapper of one entry of [sol_map_chain]: [p] is the problem before the
      functor (the copy that Dualize makes, line 311), [q] after it. *)
  Definition build (p q : prob) (t : mtag) : mapper R :=
    match t with
    | TMomentum i => MMomentumShift (Some i)
    | TEpsTrig i lo up => MEpsTrig i (eps_fwd q lo up) (eps_bwd q lo up)
    | TIdentity => MIdentity
    | TDualize _ na => MDualize na (compute_cost p)
    | TAlgebraic => MAlgebraic (length (p_controls q)) (law_options q) (law_ham q)
    | TDifferential idxs => MDifferential idxs
    | TDifferentialG idxs => MDiffyG idxs
    | TSquash (a, b) _ (c, d) => MSquash a b c d
    | TNormalize i => MNormalizeTime (Some i)
    end.

  (** The chain after the functors [fs]. *)
  Variable lu : list (list expr) -> list expr -> res (list expr).
  Variable solve : list expr -> list string -> list (list expr).
  Fixpoint run_chain (fs : list tf) (p : prob) : res (prob * list (mapper R)) :=
    match fs with
    | [] => Ok (p, [])
    | f :: fs' =>
        q <- apply_tf lu solve f p ;
        r <- run_chain fs' q ;
        Ok (fst r, map (build p q) (skipn (length (p_maps p)) (p_maps q)) ++ snd r)
    end.
End Chain.

(** scipy's rule for unequal spacing (scipy/integrate/_quadrature.py, simpson and
    _basic_simpson, since 1.11): parabolas through three nodes at a time, and for an even
    number of nodes the parabola through the last three on the last interval.
    Differing lengths and no values are ValueErrors. *)
Section Simpson.
  Local Open Scope R_scope.
  Fixpoint parabolas (ys ts : list R) : R :=
    match ys, ts with
    | y0 :: ((y1 :: ((y2 :: _) as ys')) ), t0 :: ((t1 :: ((t2 :: _) as ts')) ) =>
        let h0 := t1 - t0 in let h1 := t2 - t1 in
        (h0 + h1) / 6 * (y0 * (2 - h1 / h0) + y1 * ((h0 + h1) * ((h0 + h1) / (h0 * h1))) + y2 * (2 - h0 / h1)) + parabolas ys' ts'
    | _, _ => 0
    end.
  Definition last_interval (ys ts : list R) : R :=
    match rev ys, rev ts with
    | y2 :: y1 :: y0 :: _, t2 :: t1 :: t0 :: _ =>
        let h0 := t1 - t0 in let h1 := t2 - t1 in
        (2 * h1 * h1 + 3 * h0 * h1) / (6 * (h0 + h1)) * y2 + (h1 * h1 + 3 * h1 * h0) / (6 * h0) * y1 - h1 * h1 * h1 / (6 * h0 * (h0 + h1)) * y0
    | _, _ => 0
    end.
  Definition scipy_simpson (ys ts : list R) : res R :=
    if negb (Nat.eqb (length ys) (length ts)) then Raise ValueError
    else match ys, ts with
         | [], _ => Raise ValueError
         | [y0; y1], [t0; t1] => Ok ((t1 - t0) / 2 * (y0 + y1))
         | _, _ => if Nat.odd (length ys) then Ok (parabolas ys ts)
                   else Ok (parabolas (removelast ys) (removelast ts) + last_interval ys ts)
         end.
End Simpson.
