(** Model of beluga/numeric/bvp_solvers/Shooting.py and of the setters of
    BaseAlgorithm.py.  The initial value solver, linear algebra and the scipy
    solvers are parameters.  The Jacobian code that [solve] defines but does not
    use (lines 302-369, 543-648) is not modelled. *)
From Coq Require Import QArith Reals.
From Verif Require Import Base Sym_Model.

(** A trajectory as used here: times, and one row of states, quadratures and
    controls per time. *)
Record arc (F : Type) : Type := mkArc { a_t : list F; a_y : list (list F); a_q : list (list F); a_u : list (list F) }.
Arguments mkArc {F}. Arguments a_t {F}. Arguments a_y {F}. Arguments a_q {F}. Arguments a_u {F}.

(** [l[-1]] *)
Definition last_of {A} (l : list A) : res A := match rev l with a :: _ => Ok a | [] => Raise IndexError end.

Section Pack.
  Context {F : Type}.
  Variable zero : F.

  (** [for v in vals: out[ii] = v; ii += 1] *)
  Fixpoint write (vals : list F) (ii : nat) (out : list F) : res (list F * nat) :=
    match vals with
    | [] => Ok (out, ii)
    | v :: vals' => out' <- set_nth out ii v ; write vals' (S ii) out'
    end.
  Fixpoint write_all (rows : list (list F)) (ii : nat) (out : list F) : res (list F * nat) :=
    match rows with
    | [] => Ok (out, ii)
    | r :: rows' => s <- write r ii out ; write_all rows' (snd s) (fst s)
    end.
  (** _wrap_y0, lines 205-230. *)
  Definition wrap_y0 (gammas : list (arc F)) (params nparams : list F) : res (list F) :=
    g0 <- get gammas 0 ;
    y00 <- get (a_y g0) 0 ;
    q00 <- get (a_q g0) 0 ;
    let out := repeat zero (length gammas * length y00 + length q00 + length params + length nparams)%nat in
    rows <- mapM (fun g => get (a_y g) 0) gammas ;
    s1 <- write_all rows 0 out ;
    s2 <- write q00 (snd s1) (fst s1) ;
    s3 <- write params (snd s2) (fst s2) ;
    s4 <- write nparams (snd s3) (fst s3) ;
    Ok (fst s4).

  (** [l[b:c]] *)
  Definition slice {A} (b c : nat) (l : list A) : list A := firstn (c - b) (skipn b l).
  (** np.reshape(h, (n_arcs, n_odes)): ValueError when the size differs. *)
  Definition reshape (rows cols : nat) (h : list F) : res (list (list F)) :=
    if Nat.eqb (length h) (rows * cols) then Ok (map (fun i => slice (i * cols) (i * cols + cols) h) (seq 0 rows))
    else Raise ValueError.
  (** _unwrap_y0, lines 232-238. *)
  Definition unwrap_y0 (xx : list F) (n_odes n_quads n_dyn n_arcs : nat)
    : res (list (list F) * list F * list F * list F) :=
    y0 <- reshape n_arcs n_odes (firstn (n_odes * n_arcs) xx) ;
    let b := (n_odes * n_arcs)%nat in
    Ok (y0, slice b (b + n_quads) xx, slice (b + n_quads) (b + n_quads + n_dyn) xx, skipn (b + n_dyn + n_quads) xx).

  (** Number of quadratures that [solve] unpacks with, lines 459-471: none when
      there is no quadrature function or every entry is NaN. *)
  Definition n_quads_used (has_quad_function : bool) (isnan : F -> bool) (q : list (list F)) : res nat :=
    if negb has_quad_function || forallb (forallb isnan) q then Ok O
    else (q0 <- get q 0 ; Ok (length q0)).
End Pack.

Section Residual.
  Context {F : Type}.
  Variable sub : F -> F -> F.
  (** Difference of two rows (broadcasting of rows of length one is not
      modelled: other lengths are an error). *)
  Definition row_sub (a b : list F) : res (list F) :=
    if Nat.eqb (length a) (length b) then Ok (map (fun p => sub (fst p) (snd p)) (combine a b)) else Raise ValueError.
  Fixpoint defects (gammas : list (arc F)) : res (list (list F)) :=
    match gammas with
    | g :: ((h :: _) as rest) =>
        yf <- last_of (a_y g) ; y0 <- get (a_y h) 0 ; d <- row_sub yf y0 ; ds <- defects rest ; Ok (d :: ds)
    | _ => Ok []
    end.
  (** _bc_func_multiple_shooting, lines 371-387.  The trajectory evaluated at its
      first and last time is its first and last row (see C64). *)
  Definition residual_ms (bc : list F -> list F -> list F -> list F -> res (list F)) (gammas : list (arc F)) : res (list F) :=
    g0 <- get gammas 0 ;
    gl <- last_of gammas ;
    y0 <- get (a_y g0) 0 ; yf <- last_of (a_y gl) ;
    let q0 := match a_q g0 with r :: _ => r | [] => [] end in
    let qf := match rev (a_q gl) with r :: _ => r | [] => [] end in
    bc1 <- defects gammas ;
    bc2 <- bc y0 q0 yf qf ;
    Ok (concat bc1 ++ bc2).

  (** _make_gammas, lines 264-267: quadratures shifted arc by arc. *)
  Variable add : F -> F -> F.
  Definition row_add (a b : list F) : res (list F) :=
    if Nat.eqb (length a) (length b) then Ok (map (fun p => add (fst p) (snd p)) (combine a b)) else Raise ValueError.
  Fixpoint join_from (prev_end : list F) (qs : list (list (list F))) : res (list (list (list F))) :=
    match qs with
    | [] => Ok []
    | q :: qs' =>
        first <- get q 0 ;
        d <- row_sub prev_end first ;
        q' <- mapM (fun r => row_add r d) q ;
        lst <- last_of q' ;
        rest <- join_from lst qs' ;
        Ok (q' :: rest)
    end.
  Definition join_quads (n_quads : nat) (qs : list (list (list F))) : res (list (list (list F))) :=
    if Nat.ltb 1 (length qs) && Nat.ltb 0 n_quads then
      match qs with
      | [] => Ok []
      | q :: qs' => lst <- last_of q ; rest <- join_from lst qs' ; Ok (q :: rest)
      end
    else Ok qs.
End Residual.

(** ** Propagation, serial and through a pool (lines 240-300) *)
Section Propagate.
  Context {V A : Type}.     (* values, propagated arcs *)
  (** A Python function of fixed arity. *)
  Record pyfun : Type := mkPy { arity : nat; body : list V -> V }.
  Definition call (f : pyfun) (args : list V) : res V :=
    if Nat.eqb (length args) (arity f) then Ok (body f args) else Raise TypeError.
  (** Propagator.__call__: the integrator calls the right-hand side
      [eom_func(_y, *args)] at the initial point first; what it does then is
      arbitrary. *)
  Variable integrate : (V -> res V) -> V -> V -> V -> V -> res A.
  Definition propagate (eom : pyfun) (t y0 q0 : V) (args : list V) : res A :=
    let rhs := fun y => call eom (y :: args) in
    d0 <- rhs y0 ; integrate rhs t y0 q0 d0.
  Definition arcs_serial (eom : pyfun) (dyn const : V) (starts : list (V * V * V * V)) : res (list A) :=
    mapM (fun s => let '(t, y, q, u) := s in propagate eom t y q [dyn; const]) starts.
  (** The parallel version hands the controls on as one more argument, line 287. *)
  Definition arcs_parallel (eom : pyfun) (dyn const : V) (starts : list (V * V * V * V)) : res (list A) :=
    mapM (fun s => let '(t, y, q, u) := s in propagate eom t y q [u; dyn; const]) starts.
End Propagate.

(** ** Arcs and stitching (lines 483-495 and 776-791) *)
Section Arcs.
  Context {F : Type} (O : NumOps F).
  Definition build_arcs (at_ : F -> res (list F * list F * list F)) (t0 tf : F) (num_arcs : Z) : res (list (arc F)) :=
    tn <- linspace O t0 tf (num_arcs + 1) ;
    mapM (fun i =>
      ta <- get tn i ; tb <- get tn (S i) ;
      va <- at_ ta ; vb <- at_ tb ;
      let '(ya, qa, ua) := va in let '(yb, qb, ub) := vb in
      Ok (mkArc [ta; tb] [ya; yb] [qa; qb] [ua; ub])) (seq 0 (Z.to_nat num_arcs)).
  Definition stitch (gammas : list (arc F)) : res (arc F) :=
    g0 <- get gammas 0 ;
    Ok (fold_left (fun s g => mkArc (a_t s ++ tl (a_t g)) (a_y s ++ tl (a_y g)) (a_q s ++ tl (a_q g)) (a_u s ++ tl (a_u g)))
                  (tl gammas) g0).
End Arcs.

(** ** The Armijo loop (lines 703-746) *)
Section Armijo.
  Context {V F J : Type}.
  Variables (residual : V -> res (list F)) (jac : V -> res J).
  (** [np.linalg.solve(jac, -residual)], [None] for LinAlgError; then lstsq. *)
  Variables (lin_solve : J -> list F -> option V) (lstsq : J -> list F -> res V).
  Variables (vadd : V -> V -> V) (vscale : Q -> V -> V).
  Variables (norm : list F -> F) (isnan : F -> bool) (le lt : F -> F -> bool).
  (** [(1-a*ll)*err] for the factor [ll], and the constants inf and -1. *)
  Variables (bound : Q -> F -> F) (inf mone : F).
  Variables (tolerance max_error : F) (max_iterations : Z).

  (** The trial loop, lines 729-733; [None] = out of fuel. *)
  Fixpoint trials (fuel : nat) (x dy : V) (err : F) (ll : Q) (r_try : F) (step : option V) (evals : nat)
    : option (res (F * option V * nat)) :=
    if le (bound ll err) r_try && lt tolerance r_try && negb (Qle_bool ll (1 # 20)) then
      match fuel with
      | O => None
      | S fuel' =>
          let step := vscale ll dy in
          match residual (vadd x step) with
          | Raise e => Some (Raise e)
          | Ok r => trials fuel' x dy err (Qred (ll * (1 # 2))) (norm r) (Some step) (S evals)
          end
      end
    else Some (Ok (r_try, step, evals)).

  Record astate : Type := mkA { as_x : V; as_err : F; as_iter : Z; as_conv : bool; as_evals : nat }.

  (** One pass of the loop body. *)
  Definition pass (s : astate) : option (res astate) :=
    match residual (as_x s) with
    | Raise e => Some (Raise e)
    | Ok r =>
        if existsb isnan r then Some (Raise RuntimeError)
        else
          let err := norm r in
          match jac (as_x s) with
          | Raise e => Some (Raise e)
          | Ok j =>
              match (match lin_solve j r with Some d => Ok d | None => lstsq j r end) with
              | Raise e => Some (Raise e)
              | Ok dy =>
                  match trials 6 (as_x s) dy err 1 inf None (S (as_evals s)) with
                  | None => None
                  | Some (Raise e) => Some (Raise e)
                  | Some (Ok (_, None, _)) => Some (Raise TypeError)     (* x_init += None *)
                  | Some (Ok (r_try, Some step, ev)) =>
                      Some (Ok (mkA (vadd (as_x s) step) r_try (as_iter s + 1) (as_conv s || le r_try tolerance) ev))
                  end
              end
          end
    end.
  Fixpoint armijo (fuel : nat) (s : astate) : option (res astate) :=
    if negb (as_conv s) && Z.leb (as_iter s) max_iterations && lt (as_err s) max_error then
      match fuel with
      | O => None
      | S fuel' =>
          match pass s with
          | None => None
          | Some (Raise e) => Some (Raise e)
          | Some (Ok s') => armijo fuel' s'
          end
      end
    else Some (Ok s).
  Definition armijo_start (x : V) : astate := mkA x mone 0 false 0.
End Armijo.

(** ** Choice of the algorithm and convergence flag (lines 675-749), over R *)
Section Dispatch.
  Open Scope string_scope.
  Definition minimize_algorithms : list string :=
    ["Nelder-Mead"; "Powell"; "CG"; "BFGS"; "Newton-CG"; "L-BFGS-B"; "TNC"; "COBYLA"; "SLSQP"; "trust-constr"; "dogleg";
     "trust-ncg"; "trust-exact"; "trust-krylov"].
  Definition root_algorithms : list string :=
    ["hybr"; "lm"; "broyden1"; "broyden2"; "anderson"; "linearmixing"; "diagbroyden"; "excitingmixing"; "krylov"; "df-sane"].
  Definition constrained_algorithms : list string := ["COBYLA"; "SLSQP"; "trust-constr"].
  Inductive algorithm : Type := AMinimize (constrained : bool) | ARoot | AFsolve | AArmijo.
  Definition is_in (s : string) (l : list string) : bool := existsb (String.eqb s) l.
  Definition choose (name : string) : res algorithm :=
    if is_in name minimize_algorithms then Ok (AMinimize (is_in name constrained_algorithms))
    else if is_in name root_algorithms then Ok ARoot
    else if String.eqb (lower name) "fsolve" then Ok AFsolve
    else if String.eqb (lower name) "armijo" then Ok AArmijo
    else Raise NotImplementedError.
End Dispatch.

Section Flag.
  Open Scope R_scope.
  Definition Rleb (a b : R) : bool := if Rle_dec a b then true else false.
  Definition Rltb (a b : R) : bool := if Rlt_dec a b then true else false.
  Definition norm2 (r : list R) : R := sqrt (fold_right (fun x s => x * x + s) 0 r).
  (** math.isclose(err, 0, abs_tol=tol) with rel_tol = 1e-9. *)
  Definition isclose0 (err tol : R) : bool := Rleb (Rabs err) (Rmax (/ 1000000000 * Rabs err) tol).

  (** What the external solver returned: unknowns, objective value, success. *)
  Record opt : Type := mkOpt { o_x : list R; o_fun : R; o_nit : Z; o_success : bool }.
  (** [err] is a number, or for scipy.optimize.root the residual vector. *)
  Inductive err_value : Type := Scalar (e : R) | Vector (v : list R).
  Record outcome : Type := mkOut { u_x : list R; u_err : err_value; u_iter : Z; u_conv : bool }.

  Variable residual : list R -> list R.
  (** The objective that [minimize] gets, lines 670-678. *)
  Definition objective (constrained : bool) (x : list R) : R := if constrained then 0 else (norm2 (residual x)) ^ 2.
  Definition run_minimize (tol : R) (o : opt) : outcome :=
    mkOut (o_x o) (Scalar (o_fun o)) (o_nit o) (o_success o && isclose0 (o_fun o) tol).
  Definition run_root (o : opt) : outcome := mkOut (o_x o) (Vector (residual (o_x o))) (-1) (o_success o).
  (** The error is computed at the guess, line 698. *)
  Definition run_fsolve (tol : R) (guess x : list R) : outcome :=
    let err := (norm2 (residual guess)) ^ 2 in
    mkOut x (Scalar err) (-1) (isclose0 err tol).

  (** The message, lines 764-774.  The truth value of an array comparison exists
      only for one element. *)
  Inductive message : Type := ConvergedUnknown | ConvergedIn (n : Z) | MaxIterations | ErrorExceeded | Unspecified.
  Definition scalar_of (e : err_value) : res R :=
    match e with Scalar x => Ok x | Vector [x] => Ok x | Vector _ => Raise ValueError end.
  Definition message_of (tol max_error : R) (max_iterations : Z) (err : err_value) (n_iter : Z) (conv : bool) : res message :=
    e <- scalar_of err ;
    Ok (if Rltb e tol && conv then (if Z.eqb n_iter (-1) then ConvergedUnknown else ConvergedIn n_iter)
        else if Z.ltb max_iterations n_iter then MaxIterations
        else if Rltb max_error e then ErrorExceeded
        else Unspecified).
  (** End of [solve]: unknowns, flag and message. *)
  Definition finish (tol max_error : R) (max_iterations : Z) (u : outcome) : res (list R * bool * message) :=
    m <- message_of tol max_error max_iterations (u_err u) (u_iter u) (u_conv u) ;
    Ok (u_x u, u_conv u, m).
End Flag.

(** ** Cached functions (BaseAlgorithm.py lines 14-66, Shooting.py lines 187-203
    and 475-481, SPBVP.py lines 33-40).  Functions are represented by
    identifiers of type [T]. *)
Section Cache.
  Context {T : Type}.
  Record algo : Type := mkAlgo {
    al_deriv : option T; al_quad : option T; al_bc : option T;
    al_stm : option T;      (* derivative function that the cached STM function wraps *)
    al_bcms : option T      (* boundary function that the cached residual wraps *)
  }.
  Inductive op : Type := SetBc (f : T) | SetDeriv (f : T) | SetQuad (f : T) | SolveShooting | SolveSPBVP (guess_has_quads : bool).
  (** What a solve uses: derivative, quadrature, boundary functions, and those
      inside the cached wrappers. *)
  Record used : Type := mkUsed { us_deriv : option T; us_quad : option T; us_bc : option T; us_stm : option T; us_bcms : option T }.
  Definition new_algo (d q b : option T) : algo := mkAlgo d q b None b.
  Variable nil_function : T.       (* return_nil *)
  Definition do_op (o : op) (a : algo) : algo * option used :=
    match o with
    | SetBc f => (mkAlgo (al_deriv a) (al_quad a) (Some f) (al_stm a) None, None)
    | SetDeriv f => (mkAlgo (Some f) (al_quad a) (al_bc a) None (al_bcms a), None)
    | SetQuad f => (mkAlgo (al_deriv a) (Some f) (al_bc a) (al_stm a) (al_bcms a), None)
    | SolveShooting =>
        let stm := match al_stm a with None => al_deriv a | s => s end in
        let bcms := match al_bcms a with None => al_bc a | b => b end in
        (mkAlgo (al_deriv a) (al_quad a) (al_bc a) stm bcms,
         Some (mkUsed (al_deriv a) (al_quad a) (al_bc a) stm bcms))
    | SolveSPBVP hasq =>
        let quad := if hasq then al_quad a else Some nil_function in
        (mkAlgo (al_deriv a) quad (al_bc a) (al_stm a) (al_bcms a),
         Some (mkUsed (al_deriv a) quad (al_bc a) (al_deriv a) (al_bc a)))
    end.
  Fixpoint ops (l : list op) (a : algo) : algo :=
    match l with [] => a | o :: l' => ops l' (fst (do_op o a)) end.
End Cache.
