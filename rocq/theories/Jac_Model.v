(** Analytical Jacobians: ComputeAnalyticalJacobians
    (symbolic/data_classes/mapping_functions.py lines 732-758), their
    compilation (numeric/data_classes/NumericProblem.py lines 117-333) and their
    use by the collocation solver (numeric/bvp_solvers/SPBVP.py lines 44-102).

    Values are real numbers; numba is transparent.  The control law is any
    function [cu] ([None]: no control law, [compute_u is None]); how it is
    compiled is in [Map_Model.pick_control].  Derivatives are not simplified:
    sympy may drop a symbol that [diff] keeps multiplied by zero, so [KeyError]
    is claimed only where the derivative depends on the symbol. *)
From Coq Require Import Reals.
From Verif Require Import Base Sym_Expr Sym_Model.

(** [sympy.Matrix.jacobian]: an empty list gives a 0x0 matrix, which is neither
    a row nor a column: TypeError. *)
Definition sym_jacobian (g : list expr) (xs : list string) : res (list (list expr)) :=
  match g, xs with
  | [], _ | _, [] => Raise TypeError
  | _, _ => Ok (jacobian g xs)
  end.

Record jacs : Type := mkJacs {
  j_fy : list (list expr); j_fp : option (list (list expr));
  j_iy : list (list expr); j_ip : option (list (list expr)); j_iq : option (list (list expr));
  j_ty : list (list expr); j_tp : option (list (list expr)); j_tq : option (list (list expr)) }.

(** mapping_functions.py lines 735-758. *)
Definition bc_exprs (cs : list constr) : list expr := map c_expr cs.
Definition compute_jacobians (p : prob) : res jacs :=
  let states := syms (p_states p) in
  let params := p_params p ++ p_cpars p in
  let quads := syms (p_quads p) in
  let phi0 := bc_exprs (p_ci p) in
  let phif := bc_exprs (p_ct p) in
  fy <- sym_jacobian (eoms (p_states p)) states ;
  iy <- sym_jacobian phi0 states ;
  ty <- sym_jacobian phif states ;
  dp <- (if Nat.ltb 0 (length params) then
           fp <- sym_jacobian (eoms (p_states p)) (p_params p) ;
           ip <- sym_jacobian phi0 params ;
           tp <- sym_jacobian phif params ;
           Ok (Some fp, Some ip, Some tp)
         else Ok (None, None, None)) ;
  dq <- (if Nat.ltb 0 (length quads) then
           iq <- sym_jacobian phi0 quads ;
           tq <- sym_jacobian phif quads ;
           Ok (Some iq, Some tq)
         else Ok (None, None)) ;
  let '(fp, ip, tp) := dp in
  let '(iq, tq) := dq in
  Ok (mkJacs fy fp iy ip iq ty tp tq).

Section Compile.
  Variable fn : string -> nat -> R -> R.

  (** A lambdified function of groups of symbols: every group is unpacked (a
      wrong length is a ValueError), and a symbol that is no argument is a
      NameError, here KeyError. *)
  Definition env (names : list string) (vals : list R) (x : string) : R :=
    match index_of x names with Ok i => nth i vals 0%R | Raise _ => 0%R end.
  Definition fits (groups : list (list string)) (vals : list (list R)) : bool :=
    Nat.eqb (length groups) (length vals) &&
    forallb (fun gv => Nat.eqb (length (fst gv)) (length (snd gv))) (combine groups vals).
  Definition call (groups : list (list string)) (es : list expr) (vals : list (list R)) : res (list R) :=
    if fits groups vals then
      if forallb (fun e => forallb (fun x => mem x (concat groups)) (vars e)) es
      then Ok (map (eval fn (env (concat groups) (concat vals))) es)
      else Raise KeyError
    else Raise ValueError.
  Definition call_rows (groups : list (list string)) (rows : list (list expr)) (vals : list (list R)) : res (list (list R)) :=
    mapM (fun r => call groups r vals) rows.

  Definition vstack (a b : list (list R)) : res (list (list R)) :=
    match a ++ b with
    | [] => Ok []
    | r :: _ => if forallb (fun r' => Nat.eqb (length r') (length r)) (a ++ b) then Ok (a ++ b) else Raise ValueError
    end.
  Definition zeros (m n : nat) : list (list R) := repeat (repeat 0%R n) m.
  Definition shape (m : list (list expr)) : nat * nat := (length m, length (hd [] m)).

  Variable p : prob.
  (** compute_u: states, parameters, constants to controls. *)
  Variable cu : option (list R -> list R -> list R -> list R).
  Definition states : list string := syms (p_states p).
  Definition quads : list string := syms (p_quads p).
  (** compile_problem, lines 93-94. *)
  Definition with_quads : bool := Nat.ltb 0 (length quads).

  (** Argument groups, lines 69-84; the control group only in [w_controls]. *)
  Definition bc_groups (controls : bool) : list (list string) :=
    [states] ++ (if with_quads then [quads] else []) ++ (if controls then [p_controls p] else [])
    ++ [p_params p; p_cpars p; p_consts p].
  Definition bc_vals (y q : list R) (u : option (list R)) (pp pc k : list R) : list (list R) :=
    [y] ++ (if with_quads then [q] else []) ++ (match u with Some u => [u] | None => [] end) ++ [pp; pc; k].

  (** compile_bc, lines 156-230.  Without quadratures [q0], [qf] are no
      arguments (here they are ignored). *)
  Definition bc_func (y0 q0 yf qf pp pc k : list R) : res (list R) :=
    let u0 := match cu with Some f => Some (f y0 pp k) | None => None end in
    let uf := match cu with Some f => Some (f yf pp k) | None => None end in
    let c := match cu with Some _ => true | None => false end in
    b0 <- call (bc_groups c) (bc_exprs (p_ci p)) (bc_vals y0 q0 u0 pp pc k) ;
    bf <- call (bc_groups c) (bc_exprs (p_ct p)) (bc_vals yf qf uf pp pc k) ;
    Ok (b0 ++ bf).

  (** compile_bc_jac_func, lines 272-333: compile-time failures first, then the
      function.  The result is dy0, dyf, dp and, with quadratures, dq0, dqf. *)
  Record bc_blocks : Type := mkBlocks {
    b_y0 : list (list R); b_yf : list (list R); b_p : list (list R); b_q : option (list (list R) * list (list R)) }.
  Definition bc_jac (j : jacs) (y0 q0 yf qf pp pc k : list R) : res bc_blocks :=
    let g := bc_groups false in
    let v0 := bc_vals y0 q0 None pp pc k in
    let vf := bc_vals yf qf None pp pc k in
    let '(num_0, num_states) := shape (j_iy j) in
    match j_ip j, j_tp j with
    | Some ip, Some tp =>
        let '(num_f, _) := shape tp in
        a <- call_rows g (j_iy j) v0 ; dy0 <- vstack a (zeros num_f num_states) ;
        b <- call_rows g (j_ty j) vf ; dyf <- vstack (zeros num_0 num_states) b ;
        c <- call_rows g ip v0 ; d <- call_rows g tp vf ; dp <- vstack c d ;
        if with_quads then
          match j_iq j, j_tq j with
          | Some iq, Some tq =>
              let '(_, num_quads) := shape iq in
              e <- call_rows g iq v0 ; dq0 <- vstack e (zeros num_f num_quads) ;
              f <- call_rows g tq vf ; dqf <- vstack (zeros num_0 num_quads) f ;
              Ok (mkBlocks dy0 dyf dp (Some (dq0, dqf)))
          | _, _ => Raise AttributeError
          end
        else Ok (mkBlocks dy0 dyf dp None)
    | _, _ => Raise AttributeError                       (* None.shape *)
    end.

  (** compile_deriv_func, lines 117-154: [u] is the control argument of the
      version compiled with [use_control_arg] and without a control law. *)
  Definition dyn_groups (controls : bool) : list (list string) :=
    [states] ++ (if controls then [p_controls p] else []) ++ [p_params p; p_consts p].
  Definition dyn_vals (y : list R) (u : option (list R)) (pp k : list R) : list (list R) :=
    [y] ++ (match u with Some u => [u] | None => [] end) ++ [pp; k].
  Definition control_of (y : list R) (u : option (list R)) (pp k : list R) : option (list R) :=
    match cu with Some f => Some (f y pp k) | None => u end.
  Definition is_some {A} (o : option A) : bool := match o with Some _ => true | None => false end.
  Definition deriv_func (y : list R) (u : option (list R)) (pp k : list R) : res (list R) :=
    let u' := control_of y u pp k in
    call (dyn_groups (is_some u')) (eoms (p_states p)) (dyn_vals y u' pp k).
  Definition quad_func (y : list R) (u : option (list R)) (pp k : list R) : res (list R) :=
    let u' := control_of y u pp k in
    call (dyn_groups (is_some u')) (eoms (p_quads p)) (dyn_vals y u' pp k).
  (** compile_deriv_jac_func, lines 232-270, as compile_problem calls it
      (line 107): never with [use_control_arg].  [np.array(None)] cannot be
      turned into a tuple: TypeError. *)
  Definition deriv_jac (j : jacs) (y pp k : list R) : res (list (list R) * list (list R)) :=
    match j_fp j with
    | None => Raise TypeError
    | Some fp =>
        let u' := control_of y None pp k in
        a <- call_rows (dyn_groups (is_some u')) (j_fy j) (dyn_vals y u' pp k) ;
        b <- call_rows (dyn_groups (is_some u')) fp (dyn_vals y u' pp k) ;
        Ok (a, b)
    end.

  (** SPBVP.py: the functions handed to scipy.integrate.solve_bvp, for one
      column of the state array. *)
  Definition sp_fun (ndyn : nat) (k y params : list R) : res (list R) :=
    let n := length states in
    a <- deriv_func (firstn n y) None (firstn ndyn params) k ;
    if with_quads then (b <- quad_func (firstn n y) None (firstn ndyn params) k ; Ok (a ++ b)) else Ok a.
  Definition sp_bc (ndyn nnon : nat) (k ya yb params : list R) : res (list R) :=
    let n := length states in
    let pp := firstn ndyn params in
    let pc := firstn nnon (skipn ndyn params) in
    if with_quads then bc_func (firstn n ya) (firstn (length quads) (skipn n ya)) (firstn n yb) (firstn (length quads) (skipn n yb)) pp pc k
    else bc_func ya [] yb [] pp pc k.
  (** Lines 66-83: an array of zeros for the whole column is filled with the
      compiled block, which must have its shape or be 1 wide or 1 high (only
      equal shapes are accepted here); the parameter block is widened by
      zeros. *)
  Definition sp_fun_jac (ndyn nnon : nat) (j : jacs) (k y params : list R) : res (list (list R) * list (list R)) :=
    r <- deriv_jac j y (firstn ndyn params) k ;
    let '(dy, dp) := r in
    if Nat.eqb (length dy) (length y) then
      if Nat.eqb (length dp) (length states) then Ok (dy, map (fun row => row ++ repeat 0%R nnon) dp) else Raise ValueError
    else Raise ValueError.
  (** Lines 87-99: three values are unpacked. *)
  Definition sp_bc_jac (ndyn nnon : nat) (j : jacs) (k ya yb params : list R) : res (list (list R) * list (list R) * list (list R)) :=
    let n := length states in
    let pp := firstn ndyn params in
    let pc := firstn nnon (skipn ndyn params) in
    r <- (if with_quads then bc_jac j (firstn n ya) (firstn (length quads) (skipn n ya)) (firstn n yb) (firstn (length quads) (skipn n yb)) pp pc k
          else bc_jac j ya [] yb [] pp pc k) ;
    match b_q r with
    | Some _ => Raise ValueError
    | None => Ok (b_y0 r, b_yf r, b_p r)
    end.
End Compile.
