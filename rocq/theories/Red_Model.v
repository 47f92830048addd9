(** Model of the symmetry reduction: the symmetries and constants of motion
    that Sym_Model.v leaves out, [noether] and [pb] of
    beluga/symbolic/differential_geometry/differential_geometry.py, and the
    functor MishchenkoFomenko of beluga/symbolic/data_classes/mapping_functions.py.

    Simplifications: sympy.integrate and sympy.solve are parameters ([integ],
    [solve]); one equation solved for several symbols gives dictionaries with
    one key each.  sympy's automatic evaluation is only partly modelled, by
    [simp], where the code looks at the shape of an expression (a comparison
    with 0, the atoms of a constant of motion, the right-hand sides handed to
    solve) and for the equation of a new quadrature.  The fields of the symmetries and the declared constants of motion
    mention no control, quantity or switch, so the substitutions of EpsTrig,
    RASHS and ApplyQuantities do not touch them.  Units are left out, except
    that the lookup of a unit in [noether] can raise IndexError. *)
From Coq Require Import Ascii.
From Verif Require Import Base Sym_Expr Sym_Model Geo_Model.
Open Scope string_scope.
Open Scope list_scope.
Open Scope nat_scope.

(** Automatic evaluation of sums, products, signs and quotients by sympy, in
    part: integers are folded, neutral elements dropped, a/a is 1. *)
Definition sadd (a b : expr) : expr :=
  match a, b with
  | Cst x, Cst y => Cst (x + y)
  | Cst 0, _ => b
  | _, Cst 0 => a
  | _, _ => Add a b
  end.
Definition smul (a b : expr) : expr :=
  match a, b with
  | Cst x, Cst y => Cst (x * y)
  | Cst 0, _ => Cst 0
  | _, Cst 0 => Cst 0
  | Cst 1, _ => b
  | _, Cst 1 => a
  | _, Inv c => if expr_eqb a c then Cst 1 else Mul a b
  | _, _ => Mul a b
  end.
Definition sopp (a : expr) : expr :=
  match a with Cst x => Cst (- x) | Opp b => b | _ => Opp a end.
Definition sinv (a : expr) : expr :=
  match a with Cst 1 => Cst 1 | Cst (-1) => Cst (-1) | _ => Inv a end.
Fixpoint simp (e : expr) : expr :=
  match e with
  | Cst _ | Pi | Var _ => e
  | Add a b => sadd (simp a) (simp b)
  | Mul a b => smul (simp a) (simp b)
  | Opp a => sopp (simp a)
  | Inv a => sinv (simp a)
  | Sin a => Sin (simp a)
  | Cos a => Cos (simp a)
  | Exp a => Exp (simp a)
  | App f k a => App f k (simp a)
  end.

(** One reduction as recorded for the trajectory mapper MF: the name and
    expression of the constant of motion, the variable it replaces, the
    variable replaced by the new quadrature, and the two inverse expressions. *)
Record red : Type := mkRed {
  rd_com : string; rd_com_expr : expr; rd_p : string; rd_p_expr : expr;
  rd_q : string; rd_q_quad : string; rd_q_fwd : expr; rd_q_expr : expr }.

(** A problem with the fields of symbolic_problem.py lines 51-54 that
    Sym_Model.v leaves out: [symmetries] (the field of each), [constants_of_motion],
    [omega]; and the reductions done so far (each is an MF mapper in sol_map_chain,
    between those of NormalizeTime and SquashToBVP). *)
Record rprob : Type := mkR {
  r_p : prob; r_fields : list (list expr); r_coms : list (string * expr);
  r_omega : option (list (list expr)); r_reds : list red }.

(** is_symplectic(prob.omega), Geo_Model.is_symplectic on a list of rows. *)
Definition entry (m : list (list expr)) (i j : nat) : expr := nth j (nth i m []) (Cst 0).
Definition symplectic (om : option (list (list expr))) : bool :=
  is_symplectic (fun a b => expr_eqb (simp a) (simp b)) Opp (Cst 0)
    (match om with
     | None => NoForm
     | Some m => Form [length m; match m with [] => 0 | row :: _ => length row end] (entry m)
     end).

(** MomentumShift, lines 149-183, the part on symmetries (167-178): a zero is
    appended to every field, and a translation of the new state is added if no
    equation of motion depends on it. *)
Definition zeros (n : nat) : list expr := repeat (Cst 0) n.
Definition autonomous (x : string) (l : list (string * expr)) : bool :=
  forallb (fun s => expr_eqb (simp (diff x (snd s))) (Cst 0)) l.
Definition shift_r (r : rprob) : res rprob :=
  let t := p_ind (r_p r) in
  p <- momentum_shift None (r_p r) ;
  let fs := map (fun f => f ++ [Cst 0]) (r_fields r) in
  let fs := if autonomous t (p_states p)
            then fs ++ [zeros (length (p_states p) - 1) ++ [Cst 1]] else fs in
  Ok (mkR p fs (r_coms r) (r_omega r) (r_reds r)).

Section Reduce.
  Variable lu : list (list expr) -> list expr -> res (list expr).
  Variable ctl : list expr -> list string -> list (list expr).
  Variable integ : expr -> string -> expr.
  Variable solve : expr -> list string -> list (string * expr).

  (** noether for a symmetry, differential_geometry.py lines 174-192.  LUsolve
      raises ShapeError, a ValueError, if the field has the wrong length. *)
  Definition noether_field (om : list (list expr)) (dyn : list string) (field : list expr) : res expr :=
    if symplectic (Some om) then
      if Nat.eqb (length field) (length om) then
        x <- lu om field ;
        Ok (simp (Sum (Cst 0) (map (fun xv => integ (simp (fst xv)) (snd xv)) (combine x dyn))))
      else Raise ValueError
    else Raise ValueError.

  (** pb(None, g), lines 149-165: omega times the gradient. *)
  Definition pb (om : list (list expr)) (dyn : list string) (g : expr) : list expr :=
    map (fun i => simp (Sum (Cst 0)
           (map (fun jv => Mul (entry om i (fst jv)) (diff (snd jv) g))
                (combine (seq 0 (length dyn)) dyn)))) (seq 0 (length dyn)).
  (** noether for a constant of motion, lines 194-202: the unit of the first
      state in which the field has a component is looked up. *)
  Fixpoint first_nonzero (l : list expr) : option nat :=
    match l with
    | [] => None
    | e :: l' => if expr_eqb e (Cst 0) then option_map S (first_nonzero l') else Some 0
    end.
  Definition noether_com (om : list (list expr)) (n_states : nat) (dyn : list string) (g : expr)
      : res (list expr) :=
    if symplectic (Some om) then
      let h := pb om dyn g in
      match first_nonzero h with
      | Some k => if Nat.ltb k n_states then Ok h else Raise IndexError
      | None => Raise IndexError
      end
    else Raise ValueError.

  (** Dualize, mapping_functions.py lines 339-372: the fields get zeros for the
      costates, the Hamiltonian is recorded as a constant of motion, and for
      'diffyg' one constant of motion per symmetry. *)
  Fixpoint noether_all (om : list (list expr)) (dyn : list string) (i : nat) (fs : list (list expr))
      : res (list (string * expr)) :=
    match fs with
    | [] => Ok []
    | f :: fs' =>
        g <- noether_field om dyn f ;
        r <- noether_all om dyn (S i) fs' ;
        Ok (("com_" ++ of_nat i, g)%string :: r)
    end.
  Definition dualize_r (method : string) (r : rprob) : res rprob :=
    p <- dualize lu method (r_p r) ;
    let fs := map (fun f => f ++ zeros (length (p_costates p))) (r_fields r) in
    let cs := r_coms r ++ [("hamiltonian", dual_ham (r_p r))] in
    if String.eqb (lower method) "diffyg" then
      let om := std_form (length (p_states p) + length (p_params p)) in
      new <- noether_all om (syms (p_states p) ++ syms (p_costates p)) 0 fs ;
      Ok (mkR p fs (cs ++ new) (Some om) (r_reds r))
    else Ok (mkR p fs cs (r_omega r) (r_reds r)).

  (** DifferentialControlLaw, lines 426-503: 'diffyg' replaces omega (lines
      473-483); the control rates are the ones of Sym_Model.differential_control. *)
  Definition control_rates (p : prob) (h : expr) : res (list expr) :=
    let dyn := p_states p ++ p_costates p in
    let g := map (fun u => diff u h) (p_controls p) in
    lu (jacobian g (p_controls p))
       (map (fun row => dot (map Opp row) (eoms dyn)) (jacobian g (syms dyn))).
  Definition diff_r (method : string) (r : rprob) : res rprob :=
    p <- differential_control lu method (r_p r) ;
    if String.eqb (lower method) "diffyg" then
      match p_ham (r_p r) with
      | None => Raise AttributeError
      | Some h =>
          udot <- control_rates (r_p r) h ;
          let om := omega_new (length (p_states p)) (length (p_controls (r_p r)))
                              (length (p_states (r_p r)) - 1) udot in
          Ok (mkR p (r_fields r) (r_coms r) (Some om) (r_reds r))
      end
    else Ok (mkR p (r_fields r) (r_coms r) (r_omega r) (r_reds r)).

  (** Position of a name; list.remove of the struct with that name. *)
  Fixpoint index_of (x : string) (l : list string) : option nat :=
    match l with
    | [] => None
    | y :: l' => if String.eqb x y then Some 0 else option_map S (index_of x l')
    end.
  Definition drop_named (x : string) (l : list (string * expr)) : list (string * expr) :=
    filter (fun s => negb (String.eqb x (fst s))) l.
  Definition drop_cross (k : nat) (m : list (list expr)) : list (list expr) :=
    map (remove_at k) (remove_at k m).

  (** The atoms of line 529-535: symbols other than parameters and constants. *)
  Definition com_atoms (p : prob) (e : expr) : list string :=
    filter (fun x => negb (mem x (p_params p ++ p_consts p))) (nodup string_dec (vars e)).

  Definition sub2 (sp sq : string * expr) (e : expr) : expr :=
    fst (recursive_sub (fst (recursive_sub e [sp])) [sq]).
  Definition sub2_dyn (sp sq : string * expr) (s : string * expr) : string * expr :=
    (fst s, sub2 sp sq (snd s)).
  Definition sub2_constr (sp sq : string * expr) (c : constr) : constr :=
    mkConstr (sub2 sp sq (c_expr c)) (c_lower c) (c_upper c) (c_act c) (c_method c).

  (** MishchenkoFomenko(ci), lines 506-658.  The variable solved for is found
      by name among the states and costates; if it is not there,
      [parameter_index] stays 0 and no parameter is added (lines 543-550).
      [symmetry_index] is [parameter_index - len(states)] and may be negative,
      which Python reads from the end.  The new quadrature is called after the
      number of quadratures; its equation is not substituted (line 583), nor
      are the equations of the older quadratures, the Hamiltonian and the cost.
      The entries of [control_law] that AlgebraicControlLaw makes are tuples,
      and tuple.keys raises (line 595). *)
  Definition mf_step (ci : nat) (r : rprob) : res rprob :=
    let p := r_p r in
    match r_omega r with
    | None => Ok r
    | Some om =>
        if negb (symplectic (Some om)) then Ok r else
        match nth_error (r_coms r) ci with
        | None => Raise IndexError
        | Some (cname, ce) =>
            let ns := length (p_states p) in
            let dyn := p_states p ++ p_costates p in
            let names := syms dyn in
            match solve (Sub ce (Var cname)) (com_atoms p ce) with
            | [] => Raise IndexError
            | [sp] =>
                g <- noether_com om ns names ce ;
                let found := index_of (fst sp) names in
                let pi := match found with Some k => k | None => 0 end in
                let params := match found with Some _ => p_params p ++ [cname] | None => p_params p end in
                let si := if Nat.leb ns pi then pi - ns else length names + pi - ns in
                let qname := ("_q_" ++ of_nat (length (p_quads p)))%string in
                let lhs := simp (Sum (Cst 0)
                  (map (fun gx => integ (simp (Mul (Div ce (Var cname)) (fst gx))) (snd gx)) (combine g names))) in
                let lhs := simp (fst (recursive_sub lhs [sp])) in
                match nth_error names pi, nth_error names si with
                | Some pname, Some xname =>
                    match solve (Sub lhs (Var qname)) [xname] with
                    | [] => Raise IndexError
                    | sq :: _ =>
                        let q_eom := simp (Sum (Cst 0) (map (fun sg => Mul (snd (fst sg)) (snd sg)) (combine dyn g))) in
                        match p_law p with
                        | _ :: _ => Raise AttributeError
                        | [] =>
                            let p := set_params p params in
                            let p := set_quads p (p_quads p ++ [(qname, q_eom)]) in
                            let st := map (sub2_dyn sp sq) (p_states p) in
                            let co := map (sub2_dyn sp sq) (p_costates p) in
                            let p := set_states p (drop_named xname (drop_named pname st)) in
                            let p := set_costates p (drop_named xname (drop_named pname co)) in
                            let p := set_ci p (map (sub2_constr sp sq) (p_ci p)) in
                            let p := set_ct p (map (sub2_constr sp sq) (p_ct p)) in
                            let coms := remove_at ci (map (sub2_dyn sp sq) (r_coms r)) in
                            let om := drop_cross (Nat.min pi si) (drop_cross (Nat.max pi si) om) in
                            Ok (mkR p (r_fields r) coms (Some om)
                                  (r_reds r ++ [mkRed cname ce pname (snd sp) xname qname lhs (snd sq)]))
                        end
                    end
                | _, _ => Raise IndexError
                end
            | _ :: _ :: _ => Raise ValueError
            end
        end
    end.

  (** The chain of make_indirect_method, lines 856-938, with reduction: the
      number of reductions is fixed when the chain is built (line 920). *)
  Inductive rtf : Type := RBase (f : tf) | RMF.
  Definition apply_rtf (f : rtf) (r : rprob) : res rprob :=
    match f with
    | RBase FMomentum => shift_r r
    | RBase (FDual m) => dualize_r m r
    | RBase (FDiff m) => diff_r m r
    | RBase f => p <- apply_tf lu ctl f (r_p r) ; Ok (mkR p (r_fields r) (r_coms r) (r_omega r) (r_reds r))
    | RMF => mf_step 1 r
    end.
  Fixpoint run_rtfs (fs : list rtf) (r : rprob) : res rprob :=
    match fs with
    | [] => Ok r
    | f :: fs' => r' <- apply_rtf f r ; run_rtfs fs' r'
    end.
  Definition make_reduced (o : options) (reduction : bool) (r : rprob) : res (list rtf) :=
    let p := r_p r in
    cons <- constraint_tfs (all_constraints p) ;
    ctl <- (if String.eqb (lower (o_control o)) "algebraic" then Ok FAlg
            else if String.eqb (lower (o_control o)) "differential" then Ok (FDiff (o_method o))
            else Raise NotImplementedError) ;
    let n := length (r_fields r) + length (r_coms r) in
    Ok (map RBase ((if o_shift o then [FMomentum] else [])
          ++ cons
          ++ (if Nat.ltb 0 (length (p_switches p)) then [FRashs] else [])
          ++ [FDual (o_method o)] ++ [ctl]
          ++ (if o_norm o then [FNorm] else []))
        ++ (if String.eqb (lower (o_method o)) "diffyg" && reduction then repeat RMF n else [])
        ++ map RBase ([FSquash]
          ++ (if o_jac o && negb (String.eqb (o_control o) "algebraic") then [FJac] else []))).
End Reduce.
