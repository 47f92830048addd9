(** Model of the symbolic problem and of the transformations of
    beluga/symbolic/data_classes/mapping_functions.py.

    Simplifications: units are in Unit_Model.v, symmetries, constants of motion and
    the MishchenkoFomenko reduction in Red_Model.v (the reduction's trajectory side
    in Map_Model.v); strings have already been parsed by sympify; every
    constraint has a string [method]; calls that sympy answers are parameters:
    [lu] (Matrix.LUsolve) and [solve] (sympy.solve).  A raised exception carries
    no problem: the callers (beluga.solve) abandon it. *)
From Coq Require Import Ascii DecimalString.
From Verif Require Import Base Sym_Expr.

(** str.lower() for ASCII. *)
Definition lower_ascii (c : ascii) : ascii :=
  let n := nat_of_ascii c in
  if Nat.leb 65 n && Nat.leb n 90 then ascii_of_nat (n + 32) else c.
Fixpoint lower (s : string) : string :=
  match s with EmptyString => EmptyString | String c s' => String (lower_ascii c) (lower s') end.

(** '{}'.format(n). *)
Definition of_nat (n : nat) : string := NilEmpty.string_of_uint (Nat.to_uint n).

(** ConstraintStruct, components_structures.py lines 307-331.  Boundary
    conditions appended later (DimensionalExpressionStruct) have no bounds. *)
Record constr : Type := mkConstr {
  c_expr : expr; c_lower : option expr; c_upper : option expr; c_act : option expr;
  c_method : string }.
Definition plain (e : expr) : constr := mkConstr e None None None EmptyString.

(** NamedExpressionStruct, lines 120-128, with the cached [free_symbols]. *)
Record quant : Type := mkQuant { q_name : string; q_expr : expr; q_free : list string }.

(** SwitchStruct, lines 260-288. *)
Record switch : Type := mkSwitch {
  sw_name : string; sw_funs : list expr; sw_conds : list (list expr); sw_tol : expr;
  sw_sym : option expr }.

(** Entries of [sol_map_chain] (numerical side: Map_Model.v). *)
Inductive mtag : Type :=
| TMomentum (idx : nat)
| TEpsTrig (control : nat) (lo up : expr)
| TIdentity
| TDualize (n_costates n_adjoints : nat)
| TAlgebraic
| TDifferential (idxs : list nat)
| TDifferentialG (idxs : list nat)
| TSquash (costates coparams adjoints : nat * nat)
| TNormalize (idx : nat).

(** Problem, symbolic_problem.py lines 12-72. *)
Record prob : Type := mkProb {
  p_ind : string;
  p_states : list (string * expr);
  p_costates : list (string * expr);
  p_params : list string;
  p_coparams : list (string * expr);
  p_controls : list string;
  p_law : list (list expr);
  p_ci : list constr;
  p_cp : list constr;
  p_ct : list constr;
  p_cpars : list string;
  p_cadj : list string;
  p_cost_i : expr;
  p_cost_p : expr;
  p_cost_t : expr;
  p_consts : list string;
  p_quants : list quant;
  p_switches : list switch;
  p_quads : list (string * expr);
  p_ham : option expr;
  p_maps : list mtag;
  p_symp : bool;
  p_dual : bool }.
Definition set_ind (p : prob) (v : string) : prob :=
  mkProb v (p_states p) (p_costates p) (p_params p) (p_coparams p) (p_controls p) (p_law p) (p_ci p) (p_cp p) (p_ct p) (p_cpars p) (p_cadj p) (p_cost_i p) (p_cost_p p) (p_cost_t p) (p_consts p) (p_quants p) (p_switches p) (p_quads p) (p_ham p) (p_maps p) (p_symp p) (p_dual p).
Definition set_states (p : prob) (v : list (string * expr)) : prob :=
  mkProb (p_ind p) v (p_costates p) (p_params p) (p_coparams p) (p_controls p) (p_law p) (p_ci p) (p_cp p) (p_ct p) (p_cpars p) (p_cadj p) (p_cost_i p) (p_cost_p p) (p_cost_t p) (p_consts p) (p_quants p) (p_switches p) (p_quads p) (p_ham p) (p_maps p) (p_symp p) (p_dual p).
Definition set_costates (p : prob) (v : list (string * expr)) : prob :=
  mkProb (p_ind p) (p_states p) v (p_params p) (p_coparams p) (p_controls p) (p_law p) (p_ci p) (p_cp p) (p_ct p) (p_cpars p) (p_cadj p) (p_cost_i p) (p_cost_p p) (p_cost_t p) (p_consts p) (p_quants p) (p_switches p) (p_quads p) (p_ham p) (p_maps p) (p_symp p) (p_dual p).
Definition set_params (p : prob) (v : list string) : prob :=
  mkProb (p_ind p) (p_states p) (p_costates p) v (p_coparams p) (p_controls p) (p_law p) (p_ci p) (p_cp p) (p_ct p) (p_cpars p) (p_cadj p) (p_cost_i p) (p_cost_p p) (p_cost_t p) (p_consts p) (p_quants p) (p_switches p) (p_quads p) (p_ham p) (p_maps p) (p_symp p) (p_dual p).
Definition set_coparams (p : prob) (v : list (string * expr)) : prob :=
  mkProb (p_ind p) (p_states p) (p_costates p) (p_params p) v (p_controls p) (p_law p) (p_ci p) (p_cp p) (p_ct p) (p_cpars p) (p_cadj p) (p_cost_i p) (p_cost_p p) (p_cost_t p) (p_consts p) (p_quants p) (p_switches p) (p_quads p) (p_ham p) (p_maps p) (p_symp p) (p_dual p).
Definition set_controls (p : prob) (v : list string) : prob :=
  mkProb (p_ind p) (p_states p) (p_costates p) (p_params p) (p_coparams p) v (p_law p) (p_ci p) (p_cp p) (p_ct p) (p_cpars p) (p_cadj p) (p_cost_i p) (p_cost_p p) (p_cost_t p) (p_consts p) (p_quants p) (p_switches p) (p_quads p) (p_ham p) (p_maps p) (p_symp p) (p_dual p).
Definition set_law (p : prob) (v : list (list expr)) : prob :=
  mkProb (p_ind p) (p_states p) (p_costates p) (p_params p) (p_coparams p) (p_controls p) v (p_ci p) (p_cp p) (p_ct p) (p_cpars p) (p_cadj p) (p_cost_i p) (p_cost_p p) (p_cost_t p) (p_consts p) (p_quants p) (p_switches p) (p_quads p) (p_ham p) (p_maps p) (p_symp p) (p_dual p).
Definition set_ci (p : prob) (v : list constr) : prob :=
  mkProb (p_ind p) (p_states p) (p_costates p) (p_params p) (p_coparams p) (p_controls p) (p_law p) v (p_cp p) (p_ct p) (p_cpars p) (p_cadj p) (p_cost_i p) (p_cost_p p) (p_cost_t p) (p_consts p) (p_quants p) (p_switches p) (p_quads p) (p_ham p) (p_maps p) (p_symp p) (p_dual p).
Definition set_cp (p : prob) (v : list constr) : prob :=
  mkProb (p_ind p) (p_states p) (p_costates p) (p_params p) (p_coparams p) (p_controls p) (p_law p) (p_ci p) v (p_ct p) (p_cpars p) (p_cadj p) (p_cost_i p) (p_cost_p p) (p_cost_t p) (p_consts p) (p_quants p) (p_switches p) (p_quads p) (p_ham p) (p_maps p) (p_symp p) (p_dual p).
Definition set_ct (p : prob) (v : list constr) : prob :=
  mkProb (p_ind p) (p_states p) (p_costates p) (p_params p) (p_coparams p) (p_controls p) (p_law p) (p_ci p) (p_cp p) v (p_cpars p) (p_cadj p) (p_cost_i p) (p_cost_p p) (p_cost_t p) (p_consts p) (p_quants p) (p_switches p) (p_quads p) (p_ham p) (p_maps p) (p_symp p) (p_dual p).
Definition set_cpars (p : prob) (v : list string) : prob :=
  mkProb (p_ind p) (p_states p) (p_costates p) (p_params p) (p_coparams p) (p_controls p) (p_law p) (p_ci p) (p_cp p) (p_ct p) v (p_cadj p) (p_cost_i p) (p_cost_p p) (p_cost_t p) (p_consts p) (p_quants p) (p_switches p) (p_quads p) (p_ham p) (p_maps p) (p_symp p) (p_dual p).
Definition set_cadj (p : prob) (v : list string) : prob :=
  mkProb (p_ind p) (p_states p) (p_costates p) (p_params p) (p_coparams p) (p_controls p) (p_law p) (p_ci p) (p_cp p) (p_ct p) (p_cpars p) v (p_cost_i p) (p_cost_p p) (p_cost_t p) (p_consts p) (p_quants p) (p_switches p) (p_quads p) (p_ham p) (p_maps p) (p_symp p) (p_dual p).
Definition set_cost_i (p : prob) (v : expr) : prob :=
  mkProb (p_ind p) (p_states p) (p_costates p) (p_params p) (p_coparams p) (p_controls p) (p_law p) (p_ci p) (p_cp p) (p_ct p) (p_cpars p) (p_cadj p) v (p_cost_p p) (p_cost_t p) (p_consts p) (p_quants p) (p_switches p) (p_quads p) (p_ham p) (p_maps p) (p_symp p) (p_dual p).
Definition set_cost_p (p : prob) (v : expr) : prob :=
  mkProb (p_ind p) (p_states p) (p_costates p) (p_params p) (p_coparams p) (p_controls p) (p_law p) (p_ci p) (p_cp p) (p_ct p) (p_cpars p) (p_cadj p) (p_cost_i p) v (p_cost_t p) (p_consts p) (p_quants p) (p_switches p) (p_quads p) (p_ham p) (p_maps p) (p_symp p) (p_dual p).
Definition set_cost_t (p : prob) (v : expr) : prob :=
  mkProb (p_ind p) (p_states p) (p_costates p) (p_params p) (p_coparams p) (p_controls p) (p_law p) (p_ci p) (p_cp p) (p_ct p) (p_cpars p) (p_cadj p) (p_cost_i p) (p_cost_p p) v (p_consts p) (p_quants p) (p_switches p) (p_quads p) (p_ham p) (p_maps p) (p_symp p) (p_dual p).
Definition set_consts (p : prob) (v : list string) : prob :=
  mkProb (p_ind p) (p_states p) (p_costates p) (p_params p) (p_coparams p) (p_controls p) (p_law p) (p_ci p) (p_cp p) (p_ct p) (p_cpars p) (p_cadj p) (p_cost_i p) (p_cost_p p) (p_cost_t p) v (p_quants p) (p_switches p) (p_quads p) (p_ham p) (p_maps p) (p_symp p) (p_dual p).
Definition set_quants (p : prob) (v : list quant) : prob :=
  mkProb (p_ind p) (p_states p) (p_costates p) (p_params p) (p_coparams p) (p_controls p) (p_law p) (p_ci p) (p_cp p) (p_ct p) (p_cpars p) (p_cadj p) (p_cost_i p) (p_cost_p p) (p_cost_t p) (p_consts p) v (p_switches p) (p_quads p) (p_ham p) (p_maps p) (p_symp p) (p_dual p).
Definition set_switches (p : prob) (v : list switch) : prob :=
  mkProb (p_ind p) (p_states p) (p_costates p) (p_params p) (p_coparams p) (p_controls p) (p_law p) (p_ci p) (p_cp p) (p_ct p) (p_cpars p) (p_cadj p) (p_cost_i p) (p_cost_p p) (p_cost_t p) (p_consts p) (p_quants p) v (p_quads p) (p_ham p) (p_maps p) (p_symp p) (p_dual p).
Definition set_quads (p : prob) (v : list (string * expr)) : prob :=
  mkProb (p_ind p) (p_states p) (p_costates p) (p_params p) (p_coparams p) (p_controls p) (p_law p) (p_ci p) (p_cp p) (p_ct p) (p_cpars p) (p_cadj p) (p_cost_i p) (p_cost_p p) (p_cost_t p) (p_consts p) (p_quants p) (p_switches p) v (p_ham p) (p_maps p) (p_symp p) (p_dual p).
Definition set_ham (p : prob) (v : option expr) : prob :=
  mkProb (p_ind p) (p_states p) (p_costates p) (p_params p) (p_coparams p) (p_controls p) (p_law p) (p_ci p) (p_cp p) (p_ct p) (p_cpars p) (p_cadj p) (p_cost_i p) (p_cost_p p) (p_cost_t p) (p_consts p) (p_quants p) (p_switches p) (p_quads p) v (p_maps p) (p_symp p) (p_dual p).
Definition set_maps (p : prob) (v : list mtag) : prob :=
  mkProb (p_ind p) (p_states p) (p_costates p) (p_params p) (p_coparams p) (p_controls p) (p_law p) (p_ci p) (p_cp p) (p_ct p) (p_cpars p) (p_cadj p) (p_cost_i p) (p_cost_p p) (p_cost_t p) (p_consts p) (p_quants p) (p_switches p) (p_quads p) (p_ham p) v (p_symp p) (p_dual p).
Definition set_symp (p : prob) (v : bool) : prob :=
  mkProb (p_ind p) (p_states p) (p_costates p) (p_params p) (p_coparams p) (p_controls p) (p_law p) (p_ci p) (p_cp p) (p_ct p) (p_cpars p) (p_cadj p) (p_cost_i p) (p_cost_p p) (p_cost_t p) (p_consts p) (p_quants p) (p_switches p) (p_quads p) (p_ham p) (p_maps p) v (p_dual p).
Definition set_dual (p : prob) (v : bool) : prob :=
  mkProb (p_ind p) (p_states p) (p_costates p) (p_params p) (p_coparams p) (p_controls p) (p_law p) (p_ci p) (p_cp p) (p_ct p) (p_cpars p) (p_cadj p) (p_cost_i p) (p_cost_p p) (p_cost_t p) (p_consts p) (p_quants p) (p_switches p) (p_quads p) (p_ham p) (p_maps p) (p_symp p) v.

Definition syms (l : list (string * expr)) : list string := map fst l.
Definition eoms (l : list (string * expr)) : list expr := map snd l.

(** subs_self of the structures, components_structures.py lines 93-96, 172-178,
    114-117, 285-288, 325-331. *)
Definition subs_dyn (x : string) (n : expr) (s : string * expr) : string * expr :=
  (fst s, subst x n (snd s)).
Definition subs_constr (x : string) (n : expr) (c : constr) : constr :=
  mkConstr (subst x n (c_expr c)) (option_map (subst x n) (c_lower c))
           (option_map (subst x n) (c_upper c)) (c_act c) (c_method c).
(** [hasattr(self.expr, 'subs_self')] is never true, so [sympify_self] runs
    first and stores the free symbols of the expression before substitution. *)
Definition subs_quant (x : string) (n : expr) (q : quant) : quant :=
  mkQuant (q_name q) (subst x n (q_expr q)) (vars (q_expr q)).

(** SwitchStruct.sympify_self, lines 268-283. *)
Definition rashs_weight (tol : expr) (conds : list expr) : expr :=
  Sum (Cst 0) (map (fun c => Div (Cst 1) (Add (Cst 1) (Exp (Div c tol)))) conds).
Definition rashs_func (s : switch) : expr :=
  Sum (Cst 0) (map (fun fc => Mul (rashs_weight (sw_tol s) (snd fc)) (fst fc))
                   (combine (sw_funs s) (sw_conds s))).
Definition sympify_switch (s : switch) : switch :=
  mkSwitch (sw_name s) (sw_funs s) (sw_conds s) (sw_tol s) (Some (rashs_func s)).
Definition subs_switch (x : string) (n : expr) (s : switch) : switch :=
  let s1 := match sw_sym s with None => sympify_switch s | Some _ => s end in
  mkSwitch (sw_name s1) (sw_funs s1) (sw_conds s1) (sw_tol s1)
           (option_map (subst x n) (sw_sym s1)).

(** Problem.sympify_self, symbolic_problem.py lines 270-317; the path-unit
    check is modelled in Decl_Model.v. *)
Definition sympify_quant (q : quant) : quant := mkQuant (q_name q) (q_expr q) (vars (q_expr q)).
Definition sympify (p : prob) : res prob :=
  let p1 := set_symp (set_switches (set_quants p (map sympify_quant (p_quants p)))
                                   (map sympify_switch (p_switches p))) true in
  match p_states p1 with
  | [] => Raise RuntimeError
  | _ => Ok p1
  end.

(** Problem.subs_all, lines 243-268 (the parameters, activators, control law
    and dH/du are not in the list). *)
Definition subs_all (x : string) (n : expr) (p : prob) : prob :=
  let p := set_states p (map (subs_dyn x n) (p_states p)) in
  let p := set_costates p (map (subs_dyn x n) (p_costates p)) in
  let p := set_coparams p (map (subs_dyn x n) (p_coparams p)) in
  let p := set_ci p (map (subs_constr x n) (p_ci p)) in
  let p := set_cp p (map (subs_constr x n) (p_cp p)) in
  let p := set_ct p (map (subs_constr x n) (p_ct p)) in
  let p := set_cost_i p (subst x n (p_cost_i p)) in
  let p := set_cost_p p (subst x n (p_cost_p p)) in
  let p := set_cost_t p (subst x n (p_cost_t p)) in
  let p := set_quants p (map (subs_quant x n) (p_quants p)) in
  let p := set_switches p (map (subs_switch x n) (p_switches p)) in
  let p := set_ham p (option_map (subst x n) (p_ham p)) in
  set_quads p (map (subs_dyn x n) (p_quads p)).

(** ApplyQuantities, lines 121-139.  First double loop: for every [i], for every
    [j], substitute [i] in [j] if [i] is in the cached free symbols of [j].  The
    expression of [i] is read when [j] is processed (for [j = i] it may change
    in the middle of the inner loop, hence the position-wise formulation). *)
Fixpoint update_at {A} (k : nat) (f : A -> A) (l : list A) : list A :=
  match l, k with
  | [], _ => []
  | a :: l', O => f a :: l'
  | a :: l', S k' => a :: update_at k' f l'
  end.
Definition quant_step (i j : nat) (qs : list quant) : list quant :=
  match nth_error qs i, nth_error qs j with
  | Some qi, Some qj =>
      if mem (q_name qi) (q_free qj) then update_at j (subs_quant (q_name qi) (q_expr qi)) qs else qs
  | _, _ => qs
  end.
Definition quant_inner (n i : nat) (qs : list quant) : list quant :=
  fold_left (fun qs j => quant_step i j qs) (seq 0 n) qs.
Definition quant_expand (qs : list quant) : list quant :=
  fold_left (fun qs i => quant_inner (length qs) i qs) (seq 0 (length qs)) qs.
(** Second loop, lines 134-135. *)
Definition quant_apply_at (p : prob) (i : nat) : prob :=
  match nth_error (p_quants p) i with
  | Some q => subs_all (q_name q) (q_expr q) p
  | None => p
  end.
Definition apply_quantities (p : prob) : res prob :=
  if p_symp p then
    let p1 := set_quants p (quant_expand (p_quants p)) in
    Ok (fold_left quant_apply_at (seq 0 (length (p_quants p1))) p1)
  else Raise ValueError.

(** MomentumShift, lines 142-183. *)
Definition momentum_shift (new_name : option string) (p : prob) : res prob :=
  if p_symp p then
    let p1 := set_states p (p_states p ++ [(p_ind p, Cst 1)]) in
    let name := match new_name with None => String "_"%char (p_ind p) | Some s => s end in
    let p2 := set_ind p1 name in
    Ok (set_maps p2 (p_maps p2 ++ [TMomentum (length (p_states p2) - 1)]))
  else Raise ValueError.

(** Position of the first constraint selected by [f]. *)
Fixpoint find_at {A} (f : A -> bool) (l : list A) : option (nat * A) :=
  match l with
  | [] => None
  | a :: l' => if f a then Some (O, a)
               else match find_at f l' with Some (k, b) => Some (S k, b) | None => None end
  end.
Fixpoint remove_at {A} (k : nat) (l : list A) : list A :=
  match l, k with [], _ => [] | _ :: l', O => l' | a :: l', S k' => a :: remove_at k' l' end.

Definition is_method (m : string) (c : constr) : bool := String.eqb (lower (c_method c)) m.
Definition two_sided (c : constr) : bool :=
  match c_lower c, c_upper c with Some _, Some _ => true | _, _ => false end.

(** The expression substituted for the control, line 214-215. *)
Definition eps_expr (lo up : expr) (u : string) : expr :=
  Add (Mul (Div (Sub up lo) (Cst 2)) (Sin (Var u))) (Div (Add up lo) (Cst 2)).

(** EpsTrig, lines 186-225. *)
Definition eps_trig (p : prob) : res prob :=
  if p_symp p then
    match find_at (is_method "epstrig") (p_cp p) with
    | None => Raise RuntimeWarning
    | Some (k, c) =>
        let p1 := set_cp p (remove_at k (p_cp p)) in
        match c_expr c with
        | Var u =>
            match index_of u (p_controls p1) with
            | Raise _ => Raise NotImplementedError
            | Ok i =>
                let nu := ("_" ++ u ++ "_trig")%string in
                controls <- set_nth (p_controls p1) i nu ;
                match c_act c, c_lower c, c_upper c with
                | Some act, Some lo, Some up =>
                    let p2 := set_cost_p (set_controls p1 controls)
                                (Add (p_cost_p p1) (Mul (Opp act) (Cos (Var nu)))) in
                    let p3 := subs_all u (eps_expr lo up nu) p2 in
                    Ok (set_maps p3 (p_maps p3 ++ [TEpsTrig i lo up]))
                | _, _, _ => Raise TypeError
                end
            end
        | _ => Raise NotImplementedError
        end
    end
  else Raise ValueError.

(** The penalty, lines 268-275. *)
Definition utm_penalty (act e lo up : expr) : expr :=
  Mul act (Sub (Div (Cst 1)
    (Cos (Div (Mul (Div Pi (Cst 2)) (Sub (Sub (Mul (Cst 2) e) up) lo)) (Sub up lo)))) (Cst 1)).

Definition utm_sel (c : constr) : bool := is_method "utm" c && two_sided c.

(** Lines 258-266 and the cost term: the activator must be a constant;
    otherwise building the message subscripts the constraint (TypeError). *)
Definition utm_term (p : prob) (c : constr) : res expr :=
  match c_act c with
  | Some (Var a) =>
      if mem a (p_consts p) then
        match c_lower c, c_upper c with
        | Some lo, Some up => Ok (utm_penalty (Var a) (c_expr c) lo up)
        | _, _ => Raise TypeError
        end
      else Raise TypeError
  | _ => Raise TypeError
  end.

(** UTM, lines 228-288. *)
Definition utm (p : prob) : res prob :=
  if p_symp p then
    match find_at utm_sel (p_ci p) with
    | Some (k, c) =>
        term <- utm_term p c ;
        let p1 := set_cost_i p (Add (p_cost_i p) term) in
        let p2 := set_maps p1 (p_maps p1 ++ [TIdentity]) in
        Ok (set_ci p2 (remove_at k (p_ci p2)))
    | None =>
        match find_at utm_sel (p_cp p) with
        | Some (k, c) =>
            term <- utm_term p c ;
            let p1 := set_cost_p p (Add (p_cost_p p) term) in
            let p2 := set_maps p1 (p_maps p1 ++ [TIdentity]) in
            Ok (set_cp p2 (remove_at k (p_cp p2)))
        | None =>
            match find_at utm_sel (p_ct p) with
            | Some (k, c) =>
                term <- utm_term p c ;
                let p1 := set_cost_t p (Add (p_cost_t p) term) in
                let p2 := set_maps p1 (p_maps p1 ++ [TIdentity]) in
                Ok (set_ct p2 (remove_at k (p_ct p2)))
            | None => Raise RuntimeWarning
            end
        end
    end
  else Raise ValueError.

(** RASHS, lines 291-301: the loop reads each switch when it reaches it. *)
Definition rashs_at (p : prob) (i : nat) : prob :=
  match nth_error (p_switches p) i with
  | Some s => match sw_sym s with Some f => subs_all (sw_name s) f p | None => p end
  | None => p
  end.
Definition rashs (p : prob) : res prob :=
  if p_symp p then Ok (fold_left rashs_at (seq 0 (length (p_switches p))) p)
  else Raise ValueError.

(** differential_geometry.py: make_standard_symplectic_form lines 74-95. *)
Definition std_form (n : nat) : list (list expr) :=
  map (fun i => map (fun j => if Nat.eqb j (i + n) then Cst 1
                              else if Nat.eqb i (j + n) then Cst (-1) else Cst 0) (seq 0 (2 * n)))
      (seq 0 (2 * n)).

Section Dual.
  Variable lu : list (list expr) -> list expr -> res (list expr).
  Variable solve : list expr -> list string -> list (list expr).

  (** make_hamiltonian_vector_field, lines 53-71, for a square form. *)
  Definition ham_field (h : expr) (omega : list (list expr)) (basis : list string) : res (list expr) :=
    if Nat.odd (length omega) then Raise ValueError
    else x <- lu omega (map (fun b => diff b h) basis) ; Ok (map Opp x).

  (** Names and cost terms of the adjoints, lines 316-328. *)
  Definition nu_names (prefix : string) (cs : list constr) : list string :=
    map (fun i => (prefix ++ of_nat i)%string) (seq 0 (length cs)).
  Definition adjoin (cost : expr) (nus : list string) (cs : list constr) : expr :=
    Sum cost (map (fun nc => Mul (Var (fst nc)) (c_expr (snd nc))) (combine nus cs)).

  Definition lam (x : string) : string := ("_lam_" ++ x)%string.

  (** l[-k:] *)
  Definition last_k {A} (k : nat) (l : list A) : list A :=
    if Nat.eqb k 0 then l else skipn (length l - k) l.

  (** Dualize, lines 304-395. *)
  Definition dual_ham (p : prob) : expr :=
    Sum (p_cost_p p) (map (fun s => Mul (Var (lam (fst s))) (snd s)) (p_states p)).
  Definition dual_start (p : prob) : prob :=
    let nu0 := nu_names "_nu_0_" (p_ci p) in
    let nuf := nu_names "_nu_f_" (p_ct p) in
    let p := set_cadj p (p_cadj p ++ nu0 ++ nuf) in
    let p := set_cost_i p (adjoin (p_cost_i p) nu0 (p_ci p)) in
    let p := set_cost_t p (adjoin (p_cost_t p) nuf (p_ct p)) in
    let p := set_ham p (Some (dual_ham p)) in
    let p := set_costates p (p_costates p ++ map (fun s => (lam (fst s), Cst 0)) (p_states p)) in
    set_coparams p (p_coparams p ++ map (fun s => (lam s, Cst 0)) (p_params p)).
  Definition give_rates (l : list (string * expr)) (r : list expr) : list (string * expr) :=
    map (fun k => match nth_error l k, nth_error r k with
                  | Some s, Some e => (fst s, e) | Some s, None => s
                  | None, _ => (EmptyString, Cst 0) end) (seq 0 (length l)).
  Definition costates_traditional (h : expr) (p : prob) : prob :=
    let rates := map (fun x => Opp (diff x h)) (syms (p_states p) ++ p_params p) in
    let n := length (p_costates p) in
    set_coparams (set_costates p (give_rates (p_costates p) rates))
                 (give_rates (p_coparams p) (skipn n rates)).
  Definition costates_diffyg (h : expr) (p : prob) : res prob :=
    let q := syms (p_states p) ++ p_params p in
    let l := syms (p_costates p) ++ syms (p_coparams p) in
    if negb (Nat.eqb (length q) (length l)) then Raise ValueError
    else
      chi <- ham_field h (std_form (length q)) (q ++ l) ;
      let rates := last_k (length (p_states p)) chi in
      Ok (set_costates p (map (fun ce => (fst (fst ce), snd ce))
                              (combine (p_costates p) rates)
                          ++ skipn (length rates) (p_costates p))).
  Definition dual_finish (h : expr) (p : prob) : prob :=
    let pairs := combine (syms (p_states p) ++ p_params p)
                         (syms (p_costates p) ++ syms (p_coparams p)) in
    let p := set_ci p (p_ci p ++ map (fun xl =>
               plain (Add (Var (snd xl)) (diff (fst xl) (p_cost_i p)))) pairs) in
    let p := set_ct p (p_ct p ++ map (fun xl =>
               plain (Sub (Var (snd xl)) (diff (fst xl) (p_cost_t p)))) pairs
               ++ [plain (Add (diff (p_ind p) (p_cost_t p)) h)]) in
    let p := set_maps p (p_maps p ++ [TDualize (length (p_costates p)) (length (p_cadj p))]) in
    set_dual p true.
  Definition dualize (method : string) (p : prob) : res prob :=
    if p_symp p then
      let h := dual_ham p in
      let p := dual_start p in
      p <- (if String.eqb (lower method) "traditional" then Ok (costates_traditional h p)
            else if String.eqb (lower method) "diffyg" then costates_diffyg h p
            else Ok p) ;
      Ok (dual_finish h p)
    else Raise ValueError.

  (** AlgebraicControlLaw, lines 398-417.  A solution of sympy that leaves out a
      control (KeyError at line 412) is not modelled: [solve] returns one
      expression per control. *)
  Definition algebraic_control (p : prob) : res prob :=
    if p_dual p then
      match p_ham p with
      | None => Raise AttributeError
      | Some h =>
          let p := set_law p (solve (map (fun u => diff u h) (p_controls p)) (p_controls p)) in
          Ok (set_maps p (p_maps p ++ [TAlgebraic]))
      end
    else Raise ValueError.

  (** -dg_dx * eom, line 441: the matrix product accumulates from the left. *)
  Definition dot (a b : list expr) : expr :=
    Sum (Cst 0) (map (fun xy => Mul (fst xy) (snd xy)) (combine a b)).
  Definition jacobian (g : list expr) (xs : list string) : list (list expr) :=
    map (fun gk => map (fun x => diff x gk) xs) g.

  (** omega_new, lines 473-481. *)
  Definition set_entry (i j : nat) (e : expr) (m : list (list expr)) : list (list expr) :=
    update_at i (update_at j (fun _ => e)) m.
  Definition omega_step (n m ind : nat) (om : list (list expr)) (iu : nat * expr) : list (list expr) :=
    let '(i, u) := iu in
    let a := (n - m + i)%nat in
    let b := (2 * n - m + i)%nat in
    let om := set_entry a b (Cst 1) om in
    let om := set_entry b a (Cst (-1)) om in
    let om := set_entry ind b (Opp u) om in
    set_entry b ind u om.
  Definition omega_new (n m ind : nat) (udot : list expr) : list (list expr) :=
    fold_left (omega_step n m ind) (combine (seq 0 (length udot)) udot) (std_form n).

  (** DifferentialControlLaw, lines 420-503 ([lu] raises NotImplementedError
      where the code finds zoo in the result, lines 442-443).  The index of the
      independent variable, [len(states) - 1], assumes at least one state. *)
  Definition differential_control (method : string) (p : prob) : res prob :=
    if p_dual p then
      match p_ham p with
      | None => Raise AttributeError
      | Some h =>
          let dyn := p_states p ++ p_costates p in
          let g := map (fun u => diff u h) (p_controls p) in
          let rhs := map (fun row => dot (map Opp row) (eoms dyn)) (jacobian g (syms dyn)) in
          udot <- lu (jacobian g (p_controls p)) rhs ;
          let p := set_ct p (p_ct p ++ map plain g) in
          let n0 := length (p_states p) in
          let idxs := seq n0 (length (p_controls p)) in
          if String.eqb (lower method) "traditional" then
            let p := set_states p (p_states p ++ combine (p_controls p) udot) in
            let p := set_controls p [] in
            Ok (set_maps p (p_maps p ++ [TDifferential idxs]))
          else if String.eqb (lower method) "diffyg" then
            let us := p_controls p in
            let m := length us in
            let p := set_states p (p_states p ++ combine us udot) in
            let p := set_costates p (p_costates p ++ map (fun u => (lam u, Cst 0)) us) in
            if negb (Nat.eqb (length (p_states p)) (length (p_costates p))) then Raise ValueError
            else
              chi <- ham_field h (omega_new (length (p_states p)) m (n0 - 1) udot)
                               (syms (p_states p) ++ syms (p_costates p)) ;
              let n := length (p_states p) in
              let p := set_states p (combine (syms (p_states p)) (firstn n chi)) in
              let p := set_costates p (combine (syms (p_costates p)) (skipn n chi)) in
              let p := set_ci p (p_ci p ++ map (fun u => plain (Var (lam u))) us) in
              let p := set_controls p [] in
              Ok (set_maps p (p_maps p ++ [TDifferentialG idxs]))
          else Raise NotImplementedError
      end
    else Raise ValueError.
End Dual.

(** SquashToBVP, lines 661-683 (the adjoint slice is computed after the
    adjoints were appended). *)
Definition squash (p : prob) : res prob :=
  let ns := length (p_states p) in
  let nl := length (p_costates p) in
  let p := set_costates (set_states p (p_states p ++ p_costates p)) [] in
  let nq := length (p_quads p) in
  let nc := length (p_coparams p) in
  let p := set_coparams (set_quads p (p_quads p ++ p_coparams p)) [] in
  let na := length (p_cadj p) in
  let p := set_cpars p (p_cpars p ++ p_cadj p) in
  let np := length (p_cpars p) in
  let p := set_cadj p [] in
  let p := set_maps p (p_maps p ++ [TSquash (ns, ns + nl)%nat (nq, nq + nc)%nat (np, np + na)%nat]) in
  Ok (set_dual p false).

(** NormalizeTime, lines 686-720: the equations of the states and costates are
    scaled, the quadratures and coparameters are not. *)
Definition normalize_time (new_name : option string) (p : prob) : res prob :=
  if p_symp p then
    let dt := ("_delta" ++ p_ind p)%string in
    let p := set_params p (p_params p ++ [dt]) in
    let scale := fun s : string * expr => (fst s, Mul (snd s) (Var dt)) in
    let p := set_states p (map scale (p_states p)) in
    let p := set_costates p (map scale (p_costates p)) in
    let p := set_cost_p p (Mul (p_cost_p p) (Var dt)) in
    let p := set_ind p (match new_name with None => "_tau"%string | Some s => s end) in
    Ok (set_maps p (p_maps p ++ [TNormalize (length (p_params p) - 1)]))
  else Raise ValueError.

(** IgnoreQuads, lines 723-730. *)
Definition ignore_quads (p : prob) : res prob :=
  Ok (set_quads (set_states p (p_states p ++ p_quads p)) []).

(** The macros of lines 799-938.  A transformation in the order of
    application; [TJac] only fills the Jacobian fields. *)
Inductive tf : Type :=
| FMomentum | FEps | FUtm | FRashs | FDual (method : string) | FAlg | FDiff (method : string)
| FNorm | FSquash | FJac.

Section Run.
  Variable lu : list (list expr) -> list expr -> res (list expr).
  Variable solve : list expr -> list string -> list (list expr).
  Definition apply_tf (f : tf) (p : prob) : res prob :=
    match f with
    | FMomentum => momentum_shift None p
    | FEps => eps_trig p
    | FUtm => utm p
    | FRashs => rashs p
    | FDual m => dualize lu m p
    | FAlg => algebraic_control solve p
    | FDiff m => differential_control lu m p
    | FNorm => normalize_time None p
    | FSquash => squash p
    | FJac => Ok p
    end.
  Fixpoint run_tfs (fs : list tf) (p : prob) : res prob :=
    match fs with
    | [] => Ok p
    | f :: fs' => p' <- apply_tf f p ; run_tfs fs' p'
    end.
End Run.

(** Lines 813-822 and 874-883: one functor per two-sided constraint. *)
Fixpoint constraint_tfs (cs : list constr) : res (list tf) :=
  match cs with
  | [] => Ok []
  | c :: cs' =>
      if two_sided c then
        if is_method "epstrig" c then (r <- constraint_tfs cs' ; Ok (FEps :: r))
        else if is_method "utm" c then (r <- constraint_tfs cs' ; Ok (FUtm :: r))
        else Raise NotImplementedError
      else constraint_tfs cs'
  end.
Definition all_constraints (p : prob) : list constr := p_ci p ++ p_cp p ++ p_ct p.

Record options : Type := mkOpt {
  o_jac : bool; o_control : string; o_method : string; o_shift : bool; o_norm : bool }.

(** make_indirect_method, lines 856-938, without reduction. *)
Definition make_indirect (o : options) (p : prob) : res (list tf) :=
  cons <- constraint_tfs (all_constraints p) ;
  ctl <- (if String.eqb (lower (o_control o)) "algebraic" then Ok FAlg
          else if String.eqb (lower (o_control o)) "differential" then Ok (FDiff (o_method o))
          else Raise NotImplementedError) ;
  Ok ((if o_shift o then [FMomentum] else [])
      ++ cons
      ++ (if Nat.ltb 0 (length (p_switches p)) then [FRashs] else [])
      ++ [FDual (o_method o)] ++ [ctl]
      ++ (if o_norm o then [FNorm] else [])
      ++ [FSquash]
      ++ (if o_jac o && negb (String.eqb (o_control o) "algebraic") then [FJac] else [])).

(** make_direct_method, lines 799-853. *)
Definition make_direct (o : options) (p : prob) : res (list tf) :=
  cons <- constraint_tfs (all_constraints p) ;
  Ok ((if o_shift o then [FMomentum] else [])
      ++ cons
      ++ (if Nat.ltb 0 (length (p_switches p)) then [FRashs] else [])
      ++ (if o_norm o then [FNorm] else [])
      ++ (if o_jac o then [FJac] else [])).
