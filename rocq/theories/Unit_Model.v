(** Units: every component of a problem carries a unit
    (components_structures.py lines 54-75, 131-146), a sympy expression in the
    symbols declared with [Problem.scale] (symbolic_problem.py lines 205-209).
    The transformations of mapping_functions.py give units to the components
    they create, and NumericProblem.compile_scaling
    (numeric/data_classes/NumericProblem.py lines 366-397) evaluates them to get
    the scale factors.

    Units are kept in lists parallel to the component lists of [prob].  The
    reduction (MishchenkoFomenko) and symmetries are left out, as in
    Sym_Model.v.  The cost has units (check_path_units is in Decl_Model.v). *)
From Coq Require Import Reals.
From Verif Require Import Base Sym_Expr Sym_Model Map_Model Scale_Model Jac_Model.

Record units : Type := mkUnits {
  u_ind : expr;
  u_states : list expr; u_costates : list expr; u_params : list expr; u_coparams : list expr;
  u_controls : list expr; u_cpars : list expr; u_cadj : list expr; u_consts : list expr; u_quads : list expr;
  u_ci : list expr; u_cp : list expr; u_ct : list expr;
  u_cost : expr; u_ham : expr }.

(** prob.cost.units / component.units *)
Definition per (c : expr) (l : list expr) : list expr := map (Div c) l.

(** MomentumShift, lines 152-164: the new state and the new independent
    variable both get the units of the old one. *)
Definition momentum_units (u : units) : units :=
  mkUnits (u_ind u) (u_states u ++ [u_ind u]) (u_costates u) (u_params u) (u_coparams u) (u_controls u)
    (u_cpars u) (u_cadj u) (u_consts u) (u_quads u) (u_ci u) (u_cp u) (u_ct u) (u_cost u) (u_ham u).

(** EpsTrig, lines 193-207: the new control has unit '1'. *)
Definition eps_units (p : prob) (u : units) : units :=
  match find_at (is_method "epstrig") (p_cp p) with
  | Some (k, c) =>
      let controls :=
        match c_expr c with
        | Var x => match index_of x (p_controls p) with
                   | Ok i => match set_nth (u_controls u) i (Cst 1) with Ok l => l | Raise _ => u_controls u end
                   | Raise _ => u_controls u
                   end
        | _ => u_controls u
        end in
      mkUnits (u_ind u) (u_states u) (u_costates u) (u_params u) (u_coparams u) controls
        (u_cpars u) (u_cadj u) (u_consts u) (u_quads u) (u_ci u) (remove_at k (u_cp u)) (u_ct u) (u_cost u) (u_ham u)
  | None => u
  end.

(** UTM, lines 235-286: the constraint is removed. *)
Definition utm_units (p : prob) (u : units) : units :=
  let drop ci cp ct :=
    mkUnits (u_ind u) (u_states u) (u_costates u) (u_params u) (u_coparams u) (u_controls u)
      (u_cpars u) (u_cadj u) (u_consts u) (u_quads u) ci cp ct (u_cost u) (u_ham u) in
  match find_at utm_sel (p_ci p) with
  | Some (k, _) => drop (remove_at k (u_ci u)) (u_cp u) (u_ct u)
  | None =>
      match find_at utm_sel (p_cp p) with
      | Some (k, _) => drop (u_ci u) (remove_at k (u_cp u)) (u_ct u)
      | None =>
          match find_at utm_sel (p_ct p) with
          | Some (k, _) => drop (u_ci u) (u_cp u) (remove_at k (u_ct u))
          | None => u
          end
      end
  end.

(** Dualize, lines 316-389. *)
Definition dual_units (u : units) : units :=
  let ham := Div (u_cost u) (u_ind u) in
  let costates := u_costates u ++ per (u_cost u) (u_states u) in
  let coparams := u_coparams u ++ per (u_cost u) (u_params u) in
  let bc := map snd (combine (u_states u ++ u_params u) (costates ++ coparams)) in
  mkUnits (u_ind u) (u_states u) costates (u_params u) coparams (u_controls u)
    (u_cpars u) (u_cadj u ++ per (u_cost u) (u_ci u) ++ per (u_cost u) (u_ct u)) (u_consts u) (u_quads u)
    (u_ci u ++ bc) (u_cp u) (u_ct u ++ bc ++ [ham]) (u_cost u) ham.

(** DifferentialControlLaw, lines 445-494. *)
Definition diff_units (method : string) (u : units) : units :=
  let g := per (u_ham u) (u_controls u) in
  let lams := per (u_cost u) (u_controls u) in
  let geo := String.eqb (lower method) "diffyg" in
  mkUnits (u_ind u) (u_states u ++ u_controls u) (if geo then u_costates u ++ lams else u_costates u)
    (u_params u) (u_coparams u) [] (u_cpars u) (u_cadj u) (u_consts u) (u_quads u)
    (if geo then u_ci u ++ lams else u_ci u) (u_cp u) (u_ct u ++ g) (u_cost u) (u_ham u).

(** SquashToBVP, lines 665-677. *)
Definition squash_units (u : units) : units :=
  mkUnits (u_ind u) (u_states u ++ u_costates u) [] (u_params u) [] (u_controls u)
    (u_cpars u ++ u_cadj u) [] (u_consts u) (u_quads u ++ u_coparams u) (u_ci u) (u_cp u) (u_ct u) (u_cost u) (u_ham u).

(** NormalizeTime, lines 696-714: the duration has the units of time, the new
    independent variable none; the cost keeps its units. *)
Definition norm_units (u : units) : units :=
  mkUnits (Cst 1) (u_states u) (u_costates u) (u_params u ++ [u_ind u]) (u_coparams u) (u_controls u)
    (u_cpars u) (u_cadj u) (u_consts u) (u_quads u) (u_ci u) (u_cp u) (u_ct u) (u_cost u) (u_ham u).

(** Units after a transformation of [p]. *)
Definition unit_tf (f : tf) (p : prob) (u : units) : units :=
  match f with
  | FMomentum => momentum_units u
  | FEps => eps_units p u
  | FUtm => utm_units p u
  | FDual _ => dual_units u
  | FDiff m => diff_units m u
  | FNorm => norm_units u
  | FSquash => squash_units u
  | FRashs | FAlg | FJac => u
  end.
Section Run.
  Variable lu : list (list expr) -> list expr -> res (list expr).
  Variable solve : list expr -> list string -> list (list expr).
  Fixpoint run_units (fs : list tf) (p : prob) (u : units) : units :=
    match fs with
    | [] => u
    | f :: fs' => match apply_tf lu solve f p with
                  | Ok p' => run_units fs' p' (unit_tf f p u)
                  | Raise _ => u
                  end
    end.
End Run.

(** compile_scaling, lines 376-397: the factors of the components for given
    factors of the units ([fn] is not used: units contain no functions). *)
Definition unit_value (fac : string -> R) (u : expr) : R := eval (fun _ _ _ => 0%R) fac u.
Definition component_factors (u : units) (fac : string -> R) : factors R :=
  let f := map (unit_value fac) in
  mkFactors (unit_value fac (u_ind u)) (f (u_states u)) (f (u_quads u)) (f (u_controls u))
    (f (u_params u)) (f (u_cpars u)) (f (u_consts u)).
(** Lines 370-374 and 395: the factor of a declared unit is its expression at
    the reference values (an undeclared symbol is a NameError in the code; here
    it has the factor 1). *)
Fixpoint unit_factors (declared : list (string * expr)) (ref : string -> R) (x : string) : R :=
  match declared with
  | [] => 1%R
  | (n, e) :: l => if String.eqb x n then unit_value ref e else unit_factors l ref x
  end.

(** compile_control, numeric/compilation/component_compilation.py lines 8-37,
    with the candidate loop of [Map_Model.pick_control]: [None] without options.
    A symbol that is no argument is a NameError in the code; here it has the
    value 0. *)
Definition law_control (fn : string -> nat -> R -> R) (p : prob) : option (list R -> list R -> list R -> list R) :=
  match p_law p with
  | [] => None
  | law => Some (fun y pp k =>
      let cands := map (map (eval fn (env (concat (dyn_groups p false)) (y ++ pp ++ k)))) law in
      let ham := fun c => match p_ham p with
                          | Some h => eval fn (env (concat (dyn_groups p true)) (y ++ c ++ pp ++ k)) h
                          | None => 0%R end in
      match pick_control ROps ham cands with Ok c => c | Raise _ => [] end)
  end.
(** compile_cost, NumericProblem.py lines 335-364, as compile_problem calls it
    (lines 93-94 and 104). *)
Definition point_cost (fn : string -> nat -> R -> R) (p : prob) (e : expr) (y q pp pc k : list R) : res (list R) :=
  call fn (bc_groups p false) [e] (bc_vals p y q None pp pc k).
Definition path_cost (fn : string -> nat -> R -> R) (p : prob) (cu : option (list R -> list R -> list R -> list R))
    (y : list R) (u : option (list R)) (pp k : list R) : res (list R) :=
  let u' := control_of cu y u pp k in
  call fn (dyn_groups p (is_some u')) [p_cost_p p] (dyn_vals y u' pp k).
