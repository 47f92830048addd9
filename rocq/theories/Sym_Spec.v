(** Specification predicates for the symbolic transformations. *)
From Coq Require Import Reals Lra.
From Verif Require Import Base Sym_Expr Sym_Model.

Definition opt_rel {A B} (R : A -> B -> Prop) (a : option A) (b : option B) : Prop :=
  match a, b with Some x, Some y => R x y | None, None => True | _, _ => False end.

(** Two problems with the same names, parameters, constants, methods and
    activators whose expressions correspond one to one under [R]. *)
Section Related.
  Variable R : expr -> expr -> Prop.
  Definition rel_dyn (a b : string * expr) : Prop := fst a = fst b /\ R (snd a) (snd b).
  Definition rel_constr (a b : constr) : Prop :=
    R (c_expr a) (c_expr b) /\ opt_rel R (c_lower a) (c_lower b) /\ opt_rel R (c_upper a) (c_upper b) /\
    c_act a = c_act b /\ c_method a = c_method b.
  Definition rel_switch (a b : switch) : Prop :=
    sw_name a = sw_name b /\ opt_rel R (sw_sym a) (sw_sym b).
  Record related (p p' : prob) : Prop := mkRelated {
    r_ind : p_ind p = p_ind p';
    r_states : Forall2 rel_dyn (p_states p) (p_states p');
    r_costates : Forall2 rel_dyn (p_costates p) (p_costates p');
    r_params : p_params p = p_params p';
    r_coparams : Forall2 rel_dyn (p_coparams p) (p_coparams p');
    r_controls : p_controls p = p_controls p';
    r_ci : Forall2 rel_constr (p_ci p) (p_ci p');
    r_cp : Forall2 rel_constr (p_cp p) (p_cp p');
    r_ct : Forall2 rel_constr (p_ct p) (p_ct p');
    r_cpars : p_cpars p = p_cpars p';
    r_cadj : p_cadj p = p_cadj p';
    r_cost_i : R (p_cost_i p) (p_cost_i p');
    r_cost_p : R (p_cost_p p) (p_cost_p p');
    r_cost_t : R (p_cost_t p) (p_cost_t p');
    r_consts : p_consts p = p_consts p';
    r_switches : Forall2 rel_switch (p_switches p) (p_switches p');
    r_quads : Forall2 rel_dyn (p_quads p) (p_quads p');
    r_ham : opt_rel R (p_ham p) (p_ham p');
    r_maps : p_maps p = p_maps p';
    r_symp : p_symp p = p_symp p';
    r_dual : p_dual p = p_dual p' }.
End Related.

(** The declared quantities as a replacement map, and assignments that give
    every quantity the value of its expression. *)
Definition quant_map (p : prob) : list (string * expr) :=
  map (fun q => (q_name q, q_expr q)) (p_quants p).
Definition consistent (fn : string -> nat -> R -> R) (m : list (string * expr)) (rho : string -> R) : Prop :=
  forall k v, In (k, v) m -> rho k = eval fn rho v.
