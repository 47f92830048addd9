(** Dimensional consistency, as it is usually defined: terms of a sum have the
    same unit, products multiply and quotients divide units, and arguments of
    transcendental functions are pure numbers. *)
From Coq Require Import Reals Ascii.
From Verif Require Import Base Sym_Expr Sym_Model Unit_Model.
Open Scope R_scope.

Definition positive (fac : string -> R) : Prop := forall x, 0 < fac x.
(** Two unit expressions denote the same unit. *)
Definition ueq (u v : expr) : Prop := forall fn fac, positive fac -> eval fn fac u = eval fn fac v.
(** A unit expression never vanishes (m/s is one, m - m is none). *)
Definition proper (u : expr) : Prop := forall fn fac, positive fac -> 0 < eval fn fac u.

(** Units of the symbols. *)
Definition uenv := string -> option expr.
Section Dim.
  Variable G : uenv.
  Inductive dim : expr -> expr -> Prop :=
  | D_number z : dim (Cst z) (Cst 1)
  | D_zero u : dim (Cst 0) u
  | D_pi : dim Pi (Cst 1)
  | D_var x u : G x = Some u -> dim (Var x) u
  | D_add a b u : dim a u -> dim b u -> dim (Add a b) u
  | D_mul a b u v : dim a u -> dim b v -> dim (Mul a b) (Mul u v)
  | D_opp a u : dim a u -> dim (Opp a) u
  | D_inv a u : dim a u -> dim (Inv a) (Inv u)
  | D_sin a : dim a (Cst 1) -> dim (Sin a) (Cst 1)
  | D_cos a : dim a (Cst 1) -> dim (Cos a) (Cst 1)
  | D_exp a : dim a (Cst 1) -> dim (Exp a) (Cst 1)
  | D_app f k a : dim a (Cst 1) -> dim (App f k a) (Cst 1)
  | D_same a u v : dim a u -> ueq u v -> dim a v.

  Definition has (x : string) (u : expr) : Prop := G x = Some u.
  (** x' has the unit of x per unit of the independent variable. *)
  Definition dyn_ok (ui : expr) (s : string * expr) (u : expr) : Prop := G (fst s) = Some u /\ dim (snd s) (Div u ui).
  Definition constr_ok (c : constr) (u : expr) : Prop :=
    proper u /\ dim (c_expr c) u /\ (forall e, c_lower c = Some e -> dim e u) /\ (forall e, c_upper c = Some e -> dim e u).
  Definition quant_ok (q : quant) : Prop := exists u, G (q_name q) = Some u /\ dim (q_expr q) u.
  Definition switch_ok (s : switch) : Prop :=
    exists u w, G (sw_name s) = Some u /\ proper w /\ Forall (fun e => dim e u) (sw_funs s) /\
      Forall (Forall (fun e => dim e w)) (sw_conds s) /\ dim (sw_tol s) w /\ (forall e, sw_sym s = Some e -> dim e u).

  (** A problem whose components carry units that fit the symbols and whose
      equations, conditions and costs are dimensionally consistent. *)
  Record consistent (p : prob) (u : units) : Prop := mkConsistent {
    k_proper : forall x v, G x = Some v -> proper v;
    k_ind : G (p_ind p) = Some (u_ind u);
    k_states : Forall2 (dyn_ok (u_ind u)) (p_states p) (u_states u);
    k_costates : Forall2 (dyn_ok (u_ind u)) (p_costates p) (u_costates u);
    k_coparams : Forall2 (dyn_ok (u_ind u)) (p_coparams p) (u_coparams u);
    k_quads : Forall2 (dyn_ok (u_ind u)) (p_quads p) (u_quads u);
    k_params : Forall2 has (p_params p) (u_params u);
    k_controls : Forall2 has (p_controls p) (u_controls u);
    k_cpars : Forall2 has (p_cpars p) (u_cpars u);
    k_cadj : Forall2 has (p_cadj p) (u_cadj u);
    k_consts : Forall2 has (p_consts p) (u_consts u);
    k_ci : Forall2 constr_ok (p_ci p) (u_ci u);
    k_cp : Forall2 constr_ok (p_cp p) (u_cp u);
    k_ct : Forall2 constr_ok (p_ct p) (u_ct u);
    k_cost : proper (u_cost u);
    k_cost_i : dim (p_cost_i p) (u_cost u);
    k_cost_p : dim (p_cost_p p) (Div (u_cost u) (u_ind u));
    k_cost_t : dim (p_cost_t p) (u_cost u);
    k_quants : Forall quant_ok (p_quants p);
    k_switches : Forall switch_ok (p_switches p);
    k_law : Forall (fun option => Forall2 dim option (u_controls u)) (p_law p);
    k_ham : forall h, p_ham p = Some h -> proper (u_ham u) /\ dim h (u_ham u) }.

  (** The activators of the inequality constraints have the units of the cost
      they are added to (nothing in the code checks this). *)
  Definition act_ok (w : expr) (c : constr) : Prop := two_sided c = true -> forall a, c_act c = Some a -> dim a w.
  Definition activators (p : prob) (u : units) : Prop :=
    Forall (act_ok (u_cost u)) (p_ci p) /\ Forall (act_ok (Div (u_cost u) (u_ind u))) (p_cp p) /\
    Forall (act_ok (u_cost u)) (p_ct p).
End Dim.

(** Later entries do not change the units of symbols that have one. *)
Definition extends (G G' : uenv) : Prop := forall x u, G x = Some u -> G' x = Some u.

(** Symbols that a transformation introduces, with the units it gives them. *)
Definition new_symbols (f : tf) (p : prob) (u : units) : list (string * expr) :=
  match f with
  | FMomentum => [(String "_"%char (p_ind p), u_ind u)]
  | FEps => match find_at (is_method "epstrig") (p_cp p) with
            | Some (_, c) => match c_expr c with Var x => [(("_" ++ x ++ "_trig")%string, Cst 1)] | _ => [] end
            | None => []
            end
  | FDual _ => combine (nu_names "_nu_0_" (p_ci p) ++ nu_names "_nu_f_" (p_ct p)) (per (u_cost u) (u_ci u ++ u_ct u))
               ++ combine (map lam (syms (p_states p) ++ p_params p)) (per (u_cost u) (u_states u ++ u_params u))
  | FDiff m => if String.eqb (lower m) "diffyg" then combine (map lam (p_controls p)) (per (u_cost u) (u_controls u)) else []
  | FNorm => [(("_delta" ++ p_ind p)%string, u_ind u); ("_tau"%string, Cst 1)]
  | FUtm | FRashs | FAlg | FSquash | FJac => []
  end.
Fixpoint find_unit (l : list (string * expr)) (x : string) : option expr :=
  match l with [] => None | (y, u) :: l' => if String.eqb x y then Some u else find_unit l' x end.
Definition extend (G : uenv) (l : list (string * expr)) : uenv :=
  fun x => match G x with Some u => Some u | None => find_unit l x end.
(** The new names are different from each other and from the existing ones. *)
Definition fresh (G : uenv) (l : list (string * expr)) : Prop :=
  NoDup (map fst l) /\ Forall (fun x => G x = None) (map fst l).

Section Run.
  Variable lu : list (list expr) -> list expr -> res (list expr).
  Variable solve : list expr -> list string -> list (list expr).
  Fixpoint fresh_run (G : uenv) (fs : list tf) (p : prob) (u : units) : Prop :=
    match fs with
    | [] => True
    | f :: fs' => fresh G (new_symbols f p u) /\
        forall p', apply_tf lu solve f p = Ok p' -> fresh_run (extend G (new_symbols f p u)) fs' p' (unit_tf f p u)
    end.
  (** Units of all symbols that occur in the course of a run. *)
  Fixpoint run_env (G : uenv) (fs : list tf) (p : prob) (u : units) : uenv :=
    match fs with
    | [] => G
    | f :: fs' => match apply_tf lu solve f p with
                  | Ok p' => run_env (extend G (new_symbols f p u)) fs' p' (unit_tf f p u)
                  | Raise _ => G
                  end
    end.
End Run.
