(** C25, C26, C30: the constraint stage and the elimination of quantities,
    beluga/symbolic/data_classes/mapping_functions.py lines 121-288, 799-938. *)
From Coq Require Import Reals Lra.
From Verif Require Import Base Base_Facts Sym_Expr Sym_Facts Sym_RecSub Sym_Model Sym_Spec Sym_Quant Sym_Constr Sym_OneSided Sym_Eps.
Open Scope nat_scope.
Open Scope string_scope.
Open Scope list_scope.

(** The problem on which the constraint stage runs: the declared one, or the
    declared one after the momentum shift. *)
Definition stage_input (p p1 : prob) : Prop := p1 = p \/ momentum_shift None p = Ok p1.

Lemma stage_input_same p p1 : stage_input p p1 -> p_ci p1 = p_ci p /\ p_cp p1 = p_cp p /\ p_ct p1 = p_ct p.
Proof.
  intros [->|H]; auto. unfold momentum_shift in H. destruct (p_symp p); [|discriminate]. injection H as <-. auto.
Qed.

Section Params.
Variable lu : list (list expr) -> list expr -> res (list expr).
Variable solve : list expr -> list string -> list (list expr).

Theorem C25_utm_adds_penalties : forall fn rho p p1 p2 fs,
  constraint_tfs (all_constraints p) = Ok fs -> stage_input p p1 ->
  (forall c, In c (p_ci p ++ p_cp p ++ p_ct p) -> two_sided c = true -> is_method "utm" c = true) ->
  run_tfs lu solve fs p1 = Ok p2 ->
  eval fn rho (p_cost_i p2) = (eval fn rho (p_cost_i p1) + penalties fn rho (p_ci p))%R /\
  eval fn rho (p_cost_p p2) = (eval fn rho (p_cost_p p1) + penalties fn rho (p_cp p))%R /\
  eval fn rho (p_cost_t p2) = (eval fn rho (p_cost_t p1) + penalties fn rho (p_ct p))%R /\
  p_states p2 = p_states p1 /\ p_controls p2 = p_controls p1.
Proof.
  intros fn rho p p1 p2 fs HB HI HU HR. destruct (stage_input_same _ _ HI) as (E1 & E2 & E3).
  eapply utm_enforced; eauto.
Qed.

(** One application of EpsTrig: the bounded control is replaced by a function of
    a new angle whose values lie within the bounds, in the dynamics and in all
    costs, and the path cost gains - activator * cos(angle). *)
Theorem C25_eps_trig_bounds_control : forall p p', eps_trig p = Ok p' ->
  exists c u lo up act l1 l2 u1 u2,
    p_cp p = l1 ++ c :: l2 /\ is_method "epstrig" c = true /\ c_expr c = Var u /\
    c_lower c = Some lo /\ c_upper c = Some up /\ c_act c = Some act /\
    p_controls p = u1 ++ u :: u2 /\
    p_controls p' = u1 ++ ("_" ++ u ++ "_trig")%string :: u2 /\
    forall fn rho,
      let angle := rho ("_" ++ u ++ "_trig")%string in
      let L := eval fn rho lo in
      let U := eval fn rho up in
      exists v, (L <= U -> L <= v <= U)%R /\
      let rho' := upd rho u v in
      Forall2 (fun s s' => fst s = fst s' /\ eval fn rho (snd s') = eval fn rho' (snd s))
              (p_states p) (p_states p') /\
      eval fn rho (p_cost_p p') = (eval fn rho' (p_cost_p p) - eval fn rho' act * cos angle)%R /\
      eval fn rho (p_cost_i p') = eval fn rho' (p_cost_i p) /\
      eval fn rho (p_cost_t p') = eval fn rho' (p_cost_t p).
Proof.
  intros p p' H. destruct (eps_step p p' H) as (c & u & lo & up & act & l1 & l2 & u1 & u2 & A1 & A2 & A3 & A4 & A5 & A6 & A7 & A8 & A9).
  exists c, u, lo, up, act, l1, l2, u1, u2.
  split; [exact A1|]. split; [exact A2|]. split; [exact A3|]. split; [exact A4|]. split; [exact A5|].
  split; [exact A6|]. split; [exact A7|]. split; [exact A8|].
  intros fn rho. cbv zeta.
  exists (bounded_control (eval fn rho lo) (eval fn rho up) (rho ("_" ++ u ++ "_trig")%string)).
  split; [|exact (A9 fn rho)].
  intros HL. unfold bounded_control.
  pose proof (SIN_bound (rho ("_" ++ u ++ "_trig")%string)) as [B1 B2].
  set (s := sin _) in *. split; nra.
Qed.

(** Bounds of the EpsTrig kind on initial or terminal expressions, and unknown
    methods, are rejected. *)
Theorem C25_misplaced_epstrig_rejected : forall p p1 fs c,
  In c (p_ci p ++ p_ct p) -> two_sided c = true -> is_method "epstrig" c = true ->
  constraint_tfs (all_constraints p) = Ok fs -> stage_input p p1 ->
  exists e, run_tfs lu solve fs p1 = Raise e.
Proof.
  intros p p1 fs c Hc T M HB HI. destruct (stage_input_same _ _ HI) as (E1 & E2 & E3).
  destruct (run_tfs lu solve fs p1) as [p2|e] eqn:E; [|eauto]. exfalso.
  eapply (misplaced_rejected lu solve p p1 fs HB E1 E2 E3); [|exact E]. exists c. auto.
Qed.

Theorem C25_unknown_method_rejected : forall o p c,
  In c (p_ci p ++ p_cp p ++ p_ct p) -> two_sided c = true ->
  lower (c_method c) <> "epstrig" -> lower (c_method c) <> "utm" ->
  make_indirect o p = Raise NotImplementedError /\ make_direct o p = Raise NotImplementedError.
Proof.
  intros o p c Hc T M1 M2. unfold make_indirect, make_direct.
  rewrite (unknown_method (all_constraints p) c Hc T); auto; unfold is_method; apply String.eqb_neq; auto.
Qed.

(** A path constraint with one bound has no effect whatsoever: both pipelines
    give, with and without it, the same list of transformations and the same
    problem up to the list of path constraints (which nothing reads later). *)
Theorem C25_one_sided_path_ignored : forall o p l1 c l2,
  p_cp p = l1 ++ c :: l2 -> two_sided c = false ->
  (forall d, In d (p_cp p) -> is_method "epstrig" d = true -> two_sided d = true) ->
  let q := set_cp p (l1 ++ l2) in
  make_indirect o p = make_indirect o q /\ make_direct o p = make_direct o q /\
  forall fs, match run_tfs lu solve fs p, run_tfs lu solve fs q with
             | Ok p', Ok q' => set_cp p' [] = set_cp q' []
             | Raise e, Raise e' => e = e'
             | _, _ => False
             end.
Proof.
  intros o p l1 c l2 E T HD. apply (one_sided_ignored lu solve o p l1 c l2 E T).
  - destruct (is_method "epstrig" c) eqn:M; auto. rewrite (HD c) in T; auto. rewrite E, in_app_iff. simpl. auto.
  - apply Forall_forall. intros d Hd M. now apply HD.
Qed.

Theorem C26_constraint_stage : forall p p1 p2 fs,
  constraint_tfs (all_constraints p) = Ok fs -> stage_input p p1 ->
  run_tfs lu solve fs p1 = Ok p2 ->
  Forall (fun c => two_sided c = false) (p_ci p2 ++ p_cp p2 ++ p_ct p2) /\
  exists m ms,
    let kept l := map (fun c => fold_left (fun c xe => subs_constr (fst xe) (snd xe) c) m c)
                      (filter (fun c => negb (two_sided c)) l) in
    length m = length (filter (fun c => two_sided c && is_method "epstrig" c) (p_ci p ++ p_cp p ++ p_ct p)) /\
    p_ci p2 = kept (p_ci p) /\ p_cp p2 = kept (p_cp p) /\ p_ct p2 = kept (p_ct p) /\
    p_maps p2 = p_maps p1 ++ ms /\ length ms = length (filter two_sided (p_ci p ++ p_cp p ++ p_ct p)).
Proof.
  intros p p1 p2 fs HB HI HR. destruct (stage_input_same _ _ HI) as (E1 & E2 & E3).
  destruct (stage_ok lu solve p p1 p2 fs HB E1 E2 E3 HR) as (A & m & B1 & B2 & B3 & B4 & ms & B5 & B6).
  split; [exact A|]. exists m, ms. cbv zeta.
  split; [exact B1|]. split; [exact B2|]. split; [exact B3|]. split; [exact B4|]. split; [exact B5|exact B6].
Qed.
End Params.

(** x' = u with u in [-1,1] (EpsTrig), x in [0,2] (UTM), x >= 0 (one bound) along
    the path, x = 0 initially, x >= 1 finally. *)
Definition ex_u : constr := mkConstr (Var "u") (Some (Cst (-1))) (Some (Cst 1)) (Some (Var "eps")) "EpsTrig".
Definition ex_x : constr := mkConstr (Var "x") (Some (Cst 0)) (Some (Cst 2)) (Some (Var "eps")) "utm".
Definition ex_low : constr := mkConstr (Var "x") (Some (Cst 0)) None (Some (Var "eps")) "utm".
Definition ex_end : constr := mkConstr (Var "x") (Some (Cst 1)) None (Some (Var "eps")) "utm".
Definition ex_prob (cp ct : list constr) : prob :=
  mkProb "t" [("x", Var "u")] [] [] [] ["u"] [] [plain (Var "x")] cp ct [] []
    (Cst 0) (Mul (Var "u") (Var "u")) (Cst 0) ["eps"] [] [] [] None [] true false.
Definition ex_opt : options := mkOpt false "algebraic" "traditional" true true.
Definition no_lu : list (list expr) -> list expr -> res (list expr) := fun _ _ => Raise ValueError.
Definition no_solve : list expr -> list string -> list (list expr) := fun _ _ => [].

Example C25_C26_ex :
  let p := ex_prob [ex_u; ex_low; ex_x] [plain (Var "x")] in
  constraint_tfs (all_constraints p) = Ok [FEps; FUtm] /\
  (exists p2, run_tfs no_lu no_solve [FEps; FUtm] p = Ok p2 /\ p_cp p2 = [ex_low] /\
     p_controls p2 = ["_u_trig"] /\ length (p_maps p2) = 2) /\
  (exists p2, run_tfs no_lu no_solve [FUtm] (ex_prob [ex_low; ex_x] []) = Ok p2 /\
     p_cost_p p2 <> p_cost_p p) /\
  (exists p1, stage_input p p1 /\ p1 <> p).
Proof.
  cbv zeta. split; [reflexivity|]. split; [|split].
  - eexists. split; [vm_compute; reflexivity|]. repeat split.
  - eexists. split; [vm_compute; reflexivity|]. discriminate.
  - eexists. split; [right; reflexivity|]. discriminate.
Qed.
Example C25_rejected_ex :
  let p := ex_prob [] [ex_u] in
  constraint_tfs (all_constraints p) = Ok [FEps] /\
  run_tfs no_lu no_solve [FEps] p = Raise RuntimeWarning /\
  make_direct ex_opt (ex_prob [mkConstr (Var "u") (Some (Cst 0)) (Some (Cst 1)) None "icrm"] []) =
    Raise NotImplementedError.
Proof. cbv zeta. split; [reflexivity|split; reflexivity]. Qed.

(** Refutation: the pipelines succeed on a problem with a path constraint
    x >= 0 and give the problem that has no such constraint. *)
Theorem C25_one_sided_path_refuted : exists o p c fs p' q',
  In c (p_cp p) /\ c_lower c = Some (Cst 0) /\ c_upper c = None /\
  make_indirect o p = Ok fs /\ run_tfs no_lu no_solve fs p = Ok p' /\
  make_indirect o (set_cp p []) = Ok fs /\ run_tfs no_lu no_solve fs (set_cp p []) = Ok q' /\
  set_cp p' [] = q'.
Proof.
  exists ex_opt, (ex_prob [ex_low] [plain (Var "x")]), ex_low. do 3 eexists.
  split; [left; reflexivity|]. split; [reflexivity|]. split; [reflexivity|].
  split; [vm_compute; reflexivity|]. split; [vm_compute; reflexivity|]. split; [vm_compute; reflexivity|].
  split; [vm_compute; reflexivity|]. reflexivity.
Qed.

(** Refutation at the boundaries: a terminal constraint x >= 1 becomes the
    boundary condition x = 0, which contradicts it. *)
Theorem C25_one_sided_terminal_refuted : exists o p c fs p' lo,
  In c (p_ct p) /\ c_lower c = Some lo /\ c_upper c = None /\
  make_indirect o p = Ok fs /\ run_tfs no_lu no_solve fs p = Ok p' /\
  forall fn rho, (forall d, In d (p_ct p') -> eval fn rho (c_expr d) = 0%R) ->
    (eval fn rho (c_expr c) < eval fn rho lo)%R.
Proof.
  exists ex_opt, (ex_prob [] [ex_end]), ex_end. do 3 eexists.
  split; [left; reflexivity|]. split; [reflexivity|]. split; [reflexivity|].
  split; [vm_compute; reflexivity|]. split; [vm_compute; reflexivity|].
  intros fn rho H. assert (E : eval fn rho (c_expr ex_end) = 0%R) by (apply H; left; reflexivity).
  rewrite E. simpl. lra.
Qed.

(** C30.  [rho] extends any assignment of the other symbols by the values of the
    quantities; the new expressions need no quantity. *)
Theorem C30_quantities_eliminated : forall fn p,
  p_symp p = true -> acyclic (quant_map p) -> NoDup (map q_name (p_quants p)) ->
  Forall (fun s => sw_sym s <> None) (p_switches p) ->
  exists p', apply_quantities p = Ok p' /\
  forall rho0, exists rho, consistent fn (quant_map p) rho /\
    (forall x, ~ In x (map q_name (p_quants p)) -> rho x = rho0 x) /\
    related (fun e e' => eval fn rho0 e' = eval fn rho e /\
                         forall q, In q (p_quants p) -> ~ In (q_name q) (vars e')) p p'.
Proof. exact apply_quantities_values. Qed.

(** a = b + 1 declared before b = x * x. *)
Definition ex_quants : prob :=
  match sympify (mkProb "t" [("x", Mul (Var "a") (Var "u"))] [] [] [] ["u"] [] [plain (Var "b")]
    [mkConstr (Var "u") (Some (Opp (Var "a"))) (Some (Var "b")) (Some (Var "a")) "epstrig"] [] [] []
    (Cst 0) (Var "b") (Cst 0) ["eps"]
    [mkQuant "a" (Add (Var "b") (Cst 1)) []; mkQuant "b" (Mul (Var "x") (Var "x")) []]
    [mkSwitch "s" [Var "a"] [[Var "b"]] (Var "eps") None] [] None [] false false) with
  | Ok p => p | Raise _ => ex_prob [] [] end.
Example C30_ex :
  p_symp ex_quants = true /\ acyclic (quant_map ex_quants) /\ NoDup (map q_name (p_quants ex_quants)) /\
  Forall (fun s => sw_sym s <> None) (p_switches ex_quants) /\
  exists p', apply_quantities ex_quants = Ok p' /\
    p_states p' = [("x", Mul (Add (Mul (Var "x") (Var "x")) (Cst 1)) (Var "u"))].
Proof.
  split; [reflexivity|]. split; [|split; [|split]].
  - exists (fun s => if String.eqb s "a" then 1 else 0).
    intros k v [E|[E|[]]]; injection E as <- <-; simpl; intros y Hy Hk.
    + destruct Hy as [<-|[]]. simpl. lia.
    + destruct Hy as [<-|[<-|[]]]; destruct Hk as [E|[E|[]]]; discriminate.
  - simpl. repeat constructor; simpl; intuition discriminate.
  - simpl. repeat constructor. discriminate.
  - eexists. split; [vm_compute; reflexivity|]. reflexivity.
Qed.

(** Refutation for activators: they are not substituted, so the next step puts
    the quantity name back into the cost. *)
Theorem C30_activator_refuted : exists p p1 p2 q,
  acyclic (quant_map p) /\ In q (p_quants p) /\
  apply_quantities p = Ok p1 /\ eps_trig p1 = Ok p2 /\
  ~ In (q_name q) (vars (p_cost_p p1)) /\ In (q_name q) (vars (p_cost_p p2)).
Proof.
  exists ex_quants. do 2 eexists. exists (mkQuant "a" (Add (Var "b") (Cst 1)) ["b"]).
  split; [apply C30_ex|]. split; [left; reflexivity|].
  split; [vm_compute; reflexivity|]. split; [vm_compute; reflexivity|].
  split; vm_compute; intuition discriminate.
Qed.

Print Assumptions C25_utm_adds_penalties.
Print Assumptions C25_eps_trig_bounds_control.
Print Assumptions C25_misplaced_epstrig_rejected.
Print Assumptions C25_unknown_method_rejected.
Print Assumptions C25_one_sided_path_ignored.
Print Assumptions C25_one_sided_path_refuted.
Print Assumptions C25_one_sided_terminal_refuted.
Print Assumptions C26_constraint_stage.
Print Assumptions C30_quantities_eliminated.
Print Assumptions C30_activator_refuted.
