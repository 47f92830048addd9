(** C99: the generated functions mention only their arguments.

    The functions compiled from the boundary value problem (rates, quadratures,
    boundary conditions, control law) unpack states, quadratures, parameters and
    constants; any other name in them is a NameError when the solver calls them.
    If every name the user wrote is declared, no such name is left: the switches,
    the independent variable (with the momentum shift), the adjoints and the
    multipliers all become arguments. *)
From Coq Require Import Reals Lia Lra.
From Coquelicot Require Import Coquelicot.
From Verif Require Import Base Base_Facts Sym_Expr Sym_Facts Sym_Model Sym_Lu Sym_Dual Swi_Proofs Args_Proofs Args_Steps.
From Verif Require Import Map_Model Map_More Jac_Model Unit_Model.
From Verif Require Jac_Proofs Jac_Properties.
From Verif Require Import Sym_Model.
Open Scope string_scope.
Open Scope list_scope.
Open Scope nat_scope.

(** Names the user may write; the independent variable only if it is made a state
    (option do_momentum_shift). *)
Definition usable (o : options) (p : prob) (x : string) : Prop :=
  In x (syms (p_states p)) \/ In x (p_controls p) \/ In x (p_params p) \/ In x (p_consts p) \/ In x (map sw_name (p_switches p)) \/ (o_shift o = true /\ x = p_ind p).
(** A problem as the user writes it.  Switches are defined without circles
    ([rank]), their names and the bounds of trigonometric constraints use no
    generated names; such bounds contain no controls and no switches. *)
Record named (o : options) (rank : string -> nat) (p : prob) : Prop := mkNamed {
  nm_states : forall s, In s (p_states p) -> only (usable o p) (snd s);
  nm_cost : only (usable o p) (p_cost_i p) /\ only (usable o p) (p_cost_p p) /\ only (usable o p) (p_cost_t p);
  nm_constr : forall c, In c (all_constraints p) -> only_constr (usable o p) c;
  nm_act : forall c a, In c (all_constraints p) -> c_act c = Some a -> only (fun x => In x (p_consts p)) a;
  nm_trig : forall c e x, In c (p_cp p) -> is_method "epstrig" c = true -> c_lower c = Some e \/ c_upper c = Some e -> In x (vars e) ->
    ~ In x (p_controls p) /\ ~ In x (map sw_name (p_switches p)) /\ forall s, x <> ("_" ++ s)%string;
  nm_switch : forall s e, In s (p_switches p) -> e = sw_tol s \/ In e (sw_funs s) \/ In e (concat (sw_conds s)) -> only (usable o p) e;
  nm_order : forall s e y, In s (p_switches p) -> e = sw_tol s \/ In e (sw_funs s) \/ In e (concat (sw_conds s)) -> In y (vars e) -> In y (map sw_name (p_switches p)) -> rank y < rank (sw_name s);
  nm_plain : forall y s, In y (map sw_name (p_switches p)) -> y <> ("_" ++ s)%string;
  nm_start : p_costates p = [] /\ p_coparams p = [] /\ p_quads p = [] /\ p_cadj p = [] /\ p_ham p = None /\ p_law p = [] }.
(** Solutions give one expression per unknown, free of unknowns and of new symbols. *)
Definition solve_closed (solve : list expr -> list string -> list (list expr)) : Prop :=
  forall es us sol, In sol (solve es us) -> length sol = length us /\ forall e x, In e sol -> In x (vars e) -> ~ In x us /\ exists g, In g es /\ In x (vars g).

Lemma switch_vars s y : In y (vars (rashs_func s)) -> exists e, (e = sw_tol s \/ In e (sw_funs s) \/ In e (concat (sw_conds s))) /\ In y (vars e).
Proof.
  unfold rashs_func. intros I. apply vars_Sum in I as [[]|(e & J & I)]. apply in_map_iff in J as ((f, cs) & <- & J). apply in_comb in J as (J1 & J2). cbn [fst snd] in I. cbn [vars] in I. apply in_app_iff in I as [I|I]; [|exists f; auto].
  unfold rashs_weight in I. apply vars_Sum in I as [[]|(w & K & I)]. apply in_map_iff in K as (c & <- & K). unfold Div in I. cbn in I. rewrite in_app_iff in I. destruct I as [I|I]; [|eauto]. exists c. split; [|exact I]. do 2 right. apply in_concat. eauto.
Qed.
Lemma named_ready o rank p p1 : named o rank p -> sympify p = Ok p1 ->
  ready rank (fun x => In x (map sw_name (p_switches p)) \/ (o_shift o = true /\ x = p_ind p)) p1 /\ map sw_name (p_switches p1) = map sw_name (p_switches p) /\ p_ind p1 = p_ind p /\ p_law p1 = [].
Proof.
  intros [N1 (N2 & N3 & N4) N5 N6 N7 N8 N9 N10 (S1 & S2 & S3 & S4 & S5 & S6)] H. unfold sympify in H. cbn [set_symp set_switches set_quants p_states] in H. destruct (p_states p) eqn:ES; [discriminate|]. rewrite <- ES in *. clear ES.
  apply Ok_inj in H. set (A := fun x => _ \/ _).
  assert (SN : map sw_name (p_switches p1) = map sw_name (p_switches p)) by (subst p1; cbn; rewrite map_map; reflexivity).
  assert (UD : forall x, usable o p x -> declared_along A p1 x) by (intros x K; subst p1; unfold usable in K; unfold declared_along, along, A; cbn; tauto).
  assert (UE : forall x, usable o p x -> declared_ends A p1 x) by (intros x K; destruct (UD x K) as [J|J]; [left; now left|now right]).
  split; [|split; [exact SN|subst p1; cbn; auto]]. constructor.
  - subst p1. constructor; cbn [set_symp set_switches set_quants p_states p_costates p_coparams p_quads p_cost_p p_cost_i p_cost_t p_cp p_ci p_ct p_switches p_ham p_consts].
    + rewrite S1, S2, S3, !app_nil_r. intros s I. now apply (only_mono (usable o p)); [apply N1|].
    + now apply (only_mono (usable o p)).
    + now apply (only_mono (usable o p)).
    + now apply (only_mono (usable o p)).
    + intros c I. apply (only_constr_mono (usable o p)); [|exact UD]. apply N5. unfold all_constraints. rewrite !in_app_iff. auto.
    + intros c I. apply (only_constr_mono (usable o p)); [|exact UE]. apply N5. unfold all_constraints. rewrite !in_app_iff in *. tauto.
    + intros c a I. apply N6. exact I.
    + intros s f I E. apply in_map_iff in I as (b & <- & I). cbn in E. injection E as <-. intros y V. apply switch_vars in V as (e & K & V). apply UD. exact (N8 b e I K y V).
    + intros s I. apply in_map_iff in I as (b & <- & I). discriminate.
    + rewrite S5. discriminate.
  - intros c e x I M E V. rewrite SN. subst p1. exact (N7 c e x I M E V).
  - constructor; rewrite SN; [|exact N10]. intros s f y I E V W. subst p1. cbn in I. apply in_map_iff in I as (b & <- & I). cbn in E. injection E as <-. apply switch_vars in V as (e & K & V). cbn. exact (N9 b e y I K V W).
  - subst p1. cbn. auto.
Qed.

Lemma law_subs x n p : p_law (subs_all x n p) = p_law p.
Proof. reflexivity. Qed.
Lemma maps_law p m : p_law (set_maps p m) = p_law p /\ p_switches (set_maps p m) = p_switches p.
Proof. split; reflexivity. Qed.
Lemma eps_names p q : eps_trig p = Ok q -> map sw_name (p_switches q) = map sw_name (p_switches p) /\ p_law q = p_law p.
Proof.
  intros H. unfold eps_trig in H. destruct (p_symp p); [|discriminate]. destruct (find_at _ _) as [(k, c)|]; [|discriminate]. cbv zeta in H. destruct (c_expr c); try discriminate H. destruct (index_of _ _); [|discriminate]. destruct (set_nth _ _ _); [|discriminate]. cbn [bind] in H.
  destruct (c_act c); [|discriminate]. destruct (c_lower c); [|discriminate]. destruct (c_upper c); [|discriminate]. apply Ok_inj in H. subst q. rewrite (proj1 (maps_law _ _)), (proj2 (maps_law _ _)), law_subs, names_subs. split; reflexivity.
Qed.
Lemma utm_names p q : utm p = Ok q -> p_switches q = p_switches p /\ p_law q = p_law p.
Proof.
  intros H. unfold utm in H. destruct (p_symp p); [|discriminate]. destruct (find_at utm_sel (p_ci p)) as [(k, c)|].
  - destruct (utm_term p c); [|discriminate]. cbn [bind] in H. apply Ok_inj in H. subst q. split; reflexivity.
  - destruct (find_at utm_sel (p_cp p)) as [(k, c)|].
    + destruct (utm_term p c); [|discriminate]. cbn [bind] in H. apply Ok_inj in H. subst q. split; reflexivity.
    + destruct (find_at utm_sel (p_ct p)) as [(k, c)|]; [|discriminate]. destruct (utm_term p c); [|discriminate]. cbn [bind] in H. apply Ok_inj in H. subst q. split; reflexivity.
Qed.
Lemma keep_names f lu solve p q : f = FEps \/ f = FUtm -> apply_tf lu solve f p = Ok q -> map sw_name (p_switches q) = map sw_name (p_switches p) /\ p_law q = p_law p.
Proof.
  intros [ ->| ->] H; cbn in H; [now apply eps_names|]. apply utm_names in H as (-> & ->). split; reflexivity.
Qed.
Lemma constraint_two : forall cs l, constraint_tfs cs = Ok l -> Forall (fun f => f = FEps \/ f = FUtm) l.
Proof.
  induction cs as [|c cs IH]; intros l H; cbn in H; [apply Ok_inj in H; subst l; constructor|]. destruct (two_sided c); [|now apply IH]. destruct (is_method "epstrig" c).
  - destruct (constraint_tfs cs) as [r|]; [|discriminate]. cbn [bind] in H. apply Ok_inj in H. subst l. constructor; [now left|now apply IH].
  - destruct (is_method "utm" c); [|discriminate]. destruct (constraint_tfs cs) as [r|]; [|discriminate]. cbn [bind] in H. apply Ok_inj in H. subst l. constructor; [now right|now apply IH].
Qed.
Lemma run_split lu solve : forall a b p q, run_tfs lu solve (a ++ b) p = Ok q -> exists m, run_tfs lu solve a p = Ok m /\ run_tfs lu solve b m = Ok q.
Proof. induction a as [|f a IH]; intros b p q H; cbn in *; [now exists p|]. destruct (apply_tf lu solve f p) as [p'|]; [|discriminate]. cbn [bind] in *. now apply IH. Qed.
Lemma ready_run rank A lu solve : forall fs p q, Forall (fun f => f = FEps \/ f = FUtm) fs -> ready rank A p -> run_tfs lu solve fs p = Ok q ->
  ready rank A q /\ map sw_name (p_switches q) = map sw_name (p_switches p) /\ p_law q = p_law p.
Proof.
  induction fs as [|f fs IH]; intros p q F R H; cbn in H; [apply Ok_inj in H; subst q; auto|]. destruct (apply_tf lu solve f p) as [p'|] eqn:E; [|discriminate]. cbn [bind] in H. apply Forall_cons_iff in F as (F1 & F2).
  assert (R' : ready rank A p') by (destruct F1 as [ ->| ->]; [now apply (ready_eps rank A p)|now apply (ready_utm rank A p)]). destruct (keep_names f lu solve p p' F1 E) as (K1 & K2). destruct (IH p' q F2 R' H) as (Q1 & Q2 & Q3). split; [exact Q1|]. split; congruence.
Qed.

(** The control law fits the arguments of the compiled control function. *)
Definition law_fits (p : prob) : Prop := forall sol, In sol (p_law p) -> length sol = length (p_controls p) /\
  forall e, In e sol -> only (fun x => In x (syms (p_states p)) \/ In x (syms (p_costates p)) \/ In x (p_params p) \/ In x (p_consts p)) e.
Lemma rashs_law p q : rashs p = Ok q -> p_law q = p_law p.
Proof.
  unfold rashs. destruct (p_symp p); [|discriminate]. intros H. apply Ok_inj in H. subst q. generalize (seq 0 (length (p_switches p))) as l. intros l. revert p. induction l as [|i l IH]; intros p; cbn; [reflexivity|].
  rewrite IH. unfold rashs_at. destruct (nth_error _ _) as [s|]; [|reflexivity]. now destruct (sw_sym s).
Qed.
Lemma dual_law lu m p q : dualize lu m p = Ok q -> p_law q = p_law p.
Proof.
  unfold dualize. destruct (p_symp p); [|discriminate]. cbv zeta. destruct (String.eqb (lower m) "traditional"); [|destruct (String.eqb (lower m) "diffyg")]; cbn [bind].
  - intros H. apply Ok_inj in H. now subst q.
  - unfold costates_diffyg. destruct (negb _); [discriminate|]. destruct (ham_field _ _ _ _); [|discriminate]. cbn [bind]. intros H. apply Ok_inj in H. now subst q.
  - intros H. apply Ok_inj in H. now subst q.
Qed.
Lemma diff_law lu m p q : differential_control lu m p = Ok q -> p_law q = p_law p /\ p_controls q = [].
Proof.
  unfold differential_control. destruct (p_dual p); [|discriminate]. destruct (p_ham p); [|discriminate]. cbv zeta. destruct (lu _ _); [|discriminate]. cbn [bind]. destruct (String.eqb (lower m) "traditional").
  - intros H. apply Ok_inj in H. now subst q.
  - destruct (String.eqb (lower m) "diffyg"); [|discriminate]. destruct (negb _); [discriminate|]. destruct (ham_field _ _ _ _); [|discriminate]. cbn [bind]. intros H. apply Ok_inj in H. now subst q.
Qed.
Lemma alg_fits solve p q : solve_closed solve -> whole p -> algebraic_control solve p = Ok q -> law_fits q.
Proof.
  intros SC W H. unfold algebraic_control in H. destruct (p_dual p); [|discriminate]. destruct (p_ham p) as [h|] eqn:EH; [|discriminate]. apply Ok_inj in H. subst q. intros sol I. cbn in I |- *. destruct (SC _ _ _ I) as (L & K). split; [exact L|].
  intros e J x V. destruct (K e x J V) as (NU & g & G & VG). apply in_map_iff in G as (u & <- & _). apply vars_diff in VG. assert (AL := ln_ham _ _ _ W h EH x VG). unfold along in AL. tauto.
Qed.
Lemma norm_fits p q : law_fits p -> normalize_time None p = Ok q -> law_fits q.
Proof.
  intros LF H. unfold normalize_time in H. destruct (p_symp p); [|discriminate]. cbv zeta in H. apply Ok_inj in H. subst q. intros sol I. cbn [set_maps set_ind set_cost_p set_costates set_states set_params p_law p_controls p_states p_costates p_params p_consts] in *. destruct (LF sol I) as (L & K). split; [exact L|].
  intros e J. apply (only_mono _ _ _ (K e J)). intros x. rewrite !scaled_syms, in_app_iff. tauto.
Qed.
Lemma squash_fits p q : law_fits p -> squash p = Ok q -> law_fits q.
Proof.
  intros LF H. unfold squash in H. cbv zeta in H. apply Ok_inj in H. subst q. intros sol I. cbn in *. destruct (LF sol I) as (L & K). split; [exact L|]. intros e J. apply (only_mono _ _ _ (K e J)). intros x. rewrite syms_app, in_app_iff. tauto.
Qed.
Lemma norm_controls p q : normalize_time None p = Ok q -> p_controls q = p_controls p /\ p_law q = p_law p.
Proof. unfold normalize_time. destruct (p_symp p); [|discriminate]. cbv zeta. intros H. apply Ok_inj in H. now subst q. Qed.

Lemma indirect_whole lu solve o rank p p1 fs q : lu_closed lu -> solve_closed solve -> named o rank p -> sympify p = Ok p1 -> make_indirect o p = Ok fs -> run_tfs lu solve fs p1 = Ok q ->
  whole q /\ law_fits q /\ p_costates q = [] /\ p_coparams q = [] /\ p_cadj q = [] /\ (lower (o_control o) = "differential" -> p_controls q = [] /\ p_law q = []).
Proof.
  intros LC SC NM SY MK RUN. destruct (named_ready o rank p p1 NM SY) as (R1 & SN1 & IND & LAW1).
  unfold make_indirect in MK. destruct (constraint_tfs (all_constraints p)) as [cons|] eqn:EC; [|discriminate]. cbn [bind] in MK. apply constraint_two in EC.
  destruct (if String.eqb (lower (o_control o)) "algebraic" then _ else _) as [ctl|] eqn:ECT; [|discriminate]. cbn [bind] in MK. apply Ok_inj in MK. subst fs.
  set (names := map sw_name (p_switches p)) in *.
  apply run_split in RUN as (p2 & E2 & RUN). apply run_split in RUN as (p3 & E3 & RUN). apply run_split in RUN as (p4 & E4 & RUN). apply run_split in RUN as (p5 & E5 & RUN). apply run_split in RUN as (p6 & E6 & RUN). apply run_split in RUN as (p7 & E7 & RUN). apply run_split in RUN as (p8 & E8 & RUN).
  assert (R2 : ready rank (fun x => In x names) p2 /\ map sw_name (p_switches p2) = names /\ p_law p2 = []).
  { destruct (o_shift o) eqn:ESH.
    - cbn [run_tfs apply_tf] in E2. destruct (momentum_shift None p1) as [p2'|] eqn:EM; [|discriminate]. cbn [bind] in E2. apply Ok_inj in E2. subst p2'. split; [|split].
      + apply (ready_momentum rank _ _ p1 p2 R1); [|exact EM]. intros x [K|(_ & K)]; [now left|right; congruence].
      + unfold momentum_shift in EM. destruct (p_symp p1); [|discriminate]. apply Ok_inj in EM. subst p2. exact SN1.
      + unfold momentum_shift in EM. destruct (p_symp p1); [|discriminate]. apply Ok_inj in EM. subst p2. exact LAW1.
    - cbn in E2. apply Ok_inj in E2. subst p2. split; [|auto]. destruct R1 as [RL RS RR RF]. constructor; [|assumption..]. apply (lines_mono _ _ _ _ p1 RL).
      + intros x [K|[K|(K & _)]]; [now left|now right|discriminate K].
      + intros x [K|[K|(K & _)]]; [now left|now right|discriminate K]. }
  destruct R2 as (R2 & SN2 & LAW2). destruct (ready_run rank _ lu solve cons p2 p3 EC R2 E3) as (R3 & SN3 & LAW3). rewrite SN2 in SN3. rewrite LAW2 in LAW3.
  assert (W4 : whole p4 /\ fresh p4 /\ p_law p4 = []).
  { destruct (Nat.ltb 0 (length (p_switches p))) eqn:ESW.
    - cbn [run_tfs apply_tf] in E4. destruct (rashs p3) as [p4'|] eqn:ER; [|discriminate]. cbn [bind] in E4. apply Ok_inj in E4. subst p4'. assert (LW := rashs_law _ _ ER). rewrite <- SN3 in R3. destruct (ready_rashs rank p3 p4 R3 ER). rewrite LW. auto.
    - cbn in E4. apply Ok_inj in E4. subst p4. assert (names = []) as NN by (unfold names; destruct (p_switches p); [reflexivity|discriminate ESW]). rewrite NN in R3. destruct R3 as [RL RS RR RF]. split; [|split; [exact RF|exact LAW3]]. apply (lines_mono _ _ _ _ p3 RL).
      + intros x [K|[]]. exact K.
      + intros x [K|[]]. exact K. }
  destruct W4 as (W4 & F4 & LAW4).
  cbn [run_tfs apply_tf] in E5. destruct (dualize lu (o_method o) p4) as [p5'|] eqn:ED; [|discriminate]. cbn [bind] in E5. apply Ok_inj in E5. subst p5'. assert (W5 := whole_dual lu _ p4 p5 LC W4 F4 ED). assert (LAW5 := dual_law _ _ _ _ ED). rewrite LAW4 in LAW5.
  assert (W6 : whole p6 /\ law_fits p6 /\ (lower (o_control o) = "differential" -> p_controls p6 = [] /\ p_law p6 = [])).
  { destruct (String.eqb (lower (o_control o)) "algebraic") eqn:EA.
    - apply Ok_inj in ECT. subst ctl. cbn [run_tfs apply_tf] in E6. destruct (algebraic_control solve p5) as [p6'|] eqn:EG; [|discriminate]. cbn [bind] in E6. apply Ok_inj in E6. subst p6'. split; [now apply (whole_alg solve p5)|]. split; [now apply (alg_fits solve p5)|].
      intros K. rewrite K in EA. discriminate EA.
    - destruct (String.eqb (lower (o_control o)) "differential"); [|discriminate]. apply Ok_inj in ECT. subst ctl. cbn [run_tfs apply_tf] in E6. destruct (differential_control lu (o_method o) p5) as [p6'|] eqn:EG; [|discriminate]. cbn [bind] in E6. apply Ok_inj in E6. subst p6'.
      destruct (diff_law _ _ _ _ EG) as (L6 & C6). rewrite LAW5 in L6. split; [now apply (whole_diff lu (o_method o) p5)|]. split; [|auto]. intros sol I. rewrite L6 in I. destruct I. }
  destruct W6 as (W6 & L6 & D6).
  assert (W7 : whole p7 /\ law_fits p7 /\ (lower (o_control o) = "differential" -> p_controls p7 = [] /\ p_law p7 = [])).
  { destruct (o_norm o); cbn [run_tfs apply_tf] in E7; [|apply Ok_inj in E7; subst p7; auto]. destruct (normalize_time None p6) as [p7'|] eqn:EN; [|discriminate]. cbn [bind] in E7. apply Ok_inj in E7. subst p7'. destruct (norm_controls _ _ EN) as (C1 & C2).
    split; [now apply (whole_norm p6)|]. split; [now apply (norm_fits p6)|]. rewrite C1, C2. exact D6. }
  destruct W7 as (W7 & L7 & D7).
  assert (ES : squash p7 = Ok p8) by exact E8.
  assert (Q8 : q = p8) by (destruct (_ && _); cbn in RUN; now apply Ok_inj in RUN). subst q.
  destruct (whole_squash _ _ W7 ES) as (W8 & C1 & C2 & C3). split; [exact W8|]. split; [now apply (squash_fits p7)|]. split; [exact C1|]. split; [exact C2|]. split; [exact C3|].
  intros K. unfold squash in ES. cbv zeta in ES. apply Ok_inj in ES. rewrite <- ES. exact (D7 K).
Qed.

(** ** The compiled functions *)
Lemma call_fits fn groups es vals : length groups = length vals -> (forall g v, In (g, v) (combine groups vals) -> length g = length v) -> (forall e, In e es -> only (fun x => In x (concat groups)) e) ->
  call fn groups es vals = Ok (map (eval fn (env (concat groups) (concat vals))) es).
Proof.
  intros L F V. unfold call. replace (fits groups vals) with true.
  - replace (forallb _ es) with true; [reflexivity|]. symmetry. apply forallb_forall. intros e I. apply forallb_forall. intros x J. apply mem_In. exact (V e I x J).
  - symmetry. unfold fits. rewrite L, Nat.eqb_refl. cbn. apply forallb_forall. intros (g, v) I. cbn. apply Nat.eqb_eq. now apply F.
Qed.
Lemma law_length fn q f y pp k : law_fits q -> law_control fn q = Some f -> length (f y pp k) = length (p_controls q).
Proof.
  intros LF E. unfold law_control in E. remember (p_law q) as law eqn:EL. destruct law as [|s l]; [discriminate|]. match type of E with Some ?g = Some ?h => assert (EF : g = h) by congruence end. rewrite <- EF. clear E EF. cbv beta zeta.
  destruct (pick_control_spec (fun c => match p_ham q with Some h => eval fn (env (concat (dyn_groups q true)) (y ++ c ++ pp ++ k)) h | None => 0%R end)
    (map (map (eval fn (env (concat (dyn_groups q false)) (y ++ pp ++ k)))) (s :: l))) as (v & j & -> & N & _); [discriminate|].
  apply nth_error_In in N. apply in_map_iff in N as (sol & <- & I). rewrite map_length. apply LF. now rewrite <- EL.
Qed.

(** The functions of the boundary value problem [q], with the control law [cu],
    return on all arguments of the right lengths. *)
Definition callable (fn : string -> nat -> R -> R) (q : prob) (cu : option (list R -> list R -> list R -> list R)) : Prop :=
  forall y0 yf q0 qf pp pc k, length y0 = length (p_states q) -> length yf = length (p_states q) -> length q0 = length (p_quads q) -> length qf = length (p_quads q) ->
    length pp = length (p_params q) -> length pc = length (p_cpars q) -> length k = length (p_consts q) ->
    (exists v, deriv_func fn q cu y0 None pp k = Ok v /\ length v = length y0) /\
    (exists v, quad_func fn q cu y0 None pp k = Ok v /\ length v = length q0) /\
    (exists v, bc_func fn q cu y0 q0 yf qf pp pc k = Ok v /\ length v = length (p_ci q) + length (p_ct q)).

Theorem C99_called : forall lu solve o rank p p1 fs q fn,
  lu_closed lu -> solve_closed solve -> named o rank p -> sympify p = Ok p1 -> make_indirect o p = Ok fs -> run_tfs lu solve fs p1 = Ok q ->
  (lower (o_control o) = "algebraic" -> p_law q <> []) ->
  callable fn q (law_control fn q).
Proof.
  intros lu solve o rank p p1 fs q fn LC SC NM SY MK RUN LW. destruct (indirect_whole lu solve o rank p p1 fs q LC SC NM SY MK RUN) as (W & LF & C1 & C2 & C3 & DF).
  assert (CT : p_law q = [] -> p_controls q = []).
  { intros E. unfold make_indirect in MK. destruct (constraint_tfs _); [|discriminate]. cbn [bind] in MK. destruct (String.eqb (lower (o_control o)) "algebraic") eqn:EA; [apply String.eqb_eq in EA; now elim (LW EA)|].
    destruct (String.eqb (lower (o_control o)) "differential") eqn:ED; [|discriminate]. apply String.eqb_eq in ED. exact (proj1 (DF ED)). }
  intros y0 yf q0 qf pp pc k Y0 YF Q0 QF P PC K.
  assert (LU : forall y, match law_control fn q with Some f => length (f y pp k) = length (p_controls q) | None => p_controls q = [] end).
  { intros y. destruct (law_control fn q) as [f|] eqn:E; [now apply (law_length fn q f)|]. apply CT. unfold law_control in E. destruct (p_law q); [reflexivity|discriminate E]. }
  assert (LS : length (states q) = length (p_states q)) by apply map_length. assert (LQ : length (quads q) = length (p_quads q)) by apply map_length.
  assert (DYN : forall es y, length y = length (p_states q) -> (forall e, In e es -> only (along q) e) -> let u := control_of (law_control fn q) y None pp k in exists v, call fn (dyn_groups q (is_some u)) es (dyn_vals y u pp k) = Ok v /\ length v = length es).
  { intros es y Y OE u. specialize (LU y). unfold control_of in u. destruct (law_control fn q) as [f|]; subst u; (eexists; split; [apply call_fits|apply map_length]).
    - reflexivity.
    - cbn. intros g v [E|[E|[E|[E|[]]]]]; injection E as <- <-; congruence.
    - intros e I x V. specialize (OE e I x V). cbn. unfold along in OE. rewrite C1 in OE. rewrite !in_app_iff. unfold states. cbn in OE. tauto.
    - reflexivity.
    - cbn. intros g v [E|[E|[E|[]]]]; injection E as <- <-; congruence.
    - intros e I x V. specialize (OE e I x V). cbn. unfold along in OE. rewrite C1, LU in OE. rewrite !in_app_iff. unfold states. cbn in OE. tauto. }
  assert (BCS : forall cs y qq, length y = length (p_states q) -> length qq = length (p_quads q) -> (forall c, In c cs -> only (at_ends q) (c_expr c)) -> let u := match law_control fn q with Some f => Some (f y pp k) | None => None end in
    let c := match law_control fn q with Some _ => true | None => false end in exists v, call fn (bc_groups q c) (bc_exprs cs) (bc_vals q y qq u pp pc k) = Ok v /\ length v = length cs).
  { intros cs y qq Y QQ OE u c. specialize (LU y).
    assert (OX : forall e, In e (bc_exprs cs) -> only (at_ends q) e) by (intros e I; apply in_map_iff in I as (d & <- & I); now apply OE).
    destruct (law_control fn q) as [f|]; subst u c; (eexists; split; [apply call_fits|unfold bc_exprs; now rewrite !map_length]); unfold bc_groups, bc_vals; destruct (with_quads q) eqn:WQ.
    - reflexivity.
    - reflexivity.
    - cbn. intros g v [E|[E|[E|[E|[E|[E|[]]]]]]]; injection E as <- <-; congruence.
    - cbn. intros g v [E|[E|[E|[E|[E|[]]]]]]; injection E as <- <-; congruence.
    - intros e I x V. specialize (OX e I x V). cbn. unfold at_ends, along in OX. rewrite C1, C2, C3 in OX. rewrite !in_app_iff. unfold states, quads. cbn in OX. tauto.
    - intros e I x V. specialize (OX e I x V). assert (QN : syms (p_quads q) = []) by (unfold with_quads, quads in WQ; destruct (syms (p_quads q)); [reflexivity|discriminate WQ]).
      cbn. unfold at_ends, along in OX. rewrite C1, C2, C3, QN in OX. rewrite !in_app_iff. unfold states. cbn in OX. tauto.
    - reflexivity.
    - reflexivity.
    - cbn. intros g v [E|[E|[E|[E|[E|[]]]]]]; injection E as <- <-; congruence.
    - cbn. intros g v [E|[E|[E|[E|[]]]]]; injection E as <- <-; congruence.
    - intros e I x V. specialize (OX e I x V). cbn. unfold at_ends, along in OX. rewrite C1, C2, C3, LU in OX. rewrite !in_app_iff. unfold states, quads. cbn in OX. tauto.
    - intros e I x V. specialize (OX e I x V). assert (QN : syms (p_quads q) = []) by (unfold with_quads, quads in WQ; destruct (syms (p_quads q)); [reflexivity|discriminate WQ]).
      cbn. unfold at_ends, along in OX. rewrite C1, C2, C3, QN, LU in OX. rewrite !in_app_iff. unfold states. cbn in OX. tauto. }
  split; [|split].
  - destruct (DYN (eoms (p_states q)) y0 Y0) as (v & E & L); [intros e I; apply in_map_iff in I as (s & <- & I); apply (ln_dyn _ _ _ W); rewrite !in_app_iff; auto|]. exists v. split; [exact E|]. rewrite L, Y0. apply map_length.
  - destruct (DYN (eoms (p_quads q)) y0 Y0) as (v & E & L); [intros e I; apply in_map_iff in I as (s & <- & I); apply (ln_dyn _ _ _ W); rewrite !in_app_iff; auto|]. exists v. split; [exact E|]. rewrite L, Q0. apply map_length.
  - destruct (BCS (p_ci q) y0 q0 Y0 Q0) as (v & E & L); [intros c I; apply (ln_ends _ _ _ W), in_app_iff; now left|]. destruct (BCS (p_ct q) yf qf YF QF) as (w & F & M); [intros c I; apply (ln_ends _ _ _ W), in_app_iff; now right|].
    exists (v ++ w). unfold bc_func. cbv zeta in E, F |- *. rewrite E. cbn [bind]. rewrite F. cbn [bind]. split; [reflexivity|]. rewrite app_length. congruence.
Qed.
Print Assumptions C99_called.

(** The options of the control law mention only the states, parameters and
    constants handed to the control function; the Hamiltonian that chooses among
    them mentions the controls besides. *)
Theorem C99_law : forall lu solve o rank p p1 fs q,
  lu_closed lu -> solve_closed solve -> named o rank p -> sympify p = Ok p1 -> make_indirect o p = Ok fs -> run_tfs lu solve fs p1 = Ok q ->
  (forall sol, In sol (p_law q) -> length sol = length (p_controls q) /\ forall e x, In e sol -> In x (vars e) -> In x (concat (dyn_groups q false))) /\
  (forall h x, p_ham q = Some h -> In x (vars h) -> In x (concat (dyn_groups q true))) /\
  (lower (o_control o) = "differential" -> p_controls q = [] /\ p_law q = []).
Proof.
  intros lu solve o rank p p1 fs q LC SC NM SY MK RUN. destruct (indirect_whole lu solve o rank p p1 fs q LC SC NM SY MK RUN) as (W & LF & C1 & C2 & C3 & DF). split; [|split; [|exact DF]].
  - intros sol I. destruct (LF sol I) as (L & K). split; [exact L|]. intros e x J V. specialize (K e J x V). rewrite C1 in K. cbn in K |- *. rewrite !in_app_iff. unfold states. tauto.
  - intros h x E V. assert (AL := ln_ham _ _ _ W h E x V). unfold along in AL. rewrite C1 in AL. cbn in AL |- *. rewrite !in_app_iff. unfold states. tauto.
Qed.
Print Assumptions C99_law.

(** ** Analytical Jacobians *)
(** With the differential control law the boundary value problem is one to which the
    theorems on analytical Jacobians (C58, C70) apply: rates, boundary conditions and
    their derivatives mention only the arguments of the compiled Jacobians. *)
Theorem C99_known : forall lu solve o rank p p1 fs q,
  lu_closed lu -> solve_closed solve -> named o rank p -> sympify p = Ok p1 -> make_indirect o p = Ok fs -> run_tfs lu solve fs p1 = Ok q ->
  lower (o_control o) = "differential" -> Jac_Properties.bc_known q /\ Jac_Properties.dyn_known q.
Proof.
  intros lu solve o rank p p1 fs q LC SC NM SY MK RUN DI. destruct (indirect_whole lu solve o rank p p1 fs q LC SC NM SY MK RUN) as (W & LF & C1 & C2 & C3 & DF). destruct (DF DI) as (CT & _). split.
  - apply Forall_forall. intros c I x V. assert (K := proj1 (ln_ends _ _ _ W c I) x V). unfold at_ends, along in K. rewrite C1, C2, C3, CT in K. cbn in K. unfold Jac_Properties.symbols, states, quads. rewrite !in_app_iff. tauto.
  - apply Forall_forall. intros s I x V. assert (J : In s (p_states q ++ p_costates q ++ p_coparams q ++ p_quads q)) by (rewrite in_app_iff; now left). assert (K := ln_dyn _ _ _ W s J x V). unfold along in K. rewrite C1, CT in K. cbn in K. unfold Jac_Properties.dyn_symbols, states. rewrite !in_app_iff. tauto.
Qed.
Print Assumptions C99_known.
Theorem C99_jacobian : forall lu solve o rank p p1 fs q j (fn : string -> nat -> R -> R) y pp k,
  lu_closed lu -> solve_closed solve -> named o rank p -> sympify p = Ok p1 -> make_indirect o p = Ok fs -> run_tfs lu solve fs p1 = Ok q ->
  lower (o_control o) = "differential" -> o_norm o = true -> compute_jacobians q = Ok j ->
  (forall f n (x : R), is_derive (fn f n) x (fn f (S n) x)) -> NoDup (Jac_Properties.dyn_symbols q) ->
  length y = length (p_states q) -> length pp = length (p_params q) -> length k = length (p_consts q) ->
  (forall s, In s (p_states q) -> wd fn (env (Jac_Properties.dyn_symbols q) (y ++ pp ++ k)) (snd s)) ->
  exists v dy dp, deriv_func fn q None y None pp k = Ok v /\ deriv_jac fn q None j y pp k = Ok (dy, dp) /\
    (forall i, i < length y -> Jac_Properties.is_partial (length v) (fun s => deriv_func fn q None (Jac_Proofs.setn i s y) None pp k) (nth i y 0%R) dy i) /\
    (forall i, i < length pp -> Jac_Properties.is_partial (length v) (fun s => deriv_func fn q None y None (Jac_Proofs.setn i s pp) k) (nth i pp 0%R) dp i).
Proof.
  intros lu solve o rank p p1 fs q j fn y pp k LC SC NM SY MK RUN DI ON CJ SM ND Y P K WD.
  destruct (C99_known lu solve o rank p p1 fs q LC SC NM SY MK RUN DI) as (_ & DK).
  assert (PN : p_params q <> []).
  { unfold make_indirect in MK. destruct (constraint_tfs _) as [cons|]; [|discriminate]. cbn [bind] in MK. destruct (if String.eqb _ _ then _ else _) as [ctl|]; [|discriminate]. cbn [bind] in MK. apply Ok_inj in MK. subst fs. rewrite ON in RUN.
    do 5 apply run_split in RUN as (? & _ & RUN). apply run_split in RUN as (p7 & E7 & RUN). apply run_split in RUN as (p8 & E8 & RUN). assert (q = p8) as -> by (destruct (_ && _); cbn in RUN; now apply Ok_inj in RUN).
    cbn [run_tfs apply_tf] in E7. unfold normalize_time in E7. destruct (p_symp _); [|discriminate]. cbv zeta in E7. cbn [bind] in E7. apply Ok_inj in E7. cbn [run_tfs apply_tf bind] in E8. unfold squash in E8. cbv zeta in E8. apply Ok_inj in E8. rewrite <- E8. cbn [set_dual set_maps set_cadj set_cpars set_coparams set_quads set_costates set_states p_params].
    rewrite <- E7. cbn [set_maps set_ind set_cost_p set_costates set_states set_params p_params]. intros H. apply app_eq_nil in H as (_ & H). discriminate H. }
  assert (LS : length (states q) = length (p_states q)) by apply map_length.
  destruct (Jac_Properties.C70_jacobian fn q j y pp k SM CJ) as (v & dy & dp & H1 & H2 & _ & _ & _ & _ & _ & H3 & H4); try assumption; try congruence.
  - intros H. apply app_eq_nil in H as (H & _). contradiction.
  - apply Forall_forall. exact WD.
  - exists v, dy, dp. auto.
Qed.
Print Assumptions C99_jacobian.

(** ** The direct method *)
(** The rates get the controls as arguments; the boundary conditions do not, so they
    must not mention controls (nothing is claimed about them if they do). *)
Lemma direct_whole lu solve o rank p p1 fs q : named o rank p -> sympify p = Ok p1 -> make_direct o p = Ok fs -> run_tfs lu solve fs p1 = Ok q ->
  whole q /\ fresh q /\ p_law q = [].
Proof.
  intros NM SY MK RUN. destruct (named_ready o rank p p1 NM SY) as (R1 & SN1 & IND & LAW1).
  unfold make_direct in MK. destruct (constraint_tfs (all_constraints p)) as [cons|] eqn:EC; [|discriminate]. cbn [bind] in MK. apply constraint_two in EC. apply Ok_inj in MK. subst fs.
  set (names := map sw_name (p_switches p)) in *.
  apply run_split in RUN as (p2 & E2 & RUN). apply run_split in RUN as (p3 & E3 & RUN). apply run_split in RUN as (p4 & E4 & RUN). apply run_split in RUN as (p5 & E5 & RUN).
  assert (R2 : ready rank (fun x => In x names) p2 /\ map sw_name (p_switches p2) = names /\ p_law p2 = []).
  { destruct (o_shift o) eqn:ESH.
    - cbn [run_tfs apply_tf] in E2. destruct (momentum_shift None p1) as [p2'|] eqn:EM; [|discriminate]. cbn [bind] in E2. apply Ok_inj in E2. subst p2'. split; [|split].
      + apply (ready_momentum rank _ _ p1 p2 R1); [|exact EM]. intros x [K|(_ & K)]; [now left|right; congruence].
      + unfold momentum_shift in EM. destruct (p_symp p1); [|discriminate]. apply Ok_inj in EM. subst p2. exact SN1.
      + unfold momentum_shift in EM. destruct (p_symp p1); [|discriminate]. apply Ok_inj in EM. subst p2. exact LAW1.
    - cbn in E2. apply Ok_inj in E2. subst p2. split; [|auto]. destruct R1 as [RL RS RR RF]. constructor; [|assumption..]. apply (lines_mono _ _ _ _ p1 RL).
      + intros x [K|[K|(K & _)]]; [now left|now right|discriminate K].
      + intros x [K|[K|(K & _)]]; [now left|now right|discriminate K]. }
  destruct R2 as (R2 & SN2 & LAW2). destruct (ready_run rank _ lu solve cons p2 p3 EC R2 E3) as (R3 & SN3 & LAW3). rewrite SN2 in SN3. rewrite LAW2 in LAW3.
  assert (W4 : whole p4 /\ fresh p4 /\ p_law p4 = []).
  { destruct (Nat.ltb 0 (length (p_switches p))) eqn:ESW.
    - cbn [run_tfs apply_tf] in E4. destruct (rashs p3) as [p4'|] eqn:ER; [|discriminate]. cbn [bind] in E4. apply Ok_inj in E4. subst p4'. assert (LW := rashs_law _ _ ER). rewrite <- SN3 in R3. destruct (ready_rashs rank p3 p4 R3 ER). rewrite LW. auto.
    - cbn in E4. apply Ok_inj in E4. subst p4. assert (names = []) as NN by (unfold names; destruct (p_switches p); [reflexivity|discriminate ESW]). rewrite NN in R3. destruct R3 as [RL RS RR RF]. split; [|split; [exact RF|exact LAW3]]. apply (lines_mono _ _ _ _ p3 RL).
      + intros x [K|[]]. exact K.
      + intros x [K|[]]. exact K. }
  destruct W4 as (W4 & F4 & LAW4). assert (Q5 : q = p5) by (destruct (o_jac o); cbn in RUN; now apply Ok_inj in RUN). subst q.
  destruct (o_norm o); cbn [run_tfs apply_tf] in E5; [|apply Ok_inj in E5; subst p5; auto]. destruct (normalize_time None p4) as [p5'|] eqn:EN; [|discriminate]. cbn [bind] in E5. apply Ok_inj in E5. subst p5'. split; [now apply (whole_norm p4)|].
  unfold normalize_time in EN. destruct (p_symp p4); [|discriminate]. cbv zeta in EN. apply Ok_inj in EN. destruct F4 as (G1 & G2 & G3). rewrite <- EN. unfold fresh.
  cbn [set_maps set_ind set_cost_p set_costates set_states set_params p_costates p_coparams p_cadj p_law]. rewrite G1, G2, G3. auto.
Qed.
Theorem C99_direct : forall lu solve o rank p p1 fs q fn y u pp k,
  named o rank p -> sympify p = Ok p1 -> make_direct o p = Ok fs -> run_tfs lu solve fs p1 = Ok q ->
  length y = length (p_states q) -> length u = length (p_controls q) -> length pp = length (p_params q) -> length k = length (p_consts q) ->
  law_control fn q = None /\ (exists v, deriv_func fn q None y (Some u) pp k = Ok v /\ length v = length y) /\ exists v, path_cost fn q None y (Some u) pp k = Ok [v].
Proof.
  intros lu solve o rank p p1 fs q fn y u pp k NM SY MK RUN Y U P K. destruct (direct_whole lu solve o rank p p1 fs q NM SY MK RUN) as (W & (C1 & _ & _) & LW).
  assert (LS : length (states q) = length (p_states q)) by apply map_length.
  assert (DYN : forall es, (forall e, In e es -> only (along q) e) -> call fn (dyn_groups q true) es (dyn_vals y (Some u) pp k) = Ok (map (eval fn (env (concat (dyn_groups q true)) (concat (dyn_vals y (Some u) pp k)))) es)).
  { intros es OE. apply call_fits.
    - reflexivity.
    - cbn. intros g v [E|[E|[E|[E|[]]]]]; injection E as <- <-; congruence.
    - intros e I x V. specialize (OE e I x V). cbn. unfold along in OE. rewrite C1 in OE. rewrite !in_app_iff. unfold states. cbn in OE. tauto. }
  split; [unfold law_control; now rewrite LW|]. split.
  - eexists. split; [apply DYN|rewrite map_length, Y; apply map_length]. intros e I. apply in_map_iff in I as (s & <- & I). apply (ln_dyn _ _ _ W). rewrite !in_app_iff. auto.
  - eexists. unfold path_cost. cbn [control_of is_some]. rewrite DYN; [reflexivity|]. intros e [ <-|[]]. exact (ln_cost_p _ _ _ W).
Qed.
Print Assumptions C99_direct.

(** ** A solver with the contract *)
From Verif Require Import Shift_Properties.
Open Scope nat_scope.
Lemma aff_only us (A : string -> Prop) : forall e c d, aff us e = Some (c, d) -> only A e -> (forall a, In a (d :: c) -> only (fun x => A x /\ ~ In x us) a).
Proof.
  assert (FR : forall e, free_of us e = true -> only A e -> only (fun x => A x /\ ~ In x us) e).
  { intros e F O x V. split; [now apply O|]. intros U. exact (free_of_in us e x F U V). }
  assert (ZR : forall a, In a (zeros us) -> only (fun x => A x /\ ~ In x us) a) by (intros a I; apply in_map_iff in I as (u & <- & _); apply only_cst).
  induction e as [z| |x|e1 IH1 e2 IH2|e1 IH1 e2 IH2|e IH|e IH|e IH|e IH|e IH|f k e IH]; intros c d H O; cbn [aff] in H;
    (match type of H with (if ?b then _ else _) = _ => destruct b eqn:FB end; [injection H as <- <-; intros a [ <-|I]; [now apply FR|now apply ZR]|]); try discriminate H.
  - injection H as <- <-. intros a [ <-|I]; [apply only_cst|]. apply in_map_iff in I as (u & <- & _). destruct (String.eqb u x); apply only_cst.
  - destruct (aff us e1) as [(c1, d1)|]; [|discriminate]. destruct (aff us e2) as [(c2, d2)|]; [|discriminate]. injection H as <- <-.
    assert (O1 : only A e1) by (intros y V; apply O; cbn; apply in_app_iff; now left). assert (O2 : only A e2) by (intros y V; apply O; cbn; apply in_app_iff; now right).
    intros a [ <-|I]; [apply only_add; [apply (IH1 _ _ eq_refl O1); now left|apply (IH2 _ _ eq_refl O2); now left]|]. apply in_map_iff in I as ((u, v) & <- & I). apply in_comb in I as (I1 & I2). apply only_add; [apply (IH1 _ _ eq_refl O1); now right|apply (IH2 _ _ eq_refl O2); now right].
  - assert (O1 : only A e1) by (intros y V; apply O; cbn; apply in_app_iff; now left). assert (O2 : only A e2) by (intros y V; apply O; cbn; apply in_app_iff; now right).
    destruct (is_zero e1 || is_zero e2); [injection H as <- <-; intros a [ <-|I]; [apply only_cst|now apply ZR]|]. destruct (free_of us e1) eqn:F1.
    + destruct (aff us e2) as [(c2, d2)|]; [|discriminate]. injection H as <- <-. intros a I. assert (J : exists b, In b (d2 :: c2) /\ a = Mul e1 b) by (destruct I as [ <-|I]; [exists d2; split; [now left|reflexivity]|]; apply in_map_iff in I as (b & <- & I); exists b; split; [now right|reflexivity]).
      destruct J as (b & J & ->). apply only_mul; [now apply FR|exact (IH2 _ _ eq_refl O2 b J)].
    + destruct (free_of us e2) eqn:F2; [|discriminate]. destruct (aff us e1) as [(c2, d2)|]; [|discriminate]. injection H as <- <-. intros a I. assert (J : exists b, In b (d2 :: c2) /\ a = Mul e2 b) by (destruct I as [ <-|I]; [exists d2; split; [now left|reflexivity]|]; apply in_map_iff in I as (b & <- & I); exists b; split; [now right|reflexivity]).
      destruct J as (b & J & ->). apply only_mul; [now apply FR|exact (IH1 _ _ eq_refl O1 b J)].
  - destruct (aff us e) as [(c1, d1)|]; [|discriminate]. injection H as <- <-. assert (O1 : only A e) by exact O. intros a I. assert (J : exists b, In b (d1 :: c1) /\ a = Opp b) by (destruct I as [ <-|I]; [exists d1; split; [now left|reflexivity]|]; apply in_map_iff in I as (b & <- & I); exists b; split; [now right|reflexivity]).
    destruct J as (b & J & ->). apply only_opp. exact (IH _ _ eq_refl O1 b J).
Qed.
Lemma affs_in us : forall g rows r, affs us g = Some rows -> In r rows -> exists e, In e g /\ aff us e = Some r.
Proof.
  induction g as [|e g IH]; intros rows r H I; cbn in H; [injection H as <-; destruct I|]. destruct (aff us e) as [a|] eqn:EA; [|discriminate]. destruct (affs us g) as [rs|]; [|discriminate]. injection H as <-.
  destruct I as [ <-|I]; [exists e; split; [now left|exact EA]|]. destruct (IH rs r eq_refl I) as (b & J & K). exists b. split; [now right|exact K].
Qed.
Lemma affs_length us : forall g rows, affs us g = Some rows -> length rows = length g.
Proof. induction g as [|e g IH]; intros rows H; cbn in H; [now injection H as <-|]. destruct (aff us e); [|discriminate]. destruct (affs us g) as [rs|]; [|discriminate]. injection H as <-. cbn. now rewrite (IH rs). Qed.
Theorem C99_linear_solver : solve_closed (solve_linear lu_gauss).
Proof.
  intros es us sol I. unfold solve_linear in I. destruct (affs us es) as [rows|] eqn:EA; [|destruct I]. destruct (Nat.eqb (length es) (length us)) eqn:EL; [|destruct I]. apply Nat.eqb_eq in EL. destruct (lu_gauss _ _) as [x|] eqn:EG; [|destruct I]. destruct I as [ <-|[]].
  set (A := fun x => (exists g, In g es /\ In x (vars g)) /\ ~ In x us).
  assert (RW : forall r a, In r rows -> In a (snd r :: fst r) -> only A a).
  { intros (c, d) a I J. destruct (affs_in us es rows (c, d) EA I) as (e & IE & EE). apply (aff_only us (fun x => exists g, In g es /\ In x (vars g)) e c d EE); [|exact J]. intros y V. now exists e. }
  destruct (lu_only lu_gauss A _ _ _ lu_gauss_closed EG) as (L & K).
  - intros row a R J. apply in_map_iff in R as (r & <- & R). apply (RW r a R). now right.
  - intros c J. apply in_map_iff in J as (r & <- & J). apply only_opp. apply (RW r (snd r) J). now left.
  - split; [rewrite L, map_length, (affs_length us es rows EA); exact EL|]. intros e y J V. destruct (K e J y V) as (P & Q). split; [exact Q|exact P].
Qed.
Print Assumptions C99_linear_solver.

(** ** Examples *)
Definition ar_o (control method : string) (shift : bool) : options := Sym_Model.mkOpt false control method shift true.
(** A bounded control, a bounded state, time in the equation, a switch within a
    switch, an unknown parameter. *)
Definition ar_p : prob :=
  mkProb "t" [("x", Add (Add (Var "u") (Var "w")) (Sin (Var "t"))); ("v", Mul (Var "s") (Var "x"))] [] ["s"] [] ["u"] []
    [plain (Sub (Var "x") (Var "x0")); plain (Var "t")]
    [mkConstr (Var "u") (Some (Opp (Var "um"))) (Some (Var "um")) (Some (Var "eps")) "epstrig"; mkConstr (Var "x") (Some (Cst (-5))) (Some (Cst 5)) (Some (Var "eps")) "utm"]
    [plain (Sub (Var "x") (Cst 1)); plain (Sub (Var "v") (Var "s"))] [] []
    (Cst 0) (Add (Mul (Var "u") (Var "u")) (Var "w")) (Mul (Var "v") (Var "v")) ["x0"; "um"; "eps"]
    [] [mkSwitch "w" [Var "r"; Cst 2] [[Var "x"]; [Opp (Var "x")]] (Var "eps") None; mkSwitch "r" [Cst 1; Var "v"] [[Sub (Var "t") (Cst 1)]; [Sub (Cst 1) (Var "t")]] (Var "eps") None]
    [] None [] false false.
Definition ar_rank (x : string) : nat := if String.eqb x "w" then 1 else 0.
Ltac all_in H := repeat (destruct H as [H|H]; [try (subst; cbn in *)|]); try (now destruct H).
Ltac who := unfold only, usable; cbn; intuition (subst; auto 12).
Lemma ar_named control method : named (ar_o control method true) ar_rank ar_p.
Proof.
  constructor.
  - intros s [ <-|[ <-|[]]]; who.
  - repeat split; who.
  - intros c I. cbn in I. repeat destruct I as [ <-|I]; try contradiction; (split; [who|intros e [E|E]; cbn in E; try discriminate E; injection E as <-; who]).
  - intros c a I E. cbn in I. repeat destruct I as [ <-|I]; try contradiction; cbn in E; try discriminate E; injection E as <-; who.
  - intros c e x I M E V. cbn in I. repeat destruct I as [ <-|I]; try contradiction; [|discriminate M]. cbn in E. destruct E as [E|E]; injection E as <-; cbn in V; destruct V as [ <-|[]];
      (split; [cbn; intuition discriminate|split; [cbn; intuition discriminate|intros s; discriminate]]).
  - intros s e I E. cbn in I. repeat destruct I as [ <-|I]; try contradiction; cbn in E; intuition (subst; who).
  - intros s e y I E V W. cbn in I. cbn in W. repeat destruct I as [ <-|I]; try contradiction; cbn in E; intuition (subst; cbn in V; intuition (try discriminate; subst; try discriminate; cbn; auto)).
  - intros y s I. cbn in I. intuition (subst; discriminate).
  - repeat split.
Qed.
Definition ar_go (control method : string) : res prob :=
  p1 <- sympify ar_p ; fs <- make_indirect (ar_o control method true) ar_p ; run_tfs lu_gauss (solve_linear lu_gauss) fs p1.
Lemma ar_ran control method q : ar_go control method = Ok q -> exists p1 fs, sympify ar_p = Ok p1 /\ make_indirect (ar_o control method true) ar_p = Ok fs /\ run_tfs lu_gauss (solve_linear lu_gauss) fs p1 = Ok q.
Proof. unfold ar_go. destruct (sympify ar_p) as [p1|]; [|discriminate]. cbn [bind]. destruct (make_indirect _ ar_p) as [fs|]; [|discriminate]. cbn [bind]. intros H. now exists p1, fs. Qed.
Example C99_ex fn : exists q, ar_go "differential" "traditional" = Ok q /\ callable fn q (law_control fn q) /\
  syms (p_states q) = ["x"; "v"; "t"; "_u_trig"; "_lam_x"; "_lam_v"; "_lam_t"] /\ p_params q = ["s"; "_delta_t"] /\ syms (p_quads q) = ["_lam_s"].
Proof.
  destruct (ar_go "differential" "traditional") as [q|] eqn:E; [|vm_compute in E; discriminate E]. exists q. split; [reflexivity|]. split.
  - destruct (ar_ran _ _ _ E) as (p1 & fs & E1 & E2 & E3). apply (C99_called lu_gauss (solve_linear lu_gauss) (ar_o "differential" "traditional" true) ar_rank ar_p p1 fs q fn lu_gauss_closed C99_linear_solver (ar_named _ _) E1 E2 E3). intros H. discriminate H.
  - assert (Q : q = match ar_go "differential" "traditional" with Ok q' => q' | Raise _ => ar_p end) by (rewrite E; reflexivity). clear E. rewrite Q. vm_compute. repeat split.
Qed.
(** The same problem with the direct method: the control keeps its place. *)
Example C99_ex_direct fn y u pp k : length y = 3 -> length u = 1 -> length pp = 2 -> length k = 3 ->
  exists p1 fs q v w, sympify ar_p = Ok p1 /\ make_direct (ar_o "" "" true) ar_p = Ok fs /\ run_tfs lu_gauss (solve_linear lu_gauss) fs p1 = Ok q /\
    p_controls q = ["_u_trig"] /\ deriv_func fn q None y (Some u) pp k = Ok v /\ length v = 3 /\ path_cost fn q None y (Some u) pp k = Ok [w].
Proof.
  intros Y U P K. destruct (sympify ar_p) as [p1|] eqn:E1; [|discriminate E1]. destruct (make_direct (ar_o "" "" true) ar_p) as [fs|] eqn:E2; [|vm_compute in E2; discriminate E2].
  destruct (run_tfs lu_gauss (solve_linear lu_gauss) fs p1) as [q|] eqn:E3; [|vm_compute in E1, E2; apply Ok_inj in E1, E2; subst p1 fs; vm_compute in E3; discriminate E3].
  assert (F : (length (p_states q) = 3 /\ length (p_controls q) = 1) /\ (length (p_params q) = 2 /\ length (p_consts q) = 3) /\ p_controls q = ["_u_trig"]).
  { generalize E3. vm_compute in E1, E2. apply Ok_inj in E1, E2. subst p1 fs. clear E3. intros E3. vm_compute in E3. apply Ok_inj in E3. subst q. repeat split. }
  destruct F as ((F1 & F2) & (F3 & F4) & F5).
  destruct (C99_direct lu_gauss (solve_linear lu_gauss) (ar_o "" "" true) ar_rank ar_p p1 fs q fn y u pp k (ar_named _ _) E1 E2 E3) as (_ & (v & V1 & V2) & (w & V3)); try congruence.
  exists p1, fs, q, v, w. repeat split; try assumption. congruence.
Qed.
(** ** Time without the momentum shift *)
(** x' = u + sin t: with [do_momentum_shift=False] the name t reaches the compiled
    functions but is none of their arguments; every call raises NameError. *)
Definition ar_t : prob :=
  mkProb "t" [("x", Add (Var "u") (Sin (Var "t")))] [] [] [] ["u"] [] [plain (Var "x")] [] [plain (Sub (Var "x") (Cst 1))] [] []
    (Cst 0) (Mul (Var "u") (Var "u")) (Cst 0) [] [] [] [] None [] false false.
Lemma at_named control method : named (ar_o control method true) (fun _ => O) ar_t.
Proof.
  constructor.
  - intros s [ <-|[]]; who.
  - repeat split; who.
  - intros c I. cbn in I. repeat destruct I as [ <-|I]; try contradiction; (split; [who|intros e [E|E]; discriminate E]).
  - intros c a I E. cbn in I. repeat destruct I as [ <-|I]; try contradiction; discriminate E.
  - intros c e x [].
  - intros s e [].
  - intros s e y [].
  - intros y s [].
  - repeat split.
Qed.
(** With the shift the same problem is fine, here with the algebraic control law. *)
Example C99_ex_alg fn : exists p1 fs q, sympify ar_t = Ok p1 /\ make_indirect (ar_o "algebraic" "traditional" true) ar_t = Ok fs /\ run_tfs lu_gauss (solve_linear lu_gauss) fs p1 = Ok q /\
  p_law q <> [] /\ callable fn q (law_control fn q) /\ syms (p_states q) = ["x"; "t"; "_lam_x"; "_lam_t"].
Proof.
  destruct (sympify ar_t) as [p1|] eqn:E1; [|discriminate E1]. destruct (make_indirect (ar_o "algebraic" "traditional" true) ar_t) as [fs|] eqn:E2; [|vm_compute in E2; discriminate E2].
  destruct (run_tfs lu_gauss (solve_linear lu_gauss) fs p1) as [q|] eqn:E3; [|vm_compute in E1, E2; apply Ok_inj in E1, E2; subst p1 fs; vm_compute in E3; discriminate E3].
  assert (F : p_law q <> [] /\ syms (p_states q) = ["x"; "t"; "_lam_x"; "_lam_t"]).
  { generalize E3. vm_compute in E1, E2. apply Ok_inj in E1, E2. subst p1 fs. clear E3. intros E3. vm_compute in E3. apply Ok_inj in E3. subst q. split; [discriminate|reflexivity]. }
  exists p1, fs, q. split; [reflexivity|]. split; [reflexivity|]. split; [exact E3|]. split; [exact (proj1 F)|]. split; [|exact (proj2 F)].
  apply (C99_called lu_gauss (solve_linear lu_gauss) (ar_o "algebraic" "traditional" true) (fun _ => O) ar_t p1 fs q fn lu_gauss_closed C99_linear_solver); auto; [|intros _; exact (proj1 F)].
  apply at_named.
Qed.
(** With the differential law and analytical Jacobians: the derivatives are those of
    the rates at every point. *)
Example C99_ex_jacobian : exists p1 fs q j, sympify ar_t = Ok p1 /\ make_indirect (ar_o "differential" "traditional" true) ar_t = Ok fs /\ run_tfs lu_gauss (solve_linear lu_gauss) fs p1 = Ok q /\ compute_jacobians q = Ok j /\
  forall (fn : string -> nat -> R -> R) y pp, (forall f n (x : R), is_derive (fn f n) x (fn f (S n) x)) -> length y = 5 -> length pp = 1 ->
  exists v dy dp, deriv_func fn q None y None pp [] = Ok v /\ deriv_jac fn q None j y pp [] = Ok (dy, dp) /\
    forall i, i < 5 -> Jac_Properties.is_partial (length v) (fun s => deriv_func fn q None (Jac_Proofs.setn i s y) None pp []) (nth i y 0%R) dy i.
Proof.
  destruct (sympify ar_t) as [p1|] eqn:E1; [|discriminate E1]. destruct (make_indirect (ar_o "differential" "traditional" true) ar_t) as [fs|] eqn:E2; [|vm_compute in E2; discriminate E2].
  destruct (run_tfs lu_gauss (solve_linear lu_gauss) fs p1) as [q|] eqn:E3; [|vm_compute in E1, E2; apply Ok_inj in E1, E2; subst p1 fs; vm_compute in E3; discriminate E3].
  destruct (compute_jacobians q) as [j|] eqn:E4; [|vm_compute in E1, E2; apply Ok_inj in E1, E2; subst p1 fs; vm_compute in E3; apply Ok_inj in E3; subst q; vm_compute in E4; discriminate E4].
  exists p1, fs, q, j. split; [reflexivity|]. split; [reflexivity|]. split; [exact E3|]. split; [exact E4|]. intros fn y pp SM Y P.
  assert (F : (length (p_states q) = 5 /\ length (p_params q) = 1) /\ (p_consts q = [] /\ NoDup (Jac_Properties.dyn_symbols q)) /\ forall s rho, In s (p_states q) -> wd fn rho (snd s)).
  { clear E4. generalize E3. vm_compute in E1, E2. apply Ok_inj in E1, E2. subst p1 fs. clear E3. intros E3. vm_compute in E3. apply Ok_inj in E3. subst q. split; [split; reflexivity|]. split; [split; [reflexivity|]|].
    - unfold Jac_Properties.dyn_symbols, states. cbn. repeat constructor; cbn; intuition discriminate.
    - intros s rho I. cbn in I. repeat destruct I as [ <-|I]; try contradiction; cbn; repeat split; try lra. }
  destruct F as ((F1 & F2) & (F3 & F4) & F5).
  destruct (C99_jacobian lu_gauss (solve_linear lu_gauss) (ar_o "differential" "traditional" true) (fun _ => O) ar_t p1 fs q j fn y pp [] lu_gauss_closed C99_linear_solver (at_named _ _) E1 E2 E3 eq_refl eq_refl E4 SM F4) as (v & dy & dp & H1 & H2 & H3 & _); try congruence; [rewrite F3; reflexivity|intros s I; now apply F5|].
  exists v, dy, dp. split; [exact H1|]. split; [exact H2|]. intros i I. apply H3. congruence.
Qed.
Theorem C99_time_refuted :
  exists p q, (forall s e x, In s (p_states p) -> e = snd s -> In x (vars e) -> In x (syms (p_states p)) \/ In x (p_controls p) \/ x = p_ind p) /\
    (p1 <- sympify p ; fs <- make_indirect (ar_o "algebraic" "traditional" false) p ; run_tfs lu_gauss (solve_linear lu_gauss) fs p1) = Ok q /\ p_law q <> [] /\
    forall fn y pp k, length y = length (p_states q) -> length pp = length (p_params q) -> length k = length (p_consts q) ->
      deriv_func fn q (law_control fn q) y None pp k = Raise KeyError.
Proof.
  destruct (p1 <- sympify ar_t ; fs <- make_indirect (ar_o "algebraic" "traditional" false) ar_t ; run_tfs lu_gauss (solve_linear lu_gauss) fs p1) as [q|] eqn:E; [|vm_compute in E; discriminate E].
  exists ar_t, q. split; [|split; [exact E|]].
  - intros s e x [ <-|[]] -> I. cbn in I. cbn. intuition.
  - vm_compute in E. apply Ok_inj in E. subst q. split; [discriminate|]. intros fn y pp k Y P K. unfold deriv_func, control_of, law_control.
    unfold call. cbn [p_law is_some]. match goal with |- (if fits ?g ?v then _ else _) = _ => assert (F : fits g v = true) end; [|rewrite F; reflexivity].
    unfold fits. cbn in Y, P, K |- *. rewrite Y, P, K. reflexivity.
Qed.
Print Assumptions C99_time_refuted.
(** Circular switches: the name of the switch stays. *)
Definition ar_c : prob :=
  mkProb "t" [("x", Var "w")] [] [] [] ["u"] [] [plain (Var "x")] [] [plain (Sub (Var "x") (Cst 1))] [] []
    (Cst 0) (Mul (Var "u") (Var "u")) (Cst 0) [] [] [mkSwitch "w" [Var "w"] [[Var "x"]] (Cst 1) None] [] None [] false false.
Theorem C99_circle_refuted :
  exists p q, (forall s, In s (p_switches p) -> forall e, In e (sw_funs s) -> only (fun x => In x (map sw_name (p_switches p))) e) /\
    (p1 <- sympify p ; fs <- make_indirect (ar_o "algebraic" "traditional" true) p ; run_tfs lu_gauss (solve_linear lu_gauss) fs p1) = Ok q /\ p_law q <> [] /\
    forall fn y pp k, length y = length (p_states q) -> length pp = length (p_params q) -> length k = length (p_consts q) ->
      deriv_func fn q (law_control fn q) y None pp k = Raise KeyError.
Proof.
  destruct (p1 <- sympify ar_c ; fs <- make_indirect (ar_o "algebraic" "traditional" true) ar_c ; run_tfs lu_gauss (solve_linear lu_gauss) fs p1) as [q|] eqn:E; [|vm_compute in E; discriminate E].
  exists ar_c, q. split; [|split; [exact E|]].
  - intros s [ <-|[]] e [ <-|[]] x I. exact I.
  - vm_compute in E. apply Ok_inj in E. subst q. split; [discriminate|]. intros fn y pp k Y P K. unfold deriv_func, control_of, law_control.
    unfold call. cbn [p_law is_some]. match goal with |- (if fits ?g ?v then _ else _) = _ => assert (F : fits g v = true) end; [|rewrite F; reflexivity].
    unfold fits. cbn in Y, P, K |- *. rewrite Y, P, K. reflexivity.
Qed.
Print Assumptions C99_circle_refuted.
