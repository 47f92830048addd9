(** Mapping a solution of the boundary value problem back to the problem handed
    to Dualize. *)
From Coq Require Import Reals Lra Lia.
From Verif Require Import Base Base_Facts Map_More Sym_Expr Sym_Facts Sym_Model Sym_Lu Sym_Dual Sym_DiffCtl Jac_Model Jac_Proofs Unit_Model Unit_Spec Unit_Properties Ctl_Properties Shift_Properties Whole_Proofs Whole_Steps Whole_Geo Whole_Properties Chain_Model Chain_Facts Map_Model Map_Proofs Map_Chain Chain_Back.
Open Scope string_scope.
Open Scope list_scope.
Open Scope nat_scope.

Lemma map_nth_list (f : string -> R) names vals : length vals = length names -> (forall i x, nth_error names i = Some x -> f x = nth i vals 0%R) -> map f names = vals.
Proof.
  revert vals. induction names as [|x names IH]; intros [|v vals] L H; try discriminate; [reflexivity|]. cbn [map]. f_equal.
  - exact (H 0 x eq_refl).
  - apply IH; [now injection L|]. intros i y I. exact (H (S i) y I).
Qed.
Lemma pick_loop_ext (h1 h2 : list R -> R) rest : forall u b, (forall v, In v rest -> h1 v = h2 v) -> pick_loop ROps h1 u b rest = pick_loop ROps h2 u b rest.
Proof.
  induction rest as [|v rest IH]; intros u b H; [reflexivity|]. cbn [pick_loop]. rewrite (H v (or_introl eq_refl)).
  destruct (nltb ROps (h2 v) b); apply IH; intros w I; apply H; now right.
Qed.
Lemma pick_control_ext (h1 h2 : list R -> R) cands : (forall v, In v cands -> h1 v = h2 v) -> pick_control ROps h1 cands = pick_control ROps h2 cands.
Proof.
  intros H. destruct cands as [|u [|v l]]; try reflexivity. unfold pick_control. f_equal. rewrite (H u (or_introl eq_refl)). apply pick_loop_ext. intros w I. apply H. now right.
Qed.

Lemma law_some fn p : p_law p <> [] -> law_control fn p = Some (fun y pp k =>
  match pick_control ROps (fun c => match p_ham p with Some h => eval fn (env (concat (dyn_groups p true)) (y ++ c ++ pp ++ k)) h | None => 0%R end)
    (map (map (eval fn (env (concat (dyn_groups p false)) (y ++ pp ++ k)))) (p_law p)) with Ok c => c | Raise _ => [] end).
Proof. intros H. unfold law_control. destruct (p_law p) as [|l0 l]; [contradiction|]. reflexivity. Qed.

Section Node.
  Variable fn : string -> nat -> R -> R.
  Variable p2 p' : prob.
  Let dt := ("_delta" ++ p_ind p2)%string.
  Hypothesis ES : p_states p' = slow dt (p_states p2 ++ p_costates p2).
  Hypothesis EP : p_params p' = [dt].
  Hypothesis EQ : p_quads p' = [].
  Hypothesis EK : p_consts p' = p_consts p2.
  Hypothesis EU : p_controls p' = p_controls p2.
  Hypothesis EL : p_law p' = p_law p2.
  Hypothesis EH : p_ham p' = p_ham p2.
  Hypothesis E2 : p_params p2 = [].
  Variable Y Q : R -> list R.
  Variable nu k : list R.
  Variable t0 D : R.
  Variable c : R -> string -> R.
  Hypothesis ND : NoDup (p_ind p2 :: all_names p').
  Context {delta eps : R}.
  Hypothesis SOL : near delta eps fn p' 0 1 Y Q [D] nu k.
  Hypothesis D0 : (0 < D)%R.
  Hypothesis RO : reads_off fn p' (p_ind p2) Y [D] nu k t0 D c.

  Lemma node_names : syms (p_states p') = syms (p_states p2) ++ syms (p_costates p2).
  Proof. rewrite ES, syms_slow. unfold syms. apply map_app. Qed.
  Lemma node_time s : (((t0 + D * s) - t0) / D = s)%R.
  Proof. field. lra. Qed.
  Lemma node_states s : (0 <= s <= 1)%R -> map (c (t0 + D * s)%R) (syms (p_states p')) = Y s.
  Proof.
    intros Hs. assert (NA : NoDup (all_names p')) by (inversion ND; assumption).
    destruct (curve_follows fn p' Y Q [D] nu k EQ (nodup_ctl fn p' NA) 0 1 SOL s Hs) as (_ & LY & _).
    apply map_nth_list; [unfold syms; now rewrite map_length|]. intros i x I. rewrite (ro_states _ _ _ _ _ _ _ _ _ _ RO _ i x I), node_time. reflexivity.
  Qed.
  Lemma node_consts t : map (c t) (p_consts p2) = k.
  Proof.
    destruct (solved_lengths fn p' Y Q [D] nu k EQ 0 1 SOL) as (_ & _ & LK). rewrite <- EK. apply map_nth_list; [exact LK|].
    intros i x I. exact (ro_consts _ _ _ _ _ _ _ _ _ _ RO _ i x I).
  Qed.
  Lemma node_params t : map (c t) (p_params p') = [D].
  Proof. rewrite EP. cbn [map]. f_equal. apply (ro_params _ _ _ _ _ _ _ _ _ _ RO t 0 dt). now rewrite EP. Qed.
  Lemma node_grid ts : (forall s, In s ts -> (0 <= s <= 1)%R) -> Mat (length (p_states p')) (map Y ts) = grid (fun s => c (t0 + D * s)%R) (syms (p_states p2) ++ syms (p_costates p2)) ts.
  Proof.
    intros H. unfold grid. rewrite <- node_names. f_equal; [unfold syms; now rewrite map_length|]. apply map_ext_in. intros s I. symmetry. apply node_states. now apply H.
  Qed.

  (** The control that the mapper computes is the one of the solver. *)
  Hypothesis LNE : p_law p' <> [].
  Hypothesis LLEN : forall cand, In cand (p_law p') -> length cand = length (p_controls p').
  Hypothesis LV : forall cand e x, In cand (p_law p') -> In e cand -> In x (vars e) -> In x (syms (p_states p') ++ p_consts p').
  Hypothesis HV : forall h x, p_ham p' = Some h -> In x (vars h) -> In x (syms (p_states p') ++ p_controls p' ++ p_consts p').
  Lemma node_control s : (0 <= s <= 1)%R -> let g := c (t0 + D * s)%R in
    pick_control ROps (fun u => law_ham fn p2 (s * D)%R (map g (syms (p_states p2))) (map g (syms (p_costates p2))) u [] k)
      (law_options fn p2 (s * D)%R (map g (syms (p_states p2))) (map g (syms (p_costates p2))) [] k) = Ok (map g (p_controls p2)).
  Proof.
    intros Hs g. assert (NI : ~ In (p_ind p2) (all_names p')) by (inversion ND; assumption). assert (NA : NoDup (all_names p')) by (inversion ND; assumption).
    assert (N := NA). unfold all_names in N. destruct (nodup_parts _ _ N) as (N1 & N2 & N3). destruct (nodup_parts _ _ N2) as (N4 & N5 & N6). clear N.
    set (X := syms (p_states p2)). set (L := syms (p_costates p2)). set (U := p_controls p2) in *. set (K := p_consts p2) in *.
    set (rho := fun x => if String.eqb x (p_ind p2) then (s * D)%R else g x).
    assert (R1 : forall x, In x (syms (p_states p') ++ p_controls p' ++ p_params p' ++ p_consts p') -> rho x = g x).
    { intros x I. unfold rho. destruct (String.eqb_spec x (p_ind p2)) as [ ->|]; [|reflexivity]. exfalso. apply NI. unfold all_names. rewrite !in_app_iff in *. tauto. }
    assert (EX : syms (p_states p') = X ++ L) by apply node_names.
    assert (RX : map rho X = map g X) by (apply map_ext_in; intros x I; apply R1; rewrite EX, !in_app_iff; tauto).
    assert (RL : map rho L = map g L) by (apply map_ext_in; intros x I; apply R1; rewrite EX, !in_app_iff; tauto).
    assert (RK : map rho K = k) by (unfold K; rewrite <- (node_consts (t0 + D * s)%R); apply map_ext_in; intros x I; apply R1; rewrite EK, !in_app_iff; fold K; tauto).
    assert (OE : law_options fn p2 (s * D)%R (map g X) (map g L) [] k = map (map (eval fn (env (concat (dyn_groups p' false)) (Y s ++ [D] ++ k)))) (p_law p')).
    { unfold law_options. rewrite EL. apply map_ext_in. intros cand IC. apply map_ext_in. intros e IE. apply eval_ext. intros x IX.
      rewrite <- EL in IC. assert (V := LV cand e x IC IE IX).
      replace ((s * D)%R :: map g X ++ map g L ++ [] ++ k) with (map rho (law_args p2)).
      2:{ unfold law_args. cbn [map]. rewrite !map_app, E2. fold X L K. rewrite RX, RL, RK. unfold rho at 1. rewrite String.eqb_refl. reflexivity. }
      rewrite env_map; [|unfold law_args; fold X L K; rewrite EX, EK, E2 in *; cbn [In app]; rewrite !in_app_iff in *; tauto].
      rewrite R1 by (rewrite !in_app_iff in *; tauto).
      unfold dyn_groups, states. cbn [app concat]. rewrite app_nil_r. rewrite <- (node_states s Hs). fold g.
      replace (D :: k) with (map g (p_params p' ++ p_consts p')) by (rewrite map_app; unfold g; rewrite node_params, EK; fold K; unfold K; rewrite node_consts; reflexivity).
      rewrite <- map_app, env_map by (rewrite !in_app_iff in *; tauto). reflexivity. }
    rewrite OE.
    set (H := fun cc : list R => match p_ham p' with Some h => eval fn (env (concat (dyn_groups p' true)) (Y s ++ cc ++ [D] ++ k)) h | None => 0%R end).
    rewrite (pick_control_ext _ H).
    2:{ intros v I. apply in_map_iff in I. destruct I as (cand & <- & IC). assert (LC := LLEN cand IC). set (v := map _ cand).
      assert (LVV : length v = length U) by (unfold v; rewrite map_length, LC, EU; reflexivity). unfold law_ham, H. rewrite <- EH. destruct (p_ham p') as [h|] eqn:HH; [|reflexivity].
      apply eval_ext. intros x IX. assert (V := HV h x eq_refl IX).
      set (r2 := over U v rho).
      assert (NU : NoDup U) by (rewrite <- EU; exact N4).
      replace ((s * D)%R :: map g X ++ map g L ++ v ++ [] ++ k) with (map r2 (ham_args p2)).
      2:{ unfold ham_args. cbn [map]. rewrite !map_app, E2. fold X L K U.
          replace (map r2 X) with (map g X) by (rewrite <- RX; symmetry; apply map_over_out; intros x0 I J; apply (N3 x0); [rewrite EX; apply in_or_app; now left|rewrite EU, !in_app_iff; tauto]).
          replace (map r2 L) with (map g L) by (rewrite <- RL; symmetry; apply map_over_out; intros x0 I J; apply (N3 x0); [rewrite EX; apply in_or_app; now right|rewrite EU, !in_app_iff; tauto]).
          replace (map r2 K) with k by (rewrite <- RK; symmetry; apply map_over_out; intros x0 I J; apply (N6 x0); [rewrite EU; exact J|rewrite EK, !in_app_iff; tauto]).
          unfold r2 at 2. rewrite map_over by assumption. unfold r2 at 1. rewrite over_out by (intros J; apply NI; unfold all_names; rewrite EU, !in_app_iff; tauto).
          unfold rho. rewrite String.eqb_refl. reflexivity. }
      rewrite env_map; [|unfold ham_args; fold X L K U; rewrite EX, EK, EU, E2 in *; cbn [In app]; rewrite !in_app_iff in *; tauto].
      set (r3 := over U v g).
      unfold dyn_groups, states. cbn [app concat]. rewrite app_nil_r. rewrite <- (node_states s Hs). fold g. rewrite EU. fold U.
      replace (map g (syms (p_states p')) ++ v ++ D :: k) with (map r3 (syms (p_states p') ++ U ++ p_params p' ++ p_consts p')).
      2:{ rewrite !map_app. f_equal; [|f_equal; [|change (D :: k) with ([D] ++ k); f_equal]].
          - apply map_over_out. intros x0 I J. apply (N3 x0 I). rewrite EU, !in_app_iff. tauto.
          - unfold r3. now apply map_over.
          - unfold r3. rewrite map_over_out; [apply node_params|]. intros x0 I J. apply (N6 x0); [now rewrite EU|]. rewrite !in_app_iff. tauto.
          - unfold r3. rewrite map_over_out; [rewrite EK; apply node_consts|]. intros x0 I J. apply (N6 x0); [now rewrite EU|]. rewrite !in_app_iff. tauto. }
      rewrite env_map by (rewrite EU in V; fold U in V; rewrite !in_app_iff in *; tauto).
      unfold r2, r3. apply over_ext. intros _. apply R1. rewrite !in_app_iff in *. tauto. }
    destruct (pick_control_spec H (map (map (eval fn (env (concat (dyn_groups p' false)) (Y s ++ [D] ++ k)))) (p_law p'))) as (w & j & P1 & P2 & _).
    { intros Z. apply map_eq_nil in Z. contradiction. }
    rewrite P1. f_equal. symmetry. rewrite <- EU. apply nth_error_In, in_map_iff in P2. destruct P2 as (cand & EW & IC).
    apply map_nth_list; [rewrite <- EW, map_length; now apply LLEN|]. intros i x I.
    unfold g. rewrite (ro_controls _ _ _ _ _ _ _ _ _ _ RO _ _ i x (law_some fn p' LNE) I), node_time. cbv beta. fold H. rewrite P1. reflexivity.
  Qed.
End Node.

(** The values of states, costates and controls along the curve. *)
Definition shown (c : R -> string -> R) (X L U : list string) (ts times : list R) (q : arr R) (k : list R) (s : sol R) : Prop :=
  s_t s = times /\ s_y s = grid c X ts /\ s_dual s = grid c L ts /\ s_u s = grid c U ts /\ s_q s = q /\ s_p s = [] /\ s_k s = k.

Lemma front_back c A B ts lo hi D (s : sol R) : s_t s = ts -> s_y s = grid c (A ++ B) ts -> s_p s = [D] ->
  exists s1, passes (apply_inv ROps) [MSquash (length A) (length A + length B) lo hi; MNormalizeTime (Some 0)] s s1 /\
    s_t s1 = map (fun t => t * D)%R ts /\ s_y s1 = grid c A ts /\ s_dual s1 = grid c B ts /\ s_q s1 = s_q s /\ s_p s1 = [] /\ s_k s1 = s_k s /\ s_dual_t s1 = s_dual_t s.
Proof.
  intros E1 E2 E3. destruct (sq_back c A B ts lo hi s E2) as (nu & SQ).
  set (s0 := set_nu nu (set_y (grid c A ts) (set_dual (grid c B ts) s))) in *.
  assert (P0 : s_p s0 = [D]) by (unfold s0; destruct s; exact E3).
  eexists. split; [|].
  - eapply passes_cons; [|eapply passes_cons; [|apply passes_nil]].
    + cbn [apply_inv]. rewrite SQ. reflexivity.
    + cbn [apply_inv]. rewrite (nt_back D s0 P0). reflexivity.
  - unfold s0. destruct s. cbn in *. subst. repeat split; reflexivity.
Qed.

Lemma alg_step n options ham c A B U D ts q k (s : sol R) : n = length U -> ts <> [] ->
  s_t s = map (fun t => t * D)%R ts -> s_y s = grid c A ts -> s_dual s = grid c B ts -> s_q s = q -> s_p s = [] -> s_k s = k ->
  (forall t, In t ts -> pick_control ROps (fun u => ham (t * D)%R (map (c t) A) (map (c t) B) u [] k) (options (t * D)%R (map (c t) A) (map (c t) B) [] k) = Ok (map (c t) U)) ->
  exists s', apply_inv ROps (MAlgebraic n options ham) s = Ok (MAlgebraic n options ham, s') /\ shown c A B U ts (map (fun t => t * D)%R ts) q k s' /\ s_dual_t s' = s_dual_t s.
Proof.
  intros -> NE E1 E2 E3 E4 E5 E6 H. rewrite <- E5, <- E6 in H. cbn [apply_inv].
  rewrite (alg_back options ham c A B U (fun t => t * D)%R ts s E1 E2 E3 NE H). eexists. split; [reflexivity|].
  unfold shown. destruct s. cbn in *. subst. repeat split; reflexivity.
Qed.
Lemma diff_step c A B L D ts q k (s : sol R) :
  s_t s = map (fun t => t * D)%R ts -> s_y s = grid c (A ++ B) ts -> s_dual s = grid c L ts -> s_q s = q -> s_p s = [] -> s_k s = k ->
  exists s', apply_inv ROps (MDifferential (seq (length A) (length B))) s = Ok (MDifferential (seq (length A) (length B)), s') /\ shown c A L B ts (map (fun t => t * D)%R ts) q k s' /\ s_dual_t s' = s_dual_t s.
Proof.
  intros E1 E2 E3 E4 E5 E6. cbn [apply_inv]. rewrite (dc_back c A B ts s E2). eexists. split; [reflexivity|].
  unfold shown. destruct s. cbn in *. subst. repeat split; reflexivity.
Qed.
Lemma geo_step c A B L M D ts q k (s : sol R) : length L = length A -> length M = length B ->
  s_t s = map (fun t => t * D)%R ts -> s_y s = grid c (A ++ B) ts -> s_dual s = grid c (L ++ M) ts -> s_q s = q -> s_p s = [] -> s_k s = k ->
  exists s', apply_inv ROps (MDiffyG (seq (length A) (length B))) s = Ok (MDiffyG (seq (length A) (length B)), s') /\ shown c A L B ts (map (fun t => t * D)%R ts) q k s' /\ s_dual_t s' = s_dual_t s.
Proof.
  intros L1 L2 E1 E2 E3 E4 E5 E6. cbn [apply_inv]. rewrite (dg_back c A B L M ts s E2 E3 L1 L2). eexists. split; [reflexivity|].
  unfold shown. destruct s. cbn in *. subst. repeat split; reflexivity.
Qed.
Lemma dual_step fn sm p na c L ts times q k (s : sol R) v : shown c (syms (p_states p)) L (p_controls p) ts times q k s -> ts <> [] ->
  p_params p = [] -> p_quads p = [] -> (alen q = 0 \/ exists w, q = Mat w (map (fun _ => []) ts)) -> (forall t, In t ts -> map (c t) (p_consts p) = k) ->
  incl (vars (p_cost_i p) ++ vars (p_cost_t p)) (syms (p_states p) ++ p_consts p) -> incl (vars (p_cost_p p)) (syms (p_states p) ++ p_controls p ++ p_consts p) ->
  sm (map (fun t => eval fn (c t) (p_cost_p p)) ts) times = Ok v ->
  exists s', apply_inv ROps (MDualize na (compute_cost fn sm p)) s = Ok (MDualize na (compute_cost fn sm p), s') /\
    shown c (syms (p_states p)) L (p_controls p) ts times q k s' /\ s_dual_t s' = s_dual_t s /\ s_nu s' = [] /\
    s_cost s' = (eval fn (c (hd 0%R ts)) (p_cost_i p) + eval fn (c (last ts 0%R)) (p_cost_t p) + v)%R.
Proof.
  intros (E1 & E2 & E3 & E4 & E5 & E6 & E7) NE EP EQ HQ HK V1 V2 SM. cbn [apply_inv]. unfold dual_inv. cbv zeta.
  assert (C := cost_back fn sm p c ts times q k v NE EP EQ HQ HK V1 V2 SM).
  destruct s as [ft fdt fy fd fq fu fdu fp fnu fk fc]. cbn [s_t s_y s_dual s_u s_q s_p s_k] in *. subst. cbn [set_nu s_t s_y s_dual s_u s_q s_p s_k] in *. rewrite C.
  eexists. split; [reflexivity|]. unfold shown. cbn. repeat split; reflexivity.
Qed.

(** What the mapper of the control must know: the control law and the Hamiltonian
    mention arguments only. *)
Definition control_known (o : options) (p1 p' : prob) : Prop :=
  (lower (o_control o) = "algebraic" /\ p_law p' <> [] /\
     (forall cand e x, In cand (p_law p') -> In e cand -> In x (vars e) -> In x (syms (p_states p') ++ p_consts p')) /\
     (forall h x, p_ham p' = Some h -> In x (vars h) -> In x (syms (p_states p') ++ p_controls p' ++ p_consts p')))
  \/ (lower (o_control o) = "differential" /\ (lower (o_method o) = "diffyg" -> p_states p1 <> [])).

Lemma p1_samples lu (LU : lu_ok lu) solve fn sm o p fs pre post p1 p' ms Y Q D nu k t0 c ts v (s : sol R) {delta eps : R} :
  (lower (o_control o) = "algebraic" -> solve_sound solve) -> make_indirect o p = Ok fs -> fs = pre ++ FDual (o_method o) :: post -> run_tfs lu solve pre p = Ok p1 -> run_chain fn sm lu solve fs p = Ok (p', ms) ->
  o_norm o = true -> lower (o_method o) = "traditional" \/ lower (o_method o) = "diffyg" -> control_known o p1 p' ->
  p_costates p1 = [] -> p_coparams p1 = [] -> p_params p1 = [] -> p_quads p1 = [] -> NoDup (p_ind p1 :: all_names p') ->
  incl (vars (p_cost_i p1) ++ vars (p_cost_t p1)) (syms (p_states p1) ++ p_consts p1) -> incl (vars (p_cost_p p1)) (syms (p_states p1) ++ p_controls p1 ++ p_consts p1) ->
  near delta eps fn p' 0 1 Y Q [D] nu k -> (0 < D)%R -> reads_off fn p' (p_ind p1) Y [D] nu k t0 D c ->
  s_t s = ts -> ts <> [] -> (forall t, In t ts -> (0 <= t <= 1)%R) -> s_y s = Mat (length (p_states p')) (map Y ts) -> s_p s = [D] -> s_k s = k ->
  (alen (s_q s) = 0 \/ exists w, s_q s = Mat w (map (fun _ => []) ts)) ->
  sm (map (fun t => eval fn (c (t0 + D * t)%R) (p_cost_p p1)) ts) (map (fun t => t * D)%R ts) = Ok v ->
  exists m1 m2 s3, run_chain fn sm lu solve pre p = Ok (p1, m1) /\ ms = m1 ++ m2 /\ passes (apply_inv ROps) (rev m2) s s3 /\
    shown (fun t => c (t0 + D * t)%R) (syms (p_states p1)) (map lam (syms (p_states p1))) (p_controls p1) ts (map (fun t => t * D)%R ts) (s_q s) k s3 /\
    s_dual_t s3 = s_dual_t s /\ s_nu s3 = [] /\
    s_cost s3 = (eval fn (c (t0 + D * hd 0 ts)) (p_cost_i p1) + eval fn (c (t0 + D * last ts 0)) (p_cost_t p1) + v)%R.
Proof.
  intros SO MK EF R1 RC ON M CK E1 E2 EP EQ ND V1 V2 SOL D0 RO ET NE T01 EY ES EK HQ SM.
  destruct (chain_tail fn sm lu solve o p fs pre post p1 p' ms MK EF R1 RC ON M) as (pD & p2 & p3 & m1 & na & b & lo & hi & HD & HC & HN & HS & CC & RP & EM & EB).
  destruct (norm_squash p2 p3 p' HN HS) as (S1 & S2 & S3 & S4 & S5 & S6 & S7 & S8 & S9 & S10).
  destruct (control_rest lu solve o pD p2 HC) as (K1 & K2 & K3 & K4 & K5 & K6 & K7).
  assert (DO := dual_of_exists lu LU _ p1 pD HD M E1 E2).
  assert (EI : p_ind p2 = p_ind p1) by (rewrite K7; apply (d_ind _ _ _ DO)).
  assert (CP : p_coparams pD = []) by (apply syms_nil; rewrite (d_colams _ _ _ DO), EP; reflexivity).
  assert (P2 : p_params p2 = []) by (rewrite K1, (d_params _ _ _ DO); exact EP).
  assert (PP : p_params p' = [("_delta" ++ p_ind p2)%string]) by (rewrite S2, P2; reflexivity).
  assert (QQ : p_quads p' = []) by (rewrite S4, K2, K3, (d_quads _ _ _ DO), EQ, CP; reflexivity).
  assert (SD := d_states _ _ _ DO). assert (UD := d_controls _ _ _ DO). assert (LD := d_lams _ _ _ DO).
  rewrite <- EI in ND, RO.
  set (cs := fun t => c (t0 + D * t)%R).
  assert (GR : s_y s = grid cs (syms (p_states p2) ++ syms (p_costates p2)) ts) by (rewrite EY; exact (node_grid fn p2 p' S1 QQ Y Q nu k t0 D c ND SOL D0 RO ts T01)).
  destruct (front_back cs (syms (p_states p2)) (syms (p_costates p2)) ts lo hi D s ET GR ES) as (s1 & PS1 & T1 & Y1 & D1 & Q1 & PP1 & KK1 & DT1).
  assert (L1 : length (syms (p_states p2)) = length (p_states p2)) by (unfold syms; apply map_length).
  assert (L2 : length (syms (p_costates p2)) = length (p_costates p2)) by (unfold syms; apply map_length).
  assert (LD1 : length (syms (p_states p1)) = length (p_states pD)) by (unfold syms; now rewrite map_length, SD).
  assert (G : exists s2, apply_inv ROps (control_mapper fn o pD p2) s1 = Ok (control_mapper fn o pD p2, s2) /\
    shown cs (syms (p_states p1)) (map lam (syms (p_states p1))) (p_controls p1) ts (map (fun t => t * D)%R ts) (s_q s) k s2 /\ s_dual_t s2 = s_dual_t s1).
  { unfold control_tf in HC. unfold control_mapper. destruct CK as [(OC & LNE & LV & HV)|(OC & NS)]; rewrite OC in *; cbn [String.eqb Ascii.eqb Bool.eqb apply_tf] in *.
    - unfold algebraic_control in HC. rewrite (d_dual _ _ _ DO), (d_ham _ _ _ DO), UD in HC. apply Ok_inj in HC.
      assert (C1 : p_states p2 = p_states p1 /\ p_costates p2 = p_costates pD /\ p_controls p2 = p_controls p1 /\
        p_law p2 = solve (map (fun u => diff u (dual_ham p1)) (p_controls p1)) (p_controls p1)).
      { subst p2. clear - SD UD. destruct pD; cbn in *; repeat split; auto. }
      clear HC. destruct C1 as (C1 & C2 & C3 & C6).
      assert (NC : NoDup (p_controls p1)).
      { inversion ND as [|? ? _ NA]. unfold all_names in NA. destruct (nodup_parts _ _ NA) as (_ & N2 & _). destruct (nodup_parts _ _ N2) as (N3 & _ & _). now rewrite S6, C3 in N3. }
      rewrite C1 in Y1. rewrite C2, LD in D1.
      apply alg_step; [now rewrite C3|exact NE|exact T1|exact Y1|exact D1|congruence|exact PP1|congruence|].
      intros t I. rewrite <- C3, <- LD, <- C2. rewrite <- C1.
      apply (node_control fn p2 p' S1 PP QQ S5 S6 S7 S8 P2 Y Q nu k t0 D c ND SOL D0 RO LNE); [|exact LV|exact HV|exact (T01 t I)].
      intros cand IC. rewrite S7, C6 in IC. rewrite S6, C3. now destruct (SO eq_refl _ _ _ NC IC).
    - destruct M as [M|M]; rewrite M in *; cbn [String.eqb Ascii.eqb Bool.eqb] in *.
      + destruct (diffctl_traditional lu _ pD p2 HC M) as (h' & udot & H1 & H2 & H3 & H4 & _).
        destruct (udot_values lu LU h' (p_controls pD) (p_states pD ++ p_costates pD) udot H2) as [LUD _].
        assert (EX : syms (p_states p2) = syms (p_states p1) ++ p_controls p1).
        { rewrite H3. unfold syms at 1. rewrite map_app. fold (syms (p_states pD)) (syms (combine (p_controls pD) udot)). rewrite syms_combine by exact LUD. rewrite SD, UD. reflexivity. }
        rewrite EX in Y1. rewrite H4, LD in D1. rewrite <- LD1, UD. apply diff_step; auto; congruence.
      + destruct (diffctl_diffyg lu _ pD p2 HC M) as (h' & udot & chi & H1 & H2 & H3 & _).
        destruct (udot_values lu LU h' (p_controls pD) (p_states pD ++ p_costates pD) udot H2) as [LUD _]. specialize (H3 LUD). cbv zeta in H3. destruct H3 as (HF & H3 & H4).
        rewrite SD, UD, LD in *. set (X := syms (p_states p1)) in *. set (U := p_controls p1) in *.
        assert (LX : length X = length (p_states p1)) by (unfold X, syms; apply map_length).
        assert (LC : length chi = 2 * (length (p_states p1) + length U)).
        { assert (P0 : 0 < length (p_states p1)) by (specialize (NS eq_refl); destruct (p_states p1); [contradiction|cbn; lia]).
          assert (LQ : length (X ++ U) = length (p_states p1) + length U) by (rewrite app_length, LX; reflexivity).
          rewrite <- LQ in HF. destruct (ham_field_extended lu LU h' (X ++ U) (map lam X ++ map lam U) (length U) (length (p_states p1) - 1) udot chi) as [L _].
          - rewrite !app_length, !map_length. reflexivity.
          - lia.
          - exact LUD.
          - exact HF.
          - rewrite L. lia. }
        assert (EX : syms (p_states p2) = X ++ U) by (rewrite H3, syms_combine; [reflexivity|]; rewrite ?firstn_length, ?skipn_length, !app_length, ?map_length; lia).
        assert (EX2 : syms (p_costates p2) = map lam X ++ map lam U) by (rewrite H4, syms_combine; [reflexivity|]; rewrite ?firstn_length, ?skipn_length, !app_length, ?map_length; lia).
        rewrite EX in Y1. rewrite EX2 in D1. rewrite <- LX. apply (geo_step cs X U (map lam X) (map lam U)); auto; try (now rewrite map_length); congruence. }
  destruct G as (s2 & A2 & SH2 & DT2).
  destruct (dual_step fn sm p1 na cs (map lam (syms (p_states p1))) ts (map (fun t => t * D)%R ts) (s_q s) k s2 v SH2 NE EP EQ HQ) as (s3 & A3 & SH3 & DT3 & N3 & C3); [|exact V1|exact V2|exact SM|].
  { intros t _. rewrite <- CC, S5. unfold cs. apply (node_consts fn p2 p' QQ S5 Y Q nu k t0 D c SOL RO). }
  exists m1, [MDualize na (compute_cost fn sm p1); control_mapper fn o pD p2; MNormalizeTime (Some (length (p_params p2))); MSquash (length (p_states p2)) b lo hi], s3.
  split; [exact RP|]. split; [exact EM|]. split; [|split; [exact SH3|split; [congruence|split; [exact N3|exact C3]]]].
  cbn [rev app]. rewrite P2. cbn [length]. subst b. rewrite <- L1, <- L2.
  change [MSquash (length (syms (p_states p2))) (length (syms (p_states p2)) + length (syms (p_costates p2))) lo hi; MNormalizeTime (Some 0); control_mapper fn o pD p2; MDualize na (compute_cost fn sm p1)]
    with ([MSquash (length (syms (p_states p2))) (length (syms (p_states p2)) + length (syms (p_costates p2))) lo hi; MNormalizeTime (Some 0)] ++ [control_mapper fn o pD p2; MDualize na (compute_cost fn sm p1)]).
  eapply passes_app; [exact PS1|]. eapply passes_cons; [exact A2|]. eapply passes_cons; [exact A3|apply passes_nil].
Qed.

(** The functors before Dualize for a problem without two-sided constraints. *)
Lemma user_pre o p fs pre post : make_indirect o p = Ok fs -> fs = pre ++ FDual (o_method o) :: post ->
  (forall d, In d (p_ci p ++ p_cp p ++ p_ct p) -> c_lower d = None \/ c_upper d = None) -> p_switches p = [] -> pre = if o_shift o then [FMomentum] else [].
Proof.
  intros MK EF NB NS.
  assert (EC : constraint_tfs (all_constraints p) = Ok []).
  { clear - NB. unfold all_constraints. induction (p_ci p ++ p_cp p ++ p_ct p) as [|d l IH]; [reflexivity|]. cbn [constraint_tfs].
    assert (W : two_sided d = false) by (unfold two_sided; destruct (NB d (or_introl eq_refl)) as [ ->| ->]; [reflexivity|now destruct (c_lower d)]).
    rewrite W. apply IH. intros e I. apply NB. now right. }
  unfold make_indirect in MK. rewrite EC in MK. cbn [bind] in MK. rewrite NS in MK. cbn [length Nat.ltb Nat.leb app] in MK.
  match type of MK with bind ?x _ = _ => destruct x as [ct|] eqn:ECT; [|discriminate] end. cbn [bind] in MK. injection MK as MK.
  assert (W : (if o_shift o then [FMomentum] else []) ++ FDual (o_method o) :: ct :: (if o_norm o then [FNorm] else []) ++ FSquash :: (if o_jac o && negb (String.eqb (o_control o) "algebraic") then [FJac] else []) = pre ++ FDual (o_method o) :: post)
    by (rewrite <- EF, <- MK; reflexivity).
  apply split_unique in W; [symmetry; apply W| |].
  - destruct (o_shift o); cbn; [intros [I|[]]; discriminate I|tauto].
  - cbn [In]. rewrite in_app_iff. intros [I|[I|[I|I]]].
    + clear - ECT I. subst ct. destruct (String.eqb (lower (o_control o)) "algebraic"); [discriminate|]. destruct (String.eqb (lower (o_control o)) "differential"); discriminate.
    + destruct (o_norm o); [destruct I as [I|[]]; discriminate I|exact I].
    + discriminate I.
    + destruct (_ && _); [destruct I as [I|[]]; discriminate I|exact I].
Qed.
Lemma momentum_consts p q : momentum_shift None p = Ok q -> p_consts q = p_consts p.
Proof. unfold momentum_shift. destruct (p_symp p); [|discriminate]. intros H. apply Ok_inj in H. subst q. destruct p. reflexivity. Qed.

Lemma grid_at c f names ts : grid (fun t => c (f t)) names ts = grid c names (map f ts).
Proof. unfold grid. now rewrite map_map. Qed.

(** The trajectory that the user sees. *)
Lemma user_samples lu (LU : lu_ok lu) solve fn sm o p fs pre post p1 p' ms Y Q D nu k t0 c ts v (s : sol R) {delta eps : R} :
  (lower (o_control o) = "algebraic" -> solve_sound solve) -> make_indirect o p = Ok fs -> fs = pre ++ FDual (o_method o) :: post -> run_tfs lu solve pre p = Ok p1 -> run_chain fn sm lu solve fs p = Ok (p', ms) ->
  (forall d, In d (p_ci p ++ p_cp p ++ p_ct p) -> c_lower d = None \/ c_upper d = None) -> p_switches p = [] ->
  o_norm o = true -> lower (o_method o) = "traditional" \/ lower (o_method o) = "diffyg" -> control_known o p1 p' ->
  p_costates p = [] -> p_coparams p = [] -> p_params p = [] -> p_quads p = [] -> NoDup (p_ind p1 :: all_names p') ->
  incl (vars (p_cost_i p) ++ vars (p_cost_t p)) (syms (p_states p1) ++ p_consts p) -> incl (vars (p_cost_p p)) (syms (p_states p1) ++ p_controls p ++ p_consts p) ->
  near delta eps fn p' 0 1 Y Q [D] nu k -> (0 < D)%R -> reads_off fn p' (p_ind p1) Y [D] nu k t0 D c ->
  (o_shift o = false -> t0 = 0%R) -> (forall t, (t0 <= t <= t0 + D)%R -> c t (p_ind p) = t) ->
  s_t s = ts -> ts <> [] -> (forall t, In t ts -> (0 <= t <= 1)%R) -> s_y s = Mat (length (p_states p')) (map Y ts) -> s_p s = [D] -> s_k s = k ->
  (alen (s_q s) = 0 \/ exists w, s_q s = Mat w (map (fun _ => []) ts)) ->
  sm (map (fun t => eval fn (c (t0 + D * t)%R) (p_cost_p p)) ts) (map (fun t => t * D)%R ts) = Ok v ->
  let times := map (fun t => t0 + D * t)%R ts in
  exists r a, inv_map_sol ROps ms s = Ok (ms, r, a) /\
    s_t r = times /\ s_y r = grid c (syms (p_states p)) times /\ s_dual r = grid c (map lam (syms (p_states p))) times /\ s_u r = grid c (p_controls p) times /\
    s_q r = s_q s /\ s_p r = [] /\ s_nu r = [] /\ s_k r = k /\ (if o_shift o then s_dual_t r = map (fun t => c t (lam (p_ind p))) times else s_dual_t r = s_dual_t s) /\
    s_cost r = (eval fn (c (t0 + D * hd 0 ts)) (p_cost_i p) + eval fn (c (t0 + D * last ts 0)) (p_cost_t p) + v)%R.
Proof.
  intros SO MK EF R1 RC NB NSW ON M CK E1 E2 EP EQ ND V1 V2 SOL D0 RO T0 CT ET NE T01 EY ES EK HQ SM times.
  assert (PR := user_pre o p fs pre post MK EF NB NSW).
  assert (PF : p_costates p1 = p_costates p /\ p_coparams p1 = p_coparams p /\ p_params p1 = p_params p /\ p_quads p1 = p_quads p /\ p_controls p1 = p_controls p /\
    p_cost_i p1 = p_cost_i p /\ p_cost_p p1 = p_cost_p p /\ p_cost_t p1 = p_cost_t p /\ p_consts p1 = p_consts p /\
    (if o_shift o then p_states p1 = p_states p ++ [(p_ind p, Cst 1)] /\ momentum_shift None p = Ok p1 else p1 = p)).
  { subst pre. destruct (o_shift o).
    - cbn [run_tfs apply_tf] in R1. destruct (momentum_shift None p) as [q|] eqn:HM; [|discriminate]. cbn [bind] in R1. injection R1 as ->.
      destruct (momentum_ok None p p1 HM) as (A1 & A2 & A3 & A4 & A5 & A6 & A7 & A8 & A9 & A10 & A11 & A12 & A13). assert (A14 := momentum_consts p p1 HM). repeat split; assumption.
    - cbn [run_tfs] in R1. injection R1 as ->. repeat split. }
  destruct PF as (F1 & F2 & F3 & F4 & F5 & F6 & F7 & F8 & F9 & F10).
  destruct (p1_samples (delta := delta) (eps := eps) lu LU solve fn sm o p fs pre post p1 p' ms Y Q D nu k t0 c ts v s SO MK EF R1 RC ON M CK) as (m1 & m2 & s3 & RP & EM & PS & SH & DT & N3 & C3);
    rewrite ?F1, ?F2, ?F3, ?F4, ?F5, ?F6, ?F7, ?F8, ?F9; auto.
  set (cs := fun t => c (t0 + D * t)%R) in *.
  assert (TC : forall t, In t ts -> cs t (p_ind p) = (t0 + D * t)%R).
  { intros t I. unfold cs. apply CT. specialize (T01 t I). clear - T01 D0. split; nra. }
  destruct SH as (G1 & G2 & G3 & G4 & G5 & G6 & G7). rewrite F5, ?F6, ?F8 in *.
  assert (GA : forall names, grid cs names ts = grid c names times) by (intros names; exact (grid_at c (fun t => t0 + D * t)%R names ts)). rewrite GA in G4. destruct (o_shift o).
  - destruct F10 as [F10 HM].
    assert (m1 = [MMomentumShift (Some (length (p_states p)))]).
    { subst pre. cbn [run_chain apply_tf] in RP. rewrite HM in RP. cbn [bind] in RP. rewrite (momentum_maps p p1 HM), skipn_len in RP. cbn in RP. injection RP as <-. reflexivity. }
    subst m1.
    assert (EX : syms (p_states p1) = syms (p_states p) ++ [p_ind p]) by (rewrite F10; unfold syms; rewrite map_app; reflexivity).
    rewrite EX in G2, G3. rewrite map_app in G3. cbn [map] in G3.
    assert (LS : length (syms (p_states p)) = length (p_states p)) by (unfold syms; apply map_length).
    assert (MB := ms_back cs (syms (p_states p)) (p_ind p) (map lam (syms (p_states p))) (lam (p_ind p)) ts s3 G2 G3 (map_length _ _)). rewrite LS in MB.
    set (r := set_dual (grid cs (map lam (syms (p_states p))) ts) (set_dual_t (map (fun t => cs t (lam (p_ind p))) ts) (set_y (grid cs (syms (p_states p)) ts) (set_t (map (fun t => cs t (p_ind p)) ts) s3)))) in *.
    assert (PS' : passes (apply_inv ROps) (rev ms) s r).
    { rewrite EM, rev_app_distr. eapply passes_app; [exact PS|]. cbn [rev app]. eapply passes_cons; [|apply passes_nil]. cbn [apply_inv]. rewrite MB. reflexivity. }
    destruct (passes_inv ROps ms s r PS') as (a & INV). exists r, a. split; [exact INV|].
    assert (RF : s_t r = map (fun t => cs t (p_ind p)) ts /\ s_y r = grid cs (syms (p_states p)) ts /\ s_dual r = grid cs (map lam (syms (p_states p))) ts /\ s_u r = s_u s3 /\
       s_q r = s_q s3 /\ s_p r = s_p s3 /\ s_nu r = s_nu s3 /\ s_k r = s_k s3 /\ s_dual_t r = map (fun t => cs t (lam (p_ind p))) ts /\ s_cost r = s_cost s3) by (unfold r; clear; repeat split; reflexivity).
    destruct RF as (H1 & H2 & H3 & H4 & H5 & H6 & H7 & H8 & H9 & H10). rewrite H1, H2, H3, H4, H5, H6, H7, H8, H9, H10. rewrite !GA.
    split; [unfold times; apply map_ext_in; exact TC|]. split; [reflexivity|]. split; [reflexivity|]. split; [exact G4|]. split; [exact G5|]. split; [exact G6|]. split; [exact N3|]. split; [exact G7|].
    split; [unfold times; rewrite map_map; reflexivity|exact C3].
  - subst p1. assert (m1 = []) by (subst pre; cbn [run_chain] in RP; injection RP as <-; reflexivity). subst m1. cbn [app] in EM. subst m2.
    destruct (passes_inv ROps ms s s3 PS) as (a & INV). exists s3, a. split; [exact INV|]. assert (Z := T0 eq_refl).
    rewrite GA in G2, G3.
    split; [rewrite G1; unfold times; apply map_ext; intros t; rewrite Z; clear; ring|]. split; [exact G2|]. split; [exact G3|]. split; [exact G4|]. split; [exact G5|]. split; [exact G6|]. split; [exact N3|].
    split; [exact G7|]. split; [exact DT|exact C3].
Qed.

(** Every solution stands for a curve. *)
Lemma reads_off_exists fn p ind Y pp nu k t0 D : NoDup (ind :: all_names p) -> exists c, reads_off fn p ind Y pp nu k t0 D c.
Proof.
  intros ND. inversion ND as [|? ? NI NA]; subst. unfold all_names in NA. destruct (nodup_parts _ _ NA) as (N1 & N2 & D1). destruct (nodup_parts _ _ N2) as (N3 & N4 & D2).
  destruct (nodup_parts _ _ N4) as (N5 & N6 & D3). destruct (nodup_parts _ _ N6) as (N7 & N8 & D4).
  set (u := fun s => match law_control fn p with Some f => f (Y s) pp k | None => [] end).
  exists (fun t x => if String.eqb x ind then t else over (syms (p_states p)) (Y ((t - t0) / D)%R) (over (p_controls p) (u ((t - t0) / D)%R) (over (p_params p) pp (over (p_cpars p) nu (env (p_consts p) k)))) x).
  assert (NE : forall i x l, nth_error l i = Some x -> incl l (all_names p) -> String.eqb x ind = false).
  { intros i x l I J. apply String.eqb_neq. intros ->. apply NI, J. now apply nth_error_In in I. }
  assert (II : forall i x (l : list string), nth_error l i = Some x -> In x l) by (intros i x l; apply nth_error_In).
  constructor.
  - intros t. now rewrite String.eqb_refl.
  - intros t i x I. rewrite (NE i x _ I) by (intros y J; unfold all_names; rewrite !in_app_iff; tauto). now apply over_nth.
  - intros f t i x L I. rewrite (NE i x _ I) by (intros y J; unfold all_names; rewrite !in_app_iff; tauto).
    rewrite over_out by (intros J; apply (D1 x J); rewrite !in_app_iff; left; now apply II in I). rewrite (over_nth _ _ _ x i N3 I). unfold u. now rewrite L.
  - intros t i x I. rewrite (NE i x _ I) by (intros y J; unfold all_names; rewrite !in_app_iff; tauto).
    rewrite over_out by (intros J; apply (D1 x J); rewrite !in_app_iff; apply II in I; tauto). rewrite over_out by (intros J; apply (D2 x J); rewrite !in_app_iff; apply II in I; tauto).
    now apply over_nth.
  - intros t i x I. rewrite (NE i x _ I) by (intros y J; unfold all_names; rewrite !in_app_iff; tauto).
    rewrite over_out by (intros J; apply (D1 x J); rewrite !in_app_iff; apply II in I; tauto). rewrite over_out by (intros J; apply (D2 x J); rewrite !in_app_iff; apply II in I; tauto).
    rewrite over_out by (intros J; apply (D3 x J); rewrite !in_app_iff; apply II in I; tauto). now apply over_nth.
  - intros t i x I. rewrite (NE i x _ I) by (intros y J; unfold all_names; rewrite !in_app_iff; tauto).
    rewrite over_out by (intros J; apply (D1 x J); rewrite !in_app_iff; apply II in I; tauto). rewrite over_out by (intros J; apply (D2 x J); rewrite !in_app_iff; apply II in I; tauto).
    rewrite over_out by (intros J; apply (D3 x J); rewrite !in_app_iff; apply II in I; tauto). rewrite over_out by (intros J; apply (D4 x J); apply II in I; tauto).
    unfold env. now rewrite (index_of_NoDup x _ i N8 I).
Qed.
