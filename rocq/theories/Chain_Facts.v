(** Facts about the compiled mapper chain. *)
From Coq Require Import Reals Lra Lia FunctionalExtensionality.
From Coquelicot Require Import Coquelicot.
From Verif Require Import Base Base_Facts Map_Model Map_Proofs Map_Chain Map_More Sym_Expr Sym_Facts Sym_Model Sym_Dual Sym_Traj Jac_Model Jac_Proofs Jac_Properties Unit_Model Unit_Spec Unit_Proofs Unit_Steps Unit_Scale Unit_Properties Count_Properties Whole_Proofs Whole_Steps Whole_Properties Chain_Model.
Open Scope string_scope.
Open Scope list_scope.
Open Scope nat_scope.

Lemma run_chain_tfs fn sm lu solve fs : forall p q ms, run_chain fn sm lu solve fs p = Ok (q, ms) -> run_tfs lu solve fs p = Ok q.
Proof.
  induction fs as [|f fs IH]; intros p q ms H; cbn in *; [congruence|]. destruct (apply_tf lu solve f p) as [q1|]; [|discriminate]. cbn [bind] in *.
  destruct (run_chain fn sm lu solve fs q1) as [[q2 ms2]|] eqn:E; [|discriminate]. cbn [bind fst snd] in H. injection H as <- _. now apply (IH q1 q2 ms2).
Qed.
Lemma run_chain_total fn sm lu solve fs : forall p q, run_tfs lu solve fs p = Ok q -> exists ms, run_chain fn sm lu solve fs p = Ok (q, ms).
Proof.
  induction fs as [|f fs IH]; intros p q H; cbn in *; [injection H as ->; now exists []|]. destruct (apply_tf lu solve f p) as [q1|]; [|discriminate]. cbn [bind] in *.
  destruct (IH q1 q H) as (ms & ->). cbn. eexists. reflexivity.
Qed.
Lemma run_chain_app fn sm lu solve a b : forall p q ms, run_chain fn sm lu solve (a ++ b) p = Ok (q, ms) ->
  exists q1 m1 m2, run_chain fn sm lu solve a p = Ok (q1, m1) /\ run_chain fn sm lu solve b q1 = Ok (q, m2) /\ ms = m1 ++ m2.
Proof.
  induction a as [|f a IH]; intros p q ms H; cbn in *; [exists p, [], ms; now repeat split|]. destruct (apply_tf lu solve f p) as [p1|]; [|discriminate]. cbn [bind] in *.
  destruct (run_chain fn sm lu solve (a ++ b) p1) as [[q2 m2]|] eqn:E; [|discriminate]. cbn [bind fst snd] in H. injection H as <- <-.
  destruct (IH p1 q2 m2 E) as (q1 & n1 & n2 & A1 & A2 & ->). exists q1, (map (build fn sm p p1) (skipn (length (p_maps p)) (p_maps p1)) ++ n1), n2. rewrite A1. cbn.
  repeat split; [exact A2|]. now rewrite app_assoc.
Qed.
Lemma run_chain_step fn sm lu solve f fs p q1 q ms t : apply_tf lu solve f p = Ok q1 -> p_maps q1 = p_maps p ++ t ->
  run_chain fn sm lu solve (f :: fs) p = Ok (q, ms) -> exists m2, run_chain fn sm lu solve fs q1 = Ok (q, m2) /\ ms = map (build fn sm p q1) t ++ m2.
Proof.
  intros E M H. cbn in H. rewrite E in H. cbn [bind] in H. destruct (run_chain fn sm lu solve fs q1) as [[q2 m2]|]; [|discriminate]. cbn [bind fst snd] in H.
  injection H as <- <-. exists m2. split; [reflexivity|]. rewrite M, skipn_app, skipn_all, Nat.sub_diag. reflexivity.
Qed.

(** What each step appends. *)
Lemma maps_set_dual q v : p_maps (set_dual q v) = p_maps q /\ p_consts (set_dual q v) = p_consts q.
Proof. destruct q; split; reflexivity. Qed.
Lemma maps_set_ct q v : p_maps (set_ct q v) = p_maps q /\ p_consts (set_ct q v) = p_consts q.
Proof. destruct q; split; reflexivity. Qed.
Lemma maps_set_ci q v : p_maps (set_ci q v) = p_maps q /\ p_consts (set_ci q v) = p_consts q.
Proof. destruct q; split; reflexivity. Qed.
Lemma maps_set_coparams q v : p_maps (set_coparams q v) = p_maps q /\ p_consts (set_coparams q v) = p_consts q.
Proof. destruct q; split; reflexivity. Qed.
Lemma maps_set_costates q v : p_maps (set_costates q v) = p_maps q /\ p_consts (set_costates q v) = p_consts q.
Proof. destruct q; split; reflexivity. Qed.
Lemma maps_set_ham q v : p_maps (set_ham q v) = p_maps q /\ p_consts (set_ham q v) = p_consts q.
Proof. destruct q; split; reflexivity. Qed.
Lemma maps_set_cost_t q v : p_maps (set_cost_t q v) = p_maps q /\ p_consts (set_cost_t q v) = p_consts q.
Proof. destruct q; split; reflexivity. Qed.
Lemma maps_set_cost_i q v : p_maps (set_cost_i q v) = p_maps q /\ p_consts (set_cost_i q v) = p_consts q.
Proof. destruct q; split; reflexivity. Qed.
Lemma maps_set_cadj q v : p_maps (set_cadj q v) = p_maps q /\ p_consts (set_cadj q v) = p_consts q.
Proof. destruct q; split; reflexivity. Qed.
Lemma maps_set_law q v : p_maps (set_law q v) = p_maps q /\ p_consts (set_law q v) = p_consts q.
Proof. destruct q; split; reflexivity. Qed.
Lemma maps_set_states q v : p_maps (set_states q v) = p_maps q /\ p_consts (set_states q v) = p_consts q.
Proof. destruct q; split; reflexivity. Qed.
Lemma maps_set_controls q v : p_maps (set_controls q v) = p_maps q /\ p_consts (set_controls q v) = p_consts q.
Proof. destruct q; split; reflexivity. Qed.
Lemma maps_set_params q v : p_maps (set_params q v) = p_maps q /\ p_consts (set_params q v) = p_consts q.
Proof. destruct q; split; reflexivity. Qed.
Lemma maps_set_cost_p q v : p_maps (set_cost_p q v) = p_maps q /\ p_consts (set_cost_p q v) = p_consts q.
Proof. destruct q; split; reflexivity. Qed.
Lemma maps_set_ind q v : p_maps (set_ind q v) = p_maps q /\ p_consts (set_ind q v) = p_consts q.
Proof. destruct q; split; reflexivity. Qed.
Lemma maps_set_quads q v : p_maps (set_quads q v) = p_maps q /\ p_consts (set_quads q v) = p_consts q.
Proof. destruct q; split; reflexivity. Qed.
Lemma maps_set_cpars q v : p_maps (set_cpars q v) = p_maps q /\ p_consts (set_cpars q v) = p_consts q.
Proof. destruct q; split; reflexivity. Qed.
Lemma maps_set_maps q v : p_maps (set_maps q v) = v /\ p_consts (set_maps q v) = p_consts q /\ p_costates (set_maps q v) = p_costates q /\ p_cadj (set_maps q v) = p_cadj q.
Proof. destruct q; repeat split. Qed.
Lemma keep_dual q v : p_costates (set_dual q v) = p_costates q /\ p_cadj (set_dual q v) = p_cadj q.
Proof. destruct q; repeat split. Qed.
Ltac maps := repeat (rewrite ?(proj1 (keep_dual _ _)), ?(proj2 (keep_dual _ _)), ?(proj1 (proj2 (proj2 (maps_set_maps _ _)))), ?(proj2 (proj2 (proj2 (maps_set_maps _ _)))), ?(proj1 (maps_set_maps _ _)), ?(proj1 (proj2 (maps_set_maps _ _))), ?(proj1 (maps_set_dual _ _)), ?(proj2 (maps_set_dual _ _)), ?(proj1 (maps_set_ct _ _)), ?(proj2 (maps_set_ct _ _)), ?(proj1 (maps_set_ci _ _)), ?(proj2 (maps_set_ci _ _)), ?(proj1 (maps_set_coparams _ _)), ?(proj2 (maps_set_coparams _ _)), ?(proj1 (maps_set_costates _ _)), ?(proj2 (maps_set_costates _ _)), ?(proj1 (maps_set_ham _ _)), ?(proj2 (maps_set_ham _ _)), ?(proj1 (maps_set_cost_t _ _)), ?(proj2 (maps_set_cost_t _ _)), ?(proj1 (maps_set_cost_i _ _)), ?(proj2 (maps_set_cost_i _ _)), ?(proj1 (maps_set_cadj _ _)), ?(proj2 (maps_set_cadj _ _)), ?(proj1 (maps_set_law _ _)), ?(proj2 (maps_set_law _ _)), ?(proj1 (maps_set_states _ _)), ?(proj2 (maps_set_states _ _)), ?(proj1 (maps_set_controls _ _)), ?(proj2 (maps_set_controls _ _)), ?(proj1 (maps_set_params _ _)), ?(proj2 (maps_set_params _ _)), ?(proj1 (maps_set_cost_p _ _)), ?(proj2 (maps_set_cost_p _ _)), ?(proj1 (maps_set_ind _ _)), ?(proj2 (maps_set_ind _ _)), ?(proj1 (maps_set_quads _ _)), ?(proj2 (maps_set_quads _ _)), ?(proj1 (maps_set_cpars _ _)), ?(proj2 (maps_set_cpars _ _))).
Lemma finish_maps h p : p_maps (dual_finish h p) = p_maps p ++ [TDualize (length (p_costates (dual_finish h p))) (length (p_cadj (dual_finish h p)))] /\ p_consts (dual_finish h p) = p_consts p.
Proof. unfold dual_finish. cbv zeta. maps. split; reflexivity. Qed.
Lemma start_maps p : p_maps (dual_start p) = p_maps p /\ p_consts (dual_start p) = p_consts p.
Proof. unfold dual_start. cbv zeta. maps. split; reflexivity. Qed.
Lemma traditional_maps h p : p_maps (costates_traditional h p) = p_maps p /\ p_consts (costates_traditional h p) = p_consts p.
Proof. unfold costates_traditional. cbv zeta. maps. split; reflexivity. Qed.
Lemma dualize_maps lu m p pD : dualize lu m p = Ok pD ->
  p_maps pD = p_maps p ++ [TDualize (length (p_costates pD)) (length (p_cadj pD))] /\ p_consts pD = p_consts p.
Proof.
  unfold dualize. destruct (p_symp p); [|discriminate]. cbv zeta. set (h := dual_ham p). intros H.
  match type of H with bind ?x _ = _ => destruct x as [q|] eqn:E; [|discriminate] end. cbn [bind] in H. apply Ok_inj in H. subst pD.
  destruct (finish_maps h q) as [F1 F2]. rewrite F1 at 1. rewrite F2. destruct (start_maps p) as [S1 S2]. rewrite <- S1, <- S2. clear F1 F2 S1 S2.
  assert (G : p_maps q = p_maps (dual_start p) /\ p_consts q = p_consts (dual_start p)).
  { generalize dependent (dual_start p). intros p0 E.
    destruct (String.eqb (lower m) "traditional"); [apply Ok_inj in E; subst q; apply traditional_maps|].
    destruct (String.eqb (lower m) "diffyg"); [|apply Ok_inj in E; subst q; split; reflexivity].
    unfold costates_diffyg in E. cbv zeta in E. destruct (negb _); [discriminate|]. match type of E with bind ?x _ = _ => destruct x as [chi|]; [|discriminate] end.
    cbn [bind] in E. apply Ok_inj in E. subst q. maps. split; reflexivity. }
  destruct G as [G1 G2]. now rewrite G1, G2.
Qed.
Lemma algebraic_maps solve p q : algebraic_control solve p = Ok q -> p_maps q = p_maps p ++ [TAlgebraic] /\ p_consts q = p_consts p.
Proof.
  unfold algebraic_control. destruct (p_dual p); [|discriminate]. destruct (p_ham p); [|discriminate]. intros H. apply Ok_inj in H. subst q. destruct p. split; reflexivity.
Qed.
Lemma differential_maps lu m p q : differential_control lu m p = Ok q -> exists t, p_maps q = p_maps p ++ [t] /\ p_consts q = p_consts p /\
  (lower m = "traditional" -> t = TDifferential (seq (length (p_states p)) (length (p_controls p)))) /\
  (lower m = "diffyg" -> t = TDifferentialG (seq (length (p_states p)) (length (p_controls p)))).
Proof.
  unfold differential_control. destruct (p_dual p); [|discriminate]. destruct (p_ham p) as [h|]; [|discriminate]. intros H.
  match type of H with bind ?x _ = _ => destruct x as [udot|]; [|discriminate] end. cbn [bind] in H. cbv zeta in H.
  destruct (String.eqb_spec (lower m) "traditional") as [E|E].
  - apply Ok_inj in H. subst q. exists (TDifferential (seq (length (p_states p)) (length (p_controls p)))). destruct p. repeat split. intros F. cbn in F. rewrite E in F. discriminate F.
  - destruct (String.eqb_spec (lower m) "diffyg") as [F|F]; [|discriminate]. destruct (negb _); [discriminate|].
    match type of H with bind ?x _ = _ => destruct x as [chi|]; [|discriminate] end. cbn [bind] in H. apply Ok_inj in H. subst q.
    exists (TDifferentialG (seq (length (p_states p)) (length (p_controls p)))). destruct p. split; [reflexivity|]. split; [reflexivity|]. split; [intros G; contradiction|reflexivity].
Qed.
Lemma normalize_maps p q : normalize_time None p = Ok q -> p_maps q = p_maps p ++ [TNormalize (length (p_params p))].
Proof.
  unfold normalize_time. destruct (p_symp p); [|discriminate]. intros H. apply Ok_inj in H. subst q. destruct p. cbn. rewrite app_length. cbn.
  replace (length p_params + 1 - 1) with (length p_params) by lia. reflexivity.
Qed.
Lemma normalize_lengths p q : normalize_time None p = Ok q -> length (p_states q) = length (p_states p) /\ length (p_costates q) = length (p_costates p).
Proof. unfold normalize_time. destruct (p_symp p); [|discriminate]. intros H. apply Ok_inj in H. subst q. destruct p. cbn. rewrite !map_length. split; reflexivity. Qed.
Lemma squash_maps p q : squash p = Ok q -> exists b c, p_maps q = p_maps p ++ [TSquash (length (p_states p), length (p_states p) + length (p_costates p)) b c].
Proof. unfold squash. intros H. apply Ok_inj in H. subst q. destruct p. cbn. eexists. eexists. reflexivity. Qed.
Lemma momentum_maps p q : momentum_shift None p = Ok q -> p_maps q = p_maps p ++ [TMomentum (length (p_states p))].
Proof.
  unfold momentum_shift. destruct (p_symp p); [|discriminate]. intros H. apply Ok_inj in H. subst q. destruct p. cbn. rewrite app_length. cbn.
  replace (length p_states + 1 - 1) with (length p_states) by lia. reflexivity.
Qed.

(** The tail of the chain: Dualize, control, time, SquashToBVP. *)
Definition control_mapper fn (o : options) (pD p2 : prob) : mapper R :=
  if String.eqb (lower (o_control o)) "algebraic" then MAlgebraic (length (p_controls p2)) (law_options fn p2) (law_ham fn p2)
  else if String.eqb (lower (o_method o)) "traditional" then MDifferential (seq (length (p_states pD)) (length (p_controls pD)))
  else MDiffyG (seq (length (p_states pD)) (length (p_controls pD))).
Lemma chain_tail fn sm lu solve o p fs pre post p1 p' ms :
  make_indirect o p = Ok fs -> fs = pre ++ FDual (o_method o) :: post -> run_tfs lu solve pre p = Ok p1 -> run_chain fn sm lu solve fs p = Ok (p', ms) -> o_norm o = true ->
  lower (o_method o) = "traditional" \/ lower (o_method o) = "diffyg" ->
  exists pD p2 p3 m1 na b c d, dualize lu (o_method o) p1 = Ok pD /\ apply_tf lu solve (control_tf o) pD = Ok p2 /\ normalize_time None p2 = Ok p3 /\ squash p3 = Ok p' /\
    p_consts p' = p_consts p1 /\ run_chain fn sm lu solve pre p = Ok (p1, m1) /\
    ms = m1 ++ [MDualize na (compute_cost fn sm p1); control_mapper fn o pD p2; MNormalizeTime (Some (length (p_params p2))); MSquash (length (p_states p2)) b c d] /\
    b = length (p_states p2) + length (p_costates p2).
Proof.
  intros MK EF R1 RC ON M.
  destruct (indirect_steps lu solve o p fs pre post p1 p' MK EF R1 (run_chain_tfs _ _ _ _ _ _ _ _ RC) ON) as (pD & p2 & p3 & HD & HC & HN & HS).
  assert (RN := run_chain_tfs _ _ _ _ _ _ _ _ RC).
  rewrite EF in RC. apply run_chain_app in RC. destruct RC as (q1 & m1 & m2 & C1 & C2 & EM). assert (Q1 := run_chain_tfs _ _ _ _ _ _ _ _ C1). rewrite R1 in Q1. injection Q1 as <-.
  destruct (dualize_maps lu _ _ _ HD) as [D1 D2].
  assert (CM : exists t, p_maps p2 = p_maps pD ++ [t] /\ p_consts p2 = p_consts pD /\ build fn sm pD p2 t = control_mapper fn o pD p2).
  { unfold control_tf in HC. unfold control_mapper. destruct (String.eqb (lower (o_control o)) "algebraic"); cbn [apply_tf] in HC.
    - destruct (algebraic_maps _ _ _ HC) as [A1 A2]. exists TAlgebraic. now repeat split.
    - destruct (differential_maps _ _ _ _ HC) as (t & T1 & T2 & T3 & T4). exists t. split; [exact T1|]. split; [exact T2|]. destruct M as [M|M].
      + rewrite (T3 M), M. reflexivity.
      + rewrite (T4 M), M. reflexivity. }
  destruct CM as (t & T1 & T2 & T3). assert (N1 := normalize_maps _ _ HN). destruct (squash_maps _ _ HS) as (cp & cd & S1).
  assert (SH : exists J, post = control_tf o :: FNorm :: FSquash :: J /\ (J = [] \/ J = [FJac])).
  { unfold make_indirect in MK. destruct (constraint_tfs (all_constraints p)) as [cons|] eqn:EC; [|discriminate]. cbn [bind] in MK. unfold control_tf.
    destruct (String.eqb (lower (o_control o)) "algebraic") eqn:EA; cbn [bind] in MK;
      [|destruct (String.eqb (lower (o_control o)) "differential"); [|discriminate]; cbn [bind] in MK]; rewrite ON in MK; injection MK as MK; rewrite EF in MK;
    set (J := if o_jac o && negb (String.eqb (o_control o) "algebraic") then [FJac] else []) in *; exists J;
    (split; [|unfold J; destruct (_ && _); [now right|now left]]);
    match type of MK with (?a ++ ?b ++ ?c ++ ?d) = _ => 
      assert (MK' : (a ++ b ++ c) ++ d = pre ++ FDual (o_method o) :: post) by (rewrite <- MK, <- !app_assoc; reflexivity) end;
    cbn [app] in MK'; apply split_unique in MK'; try (symmetry; apply MK').
    all: try (rewrite !in_app_iff; intros [I|[I|I]];
      [destruct (o_shift o); cbn in I; [destruct I as [I|[]]; discriminate I|exact I]
      |exact (constraint_no_dual _ _ _ EC I)
      |destruct (Nat.ltb _ _); cbn in I; [destruct I as [I|[]]; discriminate I|exact I]]).
    all: unfold J; intros [I|[I|[I|I]]]; try discriminate I; destruct (_ && _); cbn in I; [destruct I as [I|[]]; discriminate I|exact I]. }
  destruct SH as (J & -> & EJ).
  apply (run_chain_step _ _ lu solve (FDual (o_method o)) _ _ pD _ _ _ HD D1) in C2. destruct C2 as (m3 & C2 & ->).
  apply (run_chain_step _ _ _ _ _ _ _ p2 _ _ _ HC T1) in C2. destruct C2 as (m4 & C2 & ->).
  apply (run_chain_step _ _ lu solve FNorm _ _ p3 _ _ _ HN N1) in C2. destruct C2 as (m5 & C2 & ->).
  apply (run_chain_step _ _ lu solve FSquash _ _ p' _ _ _ HS S1) in C2. destruct C2 as (m6 & C2 & ->).
  assert (m6 = []).
  { destruct EJ as [ ->| ->]; cbn in C2; [congruence|]. rewrite skipn_all in C2. cbn in C2. congruence. }
  subst m6. destruct (norm_squash p2 p3 p' HN HS) as (E1 & _ & _ & _ & E5 & _).
  assert (L3 : length (p_states p3) = length (p_states p2) /\ length (p_costates p3) = length (p_costates p2)).
  { exact (normalize_lengths _ _ HN). }
  destruct L3 as [L3 L4]. rewrite L3, L4 in *. destruct cd as [c d].
  exists pD, p2, p3, m1, (length (p_cadj pD)), (length (p_states p2) + length (p_costates p2)), c, d.
  split; [exact HD|]. split; [exact HC|]. split; [exact HN|]. split; [exact HS|]. split; [rewrite E5, T2; exact D2|]. split; [exact C1|]. split; [|reflexivity].
  rewrite EM. cbn [map app build]. rewrite T3. reflexivity.
Qed.
