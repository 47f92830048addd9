(** Property theorem C32: counting unknowns and conditions of the derived
    boundary-value problem. *)
From Coq Require Import Reals.
From Verif Require Import Base Base_Facts Sym_Expr Sym_Facts Sym_Model Sym_Lu Sym_Dual Sym_DiffCtl Dual_Properties.
Open Scope nat_scope.

(** Boundary conditions, and the quantities the solver has to find: initial
    values of the differential variables and quadratures, parameters, and the
    multipliers of the constraints. *)
Definition conditions (p : prob) : nat := length (p_ci p) + length (p_ct p).
Definition unknowns (p : prob) : nat :=
  length (p_states p) + length (p_costates p) + length (p_quads p) + length (p_coparams p)
  + length (p_params p) + length (p_cpars p) + length (p_cadj p).

(** Before the dual variables are introduced. *)
Definition primal (q k : nat) (p : prob) : Prop :=
  p_costates p = [] /\ p_coparams p = [] /\ p_cadj p = [] /\ length (p_quads p) = q /\ length (p_cpars p) = k.
(** Afterwards: [e] conditions in excess. *)
Definition excess (q k e : nat) (p : prob) : Prop := (conditions p + q + k = unknowns p + e)%nat.

Lemma primal_subs q k x n p : primal q k p -> primal q k (subs_all x n p).
Proof. destruct p. unfold primal, subs_all. simpl. intros (-> & -> & -> & <- & <-). rewrite map_length. repeat split. Qed.
Lemma primal_momentum q k nm p p' : momentum_shift nm p = Ok p' -> primal q k p -> primal q k p'.
Proof. unfold momentum_shift. destruct (p_symp p); [|discriminate]. intros H. apply Ok_inj in H. subst p'. destruct p. auto. Qed.
Lemma primal_rashs q k p p' : rashs p = Ok p' -> primal q k p -> primal q k p'.
Proof.
  unfold rashs. destruct (p_symp p); [|discriminate]. intros H. apply Ok_inj in H. subst p'.
  generalize (seq 0 (length (p_switches p))). intros l. revert p. induction l as [|i l IH]; intros p H; [exact H|].
  simpl. apply IH. unfold rashs_at. destruct (nth_error _ _) as [s|]; [|exact H]. destruct (sw_sym s); [|exact H]. now apply primal_subs.
Qed.
Lemma primal_utm q k p p' : utm p = Ok p' -> primal q k p -> primal q k p'.
Proof.
  unfold utm. destruct (p_symp p); [|discriminate]. intros H P.
  destruct (find_at utm_sel (p_ci p)) as [[i c]|]; [|destruct (find_at utm_sel (p_cp p)) as [[i c]|]; [|destruct (find_at utm_sel (p_ct p)) as [[i c]|]; [|discriminate]]];
    (destruct (utm_term p c) as [t|]; [|discriminate]); cbn [bind] in H; apply Ok_inj in H; subst p'; destruct p; exact P.
Qed.
Lemma primal_eps q k p p' : eps_trig p = Ok p' -> primal q k p -> primal q k p'.
Proof.
  unfold eps_trig. destruct (p_symp p); [|discriminate]. intros H P.
  destruct (find_at _ (p_cp p)) as [[i c]|]; [|discriminate]. destruct (c_expr c); try discriminate.
  destruct (index_of _ _) as [j|]; [|discriminate]. destruct (set_nth _ _ _) as [cs|]; [|discriminate].
  cbn [bind] in H. destruct (c_act c), (c_lower c), (c_upper c); try discriminate. apply Ok_inj in H. subst p'.
  match goal with |- primal _ _ (set_maps (subs_all ?x ?n ?r) _) =>
    assert (P2 : primal q k (subs_all x n r)) by (apply primal_subs; destruct p; exact P);
    revert P2; generalize (subs_all x n r) end.
  intros r P2. destruct r; exact P2.
Qed.

Lemma length_give_rates l r : length (give_rates l r) = length l.
Proof. unfold give_rates. now rewrite map_length, seq_length. Qed.
Lemma nu_names_length pre cs : length (nu_names pre cs) = length cs.
Proof. unfold nu_names. now rewrite map_length, seq_length. Qed.

(** Lengths after the dual stage, whatever the method. *)
Lemma dual_excess lu m q k p p' : dualize lu m p = Ok p' -> primal q k p -> excess q k 1 p'.
Proof.
  unfold dualize. destruct (p_symp p); [|discriminate]. cbv zeta. intros H (E1 & E2 & E3 & E4 & E5).
  assert (S : let p1 := dual_start p in
    length (p_states p1) = length (p_states p) /\ length (p_costates p1) = length (p_states p) /\
    length (p_coparams p1) = length (p_params p) /\ length (p_params p1) = length (p_params p) /\
    length (p_cadj p1) = conditions p /\ length (p_quads p1) = q /\ length (p_cpars p1) = k /\ conditions p1 = conditions p).
  { unfold dual_start, conditions. destruct p; simpl in *. subst. rewrite !app_length, !nu_names_length, !map_length. simpl. repeat split; auto. }
  revert H S. cbv zeta. generalize (dual_start p). generalize (dual_ham p). intros h p1 H S.
  assert (X : exists p2, dual_finish h p2 = p' /\
    (length (p_states p2) = length (p_states p) /\ length (p_costates p2) = length (p_states p) /\
    length (p_coparams p2) = length (p_params p) /\ length (p_params p2) = length (p_params p) /\
    length (p_cadj p2) = conditions p /\ length (p_quads p2) = q /\ length (p_cpars p2) = k /\ conditions p2 = conditions p)).
  { destruct (String.eqb (lower m) "traditional").
    - cbn [bind] in H. apply Ok_inj in H. eexists. split; [exact H|]. clear H. unfold costates_traditional. destruct p1. simpl in *.
      rewrite !length_give_rates. exact S.
    - destruct (String.eqb (lower m) "diffyg").
      + destruct (costates_diffyg lu h p1) as [p2|] eqn:C; [|discriminate]. cbn [bind] in H. apply Ok_inj in H. exists p2. split; [exact H|]. clear H.
        unfold costates_diffyg in C. destruct (negb _); [discriminate|]. destruct (ham_field _ _ _ _) as [chi|]; [|discriminate].
        cbn [bind] in C. apply Ok_inj in C. subst p2. destruct p1. simpl in *.
        rewrite app_length, map_length, combine_length, skipn_length.
        repeat match goal with |- context[Nat.min ?a ?b + (?a - ?b)] => replace (Nat.min a b + (a - b)) with a by lia end. exact S.
      + cbn [bind] in H. apply Ok_inj in H. exists p1. split; [exact H|exact S]. }
  destruct X as (p2 & <- & S2). clear - S2. unfold excess, conditions, unknowns, dual_finish in *. destruct p2. simpl in *.
  rewrite !app_length, !map_length, !combine_length, !app_length. unfold syms. rewrite !map_length. simpl. lia.
Qed.

Lemma excess_normalize q k e nm p p' : normalize_time nm p = Ok p' -> excess q k (S e) p -> excess q k e p'.
Proof.
  unfold normalize_time. destruct (p_symp p); [|discriminate]. intros H. apply Ok_inj in H. subst p'.
  unfold excess, conditions, unknowns. destruct p. simpl. rewrite !app_length, !map_length. simpl. lia.
Qed.
Lemma excess_squash q k e p p' : squash p = Ok p' -> excess q k e p -> excess q k e p' /\ p_costates p' = [] /\ p_coparams p' = [] /\ p_cadj p' = [].
Proof.
  unfold squash. intros H. apply Ok_inj in H. subst p'. unfold excess, conditions, unknowns. destruct p. simpl. rewrite !app_length. simpl.
  intros E. split; [lia|]. repeat split.
Qed.
Lemma excess_algebraic q k e sol p p' : algebraic_control sol p = Ok p' -> excess q k e p -> excess q k e p'.
Proof.
  unfold algebraic_control. destruct (p_dual p); [|discriminate]. destruct (p_ham p) as [h|]; [|discriminate]. intros H. apply Ok_inj in H. subst p'.
  destruct p. auto.
Qed.
Definition sized (N : nat) (m : list (list expr)) : Prop := length m = N /\ Forall (fun r => length r = N) m.
Lemma sized_set N i j e m : sized N m -> sized N (set_entry i j e m).
Proof.
  intros [L F]. unfold set_entry. split; [now rewrite update_at_length|]. clear L. revert i.
  induction F as [|r m H F IH]; intros [|i]; simpl; constructor; auto. now rewrite update_at_length.
Qed.
Lemma sized_omega n m ind udot : sized (2 * n) (omega_new n m ind udot).
Proof.
  unfold omega_new. assert (S : sized (2 * n) (std_form n)).
  { unfold std_form. split; [now rewrite map_length, seq_length|]. apply Forall_forall. intros r H. apply in_map_iff in H.
    destruct H as (i & <- & _). now rewrite map_length, seq_length. }
  revert S. generalize (combine (seq 0 (length udot)) udot) (std_form n). induction l as [|[i u] l IH]; intros om S; [exact S|].
  simpl. apply IH. unfold omega_step. repeat apply sized_set. exact S.
Qed.
Lemma ham_field_length lu (LU : lu_ok lu) h om basis chi N : sized N om -> length basis = N -> ham_field lu h om basis = Ok chi -> length chi = N.
Proof.
  intros [L F] B. unfold ham_field. destruct (Nat.odd _); [discriminate|]. destruct (lu _ _) as [x|] eqn:HL; [|discriminate].
  cbn [bind]. intros H. apply Ok_inj in H. subst chi. rewrite map_length. apply LU in HL.
  - destruct HL as [HL _]. now rewrite HL, map_length.
  - now rewrite map_length, L, B.
  - eapply Forall_impl; [|exact F]. simpl. intros r ->. now rewrite map_length, B.
Qed.

Lemma excess_differential q k e lu (LU : lu_ok lu) m p p' : differential_control lu m p = Ok p' -> excess q k e p ->
  excess q k e p' /\ p_controls p' = [].
Proof.
  unfold differential_control. destruct (p_dual p); [|discriminate]. destruct (p_ham p) as [h|]; [|discriminate]. cbv zeta.
  intros H E. destruct (lu _ _) as [udot|] eqn:HL; [|discriminate].
  assert (L : length udot = length (p_controls p)) by apply (udot_values lu LU h (p_controls p) (p_states p ++ p_costates p) udot HL).
  clear HL. cbn [bind] in H. revert H.
  destruct (String.eqb (lower m) "traditional").
  - intros H. apply Ok_inj in H. subst p'. unfold excess, conditions, unknowns in *. destruct p. simpl in *.
    rewrite !app_length, !map_length, combine_length. split; [lia|reflexivity].
  - destruct (String.eqb (lower m) "diffyg"); [|discriminate].
    unfold excess, conditions, unknowns in *. destruct p. simpl in *.
    destruct (negb _) eqn:NE; [discriminate|]. apply Bool.negb_false_iff in NE. apply Nat.eqb_eq in NE.
    destruct (ham_field _ _ _ _) as [chi|] eqn:HF; [|discriminate].
    cbn [bind]. intros H.
    eapply (ham_field_length lu LU) in HF; [|apply sized_omega|].
    + apply Ok_inj in H. subst p'. simpl. unfold syms in *.
      rewrite ?app_length, ?combine_length, ?firstn_length, ?skipn_length, ?map_length, ?app_length, ?combine_length, ?map_length in *.
      split; [lia|reflexivity].
    + unfold syms. rewrite app_length, !map_length, <- NE. lia.
Qed.

(** The stages. *)
Lemma run_app lu sol a b p p' : run_tfs lu sol (a ++ b) p = Ok p' -> exists q, run_tfs lu sol a p = Ok q /\ run_tfs lu sol b q = Ok p'.
Proof.
  revert p. induction a as [|f a IH]; intros p H; [exists p; split; [reflexivity|exact H]|]. simpl in *. destruct (apply_tf lu sol f p) as [q|]; [|discriminate]. simpl in *. eauto.
Qed.
Lemma primal_constraints lu sol q k cs : forall fs p p', constraint_tfs cs = Ok fs -> run_tfs lu sol fs p = Ok p' -> primal q k p -> primal q k p'.
Proof.
  induction cs as [|c cs IH]; intros fs p p' H HR P; simpl in H.
  - apply Ok_inj in H. subst fs. simpl in HR. apply Ok_inj in HR. now subst.
  - destruct (two_sided c); [|eapply IH; eauto].
    destruct (is_method "epstrig" c); [|destruct (is_method "utm" c); [|discriminate]];
      (destruct (constraint_tfs cs) as [r|]; [|discriminate]); cbn [bind] in H; apply Ok_inj in H; subst fs; simpl in HR.
    + destruct (eps_trig p) as [p1|] eqn:EE; [|discriminate]. eapply IH; [reflexivity|exact HR|]. eapply primal_eps; eauto.
    + destruct (utm p) as [p1|] eqn:EE; [|discriminate]. eapply IH; [reflexivity|exact HR|]. eapply primal_utm; eauto.
Qed.

(** C32.  The exact count, for every option. *)
Theorem C32_count : forall lu, lu_ok lu -> forall sol o p fs p',
  make_indirect o p = Ok fs -> run_tfs lu sol fs p = Ok p' ->
  p_costates p = [] -> p_coparams p = [] -> p_cadj p = [] ->
  (length (p_ci p') + length (p_ct p')) + length (p_quads p) + length (p_cpars p) =
    length (p_states p') + length (p_quads p') + length (p_params p') + length (p_cpars p') + (if o_norm o then 0 else 1)
  /\ p_costates p' = [] /\ p_coparams p' = [] /\ p_cadj p' = [].
Proof.
  intros lu LU sol o p fs p' HM HR E1 E2 E3. unfold make_indirect in HM.
  destruct (constraint_tfs (all_constraints p)) as [cons|] eqn:HC; [|discriminate]. cbn [bind] in HM.
  match type of HM with bind ?e _ = _ => destruct e as [ctl|] eqn:HT; [|discriminate] end. cbn [bind] in HM. apply Ok_inj in HM. subst fs.
  assert (P : primal (length (p_quads p)) (length (p_cpars p)) p) by (repeat split; auto).
  revert P. generalize (length (p_quads p)) (length (p_cpars p)). intros q k P.
  apply run_app in HR. destruct HR as (p1 & H1 & HR).
  assert (P1 : primal q k p1).
  { destruct (o_shift o); simpl in H1; [|apply Ok_inj in H1; now subst]. destruct (momentum_shift None p) as [r|] eqn:EM; [|discriminate].
    simpl in H1. apply Ok_inj in H1. subst. eapply primal_momentum; eauto. }
  apply run_app in HR. destruct HR as (p2 & H2 & HR).
  assert (P2 : primal q k p2) by (eapply primal_constraints; eauto).
  apply run_app in HR. destruct HR as (p3 & H3 & HR).
  assert (P3 : primal q k p3).
  { destruct (Nat.ltb 0 (length (p_switches p))); simpl in H3; [|apply Ok_inj in H3; now subst]. destruct (rashs p2) as [r|] eqn:EM; [|discriminate].
    simpl in H3. apply Ok_inj in H3. subst. eapply primal_rashs; eauto. }
  apply run_app in HR. destruct HR as (p4 & H4 & HR). simpl in H4. destruct (dualize lu (o_method o) p3) as [r|] eqn:ED; [|discriminate].
  simpl in H4. apply Ok_inj in H4. subst r. pose proof (dual_excess _ _ _ _ _ _ ED P3) as X4.
  apply run_app in HR. destruct HR as (p5 & H5 & HR).
  assert (X5 : excess q k 1 p5).
  { destruct (String.eqb (lower (o_control o)) "algebraic"); [|destruct (String.eqb (lower (o_control o)) "differential"); [|discriminate]];
      apply Ok_inj in HT; subst ctl; simpl in H5.
    - destruct (algebraic_control sol p4) as [r|] eqn:EA; [|discriminate]. simpl in H5. apply Ok_inj in H5. subst r. eapply excess_algebraic; eauto.
    - destruct (differential_control lu (o_method o) p4) as [r|] eqn:EA; [|discriminate]. simpl in H5. apply Ok_inj in H5. subst r. eapply excess_differential; eauto. }
  apply run_app in HR. destruct HR as (p6 & H6 & HR).
  assert (X6 : excess q k (if o_norm o then 0 else 1) p6).
  { destruct (o_norm o); simpl in H6; [|apply Ok_inj in H6; now subst]. destruct (normalize_time None p5) as [r|] eqn:EA; [|discriminate].
    simpl in H6. apply Ok_inj in H6. subst r. eapply excess_normalize; eauto. }
  apply run_app in HR. destruct HR as (p7 & H7 & HR). 
  assert (X7 : excess q k (if o_norm o then 0 else 1) p7 /\ p_costates p7 = [] /\ p_coparams p7 = [] /\ p_cadj p7 = []).
  { change (run_tfs lu sol [FSquash] p6) with (bind (squash p6) (fun r => Ok r)) in H7. destruct (squash p6) as [r|] eqn:EA; [|discriminate]. cbn [bind] in H7. apply Ok_inj in H7. subst r. eapply excess_squash; eauto. }
  assert (p' = p7) as ->. { destruct (o_jac o && negb _)%bool; simpl in HR; apply Ok_inj in HR; now subst. }
  destruct X7 as (X & Y1 & Y2 & Y3). unfold excess, conditions, unknowns in X. rewrite Y1, Y2, Y3 in X. simpl in X.
  split; [lia|auto].
Qed.
Print Assumptions C32_count.

(** C32.  With time normalisation (the default) and no quadratures or
    constraint parameters of the user, the problem is square. *)
Theorem C32_square : forall lu, lu_ok lu -> forall sol o p fs p',
  make_indirect o p = Ok fs -> run_tfs lu sol fs p = Ok p' ->
  p_costates p = [] -> p_coparams p = [] -> p_cadj p = [] -> p_quads p = [] -> p_cpars p = [] -> o_norm o = true ->
  length (p_ci p') + length (p_ct p') =
    length (p_states p') + length (p_quads p') + length (p_params p') + length (p_cpars p').
Proof.
  intros lu LU sol o p fs p' HM HR E1 E2 E3 E4 E5 EN.
  destruct (C32_count lu LU sol o p fs p' HM HR E1 E2 E3) as [H _]. rewrite E4, E5, EN in H. simpl in H. lia.
Qed.
Print Assumptions C32_square.

Definition run_all (o : options) (p : prob) : res prob :=
  fs <- make_indirect o p ; run_tfs lu_gauss (fun _ _ => []) fs p.
Definition counts (r : res prob) : option (nat * nat) :=
  match r with Ok p => Some (conditions p, unknowns p) | Raise _ => None end.
Definition opts (control method : string) (shift norm : bool) : options := mkOpt false control method shift norm.

Example C32_ex :
  map (fun o => counts (run_all o ex_oc))
    [opts "differential" "traditional" true true; opts "differential" "diffyg" true true;
     opts "algebraic" "traditional" false true; opts "algebraic" "diffyg" true true]
  = [Some (8, 8); Some (9, 9); Some (5, 5); Some (7, 7)].
Proof. vm_compute. reflexivity. Qed.
Example C32_parameter_ex : counts (run_all (opts "algebraic" "traditional" true true) ex_par) = Some (7, 7).
Proof. vm_compute. reflexivity. Qed.

(** C32 fails without time normalisation: the condition on the final time is
    added although the final time is not among the unknowns. *)
Theorem C32_without_normalisation_refuted : exists lu, lu_ok lu /\ exists sol o p fs p',
  make_indirect o p = Ok fs /\ run_tfs lu sol fs p = Ok p' /\
  p_costates p = [] /\ p_coparams p = [] /\ p_cadj p = [] /\ p_quads p = [] /\ p_cpars p = [] /\
  length (p_ci p') + length (p_ct p') <>
    length (p_states p') + length (p_quads p') + length (p_params p') + length (p_cpars p').
Proof.
  exists lu_gauss. split; [exact lu_gauss_ok|]. exists (fun _ _ => []), (opts "differential" "traditional" true false), ex_oc.
  do 2 eexists. split; [vm_compute; reflexivity|]. split; [vm_compute; reflexivity|].
  repeat (split; [reflexivity|]). vm_compute. discriminate.
Qed.
Print Assumptions C32_without_normalisation_refuted.

(** C32 fails for problems with quadratures: no condition is derived for their
    initial values. *)
Definition quad_oc : prob := set_quads ex_oc [("w"%string, Var "x")].
Theorem C32_quadratures_refuted : exists lu, lu_ok lu /\ exists sol o p fs p',
  make_indirect o p = Ok fs /\ run_tfs lu sol fs p = Ok p' /\ o_norm o = true /\
  p_costates p = [] /\ p_coparams p = [] /\ p_cadj p = [] /\ p_cpars p = [] /\
  length (p_ci p') + length (p_ct p') <
    length (p_states p') + length (p_quads p') + length (p_params p') + length (p_cpars p').
Proof.
  exists lu_gauss. split; [exact lu_gauss_ok|]. exists (fun _ _ => []), (opts "differential" "traditional" true true), quad_oc.
  do 2 eexists. split; [vm_compute; reflexivity|]. split; [vm_compute; reflexivity|].
  repeat (split; [reflexivity|]). vm_compute. lia.
Qed.
Print Assumptions C32_quadratures_refuted.
