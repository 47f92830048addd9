(** Re-running (C08), chaining (C11), add_step (C13). *)
From Coq Require Import Reals Lra.
From Verif Require Import Base Base_Facts Cont_Model Cont_Spec Cont_Proofs Cont_Warm.

Section Rerun.
  Context {F : Type} (O : NumOps F) {P : Type}.
  Notation traj := (traj F P). Notation strat := (strat F P). Notation call := (call F P).

  (** Settings of a strategy that a user chose. *)
  Definition settings (s : strat) :=
    (s_kind s, s_num s, s_spacing s, (s_ndiv s, s_maxdiv s, s_nsub s, s_sub s), targets (s_vars s)).

  Definition keeps_divctr (s s' : strat) : Prop := s_divctr s' = s_divctr s.

  Lemma manual_init_targets sp n cn c vs vs' r :
    manual_init_vars O sp n cn c vs = (vs', r) -> targets vs' = targets vs.
  Proof.
    revert vs'; induction vs as [|v vs IH]; intros vs' H; simpl in H; [injection H as <- _; reflexivity|].
    destruct (manual_init_var O sp n cn c v) as [v1|e] eqn:E1; [|injection H as <- _; reflexivity].
    destruct (manual_init_vars O sp n cn c vs) as [vs1 r1] eqn:E2. injection H as <- <-.
    apply manual_init_var_ok in E1. destruct E1 as (Hn & Ht & _).
    unfold targets in *; simpl. rewrite Hn, Ht. f_equal. apply IH; reflexivity.
  Qed.

  Lemma manual_init_settings (s s' : strat) g cn r :
    s_kind s = Manual -> init O s g cn = (s', r) ->
    settings s' = settings s /\ s_divctr s' = s_divctr s.
  Proof.
    intros Hk. unfold init; rewrite Hk. unfold init_manual; simpl.
    destruct (s_num s) as [n|] eqn:En; intros H.
    - destruct (manual_init_vars O (s_spacing s) n cn (t_const g) (s_vars s)) as [vs r'] eqn:E.
      injection H as <- _. unfold settings; simpl. rewrite (manual_init_targets _ _ _ _ _ _ _ E). split; reflexivity.
    - injection H as <- _. split; reflexivity.
  Qed.

  Lemma next_base_settings (s s' : strat) ig r :
    next_base O s ig = (s', r) -> settings s' = settings s /\ s_divctr s' = s_divctr s.
  Proof.
    unfold next_base. destruct (last_gamma s); [|intros H; injection H as <- _; split; reflexivity].
    destruct (_ && _ && _); [intros H; injection H as <- _; split; reflexivity|].
    destruct (s_num s); [|intros H; injection H as <- _; split; reflexivity].
    destruct (_ <=? _); [intros H; injection H as <- _; split; reflexivity|].
    destruct (put_vars _ _ _ _); [|intros H; injection H as <- _; split; reflexivity].
    destruct (closest_gamma _ _ _); [|intros H; injection H as <- _; split; reflexivity].
    destruct (nth_error _ _); intros H; injection H as <- _; split; reflexivity.
  Qed.

  (** A manual strategy is left with its settings by every run. *)
  Lemma manual_settings slv fuel k (s : strat) guess cn s' :
    s_kind s = Manual -> state_after (run_step O fuel slv k s guess cn) = Some s' ->
    settings s' = settings s /\ s_divctr s' = s_divctr s.
  Proof.
    intros Hk. unfold run_step.
    destruct (init O (reset s) guess cn) as [s1 [u|e]] eqn:Ei;
      destruct (manual_init_settings (reset s) s1 guess cn _ Hk Ei) as [H1 H2].
    - intros Hs.
      assert (HX : match state_after (iterate O fuel slv k s1 guess []) with
                   | Some t => settings t = settings s /\ s_divctr t = s_divctr s | None => True end).
      { apply (iterate_inv O slv (fun t _ _ => settings t = settings s /\ s_divctr t = s_divctr s)
                 (fun o => match state_after o with
                           | Some t => settings t = settings s /\ s_divctr t = s_divctr s | None => True end)).
        - intros t g0 calls t' [HI1 HI2] Hn. simpl. unfold next in Hn.
          replace (s_kind t) with Manual in Hn by (unfold settings in HI1; congruence).
          apply next_base_settings in Hn. destruct Hn as [-> ->]. split; assumption.
        - intros t g0 calls t' e [HI1 HI2] Hn _. simpl. unfold next in Hn.
          replace (s_kind t) with Manual in Hn by (unfold settings in HI1; congruence).
          apply next_base_settings in Hn. destruct Hn as [-> ->]. split; assumption.
        - intros t g0 calls t' g k0 e [HI1 HI2] Hn _. simpl. unfold next in Hn.
          replace (s_kind t) with Manual in Hn by (unfold settings in HI1; congruence).
          apply next_base_settings in Hn. destruct Hn as [-> ->]. split; assumption.
        - intros t g0 calls t' g k0 sol [HI1 HI2] Hn _. unfold next in Hn.
          replace (s_kind t) with Manual in Hn by (unfold settings in HI1; congruence).
          apply next_base_settings in Hn. destruct Hn as [Hn1 Hn2].
          unfold settings, add_gamma in *; simpl in *. split; congruence.
        - exact I.
        - split; assumption. }
      rewrite Hs in HX. exact HX.
    - simpl. intros Hs; injection Hs as <-. split; assumption.
  Qed.

  (** Initialisation only depends on the settings. *)
  Lemma manual_init_same sp n cn c (vs ws : list (cvar F)) :
    sp <> OtherSpacing -> targets vs = targets ws ->
    snd (manual_init_vars O sp n cn c vs) = snd (manual_init_vars O sp n cn c ws) /\
    (snd (manual_init_vars O sp n cn c vs) = Ok tt ->
     fst (manual_init_vars O sp n cn c vs) = fst (manual_init_vars O sp n cn c ws)).
  Proof.
    intros Hsp; revert ws; induction vs as [|v vs IH]; intros [|w ws] Ht; try discriminate; [split; reflexivity|].
    unfold targets in Ht; simpl in Ht. injection Ht as Hn Hx Ht. specialize (IH ws Ht). simpl.
    assert (manual_init_var O sp n cn c v = manual_init_var O sp n cn c w) as ->.
    { unfold manual_init_var. rewrite Hn, Hx. destruct (index_of (v_name w) cn); simpl; [|reflexivity].
      destruct (get c a); simpl; [|reflexivity]. destruct sp; [reflexivity|reflexivity|congruence]. }
    destruct (manual_init_var O sp n cn c w) as [w1|e]; [|split; [reflexivity|discriminate]].
    destruct (manual_init_vars O sp n cn c vs) as [vs1 r1]; destruct (manual_init_vars O sp n cn c ws) as [ws1 r2].
    simpl in *. destruct IH as [-> IH]. split; [reflexivity|]. intros ->. rewrite IH by reflexivity; reflexivity.
  Qed.

  Lemma manual_rerun slv1 fuel1 k1 guess1 cn1 (s s1 : strat) slv fuel k guess cn :
    s_kind s = Manual -> s_spacing s <> OtherSpacing ->
    state_after (run_step O fuel1 slv1 k1 s guess1 cn1) = Some s1 ->
    observe (run_step O fuel slv k s1 guess cn) = observe (run_step O fuel slv k s guess cn).
  Proof.
    intros Hk Hsp Hs. destruct (manual_settings _ _ _ _ _ _ _ Hk Hs) as [Hset Hdc].
    unfold settings in Hset. injection Hset as Ek En Esp End Emd Ens Esub Etg.
    unfold run_step. unfold init at 1 2; simpl. rewrite Ek, Hk. unfold init_manual; simpl. rewrite En.
    destruct (s_num s) as [n|] eqn:En2; [|reflexivity].
    destruct (manual_init_same (s_spacing s) n cn (t_const guess) (s_vars s1) (s_vars s) Hsp Etg) as [Hr Hv].
    rewrite Esp.
    destruct (manual_init_vars O (s_spacing s) n cn (t_const guess) (s_vars s1)) as [vs1 r1].
    destruct (manual_init_vars O (s_spacing s) n cn (t_const guess) (s_vars s)) as [vs2 r2].
    simpl in Hr, Hv. subst r2. destruct r1 as [[]|e]; [|reflexivity].
    rewrite Hv by reflexivity.
    match goal with |- observe (iterate _ _ _ _ ?a _ _) = observe (iterate _ _ _ _ ?b _ _) =>
      assert (a = b) as ->; [|reflexivity] end.
    destruct s, s1; unfold upd_vars, init_base, reset, upd_cnames, upd_gammas, upd_ctr; cbn in *. subst. reflexivity.
  Qed.
End Rerun.

(** ** C11 *)
Section Chain.
  Context {F : Type} (O : NumOps F) {P : Type}.
  Notation traj := (traj F P). Notation strat := (strat F P). Notation call := (call F P).

  Lemma iterate_last slv fuel : forall k (s : strat) guess calls guess0,
    guess = last (map snd calls) guess0 ->
    match iterate O fuel slv k s guess calls with
    | Finished _ lst calls' => lst = last (map snd calls') guess0
    | _ => True
    end.
  Proof.
    intros k s guess calls guess0 Hg.
    apply (iterate_inv O slv (fun _ g calls => g = last (map snd calls) guess0)
             (fun o => match o with Finished _ lst calls' => lst = last (map snd calls') guess0 | _ => True end)).
    - intros; assumption.
    - intros; exact I.
    - intros; exact I.
    - intros. rewrite map_app; simpl; rewrite last_last; reflexivity.
    - exact I.
    - exact Hg.
  Qed.

  (** The calls of one run are those the solver answered, numbered from [k]. *)
  Lemma iterate_answers slv fuel : forall k k0 (s : strat) guess calls,
    k = (k0 + length calls)%nat ->
    (forall i g sol, nth_error calls i = Some (g, sol) -> slv (k0 + i)%nat g = Ok sol) ->
    forall i g sol, nth_error (log_of (iterate O fuel slv k s guess calls)) i = Some (g, sol) ->
      slv (k0 + i)%nat g = Ok sol.
  Proof.
    induction fuel as [|fuel IH]; intros k k0 s guess calls Hk Hc; unfold Cont_Model.call in *; cbn [iterate].
    - intros [|i] g sol E; discriminate.
    - destruct (next O s) as [s' [g'|e]].
      + destruct (slv k g') as [sol'|e] eqn:Es; [|simpl; exact Hc].
        apply (IH (S k) k0); unfold Cont_Model.call in *; [rewrite app_length; cbn [length]; lia|].
        intros i g sol E. destruct (Nat.lt_ge_cases i (length calls)) as [Hi|Hi].
        * rewrite nth_error_app1 in E by exact Hi. apply Hc; exact E.
        * rewrite nth_error_app2 in E by exact Hi.
          destruct (i - length calls)%nat as [|d] eqn:Ed; [|destruct d; discriminate].
          simpl in E. injection E as <- <-. rewrite <- Es. f_equal. lia.
      + destruct e; simpl; exact Hc.
  Qed.

  Lemma run_step_answers slv fuel k (s : strat) guess cn i g sol :
    nth_error (log_of (run_step O fuel slv k s guess cn)) i = Some (g, sol) -> slv (k + i)%nat g = Ok sol.
  Proof.
    unfold run_step. destruct (init O (reset s) guess cn) as [s1 [u|e]]; [|destruct i; discriminate].
    apply (iterate_answers slv fuel k k s1 guess []); [simpl; lia|]. intros [|j] ? ? E; discriminate.
  Qed.

  Lemma first_body slv fuel k (s : strat) guess cn g sol :
    nth_error (log_of (run_step O fuel slv k s guess cn)) 0 = Some (g, sol) -> t_body g = t_body guess.
  Proof.
    unfold run_step. destruct (init O (reset s) guess cn) as [s1 [u|e]] eqn:Ei; [|discriminate].
    destruct (init_facts O _ _ _ _ _ Ei) as (_ & Hg & _).
    intros H. revert H.
    apply (iterate_inv O slv
      (fun t _ calls => (calls = [] -> s_gammas t = [init_gamma guess]) /\
                        (forall g sol, nth_error calls 0 = Some (g, sol) -> t_body g = t_body guess))
      (fun o => nth_error (log_of o) 0 = Some (g, sol) -> t_body g = t_body guess)).
    - intros t g0 calls t' [_ HI] _ E. apply (HI _ _ E).
    - intros t g0 calls t' e [_ HI] _ _ E. apply (HI _ _ E).
    - intros t g0 calls t' g1 k0 e [_ HI] _ _ E. apply (HI _ _ E).
    - intros t g0 calls t' g1 k0 sol1 [HI0 HI] Hn _. split; [intros E; destruct calls; discriminate|].
      intros g2 sol2 E. destruct calls as [|c calls]; [|apply (HI g2 sol2); exact E].
      simpl in E. injection E as <- <-.
      destruct (next_pick O _ _ _ Hn) as (_ & _ & _ & _ & _ & i & gi & Hcl & Hgi & _ & Hb).
      rewrite (HI0 eq_refl) in Hcl, Hgi. unfold closest_gamma in Hcl. simpl in Hcl. injection Hcl as <-.
      simpl in Hgi. injection Hgi as <-. exact Hb.
    - discriminate.
    - split; [intros _; exact Hg|]. intros ? ? E; discriminate.
  Qed.

  Lemma steps_chained (slv : solver F P) fuel cn : forall ss k guess acc out,
    run_steps O fuel slv k ss guess cn acc = SetDone out ->
    exists groups, out = acc ++ map (map snd) groups /\ length groups = length ss /\ chained slv k guess groups.
  Proof.
    induction ss as [|s ss IH]; intros k guess acc out H; simpl in H.
    - injection H as <-. exists []. split; [rewrite app_nil_r; reflexivity|]. split; [reflexivity|constructor].
    - destruct (run_step O fuel slv k s guess cn) as [s' lst calls|e s' calls|] eqn:E; try discriminate.
      apply IH in H. destruct H as (groups & -> & Hlen & Hch).
      exists (calls :: groups). split; [rewrite <- app_assoc; reflexivity|].
      split; [simpl; lia|]. constructor.
      + intros i g sol Hi. eapply run_step_answers with (s := s) (guess := guess) (fuel := fuel) (cn := cn).
        rewrite E. exact Hi.
      + intros g sol Hi. eapply first_body with (k := k) (s := s) (slv := slv) (fuel := fuel) (cn := cn) (sol := sol).
        rewrite E. exact Hi.
      + assert (lst = last (map snd calls) guess) as <-; [|exact Hch].
        unfold run_step in E. destruct (init O (reset s) guess cn) as [s1 [u|e]]; [|discriminate].
        pose proof (iterate_last slv fuel k s1 guess (@nil call) guess eq_refl) as HL.
        unfold Cont_Model.call in *. rewrite E in HL. exact HL.
  Qed.
End Chain.

(** ** C13 *)
Lemma add_step_known {S} (mk : kind -> S) l name kd :
  known_strategy name kd -> add_step mk l (Named name) = (l ++ [mk kd], Ok (mk kd)).
Proof. intros [[-> ->]|[[-> ->]|[[-> ->]|[-> ->]]]]; reflexivity. Qed.

Lemma add_step_unknown {S} (mk : kind -> S) l name :
  (forall kd, ~ known_strategy name kd) -> add_step mk l (Named name) = (l, Raise ValueError).
Proof.
  intros H. simpl. unfold strategy_of_name.
  destruct (String.eqb_spec name "manual"); [exfalso; apply (H Manual); left; split; [assumption|reflexivity]|].
  destruct (String.eqb_spec name "bisection"); [exfalso; apply (H Bisection); right; left; split; [assumption|reflexivity]|].
  destruct (String.eqb_spec name "productspace"); [exfalso; apply (H Product); right; right; left; split; [assumption|reflexivity]|].
  destruct (String.eqb_spec name "sparse_product"); [exfalso; apply (H Sparse); right; right; right; split; [assumption|reflexivity]|].
  reflexivity.
Qed.

Lemma add_step_run {S} (mk : kind -> S) args l :
  add_all mk l args =
  (l ++ flat_map (fun r => match r with Ok s => [s] | Raise _ => [] end) (snd (add_all mk l args)),
   snd (add_all mk l args)).
Proof.
  revert l; induction args as [|a args IH]; intros l; simpl; [rewrite app_nil_r; reflexivity|].
  destruct (add_step mk l a) as [l1 r] eqn:E. specialize (IH l1).
  destruct (add_all mk l1 args) as [l2 rs]. simpl in *.
  assert (l1 = l ++ match r with Ok s => [s] | Raise _ => [] end) as El1.
  { destruct a as [name|s]; simpl in E; [destruct (strategy_of_name name)|]; injection E as <- <-; try reflexivity.
    rewrite app_nil_r; reflexivity. }
  rewrite El1 in IH at 1. f_equal. rewrite app_assoc, <- El1. injection IH as IH. congruence.
Qed.
