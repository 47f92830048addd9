(** Warm starts (C04), re-running a strategy (C08), chaining of steps (C11)
    and add_step (C13). *)
From Coq Require Import Reals Lra.
From Verif Require Import Base Base_Facts Cont_Model Cont_Spec Cont_Proofs.

(** ** What [next] picks, for every strategy *)
Section Pick.
  Context {F : Type} (O : NumOps F) {P : Type}.
  Notation traj := (traj F P). Notation strat := (strat F P). Notation call := (call F P).

  Lemma next_pick (s s' : strat) g :
    next O s = (s', Ok g) ->
    s_kind s' = s_kind s /\ s_gammas s' = s_gammas s /\ (1 <= s_ctr s')%nat /\
    (s_ctr s = 0%nat -> s_ctr s' = 1%nat) /\
    (s_ctr s = 1%nat -> length (s_gammas s) <> 1%nat -> exists lg, last_gamma s = Some lg /\ converged lg) /\
    exists i gi, closest_gamma O (s_gammas s) (t_const g) = Ok i /\ nth_error (s_gammas s) i = Some gi /\
      t_conv g = t_conv gi /\ t_body g = t_body gi.
  Proof.
    assert (HB : forall (t : strat) ig, next_base O t ig = (s', Ok g) ->
      s_kind s' = s_kind t /\ s_gammas s' = s_gammas t /\ s_ctr s' = S (s_ctr t) /\
      (ig = false -> length (s_gammas t) <> 1%nat -> exists lg, last_gamma t = Some lg /\ converged lg) /\
      exists i gi, closest_gamma O (s_gammas t) (t_const g) = Ok i /\ nth_error (s_gammas t) i = Some gi /\
      t_conv g = t_conv gi /\ t_body g = t_body gi).
    { intros t ig H. apply next_base_cases in H. simpl in H.
      destruct H as (lg & num & c & i & gi & Hlg & Hnum & Hlt & Hput & Hcl & Hgi & Hok & -> & ->).
      simpl. repeat split.
      - intros -> Hne. destruct Hok as [Hok|[Hok|Hok]]; [discriminate|contradiction|]. exists lg. split; assumption.
      - exists i, gi. repeat split; assumption. }
    unfold next. destruct (s_kind s) eqn:Hk.
    - intros H. apply HB in H. destruct H as (H1 & H2 & H3 & H4 & H5).
      rewrite H1, H3. repeat split; try assumption; try lia. intros _; apply H4; reflexivity.
    - unfold next_bisection. destruct (Nat.eqb_spec (s_ctr s) 0) as [E|E].
      + intros H. apply HB in H. destruct H as (H1 & H2 & H3 & H4 & H5).
        rewrite H1, H3. simpl in *. repeat split; try assumption; try lia.
      + unfold last_conv. destruct (last_gamma s) as [lg|] eqn:El; [|discriminate].
        destruct (truthy (t_conv lg)) eqn:Et.
        * intros H. apply HB in H. destruct H as (H1 & H2 & H3 & H4 & H5).
          rewrite H1, H3. simpl in *. repeat split; try assumption; try lia.
          intros _ _. exists lg. split; [reflexivity|exact Et].
        * destruct (Nat.eqb_spec (s_ctr s) 1); [discriminate|].
          destruct (s_maxdiv s <? s_divctr s); [discriminate|].
          destruct (divide_vars O (s_spacing s) (s_ndiv s) (s_ctr s) (s_vars s)) as [vs [u|e]]; [|discriminate].
          intros H. apply HB in H. destruct H as (H1 & H2 & H3 & H4 & H5).
          rewrite H1, H3. simpl in *. repeat split; try assumption; try lia.
    - unfold next_product. destruct (Nat.eqb_spec (s_ctr s) 0) as [E|E].
      + intros H. apply HB in H. destruct H as (H1 & H2 & H3 & H4 & H5).
        rewrite H1, H3. simpl in *. repeat split; try assumption; try lia.
      + unfold last_conv. destruct (last_gamma s) as [lg|] eqn:El; [|discriminate].
        destruct (truthy (t_conv lg)) eqn:Et.
        * intros H. apply HB in H. destruct H as (H1 & H2 & H3 & H4 & H5).
          rewrite H1, H3. simpl in *. repeat split; try assumption; try lia.
          intros _ _. exists lg. split; [reflexivity|exact Et].
        * destruct (Nat.eqb_spec (s_ctr s) 1); [discriminate|].
          intros H. apply HB in H. destruct H as (H1 & H2 & H3 & H4 & H5).
          rewrite H1, H3. simpl in *. repeat split; try assumption; try lia.
    - unfold next_product. destruct (Nat.eqb_spec (s_ctr s) 0) as [E|E].
      + intros H. apply HB in H. destruct H as (H1 & H2 & H3 & H4 & H5).
        rewrite H1, H3. simpl in *. repeat split; try assumption; try lia.
      + unfold last_conv. destruct (last_gamma s) as [lg|] eqn:El; [|discriminate].
        destruct (truthy (t_conv lg)) eqn:Et.
        * intros H. apply HB in H. destruct H as (H1 & H2 & H3 & H4 & H5).
          rewrite H1, H3. simpl in *. repeat split; try assumption; try lia.
          intros _ _. exists lg. split; [reflexivity|exact Et].
        * destruct (Nat.eqb_spec (s_ctr s) 1); [discriminate|].
          intros H. apply HB in H. destruct H as (H1 & H2 & H3 & H4 & H5).
          rewrite H1, H3. simpl in *. repeat split; try assumption; try lia.
  Qed.

  Lemma init_facts (s s' : strat) g cn u :
    init O s g cn = (s', Ok u) ->
    s_kind s' = s_kind s /\ s_gammas s' = [init_gamma g] /\ s_ctr s' = s_ctr s.
  Proof.
    unfold init. destruct (s_kind s) eqn:Hk.
    - intros H. apply init_manual_ok in H. destruct H as (n & vs & _ & _ & ->). repeat split; exact Hk.
    - intros H. apply init_manual_ok in H. destruct H as (n & vs & _ & _ & ->). repeat split; exact Hk.
    - unfold init_product, set_num_product. simpl. destruct (Nat.ltb 0 (s_ctr s)); [discriminate|]. simpl.
      destruct (read_values cn (t_const g) (s_vars s)) as [vs|]; [|discriminate].
      destruct (mapM _ vs) as [ls|]; [|discriminate]. intros H; injection H as <- _. repeat split; exact Hk.
    - unfold init_sparse. simpl.
      destruct (read_values cn (t_const g) (s_vars s)) as [vs|]; [|discriminate].
      destruct (sparse_points O _ _ _ _) as [pts|]; [|discriminate].
      unfold set_num_product; simpl. destruct (Nat.ltb 0 (s_ctr s)); [discriminate|].
      intros H; injection H as <- _. repeat split; exact Hk.
  Qed.
End Pick.

(** ** C04 *)

Lemma norm_from_dist acc c1 c2 : norm_from ROps acc c1 c2 = (acc + dist c1 c2)%R.
Proof.
  revert acc c2; induction c1 as [|a c1 IH]; intros acc [|b c2]; simpl; try lra.
  rewrite IH; simpl; lra.
Qed.

Lemma is_nan_R x : is_nan ROps x = false.
Proof. unfold is_nan; simpl. destruct (Req_EM_T x x); [reflexivity|congruence]. Qed.

(** argmin over the reals: first smallest entry. *)
Lemma argmin_from_R l : forall i best bv r,
  argmin_from ROps i best bv l = r ->
  (r = best /\ (forall k x, nth_error l k = Some x -> (bv <= x)%R)) \/
  (exists k x, r = (i + k)%nat /\ nth_error l k = Some x /\ (x < bv)%R /\
     (forall k' x', nth_error l k' = Some x' -> (x <= x')%R) /\
     (forall k' x', (k' < k)%nat -> nth_error l k' = Some x' -> (x < x')%R)).
Proof.
  induction l as [|y l IH]; intros i best bv r H; simpl in H.
  - left. split; [congruence|]. intros [|k] x E; discriminate.
  - rewrite !is_nan_R in H. cbn [negb andb orb] in H.
    destruct (Rlt_dec y bv) as [Hlt|Hge].
    + apply IH in H. right. destruct H as [[-> Hall]|(k & x & -> & Hk & Hx & Hall & Hst)].
      * exists 0%nat, y. split; [lia|]. split; [reflexivity|]. split; [exact Hlt|]. split.
        -- intros [|k'] x' E; simpl in E; [injection E as ->; lra|eapply Hall; exact E].
        -- intros k' x' Hk'; lia.
      * exists (S k), x. split; [lia|]. split; [exact Hk|]. split; [lra|]. split.
        -- intros [|k'] x' E; simpl in E; [injection E as <-; lra|eapply Hall; exact E].
        -- intros [|k'] x' Hk' E; simpl in E; [injection E as <-; exact Hx|].
           eapply (Hst k'); [lia|exact E].
    + apply IH in H. destruct H as [[-> Hall]|(k & x & -> & Hk & Hx & Hall & Hst)].
      * left. split; [reflexivity|]. intros [|k'] x' E; simpl in E; [injection E as <-; lra|eapply Hall; exact E].
      * right. exists (S k), x. split; [lia|]. split; [exact Hk|]. split; [exact Hx|]. split.
        -- intros [|k'] x' E; simpl in E; [injection E as <-; lra|eapply Hall; exact E].
        -- intros [|k'] x' Hk' E; simpl in E; [injection E as <-; lra|].
           eapply (Hst k'); [lia|exact E].
Qed.

Lemma argmin_R l r : argmin ROps l = Ok r ->
  exists x, nth_error l r = Some x /\
    (forall k x', nth_error l k = Some x' -> (x <= x')%R) /\
    (forall k x', (k < r)%nat -> nth_error l k = Some x' -> (x < x')%R).
Proof.
  destruct l as [|y l]; simpl; [discriminate|]. intros H.
  assert (argmin_from ROps 1 0 y l = r) as H' by congruence. clear H.
  destruct (argmin_from_R _ _ _ _ _ H') as [[-> Hall]|(k & x & -> & Hk & Hx & Hall & Hst)].
  - exists y. split; [reflexivity|]. split.
    + intros [|k] x' E; simpl in E; [injection E as ->; lra|eapply Hall; exact E].
    + intros k x' Hk; lia.
  - exists x. split; [exact Hk|]. split.
    + intros [|k'] x' E; simpl in E; [injection E as <-; lra|eapply Hall; exact E].
    + intros [|k'] x' Hk' E; simpl in E; [injection E as <-; lra|eapply (Hst k'); [lia|exact E]].
Qed.

Section Warm.
  Context {P : Type}.
  Notation traj := (traj R P). Notation strat := (strat R P). Notation call := (call R P).

  Definition WInv (guess0 : traj) (s : strat) (calls : list call) : Prop :=
    s_gammas s = init_gamma guess0 :: map snd calls /\
    (calls = [] -> s_ctr s = 0%nat) /\
    (length calls = 1%nat -> s_ctr s = 1%nat) /\
    (forall c d r, calls = c :: d :: r -> converged (snd c)) /\
    (real_flags calls -> close_enough calls -> warm_started guess0 calls).

  Lemma real_flags_prefix (calls : list call) c : real_flags (calls ++ [c]) -> real_flags calls.
  Proof. intros H d Hd; apply (H d); apply in_or_app; left; exact Hd. Qed.
  Lemma close_prefix (calls : list call) c : close_enough (calls ++ [c]) -> close_enough calls.
  Proof. intros H d e Hd He; apply (H d e); apply in_or_app; left; assumption. Qed.

  Lemma warm_step guess0 (s s' : strat) calls g sol :
    WInv guess0 s calls -> next ROps s = (s', Ok g) ->
    WInv guess0 (add_gamma s' sol) (calls ++ [(g, sol)]).
  Proof.
    intros (Hg & H0 & H1 & Hfirst & Hwarm) Hn. unfold Cont_Model.call in *.
    destruct (next_pick ROps _ _ _ Hn) as (_ & Hg' & Hc1 & Hc0 & Hlast & i & gi & Hcl & Hgi & Hflag & Hbody).
    assert (Hfirst' : forall c d r, calls ++ [(g, sol)] = c :: d :: r -> converged (snd c)).
    { intros c d r E. destruct calls as [|c0 [|d0 calls]]; [discriminate| |].
      - simpl in E. injection E as <- _ _.
        destruct (Hlast (H1 eq_refl)) as (lg & Hlg & Hconv); [rewrite Hg; simpl; lia|].
        assert (last_gamma s = Some (snd c0)) as E'.
        { apply (last_gamma_app s [init_gamma guess0]); rewrite Hg; reflexivity. }
        rewrite E' in Hlg. injection Hlg as <-. exact Hconv.
      - simpl in E. injection E as <- _ _. eapply Hfirst; reflexivity. }
    split; [|split; [|split; [|split]]].
    - simpl. rewrite Hg', Hg, map_app. reflexivity.
    - intros E; destruct calls; discriminate.
    - intros E. simpl. apply Hc0. apply H0. rewrite app_length in E; simpl in E.
      destruct calls; [reflexivity|simpl in E; lia].
    - exact Hfirst'.
    - intros Hrf Hce. pose proof (Hwarm (real_flags_prefix _ _ Hrf) (close_prefix _ _ Hce)) as [HW0 HWS].
      split.
      + intros g1 sol1 E. destruct calls as [|c0 calls]; [|apply (HW0 g1 sol1); exact E].
        simpl in E. injection E as <- <-. rewrite Hg in Hgi. unfold closest_gamma in Hcl. rewrite Hg in Hcl.
        simpl in Hcl. injection Hcl as <-. simpl in Hgi. injection Hgi as <-. exact Hbody.
      + intros k g1 sol1 E. unfold Cont_Model.call in *. destruct (Nat.lt_ge_cases (S k) (length calls)) as [Hk|Hk].
        { rewrite nth_error_app1 in E by exact Hk.
          destruct (HWS k g1 sol1 E) as (j & gj & solj & Hj & Hcj & Hcv & Hb & Hmin & Hstrict).
          exists j, gj, solj. split; [exact Hj|]. split; [rewrite nth_error_app1; [exact Hcj|lia]|].
          split; [exact Hcv|]. split; [exact Hb|]. split.
          - intros m gm solm Hm Em. rewrite nth_error_app1 in Em by lia. apply (Hmin m gm solm Hm Em).
          - intros m gm solm Hm Em. rewrite nth_error_app1 in Em by lia. apply (Hstrict m gm solm Hm Em). }
        assert (S k = length calls) as Ek.
        { assert (S k < length (calls ++ [(g, sol)]))%nat by (apply nth_error_Some; congruence).
          rewrite app_length in H; simpl in H. lia. }
        rewrite nth_error_app2 in E by lia. rewrite Ek, Nat.sub_diag in E. simpl in E. injection E as <- <-.
        unfold closest_gamma in Hcl. apply argmin_R in Hcl. destruct Hcl as (x & Hx & Hmin & Hstrict).
        rewrite nth_error_map in Hx. rewrite Hgi in Hx. simpl in Hx.
        (* entries of the norm table *)
        assert (Hent : forall m gm solm, nth_error calls m = Some (gm, solm) ->
                  nth_error (map (norm_entry ROps (t_const g)) (s_gammas s)) (S m) =
                  Some (norm_entry ROps (t_const g) solm)).
        { intros m gm solm Em. rewrite nth_error_map, Hg. simpl. rewrite nth_error_map, Em. reflexivity. }
        assert (Hconv_entry : forall solm : traj, converged solm ->
                  norm_entry ROps (t_const g) solm = dist (t_const solm) (t_const g)).
        { intros solm Hcv. unfold norm_entry, converged in *. destruct (t_conv solm); try discriminate. simpl.
          unfold gamma_norm. rewrite norm_from_dist. simpl. lra. }
        assert (Hbig : forall m gm solm, nth_error calls m = Some (gm, solm) ->
                  (dist (t_const solm) (t_const g) < IZR (9 * 10 ^ 99))%R).
        { intros m gm solm Em. apply (Hce (gm, solm) (g, sol)).
          - apply in_or_app; left. eapply nth_error_In; exact Em.
          - apply in_or_app; right; left; reflexivity. }
        assert (Hbg : exists B, big ROps = B /\ IZR (9 * 10 ^ 99) = B)
          by (eexists; split; [unfold big; cbn [nofZ ROps]; reflexivity|reflexivity]).
        destruct Hbg as (B & HB1 & HB2). rewrite HB2 in Hbig. clear HB2 Hce.
        (* the first call converged *)
        destruct calls as [|c0 calls']; [simpl in Ek; lia|].
        assert (Hc0' : converged (snd c0)).
        { destruct calls' as [|d r].
          - eapply Hfirst'. simpl. reflexivity.
          - eapply Hfirst; reflexivity. }
        destruct c0 as [g0' sol0]. simpl in Hc0'.
        assert (Hx0 : (x <= dist (t_const sol0) (t_const g))%R).
        { rewrite <- (Hconv_entry sol0 Hc0'). apply (Hmin 1%nat). apply (Hent 0%nat g0'). reflexivity. }
        assert (Hxb : (x < B)%R).
        { eapply Rle_lt_trans; [exact Hx0|]. apply (Hbig 0%nat g0'). reflexivity. }
        (* so the winner is a converged call *)
        assert (norm_entry ROps (t_const g) gi = x) as Hxe by congruence.
        destruct i as [|i].
        { exfalso. rewrite Hg in Hgi. simpl in Hgi. injection Hgi as <-.
          unfold norm_entry in Hxe; cbn [t_conv init_gamma is_False] in Hxe. rewrite HB1 in Hxe. lra. }
        rewrite Hg in Hgi. cbn [nth_error] in Hgi. rewrite nth_error_map in Hgi.
        destruct (nth_error ((g0', sol0) :: calls') i) as [[gi' soli]|] eqn:Ei; [|discriminate].
        cbn [option_map snd] in Hgi. injection Hgi as <-.
        assert (Hci : converged soli).
        { assert (t_conv soli <> FFalsy).
          { apply (Hrf (gi', soli)). apply in_or_app; left. eapply nth_error_In; exact Ei. }
          unfold norm_entry in Hxe. unfold converged. destruct (t_conv soli); [reflexivity| |congruence].
          exfalso. cbn [is_False] in Hxe. rewrite HB1 in Hxe. lra. }
        rewrite (Hconv_entry _ Hci) in Hxe.
        exists i, gi', soli. split.
        { assert (i < length ((g0', sol0) :: calls'))%nat by (apply nth_error_Some; congruence). lia. }
        split; [rewrite nth_error_app1; [exact Ei|apply nth_error_Some; congruence]|].
        split; [exact Hci|]. split; [exact Hbody|]. split.
        * intros m gm solm Hm Em Hcm. rewrite nth_error_app1 in Em by lia.
          rewrite Hxe, <- (Hconv_entry solm Hcm). apply (Hmin (S m)). eapply Hent; exact Em.
        * intros m gm solm Hm Em Hcm.
          assert (i < length ((g0', sol0) :: calls'))%nat by (apply nth_error_Some; congruence).
          rewrite nth_error_app1 in Em by lia.
          rewrite Hxe, <- (Hconv_entry solm Hcm). apply (Hstrict (S m)); [lia|]. eapply Hent; exact Em.
  Qed.

  Lemma warm_start slv fuel k (s : strat) guess cn :
    let log := log_of (run_step ROps fuel slv k s guess cn) in
    real_flags log -> close_enough log -> warm_started guess log.
  Proof.
    intros log. subst log. unfold run_step.
    assert (Hnil : warm_started guess (@nil call)).
    { split; [intros ? ? E; discriminate|intros ? ? ? E; discriminate]. }
    destruct (init ROps (reset s) guess cn) as [s1 [u|e]] eqn:Ei; [|simpl; intros _ _; exact Hnil].
    destruct (init_facts ROps _ _ _ _ _ Ei) as (Hk & Hg & Hc).
    apply (iterate_inv ROps slv (fun t _ calls => WInv guess t calls)
             (fun o => real_flags (log_of o) -> close_enough (log_of o) -> warm_started guess (log_of o))).
    - intros t g0 calls t' HI _. apply HI.
    - intros t g0 calls t' e HI _ _. apply HI.
    - intros t g0 calls t' g k0 e HI _ _. apply HI.
    - intros t g0 calls t' g k0 sol HI Hn _. eapply warm_step; eassumption.
    - intros _ _; exact Hnil.
    - split; [rewrite Hg; reflexivity|]. split; [intros _; rewrite Hc; reflexivity|].
      split; [discriminate|]. split; [intros c d r E; discriminate|]. intros _ _; exact Hnil.
  Qed.
End Warm.
