(** Product and sparse steps whose cases all converge finish (C61). *)
From Verif Require Import Base Base_Facts Cont_Model Cont_Spec Cont_Proofs Cont_Warm Cont_Product Cont_Live.

Section Live2.
  Context {F : Type} (O : NumOps F) {P : Type}.

  Lemma points_live (slv : solver F P) k (s s1 : strat F P) guess cn u :
    good_solver slv -> well_named cn (t_const guess) ->
    (s_kind s = Product /\ 1 <= s_nsub s \/ s_kind s = Sparse) ->
    Forall (fun v => v_steps v = []) (s_vars s) ->
    init O (reset s) guess cn = (s1, Ok u) ->
    exists n, forall fuel, (Z.to_nat n < fuel)%nat ->
      exists s' lst calls, run_step O fuel slv k s guess cn = Finished s' lst calls /\
        Z.of_nat (length calls) = Z.max 0 n /\ Forall converged (map snd calls).
  Proof.
    intros Hslv [Hcn Hl] Hk Hfresh Ei.
    assert (Hk' : s_kind s = Product \/ s_kind s = Sparse) by (destruct Hk as [[Hk _]|Hk]; auto).
    destruct (points_init O s s1 guess cn u Hk' Ei) as (rs & pts & N & HF & HI & HP).
    pose proof (Forall2_len _ _ _ HF) as Hl2.
    assert (HN : Z.to_nat N = length pts).
    { destruct Hk as [[Hk Hn]|Hk]; rewrite Hk in HP.
      - destruct HP as (-> & ls & Hls & ->). apply mapM_Forall2 in Hls. pose proof (Forall2_len _ _ _ Hls) as Hl1.
        assert (HL : Forall (fun l => length l = Z.to_nat (s_nsub s)) ls).
        { apply Forall_forall. intros l Hin'. apply In_nth_error in Hin'. destruct Hin' as [m Hm].
          destruct (Forall2_nth_r _ _ _ _ _ Hls Hm) as (r & _ & Hr). apply linspace_length in Hr. apply Hr. }
        destruct (cart_nth ls (Z.to_nat (s_nsub s)) ltac:(lia) HL) as [Hcl _].
        rewrite Hcl, <- Hl1, <- Hl2. rewrite <- (Nat2Z.id (Z.to_nat (s_nsub s) ^ length (s_vars s))).
        f_equal. rewrite Nat2Z.inj_pow, Z2Nat.id by lia. reflexivity.
      - destruct HP as (-> & _). apply Nat2Z.id. }
    exists N. intros fuel Hf. unfold run_step. rewrite Ei.
    apply (live_run O slv cn N guess Hcn Hslv fuel k s1 guess []); [|simpl; lia|simpl; lia].
    constructor.
    - exact (P_gam _ _ _ _ _ _ _ HI).
    - constructor.
    - exact (P_ctr _ _ _ _ _ _ _ HI).
    - exact (P_num _ _ _ _ _ _ _ HI).
    - exact (P_cn _ _ _ _ _ _ _ HI).
    - rewrite (P_vars _ _ _ _ _ _ _ HI). apply Forall_forall. intros w Hw. apply In_nth_error in Hw. destruct Hw as [m Hm].
      assert (m < length rs)%nat as Hmr.
      { destruct (append_points_names O pts rs 0) as [_ <-]. apply nth_error_Some; congruence. }
      destruct (nth_error rs m) as [r|] eqn:Er; [|apply nth_error_None in Er; lia].
      rewrite (append_points_nth O pts rs 0 m r Er) in Hm. injection Hm as <-. simpl.
      destruct (Forall2_nth_r _ _ _ _ _ HF Er) as (v & Ev & (Hrn' & _ & Hst & x & _ & j & Hj & _)).
      rewrite Forall_forall in Hfresh. apply nth_error_In in Ev.
      split; [rewrite Hrn'; eapply nth_error_In; exact Hj|].
      rewrite Hst, (Hfresh v Ev). simpl. rewrite map_length. exact HN.
    - rewrite (P_gam _ _ _ _ _ _ _ HI). constructor; [exact Hl|constructor].
  Qed.
End Live2.
