(** A step whose cases all converge finishes, with one call per scheduled case
    (C61); used also to show that the hypotheses of the theorems over the reals
    can be met. *)
From Verif Require Import Base Base_Facts Cont_Model Cont_Spec Cont_Proofs.

Section Live.
  Context {F : Type} (O : NumOps F) {P : Type}.
  Notation traj := (traj F P). Notation cvar := (cvar F). Notation strat := (strat F P).
  Notation call := (call F P). Notation solver := (solver F P).

  Record AInv (cn : list string) (n : Z) (g0 : traj) (s : strat) (calls : list call) : Prop := {
    A_gam : s_gammas s = init_gamma g0 :: map snd calls;
    A_conv : Forall converged (map snd calls);
    A_ctr : s_ctr s = length calls;
    A_num : s_num s = Some n;
    A_cn : s_cnames s = cn;
    A_vars : Forall (fun v => In (v_name v) cn /\ Z.to_nat n = length (v_steps v)) (s_vars s);
    A_len : Forall (fun t => length cn = length (t_const t)) (s_gammas s) }.

  Lemma last_in (l : list traj) d : In (last l d) (d :: l).
  Proof.
    induction l as [|x l IH] using rev_ind; [left; reflexivity|].
    rewrite last_last. right. apply in_or_app; right; left; reflexivity.
  Qed.

  Lemma live_base cn n g0 s calls ig :
    NoDup cn -> AInv cn n g0 s calls ->
    (Z.of_nat (length calls) < n ->
       exists g, next_base O s ig = (upd_ctr s (S (s_ctr s)), Ok g) /\ length (t_const g) = length cn) /\
    (n <= Z.of_nat (length calls) -> next_base O s ig = (s, Raise StopIteration)).
  Proof.
    intros Hcn HI. unfold next_base. rewrite (calls_last calls (init_gamma g0) s (A_gam _ _ _ _ _ HI)).
    assert (negb ig && negb (length (s_gammas s) =? 1)%nat &&
            negb (truthy (t_conv (last (map snd calls) (init_gamma g0)))) = false) as ->.
    { rewrite (A_gam _ _ _ _ _ HI). pose proof (A_conv _ _ _ _ _ HI) as Hc.
      destruct calls as [|c calls] using rev_ind; [simpl; rewrite andb_false_r; reflexivity|].
      rewrite map_app in *; cbn [map] in *. rewrite last_last. apply Forall_app in Hc. destruct Hc as [_ Hc].
      inversion Hc as [|? ? Hc1 _]. unfold converged in Hc1. rewrite Hc1. apply andb_false_r. }
    rewrite (A_num _ _ _ _ _ HI), (A_ctr _ _ _ _ _ HI), (A_cn _ _ _ _ _ HI).
    destruct (Z.leb_spec n (Z.of_nat (length calls))) as [Hle|Hlt]; split; intros Hx; try lia; [reflexivity|].
    assert (Hlc : length cn = length (t_const (last (map snd calls) (init_gamma g0)))).
    { pose proof (A_len _ _ _ _ _ HI) as Hl. rewrite Forall_forall in Hl. apply Hl.
      rewrite (A_gam _ _ _ _ _ HI). apply last_in. }
    destruct (put_vars_exists cn (s_vars s) (length calls)
                (t_const (last (map snd calls) (init_gamma g0))) Hcn Hlc) as [c Hc].
    { eapply Forall_impl; [|exact (A_vars _ _ _ _ _ HI)]. intros v [H1 H2]. split; [exact H1|].
      destruct (nth_error (v_steps v) (length calls)) eqn:E; [eauto|]. apply nth_error_None in E. lia. }
    rewrite Hc.
    assert (Hne : s_gammas s <> []) by (rewrite (A_gam _ _ _ _ _ HI); discriminate).
    destruct (closest_ok O (s_gammas s) c Hne) as [i [gi [-> ->]]].
    eexists. split; [reflexivity|]. simpl.
    rewrite Hlc. clear - Hc. revert c Hc. generalize (t_const (last (map snd calls) (init_gamma g0))).
    generalize (s_vars s) as vs. induction vs as [|v vs IH]; intros c0 c Hc; simpl in Hc; [congruence|].
    destruct (index_of (v_name v) cn) as [j|]; simpl in Hc; [|discriminate].
    destruct (get (v_steps v) (length calls)); simpl in Hc; [|discriminate].
    destruct (set_nth c0 j a) as [c1|] eqn:E1; simpl in Hc; [|discriminate].
    apply set_nth_ok in E1. rewrite (IH _ _ Hc). apply E1.
  Qed.

  Lemma AInv_div cn n g0 s calls d : AInv cn n g0 s calls -> AInv cn n g0 (upd_divctr s d) calls.
  Proof. intros [H1 H2 H3 H4 H5 H6 H7]. constructor; assumption. Qed.

  Lemma live_next cn n g0 s calls :
    NoDup cn -> AInv cn n g0 s calls ->
    exists s1, AInv cn n g0 s1 calls /\
    (Z.of_nat (length calls) < n ->
       exists g, next O s = (upd_ctr s1 (S (s_ctr s1)), Ok g) /\ length (t_const g) = length cn) /\
    (n <= Z.of_nat (length calls) -> next O s = (s1, Raise StopIteration)).
  Proof.
    intros Hcn HI.
    assert (Hlc : (if (s_ctr s =? 0)%nat then Ok true else last_conv s) = Ok true).
    { rewrite (A_ctr _ _ _ _ _ HI). unfold last_conv. rewrite (calls_last calls (init_gamma g0) s (A_gam _ _ _ _ _ HI)).
      pose proof (A_conv _ _ _ _ _ HI) as Hc.
      destruct calls as [|c calls] using rev_ind; [reflexivity|].
      rewrite map_app in *; cbn [map] in *. rewrite last_last. apply Forall_app in Hc. destruct Hc as [_ Hc].
      inversion Hc as [|? ? Hc1 _]. unfold converged in Hc1. rewrite Hc1.
      unfold Cont_Model.call in *. rewrite app_length; simpl. rewrite Nat.add_comm; reflexivity. }
    unfold next. destruct (s_kind s).
    - exists s. split; [exact HI|]. eapply live_base; eassumption.
    - exists (upd_divctr s 0). split; [apply AInv_div; exact HI|]. unfold next_bisection. rewrite Hlc.
      eapply live_base; [exact Hcn|apply AInv_div; exact HI].
    - exists (upd_divctr s 0). split; [apply AInv_div; exact HI|]. unfold next_product. rewrite Hlc.
      eapply live_base; [exact Hcn|apply AInv_div; exact HI].
    - exists (upd_divctr s 0). split; [apply AInv_div; exact HI|]. unfold next_product. rewrite Hlc.
      eapply live_base; [exact Hcn|apply AInv_div; exact HI].
  Qed.

  Lemma live_run slv cn n g0 : NoDup cn -> good_solver slv ->
    forall fuel k s guess calls, AInv cn n g0 s calls ->
      (Z.to_nat n < fuel + length calls)%nat -> Z.of_nat (length calls) <= Z.max 0 n ->
      exists s' lst calls', iterate O fuel slv k s guess calls = Finished s' lst calls' /\
        Z.of_nat (length calls') = Z.max 0 n /\ Forall converged (map snd calls').
  Proof.
    intros Hcn Hslv. induction fuel as [|fuel IH]; intros k s guess calls HI Hf Hle; [lia|].
    destruct (live_next cn n g0 s calls Hcn HI) as (s1 & HI1 & Hgo & Hstop). cbn [iterate].
    destruct (Z.lt_ge_cases (Z.of_nat (length calls)) n) as [Hlt|Hge].
    - destruct (Hgo Hlt) as (g & -> & Hl). destruct (Hslv k g) as (sol & -> & Hc & Hconv).
      apply IH.
      + destruct HI1 as [H1 H2 H3 H4 H5 H6 H7]. unfold Cont_Model.call in *.
        constructor; simpl; try assumption; try reflexivity.
        * rewrite H1, map_app. reflexivity.
        * rewrite map_app. apply Forall_app. split; [exact H2|]. constructor; [exact Hconv|constructor].
        * rewrite app_length; simpl. lia.
        * apply Forall_app. split; [exact H7|]. constructor; [congruence|constructor].
      + unfold Cont_Model.call in *; rewrite app_length; simpl; lia.
      + unfold Cont_Model.call in *; rewrite app_length; simpl; lia.
    - rewrite (Hstop Hge). eexists _, _, _. split; [reflexivity|]. split; [lia|exact (A_conv _ _ _ _ _ HI)].
  Qed.

  (** Manual and bisection steps. *)
  Lemma all_converge slv fuel k (s : strat) guess cn n :
    good_solver slv -> well_named cn (t_const guess) ->
    s_kind s = Manual \/ s_kind s = Bisection -> s_spacing s <> OtherSpacing -> s_num s = Some n -> 0 <= n ->
    Forall (fun v => In (v_name v) cn) (s_vars s) -> (Z.to_nat n < fuel)%nat ->
    exists s' lst calls, run_step O fuel slv k s guess cn = Finished s' lst calls /\
      Z.of_nat (length calls) = n /\ Forall converged (map snd calls).
  Proof.
    intros Hslv [Hcn Hl] Hk Hsp Hn Hn0 Hin Hf. unfold run_step.
    rewrite init_kind by exact Hk. unfold init_manual. simpl. rewrite Hn.
    assert (exists vs, manual_init_vars O (s_spacing s) n cn (t_const guess) (s_vars s) = (vs, Ok tt) /\
              Forall (fun v => In (v_name v) cn /\ Z.to_nat n = length (v_steps v)) vs) as (vs & -> & Hvs).
    { clear - Hl Hsp Hn0 Hin. induction Hin as [|v vs Hv _ (ws & IH & IHF)]; [exists []; split; [reflexivity|constructor]|].
      simpl. unfold manual_init_var at 1. destruct (index_of_In _ _ Hv) as [j Hj]. rewrite Hj. simpl.
      pose proof (index_of_lt _ _ _ Hj) as Hlt. unfold get.
      destruct (nth_error (t_const guess) j) as [x|] eqn:E; [|apply nth_error_None in E; lia]. cbn [bind].
      assert (exists st, match s_spacing s with
                         | Linear => linspace O x (v_target v) n
                         | Log => logspace O x (v_target v) n
                         | OtherSpacing => Ok (v_steps v) end = Ok st /\ Z.to_nat n = length st) as (st & -> & Hst).
      { destruct (s_spacing s); [| |congruence].
        - destruct (linspace_ok O true x (v_target v) n Hn0) as [l Hll]. exists l. split; [exact Hll|].
          apply linspace_length in Hll. symmetry; apply Hll.
        - unfold logspace. destruct (linspace_ok O true (nlog10 O x) (nlog10 O (v_target v)) n Hn0) as [l Hll].
          unfold linspace. rewrite Hll. cbn [bind]. eexists. split; [reflexivity|]. rewrite map_length.
          apply linspace_length in Hll. symmetry; apply Hll. }
      cbn [bind]. rewrite IH. eexists. split; [reflexivity|]. constructor; [|exact IHF]. split; [exact Hv|exact Hst]. }
    destruct (live_run slv cn n guess Hcn Hslv fuel k
                (upd_vars (init_base (reset s) guess cn) vs) guess []) as (s' & lst & calls & H1 & H2 & H3).
    - constructor; simpl; try assumption; try reflexivity; [constructor|]. constructor; [exact Hl|constructor].
    - simpl; lia.
    - simpl; lia.
    - exists s', lst, calls. split; [exact H1|]. split; [lia|exact H3].
  Qed.
End Live.
