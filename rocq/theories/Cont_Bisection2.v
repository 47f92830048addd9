(** Bisection: targets, monotone refinement, bounded failures, termination. *)
From Verif Require Import Base Base_Facts Cont_Model Cont_Spec Cont_Proofs Cont_Bisection.
From Coq Require Import Reals Lra.

Section Generic.
  Context {F : Type} (O : NumOps F) {P : Type}.
  Notation traj := (traj F P). Notation cvar := (cvar F). Notation strat := (strat F P).
  Notation call := (call F P). Notation outcome := (outcome F P). Notation solver := (solver F P).

  Lemma placed_targets cn c0 c n (vs vs' : list cvar) :
    NoDup cn -> 2 <= n ->
    Forall2 (fun v v' => manual_init_var O Linear n cn c0 v = Ok v') vs vs' ->
    placed cn vs' (Z.to_nat n - 1) c0 c -> at_targets cn (targets vs) c0 c.
  Proof.
    intros Hcn H2 HF [Hl Hpl]. split; [exact Hl|]. intros j name Hj. rewrite (Hpl j name Hj).
    destruct (find_var name vs') as [v|] eqn:Ef.
    - destruct (inited_schedule _ _ _ _ _ _ _ Hcn HF j name v Hj Ef) as (x0 & T & Hx & HT & _ & Hst').
      simpl in Hst'. rewrite HT, Hx. simpl.
      rewrite (linspace_nth O _ _ _ _ _ Hst') by lia.
      destruct (Z.ltb_spec 1 n); [|lia]. rewrite Nat.eqb_refl; reflexivity.
    - destruct (manual_init_names _ _ _ _ _ _ _ HF) as [Hnames _].
      apply find_var_None in Ef. rewrite Hnames in Ef. apply find_var_None in Ef.
      rewrite assoc_targets, Ef; reflexivity.
  Qed.

  Lemma bisection_targets slv fuel k (s : strat) guess cn n s' lst calls :
    keeps_const slv -> well_named cn (t_const guess) -> NoDup (map v_name (s_vars s)) ->
    s_kind s = Bisection -> s_spacing s = Linear -> s_num s = Some n -> 2 <= n -> 1 <= s_ndiv s ->
    run_step O fuel slv k s guess cn = Finished s' lst calls ->
    converged lst /\ In lst (map snd calls) /\
    at_targets cn (targets (s_vars s)) (t_const guess) (t_const lst).
  Proof.
    intros Hkeep Hwn Hnd Hk Hsp Hn H2 Hdiv Ho.
    destruct (bisection_schedule O slv fuel k s guess cn n s' lst calls Hkeep Hwn Hnd Hk
                ltac:(rewrite Hsp; discriminate) Hn ltac:(lia) Hdiv Ho)
      as (vs & grid & HF & _ & _ & _ & Hc & Hin & _ & Hpl).
    split; [exact Hc|split; [exact Hin|]]. rewrite Hsp in HF.
    eapply placed_targets; [apply Hwn|exact H2|exact HF|exact Hpl].
  Qed.

  (** A predicate on variables that division preserves is an invariant. *)
  Section Pred.
    Variables (guess0 : traj) (cn names : list string) (ndiv maxdiv : Z) (vs0 : list cvar) (m0 : nat).
    Hypothesis Hnd : 1 <= ndiv.
    Variables (sp : spacing) (Q : cvar -> Prop).
    Hypothesis HQ : forall v v' ctr, (2 <= ctr <= length (v_steps v))%nat ->
      divide_var O sp ndiv ctr v = Ok v' -> Q v -> Q v'.

    Lemma divide_vars_pred ctr vs vs' u :
      divide_vars O sp ndiv ctr vs = (vs', Ok u) ->
      Forall (fun v => (2 <= ctr <= length (v_steps v))%nat) vs -> Forall Q vs -> Forall Q vs'.
    Proof.
      revert vs'; induction vs as [|v vs IH]; intros vs' H Hl HV; simpl in H.
      - injection H as <- _; constructor.
      - destruct (divide_var O sp ndiv ctr v) as [v1|e] eqn:E1; [|discriminate].
        destruct (divide_vars O sp ndiv ctr vs) as [vs1 r] eqn:E2.
        injection H as <- ->. inversion Hl; inversion HV; subst.
        constructor; [eapply HQ; eassumption|]. apply IH; [reflexivity|assumption|assumption].
    Qed.

    Lemma bis_run_pred slv :
      forall fuel k s guess calls m,
        BInv guess0 cn names ndiv maxdiv vs0 m0 s guess calls m -> s_spacing s = sp -> Forall Q (s_vars s) ->
        match iterate O fuel slv k s guess calls with
        | Finished s' lst calls' => Forall Q (s_vars s')
        | _ => True
        end.
    Proof.
      intros fuel k s guess calls m HI Hsp HV.
      apply (iterate_inv O slv
               (fun s guess calls => exists m, BInv guess0 cn names ndiv maxdiv vs0 m0 s guess calls m /\
                                     s_spacing s = sp /\ Forall Q (s_vars s))
               (fun o => match o with Finished s' lst calls' => Forall Q (s_vars s') | _ => True end)).
      - clear - Hnd HQ. intros s guess calls s' (m & HI & Hsp & HV) Hn.
        destruct (bis_stop Hnd HI Hn) as (_ & _ & _ & ->). exact HV.
      - intros; exact I.
      - intros; exact I.
      - clear - Hnd HQ. intros s guess calls s' g k sol (m & HI & Hsp & HV) Hn Hs.
        destruct (bis_step Hnd sol HI Hn) as [m' HI'].
        destruct (bis_next_ok Hnd HI Hn) as (m2 & c & HN).
        exists m'; split; [exact HI'|]. split; [simpl; rewrite (N_sp HN); exact Hsp|].
        simpl. destruct (N_cases HN) as [[_ ->]|(H2 & _ & _ & u & Hd)]; [exact HV|].
        rewrite Hsp in Hd. eapply divide_vars_pred; [exact Hd| |exact HV].
        pose proof (B_len HI) as Hl. pose proof (B_ctr HI) as Hc.
        eapply Forall_impl; [|exact Hl]. simpl; intros v Hv; lia.
      - exact I.
      - exists m; split; [exact HI|split; assumption].
    Qed.
  End Pred.

  (** ** Consecutive failures (C06) *)

  (** Number of failures at the end of a list of solutions. *)
  Fixpoint lead_fail (l : list traj) : nat :=
    match l with
    | [] => 0
    | t :: l' => if truthy (t_conv t) then 0 else S (lead_fail l')
    end.
  Definition trail (calls : list call) : nat := lead_fail (rev (map snd calls)).

  Lemma trail_snoc calls g sol :
    trail (calls ++ [(g, sol)]) = if truthy (t_conv sol) then 0%nat else S (trail calls).
  Proof. unfold trail. rewrite map_app, rev_app_distr; reflexivity. Qed.

  Lemma not_conv (t : traj) : ~ converged t <-> truthy (t_conv t) = false.
  Proof. unfold converged; destruct (truthy (t_conv t)); split; congruence. Qed.

  Lemma lead_fail_max l mid : (exists r, l = mid ++ r) -> Forall (fun t => ~ converged t) mid ->
    (length mid <= lead_fail l)%nat.
  Proof.
    intros [r ->] H; induction mid as [|t mid IH]; [simpl; lia|].
    inversion H as [|? ? Ht Hm]; subst. simpl. apply not_conv in Ht. rewrite Ht.
    specialize (IH Hm). lia.
  Qed.

  Lemma lead_fail_prefix l : exists mid r, l = mid ++ r /\ length mid = lead_fail l /\
    Forall (fun t => ~ converged t) mid.
  Proof.
    induction l as [|t l IH]; [exists [], []; repeat split; constructor|].
    simpl. destruct (truthy (t_conv t)) eqn:E.
    - exists [], (t :: l); repeat split; constructor.
    - destruct IH as (mid & r & -> & Hl & Hf). exists (t :: mid), r.
      repeat split; [simpl; lia|constructor; [apply not_conv; exact E|exact Hf]].
  Qed.

  Lemma trail_ends calls : ends_with_failures (Z.of_nat (trail calls)) calls.
  Proof.
    destruct (lead_fail_prefix (rev (map snd calls))) as (mid & r & E & Hl & Hf).
    exists (rev r), (rev mid). split; [|split].
    - rewrite <- (rev_involutive (map snd calls)), E, rev_app_distr; reflexivity.
    - rewrite rev_length. unfold trail. lia.
    - apply Forall_rev; exact Hf.
  Qed.

  Lemma failures_snoc b calls g sol :
    failures_at_most b calls -> Z.of_nat (trail (calls ++ [(g, sol)])) <= b ->
    failures_at_most b (calls ++ [(g, sol)]).
  Proof.
    intros H Ht pre mid post E Hf. destruct post as [|p post] using rev_ind.
    - rewrite app_nil_r in E. apply Z.le_trans with (2 := Ht). apply inj_le.
      rewrite <- (rev_length mid). apply lead_fail_max; [|apply Forall_rev; exact Hf].
      exists (rev pre). rewrite E, rev_app_distr; reflexivity.
    - clear IHpost. rewrite map_app, !app_assoc in E. apply app_inj_tail in E. destruct E as [E _].
      apply (H pre mid post); [rewrite app_assoc; exact E|exact Hf].
  Qed.

  Lemma last_conv_trail (calls : list call) g0 :
    calls <> [] -> (last_is_conv calls g0 = true <-> trail calls = 0%nat).
  Proof.
    intros Hne. destruct calls as [|[g sol] calls] using rev_ind; [congruence|]. clear IHcalls.
    rewrite trail_snoc. unfold last_is_conv. rewrite map_app; cbn [map snd]; rewrite last_last.
    destruct (truthy (t_conv sol)); split; congruence.
  Qed.

  Definition bound (maxdiv : Z) : Z := Z.max 1 (maxdiv + 2).

  Definition FInv (guess0 : traj) cn names ndiv maxdiv vs0 m0 (s : strat) (guess : traj) (calls : list call) : Prop :=
    exists m, BInv guess0 cn names ndiv maxdiv vs0 m0 s guess calls m /\
      failures_at_most (bound maxdiv) calls /\
      (calls <> [] -> (1 <= trail calls)%nat -> s_divctr s = Z.of_nat (trail calls) - 1) /\
      (s_spacing s <> OtherSpacing).

  Definition fail_post (maxdiv : Z) (slv : solver) (o : outcome) : Prop :=
    match o with
    | OutOfFuel => True
    | Finished _ _ calls => failures_at_most (bound maxdiv) calls
    | Raised e _ calls =>
        failures_at_most (bound maxdiv) calls /\
        (total_solver slv -> e = RuntimeError ->
           (exists c, calls = [c] /\ ~ converged (snd c)) \/ ends_with_failures (bound maxdiv) calls)
    end.

  Lemma bis_fail_run slv guess0 cn names ndiv maxdiv vs0 m0 :
    1 <= ndiv ->
    forall fuel k s guess calls,
      FInv guess0 cn names ndiv maxdiv vs0 m0 s guess calls ->
      fail_post maxdiv slv (iterate O fuel slv k s guess calls).
  Proof.
    intros Hnd.
    assert (Hput : forall (vs : list cvar) cn' i c, put_vars cn' vs i c <> Raise RuntimeError).
    { intros vs cn' i. induction vs as [|v vs IH]; intros c; simpl; [discriminate|].
      destruct (in_dec String.string_dec (v_name v) cn') as [Hi|Hi].
      - destruct (index_of_In _ _ Hi) as [jj ->]; simpl.
        unfold get; destruct (nth_error (v_steps v) i); simpl; [|discriminate].
        unfold set_nth; destruct (Nat.ltb _ _); simpl; [apply IH|discriminate].
      - rewrite (index_of_notIn _ _ Hi); discriminate. }
    apply (iterate_inv O slv (FInv guess0 cn names ndiv maxdiv vs0 m0) (fail_post maxdiv slv)).
    - intros s guess calls s' (m & HI & Hf & _) Hn. exact Hf.
    - intros s guess calls s' e (m & HI & Hf & Hd & Hsp) Hn Hne. simpl. split; [exact Hf|]. intros _ ->.
      pose proof HI as HI'.
      destruct HI' as [Hk Hg Hcn Hnames Hnum Hndiv Hmax Hlen Hctr Hctr0 Hone Hfirst Hdone Hguess Hsub _].
      unfold next in Hn; rewrite Hk in Hn. unfold next_bisection in Hn.
      assert (Hlast := BI_last HI). simpl in Hlast.
      destruct (Nat.eqb_spec (s_ctr s) 0) as [E0|E0].
      + exfalso. pose proof (proj1 Hctr0 E0) as ->. apply next_base_cases in Hn; simpl in Hn.
        destruct Hn as [_ Hn]. rewrite Hg in Hn; simpl in Hn.
        destruct Hn as [[_ ?]|[lg [_ [(_ & _ & Hx & _)|[_ [[_ ?]|[num [Hx [[? _]|[_ Hp]]]]]]]]]];
          try discriminate; [congruence|]. eapply Hput; exact Hp.
      + assert (Hne' : calls <> []) by (intros E; apply E0, Hctr0; exact E).
        unfold last_conv in Hn; rewrite Hlast in Hn.
        fold (last_is_conv calls (init_gamma guess0)) in Hn.
        destruct (last_is_conv calls (init_gamma guess0)) eqn:Elc.
        * exfalso. apply next_base_cases in Hn; simpl in Hn. destruct Hn as [_ Hn].
          change (last_gamma (upd_divctr s 0)) with (last_gamma s) in Hn. rewrite Hlast in Hn.
          destruct Hn as [[_ ?]|[lg [Hlg [(_ & _ & _ & Hx)|[_ [[_ ?]|[num [Hx [[? _]|[_ Hp]]]]]]]]]];
            try discriminate.
          -- injection Hlg as <-. unfold last_is_conv in Elc. congruence.
          -- eapply Hput; exact Hp.
        * assert (Ht : trail calls <> 0%nat).
          { intros E. apply (last_conv_trail calls (init_gamma guess0) Hne') in E. congruence. }
          destruct (Nat.eqb_spec (s_ctr s) 1) as [E1|E1].
          -- (* first case failed *)
             left. destruct calls as [|c [|d calls]]; [congruence| |].
             ++ exists c. split; [reflexivity|]. apply not_conv. exact Elc.
             ++ exfalso. pose proof (Hfirst _ _ _ eq_refl) as Hc1.
                (* at least one converged, so done >= 1, but done = ctr - 1 = 0 *)
                assert (1 <= length (conv_sols (c :: d :: calls)))%nat.
                { unfold conv_sols; simpl. unfold converged in Hc1. rewrite Hc1. simpl; lia. }
                lia.
          -- destruct (Z.ltb_spec (s_maxdiv s) (s_divctr s)) as [Hm|Hm].
             ++ right. rewrite (Hd Hne' ltac:(lia)) in Hm. rewrite Hmax in Hm.
                assert (Z.of_nat (trail calls) = bound maxdiv) as <-; [|apply trail_ends].
                assert (Z.of_nat (trail calls) <= bound maxdiv).
                { destruct (trail_ends calls) as (pre & mid & E & Hl & Hfm). rewrite <- Hl.
                  apply (Hf pre mid []); [rewrite app_nil_r; exact E|exact Hfm]. }
                unfold bound in *. lia.
             ++ exfalso. rewrite Hndiv in Hn.
                destruct (divide_vars O (s_spacing s) ndiv (s_ctr s) (s_vars s)) as [vs' [u|e]] eqn:Ed.
                ** apply next_base_cases in Hn; simpl in Hn. destruct Hn as [_ Hn].
                   destruct Hn as [[_ ?]|[lg [_ [(_ & ? & _)|[_ [[_ ?]|[num [Hx [[? _]|[_ Hp]]]]]]]]]];
                     try discriminate. eapply Hput; exact Hp.
                ** injection Hn as _ ->. revert Ed. clear - Hnd Hsp. revert vs'. generalize (s_ctr s).
                   revert Hsp. generalize (s_spacing s).
                   intros sp Hsp c. induction (s_vars s) as [|v vs IH]; intros vs'; simpl; [discriminate|].
                   destruct (divide_var O sp ndiv c v) as [v'|e] eqn:Ev.
                   --- destruct (divide_vars O sp ndiv c vs) as [vs1 r] eqn:E1. intros H; injection H as _ ->.
                       eapply IH; reflexivity.
                   --- intros H; injection H as _ ->. revert Ev. unfold divide_var, get.
                       destruct (nth_error (v_steps v) (c - 2)); simpl; [|discriminate].
                       destruct (nth_error (v_steps v) (c - 1)); simpl; [|discriminate].
                       destruct sp; simpl; try discriminate; unfold logspace, linspace, linspace_gen, np_insert;
                         destruct (ndiv + 1 <? 0); simpl; try discriminate;
                         destruct (Nat.leb _ _); simpl; discriminate.
    - intros s guess calls s' g k e (m & HI & Hf & Hd & Hsp) Hn Hs. simpl. split; [exact Hf|].
      intros Htot _. destruct (Htot k g) as [sol Hsol]; congruence.
    - intros s guess calls s' g k sol (m & HI & Hf & Hd & Hsp) Hn Hs.
      destruct (bis_step Hnd sol HI Hn) as [m' HI'].
      destruct (bis_next_ok Hnd HI Hn) as (m2 & c & HN).
      exists m'. split; [exact HI'|].
      assert (Htr : Z.of_nat (trail (calls ++ [(g, sol)])) <= bound maxdiv /\
                    ((1 <= trail (calls ++ [(g, sol)]))%nat ->
                     s_divctr s' = Z.of_nat (trail (calls ++ [(g, sol)])) - 1)).
      { rewrite trail_snoc. destruct (truthy (t_conv sol)); [unfold bound; split; [lia|intros; lia]|].
        destruct (N_div HN) as [(Hc & Hdz & _)|(Hne & Hlc & Hle & Hdv & _)].
        - assert (trail calls = 0%nat) as ->.
          { destruct calls as [|c0 calls]; [reflexivity|]. destruct Hc as [Hc|Hc]; [discriminate|].
            apply (last_conv_trail (c0 :: calls) (init_gamma guess0)); [discriminate|exact Hc]. }
          unfold bound; split; [lia|intros; lia].
        - assert (trail calls <> 0%nat) as Hnz.
          { intros E. apply (last_conv_trail calls (init_gamma guess0) Hne) in E. congruence. }
          rewrite (Hd Hne ltac:(lia)) in Hle, Hdv. unfold bound; split; [lia|intros; lia]. }
      split; [apply failures_snoc; [exact Hf|apply Htr]|]. split; [intros _; apply Htr|].
      simpl. rewrite (N_sp HN). exact Hsp.
    - exact I.
  Qed.

  (** C06 *)
  Lemma bisection_failures slv fuel k (s : strat) guess cn n o :
    s_kind s = Bisection -> s_spacing s <> OtherSpacing -> s_num s = Some n -> 0 <= n -> 1 <= s_ndiv s ->
    run_step O fuel slv k s guess cn = o ->
    failures_at_most (Z.max 1 (s_maxdiv s + 2)) (log_of o) /\
    (forall s' calls, total_solver slv -> o = Raised RuntimeError s' calls ->
       (exists c, calls = [c] /\ ~ converged (snd c)) \/
       ends_with_failures (Z.max 1 (s_maxdiv s + 2)) calls).
  Proof.
    intros Hk Hsp Hn H0 Hdiv Ho. unfold run_step in Ho.
    assert (Hnil : failures_at_most (Z.max 1 (s_maxdiv s + 2)) (@nil call)).
    { intros pre mid post E _. symmetry in E. apply app_eq_nil in E. destruct E as [_ E].
      apply app_eq_nil in E. destruct E as [-> _]. simpl; lia. }
    destruct (init O (reset s) guess cn) as [s1 [u|e]] eqn:Ei.
    - destruct (bis_init Hk Hn H0 Hsp Ei) as (vs & HF & Hvs & Hsp' & HI & HC).
      pose proof (bis_fail_run slv guess cn (map v_name (s_vars s)) (s_ndiv s) (s_maxdiv s) vs (Z.to_nat n) Hdiv fuel k s1 guess []) as HR.
      rewrite Ho in HR. unfold fail_post in HR.
      assert (FInv guess cn (map v_name (s_vars s)) (s_ndiv s) (s_maxdiv s) vs (Z.to_nat n) s1 guess []) as HFI.
      { exists (Z.to_nat n). split; [exact HI|]. split; [exact Hnil|]. split; [congruence|]. rewrite Hsp'; exact Hsp. }
      specialize (HR HFI). destruct o as [s' lst calls|e s' calls|]; simpl.
      + split; [exact HR|discriminate].
      + destruct HR as [HR1 HR2]. split; [exact HR1|]. intros s2 calls2 Ht E; injection E as -> <- <-.
        apply HR2; [exact Ht|reflexivity].
      + split; [exact Hnil|discriminate].
    - subst o; simpl. split; [exact Hnil|]. intros s' calls _ E. exfalso. injection E as -> <- <-.
      rewrite init_kind in Ei by (right; exact Hk). revert Ei. unfold init_manual; simpl. rewrite Hn.
      destruct (manual_init_vars O (s_spacing s) n cn (t_const guess) (s_vars s)) as [vs r] eqn:E.
      intros H; injection H as _ ->. revert vs E. clear. induction (s_vars s) as [|v vs IH]; intros vs'; simpl; [discriminate|].
      destruct (manual_init_var O (s_spacing s) n cn (t_const guess) v) as [v'|e] eqn:Ev.
      + destruct (manual_init_vars O (s_spacing s) n cn (t_const guess) vs) as [vs1 r] eqn:E1.
        intros H; injection H as _ ->. eapply IH; reflexivity.
      + intros H; injection H as _ ->. revert Ev. unfold manual_init_var.
        destruct (in_dec String.string_dec (v_name v) cn) as [Hi|Hi].
        2:{ rewrite (index_of_notIn _ _ Hi); discriminate. }
        destruct (index_of_In _ _ Hi) as [jj ->]; simpl. unfold get.
        destruct (nth_error (t_const guess) jj); simpl; [|discriminate].
        destruct (s_spacing s); simpl; try discriminate; unfold logspace, linspace, linspace_gen;
          destruct (n <? 0); simpl; discriminate.
  Qed.

  (** Failing the first case stops the step at once. *)
  Lemma bisection_first_failure slv fuel k (s : strat) guess cn n o c rest :
    s_kind s = Bisection -> s_spacing s <> OtherSpacing -> s_num s = Some n -> 0 <= n -> 1 <= s_ndiv s ->
    run_step O fuel slv k s guess cn = o -> log_of o = c :: rest -> ~ converged (snd c) -> rest = [].
  Proof.
    intros Hk Hsp Hn H0 Hdiv Ho Hlog Hc. unfold run_step in Ho.
    destruct (init O (reset s) guess cn) as [s1 [u|e]] eqn:Ei; [|subst o; discriminate].
    destruct (bis_init Hk Hn H0 Hsp Ei) as (vs & HF & Hvs & Hsp' & HI & HC).
    pose proof (iterate_inv O slv
       (fun s guess' calls => exists m, BInv guess cn (map v_name (s_vars s1)) (s_ndiv s1) (s_maxdiv s1) vs (Z.to_nat n) s guess' calls m)
       (fun o => forall c d r, log_of o = c :: d :: r -> converged (snd c))) as HP.
    destruct rest as [|d rest]; [reflexivity|]. exfalso. apply Hc.
    assert (Hnd1 : s_ndiv s1 = s_ndiv s) by (apply (B_ndiv HI)).
    assert (Hmd1 : s_maxdiv s1 = s_maxdiv s) by (apply (B_maxdiv HI)).
    assert (Hnm1 : map v_name (s_vars s1) = map v_name (s_vars s)) by (apply (B_names HI)).
    rewrite <- Ho in Hlog. eapply HP; [| | | | |exists (Z.to_nat n); rewrite Hnd1, Hmd1, Hnm1; exact HI|exact Hlog].
    - intros s2 g2 calls2 s3 (m & HI2) _ c1 d1 r1 E. eapply (B_first HI2); exact E.
    - intros s2 g2 calls2 s3 e (m & HI2) _ _ c1 d1 r1 E. eapply (B_first HI2); exact E.
    - intros s2 g2 calls2 s3 g3 k3 e (m & HI2) _ _ c1 d1 r1 E. eapply (B_first HI2); exact E.
    - intros s2 g2 calls2 s3 g3 k3 sol (m & HI2) Hn2 Hs2. eapply bis_step; [|exact HI2|exact Hn2]. rewrite Hnd1; exact Hdiv.
    - intros c1 d1 r1 E; discriminate.
  Qed.
End Generic.
