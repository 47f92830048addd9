(** Bisection strategy: schedule invariant, bounded failures, termination. *)
From Verif Require Import Base Base_Facts Cont_Model Cont_Spec Cont_Proofs.
From Coq Require Import Reals Lra.

Lemma Subseq_refl {A} (l : list A) : Subseq l l.
Proof. induction l; constructor; assumption. Qed.

Lemma Subseq_nil {A} (l : list A) : Subseq [] l.
Proof. induction l; constructor; assumption. Qed.

Lemma Subseq_trans {A} (l1 l2 l3 : list A) : Subseq l1 l2 -> Subseq l2 l3 -> Subseq l1 l3.
Proof.
  intros H12 H23; revert l1 H12; induction H23 as [|a l2 l3 H IH|a l2 l3 H IH]; intros l1 H12.
  - exact H12.
  - constructor; apply IH; exact H12.
  - inversion H12; subst; constructor; apply IH; assumption.
Qed.

Lemma Subseq_app {A} (l1 l2 m1 m2 : list A) : Subseq l1 l2 -> Subseq m1 m2 -> Subseq (l1 ++ m1) (l2 ++ m2).
Proof. intros H1 H2; induction H1; simpl; [exact H2|apply Sub_skip; assumption|apply Sub_take; assumption]. Qed.

Lemma Subseq_map {A B} (f : A -> B) l1 l2 : Subseq l1 l2 -> Subseq (map f l1) (map f l2).
Proof. induction 1; simpl; constructor; assumption. Qed.

Lemma Subseq_insert {A} (l mid : list A) i : Subseq l (firstn i l ++ mid ++ skipn i l).
Proof.
  rewrite <- (firstn_skipn i l) at 1. apply Subseq_app; [apply Subseq_refl|].
  change (skipn i l) with ([] ++ skipn i l) at 1.
  apply Subseq_app; [apply Subseq_nil|apply Subseq_refl].
Qed.

Section Generic.
  Context {F : Type} (O : NumOps F) {P : Type}.
  Notation traj := (traj F P). Notation cvar := (cvar F). Notation strat := (strat F P).
  Notation call := (call F P). Notation outcome := (outcome F P). Notation solver := (solver F P).

  (** Constants outside [names] are those of [c0]. *)
  Definition others (cn names : list string) (c0 c : list F) : Prop :=
    length c = length c0 /\
    forall j name, nth_error cn j = Some name -> ~ In name names -> nth_error c j = nth_error c0 j.

  Lemma others_refl cn names c0 : others cn names c0 c0.
  Proof. split; reflexivity. Qed.

  Lemma placed_others cn (vs : list cvar) i c0 c : placed cn vs i c0 c -> others cn (map v_name vs) c0 c.
  Proof.
    intros [Hl H]; split; [exact Hl|]. intros j name Hj Hn. rewrite (H j name Hj).
    apply find_var_None in Hn; rewrite Hn; reflexivity.
  Qed.

  Lemma others_placed cn (vs : list cvar) i c0 c c' :
    others cn (map v_name vs) c0 c -> placed cn vs i c c' -> placed cn vs i c0 c'.
  Proof.
    intros [Hl H] [Hl' H']; split; [congruence|]. intros j name Hj. rewrite (H' j name Hj).
    destruct (find_var name vs) eqn:E; [reflexivity|]. apply find_var_None in E. apply (H j name); assumption.
  Qed.

  (** Rows of the schedule. *)
  Definition row (vs : list cvar) (i : nat) : list (option F) := map (fun v => nth_error (v_steps v) i) vs.
  Definition rows (vs : list cvar) (m : nat) : list (list (option F)) := map (row vs) (seq 0 m).

  Lemma rows_length vs m : length (rows vs m) = m.
  Proof. unfold rows; rewrite map_length, seq_length; reflexivity. Qed.

  Lemma rows_nth vs m i : (i < m)%nat -> nth_error (rows vs m) i = Some (row vs i).
  Proof. apply nth_error_map_seq. Qed.

  (** Result of dividing one variable. *)
  Definition divided (ndiv : Z) (p : nat) (v v' : cvar) : Prop :=
    v_name v' = v_name v /\ v_target v' = v_target v /\
    exists mid, length mid = Z.to_nat (ndiv - 1) /\
      v_steps v' = firstn p (v_steps v) ++ mid ++ skipn p (v_steps v).

  Lemma divide_var_ok sp ndiv ctr v v' :
    1 <= ndiv -> divide_var O sp ndiv ctr v = Ok v' -> divided ndiv (ctr - 1) v v'.
  Proof.
    unfold divide_var; intros Hnd H.
    destruct (get (v_steps v) (ctr - 2)) as [a|]; simpl in H; [|discriminate].
    destruct (get (v_steps v) (ctr - 1)) as [b|]; simpl in H; [|discriminate].
    destruct (match sp with Linear => linspace O a b (ndiv + 1) | Log => logspace O a b (ndiv + 1)
              | OtherSpacing => Raise ValueError end) as [new|e] eqn:En; simpl in H; [|discriminate].
    assert (length new = Z.to_nat (ndiv + 1)) as Hl.
    { destruct sp; [| |discriminate].
      - apply linspace_length in En; apply En.
      - unfold logspace in En. destruct (linspace O (nlog10 O a) (nlog10 O b) (ndiv + 1)) as [l|] eqn:El;
          simpl in En; [|discriminate]. injection En as <-. rewrite map_length.
        apply linspace_length in El; apply El. }
    unfold np_insert in H. destruct (Nat.leb (ctr - 1) (length (v_steps v))); simpl in H; [|discriminate].
    injection H as <-. repeat split. exists (inner new). split; [|reflexivity].
    rewrite inner_length; lia.
  Qed.

  Lemma divide_vars_ok sp ndiv ctr vs vs' u :
    1 <= ndiv -> divide_vars O sp ndiv ctr vs = (vs', Ok u) -> Forall2 (divided ndiv (ctr - 1)) vs vs'.
  Proof.
    intros Hnd; revert vs'; induction vs as [|v vs IH]; intros vs' H; simpl in H.
    - injection H as <- _; constructor.
    - destruct (divide_var O sp ndiv ctr v) as [v1|e] eqn:E1; [|discriminate].
      destruct (divide_vars O sp ndiv ctr vs) as [vs1 r] eqn:E2.
      injection H as <- ->. constructor; [eapply divide_var_ok; eassumption|]. apply IH; reflexivity.
  Qed.

  Lemma divided_names ndiv p vs vs' :
    Forall2 (divided ndiv p) vs vs' -> map v_name vs' = map v_name vs /\ targets vs' = targets vs.
  Proof.
    induction 1 as [|v v' vs vs' (Hn & Ht & _) _ [IH1 IH2]]; [split; reflexivity|].
    unfold targets in *; simpl; rewrite Hn, Ht, IH1, IH2; split; reflexivity.
  Qed.

  Lemma divided_nth ndiv p (v v' : cvar) i m :
    1 <= ndiv -> divided ndiv p v v' -> length (v_steps v) = m -> (p <= m)%nat ->
    length (v_steps v') = (m + Z.to_nat (ndiv - 1))%nat /\
    ((i < p)%nat -> nth_error (v_steps v') i = nth_error (v_steps v) i) /\
    ((p <= i)%nat -> nth_error (v_steps v') (i + Z.to_nat (ndiv - 1)) = nth_error (v_steps v) i).
  Proof.
    intros Hnd (_ & _ & mid & Hmid & ->) Hlen Hp. split; [|split].
    - rewrite !app_length, firstn_length_le, skipn_length by lia; lia.
    - intros Hi. rewrite nth_error_app1 by (rewrite firstn_length_le; lia).
      rewrite <- (firstn_skipn p (v_steps v)) at 2.
      rewrite nth_error_app1 by (rewrite firstn_length_le; lia); reflexivity.
    - intros Hi. rewrite nth_error_app2; rewrite firstn_length_le by lia; [|lia].
      rewrite nth_error_app2 by lia.
      rewrite <- (firstn_skipn p (v_steps v)) at 2.
      rewrite nth_error_app2; rewrite firstn_length_le by lia; [|lia].
      f_equal; lia.
  Qed.

  Lemma rows_divided ndiv p vs vs' m :
    1 <= ndiv -> (p <= m)%nat -> Forall (fun v => length (v_steps v) = m) vs ->
    Forall2 (divided ndiv p) vs vs' ->
    Forall (fun v => length (v_steps v) = (m + Z.to_nat (ndiv - 1))%nat) vs' /\
    (forall i, (i < p)%nat -> row vs' i = row vs i) /\
    (forall i, (p <= i)%nat -> row vs' (i + Z.to_nat (ndiv - 1)) = row vs i).
  Proof.
    intros Hnd Hp Hlen HF. induction HF as [|v v' vs vs' Hv HF IH].
    - split; [constructor|split; reflexivity].
    - inversion Hlen as [|? ? Hlv Hlen']; subst x l. destruct (IH Hlen') as (IH1 & IH2 & IH3).
      split; [|split].
      + constructor; [|exact IH1]. eapply (divided_nth ndiv p v v' 0); eassumption.
      + intros i Hi. unfold row in *; simpl. rewrite (IH2 i Hi). f_equal.
        eapply (divided_nth ndiv p v v' i m); eassumption.
      + intros i Hi. unfold row in *; simpl. rewrite (IH3 i Hi). f_equal.
        eapply (divided_nth ndiv p v v' i m); eassumption.
  Qed.

  Lemma rows_subseq ndiv p vs vs' m :
    1 <= ndiv -> (p <= m)%nat -> Forall (fun v => length (v_steps v) = m) vs ->
    Forall2 (divided ndiv p) vs vs' ->
    Subseq (rows vs m) (rows vs' (m + Z.to_nat (ndiv - 1))).
  Proof.
    intros Hnd Hp Hlen HF. destruct (rows_divided _ _ _ _ _ Hnd Hp Hlen HF) as (_ & Hlo & Hhi).
    set (d := Z.to_nat (ndiv - 1)) in *.
    assert (rows vs' (m + d) =
            firstn p (rows vs m) ++ map (row vs') (seq p d) ++ skipn p (rows vs m)) as ->.
    { apply nth_error_ext_len.
      - rewrite rows_length, !app_length, firstn_length_le, skipn_length, map_length, seq_length, rows_length
          by (rewrite rows_length; lia); lia.
      - intros i Hi. rewrite rows_length in Hi. rewrite rows_nth by exact Hi.
        assert (length (firstn p (rows vs m)) = p) as Hfl
          by (rewrite firstn_length_le; [reflexivity|rewrite rows_length; lia]).
        destruct (Nat.lt_ge_cases i p) as [H1|H1].
        + rewrite nth_error_app1 by lia.
          assert (nth_error (firstn p (rows vs m)) i = nth_error (rows vs m) i) as ->.
          { rewrite <- (firstn_skipn p (rows vs m)) at 2. rewrite nth_error_app1 by lia; reflexivity. }
          rewrite rows_nth by lia. f_equal; apply Hlo; exact H1.
        + rewrite nth_error_app2 by lia. rewrite Hfl.
          destruct (Nat.lt_ge_cases (i - p) d) as [H2|H2].
          * rewrite nth_error_app1 by (rewrite map_length, seq_length; exact H2).
            rewrite nth_error_map, (nth_error_nth' (seq p d) 0%nat) by (rewrite seq_length; exact H2).
            rewrite seq_nth by exact H2. simpl. f_equal; f_equal; lia.
          * rewrite nth_error_app2; rewrite map_length, seq_length; [|exact H2].
            assert (nth_error (skipn p (rows vs m)) (i - p - d) = nth_error (rows vs m) (i - d)) as ->.
            { rewrite <- (firstn_skipn p (rows vs m)) at 2. rewrite nth_error_app2 by lia.
              rewrite Hfl; f_equal; lia. }
            rewrite rows_nth by lia. f_equal.
            rewrite <- (Hhi (i - d)%nat) by lia. f_equal; lia. }
    apply Subseq_insert.
  Qed.

  (** ** What one [next] does for a bisection step *)

  Definition conv_sols (calls : list call) : list traj := filter (fun t => truthy (t_conv t)) (map snd calls).

  Lemma conv_sols_snoc calls g sol :
    conv_sols (calls ++ [(g, sol)]) =
      if truthy (t_conv sol) then conv_sols calls ++ [sol] else conv_sols calls.
  Proof.
    unfold conv_sols. rewrite map_app, filter_app; simpl. destruct (truthy (t_conv sol)); [reflexivity|].
    apply app_nil_r.
  Qed.

  Definition last_is_conv (calls : list call) (g0 : traj) : bool := truthy (t_conv (last (map snd calls) g0)).

  (** [done]: number of schedule rows already solved. *)
  Record BInv (guess0 : traj) (cn names : list string) (ndiv maxdiv : Z) (vs0 : list cvar) (m0 : nat)
      (s : strat) (guess : traj) (calls : list call) (m : nat) : Prop := {
    B_kind : s_kind s = Bisection;
    B_gam : s_gammas s = init_gamma guess0 :: map snd calls;
    B_cn : s_cnames s = cn;
    B_names : map v_name (s_vars s) = names;
    B_num : s_num s = Some (Z.of_nat m);
    B_ndiv : s_ndiv s = ndiv;
    B_maxdiv : s_maxdiv s = maxdiv;
    B_len : Forall (fun v => length (v_steps v) = m) (s_vars s);
    B_ctr : (s_ctr s <= m)%nat;
    B_ctr0 : s_ctr s = 0%nat <-> calls = [];
    B_one : length calls = 1%nat -> s_ctr s = 1%nat;
    B_first : forall c d r, calls = c :: d :: r -> converged (snd c);
    B_done : length (conv_sols calls) =
             (if last_is_conv calls (init_gamma guess0) then s_ctr s else s_ctr s - 1)%nat;
    B_guess : guess = last (map snd calls) guess0;
    B_sub : Subseq (rows vs0 m0) (rows (s_vars s) m);
    B_last : (1 <= m0)%nat -> (1 <= m)%nat /\ row (s_vars s) (m - 1) = row vs0 (m0 - 1)
  }.

  Definition BConst (cn : list string) (names : list string) (c0 : list F) (s : strat) (calls : list call) : Prop :=
    (forall c, In c calls -> t_const (snd c) = t_const (fst c) /\ others cn names c0 (t_const (snd c))) /\
    (forall i t, nth_error (conv_sols calls) i = Some t -> placed cn (s_vars s) i c0 (t_const t)).

  Lemma placed_row cn (vs vs' : list cvar) i i' c0 c :
    map v_name vs' = map v_name vs -> row vs' i' = row vs i ->
    placed cn vs i c0 c -> placed cn vs' i' c0 c.
  Proof.
    intros Hn Hr [Hl H]; split; [exact Hl|]. intros j name Hj. rewrite (H j name Hj). clear -Hn Hr.
    revert vs Hn Hr; induction vs' as [|v' vs' IH]; intros [|v vs] Hn Hr; try discriminate; [reflexivity|].
    unfold row in *; simpl in Hn, Hr. injection Hn as Hn1 Hn2. injection Hr as Hr1 Hr2.
    rewrite !find_var_cons, Hn1. destruct (String.eqb (v_name v) name); [congruence|].
    apply IH; assumption.
  Qed.

  Section Fixed.
    Variables (guess0 : traj) (cn names : list string) (ndiv maxdiv : Z) (vs0 : list cvar) (m0 : nat).
    Hypothesis Hnd : 1 <= ndiv.
    Notation BI := (BInv guess0 cn names ndiv maxdiv vs0 m0).
    Notation lastg := (fun calls : list call => last (map snd calls) (init_gamma guess0)).

    Lemma BI_last s guess calls m : BI s guess calls m -> last_gamma s = Some (lastg calls).
    Proof. intros HI; apply calls_last; apply (B_gam _ _ _ _ _ _ _ _ _ _ _ HI). Qed.

    (** Successful [next]. *)
    Record BNext (s s' : strat) (g : traj) (calls : list call) (m m' : nat) (c : list F) : Prop := {
      N_kind : s_kind s' = Bisection;
      N_gam : s_gammas s' = s_gammas s;
      N_cn : s_cnames s' = cn;
      N_names : map v_name (s_vars s') = names;
      N_num : s_num s' = Some (Z.of_nat m');
      N_ndiv : s_ndiv s' = ndiv;
      N_maxdiv : s_maxdiv s' = maxdiv;
      N_len : Forall (fun v => length (v_steps v) = m') (s_vars s');
      N_ctr : s_ctr s' = S (length (conv_sols calls));
      N_lt : (length (conv_sols calls) < m')%nat;
      N_sub : Subseq (rows (s_vars s) m) (rows (s_vars s') m');
      N_row : forall i, (i < length (conv_sols calls))%nat -> row (s_vars s') i = row (s_vars s) i;
      N_put : put_vars cn (s_vars s') (length (conv_sols calls)) (t_const (lastg calls)) = Ok c;
      N_const : t_const g = c;
      N_first : forall c1 r, calls = c1 :: r -> converged (snd c1);
      N_div : (calls = [] \/ last_is_conv calls (init_gamma guess0) = true) /\ s_divctr s' = 0 /\ m' = m \/
              calls <> [] /\ last_is_conv calls (init_gamma guess0) = false /\
              s_divctr s <= maxdiv /\ s_divctr s' = s_divctr s + 1 /\ m' = (m + Z.to_nat (ndiv - 1))%nat;
      N_cases : (calls = [] \/ last_is_conv calls (init_gamma guess0) = true) /\ s_vars s' = s_vars s \/
                (2 <= s_ctr s)%nat /\ last_is_conv calls (init_gamma guess0) = false /\ calls <> [] /\
                exists u, divide_vars O (s_spacing s) ndiv (s_ctr s) (s_vars s) = (s_vars s', Ok u);
      N_sp : s_spacing s' = s_spacing s;
      N_last : row (s_vars s') (m' - 1) = row (s_vars s) (m - 1)
    }.

    Lemma first_conv s guess calls m :
      BI s guess calls m -> (calls = [] \/ last_is_conv calls (init_gamma guess0) = true \/ (2 <= s_ctr s)%nat) ->
      forall c1 r, calls = c1 :: r -> converged (snd c1).
    Proof.
      intros HI Hc c1 r ->. destruct r as [|c2 r].
      - destruct Hc as [Hc|[Hc|Hc]]; [discriminate|exact Hc|].
        pose proof (B_one _ _ _ _ _ _ _ _ _ _ _ HI eq_refl); lia.
      - eapply (B_first _ _ _ _ _ _ _ _ _ _ _ HI); reflexivity.
    Qed.

    Lemma bis_next_ok s guess calls m s' g :
      BI s guess calls m -> next O s = (s', Ok g) -> exists m' c, BNext s s' g calls m m' c.
    Proof.
      intros HI Hn. pose proof HI as HI'.
      destruct HI' as [Hk Hg Hcn Hnames Hnum Hndiv Hmax Hlen Hctr Hctr0 Hone Hfirst Hdone Hguess Hsub Hlastrow].
      unfold next in Hn; rewrite Hk in Hn. unfold next_bisection in Hn.
      assert (Hlast := BI_last _ _ _ _ HI).
      destruct (Nat.eqb_spec (s_ctr s) 0) as [E0|E0].
      - (* first case *)
        pose proof (proj1 Hctr0 E0) as ->. apply next_base_cases in Hn; simpl in Hn.
        destruct Hn as (lg & num & c & i & gi & Hlg & Hx & Hlt & Hp & _ & _ & _ & -> & ->).
        change (last_gamma (upd_divctr s 0)) with (last_gamma s) in Hlg.
        rewrite Hlast in Hlg; injection Hlg as <-. rewrite Hnum in Hx; injection Hx as <-.
        exists m, c. constructor; simpl; try assumption; try reflexivity.
        + rewrite E0; reflexivity.
        + lia.
        + apply Subseq_refl.
        + rewrite <- Hcn, <- E0; exact Hp.
        + discriminate.
        + left; split; [left; reflexivity|split; reflexivity].
        + left; split; [left; reflexivity|reflexivity].
      - assert (Hne : calls <> []) by (intros E; apply E0, Hctr0; exact E).
        unfold last_conv in Hn; rewrite Hlast in Hn.
        fold (last_is_conv calls (init_gamma guess0)) in Hn.
        destruct (last_is_conv calls (init_gamma guess0)) eqn:Elc.
        + (* last case converged *)
          apply next_base_cases in Hn; simpl in Hn.
          destruct Hn as (lg & num & c & i & gi & Hlg & Hx & Hlt & Hp & _ & _ & _ & -> & ->).
          change (last_gamma (upd_divctr s 0)) with (last_gamma s) in Hlg.
          rewrite Hlast in Hlg; injection Hlg as <-. rewrite Hnum in Hx; injection Hx as <-.
          exists m, c. constructor; simpl; try assumption; try reflexivity; rewrite ?Hdone.
          * reflexivity.
          * lia.
          * apply Subseq_refl.
          * rewrite <- Hcn; exact Hp.
          * eapply first_conv; [exact HI|right; left; exact Elc].
          * left; split; [right; exact Elc|split; reflexivity].
          * left; split; [right; exact Elc|reflexivity].
        + destruct (Nat.eqb_spec (s_ctr s) 1) as [E1|E1]; [discriminate|].
          destruct (Z.ltb_spec (s_maxdiv s) (s_divctr s)) as [Hm|Hm]; [discriminate|].
          destruct (divide_vars O (s_spacing s) (s_ndiv s) (s_ctr s) (s_vars s)) as [vs' [u|e]] eqn:Ed; [|discriminate].
          rewrite Hndiv in Ed. pose proof (divide_vars_ok _ _ _ _ _ _ Hnd Ed) as HF.
          assert (Hp1 : (s_ctr s - 1 <= m)%nat) by lia.
          destruct (divided_names _ _ _ _ HF) as [Hnm _].
          destruct (rows_divided _ _ _ _ _ Hnd Hp1 Hlen HF) as (Hlen' & Hlo & Hhi).
          pose proof (rows_subseq _ _ _ _ _ Hnd Hp1 Hlen HF) as Hsubs.
          apply next_base_cases in Hn; simpl in Hn.
          destruct Hn as (lg & num & c & i & gi & Hlg & Hx & Hlt & Hp & _ & _ & _ & -> & ->).
          match type of Hlg with last_gamma ?t = _ => change (last_gamma t) with (last_gamma s) in Hlg end.
          rewrite Hlast in Hlg; injection Hlg as <-. rewrite Hnum in Hx; injection Hx as <-.
          exists (m + Z.to_nat (ndiv - 1))%nat, c.
          constructor; simpl; try assumption; try reflexivity; rewrite ?Hdone.
          * congruence.
          * rewrite Hnum. f_equal. rewrite Hndiv. lia.
          * reflexivity.
          * lia.
          * exact Hlo.
          * rewrite <- Hcn; exact Hp.
          * eapply first_conv; [exact HI|right; right; lia].
          * right. rewrite Hmax in Hm. repeat split; assumption.
          * right. repeat split; try assumption; [lia|]. exists u; exact Ed.
          * rewrite <- (Hhi (m - 1)%nat) by lia. f_equal; lia.
    Qed.

    Lemma bis_step s guess calls m s' g sol :
      BI s guess calls m -> next O s = (s', Ok g) ->
      exists m', BI (add_gamma s' sol) sol (calls ++ [(g, sol)]) m'.
    Proof.
      intros HI Hn. destruct (bis_next_ok _ _ _ _ _ _ HI Hn) as (m' & c & HN).
      destruct HI as [Hk Hg Hcn Hnames Hnum Hndiv Hmax Hlen Hctr Hctr0 Hone Hfirst Hdone Hguess Hsub Hlastrow].
      destruct HN as [Nk Ng Ncn Nn Nnum Nnd Nmd Nl Nc Nlt Nsub Nrow Nput Nconst Nfirst Ndiv _ _ Nlast].
      exists m'. constructor; simpl; try assumption.
      - rewrite Ng, Hg, map_app; reflexivity.
      - lia.
      - rewrite Nc; split; [discriminate|]. intros E; exfalso; destruct calls; discriminate.
      - rewrite app_length; simpl; intros E. assert (calls = []) as -> by (destruct calls; [reflexivity|simpl in E; lia]).
        rewrite Nc; reflexivity.
      - intros c1 c2 r E. destruct calls as [|d calls]; [discriminate|].
        injection E as <- _. eapply Nfirst; reflexivity.
      - rewrite conv_sols_snoc. unfold last_is_conv. rewrite map_app; cbn [map snd]; rewrite last_last.
        destruct (truthy (t_conv sol)); [rewrite app_length; simpl; lia|lia].
      - rewrite map_app; cbn [map snd]; rewrite last_last; reflexivity.
      - eapply Subseq_trans; eassumption.
      - intros H1. destruct (Hlastrow H1) as [H2 H3]. split; [lia|congruence].
    Qed.

    (** Normal end of a bisection step. *)
    Lemma bis_stop s guess calls m s' :
      BI s guess calls m -> next O s = (s', Raise StopIteration) ->
      s_ctr s = m /\ length (conv_sols calls) = m /\
      (calls = [] \/ last_is_conv calls (init_gamma guess0) = true) /\ s_vars s' = s_vars s.
    Proof.
      intros HI Hn. pose proof HI as HI'.
      destruct HI' as [Hk Hg Hcn Hnames Hnum Hndiv Hmax Hlen Hctr Hctr0 Hone Hfirst Hdone Hguess Hsub Hlastrow].
      assert (Hput : forall (vs : list cvar) i c, put_vars (s_cnames s) vs i c <> Raise StopIteration).
      { intros vs i. induction vs as [|v vs IH]; intros c; simpl; [discriminate|].
        destruct (in_dec String.string_dec (v_name v) (s_cnames s)) as [Hi|Hi].
        - destruct (index_of_In _ _ Hi) as [jj ->]; simpl.
          unfold get; destruct (nth_error (v_steps v) i); simpl; [|discriminate].
          unfold set_nth; destruct (Nat.ltb _ _); simpl; [apply IH|discriminate].
        - rewrite (index_of_notIn _ _ Hi); discriminate. }
      unfold next in Hn; rewrite Hk in Hn. unfold next_bisection in Hn.
      assert (Hlast := BI_last _ _ _ _ HI).
      assert (Hbase : forall t, t = upd_divctr s 0 -> next_base O t false = (s', Raise StopIteration) ->
                s_ctr s = m /\ s' = t).
      { intros t -> Hb. apply next_base_cases in Hb; simpl in Hb. destruct Hb as [-> Hb].
        split; [|reflexivity].
        destruct Hb as [[_ ?]|[lg [_ [[? _]|[_ [[_ ?]|[num [Hx [[_ Hle]|[_ Hp]]]]]]]]]]; try discriminate.
        - rewrite Hnum in Hx; injection Hx as <-. lia.
        - exfalso; eapply Hput; exact Hp. }
      destruct (Nat.eqb_spec (s_ctr s) 0) as [E0|E0].
      - pose proof (proj1 Hctr0 E0) as ->. destruct (Hbase _ eq_refl Hn) as [Hm ->].
        repeat split; [exact Hm|simpl; lia|left; reflexivity].
      - unfold last_conv in Hn; rewrite Hlast in Hn.
        fold (last_is_conv calls (init_gamma guess0)) in Hn.
        destruct (last_is_conv calls (init_gamma guess0)) eqn:Elc.
        + destruct (Hbase _ eq_refl Hn) as [Hm ->].
          repeat split; [exact Hm|lia|right; reflexivity].
        + exfalso. destruct (Nat.eqb_spec (s_ctr s) 1) as [E1|E1]; [discriminate|].
          destruct (Z.ltb_spec (s_maxdiv s) (s_divctr s)) as [Hm|Hm]; [discriminate|].
          destruct (divide_vars O (s_spacing s) (s_ndiv s) (s_ctr s) (s_vars s)) as [vs' [u|e]] eqn:Ed.
          * apply next_base_cases in Hn; simpl in Hn. destruct Hn as [_ Hn].
            destruct Hn as [[_ ?]|[lg [_ [[? _]|[_ [[_ ?]|[num [Hx [[_ Hle]|[_ Hp]]]]]]]]]]; try discriminate.
            -- rewrite Hnum in Hx; injection Hx as <-. lia.
            -- eapply Hput; exact Hp.
          * injection Hn as _ ->. revert Ed. clear. revert vs'. generalize (s_spacing s) (s_ndiv s) (s_ctr s).
            intros sp nd c. induction (s_vars s) as [|v vs IH]; intros vs'; simpl; [discriminate|].
            destruct (divide_var O sp nd c v) as [v'|e] eqn:Ev.
            -- destruct (divide_vars O sp nd c vs) as [vs1 r] eqn:E1. intros H; injection H as _ ->.
               eapply IH; reflexivity.
            -- intros H; injection H as _ ->. revert Ev. unfold divide_var, get.
               destruct (nth_error (v_steps v) (c - 2)); simpl; [|discriminate].
               destruct (nth_error (v_steps v) (c - 1)); simpl; [|discriminate].
               destruct sp; simpl; try discriminate; unfold logspace, linspace, linspace_gen, np_insert;
                 destruct (nd + 1 <? 0); simpl; try discriminate;
                 destruct (Nat.leb _ _); simpl; discriminate.
    Qed.

    (** Constants along a bisection run. *)
    Lemma bis_const_step slv k s guess calls m s' g sol :
      keeps_const slv -> NoDup cn -> NoDup names ->
      BI s guess calls m -> BConst cn names (t_const guess0) s calls ->
      next O s = (s', Ok g) -> slv k g = Ok sol ->
      BConst cn names (t_const guess0) (add_gamma s' sol) (calls ++ [(g, sol)]).
    Proof.
      intros Hkeep Hcn Hnames HI [HC1 HC2] Hn Hs.
      destruct (bis_next_ok _ _ _ _ _ _ HI Hn) as (m' & c & HN).
      destruct HI as [Hk Hg Hcn' Hnm Hnum Hndiv Hmax Hlen Hctr Hctr0 Hone Hfirst Hdone Hguess Hsub Hlastrow].
      destruct HN as [Nk Ng Ncn Nn Nnum Nnd Nmd Nl Nc Nlt Nsub Nrow Nput Nconst Nfirst Ndiv _ _ _].
      assert (Hoth : others cn names (t_const guess0) (t_const (lastg calls))).
      { destruct calls as [|d calls] using rev_ind; [apply others_refl|].
        rewrite map_app; cbn [map]; rewrite last_last. apply HC1. apply in_or_app; right; left; reflexivity. }
      rewrite <- Nn in Hnames.
      destruct (put_vars_ok _ _ _ _ _ Nput Hcn Hnames) as [Hpl _].
      rewrite <- Nn in Hoth. pose proof (others_placed _ _ _ _ _ _ Hoth Hpl) as Hpl'.
      assert (Hsol : t_const sol = c) by (rewrite (Hkeep _ _ _ Hs); exact Nconst).
      split.
      - intros d Hd. apply in_app_or in Hd. destruct Hd as [Hd|[<-|[]]]; [apply HC1; exact Hd|].
        simpl. split; [congruence|]. rewrite Hsol, <- Nn. eapply placed_others; exact Hpl'.
      - intros i t Ht. rewrite conv_sols_snoc in Ht. simpl.
        assert (Hold : nth_error (conv_sols calls) i = Some t -> placed cn (s_vars s') i (t_const guess0) (t_const t)).
        { intros Hi. eapply placed_row; [|apply Nrow|apply HC2; exact Hi].
          - congruence.
          - apply nth_error_Some; congruence. }
        destruct (truthy (t_conv sol)); [|apply Hold; exact Ht].
        destruct (Nat.lt_ge_cases i (length (conv_sols calls))) as [Hi|Hi].
        + rewrite nth_error_app1 in Ht by exact Hi. apply Hold; exact Ht.
        + rewrite nth_error_app2 in Ht by exact Hi.
          destruct (i - length (conv_sols calls))%nat as [|q] eqn:Eq; simpl in Ht; [|destruct q; discriminate].
          injection Ht as <-. assert (i = length (conv_sols calls)) as -> by lia. rewrite Hsol; exact Hpl'.
    Qed.

    Lemma bis_run slv :
      keeps_const slv -> NoDup cn -> NoDup names ->
      forall fuel k s guess calls m,
        BI s guess calls m -> BConst cn names (t_const guess0) s calls ->
        match iterate O fuel slv k s guess calls with
        | Finished s' lst calls' => exists m',
            Subseq (rows vs0 m0) (rows (s_vars s') m') /\ length (conv_sols calls') = m' /\
            (calls' = [] \/ last_is_conv calls' (init_gamma guess0) = true) /\
            lst = last (map snd calls') guess0 /\
            ((1 <= m0)%nat -> (1 <= m')%nat /\ row (s_vars s') (m' - 1) = row vs0 (m0 - 1)) /\
            map v_name (s_vars s') = names /\
            BConst cn names (t_const guess0) s' calls'
        | _ => True
        end.
    Proof.
      intros Hkeep Hcn Hnames fuel k s guess calls m HI HC.
      apply (iterate_inv O slv
               (fun s guess calls => exists m, BI s guess calls m /\ BConst cn names (t_const guess0) s calls)
               (fun o => match o with
                  | Finished s' lst calls' => exists m',
                      Subseq (rows vs0 m0) (rows (s_vars s') m') /\ length (conv_sols calls') = m' /\
                      (calls' = [] \/ last_is_conv calls' (init_gamma guess0) = true) /\
                      lst = last (map snd calls') guess0 /\
                      ((1 <= m0)%nat -> (1 <= m')%nat /\ row (s_vars s') (m' - 1) = row vs0 (m0 - 1)) /\
                      map v_name (s_vars s') = names /\
                      BConst cn names (t_const guess0) s' calls'
                  | _ => True end)).
      - clear - Hnd. intros s guess calls s' (m & HI & HC) Hn.
        destruct (bis_stop _ _ _ _ _ HI Hn) as (Hm & Hl & Hc & Hv).
        exists m. rewrite Hv. destruct HI. do 6 (split; [assumption|]).
        destruct HC as [HC1 HC2]. split; [exact HC1|]. intros i t Hi. rewrite Hv. apply HC2; exact Hi.
      - intros; exact I.
      - intros; exact I.
      - clear - Hnd Hkeep Hcn Hnames. intros s guess calls s' g k sol (m & HI & HC) Hn Hs.
        destruct (bis_step _ _ _ _ _ _ sol HI Hn) as [m' HI'].
        exists m'; split; [exact HI'|]. eapply bis_const_step; eassumption.
      - exact I.
      - exists m; split; assumption.
    Qed.
  End Fixed.

  Lemma manual_init_len sp n cn c (vs vs' : list cvar) :
    sp <> OtherSpacing ->
    Forall2 (fun v v' => manual_init_var O sp n cn c v = Ok v') vs vs' ->
    Forall (fun v => length (v_steps v) = Z.to_nat n) vs'.
  Proof.
    intros Hsp; induction 1 as [|v v' vs vs' Hv _ IH]; constructor; [|exact IH].
    apply manual_init_var_ok in Hv. destruct Hv as (_ & _ & jj & x & _ & _ & Hs).
    destruct sp; [| |congruence].
    - apply linspace_length in Hs; apply Hs.
    - unfold logspace in Hs. destruct (linspace O (nlog10 O x) (nlog10 O (v_target v)) n) as [l|] eqn:El;
        simpl in Hs; [|discriminate]. injection Hs as <-. rewrite map_length.
      apply linspace_length in El; apply El.
  Qed.

  Lemma bis_init (s s' : strat) g cn u n :
    s_kind s = Bisection -> s_num s = Some n -> 0 <= n -> s_spacing s <> OtherSpacing ->
    init O (reset s) g cn = (s', Ok u) ->
    exists vs,
      Forall2 (fun v v' => manual_init_var O (s_spacing s) n cn (t_const g) v = Ok v') (s_vars s) vs /\
      s_vars s' = vs /\ s_spacing s' = s_spacing s /\
      BInv g cn (map v_name (s_vars s)) (s_ndiv s) (s_maxdiv s) vs (Z.to_nat n) s' g [] (Z.to_nat n) /\
      BConst cn (map v_name (s_vars s)) (t_const g) s' [].
  Proof.
    intros Hk Hn H0 Hsp H. rewrite init_kind in H by (right; exact Hk).
    apply init_manual_ok in H. destruct H as (n' & vs & Hn' & HF & ->). simpl in *.
    assert (n' = n) as -> by congruence.
    exists vs. split; [exact HF|]. split; [reflexivity|]. split; [reflexivity|]. split.
    - constructor; simpl; try assumption; try reflexivity.
      + eapply manual_init_names; exact HF.
      + rewrite Hn; f_equal; lia.
      + eapply manual_init_len; eassumption.
      + lia.
      + split; reflexivity.
      + discriminate.
      + discriminate.
      + apply Subseq_refl.
      + intros H1; split; [exact H1|reflexivity].
    - split; [intros c []|]. intros [|i] t; discriminate.
  Qed.

  (** Vector of constants determined by a schedule row. *)
  Definition put_row (names cn : list string) (c0 : list F) (r : list (option F)) : list F :=
    map (fun nx => match assoc (fst nx) (combine names r) with Some (Some y) => y | _ => snd nx end)
        (combine cn c0).

  Lemma assoc_row name (vs : list cvar) i :
    assoc name (combine (map v_name vs) (row vs i)) =
      option_map (fun v => nth_error (v_steps v) i) (find_var name vs).
  Proof.
    induction vs as [|v vs IH]; [reflexivity|]. rewrite find_var_cons. simpl.
    destruct (String.eqb (v_name v) name); [reflexivity|exact IH].
  Qed.

  Lemma nth_error_combine {A B} (l : list A) (l' : list B) i :
    nth_error (combine l l') i =
      match nth_error l i, nth_error l' i with Some a, Some b => Some (a, b) | _, _ => None end.
  Proof.
    revert l' i; induction l as [|a l IH]; intros [|b l'] [|i]; simpl; try reflexivity.
    - destruct (nth_error l i); reflexivity.
    - apply IH.
  Qed.

  Lemma nth_error_eq_len {A B} (l : list A) (l' : list B) i a :
    length l = length l' -> nth_error l i = Some a -> exists b, nth_error l' i = Some b.
  Proof.
    intros Hl Hi. assert (i < length l')%nat as H by (rewrite <- Hl; apply nth_error_Some; congruence).
    destruct (nth_error l' i) eqn:E; [eauto|]. apply nth_error_None in E; lia.
  Qed.

  Lemma placed_put_row cn (vs : list cvar) i c0 c m :
    length cn = length c0 -> Forall (fun v => length (v_steps v) = m) vs -> (i < m)%nat ->
    placed cn vs i c0 c <-> c = put_row (map v_name vs) cn c0 (row vs i).
  Proof.
    intros Hlen Hm Hi.
    assert (Hput : placed cn vs i c0 (put_row (map v_name vs) cn c0 (row vs i))).
    { split.
      - unfold put_row; rewrite map_length, combine_length; lia.
      - intros j name Hj. unfold put_row. rewrite nth_error_map, nth_error_combine, Hj.
        destruct (nth_error_eq_len _ c0 _ _ Hlen Hj) as [x0 Hx]. rewrite Hx. simpl.
        rewrite assoc_row. destruct (find_var name vs) as [v|] eqn:Ef; simpl; [|reflexivity].
        apply find_var_Some in Ef. destruct Ef as [Hin _].
        rewrite Forall_forall in Hm. specialize (Hm _ Hin).
        destruct (nth_error (v_steps v) i) as [y|] eqn:Ey; [reflexivity|].
        apply nth_error_None in Ey; lia. }
    split; [|intros ->; exact Hput].
    intros [Hl H]. destruct Hput as [Hl' H']. apply nth_error_ext_len; [congruence|].
    intros j Hj. rewrite Hl in Hj. rewrite <- Hlen in Hj.
    destruct (nth_error cn j) as [name|] eqn:Ej.
    - rewrite (H j name Ej), (H' j name Ej); reflexivity.
    - apply nth_error_None in Ej; lia.
  Qed.

  (** C05, any arithmetic: the original schedule is a subsequence of the
      converged cases and the last case is converged. *)
  Lemma bisection_schedule slv fuel k (s : strat) guess cn n s' lst calls :
    keeps_const slv -> well_named cn (t_const guess) -> NoDup (map v_name (s_vars s)) ->
    s_kind s = Bisection -> s_spacing s <> OtherSpacing -> s_num s = Some n -> 1 <= n -> 1 <= s_ndiv s ->
    run_step O fuel slv k s guess cn = Finished s' lst calls ->
    exists vs (grid : list (list F)),
      Forall2 (fun v v' => manual_init_var O (s_spacing s) n cn (t_const guess) v = Ok v') (s_vars s) vs /\
      length grid = Z.to_nat n /\
      (forall i c, nth_error grid i = Some c -> placed cn vs i (t_const guess) c) /\
      Subseq grid (map t_const (conv_sols calls)) /\
      converged lst /\ In lst (map snd calls) /\ lst = last (map snd calls) guess /\
      placed cn vs (Z.to_nat n - 1) (t_const guess) (t_const lst).
  Proof.
    intros Hkeep [Hcn Hlen] Hnd Hk Hsp Hn H1 Hdiv Ho. unfold run_step in Ho.
    destruct (init O (reset s) guess cn) as [s1 [u|e]] eqn:Ei; [|discriminate].
    destruct (bis_init _ _ _ _ _ _ Hk Hn ltac:(lia) Hsp Ei) as (vs & HF & Hvs & _ & HI & HC).
    pose proof (bis_run _ _ _ _ _ _ _ Hdiv slv Hkeep Hcn Hnd fuel k s1 guess [] _ HI HC) as HR.
    rewrite Ho in HR. destruct HR as (m' & Hsub & Hcl & Hcv & Hlst & Hlastrow & Hnm & [HC1 HC2]).
    destruct (manual_init_names _ _ _ _ _ _ _ HF) as [Hnames _].
    pose proof (manual_init_len _ _ _ _ _ _ Hsp HF) as Hml.
    exists vs, (map (put_row (map v_name vs) cn (t_const guess)) (rows vs (Z.to_nat n))).
    split; [exact HF|]. split; [rewrite map_length, rows_length; reflexivity|]. split.
    { intros i c Hi. rewrite nth_error_map in Hi.
      assert (i < Z.to_nat n)%nat as Hlt.
      { rewrite <- (rows_length vs (Z.to_nat n)). apply nth_error_Some.
        destruct (nth_error (rows vs (Z.to_nat n)) i); [discriminate|discriminate Hi]. }
      rewrite rows_nth in Hi by exact Hlt. injection Hi as <-.
      eapply placed_put_row; [exact Hlen|exact Hml|exact Hlt|reflexivity]. }
    assert (Hrows : map t_const (conv_sols calls) =
                    map (put_row (map v_name vs) cn (t_const guess)) (rows (s_vars s') m')).
    { apply nth_error_ext_len.
      - rewrite !map_length, rows_length; exact Hcl.
      - intros i Hi. rewrite map_length, Hcl in Hi. rewrite !nth_error_map, rows_nth by exact Hi. simpl.
        destruct (nth_error (conv_sols calls) i) as [t|] eqn:Et.
        2:{ apply nth_error_None in Et; lia. }
        simpl; f_equal. specialize (HC2 _ _ Et).
        (* all steps long enough: placed gives a value for each variable *)
        destruct HC2 as [Hl HP]. apply nth_error_ext_len.
        + rewrite Hl. unfold put_row. rewrite map_length, combine_length; lia.
        + intros j Hj. rewrite Hl, <- Hlen in Hj.
          destruct (nth_error cn j) as [name|] eqn:Ej; [|apply nth_error_None in Ej; lia].
          unfold put_row. rewrite nth_error_map, nth_error_combine, Ej.
          destruct (nth_error_eq_len _ (t_const guess) _ _ Hlen Ej) as [x0 Hx]. rewrite Hx. simpl.
          rewrite Hnames, <- Hnm, assoc_row. pose proof (HP j name Ej) as Hv.
          destruct (find_var name (s_vars s')) as [v|] eqn:Ef; simpl; [|congruence].
          destruct (nth_error (v_steps v) i) as [y|] eqn:Ey; [congruence|].
          exfalso. apply nth_error_None in Hv. lia. }
    split.
    { rewrite Hrows. apply Subseq_map. exact Hsub. }
    destruct calls as [|c calls] using rev_ind.
    { exfalso. simpl in Hcl. subst m'. apply (f_equal (@length _)) in Hrows.
      inversion Hsub as [E1 E2| |]. apply (f_equal (@length _)) in E1. rewrite rows_length in E1. simpl in E1. lia. }
    clear IHcalls. rewrite map_app in *; cbn [map] in *. rewrite last_last in Hlst. subst lst.
    destruct Hcv as [Hcv|Hcv]; [destruct calls; discriminate|].
    unfold last_is_conv in Hcv; rewrite map_app in Hcv; cbn [map] in Hcv; rewrite last_last in Hcv.
    split; [exact Hcv|]. split; [apply in_or_app; right; left; reflexivity|].
    split; [rewrite last_last; reflexivity|].
    destruct (Hlastrow ltac:(lia)) as [Hm1 Hrow].
    eapply placed_row; [|symmetry; exact Hrow|apply HC2].
    - congruence.
    - destruct c as [g sol]. rewrite conv_sols_snoc in *. cbn [snd] in *. rewrite Hcv in *.
      rewrite app_length in Hcl; simpl in Hcl. rewrite nth_error_app2 by lia.
      replace (m' - 1 - length (conv_sols calls))%nat with 0%nat by lia. reflexivity.
  Qed.
End Generic.

Arguments B_kind {F P guess0 cn names ndiv maxdiv vs0 m0 s guess calls m} b.
Arguments B_gam {F P guess0 cn names ndiv maxdiv vs0 m0 s guess calls m} b.
Arguments B_cn {F P guess0 cn names ndiv maxdiv vs0 m0 s guess calls m} b.
Arguments B_names {F P guess0 cn names ndiv maxdiv vs0 m0 s guess calls m} b.
Arguments B_num {F P guess0 cn names ndiv maxdiv vs0 m0 s guess calls m} b.
Arguments B_ndiv {F P guess0 cn names ndiv maxdiv vs0 m0 s guess calls m} b.
Arguments B_maxdiv {F P guess0 cn names ndiv maxdiv vs0 m0 s guess calls m} b.
Arguments B_len {F P guess0 cn names ndiv maxdiv vs0 m0 s guess calls m} b.
Arguments B_ctr {F P guess0 cn names ndiv maxdiv vs0 m0 s guess calls m} b.
Arguments B_ctr0 {F P guess0 cn names ndiv maxdiv vs0 m0 s guess calls m} b.
Arguments B_one {F P guess0 cn names ndiv maxdiv vs0 m0 s guess calls m} b.
Arguments B_first {F P guess0 cn names ndiv maxdiv vs0 m0 s guess calls m} b.
Arguments B_done {F P guess0 cn names ndiv maxdiv vs0 m0 s guess calls m} b.
Arguments B_guess {F P guess0 cn names ndiv maxdiv vs0 m0 s guess calls m} b.
Arguments B_sub {F P guess0 cn names ndiv maxdiv vs0 m0 s guess calls m} b.
Arguments B_last {F P guess0 cn names ndiv maxdiv vs0 m0 s guess calls m} b.
Arguments N_kind {F O P guess0 cn names ndiv maxdiv s s' g calls m m' c} b.
Arguments N_gam {F O P guess0 cn names ndiv maxdiv s s' g calls m m' c} b.
Arguments N_cn {F O P guess0 cn names ndiv maxdiv s s' g calls m m' c} b.
Arguments N_names {F O P guess0 cn names ndiv maxdiv s s' g calls m m' c} b.
Arguments N_num {F O P guess0 cn names ndiv maxdiv s s' g calls m m' c} b.
Arguments N_ndiv {F O P guess0 cn names ndiv maxdiv s s' g calls m m' c} b.
Arguments N_maxdiv {F O P guess0 cn names ndiv maxdiv s s' g calls m m' c} b.
Arguments N_len {F O P guess0 cn names ndiv maxdiv s s' g calls m m' c} b.
Arguments N_ctr {F O P guess0 cn names ndiv maxdiv s s' g calls m m' c} b.
Arguments N_lt {F O P guess0 cn names ndiv maxdiv s s' g calls m m' c} b.
Arguments N_sub {F O P guess0 cn names ndiv maxdiv s s' g calls m m' c} b.
Arguments N_row {F O P guess0 cn names ndiv maxdiv s s' g calls m m' c} b.
Arguments N_put {F O P guess0 cn names ndiv maxdiv s s' g calls m m' c} b.
Arguments N_const {F O P guess0 cn names ndiv maxdiv s s' g calls m m' c} b.
Arguments N_first {F O P guess0 cn names ndiv maxdiv s s' g calls m m' c} b.
Arguments N_div {F O P guess0 cn names ndiv maxdiv s s' g calls m m' c} b.
Arguments N_cases {F O P guess0 cn names ndiv maxdiv s s' g calls m m' c} b.
Arguments N_sp {F O P guess0 cn names ndiv maxdiv s s' g calls m m' c} b.
Arguments N_last {F O P guess0 cn names ndiv maxdiv s s' g calls m m' c} b.
Arguments bis_stop {F O P guess0 cn names ndiv maxdiv vs0 m0} Hnd {s guess calls m s'} _ _.
Arguments bis_next_ok {F O P guess0 cn names ndiv maxdiv vs0 m0} Hnd {s guess calls m s' g} _ _.
Arguments bis_step {F O P guess0 cn names ndiv maxdiv vs0 m0} Hnd {s guess calls m s' g} sol _ _.
Arguments BI_last {F P guess0 cn names ndiv maxdiv vs0 m0 s guess calls m} _.
Arguments bis_init {F O P s s' g cn u n} _ _ _ _ _.
