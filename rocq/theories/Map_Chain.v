(** Time normalisation, and the whole mapper chains. *)
From Verif Require Import Base Base_Facts Map_Model Map_Spec Map_Proofs.
Open Scope nat_scope.

Section Chain.
  Context {F : Type} (O : NumOps F).

  Lemma get_insert (l : list F) i x : i <= length l -> get (firstn i l ++ [x] ++ skipn i l) i = Ok x.
  Proof.
    intros H; apply get_some; rewrite nth_error_app2; rewrite firstn_length_le by lia; [|lia].
    rewrite Nat.sub_diag; reflexivity.
  Qed.

  Lemma delete_insert (l : list F) i x :
    i <= length l -> np_delete (firstn i l ++ [x] ++ skipn i l) i = Ok l.
  Proof.
    intros H; unfold np_delete.
    rewrite !app_length, firstn_length_le, skipn_length by lia; simpl length.
    assert ((i <? i + (1 + (length l - i))) = true) as -> by (apply Nat.ltb_lt; lia).
    f_equal; rewrite firstn_app, firstn_length_le, Nat.sub_diag, firstn_firstn, Nat.min_id by lia.
    simpl firstn; rewrite app_nil_r.
    change (firstn i l ++ [x] ++ skipn i l) with (firstn i l ++ x :: skipn i l).
    rewrite skipn_app, firstn_length_le by lia.
    rewrite skipn_all2 by (rewrite firstn_length_le; lia).
    replace (S i - i) with 1 by lia; simpl; apply firstn_skipn.
  Qed.

  (** Time values after normalising and multiplying back. *)
  Definition there_and_back (t0 delta : F) (ts : list F) : list F :=
    map (fun t => nmul O (ndiv O (nsub O t t0) delta) delta) ts.

  Lemma nt_roundtrip i t0 tf (s : sol F) :
    nth_error (s_t s) 0 = Some t0 -> nth_error (s_t s) (length (s_t s) - 1) = Some tf ->
    i <= length (s_p s) ->
    let delta := nsub O tf t0 in
    let s' := set_t (map (fun t => ndiv O (nsub O t t0) delta) (s_t s))
                (set_p (firstn i (s_p s) ++ [delta] ++ skipn i (s_p s)) s) in
    nt_map O (Some i) s = Ok (Some i, s') /\
    forall nu, nt_inv O (Some i) (set_nu nu s')
      = Ok (Some i, set_nu nu (set_t (there_and_back t0 delta (s_t s)) s)).
  Proof.
    intros H0 Hf Hi delta s'; split.
    - unfold nt_map; rewrite (get_some _ _ _ H0); cbn [bind].
      rewrite (get_some _ _ _ Hf); cbn [bind].
      unfold np_insert; assert ((i <=? length (s_p s)) = true) as -> by (apply Nat.leb_le; exact Hi).
      reflexivity.
    - intros nu; unfold nt_inv; cbn [bind].
      change (s_p (set_nu nu s')) with (firstn i (s_p s) ++ [delta] ++ skipn i (s_p s)).
      rewrite get_insert by exact Hi; cbn [bind].
      cbn -[np_delete app].
      rewrite delete_insert by exact Hi; cbn [bind].
      destruct s; unfold there_and_back; simpl; rewrite map_map; reflexivity.
  Qed.

  (** ** Passes *)
  Lemma run_pass_app app (a b : list (mapper F)) ps :
    run_pass app (a ++ b) ps =
    (r <- run_pass app a ps ; r' <- run_pass app b (snd r) ; Ok (fst r ++ fst r', snd r')).
  Proof.
    revert ps; induction a as [|m a IH]; intros ps; simpl.
    - destruct (run_pass app b ps) as [[x y]|]; reflexivity.
    - destruct (step_pass app m ps) as [[m' ps1]|]; simpl; [|reflexivity].
      rewrite IH; destruct (run_pass app a ps1) as [[x y]|]; simpl; [|reflexivity].
      destruct (run_pass app b y) as [[x' y']|]; reflexivity.
  Qed.

  (** A pass whose mappers keep their state, seen only through its trajectory. *)
  Definition passes app (ms : list (mapper F)) (s s' : sol F) : Prop :=
    forall ps, cur ps = s -> exists ps', run_pass app ms ps = Ok (ms, ps') /\ cur ps' = s'.

  Lemma passes_nil app s : passes app [] s s.
  Proof. intros ps H; exists ps; split; [reflexivity|exact H]. Qed.

  Lemma passes_cons app m ms s s1 s' :
    app m s = Ok (m, s1) -> passes app ms s1 s' -> passes app (m :: ms) s s'.
  Proof.
    intros H Hp ps Hps; simpl; unfold step_pass; rewrite Hps, H; simpl.
    destruct (Hp (mkPass (if same ps && negb (copies m) then s1 else arg ps) s1
                    (same ps && negb (copies m))) eq_refl) as (ps' & -> & E); simpl.
    exists ps'; split; [reflexivity|exact E].
  Qed.

  Lemma passes_app app a b s s1 s' :
    passes app a s s1 -> passes app b s1 s' -> passes app (a ++ b) s s'.
  Proof.
    intros Ha Hb ps Hps; rewrite run_pass_app.
    destruct (Ha ps Hps) as (ps1 & -> & E1); simpl.
    destruct (Hb ps1 E1) as (ps' & -> & E'); simpl.
    exists ps'; split; [reflexivity|exact E'].
  Qed.

  Lemma passes_identity app n s :
    (forall s, app MIdentity s = Ok (MIdentity, s)) -> passes app (repeat MIdentity n) s s.
  Proof.
    intros H; induction n as [|n IH]; [apply passes_nil|]; simpl.
    apply passes_cons with (s1 := s); [apply H|exact IH].
  Qed.

  Lemma passes_map chain s s' :
    passes (apply_map O) chain s s' -> exists a, map_sol O chain s = Ok (chain, s', a).
  Proof.
    intros H; unfold map_sol; destruct (H (mkPass s s true) eq_refl) as (ps' & -> & <-); simpl; eauto.
  Qed.

  Lemma passes_inv chain s s' :
    passes (apply_inv O) (rev chain) s s' -> exists a, inv_map_sol O chain s = Ok (chain, s', a).
  Proof.
    intros H; unfold inv_map_sol; destruct (H (mkPass s s true) eq_refl) as (ps' & -> & <-); simpl.
    rewrite rev_involutive; eauto.
  Qed.

  (** ** Frames: fields a mapper neither reads nor writes *)
  Definition chg (t nu : list F) (c : F) (s : sol F) : sol F := set_t t (set_nu nu (set_cost c s)).

  Lemma dc_inv_frame idxs t nu c s s1 :
    dc_inv O idxs s = Ok s1 -> dc_inv O idxs (chg t nu c s) = Ok (chg t nu c s1).
  Proof.
    unfold dc_inv, chg; cbn -[select_cols delete_cols].
    destruct (select_cols (s_y s) idxs) as [u|]; cbn -[select_cols delete_cols]; [|discriminate].
    destruct (delete_cols O (s_y s) idxs) as [y|]; cbn -[select_cols delete_cols]; [|discriminate].
    intros H; assert (s1 = set_y y (set_u u s)) as -> by congruence; reflexivity.
  Qed.

  Lemma ms_inv_frame i t nu c u s s1 :
    ms_inv O (Some i) s = Ok (Some i, s1) ->
    ms_inv O (Some i) (chg t nu c (set_u u s)) = Ok (Some i, chg (s_t s1) nu c (set_u u s1)).
  Proof.
    unfold ms_inv, chg; cbn -[column delete_cols].
    destruct (column (s_y s) i) as [tt|]; cbn -[column delete_cols]; [|discriminate].
    destruct (delete_cols O (s_y s) [i]) as [y|]; cbn -[column delete_cols]; [|discriminate].
    destruct (column (s_dual s) i) as [dt|]; cbn -[column delete_cols]; [|discriminate].
    destruct (delete_cols O (s_dual s) [i]) as [d|]; cbn -[column delete_cols]; [|discriminate].
    intros H; injection H as <-; reflexivity.
  Qed.

  (** ** The shift part in isolation *)
  Lemma shift_fwd shift N n (s : sol F) :
    length (s_t s) = N -> shape N n (s_y s) -> shape N n (s_dual s) ->
    (s_dual_t s = [] \/ length (s_dual_t s) = N) ->
    exists s1, passes (apply_map O) (shift_part shift n) s s1 /\
      shape N (n_shifted shift n) (s_y s1) /\ shape N (n_shifted shift n) (s_dual s1) /\
      (s_t s1, s_q s1, s_u s1, s_dual_u s1, s_p s1, s_nu s1, s_k s1, s_cost s1)
      = (s_t s, s_q s, s_u s, s_dual_u s, s_p s, s_nu s, s_k s, s_cost s) /\
      (shift = true -> column_inserted n (s_t s) (s_y s) (s_y s1) /\
                       column_inserted n (full_dual_t O s) (s_dual s) (s_dual s1)) /\
      (shift = false -> s1 = s) /\
      (forall t nu c u, passes (apply_inv O) (shift_part shift n) (chg t nu c (set_u u s1))
         (chg (if shift then s_t s else t) nu c
            (set_u u (if shift then set_dual_t (full_dual_t O s) s else s)))).
  Proof.
    intros Ht Hy Hd Hdt; destruct shift; simpl.
    - destruct (ms_roundtrip O n N n n s Ht Hy Hd Hdt (le_n n) (le_n n))
        as (s1 & E1 & E2 & Hy1 & Hd1 & Hc1 & Hc2 & Heq & Hdt1).
      exists s1; split.
      { eapply passes_cons; [|apply passes_nil]. simpl; rewrite E1; reflexivity. }
      split; [exact Hy1|]; split; [exact Hd1|]; split; [exact Heq|].
      split; [intros _; split; assumption|]; split; [discriminate|].
      intros t nu c u; eapply passes_cons; [|apply passes_nil]; simpl.
      rewrite (ms_inv_frame n t nu c u s1 _ E2); reflexivity.
    - exists s; split; [apply passes_nil|]; split; [exact Hy|]; split; [exact Hd|].
      split; [reflexivity|]; split; [discriminate|]; split; [reflexivity|].
      intros t nu c u; apply passes_nil.
  Qed.

  Definition normed (norm : bool) (np : nat) (t0 tf : F) (s : sol F) : sol F :=
    if norm then set_t (map (fun t => ndiv O (nsub O t t0) (nsub O tf t0)) (s_t s))
                   (set_p (firstn np (s_p s) ++ [nsub O tf t0] ++ skipn np (s_p s)) s)
    else s.
  Definition back_t (norm : bool) (t0 tf : F) (ts : list F) : list F :=
    if norm then there_and_back t0 (nsub O tf t0) ts else ts.

  Lemma norm_fwd norm t0 tf (s : sol F) :
    nth_error (s_t s) 0 = Some t0 -> nth_error (s_t s) (length (s_t s) - 1) = Some tf ->
    passes (apply_map O) (norm_part norm (length (s_p s))) s (normed norm (length (s_p s)) t0 tf s) /\
    forall nu, passes (apply_inv O) (norm_part norm (length (s_p s)))
      (set_nu nu (normed norm (length (s_p s)) t0 tf s))
      (set_nu nu (set_t (back_t norm t0 tf (s_t s)) s)).
  Proof.
    intros H0 Hf; destruct norm; simpl.
    - destruct (nt_roundtrip (length (s_p s)) t0 tf s H0 Hf (le_n _)) as [E1 E2].
      split.
      + eapply passes_cons; [|apply passes_nil]; simpl; rewrite E1; reflexivity.
      + intros nu; eapply passes_cons; [|apply passes_nil]; simpl.
        rewrite E2; reflexivity.
    - split; [apply passes_nil|]. intros nu; destruct s; apply passes_nil.
  Qed.

  Lemma rev_repeat {A} (x : A) n : rev (repeat x n) = repeat x n.
  Proof.
    induction n as [|n IH]; [reflexivity|]; simpl; rewrite IH.
    clear; induction n as [|n IH]; [reflexivity|]; simpl; rewrite IH; reflexivity.
  Qed.

  Lemma rev_shift_part shift n : rev (shift_part (F := F) shift n) = shift_part shift n.
  Proof. destruct shift; reflexivity. Qed.
  Lemma rev_norm_part norm n : rev (norm_part (F := F) norm n) = norm_part norm n.
  Proof. destruct norm; reflexivity. Qed.

  (** What the round trip returns. *)
  Definition back_dual_t (shift : bool) (s : sol F) : list F :=
    if shift then full_dual_t O s else s_dual_t s.

  Lemma chain_differential_ok shift norm N n m ncp nadj nutm cost (s : sol F) t0 tf :
    (forall t y q u p k, exists v, cost t y q u p k = Ok v) -> 0 < N -> length (s_t s) = N -> shape N n (s_y s) -> shape N n (s_dual s) ->
    shape N m (s_u s) -> (s_dual_t s = [] \/ length (s_dual_t s) = N) ->
    nth_error (s_t s) 0 = Some t0 -> nth_error (s_t s) (length (s_t s) - 1) = Some tf ->
    let chain := chain_differential shift norm n m (length (s_p s)) ncp nadj nutm cost in
    exists s' r a1 a2, map_sol O chain s = Ok (chain, s', a1) /\
      inv_map_sol O chain s' = Ok (chain, r, a2) /\
      s_y r = s_y s /\ s_dual r = s_dual s /\ s_u r = s_u s /\ s_q r = s_q s /\
      s_p r = s_p s /\ s_k r = s_k s /\ s_dual_u r = s_dual_u s /\ s_nu r = [] /\
      s_dual_t r = back_dual_t shift s /\
      s_t r = (if shift then s_t s else back_t norm t0 tf (s_t s)).
  Proof.
    intros HC HN Ht Hy Hd Hu Hdt H0 Hf chain.
    destruct (shift_fwd shift N n s Ht Hy Hd Hdt) as
      (s1 & P1 & Hy1 & Hd1 & Heq & _ & _ & Pinv1).
    injection Heq as Et Eq Eu Edu Ep Enu Ek Ec.
    set (n' := n_shifted shift n) in *.
    (* dualize *)
    set (s2 := if length (s_nu s1) =? 0 then set_nu (repeat (nofZ O 1) nadj) s1 else s1).
    assert (E2 : apply_map O (MDualize nadj cost) s1 = Ok (MDualize nadj cost, s2)) by reflexivity.
    assert (Hs2 : s2 = set_nu (s_nu s2) s1).
    { unfold s2; destruct (length (s_nu s1) =? 0); destruct s1; reflexivity. }
    assert (Ey2 : s_y s2 = s_y s1) by (rewrite Hs2; reflexivity).
    assert (Ed2 : s_dual s2 = s_dual s1) by (rewrite Hs2; reflexivity).
    assert (Eu2 : s_u s2 = s_u s) by (rewrite Hs2; exact Eu).
    (* differential control *)
    destruct (dc_roundtrip O N n' m (seq n' m) s2) as
      (s3 & E3 & E3i & Hy3 & Hu3 & _ & _ & Es3).
    { rewrite Ey2; exact Hy1. } { rewrite Eu2; exact Hu. } { apply seq_length. }
    { apply seq_NoDup. } { intros i Hi; apply in_seq in Hi; lia. }
    assert (Hrest3 : s3 = set_y (s_y s3) (set_u (s_u s3) s2)).
    { rewrite <- Es3; destruct s3; reflexivity. }
    assert (Et3 : s_t s3 = s_t s) by (rewrite Hrest3; simpl; rewrite Hs2; exact Et).
    assert (Ep3 : s_p s3 = s_p s) by (rewrite Hrest3; simpl; rewrite Hs2; exact Ep).
    assert (Ed3 : s_dual s3 = s_dual s1) by (rewrite Hrest3; simpl; exact Ed2).
    (* normalise *)
    destruct (norm_fwd norm t0 tf s3) as [P4 P4i]; try (rewrite Et3; assumption).
    rewrite Ep3 in P4, P4i.
    set (s4 := normed norm (length (s_p s)) t0 tf s3) in *.
    assert (Ey4 : s_y s4 = s_y s3) by (unfold s4, normed; destruct norm; reflexivity).
    assert (Ed4 : s_dual s4 = s_dual s1) by (unfold s4, normed; destruct norm; exact Ed3).
    (* squash *)
    destruct (sq_roundtrip N (n' + m) n' (ncp + nadj) (ncp + nadj + nadj) s4 HN) as
      (s5 & E5 & E5i & _ & _ & _ & _).
    { rewrite Ey4; exact Hy3. } { rewrite Ed4; exact Hd1. }
    (* forward *)
    assert (PF : passes (apply_map O) chain s s5).
    { unfold chain, chain_differential.
      eapply passes_app; [exact P1|].
      eapply passes_app; [apply passes_identity; reflexivity|].
      eapply passes_app.
      { eapply passes_cons; [exact E2|]. eapply passes_cons; [|apply passes_nil].
        simpl; fold n'; rewrite E3; reflexivity. }
      eapply passes_app; [exact P4|].
      eapply passes_cons; [|apply passes_nil].
      simpl; rewrite E5; reflexivity. }
    (* backward *)
    set (nu5 := unslice (ncp + nadj) (ncp + nadj + nadj) (s_nu s4)) in *.
    set (tb := back_t norm t0 tf (s_t s)).
    assert (E3c : dc_inv O (seq n' m) (set_nu nu5 (set_t tb s3))
                  = Ok (set_nu nu5 (set_t tb s2))).
    { pose proof (dc_inv_frame (seq n' m) tb nu5 (s_cost s3) s3 s2 E3i) as HH.
      replace (set_nu nu5 (set_t tb s3)) with (chg tb nu5 (s_cost s3) s3)
        by (destruct s3; reflexivity).
      rewrite HH; f_equal.
      assert (s_cost s3 = s_cost s2) as -> by (rewrite Hrest3; reflexivity).
      destruct s2; reflexivity. }
    destruct (HC tb (s_y s1) (s_q s1) (s_u s1) (s_p s1) (s_k s1)) as (cv & Ecv).
    assert (E2c : dual_inv cost (set_nu nu5 (set_t tb s2))
                  = Ok (chg tb [] cv (set_u (s_u s1) s1))).
    { unfold dual_inv; rewrite Hs2; unfold chg.
      destruct s1; cbn in Ecv |- *; rewrite Ecv; reflexivity. }
    eexists s5, _.
    assert (PB : passes (apply_inv O) (rev chain) s5
      (chg (if shift then s_t s else tb) [] cv
         (set_u (s_u s1) (if shift then set_dual_t (full_dual_t O s) s else s)))).
    { unfold chain, chain_differential.
      rewrite !rev_app_distr, rev_repeat, rev_shift_part, rev_norm_part.
      rewrite <- !app_assoc.
      eapply passes_app with (s1 := set_nu nu5 s4).
      { eapply passes_cons; [|apply passes_nil].
        unfold squash_mapper; simpl; fold n'; rewrite E5i; reflexivity. }
      eapply passes_app; [apply P4i|].
      rewrite Et3; fold tb.
      eapply passes_app with (s1 := chg tb [] cv (set_u (s_u s1) s1)).
      { simpl rev; simpl app.
        eapply passes_cons; [simpl; fold n'; rewrite E3c; reflexivity|].
        eapply passes_cons; [|apply passes_nil].
        unfold apply_inv; rewrite E2c; reflexivity. }
      eapply passes_app; [apply passes_identity; reflexivity|].
      apply Pinv1. }
    destruct (passes_map _ _ _ PF) as [a1 Ea1].
    destruct (passes_inv _ _ _ PB) as [a2 Ea2].
    exists a1, a2; split; [exact Ea1|]; split; [exact Ea2|].
    rewrite Eu; unfold chg, back_dual_t, tb; destruct shift; simpl;
      repeat (split; [reflexivity|]); reflexivity.
  Qed.

  (** Algebraic control: the control is recomputed on the way back. *)
  Lemma chain_algebraic_ok shift norm N n m ncp nadj nutm cost options ham (s : sol F) t0 tf :
    (forall t y q u p k, exists v, cost t y q u p k = Ok v) -> 0 < N -> length (s_t s) = N -> shape N n (s_y s) -> shape N n (s_dual s) ->
    (s_dual_t s = [] \/ length (s_dual_t s) = N) ->
    nth_error (s_t s) 0 = Some t0 -> nth_error (s_t s) (length (s_t s) - 1) = Some tf ->
    (forall t y d p k, options t y d p k <> []) ->
    let chain := chain_algebraic shift norm n m (length (s_p s)) ncp nadj nutm cost options ham in
    exists s' r a1 a2 ys ds us,
      map_sol O chain s = Ok (chain, s', a1) /\
      inv_map_sol O chain s' = Ok (chain, r, a2) /\
      s_y r = s_y s /\ s_dual r = s_dual s /\ s_q r = s_q s /\
      s_p r = s_p s /\ s_k r = s_k s /\ s_dual_u r = s_dual_u s /\ s_nu r = [] /\
      s_dual_t r = back_dual_t shift s /\
      s_t r = (if shift then s_t s else back_t norm t0 tf (s_t s)) /\
      (if shift then column_inserted n (s_t s) (s_y s) (Mat (S n) ys) /\
                     column_inserted n (full_dual_t O s) (s_dual s) (Mat (S n) ds)
       else s_y s = Mat n ys /\ s_dual s = Mat n ds) /\
      length us = N /\ s_u r = Mat m us /\
      (forall k t y d, nth_error (back_t norm t0 tf (s_t s)) k = Some t ->
         nth_error ys k = Some y -> nth_error ds k = Some d ->
         exists u, nth_error us k = Some u /\
           pick_control O (fun c => ham t y d c (s_p s) (s_k s)) (options t y d (s_p s) (s_k s)) = Ok u).
  Proof.
    intros HC HN Ht Hy Hd Hdt H0 Hf Hopt chain.
    destruct (shift_fwd shift N n s Ht Hy Hd Hdt) as
      (s1 & P1 & Hy1 & Hd1 & Heq & Hct & Hcf & Pinv1).
    injection Heq as Et Eq Eu Edu Ep Enu Ek Ec.
    set (n' := n_shifted shift n) in *.
    set (s2 := if length (s_nu s1) =? 0 then set_nu (repeat (nofZ O 1) nadj) s1 else s1).
    assert (E2 : apply_map O (MDualize nadj cost) s1 = Ok (MDualize nadj cost, s2)) by reflexivity.
    assert (Hs2 : s2 = set_nu (s_nu s2) s1).
    { unfold s2; destruct (length (s_nu s1) =? 0); destruct s1; reflexivity. }
    assert (Ey2 : s_y s2 = s_y s1) by (rewrite Hs2; reflexivity).
    assert (Ed2 : s_dual s2 = s_dual s1) by (rewrite Hs2; reflexivity).
    assert (Et2 : s_t s2 = s_t s) by (rewrite Hs2; exact Et).
    assert (Ep2 : s_p s2 = s_p s) by (rewrite Hs2; exact Ep).
    assert (Ek2 : s_k s2 = s_k s) by (rewrite Hs2; exact Ek).
    destruct (norm_fwd norm t0 tf s2) as [P4 P4i]; try (rewrite Et2; assumption).
    rewrite Ep2 in P4, P4i.
    set (s4 := normed norm (length (s_p s)) t0 tf s2) in *.
    assert (Ey4 : s_y s4 = s_y s1) by (unfold s4, normed; destruct norm; exact Ey2).
    assert (Ed4 : s_dual s4 = s_dual s1) by (unfold s4, normed; destruct norm; exact Ed2).
    destruct (sq_roundtrip N n' n' (ncp + nadj) (ncp + nadj + nadj) s4 HN) as
      (s5 & E5 & E5i & _ & _ & _ & _).
    { rewrite Ey4; exact Hy1. } { rewrite Ed4; exact Hd1. }
    assert (PF : passes (apply_map O) chain s s5).
    { unfold chain, chain_algebraic.
      eapply passes_app; [exact P1|].
      eapply passes_app; [apply passes_identity; reflexivity|].
      eapply passes_app.
      { eapply passes_cons; [exact E2|]. eapply passes_cons; [|apply passes_nil]. reflexivity. }
      eapply passes_app; [exact P4|].
      eapply passes_cons; [|apply passes_nil].
      simpl; rewrite E5; reflexivity. }
    set (nu5 := unslice (ncp + nadj) (ncp + nadj + nadj) (s_nu s4)) in *.
    set (tb := back_t norm t0 tf (s_t s)).
    assert (Htb : length tb = N).
    { unfold tb, back_t, there_and_back; destruct norm; rewrite ?map_length; exact Ht. }
    destruct Hy1 as (ys & Eys & Hyl & Hyf), Hd1 as (ds & Eds & Hdl & Hdf).
    (* the candidate loop *)
    assert (HL : forall ts yy dd, length ts = length yy -> length ts = length dd -> exists us,
       alg_loop O options ham (s_p s) (s_k s) ts yy dd = Ok us /\ length us = length ts /\
       forall k t y d, nth_error ts k = Some t -> nth_error yy k = Some y -> nth_error dd k = Some d ->
         exists u, nth_error us k = Some u /\
           pick_control O (fun c => ham t y d c (s_p s) (s_k s)) (options t y d (s_p s) (s_k s)) = Ok u).
    { induction ts as [|t ts IH]; intros [|y yy] [|d dd] L1 L2; simpl in *; try lia.
      - exists []; split; [reflexivity|]; split; [reflexivity|]. intros [|k]; discriminate.
      - destruct (IH yy dd) as (us & E & Hl & Hn); [lia|lia|].
        destruct (pick_control O (fun c => ham t y d c (s_p s) (s_k s))
                    (options t y d (s_p s) (s_k s))) as [u|e] eqn:Eu'.
        2:{ exfalso; unfold pick_control in Eu'.
            pose proof (Hopt t y d (s_p s) (s_k s)) as Hne.
            destruct (options t y d (s_p s) (s_k s)) as [|u0 [|u1 l]]; congruence. }
        exists (u :: us); simpl; rewrite E; simpl; split; [reflexivity|]; split; [lia|].
        intros [|k] t' y' d' T1 T2 T3; simpl in *.
        + exists u; split; [reflexivity|].
          assert (t' = t) as -> by congruence; assert (y' = y) as -> by congruence.
          assert (d' = d) as -> by congruence; exact Eu'.
        + apply (Hn k t' y' d'); assumption. }
    destruct (HL tb ys ds) as (us & Eus & Hul & Hun); [lia|lia|].
    set (sb := set_u (Mat m us) (set_nu nu5 (set_t tb s2))).
    assert (E3c : alg_inv O m options ham (set_nu nu5 (set_t tb s2)) = Ok sb).
    { unfold alg_inv.
      cbn [s_p s_k s_t s_y s_dual set_nu set_t]. rewrite Ep2, Ek2, Ey2, Ed2, Eys, Eds.
      cbn [arows]; rewrite Eus; cbn [bind].
      destruct us as [|u0 us]; [simpl in Hul; lia|reflexivity]. }
    destruct (HC tb (s_y s1) (s_q s1) (Mat m us) (s_p s1) (s_k s1)) as (cv & Ecv).
    assert (E2c : dual_inv cost sb = Ok (chg tb [] cv (set_u (Mat m us) s1))).
    { unfold dual_inv, sb; rewrite Hs2; unfold chg; destruct s1; cbn in Ecv |- *; rewrite Ecv; reflexivity. }
    assert (PB : passes (apply_inv O) (rev chain) s5
      (chg (if shift then s_t s else tb) [] cv
         (set_u (Mat m us) (if shift then set_dual_t (full_dual_t O s) s else s)))).
    { unfold chain, chain_algebraic.
      rewrite !rev_app_distr, rev_repeat, rev_shift_part, rev_norm_part.
      rewrite <- !app_assoc.
      eapply passes_app with (s1 := set_nu nu5 s4).
      { eapply passes_cons; [|apply passes_nil].
        unfold squash_mapper; simpl; fold n'; rewrite E5i; reflexivity. }
      eapply passes_app; [apply P4i|].
      rewrite Et2; fold tb.
      eapply passes_app with (s1 := chg tb [] cv (set_u (Mat m us) s1)).
      { simpl rev; simpl app.
        eapply passes_cons; [simpl; rewrite E3c; reflexivity|].
        eapply passes_cons; [|apply passes_nil].
        unfold apply_inv; rewrite E2c; reflexivity. }
      eapply passes_app; [apply passes_identity; reflexivity|].
      apply Pinv1. }
    destruct (passes_map _ _ _ PF) as [a1 Ea1].
    destruct (passes_inv _ _ _ PB) as [a2 Ea2].
    eexists s5, _, a1, a2, ys, ds, us; split; [exact Ea1|]; split; [exact Ea2|].
    assert (Hshape : if shift then column_inserted n (s_t s) (s_y s) (Mat (S n) ys) /\
                     column_inserted n (full_dual_t O s) (s_dual s) (Mat (S n) ds)
                     else s_y s = Mat n ys /\ s_dual s = Mat n ds).
    { unfold n' in Eys, Eds; destruct shift; simpl in Eys, Eds.
      - rewrite <- Eys, <- Eds; apply Hct; reflexivity.
      - rewrite <- Eys, <- Eds; rewrite (Hcf eq_refl); split; reflexivity. }
    assert (Hul' : length us = N) by lia.
    unfold chg, back_dual_t; fold tb; destruct shift; simpl;
      repeat (split; [reflexivity|]); (split; [exact Hshape|]); (split; [exact Hul'|]);
      (split; [reflexivity|exact Hun]).
  Qed.

  (** ** Arguments *)
  Lemma run_pass_detached app (ms : list (mapper F)) ps ms' ps' :
    run_pass app ms ps = Ok (ms', ps') -> same ps = false -> arg ps' = arg ps /\ same ps' = false.
  Proof.
    revert ps ms'; induction ms as [|m ms IH]; intros ps ms' H Hs; simpl in H.
    - injection H as <- <-; split; [reflexivity|exact Hs].
    - unfold step_pass in H; destruct (app m (cur ps)) as [[m' s1]|]; simpl in H; [|discriminate].
      rewrite Hs in H; simpl in H.
      destruct (run_pass app ms (mkPass (arg ps) s1 false)) as [[x y]|] eqn:E; simpl in H; [|discriminate].
      injection H as <- <-.
      exact (IH _ _ E eq_refl).
  Qed.

  Lemma inv_map_sol_preserves chain i s ms r a :
    inv_map_sol O (chain ++ [MNormalizeTime i]) s = Ok (ms, r, a) -> a = s.
  Proof.
    unfold inv_map_sol; rewrite rev_app_distr; simpl.
    unfold step_pass; simpl.
    destruct (nt_inv O i s) as [[i' s1]|]; simpl; [|discriminate].
    destruct (run_pass (apply_inv O) (rev chain) (mkPass s s1 false)) as [[x y]|] eqn:E; simpl; [|discriminate].
    intros H; injection H as _ _ <-.
    destruct (run_pass_detached _ _ _ _ _ E eq_refl) as [H _]; exact H.
  Qed.

  Lemma run_pass_nocopy app (ms : list (mapper F)) ps ms' ps' :
    Forall (fun m => copies m = false) ms -> same ps = true -> arg ps = cur ps ->
    run_pass app ms ps = Ok (ms', ps') -> arg ps' = cur ps'.
  Proof.
    intros Hc; revert ps ms'; induction Hc as [|m ms Hm Hc IH]; intros ps ms' Hs Ha H; simpl in H.
    - injection H as <- <-; exact Ha.
    - unfold step_pass in H; destruct (app m (cur ps)) as [[m' s1]|]; simpl in H; [|discriminate].
      rewrite Hs, Hm in H; simpl in H.
      destruct (run_pass app ms (mkPass s1 s1 true)) as [[x y]|] eqn:E; simpl in H; [|discriminate].
      injection H as <- <-; exact (IH (mkPass s1 s1 true) x eq_refl eq_refl E).
  Qed.
End Chain.
