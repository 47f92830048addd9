(** EpsTrig, candidate selection and time normalisation over the reals; the
    geometric control mapper; the reduction mapper. *)
From Coq Require Import Reals Lra.
From Verif Require Import Base Base_Facts Map_Model Map_Spec Map_Proofs Map_Chain.
Open Scope nat_scope.

(** trajectory_mappers.py lines 85-95: the two compiled formulas of
    EpsTrigMapper for bounds [lower] and [upper] already evaluated at a point. *)
Definition eps_map (lower upper u : R) : R :=
  asin ((u - (upper + lower) / 2) / (upper - lower)).
Definition eps_inv (lower upper v : R) : R :=
  ((upper - lower) / 2 * sin v + (upper + lower) / 2)%R.

(** The mapper for bounds that are functions of time, states, parameters and
    constants. *)
Definition bound_fn := R -> list R -> list R -> list R -> R.
Definition eps_mapper (ci : nat) (lower upper : bound_fn) : mapper R :=
  MEpsTrig ci (fun u t y p k => eps_map (lower t y p k) (upper t y p k) u)
              (fun v t y p k => eps_inv (lower t y p k) (upper t y p k) v).

Lemma eps_back lower upper u :
  (lower < upper)%R -> (lower <= u <= upper)%R ->
  eps_inv lower upper (eps_map lower upper u) = ((u + (upper + lower) / 2) / 2)%R.
Proof.
  intros Hb Hu; unfold eps_inv, eps_map.
  assert (Hd : (0 < upper - lower)%R) by lra.
  rewrite sin_asin.
  - field; lra.
  - split.
    + apply Rmult_le_reg_r with (upper - lower)%R; [exact Hd|].
      unfold Rdiv at 1; rewrite Rmult_assoc, Rinv_l by lra; lra.
    + apply Rmult_le_reg_r with (upper - lower)%R; [exact Hd|].
      unfold Rdiv at 1; rewrite Rmult_assoc, Rinv_l by lra; lra.
Qed.

Lemma eps_inv_within lower upper v :
  (lower <= upper)%R -> (lower <= eps_inv lower upper v <= upper)%R.
Proof.
  intros Hb; unfold eps_inv; pose proof (SIN_bound v) as [H1 H2].
  assert (0 <= (upper - lower) / 2)%R as Hh by lra.
  pose proof (Rmult_le_compat_l _ _ _ Hh H1); pose proof (Rmult_le_compat_l _ _ _ Hh H2); lra.
Qed.

Section TrigLoop.
  Context {F : Type}.
  Implicit Types (rows : list (list F)).

  Lemma trig_loop_ok f ci (p k : list F) c pts : forall rows,
    Forall (fun r => length r = c) rows -> ci < c -> length pts <= length rows ->
    exists rows', trig_loop f ci p k rows pts = Ok rows' /\
      Forall (fun r => length r = c) rows' /\ length rows' = length rows /\
      (forall q r, nth_error rows q = Some r -> exists r', nth_error rows' q = Some r' /\
         forall j, nth_error r' j =
           match nth_error pts q, Nat.eqb j ci with
           | Some (t, y), true => option_map (fun x => f x t y p k) (nth_error r ci)
           | _, _ => nth_error r j
           end).
  Proof.
    induction pts as [|[t y] pts IH]; intros rows Hf Hc Hl; simpl.
    - exists rows; split; [reflexivity|]; split; [exact Hf|]; split; [reflexivity|].
      intros q r Hq; exists r; split; [exact Hq|]. intros j; destruct q; reflexivity.
    - destruct rows as [|r rows]; simpl in Hl; [lia|].
      inversion Hf as [|? ? Hr Hf']; subst.
      destruct (nth_error r ci) as [x|] eqn:Ex; [|apply nth_error_None in Ex; lia].
      rewrite (get_some _ _ _ Ex); simpl bind.
      destruct (set_nth_exists r ci (f x t y p k) Hc) as [r' Er'].
      rewrite Er'; simpl bind.
      destruct (set_nth_ok _ _ _ _ Er') as (Hl' & _ & Hn').
      destruct (IH rows Hf' Hc) as (rows' & -> & Hf'' & Hlen & Hn); [lia|].
      exists (r' :: rows'); simpl; split; [reflexivity|].
      split; [constructor; [lia|exact Hf'']|]; split; [lia|].
      intros [|q] r0 Hq; simpl in *.
      + assert (r0 = r) as -> by congruence.
        exists r'; split; [reflexivity|]; intros j; rewrite Hn'.
        destruct (Nat.eqb j ci); [rewrite Ex|]; reflexivity.
      + exact (Hn q r0 Hq).
  Qed.

  Lemma trig_apply_ok f ci N c n (s : sol F) :
    length (s_t s) = N -> shape N n (s_y s) -> shape N c (s_u s) -> ci < c ->
    exists u', trig_apply f ci s = Ok (set_u u' s) /\ shape N c u' /\
      (forall k j, j <> ci -> entry u' k j = entry (s_u s) k j) /\
      (forall k t y, nth_error (s_t s) k = Some t -> nth_error (arows (s_y s)) k = Some y ->
         entry u' k ci = option_map (fun x => f x t y (s_p s) (s_k s)) (entry (s_u s) k ci)).
  Proof.
    intros Ht (yr & Ey & Hyl & Hyf) (ur & Eu & Hul & Huf) Hc.
    destruct (trig_loop_ok f ci (s_p s) (s_k s) c (combine (s_t s) yr) ur Huf Hc)
      as (ur' & E & Hf' & Hl' & Hn); [rewrite combine_length; lia|].
    exists (Mat c ur'); split.
    { unfold trig_apply; rewrite Ey, Eu; simpl arows.
      destruct (combine (s_t s) yr) as [|pt pts] eqn:Ec.
      - simpl in E. assert (ur' = ur) as -> by congruence.
        destruct s; simpl in *; subst; reflexivity.
      - rewrite E; reflexivity. }
    split; [exists ur'; split; [reflexivity|split; [lia|exact Hf']]|].
    split.
    - intros k j Hj; rewrite Eu; simpl.
      destruct (nth_error ur k) as [r|] eqn:Er.
      + destruct (Hn k r Er) as (r' & -> & Hr'); rewrite Hr'.
        apply Nat.eqb_neq in Hj; rewrite Hj.
        destruct (nth_error (combine (s_t s) yr) k) as [[? ?]|]; reflexivity.
      + apply nth_error_None in Er; rewrite (proj2 (nth_error_None _ k)) by lia; reflexivity.
    - intros k t y Htk Hyk; rewrite Ey in Hyk; simpl in Hyk; rewrite Eu; simpl.
      assert (Hk : k < N) by (rewrite <- Ht; apply nth_error_Some; congruence).
      destruct (nth_error ur k) as [r|] eqn:Er; [|apply nth_error_None in Er; lia].
      destruct (Hn k r Er) as (r' & -> & Hr'); rewrite Hr', Nat.eqb_refl.
      assert (nth_error (combine (s_t s) yr) k = Some (t, y)) as ->; [|reflexivity].
      clear -Htk Hyk; revert yr k Htk Hyk; generalize (s_t s).
      induction l as [|a l IH]; intros [|b yr] [|k] H1 H2; simpl in *; try discriminate.
      + congruence.
      + apply IH; assumption.
  Qed.
End TrigLoop.

(** The round trip of EpsTrig on a whole trajectory. *)
Lemma eps_roundtrip ci lower upper N n c (s : sol R) :
  length (s_t s) = N -> shape N n (s_y s) -> shape N c (s_u s) -> ci < c ->
  exists s1 s2, apply_map ROps (eps_mapper ci lower upper) s = Ok (eps_mapper ci lower upper, s1) /\
    apply_inv ROps (eps_mapper ci lower upper) s1 = Ok (eps_mapper ci lower upper, s2) /\
    set_u (s_u s) s2 = s /\
    (forall k j, j <> ci -> entry (s_u s2) k j = entry (s_u s) k j) /\
    (forall k t y u, nth_error (s_t s) k = Some t -> nth_error (arows (s_y s)) k = Some y ->
       entry (s_u s) k ci = Some u ->
       (lower t y (s_p s) (s_k s) < upper t y (s_p s) (s_k s))%R ->
       (lower t y (s_p s) (s_k s) <= u <= upper t y (s_p s) (s_k s))%R ->
       entry (s_u s2) k ci =
         Some ((u + (upper t y (s_p s) (s_k s) + lower t y (s_p s) (s_k s)) / 2) / 2)%R).
Proof.
  intros Ht Hy Hu Hc.
  destruct (trig_apply_ok (fun u t y p k => eps_map (lower t y p k) (upper t y p k) u)
              ci N c n s Ht Hy Hu Hc) as (u1 & E1 & Hu1 & Ho1 & Hc1).
  destruct (trig_apply_ok (fun v t y p k => eps_inv (lower t y p k) (upper t y p k) v)
              ci N c n (set_u u1 s)) as (u2 & E2 & Hu2 & Ho2 & Hc2); try assumption.
  exists (set_u u1 s), (set_u u2 (set_u u1 s)).
  split; [simpl; rewrite E1; reflexivity|].
  split; [simpl; rewrite E2; reflexivity|].
  split; [destruct s; reflexivity|].
  split.
  - intros k j Hj; simpl; rewrite Ho2 by exact Hj; simpl; apply Ho1; exact Hj.
  - intros k t y u Htk Hyk Huk Hlt Hin; simpl.
    rewrite (Hc2 k t y Htk Hyk); simpl.
    rewrite (Hc1 k t y Htk Hyk), Huk; simpl.
    rewrite eps_back by assumption; reflexivity.
Qed.

Lemma eps_recovered_within ci lower upper N n c (s : sol R) :
  length (s_t s) = N -> shape N n (s_y s) -> shape N c (s_u s) -> ci < c ->
  exists s1, apply_inv ROps (eps_mapper ci lower upper) s = Ok (eps_mapper ci lower upper, s1) /\
    (forall k t y, nth_error (s_t s) k = Some t -> nth_error (arows (s_y s)) k = Some y ->
       (lower t y (s_p s) (s_k s) <= upper t y (s_p s) (s_k s))%R ->
       exists u, entry (s_u s1) k ci = Some u /\
         (lower t y (s_p s) (s_k s) <= u <= upper t y (s_p s) (s_k s))%R).
Proof.
  intros Ht Hy Hu Hc.
  destruct (trig_apply_ok (fun v t y p k => eps_inv (lower t y p k) (upper t y p k) v)
              ci N c n s Ht Hy Hu Hc) as (u1 & E1 & Hu1 & Ho1 & Hc1).
  exists (set_u u1 s); split; [simpl; rewrite E1; reflexivity|].
  intros k t y Htk Hyk Hle; simpl; rewrite (Hc1 k t y Htk Hyk).
  destruct Hu as (ur & Eu & Hul & Huf).
  rewrite Eu; simpl.
  assert (Hk : k < length ur) by (rewrite Hul, <- Ht; apply nth_error_Some; congruence).
  destruct (nth_error ur k) as [r|] eqn:Er; [|apply nth_error_None in Er; lia].
  destruct (nth_error r ci) as [x|] eqn:Ex.
  2:{ apply nth_error_None in Ex. rewrite Forall_forall in Huf.
      pose proof (Huf r (nth_error_In _ _ Er)); lia. }
  simpl; eexists; split; [reflexivity|]; apply eps_inv_within; exact Hle.
Qed.

(** ** Candidate selection *)
Lemma pick_loop_spec ham rest : forall u h,
  h = ham u ->
  let v := pick_loop ROps ham u h rest in
  (forall c, In c (u :: rest) -> (ham v <= ham c)%R) /\
  (v = u \/ (ham v < ham u)%R) /\
  exists j, nth_error (u :: rest) j = Some v /\
    forall i c, i < j -> nth_error (u :: rest) i = Some c -> (ham v < ham c)%R.
Proof.
  induction rest as [|c rest IH]; intros u h Hh; simpl.
  - split; [intros c [->|[]]; lra|]; split; [left; reflexivity|].
    exists 0; split; [reflexivity|]. intros i c Hi; lia.
  - destruct (Rlt_dec (ham c) h) as [Hlt|Hge]; subst h.
    + destruct (IH c (ham c) eq_refl) as (H1 & H2 & j & Hj & Hfirst); simpl in *.
      set (v := pick_loop ROps ham c (ham c) rest) in *.
      assert (Hvc : (ham v <= ham c)%R) by (apply H1; left; reflexivity).
      split; [|split].
      * intros d [<-|[<-|Hd]]; [lra|exact Hvc|apply H1; right; exact Hd].
      * right; lra.
      * exists (S j); split; [exact Hj|].
        intros [|i] d Hi Hd; simpl in *.
        -- assert (u = d) as <- by congruence; lra.
        -- apply (Hfirst i d); [lia|exact Hd].
    + destruct (IH u (ham u) eq_refl) as (H1 & H2 & j & Hj & Hfirst); simpl in *.
      set (v := pick_loop ROps ham u (ham u) rest) in *.
      assert (Hvu : (ham v <= ham u)%R) by (apply H1; left; reflexivity).
      split; [|split].
      * intros d [<-|[<-|Hd]]; [exact Hvu|lra|apply H1; right; exact Hd].
      * exact H2.
      * destruct H2 as [H2|H2].
        -- exists 0; simpl; split; [f_equal; congruence|]. intros i d Hi; lia.
        -- destruct j as [|j]; [exfalso; simpl in Hj; assert (u = v) as E by congruence; rewrite <- E in H2; lra|].
           exists (S (S j)); split; [exact Hj|].
           intros [|[|i]] d Hi Hd; simpl in *.
           ++ assert (u = d) as <- by congruence; lra.
           ++ assert (c = d) as <- by congruence; lra.
           ++ apply (Hfirst (S i) d); [lia|exact Hd].
Qed.

Lemma pick_control_spec ham cands :
  cands <> [] ->
  exists v j, pick_control ROps ham cands = Ok v /\ nth_error cands j = Some v /\
    (forall c, In c cands -> (ham v <= ham c)%R) /\
    (forall i c, i < j -> nth_error cands i = Some c -> (ham v < ham c)%R).
Proof.
  destruct cands as [|u [|c rest]]; intros H; [congruence| |].
  - exists u, 0; simpl; split; [reflexivity|]; split; [reflexivity|]; split.
    + intros c [->|[]]; lra.
    + intros i c Hi; lia.
  - destruct (pick_loop_spec ham (c :: rest) u (ham u) eq_refl) as (H1 & _ & j & Hj & Hf).
    exists (pick_loop ROps ham u (ham u) (c :: rest)), j.
    split; [reflexivity|]; split; [exact Hj|]; split; assumption.
Qed.

(** ** Time normalisation over the reals *)
Lemma nt_exact t0 delta ts : delta <> 0%R ->
  there_and_back ROps t0 delta ts = map (fun t => t - t0)%R ts.
Proof.
  intros H; apply map_ext; intros t; simpl; field; exact H.
Qed.

Lemma nt_real i t0 tf (s : sol R) :
  nth_error (s_t s) 0 = Some t0 -> nth_error (s_t s) (length (s_t s) - 1) = Some tf ->
  (t0 < tf)%R -> i <= length (s_p s) ->
  exists s', map_sol ROps [MNormalizeTime (Some i)] s = Ok ([MNormalizeTime (Some i)], s', s) /\
    length (s_t s') = length (s_t s) /\
    nth_error (s_t s') 0 = Some 0%R /\
    nth_error (s_t s') (length (s_t s) - 1) = Some 1%R /\
    (forall k t, nth_error (s_t s) k = Some t ->
       nth_error (s_t s') k = Some ((t - t0) / (tf - t0))%R /\
       ((t0 <= t <= tf)%R -> (0 <= (t - t0) / (tf - t0) <= 1)%R)) /\
    (forall a b ta tb ta' tb', nth_error (s_t s) a = Some ta -> nth_error (s_t s) b = Some tb ->
       nth_error (s_t s') a = Some ta' -> nth_error (s_t s') b = Some tb' ->
       ((ta < tb)%R <-> (ta' < tb')%R)) /\
    s_p s' = firstn i (s_p s) ++ (tf - t0)%R :: skipn i (s_p s) /\
    set_t (s_t s) (set_p (s_p s) s') = s /\
    inv_map_sol ROps [MNormalizeTime (Some i)] s'
      = Ok ([MNormalizeTime (Some i)], set_t (map (fun t => t - t0)%R (s_t s)) s, s').
Proof.
  intros H0 Hf Hlt Hi.
  assert (Hd : (tf - t0)%R <> 0%R) by lra.
  assert (Hpos : (0 < tf - t0)%R) by lra.
  destruct (nt_roundtrip ROps i t0 tf s H0 Hf Hi) as [E1 E2]; cbv zeta in E1, E2.
  change (nsub ROps tf t0) with (tf - t0)%R in *.
  set (s' := set_t _ _) in E1.
  exists s'; split; [unfold map_sol; simpl; unfold step_pass; simpl; rewrite E1; reflexivity|].
  assert (Hnth : forall k t, nth_error (s_t s) k = Some t ->
            nth_error (s_t s') k = Some ((t - t0) / (tf - t0))%R).
  { intros k t Hk; unfold s'; simpl; rewrite nth_error_map, Hk; reflexivity. }
  split; [unfold s'; simpl; apply map_length|].
  split; [rewrite (Hnth _ _ H0); f_equal; field; exact Hd|].
  split; [rewrite (Hnth _ _ Hf); f_equal; field; exact Hd|].
  split.
  { intros k t Hk; split; [exact (Hnth k t Hk)|].
    intros Hb; split.
    - apply Rmult_le_reg_r with (tf - t0)%R; [exact Hpos|].
      unfold Rdiv; rewrite Rmult_assoc, Rinv_l by exact Hd; lra.
    - apply Rmult_le_reg_r with (tf - t0)%R; [exact Hpos|].
      unfold Rdiv; rewrite Rmult_assoc, Rinv_l by exact Hd; lra. }
  split.
  { intros a b ta tb ta' tb' Ha Hb Ha' Hb'.
    rewrite (Hnth a ta Ha) in Ha'; rewrite (Hnth b tb Hb) in Hb'.
    injection Ha' as <-; injection Hb' as <-.
    assert (Hinv : (0 < / (tf - t0))%R) by (apply Rinv_0_lt_compat; exact Hpos).
    unfold Rdiv; split; intros H.
    - apply Rmult_lt_compat_r; [exact Hinv|lra].
    - apply Rmult_lt_reg_r in H; [lra|exact Hinv]. }
  split; [reflexivity|]; split; [destruct s; reflexivity|].
  specialize (E2 (s_nu s)).
  assert (set_nu (s_nu s) s' = s') as Es' by reflexivity.
  fold s' in E2; rewrite Es' in E2.
  unfold inv_map_sol; simpl; unfold step_pass; simpl; rewrite E2; simpl.
  rewrite nt_exact by exact Hd.
  destruct s; reflexivity.
Qed.

(** ** The geometric control mapper *)
Section DiffyG.
  Context {F : Type} (O : NumOps F).

  Lemma dg_one_control N n (s : sol F) :
    0 < N -> length (s_t s) = N -> shape N n (s_y s) -> shape N n (s_dual s) -> 0 < n ->
    shape N 1 (s_u s) -> s_dual_u s = E1 ->
    exists s1 s2, dg_map O (n0 O) [n] s = Ok s1 /\ dg_inv O [n] s1 = Ok s2 /\
      s_y s2 = s_y s /\ s_u s2 = s_u s /\ shape N n (s_dual s2) /\
      (forall k, k < N -> entry (s_dual s2) k (n - 1) = Some (nmul O (n0 O) (nofZ O 1))) /\
      (forall k j, j < n - 1 -> entry (s_dual s2) k j = entry (s_dual s) k j).
  Proof.
    intros HN Ht Hy Hd Hn Hu Hdu.
    destruct (dc_roundtrip O N n 1 [n] s Hy Hu eq_refl) as
      (s1 & E1 & E1i & Hy1 & Hu1 & _ & _ & Es1).
    { constructor; [intros []|constructor]. } { intros i [<-|[]]; lia. }
    destruct Hd as (dr & Ed & Hdl & Hdf).
    set (ci := map (fun _ : F => nmul O (n0 O) (nofZ O 1)) (s_t s)).
    assert (Hci : length ci = N) by (unfold ci; rewrite map_length; exact Ht).
    destruct n as [|n']; [lia|].
    set (d1 := Mat (S (S n')) (insert_rows n' ci dr)).
    exists (set_dual_u (Mat N [ci]) (set_dual d1 s1)).
    (* forward *)
    unfold dc_map in E1.
    destruct (acolumns (s_u s)) as [cols|] eqn:Ec; cbn [bind] in E1; [|discriminate].
    destruct (sort_cols (combine [S n'] cols)) as [l|] eqn:El; cbn [bind] in E1; [|discriminate].
    destruct (insert_all (s_y s) l) as [y|] eqn:Ey; cbn [bind] in E1; [|discriminate].
    cbn [s_u set_y] in E1.
    destruct (delete_cols O (s_u s) (seq 0 (length l))) as [u|] eqn:Eu; cbn [bind] in E1; [|discriminate].
    assert (s1 = set_u u (set_y y s)) as -> by congruence.
    assert (exists col, l = [(S n', col)]) as [col ->].
    { destruct Hu as (ur & Eur & Hul & Huf).
      destruct (acolumns_ok 1 ur Huf) as (cols' & Ec' & Hcl & _).
      rewrite Eur, Ec' in Ec; assert (cols' = cols) as -> by congruence.
      destruct cols as [|c [|? ?]]; try discriminate.
      simpl in El; exists c; congruence. }
    simpl insert_all in Ey.
    destruct (insert_col (s_y s) (S n') col) as [y'|] eqn:Ey'; cbn [bind] in Ey; [|discriminate].
    assert (y' = y) as -> by congruence.
    assert (Edm : insert_col_m1 (s_dual s) ci = Ok d1).
    { rewrite Ed; unfold insert_col_m1; apply insert_col_ok; lia. }
    assert (F1 : dg_map O (n0 O) [S n'] s
                 = Ok (set_dual_u (Mat N [ci]) (set_dual d1 (set_u u (set_y y s))))).
    { unfold dg_map; rewrite Ec; cbn [bind]; rewrite El; cbn [bind dg_loop].
      rewrite Ey'; cbn [bind]; fold ci.
      change (s_dual (set_y y s)) with (s_dual s); rewrite Edm; cbn [bind].
      change (s_dual_u (set_dual d1 (set_y y s))) with (s_dual_u s); rewrite Hdu.
      unfold ins_dual_u; simpl alen; cbn [Nat.eqb bind dg_loop].
      change (s_u (set_dual_u _ (set_dual d1 (set_y y s)))) with (s_u s).
      rewrite Hci.
      simpl s_u; rewrite Eu; reflexivity. }
    set (drop := map (del_row [S n'] 0) (insert_rows n' ci dr)).
    exists (set_dual (Mat (S n') drop) (set_dual_u (Mat N [ci]) s)).
    split; [exact F1|].
    split.
    { unfold dc_inv in E1i; unfold dg_inv.
      cbn [s_y set_dual_u set_dual set_u set_y] in E1i |- *.
      destruct (select_cols y [S n']) as [u'|] eqn:Es; cbn [bind] in E1i |- *; [|discriminate].
      cbn [s_y set_dual_u set_dual set_u set_y] in E1i |- *.
      destruct (delete_cols O y [S n']) as [y''|] eqn:Edy; cbn [bind] in E1i |- *; [|discriminate].
      assert (Hs : set_y y'' (set_u u' (set_u u (set_y y s))) = s) by congruence.
      assert (y'' = s_y s) as -> by (rewrite <- Hs; reflexivity).
      assert (u' = s_u s) as -> by (rewrite <- Hs; reflexivity).
      assert (delete_cols O d1 [S n'] = Ok (Mat (S n') drop)) as Edd.
      { unfold d1, delete_cols; rewrite forallb_lt by (intros j [<-|[]]; lia).
        rewrite del_repeat_one by lia; reflexivity. }
      cbn [s_dual set_y set_u set_dual_u set_dual]; rewrite Edd; cbn [bind].
      destruct s; reflexivity. }
    split; [reflexivity|]; split; [reflexivity|].
    assert (Hrow : forall k, k < N -> exists r, nth_error dr k = Some r /\ length r = S n' /\
       nth_error drop k = Some (firstn n' r ++ [nmul O (n0 O) (nofZ O 1)])).
    { intros k Hk.
      destruct (nth_error dr k) as [r|] eqn:Er; [|apply nth_error_None in Er; lia].
      assert (Hr : length r = S n')
        by (rewrite Forall_forall in Hdf; apply Hdf; eapply nth_error_In; eauto).
      exists r; split; [reflexivity|]; split; [exact Hr|].
      unfold drop; rewrite nth_error_map.
      rewrite (insert_rows_nth n' ci dr k (nmul O (n0 O) (nofZ O 1)) r); [| |exact Er].
      2:{ unfold ci; rewrite nth_error_map.
          destruct (nth_error (s_t s) k) eqn:E; [reflexivity|apply nth_error_None in E; lia]. }
      simpl option_map; f_equal; unfold insert_row.
      rewrite del_row_app, firstn_length_le by lia.
      rewrite del_row_none by (intros j [<-|[]]; right; rewrite firstn_length; lia).
      f_equal.
      destruct (skipn n' r) as [|z [|? ?]] eqn:Esk.
      - pose proof (skipn_length n' r) as HH; rewrite Esk in HH; simpl in HH; lia.
      - simpl. rewrite Nat.eqb_refl.
        assert ((n' =? S n') = false) as -> by (apply Nat.eqb_neq; lia). reflexivity.
      - pose proof (skipn_length n' r) as HH; rewrite Esk in HH; simpl in HH; lia. }
    split.
    { exists drop; split; [reflexivity|].
      assert (length drop = N) by (unfold drop; rewrite map_length, insert_rows_length; lia).
      split; [assumption|].
      apply Forall_forall; intros r Hr; apply In_nth_error in Hr as [k Hk].
      assert (k < N) as HkN by (rewrite <- H; apply nth_error_Some; congruence).
      destruct (Hrow k HkN) as (r0 & _ & Hl & Hk').
      rewrite Hk in Hk'; assert (r = firstn n' r0 ++ [nmul O (n0 O) (nofZ O 1)]) as -> by congruence.
      rewrite app_length, firstn_length_le by lia; simpl; lia. }
    simpl s_dual; unfold entry; split.
    - intros k Hk; destruct (Hrow k Hk) as (r & _ & Hl & ->).
      rewrite nth_error_app2; rewrite firstn_length_le by lia; [|lia].
      replace (S n' - 1 - n') with 0 by lia; reflexivity.
    - intros k j Hj; rewrite Ed.
      destruct (Nat.lt_ge_cases k N) as [Hk|Hk].
      + destruct (Hrow k Hk) as (r & -> & Hl & ->).
        rewrite nth_error_app1 by (rewrite firstn_length_le; lia).
        apply nth_error_firstn_lt; lia.
      + rewrite !(proj2 (nth_error_None _ k)); [reflexivity|lia|].
        unfold drop; rewrite map_length, insert_rows_length; lia.
  Qed.

  (** Two or more controls make the mapper fail on every trajectory with at
      least two points. *)
  Lemma dg_two_controls N n m (s : sol F) :
    2 <= N -> 2 <= m -> length (s_t s) = N -> shape N n (s_y s) -> shape N n (s_dual s) -> 0 < n ->
    shape N m (s_u s) -> s_dual_u s = E1 ->
    dg_map O (n0 O) (seq n m) s = Raise ValueError.
  Proof.
    intros HN Hm Ht (yr & Ey & Hyl & Hyf) (dr & Ed & Hdl & Hdf) Hn (ur & Eu & Hul & Huf) Hdu.
    destruct (acolumns_ok m ur Huf) as (cols & Ec & Hcl & Hcn).
    unfold dg_map; rewrite Eu, Ec; cbn [bind].
    destruct m as [|[|m]]; try lia.
    destruct cols as [|c0 [|c1 cols]]; simpl in Hcl; try lia.
    assert (Hc0 : length c0 = N) by (destruct (Hcn 0 c0 eq_refl); lia).
    assert (Hc1 : length c1 = N) by (destruct (Hcn 1 c1 eq_refl); lia).
    (* seq is already sorted *)
    assert (Hsort : forall (cs : list (list F)) b, sort_cols (combine (seq b (length cs)) cs)
              = Ok (combine (seq b (length cs)) cs)).
    { clear. induction cs as [|c cs IH]; intros b; simpl; [reflexivity|].
      rewrite IH; simpl.
      destruct cs as [|c' cs]; simpl; [reflexivity|].
      assert ((b <? S b) = true) as -> by (apply Nat.ltb_lt; lia). reflexivity. }
    assert (Hl : S (S m) = length (c0 :: c1 :: cols)) by (simpl; lia).
    rewrite Hl, Hsort; cbn [bind].
    cbn [combine seq length]. cbn [dg_loop].
    rewrite Ey, insert_col_ok by lia; cbn [bind].
    set (ci := map (fun _ : F => nmul O (n0 O) (nofZ O 1)) (s_t s)).
    assert (Hci : length ci = N) by (unfold ci; rewrite map_length; exact Ht).
    cbn [s_dual set_y]; rewrite Ed.
    destruct n as [|n]; [lia|].
    unfold insert_col_m1 at 1; rewrite insert_col_ok by lia; cbn [bind].
    cbn [s_dual_u set_dual set_y]; rewrite Hdu; unfold ins_dual_u at 1; simpl alen.
    cbn [Nat.eqb bind].
    cbn [s_y s_dual s_dual_u set_y set_dual set_dual_u].
    rewrite insert_col_ok by (rewrite ?insert_rows_length; lia); cbn [bind].
    cbn [s_y s_dual s_dual_u set_y set_dual set_dual_u].
    unfold insert_col_m1 at 1; rewrite insert_col_ok by (rewrite ?insert_rows_length; lia); cbn [bind].
    cbn [s_y s_dual s_dual_u set_y set_dual set_dual_u].
    unfold ins_dual_u; simpl alen; cbn [Nat.eqb].
    rewrite Hci; destruct N as [|[|N]]; try lia.
    unfold insert_col_m1, insert_col.
    assert ((S N <=? S (S N)) = true) as -> by (apply Nat.leb_le; lia).
    rewrite Hci; simpl Nat.eqb; cbn [length].
    destruct ci as [|a [|b ci']]; simpl in Hci; try lia; reflexivity.
  Qed.
End DiffyG.
