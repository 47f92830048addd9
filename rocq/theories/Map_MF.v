(** Round trip of the reduction mapper MF. *)
From Verif Require Import Base Base_Facts Map_Model Map_Spec Map_Proofs.
Open Scope nat_scope.

Section MF.
  Context {F : Type} (O : NumOps F).

  Lemma insert_del i (x : F) r : nth_error r i = Some x -> insert_row i x (del_row [i] 0 r) = r.
  Proof.
    intros H; assert (Hi : i < length r) by (apply nth_error_Some; congruence).
    assert (E : r = firstn i r ++ x :: skipn (S i) r).
    { rewrite <- (firstn_skipn i r) at 1; f_equal.
      clear -H; revert i H; induction r as [|a r IH]; intros [|i] H; simpl in *; try discriminate.
      - congruence.
      - apply IH; exact H. }
    assert (Hlen : length (firstn i r) = i) by (rewrite firstn_length_le; lia).
    assert (D : del_row [i] 0 r = firstn i r ++ skipn (S i) r).
    { rewrite E at 1. rewrite del_row_app, Hlen; simpl; rewrite Nat.eqb_refl; simpl.
      rewrite !del_row_none; [reflexivity| |].
      - intros j [<-|[]]; left; lia.
      - intros j [<-|[]]; right; lia. }
    rewrite D; unfold insert_row.
    rewrite firstn_app, Hlen, Nat.sub_diag, firstn_firstn, Nat.min_id; simpl firstn.
    rewrite skipn_app, Hlen, Nat.sub_diag, skipn_all2 by lia.
    rewrite app_nil_r; simpl; symmetry; exact E.
  Qed.

  (** Column [i] of a list of rows, as produced by some evaluation. *)
  Definition is_column (i : nat) (col : list F) (rows : list (list F)) : Prop :=
    length col = length rows /\
    forall k r, nth_error rows k = Some r -> nth_error col k = nth_error r i.

  Lemma stack_back i c (col : list F) rows :
    i <= c -> Forall (fun r => length r = S c) rows -> is_column i col rows ->
    stack_col (Mat c (map (del_row [i] 0) rows)) i col = Ok (Mat (S c) rows).
  Proof.
    intros Hi Hf [Hl Hn]; unfold stack_col; rewrite map_length, Hl, Nat.eqb_refl.
    rewrite Nat.min_l by exact Hi; do 2 f_equal.
    revert col Hl Hn; induction Hf as [|r rows Hr Hf IH]; intros [|x col] Hl Hn; simpl in *; try lia; auto.
    rewrite insert_del by (symmetry; exact (Hn 0 r eq_refl)).
    rewrite IH; [reflexivity|lia|]. intros k r' Hk; exact (Hn (S k) r' Hk).
  Qed.

  Lemma delete_one i c rows :
    i <= c -> delete_cols O (Mat (S c) rows) [i] = Ok (Mat c (map (del_row [i] 0) rows)).
  Proof.
    intros Hi; unfold delete_cols; rewrite forallb_lt by (intros j [<-|[]]; lia).
    rewrite del_repeat_one by exact Hi; reflexivity.
  Qed.

  Lemma eval_rows_ok (f : list F -> list F -> F) : forall n (ys ds : list (list F)),
    length ys = n -> length ds = n ->
    exists v, eval_rows (fun y d => Ok (f y d)) n ys ds = Ok v /\ length v = n /\
      forall k y d, nth_error ys k = Some y -> nth_error ds k = Some d -> nth_error v k = Some (f y d).
  Proof.
    induction n as [|n IH]; intros [|y ys] [|d ds] H1 H2; simpl in *; try lia.
    - exists []; repeat split; intros [|k]; discriminate.
    - destruct (IH ys ds) as (v & E & Hl & Hn); [lia|lia|].
      rewrite E; simpl; exists (f y d :: v); split; [reflexivity|]; split; [simpl; lia|].
      intros [|k] y' d' Hy Hd; simpl in *; [congruence|]. apply Hn; assumption.
  Qed.

  Lemma eval_rows_q_ok (f : list F -> list F -> list F -> F) : forall n (ys ds qs : list (list F)),
    length ys = n -> length ds = n -> length qs = n ->
    exists v, eval_rows_q f n ys ds qs = Ok v /\ length v = n /\
      forall k y d q, nth_error ys k = Some y -> nth_error ds k = Some d -> nth_error qs k = Some q ->
        nth_error v k = Some (f y d q).
  Proof.
    induction n as [|n IH]; intros [|y ys] [|d ds] [|q qs] H1 H2 H3; simpl in *; try lia.
    - exists []; repeat split; intros [|k]; discriminate.
    - destruct (IH ys ds qs) as (v & E & Hl & Hn); [lia|lia|lia|].
      rewrite E; simpl; exists (f y d q :: v); split; [reflexivity|]; split; [simpl; lia|].
      intros [|k] y' d' q' Hy Hd Hq; simpl in *; [congruence|]. apply Hn; assumption.
  Qed.

  Lemma append_last c (col : list F) rows :
    length col = length rows -> Forall (fun r => length r = c) rows ->
    append_col (Mat c rows) col = Ok (Mat (S c) (insert_rows c col rows)) /\
    delete_cols O (Mat (S c) (insert_rows c col rows)) [c] = Ok (Mat c rows) /\
    forall k r x, nth_error rows k = Some r -> nth_error col k = Some x ->
      nth_error (insert_rows c col rows) k = Some (r ++ [x]).
  Proof.
    intros Hl Hf; split; [unfold append_col; rewrite Hl, Nat.eqb_refl; reflexivity|].
    split; [apply delete_col_inserted; auto|].
    intros k r x Hr Hx; rewrite (insert_rows_nth c col rows k x r Hx Hr); f_equal.
    assert (length r = c) by (rewrite Forall_forall in Hf; apply Hf; eapply nth_error_In; eauto).
    unfold insert_row; subst c; rewrite firstn_all, skipn_all; reflexivity.
  Qed.

  (** [states_removed = true]: the solved-for variable is a state and the
      symmetry variable a costate; [false]: the other way round. *)
  Lemma mf_roundtrip (p_in_states : bool) i j N n nd nq fn_p fn_q fn_p_inv fn_q_inv (s : sol F) y0 d0 :
    let pp := mkPlace p_in_states i in
    let ps := mkPlace (negb p_in_states) j in
    let iy := if p_in_states then i else j in
    let id := if p_in_states then j else i in
    length (s_t s) = N -> shape N (S n) (s_y s) -> shape N (S nd) (s_dual s) -> shape N nq (s_q s) ->
    iy <= n -> id <= nd ->
    nth_error (arows (s_y s)) 0 = Some y0 -> nth_error (arows (s_dual s)) 0 = Some d0 ->
    let p' := s_p s ++ [fn_p y0 d0 (s_p s) (s_k s)] in
    (forall k y d q, nth_error (arows (s_y s)) k = Some y -> nth_error (arows (s_dual s)) k = Some d ->
       nth_error (arows (s_q s)) k = Some q ->
       nth_error (if p_in_states then y else d) i
         = Some (fn_p_inv (del_row [iy] 0 y) (del_row [id] 0 d) p' (s_k s)) /\
       nth_error (if p_in_states then d else y) j
         = Some (fn_q_inv (del_row [iy] 0 y) (del_row [id] 0 d)
                   (q ++ [fn_q y d p' (s_k s)]) p' (s_k s))) ->
    exists s', mf_map O pp ps fn_p fn_q s = Ok s' /\
      mf_inv O pp ps fn_p_inv fn_q_inv s' = Ok s /\
      shape N n (s_y s') /\ shape N nd (s_dual s') /\ shape N (S nq) (s_q s') /\ s_p s' = p'.
  Proof.
    intros pp ps iy id Ht (yr & Ey & Hyl & Hyf) (dr & Ed & Hdl & Hdf) (qr & Eq & Hql & Hqf)
      Hiy Hid H0y H0d p' Hinv.
    rewrite Ey, Ed, Eq in *; cbn [arows] in *.
    destruct (eval_rows_ok (fun y d => fn_q y d p' (s_k s)) N yr dr Hyl Hdl) as (qv & Eqv & Hqvl & Hqvn).
    destruct (append_last nq qv qr) as (Eap & Edel & Hqn); [lia|assumption|].
    set (yr' := map (del_row [iy] 0) yr). set (dr' := map (del_row [id] 0) dr).
    set (qr' := insert_rows nq qv qr) in *.
    set (s' := set_q (Mat (S nq) qr') (set_dual (Mat nd dr') (set_y (Mat n yr') (set_p p' s)))).
    assert (Hdy : delete_cols O (Mat (S n) yr) [iy] = Ok (Mat n yr')) by (apply delete_one; exact Hiy).
    assert (Hdd : delete_cols O (Mat (S nd) dr) [id] = Ok (Mat nd dr')) by (apply delete_one; exact Hid).
    assert (Hyl' : length yr' = N) by (unfold yr'; rewrite map_length; exact Hyl).
    assert (Hdl' : length dr' = N) by (unfold dr'; rewrite map_length; exact Hdl).
    assert (Hql' : length qr' = N) by (unfold qr'; rewrite insert_rows_length; lia).
    exists s'; split.
    { unfold mf_map; rewrite Ey, Ed; cbn [arows].
      rewrite (get_some _ _ _ H0y); cbn [bind]. rewrite (get_some _ _ _ H0d); cbn [bind].
      fold p'. cbn [s_t s_y s_dual s_p s_k set_p]; rewrite Ey, Ed, Ht; cbn [arows].
      rewrite Eqv; cbn [bind].
      unfold pp, ps, get_loc, set_loc; cbn [loc_states loc_idx].
      destruct p_in_states; cbn [negb].
      - cbn [s_y s_dual set_p]; rewrite Ey; unfold iy in Hdy; rewrite Hdy; cbn [bind].
        cbn [s_dual set_y set_p]; rewrite Ed; unfold id in Hdd; rewrite Hdd; cbn [bind].
        cbn [s_q set_dual set_y set_p]; rewrite Eq, Eap; reflexivity.
      - cbn [s_y s_dual set_p]; rewrite Ed; unfold id in Hdd; rewrite Hdd; cbn [bind].
        cbn [s_y set_dual set_p]; rewrite Ey; unfold iy in Hdy; rewrite Hdy; cbn [bind].
        cbn [s_q set_dual set_y set_p]; rewrite Eq, Eap; reflexivity. }
    split.
    { destruct (eval_rows_q_ok (fun y d q => fn_q_inv y d q p' (s_k s)) N yr' dr' qr' Hyl' Hdl' Hql')
        as (qb & Eqb & Hqbl & Hqbn).
      destruct (eval_rows_ok (fun y d => fn_p_inv y d p' (s_k s)) N yr' dr' Hyl' Hdl')
        as (pb & Epb & Hpbl & Hpbn).
      assert (Hrow : forall k, k < N -> exists y d q, nth_error yr k = Some y /\
          nth_error dr k = Some d /\ nth_error qr k = Some q).
      { intros k Hk.
        destruct (nth_error yr k) as [y|] eqn:E1; [|apply nth_error_None in E1; lia].
        destruct (nth_error dr k) as [d|] eqn:E2; [|apply nth_error_None in E2; lia].
        destruct (nth_error qr k) as [q|] eqn:E3; [|apply nth_error_None in E3; lia].
        exists y, d, q; auto. }
      assert (Hcol : forall k y d, nth_error yr k = Some y -> nth_error dr k = Some d ->
          nth_error pb k = nth_error (if p_in_states then y else d) i /\
          nth_error qb k = nth_error (if p_in_states then d else y) j).
      { intros k y d Hy Hd.
        assert (Hk : k < N) by (rewrite <- Hyl; apply nth_error_Some; congruence).
        destruct (Hrow k Hk) as (y' & d' & q & Hy' & Hd' & Hq).
        assert (y' = y) as -> by congruence. assert (d' = d) as -> by congruence.
        destruct (Hinv k y d q Hy Hd Hq) as [-> ->].
        assert (Yk : nth_error yr' k = Some (del_row [iy] 0 y))
          by (unfold yr'; rewrite nth_error_map, Hy; reflexivity).
        assert (Dk : nth_error dr' k = Some (del_row [id] 0 d))
          by (unfold dr'; rewrite nth_error_map, Hd; reflexivity).
        assert (Qk : nth_error qr' k = Some (q ++ [fn_q y d p' (s_k s)]))
          by (apply Hqn; [exact Hq|apply Hqvn; assumption]).
        split; [apply Hpbn; assumption|apply Hqbn; assumption]. }
      unfold mf_inv; unfold s' at 1 2 3 4 5 6 7 8 9 10 11.
      cbn [s_t s_y s_dual s_q s_p s_k set_q set_dual set_y set_p arows].
      rewrite Ht, Eqb; cbn [bind]. rewrite Epb; cbn [bind].
      unfold pp, ps, get_loc, set_loc; cbn [loc_states loc_idx].
      assert (Hcp : is_column i pb (if p_in_states then yr else dr)).
      { split; [destruct p_in_states; lia|].
        intros k r Hr.
        assert (Hk : k < N) by
          (destruct p_in_states; [rewrite <- Hyl|rewrite <- Hdl]; apply nth_error_Some; congruence).
        destruct (Hrow k Hk) as (y & d & q & Hy & Hd & _).
        destruct (Hcol k y d Hy Hd) as [-> _]; destruct p_in_states; congruence. }
      assert (Hcq : is_column j qb (if p_in_states then dr else yr)).
      { split; [destruct p_in_states; lia|].
        intros k r Hr.
        assert (Hk : k < N) by
          (destruct p_in_states; [rewrite <- Hdl|rewrite <- Hyl]; apply nth_error_Some; congruence).
        destruct (Hrow k Hk) as (y & d & q & Hy & Hd & _).
        destruct (Hcol k y d Hy Hd) as [_ ->]; destruct p_in_states; congruence. }
      destruct p_in_states; cbn [negb].
      - cbn [s_y s_dual s' set_q set_dual set_y set_p].
        unfold yr', iy; rewrite stack_back by assumption; cbn [bind].
        cbn [s_y s_dual s' set_q set_dual set_y set_p].
        unfold dr', id; rewrite stack_back by assumption; cbn [bind].
        cbn [s_q s' set_q set_dual set_y set_p]. rewrite Edel; cbn [bind].
        cbn [s_p s' set_q set_dual set_y set_p]; unfold p'.
        rewrite removelast_last; f_equal; destruct s; simpl in *; subst; reflexivity.
      - cbn [s_y s_dual s' set_q set_dual set_y set_p].
        unfold dr', id; rewrite stack_back by assumption; cbn [bind].
        cbn [s_y s_dual s' set_q set_dual set_y set_p].
        unfold yr', iy; rewrite stack_back by assumption; cbn [bind].
        cbn [s_q s' set_q set_dual set_y set_p]. rewrite Edel; cbn [bind].
        cbn [s_p s' set_q set_dual set_y set_p]; unfold p'.
        rewrite removelast_last; f_equal; destruct s; simpl in *; subst; reflexivity. }
    assert (Hfdel : forall c ii (rows : list (list F)), ii <= c -> Forall (fun r => length r = S c) rows ->
              Forall (fun r => length r = c) (map (del_row [ii] 0) rows)).
    { intros c ii rows Hii Hf; apply Forall_forall; intros r Hr.
      apply in_map_iff in Hr as (r0 & <- & Hr0).
      rewrite Forall_forall in Hf; specialize (Hf r0 Hr0).
      pose proof (del_row_count [ii] 0 r0) as HC; simpl length in HC.
      assert (NoDup [ii]) as Hnd by (constructor; [intros []|constructor]).
      specialize (HC Hnd ltac:(intros q [<-|[]]; lia)); lia. }
    split; [exists yr'; split; [reflexivity|split; [exact Hyl'|apply Hfdel; assumption]]|].
    split; [exists dr'; split; [reflexivity|split; [exact Hdl'|apply Hfdel; assumption]]|].
    split; [exists qr'; split; [reflexivity|split; [exact Hql'|apply insert_rows_forall; auto]]|].
    reflexivity.
  Qed.
End MF.
