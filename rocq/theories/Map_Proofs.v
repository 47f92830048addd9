(** Array lemmas and the round trips of the individual mappers. *)
From Verif Require Import Base Base_Facts Map_Model Map_Spec.
Open Scope nat_scope.

Section Arrays.
  Context {F : Type} (O : NumOps F).
  Implicit Types (r row : list F) (rows : list (list F)).

  Lemma mapM_ok_map {A B} (f : A -> res B) (g : A -> B) l :
    (forall a, In a l -> f a = Ok (g a)) -> mapM f l = Ok (map g l).
  Proof.
    induction l as [|a l IH]; intros H; [reflexivity|].
    simpl; rewrite H by (left; reflexivity); simpl.
    rewrite IH by (intros b Hb; apply H; right; exact Hb); reflexivity.
  Qed.

  Lemma mapM_length {A B} (f : A -> res B) l l' : mapM f l = Ok l' -> length l' = length l.
  Proof.
    revert l'; induction l as [|a l IH]; intros l' H; simpl in H.
    - injection H as <-; reflexivity.
    - destruct (f a) as [b|]; simpl in H; [|discriminate].
      destruct (mapM f l) as [bs|]; simpl in H; [|discriminate].
      injection H as <-; simpl; f_equal; apply IH; reflexivity.
  Qed.

  Lemma mapM_nth {A B} (f : A -> res B) l l' k a :
    mapM f l = Ok l' -> nth_error l k = Some a -> exists b, nth_error l' k = Some b /\ f a = Ok b.
  Proof.
    revert l' k; induction l as [|x l IH]; intros l' k H Hk; [destruct k; discriminate|].
    simpl in H.
    destruct (f x) as [b|] eqn:E; simpl in H; [|discriminate].
    destruct (mapM f l) as [bs|] eqn:E'; simpl in H; [|discriminate].
    assert (l' = b :: bs) as -> by congruence.
    destruct k as [|k]; simpl in *.
    - exists b; split; [reflexivity|congruence].
    - exact (IH bs k eq_refl Hk).
  Qed.

  (** ** Rows *)
  Lemma insert_row_length i (x : F) r : i <= length r -> length (insert_row i x r) = S (length r).
  Proof.
    intros H; unfold insert_row; rewrite app_length; simpl.
    rewrite firstn_length_le, skipn_length by lia; lia.
  Qed.

  Lemma insert_row_at i (x : F) r : i <= length r -> nth_error (insert_row i x r) i = Some x.
  Proof.
    intros H; unfold insert_row; rewrite nth_error_app2; rewrite firstn_length_le by lia; [|lia].
    rewrite Nat.sub_diag; reflexivity.
  Qed.

  Lemma nth_error_firstn_lt {A} (l : list A) i j : j < i -> nth_error (firstn i l) j = nth_error l j.
  Proof.
    revert i j; induction l as [|a l IH]; intros i j H.
    - rewrite firstn_nil; reflexivity.
    - destruct i as [|i]; [lia|]; destruct j as [|j]; [reflexivity|]; simpl; apply IH; lia.
  Qed.

  Lemma nth_error_skipn_add {A} (l : list A) i j : nth_error (skipn i l) j = nth_error l (i + j).
  Proof.
    revert l; induction i as [|i IH]; intros l; [reflexivity|].
    destruct l as [|a l]; [destruct j; reflexivity|]; simpl; apply IH.
  Qed.

  Lemma insert_row_below i (x : F) r j :
    i <= length r -> j < i -> nth_error (insert_row i x r) j = nth_error r j.
  Proof.
    intros H Hj; unfold insert_row; rewrite nth_error_app1 by (rewrite firstn_length_le; lia).
    apply nth_error_firstn_lt; exact Hj.
  Qed.

  Lemma insert_row_above i (x : F) r j :
    i <= length r -> i <= j -> nth_error (insert_row i x r) (S j) = nth_error r j.
  Proof.
    intros H Hj; unfold insert_row; rewrite nth_error_app2; rewrite firstn_length_le by lia; [|lia].
    replace (S j - i) with (S (j - i)) by lia; simpl.
    rewrite nth_error_skipn_add; f_equal; lia.
  Qed.

  Lemma existsb_eqb_In i js : existsb (Nat.eqb i) js = true <-> In i js.
  Proof.
    rewrite existsb_exists; split.
    - intros (x & Hx & E); apply Nat.eqb_eq in E; subst; exact Hx.
    - intros H; exists i; split; [exact H|apply Nat.eqb_refl].
  Qed.

  Lemma del_row_ext js js' i r :
    (forall j, In j js <-> In j js') -> del_row js i r = del_row js' i r.
  Proof.
    intros H; revert i; induction r as [|x r IH]; intros i; simpl; [reflexivity|].
    assert (existsb (Nat.eqb i) js = existsb (Nat.eqb i) js') as ->.
    { destruct (existsb (Nat.eqb i) js) eqn:E1; destruct (existsb (Nat.eqb i) js') eqn:E2;
        try reflexivity.
      - apply existsb_eqb_In, H, existsb_eqb_In in E1; congruence.
      - apply existsb_eqb_In, H, existsb_eqb_In in E2; congruence. }
    rewrite IH; reflexivity.
  Qed.

  Lemma del_row_none js i r :
    (forall j, In j js -> j < i \/ i + length r <= j) -> del_row js i r = r.
  Proof.
    revert i; induction r as [|x r IH]; intros i H; simpl; [reflexivity|].
    destruct (existsb (Nat.eqb i) js) eqn:E.
    - apply existsb_eqb_In in E; destruct (H i E) as [?|?]; simpl in *; lia.
    - rewrite IH; [reflexivity|].
      intros j Hj; destruct (H j Hj) as [?|?]; simpl in *; [left|right]; lia.
  Qed.

  Lemma del_row_app js i r1 r2 :
    del_row js i (r1 ++ r2) = del_row js i r1 ++ del_row js (i + length r1) r2.
  Proof.
    revert i; induction r1 as [|x r1 IH]; intros i; simpl.
    - rewrite Nat.add_0_r; reflexivity.
    - rewrite IH; replace (S i + length r1) with (i + S (length r1)) by lia.
      destruct (existsb (Nat.eqb i) js); reflexivity.
  Qed.

  (** Deleting the newly inserted position together with positions before it. *)
  Lemma del_row_insert L i (x : F) r :
    i <= length r -> (forall j, In j L -> j < i) ->
    del_row (i :: L) 0 (insert_row i x r) = del_row L 0 r.
  Proof.
    intros Hi HL; unfold insert_row; rewrite del_row_app, firstn_length_le by lia.
    change (0 + i) with i.
    simpl; rewrite Nat.eqb_refl; simpl.
    rewrite <- (firstn_skipn i r) at 3; rewrite del_row_app, firstn_length_le by lia.
    f_equal.
    - clear -HL Hi.
      assert (G : forall r' b, b + length r' <= i -> del_row (i :: L) b r' = del_row L b r').
      { induction r' as [|y r' IH]; intros b Hb; simpl; [reflexivity|].
        simpl in Hb.
        assert ((b =? i) = false) as -> by (apply Nat.eqb_neq; lia); simpl.
        rewrite IH by lia; reflexivity. }
      apply G; rewrite firstn_length; lia.
    - rewrite !del_row_none; [reflexivity| |].
      + intros j Hj; left; simpl; auto.
      + intros j [<-|Hj]; [left; lia|left; specialize (HL j Hj); lia].
  Qed.

  Lemma del_insert i (x : F) r : i <= length r -> del_row [i] 0 (insert_row i x r) = r.
  Proof.
    intros H; rewrite del_row_insert; [|exact H|intros j []].
    apply del_row_none; intros j [].
  Qed.

  Lemma del_row_length_eq js i r r' :
    length r = length r' -> length (del_row js i r) = length (del_row js i r').
  Proof.
    revert i r'; induction r as [|x r IH]; intros i [|y r'] H; simpl in *; try lia.
    destruct (existsb (Nat.eqb i) js); simpl; rewrite (IH (S i) r') by lia; reflexivity.
  Qed.

  (** ** Inserting one column *)
  Lemma insert_rows_length i (col : list F) rows :
    length col = length rows -> length (insert_rows i col rows) = length rows.
  Proof.
    revert rows; induction col as [|x col IH]; intros [|r rows] H; simpl in *; try lia.
    rewrite IH; lia.
  Qed.

  Lemma insert_rows_nth i (col : list F) rows k x r :
    nth_error col k = Some x -> nth_error rows k = Some r ->
    nth_error (insert_rows i col rows) k = Some (insert_row i x r).
  Proof.
    revert rows k; induction col as [|y col IH]; intros [|r' rows] k Hx Hr;
      destruct k; simpl in *; try discriminate.
    - congruence.
    - apply IH; assumption.
  Qed.

  Lemma insert_rows_forall i c (col : list F) rows :
    i <= c -> Forall (fun r => length r = c) rows ->
    Forall (fun r => length r = S c) (insert_rows i col rows).
  Proof.
    intros Hi H; revert col; induction H as [|r rows Hr H IH]; intros [|x col]; simpl; auto.
    constructor; [|apply IH]. rewrite insert_row_length; lia.
  Qed.

  Lemma map_del_insert_rows i c (col : list F) rows :
    i <= c -> Forall (fun r => length r = c) rows -> length col = length rows ->
    map (del_row [i] 0) (insert_rows i col rows) = rows.
  Proof.
    intros Hi H; revert col; induction H as [|r rows Hr H IH]; intros [|x col] Hl; simpl in *; try lia; auto.
    rewrite del_insert by lia; rewrite IH by lia; reflexivity.
  Qed.

  Lemma column_insert_rows i c (col : list F) rows :
    i <= c -> Forall (fun r => length r = c) rows -> length col = length rows ->
    mapM (fun r => get r i) (insert_rows i col rows) = Ok col.
  Proof.
    intros Hi H; revert col; induction H as [|r rows Hr H IH]; intros [|x col] Hl; simpl in *; try lia; auto.
    rewrite (get_some _ _ x) by (apply insert_row_at; lia); simpl.
    rewrite IH by lia; reflexivity.
  Qed.

  Lemma del_repeat_one i c : i <= c -> length (del_row [i] 0 (repeat (n0 O) (S c))) = c.
  Proof.
    intros H.
    rewrite (del_row_length_eq [i] 0 _ (insert_row i (n0 O) (repeat (n0 O) c))).
    - rewrite del_insert by (rewrite repeat_length; exact H); apply repeat_length.
    - rewrite insert_row_length by (rewrite repeat_length; exact H).
      rewrite !repeat_length; reflexivity.
  Qed.

  Lemma insert_col_ok i c (col : list F) rows :
    i <= c -> length col = length rows ->
    insert_col (Mat c rows) i col = Ok (Mat (S c) (insert_rows i col rows)).
  Proof.
    intros Hi Hl; unfold insert_col.
    apply Nat.leb_le in Hi; rewrite Hi, Hl, Nat.eqb_refl; reflexivity.
  Qed.

  Lemma delete_col_inserted i c (col : list F) rows :
    i <= c -> length col = length rows -> Forall (fun r => length r = c) rows ->
    delete_cols O (Mat (S c) (insert_rows i col rows)) [i] = Ok (Mat c rows).
  Proof.
    intros Hi Hl Hr; unfold delete_cols; simpl forallb.
    assert ((i <? S c) = true) as -> by (apply Nat.ltb_lt; lia); simpl andb.
    rewrite del_repeat_one by exact Hi.
    rewrite map_del_insert_rows with (c := c) by assumption; reflexivity.
  Qed.

  Lemma column_inserted_col i c (col : list F) rows :
    i <= c -> length col = length rows -> Forall (fun r => length r = c) rows ->
    column (Mat (S c) (insert_rows i col rows)) i = Ok col.
  Proof.
    intros Hi Hl Hr; unfold column.
    assert ((i <? S c) = true) as -> by (apply Nat.ltb_lt; lia).
    apply column_insert_rows with (c := c); assumption.
  Qed.

  Lemma insert_rows_placed i c (col : list F) rows :
    i <= c -> length col = length rows -> Forall (fun r => length r = c) rows ->
    column_inserted i col (Mat c rows) (Mat (S c) (insert_rows i col rows)).
  Proof.
    intros Hi Hl Hr; unfold column_inserted; simpl.
    assert (HL : forall k, k < length rows -> exists x r, nth_error col k = Some x
       /\ nth_error rows k = Some r /\ length r = c
       /\ nth_error (insert_rows i col rows) k = Some (insert_row i x r)).
    { intros k Hk.
      destruct (nth_error rows k) as [r|] eqn:Er; [|apply nth_error_None in Er; lia].
      destruct (nth_error col k) as [x|] eqn:Ex; [|apply nth_error_None in Ex; lia].
      exists x, r; split; [reflexivity|]; split; [reflexivity|]; split.
      - rewrite Forall_forall in Hr; apply Hr; eapply nth_error_In; eauto.
      - apply insert_rows_nth; assumption. }
    assert (HN : forall k, length rows <= k ->
       nth_error rows k = None /\ nth_error (insert_rows i col rows) k = None).
    { intros k Hk; split; apply nth_error_None; [lia|rewrite insert_rows_length; lia]. }
    split; [|split].
    - intros k Hk; destruct (HL k Hk) as (x & r & Hx & Hr' & Hc & ->).
      rewrite Hx; apply insert_row_at; lia.
    - intros k j Hj; destruct (Nat.lt_ge_cases k (length rows)) as [Hk|Hk].
      + destruct (HL k Hk) as (x & r & Hx & -> & Hc & ->); apply insert_row_below; lia.
      + destruct (HN k Hk) as [-> ->]; reflexivity.
    - intros k j Hj; destruct (Nat.lt_ge_cases k (length rows)) as [Hk|Hk].
      + destruct (HL k Hk) as (x & r & Hx & -> & Hc & ->); apply insert_row_above; lia.
      + destruct (HN k Hk) as [-> ->]; reflexivity.
  Qed.

  (** ** Momentum shift *)
  Definition full_dual_t (s : sol F) : list F :=
    match s_dual_t s with [] => map (fun _ => n0 O) (s_t s) | l => l end.

  Lemma ms_roundtrip i N n nd (s : sol F) :
    length (s_t s) = N -> shape N n (s_y s) -> shape N nd (s_dual s) ->
    (s_dual_t s = [] \/ length (s_dual_t s) = N) -> i <= n -> i <= nd ->
    exists s', ms_map O (Some i) s = Ok (Some i, s') /\
      ms_inv O (Some i) s' = Ok (Some i, set_dual_t (full_dual_t s) s) /\
      shape N (S n) (s_y s') /\ shape N (S nd) (s_dual s') /\
      column_inserted i (s_t s) (s_y s) (s_y s') /\
      column_inserted i (full_dual_t s) (s_dual s) (s_dual s') /\
      (s_t s', s_q s', s_u s', s_dual_u s', s_p s', s_nu s', s_k s', s_cost s')
      = (s_t s, s_q s, s_u s, s_dual_u s, s_p s, s_nu s, s_k s, s_cost s) /\
      s_dual_t s' = full_dual_t s.
  Proof.
    intros Ht (yr & Ey & Hyl & Hyf) (dr & Ed & Hdl & Hdf) Hdt Hi Hi'.
    assert (Hfl : length (full_dual_t s) = N).
    { unfold full_dual_t; destruct (s_dual_t s) as [|a l] eqn:E; [rewrite map_length; exact Ht|].
      destruct Hdt as [Hdt|Hdt]; [discriminate|exact Hdt]. }
    assert (Es1 : (if length (s_dual_t s) =? 0
                   then set_dual_t (map (fun _ => n0 O) (s_t s)) s else s)
                  = set_dual_t (full_dual_t s) s).
    { unfold full_dual_t; destruct s; simpl; destruct s_dual_t; reflexivity. }
    exists (set_dual (Mat (S nd) (insert_rows i (full_dual_t s) dr))
              (set_y (Mat (S n) (insert_rows i (s_t s) yr)) (set_dual_t (full_dual_t s) s))).
    assert (H1 : insert_col (Mat n yr) i (s_t s) = Ok (Mat (S n) (insert_rows i (s_t s) yr)))
      by (apply insert_col_ok; lia).
    assert (H2 : insert_col (Mat nd dr) i (full_dual_t s)
                 = Ok (Mat (S nd) (insert_rows i (full_dual_t s) dr)))
      by (apply insert_col_ok; lia).
    split.
    { unfold ms_map; simpl bind; rewrite Es1.
      change (s_y (set_dual_t (full_dual_t s) s)) with (s_y s).
      change (s_t (set_dual_t (full_dual_t s) s)) with (s_t s).
      rewrite Ey, H1; simpl bind.
      change (s_dual (set_y _ (set_dual_t (full_dual_t s) s))) with (s_dual s).
      change (s_dual_t (set_y _ (set_dual_t (full_dual_t s) s))) with (full_dual_t s).
      simpl; rewrite Ed, H2; reflexivity. }
    split.
    { unfold ms_inv.
      cbn -[column delete_cols insert_rows].
      rewrite column_inserted_col by (assumption || lia); cbn -[column delete_cols insert_rows].
      rewrite delete_col_inserted by (assumption || lia); cbn -[column delete_cols insert_rows].
      rewrite column_inserted_col by (assumption || lia); cbn -[column delete_cols insert_rows].
      rewrite delete_col_inserted by (assumption || lia); cbn -[column delete_cols insert_rows].
      destruct s; simpl in *; subst; reflexivity. }
    simpl; split; [|split; [|split; [|split; [|split; [reflexivity|reflexivity]]]]].
    - eexists; split; [reflexivity|]; split; [rewrite insert_rows_length; lia|].
      apply insert_rows_forall; assumption.
    - eexists; split; [reflexivity|]; split; [rewrite insert_rows_length; lia|].
      apply insert_rows_forall; assumption.
    - rewrite Ey; apply insert_rows_placed; (assumption || lia).
    - rewrite Ed; apply insert_rows_placed; (assumption || lia).
  Qed.

  Lemma ms_default (s : sol F) n rows : s_y s = Mat n rows ->
    ms_map O None s = ms_map O (Some n) s.
  Proof. intros E; unfold ms_map; rewrite E; reflexivity. Qed.

  Lemma ms_inv_default (s : sol F) n rows : s_y s = Mat (S n) rows ->
    ms_inv O None s = ms_inv O (Some n) s.
  Proof. intros E; unfold ms_inv; rewrite E; reflexivity. Qed.

  Lemma del_one i : forall r b j, b <= i ->
    nth_error (del_row (F:=F) [i] b r) j = nth_error r (if j + b <? i then j else S j).
  Proof.
    induction r as [|a r IH]; intros b j Hb; simpl del_row.
    - destruct j; simpl; destruct (_ <? _); reflexivity.
    - simpl existsb. rewrite orb_false_r. destruct (Nat.eqb_spec b i) as [->|N].
      + assert (G : forall r b j, i < b -> nth_error (del_row (F:=F) [i] b r) j = nth_error r j).
        { clear. induction r as [|a r IH]; intros b j Hb; simpl; auto.
          rewrite orb_false_r. destruct (Nat.eqb_spec b i); [lia|]. destruct j; simpl; auto. }
        rewrite G by lia. destruct (Nat.ltb_spec (j + i) i); [lia|]. reflexivity.
      + destruct j as [|j]; simpl.
        * destruct (Nat.ltb_spec b i); [reflexivity|lia].
        * rewrite IH by lia. replace (j + S b) with (S (j + b)) by lia.
          destruct (S (j + b) <? i); reflexivity.
  Qed.

  Lemma delete_one_entry (a a' : arr F) i k j : delete_cols O a [i] = Ok a' ->
    entry a' k j = entry a k (if j <? i then j else S j).
  Proof.
    destruct a as [|c rows]; simpl; [discriminate|]. destruct (_ && true); [|discriminate].
    intros H. injection H as <-. unfold entry. rewrite nth_error_map.
    destruct (nth_error rows k) as [r|]; simpl; auto.
    rewrite del_one by lia. now rewrite Nat.add_0_r.
  Qed.

  Lemma ms_inv_reads i (s s' : sol F) i' :
    ms_inv O (Some i) s = Ok (i', s') ->
    (length (s_t s') = alen (s_y s) /\
     forall k, k < alen (s_y s) -> nth_error (s_t s') k = entry (s_y s) k i) /\
     (length (s_dual_t s') = alen (s_dual s) /\
     forall k, k < alen (s_dual s) -> nth_error (s_dual_t s') k = entry (s_dual s) k i) /\
     (forall k j, entry (s_y s') k j = entry (s_y s) k (if j <? i then j else S j)) /\
     (forall k j, entry (s_dual s') k j = entry (s_dual s) k (if j <? i then j else S j)) /\
     s_q s' = s_q s /\ s_u s' = s_u s /\ s_p s' = s_p s /\ s_nu s' = s_nu s /\ s_k s' = s_k s.
  Proof.
    unfold ms_inv; simpl bind.
    destruct (column (s_y s) i) as [t|] eqn:Et; simpl; [|discriminate].
    destruct (delete_cols O (s_y s) [i]) as [y|] eqn:E1; simpl; [|discriminate].
    destruct (column (s_dual s) i) as [dt|] eqn:E2; simpl; [|discriminate].
    destruct (delete_cols O (s_dual s) [i]) as [d|] eqn:E3; simpl; [|discriminate].
    assert (G : forall (a : arr F) l, column a i = Ok l -> length l = alen a /\
              forall k, k < alen a -> nth_error l k = entry a k i).
    { clear. intros a l El. destruct a as [|c rows]; simpl in El; [discriminate|].
      destruct (i <? c); [|discriminate].
      split; [exact (mapM_length _ _ _ El)|].
      intros k Hk; simpl in Hk; unfold entry.
      destruct (nth_error rows k) as [r|] eqn:Er; [|apply nth_error_None in Er; lia].
      destruct (mapM_nth _ _ _ _ _ El Er) as (b & Hb & Hg).
      rewrite Hb; apply get_ok in Hg; congruence. }
    intros H; injection H as <- <-; simpl.
    split; [exact (G _ _ Et)|]. split; [exact (G _ _ E2)|].
    split; [intros; eapply delete_one_entry; eauto|].
    split; [intros; eapply delete_one_entry; eauto|].
    repeat split.
  Qed.

  (** ** Sorting the control columns *)
  Lemma ins_sorted_ok (x : nat * list F) l :
    ~ In (fst x) (map fst l) -> exists l', ins_sorted x l = Ok l'.
  Proof.
    induction l as [|y l IH]; intros H; simpl; [eauto|].
    destruct (Nat.ltb_spec (fst x) (fst y)); [eauto|].
    destruct (Nat.ltb_spec (fst y) (fst x)).
    - destruct IH as [l' E]; [intros Hin; apply H; right; exact Hin|].
      rewrite E; simpl; eauto.
    - exfalso; apply H; left; lia.
  Qed.

  Lemma ins_sorted_perm (x : nat * list F) l l' :
    ins_sorted x l = Ok l' -> forall z, In z l' <-> z = x \/ In z l.
  Proof.
    revert l'; induction l as [|y l IH]; intros l' H z; simpl in H.
    - assert (l' = [x]) as -> by congruence; simpl; intuition.
    - destruct (fst x <? fst y).
      + assert (l' = x :: y :: l) as -> by congruence; simpl; intuition.
      + destruct (fst y <? fst x); [|discriminate].
        destruct (ins_sorted x l) as [r|] eqn:E; simpl in H; [|discriminate].
        assert (l' = y :: r) as -> by congruence; simpl; rewrite (IH r eq_refl z); simpl; intuition.
  Qed.

  Lemma ins_sorted_length (x : nat * list F) l l' :
    ins_sorted x l = Ok l' -> length l' = S (length l).
  Proof.
    revert l'; induction l as [|y l IH]; intros l' H; simpl in H.
    - assert (l' = [x]) as -> by congruence; reflexivity.
    - destruct (fst x <? fst y).
      + assert (l' = x :: y :: l) as -> by congruence; reflexivity.
      + destruct (fst y <? fst x); [|discriminate].
        destruct (ins_sorted x l) as [r|] eqn:E; simpl in H; [|discriminate].
        assert (l' = y :: r) as -> by congruence; simpl; rewrite (IH r eq_refl); reflexivity.
  Qed.

  (** Strictly increasing indices. *)
  Fixpoint increasing (l : list (nat * list F)) : Prop :=
    match l with
    | [] => True
    | x :: l' => (forall y, In y l' -> fst x < fst y) /\ increasing l'
    end.

  Lemma ins_sorted_increasing (x : nat * list F) l l' :
    ins_sorted x l = Ok l' -> increasing l -> increasing l'.
  Proof.
    revert l'; induction l as [|y l IH]; intros l' H Hs; simpl in H.
    - assert (l' = [x]) as -> by congruence; simpl; split; [intros z []|exact I].
    - destruct Hs as [Hy Hs].
      destruct (Nat.ltb_spec (fst x) (fst y)) as [Hlt|Hge].
      + assert (l' = x :: y :: l) as -> by congruence; simpl.
        split; [|split; assumption].
        intros z [<-|Hz]; [exact Hlt|specialize (Hy z Hz); lia].
      + destruct (Nat.ltb_spec (fst y) (fst x)) as [Hlt'|]; [|discriminate].
        destruct (ins_sorted x l) as [r|] eqn:E; simpl in H; [|discriminate].
        assert (l' = y :: r) as -> by congruence; simpl; split; [|exact (IH r eq_refl Hs)].
        intros z Hz; apply (ins_sorted_perm x l r E) in Hz.
        destruct Hz as [->|Hz]; [exact Hlt'|apply Hy; exact Hz].
  Qed.

  Lemma sort_cols_ok (l : list (nat * list F)) :
    NoDup (map fst l) ->
    exists l', sort_cols l = Ok l' /\ length l' = length l /\ increasing l' /\
      (forall z, In z l' <-> In z l).
  Proof.
    induction l as [|x l IH]; intros Hnd; simpl.
    - exists []; simpl; repeat split; tauto.
    - inversion Hnd as [|? ? Hx Hnd']; subst.
      destruct (IH Hnd') as (r & -> & Hl & Hinc & Hin); simpl.
      destruct (ins_sorted_ok x r) as [l' E].
      { intros H; apply Hx; apply in_map_iff in H as (z & Ez & Hz).
        rewrite <- Ez; apply in_map, Hin; exact Hz. }
      exists l'; split; [exact E|]; split.
      + rewrite (ins_sorted_length _ _ _ E), Hl; reflexivity.
      + split; [exact (ins_sorted_increasing _ _ _ E Hinc)|].
        intros z; rewrite (ins_sorted_perm _ _ _ E z), Hin; simpl; intuition.
  Qed.

  (** ** Inserting all control columns *)
  Lemma insert_all_ok l : forall c rows L,
    increasing l ->
    (forall x, In x l -> length (snd x) = length rows) ->
    Forall (fun r => length r = c) rows ->
    (forall j, In j L -> forall x, In x l -> j < fst x) ->
    (forall x, In x l -> fst x < c + length l) ->
    exists rows',
      insert_all (Mat c rows) l = Ok (Mat (c + length l) rows') /\
      length rows' = length rows /\
      Forall (fun r => length r = c + length l) rows' /\
      (forall x, In x l -> forall k, k < length rows ->
         exists r', nth_error rows' k = Some r' /\ nth_error r' (fst x) = nth_error (snd x) k) /\
      (forall k r, nth_error rows k = Some r -> forall j, (forall x, In x l -> j < fst x) ->
         exists r', nth_error rows' k = Some r' /\ nth_error r' j = nth_error r j) /\
      (map (del_row (L ++ map fst l) 0) rows' = map (del_row L 0) rows).
  Proof.
    induction l as [|[i col] l IH]; intros c rows L Hinc Hlen Hf HL Hb.
    - exists rows; simpl; rewrite Nat.add_0_r, app_nil_r.
      split; [reflexivity|]; split; [reflexivity|]; split; [exact Hf|].
      split; [intros x []|]; split; [|reflexivity].
      intros k r Hk j _; exists r; split; [exact Hk|reflexivity].
    - destruct Hinc as [Hi Hinc].
      assert (Hic : i <= c).
      { (* the indices after i are distinct, larger and below c + length *)
        assert (G : forall l b m, increasing l -> (forall y, In y l -> b < fst y) ->
                  (forall y, In y l -> fst y < m) -> b + length l < m \/ l = []).
        { clear. induction l as [|y l IHl]; intros b m Hinc Hlo Hhi; [right; reflexivity|left].
          destruct Hinc as [Hy Hinc].
          destruct (IHl (fst y) m Hinc Hy) as [H| ->].
          - intros z Hz; apply Hhi; right; exact Hz.
          - pose proof (Hlo y (or_introl eq_refl)); simpl; lia.
          - pose proof (Hlo y (or_introl eq_refl)); pose proof (Hhi y (or_introl eq_refl)); simpl; lia. }
        destruct (G l i (c + S (length l)) Hinc Hi) as [H| ->].
        - intros y Hy; specialize (Hb y (or_intror Hy)); simpl in Hb; lia.
        - lia.
        - pose proof (Hb (i, col) (or_introl eq_refl)); simpl in *; lia. }
      pose proof (Hlen (i, col) (or_introl eq_refl)) as Hcol; simpl in Hcol.
      destruct (IH (S c) (insert_rows i col rows) (i :: L)) as
        (rows' & E & Hl' & Hf' & Hplace & Hkeep & Hdel).
      + exact Hinc.
      + intros x Hx; rewrite insert_rows_length by exact Hcol; apply Hlen; right; exact Hx.
      + apply insert_rows_forall; assumption.
      + intros j [<-|Hj] x Hx; [exact (Hi x Hx)|apply HL; [exact Hj|right; exact Hx]].
      + intros x Hx; specialize (Hb x (or_intror Hx)); simpl in Hb; lia.
      + exists rows'; cbn [insert_all]; rewrite insert_col_ok by assumption; cbn [bind].
        rewrite E; simpl length.
        replace (c + S (length l)) with (S c + length l) by lia.
        rewrite insert_rows_length in Hl' by exact Hcol.
        split; [reflexivity|]; split; [exact Hl'|]; split; [exact Hf'|].
        assert (Hrow : forall k, k < length rows -> exists x r, nth_error col k = Some x /\
                 nth_error rows k = Some r /\ length r = c /\
                 nth_error (insert_rows i col rows) k = Some (insert_row i x r)).
        { intros k Hk.
          destruct (nth_error rows k) as [r|] eqn:Er; [|apply nth_error_None in Er; lia].
          destruct (nth_error col k) as [x|] eqn:Ex; [|apply nth_error_None in Ex; lia].
          exists x, r; split; [reflexivity|]; split; [reflexivity|]; split.
          - rewrite Forall_forall in Hf; apply Hf; eapply nth_error_In; eauto.
          - apply insert_rows_nth; assumption. }
        split; [|split].
        * intros x [<-|Hx] k Hk; simpl.
          -- destruct (Hrow k Hk) as (v & r & Hv & Hr & Hc & Hins).
             destruct (Hkeep k _ Hins i) as (r' & Hr' & Hn); [intros z Hz; exact (Hi z Hz)|].
             exists r'; split; [exact Hr'|]; rewrite Hn, Hv; apply insert_row_at; lia.
          -- apply Hplace; [exact Hx|rewrite insert_rows_length by exact Hcol; exact Hk].
        * intros k r Hk j Hj.
          destruct (Hrow k) as (v & r0 & Hv & Hr & Hc & Hins);
            [apply nth_error_Some; congruence|].
          assert (r0 = r) as -> by congruence.
          destruct (Hkeep k _ Hins j) as (r' & Hr' & Hn);
            [intros z Hz; apply Hj; right; exact Hz|].
          exists r'; split; [exact Hr'|]; rewrite Hn.
          apply insert_row_below; [lia|exact (Hj (i, col) (or_introl eq_refl))].
        * transitivity (map (del_row ((i :: L) ++ map fst l) 0) rows').
          { apply map_ext; intros r; apply del_row_ext; intros j; simpl.
            rewrite !in_app_iff; simpl; tauto. }
          rewrite Hdel.
          clear -Hic Hf Hcol HL.
          revert col Hcol HL; induction Hf as [|r rows Hr Hf IHf]; intros [|x col] Hcol HL;
            simpl in *; try lia; auto.
          f_equal.
          -- apply del_row_insert; [lia|]. intros j Hj.
             exact (HL j Hj (i, x :: col) (or_introl eq_refl)).
          -- apply IHf; [lia|].
             intros j Hj y [<-|Hy]; [exact (HL j Hj (i, x :: col) (or_introl eq_refl))|].
             apply (HL j Hj); right; exact Hy.
  Qed.

  Lemma column_entries c rows j :
    Forall (fun r => length r = c) rows -> j < c ->
    exists col, mapM (fun r => get r j) rows = Ok col /\ length col = length rows /\
      forall k r, nth_error rows k = Some r -> nth_error col k = nth_error r j.
  Proof.
    intros Hf Hj; induction Hf as [|r rows Hr Hf IH].
    - exists []; simpl; repeat split; intros [|k] r H; discriminate.
    - destruct IH as (col & E & Hl & Hn).
      destruct (nth_error r j) as [x|] eqn:Ex; [|apply nth_error_None in Ex; lia].
      exists (x :: col); simpl; rewrite (get_some _ _ _ Ex); simpl; rewrite E; simpl.
      split; [reflexivity|]; split; [lia|].
      intros [|k] r' H; simpl in *; [congruence|apply Hn; exact H].
  Qed.

  Lemma acolumns_ok c rows :
    Forall (fun r => length r = c) rows ->
    exists cols, acolumns (Mat c rows) = Ok cols /\ length cols = c /\
      (forall j col, nth_error cols j = Some col -> length col = length rows /\
         forall k r, nth_error rows k = Some r -> nth_error col k = nth_error r j).
  Proof.
    intros Hf; unfold acolumns.
    assert (G : forall m b, b + m <= c -> exists cols,
              mapM (fun j => mapM (fun r => get r j) rows) (seq b m) = Ok cols /\ length cols = m /\
              forall j col, nth_error cols j = Some col -> length col = length rows /\
                forall k r, nth_error rows k = Some r -> nth_error col k = nth_error r (b + j)).
    { induction m as [|m IH]; intros b Hb; simpl.
      - exists []; repeat split; destruct j; discriminate.
      - destruct (column_entries c rows b Hf) as (col & E & Hl & Hn); [lia|].
        destruct (IH (S b)) as (cols & E' & Hl' & Hn'); [lia|].
        exists (col :: cols); rewrite E; simpl; rewrite E'; simpl; split; [reflexivity|].
        split; [lia|].
        intros [|j] col' H; simpl in H.
        + assert (col' = col) as -> by congruence.
          rewrite Nat.add_0_r; split; assumption.
        + replace (b + S j) with (S b + j) by lia; apply Hn'; exact H. }
    destruct (G c 0) as (cols & E & Hl & Hn); [lia|].
    exists cols; split; [exact E|]; split; [exact Hl|].
    intros j col H; exact (Hn j col H).
  Qed.

  Lemma map_fst_combine {A B} (l : list A) (l' : list B) :
    length l = length l' -> map fst (combine l l') = l.
  Proof.
    revert l'; induction l as [|a l IH]; intros [|b l'] H; simpl in *; try lia; auto.
    rewrite IH by lia; reflexivity.
  Qed.

  Lemma in_combine_nth {A B} (l : list A) (l' : list B) a b :
    In (a, b) (combine l l') -> exists j, nth_error l j = Some a /\ nth_error l' j = Some b.
  Proof.
    revert l'; induction l as [|x l IH]; intros [|y l'] H; simpl in H; try destruct H as [].
    - exists 0; simpl; split; congruence.
    - destruct (IH l' H) as (j & H1 & H2); exists (S j); split; assumption.
  Qed.

  Lemma nth_combine {A B} (l : list A) (l' : list B) j a b :
    nth_error l j = Some a -> nth_error l' j = Some b -> In (a, b) (combine l l').
  Proof.
    revert l' j; induction l as [|x l IH]; intros [|y l'] [|j] H1 H2; simpl in *; try discriminate.
    - left; congruence.
    - right; eapply IH; eauto.
  Qed.

  Lemma del_row_all b r m : length r <= m -> del_row (seq b m) b r = [].
  Proof.
    intros Hm.
    assert (G : forall r b', b <= b' -> b' + length r <= b + m -> del_row (seq b m) b' r = []).
    { clear r Hm; induction r as [|x r IH]; intros b' H1 H2; simpl in *; [reflexivity|].
      assert (existsb (Nat.eqb b') (seq b m) = true) as ->
        by (apply existsb_eqb_In, in_seq; lia).
      apply IH; lia. }
    apply G; lia.
  Qed.

  Lemma forallb_lt js c : (forall j, In j js -> j < c) -> forallb (fun j => j <? c) js = true.
  Proof. intros H; apply forallb_forall; intros j Hj; apply Nat.ltb_lt, H, Hj. Qed.

  (** Selecting columns row by row. *)
  Lemma select_rows_ok js c m (rows urows : list (list F)) :
    length js = m -> Forall (fun r => length r = m) urows -> length rows = length urows ->
    (forall k r ur, nth_error rows k = Some r -> nth_error urows k = Some ur ->
       forall j i, nth_error js j = Some i -> nth_error r i = nth_error ur j) ->
    (forall j, In j js -> j < c) ->
    select_cols (Mat c rows) js = Ok (Mat m urows).
  Proof.
    intros Hm Hf Hl Hn Hb; unfold select_cols; rewrite forallb_lt by exact Hb.
    enough (mapM (fun r => mapM (get r) js) rows = Ok urows) as -> by (simpl; rewrite Hm; reflexivity).
    revert urows Hf Hl Hn; induction rows as [|r rows IH]; intros [|ur urows] Hf Hl Hn;
      simpl in *; try lia; [reflexivity|].
    inversion Hf as [|? ? Hu Hf']; subst.
    assert (mapM (get r) js = Ok ur) as ->.
    { pose proof (Hn 0 r ur eq_refl eq_refl) as H0; clear -H0 Hu.
      revert ur Hu H0; induction js as [|i js IHj]; intros [|x ur] Hu H0; simpl in *; try lia; auto.
      rewrite (get_some r i x) by (exact (H0 0 i eq_refl)); simpl.
      rewrite (IHj ur); [reflexivity|lia|].
      intros j i' Hj; exact (H0 (S j) i' Hj). }
    simpl; rewrite (IH urows); [reflexivity|exact Hf'|lia|].
    intros k r' ur' H1 H2; exact (Hn (S k) r' ur' H1 H2).
  Qed.

  Lemma del_row_repeat_length js c rows' rows n :
    (forall r', In r' rows' -> length r' = c) -> map (del_row js 0) rows' = rows ->
    Forall (fun r => length r = n) rows -> rows' <> [] ->
    length (del_row js 0 (repeat (n0 O) c)) = n.
  Proof.
    intros Hc E Hn Hne; destruct rows' as [|r' rows']; [congruence|].
    simpl in E; destruct rows as [|r rows]; [discriminate|].
    assert (del_row js 0 r' = r) by congruence; subst r.
    inversion Hn as [|? ? Hr ?]; subst.
    apply del_row_length_eq; rewrite repeat_length; symmetry; apply Hc; left; reflexivity.
  Qed.

  (** Columns that remain after deleting distinct valid positions. *)
  Lemma del_row_count js b (r : list F) :
    NoDup js -> (forall j, In j js -> b <= j < b + length r) ->
    length (del_row js b r) + length js = length r.
  Proof.
    revert js b; induction r as [|x r IH]; intros js b Hnd Hb; simpl in *.
    - destruct js as [|j js]; [reflexivity|]. specialize (Hb j (or_introl eq_refl)); lia.
    - destruct (existsb (Nat.eqb b) js) eqn:E.
      + apply existsb_eqb_In in E.
        destruct (in_split _ _ E) as (l1 & l2 & ->).
        pose proof (NoDup_remove_1 _ _ _ Hnd) as Hnd'.
        pose proof (NoDup_remove_2 _ _ _ Hnd) as Hni.
        assert (del_row (l1 ++ b :: l2) (S b) r = del_row (l1 ++ l2) (S b) r) as ->.
        { clear -Hni. assert (G : forall b', b < b' ->
              del_row (l1 ++ b :: l2) b' r = del_row (l1 ++ l2) b' r).
          { induction r as [|y r IHr]; intros b' Hb'; simpl; [reflexivity|].
            rewrite !existsb_app; simpl.
            assert ((b' =? b) = false) as -> by (apply Nat.eqb_neq; lia).
            simpl; rewrite IHr by lia; reflexivity. }
          apply G; lia. }
        rewrite app_length; simpl.
        specialize (IH (l1 ++ l2) (S b) Hnd'); rewrite app_length in IH.
        rewrite <- plus_n_Sm, plus_n_Sm. 
        assert (Hin : forall j, In j (l1 ++ l2) -> S b <= j < S b + length r).
        { intros j Hj. assert (In j (l1 ++ b :: l2)) as Hj'
            by (apply in_app_iff in Hj; apply in_app_iff; simpl; tauto).
          specialize (Hb j Hj'). assert (j <> b) by (intros ->; contradiction). lia. }
        specialize (IH Hin); lia.
      + simpl; rewrite IH; [reflexivity|exact Hnd|].
        intros j Hj; specialize (Hb j Hj).
        assert (j <> b) by (intros ->; apply existsb_eqb_In in Hj; congruence). lia.
  Qed.

  (** ** Differential control *)
  Lemma dc_roundtrip N n m idxs (s : sol F) :
    shape N n (s_y s) -> shape N m (s_u s) ->
    length idxs = m -> NoDup idxs -> (forall i, In i idxs -> i < n + m) ->
    exists s', dc_map O idxs s = Ok s' /\ dc_inv O idxs s' = Ok s /\
      shape N (n + m) (s_y s') /\ shape N 0 (s_u s') /\
      (forall j i, nth_error idxs j = Some i -> column_placed (s_u s) j (s_y s') i) /\
      (forall k j, (forall i, In i idxs -> j < i) -> entry (s_y s') k j = entry (s_y s) k j) /\
      set_y (s_y s) (set_u (s_u s) s') = s.
  Proof.
    intros (yr & Ey & Hyl & Hyf) (ur & Eu & Hul & Huf) Hm Hnd Hb.
    destruct (acolumns_ok m ur Huf) as (cols & Ec & Hcl & Hcn).
    assert (Hfst : map fst (combine idxs cols) = idxs) by (apply map_fst_combine; lia).
    destruct (sort_cols_ok (combine idxs cols)) as (l & El & Hll & Hinc & Hin); [rewrite Hfst; exact Hnd|].
    assert (Hlm : length l = m) by (rewrite Hll, combine_length; lia).
    assert (HinI : forall x, In x l -> exists j, nth_error idxs j = Some (fst x) /\
                              nth_error cols j = Some (snd x)).
    { intros [i col] Hx; apply Hin in Hx; apply in_combine_nth in Hx; exact Hx. }
    destruct (insert_all_ok l n yr [] Hinc) as (yr' & Ei & Hyl' & Hyf' & Hplace & Hkeep & Hdel).
    { intros x Hx; destruct (HinI x Hx) as (j & _ & Hj); destruct (Hcn j _ Hj); lia. }
    { exact Hyf. }
    { intros j []. }
    { intros x Hx; destruct (HinI x Hx) as (j & Hj & _); rewrite Hlm; apply Hb.
      eapply nth_error_In; eauto. }
    rewrite Hlm in *.
    set (u' := Mat 0 (map (del_row (seq 0 m) 0) ur)).
    exists (set_u u' (set_y (Mat (n + m) yr') s)).
    assert (Ed : delete_cols O (Mat m ur) (seq 0 m) = Ok u').
    { unfold delete_cols; rewrite forallb_lt by (intros j Hj; apply in_seq in Hj; lia).
      rewrite del_row_all by (rewrite repeat_length; lia); reflexivity. }
    assert (Hpl : forall j i, nth_error idxs j = Some i -> forall k r ru,
              nth_error yr' k = Some r -> nth_error ur k = Some ru -> nth_error r i = nth_error ru j).
    { intros j i Hj k r ru Hr Hru.
      destruct (nth_error cols j) as [col|] eqn:Ecol.
      2:{ apply nth_error_None in Ecol.
          assert (j < length idxs) by (apply nth_error_Some; congruence). lia. }
      pose proof (nth_combine _ _ _ _ _ Hj Ecol) as Hmem; apply Hin in Hmem.
      assert (Hk : k < length yr) by (rewrite <- Hyl'; apply nth_error_Some; congruence).
      destruct (Hplace _ Hmem k Hk) as (r' & Hr' & Hn); simpl in Hn.
      assert (r' = r) as -> by congruence.
      rewrite Hn; destruct (Hcn j col Ecol) as [_ Hc]; apply Hc; exact Hru. }
    assert (Hset : forall j, In j (map fst l) <-> In j idxs).
    { intros j; split; intros H.
      - apply in_map_iff in H as (x & <- & Hx); destruct (HinI x Hx) as (q & Hq & _).
        eapply nth_error_In; eauto.
      - rewrite <- Hfst in H; apply in_map_iff in H as (x & <- & Hx).
        apply in_map, Hin; exact Hx. }
    split.
    { unfold dc_map; rewrite Eu, Ec; simpl bind; rewrite El; simpl bind.
      rewrite Ey, Ei; simpl bind; simpl s_u; rewrite Eu, Hlm, Ed; reflexivity. }
    split.
    { unfold dc_inv; simpl s_y.
      rewrite (select_rows_ok idxs (n + m) m yr' ur); try assumption; try lia.
      2:{ intros k r ru H1 H2 j i Hj; exact (Hpl j i Hj k r ru H1 H2). }
      cbn -[delete_cols Nat.add].
      assert (delete_cols O (Mat (n + m) yr') idxs = Ok (Mat n yr)) as ->.
      { unfold delete_cols; rewrite forallb_lt by exact Hb.
        assert (map (del_row idxs 0) yr' = yr) as ->.
        { rewrite (map_ext _ (del_row (map fst l) 0)) by
            (intros r; apply del_row_ext; intros j; symmetry; apply Hset).
          change (map fst l) with ([] ++ map fst l); rewrite Hdel.
          rewrite <- (map_id yr) at 2; apply map_ext; intros r; apply del_row_none; intros j []. }
        pose proof (del_row_count idxs 0 (repeat (n0 O) (n + m)) Hnd) as HC.
        rewrite repeat_length in HC.
        rewrite Hm in HC.
        assert (length (del_row idxs 0 (repeat (n0 O) (n + m))) = n) as ->; [|reflexivity].
        specialize (HC ltac:(intros j Hj; specialize (Hb j Hj); lia)); lia. }
      simpl; destruct s; simpl in *; subst; reflexivity. }
    split; [exists yr'; split; [reflexivity|split; [lia|exact Hyf']]|].
    split.
    { eexists; split; [reflexivity|]; split; [rewrite map_length; exact Hul|].
      apply Forall_forall; intros r Hr; apply in_map_iff in Hr as (r0 & <- & Hr0).
      rewrite del_row_all; [reflexivity|].
      rewrite Forall_forall in Huf; rewrite (Huf _ Hr0); lia. }
    split.
    { intros j i Hj k Hk; rewrite Eu in *; simpl in *.
      destruct (nth_error ur k) as [ru|] eqn:Er; [|apply nth_error_None in Er; lia].
      destruct (nth_error yr' k) as [r|] eqn:Er'; [|apply nth_error_None in Er'; lia].
      exact (Hpl j i Hj k r ru Er' Er). }
    split.
    { intros k j Hj; rewrite Ey; simpl.
      destruct (nth_error yr k) as [r|] eqn:Er.
      - destruct (Hkeep k r Er j) as (r' & -> & Hn); [|exact Hn].
        intros x Hx; apply Hj, Hset, in_map; exact Hx.
      - apply nth_error_None in Er. assert (nth_error yr' k = None) as ->; [|reflexivity].
        apply nth_error_None; lia. }
    destruct s; simpl in *; subst; reflexivity.
  Qed.

  (** ** Squash *)
  Lemma app_rows_spec c1 c2 (r1 r2 : list (list F)) :
    length r1 = length r2 ->
    Forall (fun r => length r = c1) r1 -> Forall (fun r => length r = c2) r2 ->
    length (app_rows r1 r2) = length r1 /\
    Forall (fun r => length r = c1 + c2) (app_rows r1 r2) /\
    map (slice c1 (c1 + c2)) (app_rows r1 r2) = r2 /\
    map (unslice c1 (c1 + c2)) (app_rows r1 r2) = r1.
  Proof.
    intros Hl H1; revert r2 Hl; induction H1 as [|a r1 Ha H1 IH]; intros [|b r2] Hl H2;
      simpl in *; try lia; [repeat split; auto|].
    inversion H2 as [|? ? Hb H2']; subst.
    destruct (IH r2) as (E1 & E2 & E3 & E4); [lia|assumption|].
    split; [lia|]; split; [constructor; [rewrite app_length; reflexivity|exact E2]|].
    split.
    - f_equal; [|exact E3]. unfold slice.
      replace (length a + length b - length a) with (length b) by lia.
      rewrite skipn_app, skipn_all, Nat.sub_diag; simpl; apply firstn_all.
    - f_equal; [|exact E4]. unfold unslice.
      destruct (Nat.leb_spec (length a + length b) (length a)) as [H|H].
      + destruct b; simpl in *; [apply app_nil_r|lia].
      + rewrite firstn_app, firstn_all, Nat.sub_diag; simpl; rewrite app_nil_r.
        rewrite skipn_all2 by (rewrite app_length; lia); apply app_nil_r.
  Qed.

  Lemma sq_roundtrip N n nd a_lo a_hi (s : sol F) :
    0 < N -> shape N n (s_y s) -> shape N nd (s_dual s) ->
    exists s', sq_map s = Ok s' /\
      sq_inv n (n + nd) a_lo a_hi s' = Ok (set_nu (unslice a_lo a_hi (s_nu s)) s) /\
      shape N (n + nd) (s_y s') /\
      (forall k j, j < n -> entry (s_y s') k j = entry (s_y s) k j) /\
      (forall k j, j < nd -> entry (s_y s') k (n + j) = entry (s_dual s) k j) /\
      set_y (s_y s) s' = s.
  Proof.
    intros HN (yr & Ey & Hyl & Hyf) (dr & Ed & Hdl & Hdf).
    destruct (app_rows_spec n nd yr dr) as (E1 & E2 & E3 & E4); [lia|assumption|assumption|].
    exists (set_y (Mat (n + nd) (app_rows yr dr)) s).
    split.
    { unfold sq_map; rewrite Ed; simpl alen.
      assert ((0 <? length dr) = true) as -> by (apply Nat.ltb_lt; lia).
      unfold concat_cols; rewrite Ey, Hyl, Hdl, Nat.eqb_refl; reflexivity. }
    split.
    { unfold sq_inv; simpl s_y; unfold select_slice, delete_slice; simpl bind.
      simpl s_y; rewrite E3, E4.
      replace (n + nd - (Nat.min (n + nd) (n + nd) - Nat.min n (n + nd))) with n by lia.
      replace (Nat.min (n + nd) (n + nd) - Nat.min n (n + nd)) with nd by lia.
      destruct s; simpl in *; subst; reflexivity. }
    assert (Hent : forall k, k < N -> exists a b, nth_error yr k = Some a /\ nth_error dr k = Some b
                     /\ nth_error (app_rows yr dr) k = Some (a ++ b) /\ length a = n).
    { clear -Hyl Hdl Hyf. revert yr dr Hyl Hdl Hyf. induction N as [|N IH]; intros yr dr Hyl Hdl Hyf k Hk; [lia|].
      destruct yr as [|a yr]; [discriminate|]; destruct dr as [|b dr]; [discriminate|].
      inversion Hyf; subst; simpl in *.
      destruct k as [|k]; simpl; [exists a, b; auto|].
      apply IH; (lia || assumption). }
    split; [eexists; split; [reflexivity|split; [lia|exact E2]]|].
    split; [|split; [|destruct s; simpl in *; subst; reflexivity]].
    - intros k j Hj; rewrite Ey; simpl.
      destruct (Nat.lt_ge_cases k N) as [Hk|Hk].
      + destruct (Hent k Hk) as (a & b & -> & Hb & -> & Ha).
        apply nth_error_app1; lia.
      + rewrite !(proj2 (nth_error_None _ k)) by lia; reflexivity.
    - intros k j Hj; rewrite Ed; simpl.
      destruct (Nat.lt_ge_cases k N) as [Hk|Hk].
      + destruct (Hent k Hk) as (a & b & Ha' & -> & -> & Ha).
        rewrite nth_error_app2 by lia; f_equal; lia.
      + rewrite !(proj2 (nth_error_None _ k)) by lia; reflexivity.
  Qed.
End Arrays.
