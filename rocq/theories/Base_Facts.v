(** Lemmas about the shared definitions. *)
From Verif Require Import Base.
From Coq Require Import Reals Lra.

Lemma index_of_nth x l j : index_of x l = Ok j -> nth_error l j = Some x.
Proof.
  revert j; induction l as [|y l IH]; intros j H; simpl in H; [discriminate|].
  destruct (String.eqb_spec x y) as [->|Hne].
  - injection H as <-; reflexivity.
  - destruct (index_of x l) as [j'|e] eqn:E; simpl in H; [|discriminate].
    injection H as <-; simpl; apply IH; reflexivity.
Qed.

Lemma index_of_NoDup x l j : NoDup l -> nth_error l j = Some x -> index_of x l = Ok j.
Proof.
  intros Hnd; revert j; induction Hnd as [|y l Hy Hnd IH]; intros j H.
  - destruct j; discriminate.
  - destruct j as [|j]; simpl in *.
    + injection H as ->; rewrite String.eqb_refl; reflexivity.
    + destruct (String.eqb_spec x y) as [->|Hne].
      * exfalso; apply Hy; eapply nth_error_In; eauto.
      * rewrite (IH _ H); reflexivity.
Qed.

Lemma index_of_In x l : In x l -> exists j, index_of x l = Ok j.
Proof.
  induction l as [|y l IH]; intros H; [destruct H|].
  simpl; destruct (String.eqb_spec x y) as [->|Hne]; [eauto|].
  destruct H as [->|H]; [congruence|].
  destruct (IH H) as [j Hj]; rewrite Hj; simpl; eauto.
Qed.

Lemma index_of_notIn x l : ~ In x l -> index_of x l = Raise ValueError.
Proof.
  induction l as [|y l IH]; intros H; [reflexivity|].
  simpl; destruct (String.eqb_spec x y) as [->|Hne]; [exfalso; apply H; left; reflexivity|].
  rewrite IH; [reflexivity|]. intros H'; apply H; right; exact H'.
Qed.

Lemma index_of_lt x l j : index_of x l = Ok j -> (j < length l)%nat.
Proof. intros H; apply index_of_nth in H; apply nth_error_Some; congruence. Qed.

Lemma get_ok {A} (l : list A) i a : get l i = Ok a -> nth_error l i = Some a.
Proof. unfold get; destruct (nth_error l i); congruence. Qed.

Lemma get_some {A} (l : list A) i a : nth_error l i = Some a -> get l i = Ok a.
Proof. unfold get; intros ->; reflexivity. Qed.

Lemma set_nth_ok {A} (l l' : list A) i v :
  set_nth l i v = Ok l' ->
  length l' = length l /\
  (i < length l)%nat /\
  (forall j, nth_error l' j = if Nat.eqb j i then Some v else nth_error l j).
Proof.
  unfold set_nth; destruct (Nat.ltb_spec i (length l)) as [Hi|Hi]; [|discriminate].
  intros H; assert (l' = firstn i l ++ v :: skipn (S i) l) as -> by congruence; clear H.
  split; [|split; [exact Hi|]].
  - rewrite app_length, firstn_length_le by lia.
    change (length (v :: skipn (S i) l)) with (S (length (skipn (S i) l))).
    rewrite skipn_length; lia.
  - intros j; destruct (Nat.eqb_spec j i) as [->|Hne].
    + rewrite nth_error_app2; rewrite firstn_length_le by lia; [|lia].
      rewrite Nat.sub_diag; reflexivity.
    + destruct (Nat.lt_ge_cases j i) as [Hlt|Hge].
      * rewrite nth_error_app1 by (rewrite firstn_length_le; lia).
        rewrite <- (firstn_skipn i l) at 2.
        rewrite nth_error_app1 by (rewrite firstn_length_le; lia); reflexivity.
      * rewrite nth_error_app2; rewrite firstn_length_le by lia; [|lia].
        rewrite <- (firstn_skipn (S i) l) at 2.
        rewrite nth_error_app2; rewrite firstn_length_le by lia; [|lia].
        replace (j - i)%nat with (S (j - S i)) by lia; reflexivity.
Qed.

Lemma set_nth_exists {A} (l : list A) i v :
  (i < length l)%nat -> exists l', set_nth l i v = Ok l'.
Proof. intros H; unfold set_nth; apply Nat.ltb_lt in H; rewrite H; eauto. Qed.

Lemma nth_error_ext {A} (l l' : list A) :
  (forall i, nth_error l i = nth_error l' i) -> l = l'.
Proof.
  revert l'; induction l as [|a l IH]; intros [|b l'] H.
  - reflexivity.
  - specialize (H 0%nat); discriminate.
  - specialize (H 0%nat); discriminate.
  - pose proof (H 0%nat) as H0; injection H0 as ->.
    f_equal; apply IH; intros i; exact (H (S i)).
Qed.

Lemma nth_error_ext_len {A} (l l' : list A) :
  length l = length l' ->
  (forall i, (i < length l)%nat -> nth_error l i = nth_error l' i) -> l = l'.
Proof.
  intros Hl H; apply nth_error_ext; intros i.
  destruct (Nat.lt_ge_cases i (length l)) as [Hi|Hi]; [apply H; exact Hi|].
  rewrite (proj2 (nth_error_None l i)) by lia.
  rewrite (proj2 (nth_error_None l' i)) by lia; reflexivity.
Qed.

Lemma removelast_length {A} (l : list A) : length (removelast l) = (length l - 1)%nat.
Proof.
  induction l as [|a l IH]; [reflexivity|].
  destruct l as [|b l]; [reflexivity|].
  change (removelast (a :: b :: l)) with (a :: removelast (b :: l)).
  cbn [length] in *; lia.
Qed.

Lemma inner_length {A} (l : list A) : length (inner l) = (length l - 2)%nat.
Proof. unfold inner; rewrite removelast_length; destruct l; simpl; lia. Qed.

Lemma nth_error_removelast {A} (l : list A) i :
  (i < length l - 1)%nat -> nth_error (removelast l) i = nth_error l i.
Proof.
  revert i; induction l as [|a l IH]; intros i H; [simpl in H; lia|].
  destruct l as [|b l]; [simpl in H; lia|].
  change (removelast (a :: b :: l)) with (a :: removelast (b :: l)).
  destruct i as [|i]; [reflexivity|]. cbn [nth_error]; apply IH; cbn [length] in *; lia.
Qed.

Lemma nth_error_map_seq {A} (f : nat -> A) n i :
  (i < n)%nat -> nth_error (map f (seq 0 n)) i = Some (f i).
Proof.
  intros H; rewrite nth_error_map.
  rewrite (nth_error_nth' (seq 0 n) 0%nat) by (rewrite seq_length; exact H).
  rewrite seq_nth by exact H; reflexivity.
Qed.

Section LinspaceFacts.
  Context {F : Type} (O : NumOps F).

  Lemma linspace_length endpoint a b n l :
    linspace_gen O endpoint a b n = Ok l -> length l = Z.to_nat n /\ 0 <= n.
  Proof.
    unfold linspace_gen; destruct (Z.ltb_spec n 0) as [Hn|Hn]; [discriminate|].
    intros H; injection H as <-; split; [|exact Hn].
    destruct (endpoint && (1 <? n)) eqn:E.
    - apply andb_prop in E; destruct E as [_ E]; apply Z.ltb_lt in E.
      rewrite app_length, removelast_length, map_length, seq_length; simpl; lia.
    - rewrite map_length, seq_length; reflexivity.
  Qed.

  Lemma linspace_ok endpoint a b n : 0 <= n -> exists l, linspace_gen O endpoint a b n = Ok l.
  Proof.
    intros H; unfold linspace_gen; destruct (Z.ltb_spec n 0); [lia|]; eauto.
  Qed.

  Lemma linspace_neg endpoint a b n : n < 0 -> linspace_gen O endpoint a b n = Raise ValueError.
  Proof.
    intros H; unfold linspace_gen; destruct (Z.ltb_spec n 0); [reflexivity|lia].
  Qed.

  Lemma linspace_nth a b n l i :
    linspace O a b n = Ok l -> (i < Z.to_nat n)%nat ->
    nth_error l i = Some (if (1 <? n) && Nat.eqb i (Z.to_nat n - 1) then b
                          else linspace_elem O (n - 1) a b i).
  Proof.
    unfold linspace, linspace_gen; destruct (Z.ltb_spec n 0) as [Hn|Hn]; [discriminate|].
    intros H; injection H as <-; intros Hi; cbn [andb].
    destruct (Z.ltb_spec 1 n) as [H1|H1]; cbn [andb].
    - destruct (Nat.eqb_spec i (Z.to_nat n - 1)) as [->|Hne].
      + rewrite nth_error_app2; rewrite removelast_length, map_length, seq_length; [|lia].
        rewrite Nat.sub_diag; reflexivity.
      + rewrite nth_error_app1; rewrite ?removelast_length, ?map_length, ?seq_length; [|lia].
        rewrite nth_error_removelast by (rewrite map_length, seq_length; lia).
        rewrite nth_error_map_seq by exact Hi; reflexivity.
    - rewrite nth_error_map_seq by exact Hi; reflexivity.
  Qed.

  Lemma linspace_open_nth a b n l i :
    linspace_gen O false a b n = Ok l -> (i < Z.to_nat n)%nat ->
    nth_error l i = Some (linspace_elem O n a b i).
  Proof.
    unfold linspace_gen; destruct (Z.ltb_spec n 0) as [Hn|Hn]; [discriminate|].
    intros H; injection H as <-; intros Hi; cbn [andb].
    rewrite nth_error_map_seq by exact Hi; reflexivity.
  Qed.
End LinspaceFacts.

(** Exact values of linspace over the reals. *)
Lemma linspace_elem_R div a b i :
  (0 < div)%Z -> linspace_elem ROps div a b i = (a + INR i * (b - a) / IZR div)%R.
Proof.
  intros Hd; unfold linspace_elem; simpl.
  destruct (Z.ltb_spec 0 div) as [_|H]; [|lia].
  assert (IZR div <> 0%R) as Hne by (apply IZR_neq; lia).
  rewrite <- INR_IZR_INZ.
  destruct (Req_EM_T ((b - a) / IZR div) 0) as [E|E]; field; exact Hne.
Qed.

Lemma linspace_nth_R a b n l i :
  linspace ROps a b n = Ok l -> 2 <= n -> (i < Z.to_nat n)%nat ->
  nth_error l i = Some (a + INR i * (b - a) / IZR (n - 1))%R.
Proof.
  intros H Hn Hi; rewrite (linspace_nth _ _ _ _ _ _ H Hi).
  destruct (Z.ltb_spec 1 n) as [_|?]; [|lia]; cbn [andb].
  destruct (Nat.eqb_spec i (Z.to_nat n - 1)) as [->|Hne].
  - f_equal. rewrite INR_IZR_INZ. replace (Z.of_nat (Z.to_nat n - 1)) with (n - 1) by lia.
    field. apply IZR_neq; lia.
  - rewrite linspace_elem_R by lia; reflexivity.
Qed.
