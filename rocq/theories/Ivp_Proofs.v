(** Lemmas on grids, piecewise linear interpolation and integration nodes. *)
From Coq Require Import QArith Qround Lqa Sorted.
From Verif Require Import Base Base_Facts Shoot_Model Ivp_Model.
Open Scope Q_scope.

Definition exact (x : Q) : Q := x.

Lemma Qltb_iff a b : Qltb a b = true <-> a < b.
Proof.
  unfold Qltb. rewrite negb_true_iff. destruct (Qle_bool b a) eqn:E.
  - apply Qle_bool_iff in E. split; [discriminate | intro; lra].
  - split; [|reflexivity]. intros _. apply Qnot_le_lt. intro H. apply Qle_bool_iff in H. congruence.
Qed.
Lemma Qltb_false a b : Qltb a b = false <-> b <= a.
Proof.
  destruct (Qltb a b) eqn:E.
  - apply Qltb_iff in E. split; [discriminate | intro; lra].
  - split; [|reflexivity]. intros _. apply Qnot_lt_le. intro H. apply Qltb_iff in H. congruence.
Qed.
Lemma Qle_bool_false a b : Qle_bool a b = false <-> b < a.
Proof. rewrite <- Qltb_iff. unfold Qltb. destruct (Qle_bool a b); simpl; split; congruence. Qed.
Lemma Qeq_bool_false a b : Qeq_bool a b = false <-> ~ a == b.
Proof.
  destruct (Qeq_bool a b) eqn:E.
  - apply Qeq_bool_iff in E. split; [discriminate | tauto].
  - split; [|reflexivity]. intros _ H. apply Qeq_bool_iff in H. congruence.
Qed.

Lemma Qceiling_unique x z : inject_Z (z - 1) < x -> x <= inject_Z z -> Qceiling x = z.
Proof.
  intros H1 H2.
  assert (A : (Qceiling x <= z)%Z) by (rewrite <- (Qceiling_Z z); now apply Qceiling_resp_le).
  assert (B : (z - 1 < Qceiling x)%Z).
  { pose proof (Qle_ceiling x). rewrite Zlt_Qlt. eapply Qlt_le_trans; eauto. }
  lia.
Qed.

Lemma last_of_snoc {A} (l : list A) a : last_of (l ++ [a]) = Ok a.
Proof. unfold last_of. now rewrite rev_app_distr. Qed.
Lemma last_of_ok {A} (l : list A) a : last_of l = Ok a -> exists l', l = l' ++ [a].
Proof.
  unfold last_of. destruct (rev l) as [|b r] eqn:E; [discriminate|].
  intro H. injection H as ->. exists (rev r). rewrite <- (rev_involutive l), E. reflexivity.
Qed.

(** ** The step grid in exact arithmetic *)
Definition grid_pt (t0 h : Q) (i : nat) : Q :=
  match i with
  | O => t0
  | 1%nat => t0 + h
  | _ => t0 + inject_Z (Z.of_nat i) * (t0 + h - t0)
  end.
Lemma grid_pt_val t0 h i : grid_pt t0 h i == t0 + inject_Z (Z.of_nat i) * h.
Proof.
  destruct i as [|[|i]]; cbn [grid_pt].
  - change (inject_Z (Z.of_nat 0)) with 0. ring.
  - change (inject_Z (Z.of_nat 1)) with 1. ring.
  - generalize (inject_Z (Z.of_nat (S (S i)))). intro q. ring.
Qed.

Definition grid_len (t0 tf h : Q) : nat := Z.to_nat (Qceiling ((tf - t0) / h)).
Lemma arange_exact t0 tf h :
  0 < h -> arange exact t0 tf h = Ok (map (grid_pt t0 h) (seq 0 (grid_len t0 tf h))).
Proof.
  intro H. unfold arange. assert (E : Qeq_bool h 0 = false) by (apply Qeq_bool_false; lra).
  rewrite E. reflexivity.
Qed.
Lemma grid_len_spec t0 tf h :
  0 < h -> t0 < tf ->
  exists n, grid_len t0 tf h = S n /\ t0 + inject_Z (Z.of_nat n) * h < tf /\ tf <= t0 + inject_Z (Z.of_nat (S n)) * h.
Proof.
  intros Hh Ht. set (r := (tf - t0) / h).
  assert (Hr : r * h == tf - t0) by (unfold r; field; lra).
  assert (Hp : 0 < r) by (unfold r; apply Qlt_shift_div_l; lra).
  assert (C : r <= inject_Z (Qceiling r)) by apply Qle_ceiling.
  assert (D : inject_Z (Qceiling r - 1) < r) by apply Qceiling_lt.
  assert (P : (0 < Qceiling r)%Z) by (rewrite Zlt_Qlt; exact (Qlt_le_trans _ _ _ Hp C)).
  unfold grid_len. fold r. clearbody r. exists (Nat.pred (Z.to_nat (Qceiling r))).
  assert (L : (Z.to_nat (Qceiling r) <> 0)%nat) by lia.
  split; [lia|].
  replace (Z.of_nat (S (Nat.pred (Z.to_nat (Qceiling r))))) with (Qceiling r) by lia.
  replace (Z.of_nat (Nat.pred (Z.to_nat (Qceiling r)))) with (Qceiling r - 1)%Z by lia.
  split.
  - assert (inject_Z (Qceiling r - 1) * h < r * h) by (apply Qmult_lt_r; assumption). lra.
  - assert (r * h <= inject_Z (Qceiling r) * h) by (apply Qmult_le_r; assumption). lra.
Qed.

(** ** Counting the points before a time *)
Definition before (x : Q) (ts : list Q) : list Q := filter (fun t => Qltb t x) ts.
Definition from (x : Q) (ts : list Q) : list Q := filter (fun t => negb (Qltb t x)) ts.

Lemma before_none x t ts : StronglySorted Qlt (t :: ts) -> x <= t -> before x (t :: ts) = [].
Proof.
  intros S H. apply StronglySorted_inv in S as [_ F].
  assert (G : Forall (fun s => Qltb s x = false) (t :: ts)).
  { constructor; [now apply Qltb_false|]. eapply Forall_impl; [|exact F]. cbv beta. intros a Ha. apply Qltb_false. lra. }
  unfold before. revert G. generalize (t :: ts). intro l. induction l as [|a l IH]; intro G; [reflexivity|].
  inversion G; subst. simpl. rewrite H2. now apply IH.
Qed.
Lemma from_all x t ts : StronglySorted Qlt (t :: ts) -> x <= t -> from x (t :: ts) = t :: ts.
Proof.
  intros S H. apply StronglySorted_inv in S as [_ F].
  assert (G : Forall (fun s => Qltb s x = false) (t :: ts)).
  { constructor; [now apply Qltb_false|]. eapply Forall_impl; [|exact F]. cbv beta. intros a Ha. apply Qltb_false. lra. }
  unfold from. revert G. generalize (t :: ts). intro l. induction l as [|a l IH]; intro G; [reflexivity|].
  inversion G; subst. simpl. rewrite H2. simpl. f_equal. now apply IH.
Qed.
Lemma split_at x ts : StronglySorted Qlt ts -> ts = before x ts ++ from x ts.
Proof.
  induction ts as [|t ts IH]; intro S; [reflexivity|].
  destruct (Qltb t x) eqn:E.
  - unfold before, from. simpl. rewrite E. simpl. f_equal. apply IH. now apply StronglySorted_inv in S.
  - apply Qltb_false in E. rewrite before_none, from_all; auto.
Qed.
Lemma sorted_filter (P : Q -> bool) ts : StronglySorted Qlt ts -> StronglySorted Qlt (filter P ts).
Proof.
  induction 1 as [|t ts S IH F]; [constructor|]. simpl. destruct (P t); [|assumption].
  constructor; [assumption|]. apply Forall_forall. intros a Ha. apply filter_In in Ha as [Ha _].
  rewrite Forall_forall in F. auto.
Qed.

(** The index interpolated by [np.interp] and rounded up counts them. *)
Definition indices (k : nat) (n : nat) : list Q := map (fun i => inject_Z (Z.of_nat i)) (seq k n).
Lemma interp_count x rest : forall t k,
  StronglySorted Qlt (t :: rest) -> t <= x -> x <= last rest t ->
  Qceiling (interp_from exact x (t, inject_Z (Z.of_nat k)) (combine rest (indices (S k) (length rest))))
  = (Z.of_nat k + Z.of_nat (length (before x (t :: rest))))%Z.
Proof.
  induction rest as [|t' rest IH]; intros t k S H1 H2.
  - simpl in H2. simpl. assert (E : Qltb t x = false) by (apply Qltb_false; lra).
    rewrite E. simpl. rewrite Z.add_0_r. apply Qceiling_Z.
  - pose proof S as S'. apply StronglySorted_inv in S' as [S' F].
    pose proof (Forall_inv F) as Htt'. cbv beta in Htt'.
    change (indices (Datatypes.S k) (length (t' :: rest))) with (inject_Z (Z.of_nat (Datatypes.S k)) :: indices (Datatypes.S (Datatypes.S k)) (length rest)).
    cbn [combine interp_from fst snd].
    destruct (Qle_bool t' x) eqn:E.
    + apply Qle_bool_iff in E. rewrite IH; auto.
      * assert (T : Qltb t x = true) by (apply Qltb_iff; lra).
        unfold before. cbn [filter]. rewrite T. fold (before x (t' :: rest)).
        change (if Qltb t' x then t' :: filter (fun s => Qltb s x) rest else filter (fun s => Qltb s x) rest) with (before x (t' :: rest)).
        cbn [length]. lia.
      * destruct rest as [|a r]; [assumption|]. clear - H2. change (x <= last (a :: r) t) in H2.
        assert (L : forall d d', last (a :: r) d = last (a :: r) d').
        { clear. revert a. induction r as [|b r IH]; intros; [reflexivity|]. change (last (b :: r) d = last (b :: r) d'). apply IH. }
        rewrite (L t' t). exact H2.
    + apply Qle_bool_false in E.
      assert (N : before x (t' :: rest) = []) by (apply before_none; [assumption | lra]).
      unfold before in N |- *. cbn [filter] in N |- *. rewrite N.
      destruct (Qeq_bool t x) eqn:E2.
      * apply Qeq_bool_iff in E2. assert (T : Qltb t x = false) by (apply Qltb_false; lra).
        rewrite T. simpl length. rewrite Z.add_0_r. apply Qceiling_Z.
      * apply Qeq_bool_false in E2. assert (T : Qltb t x = true) by (apply Qltb_iff; lra).
        rewrite T. cbn [length]. apply Qceiling_unique.
        -- replace (Z.of_nat k + Z.of_nat 1 - 1)%Z with (Z.of_nat k) by lia.
           unfold radd, rmul, rdiv, rsub, exact. rewrite Nat2Z.inj_succ, <- Z.add_1_r, inject_Z_plus.
           assert (0 < (inject_Z (Z.of_nat k) + inject_Z 1 - inject_Z (Z.of_nat k)) / (t' - t) * (x - t)); [|lra].
           apply Qmult_lt_0_compat; [|lra]. apply Qlt_shift_div_l; [lra|]. unfold inject_Z at 2. lra.
        -- unfold radd, rmul, rdiv, rsub, exact. rewrite inject_Z_plus, Nat2Z.inj_succ, <- Z.add_1_r, inject_Z_plus.
           assert (Y : (inject_Z (Z.of_nat k) + inject_Z 1 - inject_Z (Z.of_nat k)) / (t' - t) * (x - t) == (x - t) / (t' - t)).
           { unfold inject_Z at 2. field. lra. }
           rewrite Y. assert ((x - t) / (t' - t) <= 1) by (apply Qle_shift_div_r; lra).
           change (inject_Z (Z.of_nat 1)) with 1. lra.
Qed.

(** ** Interpolation *)
Definition ptlt (p p' : Q * Q) : Prop := fst p < fst p'.

Lemma interp_hit rnd x v x' rest : forall p,
  StronglySorted ptlt (p :: rest) -> In (x', v) (p :: rest) -> x' == x -> interp_from rnd x p rest = v.
Proof.
  induction rest as [|p' rest IH]; intros p S I E.
  - destruct I as [->|[]]. reflexivity.
  - apply StronglySorted_inv in S as [S F]. pose proof (Forall_inv F) as L. unfold ptlt in L.
    cbn [interp_from]. destruct (Qle_bool (fst p') x) eqn:B.
    + apply Qle_bool_iff in B. apply IH; auto. destruct I as [->|I]; [simpl in L; lra | exact I].
    + apply Qle_bool_false in B. destruct I as [->|I].
      * simpl. assert (Q1 : Qeq_bool x' x = true) by now apply Qeq_bool_iff. now rewrite Q1.
      * exfalso. destruct I as [->|I]; [simpl in B; lra|].
        apply StronglySorted_inv in S as [_ G]. rewrite Forall_forall in G. specialize (G _ I). unfold ptlt in G. simpl in G. lra.
Qed.

Lemma sorted_first p rest q : StronglySorted ptlt (p :: rest) -> In q (p :: rest) -> fst p <= fst q.
Proof.
  intros S [->|I]; [lra|]. apply StronglySorted_inv in S as [_ F]. rewrite Forall_forall in F.
  specialize (F _ I). unfold ptlt in F. lra.
Qed.
Lemma sorted_last l z r q : StronglySorted ptlt l -> rev l = z :: r -> In q l -> fst q <= fst z.
Proof.
  intros S E I. assert (El : l = rev r ++ [z]) by (rewrite <- (rev_involutive l), E; reflexivity).
  subst l. clear E. induction (rev r) as [|a l IH]; simpl in *.
  - destruct I as [->|[]]. lra.
  - apply StronglySorted_inv in S as [S F]. destruct I as [->|I]; [|auto].
    rewrite Forall_forall in F. specialize (F z). unfold ptlt in F. assert (fst q < fst z) by (apply F, in_or_app; right; left; reflexivity). lra.
Qed.
Lemma sorted_same l p q : StronglySorted ptlt l -> In p l -> In q l -> fst p == fst q -> p = q.
Proof.
  induction 1 as [|a l S IH F]; intros Ip Iq E; [destruct Ip|]. rewrite Forall_forall in F. unfold ptlt in F.
  destruct Ip as [->|Ip], Iq as [->|Iq]; auto.
  - specialize (F _ Iq). lra.
  - specialize (F _ Ip). lra.
Qed.

Definition line (a va b vb x : Q) : Q := va + (x - a) / (b - a) * (vb - va).
Lemma interp_segment x a va b vb rest : forall p,
  StronglySorted ptlt (p :: rest) -> In (a, va) (p :: rest) -> In (b, vb) (p :: rest) ->
  a < b -> (forall q, In q (p :: rest) -> ~ (a < fst q /\ fst q < b)) -> a <= x -> x <= b ->
  interp_from exact x p rest == line a va b vb x.
Proof.
  induction rest as [|p' rest IH]; intros p S Ia Ib Hab N H1 H2.
  - destruct Ia as [->|[]], Ib as [Eb|[]]. injection Eb as -> ->. lra.
  - pose proof S as S0. apply StronglySorted_inv in S as [S F]. pose proof (Forall_inv F) as L. unfold ptlt in L.
    cbn [interp_from].
    assert (Ib' : In (b, vb) (p' :: rest)).
    { destruct Ib as [->|Ib]; [|exact Ib]. pose proof (sorted_first _ _ _ S0 Ia) as G. simpl in G. lra. }
    destruct (Qle_bool (fst p') x) eqn:B.
    + apply Qle_bool_iff in B. destruct Ia as [->|Ia].
      * simpl in L. assert (X : fst p' == b).
        { assert (~ (a < fst p' /\ fst p' < b)) by (apply N; right; left; reflexivity).
          destruct (Qlt_le_dec (fst p') b); [tauto | lra]. }
        assert (Eb : p' = (b, vb)) by (apply (sorted_same (p' :: rest)); [assumption | left; reflexivity | assumption | exact X]).
        subst p'. simpl in B. rewrite (interp_hit exact x vb b); [|assumption|left; reflexivity|lra].
        unfold line. assert (Y : x == b) by lra. rewrite Y. field. lra.
      * apply IH; auto. intros q Iq. apply N. now right.
    + apply Qle_bool_false in B.
      assert (Ea : p = (a, va)).
      { destruct Ia as [E|Ia]; [exact E|]. pose proof (sorted_first _ _ _ S Ia) as G. simpl in G. lra. }
      subst p. simpl in L.
      assert (Eb : p' = (b, vb)).
      { apply (sorted_same (p' :: rest)); [assumption | left; reflexivity | assumption |].
        pose proof (sorted_first _ _ _ S Ib') as G. simpl in G |- *.
        assert (~ (a < fst p' /\ fst p' < b)) by (apply N; right; left; reflexivity).
        destruct (Qlt_le_dec (fst p') b); [tauto | lra]. }
      subst p'. simpl fst. simpl snd. unfold line. destruct (Qeq_bool a x) eqn:E.
      * apply Qeq_bool_iff in E. rewrite <- E. field. lra.
      * unfold radd, rmul, rdiv, rsub, exact. field. lra.
Qed.

Lemma insert_In p q l : In q (insert_pt p l) <-> q = p \/ In q l.
Proof.
  induction l as [|a l IH]; simpl; [intuition|]. destruct (Qltb (fst a) (fst p)); simpl; [rewrite IH|]; intuition.
Qed.
Lemma insert_sorted p l :
  StronglySorted ptlt l -> (forall q, In q l -> ~ fst p == fst q) -> StronglySorted ptlt (insert_pt p l).
Proof.
  induction 1 as [|a l S IH F]; intro N; simpl; [repeat constructor|].
  destruct (Qltb (fst a) (fst p)) eqn:E.
  - apply Qltb_iff in E. constructor; [apply IH; intros; apply N; now right|].
    apply Forall_forall. intros q Iq. apply insert_In in Iq as [->|Iq]; [exact E|].
    rewrite Forall_forall in F. auto.
  - apply Qltb_false in E. assert (L : fst p < fst a).
    { assert (~ fst p == fst a) by (apply N; left; reflexivity). destruct (Qlt_le_dec (fst p) (fst a)); [assumption | lra]. }
    constructor; [now constructor|]. constructor; [exact L|]. eapply Forall_impl; [|exact F].
    cbv beta. unfold ptlt. intros q Hq. lra.
Qed.
Lemma sort_In q l : In q (sort_pts l) <-> In q l.
Proof. induction l as [|a l IH]; simpl; [tauto|]. rewrite insert_In, IH. intuition. Qed.

Definition distinct (ts : list Q) : Prop :=
  forall i j a b, nth_error ts i = Some a -> nth_error ts j = Some b -> a == b -> i = j.
Lemma sort_sorted ts : forall vs, distinct ts -> StronglySorted ptlt (sort_pts (combine ts vs)).
Proof.
  induction ts as [|t ts IH]; intros [|v vs] D; simpl; try constructor.
  apply insert_sorted.
  - apply IH. intros i j a b Hi Hj E. specialize (D (S i) (S j) a b Hi Hj E). lia.
  - intros [t' v'] I E. apply sort_In, in_combine_l, In_nth_error in I as [j Hj].
    specialize (D O (S j) t t' eq_refl Hj E). lia.
Qed.
Lemma combine_nth_In {A B} (l : list A) : forall (l' : list B) i a b,
  nth_error l i = Some a -> nth_error l' i = Some b -> In (a, b) (combine l l').
Proof.
  induction l as [|x l IH]; intros [|y l'] [|i] a b H H'; simpl in *; try discriminate.
  - injection H as ->. injection H' as ->. now left.
  - right. eauto.
Qed.

Lemma interp1d_hit rnd ts vs i t v :
  distinct ts -> length ts = length vs -> nth_error ts i = Some t -> nth_error vs i = Some v ->
  interp1d rnd ts vs t = Ok v.
Proof.
  intros D L Ht Hv. unfold interp1d. rewrite L, Nat.eqb_refl. cbn [negb].
  pose proof (sort_sorted ts vs D) as S.
  assert (I : In (t, v) (sort_pts (combine ts vs))) by (apply sort_In; eapply combine_nth_In; eauto).
  destruct (sort_pts (combine ts vs)) as [|p rest] eqn:E; [destruct I|].
  destruct (rev (p :: rest)) as [|z r] eqn:R; [apply (f_equal (@length _)) in R; rewrite rev_length in R; discriminate|].
  pose proof (sorted_first _ _ _ S I) as A1. pose proof (sorted_last _ _ _ _ S R I) as A2. simpl in A1, A2.
  assert (B1 : Qltb t (fst p) = false) by now apply Qltb_false.
  assert (B2 : Qltb (fst z) t = false) by now apply Qltb_false.
  unfold np_interp. rewrite R, B1, B2. cbn [orb]. f_equal. eapply interp_hit; eauto. reflexivity.
Qed.

Lemma interp1d_segment ts vs i j a va b vb x :
  distinct ts -> length ts = length vs ->
  nth_error ts i = Some a -> nth_error vs i = Some va -> nth_error ts j = Some b -> nth_error vs j = Some vb ->
  a < b -> (forall t, In t ts -> ~ (a < t /\ t < b)) -> a <= x -> x <= b ->
  exists w, interp1d exact ts vs x = Ok w /\ w == line a va b vb x.
Proof.
  intros D L Ha Hva Hb Hvb Hab N H1 H2. unfold interp1d. rewrite L, Nat.eqb_refl. cbn [negb].
  pose proof (sort_sorted ts vs D) as S.
  assert (Ia : In (a, va) (sort_pts (combine ts vs))) by (apply sort_In; eapply combine_nth_In; eauto).
  assert (Ib : In (b, vb) (sort_pts (combine ts vs))) by (apply sort_In; eapply combine_nth_In; eauto).
  assert (N' : forall q, In q (sort_pts (combine ts vs)) -> ~ (a < fst q /\ fst q < b)).
  { intros [t v] I. apply sort_In, in_combine_l in I. simpl. auto. }
  destruct (sort_pts (combine ts vs)) as [|p rest] eqn:E; [destruct Ia|].
  destruct (rev (p :: rest)) as [|z r] eqn:R; [apply (f_equal (@length _)) in R; rewrite rev_length in R; discriminate|].
  pose proof (sorted_first _ _ _ S Ia) as A1. pose proof (sorted_last _ _ _ _ S R Ib) as A2. simpl in A1, A2.
  assert (B1 : Qltb x (fst p) = false) by (apply Qltb_false; lra).
  assert (B2 : Qltb (fst z) x = false) by (apply Qltb_false; lra).
  unfold np_interp. rewrite R, B1, B2. cbn [orb]. eexists. split; [reflexivity|].
  apply interp_segment; auto.
Qed.

Lemma interp1d_outside rnd ts vs x :
  distinct ts -> (forall t, In t ts -> x < t) \/ (forall t, In t ts -> t < x) ->
  interp1d rnd ts vs x = Raise ValueError.
Proof.
  intros D H. unfold interp1d. destruct (Nat.eqb (length ts) (length vs)); [cbn [negb]|reflexivity].
  assert (I : forall q, In q (sort_pts (combine ts vs)) -> In (fst q) ts).
  { intros [t v] Iq. apply sort_In, in_combine_l in Iq. exact Iq. }
  destruct (sort_pts (combine ts vs)) as [|p rest] eqn:E; [reflexivity|].
  destruct (rev (p :: rest)) as [|z r] eqn:R; [reflexivity|].
  assert (Iz : In z (p :: rest)) by (apply in_rev; rewrite R; now left).
  destruct H as [H|H].
  - assert (B : Qltb x (fst p) = true) by (apply Qltb_iff, H, I; now left). rewrite B. reflexivity.
  - assert (B : Qltb (fst z) x = true) by (apply Qltb_iff, H, I; assumption). rewrite B, orb_true_r. reflexivity.
Qed.

Lemma mapM_all {A B} (f : A -> res B) (g : A -> B) l : (forall a, In a l -> f a = Ok (g a)) -> mapM f l = Ok (map g l).
Proof.
  induction l as [|a l IH]; intro H; [reflexivity|]. simpl. rewrite H by now left.
  rewrite IH by (intros; apply H; now right). reflexivity.
Qed.
Lemma map_nth_seq (r : list Q) : map (fun j => nth j r 0) (seq 0 (length r)) = r.
Proof.
  induction r as [|a r IH]; [reflexivity|]. simpl. f_equal. rewrite <- seq_shift, map_map. exact IH.
Qed.
Lemma nth_error_column ii rows i r : nth_error rows i = Some r -> nth_error (column ii rows) i = Some (nth ii r 0).
Proof. intro H. unfold column. rewrite nth_error_map, H. reflexivity. Qed.

Lemma interp_rows_hit rnd ts rows d i t r :
  distinct ts -> length rows = length ts -> Forall (fun r => length r = d) rows ->
  nth_error ts i = Some t -> nth_error rows i = Some r -> interp_rows rnd ts rows t = Ok r.
Proof.
  intros D L F Ht Hr. unfold interp_rows. destruct rows as [|r0 rows']; [now destruct i|].
  pose proof (Forall_inv F) as F0. cbv beta in F0. rewrite F0.
  rewrite (mapM_all _ (fun j => nth j r 0)).
  - f_equal. rewrite Forall_forall in F. rewrite <- (F r); [apply map_nth_seq|]. eapply nth_error_In; eauto.
  - intros j _. apply (interp1d_hit rnd ts _ i); auto; [unfold column; rewrite map_length; auto|].
    now apply nth_error_column.
Qed.
