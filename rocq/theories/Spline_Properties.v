(** C54: table splines. *)
From Coq Require Import Reals Lra QArith.
From Coquelicot Require Import Coquelicot.
From Verif Require Import Base Base_Facts Spline_Model Spline_Proofs.
Open Scope R_scope.

(** ** Statement vocabulary *)
Definition increasing (xs : list R) : Prop := forall i, (S i < length xs)%nat -> nth i xs 0 < nth (S i) xs 0.
Definition solves (A : list (list R)) (b w : list R) : Prop :=
  length w = length A /\ Forall2 (fun row c => fold_right Rplus 0 (map (fun p => fst p * snd p) (combine row w)) = c) A b.
(** [np.linalg.solve] in exact arithmetic: a square system with one solution is solved. *)
Definition solver_ok (solve : list (list R) -> list R -> res (list R)) : Prop :=
  forall A b z, Forall (fun row => length row = length A) A -> (forall w, solves A b w <-> w = z) -> solve A b = Ok z.
Definition value (r : res R) : R := match r with Ok v => v | Raise _ => 0 end.

Lemma F2_length {A B} (P : A -> B -> Prop) l l' : Forall2 P l l' -> length l = length l'.
Proof. induction 1; simpl; congruence. Qed.
(** The contract has an executable instance. *)
Lemma gauss_solver_ok : solver_ok (gauss_solve ROps).
Proof.
  intros A b z Sq U. unfold gauss_solve. pose proof (proj2 (U z) eq_refl) as [Lz Hz].
  pose proof (F2_length _ _ _ Hz) as Lb. rewrite (gauss_complete _ _ z); [reflexivity | | exact Lz |].
  - apply Forall_forall. intros [r c] H. apply in_combine_l in H. rewrite Forall_forall in Sq. now apply Sq.
  - intros w Lw. rewrite <- U. clear U. unfold solves. rewrite Lw.
    assert (G : forall A b, length A = length b -> (Forall (holds w) (combine A b) <-> Forall2 (fun row c => fold_right Rplus 0 (map (fun p => fst p * snd p) (combine row w)) = c) A b)).
    { clear. induction A as [|r A IH]; intros [|c b] L; try discriminate; cbn [combine].
      - split; constructor.
      - rewrite Forall_cons_iff, IH by (simpl in L; lia). split; [intros [H1 H2]; constructor; [exact H1 | exact H2] | intro H; inversion H; subst; split; [unfold holds; cbn [fst snd]; reflexivity | assumption]]. }
    rewrite (G A b Lb). tauto.
Qed.

(** ** Lists as functions *)
Lemma nth_zip f (a b : list R) i : (i < length a)%nat -> (i < length b)%nat -> nth i (zip_with f a b) 0 = f (nth i a 0) (nth i b 0).
Proof.
  revert b i. induction a as [|x a IH]; intros [|y b] [|i] H1 H2; simpl in H1, H2; try lia; [reflexivity|].
  cbn [zip_with combine map nth]. apply IH; lia.
Qed.
Lemma nth_tl (l : list R) i : nth i (tl l) 0 = nth (S i) l 0.
Proof. destruct l; [now destruct i | reflexivity]. Qed.
Lemma nth_removelast (l : list R) i : (S i < length l)%nat -> nth i (removelast l) 0 = nth i l 0.
Proof.
  revert i. induction l as [|a l IH]; intros i H; [simpl in H; lia|]. destruct l as [|b l]; [simpl in H; lia|].
  change (removelast (a :: b :: l)) with (a :: removelast (b :: l)). destruct i; [reflexivity|]. cbn [nth]. apply IH. simpl in *. lia.
Qed.
Lemma tl_len (l : list R) : length (tl l) = (length l - 1)%nat.
Proof. destruct l; simpl; lia. Qed.
Lemma diffs_length l : length (diffs ROps l) = (length l - 1)%nat.
Proof. unfold diffs. rewrite zip_length; rewrite tl_len; [reflexivity | now rewrite removelast_length]. Qed.
Lemma diffs_nth l i : (S i < length l)%nat -> nth i (diffs ROps l) 0 = nth (S i) l 0 - nth i l 0.
Proof. intro H. unfold diffs. rewrite nth_zip by (rewrite ?tl_len, ?removelast_length; lia). rewrite nth_tl, nth_removelast by exact H. reflexivity. Qed.

Lemma dot_zero f k a w : (forall j, f j = 0) -> dotR (map f (seq a k)) w = 0.
Proof.
  intro H. revert a w. induction k as [|k IH]; intros a [|b w]; try reflexivity. cbn [seq map]. rewrite dot_cons, H, IH. ring.
Qed.
Lemma dot_delta c p k : forall a w, length w = k ->
  dotR (map (fun j => if Nat.eqb j p then c else 0) (seq a k)) w = if (Nat.leb a p && Nat.ltb p (a + k))%bool then c * nth (p - a) w 0 else 0.
Proof.
  induction k as [|k IH]; intros a [|b w] L; try discriminate.
  - cbn [seq map]. destruct (Nat.leb_spec a p), (Nat.ltb_spec p (a + 0)); cbn [andb]; try reflexivity; lia.
  - injection L as L. cbn [seq map]. rewrite dot_cons, IH by exact L. destruct (Nat.eqb_spec a p) as [->|N].
    + rewrite Nat.sub_diag. cbn [nth]. destruct (Nat.leb_spec (S p) p), (Nat.leb_spec p p), (Nat.ltb_spec p (p + S k)); cbn [andb]; try lia. ring.
    + destruct (Nat.leb_spec (S a) p), (Nat.leb_spec a p); try lia; cbn [andb]; [|ring].
      replace (a + S k)%nat with (S a + k)%nat by lia. replace (p - a)%nat with (S (p - S a)) by lia. cbn [nth].
      destruct (Nat.ltb p (S a + k)); ring.
Qed.
Lemma dot_plus f g k : forall a w, dotR (map (fun j => f j + g j) (seq a k)) w = dotR (map f (seq a k)) w + dotR (map g (seq a k)) w.
Proof.
  induction k as [|k IH]; intros a [|b w]; try (cbn; ring). cbn [seq map]. rewrite !dot_cons, IH. ring.
Qed.
Lemma dot_ext f g k : forall a w, (forall j, (a <= j < a + k)%nat -> f j = g j) -> dotR (map f (seq a k)) w = dotR (map g (seq a k)) w.
Proof. intros a w H. f_equal. apply map_ext_in. intros j Hj. apply in_seq in Hj. apply H. lia. Qed.

Section Table.
  Variables xs ys : list R.
  Hypothesis Hinc : increasing xs.
  Hypothesis Hlen : length xs = length ys.
  Hypothesis Htwo : (2 <= length xs)%nat.
  Notation n := (length xs).
  Notation m := (n - 2)%nat.
  Definition X i := nth i xs 0.
  Definition Y i := nth i ys 0.
  Definition hh i := X (S i) - X i.
  Definition rr i := 6 * ((Y (S (S i)) - Y (S i)) / hh (S i) - (Y (S i) - Y i) / hh i).

  Lemma hh_pos i : (S i < n)%nat -> 0 < hh i.
  Proof. intro H. unfold hh, X. pose proof (Hinc i H). lra. Qed.
  Lemma steps_length : length (steps ROps xs) = (n - 1)%nat.
  Proof. apply diffs_length. Qed.
  Lemma steps_nth i : (S i < n)%nat -> nth i (steps ROps xs) 0 = hh i.
  Proof. apply diffs_nth. Qed.
  Lemma slopes_length : length (slopes ROps xs ys) = (n - 1)%nat.
  Proof. unfold slopes. rewrite zip_length; rewrite diffs_length; [lia | rewrite steps_length; lia]. Qed.
  Lemma slopes_nth i : (S i < n)%nat -> nth i (slopes ROps xs ys) 0 = (Y (S i) - Y i) / hh i.
  Proof.
    intro H. unfold slopes. rewrite nth_zip by (rewrite ?diffs_length, ?steps_length; lia).
    rewrite steps_nth, diffs_nth by lia. reflexivity.
  Qed.
  Lemma rhs_length : length (rhs ROps xs ys) = m.
  Proof. unfold rhs. rewrite map_length, diffs_length, slopes_length. lia. Qed.
  Lemma rhs_nth i : (i < m)%nat -> nth i (rhs ROps xs ys) 0 = rr i.
  Proof.
    intro H. unfold rhs. rewrite (nth_indep _ 0 (nmul ROps (nofZ ROps 6) 0)) by (rewrite map_length, diffs_length, slopes_length; lia).
    rewrite map_nth, diffs_nth by (rewrite slopes_length; lia). rewrite !slopes_nth by lia. reflexivity.
  Qed.
  Lemma diagonal_length : length (diagonal ROps xs) = m.
  Proof. unfold diagonal. rewrite map_length, zip_length; rewrite removelast_length, steps_length; [lia | rewrite tl_len, steps_length; lia]. Qed.
  Lemma diagonal_nth i : (i < m)%nat -> nth i (diagonal ROps xs) 0 = 2 * (hh i + hh (S i)).
  Proof.
    intro H. unfold diagonal.
    rewrite (nth_indep _ 0 (nmul ROps (nofZ ROps 2) 0)) by (rewrite map_length, zip_length; rewrite removelast_length, steps_length; [lia | rewrite tl_len, steps_length; lia]).
    rewrite map_nth, nth_zip by (rewrite ?removelast_length, ?tl_len, steps_length; lia).
    rewrite nth_tl, nth_removelast by (rewrite steps_length; lia). rewrite !steps_nth by lia. reflexivity.
  Qed.
  Lemma inner_nth i : (S i < m)%nat -> nth i (inner (steps ROps xs)) 0 = hh (S i).
  Proof. intro H. unfold inner. rewrite nth_removelast by (rewrite tl_len, steps_length; lia). rewrite nth_tl, steps_nth by lia. reflexivity. Qed.

  (** Unknowns with the two zero ends. *)
  Definition full (w : list R) (i : nat) : R := nth i (0 :: w ++ [0]) 0.
  Lemma full_0 w : full w 0 = 0. Proof. reflexivity. Qed.
  Lemma full_S w i : (i < length w)%nat -> full w (S i) = nth i w 0.
  Proof. intro H. unfold full. cbn [nth]. apply app_nth1, H. Qed.
  Lemma full_end w : full w (S (length w)) = 0.
  Proof. unfold full. cbn [nth]. rewrite app_nth2, Nat.sub_diag by lia. reflexivity. Qed.

  Lemma row_dot w i : length w = m -> (i < m)%nat ->
    dotR (map (entry ROps (diagonal ROps xs) (inner (steps ROps xs)) i) (seq 0 m)) w
    = hh i * full w i + 2 * (hh i + hh (S i)) * full w (S i) + hh (S i) * full w (S (S i)).
  Proof.
    intros L H. unfold entry. cbn [nadd n0 ROps].
    rewrite (dot_plus (fun j => (if Nat.eqb j i then nth i (diagonal ROps xs) 0 else 0) + (if Nat.eqb j (S i) then nth i (inner (steps ROps xs)) 0 else 0))
                      (fun j => if Nat.eqb i (S j) then nth j (inner (steps ROps xs)) 0 else 0)).
    rewrite (dot_plus (fun j => if Nat.eqb j i then nth i (diagonal ROps xs) 0 else 0) (fun j => if Nat.eqb j (S i) then nth i (inner (steps ROps xs)) 0 else 0)).
    rewrite !dot_delta by exact L. rewrite diagonal_nth by exact H. rewrite Nat.add_0_l, !Nat.sub_0_r. cbn [Nat.leb andb].
    destruct (Nat.ltb_spec i m); [|lia]. rewrite (full_S w i) by lia.
    assert (U : (if Nat.ltb (S i) m then nth i (inner (steps ROps xs)) 0 * nth (S i) w 0 else 0) = hh (S i) * full w (S (S i))).
    { destruct (Nat.ltb_spec (S i) m).
      - rewrite inner_nth, full_S by lia. reflexivity.
      - replace (S (S i)) with (S (length w)) by lia. rewrite full_end. ring. }
    rewrite U.
    assert (Lo : dotR (map (fun j => if Nat.eqb i (S j) then nth j (inner (steps ROps xs)) 0 else 0) (seq 0 m)) w = hh i * full w i).
    { destruct i as [|p].
      - rewrite dot_zero by (intro j; reflexivity). rewrite full_0. ring.
      - rewrite (dot_ext _ (fun j => if Nat.eqb j p then nth p (inner (steps ROps xs)) 0 else 0)).
        + rewrite dot_delta by exact L. rewrite Nat.add_0_l, Nat.sub_0_r. cbn [Nat.leb andb]. destruct (Nat.ltb_spec p m); [|lia].
          rewrite inner_nth, full_S by lia. reflexivity.
        + intros j _. cbn [Nat.eqb]. destruct (Nat.eqb_spec p j) as [->|]; [now rewrite Nat.eqb_refl|].
          destruct (Nat.eqb_spec j p); [congruence | reflexivity]. }
    rewrite Lo. ring.
  Qed.

  Lemma mat_length : length (mat_coeff ROps xs) = m.
  Proof. unfold mat_coeff. rewrite map_length, seq_length. apply diagonal_length. Qed.
  Lemma mat_square : Forall (fun row => length row = length (mat_coeff ROps xs)) (mat_coeff ROps xs).
  Proof.
    rewrite mat_length. apply Forall_forall. intros row H. unfold mat_coeff in H. apply in_map_iff in H as (i & <- & _).
    rewrite map_length, seq_length. apply diagonal_length.
  Qed.
  Lemma solves_iff w : solves (mat_coeff ROps xs) (rhs ROps xs ys) w <-> length w = m /\ forall i, (i < m)%nat -> eqn hh rr (full w) i.
  Proof.
    unfold solves. rewrite mat_length.
    assert (G : forall (P : list R -> R -> Prop) (f : nat -> list R) k a b, length b = k ->
        (Forall2 P (map f (seq a k)) b <-> forall i, (i < k)%nat -> P (f (a + i)%nat) (nth i b 0))).
    { clear. intros P f. induction k as [|k IH]; intros a [|c b] L; try discriminate; cbn [seq map].
      - split; [intros _ i Hi; lia | constructor].
      - split.
        + intro H. inversion H; subst. intros [|i] Hi; [rewrite Nat.add_0_r; assumption|]. rewrite <- Nat.add_succ_comm. cbn [nth].
          apply IH; [simpl in L; lia | assumption | lia].
        + intro H. constructor; [specialize (H 0%nat ltac:(lia)); now rewrite Nat.add_0_r in H|].
          apply IH; [simpl in L; lia|]. intros i Hi. specialize (H (S i) ltac:(lia)). rewrite <- Nat.add_succ_comm in H. exact H. }
    assert (E : length w = m -> (Forall2 (fun row c => fold_right Rplus 0 (map (fun p => fst p * snd p) (combine row w)) = c) (mat_coeff ROps xs) (rhs ROps xs ys)
                <-> forall i, (i < m)%nat -> eqn hh rr (full w) i)).
    { intro L. unfold mat_coeff. rewrite diagonal_length. rewrite G by apply rhs_length.
      split; intros H i Hi; specialize (H i Hi).
      - unfold eqn. rewrite <- row_dot, <- rhs_nth by assumption. exact H.
      - rewrite rhs_nth by assumption. unfold eqn in H. rewrite <- row_dot in H by assumption. exact H. }
    split; intros [L H]; (split; [exact L|]); apply E; assumption.
  Qed.

  (** The coefficients in closed form. *)
  Definition row_of (z : nat -> R) (i : nat) : R * R * R * R :=
    (z (S i) / (6 * hh i), z i / (6 * hh i), Y (S i) / hh i - z (S i) * hh i / 6, Y i / hh i - z i * hh i / 6).
  Lemma spline_form solve : solver_ok solve -> exists z, z 0%nat = 0 /\ z (n - 1)%nat = 0 /\ (forall i, (i < m)%nat -> eqn hh rr z i)
    /\ spline ROps solve ys xs = Ok (map (row_of z) (seq 0 (n - 1))).
  Proof.
    intro Sv. destruct (tri_solution hh rr m) as (z & Z0 & Z1 & ZE & U). { intros i Hi. apply hh_pos. lia. }
    set (w := map (fun i => z (S i)) (seq 0 m)).
    assert (Lw : length w = m) by (unfold w; now rewrite map_length, seq_length).
    assert (F : forall i, (i <= S m)%nat -> full w i = z i).
    { intros [|i] Hi; [now rewrite Z0|]. destruct (Nat.eq_dec i m) as [->|].
      - rewrite Z1. rewrite <- Lw at 1. apply full_end.
      - rewrite full_S by lia. unfold w. rewrite (nth_indep _ 0 (z (S 0))) by (rewrite map_length, seq_length; lia).
        rewrite (map_nth (fun i => z (S i))). rewrite seq_nth by lia. reflexivity. }
    assert (Sol : solve (mat_coeff ROps xs) (rhs ROps xs ys) = Ok w).
    { apply Sv; [apply mat_square|]. intro w'. rewrite solves_iff. split.
      - intros [L E].
        pose proof (U (full w') eq_refl ltac:(rewrite <- L; apply full_end) E) as Q.
        apply (nth_ext _ _ 0 0); [congruence|]. intros i Hi. rewrite <- (full_S w' i), <- (full_S w i) by lia. rewrite Q, F by lia. reflexivity.
      - intros ->. split; [exact Lw|]. intros i Hi. unfold eqn. rewrite !F by lia. apply ZE, Hi. }
    exists z. split; [exact Z0|]. split; [replace (n - 1)%nat with (S m) by lia; exact Z1|]. split; [exact ZE|].
    unfold spline. destruct (Nat.eqb_spec n (length ys)); [|lia]. rewrite Sol. cbn [bind].
    assert (Ll : (length (n0 ROps :: w ++ [n0 ROps]) - 1 = n - 1)%nat) by (cbn [length]; rewrite app_length, Lw; simpl; lia).
    rewrite Ll.
    assert (M : forall (A B : Type) (f : A -> res B) (g : A -> B) l, (forall a, In a l -> f a = Ok (g a)) -> mapM f l = Ok (map g l)).
    { clear. intros A B f g. induction l as [|a l IH]; intro H; [reflexivity|]. cbn [mapM map]. rewrite H by (now left). cbn [bind]. rewrite IH by (intros; apply H; now right). reflexivity. }
    apply M. intros i Hi. apply in_seq in Hi. unfold coeff_row.
    assert (Gn : forall (l : list R) j, (j < length l)%nat -> get l j = Ok (nth j l 0)).
    { intros l j Hj. apply get_some. now apply nth_error_nth'. }
    rewrite !Gn by (try rewrite steps_length; cbn [length]; try rewrite app_length, Lw; simpl; lia). cbn [bind].
    rewrite steps_nth by lia. change (nth (S i) (n0 ROps :: w ++ [n0 ROps]) 0) with (full w (S i)). change (nth i (n0 ROps :: w ++ [n0 ROps]) 0) with (full w i).
    rewrite !F by lia. reflexivity.
  Qed.

  Lemma X_mono i j : (i < j)%nat -> (j < n)%nat -> X i < X j.
  Proof.
    intros H. induction H as [|j H IH]; intro L; [apply Hinc, L|]. eapply Rlt_trans; [apply IH; lia | apply (Hinc j L)].
  Qed.
  Lemma X_le i j : (i <= j)%nat -> (j < n)%nat -> X i <= X j.
  Proof. intros H L. destruct (Nat.eq_dec i j) as [->|]; [lra | apply Rlt_le, X_mono; lia]. Qed.
  Lemma count_prefix (p : R -> bool) (l : list R) : forall i, (i <= length l)%nat ->
    (forall j, (j < length l)%nat -> p (nth j l 0) = Nat.ltb j i) -> length (filter p l) = i.
  Proof.
    induction l as [|a l IH]; intros i Hi H; [simpl in *; lia|]. cbn [filter].
    pose proof (H 0%nat ltac:(simpl; lia)) as H0. cbn [nth] in H0. rewrite H0. destruct i as [|i].
    - cbn [Nat.ltb Nat.leb]. apply IH; [lia|]. intros j Hj. apply (H (S j)). simpl; lia.
    - cbn [Nat.ltb Nat.leb length]. f_equal. apply IH; [simpl in Hi; lia|]. intros j Hj. specialize (H (S j) ltac:(simpl; lia)). exact H.
  Qed.
  Lemma search_at x i : (i <= n)%nat -> (forall j, (j < n)%nat -> (j < i)%nat -> X j <= x) -> (forall j, (j < n)%nat -> (i <= j)%nat -> x < X j) ->
    searchsorted ROps xs x = i.
  Proof.
    intros L H1 H2. apply count_prefix; [exact L|]. intros j Hj. cbn [nltb ROps]. change (nth j xs 0) with (X j).
    destruct (Nat.ltb_spec j i), (Rlt_dec x (X j)); try reflexivity; exfalso; [specialize (H1 j Hj H); lra | specialize (H2 j Hj H); lra].
  Qed.
  Lemma search_inside x i : (S i < n)%nat -> X i <= x < X (S i) -> searchsorted ROps xs x = S i.
  Proof.
    intros L [H1 H2]. apply search_at; [lia | |]; intros j Hj Hji.
    - eapply Rle_trans; [apply X_le | exact H1]; lia.
    - eapply Rlt_le_trans; [exact H2 | apply X_le; lia].
  Qed.
  Lemma search_last x : X (n - 1) <= x -> searchsorted ROps xs x = n.
  Proof. intro H. apply search_at; [lia | |]; intros j Hj Hji; [|lia]. eapply Rle_trans; [apply X_le | exact H]; lia. Qed.
  Lemma search_first x : x < X 0 -> searchsorted ROps xs x = 0%nat.
  Proof. intro H. apply search_at; [lia | |]; intros j Hj Hji; [lia|]. eapply Rlt_le_trans; [exact H | apply X_le; lia]. Qed.
  Lemma bracket x : X 0 <= x < X (n - 1) -> exists i, (S i < n)%nat /\ X i <= x < X (S i).
  Proof.
    intros [H1 H2]. assert (G : forall k, (k < n)%nat -> x < X k -> exists i, (S i < n)%nat /\ X i <= x < X (S i)).
    { induction k as [|k IH]; intros L H; [lra|]. destruct (Rlt_dec x (X k)); [apply IH; [lia | assumption]|].
      exists k. split; [lia | lra]. }
    apply (G (n - 1)%nat); [lia | exact H2].
  Qed.

  (** Segment polynomials. *)
  Definition seg (z : nat -> R) (order i : nat) (x : R) : R :=
    let '(c0, c1, c2, c3) := row_of z i in
    match order with
    | 0%nat => c0 * (x - X i) ^ 3 + c1 * (X (S i) - x) ^ 3 + c2 * (x - X i) + c3 * (X (S i) - x)
    | 1%nat => 3 * (c0 * (x - X i) ^ 2 - c1 * (X (S i) - x) ^ 2) + c2 - c3
    | 2%nat => 6 * (c0 * (x - X i) + c1 * (X (S i) - x))
    | 3%nat => 6 * (c0 - c1)
    | _ => 0
    end.
  Lemma get_nth (l : list R) j : (j < length l)%nat -> get l j = Ok (nth j l 0).
  Proof. intro Hj. apply get_some. now apply nth_error_nth'. Qed.
  Lemma eval_inside z order x i : (S i < n)%nat -> X i <= x < X (S i) ->
    eval_spline ROps order xs (map (row_of z) (seq 0 (n - 1))) x = Ok (seg z order i x).
  Proof.
    intros L H. unfold eval_spline. rewrite (search_inside x i L H). cbn [get_pred].
    rewrite (get_some _ i (row_of z i)) by (apply nth_error_map_seq; lia).
    rewrite !get_nth by lia. cbn [bind]. change (nth i xs 0) with (X i). change (nth (S i) xs 0) with (X (S i)).
    unfold seg, row_of. destruct order as [|[|[|[|order]]]]; f_equal; unfold cube, square; cbn [nadd nsub nmul ndiv nofZ n0 ROps]; ring.
  Qed.
  Lemma seg_left z i : (S i < n)%nat -> seg z 0 i (X i) = Y i.
  Proof. intro L. pose proof (hh_pos i L). unfold seg, row_of, hh in *. field. lra. Qed.
  Lemma seg_right z i : (S i < n)%nat -> seg z 0 i (X (S i)) = Y (S i).
  Proof. intro L. pose proof (hh_pos i L). unfold seg, row_of, hh in *. field. lra. Qed.
  Lemma seg2_left z i : (S i < n)%nat -> seg z 2 i (X i) = z i.
  Proof. intro L. pose proof (hh_pos i L). unfold seg, row_of, hh in *. field. lra. Qed.
  Lemma seg2_right z i : (S i < n)%nat -> seg z 2 i (X (S i)) = z (S i).
  Proof. intro L. pose proof (hh_pos i L). unfold seg, row_of, hh in *. field. lra. Qed.
  Lemma seg1_meet z i : (S (S i) < n)%nat -> eqn hh rr z i -> seg z 1 i (X (S i)) = seg z 1 (S i) (X (S i)).
  Proof.
    intros L E. pose proof (hh_pos i ltac:(lia)) as P1. pose proof (hh_pos (S i) L) as P2. unfold eqn, rr in E.
    assert (A : seg z 1 i (X (S i)) = z (S i) * hh i / 3 + z i * hh i / 6 + (Y (S i) - Y i) / hh i).
    { unfold seg, row_of, hh in *. field. lra. }
    assert (B : seg z 1 (S i) (X (S i)) = - z (S i) * hh (S i) / 3 - z (S (S i)) * hh (S i) / 6 + (Y (S (S i)) - Y (S i)) / hh (S i)).
    { unfold seg, row_of, hh in *. field. lra. }
    rewrite A, B. lra.
  Qed.
  Lemma seg_derive z k i x : (k < 4)%nat -> is_derive (seg z k i) x (seg z (S k) i x).
  Proof.
    intro H. unfold seg. destruct (row_of z i) as [[[c0 c1] c2] c3].
    destruct k as [|[|[|[|k]]]]; [| | | |lia]; auto_derive; trivial; ring.
  Qed.
  Lemma seg_cont z k i x : (k < 4)%nat -> continuity_pt (seg z k i) x.
  Proof.
    intro H. apply derivable_continuous_pt. exists (seg z (S k) i x). apply is_derive_Reals, seg_derive, H.
  Qed.
End Table.

(** ** C54 *)
Section C54.
  Variable solve : list (list R) -> list R -> res (list R).
  Variables xs ys : list R.
  Hypothesis Hsolve : solver_ok solve.
  Hypothesis Hinc : increasing xs.
  Hypothesis Hlen : length xs = length ys.
  Hypothesis Htwo : (2 <= length xs)%nat.
  Notation first := (nth 0 xs 0).
  Notation final := (nth (length xs - 1) xs 0).

  Theorem C54_built : exists c, spline ROps solve ys xs = Ok c /\ length c = (length xs - 1)%nat.
  Proof.
    destruct (spline_form xs ys Hinc Hlen Htwo solve Hsolve) as (z & _ & _ & _ & E). eexists. split; [exact E|].
    now rewrite map_length, seq_length.
  Qed.

  Variable c : list (R * R * R * R).
  Hypothesis Hc : spline ROps solve ys xs = Ok c.
  Notation ev := (fun k x => eval_spline ROps k xs c x).

  Lemma form : exists z, z 0%nat = 0 /\ z (length xs - 1)%nat = 0 /\ (forall i, (i < length xs - 2)%nat -> eqn (hh xs) (rr xs ys) z i)
    /\ c = map (row_of xs ys z) (seq 0 (length xs - 1)).
  Proof.
    destruct (spline_form xs ys Hinc Hlen Htwo solve Hsolve) as (z & Z0 & Z1 & ZE & E). exists z. repeat split; try assumption.
    rewrite Hc in E. now injection E.
  Qed.

  (** Every abscissa but the last is interpolated. *)
  Theorem C54_knots i : (S i < length xs)%nat -> ev 0%nat (nth i xs 0) = Ok (nth i ys 0).
  Proof.
    intro L. destruct form as (z & _ & _ & _ & ->). rewrite (eval_inside xs ys Hinc Hlen Htwo z 0 (nth i xs 0) i L).
    - f_equal. exact (seg_left xs ys Hinc z i L).
    - split; [apply Rle_refl | apply Hinc, L].
  Qed.
  (** Inside the table every derivative function returns a value. *)
  Theorem C54_inside k x : first <= x < final -> exists v, ev k x = Ok v.
  Proof.
    intro H. destruct form as (z & _ & _ & _ & ->). destruct (bracket xs ys Hlen Htwo x H) as (i & L & B).
    eexists. apply (eval_inside xs ys Hinc Hlen Htwo z k x i L B).
  Qed.

  (** On a neighbourhood of an inner point the evaluation is one segment, or two meeting there. *)
  Lemma near x : first < x < final -> exists i j e, 0 < e /\ (S i < length xs)%nat /\ (S j < length xs)%nat /\
    ((i = j) \/ (j = S i /\ x = nth j xs 0)) /\
    (forall k z, c = map (row_of xs ys z) (seq 0 (length xs - 1)) ->
      (forall t, x - e < t < x -> value (ev k t) = seg xs ys z k i t) /\ (forall t, x <= t < x + e -> value (ev k t) = seg xs ys z k j t)).
  Proof.
    intros [H1 H2]. destruct (bracket xs ys Hlen Htwo x (conj (Rlt_le _ _ H1) H2)) as (j & L & B).
    destruct (Req_dec x (nth j xs 0)) as [E|N].
    - destruct j as [|i]; [exfalso; lra|]. pose proof (Hinc i ltac:(lia)) as Hi. fold (X xs i) (X xs (S i)) in *.
      exists i, (S i), (Rmin (x - X xs i) (X xs (S (S i)) - x)). fold (X xs (S i)) in E.
      split; [apply Rmin_glb_lt; lra|]. split; [lia|]. split; [exact L|]. split; [right; split; [reflexivity | exact E]|].
      intros k z Ez. pose proof (Rmin_l (x - X xs i) (X xs (S (S i)) - x)). pose proof (Rmin_r (x - X xs i) (X xs (S (S i)) - x)).
      rewrite Ez. split; intros t Ht; [rewrite (eval_inside xs ys Hinc Hlen Htwo z k t i) | rewrite (eval_inside xs ys Hinc Hlen Htwo z k t (S i))]; try reflexivity; try lia; lra.
    - fold (X xs j) in N. exists j, j, (Rmin (x - X xs j) (X xs (S j) - x)).
      split; [apply Rmin_glb_lt; lra|]. split; [exact L|]. split; [exact L|]. split; [now left|].
      intros k z Ez. pose proof (Rmin_l (x - X xs j) (X xs (S j) - x)). pose proof (Rmin_r (x - X xs j) (X xs (S j) - x)).
      rewrite Ez. split; intros t Ht; rewrite (eval_inside xs ys Hinc Hlen Htwo z k t j); try reflexivity; try exact L; lra.
  Qed.
  Lemma meet z k i : c = map (row_of xs ys z) (seq 0 (length xs - 1)) -> (S (S i) < length xs)%nat -> eqn (hh xs) (rr xs ys) z i -> (k < 3)%nat ->
    seg xs ys z k i (X xs (S i)) = seg xs ys z k (S i) (X xs (S i)).
  Proof.
    intros _ L E Hk. destruct k as [|[|[|k]]]; [| | |lia].
    - rewrite (seg_right xs ys Hinc z i), (seg_left xs ys Hinc z (S i)) by lia. reflexivity.
    - apply (seg1_meet xs ys Hinc Hlen Htwo); assumption.
    - rewrite (seg2_right xs ys Hinc z i), (seg2_left xs ys Hinc z (S i)) by lia. reflexivity.
  Qed.

  (** The interpolant is twice differentiable on the open table range, the
      first and second derivative functions are its derivatives, and the
      second one is continuous. *)
  Theorem C54_smooth x : first < x < final ->
    (forall k, (k < 2)%nat -> is_derive (fun t => value (ev k t)) x (value (ev (S k) x))) /\ continuity_pt (fun t => value (ev 2%nat t)) x.
  Proof.
    intro H. destruct form as (z & _ & _ & ZE & Ez). destruct (near x H) as (i & j & e & He & Li & Lj & C & N).
    assert (M : forall k, (k < 3)%nat -> seg xs ys z k i x = seg xs ys z k j x).
    { intros k Hk. destruct C as [->|[-> Ex]]; [reflexivity|]. rewrite Ex. apply meet; try assumption. apply ZE. lia. }
    assert (Left : forall k, (k < 3)%nat -> forall t, x - e < t <= x -> value (ev k t) = seg xs ys z k i t).
    { intros k Hk t Ht. destruct (N k z Ez) as [N1 N2]. destruct (Req_dec t x) as [->|]; [rewrite N2 by lra; symmetry; now apply M | apply N1; lra]. }
    assert (Right : forall k t, x <= t < x + e -> value (ev k t) = seg xs ys z k j t) by (intros k t Ht; now apply (N k z Ez)).
    split.
    - intros k Hk. apply (glue_derive _ (seg xs ys z k i) (seg xs ys z k j) _ _ e He).
      + apply Left. lia.
      + apply Right.
      + rewrite (Left (S k) ltac:(lia) x) by lra. apply seg_derive; try assumption; lia.
      + rewrite (Right (S k) x) by lra. apply seg_derive; try assumption; lia.
    - apply (glue_continuous _ (seg xs ys z 2 i) (seg xs ys z 2 j) _ e He); [apply Left; lia | apply Right | apply seg_cont; try assumption; lia | apply seg_cont; try assumption; lia].
  Qed.
  (** Between abscissas the third derivative function is the derivative of the
      second, and the higher ones are zero. *)
  Theorem C54_third x i : (S i < length xs)%nat -> nth i xs 0 < x < nth (S i) xs 0 ->
    is_derive (fun t => value (ev 2%nat t)) x (value (ev 3%nat x)) /\ is_derive (fun t => value (ev 3%nat t)) x 0 /\
    forall k, (4 <= k)%nat -> ev k x = Ok 0.
  Proof.
    intros L H. destruct form as (z & _ & _ & _ & ->).
    assert (Loc : forall k, locally x (fun t => seg xs ys z k i t = value (eval_spline ROps k xs (map (row_of xs ys z) (seq 0 (length xs - 1))) t))).
    { intro k. exists (mkposreal (Rmin (x - X xs i) (X xs (S i) - x)) ltac:(unfold X; apply Rmin_glb_lt; lra)). intros t Ht.
      unfold ball in Ht. cbn in Ht. unfold AbsRing_ball, abs, minus, plus, opp in Ht. cbn in Ht.
      pose proof (Rmin_l (x - X xs i) (X xs (S i) - x)). pose proof (Rmin_r (x - X xs i) (X xs (S i) - x)).
      destruct (Rabs_def2 _ _ Ht). rewrite (eval_inside xs ys Hinc Hlen Htwo z k t i L); [reflexivity | unfold X in *; lra]. }
    assert (At : forall k, value (eval_spline ROps k xs (map (row_of xs ys z) (seq 0 (length xs - 1))) x) = seg xs ys z k i x).
    { intro k. rewrite (eval_inside xs ys Hinc Hlen Htwo z k x i L); [reflexivity | unfold X; lra]. }
    split; [|split].
    - rewrite At. apply (is_derive_ext_loc _ _ _ _ (Loc 2%nat)), seg_derive; try assumption; lia.
    - apply (is_derive_ext_loc _ _ _ _ (Loc 3%nat)). apply (seg_derive xs ys Hlen Htwo z 3 i x). lia.
    - intros k Hk. rewrite (eval_inside xs ys Hinc Hlen Htwo z k x i L) by (unfold X; lra). f_equal. unfold seg.
      destruct (row_of xs ys z i) as [[[? ?] ?] ?]. destruct k as [|[|[|[|k]]]]; try lia; reflexivity.
  Qed.
  (** Natural ends, and the value the interpolant tends to at the last abscissa. *)
  Theorem C54_ends : ev 2%nat first = Ok 0 /\ filterlim (fun t => value (ev 2%nat t)) (at_left final) (locally 0) /\
    filterlim (fun t => value (ev 0%nat t)) (at_left final) (locally (nth (length xs - 1) ys 0)).
  Proof.
    destruct form as (z & Z0 & Z1 & _ & ->). split.
    - rewrite (eval_inside xs ys Hinc Hlen Htwo z 2 first 0); [|lia | split; [apply Rle_refl | apply Hinc; lia]].
      f_equal. change first with (X xs 0). rewrite (seg2_left xs ys Hinc) by lia. exact Z0.
    - set (i := (length xs - 2)%nat).
      assert (L : (S i < length xs)%nat) by lia. assert (Ei : (length xs - 1 = S i)%nat) by lia.
      assert (G : forall k, (k < 4)%nat -> filterlim (fun t => value (eval_spline ROps k xs (map (row_of xs ys z) (seq 0 (length xs - 1))) t)) (at_left (X xs (S i))) (locally (seg xs ys z k i (X xs (S i))))).
      { intros k Hk. apply (filterlim_ext_loc (seg xs ys z k i)).
        - exists (mkposreal (X xs (S i) - X xs i) ltac:(pose proof (Hinc i L); unfold X; lra)). intros t Ht Hlt.
          unfold ball in Ht. cbn in Ht. unfold AbsRing_ball, abs, minus, plus, opp in Ht. cbn in Ht. destruct (Rabs_def2 _ _ Ht).
          rewrite (eval_inside xs ys Hinc Hlen Htwo z k t i L); [reflexivity | lra].
        - eapply filterlim_filter_le_1; [apply filter_le_within|]. apply continuity_pt_filterlim, seg_cont; assumption. }
      pose proof (G 2%nat ltac:(lia)) as G2. pose proof (G 0%nat ltac:(lia)) as G0.
      rewrite (seg2_right xs ys Hinc z i L), <- Ei, Z1 in G2. rewrite (seg_right xs ys Hinc z i L), <- Ei in G0.
      split; [exact G2 | exact G0].
  Qed.
  (** At and after the last abscissa evaluation fails, for every table. *)
  Theorem C54_last_fails k x : (k <= 3)%nat -> final <= x -> ev k x = Raise IndexError.
  Proof.
    intros Hk H. destruct form as (z & _ & _ & _ & ->). unfold eval_spline. rewrite (search_last xs ys Hinc Hlen Htwo x H).
    assert (G : get_pred (map (row_of xs ys z) (seq 0 (length xs - 1))) (length xs) = Raise IndexError).
    { replace (length xs) with (S (length xs - 1)) at 2 by lia. cbn [get_pred]. unfold get.
      rewrite (proj2 (nth_error_None _ _)); [reflexivity|]. rewrite map_length, seq_length. lia. }
    rewrite G. destruct k as [|[|[|[|k]]]]; try reflexivity. lia.
  Qed.
  (** Before the first abscissa the last segment is used with the ends of the table swapped. *)
  Theorem C54_before_first x : x < first -> exists v, ev 0%nat x = Ok v.
  Proof.
    intro H. destruct form as (z & _ & _ & _ & ->). unfold eval_spline. rewrite (search_first xs ys Hinc Hlen Htwo x H). cbn [get_pred].
    rewrite map_length, seq_length.
    rewrite (get_some _ (length xs - 1 - 1) (row_of xs ys z (length xs - 1 - 1))) by (apply nth_error_map_seq; lia).
    rewrite !get_nth by lia. cbn [bind]. destruct (row_of xs ys z (length xs - 1 - 1)) as [[[? ?] ?] ?]. eexists. reflexivity.
  Qed.
End C54.
(** Tables whose columns differ in length are rejected. *)
Theorem C54_mismatch {F} (K : NumOps F) solve (ys xs : list F) :
  (3 <= length xs)%nat -> (3 <= length ys)%nat -> length ys <> length xs -> spline K solve ys xs = Raise ValueError.
Proof. intros _ _ N. unfold spline. destruct (Nat.eqb_spec (length xs) (length ys)) as [E|E]; [now rewrite E in N|reflexivity]. Qed.
Print Assumptions C54_mismatch.
Print Assumptions C54_built.
Print Assumptions C54_knots.
Print Assumptions C54_inside.
Print Assumptions C54_smooth.
Print Assumptions C54_third.
Print Assumptions C54_ends.
Print Assumptions C54_last_fails.
Print Assumptions C54_before_first.

(** A table meeting the hypotheses: four abscissas with different steps. *)
Example C54_table_ex : solver_ok (gauss_solve ROps) /\ increasing [0; 1; 3; 4] /\ length [0; 1; 3; 4] = length [5; 0; 2; 1] /\ (2 <= length [0; 1; 3; 4])%nat.
Proof.
  split; [apply gauss_solver_ok|]. split; [|split; [reflexivity | simpl; lia]].
  intros [|[|[|i]]] H; simpl in *; try lra; lia.
Qed.
Local Open Scope Q_scope.
Example C54_eval_ex : (c <- spline QOps (gauss_solve QOps) [5; 0; 2; 1] [0; 1; 3; 4] ; mapM (eval_spline QOps 0 [0; 1; 3; 4] c) [0; 1; 2; 3])
  = Ok [5; 0; 1 # 4; 2].
Proof. vm_compute. reflexivity. Qed.

(** The last tabulated abscissa cannot be evaluated. *)
Theorem C54_last_abscissa_refuted : exists (xs ys : list Q) (c : list (Q * Q * Q * Q)) x,
  spline QOps (gauss_solve QOps) ys xs = Ok c /\ In x xs /\ eval_spline QOps 0 xs c x = Raise IndexError.
Proof. exists [0; 1; 3], [0; 1; 0], [((-1 # 4), 0, (5 # 4), 0); (0, (-1 # 8), 0, 1)], 3. vm_compute. repeat split. right. right. now left. Qed.
Print Assumptions C54_last_abscissa_refuted.
(** The table of y = x returns -5 at -1, without an error. *)
Theorem C54_outside_refuted : exists (xs : list Q) (c : list (Q * Q * Q * Q)) x v,
  spline QOps (gauss_solve QOps) xs xs = Ok c /\ Forall (fun a => x < a) xs /\ eval_spline QOps 0 xs c x = Ok v /\ ~ v == x.
Proof. exists [0; 1; 2], [(0, 0, 1, 0); (0, 0, 2, 1)], (-1), (-5). vm_compute. repeat split; try (repeat constructor); discriminate. Qed.
Print Assumptions C54_outside_refuted.
