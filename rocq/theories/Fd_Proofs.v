(** The weights of gen_fin_diff_coeff are exact on polynomials (real numbers). *)
From Coq Require Import Reals Lra.
From Coquelicot Require Import Coquelicot.
From Verif Require Import Base Fd_Model.
Open Scope R_scope.

(** ** Polynomials as coefficient lists *)
Fixpoint peval (p : list R) (x : R) : R := match p with [] => 0 | a :: p' => a + x * peval p' x end.
Definition degree_below (n : nat) (p : list R) : Prop := forall k, (n <= k)%nat -> nth k p 0 = 0.
Definition co (p : list R) (m : nat) : R := nth m p 0.

Lemma peval_zero p x : degree_below 0 p -> peval p x = 0.
Proof.
  induction p as [|a p IH]; intro D; [reflexivity|]. simpl. rewrite IH.
  - pose proof (D 0%nat (Nat.le_refl _)) as E. simpl in E. lra.
  - intros k _. exact (D (S k) (Nat.le_0_l _)).
Qed.
Lemma degree_tail n a p : degree_below (S n) (a :: p) -> degree_below n p.
Proof. intros D k H. exact (D (S k) (le_n_S _ _ H)). Qed.

(** Division by [x - a]. *)
Fixpoint divide (a : R) (p : list R) : list R * R :=
  match p with
  | [] => ([], 0)
  | c :: p' => let '(g, r) := divide a p' in (r :: g, c + a * r)
  end.
Lemma divide_eval a p z : peval p z = (z - a) * peval (fst (divide a p)) z + snd (divide a p).
Proof.
  induction p as [|c p IH]; simpl; [ring|]. destruct (divide a p) as [g r]. simpl in *. rewrite IH. ring.
Qed.
Lemma divide_co a p m :
  co p m = (match m with O => snd (divide a p) | S m' => co (fst (divide a p)) m' end) - a * co (fst (divide a p)) m.
Proof.
  revert m. induction p as [|c p IH]; intro m.
  - destruct m as [|[|m]]; unfold co; simpl; ring.
  - simpl. destruct (divide a p) as [g r] eqn:E. unfold co in *. simpl in IH |- *.
    destruct m as [|m]; simpl; [ring|]. rewrite IH. destruct m; simpl; reflexivity.
Qed.
Lemma divide_zero a p : degree_below 0 p -> degree_below 0 (fst (divide a p)) /\ snd (divide a p) = 0.
Proof.
  induction p as [|c p IH]; intro D; simpl; [split; [intros [|k] _; reflexivity | reflexivity]|].
  destruct IH as [I1 I2]; [intros k _; exact (D (S k) (Nat.le_0_l _))|].
  destruct (divide a p) as [g r]. simpl in *. subst r. split.
  - intros [|k] _; [reflexivity|]. exact (I1 k (Nat.le_0_l _)).
  - pose proof (D 0%nat (Nat.le_refl _)) as E. simpl in E. lra.
Qed.
Lemma divide_degree a p n : degree_below (S n) p -> degree_below n (fst (divide a p)).
Proof.
  revert n. induction p as [|c p IH]; intros n D; simpl; [intros [|k] _; reflexivity|].
  apply degree_tail in D. destruct n as [|n].
  - destruct (divide_zero a p D) as [I1 I2]. destruct (divide a p) as [g r]. simpl in *. subst r.
    intros [|k] _; [reflexivity|]. exact (I1 k (Nat.le_0_l _)).
  - specialize (IH n D). destruct (divide a p) as [g r]. simpl in *.
    intros [|k] H; [lia|]. apply IH. lia.
Qed.

(** Multiplication by [x - a]. *)
Fixpoint padd (p q : list R) : list R :=
  match p, q with
  | [], _ => q
  | _, [] => p
  | a :: p', b :: q' => (a + b) :: padd p' q'
  end.
Definition pscale (c : R) (p : list R) : list R := map (Rmult c) p.
Lemma peval_add p : forall q x, peval (padd p q) x = peval p x + peval q x.
Proof. induction p as [|a p IH]; intros [|b q] x; simpl; try ring. rewrite IH. ring. Qed.
Lemma co_add p : forall q m, co (padd p q) m = co p m + co q m.
Proof.
  unfold co. induction p as [|a p IH]; intros [|b q] m; simpl; try (destruct m; simpl; ring).
  destruct m; simpl; [ring | apply IH].
Qed.
Lemma peval_scale c p x : peval (pscale c p) x = c * peval p x.
Proof. induction p as [|a p IH]; simpl; [ring|]. fold (pscale c p). rewrite IH. ring. Qed.
Lemma co_scale c p m : co (pscale c p) m = c * co p m.
Proof. unfold co. revert m. induction p as [|a p IH]; intros [|m]; simpl; try ring. apply IH. Qed.
Definition times_xa (a : R) (p : list R) : list R := padd (0 :: p) (pscale (- a) p).
Lemma times_eval a p x : peval (times_xa a p) x = (x - a) * peval p x.
Proof. unfold times_xa. rewrite peval_add, peval_scale. simpl. ring. Qed.
Lemma times_co a p m : co (times_xa a p) m = (match m with O => 0 | S m' => co p m' end) - a * co p m.
Proof. unfold times_xa. rewrite co_add, co_scale. destruct m; unfold co; simpl; ring. Qed.
Lemma times_degree a p n : degree_below n p -> degree_below (S n) (times_xa a p).
Proof.
  intros D k H. fold (co (times_xa a p) k). rewrite times_co. destruct k as [|k]; [lia|].
  unfold co. rewrite (D k), (D (S k)) by lia. ring.
Qed.

(** The product of [x - xs j] for [j < n]. *)
Fixpoint newton (xs : nat -> R) (n : nat) : list R :=
  match n with O => [1] | S n' => times_xa (xs n') (newton xs n') end.
Lemma newton_degree xs n : degree_below (S n) (newton xs n).
Proof.
  induction n as [|n IH]; [intros [|[|k]] H; [lia | reflexivity | reflexivity]|]. now apply times_degree.
Qed.
Lemma newton_root xs n j : (j < n)%nat -> peval (newton xs n) (xs j) = 0.
Proof.
  induction n as [|n IH]; intro H; [lia|]. simpl newton. rewrite times_eval.
  destruct (Nat.eq_dec j n) as [->|Ne]; [ring|]. rewrite IH by lia. ring.
Qed.
Lemma newton_nonzero xs n x : (forall j, (j < n)%nat -> x <> xs j) -> peval (newton xs n) x <> 0.
Proof.
  induction n as [|n IH]; intro H; simpl; [lra|]. rewrite times_eval. apply Rmult_integral_contrapositive. split.
  - specialize (H n (Nat.lt_succ_diag_r n)). lra.
  - apply IH. intros j Hj. apply H. lia.
Qed.
Lemma c2_newton xs n : c2_of ROps xs n = peval (newton xs n) (xs n).
Proof.
  assert (G : forall k x c, fold_left (fun c nu => c * (x - xs nu)) (seq 0 k) c = c * peval (newton xs k) x).
  { induction k as [|k IH]; intros x c; [simpl; ring|].
    rewrite seq_S, fold_left_app, IH. cbn [fold_left newton]. rewrite times_eval. simpl (0 + k)%nat. ring. }
  unfold c2_of. cbn [nmul nsub nofZ ROps]. rewrite G. ring.
Qed.

(** ** Sums *)
Fixpoint rsum (f : nat -> R) (n : nat) : R := match n with O => 0 | S n' => rsum f n' + f n' end.
Lemma rsum_ext f g n : (forall i, (i < n)%nat -> f i = g i) -> rsum f n = rsum g n.
Proof. induction n as [|n IH]; intro H; simpl; [reflexivity|]. rewrite IH, H; auto. Qed.
Lemma rsum_lin a b f g n : rsum (fun i => a * f i + b * g i) n = a * rsum f n + b * rsum g n.
Proof. induction n as [|n IH]; simpl; [ring|]. rewrite IH. ring. Qed.
Lemma rsum_zero f n : (forall i, (i < n)%nat -> f i = 0) -> rsum f n = 0.
Proof. induction n as [|n IH]; intro H; simpl; [reflexivity|]. rewrite IH, H; auto. ring. Qed.

(** ** The weights *)
Definition mfact (m : nat) : R := INR (fact m).
Lemma mfact_S m : mfact (S m) = INR (S m) * mfact m.
Proof. unfold mfact. rewrite <- mult_INR. reflexivity. Qed.

Section Fornberg.
  Variables (order : nat) (xs : nat -> R).
  Definition delta (n : nat) : nat -> nat -> R := fst (level ROps order xs n).
  Definition c1 (n : nat) : R := snd (level ROps order xs n).

  Lemma c1_newton n : c1 n = peval (newton xs n) (xs n).
  Proof.
    unfold c1. destruct n as [|n]; [simpl; ring|]. cbn [level]. destruct (level ROps order xs n) as [lev c].
    cbn [snd]. apply c2_newton.
  Qed.
  Lemma delta_S n m nu :
    delta (S n) m nu =
    if Nat.ltb (Nat.min (S n) order) m then 0
    else if Nat.ltb nu (S n) then (xs (S n) * delta n m nu - INR m * delta n (prev order m) nu) / (xs (S n) - xs nu)
    else if Nat.eqb nu (S n) then c1 n / c1 (S n) * (INR m * delta n (prev order m) n - xs n * delta n m n)
    else 0.
  Proof.
    unfold delta, c1. cbn [level]. destruct (level ROps order xs n) as [lev c]. cbn [fst snd]. unfold next_level.
    cbn [nmul nsub nofZ ndiv n0 ROps]. rewrite <- INR_IZR_INZ. replace (S n - 1)%nat with n by lia. reflexivity.
  Qed.

  Variable top : nat.
  Hypothesis distinct_xs : forall i j, (i <= top)%nat -> (j <= top)%nat -> xs i = xs j -> i = j.

  Lemma c1_nonzero n : (n <= top)%nat -> c1 n <> 0.
  Proof.
    intro H. rewrite c1_newton. apply newton_nonzero. intros j Hj E. apply distinct_xs in E; lia.
  Qed.

  (** The last weight. *)
  Lemma last_weight n : (n <= top)%nat -> forall m, (m <= order)%nat -> c1 n * delta n m n = mfact m * co (newton xs n) m.
  Proof.
    induction n as [|n IH]; intros Ht m Hm.
    - unfold c1, delta. cbn [level fst snd]. unfold start_level, co, mfact. cbn [nofZ n0 ROps].
      destruct m as [|[|m]]; simpl newton; simpl nth; simpl fact; simpl INR; ring.
    - rewrite delta_S. destruct (Nat.ltb_spec (Nat.min (S n) order) m) as [L|L].
      + unfold co. rewrite (newton_degree xs (S n) m) by lia. ring.
      + rewrite (proj2 (Nat.ltb_ge _ _) (Nat.le_refl _)), Nat.eqb_refl.
        assert (Ne : c1 (S n) <> 0) by now apply c1_nonzero.
        replace (c1 (S n) * (c1 n / c1 (S n) * (INR m * delta n (prev order m) n - xs n * delta n m n)))
          with (INR m * (c1 n * delta n (prev order m) n) - xs n * (c1 n * delta n m n)) by (field; assumption).
        rewrite (IH ltac:(lia) m Hm). cbn [newton]. rewrite times_co. destruct m as [|m]; cbn [prev].
        * simpl INR. ring.
        * rewrite (IH ltac:(lia) m) by lia. rewrite mfact_S. ring.
  Qed.

  Theorem weights_exact n : (n <= top)%nat -> forall m p, (m <= order)%nat -> degree_below (S n) p ->
    rsum (fun nu => delta n m nu * peval p (xs nu)) (S n) = mfact m * co p m.
  Proof.
    induction n as [|n IH]; intros Ht m p Hm D.
    - simpl rsum. unfold delta. cbn [level fst]. unfold start_level. cbn [nofZ n0 ROps].
      assert (E : peval p (xs 0%nat) = co p 0).
      { destruct p as [|c p]; [reflexivity|]. simpl. rewrite peval_zero by now apply degree_tail in D. unfold co. simpl. ring. }
      rewrite E. destruct m as [|m]; [unfold mfact; simpl; ring|]. unfold co. rewrite (D (S m)) by lia. ring.
    - set (a := xs (S n)).
      destruct (Nat.ltb_spec (Nat.min (S n) order) m) as [L|L].
      { rewrite rsum_zero; [unfold co; rewrite (D m) by lia; ring|]. intros i _. rewrite delta_S.
        rewrite (proj2 (Nat.ltb_lt _ _) L). ring. }
      assert (NL : Nat.ltb (Nat.min (S n) order) m = false) by now apply Nat.ltb_ge.
      (* the part divisible by x - a *)
      assert (Dg : forall g, degree_below (S n) g ->
        rsum (fun nu => delta (S n) m nu * ((xs nu - a) * peval g (xs nu))) (S n) = mfact m * co (times_xa a g) m).
      { intros g Hg.
        rewrite (rsum_ext _ (fun nu => INR m * (delta n (prev order m) nu * peval g (xs nu)) + (- a) * (delta n m nu * peval g (xs nu)))).
        - rewrite rsum_lin, (IH ltac:(lia) m g Hm Hg), times_co. destruct m as [|m]; cbn [prev].
          + simpl INR. ring.
          + rewrite (IH ltac:(lia) m g ltac:(lia) Hg), mfact_S. ring.
        - intros i Hi. rewrite delta_S, NL, (proj2 (Nat.ltb_lt _ _) Hi). fold a. field.
          unfold a. intro E. assert (xs (S n) = xs i) as E2 by lra. apply distinct_xs in E2; lia. }
      assert (Sp : forall q, degree_below (S (S n)) q ->
        rsum (fun nu => delta (S n) m nu * peval q (xs nu)) (S (S n))
        = mfact m * co (times_xa a (fst (divide a q))) m + snd (divide a q) * rsum (delta (S n) m) (S (S n))).
      { intros q Hq. rewrite <- (Dg _ (divide_degree a q _ Hq)).
        set (g := fst (divide a q)). set (r := snd (divide a q)).
        rewrite (rsum_ext _ (fun nu => 1 * (delta (S n) m nu * ((xs nu - a) * peval g (xs nu))) + r * delta (S n) m nu)).
        - rewrite rsum_lin. cbn [rsum]. fold a. ring.
        - intros i _. rewrite (divide_eval a q). fold g r. ring. }
      assert (D1 : rsum (delta (S n) m) (S (S n)) = match m with O => 1 | _ => 0 end).
      { pose proof (Sp (newton xs (S n)) (newton_degree xs (S n))) as E.
        assert (Z : rsum (fun nu => delta (S n) m nu * peval (newton xs (S n)) (xs nu)) (S n) = 0).
        { apply rsum_zero. intros i Hi. rewrite newton_root by exact Hi. ring. }
        assert (V : snd (divide a (newton xs (S n))) = c1 (S n)).
        { rewrite c1_newton. fold a. rewrite (divide_eval a (newton xs (S n)) a). ring. }
        change (rsum (fun nu => delta (S n) m nu * peval (newton xs (S n)) (xs nu)) (S (S n)))
          with (rsum (fun nu => delta (S n) m nu * peval (newton xs (S n)) (xs nu)) (S n) + delta (S n) m (S n) * peval (newton xs (S n)) (xs (S n))) in E.
        rewrite Z, <- c1_newton, V in E.
        pose proof (last_weight (S n) Ht m Hm) as LW. pose proof (divide_co a (newton xs (S n)) m) as DC. rewrite V in DC.
        rewrite times_co in E. pose proof (c1_nonzero (S n) Ht) as Ne.
        apply (Rmult_eq_reg_l (c1 (S n))); [|exact Ne].
        destruct m as [|m].
        - unfold mfact in *. simpl INR in *. simpl fact in *. nra.
        - rewrite DC in LW. nra. }
      rewrite (Sp p D), D1, (divide_co a p m), times_co. unfold mfact. destruct m as [|m]; simpl INR; simpl fact; [simpl INR; ring | ring].
  Qed.
End Fornberg.

(** ** Derivatives of polynomials *)
Fixpoint pder (p : list R) : list R := match p with [] => [] | _ :: p' => padd p' (0 :: pder p') end.
Lemma is_derive_peval p x : is_derive (peval p) x (peval (pder p) x).
Proof.
  induction p as [|a p IH]; [apply @is_derive_const|].
  cbn [pder]. rewrite peval_add. cbn [peval].
  apply (is_derive_ext (fun y => plus a (y * peval p y))); [intro t; reflexivity|].
  replace (peval p x + (0 + x * peval (pder p) x)) with (plus zero (1 * peval p x + x * peval (pder p) x)) by (unfold plus, zero; simpl; ring).
  apply (is_derive_plus (fun _ => a) (fun y => y * peval p y)); [apply @is_derive_const|].
  apply (is_derive_mult (fun y => y) (peval p)); [apply @is_derive_id | exact IH | intros; apply Rmult_comm].
Qed.
Lemma Derive_n_peval m : forall p x, Derive_n (peval p) m x = peval (Nat.iter m pder p) x.
Proof.
  induction m as [|m IH]; intros p x; [reflexivity|].
  cbn [Derive_n]. rewrite (Derive_ext _ (peval (Nat.iter m pder p))) by (intro t; apply IH).
  apply is_derive_unique, is_derive_peval.
Qed.
Lemma ex_derive_n_peval m p x : ex_derive_n (peval p) m x.
Proof.
  destruct m as [|m]; [exact I|]. cbn [ex_derive_n].
  apply (ex_derive_ext (peval (Nat.iter m pder p))); [intro t; symmetry; apply Derive_n_peval|].
  eexists. apply is_derive_peval.
Qed.
Lemma co_pder p k : co (pder p) k = INR (S k) * co p (S k).
Proof.
  revert k. induction p as [|a p IH]; intro k; [unfold co; destruct k; simpl nth; ring|].
  cbn [pder]. rewrite co_add. change (co (a :: p) (S k)) with (co p k). destruct k as [|k].
  - unfold co at 2. simpl. ring.
  - change (co (0 :: pder p) (S k)) with (co (pder p) k). rewrite IH, (S_INR (S k)). ring.
Qed.
Lemma co_iter_pder m : forall p, co (Nat.iter m pder p) 0 = mfact m * co p m.
Proof.
  assert (G : forall m k p, co (Nat.iter m pder p) k * mfact k = mfact (m + k) * co p (m + k)).
  { clear. induction m as [|m IH]; intros k p; [simpl; ring|].
    change (Nat.iter (S m) pder p) with (pder (Nat.iter m pder p)). rewrite co_pder.
    replace (INR (S k) * co (Nat.iter m pder p) (S k) * mfact k) with (co (Nat.iter m pder p) (S k) * mfact (S k)) by (rewrite mfact_S; ring).
    rewrite IH. replace (m + S k)%nat with (S m + k)%nat by lia. reflexivity. }
  intro p. specialize (G m 0%nat p). rewrite Nat.add_0_r in G. unfold mfact at 1 in G. simpl in G. lra.
Qed.
Lemma peval_at_0 p : peval p 0 = co p 0.
Proof. destruct p as [|a p]; unfold co; simpl; ring. Qed.
Lemma Derive_n_at_0 m p : Derive_n (peval p) m 0 = mfact m * co p m.
Proof. rewrite Derive_n_peval, peval_at_0. apply co_iter_pder. Qed.

(** Substituting [x + h z]. *)
Fixpoint subst_affine (x h : R) (p : list R) : list R :=
  match p with
  | [] => []
  | a :: p' => let r := subst_affine x h p' in padd (pscale x r) (a :: pscale h r)
  end.
Lemma subst_affine_eval x h p z : peval (subst_affine x h p) z = peval p (x + h * z).
Proof. induction p as [|a p IH]; [reflexivity|]. simpl. rewrite peval_add, peval_scale. simpl. rewrite peval_scale, IH. ring. Qed.
Lemma subst_affine_degree x h p : forall n, degree_below n p -> degree_below n (subst_affine x h p).
Proof.
  induction p as [|a p IH]; intros n D k H; [destruct k; reflexivity|].
  cbn [subst_affine]. set (r := subst_affine x h p) in *. fold (co (padd (pscale x r) (a :: pscale h r)) k).
  rewrite co_add, co_scale.
  assert (Dr : forall j, (n <= S j)%nat -> co r j = 0).
  { intros j Hj. destruct n as [|n].
    - apply (IH 0%nat); [|lia]. intros i _. exact (D (S i) (Nat.le_0_l _)).
    - apply (IH n); [now apply degree_tail in D | lia]. }
  destruct k as [|k].
  - assert (n = 0)%nat by lia. subst n. rewrite Dr by lia. pose proof (D 0%nat (Nat.le_refl _)) as E. unfold co. simpl in *. rewrite E. ring.
  - change (co (a :: pscale h r) (S k)) with (co (pscale h r) k). rewrite co_scale, !Dr by lia. ring.
Qed.
Lemma derive_scaled x h p m : mfact m * co (subst_affine x h p) m = h ^ m * Derive_n (peval p) m x.
Proof.
  rewrite <- Derive_n_at_0. rewrite (Derive_n_ext _ (fun z => (fun y => peval p (y + x)) (h * z))).
  2:{ intro t. rewrite subst_affine_eval. f_equal. ring. }
  rewrite (Derive_n_comp_scal (fun y => peval p (y + x))).
  - f_equal. rewrite Rmult_0_r, (Derive_n_comp_trans (peval p)). f_equal. ring.
  - apply filter_forall. intros y k _.
    apply (ex_derive_n_ext (peval (subst_affine x 1 p))); [intro t; rewrite subst_affine_eval; f_equal; ring|].
    apply ex_derive_n_peval.
Qed.
