(** The differential control law (C34). *)
From Coq Require Import Reals Lra.
From Coquelicot Require Import Coquelicot.
From Verif Require Import Base Base_Facts Sym_Expr Sym_Facts Sym_Model Sym_Lu Sym_Dual Sym_Traj.
Open Scope R_scope.

Lemma dot_value fn rho a b :
  eval fn rho (dot (map Opp a) b) = - rdot (map (eval fn rho) a) (map (eval fn rho) b).
Proof.
  unfold dot. rewrite eval_Sum. cbn [eval]. rewrite Rplus_0_l. revert b.
  induction a as [|x a IH]; intros [|y b]; cbn [map combine fold_right]; try (unfold rdot, rsum; simpl; lra).
  rewrite IH, rdot_cons. cbn [eval fst snd]. lra.
Qed.

Lemma rdot_map_l {A} (f : A -> R) (l : list A) : forall (y : list R), length y = length l ->
  rdot (map f l) y = rsum (map (fun xv => f (fst xv) * snd xv) (combine l y)).
Proof.
  induction l as [|a l IH]; intros [|b y] H; try discriminate; [reflexivity|].
  cbn [map combine]. rewrite rdot_cons, IH by (simpl in H; congruence). reflexivity.
Qed.

Section Law.
  Variable lu : list (list expr) -> list expr -> res (list expr).
  Hypothesis LU : lu_ok lu.

  (** The rates solve the linearised stationarity conditions. *)
  Lemma udot_values h us (dyn : list (string * expr)) udot :
    let g := map (fun u => diff u h) us in
    lu (jacobian g us) (map (fun row => dot (map Opp row) (eoms dyn)) (jacobian g (syms dyn))) = Ok udot ->
    length udot = length us /\
    forall fn rho, Forall (wd fn rho) udot -> forall k, In k us ->
      rsum (map (fun ud => eval fn rho (diff (fst ud) (diff k h)) * eval fn rho (snd ud)) (combine us udot)) =
      - rsum (map (fun s => eval fn rho (diff (fst s) (diff k h)) * eval fn rho (snd s)) dyn).
  Proof.
    intros g H.
    assert (HA : length (jacobian g us) = length (map (fun row => dot (map Opp row) (eoms dyn)) (jacobian g (syms dyn)))).
    { unfold jacobian. rewrite !map_length. reflexivity. }
    assert (HB : Forall (fun row => length row = length (map (fun row => dot (map Opp row) (eoms dyn)) (jacobian g (syms dyn)))) (jacobian g us)).
    { apply Forall_forall. intros row Hr. unfold jacobian in Hr. apply in_map_iff in Hr. destruct Hr as (gk & <- & _).
      unfold jacobian, g. rewrite !map_length. reflexivity. }
    destruct (LU _ _ _ HA HB H) as [L V]. clear HA HB.
    unfold jacobian, g in L. rewrite !map_length in L. split; [exact L|].
    intros fn rho W k Hk. specialize (V fn rho W). unfold jacobian in V. rewrite !map_map in V.
    assert (G : forall ks, Forall2 (fun row bi => rdot (map (eval fn rho) row) (map (eval fn rho) udot) = eval fn rho bi)
        (map (fun gk => map (fun x => diff x gk) us) (map (fun u => diff u h) ks))
        (map (fun gk => dot (map Opp (map (fun x => diff x gk) (syms dyn))) (eoms dyn)) (map (fun u => diff u h) ks)) ->
      In k ks -> rdot (map (eval fn rho) (map (fun x => diff x (diff k h)) us)) (map (eval fn rho) udot) =
                 eval fn rho (dot (map Opp (map (fun x => diff x (diff k h)) (syms dyn))) (eoms dyn))).
    { induction ks as [|a ks IH]; cbn [map]; intros F I; [contradiction|]. inversion F; subst. destruct I as [->|I]; auto. }
    unfold g in V. assert (V' := V). clear V.
    assert (E := G us). specialize (E ltac:(rewrite !map_map in *; exact V') Hk). clear G V'.
    rewrite dot_value in E. rewrite !map_map in E.
    rewrite (rdot_map_l (fun x => eval fn rho (diff x (diff k h))) us) in E by (rewrite map_length; exact L).
    assert (E1 : rsum (map (fun xv : string * R => eval fn rho (diff (fst xv) (diff k h)) * snd xv) (combine us (map (eval fn rho) udot))) =
                 rsum (map (fun ud => eval fn rho (diff (fst ud) (diff k h)) * eval fn rho (snd ud)) (combine us udot))).
    { clear. revert udot. induction us as [|u us IH]; intros [|e r]; try reflexivity. cbn [map combine]. unfold rsum. cbn [fold_right fst snd].
      f_equal. apply IH. }
    rewrite E1 in E. rewrite E. f_equal. clear.
    induction dyn as [|s dyn IH]; [reflexivity|]. unfold syms, eoms in *. cbn [map]. rewrite rdot_cons, IH. reflexivity.
  Qed.

  Lemma residual_rate fn (Sm : smooth fn) h us dyn udot ind c t (sp : string * expr -> R) k :
    let g := map (fun u => diff u h) us in
    lu (jacobian g us) (map (fun row => dot (map Opp row) (eoms dyn)) (jacobian g (syms dyn))) = Ok udot ->
    In k us -> NoDup (syms dyn ++ us ++ [ind]) -> wd fn (c t) h -> Forall (wd fn (c t)) udot ->
    (forall s, In s dyn -> is_derive (fun r => c r (fst s)) t (sp s) /\
       eval fn (c t) (diff (fst s) (diff k h)) * sp s = eval fn (c t) (diff (fst s) (diff k h)) * eval fn (c t) (snd s)) ->
    (forall u e, In (u, e) (combine us udot) -> is_derive (fun r => c r u) t (eval fn (c t) e)) ->
    is_derive (fun r => c r ind) t 1 ->
    others_fixed c t (syms dyn ++ us ++ [ind]) h ->
    is_derive (fun r => eval fn (c r) (diff k h)) t (eval fn (c t) (diff ind (diff k h))).
  Proof.
    intros g H Hk ND Wh Wu HS HU HI HO. destruct (udot_values h us dyn udot H) as [L V]. specialize (V fn (c t) Wu k Hk).
    set (l := map (fun s => (fst s, sp s)) dyn ++ map (fun ud => (fst ud, eval fn (c t) (snd ud))) (combine us udot) ++ [(ind, 1)]).
    assert (EU : map fst (map (fun ud : string * expr => (fst ud, eval fn (c t) (snd ud))) (combine us udot)) = us).
    { rewrite map_map. cbn [fst]. clear - L. revert udot L. induction us as [|u us IH]; intros [|e r] L; try discriminate; [reflexivity|].
      cbn [combine map fst]. f_equal. apply IH. simpl in L. congruence. }
    assert (E : map fst l = syms dyn ++ us ++ [ind]).
    { unfold l. rewrite !map_app, EU, map_map. reflexivity. }
    rewrite <- E in ND, HO. pose proof (chain_speeds fn Sm c l t (diff k h) ND) as G.
    assert (Z : rsum (map (fun xv => eval fn (c t) (diff (fst xv) (diff k h)) * snd xv) l) = eval fn (c t) (diff ind (diff k h))).
    { unfold l. rewrite !map_app, !rsum_app, !map_map. cbn [fst snd map].
      rewrite (rsum_ext _ (fun s => eval fn (c t) (diff (fst s) (diff k h)) * eval fn (c t) (snd s)) dyn) by (intros s Hs; apply HS; exact Hs).
      unfold rsum at 3. cbn [fold_right]. rewrite V. lra. }
    rewrite Z in G. apply G.
    - intros x v Hx. unfold l in Hx. rewrite !in_app_iff, !in_map_iff in Hx.
      destruct Hx as [(s & Es & Hs)|[(ud & Es & Hs)|[Es|[]]]]; injection Es as <- <-.
      + apply HS. exact Hs.
      + apply HU. destruct ud. exact Hs.
      + exact HI.
    - intros x Hx N. apply HO; auto. eapply vars_diff; eauto.
    - now apply wd_diff.
  Qed.
End Law.

(** ** The extended symplectic form *)
Open Scope nat_scope.
Lemma update_at_length {A} k (f : A -> A) l : length (update_at k f l) = length l.
Proof. revert k. induction l as [|a l IH]; intros [|k]; simpl; auto. Qed.
Lemma nth_update_at {A} (f : A -> A) d : forall l k i, k < length l ->
  nth i (update_at k f l) d = if Nat.eqb i k then f (nth i l d) else nth i l d.
Proof.
  induction l as [|a l IH]; intros k i H; simpl in *; [lia|].
  destruct k as [|k], i as [|i]; simpl; auto. apply IH. lia.
Qed.
Definition entry (m : list (list expr)) (i j : nat) : expr := nth j (nth i m []) (Cst 0).
Definition square (N : nat) (m : list (list expr)) : Prop := length m = N /\ forall i, i < N -> length (nth i m []) = N.
Lemma square_set N m a b e : square N m -> a < N -> square N (set_entry a b e m).
Proof.
  intros [H1 H2] Ha. unfold set_entry. split; [now rewrite update_at_length|].
  intros i Hi. rewrite nth_update_at by lia. destruct (Nat.eqb i a); [rewrite update_at_length|]; now apply H2.
Qed.
Lemma entry_set N m a b e i j : square N m -> a < N -> b < N -> i < N ->
  entry (set_entry a b e m) i j = if Nat.eqb i a && Nat.eqb j b then e else entry m i j.
Proof.
  intros [H1 H2] Ha Hb Hi. unfold entry, set_entry. rewrite nth_update_at by lia.
  destruct (Nat.eqb_spec i a) as [->|]; [|reflexivity]. cbn [andb].
  rewrite nth_update_at by (rewrite H2; lia). reflexivity.
Qed.

Lemma omega_entries N n m ind udot : N = 2 * n -> m + ind < n -> length udot <= m ->
  square N (omega_new n m ind udot) /\
  forall i j, i < N -> j < N -> entry (omega_new n m ind udot) i j =
    if Nat.eqb i ind && Nat.leb (2 * n - m) j && Nat.ltb (j - (2 * n - m)) (length udot)
    then Opp (nth (j - (2 * n - m)) udot (Cst 0))
    else if Nat.eqb j ind && Nat.leb (2 * n - m) i && Nat.ltb (i - (2 * n - m)) (length udot)
    then nth (i - (2 * n - m)) udot (Cst 0)
    else entry (std_form n) i j.
Proof.
  intros EN HM. induction udot as [|e udot IH] using rev_ind; intros HL.
  - change (omega_new n m ind []) with (std_form n). split.
    + split; [rewrite std_form_length; lia|]. intros i Hi. cbv beta. pose proof (std_form_row n) as F. rewrite Forall_forall in F.
      rewrite EN. apply F. apply nth_In. rewrite std_form_length. lia.
    + intros i j Hi Hj. cbn [length].
      rewrite !(proj2 (Nat.ltb_ge _ 0)) by lia. rewrite !andb_false_r. reflexivity.
  - rewrite app_length in HL. cbn [length] in HL. destruct (IH ltac:(lia)) as [SQ EQ]. clear IH.
    assert (ST : omega_new n m ind (udot ++ [e]) = omega_step n m ind (omega_new n m ind udot) (length udot, e)).
    { unfold omega_new. rewrite app_length. cbn [length]. rewrite Nat.add_1_r, seq_S. 
      assert (C : forall (a b : list nat) (c d : list expr), length a = length c -> combine (a ++ b) (c ++ d) = combine a c ++ combine b d).
      { clear. induction a as [|x a IH]; intros b [|y c] d H; try discriminate; [reflexivity|]. simpl. f_equal. apply IH. simpl in H. congruence. }
      rewrite C by (rewrite seq_length; reflexivity). rewrite fold_left_app. reflexivity. }
    rewrite ST. unfold omega_step. cbv zeta. set (K := length udot) in *.
    set (a := n - m + K). set (b := 2 * n - m + K).
    assert (Ba : a < N) by (unfold a; lia). assert (Bb : b < N) by (unfold b; lia). assert (Bi : ind < N) by lia.
    set (o0 := omega_new n m ind udot) in *.
    assert (S1 : square N (set_entry a b (Cst 1) o0)) by (now apply square_set).
    assert (S2 : square N (set_entry b a (Cst (-1)) (set_entry a b (Cst 1) o0))) by (now apply square_set).
    assert (S3 : square N (set_entry ind b (Opp e) (set_entry b a (Cst (-1)) (set_entry a b (Cst 1) o0)))) by (now apply square_set).
    split; [now apply square_set|].
    intros i j Hi Hj.
    rewrite (entry_set N) by assumption. rewrite (entry_set N) by assumption. rewrite (entry_set N) by assumption. rewrite (entry_set N) by assumption.
    rewrite (EQ i j Hi Hj). rewrite app_length. cbn [length]. fold K.
    assert (NK : nth K (udot ++ [e]) (Cst 0) = e) by (unfold K; rewrite app_nth2, Nat.sub_diag by lia; reflexivity).
    assert (NL : forall q, q < K -> nth q (udot ++ [e]) (Cst 0) = nth q udot (Cst 0)) by (intros q Hq; now apply app_nth1).
    assert (STD : forall i j, i < N -> j < N -> entry (std_form n) i j = if Nat.eqb j (i + n) then Cst 1 else if Nat.eqb i (j + n) then Cst (-1) else Cst 0).
    { intros i' j' Hi' Hj'. unfold entry, std_form.
      rewrite (nth_indep _ [] ((fun i => map (fun j => if Nat.eqb j (i + n) then Cst 1 else if Nat.eqb i (j + n) then Cst (-1) else Cst 0) (seq 0 (2 * n))) 0))
        by (rewrite map_length, seq_length; lia).
      rewrite (map_nth (fun i => map (fun j => if Nat.eqb j (i + n) then Cst 1 else if Nat.eqb i (j + n) then Cst (-1) else Cst 0) (seq 0 (2 * n)))).
      rewrite seq_nth by lia. rewrite ?Nat.add_0_l.
      rewrite (nth_indep _ (Cst 0) ((fun j => if Nat.eqb j (i' + n) then Cst 1 else if Nat.eqb i' (j + n) then Cst (-1) else Cst 0) 0)) by (rewrite map_length, seq_length; lia).
      rewrite (map_nth (fun j => if Nat.eqb j (i' + n) then Cst 1 else if Nat.eqb i' (j + n) then Cst (-1) else Cst 0)).
      rewrite seq_nth by lia. reflexivity. }
    destruct (Nat.eqb_spec i b) as [Eib|Nib], (Nat.eqb_spec j ind) as [Eji|Nji]; cbn [andb].
    + (* (b, ind) *) subst i j.
      destruct (Nat.eqb_spec b ind); [unfold b in *; lia|]. cbn [andb].
      rewrite (proj2 (Nat.leb_le (2 * n - m) b)) by (unfold b; lia). cbn [andb].
      replace (b - (2 * n - m)) with K by (unfold b; lia). rewrite (proj2 (Nat.ltb_lt K (K + 1))) by lia. now rewrite NK.
    + subst i. destruct (Nat.eqb_spec b ind); [unfold b in *; lia|]. cbn [andb].
      destruct (Nat.eqb_spec j a) as [->|]; cbn [andb].
      * rewrite STD by assumption. destruct (Nat.eqb_spec a (b + n)); [unfold a, b in *; lia|].
        destruct (Nat.eqb_spec b (a + n)); [reflexivity|unfold a, b in *; lia].
      * destruct (Nat.eqb_spec b a); [unfold a, b in *; lia|]. reflexivity.
    + subst j. destruct (Nat.eqb_spec i ind) as [->|]; cbn [andb].
      * (* (ind, ind): unchanged *)
        destruct (Nat.eqb_spec ind b); [congruence|].
        rewrite !(proj2 (Nat.leb_gt (2 * n - m) ind)) by lia. cbn [andb].
        destruct (Nat.eqb_spec ind a); [unfold a in *; lia|]. reflexivity.
      * destruct (Nat.eqb_spec ind a); [unfold a in *; lia|]. destruct (Nat.eqb_spec ind b); [unfold b in *; lia|]. rewrite !andb_false_r. cbn [andb].
        destruct (Nat.leb_spec (2 * n - m) i); cbn [andb]; [|reflexivity].
        destruct (Nat.ltb_spec (i - (2 * n - m)) K), (Nat.ltb_spec (i - (2 * n - m)) (K + 1)); try lia; auto.
        { symmetry. now apply NL. }
    + destruct (Nat.eqb_spec i ind) as [->|Nii]; cbn [andb].
      * destruct (Nat.eqb_spec j b) as [->|Njb]; cbn [andb].
        { rewrite (proj2 (Nat.leb_le (2 * n - m) b)) by (unfold b; lia). cbn [andb].
          replace (b - (2 * n - m)) with K by (unfold b; lia). rewrite (proj2 (Nat.ltb_lt K (K + 1))) by lia. now rewrite NK. }
        destruct (Nat.eqb_spec ind a); [unfold a in *; lia|]. cbn [andb].
        destruct (Nat.leb_spec (2 * n - m) j); cbn [andb]; [|reflexivity].
        destruct (Nat.ltb_spec (j - (2 * n - m)) K), (Nat.ltb_spec (j - (2 * n - m)) (K + 1)); try lia; auto.
        { f_equal. symmetry. now apply NL. }
      * destruct (Nat.eqb_spec i a) as [->|], (Nat.eqb_spec j b) as [->|]; cbn [andb]; auto.
        rewrite STD by assumption. destruct (Nat.eqb_spec b (a + n)); [reflexivity|unfold a, b in *; lia].
Qed.

Lemma rdot_nth : forall a x : list R, length a = length x ->
  rdot a x = rsum (map (fun j => (nth j a 0 * nth j x 0)%R) (seq 0 (length x))).
Proof.
  induction a as [|y a IH]; intros [|z x] H; try discriminate; [reflexivity|]. cbn [length seq map]. rewrite rdot_cons.
  unfold rsum. cbn [fold_right nth]. f_equal. rewrite IH by (simpl in H; congruence).
  rewrite <- seq_shift, map_map. reflexivity.
Qed.

Lemma omega_dot fn rho n m ind udot x i : m + ind < n -> length udot = m -> length x = 2 * n -> i < 2 * n ->
  rdot (map (eval fn rho) (nth i (omega_new n m ind udot) [])) x =
  ((if Nat.ltb i n then nth (i + n) x 0 else - nth (i - n) x 0) +
   (if Nat.eqb i ind then - rsum (map (fun k => eval fn rho (nth k udot (Cst 0)) * nth (2 * n - m + k) x 0) (seq 0 m))
    else if Nat.leb (2 * n - m) i then eval fn rho (nth (i - (2 * n - m)) udot (Cst 0)) * nth ind x 0 else 0))%R.
Proof.
  intros HM LU LX Hi. destruct (omega_entries (2 * n) n m ind udot eq_refl HM ltac:(lia)) as [[SQ1 SQ2] EQ].
  rewrite rdot_nth by (rewrite map_length, SQ2 by lia; lia).
  assert (SD : rdot (map (eval fn rho) (nth i (std_form n) [])) x =
               rsum (map (fun j => (eval fn rho (entry (std_form n) i j) * nth j x 0)%R) (seq 0 (length x)))).
  { pose proof (std_form_row n) as F. rewrite Forall_forall in F.
    rewrite rdot_nth.
    - apply rsum_ext. intros j Hj. f_equal. change 0%R with (eval fn rho (Cst 0)) at 1. rewrite (map_nth (eval fn rho)). reflexivity.
    - rewrite map_length, LX. apply F. apply nth_In. rewrite std_form_length. lia. }
  rewrite <- (std_form_dot fn rho) by assumption. rewrite SD. 
  set (delta := fun j => if Nat.eqb i ind then (if Nat.leb (2 * n - m) j then - eval fn rho (nth (j - (2 * n - m)) udot (Cst 0)) else 0)%R
     else (if Nat.leb (2 * n - m) i then (if Nat.eqb j ind then 1 else 0) * eval fn rho (nth (i - (2 * n - m)) udot (Cst 0)) else 0)%R).
  assert (SPLIT : forall j, j < 2 * n -> nth j (map (eval fn rho) (nth i (omega_new n m ind udot) [])) 0%R =
     (eval fn rho (entry (std_form n) i j) + delta j)%R).
  { intros j Hj. change 0%R with (eval fn rho (Cst 0)) at 1. rewrite (map_nth (eval fn rho)).
    change (nth j (nth i (omega_new n m ind udot) []) (Cst 0)) with (entry (omega_new n m ind udot) i j).
    rewrite (EQ i j Hi Hj), LU. unfold delta.
    assert (Z : forall i j, i < 2 * n -> j < 2 * n -> j <> i + n -> i <> j + n -> eval fn rho (entry (std_form n) i j) = 0%R).
    { intros i' j' Hi' Hj' N1 N2. unfold entry, std_form.
      rewrite (nth_indep _ [] ((fun i => map (fun j => if Nat.eqb j (i + n) then Cst 1 else if Nat.eqb i (j + n) then Cst (-1) else Cst 0) (seq 0 (2 * n))) 0))
        by (rewrite map_length, seq_length; lia).
      rewrite (map_nth (fun i => map (fun j => if Nat.eqb j (i + n) then Cst 1 else if Nat.eqb i (j + n) then Cst (-1) else Cst 0) (seq 0 (2 * n)))).
      rewrite seq_nth by lia. rewrite ?Nat.add_0_l.
      rewrite (nth_indep _ (Cst 0) ((fun j => if Nat.eqb j (i' + n) then Cst 1 else if Nat.eqb i' (j + n) then Cst (-1) else Cst 0) 0)) by (rewrite map_length, seq_length; lia).
      rewrite (map_nth (fun j => if Nat.eqb j (i' + n) then Cst 1 else if Nat.eqb i' (j + n) then Cst (-1) else Cst 0)).
      rewrite seq_nth by lia. rewrite ?Nat.add_0_l. destruct (Nat.eqb_spec j' (i' + n)); [lia|]. destruct (Nat.eqb_spec i' (j' + n)); [lia|]. reflexivity. }
    destruct (Nat.eqb_spec i ind) as [->|Ni]; cbn [andb].
    - rewrite (proj2 (Nat.leb_gt (2 * n - m) ind)) by lia. rewrite andb_false_r. cbn [andb].
      destruct (Nat.leb_spec (2 * n - m) j); cbn [andb]; [|lra].
      destruct (Nat.ltb_spec (j - (2 * n - m)) m); [|lia]. rewrite Z by lia. cbn [eval]. lra.
    - destruct (Nat.leb_spec (2 * n - m) i).
      + destruct (Nat.eqb_spec j ind) as [->|]; cbn [andb]; [|lra].
        destruct (Nat.ltb_spec (i - (2 * n - m)) m); [|lia]. rewrite Z by lia. lra.
      + rewrite !andb_false_r. cbn [andb]. lra. }
  rewrite (rsum_ext _ (fun j => eval fn rho (entry (std_form n) i j) * nth j x 0 + delta j * nth j x 0)%R).
  2: { intros j Hj. apply in_seq in Hj. rewrite SPLIT by lia. lra. }
  rewrite rsum_plus. f_equal. unfold delta. rewrite LX.
  destruct (Nat.eqb_spec i ind).
  - replace (2 * n) with ((2 * n - m) + m) at 1 by lia. rewrite seq_app, map_app, rsum_app. rewrite ?Nat.add_0_l.
    rewrite rsum_zero.
    + rewrite <- rsum_opp.
      assert (SS : forall k q, seq (q + k) m = map (fun z => q + z) (seq k m)).
      { clear. induction m as [|m IH]; intros k q; [reflexivity|]. cbn [seq map]. f_equal. rewrite <- IH. f_equal. lia. }
      pose proof (SS 0 (2 * n - m)) as S0. rewrite Nat.add_0_r in S0. rewrite S0, map_map, Rplus_0_l. apply rsum_ext. intros k Hk. 
      rewrite (proj2 (Nat.leb_le (2 * n - m) (2 * n - m + k))) by lia. replace (2 * n - m + k - (2 * n - m)) with k by lia. lra.
    + intros j Hj. apply in_seq in Hj. rewrite (proj2 (Nat.leb_gt (2 * n - m) j)) by lia. lra.
  - destruct (Nat.leb_spec (2 * n - m) i).
    + rewrite (rsum_ext _ (fun j => (if Nat.eqb j ind then 1 else 0) * (eval fn rho (nth (i - (2 * n - m)) udot (Cst 0)) * nth j x 0))%R) by (intros; lra).
      apply (rsum_single_nat (fun j => (eval fn rho (nth (i - (2 * n - m)) udot (Cst 0)) * nth j x 0)%R)). lia.
    + apply rsum_zero. intros; lra.
Qed.

(** Solutions of the extended system: [qs] states then controls, [ls] their
    costates, the last [m] of each belonging to controls. *)
Lemma ham_field_extended lu (LU : lu_ok lu) h qs ls m ind udot chi :
  let n := length qs in
  length ls = n -> m + ind < n -> length udot = m ->
  ham_field lu h (omega_new n m ind udot) (qs ++ ls) = Ok chi ->
  length chi = 2 * n /\
  forall fn rho, Forall (wd fn rho) chi ->
    (forall i, i < n - m -> eval fn rho (nth i chi (Cst 0)) = eval fn rho (diff (nth i ls EmptyString) h)) /\
    (forall k, k < m -> eval fn rho (nth (n - m + k) chi (Cst 0)) =
       (eval fn rho (diff (nth (n - m + k) ls EmptyString) h) + eval fn rho (nth k udot (Cst 0)) * eval fn rho (nth ind chi (Cst 0)))%R) /\
    (forall i, i < n -> i <> ind -> eval fn rho (nth (n + i) chi (Cst 0)) = (- eval fn rho (diff (nth i qs EmptyString) h))%R).
Proof.
  intros n HL HM LUD H. unfold ham_field in H.
  destruct (omega_entries (2 * n) n m ind udot eq_refl HM ltac:(lia)) as [[SQ1 SQ2] _].
  set (om := omega_new n m ind udot) in *. rewrite SQ1 in H.
  destruct (Nat.odd (2 * n)); [discriminate|].
  destruct (lu om (map (fun b => diff b h) (qs ++ ls))) as [x|] eqn:E; cbn [bind] in H; [|discriminate].
  assert (EC : chi = map Opp x) by congruence. clear H.
  assert (LB : length (map (fun b => diff b h) (qs ++ ls)) = 2 * n).
  { rewrite map_length, app_length. unfold n in *. lia. }
  assert (HA : length om = length (map (fun b => diff b h) (qs ++ ls))) by lia.
  assert (HB : Forall (fun row => length row = length (map (fun b => diff b h) (qs ++ ls))) om).
  { apply Forall_forall. intros row Hr. apply (In_nth _ _ []) in Hr. destruct Hr as (i & Hi & <-). rewrite LB. apply SQ2. lia. }
  destruct (LU _ _ _ HA HB E) as [Lx V].
  rewrite LB in Lx. split; [rewrite EC, map_length; exact Lx|].
  intros fn rho W.
  assert (WX : Forall (wd fn rho) x).
  { rewrite EC in W. rewrite Forall_map in W. exact W. }
  specialize (V fn rho WX).
  assert (RW : forall k, k < 2 * n ->
    rdot (map (eval fn rho) (nth k om [])) (map (eval fn rho) x) = eval fn rho (diff (nth k (qs ++ ls) EmptyString) h)).
  { intros k Hk.
    assert (G : forall (A : list (list expr)) b k, Forall2 (fun row bi => rdot (map (eval fn rho) row) (map (eval fn rho) x) = eval fn rho bi) A b ->
       k < length A -> rdot (map (eval fn rho) (nth k A [])) (map (eval fn rho) x) = eval fn rho (nth k b (Cst 0))).
    { clear. intros A b k F. revert k. induction F; intros [|k] Hk; simpl in *; try lia; auto. apply IHF. lia. }
    rewrite (G _ _ _ V) by lia.
    rewrite (nth_indep _ (Cst 0) (diff EmptyString h)) by (rewrite LB; exact Hk).
    now rewrite (map_nth (fun b => diff b h)). }
  assert (NX : forall k, nth k (map (eval fn rho) x) 0%R = eval fn rho (nth k x (Cst 0))).
  { intros k. rewrite <- (map_nth (eval fn rho)). reflexivity. }
  assert (NC : forall k, k < 2 * n -> eval fn rho (nth k chi (Cst 0)) = (- eval fn rho (nth k x (Cst 0)))%R).
  { intros k Hk. rewrite EC. rewrite (nth_indep _ (Cst 0) (Opp (Cst 0))) by (rewrite map_length; lia).
    now rewrite (map_nth Opp). }
  assert (RS : forall i, i < 2 * n -> _) by (intros i Hi; exact (omega_dot fn rho n m ind udot (map (eval fn rho) x) i HM LUD ltac:(rewrite map_length; lia) Hi)).
  fold om in RS.
  split; [|split].
  - intros i Hi. rewrite NC by lia. pose proof (RW (n + i) ltac:(lia)) as R1. rewrite RS in R1 by lia.
    destruct (Nat.ltb_spec (n + i) n); [lia|]. destruct (Nat.eqb_spec (n + i) ind); [lia|].
    destruct (Nat.leb_spec (2 * n - m) (n + i)); [lia|]. rewrite NX in R1.
    rewrite app_nth2 in R1 by (fold n; lia). fold n in R1. replace (n + i - n) with i in R1 by lia. lra.
  - intros k Hk. rewrite !NC by lia. pose proof (RW (n + (n - m + k)) ltac:(lia)) as R1. rewrite RS in R1 by lia.
    destruct (Nat.ltb_spec (n + (n - m + k)) n); [lia|]. destruct (Nat.eqb_spec (n + (n - m + k)) ind); [lia|].
    destruct (Nat.leb_spec (2 * n - m) (n + (n - m + k))); [|lia]. rewrite !NX in R1.
    rewrite app_nth2 in R1 by (fold n; lia). fold n in R1. replace (n + (n - m + k) - n) with (n - m + k) in R1 by lia.
    replace (n + (n - m + k) - (2 * n - m)) with k in R1 by lia. lra.
  - intros i Hi Ni. rewrite NC by lia. pose proof (RW i ltac:(lia)) as R1. rewrite RS in R1 by lia.
    destruct (Nat.ltb_spec i n); [|lia]. destruct (Nat.eqb_spec i ind); [lia|].
    destruct (Nat.leb_spec (2 * n - m) i); [lia|]. rewrite NX in R1.
    rewrite app_nth1 in R1 by exact Hi. rewrite (Nat.add_comm n i). lra.
Qed.

(** ** Results of the transformation *)
Lemma map_fst_combine {A B} : forall (l : list A) (r : list B), length l = length r -> map fst (combine l r) = l.
Proof. induction l as [|a l IH]; intros [|b r] H; try discriminate; [reflexivity|]. simpl in *. f_equal. apply IH. congruence. Qed.
Section Results.
  Variable lu : list (list expr) -> list expr -> res (list expr).

  Definition control_rates (p : prob) (h : expr) : res (list expr) :=
    let dyn := p_states p ++ p_costates p in
    let g := map (fun u => diff u h) (p_controls p) in
    lu (jacobian g (p_controls p)) (map (fun row => dot (map Opp row) (eoms dyn)) (jacobian g (syms dyn))).

  Lemma diffctl_traditional m p p2 : differential_control lu m p = Ok p2 -> lower m = "traditional"%string ->
    exists h udot, p_ham p = Some h /\ control_rates p h = Ok udot /\
      p_states p2 = p_states p ++ combine (p_controls p) udot /\ p_costates p2 = p_costates p /\
      p_controls p2 = [] /\ p_ct p2 = p_ct p ++ map (fun u => plain (diff u h)) (p_controls p) /\
      p_ci p2 = p_ci p /\ p_ind p2 = p_ind p.
  Proof.
    unfold differential_control. destruct (p_dual p); [|discriminate]. destruct (p_ham p) as [h|]; [|discriminate].
    intros H M. fold (control_rates p h) in H. destruct (control_rates p h) as [udot|] eqn:E; cbn [bind] in H; [|discriminate].
    rewrite M in H. exists h, udot. split; [reflexivity|]. split; [exact E|]. 
    rewrite map_map in H. revert H. cbv zeta.
    generalize (map (fun u => plain (diff u h)) (p_controls p)). intros gs H.
    cbn [String.eqb Ascii.eqb Bool.eqb] in H. apply Ok_inj in H. subst p2. repeat (split; [reflexivity|]). reflexivity.
  Qed.

  Lemma diffctl_diffyg m p p2 : differential_control lu m p = Ok p2 -> lower m = "diffyg"%string ->
    exists h udot chi, p_ham p = Some h /\ control_rates p h = Ok udot /\
      (length udot = length (p_controls p) ->
       let n := length (p_states p) + length (p_controls p) in
       let qs := syms (p_states p) ++ p_controls p in
       let ls := syms (p_costates p) ++ map lam (p_controls p) in
       ham_field lu h (omega_new n (length (p_controls p)) (length (p_states p) - 1) udot) (qs ++ ls) = Ok chi /\
       p_states p2 = combine qs (firstn n chi) /\ p_costates p2 = combine ls (skipn n chi)) /\
      p_controls p2 = [] /\ p_ct p2 = p_ct p ++ map (fun u => plain (diff u h)) (p_controls p) /\
      p_ci p2 = p_ci p ++ map (fun u => plain (Var (lam u))) (p_controls p) /\ p_ind p2 = p_ind p.
  Proof.
    unfold differential_control. destruct (p_dual p); [|discriminate]. destruct (p_ham p) as [h|]; [|discriminate].
    intros H M. fold (control_rates p h) in H. destruct (control_rates p h) as [udot|] eqn:E; cbn [bind] in H; [|discriminate].
    rewrite M in H. rewrite map_map in H. cbv zeta in H.
    cbn [String.eqb Ascii.eqb Bool.eqb set_ct set_states set_costates p_states p_costates p_controls] in H.
    destruct (negb _); [discriminate|].
    match type of H with bind ?e _ = _ => destruct e as [chi|] eqn:EC end; cbn [bind] in H; [|discriminate].
    exists h, udot, chi. split; [reflexivity|]. split; [exact E|]. apply Ok_inj in H. subst p2.
    split; [|split; [reflexivity|split; [reflexivity|split; [reflexivity|reflexivity]]]].
    intros LU. set (n := length (p_states p) + length (p_controls p)). set (qs := syms (p_states p) ++ p_controls p).
    set (ls := syms (p_costates p) ++ map lam (p_controls p)).
    assert (EQ : syms (p_states p ++ combine (p_controls p) udot) = qs).
    { unfold qs, syms. rewrite map_app, (map_fst_combine (p_controls p) udot) by (symmetry; exact LU). reflexivity. }
    assert (EL : syms (p_costates p ++ map (fun u => (lam u, Cst 0)) (p_controls p)) = ls).
    { unfold ls, syms. rewrite map_app, map_map. reflexivity. }
    assert (EN : length (p_states p ++ combine (p_controls p) udot) = n).
    { unfold n. rewrite app_length, combine_length, LU, Nat.min_id. reflexivity. }
    rewrite EQ, EL, EN in EC. split; [exact EC|].
    cbn [set_ct set_states set_costates set_ci set_controls set_maps p_states p_costates]. rewrite EQ, EL, EN. split; reflexivity.
  Qed.
End Results.

Section Geometric.
  Variable lu : list (list expr) -> list expr -> res (list expr).
  Hypothesis LU : lu_ok lu.
  Variable fn : string -> nat -> R -> R.
  Open Scope R_scope.

  (** The costate of time does not occur in the stationarity conditions. *)
  Lemma time_costate_absent p pre tau k rho :
    p_states p = pre ++ [(tau, Cst 1)] -> NoDup (syms (p_states p)) ->
    ~ In k (map lam (syms (p_states p))) ->
    ~ In (lam tau) (vars (p_cost_p p)) -> (forall s, In s (p_states p) -> ~ In (lam tau) (vars (snd s))) ->
    eval fn rho (diff (lam tau) (diff k (dual_ham p))) = 0.
  Proof.
    intros EP ND HK HC HF. unfold dual_ham. rewrite !diff_Sum, eval_Sum.
    rewrite (eval_diff_fresh fn).
    2: { intros I. apply HC. eapply vars_diff; eauto. }
    rewrite !map_map. rewrite Rplus_0_l. fold (rsum (map (fun s : string * expr => eval fn rho (diff (lam tau) (diff k (Mul (Var (lam (fst s))) (snd s))))) (p_states p))).
    apply rsum_zero. intros s Hs. cbn [diff].
    destruct (String.eqb_spec k (lam (fst s))) as [->|NK].
    { exfalso. apply HK. apply in_map. unfold syms. now apply in_map. }
    cbn [diff eval].
    assert (F1 : eval fn rho (diff (lam tau) (snd s)) = 0) by (apply (eval_diff_fresh fn); now apply HF).
    assert (F2 : eval fn rho (diff (lam tau) (diff k (snd s))) = 0).
    { apply (eval_diff_fresh fn). intros I. apply (HF s Hs). eapply vars_diff; eauto. }
    rewrite F1, F2. destruct (String.eqb_spec (lam tau) (lam (fst s))) as [E|E]; cbn [eval]; [|lra].
    apply lam_inj in E. rewrite EP in Hs, ND. 
    assert (snd s = Cst 1) as ->; [|cbn [diff eval]; lra].
    apply in_app_or in Hs. destruct Hs as [Hs|[<-|[]]]; [|reflexivity].
    exfalso. unfold syms in ND. rewrite map_app in ND. cbn [map fst] in ND. apply NoDup_remove_2 in ND.
    apply ND. rewrite app_nil_r, E. now apply in_map.
  Qed.
End Geometric.
