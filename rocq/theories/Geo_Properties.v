(** Property theorems C36 (symplectic test) and C37 (exterior derivative). *)
From Coq Require Import Reals Lra.
From Coquelicot Require Import Coquelicot.
From Verif Require Import Base Base_Facts Sym_Expr Sym_Facts Sym_Model Sym_Dual Geo_Model.
Open Scope nat_scope.

(** * C36 *)

Lemma symp_loop {F} eqb opp (zero : F) m l : forall out,
  fold_left (symp_step eqb opp zero m) l out = true <->
  out = true /\ forall i j, In (i, j) l -> if Nat.eqb i j then eqb (m i j) zero = true else eqb (m i j) (opp (m j i)) = true.
Proof.
  induction l as [|[a b] l IH]; intros out; simpl.
  - split; [intros ->; split; [reflexivity|intros i j []]|tauto].
  - rewrite IH. destruct (Nat.eqb_spec a b) as [E|E]; cbn [negb].
    + destruct (eqb (m a b) zero) eqn:Z; cbn [negb].
      * split; intros [H1 H2]; (split; [exact H1|]); intros i j H; [|apply H2; now right]. destruct H as [H|H]; [|now apply H2]. injection H as <- <-.
        rewrite (proj2 (Nat.eqb_eq a b) E). exact Z.
      * split; [intros [H _]; discriminate|]. intros [_ H]. specialize (H a b (or_introl eq_refl)).
        rewrite (proj2 (Nat.eqb_eq a b) E) in H. congruence.
    + destruct (eqb (m a b) (opp (m b a))) eqn:Z; cbn [negb].
      * split; intros [H1 H2]; (split; [exact H1|]); intros i j H; [|apply H2; now right]. destruct H as [H|H]; [|now apply H2]. injection H as <- <-.
        rewrite (proj2 (Nat.eqb_neq a b) E). exact Z.
      * split; [intros [H _]; discriminate|]. intros [_ H]. specialize (H a b (or_introl eq_refl)).
        rewrite (proj2 (Nat.eqb_neq a b) E) in H. congruence.
Qed.

(** C36.  What the test accepts, for every shape and every entries: even-sized
    square antisymmetric arrays, nothing else. *)
Theorem C36_accepts_exactly_antisymmetric : forall (F : Type) (eqb : F -> F -> bool) (opp : F -> F) (zero : F),
  (forall a b, eqb a b = true <-> a = b) ->
  forall f : form F,
  is_symplectic eqb opp zero f = true <->
  exists n m, f = Form [2 * n; 2 * n] m /\
    forall i j, i < 2 * n -> j < 2 * n -> (i = j -> m i j = zero) /\ (i <> j -> m i j = opp (m j i)).
Proof.
  intros F eqb opp zero EQ f. split.
  - destruct f as [|shape m]; [discriminate|]. destruct shape as [|r [|c [|x s]]]; try discriminate. simpl.
    destruct (Nat.odd r || negb (Nat.eqb r c))%bool eqn:B; [discriminate|]. apply Bool.orb_false_iff in B. destruct B as [B1 B2].
    apply Bool.negb_false_iff in B2. apply Nat.eqb_eq in B2. subst c.
    assert (E : Nat.even r = true) by (rewrite <- Nat.negb_odd, B1; reflexivity). apply Nat.even_spec in E. destruct E as [n ->].
    intros H. apply symp_loop in H. destruct H as [_ H]. exists n, m. split; [reflexivity|]. intros i j Hi Hj.
    specialize (H i j). rewrite in_prod_iff, !in_seq in H. specialize (H ltac:(lia)). split; intros E.
    + rewrite (proj2 (Nat.eqb_eq i j) E) in H. now apply EQ.
    + rewrite (proj2 (Nat.eqb_neq i j) E) in H. now apply EQ.
  - intros (n & m & -> & H). unfold is_symplectic.
    assert (O : Nat.odd (2 * n) = false) by (rewrite Nat.odd_mul; reflexivity). rewrite O, Nat.eqb_refl. cbn [negb orb].
    apply symp_loop. split; [reflexivity|]. intros i j I. rewrite in_prod_iff, !in_seq in I. destruct (H i j ltac:(lia) ltac:(lia)) as [H1 H2].
    destruct (Nat.eqb_spec i j) as [E|E]; apply EQ; auto.
Qed.
Print Assumptions C36_accepts_exactly_antisymmetric.

(** Entry (omega x)_i of an integer form, and non-degeneracy. *)
Definition apply_form (N : nat) (m : nat -> nat -> Z) (x : nat -> Z) (i : nat) : Z :=
  fold_right Z.add 0%Z (map (fun j => (m i j * x j)%Z) (seq 0 N)).
Definition nondegenerate (N : nat) (m : nat -> nat -> Z) : Prop :=
  forall x, (forall i, i < N -> apply_form N m x i = 0%Z) -> forall j, j < N -> x j = 0%Z.

Lemma zsum_single f k : forall N, (forall j, j < N -> j <> k -> f j = 0%Z) ->
  fold_right Z.add 0%Z (map f (seq 0 N)) = if Nat.ltb k N then f k else 0%Z.
Proof.
  assert (G : forall N a, (forall j, a <= j < a + N -> j <> k -> f j = 0%Z) ->
     fold_right Z.add 0%Z (map f (seq a N)) = if (Nat.leb a k && Nat.ltb k (a + N))%bool then f k else 0%Z).
  { induction N as [|N IH]; intros a H; simpl.
    - destruct (Nat.leb_spec a k), (Nat.ltb_spec k (a + 0)); simpl; auto; lia.
    - rewrite IH by (intros j Hj; apply H; lia). destruct (Nat.eq_dec a k) as [->|NE].
      + rewrite Nat.leb_refl. destruct (Nat.leb_spec (S k) k), (Nat.ltb_spec k (k + S N)); simpl; lia.
      + rewrite (H a) by lia.
        destruct (Nat.leb_spec (S a) k), (Nat.leb_spec a k), (Nat.ltb_spec k (S a + N)), (Nat.ltb_spec k (a + S N)); simpl; try lia. }
  intros N H. rewrite (G N 0) by (intros j Hj; apply H; lia). reflexivity.
Qed.

(** C36.  The standard form of every dimension is accepted, and it is
    non-degenerate; unequal numbers of states and costates are rejected. *)
Theorem C36_standard_form_accepted : forall n,
  exists m, standard_form n n = Ok (2 * n, m) /\
    is_symplectic Z.eqb Z.opp 0%Z (Form [2 * n; 2 * n] m) = true /\ nondegenerate (2 * n) m.
Proof.
  intros n. unfold standard_form. rewrite Nat.eqb_refl. eexists. split; [reflexivity|]. split.
  - apply (C36_accepts_exactly_antisymmetric Z Z.eqb Z.opp 0%Z Z.eqb_eq). eexists n, _. split; [reflexivity|].
    intros i j Hi Hj. split; intros E.
    + subst j. destruct (Nat.eqb_spec i (i + n)); [lia|]. reflexivity.
    + destruct (Nat.eqb_spec i (j + n)), (Nat.eqb_spec j (i + n)); try lia; reflexivity.
  - intros x H j Hj. destruct (Nat.lt_ge_cases j n) as [L|G].
    + specialize (H (j + n) ltac:(lia)). unfold apply_form in H. rewrite (zsum_single _ j) in H.
      * destruct (Nat.ltb_spec j (2 * n)); [|lia]. rewrite Nat.eqb_refl in H. lia.
      * intros k Hk NE. destruct (Nat.eqb_spec (j + n) (k + n)); [lia|]. destruct (Nat.eqb_spec k (j + n + n)); [lia|]. reflexivity.
    + specialize (H (j - n) ltac:(lia)). unfold apply_form in H. rewrite (zsum_single _ j) in H.
      * destruct (Nat.ltb_spec j (2 * n)); [|lia]. destruct (Nat.eqb_spec (j - n) (j + n)); [lia|].
        destruct (Nat.eqb_spec j (j - n + n)); [|lia]. lia.
      * intros k Hk NE. destruct (Nat.eqb_spec (j - n) (k + n)); [lia|]. destruct (Nat.eqb_spec k (j - n + n)); [lia|]. reflexivity.
Qed.
Print Assumptions C36_standard_form_accepted.

(** C36 fails: degenerate forms are accepted. *)
Theorem C36_degenerate_accepted_refuted : exists m : nat -> nat -> Z,
  is_symplectic Z.eqb Z.opp 0%Z (Form [4; 4] m) = true /\ m 0 1 <> 0%Z /\ ~ nondegenerate 4 m.
Proof.
  exists (fun i j => if (Nat.eqb i 0 && Nat.eqb j 1)%bool then 1%Z else if (Nat.eqb i 1 && Nat.eqb j 0)%bool then (-1)%Z else 0%Z).
  split; [reflexivity|]. split; [discriminate|]. intros H.
  specialize (H (fun j => if Nat.eqb j 2 then 1%Z else 0%Z)). 
  assert (E : 1%Z = 0%Z); [|discriminate]. apply (H) with (j := 2); [|lia].
  intros i Hi. do 4 (destruct i as [|i]; [reflexivity|]). lia.
Qed.
Print Assumptions C36_degenerate_accepted_refuted.

Example C36_ex :
  is_symplectic Z.eqb Z.opp 0%Z (Form [2; 3] (fun _ _ => 0%Z)) = false /\
  is_symplectic Z.eqb Z.opp 0%Z (Form [3; 3] (fun _ _ => 0%Z)) = false /\
  is_symplectic Z.eqb Z.opp 0%Z (Form [2; 2] (fun i j => if Nat.eqb i j then 1%Z else 0%Z)) = false /\
  is_symplectic Z.eqb Z.opp 0%Z (Form [2] (fun _ _ => 0%Z)) = false /\
  is_symplectic Z.eqb Z.opp 0%Z NoForm = false /\ standard_form 2 3 = Raise ValueError.
Proof. repeat split. Qed.

(** * C37 *)

Open Scope R_scope.
(** Partial derivative of the value of [e] with respect to the symbol [x]. *)
Definition partial (fn : string -> nat -> R -> R) (rho : string -> R) (x : string) (e : expr) : R :=
  Derive (fun s => eval fn (upd rho x s) e) (rho x).

Lemma partial_diff fn (Sm : smooth fn) rho x e : wd fn rho e -> eval fn rho (diff x e) = partial fn rho x e.
Proof. intros W. symmetry. apply is_derive_unique. now apply diff_correct. Qed.

(** Mixed symbolic derivatives agree in value. *)
Lemma diff_swap fn rho x y e : eval fn rho (diff x (diff y e)) = eval fn rho (diff y (diff x e)).
Proof.
  induction e; simpl; try reflexivity; try (rewrite ?IHe, ?IHe1, ?IHe2; ring).
  destruct (String.eqb y x0), (String.eqb x x0); reflexivity.
Qed.

Lemma ext_loop_entry f basis i j : (i < j)%nat -> (j < length basis)%nat -> forall ps df df', NoDup ps ->
  ext_loop f basis ps df = Ok df' ->
  let a := diff (nth i basis EmptyString) (nth j f (Cst 0)) in
  let b := diff (nth j basis EmptyString) (nth i f (Cst 0)) in
  (df' i j = if existsb (fun p => Nat.eqb (fst p) i && Nat.eqb (snd p) j)%bool ps then Add (Add (df i j) a) (Opp b) else df i j) /\
  (df' j i = if existsb (fun p => Nat.eqb (fst p) i && Nat.eqb (snd p) j)%bool ps then Add (Add (df j i) (Opp a)) b else df j i).
Proof.
  intros L1 L2 ps. induction ps as [|[p q] ps IH]; intros df df' ND H; cbn [ext_loop existsb fst snd] in *.
  - apply Ok_inj in H. subst. auto.
  - destruct (ext_step f basis df (p, q)) as [df1|] eqn:E; [|discriminate]. cbn [bind] in H.
    inversion ND as [|? ? NI ND']; subst. specialize (IH df1 df' ND' H). cbv zeta in IH. destruct IH as [I1 I2].
    unfold ext_step in E.
    destruct (Nat.eqb_spec p i) as [->|Np]; [destruct (Nat.eqb_spec q j) as [->|Nq]|]; cbn [andb orb].
    + assert (X : existsb (fun p => Nat.eqb (fst p) i && Nat.eqb (snd p) j)%bool ps = false).
      { apply Bool.not_true_iff_false. intros X. apply existsb_exists in X. destruct X as ([u v] & Hu & Y). cbn [fst snd] in Y.
        apply Bool.andb_true_iff in Y. destruct Y as [Y1 Y2]. apply Nat.eqb_eq in Y1, Y2. subst. contradiction. }
      rewrite X in I1, I2.
      rewrite (proj2 (Nat.eqb_neq i j)), (proj2 (Nat.ltb_lt i j)) in E by lia.
      rewrite (nth_error_nth' basis EmptyString) in E by lia. rewrite (nth_error_nth' basis EmptyString) in E by lia.
      apply Ok_inj in E. subst df1. rewrite I1, I2. unfold set2. 
      rewrite !Nat.eqb_refl, (proj2 (Nat.eqb_neq i j)), (proj2 (Nat.eqb_neq j i)) by lia. cbn [andb]. split; reflexivity.
    + rewrite I1, I2. assert (D : df1 i j = df i j /\ df1 j i = df j i).
      { destruct (Nat.eqb_spec i q) as [<-|Ne].
        - rewrite (proj2 (Nat.ltb_ge i i)) in E by lia. apply Ok_inj in E. subst df1. unfold set2.
          rewrite (proj2 (Nat.eqb_neq j i)), !Nat.eqb_refl by lia. cbn [andb]. split; reflexivity.
        - destruct (Nat.ltb_spec i q); [|apply Ok_inj in E; subst; auto].
          destruct (nth_error basis i), (nth_error basis q); try discriminate. apply Ok_inj in E. subst df1. unfold set2.
          rewrite (proj2 (Nat.eqb_neq j q)), (proj2 (Nat.eqb_neq i q)), (proj2 (Nat.eqb_neq j i)), !Bool.andb_false_r by lia. split; reflexivity. }
      destruct D as [-> ->]. auto.
    + rewrite I1, I2. assert (D : df1 i j = df i j /\ df1 j i = df j i).
      { destruct (Nat.eqb_spec p q) as [<-|Ne].
        - rewrite (proj2 (Nat.ltb_ge p p)) in E by lia. apply Ok_inj in E. subst df1. unfold set2.
          rewrite (proj2 (Nat.eqb_neq i p)), !Bool.andb_false_r by lia. split; reflexivity.
        - destruct (Nat.ltb_spec p q); [|apply Ok_inj in E; subst; auto].
          destruct (nth_error basis p), (nth_error basis q); try discriminate. apply Ok_inj in E. subst df1. unfold set2.
          destruct (Nat.eqb_spec j p), (Nat.eqb_spec i q), (Nat.eqb_spec j q), (Nat.eqb_spec i p); cbn [andb]; try lia; split; reflexivity. }
      destruct D as [-> ->]. auto.
Qed.

Lemma ext_loop_diag f basis i : forall ps df df', df i i = Cst 0 -> ext_loop f basis ps df = Ok df' -> df' i i = Cst 0.
Proof.
  induction ps as [|[p q] ps IH]; intros df df' Z H; cbn [ext_loop] in H.
  - apply Ok_inj in H. now subst.
  - destruct (ext_step f basis df (p, q)) as [df1|] eqn:E; [|discriminate]. cbn [bind] in H. apply (IH df1 df'); [|exact H].
    unfold ext_step in E. destruct (Nat.eqb_spec p q) as [<-|Ne].
    + rewrite (proj2 (Nat.ltb_ge p p)) in E by lia. apply Ok_inj in E. subst df1. unfold set2.
      destruct (Nat.eqb_spec i p); cbn [andb]; [reflexivity|exact Z].
    + destruct (Nat.ltb_spec p q); [|apply Ok_inj in E; subst; auto].
      destruct (nth_error basis p), (nth_error basis q); try discriminate. apply Ok_inj in E. subst df1. unfold set2.
      destruct (Nat.eqb_spec i p), (Nat.eqb_spec i q); cbn [andb]; try lia; exact Z.
Qed.

Lemma ext_loop_ok f basis ps : forall df, (forall p q, In (p, q) ps -> (p < length basis)%nat /\ (q < length basis)%nat) ->
  exists df', ext_loop f basis ps df = Ok df'.
Proof.
  induction ps as [|[p q] ps IH]; intros df H; cbn [ext_loop]; [eauto|].
  assert (S : exists df1, ext_step f basis df (p, q) = Ok df1).
  { unfold ext_step. destruct (H p q (or_introl eq_refl)) as [H1 H2]. destruct (Nat.ltb p q); [|eauto].
    rewrite !(nth_error_nth' basis EmptyString) by assumption. eauto. }
  destruct S as [df1 ->]. cbn [bind]. apply IH. intros u v I. apply H. now right.
Qed.

Lemma NoDup_prod {A B} (l : list A) (m : list B) : NoDup l -> NoDup m -> NoDup (list_prod l m).
Proof.
  intros H1 H2. induction H1 as [|a l NI H IH]; simpl; [constructor|].
  assert (G : forall (u : list (A * B)) v, NoDup u -> NoDup v -> (forall x, In x u -> ~ In x v) -> NoDup (u ++ v)).
  { induction u as [|x u IHu]; simpl; intros v Hu Hv D; [exact Hv|]. inversion Hu; subst. constructor.
    - intros I. apply in_app_or in I. destruct I; [contradiction|]. apply (D x); auto.
    - apply IHu; auto. }
  apply G; auto.
  - clear - H2. induction H2 as [|b m NB H IH]; simpl; constructor; auto. intros I. apply in_map_iff in I. destruct I as (b' & E & I). congruence.
  - intros [x y] I J. apply in_map_iff in I. destruct I as (b & E & _). injection E as <- <-. apply in_prod_iff in J. tauto.
Qed.

(** Entries of the derivative of a one-form, in the symbolic form. *)
Lemma ext_entries f basis : length f = length basis ->
  exists m, exterior_derivative (Vec f) basis = Ok (D2 (length basis) (length basis) m) /\
    forall fn rho i j, (i < length basis)%nat -> (j < length basis)%nat ->
      eval fn rho (m i j) = eval fn rho (diff (nth i basis EmptyString) (nth j f (Cst 0)))
                            - eval fn rho (diff (nth j basis EmptyString) (nth i f (Cst 0))).
Proof.
  intros L. unfold exterior_derivative. rewrite L. set (n := length basis).
  destruct (ext_loop_ok f basis (list_prod (seq 0 n) (seq 0 n)) (fun _ _ => Cst 0)) as [df HD].
  { intros p q I. apply in_prod_iff in I. rewrite !in_seq in I. unfold n in I. lia. }
  rewrite HD. cbn [bind]. exists df. split; [reflexivity|]. intros fn rho i j Hi Hj.
  assert (NDp : NoDup (list_prod (seq 0 n) (seq 0 n))) by (apply NoDup_prod; apply seq_NoDup).
  assert (X : forall i j, (i < n)%nat -> (j < n)%nat -> existsb (fun p => Nat.eqb (fst p) i && Nat.eqb (snd p) j)%bool (list_prod (seq 0 n) (seq 0 n)) = true).
  { intros u v Hu Hv. apply existsb_exists. exists (u, v). split; [apply in_prod_iff; rewrite !in_seq; lia|]. cbn [fst snd]. now rewrite !Nat.eqb_refl. }
  destruct (Nat.lt_trichotomy i j) as [H|[H|H]].
  - destruct (ext_loop_entry f basis i j H Hj _ _ _ NDp HD) as [-> _]. rewrite X by assumption. simpl. ring.
  - subst j. rewrite (ext_loop_diag f basis i _ _ _ eq_refl HD). simpl. ring.
  - destruct (ext_loop_entry f basis j i H Hi _ _ _ NDp HD) as [_ ->]. rewrite X by assumption. simpl. ring.
Qed.

(** C37.  The derivative of a function is its gradient. *)
Theorem C37_gradient : forall fn, smooth fn -> forall e basis,
  exists l, exterior_derivative (Scalar e) basis = Ok (D1 l) /\ length l = length basis /\
    forall rho, wd fn rho e -> forall i, (i < length basis)%nat ->
      eval fn rho (nth i l (Cst 0)) = partial fn rho (nth i basis EmptyString) e.
Proof.
  intros fn Sm e basis. eexists. split; [reflexivity|]. split; [apply map_length|]. intros rho W i Hi.
  rewrite (nth_indep _ (Cst 0) (diff EmptyString e)) by (now rewrite map_length).
  rewrite (map_nth (fun b => diff b e)). now apply partial_diff.
Qed.
Print Assumptions C37_gradient.

(** C37.  The derivative of a one-form has the entries d_i f_j - d_j f_i and is
    antisymmetric. *)
Theorem C37_one_form : forall fn, smooth fn -> forall f basis, length f = length basis ->
  exists m, exterior_derivative (Vec f) basis = Ok (D2 (length basis) (length basis) m) /\
    forall rho i j, (i < length basis)%nat -> (j < length basis)%nat ->
      (Forall (wd fn rho) f -> eval fn rho (m i j) =
         partial fn rho (nth i basis EmptyString) (nth j f (Cst 0)) - partial fn rho (nth j basis EmptyString) (nth i f (Cst 0))) /\
      eval fn rho (m j i) = - eval fn rho (m i j).
Proof.
  intros fn Sm f basis L. destruct (ext_entries f basis L) as (m & H & V). exists m. split; [exact H|]. intros rho i j Hi Hj. split.
  - intros W. rewrite V by assumption. rewrite Forall_forall in W. rewrite !(partial_diff fn Sm) by (apply W; apply nth_In; lia). reflexivity.
  - rewrite !V by assumption. ring.
Qed.
Print Assumptions C37_one_form.

(** C37.  Applying it twice to a function gives zero. *)
Theorem C37_twice_zero : forall e basis, exists l m,
  exterior_derivative (Scalar e) basis = Ok (D1 l) /\
  exterior_derivative (Vec l) basis = Ok (D2 (length basis) (length basis) m) /\
  forall fn rho i j, (i < length basis)%nat -> (j < length basis)%nat -> eval fn rho (m i j) = 0.
Proof.
  intros e basis. destruct (ext_entries (map (fun b => diff b e) basis) basis) as (m & H & V); [apply map_length|].
  exists (map (fun b => diff b e) basis), m. split; [reflexivity|]. split; [exact H|]. intros fn rho i j Hi Hj. rewrite V by assumption.
  assert (N : forall k, (k < length basis)%nat -> nth k (map (fun b => diff b e) basis) (Cst 0) = diff (nth k basis EmptyString) e).
  { intros k Hk. rewrite (nth_indep _ (Cst 0) (diff EmptyString e)) by (now rewrite map_length). apply (map_nth (fun b => diff b e)). }
  rewrite !N by assumption. rewrite (diff_swap fn rho (nth i basis EmptyString)). ring.
Qed.
Print Assumptions C37_twice_zero.

(** C37.  Arrays with two or more indices are rejected, and so are one-forms with
    more components than the basis has symbols. *)
Theorem C37_rejections :
  (forall basis, exterior_derivative Higher basis = Raise NotImplementedError) /\
  (forall f b basis, (length (b :: basis) < length f)%nat -> exterior_derivative (Vec f) (b :: basis) = Raise IndexError).
Proof.
  split; [reflexivity|]. intros f b basis H. unfold exterior_derivative.
  assert (G : forall ps, In (O, length (b :: basis)) ps -> forall df, ext_loop f (b :: basis) ps df = Raise IndexError).
  { induction ps as [|[p q] ps IH]; intros I df; [destruct I|]. cbn [ext_loop].
    destruct (ext_step f (b :: basis) df (p, q)) as [df1|x] eqn:E.
    - cbn [bind]. apply IH. destruct I as [I|I]; [|exact I]. exfalso.
      assert (EP : p = O /\ q = length (b :: basis)) by (inversion I; auto). destruct EP as [-> EQ]. revert E. unfold ext_step.
      rewrite (proj2 (nth_error_None (b :: basis) q)) by lia. rewrite EQ. simpl. discriminate.
    - cbn [bind]. unfold ext_step in E. destruct (Nat.ltb p q); [|discriminate].
      destruct (nth_error (b :: basis) p), (nth_error (b :: basis) q); congruence. }
  rewrite G; [reflexivity|]. apply in_prod_iff. rewrite !in_seq. simpl in *. lia.
Qed.
Print Assumptions C37_rejections.

Definition geo_fn : string -> nat -> R -> R := fun _ k x => match k with O => x | S O => 1 | _ => 0 end.
Example C37_ex : exists m, exterior_derivative (Vec [Mul (Var "x") (Var "y"); Mul (Var "x") (Var "x")]) ["x"%string; "y"%string] = Ok (D2 2 2 m) /\
  forall rho, eval geo_fn rho (m 0%nat 1%nat) = rho "x"%string /\ eval geo_fn rho (m 1%nat 0%nat) = - rho "x"%string /\ eval geo_fn rho (m 1%nat 1%nat) = 0.
Proof.
  eexists. split; [vm_compute; reflexivity|]. intros rho. simpl. split; [ring|]. split; [ring|reflexivity].
Qed.
