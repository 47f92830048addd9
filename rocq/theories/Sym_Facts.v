(** Facts about symbolic expressions: substitution, derivatives, chain rule. *)
From Coq Require Import Reals Lra FunctionalExtensionality.
From Coquelicot Require Import Coquelicot.
From Verif Require Import Base Sym_Expr.
Open Scope R_scope.

Lemma mem_In x l : mem x l = true <-> In x l.
Proof.
  unfold mem. rewrite existsb_exists. split.
  - intros (y & Hy & E). apply String.eqb_eq in E. subst. exact Hy.
  - intros H. exists x. split; auto. apply String.eqb_refl.
Qed.

Lemma expr_eqb_eq a : forall b, expr_eqb a b = true <-> a = b.
Proof.
  induction a; intros b; destruct b; simpl; try (split; intros H; congruence);
    try (rewrite Z.eqb_eq; split; congruence);
    try (rewrite String.eqb_eq; split; congruence);
    try (rewrite andb_true_iff, IHa1, IHa2; split; [intros [-> ->]|intros H; injection H]; auto);
    try (rewrite IHa; split; congruence).
  - rewrite !andb_true_iff, String.eqb_eq, Nat.eqb_eq, IHa. split.
    + intros [[-> ->] ->]. reflexivity.
    + intros H; injection H; auto.
Qed.

  Lemma vars_subst_iff x n e y :
    In y (vars (subst x n e)) <->
    (In x (vars e) /\ In y (vars n)) \/ (In y (vars e) /\ y <> x).
  Proof.
    induction e; simpl; rewrite ?in_app_iff; try tauto.
    destruct (String.eqb x x0) eqn:E.
    - apply String.eqb_eq in E. subst. split.
      + intros H. left. auto.
      + intros [[_ H]|[[H|[]] N]]; auto. congruence.
    - apply String.eqb_neq in E. simpl. split.
      + intros [->|[]]. right. auto.
      + intros [[[H|[]] _]|[[H|[]] N]]; auto; congruence.
  Qed.

  Lemma subst_fresh x n e : ~ In x (vars e) -> subst x n e = e.
  Proof.
    induction e; simpl; rewrite ?in_app_iff; intros H; auto;
      try (rewrite IHe; tauto); try (rewrite IHe1, IHe2; tauto).
    destruct (String.eqb x x0) eqn:E; auto. apply String.eqb_eq in E. subst. tauto.
  Qed.

  Lemma vars_diff x e : incl (vars (diff x e)) (vars e).
  Proof.
    unfold incl. induction e; simpl; intros y; rewrite ?in_app_iff; auto.
    - destruct (String.eqb x x0); simpl; tauto.
    - specialize (IHe1 y). specialize (IHe2 y). tauto.
    - specialize (IHe1 y). specialize (IHe2 y). tauto.
    - specialize (IHe y). tauto.
    - specialize (IHe y). tauto.
    - specialize (IHe y). tauto.
    - specialize (IHe y). tauto.
    - specialize (IHe y). tauto.
  Qed.

  (** Sums of reals over lists. *)
  Definition rsum (l : list R) : R := fold_right Rplus 0 l.

  Lemma rsum_app a b : rsum (a ++ b) = rsum a + rsum b.
  Proof. unfold rsum. induction a; simpl; [ring|]. rewrite IHa. ring. Qed.

  Lemma rsum_ext {A} (f g : A -> R) l : (forall a, In a l -> f a = g a) -> rsum (map f l) = rsum (map g l).
  Proof.
    intros H. f_equal. apply map_ext_in. exact H.
  Qed.

  Lemma rsum_zero {A} (f : A -> R) l : (forall a, In a l -> f a = 0) -> rsum (map f l) = 0.
  Proof.
    unfold rsum. induction l; simpl; intros H; auto. rewrite H, IHl; auto; ring.
  Qed.

  Lemma rsum_plus {A} (f g : A -> R) l :
    rsum (map (fun a => f a + g a) l) = rsum (map f l) + rsum (map g l).
  Proof. unfold rsum. induction l; simpl; [ring|]. rewrite IHl. ring. Qed.

  Lemma rsum_scal {A} (f : A -> R) c l : rsum (map (fun a => c * f a) l) = c * rsum (map f l).
  Proof. unfold rsum. induction l; simpl; [ring|]. rewrite IHl. ring. Qed.

  Lemma rsum_opp {A} (f : A -> R) l : rsum (map (fun a => - f a) l) = - rsum (map f l).
  Proof. unfold rsum. induction l; simpl; [ring|]. rewrite IHl. ring. Qed.

  Lemma rsum_single L x (g : string -> R) : NoDup L -> In x L ->
    rsum (map (fun v => (if String.eqb v x then 1 else 0) * g v) L) = g x.
  Proof.
    unfold rsum. induction L as [|y L IH]; simpl; [tauto|]. intros ND Hin.
    inversion ND; subst. destruct (String.eqb y x) eqn:E.
    - apply String.eqb_eq in E. subst y.
      enough (fold_right Rplus 0 (map (fun v => (if String.eqb v x then 1 else 0) * g v) L) = 0) by lra.
      apply (rsum_zero (fun v => (if String.eqb v x then 1 else 0) * g v)).
      intros a Ha. destruct (String.eqb a x) eqn:E; [|ring].
      apply String.eqb_eq in E. subst. tauto.
    - apply String.eqb_neq in E. rewrite IH; auto; [ring|]. destruct Hin; congruence.
  Qed.

  Lemma diff_Sum x acc l : diff x (Sum acc l) = Sum (diff x acc) (map (diff x) l).
  Proof. revert acc. induction l; simpl; auto. intros acc. rewrite IHl. reflexivity. Qed.

  Lemma vars_Sum acc l y : In y (vars (Sum acc l)) <-> In y (vars acc) \/ exists e, In e l /\ In y (vars e).
  Proof.
    revert acc. induction l as [|e l IH]; simpl; intros acc.
    - split; auto. intros [H|(e & [] & _)]; auto.
    - rewrite IH. simpl. rewrite in_app_iff. split.
      + intros [[H|H]|(e' & A & B)]; eauto.
      + intros [H|(e' & [<-|A] & B)]; eauto.
  Qed.

Section S.
  Variable fn : string -> nat -> R -> R.

  Lemma eval_ext e : forall r1 r2, (forall x, In x (vars e) -> r1 x = r2 x) ->
    eval fn r1 e = eval fn r2 e.
  Proof.
    induction e; intros r1 r2 H; simpl in *; auto;
      try (rewrite (IHe r1 r2); auto; fail);
      try (rewrite (IHe1 r1 r2), (IHe2 r1 r2); auto; intros; apply H; apply in_or_app; auto).
  Qed.

  Lemma wd_ext e : forall r1 r2, (forall x, In x (vars e) -> r1 x = r2 x) ->
    wd fn r1 e -> wd fn r2 e.
  Proof.
    induction e; intros r1 r2 H; simpl in *; auto.
    - intros [A B]. split; [apply (IHe1 r1)|apply (IHe2 r1)]; auto; intros; apply H; apply in_or_app; auto.
    - intros [A B]. split; [apply (IHe1 r1)|apply (IHe2 r1)]; auto; intros; apply H; apply in_or_app; auto.
    - apply IHe; auto.
    - intros [A B]. split; [apply (IHe r1); auto|]. now rewrite <- (eval_ext e r1 r2).
    - apply IHe; auto.
    - apply IHe; auto.
    - apply IHe; auto.
    - apply IHe; auto.
  Qed.

  Definition upd (rho : string -> R) (x : string) (v : R) : string -> R :=
    fun y => if String.eqb x y then v else rho y.

  Lemma eval_subst x n e rho :
    eval fn rho (subst x n e) = eval fn (upd rho x (eval fn rho n)) e.
  Proof.
    induction e; simpl; try congruence.
    unfold upd. destruct (String.eqb x x0); reflexivity.
  Qed.

  Lemma upd_self rho x : upd rho x (rho x) = rho.
  Proof.
    apply functional_extensionality. intros y. unfold upd.
    destruct (String.eqb x y) eqn:E; auto. apply String.eqb_eq in E. now subst.
  Qed.

  (** Substituting a symbol by an expression of the same value keeps values. *)
  Lemma eval_subst_same x n e rho : rho x = eval fn rho n ->
    eval fn rho (subst x n e) = eval fn rho e.
  Proof. intros H. rewrite eval_subst, <- H, upd_self. reflexivity. Qed.

  Lemma wd_subst x n e rho : wd fn rho n ->
    wd fn (upd rho x (eval fn rho n)) e -> wd fn rho (subst x n e).
  Proof.
    intros Hn. induction e; simpl; try tauto.
    - destruct (String.eqb x x0); simpl; auto.
    - intros [A B]. split; auto. now rewrite eval_subst.
  Qed.

  Lemma wd_diff x e rho : wd fn rho e -> wd fn rho (diff x e).
  Proof.
    induction e; simpl; try tauto.
    - destruct (String.eqb x x0); simpl; auto.
  Qed.

  Lemma eval_diff_fresh x e rho : ~ In x (vars e) -> eval fn rho (diff x e) = 0.
  Proof.
    induction e; simpl; rewrite ?in_app_iff; intros H; auto;
      try (rewrite IHe by tauto; ring); try (rewrite IHe1, IHe2 by tauto; ring).
    destruct (String.eqb x x0) eqn:E; auto. apply String.eqb_eq in E. subst. tauto.
  Qed.

  Lemma eval_Sum acc l rho :
    eval fn rho (Sum acc l) = eval fn rho acc + fold_right Rplus 0 (map (eval fn rho) l).
  Proof.
    revert acc. induction l; simpl; intros acc; [ring|]. rewrite IHl. simpl. ring.
  Qed.

  Lemma wd_Sum acc l rho : wd fn rho (Sum acc l) <-> wd fn rho acc /\ Forall (wd fn rho) l.
  Proof.
    revert acc. induction l as [|e l IH]; simpl; intros acc.
    - split; [intros H; split; auto|tauto].
    - rewrite IH. simpl. rewrite Forall_cons_iff. tauto.
  Qed.

  (** Directional derivative of the value of [e] when symbol [v] moves with speed [d v]. *)
  Fixpoint dir (rho d : string -> R) (e : expr) : R :=
    match e with
    | Cst _ | Pi => 0
    | Var x => d x
    | Add a b => dir rho d a + dir rho d b
    | Mul a b => dir rho d a * eval fn rho b + eval fn rho a * dir rho d b
    | Opp a => - dir rho d a
    | Inv a => - (dir rho d a * (/ eval fn rho a * / eval fn rho a))
    | Sin a => dir rho d a * cos (eval fn rho a)
    | Cos a => - (dir rho d a * sin (eval fn rho a))
    | Exp a => dir rho d a * exp (eval fn rho a)
    | App f k a => dir rho d a * fn f (S k) (eval fn rho a)
    end.

  Lemma dir_sum rho d L e : NoDup L -> incl (vars e) L ->
    dir rho d e = rsum (map (fun v => eval fn rho (diff v e) * d v) L).
  Proof.
    intros ND. induction e; simpl; intros HI.
    - symmetry. apply rsum_zero. intros; ring.
    - symmetry. apply rsum_zero. intros; ring.
    - rewrite <- (rsum_single L x d ND (HI x (or_introl eq_refl))).
      apply rsum_ext. intros a _. destruct (String.eqb a x); simpl; ring.
    - rewrite IHe1, IHe2, <- rsum_plus by (intros ? ?; apply HI; apply in_or_app; auto).
      apply rsum_ext. intros; ring.
    - rewrite IHe1, IHe2 by (intros ? ?; apply HI; apply in_or_app; auto).
      rewrite (Rmult_comm (rsum _)), <- !rsum_scal, <- rsum_plus. apply rsum_ext. intros; ring.
    - rewrite IHe, <- rsum_opp by auto. apply rsum_ext. intros; ring.
    - rewrite IHe by auto. rewrite Rmult_comm, <- rsum_scal, <- rsum_opp. apply rsum_ext. intros; ring.
    - rewrite IHe by auto. rewrite Rmult_comm, <- rsum_scal. apply rsum_ext. intros; ring.
    - rewrite IHe by auto. rewrite Rmult_comm, <- rsum_scal, <- rsum_opp. apply rsum_ext. intros; ring.
    - rewrite IHe by auto. rewrite Rmult_comm, <- rsum_scal. apply rsum_ext. intros; ring.
    - rewrite IHe by auto. rewrite Rmult_comm, <- rsum_scal. apply rsum_ext. intros; ring.
  Qed.

  (** The user functions are smooth and [fn f (S k)] is the derivative of [fn f k]. *)
  Definition smooth : Prop := forall f k x, is_derive (fn f k) x (fn f (S k) x).

  Lemma chain_dir (Sm : smooth) (c : R -> string -> R) (d : string -> R) t e :
    (forall x, In x (vars e) -> is_derive (fun s => c s x) t (d x)) ->
    wd fn (c t) e ->
    is_derive (fun s => eval fn (c s) e) t (dir (c t) d e).
  Proof.
    induction e; simpl; intros Hd W.
    - apply (is_derive_const (IZR z : R) t).
    - apply (is_derive_const (PI : R) t).
    - auto.
    - apply (is_derive_plus (fun s => eval fn (c s) e1) (fun s => eval fn (c s) e2) t).
      + apply IHe1; [intros; apply Hd; apply in_or_app; auto|tauto].
      + apply IHe2; [intros; apply Hd; apply in_or_app; auto|tauto].
    - apply (is_derive_mult (fun s => eval fn (c s) e1) (fun s => eval fn (c s) e2) t).
      + apply IHe1; [intros; apply Hd; apply in_or_app; auto|tauto].
      + apply IHe2; [intros; apply Hd; apply in_or_app; auto|tauto].
      + intros; apply Rmult_comm.
    - apply (is_derive_opp (fun s => eval fn (c s) e) t). auto.
    - destruct W as [W N].
      replace (- (dir (c t) d e * (/ eval fn (c t) e * / eval fn (c t) e)))
        with (- dir (c t) d e / (eval fn (c t) e ^ 2)) by (field; auto).
      apply (is_derive_inv (fun s => eval fn (c s) e) t); auto.
    - apply (is_derive_comp sin (fun s => eval fn (c s) e) t); auto. apply is_derive_Reals. apply derivable_pt_lim_sin.
    - replace (- (dir (c t) d e * sin (eval fn (c t) e)))
        with (dir (c t) d e * (- sin (eval fn (c t) e))) by ring.
      apply (is_derive_comp cos (fun s => eval fn (c s) e) t); auto. apply is_derive_Reals. apply derivable_pt_lim_cos.
    - apply (is_derive_comp exp (fun s => eval fn (c s) e) t); auto. apply is_derive_Reals. apply derivable_pt_lim_exp.
    - apply (is_derive_comp (fn f k) (fun s => eval fn (c s) e) t); auto.
  Qed.

  (** Chain rule: the derivative of the value along a curve is the sum of the
      symbolic partial derivatives times the speeds. *)
  Lemma chain_rule (Sm : smooth) (c : R -> string -> R) (d : string -> R) t e L :
    NoDup L -> incl (vars e) L ->
    (forall x, In x (vars e) -> is_derive (fun s => c s x) t (d x)) ->
    wd fn (c t) e ->
    is_derive (fun s => eval fn (c s) e) t
      (rsum (map (fun v => eval fn (c t) (diff v e) * d v) L)).
  Proof. intros ND HI Hd W. rewrite <- dir_sum by auto. apply chain_dir; auto. Qed.
  (** Substitution and differentiation for symbols that do not interfere. *)
  Lemma diff_correct (Sm : smooth) x e rho : wd fn rho e ->
    is_derive (fun s => eval fn (upd rho x s) e) (rho x) (eval fn rho (diff x e)).
  Proof.
    intros W.
    pose (L := nodup String.string_dec (x :: vars e)).
    assert (E : eval fn rho (diff x e) =
      rsum (map (fun v => eval fn (upd rho x (rho x)) (diff v e) * (if String.eqb v x then 1 else 0)) L)).
    { rewrite upd_self. rewrite <- (rsum_single L x (fun v => eval fn rho (diff v e))).
      - apply rsum_ext. intros; ring.
      - apply NoDup_nodup.
      - apply nodup_In. left; auto. }
    rewrite E. apply (chain_rule Sm (fun s => upd rho x s) (fun v => if String.eqb v x then 1 else 0)).
    - apply NoDup_nodup.
    - intros y Hy. apply nodup_In. right; auto.
    - intros y _. unfold upd. rewrite String.eqb_sym. destruct (String.eqb y x).
      + apply (is_derive_id (rho x)).
      + apply (is_derive_const (rho y : R) (rho x)).
    - rewrite upd_self. exact W.
  Qed.
End S.
