(** Lemmas about dimensional consistency. *)
From Coq Require Import Reals Lra.
From Verif Require Import Base Base_Facts Sym_Expr Sym_Facts Sym_Model Sym_Lu Sym_Dual Unit_Model Unit_Spec.
Open Scope R_scope.

Lemma proper_one : proper (Cst 1).
Proof. intros fn fac P. cbn. lra. Qed.
Lemma proper_mul u v : proper u -> proper v -> proper (Mul u v).
Proof. intros A B fn fac P. cbn. apply Rmult_lt_0_compat; auto. Qed.
Lemma proper_inv u : proper u -> proper (Inv u).
Proof. intros A fn fac P. cbn. apply Rinv_0_lt_compat; auto. Qed.
Lemma proper_div u v : proper u -> proper v -> proper (Div u v).
Proof. intros A B. apply proper_mul; [exact A|now apply proper_inv]. Qed.
#[export] Hint Resolve proper_one proper_mul proper_inv proper_div : proper.
Lemma proper_per c l : proper c -> Forall proper l -> Forall proper (per c l).
Proof. intros A. induction 1; constructor; auto with proper. Qed.
Lemma proper_ne u fn fac : proper u -> positive fac -> eval fn fac u <> 0.
Proof. intros A P. specialize (A fn fac P). lra. Qed.
Lemma proper_ueq u v : ueq u v -> proper u -> proper v.
Proof. intros E A fn fac P. rewrite <- (E fn fac P). now apply A. Qed.
(** Equations between units: products and quotients of proper units. *)
Ltac usolve :=
  let fn := fresh in let fac := fresh in let P := fresh in
  intros fn fac P; unfold Div; cbn [eval];
  repeat match goal with H : proper ?u |- _ =>
    lazymatch goal with _ : eval fn fac u <> 0 |- _ => fail | _ => pose proof (proper_ne u fn fac H P) end end;
  field; auto.

Lemma ueq_refl u : ueq u u.
Proof. intros fn fac P. reflexivity. Qed.
Lemma ueq_sym u v : ueq u v -> ueq v u.
Proof. intros E fn fac P. symmetry. now apply E. Qed.
Lemma ueq_trans u v w : ueq u v -> ueq v w -> ueq u w.
Proof. intros A B fn fac P. rewrite (A fn fac P). now apply B. Qed.

Section Dim.
  Variable G : uenv.
  Hypothesis PG : forall x v, G x = Some v -> proper v.

  Lemma dim_sub a b u : dim G a u -> dim G b u -> dim G (Sub a b) u.
  Proof. intros A B. apply D_add; [exact A|now apply D_opp]. Qed.
  Lemma dim_div a b u v : dim G a u -> dim G b v -> dim G (Div a b) (Div u v).
  Proof. intros A B. apply D_mul; [exact A|now apply D_inv]. Qed.
  Lemma dim_Sum acc l u : dim G acc u -> Forall (fun e => dim G e u) l -> dim G (Sum acc l) u.
  Proof. intros A H. revert acc A. induction H; intros acc A; cbn [Sum]; [exact A|]. apply IHForall. now apply D_add. Qed.
  Lemma dim_var_inv x v : dim G (Var x) v -> exists u, G x = Some u /\ ueq u v.
  Proof.
    intros H. remember (Var x) as e. induction H; try discriminate.
    - injection Heqe as ->. exists u. split; [assumption|apply ueq_refl].
    - destruct (IHdim Heqe) as (w & A & B). exists w. split; [exact A|]. now apply ueq_trans with u.
  Qed.

  Lemma dim_diff x v e u : G x = Some v -> dim G e u -> dim G (diff x e) (Div u v).
  Proof.
    intros Hx. pose proof (PG x v Hx) as Pv. induction 1; cbn [diff].
    - apply D_zero.
    - apply D_zero.
    - apply D_zero.
    - destruct (String.eqb_spec x x0) as [<-|N]; [|apply D_zero].
      assert (u = v) as -> by congruence. apply D_same with (Cst 1); [apply D_number|]. usolve.
    - now apply D_add.
    - apply D_add.
      + apply D_same with (Mul (Div u v) v0); [now apply D_mul|]. intros fn fac P. unfold Div. cbn [eval]. ring.
      + apply D_same with (Mul u (Div v0 v)); [now apply D_mul|]. intros fn fac P. unfold Div. cbn [eval]. ring.
    - now apply D_opp.
    - apply D_opp. apply D_same with (Mul (Div u v) (Mul (Inv u) (Inv u))); [repeat (apply D_mul || apply D_inv); assumption|].
      intros fn fac P. unfold Div. cbn [eval].
      destruct (Req_dec (eval fn fac u) 0) as [E|E]; [rewrite E, Rinv_0; ring|]. field. split; [now apply proper_ne|exact E].
    - apply D_same with (Mul (Div (Cst 1) v) (Cst 1)); [apply D_mul; [assumption|now apply D_cos]|]. usolve.
    - apply D_opp. apply D_same with (Mul (Div (Cst 1) v) (Cst 1)); [apply D_mul; [assumption|now apply D_sin]|]. usolve.
    - apply D_same with (Mul (Div (Cst 1) v) (Cst 1)); [apply D_mul; [assumption|now apply D_exp]|]. usolve.
    - apply D_same with (Mul (Div (Cst 1) v) (Cst 1)); [apply D_mul; [assumption|now apply D_app]|]. usolve.
    - apply D_same with (Div u v); [assumption|]. intros fn fac P. unfold Div. cbn [eval]. now rewrite (H0 fn fac P).
  Qed.

  Lemma dim_subst x n v e u : G x = Some v -> dim G n v -> dim G e u -> dim G (subst x n e) u.
  Proof.
    intros Hx Hn. induction 1; cbn [subst]; try (constructor; assumption).
    - destruct (String.eqb_spec x x0) as [<-|N]; [|now apply D_var]. assert (u = v) as -> by congruence. exact Hn.
    - now apply D_same with u.
  Qed.
End Dim.

Lemma dim_mono G G' e u : extends G G' -> dim G e u -> dim G' e u.
Proof.
  intros X. induction 1; try (constructor; auto; fail). now apply D_same with u.
Qed.

(** Values of consistent expressions scale with their unit. *)
Lemma dim_value fn G fac rho rho' e u : positive fac ->
  (forall x v, In x (vars e) -> G x = Some v -> rho' x = rho x / unit_value fac v) ->
  dim G e u -> eval fn rho' e = eval fn rho e / unit_value fac u.
Proof.
  intros P H D. unfold unit_value in *. induction D; cbn [eval vars] in *.
  - unfold Rdiv. rewrite Rinv_1. ring.
  - unfold Rdiv. ring.
  - unfold Rdiv. rewrite Rinv_1. ring.
  - apply H; [now left|assumption].
  - rewrite IHD1, IHD2 by (intros; apply H; auto using in_or_app). unfold Rdiv. ring.
  - rewrite IHD1, IHD2 by (intros; apply H; auto using in_or_app). unfold Rdiv. rewrite Rinv_mult. ring.
  - rewrite IHD by assumption. unfold Rdiv. ring.
  - rewrite IHD by assumption. unfold Rdiv. now rewrite Rinv_mult, Rinv_inv.
  - rewrite IHD by assumption. unfold Rdiv. now rewrite Rinv_1, !Rmult_1_r.
  - rewrite IHD by assumption. unfold Rdiv. now rewrite Rinv_1, !Rmult_1_r.
  - rewrite IHD by assumption. unfold Rdiv. now rewrite Rinv_1, !Rmult_1_r.
  - rewrite IHD by assumption. unfold Rdiv. now rewrite Rinv_1, !Rmult_1_r.
  - rewrite IHD by assumption. now rewrite (H0 _ fac P).
Qed.

(** What is used about sympy's LUsolve: the solution of a system with units is
    consistent.  Coefficients have unit r_i c_j, right-hand sides r_i t; then
    the unknowns have unit t / c_j. *)
Definition lu_units (lu : list (list expr) -> list expr -> res (list expr)) : Prop :=
  forall G A b x rs cs t, (forall y v, G y = Some v -> proper v) -> length cs = length b ->
    Forall proper rs -> Forall proper cs -> proper t ->
    Forall2 (fun row r => Forall2 (fun e c => dim G e (Mul r c)) row cs) A rs ->
    Forall2 (fun e r => dim G e (Mul r t)) b rs ->
    lu A b = Ok x -> Forall2 (fun e c => dim G e (Div t c)) x cs.

Lemma dim_dot G r xs cs t : proper r -> Forall proper cs -> forall row,
  Forall2 (fun e c => dim G e (Mul r c)) row cs -> Forall2 (fun e c => dim G e (Div t c)) xs cs ->
  Forall (fun e => dim G e (Mul r t)) (map (fun xy => Mul (fst xy) (snd xy)) (combine row xs)).
Proof.
  intros Pr PC. revert xs. induction PC as [|c cs Pc PC IH]; intros xs row HR HX; inversion HR; inversion HX; subst; cbn; constructor.
  - cbn. apply D_same with (Mul (Mul r c) (Div t c)); [now apply D_mul|]. usolve.
  - now apply IH.
Qed.
Lemma gauss_units G cs : forall t n rows x, length cs = n -> Forall proper cs -> proper t ->
  Forall (fun row => exists r, proper r /\ Forall2 (fun e c => dim G e (Mul r c)) (fst row) cs /\ dim G (snd row) (Mul r t)) rows ->
  gauss n rows = Ok x -> Forall2 (fun e c => dim G e (Div t c)) x cs.
Proof.
  induction cs as [|c cs IH]; intros t n rows x L PC Pt HR H; cbn in L; subst n; cbn [gauss] in H.
  - destruct rows; [|discriminate]. injection H as <-. constructor.
  - destruct (pick rows) as [[[row b] others]|] eqn:E; [|discriminate].
    pose proof (pick_spec rows (row, b) others E) as PS. apply PS in HR. destruct HR as [(r & Pr & HA & HB) HO]. cbn [fst snd] in *.
    destruct row as [|a rr]; [discriminate|].
    destruct (gauss (length cs) (map (eliminate a rr b) others)) as [xs|] eqn:Ex; [|discriminate]. injection H as <-.
    inversion PC as [|? ? Pc PC']; subst. inversion HA as [|? ? ? ? Ha HA']; subst.
    assert (HX : Forall2 (fun e c => dim G e (Div t c)) xs cs).
    { apply (IH t (length cs) (map (eliminate a rr b) others) xs eq_refl PC' Pt); [|exact Ex].
      apply Forall_forall. intros row' I. apply in_map_iff in I. destruct I as ([row0 b0] & <- & I).
      rewrite Forall_forall in HO. destruct (HO _ I) as (r0 & Pr0 & HA0 & HB0). cbn [fst snd] in *.
      exists r0. split; [exact Pr0|]. unfold eliminate. cbn [fst snd]. inversion HA0 as [|a' ? r' ? Ha' HA0']; subst.
      destruct (is_zero a'); [split; assumption|]. cbn [fst snd].
      assert (M : dim G (Div a' a) (Div r0 r)). { apply D_same with (Div (Mul r0 c) (Mul r c)); [now apply dim_div|]. usolve. }
      split.
      - clear - HA' HA0' PC' Pr Pr0 M. revert rr r' HA' HA0'. induction PC' as [|c cs Pc PC IH]; intros rr r' A B; inversion A; inversion B; subst; cbn; constructor; [|now apply IH].
        unfold sub_mul. destruct (is_zero x); [assumption|]. apply dim_sub; [assumption|]. apply D_same with (Mul (Div r0 r) (Mul r c)); [now apply D_mul|]. usolve.
      - apply dim_sub; [assumption|]. apply D_same with (Mul (Div r0 r) (Mul r t)); [now apply D_mul|]. usolve. }
    constructor; [|exact HX].
    apply D_same with (Div (Mul r t) (Mul r c)); [|usolve]. apply dim_div; [|exact Ha]. apply dim_sub; [exact HB|].
    apply dim_Sum; [apply D_zero|]. now apply dim_dot with cs.
Qed.
Lemma lu_gauss_units : lu_units lu_gauss.
Proof.
  intros G A b x rs cs t PG L PR PC Pt HA HB H. unfold lu_gauss in H. rewrite <- L in H.
  apply (gauss_units G cs t (length cs) (combine A b) x eq_refl PC Pt); [|exact H].
  clear - PR HA HB. revert A b HA HB. induction PR as [|r rs Pr PR IH]; intros A b HA HB; inversion HA; inversion HB; subst; cbn; constructor; [|now apply IH].
  exists r. cbn. auto.
Qed.
