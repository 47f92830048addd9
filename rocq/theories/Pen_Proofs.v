(** Real analysis of the penalty, the trigonometric control and the relaxed
    switch (C27-C29), and the elimination of switches. *)
From Coq Require Import Reals Lra.
From Coquelicot Require Import Coquelicot.
From Verif Require Import Base Base_Facts Sym_Expr Sym_Facts Sym_Model Sym_Spec Sym_RecSub Sym_Quant Sym_Eps.
Open Scope R_scope.

(** ** The UTM penalty *)
Definition utm_fun (a L U x : R) : R := a * (1 / cos (PI / 2 * (2 * x - U - L) / (U - L)) - 1).

Lemma utm_eval fn rho act e lo up :
  eval fn rho (utm_penalty act e lo up) =
  utm_fun (eval fn rho act) (eval fn rho lo) (eval fn rho up) (eval fn rho e).
Proof. unfold utm_penalty, utm_fun, Sub, Div. simpl. unfold Rdiv, Rminus. reflexivity. Qed.

(** In terms of the distance to the middle. *)
Lemma utm_fun_dist a L U x : L < U ->
  utm_fun a L U x = a * (1 / cos (PI / (U - L) * Rabs (x - (L + U) / 2)) - 1).
Proof.
  intros H. unfold utm_fun.
  replace (PI / 2 * (2 * x - U - L) / (U - L)) with (PI / (U - L) * (x - (L + U) / 2)) by (field; lra).
  do 3 f_equal.
  unfold Rabs. destruct (Rcase_abs _); auto. rewrite <- cos_neg. f_equal. ring.
Qed.

Lemma arg_bound L U d : L < U -> 0 <= d -> d < (U - L) / 2 -> 0 <= PI / (U - L) * d < PI / 2.
Proof.
  intros H H1 H2. pose proof PI_RGT_0.
  assert (0 < / (U - L)) by (apply Rinv_0_lt_compat; lra).
  split.
  - unfold Rdiv. apply Rmult_le_pos; [apply Rmult_le_pos; lra|lra].
  - replace (PI / 2) with (PI / (U - L) * ((U - L) / 2)) by (field; lra).
    apply Rmult_lt_compat_l; auto. unfold Rdiv. apply Rmult_lt_0_compat; lra.
Qed.

Lemma inside_dist L U x : L < x < U -> Rabs (x - (L + U) / 2) < (U - L) / 2.
Proof. intros H. apply Rabs_def1; lra. Qed.

Lemma utm_monotone a L U x y : 0 < a -> L < x < U -> L < y < U ->
  Rabs (x - (L + U) / 2) < Rabs (y - (L + U) / 2) -> utm_fun a L U x < utm_fun a L U y.
Proof.
  intros Ha Hx Hy H. rewrite !utm_fun_dist by lra.
  pose proof (inside_dist L U x Hx) as Dx. pose proof (inside_dist L U y Hy) as Dy.
  destruct (arg_bound L U (Rabs (x - (L + U) / 2)) ltac:(lra) (Rabs_pos _) Dx) as [A1 A2].
  destruct (arg_bound L U (Rabs (y - (L + U) / 2)) ltac:(lra) (Rabs_pos _) Dy) as [B1 B2].
  pose proof PI_RGT_0.
  assert (C : PI / (U - L) * Rabs (x - (L + U) / 2) < PI / (U - L) * Rabs (y - (L + U) / 2)).
  { apply Rmult_lt_compat_l; auto. unfold Rdiv. apply Rmult_lt_0_compat; [lra|apply Rinv_0_lt_compat; lra]. }
  apply Rmult_lt_compat_l; auto. apply Rplus_lt_compat_r.
  set (p := PI / (U - L) * _) in *. set (q := PI / (U - L) * Rabs (y - _)) in *.
  assert (cos q < cos p) by (apply cos_decreasing_1; lra).
  assert (0 < cos q) by (apply cos_gt_0; lra).
  unfold Rdiv. rewrite !Rmult_1_l. apply Rinv_lt_contravar; auto. apply Rmult_lt_0_compat; lra.
Qed.

Lemma utm_symmetric a L U x y : L < U -> x + y = L + U -> utm_fun a L U x = utm_fun a L U y.
Proof.
  intros H E. rewrite !utm_fun_dist by lra.
  replace (x - (L + U) / 2) with (- (y - (L + U) / 2)) by lra. now rewrite Rabs_Ropp.
Qed.

Lemma utm_middle a L U : L < U -> utm_fun a L U ((L + U) / 2) = 0.
Proof.
  intros H. rewrite utm_fun_dist by lra. replace ((L + U) / 2 - (L + U) / 2) with 0 by lra.
  rewrite Rabs_R0, Rmult_0_r, cos_0. field.
Qed.

Lemma utm_positive a L U x : 0 < a -> L < x < U -> x <> (L + U) / 2 -> 0 < utm_fun a L U x.
Proof.
  intros Ha Hx N. rewrite <- (utm_middle a L U) by lra. apply utm_monotone; auto; [lra|].
  replace ((L + U) / 2 - (L + U) / 2) with 0 by lra. rewrite Rabs_R0. apply Rabs_pos_lt. lra.
Qed.

Lemma utm_blowup a L U M : 0 < a -> L < U ->
  exists d, 0 < d /\ forall x, L < x < U -> (x < L + d \/ U - d < x) -> M < utm_fun a L U x.
Proof.
  intros Ha H. pose proof PI_RGT_0.
  set (K := Rabs M / a + 2).
  assert (HK : 2 <= K). { unfold K. pose proof (Rabs_pos M). assert (0 <= Rabs M / a) by (apply Rdiv_le_0_compat; lra). lra. }
  (* cos(PI/2 - s) = sin s <= s *)
  exists (Rmin ((U - L) / 2) ((U - L) / (PI * K))).
  assert (P1 : 0 < (U - L) / (PI * K)). { apply Rdiv_lt_0_compat; [lra|]. apply Rmult_lt_0_compat; lra. }
  split; [apply Rmin_glb_lt; lra|].
  intros x Hx Hd. rewrite utm_fun_dist by lra.
  pose proof (inside_dist L U x Hx) as Dx. set (r := Rabs (x - (L + U) / 2)) in *.
  destruct (arg_bound L U r ltac:(lra) (Rabs_pos _) Dx) as [A1 A2].
  set (d := Rmin _ _) in *. assert (Hd2 : d <= (U - L) / (PI * K)) by apply Rmin_r.
  assert (Hd1 : d <= (U - L) / 2) by apply Rmin_l.
  assert (Hr : (U - L) / 2 - r < d).
  { unfold r. destruct Hd as [Hd|Hd].
    - rewrite Rabs_left by lra. lra.
    - rewrite Rabs_right by lra. lra. }
  set (s := PI / (U - L) * ((U - L) / 2 - r)).
  assert (Es : PI / (U - L) * r = PI / 2 - s). { unfold s. field. lra. }
  assert (Hs0 : 0 < s) by lra.
  assert (Hs1 : s < / K).
  { unfold s. apply Rlt_le_trans with (PI / (U - L) * ((U - L) / (PI * K))).
    - apply Rmult_lt_compat_l; [|lra]. apply Rdiv_lt_0_compat; lra.
    - right. field. split; [|split]; lra. }
  rewrite Es, cos_shift.
  assert (Hi : / K <= / 2) by (apply Rinv_le_contravar; lra).
  assert (S1 : 0 < sin s) by (apply sin_gt_0; [lra|]; pose proof PI2_1; lra).
  assert (S2 : sin s < s) by (apply sin_lt_x; auto).
  assert (Q : K < 1 / sin s).
  { unfold Rdiv. rewrite Rmult_1_l. rewrite <- (Rinv_inv K). apply Rinv_lt_contravar; [|lra].
    apply Rmult_lt_0_compat; auto. apply Rinv_0_lt_compat. lra. }
  apply Rle_lt_trans with (a * (K - 1)).
  - unfold K. replace (a * (Rabs M / a + 2 - 1)) with (Rabs M + a) by (field; lra).
    pose proof (Rle_abs M). lra.
  - apply Rmult_lt_compat_l; lra.
Qed.

(** ** The trigonometric control *)
Lemma bounded_control_range L U x : L <= U -> L <= bounded_control L U x <= U.
Proof.
  intros H. unfold bounded_control. pose proof (SIN_bound x) as [A B]. set (s := sin x) in *. split; nra.
Qed.

Lemma bounded_control_onto L U u : L <= u <= U -> exists x, bounded_control L U x = u.
Proof.
  intros H. unfold bounded_control. destruct (Req_dec L U) as [->|N].
  - exists 0. replace u with U by lra. rewrite sin_0. field.
  - exists (asin ((2 * u - U - L) / (U - L))). rewrite sin_asin.
    + field. lra.
    + split.
      * apply Rmult_le_reg_r with (U - L); [lra|]. unfold Rdiv. rewrite Rmult_assoc, Rinv_l by lra. lra.
      * apply Rmult_le_reg_r with (U - L); [lra|]. unfold Rdiv. rewrite Rmult_assoc, Rinv_l by lra. lra.
Qed.

(** ** The relaxed switch *)
Definition sigmoid (c h : R) : R := 1 / (1 + exp (c / h)).

Lemma weight_eval fn rho tol conds :
  eval fn rho (rashs_weight tol conds) = rsum (map (fun c => sigmoid (eval fn rho c) (eval fn rho tol)) conds).
Proof.
  unfold rashs_weight. rewrite eval_Sum. unfold rsum. simpl. rewrite Rplus_0_l, map_map. f_equal.
Qed.

Lemma sigmoid_bounds c h : 0 < sigmoid c h < 1.
Proof.
  unfold sigmoid. pose proof (exp_pos (c / h)). split.
  - apply Rdiv_lt_0_compat; lra.
  - apply Rmult_lt_reg_r with (1 + exp (c / h)); [lra|]. unfold Rdiv. rewrite Rmult_assoc, Rinv_l by lra. lra.
Qed.

Lemma exp_ge_lin x : 1 + x <= exp x.
Proof.
  destruct (Req_dec x 0) as [->|N]; [rewrite exp_0; lra|]. left. now apply exp_ineq1.
Qed.

(** Explicit rate: away from the boundary the weight is within h/|c| of its limit. *)
Lemma sigmoid_neg c h : c < 0 -> 0 < h -> 1 - h / - c < sigmoid c h.
Proof.
  intros Hc Hh. unfold sigmoid. set (y := - c / h).
  assert (Hy : 0 < y) by (unfold y; apply Rdiv_lt_0_compat; lra).
  assert (E : exp (c / h) = / exp y). { rewrite <- exp_Ropp. f_equal. unfold y. field. lra. }
  rewrite E. pose proof (exp_ge_lin y). pose proof (exp_pos y).
  replace (h / - c) with (/ y) by (unfold y; field; split; lra).
  replace (1 / (1 + / exp y)) with (1 - / (exp y + 1)) by (field; split; lra).
  assert (/ (exp y + 1) < / y) by (apply Rinv_lt_contravar; [apply Rmult_lt_0_compat|]; lra). lra.
Qed.
Lemma sigmoid_pos c h : 0 < c -> 0 < h -> sigmoid c h < h / c.
Proof.
  intros Hc Hh. unfold sigmoid. set (y := c / h).
  assert (Hy : 0 < y) by (unfold y; apply Rdiv_lt_0_compat; lra).
  pose proof (exp_ge_lin y). replace (h / c) with (/ y) by (unfold y; field; split; lra).
  unfold Rdiv. rewrite Rmult_1_l. apply Rinv_lt_contravar; [apply Rmult_lt_0_compat|]; lra.
Qed.

Definition holds (c : R) : R := if Rlt_dec c 0 then 1 else 0.

Lemma sigmoid_lim c : c <> 0 -> filterlim (sigmoid c) (at_right 0) (locally (holds c)).
Proof.
  intros N P [eps HP]. set (a := Rabs c). assert (Ha : 0 < a) by (now apply Rabs_pos_lt).
  assert (Hd : 0 < eps * a) by (apply Rmult_lt_0_compat; [apply cond_pos|auto]).
  exists (mkposreal _ Hd). intros h Hb Hh. apply HP.
  change (Rabs (h - 0) < eps * a) in Hb. rewrite Rminus_0_r in Hb. rewrite Rabs_right in Hb by lra.
  assert (Hq : h / a < eps). { apply Rmult_lt_reg_r with a; auto. unfold Rdiv. rewrite Rmult_assoc, Rinv_l by lra. lra. }
  change (Rabs (sigmoid c h - holds c) < eps). unfold holds.
  pose proof (sigmoid_bounds c h) as [B1 B2].
  destruct (Rlt_dec c 0) as [L|L].
  - pose proof (sigmoid_neg c h L Hh) as B3. unfold a in Hq. rewrite Rabs_left in Hq by auto.
    apply Rabs_def1; lra.
  - assert (L2 : 0 < c) by lra. pose proof (sigmoid_pos c h L2 Hh) as B3. unfold a in Hq.
    rewrite Rabs_right in Hq by lra. apply Rabs_def1; lra.
Qed.

Lemma rsum_lim {A} (f : A -> R -> R) (g : A -> R) (F : (R -> Prop) -> Prop) {FF : Filter F} l :
  (forall a, In a l -> filterlim (f a) F (locally (g a))) ->
  filterlim (fun h => rsum (map (fun a => f a h) l)) F (locally (rsum (map g l))).
Proof.
  induction l as [|a l IH]; simpl; intros H.
  - apply filterlim_const.
  - apply (filterlim_comp_2 (F := F) (G := locally (g a)) (H := locally (rsum (map g l)))
             (f a) (fun h => rsum (map (fun a => f a h) l)) Rplus).
    + apply H. now left.
    + apply IH. intros b Hb. apply H. now right.
    + apply (filterlim_plus (V := R_NormedModule)).
Qed.

Lemma func_eval fn rho s :
  eval fn rho (rashs_func s) =
  rsum (map (fun fc => eval fn rho (rashs_weight (sw_tol s) (snd fc)) * eval fn rho (fst fc))
            (combine (sw_funs s) (sw_conds s))).
Proof.
  unfold rashs_func. rewrite eval_Sum. unfold rsum. cbn [eval]. rewrite Rplus_0_l, map_map. reflexivity.
Qed.

Lemma upd_other rho x v e fn : ~ In x (vars e) -> eval fn (upd rho x v) e = eval fn rho e.
Proof.
  intros H. apply eval_ext. intros y Hy. unfold upd. destruct (String.eqb x y) eqn:E; auto.
  apply String.eqb_eq in E. subst. contradiction.
Qed.

Lemma weight_lim fn rho tol conds :
  (forall c, In c conds -> ~ In tol (vars c) /\ eval fn rho c <> 0) ->
  filterlim (fun h => eval fn (upd rho tol h) (rashs_weight (Var tol) conds)) (at_right 0)
            (locally (rsum (map (fun c => holds (eval fn rho c)) conds))).
Proof.
  intros H.
  apply filterlim_ext with (fun h => rsum (map (fun c => sigmoid (eval fn rho c) h) conds)).
  - intros h. rewrite weight_eval. f_equal. apply map_ext_in. intros c Hc. destruct (H c Hc) as [A _].
    rewrite upd_other by auto. simpl. unfold upd. now rewrite String.eqb_refl.
  - apply (rsum_lim (fun c h => sigmoid (eval fn rho c) h) (fun c => holds (eval fn rho c)) (at_right 0) conds). intros c Hc. apply sigmoid_lim. now apply H.
Qed.

Lemma func_lim fn rho tol s : sw_tol s = Var tol ->
  (forall f, In f (sw_funs s) -> ~ In tol (vars f)) ->
  (forall cs c, In cs (sw_conds s) -> In c cs -> ~ In tol (vars c) /\ eval fn rho c <> 0) ->
  filterlim (fun h => eval fn (upd rho tol h) (rashs_func s)) (at_right 0)
    (locally (rsum (map (fun fc => rsum (map (fun c => holds (eval fn rho c)) (snd fc)) * eval fn rho (fst fc))
                        (combine (sw_funs s) (sw_conds s))))).
Proof.
  intros ET HF HC.
  apply filterlim_ext with (fun h => rsum (map (fun fc =>
     eval fn (upd rho tol h) (rashs_weight (Var tol) (snd fc)) * eval fn rho (fst fc)) (combine (sw_funs s) (sw_conds s)))).
  - intros h. rewrite func_eval, ET. unfold rsum; f_equal. apply map_ext_in. intros [f cs] Hfc. simpl.
    rewrite (upd_other rho tol h f); auto. apply HF. eapply in_combine_l; eauto.
  - apply (rsum_lim (fun fc h => eval fn (upd rho tol h) (rashs_weight (Var tol) (snd fc)) * eval fn rho (fst fc))
      (fun fc => rsum (map (fun c => holds (eval fn rho c)) (snd fc)) * eval fn rho (fst fc)) (at_right 0)
      (combine (sw_funs s) (sw_conds s))).
    intros [f cs] Hfc. simpl.
    apply (filterlim_comp_2 (F := at_right 0) (G := locally (rsum (map (fun c => holds (eval fn rho c)) cs)))
             (H := locally (eval fn rho f)) _ _ Rmult).
    + apply weight_lim. intros c Hc. apply (HC cs); auto. eapply in_combine_r; eauto.
    + apply filterlim_const.
    + apply (filterlim_mult (K := R_AbsRing)).
Qed.
