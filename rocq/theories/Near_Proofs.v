(** Curves that satisfy the equations of a problem, and make its cost
    stationary, up to errors; proofs for C92. *)
From Coq Require Import Reals Lra Lia.
From Coquelicot Require Import Coquelicot.
From Verif Require Import Base Base_Facts Sym_Expr Sym_Facts Sym_Model Sym_Lu Sym_Dual Sym_Traj Sym_Var Sym_DiffCtl Jac_Model Jac_Proofs Unit_Model Unit_Spec Unit_Properties Dual_Properties Ctl_Properties Shift_Properties Whole_Proofs Whole_Steps Whole_Properties Chain_Model Chain_Facts Map_Model Chain_Back Chain_Proofs Chain_Simpson Chain_Properties.
Open Scope string_scope.
Open Scope list_scope.
Open Scope nat_scope.

(** The equations of motion hold up to [d], the boundary conditions up to [eps]. *)
Definition feasible_near (d eps : R) (fn : string -> nat -> R -> R) (p : prob) (c : R -> string -> R) (t0 tf : R) : Prop :=
  (forall t, (t0 <= t <= tf)%R -> follows_near d fn c t (p_states p) /\ c t (p_ind p) = t) /\
  (forall b, In b (p_ci p) -> (Rabs (eval fn (c t0) (c_expr b)) <= eps)%R) /\ (forall b, In b (p_ct p) -> (Rabs (eval fn (c tf) (c_expr b)) <= eps)%R).
(** The first variation of the cost is at most [eps] times the size of the
    variation of the ends, a change of the final time counting [w] times, plus
    [err] times its size along the curve. *)
Definition variation_near (w err eps : R) (fn : string -> nat -> R -> R) (p : prob) (c : R -> string -> R) (t0 tf : R) : Prop :=
  let X := syms (p_states p) in let P := p_params p in let U := p_controls p in
  forall v dtf df I N, admissible fn p c v t0 tf dtf df ->
  is_RInt (fun t => directional fn (c t) (X ++ P ++ U) (p_cost_p p) (v t)) t0 tf I ->
  (forall t, (t0 <= t <= tf)%R -> (err * asum (v t) (X ++ P ++ U) <= N)%R) ->
  (Rabs (directional fn (c t0) (X ++ P) (p_cost_i p) (v t0) + directional fn (c tf) (X ++ P ++ [p_ind p]) (p_cost_t p) df +
     eval fn (c tf) (p_cost_p p) * dtf + I) <= eps * (asum (v t0) (X ++ P) + asum df (X ++ P) + w * Rabs dtf) + N * (tf - t0))%R.
(** The final time counts twice: it may also be the final value of a state. *)
Definition extremal_near : R -> R -> (string -> nat -> R -> R) -> prob -> (R -> string -> R) -> R -> R -> Prop := variation_near 2.

Lemma follows_near_0 fn c t l : follows_near 0 fn c t l <-> follows fn c t l.
Proof.
  split; [apply follows_exact|]. intros H x e I. exists (eval fn (c t) e). split; [now apply H|]. rewrite Rminus_eq_0, Rabs_R0. lra.
Qed.
Lemma feasible_near_0 fn p c t0 tf : feasible_near 0 0 fn p c t0 tf <-> feasible fn p c t0 tf.
Proof.
  assert (Z : forall x : R, x = 0%R -> (Rabs x <= 0)%R) by (intros x ->; rewrite Rabs_R0; lra).
  split; intros (A & B & C); (split; [intros t Ht; destruct (A t Ht) as [A1 A2]; split; [now apply follows_near_0|exact A2]|]); split; intros b I.
  - now apply abs_zero, B.
  - now apply abs_zero, C.
  - now apply Z, B.
  - now apply Z, C.
Qed.
Lemma extremal_near_0 fn p c t0 tf : (t0 <= tf)%R -> extremal_near 0 0 fn p c t0 tf <-> extremal fn p c t0 tf.
Proof.
  intros T. split.
  - intros E v dtf df I A HI. apply abs_zero. eapply Rle_trans; [apply (E v dtf df I 0%R A HI)|]; [intros t _; lra|lra].
  - intros E v dtf df I N A HI B. rewrite (E v dtf df I A HI), Rabs_R0. specialize (B t0 ltac:(lra)). assert (0 <= N)%R by lra. assert (0 <= N * (tf - t0))%R by (apply Rmult_le_pos; lra). lra.
Qed.

(** The costate equations are right, whether or not the curve satisfies them. *)
Lemma costate_values lu (LU : lu_ok lu) fn m p p' rho :
  lower m = "traditional" \/ lower m = "diffyg" -> p_costates p = [] -> p_coparams p = [] -> p_params p = [] -> dualize lu m p = Ok p' ->
  field_defined lu fn m p (dual_ham p) rho ->
  forall x, In x (syms (p_states p)) -> exists e, In (lam x, e) (p_costates p') /\ eval fn rho e = (- eval fn rho (diff x (dual_ham p)))%R.
Proof.
  intros M E1 E2 NP HD FD. destruct M as [M|M].
  - destruct (dualize_traditional lu m p p' HD M E1 E2) as (DO & C1 & C2). intros x Hx.
    unfold syms in Hx. apply in_map_iff in Hx. destruct Hx as (s & <- & Hs). exists (Opp (diff (fst s) (dual_ham p))). split; [|reflexivity].
    rewrite C1. apply (in_map (fun s => (lam (fst s), Opp (diff (fst s) (dual_ham p))))). exact Hs.
  - destruct (dualize_diffyg lu LU m p p' HD M E1 E2) as (DO & C2 & chi & rates & H1 & H2 & H3 & H4).
    rewrite NP, app_nil_r in *. cbn [length Nat.add] in H4.
    intros x Hx. apply (In_nth _ _ EmptyString) in Hx. destruct Hx as (i & Hi & <-).
    assert (Hi' : i < length (p_states p)) by (unfold syms in Hi; rewrite map_length in Hi; exact Hi).
    assert (LS : length (syms (p_states p)) = length (p_states p)) by (unfold syms; apply map_length).
    rewrite LS in H1. exists (nth i rates (Cst 0)). split; [|exact (H4 fn rho (FD M chi H1) i Hi')].
    rewrite H3.
    assert (N : nth i (combine (map lam (syms (p_states p))) rates) (lam EmptyString, Cst 0) =
                (lam (nth i (syms (p_states p)) EmptyString), nth i rates (Cst 0))).
    { rewrite combine_nth; [now rewrite (map_nth lam)|]. rewrite map_length, LS. symmetry. exact H2. }
    rewrite <- N. apply nth_In. rewrite combine_length, map_length, LS, H2. lia.
Qed.

(** A curve along which the equations derived by Dualize hold up to errors. *)
Lemma derived_near lu (LU : lu_ok lu) fn m p1 pD c t0 tf d eta eps err : (t0 <= tf)%R ->
  lower m = "traditional" \/ lower m = "diffyg" -> p_costates p1 = [] -> p_coparams p1 = [] -> p_params p1 = [] ->
  dualize lu m p1 = Ok pD ->
  (forall y, In y (syms (p_states p1) ++ p_controls p1) -> ~ In y (map lam (syms (p_states p1)))) ->
  (forall y, In y (syms (p_states p1) ++ [p_ind p1]) -> ~ In y (p_cadj pD)) ->
  (d <= err)%R -> (eta <= err)%R ->
  (forall t, (t0 <= t <= tf)%R -> field_defined lu fn m p1 (dual_ham p1) (c t) /\ follows_near d fn c t (p_states p1) /\ follows_near d fn c t (p_costates pD) /\ c t (p_ind p1) = t /\
     forall u, In u (p_controls p1) -> (Rabs (eval fn (c t) (diff u (dual_ham p1))) <= eta)%R) ->
  (forall b, In b (p_ci pD) -> (Rabs (eval fn (c t0) (c_expr b)) <= eps)%R) -> (forall b, In b (p_ct pD) -> (Rabs (eval fn (c tf) (c_expr b)) <= eps)%R) ->
  (0 <= eps)%R /\ feasible_near d eps fn p1 c t0 tf /\ variation_near 1 err eps fn p1 c t0 tf.
Proof.
  intros T M E1 E2 EP HD N1 N2 LD LE HC B0 B1. assert (DO := dual_of_exists lu LU m p1 pD HD M E1 E2).
  assert (EPS : (0 <= eps)%R).
  { assert (X : exists b, In b (p_ct pD)) by (rewrite (d_ct _ _ _ DO); eexists; apply in_or_app; right; apply in_or_app; right; now left).
    destruct X as (b & I). specialize (B1 b I). assert (Z := Rabs_pos (eval fn (c tf) (c_expr b))). lra. }
  split; [exact EPS|]. split.
  - split; [intros t Ht; split; apply (HC t Ht)|]. split; intros b I.
    + apply B0. rewrite (d_ci _ _ _ DO). apply in_or_app. now left.
    + apply B1. rewrite (d_ct _ _ _ DO). apply in_or_app. now left.
  - intros v dtf df I N (V1 & V2 & V3 & V4 & V5 & V6 & V7 & V8) HI BN. cbv zeta in *.
    eapply Rle_trans; [apply (first_variation_near fn p1 pD c v t0 tf dtf I d eta eps N T DO); auto|].
    + rewrite EP. exact N1.
    + intros y Hy. rewrite EP in Hy. specialize (N2 y Hy). rewrite (d_cadj _ _ _ DO), !in_app_iff in N2. tauto.
    + intros t x Ht Hx. rewrite EP, app_nil_r in Hx. destruct (HC t Ht) as (F & _ & G & _).
      destruct (costate_values lu LU fn m p1 pD (c t) M E1 E2 EP HD F x Hx) as (e & J & EV). destruct (G _ _ J) as (l & DL & BL). exists l. split; [exact DL|].
      rewrite EV in BL. replace (l + eval fn (c t) (diff x (dual_ham p1)))%R with (l - - eval fn (c t) (diff x (dual_ham p1)))%R by ring. exact BL.
    + intros t u Ht Hu. apply (HC t Ht). exact Hu.
    + intros t Ht. specialize (BN t Ht). rewrite app_assoc, asum_app in BN.
      assert (A1 := asum_pos (v t) (syms (p_states p1) ++ p_params p1)). assert (A2 := asum_pos (v t) (p_controls p1)).
      assert (K1 := Rmult_le_compat_r _ _ _ A1 LD). assert (K2 := Rmult_le_compat_r _ _ _ A2 LE). lra.
    + assert (Z := Rabs_pos dtf). apply Rplus_le_compat_r. apply Rmult_le_compat_l; [exact EPS|]. lra.
Qed.

Lemma variation_weaken fn p c t0 tf w w' err eps : (w <= w')%R -> (0 <= eps)%R -> variation_near w err eps fn p c t0 tf -> variation_near w' err eps fn p c t0 tf.
Proof.
  intros L P H v dtf df I N A HI B. eapply Rle_trans; [apply (H v dtf df I N A HI B)|]. apply Rplus_le_compat_r. apply Rmult_le_compat_l; [exact P|]. apply Rplus_le_compat_l.
  apply Rmult_le_compat_r; [apply Rabs_pos|exact L].
Qed.

(** Time as a state: from the problem that Dualize sees to that of the user.  The
    clock is right only if the equations hold exactly. *)
Lemma time_near fn nm p q c t0 tf err eps : momentum_shift nm p = Ok q -> (t0 <= tf)%R ->
  NoDup (syms (p_states p) ++ p_params p ++ p_controls p ++ [p_ind p]) ->
  (forall d, In d (p_ct p) -> ~ In (p_ind q) (vars (c_expr d))) -> ~ In (p_ind q) (vars (p_cost_t p)) ->
  ~ In (p_ind q) (p_ind p :: syms (p_states p) ++ p_params p) -> c t0 (p_ind p) = t0 ->
  feasible_near 0 eps fn q c t0 tf -> variation_near 1 err eps fn q c t0 tf -> feasible_near 0 eps fn p c t0 tf /\ extremal_near err eps fn p c t0 tf.
Proof.
  intros HM T ND NC NT NN C0 F E. destruct (momentum_ok nm p q HM) as (S1 & I1 & _ & P1 & _ & U1 & CI & _ & CT & _).
  destruct F as (F1 & F2 & F3). split.
  - split; [|split].
    + intros t Ht. split; [intros x e I; apply (F1 t Ht); rewrite S1; apply in_or_app; now left|].
      destruct (Req_dec t t0) as [ ->|NE]; [exact C0|].
      assert (Z : (c t0 (p_ind p) - t0)%R = (c t (p_ind p) - t)%R).
      { apply (eq_is_derive (V := R_NormedModule) (fun s => (c s (p_ind p) - s)%R) t0 t); [|clear - Ht NE; lra].
        intros s Hs. assert (Hs' : (t0 <= s <= tf)%R) by (clear - Hs Ht; lra). destruct (F1 s Hs') as [FS _]. apply follows_exact in FS.
        assert (K := FS (p_ind p) (Cst 1)). rewrite S1 in K. specialize (K ltac:(apply in_or_app; right; now left)). cbn [eval] in K.
        assert (K2 := is_derive_minus (fun s => c s (p_ind p)) (fun s => s) s 1%R 1%R K (D_id s)). assert (K3 : is_derive (fun s => (c s (p_ind p) - s)%R) s (1 - 1)%R) by exact K2. replace (1 - 1)%R with 0%R in K3 by ring. exact K3. }
      lra.
    + intros d I. apply F2. now rewrite CI.
    + intros d I. apply F3. now rewrite CT.
  - intros v dtf df I N A HI B. cbv zeta in *.
    destruct (time_variation fn nm p q c t0 tf HM ND NC NT NN v dtf df I A HI) as (w & dg & A' & HI' & EQ & AW & AW0 & AG).
    assert (G := E w dtf dg I N A' HI'). cbv zeta in G. rewrite EQ, AW0, AG in G. eapply Rle_trans; [apply G|].
    + intros t Ht. rewrite AW. now apply B.
    + apply Rplus_le_compat_r. apply Req_le. ring.
Qed.

(** The problem of the user: with an error in the equations of motion only if time
    is not a state. *)
Lemma setup_near lu solve fn sm o p fs pre post p1 p' ms c t0 tf d err eps : user_setup lu solve fn sm o p fs pre post p1 p' ms -> clock o p c t0 -> (t0 <= tf)%R ->
  o_shift o = false \/ d = 0%R -> (0 <= eps)%R ->
  feasible_near d eps fn p1 c t0 tf -> variation_near 1 err eps fn p1 c t0 tf -> feasible_near d eps fn p c t0 tf /\ extremal_near err eps fn p c t0 tf.
Proof.
  intros US [C1 C2] T SH EPS F E. destruct US. assert (PR := user_pre o p fs pre post us_make us_split us_bounds us_switches). assert (R1 := us_pre). rewrite PR in R1. destruct (o_shift o) eqn:OS.
  - destruct SH as [SH|SH]; [discriminate|]. subst d. cbn [run_tfs apply_tf] in R1. destruct (momentum_shift None p) as [q|] eqn:HM; [|discriminate]. cbn [bind] in R1. injection R1 as ->.
    destruct (us_time eq_refl) as (ND & N1 & N2). destruct (momentum_ok None p p1 HM) as (_ & I1 & _). inversion ND as [|? ? NI ND']; subst.
    apply (time_near fn None p p1 c t0 tf err eps HM T ND'); rewrite ?I1; auto.
    intros [I|I]; apply NI; rewrite !in_app_iff in *; cbn [In]; [right; right; right; left; exact I|tauto].
  - cbn [run_tfs] in R1. injection R1 as ->. split; [exact F|]. apply (variation_weaken fn p1 c t0 tf 1 2); [lra|exact EPS|exact E].
Qed.
