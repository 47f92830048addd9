(** C92: solutions up to a tolerance. *)
From Coq Require Import Reals Lra Lia FunctionalExtensionality.
From Coquelicot Require Import Coquelicot.
From Verif Require Import Base Base_Facts Map_More Sym_Expr Sym_Facts Sym_Model Sym_Lu Sym_Dual Sym_Traj Sym_Var Sym_DiffCtl Scale_Model Jac_Model Jac_Proofs Unit_Model Unit_Spec Unit_Proofs Unit_Scale Unit_Properties.
From Verif Require Import Dual_Properties Ctl_Properties Shift_Properties Spbvp_Model Spbvp_Properties Pipe_Model Pipe_Properties.
From Verif Require Import Whole_Proofs Whole_Steps Whole_Geo Whole_Properties Chain_Model Chain_Facts Map_Model Map_Proofs Map_Chain Chain_Back Chain_Proofs Chain_Simpson Chain_Properties Near_Proofs.
Open Scope string_scope.
Open Scope list_scope.
Open Scope nat_scope.

(** Without errors the notions are those of C85 to C87. *)
Theorem C92_exact : forall fn p p' c t0 tf Y Q D s, (t0 <= tf)%R ->
  (feasible_near 0 0 fn p c t0 tf <-> feasible fn p c t0 tf) /\ (extremal_near 0 0 fn p c t0 tf <-> extremal fn p c t0 tf) /\
  (sampled_near 0 0 fn p' Y Q D s <-> sampled fn p' Y Q D s).
Proof. intros fn p p' c t0 tf Y Q D s T. split; [apply feasible_near_0|]. split; [now apply extremal_near_0|symmetry; apply sampled_exact]. Qed.
Print Assumptions C92_exact.

(** A solution up to errors of the boundary value problem, mapped back, consists of
    samples of a curve that satisfies the equations of the user and makes the cost
    stationary up to errors.  Algebraic control. *)
Theorem C92_algebraic : forall lu, lu_ok lu -> forall solve, solve_sound solve -> forall fn sm o p fs pre post p1 p' ms h Y Q D s t0 c delta eps,
  user_setup lu solve fn sm o p fs pre post p1 p' ms -> lower (o_control o) = "algebraic" -> p_ham p' = Some h -> (0 <= delta)%R -> o_shift o = false \/ delta = 0%R ->
  sampled_near delta eps fn p' Y Q D s -> clock o p c t0 -> reads_off fn p' (p_ind p1) Y [D] (s_nu s) (s_k s) t0 D c ->
  (forall t, (t0 <= t <= t0 + D)%R -> wd fn (c t) h /\ Forall (Forall (wd fn (c t))) (p_law p') /\ field_defined lu fn (o_method o) p1 h (c t)) ->
  (forall ys ts, length ys = length ts -> ts <> [] -> exists v, sm ys ts = Ok v) ->
  exists r a, inv_map_sol ROps ms s = Ok (ms, r, a) /\ returned p c (map (fun t => t0 + D * t)%R (s_t s)) (s_k s) r /\
    feasible_near (delta / D) eps fn p c t0 (t0 + D)%R /\ extremal_near (delta / D) eps fn p c t0 (t0 + D)%R /\
    forall t u, (t0 <= t <= t0 + D)%R -> In u (p_controls p1) -> eval fn (c t) (diff u h) = 0%R.
Proof.
  intros lu LU solve SO fn sm o p fs pre post p1 p' ms h Y Q D s t0 c delta eps US OC HH D0 SH SP CL RO WD SMT.
  destruct (setup_shift lu solve fn sm o p fs pre post p1 p' ms US) as (RN & E1 & E2 & E3 & E4). assert (P := sn_pos _ _ _ _ _ _ _ _ SP).
  destruct (algebraic_curve lu LU solve SO fn o p fs pre post p1 p' h Y Q D (s_nu s) (s_k s) t0 c delta eps (us_make _ _ _ _ _ _ _ _ _ _ _ _ US) (us_split _ _ _ _ _ _ _ _ _ _ _ _ US) (us_pre _ _ _ _ _ _ _ _ _ _ _ _ US) RN HH OC
    (us_norm _ _ _ _ _ _ _ _ _ _ _ _ US) (us_method _ _ _ _ _ _ _ _ _ _ _ _ US) E1 E2 E3 E4 (us_names _ _ _ _ _ _ _ _ _ _ _ _ US)) as (pD & HD & EH & N1 & N2 & HC & B0 & B1); [| | | |exact WD|].
  - intros cand e x I J V. destruct (us_control _ _ _ _ _ _ _ _ _ _ _ _ US) as [(_ & _ & LV & _)|(OD & _)]; [|rewrite OC in OD; discriminate OD].
    specialize (LV cand e x I J V). rewrite !in_app_iff in *. tauto.
  - exact (sn_near _ _ _ _ _ _ _ _ SP).
  - exact P.
  - exact RO.
  - assert (TT : (t0 <= t0 + D)%R) by lra. assert (DD : (0 <= delta / D)%R) by (apply Rmult_le_pos; [exact D0|left; now apply Rinv_0_lt_compat]).
    destruct (derived_near lu LU fn (o_method o) p1 pD c t0 (t0 + D)%R (delta / D) 0 eps (delta / D) TT (us_method _ _ _ _ _ _ _ _ _ _ _ _ US) E1 E2 E3 HD N1 N2 (Rle_refl _) DD) as (EPS & F & E).
    + intros t Ht. destruct (HC t Ht) as (F1 & F2 & T & U). rewrite <- EH. split; [apply (WD t Ht)|]. split; [exact F1|]. split; [exact F2|]. split; [exact T|].
      intros u I. rewrite (U u I), Rabs_R0. lra.
    + exact B0.
    + exact B1.
    + destruct (setup_near lu solve fn sm o p fs pre post p1 p' ms c t0 (t0 + D)%R (delta / D) (delta / D) eps US CL TT) as [F' E']; [|exact EPS|exact F|exact E|].
      { destruct SH as [SH| ->]; [now left|right]. unfold Rdiv. ring. }
      destruct (SMT (map (fun t => eval fn (c (t0 + D * t)%R) (p_cost_p p)) (s_t s)) (map (fun t => t * D)%R (s_t s))) as (v & SM); [now rewrite !map_length|intros Z; apply map_eq_nil in Z; exact (sn_some _ _ _ _ _ _ _ _ SP Z)|].
      destruct (near_samples lu LU solve fn sm o p fs pre post p1 p' ms Y Q D s t0 c v delta eps (fun _ => SO) US SP CL RO (fun t Ht => proj2 (proj1 F' t Ht)) SM) as (r & a & INV & RT & _).
      exists r, a. split; [exact INV|]. split; [exact RT|]. split; [exact F'|]. split; [exact E'|]. intros t u Ht I. destruct (HC t Ht) as (_ & _ & _ & U). now apply U.
Qed.
Print Assumptions C92_algebraic.

(** The control rate is integrated (traditional method) and the rates are exact:
    errors in the boundary conditions carry over to the stationarity condition. *)
Theorem C92_differential : forall lu, lu_ok lu -> forall fn, smooth fn -> forall solve sm o p fs pre post p1 p' ms h Y Q D s t0 c eps,
  user_setup lu solve fn sm o p fs pre post p1 p' ms -> lower (o_control o) = "differential" -> lower (o_method o) = "traditional" -> p_ham p' = Some h ->
  sampled_near 0 eps fn p' Y Q D s -> clock o p c t0 -> reads_off fn p' (p_ind p1) Y [D] (s_nu s) (s_k s) t0 D c ->
  (forall t, (t0 <= t <= t0 + D)%R -> wd fn (c t) h /\ Forall (wd fn (c t)) (eoms (p_states p'))) ->
  (forall ys ts, length ys = length ts -> ts <> [] -> exists v, sm ys ts = Ok v) ->
  exists r a, inv_map_sol ROps ms s = Ok (ms, r, a) /\ returned p c (map (fun t => t0 + D * t)%R (s_t s)) (s_k s) r /\
    feasible_near 0 eps fn p c t0 (t0 + D)%R /\ extremal_near eps eps fn p c t0 (t0 + D)%R /\
    forall t u, (t0 <= t <= t0 + D)%R -> In u (p_controls p1) -> (Rabs (eval fn (c t) (diff u h)) <= eps)%R.
Proof.
  intros lu LU fn Sm solve sm o p fs pre post p1 p' ms h Y Q D s t0 c eps US OC M HH SP CL RO WD SMT.
  destruct (setup_shift lu solve fn sm o p fs pre post p1 p' ms US) as (RN & E1 & E2 & E3 & E4). assert (P := sn_pos _ _ _ _ _ _ _ _ SP).
  destruct (differential_curve lu LU fn Sm solve o p fs pre post p1 p' h Y Q D (s_nu s) (s_k s) t0 c eps (us_make _ _ _ _ _ _ _ _ _ _ _ _ US) (us_split _ _ _ _ _ _ _ _ _ _ _ _ US) (us_pre _ _ _ _ _ _ _ _ _ _ _ _ US) RN HH OC
    (us_norm _ _ _ _ _ _ _ _ _ _ _ _ US) M E1 E2 E3 E4 (us_names _ _ _ _ _ _ _ _ _ _ _ _ US) (sn_near _ _ _ _ _ _ _ _ SP) P RO WD) as (pD & HD & EH & N1 & N2 & HC & B0 & B1).
  assert (TT : (t0 <= t0 + D)%R) by lra.
  assert (EPS : (0 <= eps)%R).
  { assert (DO := dual_of_exists lu LU _ p1 pD HD (or_introl M) E1 E2).
    assert (X : exists b, In b (p_ct pD)) by (rewrite (d_ct _ _ _ DO); eexists; apply in_or_app; right; apply in_or_app; right; now left).
    destruct X as (b & I). specialize (B1 b I). assert (Z := Rabs_pos (eval fn (c (t0 + D)%R) (c_expr b))). lra. }
  destruct (derived_near lu LU fn (o_method o) p1 pD c t0 (t0 + D)%R 0 eps eps eps TT (or_introl M) E1 E2 E3 HD N1 N2 EPS (Rle_refl _)) as (_ & F & E).
  - intros t Ht. destruct (HC t Ht) as (F1 & F2 & T & U). rewrite <- EH. split; [intros Z; rewrite M in Z; discriminate Z|]. split; [now apply follows_near_0|]. split; [now apply follows_near_0|]. split; [exact T|exact U].
  - exact B0.
  - exact B1.
  - destruct (setup_near lu solve fn sm o p fs pre post p1 p' ms c t0 (t0 + D)%R 0 eps eps US CL TT (or_intror eq_refl) EPS F E) as [F' E'].
    destruct (SMT (map (fun t => eval fn (c (t0 + D * t)%R) (p_cost_p p)) (s_t s)) (map (fun t => t * D)%R (s_t s))) as (v & SM); [now rewrite !map_length|intros Z; apply map_eq_nil in Z; exact (sn_some _ _ _ _ _ _ _ _ SP Z)|].
    destruct (near_samples lu LU solve fn sm o p fs pre post p1 p' ms Y Q D s t0 c v 0 eps) as (r & a & INV & RT & _); auto.
    + intros Z. rewrite OC in Z. discriminate Z.
    + intros t Ht. exact (proj2 (proj1 F' t Ht)).
    + exists r, a. split; [exact INV|]. split; [exact RT|]. split; [exact F'|]. split; [exact E'|]. intros t u Ht I. destruct (HC t Ht) as (_ & _ & _ & U). now apply U.
Qed.
Print Assumptions C92_differential.

(** What solve_bvp promises up to [eps] is such a solution. *)
Lemma near_solution_near fn p a b Y Q pp pc k eps :
  near_solution eps (length (p_states p)) (length (p_quads p)) (deriv_of fn p) (quad_of fn p) (bc_of fn p) a b Y Q pp pc k <-> near eps eps fn p a b Y Q pp pc k.
Proof.
  split.
  2: { intros [D R]. split; [|exact R]. intros t Ht. destruct (D t Ht) as (v & w & V & W & DV & DW). split; [now exists v|intros _; now exists w]. }
  intros [D R]. split; [|exact R]. intros t Ht. destruct (D t Ht) as [(v & V & DV) DW]. exists v.
  assert (W : exists w, quad_func fn p (law_control fn p) (Y t) None pp k = Ok w /\
            forall i, i < length (p_quads p) -> exists d, is_derive (fun s => nth i (Q s) 0%R) t d /\ (Rabs (d - nth i w 0) <= eps)%R).
  { destruct (p_quads p) as [|x l] eqn:EQ.
    - exists []. split; [|intros i Hi; cbn in Hi; lia]. unfold quad_func. rewrite EQ. unfold deriv_of, deriv_func in V. apply call_fits in V.
      unfold call. cbn [eoms map forallb]. now rewrite V.
    - apply DW. cbn. lia. }
  destruct W as (w & W & DW'). exists w. split; [exact V|]. split; [exact W|]. split; [exact DV|exact DW'].
Qed.

(** The collocation solver, without scaling: if the result of solve_bvp satisfies
    what it promises up to [eps], the solution handed to the mappers does. *)
Theorem C92_collocation : forall fn p' al guess factors eps, loaded fn p' al -> guess_for p' guess -> length (p_params p') = 1 -> p_quads p' = [] ->
  hd 0%R (s_t guess) = 0%R -> last (s_t guess) 0%R = 1%R ->
  exists h,
  (* the problem handed to solve_bvp *)
  h_t h = s_t guess /\ h_p h = s_p guess ++ s_nu guess /\
  (forall e a b Y pp nu, (forall t, length (Y t) = length (p_states p')) -> length pp = length (p_params p') -> length nu = length (p_cpars p') ->
     (near e e fn p' a b Y (fun _ => []) pp nu (s_k guess) <-> solves_handed e h (length (p_states p')) a b Y (pp ++ nu))) /\
  (* its result *)
  forall sb out, sb h = Ok out -> good_result eps h (length (p_states p')) out ->
  exists al' r Y Q D, loop_solve ROps false factors sb al guess = Ok (al', r) /\ sr_converged r = o_success out /\ hd 0%R (params_of out) = D /\
    s_k (sr_sol r) = s_k guess /\ hd 0%R (s_t (sr_sol r)) = 0%R /\ last (s_t (sr_sol r)) 0%R = 1%R /\
    ((0 < D)%R -> sampled_near eps eps fn p' Y Q D (sr_sol r)).
Proof.
  intros fn p' al guess factors eps LD (GO & GU & (Sp & Sn & Sk)) L1 EQ H0 H1.
  destruct (C81_collocation (length (p_states p')) (length (p_quads p')) (deriv_of fn p') (quad_of fn p') (bc_of fn p') al guess LD GO) as (h & HT & HP & IFF & HR & RUN).
  { intros y pp v H. apply call_length in H. rewrite H. unfold eoms. now rewrite map_length. }
  { intros y pp v H. apply call_length in H. rewrite H. unfold eoms. now rewrite map_length. }
  assert (NQ : length (p_quads p') = 0) by now rewrite EQ. rewrite NQ, Nat.add_0_r in *.
  exists h. split; [exact HT|]. split; [exact HP|]. split.
  { intros e a b Y pp nu LY LP LN. rewrite <- near_solution_near, NQ. assert (Z := IFF e a b Y (fun _ => []) pp nu LY (fun _ => eq_refl)).
    cbv beta in Z. replace (fun t => Y t ++ []) with Y in Z by (apply functional_extensionality; intros t; now rewrite app_nil_r). apply Z; congruence. }
  intros sb out E GR. destruct (RUN sb out E) as (al' & r & R1 & R2 & R3 & R4 & R5 & RU & R6).
  destruct (R6 eps GR) as (GA & GB & GT & Y & Q & LY & LQ & EY & EQQ & LR & LN & PA & NS).
  assert (PD : exists D, s_p (sr_sol r) = [D]) by (rewrite Sp, L1 in LR; destruct (s_p (sr_sol r)) as [|D [|? ?]]; try discriminate LR; now exists D).
  destruct PD as (D & PD). unfold loop_solve. cbv zeta. cbn [bind]. rewrite R1. cbn [bind fst snd]. eexists _, _, Y, Q, D. split; [reflexivity|]. cbn [sr_converged sr_sol].
  cbv zeta in *. rewrite H0 in GA, NS, GT. rewrite H1 in GB, NS, GT. rewrite Forall_forall in GT.
  split; [exact R2|]. split; [rewrite <- PA, PD; reflexivity|]. split; [exact R5|]. split; [exact GA|]. split; [exact GB|]. intros P. constructor.
  - exact PD.
  - exact P.
  - intros Z. rewrite Z in GB. cbn in GB. lra.
  - exact GT.
  - exact EY.
  - right. exists 0. rewrite EQQ. f_equal. apply map_ext. intros t. specialize (LQ t). now destruct (Q t).
  - rewrite PD in NS. rewrite <- NQ in NS at 1. exact (proj1 (near_solution_near _ _ _ _ _ _ _ _ _ _) NS).
Qed.
Print Assumptions C92_collocation.

(** ** With automatic scaling *)

Lemma near_list (Y : R -> list R) f w t v n eps B i : (forall s, length (Y s) = n) -> length v = n -> length f = n ->
  Forall (fun x => (0 < x)%R) f -> (0 < w)%R -> i < n -> (nth i f 1 / w <= B)%R ->
  (exists d, is_derive (fun s => nth i (scaled (Y (s * w)%R) f) 0%R) (t / w)%R d /\ (Rabs (d - nth i (scaled v (rates f w)) 0) <= eps)%R) ->
  exists d, is_derive (fun s => nth i (Y s) 0%R) t d /\ (Rabs (d - nth i v 0) <= eps * B)%R.
Proof.
  intros LY Lv Lf F W Hi HB (d & DD & DE). set (c := nth i f 1%R) in *. assert (C : (0 < c)%R) by (apply nth_pos; exact F).
  assert (K : (0 < c / w)%R) by (apply Rdiv_lt_0_compat; assumption). assert (C' : c <> 0%R) by lra. assert (W' : w <> 0%R) by lra.
  exists (d * (c / w))%R. split.
  - assert (T : (t / w * w)%R = t) by (field; lra).
    assert (G := proj2 (derive_scaled (fun s => nth i (Y s) 0%R) c w (t / w)%R (d * (c / w))%R C W)). rewrite T in G. apply G.
    assert (Z : forall x : R, (x * (c / w) / (c / w))%R = x) by (intros x; field; auto). rewrite Z.
    apply (is_derive_ext (fun s => nth i (scaled (Y (s * w)%R) f) 0%R)); [|exact DD].
    intros s. unfold scaled. change (map2 Rdiv) with Unit_Scale.over. rewrite Unit_Scale.over_nth; [reflexivity|]. rewrite LY. lia.
  - assert (V : nth i (scaled v (rates f w)) 0%R = (nth i v 0 / (c / w))%R).
    { unfold scaled. change (map2 Rdiv) with Unit_Scale.over. rewrite Unit_Scale.over_nth by (unfold rates; rewrite map_length; lia). now rewrite rates_nth by lia. }
    rewrite V in DE. assert (Z : forall x y : R, (x * (c / w) - y)%R = ((x - y / (c / w)) * (c / w))%R) by (intros x y; field; auto). rewrite Z.
    rewrite Rabs_mult, (Rabs_pos_eq (c / w)) by lra. apply Rmult_le_compat; [apply Rabs_pos|lra|exact DE|exact HB].
Qed.
Lemma near_residuals v f eps B : length v = length f -> Forall (fun x => (0 < x)%R) f -> Forall (fun x => (x <= B)%R) f ->
  Forall (fun x => (Rabs x <= eps)%R) (scaled v f) -> Forall (fun x => (Rabs x <= eps * B)%R) v.
Proof.
  unfold scaled. revert f; induction v as [|a v IH]; intros [|b f] L F FB H; try discriminate; [constructor|].
  inversion F as [|? ? Hb F']; subst. inversion FB as [|? ? Hb' FB']; subst. cbn in H. inversion H as [|? ? H1 H2]; subst. constructor; [|apply (IH f); auto].
  replace a with (a / b * b)%R by (field; lra). rewrite Rabs_mult, (Rabs_pos_eq b) by lra. apply Rmult_le_compat; [apply Rabs_pos|lra|exact H1|exact Hb'].
Qed.
Lemma nth_bound (P : R -> Prop) l i : Forall P l -> i < length l -> P (nth i l 1%R).
Proof. intros F H. rewrite Forall_forall in F. apply F, nth_In, H. Qed.

(** A near solution of the scaled problem is one of the problem itself: errors are
    multiplied by the factors. *)
Lemma unscaled_near fn fac G p u f a b Y Q pp pc k eps B Bb :
  positive fac -> consistent G p u -> f = component_factors u fac -> shaped p pp pc k ->
  (forall t, length (Y t) = length (p_states p) /\ length (Q t) = length (p_quads p)) ->
  Forall (fun x => (x / f_t f <= B)%R) (f_y f ++ f_q f) -> Forall (fun x => (x <= Bb)%R) (map (unit_value fac) (u_ci u ++ u_ct u)) ->
  near eps eps fn p (a / f_t f) (b / f_t f) (fun s => scaled (Y (s * f_t f)%R) (f_y f)) (fun s => scaled (Q (s * f_t f)%R) (f_q f)) (scaled pp (f_p f)) (scaled pc (f_nu f)) (scaled k (f_k f)) ->
  near (eps * B) (eps * Bb) fn p a b Y Q pp pc k.
Proof.
  intros P K E Sh L BY BB (H & r & Hr & Zr). destruct (C74_functions fn fac G p u f P K E pp pc k Sh) as (FD & _ & FB).
  destruct (factor_facts fac G p u P K) as (W & (Ny & Py) & (Nq & Pq) & _). rewrite <- E in *.
  apply Forall_app in BY. destruct BY as [BY BQ].
  assert (Pb : Forall (fun x => (0 < x)%R) (map (unit_value fac) (u_ci u ++ u_ct u))).
  { apply unit_pos; [exact P|]. apply Forall_app. split; [exact (constr_proper _ _ _ (k_ci _ _ _ K))|exact (constr_proper _ _ _ (k_ct _ _ _ K))]. }
  assert (NB : forall y0 q0 yf qf r, bc_func fn p (law_control fn p) y0 q0 yf qf pp pc k = Ok r -> length r = length (map (unit_value fac) (u_ci u ++ u_ct u))).
  { intros y0 q0 yf qf r0 H0. unfold bc_func in H0.
    destruct (call fn _ (bc_exprs (p_ci p)) _) as [b0|] eqn:E0; [|discriminate]. cbn in H0.
    destruct (call fn _ (bc_exprs (p_ct p)) _) as [bf|] eqn:Ef; [|discriminate]. cbn in H0. apply Ok_inj in H0. subst r0.
    apply call_length in E0. apply call_length in Ef. unfold bc_exprs in *. rewrite map_length, !app_length, E0, Ef, !map_length.
    now rewrite (Unit_Steps.Forall2_length' _ _ _ (k_ci _ _ _ K)), (Unit_Steps.Forall2_length' _ _ _ (k_ct _ _ _ K)). }
  assert (Ta : (a / f_t f * f_t f = a)%R) by (field; lra). assert (Tb : (b / f_t f * f_t f = b)%R) by (field; lra).
  specialize (FB (Y a) (Q a) (Y b) (Q b) (proj1 (L a)) (proj2 (L a)) (proj1 (L b)) (proj2 (L b))).
  cbn zeta in *. rewrite Ta, Tb in Hr. split.
  - intros t Ht. destruct (H (t / f_t f)%R) as (v' & x' & Hv & Hx & Dv & Dx).
    { destruct Ht as [A1 A2]. split; apply Rmult_le_compat_r; try lra; left; now apply Rinv_0_lt_compat. }
    assert (Tt : (t / f_t f * f_t f = t)%R) by (field; lra).
    rewrite Tt in Hv, Hx. destruct (FD (Y t) None (proj1 (L t)) ltac:(intros; discriminate)) as (_ & F1 & F2 & _). cbn zeta in *. rewrite F1 in Hv. rewrite F2 in Hx.
    destruct (deriv_func fn p (law_control fn p) (Y t) None pp k) as [v|] eqn:E1; [|discriminate].
    destruct (quad_func fn p (law_control fn p) (Y t) None pp k) as [x|] eqn:E2; [|discriminate].
    cbn in Hv, Hx. apply Ok_inj in Hv. apply Ok_inj in Hx. subst v' x'.
    assert (LV : length v = length (p_states p)) by (unfold deriv_func in E1; apply call_length in E1; rewrite E1; unfold eoms; apply map_length).
    assert (LX : length x = length (p_quads p)) by (unfold quad_func in E2; apply call_length in E2; rewrite E2; unfold eoms; apply map_length).
    exists v, x. split; [reflexivity|split; [reflexivity|]]. split; intros i Hi.
    + apply (near_list Y (f_y f) (f_t f) t v (length (p_states p)) eps B i (fun s => proj1 (L s)) LV Ny Py W Hi); [|exact (Dv i Hi)].
      apply (nth_bound (fun x => (x / f_t f <= B)%R)); [exact BY|lia].
    + apply (near_list Q (f_q f) (f_t f) t x (length (p_quads p)) eps B i (fun s => proj2 (L s)) LX Nq Pq W Hi); [|exact (Dx i Hi)].
      apply (nth_bound (fun x => (x / f_t f <= B)%R)); [exact BQ|lia].
  - rewrite FB in Hr. destruct (bc_func fn p (law_control fn p) (Y a) (Q a) (Y b) (Q b) pp pc k) as [r0|] eqn:E0; [|discriminate].
    cbn in Hr. apply Ok_inj in Hr. subst r. exists r0. split; [reflexivity|]. apply (near_residuals r0 (map (unit_value fac) (u_ci u ++ u_ct u))); [now apply (NB _ _ _ _ _ E0)|exact Pb|exact BB|exact Zr].
Qed.

(** The collocation solver on scaled quantities: [B] bounds the factors of states
    per factor of time, [Bb] the factors of boundary conditions. *)
Theorem C92_scaled_collocation : forall fn fac G p' u al guess f compute eps B Bb,
  positive fac -> consistent G p' u -> f = component_factors u fac -> compute guess = f -> loaded fn p' al -> guess_for p' guess ->
  length (p_params p') = 1 -> p_quads p' = [] -> hd 0%R (s_t guess) = 0%R -> last (s_t guess) 0%R = 1%R ->
  Forall (fun x => (x / f_t f <= B)%R) (f_y f) -> Forall (fun x => (x <= Bb)%R) (map (unit_value fac) (u_ci u ++ u_ct u)) ->
  exists h,
  (* the scaled problem is handed to solve_bvp *)
  h_t h = map (fun t => t / f_t f)%R (s_t guess) /\ h_p h = scaled (s_p guess) (f_p f) ++ scaled (s_nu guess) (f_nu f) /\
  (forall e a b Y pp nu, (forall t, length (Y t) = length (p_states p')) -> length pp = length (p_params p') -> length nu = length (p_cpars p') ->
     (near e e fn p' a b Y (fun _ => []) pp nu (scaled (s_k guess) (f_k f)) <-> solves_handed e h (length (p_states p')) a b Y (pp ++ nu))) /\
  (* its result *)
  forall sb out, sb h = Ok out -> good_result eps h (length (p_states p')) out ->
  exists al' r Y Q D, loop_solve ROps true compute sb al guess = Ok (al', r) /\ sr_converged r = o_success out /\ s_p (sr_sol r) = [D] /\
    s_k (sr_sol r) = s_k guess /\ hd 0%R (s_t (sr_sol r)) = 0%R /\ last (s_t (sr_sol r)) 0%R = 1%R /\
    ((0 < D)%R -> sampled_near (eps * B) (eps * Bb) fn p' Y Q D (sr_sol r)).
Proof.
  intros fn fac G p' u al guess f compute eps B Bb P K EF CF LD GO L1 EQ H0 H1 BY BB.
  destruct (scaled_run fn fac G p' u al guess f compute P K EF CF LD GO) as (h & HT & HP & _ & IFF & _ & _ & RUN).
  assert (NQ : length (p_quads p') = 0) by now rewrite EQ. cbv zeta in RUN, IFF. rewrite NQ, Nat.add_0_r in RUN, IFF.
  exists h. split; [exact HT|]. split; [exact HP|]. split.
  { intros e a b Y pp nu LY LP LN. rewrite <- near_solution_near, NQ. assert (Z := IFF e a b Y (fun _ => []) pp nu LY (fun _ => eq_refl)).
    cbv beta in Z. replace (fun t => Y t ++ []) with Y in Z by (apply functional_extensionality; intros t; now rewrite app_nil_r). apply Z; congruence. }
  intros sb out E GR.
  destruct (RUN sb out eps E GR) as (al' & r & R1 & R2 & R3 & R4 & R5 & R6 & Y & Q & LL & EY & EQQ & NS & SH).
  assert (PD : exists D, s_p (sr_sol r) = [D]) by (destruct SH as (LP & _); rewrite L1 in LP; destruct (s_p (sr_sol r)) as [|D [|? ?]]; try discriminate LP; now exists D).
  destruct PD as (D & PD). exists al', r, Y, Q, D. split; [exact R1|]. split; [exact R2|]. split; [exact PD|]. split; [exact R6|]. rewrite H0 in *. rewrite H1 in *.
  split; [exact R3|]. split; [exact R4|]. intros PO. constructor.
  - exact PD.
  - exact PO.
  - intros Z. rewrite Z in R4. cbn in R4. lra.
  - rewrite Forall_forall in R5. exact R5.
  - exact EY.
  - right. exists 0. rewrite EQQ. f_equal. apply map_ext. intros t. destruct (LL t) as [_ LQ]. now destruct (Q t).
  - rewrite <- NQ in NS at 1. apply near_solution_near in NS. rewrite <- PD. apply (unscaled_near fn fac G p' u f 0 1 Y Q _ _ _ eps B Bb P K EF SH); auto.
    + intros t. destruct (LL t) as [A1 A2]. split; [exact A1|]. now rewrite A2.
    + apply Forall_app. split; [exact BY|]. destruct (factor_facts fac G p' u P K) as (_ & _ & (Nq & _) & _). rewrite <- EF in Nq. rewrite NQ in Nq. destruct (f_q f); [constructor|discriminate Nq].
Qed.
Print Assumptions C92_scaled_collocation.

(** ** Examples *)

(** A run five per cent too fast: the final condition and the equation of motion
    are violated by 1/20.  The three samples returned lie on a curve that is
    feasible and stationary up to that. *)
Definition fast_nodes : list R := [0; 1/2; 1]%R.
Definition fast_Y (s : R) : list R := [21 / 20 * s; -2]%R.
Definition fast_c (t : R) (y : string) : R := if String.eqb y "x" then (21 / 20 * t)%R else go_c t y.
Lemma small_ok (x : R) : (- (1 / 20) <= x <= 1 / 20)%R -> (Rabs x <= 1 / 20)%R.
Proof. intros H. apply Rabs_le. exact H. Qed.
Lemma fast_near : near (1 / 20) (1 / 20) ex_fn go_pa 0 1 fast_Y (fun _ => []) [1%R] [2; -2]%R [].
Proof.
  split.
  - intros t Ht. eexists. eexists. split; [reflexivity|]. split; [reflexivity|]. split; [|intros i Hi; cbn in Hi; lia].
    intros [|[|i]] Hi; [| |cbn in Hi; lia].
    + exists (21 / 20)%R. split; [cbn; line (21 / 20)%R 0%R|]. apply small_ok. cbn. lra.
    + exists 0%R. split; [cbn; line 0%R (-2)%R|]. apply small_ok. cbn. lra.
  - eexists. split; [reflexivity|]. repeat (apply Forall_cons; [apply small_ok; cbn; lra|]). apply Forall_nil.
Qed.
Lemma fast_sampled : sampled_near (1 / 20) (1 / 20) ex_fn go_pa fast_Y (fun _ => []) 1 (go_s fast_Y 2 fast_nodes [2; -2]%R).
Proof. constructor; [reflexivity|lra|discriminate| |reflexivity|now left|exact fast_near]. apply nodes01. repeat constructor; lra. Qed.
Lemma fast_reads : reads_off ex_fn go_pa (p_ind go_x) fast_Y [1%R] [2; -2]%R [] 0 1 fast_c.
Proof. reads. cbn in L. injection L as <-. destruct i as [|i]; [cbn in E; injection E as <-; cbn; field; lra|destruct i; discriminate E]. Qed.
Example C92_ex : exists r a, inv_map_sol ROps (go_ms go_alg go_x) (go_s fast_Y 2 fast_nodes [2; -2]%R) = Ok (go_ms go_alg go_x, r, a) /\
  s_y r = Mat 1 [[21/20 * 0]; [21/20 * (1/2)]; [21/20 * 1]]%R /\ ~ feasible ex_fn go_x fast_c 0 1 /\
  feasible_near (1/20) (1/20) ex_fn go_x fast_c 0 1 /\ extremal_near (1/20) (1/20) ex_fn go_x fast_c 0 1.
Proof.
  destruct (C92_algebraic lu_gauss lu_gauss_ok (solve_linear lu_gauss) (C67_linear_solver_sound _ lu_gauss_ok) ex_fn scipy_simpson go_alg go_x (go_tfs go_alg go_x) [] [FAlg; FNorm; FSquash] go_x go_pa (go_ms go_alg go_x) _
    fast_Y (fun _ => []) 1%R (go_s fast_Y 2 fast_nodes [2; -2]%R) 0%R fast_c (1/20)%R (1/20)%R go_setup eq_refl eq_refl) as (r & a & INV & RT & F & E & _).
  - lra.
  - left. reflexivity.
  - exact fast_sampled.
  - split; [discriminate|reflexivity].
  - exact fast_reads.
  - intros t _. split; [cbn; tauto|]. split; [repeat (apply Forall_cons || apply Forall_nil); cbn; repeat split; lra|]. intros Z. discriminate Z.
  - exact simpson_total.
  - assert (TE : map (fun t => 0 + 1 * t)%R (s_t (go_s fast_Y 2 fast_nodes [2; -2]%R)) = fast_nodes) by (unfold go_s, fast_nodes; cbn; repeat (apply f_equal2; [lra|]); reflexivity).
    rewrite TE in RT. rewrite Rplus_0_l in F, E. unfold Rdiv at 1 in F. unfold Rdiv at 1 in E. rewrite Rinv_1, Rmult_1_r in F, E.
    exists r, a. split; [exact INV|]. destruct RT as [_ RY _ _ _ _]. split; [exact RY|]. split; [|split; [exact F|exact E]].
    intros (_ & _ & B). specialize (B (plain (Sub (Var "x") (Cst 1))) ltac:(now left)). cbn in B. lra.
Qed.

(** The collocation returns it. *)
Definition go_alg_sp : spalg (F := R) := mkSpalg (deriv_of ex_fn go_pa) (quad_of ex_fn go_pa) (bc5 (fun y0 yf pp pc k => bc_of ex_fn go_pa y0 [] yf [] pp pc k)) None None 20.
Definition fast_guess : sol R := mkSol [0; 1]%R [] (Mat 2 [[0; 0]; [3; 0]]%R) E1 E1 E1 E1 [1]%R [0; 0]%R [] 0%R.
Definition fast_opt : opt (F := R) := Spbvp_Model.mkOpt fast_nodes (map fast_Y fast_nodes) (Some [1; 2; -2]%R) true "" 1.
Example C92_ex_collocation : exists al' r Y Q, loop_solve ROps false (fun _ => mkFactors 1%R [] [] [] [] [] []) (fun _ => Ok fast_opt) go_alg_sp fast_guess = Ok (al', r) /\
  sr_converged r = true /\ s_t (sr_sol r) = fast_nodes /\ sampled_near (1/20) (1/20) ex_fn go_pa Y Q 1 (sr_sol r).
Proof.
  destruct (C92_collocation ex_fn go_pa go_alg_sp fast_guess (fun _ => mkFactors 1%R [] [] [] [] [] []) (1/20)%R) as (h & HT & HP & IFF & RUN).
  - repeat split.
  - split; [|split; [now left|repeat split]]. eexists. split; [reflexivity|]. split; [discriminate|]. now left.
  - reflexivity.
  - reflexivity.
  - reflexivity.
  - reflexivity.
  - destruct (RUN (fun _ => Ok fast_opt) fast_opt eq_refl) as (al' & r & Y & Q & D & R1 & R2 & R3 & _ & _ & _ & R6).
    + unfold good_result. rewrite HT, HP. cbn [hd last o_x o_y params_of o_p length fast_opt fast_guess s_t s_p s_nu app]. split; [reflexivity|]. split; [reflexivity|]. split; [unfold fast_nodes; repeat (apply Forall_cons; [lra|]); apply Forall_nil|]. split; [reflexivity|].
      exists fast_Y. split; [reflexivity|]. split; [reflexivity|]. exact (proj1 (IFF (1/20)%R 0%R 1%R fast_Y [1]%R [2; -2]%R (fun _ => eq_refl) eq_refl eq_refl) fast_near).
    + cbn in R3. subst D. exists al', r, Y, Q. split; [exact R1|]. split; [exact R2|]. split; [|apply R6; lra]. injection R1 as _ <-. reflexivity.
Qed.

(** The same units with scaling: x' = w in metres with an unknown speed; lengths are
    divided by 6 m, times by 2 s, so that residuals of 1/20 become 3/10. *)
Definition glide : prob :=
  mkProb "t" [("x", Var "w")] [] ["w"] [] [] [] [plain (Var "x")] [] [plain (Sub (Var "x") (Var "xf"))] [] []
    (Cst 0) (Cst 0) (Cst 0) ["xf"] [] [] [] None [] true false.
Definition glide_units : units := mkUnits us [um] [] [Div um us] [] [] [] [] [um] [] [um] [] [um] um (Cst 1).
Lemma glide_consistent : consistent drift_env glide glide_units.
Proof. unfold glide, glide_units. consistent_tac. Qed.
Definition glide_alg fn : spalg (F := R) := mkSpalg (deriv_of fn glide) (quad_of fn glide) (bc5 (fun y0 yf pp pc k => bc_of fn glide y0 [] yf [] pp pc k)) None None 20.
Definition glide_guess : sol R := mkSol [0; 1]%R [] (Mat 1 [[0]; [0]]%R) E1 E1 E1 E1 [12]%R [] [6]%R 0%R.
Definition glide_opt : opt (F := R) := Spbvp_Model.mkOpt [0; 1/2]%R [[0]; [21/20]]%R (Some [2]%R) true "" 3.
Lemma glide_near fn : near (1 / 10) (1 / 10) fn glide 0 (1/2) (fun t => [21/10 * t]%R) (fun _ => []) [2]%R [] [1]%R.
Proof.
  split.
  - intros t Ht. eexists. eexists. split; [reflexivity|]. split; [reflexivity|]. split; [|intros i Hi; cbn in Hi; lia].
    intros [|i] Hi; [|cbn in Hi; lia]. exists (21 / 10)%R. split; [cbn; auto_derive; [trivial|ring]|]. cbn. rewrite Rabs_pos_eq; lra.
  - eexists. split; [reflexivity|]. cbn. apply Forall_cons; [rewrite Rabs_pos_eq; lra|]. apply Forall_cons; [rewrite Rabs_pos_eq; lra|]. apply Forall_nil.
Qed.
Example C92_ex_scaled fn : exists al' r Y Q D, loop_solve ROps true (fun _ => component_factors glide_units six_two) (fun _ => Ok glide_opt) (glide_alg fn) glide_guess = Ok (al', r) /\
  s_p (sr_sol r) = [D] /\ ((0 < D)%R -> sampled_near (3/10) (6/10) fn glide Y Q D (sr_sol r)).
Proof.
  assert (V1 : unit_value six_two us = 2%R) by reflexivity. assert (V2 : unit_value six_two um = 6%R) by reflexivity.
  assert (V3 : unit_value six_two (Div um us) = 3%R) by (unfold unit_value, six_two; cbn; field).
  destruct (C92_scaled_collocation fn six_two drift_env glide glide_units (glide_alg fn) glide_guess _ (fun _ => component_factors glide_units six_two) (1/10)%R 3%R 6%R six_two_positive glide_consistent eq_refl eq_refl) as (h & HT & HP & IFF & RUN).
  - repeat split.
  - split; [|split; [now left|repeat split]]. eexists. split; [reflexivity|]. split; [discriminate|]. now left.
  - reflexivity.
  - reflexivity.
  - reflexivity.
  - reflexivity.
  - cbn [component_factors glide_units u_states u_ind f_y f_t map]. rewrite V1, V2. apply Forall_cons; [lra|apply Forall_nil].
  - cbn [glide_units u_ci u_ct app map]. rewrite V2. repeat (apply Forall_cons; [lra|]). apply Forall_nil.
  - cbn [component_factors glide_units u_states u_ind u_params u_cpars u_consts f_y f_t f_p f_nu f_k map glide_guess s_t s_p s_nu s_k] in HT, HP, IFF. rewrite V1 in HT. rewrite V2 in IFF. rewrite V3 in HP.
    unfold scaled in IFF, HP. cbn [map2 app] in IFF, HP.
    assert (HT' : h_t h = [0; 1/2]%R) by (rewrite HT; repeat f_equal; field).
    destruct (RUN (fun _ => Ok glide_opt) glide_opt eq_refl) as (al' & r & Y & Q & D & R1 & R2 & R3 & _ & _ & _ & R6).
    + unfold good_result. rewrite HT', HP. cbn [hd last o_x o_y params_of o_p length glide_opt]. split; [reflexivity|]. split; [reflexivity|]. split; [repeat (apply Forall_cons; [lra|]); apply Forall_nil|]. split; [reflexivity|].
      exists (fun t => [21/10 * t]%R). split; [reflexivity|]. split; [cbn; repeat (f_equal; try lra)|].
      assert (Z := proj1 (IFF (1/10)%R 0%R (1/2)%R (fun t => [21/10 * t]%R) [2]%R [] (fun _ => eq_refl) eq_refl eq_refl)). replace (6 / 6)%R with 1%R in Z by field. exact (Z (glide_near fn)).
    + exists al', r, Y, Q, D. split; [exact R1|]. split; [exact R3|]. replace (3/10)%R with (1/10*3)%R by field. replace (6/10)%R with (1/10*6)%R by field. exact R6.
Qed.
