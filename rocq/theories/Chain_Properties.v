(** C87, C88: the trajectory that the user gets back, and the cost it reports. *)
From Coq Require Import Reals Lra Lia Sorted.
From Coquelicot Require Import Coquelicot.
From Verif Require Import Base Base_Facts Map_More Sym_Expr Sym_Facts Sym_Model Sym_Lu Sym_Dual Sym_Traj Sym_Var Sym_DiffCtl Jac_Model Jac_Proofs Unit_Model Unit_Spec Unit_Properties Dual_Properties Ctl_Properties Shift_Properties Whole_Proofs Whole_Steps Whole_Geo Whole_Properties Chain_Model Chain_Facts Map_Model Map_Proofs Map_Chain Chain_Back Chain_Proofs Chain_Simpson.
Open Scope string_scope.
Open Scope list_scope.
Open Scope nat_scope.

(** The problem [p] of the user: bounds are one-sided, no unknown parameters;
    [p1] is what Dualize gets, [p'] the boundary value problem, [ms] the mappers.
    Names are distinct, and the costs mention states (time among them after the
    momentum shift), constants and, for the path cost, controls. *)
Record user_setup (lu : list (list expr) -> list expr -> res (list expr)) (solve : list expr -> list string -> list (list expr)) (fn : string -> nat -> R -> R)
    (sm : list R -> list R -> res R) (o : options) (p : prob) (fs pre post : list tf) (p1 p' : prob) (ms : list (mapper R)) : Prop := mkSetup {
  us_make : make_indirect o p = Ok fs;
  us_split : fs = pre ++ FDual (o_method o) :: post;
  us_pre : run_tfs lu solve pre p = Ok p1;
  us_chain : run_chain fn sm lu solve fs p = Ok (p', ms);
  us_bounds : forall d, In d (p_ci p ++ p_cp p ++ p_ct p) -> c_lower d = None \/ c_upper d = None;
  us_switches : p_switches p = [];
  us_norm : o_norm o = true;
  us_method : lower (o_method o) = "traditional" \/ lower (o_method o) = "diffyg";
  us_control : control_known o p1 p';
  us_fresh : p_costates p = [] /\ p_coparams p = [] /\ p_params p = [] /\ p_quads p = [];
  us_names : NoDup (p_ind p1 :: all_names p');
  us_time : o_shift o = true -> NoDup (("_" ++ p_ind p)%string :: syms (p_states p) ++ p_params p ++ p_controls p ++ [p_ind p]) /\
     (forall d, In d (p_ct p) -> ~ In ("_" ++ p_ind p)%string (vars (c_expr d))) /\ ~ In ("_" ++ p_ind p)%string (vars (p_cost_t p));
  us_cost : incl (vars (p_cost_i p) ++ vars (p_cost_t p)) (syms (p_states p1) ++ p_consts p) /\ incl (vars (p_cost_p p)) (syms (p_states p1) ++ p_controls p ++ p_consts p) }.

(** [s] holds a solution of the boundary value problem at some nodes of [0, 1]. *)
Record sampled (fn : string -> nat -> R -> R) (p' : prob) (Y Q : R -> list R) (D : R) (s : sol R) : Prop := mkSampled {
  sp_params : s_p s = [D];
  sp_pos : (0 < D)%R;
  sp_some : s_t s <> [];
  sp_nodes : forall t, In t (s_t s) -> (0 <= t <= 1)%R;
  sp_states : s_y s = Mat (length (p_states p')) (map Y (s_t s));
  sp_quads : alen (s_q s) = 0 \/ exists w, s_q s = Mat w (map (fun _ => []) (s_t s));
  sp_solves : solves fn p' 0 1 Y Q [D] (s_nu s) (s_k s) }.

(** [s] holds a solution up to errors. *)
Record sampled_near (delta eps : R) (fn : string -> nat -> R -> R) (p' : prob) (Y Q : R -> list R) (D : R) (s : sol R) : Prop := mkNear {
  sn_params : s_p s = [D];
  sn_pos : (0 < D)%R;
  sn_some : s_t s <> [];
  sn_nodes : forall t, In t (s_t s) -> (0 <= t <= 1)%R;
  sn_states : s_y s = Mat (length (p_states p')) (map Y (s_t s));
  sn_quads : alen (s_q s) = 0 \/ exists w, s_q s = Mat w (map (fun _ => []) (s_t s));
  sn_near : near delta eps fn p' 0 1 Y Q [D] (s_nu s) (s_k s) }.
Lemma sampled_exact fn p' Y Q D s : sampled fn p' Y Q D s <-> sampled_near 0 0 fn p' Y Q D s.
Proof. split; intros []; constructor; auto; now apply solves_near. Qed.

(** The returned trajectory: the curve at the given times. *)
Record returned (p : prob) (c : R -> string -> R) (times k : list R) (r : sol R) : Prop := mkReturned {
  rt_times : s_t r = times;
  rt_states : s_y r = Mat (length (p_states p)) (map (fun t => map (c t) (syms (p_states p))) times);
  rt_controls : s_u r = Mat (length (p_controls p)) (map (fun t => map (c t) (p_controls p)) times);
  rt_costates : s_dual r = Mat (length (p_states p)) (map (fun t => map (fun x => c t (lam x)) (syms (p_states p))) times);
  rt_consts : s_k r = k;
  rt_rest : s_p r = [] /\ s_nu r = [] }.

(** Where the clock starts. *)
Definition clock (o : options) (p : prob) (c : R -> string -> R) (t0 : R) : Prop :=
  (o_shift o = true -> c t0 (p_ind p) = t0) /\ (o_shift o = false -> t0 = 0%R).

Lemma curve_starts lu (LU : lu_ok lu) solve fn sm o p fs pre post p1 p' ms Y D nu k :
  user_setup lu solve fn sm o p fs pre post p1 p' ms -> exists t0 c, clock o p c t0 /\ reads_off fn p' (p_ind p1) Y [D] nu k t0 D c.
Proof.
  intros US. destruct US.
  destruct (o_shift o) eqn:OS.
  - assert (PR := user_pre o p fs pre post us_make0 us_split0 us_bounds0 us_switches0). rewrite OS in PR. subst pre.
    assert (IT : exists i, nth_error (syms (p_states p')) i = Some (p_ind p)).
    { destruct us_fresh0 as (A1 & A2 & A3 & A4).
      assert (R1 := us_pre0). cbn [run_tfs apply_tf] in R1. destruct (momentum_shift None p) as [q|] eqn:HM; [|discriminate]. cbn [bind] in R1. injection R1 as ->.
      destruct (momentum_ok None p p1 HM) as (M1 & M2 & M3 & M4 & M5 & _).
      destruct (indirect_steps lu solve o p fs [FMomentum] post p1 p' us_make0 us_split0 us_pre0 (run_chain_tfs _ _ _ _ _ _ _ _ us_chain0) us_norm0) as (pD & p2 & p3 & HD & HC & HN & HS).
      destruct (norm_squash p2 p3 p' HN HS) as (S1 & _).
      assert (DO := dual_of_exists lu LU _ p1 pD HD us_method0 (eq_trans M3 A1) (eq_trans M5 A2)). assert (SD := d_states _ _ _ DO).
      apply In_nth_error. rewrite S1, syms_slow. unfold syms. rewrite map_app. apply in_or_app. left. fold (syms (p_states p2)).
      assert (IX : In (p_ind p) (syms (p_states pD))) by (rewrite SD, M1; unfold syms; rewrite map_app; apply in_or_app; right; now left).
      unfold control_tf in HC. destruct (String.eqb (lower (o_control o)) "algebraic") eqn:OC; cbn [apply_tf] in HC.
      - unfold algebraic_control in HC. rewrite (d_dual _ _ _ DO), (d_ham _ _ _ DO) in HC. apply Ok_inj in HC. subst p2. clear - IX. destruct pD; exact IX.
      - destruct us_method0 as [M|M].
        + destruct (diffctl_traditional lu _ pD p2 HC M) as (h' & udot & H1 & H2 & H3 & _). rewrite H3. unfold syms. rewrite map_app. apply in_or_app. now left.
        + destruct (diffctl_diffyg lu _ pD p2 HC M) as (h' & udot & chi & H1 & H2 & H3 & _).
          destruct (udot_values lu LU h' (p_controls pD) (p_states pD ++ p_costates pD) udot H2) as [LUD _]. specialize (H3 LUD). cbv zeta in H3. destruct H3 as (HF & H3 & H4).
          assert (LX : length (syms (p_states pD)) = length (p_states pD)) by (unfold syms; apply map_length).
          assert (LL : length (syms (p_costates pD)) = length (p_states pD)) by (rewrite (d_lams _ _ _ DO), SD; unfold syms; now rewrite !map_length).
          assert (LC : length chi = 2 * (length (p_states pD) + length (p_controls pD))).
          { assert (P0 : 0 < length (p_states pD)) by (rewrite SD, M1, app_length; cbn; lia).
            assert (LQ : length (syms (p_states pD) ++ p_controls pD) = length (p_states pD) + length (p_controls pD)) by (rewrite app_length, LX; reflexivity).
            rewrite <- LQ in HF. destruct (ham_field_extended lu LU h' (syms (p_states pD) ++ p_controls pD) (syms (p_costates pD) ++ map lam (p_controls pD)) (length (p_controls pD)) (length (p_states pD) - 1) udot chi) as [L _].
            - rewrite !app_length, !map_length. lia.
            - lia.
            - exact LUD.
            - exact HF.
            - rewrite L. lia. }
          rewrite H3, syms_combine; [apply in_or_app; now left|]. rewrite firstn_length, app_length. lia. }
    destruct IT as (i & IT). exists (nth i (Y 0%R) 0%R). destruct (reads_off_exists fn p' (p_ind p1) Y [D] nu k (nth i (Y 0%R) 0%R) D us_names0) as (c & RO). exists c. split; [|exact RO].
    split; [|congruence]. intros _. rewrite (ro_states _ _ _ _ _ _ _ _ _ _ RO _ i _ IT). replace ((nth i (Y 0%R) 0 - nth i (Y 0%R) 0) / D)%R with 0%R; [reflexivity|]. unfold Rdiv. rewrite Rminus_diag_eq by reflexivity. ring.
  - destruct (reads_off_exists fn p' (p_ind p1) Y [D] nu k 0%R D us_names0) as (c & RO). exists 0%R, c. split; [|exact RO]. split; [congruence|reflexivity].
Qed.
(** Every solution stands for a curve. *)
Theorem C87_curve : forall lu, lu_ok lu -> forall solve fn sm o p fs pre post p1 p' ms Y Q D s,
  user_setup lu solve fn sm o p fs pre post p1 p' ms -> sampled fn p' Y Q D s ->
  exists t0 c, clock o p c t0 /\ reads_off fn p' (p_ind p1) Y [D] (s_nu s) (s_k s) t0 D c.
Proof. intros lu LU solve fn sm o p fs pre post p1 p' ms Y Q D s US _. exact (curve_starts lu LU solve fn sm o p fs pre post p1 p' ms Y D (s_nu s) (s_k s) US). Qed.
Print Assumptions C87_curve.

Lemma near_samples lu (LU : lu_ok lu) solve fn sm o p fs pre post p1 p' ms Y Q D s t0 c v delta eps :
  (lower (o_control o) = "algebraic" -> solve_sound solve) -> user_setup lu solve fn sm o p fs pre post p1 p' ms -> sampled_near delta eps fn p' Y Q D s ->
  clock o p c t0 -> reads_off fn p' (p_ind p1) Y [D] (s_nu s) (s_k s) t0 D c -> (forall t, (t0 <= t <= t0 + D)%R -> c t (p_ind p) = t) ->
  sm (map (fun t => eval fn (c (t0 + D * t)%R) (p_cost_p p)) (s_t s)) (map (fun t => t * D)%R (s_t s)) = Ok v ->
  exists r a, inv_map_sol ROps ms s = Ok (ms, r, a) /\ returned p c (map (fun t => t0 + D * t)%R (s_t s)) (s_k s) r /\
    s_cost r = (eval fn (c (t0 + D * hd 0 (s_t s))) (p_cost_i p) + eval fn (c (t0 + D * last (s_t s) 0)) (p_cost_t p) + v)%R.
Proof.
  intros SO US SP CL RO CT SM. destruct US, SP. destruct us_fresh0 as (A1 & A2 & A3 & A4). destruct us_cost0 as [V1 V2].
  destruct (user_samples lu LU solve fn sm o p fs pre post p1 p' ms Y Q D (s_nu s) (s_k s) t0 c (s_t s) v s SO us_make0 us_split0 us_pre0 us_chain0 us_bounds0 us_switches0 us_norm0 us_method0 us_control0
    A1 A2 A3 A4 us_names0 V1 V2 sn_near0 sn_pos0 RO (proj2 CL) CT eq_refl sn_some0 sn_nodes0 sn_states0 sn_params0 eq_refl sn_quads0 SM) as (r & a & INV & R1 & R2 & R3 & R4 & R5 & R6 & R7 & R8 & _ & R9).
  exists r, a. split; [exact INV|]. split; [|exact R9].
  assert (LS : length (syms (p_states p)) = length (p_states p)) by (unfold syms; apply map_length).
  constructor; [exact R1| | | |exact R8|split; [exact R6|exact R7]].
  - rewrite R2. unfold grid. now rewrite LS.
  - rewrite R4. reflexivity.
  - rewrite R3. unfold grid. rewrite map_length, LS. f_equal. apply map_ext. intros t. now rewrite map_map.
Qed.

Lemma setup_samples lu (LU : lu_ok lu) solve fn sm o p fs pre post p1 p' ms Y Q D s t0 c v :
  (lower (o_control o) = "algebraic" -> solve_sound solve) -> user_setup lu solve fn sm o p fs pre post p1 p' ms -> sampled fn p' Y Q D s ->
  clock o p c t0 -> reads_off fn p' (p_ind p1) Y [D] (s_nu s) (s_k s) t0 D c -> (forall t, (t0 <= t <= t0 + D)%R -> c t (p_ind p) = t) ->
  sm (map (fun t => eval fn (c (t0 + D * t)%R) (p_cost_p p)) (s_t s)) (map (fun t => t * D)%R (s_t s)) = Ok v ->
  exists r a, inv_map_sol ROps ms s = Ok (ms, r, a) /\ returned p c (map (fun t => t0 + D * t)%R (s_t s)) (s_k s) r /\
    s_cost r = (eval fn (c (t0 + D * hd 0 (s_t s))) (p_cost_i p) + eval fn (c (t0 + D * last (s_t s) 0)) (p_cost_t p) + v)%R.
Proof.
  intros SO US SP. apply sampled_exact in SP. exact (near_samples lu LU solve fn sm o p fs pre post p1 p' ms Y Q D s t0 c v 0%R 0%R SO US SP).
Qed.

Lemma setup_shift lu solve fn sm o p fs pre post p1 p' ms : user_setup lu solve fn sm o p fs pre post p1 p' ms ->
  run_tfs lu solve fs p = Ok p' /\ p_costates p1 = [] /\ p_coparams p1 = [] /\ p_params p1 = [] /\ p_quads p1 = [].
Proof.
  intros US. destruct US. split; [exact (run_chain_tfs _ _ _ _ _ _ _ _ us_chain0)|]. destruct us_fresh0 as (A1 & A2 & A3 & A4).
  assert (PR := user_pre o p fs pre post us_make0 us_split0 us_bounds0 us_switches0). assert (R1 := us_pre0). rewrite PR in R1. destruct (o_shift o).
  - cbn [run_tfs apply_tf] in R1. destruct (momentum_shift None p) as [q|] eqn:HM; [|discriminate]. cbn [bind] in R1. injection R1 as ->.
    destruct (momentum_ok None p p1 HM) as (_ & _ & M3 & M4 & M5 & _ & _ & _ & _ & _ & _ & _ & M6). repeat split; congruence.
  - cbn [run_tfs] in R1. injection R1 as ->. repeat split; assumption.
Qed.
Lemma setup_user lu solve fn sm o p fs pre post p1 p' ms c t0 tf : user_setup lu solve fn sm o p fs pre post p1 p' ms -> clock o p c t0 -> (t0 <= tf)%R ->
  feasible fn p1 c t0 tf -> extremal fn p1 c t0 tf -> feasible fn p c t0 tf /\ extremal fn p c t0 tf.
Proof.
  intros US [C1 C2] T F E. destruct US. apply (C86_user_problem lu solve fn o p fs pre post p1 c t0 tf); auto.
  intros S. destruct (us_time0 S) as (A & B & C). split; [exact A|]. split; [exact B|]. split; [exact C|exact (C1 S)].
Qed.

(** The returned trajectory consists of samples of a curve that satisfies the
    equations of motion and boundary conditions of the user and makes the cost
    stationary.  Algebraic control. *)
Theorem C87_algebraic : forall lu, lu_ok lu -> forall solve, solve_sound solve -> forall fn sm o p fs pre post p1 p' ms h Y Q D s t0 c,
  user_setup lu solve fn sm o p fs pre post p1 p' ms -> lower (o_control o) = "algebraic" -> p_ham p' = Some h ->
  sampled fn p' Y Q D s -> clock o p c t0 -> reads_off fn p' (p_ind p1) Y [D] (s_nu s) (s_k s) t0 D c ->
  (forall t, (t0 <= t <= t0 + D)%R -> wd fn (c t) h /\ Forall (Forall (wd fn (c t))) (p_law p') /\ field_defined lu fn (o_method o) p1 h (c t)) ->
  (forall ys ts, length ys = length ts -> ts <> [] -> exists v, sm ys ts = Ok v) ->
  exists r a, inv_map_sol ROps ms s = Ok (ms, r, a) /\ returned p c (map (fun t => t0 + D * t)%R (s_t s)) (s_k s) r /\
    feasible fn p c t0 (t0 + D)%R /\ extremal fn p c t0 (t0 + D)%R /\
    forall t u, (t0 <= t <= t0 + D)%R -> In u (p_controls p1) -> eval fn (c t) (diff u h) = 0%R.
Proof.
  intros lu LU solve SO fn sm o p fs pre post p1 p' ms h Y Q D s t0 c US OC HH SP CL RO WD SMT.
  destruct (setup_shift lu solve fn sm o p fs pre post p1 p' ms US) as (RN & E1 & E2 & E3 & E4).
  destruct (C85_algebraic lu LU solve SO fn o p fs pre post p1 p' h Y Q D (s_nu s) (s_k s) t0 c (us_make _ _ _ _ _ _ _ _ _ _ _ _ US) (us_split _ _ _ _ _ _ _ _ _ _ _ _ US) (us_pre _ _ _ _ _ _ _ _ _ _ _ _ US) RN HH OC
    (us_norm _ _ _ _ _ _ _ _ _ _ _ _ US) (us_method _ _ _ _ _ _ _ _ _ _ _ _ US) E1 E2 E3 E4 (us_names _ _ _ _ _ _ _ _ _ _ _ _ US)) as (F & E & ST).
  - intros cand e x I J V. destruct (us_control _ _ _ _ _ _ _ _ _ _ _ _ US) as [(_ & _ & LV & _)|(OD & _)]; [|rewrite OC in OD; discriminate OD].
    specialize (LV cand e x I J V). rewrite !in_app_iff in *. tauto.
  - exact (sp_solves _ _ _ _ _ _ SP).
  - exact (sp_pos _ _ _ _ _ _ SP).
  - exact RO.
  - exact WD.
  - assert (TT : (t0 <= t0 + D)%R) by (assert (P := sp_pos _ _ _ _ _ _ SP); lra).
    destruct (setup_user lu solve fn sm o p fs pre post p1 p' ms c t0 (t0 + D)%R US CL TT F E) as [F' E'].
    destruct (SMT (map (fun t => eval fn (c (t0 + D * t)%R) (p_cost_p p)) (s_t s)) (map (fun t => t * D)%R (s_t s))) as (v & SM); [now rewrite !map_length|intros Z; apply map_eq_nil in Z; exact (sp_some _ _ _ _ _ _ SP Z)|].
    destruct (setup_samples lu LU solve fn sm o p fs pre post p1 p' ms Y Q D s t0 c v (fun _ => SO) US SP CL RO (fun t Ht => proj2 (proj1 F' t Ht)) SM) as (r & a & INV & RT & _).
    exists r, a. split; [exact INV|]. split; [exact RT|]. split; [exact F'|]. split; [exact E'|exact ST].
Qed.
Print Assumptions C87_algebraic.

(** The control rate is integrated (traditional method). *)
Theorem C87_differential : forall lu, lu_ok lu -> forall fn, smooth fn -> forall solve sm o p fs pre post p1 p' ms h Y Q D s t0 c,
  user_setup lu solve fn sm o p fs pre post p1 p' ms -> lower (o_control o) = "differential" -> lower (o_method o) = "traditional" -> p_ham p' = Some h ->
  sampled fn p' Y Q D s -> clock o p c t0 -> reads_off fn p' (p_ind p1) Y [D] (s_nu s) (s_k s) t0 D c ->
  (forall t, (t0 <= t <= t0 + D)%R -> wd fn (c t) h /\ Forall (wd fn (c t)) (eoms (p_states p'))) ->
  (forall ys ts, length ys = length ts -> ts <> [] -> exists v, sm ys ts = Ok v) ->
  exists r a, inv_map_sol ROps ms s = Ok (ms, r, a) /\ returned p c (map (fun t => t0 + D * t)%R (s_t s)) (s_k s) r /\
    feasible fn p c t0 (t0 + D)%R /\ extremal fn p c t0 (t0 + D)%R /\
    forall t u, (t0 <= t <= t0 + D)%R -> In u (p_controls p1) -> eval fn (c t) (diff u h) = 0%R.
Proof.
  intros lu LU fn Sm solve sm o p fs pre post p1 p' ms h Y Q D s t0 c US OC M HH SP CL RO WD SMT.
  destruct (setup_shift lu solve fn sm o p fs pre post p1 p' ms US) as (RN & E1 & E2 & E3 & E4).
  destruct (C85_differential lu LU fn Sm solve o p fs pre post p1 p' h Y Q D (s_nu s) (s_k s) t0 c (us_make _ _ _ _ _ _ _ _ _ _ _ _ US) (us_split _ _ _ _ _ _ _ _ _ _ _ _ US) (us_pre _ _ _ _ _ _ _ _ _ _ _ _ US) RN HH OC
    (us_norm _ _ _ _ _ _ _ _ _ _ _ _ US) M E1 E2 E3 E4 (us_names _ _ _ _ _ _ _ _ _ _ _ _ US) (sp_solves _ _ _ _ _ _ SP) (sp_pos _ _ _ _ _ _ SP) RO WD) as (F & E & ST).
  assert (TT : (t0 <= t0 + D)%R) by (assert (P := sp_pos _ _ _ _ _ _ SP); lra).
  destruct (setup_user lu solve fn sm o p fs pre post p1 p' ms c t0 (t0 + D)%R US CL TT F E) as [F' E'].
  destruct (SMT (map (fun t => eval fn (c (t0 + D * t)%R) (p_cost_p p)) (s_t s)) (map (fun t => t * D)%R (s_t s))) as (v & SM); [now rewrite !map_length|intros Z; apply map_eq_nil in Z; exact (sp_some _ _ _ _ _ _ SP Z)|].
  destruct (setup_samples lu LU solve fn sm o p fs pre post p1 p' ms Y Q D s t0 c v) as (r & a & INV & RT & _); auto.
  - intros Z. rewrite OC in Z. discriminate Z.
  - intros t Ht. exact (proj2 (proj1 F' t Ht)).
  - exists r, a. split; [exact INV|]. split; [exact RT|]. split; [exact F'|]. split; [exact E'|exact ST].
Qed.
Print Assumptions C87_differential.

(** The same for the geometric method, which needs the momentum shift. *)
Theorem C87_geometric : forall lu, lu_ok lu -> forall fn, smooth fn -> forall solve sm o p fs pre post p1 p' ms h Y Q D s t0 c,
  user_setup lu solve fn sm o p fs pre post p1 p' ms -> lower (o_control o) = "differential" -> lower (o_method o) = "diffyg" -> o_shift o = true -> p_ham p' = Some h ->
  (forall x, In x (syms (p_states p1) ++ p_controls p1) -> ~ In (lam x) (vars (p_cost_p p1)) /\ forall s, In s (p_states p1) -> ~ In (lam x) (vars (snd s))) ->
  sampled fn p' Y Q D s -> clock o p c t0 -> reads_off fn p' (p_ind p1) Y [D] (s_nu s) (s_k s) t0 D c ->
  (forall t, (t0 <= t <= t0 + D)%R -> wd fn (c t) h /\ Forall (wd fn (c t)) (eoms (p_states p')) /\ field_defined lu fn (o_method o) p1 h (c t) /\
     forall pD udot, dualize lu (o_method o) p1 = Ok pD -> control_rates lu pD h = Ok udot -> Forall (wd fn (c t)) udot) ->
  (forall ys ts, length ys = length ts -> ts <> [] -> exists v, sm ys ts = Ok v) ->
  exists r a, inv_map_sol ROps ms s = Ok (ms, r, a) /\ returned p c (map (fun t => t0 + D * t)%R (s_t s)) (s_k s) r /\
    feasible fn p c t0 (t0 + D)%R /\ extremal fn p c t0 (t0 + D)%R /\
    forall t u, (t0 <= t <= t0 + D)%R -> In u (p_controls p1) -> eval fn (c t) (diff u h) = 0%R.
Proof.
  intros lu LU fn Sm solve sm o p fs pre post p1 p' ms h Y Q D s t0 c US OC M OS HH CN SP CL RO WD SMT.
  destruct (setup_shift lu solve fn sm o p fs pre post p1 p' ms US) as (RN & E1 & E2 & E3 & E4).
  assert (ET : p_states p1 = p_states p ++ [(p_ind p, Cst 1)]).
  { assert (PR := user_pre o p fs pre post (us_make _ _ _ _ _ _ _ _ _ _ _ _ US) (us_split _ _ _ _ _ _ _ _ _ _ _ _ US) (us_bounds _ _ _ _ _ _ _ _ _ _ _ _ US) (us_switches _ _ _ _ _ _ _ _ _ _ _ _ US)).
    assert (R1 := us_pre _ _ _ _ _ _ _ _ _ _ _ _ US). rewrite PR, OS in R1. cbn [run_tfs apply_tf] in R1. destruct (momentum_shift None p) as [q|] eqn:HM; [|discriminate]. cbn [bind] in R1. injection R1 as ->.
    exact (proj1 (momentum_ok None p p1 HM)). }
  destruct (C85_geometric lu LU fn Sm solve o p fs pre post p1 p' h Y Q D (s_nu s) (s_k s) t0 c (p_states p) (p_ind p) (us_make _ _ _ _ _ _ _ _ _ _ _ _ US) (us_split _ _ _ _ _ _ _ _ _ _ _ _ US) (us_pre _ _ _ _ _ _ _ _ _ _ _ _ US) RN HH OC
    (us_norm _ _ _ _ _ _ _ _ _ _ _ _ US) M ET E1 E2 E3 E4 (us_names _ _ _ _ _ _ _ _ _ _ _ _ US) CN (sp_solves _ _ _ _ _ _ SP) (sp_pos _ _ _ _ _ _ SP) RO WD) as (F & E & ST).
  assert (TT : (t0 <= t0 + D)%R) by (assert (P := sp_pos _ _ _ _ _ _ SP); lra).
  destruct (setup_user lu solve fn sm o p fs pre post p1 p' ms c t0 (t0 + D)%R US CL TT F E) as [F' E'].
  destruct (SMT (map (fun t => eval fn (c (t0 + D * t)%R) (p_cost_p p)) (s_t s)) (map (fun t => t * D)%R (s_t s))) as (v & SM); [now rewrite !map_length|intros Z; apply map_eq_nil in Z; exact (sp_some _ _ _ _ _ _ SP Z)|].
  destruct (setup_samples lu LU solve fn sm o p fs pre post p1 p' ms Y Q D s t0 c v) as (r & a & INV & RT & _); auto.
  - intros Z. rewrite OC in Z. discriminate Z.
  - intros t Ht. exact (proj2 (proj1 F' t Ht)).
  - exists r, a. split; [exact INV|]. split; [exact RT|]. split; [exact F'|]. split; [exact E'|exact ST].
Qed.
Print Assumptions C87_geometric.

(** ** C88 *)

(** The reported cost: initial cost at the first sample, terminal cost at the last,
    and scipy's Simpson rule for the path cost. *)
Theorem C88_reported : forall lu, lu_ok lu -> forall solve fn sm o p fs pre post p1 p' ms Y Q D s t0 c v,
  (lower (o_control o) = "algebraic" -> solve_sound solve) -> user_setup lu solve fn sm o p fs pre post p1 p' ms -> sampled fn p' Y Q D s ->
  clock o p c t0 -> reads_off fn p' (p_ind p1) Y [D] (s_nu s) (s_k s) t0 D c -> (forall t, (t0 <= t <= t0 + D)%R -> c t (p_ind p) = t) ->
  hd 0%R (s_t s) = 0%R -> last (s_t s) 0%R = 1%R ->
  sm (map (fun t => eval fn (c (t0 + D * t)%R) (p_cost_p p)) (s_t s)) (map (fun t => t * D)%R (s_t s)) = Ok v ->
  exists r a, inv_map_sol ROps ms s = Ok (ms, r, a) /\
    s_cost r = (eval fn (c t0) (p_cost_i p) + eval fn (c (t0 + D)) (p_cost_t p) + v)%R.
Proof.
  intros lu LU solve fn sm o p fs pre post p1 p' ms Y Q D s t0 c v SO US SP CL RO CT H0 H1 SM.
  destruct (setup_samples lu LU solve fn sm o p fs pre post p1 p' ms Y Q D s t0 c v SO US SP CL RO CT SM) as (r & a & INV & _ & C).
  exists r, a. split; [exact INV|]. rewrite C, H0, H1. rewrite Rmult_0_r, Rmult_1_r, Rplus_0_r. reflexivity.
Qed.
Print Assumptions C88_reported.

Lemma sorted_scale D ts : (0 < D)%R -> Sorted Rlt ts -> Sorted Rlt (map (fun t => t * D)%R ts).
Proof.
  intros P S. induction S as [|x l S IH H]; [constructor|]. cbn. constructor; [exact IH|]. destruct H as [|y l H]; [constructor|]. cbn. constructor. now apply Rmult_lt_compat_r.
Qed.
Lemma last_map (f : R -> R) ts : ts <> [] -> last (map f ts) 0%R = f (last ts 0%R).
Proof. intros NE. destruct (exists_last NE) as (l & x & ->). rewrite map_app. cbn [map]. now rewrite !last_last. Qed.

(** With a path cost that is quadratic in time along the trajectory and at least
    three samples this is the cost of the user: Simpson's rule is exact. *)
Theorem C88_exact : forall lu, lu_ok lu -> forall solve fn o p fs pre post p1 p' ms Y Q D s t0 c,
  (lower (o_control o) = "algebraic" -> solve_sound solve) -> user_setup lu solve fn scipy_simpson o p fs pre post p1 p' ms -> sampled fn p' Y Q D s ->
  clock o p c t0 -> reads_off fn p' (p_ind p1) Y [D] (s_nu s) (s_k s) t0 D c -> (forall t, (t0 <= t <= t0 + D)%R -> c t (p_ind p) = t) ->
  hd 0%R (s_t s) = 0%R -> last (s_t s) 0%R = 1%R -> Sorted Rlt (s_t s) -> 3 <= length (s_t s) ->
  forall (A B E I : R), (forall t, (t0 <= t <= t0 + D)%R -> eval fn (c t) (p_cost_p p) = (A * t * t + B * t + E)%R) ->
  is_RInt (fun t => eval fn (c t) (p_cost_p p)) t0 (t0 + D)%R I ->
  exists r a, inv_map_sol ROps ms s = Ok (ms, r, a) /\
    s_cost r = (eval fn (c t0) (p_cost_i p) + eval fn (c (t0 + D)) (p_cost_t p) + I)%R.
Proof.
  intros lu LU solve fn o p fs pre post p1 p' ms Y Q D s t0 c SO US SP CL RO CT H0 H1 SS L3 A B E I HQ HI.
  assert (P := sp_pos _ _ _ _ _ _ SP). assert (NE := sp_some _ _ _ _ _ _ SP).
  set (a' := A). set (b' := (2 * A * t0 + B)%R). set (e' := (A * t0 * t0 + B * t0 + E)%R).
  assert (EV : map (fun t => eval fn (c (t0 + D * t)%R) (p_cost_p p)) (s_t s) = map (fun t => a' * t * t + b' * t + e')%R (map (fun t => t * D)%R (s_t s))).
  { rewrite map_map. apply map_ext_in. intros t It. assert (T := sp_nodes _ _ _ _ _ _ SP t It). rewrite HQ by nra. unfold a', b', e'. ring. }
  assert (SM := simpson_exact a' b' e' (map (fun t => t * D)%R (s_t s)) (sorted_scale D (s_t s) P SS)). rewrite map_length in SM. specialize (SM L3). cbv beta in SM. rewrite <- EV in SM.
  rewrite (last_map _ _ NE), H1 in SM.
  assert (HD0 : hd 0%R (map (fun t => t * D)%R (s_t s)) = 0%R) by (destruct (s_t s); [contradiction|]; cbn in *; subst; ring). rewrite HD0 in SM.
  assert (VI : I = (a' * (1 * D) * (1 * D) * (1 * D) / 3 + b' * (1 * D) * (1 * D) / 2 + e' * (1 * D) - (a' * 0 * 0 * 0 / 3 + b' * 0 * 0 / 2 + e' * 0))%R).
  { assert (J : is_RInt (fun t => A * t * t + B * t + E)%R t0 (t0 + D)%R
      (minus ((fun t => A * t * t * t / 3 + B * t * t / 2 + E * t)%R (t0 + D)%R) ((fun t => A * t * t * t / 3 + B * t * t / 2 + E * t)%R t0))).
    { apply (is_RInt_derive (V := R_CompleteNormedModule) (fun t => A * t * t * t / 3 + B * t * t / 2 + E * t)%R).
      - intros x _. auto_derive; [trivial|]. field.
      - intros x _. apply (ex_derive_continuous (V := R_NormedModule)). auto_derive. trivial. }
    assert (J' : is_RInt (fun t => A * t * t + B * t + E)%R t0 (t0 + D)%R I).
    { apply (is_RInt_ext (fun t => eval fn (c t) (p_cost_p p))); [|exact HI]. intros x Hx. apply HQ. rewrite Rmin_left, Rmax_right in Hx by lra. lra. }
    rewrite <- (is_RInt_unique _ _ _ _ J'). rewrite (is_RInt_unique _ _ _ _ J). unfold minus, plus, opp. cbn. unfold a', b', e'. field. }
  rewrite VI. exact (C88_reported lu LU solve fn scipy_simpson o p fs pre post p1 p' ms Y Q D s t0 c _ SO US SP CL RO CT H0 H1 SM).
Qed.
Print Assumptions C88_exact.

(** ** Findings *)
Definition go_ms (o : options) (p : prob) : list (mapper R) :=
  match run_chain ex_fn scipy_simpson lu_gauss (solve_linear lu_gauss) (go_tfs o p) p with Ok r => snd r | Raise _ => [] end.
Lemma go_chain o p q : run_tfs lu_gauss (solve_linear lu_gauss) (go_tfs o p) p = Ok q -> run_chain ex_fn scipy_simpson lu_gauss (solve_linear lu_gauss) (go_tfs o p) p = Ok (q, go_ms o p).
Proof. intros H. destruct (run_chain_total ex_fn scipy_simpson _ _ _ _ _ H) as (ms & E). unfold go_ms. rewrite E. reflexivity. Qed.
Definition go_s (Y : R -> list R) (n : nat) (ts nu : list R) : sol R := mkSol ts [] (Mat n (map Y ts)) E1 E1 E1 E1 [1]%R nu [] 0%R.

(** Cost: final time plus the integral of u^2, without the momentum shift. *)
Definition go_t : prob :=
  mkProb "t" [("x", Var "u")] [] [] [] ["u"] [] [plain (Var "x")] [] [plain (Sub (Var "x") (Cst 1))] [] []
    (Cst 0) (Mul (Var "u") (Var "u")) (Var "t") [] [] [] [] None [] true false.
Definition go_pt : prob := Eval vm_compute in go_bvp go_alg go_t.
Lemma go_pt_solves : solves ex_fn go_pt 0 1 (fun s => [s; -2]%R) (fun _ => []) [1%R] [2; -2]%R [].
Proof.
  split.
  - intros t Ht. eexists. eexists. split; [reflexivity|]. split; [reflexivity|]. split; [|intros i Hi; cbn in Hi; lia].
    intros [|[|i]] Hi; [| |cbn in Hi; lia].
    + cbn. line 1%R 0%R.
    + cbn. line 0%R (-2)%R.
  - eexists. split; [reflexivity|]. repeat (apply Forall_cons; [cbn; lra|]). apply Forall_nil.
Qed.
Lemma nodes01 ts : Forall (fun t => 0 <= t <= 1)%R ts -> forall t, In t ts -> (0 <= t <= 1)%R.
Proof. intros F t I. rewrite Forall_forall in F. now apply F. Qed.

(** The boundary value problem is solved, and mapping its solution back raises:
    the independent variable is no argument of the compiled cost. *)
Theorem C88_time_cost_refuted : exists o p fs p' ms Y s e,
  make_indirect o p = Ok fs /\ run_chain ex_fn scipy_simpson lu_gauss (solve_linear lu_gauss) fs p = Ok (p', ms) /\
  sampled ex_fn p' Y (fun _ => []) 1 s /\ inv_map_sol ROps ms s = Raise e.
Proof.
  exists go_alg, go_t, (go_tfs go_alg go_t), go_pt, (go_ms go_alg go_t), (fun s => [s; -2]%R), (go_s (fun s => [s; -2]%R) 2 [0; 1]%R [2; -2]%R), KeyError.
  split; [reflexivity|]. split; [apply go_chain; vm_compute; reflexivity|]. split; [|vm_compute; reflexivity].
  constructor; [reflexivity|lra|discriminate| |reflexivity|now left|exact go_pt_solves].
  apply nodes01. repeat constructor; lra.
Qed.
Print Assumptions C88_time_cost_refuted.

(** A path constraint handled by a penalty (UTM): the cost that is reported
    contains the penalty.  Here u = 0 and x = 2/3 with -1 <= x <= 1 and activator
    1: the cost is 0, the report 1. *)
Definition pen_p : prob :=
  mkProb "t" [("x", Var "u")] [] [] [] ["u"] [] [] [mkConstr (Var "x") (Some (Cst (-1))) (Some (Cst 1)) (Some (Var "eps")) "utm"] [] [] []
    (Cst 0) (Mul (Var "u") (Var "u")) (Cst 0) ["eps"] [] [] [] None [] true false.
Definition pen_p1 : prob := Eval vm_compute in match utm pen_p with Ok q => q | Raise _ => pen_p end.
Definition pen_pD : prob := Eval vm_compute in match dualize lu_gauss "traditional" pen_p1 with Ok q => q | Raise _ => pen_p end.
Theorem C88_penalty_refuted : exists p p1 pD na cost y u k v w,
  utm p = Ok p1 /\ run_chain ex_fn scipy_simpson lu_gauss (solve_linear lu_gauss) [FUtm; FDual "traditional"] p = Ok (pD, [MIdentity; MDualize na cost]) /\
  cost [0; 1]%R y E1 u [] k = Ok w /\ compute_cost ex_fn scipy_simpson p [0; 1]%R y E1 u [] k = Ok v /\ (w = v + 1)%R.
Proof.
  exists pen_p, pen_p1, pen_pD, 0, (compute_cost ex_fn scipy_simpson pen_p1), (Mat 1 [[2 / 3]; [2 / 3]]%R), (Mat 1 [[0]; [0]]%R), [1]%R, 0%R, 1%R.
  split; [vm_compute; reflexivity|]. split.
  - assert (U : apply_tf lu_gauss (solve_linear lu_gauss) FUtm pen_p = Ok pen_p1) by (vm_compute; reflexivity).
    assert (HD : apply_tf lu_gauss (solve_linear lu_gauss) (FDual "traditional") pen_p1 = Ok pen_pD) by (vm_compute; reflexivity).
    cbn [run_chain]. rewrite U. cbn [bind]. rewrite HD. reflexivity.
  - split; [|split; [|lra]].
    + unfold compute_cost. cbn. f_equal.
      replace (PI * / 2 * (2 * (2 / 3) + - (1) + - (-1)) * / (1 + - (-1)))%R with (PI / 3)%R by field. rewrite cos_PI3. field.
    + unfold compute_cost. cbn. f_equal. field.
Qed.
Print Assumptions C88_penalty_refuted.

(** ** Examples *)
Ltac no_bounds := intros d I; cbn in I; repeat (destruct I as [ <-|I]; [now left|]); destruct I.

(** Algebraic control: five samples of x = t, u = 1, cost 1 + u^2. *)
Definition go_nodes : list R := [0; 1/5; 1/2; 3/4; 1]%R.
Lemma go_nodes01 : forall t, In t go_nodes -> (0 <= t <= 1)%R.
Proof. apply nodes01. repeat constructor; lra. Qed.
Lemma go_nodes_sorted : Sorted Rlt go_nodes.
Proof. repeat constructor; lra. Qed.
Lemma go_setup : user_setup lu_gauss (solve_linear lu_gauss) ex_fn scipy_simpson go_alg go_x (go_tfs go_alg go_x) [] [FAlg; FNorm; FSquash] go_x go_pa (go_ms go_alg go_x).
Proof.
  apply mkSetup.
  - reflexivity.
  - reflexivity.
  - reflexivity.
  - apply go_chain. vm_compute. reflexivity.
  - no_bounds.
  - reflexivity.
  - reflexivity.
  - left. reflexivity.
  - left. split; [reflexivity|]. split; [discriminate|]. split.
    + intros cand e x I J V. cbn in I. destruct I as [ <-|[]]. cbn in J. destruct J as [ <-|[]]. cbn in V. repeat (destruct V as [ <-|V]; [cbn; tauto|]). destruct V.
    + intros h x H I. injection H as <-. cbn in I. repeat (destruct I as [ <-|I]; [cbn; tauto|]). destruct I.
  - repeat split.
  - names.
  - discriminate.
  - split; [intros x []|]. intros x I. cbn in I. repeat (destruct I as [ <-|I]; [cbn; tauto|]). destruct I.
Qed.
Lemma go_sampled : sampled ex_fn go_pa (fun s => [s; -2]%R) (fun _ => []) 1 (go_s (fun s => [s; -2]%R) 2 go_nodes [2; -2]%R).
Proof. constructor; [reflexivity|lra|discriminate|exact go_nodes01|reflexivity|now left|exact go_pa_solves]. Qed.
Lemma go_reads : reads_off ex_fn go_pa (p_ind go_x) (fun s => [s; -2]%R) [1%R] [2; -2]%R [] 0 1 go_c.
Proof. reads. cbn in L. injection L as <-. destruct i as [|i]; [cbn in E; injection E as <-; cbn; field; lra|destruct i; discriminate E]. Qed.

Lemma simpson_total ys ts : length ys = length ts -> ts <> [] -> exists v, scipy_simpson ys ts = Ok v.
Proof.
  intros L NE. unfold scipy_simpson. rewrite L, Nat.eqb_refl. cbn [negb].
  destruct ys as [|y0 [|y1 [|y2 ys]]], ts as [|t0 [|t1 [|t2 ts]]]; try discriminate L; try contradiction; try (eexists; reflexivity).
  destruct (Nat.odd (length (t0 :: t1 :: t2 :: ts))); eexists; reflexivity.
Qed.

Example C87_ex : exists r a, inv_map_sol ROps (go_ms go_alg go_x) (go_s (fun s => [s; -2]%R) 2 go_nodes [2; -2]%R) = Ok (go_ms go_alg go_x, r, a) /\
  returned go_x go_c go_nodes [] r /\ s_y r = Mat 1 [[0]; [1/5]; [1/2]; [3/4]; [1]]%R /\ s_u r = Mat 1 [[1]; [1]; [1]; [1]; [1]]%R /\
  feasible ex_fn go_x go_c 0 1 /\ extremal ex_fn go_x go_c 0 1.
Proof.
  destruct (C87_algebraic lu_gauss lu_gauss_ok (solve_linear lu_gauss) (C67_linear_solver_sound _ lu_gauss_ok) ex_fn scipy_simpson go_alg go_x (go_tfs go_alg go_x) [] [FAlg; FNorm; FSquash] go_x go_pa (go_ms go_alg go_x) _
    (fun s => [s; -2]%R) (fun _ => []) 1%R (go_s (fun s => [s; -2]%R) 2 go_nodes [2; -2]%R) 0%R go_c go_setup eq_refl eq_refl go_sampled) as (r & a & INV & RT & F & E & _).
  - split; [discriminate|reflexivity].
  - exact go_reads.
  - intros t _. split; [cbn; tauto|]. split; [repeat (apply Forall_cons || apply Forall_nil); cbn; repeat split; lra|]. intros Z. discriminate Z.
  - exact simpson_total.
  - assert (TE : map (fun t => 0 + 1 * t)%R (s_t (go_s (fun s => [s; -2]%R) 2 go_nodes [2; -2]%R)) = go_nodes) by (unfold go_s, go_nodes; cbn; repeat (apply f_equal2; [lra|]); reflexivity).
    rewrite TE in RT. rewrite Rplus_0_l in F, E. exists r, a. split; [exact INV|]. split; [exact RT|]. destruct RT as [_ RY RU _ _ _]. split; [exact RY|]. split; [exact RU|]. split; [exact F|exact E].
Qed.

Lemma go_integral (f : R -> R) : (forall t, f t = 2%R) -> is_RInt f 0 (0 + 1) 2%R.
Proof.
  intros H. apply (is_RInt_ext (V := R_NormedModule) (fun _ => 2%R)); [intros x _; symmetry; apply H|].
  assert (J := is_RInt_const (V := R_NormedModule) 0%R (0 + 1)%R 2%R). replace (scal (0 + 1 - 0)%R (2%R : R_NormedModule)) with 2%R in J; [exact J|]. unfold scal. cbn. unfold mult. cbn. ring.
Qed.

(** The reported cost is 2, the integral of 1 + u^2. *)
Example C88_ex : exists r a, inv_map_sol ROps (go_ms go_alg go_x) (go_s (fun s => [s; -2]%R) 2 go_nodes [2; -2]%R) = Ok (go_ms go_alg go_x, r, a) /\ s_cost r = 2%R.
Proof.
  destruct (C88_exact lu_gauss lu_gauss_ok (solve_linear lu_gauss) ex_fn go_alg go_x (go_tfs go_alg go_x) [] [FAlg; FNorm; FSquash] go_x go_pa (go_ms go_alg go_x)
    (fun s => [s; -2]%R) (fun _ => []) 1%R (go_s (fun s => [s; -2]%R) 2 go_nodes [2; -2]%R) 0%R go_c (fun _ => C67_linear_solver_sound _ lu_gauss_ok) go_setup go_sampled) with (A := 0%R) (B := 0%R) (E := 2%R) (I := 2%R) as (r & a & INV & C).
  - split; [discriminate|reflexivity].
  - exact go_reads.
  - intros t _. reflexivity.
  - reflexivity.
  - reflexivity.
  - exact go_nodes_sorted.
  - cbn. lia.
  - intros t _. cbn. ring.
  - apply go_integral. intros x. cbn. ring.
  - exists r, a. split; [exact INV|]. rewrite C. cbn. ring.
Qed.

(** Geometric method with the momentum shift: time is mapped back too. *)
Lemma go_gsetup : user_setup lu_gauss (solve_linear lu_gauss) ex_fn scipy_simpson go_geo go_xt (go_tfs go_geo go_xt) [FMomentum] [FDiff "diffyg"; FNorm; FSquash] go_shift go_pg (go_ms go_geo go_xt).
Proof.
  apply mkSetup.
  - reflexivity.
  - reflexivity.
  - vm_compute. reflexivity.
  - apply go_chain. vm_compute. reflexivity.
  - no_bounds.
  - reflexivity.
  - reflexivity.
  - right. reflexivity.
  - right. split; [reflexivity|]. discriminate.
  - repeat split.
  - names.
  - intros _. split; [names|]. split; [|cbn; tauto]. intros d [ <-|[]]. cbn. intros [I|[]]. discriminate I.
  - split; [intros x []|]. intros x I. cbn in I. repeat (destruct I as [ <-|I]; [cbn; tauto|]). destruct I.
Qed.
Lemma go_gsampled : sampled ex_fn go_pg (fun s => [s; s; 1; -2; 0; 0]%R) (fun _ => []) 1 (go_s (fun s => [s; s; 1; -2; 0; 0]%R) 6 go_nodes [2; 0; -2]%R).
Proof. constructor; [reflexivity|lra|discriminate|exact go_nodes01|reflexivity|now left|exact go_pg_solves]. Qed.
Lemma go_greads : reads_off ex_fn go_pg (p_ind go_shift) (fun s => [s; s; 1; -2; 0; 0]%R) [1%R] [2; 0; -2]%R [] 0 1 go_c.
Proof. reads. cbn in L. discriminate L. Qed.
Example C87_ex_geometric : exists r a, inv_map_sol ROps (go_ms go_geo go_xt) (go_s (fun s => [s; s; 1; -2; 0; 0]%R) 6 go_nodes [2; 0; -2]%R) = Ok (go_ms go_geo go_xt, r, a) /\
  returned go_xt go_c go_nodes [] r /\ s_t r = go_nodes /\ s_y r = Mat 1 [[0]; [1/5]; [1/2]; [3/4]; [1]]%R /\ s_u r = Mat 1 [[1]; [1]; [1]; [1]; [1]]%R /\
  feasible ex_fn go_xt go_c 0 1 /\ extremal ex_fn go_xt go_c 0 1 /\ s_cost r = 2%R.
Proof.
  destruct (C87_geometric lu_gauss lu_gauss_ok ex_fn ex_smooth (solve_linear lu_gauss) scipy_simpson go_geo go_xt (go_tfs go_geo go_xt) [FMomentum] [FDiff "diffyg"; FNorm; FSquash] go_shift go_pg (go_ms go_geo go_xt) (dual_ham go_shift)
    (fun s => [s; s; 1; -2; 0; 0]%R) (fun _ => []) 1%R (go_s (fun s => [s; s; 1; -2; 0; 0]%R) 6 go_nodes [2; 0; -2]%R) 0%R go_c go_gsetup eq_refl eq_refl eq_refl) as (r & a & INV & RT & F & E & _).
  - vm_compute. reflexivity.
  - intros x I. split.
    + intros J. cbn in I, J. repeat (destruct J as [J|J]; [discriminate J|]). exact J.
    + intros s Is J. cbn in Is. destruct Is as [ <-|[ <-|[]]]; cbn in J; [destruct J as [J|[]]; discriminate J|exact J].
  - exact go_gsampled.
  - split; [reflexivity|discriminate].
  - exact go_greads.
  - intros t _. split; [cbn; tauto|]. split; [repeat (apply Forall_cons || apply Forall_nil); cbn; repeat split; lra|]. split.
    + intros _ chi HC. vm_compute in HC. injection HC as <-. repeat (apply Forall_cons || apply Forall_nil); cbn; repeat split; lra.
    + intros pD udot HD HU. vm_compute in HD. injection HD as <-. vm_compute in HU. injection HU as <-. repeat (apply Forall_cons || apply Forall_nil); cbn; repeat split; lra.
  - exact simpson_total.
  - destruct (C88_exact lu_gauss lu_gauss_ok (solve_linear lu_gauss) ex_fn go_geo go_xt (go_tfs go_geo go_xt) [FMomentum] [FDiff "diffyg"; FNorm; FSquash] go_shift go_pg (go_ms go_geo go_xt)
      (fun s => [s; s; 1; -2; 0; 0]%R) (fun _ => []) 1%R (go_s (fun s => [s; s; 1; -2; 0; 0]%R) 6 go_nodes [2; 0; -2]%R) 0%R go_c) with (A := 0%R) (B := 0%R) (E := 2%R) (I := 2%R) as (r' & a' & INV' & C).
    + discriminate.
    + exact go_gsetup.
    + exact go_gsampled.
    + split; [reflexivity|discriminate].
    + exact go_greads.
    + intros t _. reflexivity.
    + reflexivity.
    + reflexivity.
    + exact go_nodes_sorted.
    + cbn. lia.
    + intros t _. cbn. ring.
    + apply go_integral. intros x. cbn. ring.
    + rewrite INV in INV'. assert (RR : r = r') by congruence. subst r'.
      assert (TE : map (fun t => 0 + 1 * t)%R (s_t (go_s (fun s => [s; s; 1; -2; 0; 0]%R) 6 go_nodes [2; 0; -2]%R)) = go_nodes) by (unfold go_s, go_nodes; cbn; repeat (apply f_equal2; [lra|]); reflexivity).
      rewrite TE in RT. rewrite Rplus_0_l in F, E. exists r, a. split; [exact INV|]. split; [exact RT|]. destruct RT as [RT RY RU _ _ _]. split; [exact RT|]. split; [exact RY|]. split; [exact RU|]. split; [exact F|]. split; [exact E|].
      rewrite C. cbn. ring.
Qed.

(** Differential control. *)
Lemma go_dsetup : user_setup lu_gauss (solve_linear lu_gauss) ex_fn scipy_simpson go_diff go_x (go_tfs go_diff go_x) [] [FDiff "traditional"; FNorm; FSquash] go_x go_pd (go_ms go_diff go_x).
Proof.
  apply mkSetup.
  - reflexivity.
  - reflexivity.
  - reflexivity.
  - apply go_chain. vm_compute. reflexivity.
  - no_bounds.
  - reflexivity.
  - reflexivity.
  - left. reflexivity.
  - right. split; [reflexivity|]. discriminate.
  - repeat split.
  - names.
  - discriminate.
  - split; [intros x []|]. intros x I. cbn in I. repeat (destruct I as [ <-|I]; [cbn; tauto|]). destruct I.
Qed.
Example C87_ex_differential : exists r a, inv_map_sol ROps (go_ms go_diff go_x) (go_s (fun s => [s; 1; -2]%R) 3 go_nodes [2; -2]%R) = Ok (go_ms go_diff go_x, r, a) /\
  returned go_x go_c go_nodes [] r /\ feasible ex_fn go_x go_c 0 1 /\ extremal ex_fn go_x go_c 0 1.
Proof.
  destruct (C87_differential lu_gauss lu_gauss_ok ex_fn ex_smooth (solve_linear lu_gauss) scipy_simpson go_diff go_x (go_tfs go_diff go_x) [] [FDiff "traditional"; FNorm; FSquash] go_x go_pd (go_ms go_diff go_x) _
    (fun s => [s; 1; -2]%R) (fun _ => []) 1%R (go_s (fun s => [s; 1; -2]%R) 3 go_nodes [2; -2]%R) 0%R go_c go_dsetup eq_refl eq_refl eq_refl) as (r & a & INV & RT & F & E & _).
  - constructor; [reflexivity|lra|discriminate|exact go_nodes01|reflexivity|now left|exact go_pd_solves].
  - split; [discriminate|reflexivity].
  - reads. cbn in L. discriminate L.
  - intros t _. split; [cbn; tauto|]. repeat (apply Forall_cons || apply Forall_nil); cbn; repeat split; lra.
  - exact simpson_total.
  - assert (TE : map (fun t => 0 + 1 * t)%R (s_t (go_s (fun s => [s; 1; -2]%R) 3 go_nodes [2; -2]%R)) = go_nodes) by (unfold go_s, go_nodes; cbn; repeat (apply f_equal2; [lra|]); reflexivity).
    rewrite TE in RT. rewrite Rplus_0_l in F, E. exists r, a. split; [exact INV|]. split; [exact RT|]. split; [exact F|exact E].
Qed.
