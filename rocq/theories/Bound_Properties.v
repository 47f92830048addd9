(** C90: bounded controls and path constraints, from the user's problem to the
    trajectory that comes back. *)
From Coq Require Import Reals Ranalysis5 Lra Lia.
From Coquelicot Require Import Coquelicot.
From Verif Require Import Base Base_Facts Cont_Model Cont_Spec Cont_Proofs Cont_Warm Cont_Live Cont_Properties.
From Verif Require Import Map_More Sym_Expr Sym_Facts Sym_Model Sym_Constr Sym_Eps Sym_Lu Sym_Dual Sym_Traj Sym_Var Sym_DiffCtl Scale_Model Jac_Model Jac_Proofs Unit_Model Unit_Spec Unit_Proofs Unit_Scale Unit_Properties.
From Verif Require Import Dual_Properties Ctl_Properties Shift_Properties Spbvp_Model Spbvp_Properties Pipe_Model Pipe_Properties.
From Verif Require Import Whole_Proofs Whole_Steps Whole_Geo Whole_Properties Chain_Model Chain_Facts Map_Model Map_Proofs Map_Chain Chain_Back Chain_Proofs Chain_Simpson Chain_Properties.
From Verif Require Import Full_Model Full_Proofs Full_Properties Bound_Proofs.
Open Scope string_scope.
Open Scope list_scope.
Open Scope nat_scope.

(** The chain that [solve] builds: [p] is the problem of the user, [p0] the same
    with time as a state if asked for, [p1] the problem with the bounds turned
    into costs that Dualize gets, [p'] the boundary value problem.  A bound given
    to EpsTrig restricts one control, once; bounds and activators mention states,
    constants and time only. *)
Record bound_setup (lu : list (list expr) -> list expr -> res (list expr)) (solve : list expr -> list string -> list (list expr)) (fn : string -> nat -> R -> R)
    (sm : list R -> list R -> res R) (o : options) (p p0 : prob) (fs pre post : list tf) (p1 p' : prob) (ms : list (mapper R)) : Prop := mkBound {
  bs_make : make_indirect o p = Ok fs;
  bs_split : fs = pre ++ FDual (o_method o) :: post;
  bs_pre : run_tfs lu solve pre p = Ok p1;
  bs_chain : run_chain fn sm lu solve fs p = Ok (p', ms);
  bs_switches : p_switches p = [];
  bs_norm : o_norm o = true;
  bs_method : lower (o_method o) = "traditional" \/ lower (o_method o) = "diffyg";
  bs_control : control_known o p1 p';
  bs_fresh : p_costates p = [] /\ p_coparams p = [] /\ p_params p = [] /\ p_quads p = [];
  bs_names : NoDup (p_ind p1 :: all_names p');
  bs_shift : if o_shift o then momentum_shift None p = Ok p0 else p0 = p;
  bs_tame : tame p0;
  bs_lams : forall x, In x (syms (p_states p0)) -> ~ In (lam x) (p_controls p0);
  bs_bounds : o_shift o = true -> forall d e, trig p0 d -> c_lower d = Some e \/ c_upper d = Some e -> ~ In (p_ind p0) (vars e);
  bs_cost : incl (vars (p_cost_i p1) ++ vars (p_cost_t p1)) (syms (p_states p1) ++ p_consts p1) /\ incl (vars (p_cost_p p1)) (syms (p_states p1) ++ p_controls p1 ++ p_consts p1) }.

(** What the user asked of a curve: equations of motion, boundary conditions,
    bounds on controls; and no pole of a barrier is met. *)
Record respects (fn : string -> nat -> R -> R) (p : prob) (c : R -> string -> R) (t0 tf : R) : Prop := mkRespects {
  rs_moves : forall t, (t0 <= t <= tf)%R -> follows fn c t (p_states p) /\ c t (p_ind p) = t;
  rs_start : forall d, In d (p_ci p) -> two_sided d = false -> eval fn (c t0) (c_expr d) = 0%R;
  rs_end : forall d, In d (p_ct p) -> two_sided d = false -> eval fn (c tf) (c_expr d) = 0%R;
  rs_within : forall t d, (t0 <= t <= tf)%R -> trig p d -> within fn (c t) d;
  rs_clear : forall t d, (t0 <= t <= tf)%R -> In d (p_cp p) -> utm_sel d = true -> clear fn (c t) d }.
(** [p1] has the equations of [p] and its costs with the charges for the bounds
    added, [back] gives the user's controls. *)
Record regularised (fn : string -> nat -> R -> R) (p p1 : prob) (back : (string -> R) -> string -> R) : Prop := mkReg {
  rg_same : forall rho x, (forall d, trig p d -> c_expr d <> Var x) -> back rho x = rho x;
  rg_states : forall rho x e, In (x, e) (p_states p) -> exists e1, In (x, e1) (p_states p1) /\ eval fn rho e1 = eval fn (back rho) e;
  rg_cost_i : forall rho, eval fn rho (p_cost_i p1) = (eval fn (back rho) (p_cost_i p) + sums (fence fn (back rho)) (p_ci p))%R;
  rg_cost_p : forall rho, eval fn rho (p_cost_p p1) = (eval fn (back rho) (p_cost_p p) + sums (charge fn (back rho)) (p_cp p))%R;
  rg_cost_t : forall rho, eval fn rho (p_cost_t p1) = (eval fn (back rho) (p_cost_t p) + sums (fence fn (back rho)) (p_ct p))%R }.

(** The functors before Dualize. *)
Lemma bound_pre o p fs pre post : make_indirect o p = Ok fs -> fs = pre ++ FDual (o_method o) :: post -> p_switches p = [] ->
  exists st, constraint_tfs (all_constraints p) = Ok st /\ pre = (if o_shift o then [FMomentum] else []) ++ st.
Proof.
  intros MK EF NS. unfold make_indirect in MK. destruct (constraint_tfs (all_constraints p)) as [st|] eqn:EC; [|discriminate]. exists st. split; [reflexivity|]. cbn [bind] in MK. rewrite NS in MK. cbn [length Nat.ltb Nat.leb app] in MK.
  match type of MK with bind ?x _ = _ => destruct x as [ct|] eqn:ECT; [|discriminate] end. cbn [bind] in MK. injection MK as MK.
  assert (W : ((if o_shift o then [FMomentum] else []) ++ st) ++ FDual (o_method o) :: ct :: (if o_norm o then [FNorm] else []) ++ FSquash :: (if o_jac o && negb (String.eqb (o_control o) "algebraic") then [FJac] else []) = pre ++ FDual (o_method o) :: post)
    by (rewrite <- EF, <- MK, <- app_assoc; reflexivity).
  apply split_unique in W; [symmetry; apply W| |].
  - rewrite in_app_iff. intros [I|I]; [destruct (o_shift o); [destruct I as [I|[]]; discriminate I|exact I]|]. exact (constraint_no_dual _ _ _ EC I).
  - cbn [In]. rewrite in_app_iff. intros [I|[I|[I|I]]].
    + clear - ECT I. subst ct. destruct (String.eqb (lower (o_control o)) "algebraic"); [discriminate|]. destruct (String.eqb (lower (o_control o)) "differential"); discriminate.
    + destruct (o_norm o); [destruct I as [I|[]]; discriminate I|exact I].
    + discriminate I.
    + destruct (_ && _); [destruct I as [I|[]]; discriminate I|exact I].
Qed.
Lemma run_chain_fun fn sm lu solve fs p q m q' m' : run_chain fn sm lu solve fs p = Ok (q, m) -> run_chain fn sm lu solve fs p = Ok (q', m') -> q = q' /\ m = m'.
Proof. intros A B. rewrite A in B. now injection B. Qed.
Lemma sums_none f l : Forall (fun d => two_sided d = false) l -> sums f l = 0%R.
Proof. intros H. unfold sums. replace (filter two_sided l) with (@nil constr); [reflexivity|]. symmetry. induction H as [|d l E H IH]; [reflexivity|]. cbn. now rewrite E. Qed.

Section Setup.
  Variables (lu : list (list expr) -> list expr -> res (list expr)) (solve : list expr -> list string -> list (list expr)) (fn : string -> nat -> R -> R) (sm : list R -> list R -> res R).
  Variables (o : options) (p p0 p1 p' : prob) (fs pre post : list tf) (ms : list (mapper R)).
  Hypothesis LU : lu_ok lu.
  Hypothesis BS : bound_setup lu solve fn sm o p p0 fs pre post p1 p' ms.

  (** What the momentum shift keeps. *)
  Lemma bs_kept : p_consts p0 = p_consts p /\ p_controls p0 = p_controls p /\ p_ci p0 = p_ci p /\ p_cp p0 = p_cp p /\ p_ct p0 = p_ct p /\ p_cost_i p0 = p_cost_i p /\ p_cost_p p0 = p_cost_p p /\ p_cost_t p0 = p_cost_t p /\
    p_costates p0 = [] /\ p_coparams p0 = [] /\ p_params p0 = [] /\ p_quads p0 = [] /\
    (if o_shift o then p_states p0 = p_states p ++ [(p_ind p, Cst 1)] else p0 = p).
  Proof.
    assert (S := bs_shift _ _ _ _ _ _ _ _ _ _ _ _ _ BS). destruct (bs_fresh _ _ _ _ _ _ _ _ _ _ _ _ _ BS) as (A1 & A2 & A3 & A4). destruct (o_shift o).
    - destruct (momentum_ok None p p0 S) as (M1 & M2 & M3 & M4 & M5 & M6 & M7 & M8 & M9 & M10 & M11 & M12 & M13). assert (M14 := momentum_consts p p0 S). repeat split; congruence.
    - subst p0. repeat split; assumption.
  Qed.
  (** The stage that removes the bounds, and its inverse. *)
  Lemma bs_stage : exists back m0 m1, undoes fn p0 p1 back m1 /\ Forall (fun d => two_sided d = false) (p_ci p1 ++ p_cp p1 ++ p_ct p1) /\
    run_chain fn sm lu solve pre p = Ok (p1, m0 ++ m1) /\ m0 = (if o_shift o then [MMomentumShift (Some (length (p_states p)))] else []).
  Proof.
    destruct (bound_pre o p fs pre post (bs_make _ _ _ _ _ _ _ _ _ _ _ _ _ BS) (bs_split _ _ _ _ _ _ _ _ _ _ _ _ _ BS) (bs_switches _ _ _ _ _ _ _ _ _ _ _ _ _ BS)) as (st & EC & EP).
    destruct (run_chain_total fn sm lu solve pre p p1 (bs_pre _ _ _ _ _ _ _ _ _ _ _ _ _ BS)) as (mp & RC). assert (RC' := RC). rewrite EP in RC'. apply run_chain_app in RC' as (q0 & m0 & m1 & R0 & R1 & EM). 
    assert (Q0 : q0 = p0 /\ m0 = (if o_shift o then [MMomentumShift (Some (length (p_states p)))] else [])).
    { assert (S := bs_shift _ _ _ _ _ _ _ _ _ _ _ _ _ BS). destruct (o_shift o).
      - cbn [run_chain apply_tf] in R0. rewrite S in R0. cbn [bind fst snd] in R0. rewrite (momentum_maps p p0 S), skipn_len in R0. cbn in R0. injection R0 as <- <-. split; reflexivity.
      - cbn in R0. injection R0 as <- <-. split; [symmetry; exact S|reflexivity]. }
    destruct Q0 as [-> E0]. destruct (constraint_tfs_spec _ _ EC) as (IS & _).
    destruct (stage_undo lu solve fn sm st IS p0 p1 m1 R1) as (back & UN). exists back, m0, m1. split; [exact UN|]. split.
    - destruct bs_kept as (_ & _ & K1 & K2 & K3 & _). exact (proj1 (stage_ok lu solve p p0 p1 st EC K1 K2 K3 (run_chain_tfs _ _ _ _ _ _ _ _ R1))).
    - split; [rewrite RC, EM; reflexivity|exact E0].
  Qed.

  Lemma bs_p1 : run_tfs lu solve fs p = Ok p' /\ p_costates p1 = [] /\ p_coparams p1 = [] /\ p_params p1 = [] /\ p_quads p1 = [].
  Proof.
    split; [exact (run_chain_tfs _ _ _ _ _ _ _ _ (bs_chain _ _ _ _ _ _ _ _ _ _ _ _ _ BS))|]. destruct bs_stage as (back & m0 & m1 & UN & _). destruct (un_frame _ _ _ _ _ UN) as (_ & _ & _ & F4 & F5 & F6 & F7).
    destruct bs_kept as (_ & _ & _ & _ & _ & _ & _ & _ & K1 & K2 & K3 & K4 & _). split; [exact (F5 K1)|]. split; [exact (F6 K2)|]. split; [congruence|exact (F7 K4)].
  Qed.
  (** The curve is a stationary point of the problem that Dualize gets. *)
  Lemma bs_stationary h Y Q D s t0 c : supported solve fn o p1 -> p_ham p' = Some h -> sampled fn p' Y Q D s -> reads_off fn p' (p_ind p1) Y [D] (s_nu s) (s_k s) t0 D c ->
    (forall t, (t0 <= t <= t0 + D)%R -> defined_at lu fn o p1 p' h (c t)) ->
    feasible fn p1 c t0 (t0 + D)%R /\ extremal fn p1 c t0 (t0 + D)%R.
  Proof.
    intros SU HH SP RO WD. destruct bs_p1 as (RN & E1 & E2 & E3 & E4).
    assert (B1 := bs_make _ _ _ _ _ _ _ _ _ _ _ _ _ BS). assert (B2 := bs_split _ _ _ _ _ _ _ _ _ _ _ _ _ BS). assert (B3 := bs_pre _ _ _ _ _ _ _ _ _ _ _ _ _ BS). assert (B4 := bs_norm _ _ _ _ _ _ _ _ _ _ _ _ _ BS). assert (B5 := bs_names _ _ _ _ _ _ _ _ _ _ _ _ _ BS).
    assert (G : exists ST : Prop, feasible fn p1 c t0 (t0 + D)%R /\ extremal fn p1 c t0 (t0 + D)%R /\ ST); [|now destruct G as (ST & F & E & _)].
    destruct SU as [(OC & SO)|(OC & Sm & [M|(M & OS & CN)])]; eexists.
    - refine (C85_algebraic lu LU solve SO fn o p fs pre post p1 p' h Y Q D (s_nu s) (s_k s) t0 c B1 B2 B3 RN HH OC B4 (bs_method _ _ _ _ _ _ _ _ _ _ _ _ _ BS) E1 E2 E3 E4 B5 _ (sp_solves _ _ _ _ _ _ SP) (sp_pos _ _ _ _ _ _ SP) RO _).
      + intros cand e x I J V. destruct (bs_control _ _ _ _ _ _ _ _ _ _ _ _ _ BS) as [(_ & _ & LV & _)|(OD & _)]; [|rewrite OC in OD; discriminate OD]. specialize (LV cand e x I J V). rewrite !in_app_iff in *. tauto.
      + intros t T. destruct (WD t T) as (W1 & W2 & W3 & _). split; [exact W1|]. split; [exact (W3 OC)|exact W2].
    - refine (C85_differential lu LU fn Sm solve o p fs pre post p1 p' h Y Q D (s_nu s) (s_k s) t0 c B1 B2 B3 RN HH OC B4 M E1 E2 E3 E4 B5 (sp_solves _ _ _ _ _ _ SP) (sp_pos _ _ _ _ _ _ SP) RO _).
      intros t T. destruct (WD t T) as (W1 & W2 & _ & W3). split; [exact W1|]. exact (proj1 (W3 OC)).
    - assert (ET : exists xs, p_states p1 = xs ++ [(p_ind p, Cst 1)]).
      { destruct bs_stage as (back & m0 & m1 & UN & _). destruct bs_kept as (_ & _ & _ & _ & _ & _ & _ & _ & _ & _ & _ & _ & K). rewrite OS in K. exact (un_last _ _ _ _ _ UN _ _ K). }
      destruct ET as (xs & ET).
      refine (C85_geometric lu LU fn Sm solve o p fs pre post p1 p' h Y Q D (s_nu s) (s_k s) t0 c xs (p_ind p) B1 B2 B3 RN HH OC B4 M ET E1 E2 E3 E4 B5 CN (sp_solves _ _ _ _ _ _ SP) (sp_pos _ _ _ _ _ _ SP) RO _).
      intros t T. destruct (WD t T) as (W1 & W2 & _ & W3). destruct (W3 OC) as [W4 W5]. split; [exact W1|]. split; [exact W4|]. split; [exact W2|exact W5].
  Qed.
  Lemma bs_ham h : p_ham p' = Some h -> h = dual_ham p1.
  Proof.
    intros HH. destruct bs_p1 as (RN & E1 & E2 & E3 & E4).
    destruct (chain_tail fn sm lu solve o p fs pre post p1 p' ms (bs_make _ _ _ _ _ _ _ _ _ _ _ _ _ BS) (bs_split _ _ _ _ _ _ _ _ _ _ _ _ _ BS) (bs_pre _ _ _ _ _ _ _ _ _ _ _ _ _ BS) (bs_chain _ _ _ _ _ _ _ _ _ _ _ _ _ BS) (bs_norm _ _ _ _ _ _ _ _ _ _ _ _ _ BS) (bs_method _ _ _ _ _ _ _ _ _ _ _ _ _ BS))
      as (pD & p2 & p3 & m1 & na & b & lo & hi & HD & HC & HN & HS & _).
    destruct (norm_squash p2 p3 p' HN HS) as (S1 & S2 & S3 & S4 & S5 & S6 & S7 & S8 & S9 & S10). destruct (control_rest lu solve o pD p2 HC) as (K1 & K2 & K3 & K4 & K5 & K6 & K7).
    assert (DO := dual_of_exists lu LU _ p1 pD HD (bs_method _ _ _ _ _ _ _ _ _ _ _ _ _ BS) E1 E2). rewrite S8, K6, (d_ham _ _ _ DO) in HH. now injection HH.
  Qed.
  Lemma sum_wd rho e l : wd fn rho (Sum e l) -> wd fn rho e.
  Proof. revert e. unfold Sum. induction l as [|a l IH]; cbn [fold_left]; intros e H; [exact H|]. exact (proj1 (IH _ H)). Qed.

  (** The clock of the user's problem. *)
  Lemma clock_runs (c : R -> string -> R) x t0 tf : (forall t, (t0 <= t <= tf)%R -> is_derive (fun s => c s x) t 1%R) -> c t0 x = t0 -> forall t, (t0 <= t <= tf)%R -> c t x = t.
  Proof.
    intros H C0 t T. destruct (Req_dec t t0) as [ ->|NE]; [exact C0|]. assert (Z : (c t0 x - t0)%R = (c t x - t)%R); [|lra].
    apply (eq_is_derive (V := R_NormedModule) (fun s => (c s x - s)%R) t0 t); [|lra]. intros s Hs. assert (K := H s ltac:(lra)).
    assert (K2 : is_derive (fun s => (c s x - s)%R) s (1 - 1)%R) by exact (is_derive_minus (fun s => c s x) (fun s => s) s 1%R 1%R K (is_derive_id s)). replace (1 - 1)%R with 0%R in K2 by ring. exact K2.
  Qed.
  Lemma bs_respects back m1 t0 tf c : undoes fn p0 p1 back m1 -> clock o p c t0 -> (t0 <= tf)%R -> feasible fn p1 c t0 tf -> (forall t, (t0 <= t <= tf)%R -> wd fn (c t) (p_cost_p p1)) ->
    Forall (fun d => two_sided d = false) (p_ci p1 ++ p_cp p1 ++ p_ct p1) -> respects fn p (fun t => back (c t)) t0 tf.
  Proof.
    intros UN [C1 C2] T (F1 & F2 & F3) W N. assert (TM := bs_tame _ _ _ _ _ _ _ _ _ _ _ _ _ BS). destruct bs_kept as (K1 & K2 & K3 & K4 & K5 & K6 & K7 & K8 & K9 & K10 & K11 & K12 & K13).
    assert (OUT : forall rho x, In x (known p0) -> back rho x = rho x) by (intros rho x I; apply (un_out _ _ _ _ _ UN TM); intros d D; exact (tame_known p0 d x TM D I)).
    apply Forall_app in N as [N1 N2]. apply Forall_app in N2 as [N2 N3]. rewrite Forall_forall in N1, N2, N3.
    assert (FO : forall t, (t0 <= t <= tf)%R -> follows fn (fun t => back (c t)) t (p_states p0)).
    { intros t Ht x e I. destruct (F1 t Ht) as [FF _]. assert (FS := un_states _ _ _ _ _ UN (c t)). assert (EX : exists e1, In (x, e1) (p_states p1) /\ eval fn (c t) e1 = eval fn (back (c t)) e).
      { clear - FS I. induction FS as [|s s' l l' [A B] FS IH]; [contradiction|]. destruct I as [I|I]; [subst s; exists (snd s'); split; [left; destruct s'; cbn in *; congruence|exact B]|]. destruct (IH I) as (e1 & J & E). exists e1. split; [now right|exact E]. }
      destruct EX as (e1 & J & E). rewrite <- E. apply (is_derive_ext (fun s => c s x)); [|exact (FF x e1 J)]. intros s. symmetry. apply OUT. unfold known. right. apply in_or_app. left. unfold syms. apply (in_map fst) in I. exact I. }
    assert (TR : forall d, trig p d -> trig p0 d) by (intros d; unfold trig; now rewrite K4).
    constructor.
    - intros t Ht. destruct (o_shift o) eqn:OS.
      + split; [intros x e I; apply (FO t Ht); rewrite K13; apply in_or_app; now left|]. assert (IK : In (p_ind p) (known p0)) by (unfold known; right; apply in_or_app; left; rewrite K13; unfold syms; rewrite map_app; apply in_or_app; right; now left).
        apply (clock_runs (fun t => back (c t)) (p_ind p) t0 tf); [|rewrite OUT by exact IK; now apply C1|exact Ht]. intros s Hs. apply (FO s Hs (p_ind p) (Cst 1)). rewrite K13. apply in_or_app. right. now left.
      + subst p0. split; [exact (FO t Ht)|]. rewrite OUT by (unfold known; now left). destruct (un_frame _ _ _ _ _ UN) as (EI & _). rewrite <- EI. exact (proj2 (F1 t Ht)).
    - intros d I T0. rewrite <- K3 in I. destruct (un_ci _ _ _ _ _ UN d I T0) as (d' & I' & _ & E). rewrite <- E. now apply F2.
    - intros d I T0. rewrite <- K5 in I. destruct (un_ct _ _ _ _ _ UN d I T0) as (d' & I' & _ & E). rewrite <- E. now apply F3.
    - intros t d Ht D. destruct (un_trig _ _ _ _ _ UN TM d (TR d D)) as [A|(d' & D' & _)]; [apply A|]. exfalso. destruct D' as (I' & T' & _). rewrite (N2 d' I') in T'. discriminate.
    - intros t d Ht I US. rewrite <- K4 in I. destruct (un_utm _ _ _ _ _ UN d I US) as [A|(d' & I' & U' & _)]; [now apply A, W|]. exfalso. apply andb_prop in U' as [_ U']. rewrite (N2 d' I') in U'. discriminate.
  Qed.
  Lemma bs_regularised back m1 : undoes fn p0 p1 back m1 -> Forall (fun d => two_sided d = false) (p_ci p1 ++ p_cp p1 ++ p_ct p1) -> regularised fn p p1 back.
  Proof.
    intros UN N. assert (TM := bs_tame _ _ _ _ _ _ _ _ _ _ _ _ _ BS). destruct bs_kept as (K1 & K2 & K3 & K4 & K5 & K6 & K7 & K8 & K9 & K10 & K11 & K12 & K13).
    apply Forall_app in N as [N1 N2]. apply Forall_app in N2 as [N2 N3]. constructor.
    - intros rho x H. apply (un_out _ _ _ _ _ UN TM). intros d. unfold trig. rewrite K4. apply H.
    - intros rho x e I. assert (I0 : In (x, e) (p_states p0)) by (destruct (o_shift o); [rewrite K13; apply in_or_app; now left|now subst p0]). assert (FS := un_states _ _ _ _ _ UN rho). clear - FS I0.
      induction FS as [|s s' l l' [A B] FS IH]; [contradiction|]. destruct I0 as [I|I]; [subst s; exists (snd s'); split; [left; destruct s'; cbn in *; congruence|exact B]|]. destruct (IH I) as (e1 & J & E). exists e1. split; [now right|exact E].
    - intros rho. assert (E := un_cost_i _ _ _ _ _ UN TM rho). rewrite (sums_none _ _ N1), K6, K3 in E. lra.
    - intros rho. assert (E := un_cost_p _ _ _ _ _ UN TM rho). rewrite (sums_none _ _ N2), K7, K4 in E. lra.
    - intros rho. assert (E := un_cost_t _ _ _ _ _ UN TM rho). rewrite (sums_none _ _ N3), K8, K5 in E. lra.
  Qed.

  Lemma bs_samples back m0 m1 Y Q D s t0 c v : undoes fn p0 p1 back m1 -> run_chain fn sm lu solve pre p = Ok (p1, m0 ++ m1) -> m0 = (if o_shift o then [MMomentumShift (Some (length (p_states p)))] else []) ->
    (lower (o_control o) = "algebraic" -> solve_sound solve) -> sampled fn p' Y Q D s -> clock o p c t0 -> reads_off fn p' (p_ind p1) Y [D] (s_nu s) (s_k s) t0 D c ->
    (forall t, (t0 <= t <= t0 + D)%R -> c t (p_ind p) = t) ->
    sm (map (fun t => eval fn (c (t0 + D * t)%R) (p_cost_p p1)) (s_t s)) (map (fun t => t * D)%R (s_t s)) = Ok v ->
    exists r a, inv_map_sol ROps ms s = Ok (ms, r, a) /\ returned p (fun t => back (c t)) (map (fun t => t0 + D * t)%R (s_t s)) (s_k s) r /\
      s_cost r = (eval fn (c (t0 + D * hd 0 (s_t s))) (p_cost_i p1) + eval fn (c (t0 + D * last (s_t s) 0)) (p_cost_t p1) + v)%R.
  Proof.
    intros UN RP0 EM0 SO SP CL RO CT SM. destruct bs_p1 as (RN & E1 & E2 & E3 & E4). assert (TM := bs_tame _ _ _ _ _ _ _ _ _ _ _ _ _ BS). destruct bs_kept as (K1 & K2 & K3 & K4 & K5 & K6 & K7 & K8 & K9 & K10 & K11 & K12 & K13).
    destruct (bs_cost _ _ _ _ _ _ _ _ _ _ _ _ _ BS) as [V1 V2].
    assert (B1 := bs_make _ _ _ _ _ _ _ _ _ _ _ _ _ BS). assert (B2 := bs_split _ _ _ _ _ _ _ _ _ _ _ _ _ BS). assert (B3 := bs_pre _ _ _ _ _ _ _ _ _ _ _ _ _ BS). assert (B4 := bs_norm _ _ _ _ _ _ _ _ _ _ _ _ _ BS). assert (B5 := bs_names _ _ _ _ _ _ _ _ _ _ _ _ _ BS). assert (B6 := bs_chain _ _ _ _ _ _ _ _ _ _ _ _ _ BS). assert (B7 := bs_method _ _ _ _ _ _ _ _ _ _ _ _ _ BS).
    destruct (p1_samples lu LU solve fn sm o p fs pre post p1 p' ms Y Q D (s_nu s) (s_k s) t0 c (s_t s) v s SO B1 B2 B3 B6 B4 B7 (bs_control _ _ _ _ _ _ _ _ _ _ _ _ _ BS) E1 E2 E3 E4 B5 V1 V2
      (proj1 (solves_near _ _ _ _ _ _ _ _ _) (sp_solves _ _ _ _ _ _ SP)) (sp_pos _ _ _ _ _ _ SP) RO eq_refl (sp_some _ _ _ _ _ _ SP) (sp_nodes _ _ _ _ _ _ SP) (sp_states _ _ _ _ _ _ SP) (sp_params _ _ _ _ _ _ SP) eq_refl (sp_quads _ _ _ _ _ _ SP) SM)
      as (ma & m2 & s3 & RP & EM & PS & SH & DT & N3 & C3).
    destruct (run_chain_fun _ _ _ _ _ _ _ _ _ _ RP0 RP) as [_ <-]. clear RP.
    assert (KC : forall t, map (c t) (p_consts p0) = s_k s).
    { destruct (chain_tail fn sm lu solve o p fs pre post p1 p' ms B1 B2 B3 B6 B4 B7) as (pD & p2 & p3 & mb & na & b & lo & hi & HD & HC & HN & HS & CC & _).
      destruct (norm_squash p2 p3 p' HN HS) as (S1 & S2 & S3 & S4 & S5 & S6 & S7 & S8 & S9 & S10). destruct (control_rest lu solve o pD p2 HC) as (J1 & J2 & J3 & J4 & J5 & J6 & J7).
      assert (DO := dual_of_exists lu LU _ p1 pD HD B7 E1 E2). assert (CP : p_coparams pD = []) by (apply syms_nil; rewrite (d_colams _ _ _ DO), E3; reflexivity).
      assert (QQ : p_quads p' = []) by (rewrite S4, J2, J3, (d_quads _ _ _ DO), E4, CP; reflexivity).
      intros t. destruct (un_frame _ _ _ _ _ UN) as (_ & _ & F3 & _). rewrite <- F3, <- CC, S5. assert (EI : p_ind p2 = p_ind p1) by (rewrite J7; apply (d_ind _ _ _ DO)). assert (RO2 := RO). rewrite <- EI in RO2. apply (node_consts fn p2 p' QQ S5 Y Q (s_nu s) (s_k s) t0 D c (proj1 (solves_near _ _ _ _ _ _ _ _ _) (sp_solves _ _ _ _ _ _ SP)) RO2). }
    destruct (un_frame _ _ _ _ _ UN) as (F1 & F2 & F3 & F4 & _).
    set (cs := fun t => c (t0 + D * t)%R) in *. set (ts := s_t s) in *. set (times := map (fun t => t0 + D * t)%R ts).
    destruct SH as (G1 & G2 & G3 & G4 & G5 & G6 & G7). rewrite F2 in G2, G3.
    assert (UM := un_map _ _ _ _ _ UN TM cs (fun t => t * D)%R ts s3 (sp_some _ _ _ _ _ _ SP) G1 G2 G4 G6 K11 (fun t _ => eq_trans (KC _) (eq_sym G7))).
    assert (UM' : passes (apply_inv ROps) (rev m1) s3 (set_u (grid (fun t => back (cs t)) (p_controls p0) ts) s3)).
    { apply UM. intros d e TD LU0 IV t It. destruct (o_shift o) eqn:OS; [exfalso; exact (bs_bounds _ _ _ _ _ _ _ _ _ _ _ _ _ BS OS d e TD LU0 IV)|]. unfold cs. rewrite <- F1, (ro_time _ _ _ _ _ _ _ _ _ _ RO). rewrite (proj2 CL OS). ring. }
    clear UM. set (s4 := set_u (grid (fun t => back (cs t)) (p_controls p0) ts) s3) in *.
    assert (GA : forall (g : R -> string -> R) names, grid (fun t => g (t0 + D * t)%R) names ts = grid g names times) by (intros g names; exact (grid_at g (fun t => t0 + D * t)%R names ts)).
    assert (OUT : forall rho x, In x (known p0) -> back rho x = rho x) by (intros rho x I; apply (un_out _ _ _ _ _ UN TM); intros d Dd; exact (tame_known p0 d x TM Dd I)).
    assert (SX : forall x, In x (syms (p_states p)) -> In x (syms (p_states p0))) by (intros x I; destruct (o_shift o); [rewrite K13; unfold syms; rewrite map_app; apply in_or_app; now left|now subst p0]).
    assert (GX : grid cs (syms (p_states p)) ts = grid (fun t => back (c t)) (syms (p_states p)) times).
    { rewrite <- (GA (fun t => back (c t))). apply grid_ext. intros t x I. symmetry. apply OUT. unfold known. right. apply in_or_app. left. now apply SX. }
    assert (GL : grid cs (map lam (syms (p_states p))) ts = grid (fun t => back (c t)) (map lam (syms (p_states p))) times).
    { rewrite <- (GA (fun t => back (c t))). apply grid_ext. intros t x I. symmetry. apply in_map_iff in I as (y & <- & I). apply (un_out _ _ _ _ _ UN TM). intros d Dd E. destruct (tm_bounded p0 TM d Dd) as (w & EW & IW & _). assert (w = lam y) by congruence. subst w. exact (bs_lams _ _ _ _ _ _ _ _ _ _ _ _ _ BS y (SX y I) IW). }
    assert (GU : grid (fun t => back (cs t)) (p_controls p0) ts = grid (fun t => back (c t)) (p_controls p) times) by (rewrite K2; apply (GA (fun t => back (c t)))).
    assert (LS : length (syms (p_states p)) = length (p_states p)) by (unfold syms; apply map_length).
    assert (FIN : exists r, passes (apply_inv ROps) (rev ms) s r /\ s_t r = times /\ s_y r = grid (fun t => back (c t)) (syms (p_states p)) times /\ s_dual r = grid (fun t => back (c t)) (map lam (syms (p_states p))) times /\
      s_u r = grid (fun t => back (c t)) (p_controls p) times /\ s_p r = [] /\ s_nu r = [] /\ s_k r = s_k s /\ s_cost r = s_cost s3).
    { assert (S4 : s_t s4 = s_t s3 /\ s_y s4 = s_y s3 /\ s_dual s4 = s_dual s3 /\ s_u s4 = grid (fun t => back (cs t)) (p_controls p0) ts /\ s_p s4 = s_p s3 /\ s_nu s4 = s_nu s3 /\ s_k s4 = s_k s3 /\ s_cost s4 = s_cost s3) by (unfold s4; clear; repeat split; reflexivity).
      destruct S4 as (Q1 & Q2 & Q3 & Q4 & Q5 & Q6 & Q7 & Q8). clearbody s4. rewrite GU in Q4. rewrite EM, rev_app_distr, rev_app_distr. destruct (o_shift o) eqn:OS.
      - assert (EX : syms (p_states p0) = syms (p_states p) ++ [p_ind p]) by (rewrite K13; unfold syms; rewrite map_app; reflexivity). rewrite EX in G2, G3. rewrite map_app in G3. cbn [map] in G3. rewrite <- Q2 in G2. rewrite <- Q3 in G3.
        assert (MB := ms_back cs (syms (p_states p)) (p_ind p) (map lam (syms (p_states p))) (lam (p_ind p)) ts s4 G2 G3 (map_length _ _)). rewrite LS in MB.
        set (r := set_dual (grid cs (map lam (syms (p_states p))) ts) (set_dual_t (map (fun t => cs t (lam (p_ind p))) ts) (set_y (grid cs (syms (p_states p)) ts) (set_t (map (fun t => cs t (p_ind p)) ts) s4)))) in *. exists r. split.
        + eapply passes_app; [exact PS|]. eapply passes_app; [exact UM'|]. rewrite EM0. cbn [rev app]. eapply passes_cons; [|apply passes_nil]. cbn [apply_inv]. rewrite MB. reflexivity.
        + assert (RF : s_t r = map (fun t => cs t (p_ind p)) ts /\ s_y r = grid cs (syms (p_states p)) ts /\ s_dual r = grid cs (map lam (syms (p_states p))) ts /\ s_u r = s_u s4 /\ s_p r = s_p s4 /\ s_nu r = s_nu s4 /\ s_k r = s_k s4 /\ s_cost r = s_cost s4) by (unfold r; clear; repeat split; reflexivity).
          destruct RF as (H1 & H2 & H3 & H4 & H6 & H7 & H8 & H10). rewrite H1, H2, H3, H4, H6, H7, H8, H10, GX, GL, Q4, Q5, Q6, Q7, Q8. split; [|repeat split; assumption].
          unfold times. apply map_ext_in. intros t I. unfold cs. apply CT. assert (T01 := sp_nodes _ _ _ _ _ _ SP t I). assert (D0 := sp_pos _ _ _ _ _ _ SP). clear - T01 D0. split; nra.
      - exists s4. split; [eapply passes_app; [exact PS|]; rewrite EM0; cbn [rev]; rewrite app_nil_r; exact UM'|].
        subst p0. rewrite Q1, Q2, Q3, Q4, Q5, Q6, Q7, Q8, G1, G2, G3, GX, GL. split; [|repeat split; assumption]. unfold times. apply map_ext. intros t. rewrite (proj2 CL OS). ring. }
    destruct FIN as (r & PR & R1 & R2 & R3 & R4 & R5 & R6 & R7 & R8). destruct (passes_inv ROps ms s r PR) as (a & INV). exists r, a. split; [exact INV|]. split; [|rewrite R8; exact C3].
    constructor; [exact R1| | | |exact R7|split; [exact R5|exact R6]].
    - rewrite R2. unfold grid. now rewrite LS.
    - rewrite R4. reflexivity.
    - rewrite R3. unfold grid. rewrite map_length, LS. f_equal. apply map_ext. intros t. now rewrite map_map.
  Qed.

  (** The time the user sees. *)
  Lemma bs_time back m1 t0 tf c : undoes fn p0 p1 back m1 -> respects fn p (fun t => back (c t)) t0 tf -> forall t, (t0 <= t <= tf)%R -> c t (p_ind p) = t.
  Proof.
    intros UN RS t Ht. assert (TM := bs_tame _ _ _ _ _ _ _ _ _ _ _ _ _ BS). destruct bs_kept as (_ & _ & _ & _ & _ & _ & _ & _ & _ & _ & _ & _ & K13). rewrite <- (proj2 (rs_moves _ _ _ _ _ RS t Ht)) at 2. symmetry. apply (un_out _ _ _ _ _ UN TM). intros d Dd. apply (tame_known p0 d _ TM Dd).
    unfold known. destruct (o_shift o); [|left; now subst p0]. right. apply in_or_app. left. rewrite K13. unfold syms. rewrite map_app. apply in_or_app. right. now left.
  Qed.

  (** Every solution stands for a curve. *)
  Lemma bs_time_state : o_shift o = true -> exists i, nth_error (syms (p_states p')) i = Some (p_ind p).
  Proof.
    intros OS. destruct bs_p1 as (RN & E1 & E2 & E3 & E4). destruct bs_kept as (_ & _ & _ & _ & _ & _ & _ & _ & _ & _ & _ & _ & K13). rewrite OS in K13. assert (M := bs_method _ _ _ _ _ _ _ _ _ _ _ _ _ BS).
    destruct (chain_tail fn sm lu solve o p fs pre post p1 p' ms (bs_make _ _ _ _ _ _ _ _ _ _ _ _ _ BS) (bs_split _ _ _ _ _ _ _ _ _ _ _ _ _ BS) (bs_pre _ _ _ _ _ _ _ _ _ _ _ _ _ BS) (bs_chain _ _ _ _ _ _ _ _ _ _ _ _ _ BS) (bs_norm _ _ _ _ _ _ _ _ _ _ _ _ _ BS) M)
      as (pD & p2 & p3 & m1 & na & b & lo & hi & HD & HC & HN & HS & _).
    destruct (norm_squash p2 p3 p' HN HS) as (S1 & _). assert (DO := dual_of_exists lu LU _ p1 pD HD M E1 E2). assert (SD := d_states _ _ _ DO).
    apply In_nth_error. rewrite S1, syms_slow. unfold syms. rewrite map_app. apply in_or_app. left. fold (syms (p_states p2)).
    assert (IX1 : In (p_ind p) (syms (p_states p1))).
    { destruct bs_stage as (back & m0 & m1' & UN & _). destruct (un_frame _ _ _ _ _ UN) as (_ & F2 & _). rewrite F2, K13. unfold syms. rewrite map_app. apply in_or_app. right. now left. }
    assert (IX : In (p_ind p) (syms (p_states pD))) by (rewrite SD; exact IX1).
    unfold control_tf in HC. destruct (String.eqb (lower (o_control o)) "algebraic") eqn:OC; cbn [apply_tf] in HC.
    - unfold algebraic_control in HC. rewrite (d_dual _ _ _ DO), (d_ham _ _ _ DO) in HC. apply Ok_inj in HC. subst p2. clear - IX. destruct pD; exact IX.
    - destruct M as [M|M].
      + destruct (diffctl_traditional lu _ pD p2 HC M) as (h' & udot & H1 & H2 & H3 & _). rewrite H3. unfold syms. rewrite map_app. apply in_or_app. now left.
      + destruct (diffctl_diffyg lu _ pD p2 HC M) as (h' & udot & chi & H1 & H2 & H3 & _).
        destruct (udot_values lu LU h' (p_controls pD) (p_states pD ++ p_costates pD) udot H2) as [LUD _]. specialize (H3 LUD). cbv zeta in H3. destruct H3 as (HF & H3 & H4).
        assert (LX : length (syms (p_states pD)) = length (p_states pD)) by (unfold syms; apply map_length).
        assert (LL : length (syms (p_costates pD)) = length (p_states pD)) by (rewrite (d_lams _ _ _ DO), SD; unfold syms; now rewrite !map_length).
        assert (LC : length chi = 2 * (length (p_states pD) + length (p_controls pD))).
        { assert (P0 : 0 < length (p_states pD)) by (rewrite <- LX; destruct (syms (p_states pD)); [contradiction|cbn; lia]).
          assert (LQ : length (syms (p_states pD) ++ p_controls pD) = length (p_states pD) + length (p_controls pD)) by (rewrite app_length, LX; reflexivity).
          rewrite <- LQ in HF. destruct (ham_field_extended lu LU h' (syms (p_states pD) ++ p_controls pD) (syms (p_costates pD) ++ map lam (p_controls pD)) (length (p_controls pD)) (length (p_states pD) - 1) udot chi) as [L _].
          - rewrite !app_length, !map_length. lia.
          - lia.
          - exact LUD.
          - exact HF.
          - rewrite L. lia. }
        rewrite H3, syms_combine; [apply in_or_app; now left|]. rewrite firstn_length, app_length. lia.
  Qed.
  Lemma bs_curve Y D nu k : exists t0 c, clock o p c t0 /\ reads_off fn p' (p_ind p1) Y [D] nu k t0 D c.
  Proof.
    assert (ND := bs_names _ _ _ _ _ _ _ _ _ _ _ _ _ BS). destruct (o_shift o) eqn:OS.
    - destruct (bs_time_state OS) as (i & IT). exists (nth i (Y 0%R) 0%R). destruct (reads_off_exists fn p' (p_ind p1) Y [D] nu k (nth i (Y 0%R) 0%R) D ND) as (c & RO). exists c. split; [|exact RO].
      split; [|congruence]. intros _. rewrite (ro_states _ _ _ _ _ _ _ _ _ _ RO _ i _ IT). replace ((nth i (Y 0%R) 0 - nth i (Y 0%R) 0) / D)%R with 0%R; [reflexivity|]. unfold Rdiv. rewrite Rminus_diag_eq by reflexivity. ring.
    - destruct (reads_off_exists fn p' (p_ind p1) Y [D] nu k 0%R D ND) as (c & RO). exists 0%R, c. split; [|exact RO]. split; [congruence|reflexivity].
  Qed.
End Setup.

(** The returned trajectory consists of samples of a curve that obeys equations
    of motion, boundary conditions and bounds on controls; the solution behind it
    makes the regularised cost stationary, and that is the cost it reports. *)
Theorem C90_mapped : forall lu, lu_ok lu -> forall solve fn sm o p p0 fs pre post p1 p' ms h Y Q D s t0 c,
  bound_setup lu solve fn sm o p p0 fs pre post p1 p' ms -> supported solve fn o p1 -> p_ham p' = Some h ->
  sampled fn p' Y Q D s -> clock o p c t0 -> reads_off fn p' (p_ind p1) Y [D] (s_nu s) (s_k s) t0 D c ->
  (forall t, (t0 <= t <= t0 + D)%R -> defined_at lu fn o p1 p' h (c t)) ->
  (forall ys ts, length ys = length ts -> ts <> [] -> exists v, sm ys ts = Ok v) ->
  exists back r a, inv_map_sol ROps ms s = Ok (ms, r, a) /\ returned p (fun t => back (c t)) (map (fun t => t0 + D * t)%R (s_t s)) (s_k s) r /\
    respects fn p (fun t => back (c t)) t0 (t0 + D)%R /\ regularised fn p p1 back /\ feasible fn p1 c t0 (t0 + D)%R /\ extremal fn p1 c t0 (t0 + D)%R /\
    let at_node x := back (c (t0 + D * x)%R) in
    exists v, sm (map (fun x => eval fn (at_node x) (p_cost_p p) + sums (charge fn (at_node x)) (p_cp p))%R (s_t s)) (map (fun x => x * D)%R (s_t s)) = Ok v /\
      s_cost r = ((eval fn (at_node (hd 0%R (s_t s))) (p_cost_i p) + sums (fence fn (at_node (hd 0%R (s_t s)))) (p_ci p)) +
                  (eval fn (at_node (last (s_t s) 0%R)) (p_cost_t p) + sums (fence fn (at_node (last (s_t s) 0%R))) (p_ct p)) + v)%R.
Proof.
  intros lu LU solve fn sm o p p0 fs pre post p1 p' ms h Y Q D s t0 c BS SU HH SP CL RO WD SMT.
  destruct (bs_stationary lu solve fn sm o p p0 p1 p' fs pre post ms LU BS h Y Q D s t0 c SU HH SP RO WD) as [F E].
  destruct (bs_stage lu solve fn sm o p p0 p1 p' fs pre post ms BS) as (back & m0 & m1 & UN & N & RP & EM0). assert (D0 := sp_pos _ _ _ _ _ _ SP). assert (TT : (t0 <= t0 + D)%R) by lra.
  assert (RS : respects fn p (fun t => back (c t)) t0 (t0 + D)%R).
  { apply (bs_respects lu solve fn sm o p p0 p1 p' fs pre post ms BS back m1); auto. intros t Ht. destruct (WD t Ht) as (W & _). rewrite (bs_ham lu solve fn sm o p p0 p1 p' fs pre post ms LU BS h HH) in W. exact (sum_wd fn _ _ _ W). }
  destruct (SMT (map (fun t => eval fn (c (t0 + D * t)%R) (p_cost_p p1)) (s_t s)) (map (fun t => t * D)%R (s_t s))) as (v & SM); [now rewrite !map_length|intros Z; apply map_eq_nil in Z; exact (sp_some _ _ _ _ _ _ SP Z)|].
  destruct (bs_samples lu solve fn sm o p p0 p1 p' fs pre post ms LU BS back m0 m1 Y Q D s t0 c v UN RP EM0) as (r & a & INV & RT & CO); auto.
  - intros OC. destruct SU as [(_ & SO)|(OD & _)]; [exact SO|rewrite OC in OD; discriminate OD].
  - exact (bs_time lu solve fn sm o p p0 p1 p' fs pre post ms BS back m1 t0 (t0 + D)%R c UN RS).
  - exists back, r, a. split; [exact INV|]. split; [exact RT|]. split; [exact RS|]. assert (RG := bs_regularised lu solve fn sm o p p0 p1 p' fs pre post ms BS back m1 UN N). split; [exact RG|]. split; [exact F|]. split; [exact E|].
    cbv zeta. exists v. split; [|rewrite CO, (rg_cost_i _ _ _ _ RG), (rg_cost_t _ _ _ _ RG); reflexivity].
    rewrite <- SM. f_equal. apply map_ext. intros x. symmetry. apply (rg_cost_p _ _ _ _ RG).
Qed.
Print Assumptions C90_mapped.

(** ** Inside the barrier *)
Lemma no_zero f a b : (forall t, (a <= t <= b)%R -> continuity_pt f t /\ f t <> 0%R) -> forall t1 t, (a <= t1 <= b)%R -> (a <= t <= b)%R -> (0 < f t1)%R -> (0 < f t)%R.
Proof.
  intros H t1 t H1 Ht P. destruct (Rlt_or_le 0 (f t)) as [|N]; [assumption|exfalso]. assert (N' : (f t < 0)%R) by (destruct (H t Ht) as [_ Z]; lra).
  destruct (Rlt_or_le t t1) as [L|L].
  - destruct (IVT_interv f t t1) as (z & Hz & E); try assumption; [intros s Hs; apply H; lra|]. apply (proj2 (H z ltac:(lra))). exact E.
  - destruct (Req_dec t t1) as [E|NE]; [subst; lra|].
    destruct (IVT_interv (fun s => - f s)%R t1 t) as (z & Hz & E); try lra; [intros s Hs; apply continuity_pt_opp; apply H; lra|]. apply (proj2 (H z ltac:(lra))). lra.
Qed.

(** A path constraint on states that is met at one time is met at all times: the
    barrier cannot be crossed. *)
Theorem C90_stays_inside : forall fn, smooth fn -> forall p c t0 tf d lo up,
  respects fn p c t0 tf -> (forall t x, In x (p_consts p) -> c t x = c t0 x) ->
  In d (p_cp p) -> utm_sel d = true -> c_lower d = Some lo -> c_upper d = Some up -> incl (vars (c_expr d) ++ vars lo ++ vars up) (known p) ->
  forall t1, (t0 <= t1 <= tf)%R -> (eval fn (c t1) lo < eval fn (c t1) (c_expr d) < eval fn (c t1) up)%R ->
  forall t, (t0 <= t <= tf)%R -> (eval fn (c t) lo < eval fn (c t) (c_expr d) < eval fn (c t) up)%R.
Proof.
  intros fn Sm p c t0 tf d lo up RS KC ID US EL EU IV t1 H1 IN t Ht.
  set (c' := fun s x => if String.eqb x (p_ind p) then s else c s x).
  assert (SAME : forall s e, (t0 <= s <= tf)%R -> eval fn (c' s) e = eval fn (c s) e).
  { intros s e Hs. apply eval_ext. intros x _. unfold c'. destruct (String.eqb_spec x (p_ind p)) as [ ->|]; [|reflexivity]. symmetry. exact (proj2 (rs_moves _ _ _ _ _ RS s Hs)). }
  assert (WS : forall s e, (t0 <= s <= tf)%R -> wd fn (c s) e -> wd fn (c' s) e).
  { intros s e Hs. apply wd_ext. intros x _. unfold c'. destruct (String.eqb_spec x (p_ind p)) as [ ->|]; [|reflexivity]. exact (proj2 (rs_moves _ _ _ _ _ RS s Hs)). }
  assert (CO : forall s e, (t0 <= s <= tf)%R -> incl (vars e) (known p) -> wd fn (c s) e -> continuity_pt (fun s => eval fn (c' s) e) s).
  { intros s e Hs IE W. apply continuity_pt_filterlim. apply (ex_derive_continuous (fun s => eval fn (c' s) e) s). eexists.
    apply (chain_moving fn Sm c' (fun x => Derive (fun s => c' s x) s) s e (nodup string_dec (vars e))); [apply NoDup_nodup| | |now apply WS].
    - intros x I. apply Derive_correct. specialize (IE x I). unfold c'. destruct (String.eqb_spec x (p_ind p)) as [ ->|NE]; [eexists; exact (is_derive_id s)|]. destruct IE as [E|IE]; [congruence|]. apply in_app_or in IE as [IE|IE].
      + unfold syms in IE. apply in_map_iff in IE as ([y e0] & E & IE). cbn in E. subst y. eexists. exact (proj1 (rs_moves _ _ _ _ _ RS s Hs) x e0 IE).
      + exists 0%R. apply (is_derive_ext (fun _ => c t0 x)); [intros s'; symmetry; now apply KC|]. apply (is_derive_const (c t0 x) s).
    - intros x I. left. now apply nodup_In. }
  assert (IV1 : incl (vars (c_expr d)) (known p)) by (intros x I; apply IV; rewrite !in_app_iff; tauto). assert (IV2 : incl (vars lo) (known p)) by (intros x I; apply IV; rewrite !in_app_iff; tauto). assert (IV3 : incl (vars up) (known p)) by (intros x I; apply IV; rewrite !in_app_iff; tauto).
  assert (CL : forall s, (t0 <= s <= tf)%R -> eval fn (c s) (c_expr d) <> eval fn (c s) lo /\ eval fn (c s) (c_expr d) <> eval fn (c s) up /\ wd fn (c s) (c_expr d) /\ wd fn (c s) lo /\ wd fn (c s) up).
  { intros s Hs. destruct (rs_clear _ _ _ _ _ RS s d Hs ID US) as (lo' & up' & E1 & E2 & W1 & W2 & W3 & W4 & W5). assert (lo' = lo) by congruence. assert (up' = up) by congruence. subst. split; [|split; [|auto]].
    - intros E. apply W2. rewrite E. match goal with |- cos ?a = _ => replace a with (- (PI / 2))%R by (field; exact W1) end. rewrite cos_neg. apply cos_PI2.
    - intros E. apply W2. rewrite E. match goal with |- cos ?a = _ => replace a with (PI / 2)%R by (field; exact W1) end. apply cos_PI2. }
  assert (A := no_zero (fun s => eval fn (c' s) (c_expr d) - eval fn (c' s) lo)%R t0 tf). assert (B := no_zero (fun s => eval fn (c' s) up - eval fn (c' s) (c_expr d))%R t0 tf). cbn beta in A, B.
  assert (A1 : (0 < eval fn (c' t) (c_expr d) - eval fn (c' t) lo)%R).
  { apply (A) with t1; auto; [|rewrite !SAME by exact H1; lra]. intros s Hs. destruct (CL s Hs) as (X1 & X2 & W1 & W2 & W3). split; [|rewrite !SAME by exact Hs; lra]. apply (continuity_pt_minus (fun s => eval fn (c' s) (c_expr d)) (fun s => eval fn (c' s) lo) s); apply CO; auto. }
  assert (B1 : (0 < eval fn (c' t) up - eval fn (c' t) (c_expr d))%R).
  { apply (B) with t1; auto; [|rewrite !SAME by exact H1; lra]. intros s Hs. destruct (CL s Hs) as (X1 & X2 & W1 & W2 & W3). split; [|rewrite !SAME by exact Hs; lra]. apply (continuity_pt_minus (fun s => eval fn (c' s) up) (fun s => eval fn (c' s) (c_expr d)) s); apply CO; auto. }
  rewrite !SAME in A1, B1 by exact Ht. lra.
Qed.
Print Assumptions C90_stays_inside.

(** ** From the call of solve to what it returns *)
(** [r] shows, from start to end, a curve that respects what the user asked for
    and comes from a stationary point of the regularised problem, for the
    constants [k]. *)
Definition bounded_samples (fn : string -> nat -> R -> R) (p p1 : prob) (k : list R) (D : R) (r : sol R) : Prop :=
  exists t0 c back, returned p (fun t => back (c t)) (s_t r) k r /\ hd 0%R (s_t r) = t0 /\ last (s_t r) 0%R = (t0 + D)%R /\
    Forall (fun t => (t0 <= t <= t0 + D)%R) (s_t r) /\ (forall t i x, nth_error (p_consts p) i = Some x -> back (c t) x = nth i k 0%R) /\
    respects fn p (fun t => back (c t)) t0 (t0 + D)%R /\ regularised fn p p1 back /\ feasible fn p1 c t0 (t0 + D)%R /\ extremal fn p1 c t0 (t0 + D)%R.

Section Solve.
  Variables (lu : list (list expr) -> list expr -> res (list expr)) (solve : list expr -> list string -> list (list expr)) (fn : string -> nat -> R -> R) (sm : list R -> list R -> res R).
  Variables (o : options) (p p0 p1 p' : prob) (fs pre post : list tf) (ms : list (mapper R)) (h : expr).
  Hypothesis LU : lu_ok lu.
  Hypothesis BS : bound_setup lu solve fn sm o p p0 fs pre post p1 p' ms.
  Hypothesis SU : supported solve fn o p1.
  Hypothesis HH : p_ham p' = Some h.
  Hypothesis SMT : forall ys ts, length ys = length ts -> ts <> [] -> exists v, sm ys ts = Ok v.

  Lemma bs_params : length (p_params p') = 1 /\ p_quads p' = [] /\ p_consts p' = p_consts p.
  Proof.
    destruct (bs_p1 lu solve fn sm o p p0 p1 p' fs pre post ms BS) as (RN & E1 & E2 & E3 & E4). assert (M := bs_method _ _ _ _ _ _ _ _ _ _ _ _ _ BS).
    destruct (chain_tail fn sm lu solve o p fs pre post p1 p' ms (bs_make _ _ _ _ _ _ _ _ _ _ _ _ _ BS) (bs_split _ _ _ _ _ _ _ _ _ _ _ _ _ BS) (bs_pre _ _ _ _ _ _ _ _ _ _ _ _ _ BS) (bs_chain _ _ _ _ _ _ _ _ _ _ _ _ _ BS) (bs_norm _ _ _ _ _ _ _ _ _ _ _ _ _ BS) M)
      as (pD & p2 & p3 & m1 & na & b & lo & hi & HD & HC & HN & HS & CC & _).
    destruct (norm_squash p2 p3 p' HN HS) as (_ & S2 & _ & S4 & _). destruct (control_rest lu solve o pD p2 HC) as (K1 & K2 & K3 & _).
    assert (DO := dual_of_exists lu LU _ p1 pD HD M E1 E2).
    assert (CP : p_coparams pD = []) by (apply syms_nil; rewrite (d_colams _ _ _ DO), E3; reflexivity).
    rewrite S2, K1, (d_params _ _ _ DO), E3, S4, K2, K3, (d_quads _ _ _ DO), E4, CP. split; [reflexivity|]. split; [reflexivity|]. rewrite CC.
    destruct (bs_stage lu solve fn sm o p p0 p1 p' fs pre post ms BS) as (back & m0 & m1' & UN & _). destruct (un_frame _ _ _ _ _ UN) as (_ & _ & F3 & _). rewrite F3.
    exact (proj1 (bs_kept lu solve fn sm o p p0 p1 p' fs pre post ms BS)).
  Qed.

  Lemma bs_reached_back g : reached fn p' 0 1 g -> converged g -> (0 < duration g)%R -> tidy lu fn o p p1 p' h g ->
    exists r a, inv_map_sol ROps ms (to_sol g) = Ok (ms, r, a) /\ bounded_samples fn p p1 (t_const g) (duration g) r.
  Proof.
    intros (SP & EK & SA) C D0 WD. destruct SP as ((GO & GU & SH) & H0 & H1 & NE). destruct (SA C) as (F01 & Y & Q & LYQ & EY & EQ & SO).
    destruct bs_params as (PL & PQ & KC).
    set (D := duration g) in *. set (s := t_body g) in *.
    assert (ED : s_p s = [D]).
    { destruct SH as [SL _]. rewrite PL in SL. unfold D, duration. fold s. destruct (s_p s) as [|d [|x l]]; try discriminate SL. reflexivity. }
    rewrite ED in SO.
    assert (SM : sampled fn p' Y Q D s).
    { constructor; [exact ED|exact D0|exact NE|intros t I; rewrite Forall_forall in F01; now apply F01|exact EY| |exact SO]. right. exists (length (p_quads p')). rewrite EQ. f_equal. apply map_ext. intros t.
      assert (L := proj2 (LYQ t)). rewrite PQ in L. now destruct (Q t). }
    destruct (bs_curve lu solve fn sm o p p0 p1 p' fs pre post ms LU BS Y D (s_nu s) (s_k s)) as (t0 & c & CL & RO).
    rewrite to_sol_body by exact EK.
    destruct (C90_mapped lu LU solve fn sm o p p0 fs pre post p1 p' ms h Y Q D s t0 c BS SU HH SM CL RO (WD Y Q t0 c SM CL RO) SMT) as (back & r & a & INV & RT & RS & RG & F & E & _).
    exists r, a. split; [exact INV|]. exists t0, c, back. rewrite EK. fold s. assert (TT := rt_times _ _ _ _ _ RT).
    split; [rewrite TT; exact RT|]. rewrite TT. split; [destruct (s_t s) as [|x l]; [contradiction|]; cbn in H0 |- *; rewrite H0; ring|].
    split; [rewrite last_map by exact NE; rewrite H1; ring|]. split.
    { apply Forall_forall. intros t I. apply in_map_iff in I. destruct I as (x & <- & I). rewrite Forall_forall in F01. specialize (F01 x I). nra. }
    split; [|split; [exact RS|split; [exact RG|split; [exact F|exact E]]]].
    intros t i x I. rewrite (rg_same _ _ _ _ RG).
    - rewrite <- KC in I. exact (ro_consts _ _ _ _ _ _ _ _ _ _ RO t i x I).
    - intros d (TD1 & TD2 & TD3) EX. assert (TM := bs_tame _ _ _ _ _ _ _ _ _ _ _ _ _ BS). destruct (bs_kept lu solve fn sm o p p0 p1 p' fs pre post ms BS) as (KK & _ & _ & KP & _).
      destruct (tm_bounded p0 TM d) as (u & E1 & E2 & _); [now repeat split; try rewrite KP|]. rewrite EX in E1. injection E1 as <-. apply (tm_apart p0 TM _ E2). right. apply in_or_app. right. rewrite KK. eapply nth_error_In, I.
  Qed.
End Solve.

(** Everything a converged case returns, for a problem with bounds. *)
Theorem C90_returned : forall lu, lu_ok lu -> forall solve fn sm o p p0 p1 p' fs pre post ms h auto compute slv fuel steps guess cn out res,
  bound_setup lu solve fn sm o p p0 fs pre post p1 p' ms -> supported solve fn o p1 -> p_ham p' = Some h ->
  (forall ys ts, length ys = length ts -> ts <> [] -> exists v, sm ys ts = Ok v) ->
  scaling_ok auto p' compute -> runs fn p' auto compute slv -> spans p' 0 1 (to_sol guess) ->
  run_set ROps fuel slv steps guess cn = SetDone out -> Full_Model.post ms out = Ok res ->
  Forall2 (Forall2 (fun g r => converged g -> (0 < duration g)%R -> tidy lu fn o p p1 p' h g -> bounded_samples fn p p1 (t_const g) (duration g) r)) out res.
Proof.
  intros lu LU solve fn sm o p p0 p1 p' fs pre post ms h auto compute slv fuel steps guess cn out res BS SU HH SMT SC RU SP RS PO.
  assert (RE := set_sound fn p' auto compute slv 0 1 fuel steps guess cn out SC RU SP RS).
  assert (F2 := post_each ms (chain_settled _ _ _ _ _ _ _ _ (bs_chain _ _ _ _ _ _ _ _ _ _ _ _ _ BS)) out res PO).
  clear PO RS SP RU. revert RE. induction F2 as [|l rs out res H F2 IH]; intros RE; [constructor|]. inversion RE as [|? ? R1 R2]; subst. constructor; [|now apply IH].
  clear IH F2 RE R2. revert R1. induction H as [|g r l rs (a & E) H IH]; intros R1; [constructor|]. inversion R1 as [|? ? R2 R3]; subst. constructor; [|now apply IH].
  intros C D0 WD. destruct (bs_reached_back lu solve fn sm o p p0 p1 p' fs pre post ms h LU BS SU HH SMT g R2 C D0 WD) as (r' & a' & E' & OS). rewrite E in E'. injection E' as <- _. exact OS.
Qed.
Print Assumptions C90_returned.

(** ** Examples *)
(** Rest at x = xc for one second, with -1 <= x <= 1 kept by UTM. *)
Definition ou_o : options := Sym_Model.mkOpt false "algebraic" "traditional" true true.
Definition ou_d : constr := mkConstr (Var "x") (Some (Cst (-1))) (Some (Cst 1)) (Some (Var "eps")) "utm".
Definition ou_p : prob :=
  mkProb "t" [("x", Var "u")] [] [] [] ["u"] [] [plain (Sub (Var "x") (Var "xc")); plain (Var "t")] [ou_d] [plain (Sub (Var "x") (Var "xc")); plain (Sub (Var "t") (Cst 1))] [] []
    (Cst 0) (Mul (Var "u") (Var "u")) (Cst 0) ["eps"; "xc"] [] [] [] None [] true false.
Definition ou_p0 : prob := Eval vm_compute in match momentum_shift None ou_p with Ok q => q | Raise _ => ou_p end.
Definition ou_p1 : prob := Eval vm_compute in match utm ou_p0 with Ok q => q | Raise _ => ou_p end.
Definition ou_b : prob := Eval vm_compute in go_bvp ou_o ou_p.
Lemma ou_setup : bound_setup lu_gauss (solve_linear lu_gauss) ex_fn scipy_simpson ou_o ou_p ou_p0 (go_tfs ou_o ou_p) [FMomentum; FUtm] [FAlg; FNorm; FSquash] ou_p1 ou_b (go_ms ou_o ou_p).
Proof.
  apply mkBound.
  - reflexivity.
  - reflexivity.
  - vm_compute. reflexivity.
  - apply go_chain. vm_compute. reflexivity.
  - reflexivity.
  - reflexivity.
  - left. reflexivity.
  - left. split; [reflexivity|]. split; [discriminate|]. split.
    + intros cand e x I J V. cbn in I. destruct I as [ <-|[]]. cbn in J. destruct J as [ <-|[]]. cbn in V. repeat (destruct V as [ <-|V]; [cbn; tauto|]). destruct V.
    + intros h x H I. injection H as <-. cbn in I. repeat (destruct I as [ <-|I]; [cbn; tauto|]). destruct I.
  - repeat split.
  - names.
  - reflexivity.
  - constructor.
    + names.
    + intros x I J. cbn in I, J. destruct I as [ <-|[]]. repeat (destruct J as [J|J]; [discriminate J|]). exact J.
    + intros d (I & _ & M). cbn in I. destruct I as [ <-|[]]. discriminate M.
    + apply NoDup_nil.
    + intros d a I T E. cbn in I. repeat (destruct I as [ <-|I]; [cbn in T, E; try discriminate T; injection E as <-; intros x J; cbn in J |- *; tauto|]). destruct I.
    + intros d e (I & _ & M). cbn in I. destruct I as [ <-|[]]. discriminate M.
  - intros x I J. cbn in I, J. destruct J as [J|[]]. repeat (destruct I as [ <-|I]; [discriminate J|]). destruct I.
  - intros _ d e (I & _ & M). cbn in I. destruct I as [ <-|[]]. discriminate M.
  - split; intros x I; cbn in I |- *; tauto.
Qed.

Definition ou_c (xc l t : R) (y : string) : R :=
  if String.eqb y "x" then xc else if String.eqb y "t" then t else if String.eqb y "_t" then t else if String.eqb y "u" then 0%R else if String.eqb y "_lam_t" then l
  else if String.eqb y "_delta_t" then 1%R else if String.eqb y "_nu_0_1" then (- l)%R else if String.eqb y "_nu_f_1" then l else if String.eqb y "eps" then 1%R else if String.eqb y "xc" then xc else 0%R.
Definition ou_Y (xc l : R) (s : R) : list R := [xc; s; 0; l]%R.
(** A solution where the barrier is flat. *)
Lemma ou_solves xc l : sin (PI / 2 * xc) = 0%R -> (l = 1 - / cos (PI / 2 * xc))%R -> cos (PI / 2 * xc) <> 0%R -> solves ex_fn ou_b 0 1 (ou_Y xc l) (fun _ => []) [1%R] [0; - l; 0; l]%R [1; xc]%R.
Proof.
  intros S L C. assert (AR : forall z, z = xc -> (PI * / 2 * (2 * z + - (1) + - (-1)) * / (1 + - (-1)) = PI / 2 * xc)%R) by (intros z ->; field).
  split.
  - intros t Ht. eexists. eexists. split; [reflexivity|]. split; [reflexivity|]. split; [|intros i Hi; cbn in Hi; lia].
    intros [|[|[|[|i]]]] Hi; [| | | |cbn in Hi; lia].
    + cbn. rewrite !AR, S by reflexivity. line 0%R xc.
    + cbn. line 1%R 0%R.
    + cbn. rewrite !AR, S by reflexivity. line 0%R 0%R.
    + cbn. rewrite !AR, S by reflexivity. line 0%R l.
  - eexists. split; [reflexivity|]. repeat (apply Forall_cons; [cbn; rewrite ?AR, ?S by reflexivity; (lra || rewrite L; field; exact C)|]). apply Forall_nil.
Qed.
Definition ou_s (xc l : R) : sol R := mkSol go_nodes [] (Mat 4 (map (ou_Y xc l) go_nodes)) E1 E1 E1 E1 [1]%R [0; - l; 0; l]%R [1; xc]%R 0%R.
(** What mapping back gives for it. *)
Lemma ou_back xc l : sin (PI / 2 * xc) = 0%R -> (l = 1 - / cos (PI / 2 * xc))%R -> cos (PI / 2 * xc) <> 0%R ->
  sampled ex_fn ou_b (ou_Y xc l) (fun _ => []) 1 (ou_s xc l) /\
  exists back r a, inv_map_sol ROps (go_ms ou_o ou_p) (ou_s xc l) = Ok (go_ms ou_o ou_p, r, a) /\ returned ou_p (fun t => back (ou_c xc l t)) go_nodes [1; xc]%R r /\
    respects ex_fn ou_p (fun t => back (ou_c xc l t)) 0 1 /\ regularised ex_fn ou_p ou_p1 back /\ feasible ex_fn ou_p1 (ou_c xc l) 0 1 /\ extremal ex_fn ou_p1 (ou_c xc l) 0 1.
Proof.
  intros S L C.
  assert (SP : sampled ex_fn ou_b (ou_Y xc l) (fun _ => []) 1 (ou_s xc l)) by (constructor; [reflexivity|lra|discriminate|exact go_nodes01|reflexivity|now left|exact (ou_solves xc l S L C)]).
  split; [exact SP|].
  assert (AR : forall z, z = xc -> (PI * / 2 * (2 * z + - (1) + - (-1)) * / (1 + - (-1)) = PI / 2 * xc)%R) by (intros z ->; field).
  assert (RO : reads_off ex_fn ou_b (p_ind ou_p1) (ou_Y xc l) [1%R] (s_nu (ou_s xc l)) (s_k (ou_s xc l)) 0 1 (ou_c xc l)).
  { constructor.
    - intros t. reflexivity.
    - intros t i x E. repeat (destruct i as [|i]; [cbn in E; injection E as <-; cbn; field|]); cbn in E; destruct i; discriminate E.
    - intros f t i x LW E. cbn in LW. injection LW as <-. destruct i as [|i]; [|destruct i; discriminate E]. cbn in E. injection E as <-. cbn. rewrite !AR by reflexivity. field. exact C.
    - intros t i x E; repeat (destruct i as [|i]; [cbn in E; injection E as <-; reflexivity|]); cbn in E; destruct i; discriminate E.
    - intros t i x E; repeat (destruct i as [|i]; [cbn in E; injection E as <-; reflexivity|]); cbn in E; destruct i; discriminate E.
    - intros t i x E; repeat (destruct i as [|i]; [cbn in E; injection E as <-; reflexivity|]); cbn in E; destruct i; discriminate E. }
  destruct (C90_mapped lu_gauss lu_gauss_ok (solve_linear lu_gauss) ex_fn scipy_simpson ou_o ou_p ou_p0 (go_tfs ou_o ou_p) [FMomentum; FUtm] [FAlg; FNorm; FSquash] ou_p1 ou_b (go_ms ou_o ou_p) (dual_ham ou_p1)
    (ou_Y xc l) (fun _ => []) 1%R (ou_s xc l) 0%R (ou_c xc l) ou_setup) as (back & r & a & INV & RT & RS & RG & F & E & _).
  - left. split; [reflexivity|]. exact (C67_linear_solver_sound _ lu_gauss_ok).
  - vm_compute. reflexivity.
  - exact SP.
  - split; [reflexivity|discriminate].
  - exact RO.
  - intros t _. split; [cbn; rewrite AR by reflexivity; repeat split; (exact C || lra)|]. split; [intros Z; discriminate Z|]. split; [|discriminate].
    intros _. repeat (apply Forall_cons || apply Forall_nil). cbn. rewrite !AR by reflexivity. repeat split; try exact C; try lra.
  - exact simpson_total.
  - assert (TE : map (fun t => 0 + 1 * t)%R (s_t (ou_s xc l)) = go_nodes) by (unfold ou_s, go_nodes; cbn; repeat (apply f_equal2; [lra|]); reflexivity).
    rewrite TE in RT. rewrite Rplus_0_l in RS, F, E. exists back, r, a. repeat (split; [assumption|]). exact E.
Qed.
Lemma ou_y back xc l r : regularised ex_fn ou_p ou_p1 back -> returned ou_p (fun t => back (ou_c xc l t)) go_nodes [1; xc]%R r -> s_y r = Mat 1 [[xc]; [xc]; [xc]; [xc]; [xc]]%R.
Proof.
  intros RG RT. rewrite (rt_states _ _ _ _ _ RT). cbn. rewrite !(rg_same _ _ _ _ RG) by (intros d (I & _ & M); cbn in I; destruct I as [ <-|[]]; discriminate M). reflexivity.
Qed.

(** Inside the bounds: at rest at x = 0, with the equations, the boundary
    conditions and the bounds all met. *)
Example C90_ex_inside : sampled ex_fn ou_b (ou_Y 0 0) (fun _ => []) 1 (ou_s 0 0) /\ exists c r a,
  inv_map_sol ROps (go_ms ou_o ou_p) (ou_s 0 0) = Ok (go_ms ou_o ou_p, r, a) /\ returned ou_p c go_nodes [1; 0]%R r /\ s_y r = Mat 1 [[0]; [0]; [0]; [0]; [0]]%R /\
  respects ex_fn ou_p c 0 1 /\ forall t, (0 <= t <= 1)%R -> (-1 < eval ex_fn (c t) (Var "x") < 1)%R.
Proof.
  destruct (ou_back 0 0) as (SP & back & r & a & INV & RT & RS & RG & _).
  - rewrite Rmult_0_r. apply sin_0.
  - rewrite Rmult_0_r, cos_0. field.
  - rewrite Rmult_0_r, cos_0. lra.
  - split; [exact SP|]. exists (fun t => back (ou_c 0 0 t)), r, a. split; [exact INV|]. split; [exact RT|]. split; [exact (ou_y back 0 0 r RG RT)|]. split; [exact RS|].
    assert (NT : forall x d, trig ou_p d -> c_expr d <> Var x) by (intros x d (I & _ & M); cbn in I; destruct I as [ <-|[]]; discriminate M).
    intros t Ht. refine (C90_stays_inside ex_fn ex_smooth ou_p (fun t => back (ou_c 0 0 t)) 0 1 ou_d (Cst (-1)) (Cst 1) RS _ (or_introl eq_refl) eq_refl eq_refl eq_refl _ 0%R _ _ t Ht).
    + intros t' x I. rewrite !(rg_same _ _ _ _ RG) by apply NT. cbn in I. repeat (destruct I as [ <-|I]; [reflexivity|]). destruct I.
    + intros x I. cbn in I |- *. tauto.
    + lra.
    + cbn [eval ou_d c_expr]. rewrite (rg_same _ _ _ _ RG) by apply NT. cbn. lra.
Qed.

(** A path constraint kept by UTM can be broken all the way: the barrier is
    periodic, and between its poles outside the bounds it is finite.  The
    boundary conditions ask for x = 2; the boundary value problem is solved
    exactly, and a trajectory that stays at x = 2 comes back. *)
Theorem C90_outside_refuted : exists o p p0 fs pre post p1 p' ms Y s r a d,
  bound_setup lu_gauss (solve_linear lu_gauss) ex_fn scipy_simpson o p p0 fs pre post p1 p' ms /\ supported (solve_linear lu_gauss) ex_fn o p1 /\
  sampled ex_fn p' Y (fun _ => []) 1 s /\ inv_map_sol ROps ms s = Ok (ms, r, a) /\
  In d (p_cp p) /\ utm_sel d = true /\ c_expr d = Var "x" /\ c_lower d = Some (Cst (-1)) /\ c_upper d = Some (Cst 1) /\ syms (p_states p) = ["x"] /\ s_k r = [1; 2]%R /\
  s_y r = Mat 1 [[2]; [2]; [2]; [2]; [2]]%R.
Proof.
  destruct (ou_back 2 2) as (SP & back & r & a & INV & RT & RS & RG & _).
  - replace (PI / 2 * 2)%R with PI by field. apply sin_PI.
  - replace (PI / 2 * 2)%R with PI by field. rewrite cos_PI. field.
  - replace (PI / 2 * 2)%R with PI by field. rewrite cos_PI. lra.
  - exists ou_o, ou_p, ou_p0, (go_tfs ou_o ou_p), [FMomentum; FUtm], [FAlg; FNorm; FSquash], ou_p1, ou_b, (go_ms ou_o ou_p), (ou_Y 2 2), (ou_s 2 2), r, a, ou_d.
    split; [exact ou_setup|]. split; [left; split; [reflexivity|exact (C67_linear_solver_sound _ lu_gauss_ok)]|]. split; [exact SP|]. split; [exact INV|]. split; [now left|]. do 5 (split; [reflexivity|]).
    split; [exact (rt_consts _ _ _ _ _ RT)|exact (ou_y back 2 2 r RG RT)].
Qed.
Print Assumptions C90_outside_refuted.

(** Minimum time from x = 0 to x = 1 with -1 <= u <= 1 kept by EpsTrig: for eps =
    3/5 the control is 4/5. *)
Definition bd_p : prob :=
  mkProb "t" [("x", Var "u")] [] [] [] ["u"] [] [plain (Var "x")] [mkConstr (Var "u") (Some (Cst (-1))) (Some (Cst 1)) (Some (Var "eps")) "epstrig"] [plain (Sub (Var "x") (Cst 1))] [] []
    (Cst 0) (Cst 1) (Cst 0) ["eps"] [] [] [] None [] true false.
Definition bd_p1 : prob := Eval vm_compute in match eps_trig bd_p with Ok q => q | Raise _ => bd_p end.
Definition bd_b : prob := Eval vm_compute in go_bvp go_diff bd_p.
Lemma bd_setup : bound_setup lu_gauss (solve_linear lu_gauss) ex_fn scipy_simpson go_diff bd_p bd_p (go_tfs go_diff bd_p) [FEps] [FDiff "traditional"; FNorm; FSquash] bd_p1 bd_b (go_ms go_diff bd_p).
Proof.
  apply mkBound.
  - reflexivity.
  - reflexivity.
  - vm_compute. reflexivity.
  - apply go_chain. vm_compute. reflexivity.
  - reflexivity.
  - reflexivity.
  - left. reflexivity.
  - right. split; [reflexivity|]. discriminate.
  - repeat split.
  - names.
  - reflexivity.
  - constructor.
    + names.
    + intros x I J. cbn in I, J. destruct I as [ <-|[]]. repeat (destruct J as [J|J]; [discriminate J|]). exact J.
    + intros d (I & _ & M). cbn in I. destruct I as [ <-|[]]. exists "u". split; [reflexivity|]. split; [now left|]. cbn. intros J. repeat (destruct J as [J|J]; [discriminate J|]). exact J.
    + repeat constructor; cbn; tauto.
    + intros d a I T E. cbn in I. repeat (destruct I as [ <-|I]; [cbn in T, E; try discriminate T; injection E as <-; intros x J; cbn in J |- *; tauto|]). destruct I.
    + intros d e (I & _ & M) E. cbn in I. destruct I as [ <-|[]]. cbn in E. destruct E as [E|E]; injection E as <-; intros x [].
  - intros x I J. cbn in I, J. destruct J as [J|[]]. repeat (destruct I as [ <-|I]; [discriminate J|]). destruct I.
  - discriminate.
  - split; intros x I; cbn in I |- *; tauto.
Qed.

Definition bd_th : R := acos (3 / 5).
Lemma bd_cos : cos bd_th = (3 / 5)%R.
Proof. apply cos_acos. lra. Qed.
Lemma bd_sin : sin bd_th = (4 / 5)%R.
Proof. unfold bd_th. rewrite sin_acos by lra. replace (1 - (3 / 5)²)%R with ((4 / 5)²)%R by (unfold Rsqr; field). apply sqrt_Rsqr. lra. Qed.
Lemma bd_solves : solves ex_fn bd_b 0 1 (fun s => [s; bd_th; -(4 / 5)]%R) (fun _ => []) [5 / 4]%R [4 / 5; -(4 / 5)]%R [3 / 5]%R.
Proof.
  split.
  - intros t Ht. eexists. eexists. split; [reflexivity|]. split; [reflexivity|]. split; [|intros i Hi; cbn in Hi; lia].
    intros [|[|[|i]]] Hi; [| | |cbn in Hi; lia].
    + cbn. rewrite ?bd_cos, ?bd_sin. line 1%R 0%R.
    + cbn. rewrite ?bd_cos, ?bd_sin. line 0%R bd_th.
    + cbn. rewrite ?bd_cos, ?bd_sin. line 0%R (-(4 / 5))%R.
  - eexists. split; [reflexivity|]. repeat (apply Forall_cons; [cbn; rewrite ?bd_cos, ?bd_sin; lra|]). apply Forall_nil.
Qed.
(** Every solution has constant angle and costate, and the Hamiltonian is
    regular along it. *)
Lemma bd_constant Y Q D nu e : solves ex_fn bd_b 0 1 Y Q [D] nu [e] -> e <> 0%R -> forall s, (0 <= s <= 1)%R -> (e * cos (nth 1 (Y s) 0) - nth 2 (Y s) 0 * sin (nth 1 (Y s) 0) <> 0)%R.
Proof.
  intros [DE BC] E0.
  assert (ST : forall t, (0 <= t <= 1)%R -> length (Y t) = 3 /\ is_derive (fun s => nth 1 (Y s) 0%R) t 0%R /\ is_derive (fun s => nth 2 (Y s) 0%R) t 0%R).
  { intros t Ht. destruct (DE t Ht) as (dy & dq & EY & EQ & DY & _). assert (D1 := DY 1 ltac:(cbn; lia)). assert (D2 := DY 2 ltac:(cbn; lia)).
    destruct (Y t) as [|x [|th [|l [|z r]]]] eqn:ET; try discriminate EY. split; [reflexivity|]. cbn in EY. injection EY as <-. cbn [nth] in D1, D2. split.
    - match type of D1 with is_derive _ _ (?n * / ?d * ?D)%R => replace (n * / d * D)%R with 0%R in D1; [exact D1|]; replace n with 0%R by field; ring end.
    - match type of D2 with is_derive _ _ ?v => replace v with 0%R in D2; [exact D2|field] end. }
  assert (CN : forall s, (0 <= s <= 1)%R -> nth 1 (Y s) 0%R = nth 1 (Y 1%R) 0%R /\ nth 2 (Y s) 0%R = nth 2 (Y 1%R) 0%R).
  { intros s Hs. destruct (Req_dec s 1) as [ ->|NE]; [split; reflexivity|]. split.
    - apply (eq_is_derive (fun s => nth 1 (Y s) 0%R) s 1); [intros t Ht; apply ST; lra|lra].
    - apply (eq_is_derive (fun s => nth 2 (Y s) 0%R) s 1); [intros t Ht; apply ST; lra|lra]. }
  intros s Hs. destruct (CN s Hs) as [-> ->]. destruct BC as (r & BC & Z).
  assert (L0 := proj1 (ST 0%R ltac:(lra))). assert (L1 := proj1 (ST 1%R ltac:(lra))).
  destruct (Y 0%R) as [|x0 [|th0 [|l0 [|z0 r0]]]]; try discriminate L0. destruct (Y 1%R) as [|x1 [|th1 [|l1 [|z1 r1]]]]; try discriminate L1. cbn [nth].
  destruct nu as [|n0 [|n1 [|n2 nu]]]; try discriminate BC. destruct (Q 0%R); try discriminate BC. destruct (Q 1%R); try discriminate BC.
  all: cbn in BC; injection BC as <-; repeat match goal with H : Forall _ (_ :: _) |- _ => inversion_clear H as [|? ? ? ?] end.
  all: match goal with H : (0 + (- 0 * cos _ + _) + _)%R = 0%R |- _ => assert (HT : (e * sin th1 + l1 * cos th1 = 0)%R) by (rewrite <- H; field) end.
  all: intros Z; apply E0; assert (P := sin2_cos2 th1); unfold Rsqr in P; replace e with (e * (sin th1 * sin th1 + cos th1 * cos th1))%R by (rewrite P; ring).
  all: replace (e * (sin th1 * sin th1 + cos th1 * cos th1))%R with (sin th1 * (e * sin th1 + l1 * cos th1) + cos th1 * (e * cos th1 - l1 * sin th1))%R by ring; rewrite HT, Z; ring.
Qed.
Lemma bd_tidy g e : t_const g = [e] -> s_k (t_body g) = t_const g -> e <> 0%R -> (0 < duration g)%R -> tidy lu_gauss ex_fn go_diff bd_p bd_p1 bd_b (dual_ham bd_p1) g.
Proof.
  intros EK SK E0 D0 Y Q t0 c SP _ RO t Ht. rewrite SK, EK in RO.
  assert (SO := sp_solves _ _ _ _ _ _ SP). rewrite SK, EK in SO.
  assert (R1 := bd_constant Y Q (duration g) (s_nu (t_body g)) e SO E0 ((t - t0) / duration g)).
  assert (H01 : (0 <= (t - t0) / duration g <= 1)%R).
  { split; [apply Rmult_le_pos; [lra|apply Rlt_le, Rinv_0_lt_compat, D0]|]. apply (Rmult_le_reg_r (duration g)); [exact D0|]. unfold Rdiv. rewrite Rmult_assoc, Rinv_l; lra. }
  specialize (R1 H01). rewrite <- (ro_states _ _ _ _ _ _ _ _ _ _ RO t 1 "_u_trig" eq_refl), <- (ro_states _ _ _ _ _ _ _ _ _ _ RO t 2 "_lam_x" eq_refl) in R1.
  assert (KE : c t "eps" = e) by exact (ro_consts _ _ _ _ _ _ _ _ _ _ RO t 0 "eps" eq_refl). rewrite <- KE in R1.
  split; [cbn; repeat split; lra|]. split; [intros Z; discriminate Z|]. split; [intros Z; discriminate Z|]. intros _. split.
  - repeat (apply Forall_cons || apply Forall_nil); cbn; repeat split; try lra; try exact I. all: try (intros Z; apply R1; rewrite <- Z; field).
  - intros pD udot HD HU. vm_compute in HD. injection HD as <-. vm_compute in HU. injection HU as <-. repeat (apply Forall_cons || apply Forall_nil); cbn; repeat split; try lra; try exact I. all: try (intros Z; apply R1; rewrite <- Z; field).
Qed.

Definition bd_alg : spalg (F := R) := mkSpalg (deriv_of ex_fn bd_b) (quad_of ex_fn bd_b) (bc5 (fun y0 yf pp pc k => bc_of ex_fn bd_b y0 [] yf [] pp pc k)) None None 20.
Definition bd_guess : traj := mkTraj [3 / 5]%R FTrue (mkSol [0; 1]%R [] (Mat 3 [[0; 1; 0]; [1; 1; 0]]%R) E1 E1 E1 E1 [1]%R [0; 0]%R [3 / 5]%R 0%R).
Definition bd_slv (sb : handed (F := R) -> res (opt (F := R))) : Cont_Model.solver R (sol R) :=
  fun _ g => match solve_case false (fun _ => mkFactors 1%R [] [] [] [] [] []) true sb bd_alg g with Ok r => Ok (snd r) | Raise e => Raise e end.
Lemma bd_runs sb : honest 3 sb -> runs ex_fn bd_b false (fun _ => mkFactors 1%R [] [] [] [] [] []) (bd_slv sb).
Proof. intros HO k g. exists true, sb, bd_alg. split; [exact HO|]. split; [repeat split|reflexivity]. Qed.
Lemma bd_spans : spans bd_b 0 1 (to_sol bd_guess).
Proof.
  split; [|repeat split; discriminate]. split; [|split; [now left|repeat split]]. eexists. split; [reflexivity|]. split; [discriminate|]. now left.
Qed.
Lemma bd_converges sb : honest 3 sb -> finds 3 sb -> exists sol, bd_slv sb 0 bd_guess = Ok sol /\ converged sol /\ (0 < duration sol)%R.
Proof.
  intros HO FI. assert (SP := bd_spans). destruct SP as (GF & H0 & H1 & NE).
  destruct (C83_unscaled_collocation ex_fn bd_b bd_alg (to_sol bd_guess) (fun _ => mkFactors 1%R [] [] [] [] [] [])) as (h & HT & HP & IFF & _ & CV & RUN); [repeat split|exact GF|].
  cbn [length p_states p_quads bd_b Nat.add] in *.
  assert (PP : length (h_p h) = 3) by (rewrite HP; reflexivity).
  assert (NH : h_t h <> []) by (rewrite HT; exact NE).
  destruct (FI h) as (o & SB & OS & OD).
  { exists (mkOpt [0; 1]%R [[0; bd_th; -(4 / 5)]; [1; bd_th; -(4 / 5)]]%R (Some [5 / 4; 4 / 5; -(4 / 5)]%R) true "" 1). split; [reflexivity|]. split; [cbn; lra|].
    assert (GR : good_result 0 h 3 (mkOpt [0; 1]%R [[0; bd_th; -(4 / 5)]; [1; bd_th; -(4 / 5)]]%R (Some [5 / 4; 4 / 5; -(4 / 5)]%R) true "" 1)).
    { unfold good_result. rewrite HT, H0, H1, PP. cbn [hd last o_x o_y params_of o_p length]. split; [reflexivity|]. split; [reflexivity|]. split; [repeat (apply Forall_cons; [lra|]); apply Forall_nil|]. split; [reflexivity|].
      exists (fun s => [s; bd_th; -(4 / 5)]%R). split; [reflexivity|]. split; [reflexivity|].
      exact (proj1 (IFF 0%R 1%R (fun s => [s; bd_th; -(4 / 5)]%R) (fun _ => []) [5 / 4]%R [4 / 5; -(4 / 5)]%R (fun _ => eq_refl) (fun _ => eq_refl) eq_refl eq_refl) bd_solves). }
    split; [discriminate|]. rewrite HT, H0, H1, PP. repeat (split; [reflexivity|]). intros _. exact GR. }
  destruct (RUN sb o SB) as (al' & r & LS & C & _ & _ & _ & _ & PA & _); [now apply (HO h o SB)|]. rewrite OS in C.
  destruct (C89_residuals ex_fn bd_b false (fun _ => mkFactors 1%R [] [] [] [] [] []) sb bd_alg bd_guess al' r) as [_ E]; [discriminate|exact HO|repeat split|exact GF|exact NE|exact LS|exact C|].
  destruct (case_sound ex_fn bd_b false (fun _ => mkFactors 1%R [] [] [] [] [] []) sb bd_alg (to_sol bd_guess) al' r) as (_ & ((_ & _ & (LP & _)) & _) & _); [discriminate|exact HO|repeat split|exact GF|exact NE|exact LS|].
  exists (of_result r). unfold bd_slv. rewrite E. split; [reflexivity|]. split; [unfold of_result; rewrite C; reflexivity|].
  unfold duration, of_result. cbn [t_body]. rewrite <- PA in OD. cbn in LP. rewrite app_nth1 in OD by (rewrite LP; lia). exact OD.
Qed.

(** One case, with a solver that finds a solution where there is one: what comes
    back moves with a control between -1 and 1. *)
Example C90_ex sb : honest 3 sb -> finds 3 sb -> exists g r,
  run_set ROps 10 (bd_slv sb) None bd_guess ["eps"] = SetDone [[g]] /\ Full_Model.post (go_ms go_diff bd_p) [[g]] = Ok [[r]] /\
  (0 < duration g)%R /\ t_const g = [3 / 5]%R /\ bounded_samples ex_fn bd_p bd_p1 [3 / 5]%R (duration g) r /\
  (exists us, s_u r = Mat 1 us /\ Forall (Forall (fun u => -1 <= u <= 1)%R) us).
Proof.
  intros HO FI. assert (RU := bd_runs sb HO). destruct (bd_converges sb HO FI) as (g & SV & C & D0).
  assert (SC : scaling_ok false bd_b (fun _ => mkFactors 1%R [] [] [] [] [] [])) by discriminate.
  assert (RS : run_set ROps 10 (bd_slv sb) None bd_guess ["eps"] = SetDone [[g]]) by (unfold run_set; rewrite SV; reflexivity).
  assert (RE := set_sound ex_fn bd_b false _ (bd_slv sb) 0 1 10 None bd_guess ["eps"] _ SC RU bd_spans RS).
  destruct (call_sound ex_fn bd_b false _ (bd_slv sb) 0 1 0 bd_guess g SC RU bd_spans SV) as (_ & KG & _).
  inversion RE as [|? ? RE1 _]; subst. inversion RE1 as [|? ? RE2 _]; subst. destruct RE2 as (S1 & S2 & S3).
  assert (TD : tidy lu_gauss ex_fn go_diff bd_p bd_p1 bd_b (dual_ham bd_p1) g) by (apply (bd_tidy g (3 / 5)%R); [rewrite KG; reflexivity|symmetry; exact S2|lra|exact D0]).
  assert (SU : supported (solve_linear lu_gauss) ex_fn go_diff bd_p1) by (right; split; [reflexivity|]; split; [exact ex_smooth|now left]).
  assert (HH : p_ham bd_b = Some (dual_ham bd_p1)) by (vm_compute; reflexivity).
  destruct (bs_reached_back lu_gauss (solve_linear lu_gauss) ex_fn scipy_simpson go_diff bd_p bd_p bd_p1 bd_b (go_tfs go_diff bd_p) [FEps] [FDiff "traditional"; FNorm; FSquash] (go_ms go_diff bd_p) (dual_ham bd_p1) lu_gauss_ok bd_setup SU HH simpson_total g (conj S1 (conj S2 S3)) C D0 TD) as (r & a & INV & _).
  assert (PO : Full_Model.post (go_ms go_diff bd_p) [[g]] = Ok [[r]]) by (cbn [Full_Model.post post_set]; rewrite INV; reflexivity).
  assert (RT := C90_returned lu_gauss lu_gauss_ok (solve_linear lu_gauss) ex_fn scipy_simpson go_diff bd_p bd_p bd_p1 bd_b (go_tfs go_diff bd_p) [FEps] [FDiff "traditional"; FNorm; FSquash] (go_ms go_diff bd_p) (dual_ham bd_p1) false _ (bd_slv sb) 10 None bd_guess ["eps"] [[g]] [[r]]
    bd_setup SU HH simpson_total SC RU bd_spans RS PO).
  inversion RT as [|? ? ? ? F2 _]; subst. inversion F2 as [|? ? ? ? F3 _]; subst. specialize (F3 C D0 TD). rewrite KG in F3.
  exists g, r. split; [exact RS|]. split; [exact PO|]. split; [exact D0|]. split; [exact KG|]. split; [exact F3|].
  destruct F3 as (t0 & c & back & RR & _ & _ & IN & _ & RSP & _). exists (map (fun t => map (back (c t)) ["u"]) (s_t r)). split; [exact (rt_controls _ _ _ _ _ RR)|].
  apply Forall_forall. intros l I. apply in_map_iff in I. destruct I as (t & <- & I). rewrite Forall_forall in IN. specialize (IN t I).
  assert (W := rs_within _ _ _ _ _ RSP t (mkConstr (Var "u") (Some (Cst (-1))) (Some (Cst 1)) (Some (Var "eps")) "epstrig") IN). constructor; [|constructor].
  destruct W as (u & lo & up & E0 & E1 & E2 & W); [split; [now left|split; reflexivity]|]. cbn in E0, E1, E2. injection E0 as <-. injection E1 as <-. injection E2 as <-. cbn in W. apply W. lra.
Qed.
