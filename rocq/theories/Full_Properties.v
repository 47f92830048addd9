(** C89: from the call of beluga.solve to the trajectories it returns. *)
From Coq Require Import Reals Lra Lia.
From Coquelicot Require Import Coquelicot.
From Verif Require Import Base Base_Facts Cont_Model Cont_Spec Cont_Proofs Cont_Warm Cont_Live Cont_Properties.
From Verif Require Import Map_More Sym_Expr Sym_Facts Sym_Model Sym_Lu Sym_Dual Sym_Traj Sym_Var Sym_DiffCtl Scale_Model Jac_Model Jac_Proofs Unit_Model Unit_Spec Unit_Proofs Unit_Scale Unit_Properties.
From Verif Require Import Dual_Properties Ctl_Properties Shift_Properties Spbvp_Model Spbvp_Properties Pipe_Model Pipe_Properties.
From Verif Require Import Whole_Proofs Whole_Steps Whole_Geo Whole_Properties Chain_Model Chain_Facts Map_Model Map_Proofs Map_Chain Chain_Back Chain_Proofs Chain_Simpson Chain_Properties.
From Verif Require Import Full_Model Full_Proofs.
Open Scope string_scope.
Open Scope list_scope.
Open Scope nat_scope.

(** The three ways to find the control. *)
Definition supported (solve : list expr -> list string -> list (list expr)) (fn : string -> nat -> R -> R) (o : options) (p1 : prob) : Prop :=
  (lower (o_control o) = "algebraic" /\ solve_sound solve) \/
  (lower (o_control o) = "differential" /\ smooth fn /\
    (lower (o_method o) = "traditional" \/
     lower (o_method o) = "diffyg" /\ o_shift o = true /\
     forall x, In x (syms (p_states p1) ++ p_controls p1) -> ~ In (lam x) (vars (p_cost_p p1)) /\ forall s, In s (p_states p1) -> ~ In (lam x) (vars (snd s)))).
(** Hamiltonian, control law and equations are defined at the values [rho]. *)
Definition defined_at (lu : list (list expr) -> list expr -> res (list expr)) (fn : string -> nat -> R -> R) (o : options) (p1 p' : prob) (h : expr) (rho : string -> R) : Prop :=
  wd fn rho h /\ field_defined lu fn (o_method o) p1 h rho /\
  (lower (o_control o) = "algebraic" -> Forall (Forall (wd fn rho)) (p_law p')) /\
  (lower (o_control o) = "differential" -> Forall (wd fn rho) (eoms (p_states p')) /\
     forall pD udot, dualize lu (o_method o) p1 = Ok pD -> control_rates lu pD h = Ok udot -> Forall (wd fn rho) udot).

(** The three cases of C87 together. *)
Lemma mapped lu (LU : lu_ok lu) solve fn sm o p fs pre post p1 p' ms h Y Q D s t0 c :
  user_setup lu solve fn sm o p fs pre post p1 p' ms -> supported solve fn o p1 -> p_ham p' = Some h ->
  sampled fn p' Y Q D s -> clock o p c t0 -> reads_off fn p' (p_ind p1) Y [D] (s_nu s) (s_k s) t0 D c ->
  (forall t, (t0 <= t <= t0 + D)%R -> defined_at lu fn o p1 p' h (c t)) ->
  (forall ys ts, length ys = length ts -> ts <> [] -> exists v, sm ys ts = Ok v) ->
  exists r a, inv_map_sol ROps ms s = Ok (ms, r, a) /\ returned p c (map (fun t => t0 + D * t)%R (s_t s)) (s_k s) r /\
    feasible fn p c t0 (t0 + D)%R /\ extremal fn p c t0 (t0 + D)%R.
Proof.
  intros US [(OC & SO)|(OC & Sm & [M|(M & OS & CN)])] HH SP CL RO WD SMT.
  - destruct (C87_algebraic lu LU solve SO fn sm o p fs pre post p1 p' ms h Y Q D s t0 c US OC HH SP CL RO) as (r & a & I & RT & F & E & _); [|exact SMT|now exists r, a].
    intros t T. destruct (WD t T) as (W1 & W2 & W3 & _). split; [exact W1|]. split; [exact (W3 OC)|exact W2].
  - destruct (C87_differential lu LU fn Sm solve sm o p fs pre post p1 p' ms h Y Q D s t0 c US OC M HH SP CL RO) as (r & a & I & RT & F & E & _); [|exact SMT|now exists r, a].
    intros t T. destruct (WD t T) as (W1 & W2 & _ & W3). split; [exact W1|]. exact (proj1 (W3 OC)).
  - destruct (C87_geometric lu LU fn Sm solve sm o p fs pre post p1 p' ms h Y Q D s t0 c US OC M OS HH CN SP CL RO) as (r & a & I & RT & F & E & _); [|exact SMT|now exists r, a].
    intros t T. destruct (WD t T) as (W1 & W2 & _ & W3). destruct (W3 OC) as [W4 W5]. split; [exact W1|]. split; [exact W4|]. split; [exact W2|exact W5].
Qed.

Lemma setup_params lu (LU : lu_ok lu) solve fn sm o p fs pre post p1 p' ms : user_setup lu solve fn sm o p fs pre post p1 p' ms -> length (p_params p') = 1 /\ p_quads p' = [].
Proof.
  intros US. destruct (setup_shift lu solve fn sm o p fs pre post p1 p' ms US) as (_ & E1 & E2 & EP & EQ). destruct US.
  destruct (chain_tail fn sm lu solve o p fs pre post p1 p' ms us_make us_split us_pre us_chain us_norm us_method) as (pD & p2 & p3 & m1 & na & b & lo & hi & HD & HC & HN & HS & _).
  destruct (norm_squash p2 p3 p' HN HS) as (_ & S2 & _ & S4 & _). destruct (control_rest lu solve o pD p2 HC) as (K1 & K2 & K3 & _).
  assert (DO := dual_of_exists lu LU _ p1 pD HD us_method E1 E2).
  assert (CP : p_coparams pD = []) by (apply syms_nil; rewrite (d_colams _ _ _ DO), EP; reflexivity).
  rewrite S2, K1, (d_params _ _ _ DO), EP, S4, K2, K3, (d_quads _ _ _ DO), EQ, CP. split; reflexivity.
Qed.

(** The mappers that [build] makes are not changed by a map back. *)
Definition settled (m : mapper R) : Prop := m <> MMomentumShift None /\ m <> MNormalizeTime None.
Lemma build_settled fn sm p q t : settled (build fn sm p q t).
Proof. destruct t; cbn; try (split; discriminate). destruct costates, adjoints; split; discriminate. Qed.
Lemma chain_settled fn sm lu solve fs : forall p q ms, run_chain fn sm lu solve fs p = Ok (q, ms) -> Forall settled ms.
Proof.
  induction fs as [|f fs IH]; intros p q ms H; cbn [run_chain] in H; [injection H as <- <-; constructor|].
  destruct (apply_tf lu solve f p) as [p1|]; [|discriminate]. cbn [bind] in H. destruct (run_chain fn sm lu solve fs p1) as [[q1 ms1]|] eqn:E; [|discriminate]. cbn [bind fst snd] in H. injection H as <- <-.
  apply Forall_app. split; [|exact (IH _ _ _ E)]. apply Forall_forall. intros m I. apply in_map_iff in I. destruct I as (t & <- & _). apply build_settled.
Qed.
Lemma inv_settled m (s : sol R) m' s' : settled m -> apply_inv ROps m s = Ok (m', s') -> m' = m.
Proof.
  intros [S1 S2]. destruct m as [|[i|]|ci f g|n c|[i|]|m o h|idxs|idxs|pp ps fp fq fpi fqi|a b c d]; cbn [apply_inv]; unfold with_mapper; intros H; try congruence;
    try (match type of H with bind ?x _ = _ => destruct x; [|discriminate] end; cbn [bind] in H; now injection H as <- _).
  - unfold ms_inv in H. cbn [bind] in H. repeat (match type of H with bind (bind ?x _) _ = _ => destruct x; [|discriminate] end; cbn [bind] in H). now injection H as <- _.
  - unfold nt_inv in H. cbn [bind] in H. repeat (match type of H with bind (bind ?x _) _ = _ => destruct x; [|discriminate] end; cbn [bind] in H). now injection H as <- _.
Qed.
Lemma run_pass_settled ms : forall (ps : pass R) ms' ps', Forall settled ms -> run_pass (apply_inv ROps) ms ps = Ok (ms', ps') -> ms' = ms.
Proof.
  induction ms as [|m ms IH]; intros ps ms' ps' S H; cbn [run_pass] in H; [now injection H as <- _|]. inversion S as [|? ? S1 S2]; subst. unfold step_pass in H.
  destruct (apply_inv ROps m (cur ps)) as [[m1 s1]|] eqn:A; [|discriminate]. cbn [bind fst snd] in H.
  destruct (run_pass (apply_inv ROps) ms _) as [[ms1 ps1]|] eqn:E; [|discriminate]. cbn [bind fst snd] in H. injection H as <- _. f_equal; [exact (inv_settled _ _ _ _ S1 A)|exact (IH _ _ _ S2 E)].
Qed.
Lemma back_settled ms (s : sol R) ms' r a : Forall settled ms -> inv_map_sol ROps ms s = Ok (ms', r, a) -> ms' = ms.
Proof.
  unfold inv_map_sol. intros S H. destruct (run_pass (apply_inv ROps) (rev ms) _) as [[m1 ps]|] eqn:E; [|discriminate]. cbn [bind fst snd] in H. injection H as <- _ _.
  apply run_pass_settled in E; [subst m1; apply rev_involutive|]. now apply Forall_rev.
Qed.
(** So every trajectory is mapped back by the same mappers. *)
Lemma post_set_each ms : Forall settled ms -> forall l ms' res, post_set ms l = Ok (ms', res) ->
  ms' = ms /\ Forall2 (fun g r => exists a, inv_map_sol ROps ms (to_sol g) = Ok (ms, r, a)) l res.
Proof.
  intros S. induction l as [|g l IH]; intros ms' res H; cbn [post_set] in H; [injection H as <- <-; split; [reflexivity|constructor]|].
  destruct (inv_map_sol ROps ms (to_sol g)) as [[[m1 r] a]|] eqn:E; [|discriminate]. cbn [bind fst snd] in H. assert (X := back_settled ms _ _ _ _ S E). subst m1.
  destruct (post_set ms l) as [[m2 rs]|] eqn:E2; [|discriminate]. cbn [bind fst snd] in H. injection H as <- <-. destruct (IH _ _ eq_refl) as [-> F]. split; [reflexivity|]. constructor; [now exists a|exact F].
Qed.
Lemma post_each ms : Forall settled ms -> forall out res, post ms out = Ok res ->
  Forall2 (Forall2 (fun g r => exists a, inv_map_sol ROps ms (to_sol g) = Ok (ms, r, a))) out res.
Proof.
  intros S. induction out as [|l out IH]; intros res H; cbn [post] in H; [injection H as <-; constructor|].
  destruct (post_set ms l) as [[m1 rs]|] eqn:E; [|discriminate]. cbn [bind fst snd] in H. destruct (post_set_each ms S l _ _ E) as [-> F].
  destruct (post ms out) as [rss|]; [|discriminate]. cbn [bind] in H. injection H as <-. constructor; [exact F|now apply IH].
Qed.
Lemma post_total ms : Forall settled ms -> forall out, Forall (Forall (fun g => exists ms' r a, inv_map_sol ROps ms (to_sol g) = Ok (ms', r, a))) out -> exists res, post ms out = Ok res.
Proof.
  intros S. assert (T : forall l, Forall (fun g => exists ms' r a, inv_map_sol ROps ms (to_sol g) = Ok (ms', r, a)) l -> exists rs, post_set ms l = Ok (ms, rs)).
  { induction l as [|g l IH]; intros F; cbn [post_set]; [now exists []|]. inversion F as [|? ? (m1 & r & a & E) F']; subst. rewrite E. cbn [bind fst snd]. assert (X := back_settled ms _ _ _ _ S E). subst m1.
    destruct (IH F') as (rs & ->). cbn [bind fst snd]. now eexists. }
  induction out as [|l out IH]; intros F; cbn [post]; [now exists []|]. inversion F as [|? ? F1 F2]; subst. destruct (T l F1) as (rs & ->). cbn [bind fst snd]. destruct (IH F2) as (rss & ->). cbn [bind]. now eexists.
Qed.

(** The duration that a trajectory of the boundary value problem carries. *)
Definition duration (g : traj) : R := nth 0 (s_p (t_body g)) 0%R.
(** The formulas are defined along every curve that [g] can stand for. *)
Definition tidy (lu : list (list expr) -> list expr -> res (list expr)) (fn : string -> nat -> R -> R) (o : options) (p p1 p' : prob) (h : expr) (g : traj) : Prop :=
  forall Y Q t0 c, sampled fn p' Y Q (duration g) (t_body g) -> clock o p c t0 -> reads_off fn p' (p_ind p1) Y [duration g] (s_nu (t_body g)) (s_k (t_body g)) t0 (duration g) c ->
    forall t, (t0 <= t <= t0 + duration g)%R -> defined_at lu fn o p1 p' h (c t).
(** [r] shows, from start to end, a curve that obeys the user's equations and
    boundary conditions and makes their cost stationary, for the constants [k]. *)
Definition optimal_samples (fn : string -> nat -> R -> R) (p : prob) (k : list R) (D : R) (r : sol R) : Prop :=
  exists t0 c, returned p c (s_t r) k r /\ hd 0%R (s_t r) = t0 /\ last (s_t r) 0%R = (t0 + D)%R /\
    Forall (fun t => (t0 <= t <= t0 + D)%R) (s_t r) /\ (forall t i x, nth_error (p_consts p) i = Some x -> c t x = nth i k 0%R) /\
    feasible fn p c t0 (t0 + D)%R /\ extremal fn p c t0 (t0 + D)%R.

Section Solve.
  Variables (lu : list (list expr) -> list expr -> res (list expr)) (solve : list expr -> list string -> list (list expr)) (fn : string -> nat -> R -> R) (sm : list R -> list R -> res R).
  Variables (o : options) (p p1 p' : prob) (fs pre post : list tf) (ms : list (mapper R)) (h : expr).
  Hypothesis LU : lu_ok lu.
  Hypothesis US : user_setup lu solve fn sm o p fs pre post p1 p' ms.
  Hypothesis SU : supported solve fn o p1.
  Hypothesis HH : p_ham p' = Some h.
  Hypothesis SMT : forall ys ts, length ys = length ts -> ts <> [] -> exists v, sm ys ts = Ok v.

  Lemma reached_back g : reached fn p' 0 1 g -> converged g -> (0 < duration g)%R -> tidy lu fn o p p1 p' h g ->
    exists r a, inv_map_sol ROps ms (to_sol g) = Ok (ms, r, a) /\ optimal_samples fn p (t_const g) (duration g) r.
  Proof.
    intros (SP & EK & SA) C D0 WD. destruct SP as ((GO & GU & SH) & H0 & H1 & NE). destruct (SA C) as (F01 & Y & Q & LYQ & EY & EQ & SO).
    destruct (setup_params lu LU solve fn sm o p fs pre post p1 p' ms US) as [PL PQ].
    set (D := duration g) in *. set (s := t_body g) in *.
    assert (ED : s_p s = [D]).
    { destruct SH as [SL _]. rewrite PL in SL. unfold D, duration. fold s. destruct (s_p s) as [|d [|x l]]; try discriminate SL. reflexivity. }
    rewrite ED in SO.
    assert (SM : sampled fn p' Y Q D s).
    { constructor; [exact ED|exact D0|exact NE|intros t I; rewrite Forall_forall in F01; now apply F01|exact EY| |exact SO]. right. exists (length (p_quads p')). rewrite EQ. f_equal. apply map_ext. intros t.
      assert (L := proj2 (LYQ t)). rewrite PQ in L. now destruct (Q t). }
    destruct (C87_curve lu LU solve fn sm o p fs pre post p1 p' ms Y Q D s US SM) as (t0 & c & CL & RO).
    rewrite to_sol_body by exact EK.
    destruct (mapped lu LU solve fn sm o p fs pre post p1 p' ms h Y Q D s t0 c US SU HH SM CL RO (WD Y Q t0 c SM CL RO) SMT) as (r & a & INV & RT & F & E).
    exists r, a. split; [exact INV|]. exists t0, c. rewrite EK. fold s. assert (TT := rt_times _ _ _ _ _ RT).
    split; [rewrite TT; exact RT|]. rewrite TT. split; [destruct (s_t s) as [|x l]; [contradiction|]; cbn in H0 |- *; rewrite H0; ring|].
    split; [rewrite last_map by exact NE; rewrite H1; ring|]. split.
    { apply Forall_forall. intros t I. apply in_map_iff in I. destruct I as (x & <- & I). rewrite Forall_forall in F01. specialize (F01 x I). nra. }
    split; [|split; [exact F|exact E]].
    assert (KC : p_consts p' = p_consts p).
    { clear - US LU. destruct (setup_shift lu solve fn sm o p fs pre post p1 p' ms US) as (_ & E1 & E2 & EP & EQ). destruct US.
      destruct (chain_tail fn sm lu solve o p fs pre post p1 p' ms us_make us_split us_pre us_chain us_norm us_method) as (pD & p2 & p3 & m1 & na & b & lo & hi & HD & HC & HN & HS & CC & _).
      rewrite CC. assert (PR := user_pre o p fs pre post us_make us_split us_bounds us_switches). rewrite PR in us_pre. destruct (o_shift o); cbn [run_tfs apply_tf] in us_pre.
      - destruct (momentum_shift None p) as [q|] eqn:HM; [|discriminate]. cbn [bind] in us_pre. injection us_pre as ->. exact (momentum_consts p p1 HM).
      - injection us_pre as ->. reflexivity. }
    rewrite <- KC. exact (fun t i x I => ro_consts _ _ _ _ _ _ _ _ _ _ RO t i x I).
  Qed.
End Solve.

(** Everything a converged case returns: whatever the continuation strategies,
    whether variables are scaled, and whatever the starting guess, as long as its
    times run from 0 to 1 and its arrays have the sizes of the problem. *)
Theorem C89_returned : forall lu, lu_ok lu -> forall solve fn sm o p p1 p' fs pre post ms h auto compute slv fuel steps guess cn out res,
  user_setup lu solve fn sm o p fs pre post p1 p' ms -> supported solve fn o p1 -> p_ham p' = Some h ->
  (forall ys ts, length ys = length ts -> ts <> [] -> exists v, sm ys ts = Ok v) ->
  scaling_ok auto p' compute -> runs fn p' auto compute slv -> spans p' 0 1 (to_sol guess) ->
  run_set ROps fuel slv steps guess cn = SetDone out -> Full_Model.post ms out = Ok res ->
  Forall2 (Forall2 (fun g r => converged g -> (0 < duration g)%R -> tidy lu fn o p p1 p' h g -> optimal_samples fn p (t_const g) (duration g) r)) out res.
Proof.
  intros lu LU solve fn sm o p p1 p' fs pre post ms h auto compute slv fuel steps guess cn out res US SU HH SMT SC RU SP RS PO.
  assert (RE := set_sound fn p' auto compute slv 0 1 fuel steps guess cn out SC RU SP RS).
  assert (F2 := post_each ms (chain_settled _ _ _ _ _ _ _ _ (us_chain _ _ _ _ _ _ _ _ _ _ _ _ US)) out res PO).
  clear PO RS SP RU. revert RE. induction F2 as [|l rs out res H F2 IH]; intros RE; [constructor|]. inversion RE as [|? ? R1 R2]; subst. constructor; [|now apply IH].
  clear IH F2 RE R2. revert R1. induction H as [|g r l rs (a & E) H IH]; intros R1; [constructor|]. inversion R1 as [|? ? R2 R3]; subst. constructor; [|now apply IH].
  intros C D0 WD. destruct (reached_back lu solve fn sm o p p1 p' fs pre post ms h LU US SU HH SMT g R2 C D0 WD) as (r' & a' & E' & OS). rewrite E in E'. injection E' as <- _. exact OS.
Qed.
Print Assumptions C89_returned.

(** If every case converged with a positive duration, mapping back does not raise. *)
Theorem C89_maps_back : forall lu, lu_ok lu -> forall solve fn sm o p p1 p' fs pre post ms h auto compute slv fuel steps guess cn out,
  user_setup lu solve fn sm o p fs pre post p1 p' ms -> supported solve fn o p1 -> p_ham p' = Some h ->
  (forall ys ts, length ys = length ts -> ts <> [] -> exists v, sm ys ts = Ok v) ->
  scaling_ok auto p' compute -> runs fn p' auto compute slv -> spans p' 0 1 (to_sol guess) ->
  run_set ROps fuel slv steps guess cn = SetDone out ->
  Forall (Forall (fun g => converged g /\ (0 < duration g)%R /\ tidy lu fn o p p1 p' h g)) out -> exists res, Full_Model.post ms out = Ok res.
Proof.
  intros lu LU solve fn sm o p p1 p' fs pre post ms h auto compute slv fuel steps guess cn out US SU HH SMT SC RU SP RS CV.
  assert (RE := set_sound fn p' auto compute slv 0 1 fuel steps guess cn out SC RU SP RS).
  apply post_total; [exact (chain_settled _ _ _ _ _ _ _ _ (us_chain _ _ _ _ _ _ _ _ _ _ _ _ US))|].
  rewrite Forall_forall in *. intros l I. specialize (RE l I). specialize (CV l I). rewrite Forall_forall in *. intros g J. destruct (CV g J) as (C & D0 & WD).
  destruct (reached_back lu solve fn sm o p p1 p' fs pre post ms h LU US SU HH SMT g (RE g J) C D0 WD) as (r & a & E & _). now exists ms, r, a.
Qed.
Print Assumptions C89_maps_back.

(** ** The targets *)
(** The solver with the constants of the guess put into its answer. *)
Definition keeping (slv : Cont_Model.solver R (sol R)) : Cont_Model.solver R (sol R) :=
  fun k g => match slv k g with Ok s => Ok (mkTraj (t_const g) (t_conv s) (t_body s)) | Raise e => Raise e end.
Lemma keeping_keeps slv : keeps_const (keeping slv).
Proof. intros k g s. unfold keeping. destruct (slv k g); [|discriminate]. intros H. injection H as <-. reflexivity. Qed.
(** Two solvers that agree on trajectories of the right shape. *)
Lemma agree_iterate fn p auto compute slv slv' a b : scaling_ok auto p compute -> runs fn p auto compute slv -> (forall k g, spans p a b (to_sol g) -> slv' k g = slv k g) ->
  forall fuel k s guess calls, Forall (fun g => spans p a b (to_sol g)) (s_gammas s) -> iterate ROps fuel slv' k s guess calls = iterate ROps fuel slv k s guess calls.
Proof.
  intros SC RU AG. induction fuel as [|fuel IH]; intros k s guess calls G; [reflexivity|]. cbn [iterate]. destruct (next ROps s) as [s' [g|e]] eqn:N; [|reflexivity].
  destruct (next_from ROps s s' g N) as (E & lg & gi & I1 & I2 & B & L). rewrite Forall_forall in G. assert (SP := spans_body p a b g gi lg (G gi I2) (G lg I1) B L).
  rewrite (AG k g SP). destruct (slv k g) as [sol|e] eqn:SV; [|reflexivity].
  destruct (call_sound fn p auto compute slv a b k g sol SC RU SP SV) as (_ & R2 & R3).
  apply IH. unfold add_gamma. cbn. rewrite E. apply Forall_app. split; [now apply Forall_forall|]. now constructor.
Qed.
Lemma agree_step fn p auto compute slv slv' a b fuel k s guess cn : scaling_ok auto p compute -> runs fn p auto compute slv -> (forall k g, spans p a b (to_sol g) -> slv' k g = slv k g) ->
  spans p a b (to_sol guess) -> run_step ROps fuel slv' k s guess cn = run_step ROps fuel slv k s guess cn.
Proof.
  intros SC RU AG SP. unfold run_step. destruct (init ROps (reset s) guess cn) as [s' [u|e]] eqn:EI; [|reflexivity]. destruct (init_facts ROps (reset s) s' guess cn u EI) as (_ & EG & _).
  apply (agree_iterate fn p auto compute slv slv' a b SC RU AG). rewrite EG. constructor; [exact SP|constructor].
Qed.
Lemma keeping_agrees fn p auto compute slv a b : scaling_ok auto p compute -> runs fn p auto compute slv -> forall k g, spans p a b (to_sol g) -> keeping slv k g = slv k g.
Proof.
  intros SC RU k g SP. unfold keeping. destruct (slv k g) as [sol|e] eqn:SV; [|reflexivity].
  destruct (call_sound fn p auto compute slv a b k g sol SC RU SP SV) as (_ & R2 & _). f_equal. rewrite <- R2. now destruct sol.
Qed.

(** A manual or bisection step with at least two cases that returns has solved the
    user's problem with the constants at their targets. *)
Theorem C89_targets : forall lu, lu_ok lu -> forall solve fn sm o p p1 p' fs pre post ms h auto compute slv fuel k s guess cn n s' lst calls,
  user_setup lu solve fn sm o p fs pre post p1 p' ms -> supported solve fn o p1 -> p_ham p' = Some h ->
  (forall ys ts, length ys = length ts -> ts <> [] -> exists v, sm ys ts = Ok v) ->
  scaling_ok auto p' compute -> runs fn p' auto compute slv -> spans p' 0 1 (to_sol guess) ->
  well_named cn (t_const guess) -> NoDup (map v_name (s_vars s)) -> s_spacing s = Linear -> s_num s = Some n -> (2 <= n)%Z ->
  s_kind s = Manual \/ s_kind s = Bisection /\ (1 <= s_ndiv s)%Z ->
  run_step ROps fuel slv k s guess cn = Finished s' lst calls ->
  at_targets cn (targets (s_vars s)) (t_const guess) (t_const lst) /\
  ((0 < duration lst)%R -> tidy lu fn o p p1 p' h lst -> exists r a, inv_map_sol ROps ms (to_sol lst) = Ok (ms, r, a) /\ optimal_samples fn p (t_const lst) (duration lst) r).
Proof.
  intros lu LU solve fn sm o p p1 p' fs pre post ms h auto compute slv fuel k s guess cn n s' lst calls US SU HH SMT SC RU SP WN ND LI NU N2 KI RS.
  assert (RK := RS). rewrite <- (agree_step fn p' auto compute slv (keeping slv) 0 1 fuel k s guess cn SC RU (keeping_agrees fn p' auto compute slv 0 1 SC RU) SP) in RK.
  assert (T : converged lst /\ In lst (map snd calls) /\ at_targets cn (targets (s_vars s)) (t_const guess) (t_const lst)).
  { destruct KI as [KI|[KI DV]].
    - destruct (C01_manual_reaches_targets ROps (keeping slv) fuel k s guess cn n s' lst calls (keeping_keeps slv) WN ND KI LI NU N2 RK) as (_ & (g & _ & IC) & AT).
      destruct (C03_manual_stops ROps slv fuel k s guess cn _ KI RS) as [_ CV]. destruct (CV s' lst calls n eq_refl NU) as [CV' _].
      assert (IL : In lst (map snd calls)) by (apply in_map_iff; now exists (g, lst)). rewrite Forall_forall in CV'. split; [now apply CV'|]. split; [exact IL|exact AT].
    - exact (C05_bisection_targets ROps (keeping slv) fuel k s guess cn n s' lst calls (keeping_keeps slv) WN ND KI LI NU N2 DV RK). }
  destruct T as (C & IL & AT). split; [exact AT|]. intros D0 WD.
  assert (RE : reached fn p' 0 1 lst).
  { unfold run_step in RS. destruct (init ROps (reset s) guess cn) as [s1 [u|e]] eqn:EI; [|discriminate]. destruct (init_facts ROps (reset s) s1 guess cn u EI) as (_ & EG & _).
    destruct (iterate_sound fn p' auto compute slv 0 1 SC RU fuel k s1 guess []) with (s' := s') (last := lst) (calls' := calls) as [_ F]; [|exact RS|].
    - rewrite EG. split; [|split; [exact SP|constructor]]. constructor; [exact SP|constructor].
    - rewrite Forall_forall in F. apply in_map_iff in IL. destruct IL as (c & <- & IC). exact (proj1 (F c IC)). }
  exact (reached_back lu solve fn sm o p p1 p' fs pre post ms h LU US SU HH SMT lst RE C D0 WD).
Qed.
Print Assumptions C89_targets.

(** ** The log *)
(** The residuals that are logged for a converged case are zero, one for every
    boundary condition, so logging raises only for a problem without any. *)
Theorem C89_residuals : forall fn p auto compute sb al g al' r,
  scaling_ok auto p compute -> honest (length (p_states p) + length (p_quads p)) sb -> carries fn p al -> guess_for p (to_sol g) -> s_t (t_body g) <> [] ->
  loop_solve ROps auto compute sb al (to_sol g) = Ok (al', r) -> sr_converged r = true ->
  (exists rs, residuals al' (sr_sol r) = Ok rs /\ Forall (fun x => x = 0%R) rs /\ length rs = length (p_ci p) + length (p_ct p)) /\
  (solve_case auto compute true sb al g = if length (p_ci p) + length (p_ct p) =? 0 then Raise ValueError else Ok (al', of_result r)).
Proof.
  intros fn p auto compute sb al g al' r SC HO CA GF NE LS CV.
  destruct (case_sound fn p auto compute sb al (to_sol g) al' r SC HO CA GF NE LS) as (CA' & SP & _ & SA).
  destruct (residuals_zero fn p _ _ al' (sr_sol r) CA' SP (SA CV)) as (rs & E & Z & L). split; [now exists rs|].
  unfold solve_case. rewrite LS. cbn [bind fst snd]. rewrite E. cbn [bind]. rewrite <- L. now destruct rs.
Qed.
Print Assumptions C89_residuals.

(** ** Example *)
(** A solve_bvp that finds a solution with positive duration whenever there is one. *)
Definition finds (n : nat) (sb : handed (F := R) -> res (opt (F := R))) : Prop :=
  forall h, (exists o, o_success o = true /\ (0 < nth 0 (params_of o) 0)%R /\ answer_ok n h o) -> exists o, sb h = Ok o /\ o_success o = true /\ (0 < nth 0 (params_of o) 0)%R.

(** From x0 to x0 + 1 with cost 1 + u^2, for a constant x0. *)
Definition go_k : prob :=
  mkProb "t" [("x", Var "u")] [] [] [] ["u"] [] [plain (Sub (Var "x") (Var "x0"))] [] [plain (Sub (Var "x") (Add (Var "x0") (Cst 1)))] [] []
    (Cst 0) (Add (Cst 1) (Mul (Var "u") (Var "u"))) (Cst 0) ["x0"] [] [] [] None [] true false.
Definition go_pk : prob := Eval vm_compute in go_bvp go_alg go_k.
Lemma go_ksetup : user_setup lu_gauss (solve_linear lu_gauss) ex_fn scipy_simpson go_alg go_k (go_tfs go_alg go_k) [] [FAlg; FNorm; FSquash] go_k go_pk (go_ms go_alg go_k).
Proof.
  apply mkSetup.
  - reflexivity.
  - reflexivity.
  - reflexivity.
  - apply go_chain. vm_compute. reflexivity.
  - no_bounds.
  - reflexivity.
  - reflexivity.
  - left. reflexivity.
  - left. split; [reflexivity|]. split; [discriminate|]. split.
    + intros cand e x I J V. cbn in I. destruct I as [ <-|[]]. cbn in J. destruct J as [ <-|[]]. cbn in V. repeat (destruct V as [ <-|V]; [cbn; tauto|]). destruct V.
    + intros h x H I. injection H as <-. cbn in I. repeat (destruct I as [ <-|I]; [cbn; tauto|]). destruct I.
  - repeat split.
  - names.
  - discriminate.
  - split; [intros x []|]. intros x I. cbn in I. repeat (destruct I as [ <-|I]; [cbn; tauto|]). destruct I.
Qed.
Lemma go_pk_solves x0 : solves ex_fn go_pk 0 1 (fun s => [x0 + s; -2]%R) (fun _ => []) [1%R] [2; -2]%R [x0].
Proof.
  split.
  - intros t Ht. eexists. eexists. split; [reflexivity|]. split; [reflexivity|]. split; [|intros i Hi; cbn in Hi; lia].
    intros [|[|i]] Hi; [| |cbn in Hi; lia].
    + cbn. line 1%R x0.
    + cbn. line 0%R (-2)%R.
  - eexists. split; [reflexivity|]. repeat (apply Forall_cons; [cbn; lra|]). apply Forall_nil.
Qed.
Definition go_kalg : spalg (F := R) := mkSpalg (deriv_of ex_fn go_pk) (quad_of ex_fn go_pk) (bc5 (fun y0 yf pp pc k => bc_of ex_fn go_pk y0 [] yf [] pp pc k)) None None 20.
Definition go_kguess : traj := mkTraj [0]%R FTrue (mkSol [0; 1]%R [] (Mat 2 [[0; 0]; [3; 0]]%R) E1 E1 E1 E1 [1]%R [0; 0]%R [0]%R 0%R).
Definition go_kslv (sb : handed (F := R) -> res (opt (F := R))) : Cont_Model.solver R (sol R) :=
  fun _ g => match solve_case false (fun _ => mkFactors 1%R [] [] [] [] [] []) true sb go_kalg g with Ok r => Ok (snd r) | Raise e => Raise e end.
Lemma go_kruns sb : honest 2 sb -> runs ex_fn go_pk false (fun _ => mkFactors 1%R [] [] [] [] [] []) (go_kslv sb).
Proof. intros HO k g. exists true, sb, go_kalg. split; [exact HO|]. split; [repeat split|reflexivity]. Qed.
Lemma go_kconverges sb : honest 2 sb -> finds 2 sb -> forall k g, spans go_pk 0 1 (to_sol g) -> exists sol, go_kslv sb k g = Ok sol /\ converged sol /\ (0 < duration sol)%R.
Proof.
  intros HO FI k g (GF & H0 & H1 & NE).
  destruct (C83_unscaled_collocation ex_fn go_pk go_kalg (to_sol g) (fun _ => mkFactors 1%R [] [] [] [] [] [])) as (h & HT & HP & IFF & _ & CV & RUN); [repeat split|exact GF|].
  assert (KX : exists x0, s_k (to_sol g) = [x0]).
  { destruct GF as (_ & _ & (_ & _ & LK)). cbn in LK |- *. destruct (t_const g) as [|x0 [|y l]]; try discriminate LK. now exists x0. }
  destruct KX as (x0 & KX). cbn [length p_states p_quads go_pk Nat.add] in *.
  assert (PP : length (h_p h) = 3) by (rewrite HP, app_length; destruct GF as (_ & _ & (L1 & L2 & _)); rewrite L1, L2; reflexivity).
  assert (NH : h_t h <> []) by (rewrite HT; exact NE).
  destruct (FI h) as (o & SB & OS & OD).
  { exists (mkOpt [0; 1]%R [[x0; -2]; [x0 + 1; -2]]%R (Some [1; 2; -2]%R) true "" 1). split; [reflexivity|]. split; [cbn; lra|].
    assert (GR : good_result 0 h 2 (mkOpt [0; 1]%R [[x0; -2]; [x0 + 1; -2]]%R (Some [1; 2; -2]%R) true "" 1)).
    { unfold good_result. rewrite HT, H0, H1, PP. cbn [hd last o_x o_y params_of o_p length]. split; [reflexivity|]. split; [reflexivity|]. split; [repeat (apply Forall_cons; [lra|]); apply Forall_nil|]. split; [reflexivity|].
      exists (fun s => [x0 + s; -2]%R). split; [reflexivity|]. split; [cbn; now rewrite Rplus_0_r|].
      assert (S := proj1 (IFF 0%R 1%R (fun s => [x0 + s; -2]%R) (fun _ => []) [1]%R [2; -2]%R (fun _ => eq_refl) (fun _ => eq_refl) eq_refl eq_refl)). rewrite KX in S. exact (S (go_pk_solves x0)). }
    split; [discriminate|]. rewrite HT, H0, H1, PP. repeat (split; [reflexivity|]). intros _. exact GR. }
  destruct (RUN sb o SB) as (al' & r & LS & C & _ & _ & _ & _ & PA & _); [now apply (HO h o SB)|]. rewrite OS in C.
  destruct (C89_residuals ex_fn go_pk false (fun _ => mkFactors 1%R [] [] [] [] [] []) sb go_kalg g al' r) as [_ E]; [discriminate|exact HO|repeat split|exact GF|exact NE|exact LS|exact C|].
  destruct (case_sound ex_fn go_pk false (fun _ => mkFactors 1%R [] [] [] [] [] []) sb go_kalg (to_sol g) al' r) as (_ & ((_ & _ & (LP & _)) & _) & _); [discriminate|exact HO|repeat split|exact GF|exact NE|exact LS|].
  exists (of_result r). unfold go_kslv. rewrite E. split; [reflexivity|]. split; [unfold of_result; rewrite C; reflexivity|].
  unfold duration, of_result. cbn [t_body]. rewrite <- PA in OD. cbn in LP. rewrite app_nth1 in OD by (rewrite LP; lia). exact OD.
Qed.
Lemma go_kspans : spans go_pk 0 1 (to_sol go_kguess).
Proof.
  split; [|repeat split; discriminate]. split; [|split; [now left|repeat split]]. eexists. split; [reflexivity|]. split; [discriminate|]. now left.
Qed.
Lemma go_kdefined g : tidy lu_gauss ex_fn go_alg go_k go_k go_pk (Add (Add (Cst 1) (Mul (Var "u") (Var "u"))) (Mul (Var "_lam_x") (Var "u"))) g.
Proof. intros Y Q t0 c _ _ _ t _. split; [cbn; tauto|]. split; [intros Z; discriminate Z|]. split; [|intros Z; discriminate Z]. intros _. repeat (apply Forall_cons || apply Forall_nil); cbn; repeat split; lra. Qed.

Lemma last_snd {A B} (l : list (A * B)) d : last (map snd l) (snd d) = snd (last l d).
Proof. induction l as [|c l IH]; [reflexivity|]. destruct l; [reflexivity|]. exact IH. Qed.

(** Three manual cases move x0 from 0 to 5; the last trajectory returned is a
    sampled stationary point of the problem with x0 = 5. *)
Example C89_ex sb : honest 2 sb -> finds 2 sb -> exists out res,
  run_set ROps 10 (go_kslv sb) (Some [set_const (new_manual 3) "x0" 5%R]) go_kguess ["x0"] = SetDone [out] /\ length out = 3 /\ Full_Model.post (go_ms go_alg go_k) [out] = Ok [res] /\
  Forall2 (fun g r => converged g /\ (0 < duration g)%R /\ optimal_samples ex_fn go_k (t_const g) (duration g) r) out res /\
  t_const (last out go_kguess) = [5]%R.
Proof.
  intros HO FI. set (slv := go_kslv sb). assert (RU := go_kruns sb HO). fold slv in RU.
  assert (SC : scaling_ok false go_pk (fun _ => mkFactors 1%R [] [] [] [] [] [])) by discriminate.
  set (gslv := fun k g => match slv k g with Ok s => if truthy (t_conv s) then Ok (mkTraj (t_const g) (t_conv s) (t_body s)) else Ok (mkTraj (t_const g) FTrue (t_body g)) | Raise _ => Ok (mkTraj (t_const g) FTrue (t_body g)) end).
  assert (GS : good_solver gslv).
  { intros k g. unfold gslv. destruct (slv k g) as [s|e]; [destruct (truthy (t_conv s)) eqn:C|]; eexists; (split; [reflexivity|]); (split; [reflexivity|]); [exact C|reflexivity|reflexivity]. }
  assert (AG : forall k g, spans go_pk 0 1 (to_sol g) -> gslv k g = slv k g).
  { intros k g SP. unfold gslv. destruct (go_kconverges sb HO FI k g SP) as (s & E & C & _). fold slv in E. rewrite E. unfold converged in C. rewrite C.
    destruct (call_sound ex_fn go_pk false _ slv 0 1 k g s SC RU SP E) as (_ & R2 & _). f_equal. rewrite <- R2. now destruct s. }
  set (s := set_const (new_manual 3) "x0" 5%R : strat R (sol R)).
  assert (WN : well_named ["x0"] (t_const go_kguess)) by (split; [repeat constructor; cbn; tauto|reflexivity]).
  destruct (all_converge ROps gslv 10 0 s go_kguess ["x0"] 3) as (s' & lst & calls & RS & LEN & CV); try reflexivity; try lia; [exact GS|exact WN|left; reflexivity|discriminate|repeat constructor|].
  rewrite (agree_step ex_fn go_pk false _ slv gslv 0 1 10 0 s go_kguess ["x0"] SC RU AG go_kspans) in RS.
  assert (SET : run_set ROps 10 slv (Some [s]) go_kguess ["x0"] = SetDone [map snd calls]) by (unfold run_set; cbn [run_steps]; rewrite RS; reflexivity).
  destruct (C89_targets lu_gauss lu_gauss_ok (solve_linear lu_gauss) ex_fn scipy_simpson go_alg go_k go_k go_pk (go_tfs go_alg go_k) [] [FAlg; FNorm; FSquash] (go_ms go_alg go_k) _ false _ slv 10 0 s go_kguess ["x0"] 3 s' lst calls
    go_ksetup (or_introl (conj eq_refl (C67_linear_solver_sound _ lu_gauss_ok))) eq_refl simpson_total SC RU go_kspans WN) as [AT _]; try reflexivity; try lia.
  { repeat constructor; cbn; tauto. }
  { now left. }
  { exact RS. }
  destruct (C01_manual_reaches_targets ROps (keeping slv) 10 0 s go_kguess ["x0"] 3 s' lst calls (keeping_keeps slv) WN) as (_ & (g & LA & _) & _); try reflexivity; try lia; [repeat constructor; cbn; tauto| |].
  { rewrite <- RS. apply (agree_step ex_fn go_pk false _ slv (keeping slv) 0 1 10 0 s go_kguess ["x0"] SC RU (keeping_agrees ex_fn go_pk false _ slv 0 1 SC RU) go_kspans). }
  assert (OUT : Forall (fun g => converged g /\ (0 < duration g)%R) (map snd calls)).
  { unfold run_step in RS. destruct (init ROps (reset s) go_kguess ["x0"]) as [s1 [u|e]] eqn:EI; [|discriminate]. destruct (init_facts ROps (reset s) s1 go_kguess ["x0"] u EI) as (_ & EG & _).
    destruct (iterate_sound ex_fn go_pk false _ slv 0 1 SC RU 10 0 s1 go_kguess []) with (s' := s') (last := lst) (calls' := calls) as [_ F]; [|exact RS|].
    - rewrite EG. split; [|split; [exact go_kspans|constructor]]. constructor; [exact go_kspans|constructor].
    - apply Forall_forall. intros x I. apply in_map_iff in I. destruct I as (c & <- & I). rewrite Forall_forall in F. destruct (F c I) as (_ & _ & SP & (k & SV)).
      destruct (go_kconverges sb HO FI k (fst c) SP) as (x & E & C). assert (EE := eq_trans (eq_sym SV) E). injection EE as <-. exact C. }
  destruct (C89_maps_back lu_gauss lu_gauss_ok (solve_linear lu_gauss) ex_fn scipy_simpson go_alg go_k go_k go_pk (go_tfs go_alg go_k) [] [FAlg; FNorm; FSquash] (go_ms go_alg go_k) _ false _ slv 10 (Some [s]) go_kguess ["x0"] [map snd calls]
    go_ksetup (or_introl (conj eq_refl (C67_linear_solver_sound _ lu_gauss_ok))) eq_refl simpson_total SC RU go_kspans SET) as (res & PO).
  { constructor; [|constructor]. revert OUT. apply Forall_impl. intros x [C D]. split; [exact C|]. split; [exact D|apply go_kdefined]. }
  assert (RT := C89_returned lu_gauss lu_gauss_ok (solve_linear lu_gauss) ex_fn scipy_simpson go_alg go_k go_k go_pk (go_tfs go_alg go_k) [] [FAlg; FNorm; FSquash] (go_ms go_alg go_k) _ false _ slv 10 (Some [s]) go_kguess ["x0"] [map snd calls] res
    go_ksetup (or_introl (conj eq_refl (C67_linear_solver_sound _ lu_gauss_ok))) eq_refl simpson_total SC RU go_kspans SET PO).
  inversion RT as [|l rs out' res' F2 F3]; subst. inversion F3; subst. exists (map snd calls), rs. split; [exact SET|]. split; [rewrite map_length; apply Nat2Z.inj; exact LEN|]. split; [exact PO|]. split.
  - clear - F2 OUT. induction F2 as [|g r l rs H F2 IH]; [constructor|]. inversion OUT as [|? ? [C D] O2]; subst. constructor; [|now apply IH]. split; [exact C|]. split; [exact D|apply H; [exact C|exact D|apply go_kdefined]].
  - replace (last (map snd calls) go_kguess) with lst.
    + destruct AT as [LT AT]. specialize (AT 0 "x0" eq_refl). cbn in AT. cbn in LT. destruct (t_const lst) as [|x [|y l]]; try discriminate LT. cbn in AT. injection AT as ->. reflexivity.
    + symmetry. exact (eq_trans (last_snd calls (g, go_kguess)) (f_equal snd LA)).
Qed.

(** Such a solve_bvp exists. *)
From Coq Require Import ClassicalEpsilon.
Definition good_answer (n : nat) (h : handed (F := R)) (o : opt (F := R)) : Prop := o_success o = true /\ (0 < nth 0 (params_of o) 0)%R /\ answer_ok n h o.
Definition ideal (n : nat) (h : handed (F := R)) : res (opt (F := R)) :=
  match excluded_middle_informative (exists o, good_answer n h o) with
  | left E => Ok (proj1_sig (constructive_indefinite_description _ E))
  | right _ => Raise RuntimeError
  end.
Example C89_ideal n : honest n (ideal n) /\ finds n (ideal n).
Proof.
  split.
  - intros h o. unfold ideal. destruct (excluded_middle_informative _) as [E|E]; [|discriminate]. intros H. injection H as <-. apply (proj2_sig (constructive_indefinite_description _ E)).
  - intros h (o & G). unfold ideal. destruct (excluded_middle_informative _) as [E|E]; [|exfalso; apply E; now exists o].
    destruct (proj2_sig (constructive_indefinite_description _ E)) as (G1 & G2 & _). eexists. split; [reflexivity|]. now split.
Qed.

(** ** Finding: nothing keeps the duration positive *)
(** For the same problem u = -1 for -1 units of time solves the boundary value
    problem as well, and mapping it back gives times that run from 0 to -1. *)
Lemma go_pk_backwards x0 : solves ex_fn go_pk 0 1 (fun s => [x0 + s; 2]%R) (fun _ => []) [(-1)%R] [-2; 2]%R [x0].
Proof.
  split.
  - intros t Ht. eexists. eexists. split; [reflexivity|]. split; [reflexivity|]. split; [|intros i Hi; cbn in Hi; lia].
    intros [|[|i]] Hi; [| |cbn in Hi; lia].
    + cbn. line 1%R x0.
    + cbn. line 0%R 2%R.
  - eexists. split; [reflexivity|]. repeat (apply Forall_cons; [cbn; lra|]). apply Forall_nil.
Qed.
Definition back_opt : opt (F := R) := mkOpt [0; 1]%R [[0; 2]; [1; 2]]%R (Some [-1; -2; 2]%R) true "" 1.
Definition back_sb (h : handed (F := R)) : res (opt (F := R)) := if excluded_middle_informative (answer_ok 2 h back_opt) then Ok back_opt else Raise RuntimeError.
Definition back_sol : traj := mkTraj [0]%R FTrue (mkSol [0; 1]%R [] (Mat 2 [[0; 2]; [1; 2]]%R) (Mat 2 [[0; 0]; [0; 0]]%R) (Mat 0 [[]; []]) E1 E1 [-1]%R [-2; 2]%R [0]%R 0%R).
Lemma back_map : exists r a, inv_map_sol ROps (go_ms go_alg go_k) (to_sol back_sol) = Ok (go_ms go_alg go_k, r, a) /\ s_t r = [0 * -1; 1 * -1]%R.
Proof. eexists _, _. split; [vm_compute; reflexivity|]. vm_compute. reflexivity. Qed.
Lemma back_run : go_kslv (fun _ => Ok back_opt) 0 go_kguess = Ok back_sol.
Proof. vm_compute. reflexivity. Qed.
Lemma back_honest : honest 2 back_sb.
Proof. intros h o. unfold back_sb. destruct (excluded_middle_informative _) as [E|E]; [|discriminate]. intros H. injection H as <-. exact E. Qed.
Lemma back_answers : go_kslv back_sb 0 go_kguess = Ok back_sol.
Proof.
  destruct (C83_unscaled_collocation ex_fn go_pk go_kalg (to_sol go_kguess) (fun _ => mkFactors 1%R [] [] [] [] [] [])) as (h & HT & HP & IFF & _ & CV & RUN); [repeat split|exact (proj1 go_kspans)|].
  assert (GR : good_result 0 h 2 back_opt).
  { unfold good_result. rewrite HT, HP. cbn [hd last o_x o_y params_of o_p length back_opt to_sol set_k go_kguess t_body t_const s_t s_p s_nu app]. split; [reflexivity|]. split; [reflexivity|]. split; [repeat (apply Forall_cons; [lra|]); apply Forall_nil|]. split; [reflexivity|].
    exists (fun s => [0 + s; 2]%R). split; [reflexivity|]. split; [cbn; rewrite !Rplus_0_l; reflexivity|].
    exact (proj1 (IFF 0%R 1%R (fun s => [0 + s; 2]%R) (fun _ => []) [-1]%R [-2; 2]%R (fun _ => eq_refl) (fun _ => eq_refl) eq_refl eq_refl) (go_pk_backwards 0)). }
  assert (OK : answer_ok 2 h back_opt).
  { split; [discriminate|]. rewrite HT, HP. repeat (split; [reflexivity|]). intros _. exact GR. }
  assert (SB : back_sb h = Ok back_opt) by (unfold back_sb; destruct (excluded_middle_informative _) as [E|E]; [reflexivity|contradiction]).
  destruct (RUN back_sb back_opt SB GR) as (al' & r & LS & _).
  rewrite <- back_run. unfold go_kslv, solve_case, loop_solve, sp_solve in *. cbv zeta in *. cbn [bind] in *.
  destruct (sp_handed ROps go_kalg (to_sol go_kguess)) as [[[[al0 n0] m0] h0]|e]; [|reflexivity]. cbn [bind] in *.
  assert (S0 : back_sb h0 = Ok back_opt).
  { revert LS. unfold back_sb. destruct (excluded_middle_informative (answer_ok 2 h0 back_opt)) as [E|E]; [reflexivity|]. cbn [bind]. discriminate. }
  rewrite S0. reflexivity.
Qed.
Theorem C89_duration_positive_refuted : exists (sb : handed (F := R) -> res (opt (F := R))) g r,
  honest 2 sb /\ spans go_pk 0 1 (to_sol go_kguess) /\
  run_set ROps 10 (go_kslv sb) None go_kguess ["x0"] = SetDone [[g]] /\ converged g /\
  post (go_ms go_alg go_k) [[g]] = Ok [[r]] /\ (last (s_t r) 0 < hd 0 (s_t r))%R.
Proof.
  destruct back_map as (r & a & IM & TS). exists back_sb, back_sol, r.
  split; [exact back_honest|]. split; [exact go_kspans|]. split; [unfold run_set; rewrite back_answers; reflexivity|]. split; [reflexivity|].
  split; [unfold Full_Model.post, post_set; rewrite IM; reflexivity|]. rewrite TS. cbn. lra.
Qed.
Print Assumptions C89_duration_positive_refuted.
