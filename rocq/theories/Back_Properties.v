(** C100: the solution of the boundary value problem can be mapped back.

    After the last continuation step beluga.solve maps the solutions back to the
    problem of the user (Problem.map_sol with inverse=True); on the way the mapper
    of Dualize computes the cost, compile_cost of
    beluga/numeric/compilation/component_compilation.py lines 40-59.  If the names
    of the problem are declared and the costs at the ends contain no controls, the
    cost is computed for every trajectory without quadratures.  With unknown
    parameters the boundary value problem has quadratures, which no mapper removes
    (SquashToBVPMapper, trajectory_mappers.py lines 349-370, never uses its
    coparameter_idxs), and computing the cost always raises. *)
From Coq Require Import Reals Lia.
From Verif Require Import Base Base_Facts Sym_Expr Sym_Facts Sym_Model Sym_Lu Sym_Dual Swi_Proofs Args_Proofs Args_Steps.
From Verif Require Import Map_Model Map_More Jac_Model Unit_Model Chain_Model Chain_Facts Shift_Properties Args_Properties.
From Verif Require Import Sym_Model.
Open Scope string_scope.
Open Scope list_scope.
Open Scope nat_scope.

(** ** The functors before Dualize *)
Definition early (f : tf) : Prop := f = FMomentum \/ f = FEps \/ f = FUtm \/ f = FRashs.
Lemma subs_quads x n p : syms (p_quads (subs_all x n p)) = syms (p_quads p).
Proof. cbn. unfold syms. rewrite map_map. apply map_ext. now intros (a, b). Qed.
Lemma rashs_quads p q : rashs p = Ok q -> syms (p_quads q) = syms (p_quads p).
Proof.
  unfold rashs. destruct (p_symp p); [|discriminate]. intros H. apply Ok_inj in H. subst q. generalize (seq 0 (length (p_switches p))) as l. intros l. revert p. induction l as [|i l IH]; intros p; cbn; [reflexivity|].
  rewrite IH. unfold rashs_at. destruct (nth_error _ _) as [s|]; [|reflexivity]. destruct (sw_sym s); [apply subs_quads|reflexivity].
Qed.
Lemma maps_quads p m : p_quads (set_maps p m) = p_quads p.
Proof. reflexivity. Qed.
Lemma eps_quads p q : eps_trig p = Ok q -> syms (p_quads q) = syms (p_quads p).
Proof.
  intros H. unfold eps_trig in H. destruct (p_symp p); [|discriminate]. destruct (find_at _ _) as [(k, c)|]; [|discriminate]. cbv zeta in H. destruct (c_expr c); try discriminate H. destruct (index_of _ _); [|discriminate]. destruct (set_nth _ _ _); [|discriminate]. cbn [bind] in H.
  destruct (c_act c); [|discriminate]. destruct (c_lower c); [|discriminate]. destruct (c_upper c); [|discriminate]. apply Ok_inj in H. subst q. rewrite maps_quads, subs_quads. reflexivity.
Qed.
Lemma utm_quads p q : utm p = Ok q -> p_quads q = p_quads p.
Proof.
  intros H. unfold utm in H. destruct (p_symp p); [|discriminate]. destruct (find_at utm_sel (p_ci p)) as [(k, c)|].
  - destruct (utm_term p c); [|discriminate]. cbn [bind] in H. apply Ok_inj in H. subst q. reflexivity.
  - destruct (find_at utm_sel (p_cp p)) as [(k, c)|].
    + destruct (utm_term p c); [|discriminate]. cbn [bind] in H. apply Ok_inj in H. subst q. reflexivity.
    + destruct (find_at utm_sel (p_ct p)) as [(k, c)|]; [|discriminate]. destruct (utm_term p c); [|discriminate]. cbn [bind] in H. apply Ok_inj in H. subst q. reflexivity.
Qed.
Lemma early_quads lu solve : forall fs p q, Forall early fs -> run_tfs lu solve fs p = Ok q -> syms (p_quads q) = syms (p_quads p).
Proof.
  induction fs as [|f fs IH]; intros p q F H; cbn in H; [apply Ok_inj in H; now subst q|]. destruct (apply_tf lu solve f p) as [p'|] eqn:E; [|discriminate]. cbn [bind] in H. apply Forall_cons_iff in F as (F1 & F2). rewrite (IH p' q F2 H).
  destruct F1 as [ ->|[ ->|[ ->| ->]]]; cbn [apply_tf] in E.
  - unfold momentum_shift in E. destruct (p_symp p); [|discriminate]. apply Ok_inj in E. now subst p'.
  - now apply eps_quads.
  - now rewrite (utm_quads p p' E).
  - now apply rashs_quads.
Qed.
Lemma two_early cons : Forall (fun f => f = FEps \/ f = FUtm) cons -> Forall early cons.
Proof. apply Forall_impl. unfold early. tauto. Qed.
(** They are the pipeline of the direct method without time normalisation. *)
Definition no_norm (o : options) : options := mkOpt false (o_control o) (o_method o) (o_shift o) false.
Lemma split_dual m m' (B post : list tf) : (forall a, ~ In (FDual a) B) -> forall A pre, Forall early A -> A ++ FDual m' :: B = pre ++ FDual m :: post -> pre = A /\ post = B.
Proof.
  intros NB. induction A as [|a A IH]; intros [|b pre] F E; cbn in E.
  - split; congruence.
  - exfalso. apply (NB m). injection E as _ ->. apply in_app_iff. right. now left.
  - exfalso. injection E as -> _. apply Forall_cons_iff in F as (F & _). unfold early in F. intuition discriminate.
  - injection E as -> E. apply Forall_cons_iff in F as (_ & F). destruct (IH pre F E) as (-> & ->). split; reflexivity.
Qed.
Lemma early_pre o p fs pre m post : make_indirect o p = Ok fs -> fs = pre ++ FDual m :: post -> Forall early pre /\ make_direct (no_norm o) p = Ok pre /\
  exists ctl, (ctl = FAlg \/ ctl = FDiff (o_method o)) /\ post = [ctl] ++ (if o_norm o then [FNorm] else []) ++ [FSquash] ++ (if o_jac o && negb (String.eqb (o_control o) "algebraic") then [FJac] else []).
Proof.
  intros MK EF. unfold make_indirect in MK. unfold make_direct. destruct (constraint_tfs (all_constraints p)) as [cons|] eqn:EC; [|discriminate]. cbn [bind] in MK |- *. apply constraint_two in EC. apply two_early in EC.
  destruct (if String.eqb (lower (o_control o)) "algebraic" then _ else _) as [ctl|] eqn:ECT; [|discriminate]. cbn [bind] in MK. apply Ok_inj in MK. rewrite EF in MK. cbn [no_norm o_shift o_norm o_jac].
  assert (CT : ctl = FAlg \/ ctl = FDiff (o_method o)) by (destruct (String.eqb (lower (o_control o)) "algebraic"); [apply Ok_inj in ECT; now left|]; destruct (String.eqb (lower (o_control o)) "differential"); [apply Ok_inj in ECT; now right|discriminate]).
  set (A := (if o_shift o then [FMomentum] else []) ++ cons ++ (if Nat.ltb 0 (length (p_switches p)) then [FRashs] else [])).
  set (B := [ctl] ++ (if o_norm o then [FNorm] else []) ++ [FSquash] ++ (if o_jac o && negb (String.eqb (o_control o) "algebraic") then [FJac] else [])) in *.
  assert (FA : Forall early A).
  { unfold A. rewrite !Forall_app. split; [|split]; [destruct (o_shift o)|exact EC|destruct (Nat.ltb _ _)]; (constructor; [unfold early; auto|constructor]) || constructor. }
  assert (NB : forall m', ~ In (FDual m') B).
  { intros m' I. unfold B in I. rewrite !in_app_iff in I. destruct CT as [ ->| ->]; destruct (o_norm o); destruct (_ && _); cbn in I; intuition discriminate. }
  assert (MK' : A ++ FDual (o_method o) :: B = pre ++ FDual m :: post) by (unfold A; rewrite <- !app_assoc; exact MK).
  destruct (split_dual _ _ B post NB A pre FA MK') as (-> & ->). split; [exact FA|]. split; [unfold A; now rewrite !app_nil_r|]. now exists ctl.
Qed.
Lemma named_no_norm o rank p : named o rank p -> named (no_norm o) rank p.
Proof. intros [N1 N2 N3 N4 N5 N6 N7 N8 N9]. constructor; assumption. Qed.

(** ** The cost is computed *)
Lemma last_in {A} (d : A) : forall l, l <> [] -> In (last l d) l.
Proof. induction l as [|a [|b l] IH]; intros N; [easy|now left|]. right. apply IH. discriminate. Qed.
Lemma mapM_total {A B} (f : A -> res B) : forall l, (forall a, In a l -> exists b, f a = Ok b) -> exists r, mapM f l = Ok r /\ length r = length l.
Proof.
  induction l as [|a l IH]; intros H; cbn; [now exists []|]. destruct (H a (or_introl eq_refl)) as (b & ->). cbn [bind]. destruct IH as (r & -> & L); [intros c I; apply H; now right|]. cbn [bind]. exists (b :: r). cbn. now rewrite L.
Qed.
Theorem C100_cost : forall lu solve o rank p p1 fs pre m post q fn sm t w rows (qs us : arr R) pp k,
  named o rank p -> sympify p = Ok p1 -> make_indirect o p = Ok fs -> fs = pre ++ FDual m :: post -> run_tfs lu solve pre p1 = Ok q ->
  (forall x, In x (vars (p_cost_i q) ++ vars (p_cost_t q)) -> ~ In x (p_controls q ++ p_cpars q)) ->
  rows <> [] -> (forall r, In r rows -> length r = length (p_states q)) -> (forall u, In u (arows us) -> length u = length (p_controls q)) ->
  length pp = length (p_params q) -> length k = length (p_consts q) -> alen qs = 0 ->
  (forall l, length l = length (combine rows (arows us)) -> exists v, sm l t = Ok v) ->
  exists v, compute_cost fn sm q t (Mat w rows) qs us pp k = Ok v.
Proof.
  intros lu solve o rank p p1 fs pre m post q fn sm t w rows qs us pp k NM SY MK EF RUN NC NE LR LUS LP LK LQ SM.
  destruct (early_pre o p fs pre m post MK EF) as (EA & MD & _).
  destruct (direct_whole lu solve (no_norm o) rank p p1 pre q (named_no_norm o rank p NM) SY MD RUN) as (W & (F1 & F2 & F3) & _).
  assert (QN : syms (p_quads q) = []).
  { rewrite (early_quads lu solve pre p1 q EA RUN). destruct (nm_start _ _ _ NM) as (_ & _ & S3 & _). unfold sympify in SY. cbn [set_symp set_switches set_quants p_states] in SY. destruct (p_states p); [discriminate|]. apply Ok_inj in SY. subst p1. cbn. now rewrite S3. }
  unfold compute_cost. cbv zeta. rewrite ?LQ, QN. cbn [Nat.ltb Nat.leb].
  destruct rows as [|r rows]; [easy|]. cbn [first_row last_row get nth_error bind].
  assert (END : forall e y, only (at_ends q) e -> (forall x, In x (vars e) -> ~ In x (p_controls q ++ p_cpars q)) -> length y = length (p_states q) -> exists v, call1 fn [syms (p_states q); []; p_params q; p_consts q] e [y; []; pp; k] = Ok v).
  { intros e y O C Y. unfold call1. rewrite (call_fits fn).
    - cbn. eexists. reflexivity.
    - reflexivity.
    - cbn. intros g v [E|[E|[E|[E|[]]]]]; injection E as <- <-; try reflexivity; try congruence. rewrite Y. apply map_length.
    - intros e' I x V. destruct I as [ <-|[]]. specialize (O x V). specialize (C x V). rewrite in_app_iff in C. unfold at_ends, along in O. rewrite F1, F2, F3, QN in O. cbn in O |- *. rewrite !in_app_iff. cbn. tauto. }
  destruct (END (p_cost_i q) r (ln_cost_i _ _ _ W)) as (c0 & ->); [intros x V; apply NC, in_app_iff; now left|apply LR; now left|]. cbn [bind].
  destruct (END (p_cost_t q) (last (r :: rows) []) (ln_cost_t _ _ _ W)) as (cf & ->); [intros x V; apply NC, in_app_iff; now right|apply LR, last_in; discriminate|]. cbn [bind].
  destruct (mapM_total (fun yu => call1 fn [syms (p_states q); p_controls q; p_params q; p_consts q] (p_cost_p q) [fst yu; snd yu; pp; k]) (combine (arows (Mat w (r :: rows))) (arows us))) as (path & -> & LPA).
  { intros (y, u) I. apply in_comb in I as (I1 & I2). cbn [fst snd]. unfold call1. rewrite (call_fits fn).
    - cbn. eexists. reflexivity.
    - reflexivity.
    - cbn. intros g v [E|[E|[E|[E|[]]]]]; injection E as <- <-; try congruence.
      + rewrite (LR y I1). apply map_length.
      + now rewrite (LUS u I2).
    - intros e' I x V. destruct I as [ <-|[]]. assert (O := ln_cost_p _ _ _ W x V). unfold along in O. rewrite F1 in O. cbn in O |- *. rewrite !in_app_iff. cbn. tauto. }
  cbn [bind]. destruct (SM path LPA) as (v & ->). cbn [bind]. eexists. reflexivity.
Qed.
Print Assumptions C100_cost.

(** ** Trajectories with quadratures *)
(** No mapper of the pipeline changes the quadratures on the way back. *)
Definition leaves_q (m : mapper R) : Prop := forall m' s s', apply_inv ROps m s = Ok (m', s') -> s_q s' = s_q s.
Ltac unbind E := repeat (cbn [bind] in E; match type of E with bind ?x _ = Ok _ => destruct x; [|discriminate E] end); cbn [bind] in E.
Lemma build_leaves fn sm p q t : leaves_q (build fn sm p q t).
Proof.
  intros m' s s' H. destruct t as [i|i lo up| |a na| |idxs|idxs|(a, b) (c, d) (e, f)|i]; cbn [build apply_inv] in H; unfold with_mapper in H.
  - match type of H with bind ?x _ = _ => destruct x as [(j, r)|] eqn:E; [|discriminate H] end. cbn [bind fst snd] in H. injection H as _ <-. unfold ms_inv in E. unbind E. injection E as _ <-. reflexivity.
  - match type of H with bind ?x _ = _ => destruct x as [r|] eqn:E; [|discriminate H] end. cbn [bind] in H. injection H as _ <-. unfold trig_apply in E. destruct (combine _ _); [injection E as <-; reflexivity|]. destruct (s_u s); [discriminate|]. unbind E. injection E as <-. reflexivity.
  - injection H as _ <-. reflexivity.
  - match type of H with bind ?x _ = _ => destruct x as [r|] eqn:E; [|discriminate H] end. cbn [bind] in H. injection H as _ <-. unfold dual_inv in E. cbv zeta in E. unbind E. injection E as <-. reflexivity.
  - match type of H with bind ?x _ = _ => destruct x as [r|] eqn:E; [|discriminate H] end. cbn [bind] in H. injection H as _ <-. unfold alg_inv in E. unbind E. injection E as <-. reflexivity.
  - match type of H with bind ?x _ = _ => destruct x as [r|] eqn:E; [|discriminate H] end. cbn [bind] in H. injection H as _ <-. unfold dc_inv in E. unbind E. injection E as <-. reflexivity.
  - match type of H with bind ?x _ = _ => destruct x as [r|] eqn:E; [|discriminate H] end. cbn [bind] in H. injection H as _ <-. unfold dg_inv in E. unbind E. injection E as <-. reflexivity.
  - match type of H with bind ?x _ = _ => destruct x as [r|] eqn:E; [|discriminate H] end. cbn [bind] in H. injection H as _ <-. unfold sq_inv in E. unbind E. injection E as <-. reflexivity.
  - match type of H with bind ?x _ = _ => destruct x as [(j, r)|] eqn:E; [|discriminate H] end. cbn [bind fst snd] in H. injection H as _ <-. unfold nt_inv in E. unbind E. injection E as _ <-. reflexivity.
Qed.
Lemma chain_leaves fn sm lu solve : forall fs p q ms, run_chain fn sm lu solve fs p = Ok (q, ms) -> Forall leaves_q ms.
Proof.
  induction fs as [|f fs IH]; intros p q ms H; cbn in H; [injection H as _ <-; constructor|]. destruct (apply_tf lu solve f p) as [p'|]; [|discriminate]. cbn [bind] in H. destruct (run_chain fn sm lu solve fs p') as [(q2, m2)|] eqn:E; [|discriminate]. cbn [bind fst snd] in H. injection H as <- <-.
  apply Forall_app. split; [|now apply (IH p' q2)]. apply Forall_forall. intros m I. apply in_map_iff in I as (t & <- & _). apply build_leaves.
Qed.
Lemma pass_reaches : forall l (ps : pass R) m rest l' ps', Forall leaves_q l -> run_pass (apply_inv ROps) (l ++ m :: rest) ps = Ok (l', ps') -> exists s m' s', s_q s = s_q (cur ps) /\ apply_inv ROps m s = Ok (m', s').
Proof.
  induction l as [|a l IH]; intros ps m rest l' ps' F H; cbn [app run_pass] in H; unfold step_pass in H.
  - destruct (apply_inv ROps m (cur ps)) as [(m', s')|] eqn:E; [|discriminate]. now exists (cur ps), m', s'.
  - destruct (apply_inv ROps a (cur ps)) as [(a', s1)|] eqn:E; [|discriminate]. cbn [bind fst snd] in H. apply Forall_cons_iff in F as (F1 & F2).
    match type of H with context [run_pass _ _ ?x] => destruct (run_pass (apply_inv ROps) (l ++ m :: rest) x) as [(l2, ps2)|] eqn:E2; [|discriminate] end.
    destruct (IH _ m rest l2 ps2 F2 E2) as (s & m' & s' & Q & K). exists s, m', s'. split; [|exact K]. rewrite Q. cbn [cur]. exact (F1 a' _ _ E).
Qed.
Lemma has_dual o p fs : make_indirect o p = Ok fs -> exists pre post, fs = pre ++ FDual (o_method o) :: post.
Proof.
  intros MK. unfold make_indirect in MK. destruct (constraint_tfs _) as [cons|]; [|discriminate]. cbn [bind] in MK. destruct (if String.eqb (lower (o_control o)) "algebraic" then _ else _) as [ctl|]; [|discriminate]. cbn [bind] in MK. apply Ok_inj in MK. subst fs.
  eexists ((if o_shift o then [FMomentum] else []) ++ cons ++ (if Nat.ltb 0 (length (p_switches p)) then [FRashs] else [])). eexists. rewrite <- !app_assoc. reflexivity.
Qed.
(** A solution that is mapped back has passed through the cost function. *)
Lemma cost_reached fn sm lu solve pre m post p1 p4 q ms (s : sol R) x : run_chain fn sm lu solve (pre ++ FDual m :: post) p1 = Ok (q, ms) -> run_tfs lu solve pre p1 = Ok p4 -> inv_map_sol ROps ms s = Ok x ->
  exists s1 v, s_q s1 = s_q s /\ compute_cost fn sm p4 (s_t s1) (s_y s1) (s_q s1) (s_u s1) (s_p s1) (s_k s1) = Ok v.
Proof.
  intros RC R4 IM. apply run_chain_app in RC as (p4' & m1 & m2 & RA & RB & ->). assert (R4' := run_chain_tfs _ _ _ _ _ _ _ _ RA). rewrite R4 in R4'. apply Ok_inj in R4'. subst p4'.
  cbn [run_chain apply_tf] in RB. destruct (dualize lu m p4) as [pD|] eqn:ED; [|discriminate]. cbn [bind] in RB. destruct (run_chain fn sm lu solve post pD) as [(q2, m3)|] eqn:RP; [|discriminate]. cbn [bind fst snd] in RB. injection RB as <- <-.
  assert (DM : exists na, map (build fn sm p4 pD) (skipn (length (p_maps p4)) (p_maps pD)) = [MDualize na (compute_cost fn sm p4)]).
  { destruct (dualize_maps lu _ _ _ ED) as (D1 & _). rewrite D1, skipn_app, Nat.sub_diag, skipn_all. cbn. eexists. reflexivity. }
  destruct DM as (na & DM). unfold inv_map_sol in IM. rewrite DM, !rev_app_distr in IM. cbn [rev app] in IM. rewrite <- app_assoc in IM. cbn [app] in IM.
  destruct (run_pass (apply_inv ROps) _ _) as [(l', ps')|] eqn:E in IM; [|discriminate]. apply pass_reaches in E as (s1 & m' & s' & Q1 & K); [|apply Forall_rev; exact (chain_leaves _ _ _ _ _ _ _ _ RP)].
  cbn [apply_inv] in K. unfold with_mapper, dual_inv in K. cbn [s_t s_y s_q s_u s_p s_k Map_Model.set_nu] in K. destruct (compute_cost fn sm p4 _ _ _ _ _ _) as [v|] eqn:EC; [|discriminate]. exists s1, v. split; [exact Q1|exact EC].
Qed.
(** Whatever the options: a trajectory that still has quadrature columns cannot be
    mapped back if the user declared no quadratures. *)
Theorem C100_columns : forall fn sm lu solve o p p1 fs q ms (s : sol R) w r rows,
  make_indirect o p = Ok fs -> p_quads p1 = [] -> run_chain fn sm lu solve fs p1 = Ok (q, ms) ->
  s_q s = Mat w (r :: rows) -> r <> [] -> exists e, inv_map_sol ROps ms s = Raise e.
Proof.
  intros fn sm lu solve o p p1 fs q ms s w r rows MK Q0 RC SQ NE. destruct (has_dual o p fs MK) as (pre & post & EF). destruct (early_pre o p fs pre _ post MK EF) as (EA & _ & _). subst fs.
  assert (R := RC). apply run_chain_app in R as (p4 & m1 & m2 & RA & _ & _). apply run_chain_tfs in RA. assert (QN := early_quads lu solve pre p1 p4 EA RA). rewrite Q0 in QN.
  destruct (inv_map_sol ROps ms s) as [x|e] eqn:IM; [|now exists e]. exfalso. destruct (cost_reached _ _ _ _ _ _ _ _ _ _ _ _ _ RC RA IM) as (s1 & v & Q1 & K).
  rewrite Q1, SQ in K. unfold compute_cost in K. cbv zeta in K. destruct (first_row (s_y s1)); [|discriminate]. cbn [bind alen first_row get nth_error length Nat.ltb Nat.leb] in K.
  unfold call1, call in K. match type of K with context [fits ?g ?v] => replace (fits g v) with false in K end; [discriminate K|]. symmetry. unfold fits. cbn [length Nat.eqb combine forallb fst snd]. rewrite QN. destruct r; [easy|]. cbn. now rewrite ?Bool.andb_false_r.
Qed.
Print Assumptions C100_columns.
(** A name in the terminal cost that is no argument of the cost function, such as a
    control, has the same effect. *)
Theorem C100_end_cost : forall fn sm lu solve o p p1 fs pre post p4 q ms (s : sol R) x,
  make_indirect o p = Ok fs -> fs = pre ++ FDual (o_method o) :: post -> run_tfs lu solve pre p1 = Ok p4 -> run_chain fn sm lu solve fs p1 = Ok (q, ms) ->
  In x (vars (p_cost_i p4) ++ vars (p_cost_t p4)) -> ~ In x (syms (p_states p4) ++ syms (p_quads p4) ++ p_params p4 ++ p_consts p4) -> exists e, inv_map_sol ROps ms s = Raise e.
Proof.
  intros fn sm lu solve o p p1 fs pre post p4 q ms s x MK EF R4 RC V NI. subst fs.
  destruct (inv_map_sol ROps ms s) as [r|e] eqn:IM; [|now exists e]. exfalso. destruct (cost_reached _ _ _ _ _ _ _ _ _ _ _ _ _ RC R4 IM) as (s1 & v & Q1 & K).
  assert (NO : forall e vals a, In x (vars e) -> call1 fn [syms (p_states p4); syms (p_quads p4); p_params p4; p_consts p4] e vals <> Ok a).
  { intros e vals a I E. unfold call1, call in E. destruct (fits _ _); [|discriminate E]. match type of E with context [forallb ?f [e]] => destruct (forallb f [e]) eqn:F end; [|discriminate E]. cbn [forallb] in F. apply Bool.andb_true_iff in F as (F & _). rewrite forallb_forall in F. specialize (F x I). apply mem_In in F. apply NI. cbn [concat] in F. now rewrite app_nil_r in F. }
  unfold compute_cost in K. cbv zeta in K. destruct (first_row (s_y s1)) as [y0|]; [|discriminate K]. cbn [bind] in K. match type of K with bind ?a _ = _ => destruct a as [q0|]; [|discriminate K] end. cbn [bind] in K.
  match type of K with bind ?a _ = _ => destruct a as [c0|] eqn:E0; [|discriminate K] end. cbn [bind] in K. match type of K with bind ?a _ = _ => destruct a as [yf|]; [|discriminate K] end. cbn [bind] in K. match type of K with bind ?a _ = _ => destruct a as [qf|]; [|discriminate K] end. cbn [bind] in K.
  match type of K with bind ?a _ = _ => destruct a as [cf|] eqn:EF; [|discriminate K] end. apply in_app_iff in V as [V|V]; [exact (NO _ _ _ V E0)|exact (NO _ _ _ V EF)].
Qed.
Print Assumptions C100_end_cost.

(** ** Unknown parameters *)
(** One quadrature per unknown parameter. *)
Definition adjoint_quads (p : prob) : nat := length (p_quads p) + length (p_coparams p).
Lemma give_len l r : length (give_rates l r) = length l.
Proof. unfold give_rates. now rewrite map_length, seq_length. Qed.
Lemma dual_quads lu m p q : dualize lu m p = Ok q -> adjoint_quads q = adjoint_quads p + length (p_params p).
Proof.
  unfold dualize. destruct (p_symp p); [|discriminate]. cbv zeta. destruct (String.eqb (lower m) "traditional"); [|destruct (String.eqb (lower m) "diffyg")]; cbn [bind].
  - intros H. apply Ok_inj in H. subst q. unfold adjoint_quads. cbn [dual_finish set_dual set_maps set_ct set_ci costates_traditional set_coparams set_costates p_quads p_coparams]. rewrite give_len. cbn. rewrite app_length, map_length. lia.
  - unfold costates_diffyg. destruct (negb _); [discriminate|]. destruct (ham_field _ _ _ _); [|discriminate]. cbn [bind]. intros H. apply Ok_inj in H. subst q. unfold adjoint_quads. cbn. rewrite app_length, map_length. lia.
  - intros H. apply Ok_inj in H. subst q. unfold adjoint_quads. cbn. rewrite app_length, map_length. lia.
Qed.
Lemma diff_quads lu m p q : differential_control lu m p = Ok q -> adjoint_quads q = adjoint_quads p.
Proof.
  unfold differential_control. destruct (p_dual p); [|discriminate]. destruct (p_ham p); [|discriminate]. cbv zeta. destruct (lu _ _); [|discriminate]. cbn [bind]. destruct (String.eqb (lower m) "traditional"); [intros H; apply Ok_inj in H; now subst q|]. destruct (String.eqb (lower m) "diffyg"); [|discriminate].
  destruct (negb _); [discriminate|]. destruct (ham_field _ _ _ _); [|discriminate]. cbn [bind]. intros H. apply Ok_inj in H. now subst q.
Qed.
Lemma keep_quads lu solve f p q : f = FAlg \/ (exists m, f = FDiff m) \/ f = FNorm \/ f = FSquash \/ f = FJac -> apply_tf lu solve f p = Ok q -> adjoint_quads q = adjoint_quads p.
Proof.
  intros [ ->|[(m & ->)|[ ->|[ ->| ->]]]] H; cbn [apply_tf] in H.
  - unfold algebraic_control in H. destruct (p_dual p); [|discriminate]. destruct (p_ham p); [|discriminate]. apply Ok_inj in H. now subst q.
  - exact (diff_quads _ _ _ _ H).
  - unfold normalize_time in H. destruct (p_symp p); [|discriminate]. apply Ok_inj in H. now subst q.
  - unfold squash in H. cbv zeta in H. apply Ok_inj in H. subst q. unfold adjoint_quads. cbn. rewrite app_length. lia.
  - apply Ok_inj in H. now subst q.
Qed.
Lemma keeps_quads lu solve : forall fs p q, (forall f, In f fs -> f = FAlg \/ (exists m, f = FDiff m) \/ f = FNorm \/ f = FSquash \/ f = FJac) -> run_tfs lu solve fs p = Ok q -> adjoint_quads q = adjoint_quads p.
Proof.
  induction fs as [|f fs IH]; intros p q F H; cbn in H; [apply Ok_inj in H; now subst q|]. destruct (apply_tf lu solve f p) as [p'|] eqn:E; [|discriminate]. cbn [bind] in H. rewrite (IH p' q (fun g I => F g (or_intror I)) H). exact (keep_quads lu solve f p p' (F f (or_introl eq_refl)) E).
Qed.
Lemma subs_params x n p : p_params (subs_all x n p) = p_params p.
Proof. reflexivity. Qed.
Lemma maps_params p m : p_params (set_maps p m) = p_params p.
Proof. reflexivity. Qed.
Lemma early_params lu solve : forall fs p q, Forall early fs -> run_tfs lu solve fs p = Ok q -> p_params q = p_params p.
Proof.
  induction fs as [|f fs IH]; intros p q F H; cbn in H; [apply Ok_inj in H; now subst q|]. destruct (apply_tf lu solve f p) as [p'|] eqn:E; [|discriminate]. cbn [bind] in H. apply Forall_cons_iff in F as (F1 & F2). rewrite (IH p' q F2 H). clear H IH.
  destruct F1 as [ ->|[ ->|[ ->| ->]]]; cbn [apply_tf] in E.
  - unfold momentum_shift in E. destruct (p_symp p); [|discriminate]. apply Ok_inj in E. now subst p'.
  - unfold eps_trig in E. destruct (p_symp p); [|discriminate]. destruct (find_at _ _) as [(k, c)|]; [|discriminate]. cbv zeta in E. destruct (c_expr c); try discriminate E. destruct (index_of _ _); [|discriminate]. destruct (set_nth _ _ _); [|discriminate]. cbn [bind] in E.
    destruct (c_act c); [|discriminate]. destruct (c_lower c); [|discriminate]. destruct (c_upper c); [|discriminate]. apply Ok_inj in E. subst p'. now rewrite maps_params, subs_params.
  - unfold utm in E. destruct (p_symp p); [|discriminate]. destruct (find_at utm_sel (p_ci p)) as [(k, c)|]; [|destruct (find_at utm_sel (p_cp p)) as [(k, c)|]; [|destruct (find_at utm_sel (p_ct p)) as [(k, c)|]; [|discriminate]]];
      (destruct (utm_term p c); [|discriminate]; cbn [bind] in E; apply Ok_inj in E; subst p'; reflexivity).
  - unfold rashs in E. destruct (p_symp p); [|discriminate]. apply Ok_inj in E. subst p'. generalize (seq 0 (length (p_switches p))) as l. clear. intros l. revert p. induction l as [|i l IH]; intros p; cbn; [reflexivity|].
    rewrite IH. unfold rashs_at. destruct (nth_error _ _) as [s|]; [|reflexivity]. now destruct (sw_sym s).
Qed.
Theorem C100_quadratures : forall lu solve o p p1 fs q,
  make_indirect o p = Ok fs -> p_quads p1 = [] -> p_coparams p1 = [] -> run_tfs lu solve fs p1 = Ok q ->
  length (p_params p1) <= length (p_quads q).
Proof.
  intros lu solve o p p1 fs q MK Q0 C0 RUN. destruct (has_dual o p fs MK) as (pre & post & EF). destruct (early_pre o p fs pre _ post MK EF) as (EA & _ & ctl & CT & EP). subst fs.
  apply run_split in RUN as (p4 & R4 & RUN). cbn [run_tfs apply_tf] in RUN. destruct (dualize lu (o_method o) p4) as [pD|] eqn:ED; [|discriminate]. cbn [bind] in RUN.
  assert (A := keeps_quads lu solve post pD q). rewrite (dual_quads _ _ _ _ ED), (early_params lu solve pre p1 p4 EA R4) in A.
  assert (F : forall f, In f post -> f = FAlg \/ (exists m, f = FDiff m) \/ f = FNorm \/ f = FSquash \/ f = FJac).
  { intros f I. rewrite EP in I. rewrite !in_app_iff in I. destruct I as [[ <-|[]]|[I|[[ <-|[]]|I]]]; [destruct CT as [ ->| ->]; eauto| |auto|].
    - destruct (o_norm o); cbn in I; [destruct I as [ <-|[]]; auto|destruct I].
    - destruct (_ && _); cbn in I; [destruct I as [ <-|[]]; auto 6|destruct I]. }
  specialize (A F RUN). assert (N : p_coparams q = []).
  { rewrite EP in RUN. apply run_split in RUN as (p5 & _ & RUN). apply run_split in RUN as (p6 & _ & RUN). apply run_split in RUN as (p7 & E7 & RUN). assert (E : squash p6 = Ok p7) by exact E7.
    assert (q = p7) as -> by (destruct (_ && _); cbn in RUN; now apply Ok_inj in RUN). unfold squash in E. cbv zeta in E. apply Ok_inj in E. now subst p7. }
  unfold adjoint_quads in A. rewrite N in A. cbn in A. lia.
Qed.
Print Assumptions C100_quadratures.
(** A trajectory with the quadratures of the boundary value problem [q]. *)
Definition has_quads (q : prob) (s : sol R) : Prop := exists w rows, s_q s = Mat w rows /\ rows <> [] /\ forall r, In r rows -> length r = length (p_quads q).
(** No problem with an unknown parameter can be mapped back. *)
Theorem C100_parameters : forall fn sm lu solve o p p1 fs q ms (s : sol R),
  make_indirect o p = Ok fs -> p_quads p1 = [] -> p_coparams p1 = [] -> p_params p1 <> [] -> run_chain fn sm lu solve fs p1 = Ok (q, ms) -> has_quads q s ->
  exists e, inv_map_sol ROps ms s = Raise e.
Proof.
  intros fn sm lu solve o p p1 fs q ms s MK Q0 C0 NP RC (w & rows & SQ & NE & LR). destruct rows as [|r rows]; [easy|]. apply (C100_columns fn sm lu solve o p p1 fs q ms s w r rows MK Q0 RC SQ).
  assert (L := C100_quadratures lu solve o p p1 fs q MK Q0 C0 (run_chain_tfs _ _ _ _ _ _ _ _ RC)). specialize (LR r (or_introl eq_refl)). destruct r; [|discriminate]. destruct (p_params p1); [easy|]. cbn in *. lia.
Qed.
Print Assumptions C100_parameters.

(** ** Instances *)
(** The problem of C99 with a bounded control, a bounded state, switches and an unknown
    parameter: all functions of its boundary value problem can be called, yet no
    solution of it can be mapped back. *)
Theorem C100_parameters_refuted : exists o rank p p1 fs q, named o rank p /\ sympify p = Ok p1 /\ make_indirect o p = Ok fs /\ run_tfs lu_gauss (solve_linear lu_gauss) fs p1 = Ok q /\
  forall fn sm, callable fn q (law_control fn q) /\ exists ms, run_chain fn sm lu_gauss (solve_linear lu_gauss) fs p1 = Ok (q, ms) /\
    (exists s, has_quads q s) /\ forall s, has_quads q s -> exists e, inv_map_sol ROps ms s = Raise e.
Proof.
  destruct (ar_go "differential" "traditional") as [q|] eqn:E; [|vm_compute in E; discriminate E]. destruct (ar_ran _ _ _ E) as (p1 & fs & E1 & E2 & E3).
  exists (ar_o "differential" "traditional" true), ar_rank, ar_p, p1, fs, q. split; [apply ar_named|]. split; [exact E1|]. split; [exact E2|]. split; [exact E3|]. intros fn sm. split.
  - apply (C99_called lu_gauss (solve_linear lu_gauss) (ar_o "differential" "traditional" true) ar_rank ar_p p1 fs q fn lu_gauss_closed C99_linear_solver (ar_named _ _) E1 E2 E3). intros H. discriminate H.
  - destruct (run_chain_total fn sm lu_gauss (solve_linear lu_gauss) fs p1 q E3) as (ms & RC). exists ms. split; [exact RC|]. split.
    + exists (mkSol [] [] Map_Model.E1 Map_Model.E1 (Mat (length (p_quads q)) [repeat 0%R (length (p_quads q))]) Map_Model.E1 Map_Model.E1 [] [] [] 0%R). eexists _, _. split; [reflexivity|]. split; [discriminate|]. intros r [ <-|[]]. apply repeat_length.
    + intros s H. assert (P1 : p_quads p1 = [] /\ p_coparams p1 = [] /\ p_params p1 = ["s"]) by (clear - E1; vm_compute in E1; apply Ok_inj in E1; subst p1; repeat split). destruct P1 as (A & B & C).
      apply (C100_parameters fn sm lu_gauss (solve_linear lu_gauss) _ ar_p p1 fs q ms s E2 A B); [rewrite C; discriminate|exact RC|exact H].
Qed.
Print Assumptions C100_parameters_refuted.

(** x' = u + sin t without parameters: the cost of every trajectory without
    quadratures, here of two samples. *)
Example C100_ex fn a b c d u v t0 t1 : exists p1 fs pre post q w, sympify ar_t = Ok p1 /\ make_indirect (ar_o "algebraic" "traditional" true) ar_t = Ok fs /\ fs = pre ++ FDual "traditional" :: post /\
  run_tfs lu_gauss (solve_linear lu_gauss) pre p1 = Ok q /\ compute_cost fn (fun l _ => Ok (fold_right Rplus 0%R l)) q [t0; t1] (Mat 2 [[a; b]; [c; d]]) Map_Model.E1 (Mat 1 [[u]; [v]]) [] [] = Ok w.
Proof.
  destruct (sympify ar_t) as [p1|] eqn:E1; [|discriminate E1]. destruct (make_indirect (ar_o "algebraic" "traditional" true) ar_t) as [fs|] eqn:E2; [|vm_compute in E2; discriminate E2].
  assert (EF : fs = [FMomentum] ++ FDual "traditional" :: [FAlg; FNorm; FSquash]) by (clear - E2; vm_compute in E2; apply Ok_inj in E2; now subst fs).
  destruct (run_tfs lu_gauss (solve_linear lu_gauss) [FMomentum] p1) as [q|] eqn:E3; [|vm_compute in E1; apply Ok_inj in E1; subst p1; vm_compute in E3; discriminate E3].
  assert (Q : (length (p_states q) = 2 /\ length (p_controls q) = 1) /\ (p_params q = [] /\ p_consts q = []) /\ vars (p_cost_i q) ++ vars (p_cost_t q) = []) by (clear - E1 E3; vm_compute in E1; apply Ok_inj in E1; subst p1; vm_compute in E3; apply Ok_inj in E3; subst q; repeat split).
  destruct Q as ((Q1 & Q2) & (Q3 & Q4) & Q5).
  destruct (C100_cost lu_gauss (solve_linear lu_gauss) (ar_o "algebraic" "traditional" true) (fun _ => O) ar_t p1 fs [FMomentum] "traditional" [FAlg; FNorm; FSquash] q fn (fun l _ => Ok (fold_right Rplus 0%R l)) [t0; t1] 2 [[a; b]; [c; d]] Map_Model.E1 (Mat 1 [[u]; [v]]) [] [] (at_named _ _) E1 E2 EF E3) as (w & W).
  - rewrite Q5. intros x [].
  - discriminate.
  - intros r [ <-|[ <-|[]]]; now rewrite Q1.
  - intros r [ <-|[ <-|[]]]; now rewrite Q2.
  - now rewrite Q3.
  - now rewrite Q4.
  - reflexivity.
  - intros l _. eexists. reflexivity.
  - exists p1, fs, [FMomentum], [FAlg; FNorm; FSquash], q, w. repeat (split; [first [reflexivity | assumption]|]). exact W.
Qed.

(** x' = u with the terminal cost u^2: again every function of the boundary value problem
    can be called, but no solution of it can be mapped back. *)
Definition bk_p : prob :=
  mkProb "t" [("x", Var "u")] [] [] [] ["u"] [] [plain (Var "x")] [] [plain (Sub (Var "x") (Cst 1))] [] []
    (Cst 0) (Mul (Var "u") (Var "u")) (Mul (Var "u") (Var "u")) [] [] [] [] None [] false false.
Lemma bk_named control method : named (ar_o control method true) (fun _ => O) bk_p.
Proof.
  constructor.
  - intros s [ <-|[]]; who.
  - repeat split; who.
  - intros c I. cbn in I. repeat destruct I as [ <-|I]; try contradiction; (split; [who|intros e [E|E]; discriminate E]).
  - intros c a I E. cbn in I. repeat destruct I as [ <-|I]; try contradiction; discriminate E.
  - intros c e x [].
  - intros s e [].
  - intros s e y [].
  - intros y s [].
  - repeat split.
Qed.
Theorem C100_end_control_refuted : exists o rank p p1 fs q, named o rank p /\ p_params p = [] /\ sympify p = Ok p1 /\ make_indirect o p = Ok fs /\ run_tfs lu_gauss (solve_linear lu_gauss) fs p1 = Ok q /\
  forall fn sm, callable fn q (law_control fn q) /\ exists ms, run_chain fn sm lu_gauss (solve_linear lu_gauss) fs p1 = Ok (q, ms) /\ forall s, exists e, inv_map_sol ROps ms s = Raise e.
Proof.
  set (o := ar_o "differential" "traditional" true).
  destruct (sympify bk_p) as [p1|] eqn:E1; [|discriminate E1]. destruct (make_indirect o bk_p) as [fs|] eqn:E2; [|vm_compute in E2; discriminate E2].
  assert (EF : fs = [FMomentum] ++ FDual (o_method o) :: [FDiff "traditional"; FNorm; FSquash]) by (clear - E2; vm_compute in E2; apply Ok_inj in E2; now subst fs).
  destruct (run_tfs lu_gauss (solve_linear lu_gauss) fs p1) as [q|] eqn:E3; [|vm_compute in E1, E2; apply Ok_inj in E1, E2; subst p1 fs; vm_compute in E3; discriminate E3].
  destruct (run_tfs lu_gauss (solve_linear lu_gauss) [FMomentum] p1) as [p4|] eqn:E4; [|vm_compute in E1; apply Ok_inj in E1; subst p1; vm_compute in E4; discriminate E4].
  exists o, (fun _ => O), bk_p, p1, fs, q. split; [apply bk_named|]. split; [reflexivity|]. split; [exact E1|]. split; [exact E2|]. split; [exact E3|]. intros fn sm. split.
  - apply (C99_called lu_gauss (solve_linear lu_gauss) o (fun _ => O) bk_p p1 fs q fn lu_gauss_closed C99_linear_solver (bk_named _ _) E1 E2 E3). intros H. discriminate H.
  - destruct (run_chain_total fn sm lu_gauss (solve_linear lu_gauss) fs p1 q E3) as (ms & RC). exists ms. split; [exact RC|]. intros s.
    apply (C100_end_cost fn sm lu_gauss (solve_linear lu_gauss) o bk_p p1 fs [FMomentum] [FDiff "traditional"; FNorm; FSquash] p4 q ms s "u" E2 EF E4 RC); (clear - E1 E4; vm_compute in E1; apply Ok_inj in E1; subst p1; vm_compute in E4; apply Ok_inj in E4; subst p4; cbn).
    + auto.
    + intuition discriminate.
Qed.
Print Assumptions C100_end_control_refuted.
