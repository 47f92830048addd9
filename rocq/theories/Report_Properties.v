(** C100, end to end: beluga.solve (beluga/beluga.py lines 161-189 and 205-224,
    Start_Model.v) never returns a trajectory of a problem with unknown
    parameters, whatever the solver and the continuation steps. *)
From Coq Require Import Reals Lia.
From Verif Require Import Base Base_Facts Cont_Model Sym_Expr Sym_Model Sym_Lu Sym_Dual Map_Model Map_More Jac_Model Unit_Model Guess_Model Chain_Model Chain_Facts Full_Model Start_Model Shift_Properties Args_Properties Back_Properties.
From Verif Require Import Sym_Model.
Open Scope string_scope.
Open Scope list_scope.
Open Scope nat_scope.

(** The mappers of the pipeline have their indices: the way back leaves them as
    they are. *)
Definition stays (m : mapper R) : Prop := forall m' s s', apply_inv ROps m s = Ok (m', s') -> m' = m.
Lemma build_stays fn sm p q t : stays (build fn sm p q t).
Proof.
  intros m' s s' H. destruct t as [i|i lo up| |a na| |idxs|idxs|(a, b) (c, d) (e, f)|i]; cbn [build apply_inv] in H; unfold with_mapper in H.
  - match type of H with bind ?x _ = _ => destruct x as [(j, r)|] eqn:E; [|discriminate H] end. cbn [bind fst snd] in H. injection H as <- _. unfold ms_inv in E. unbind E. injection E as <- _. reflexivity.
  - match type of H with bind ?x _ = _ => destruct x; [|discriminate H] end. cbn [bind] in H. injection H as <- _. reflexivity.
  - injection H as <- _. reflexivity.
  - match type of H with bind ?x _ = _ => destruct x; [|discriminate H] end. cbn [bind] in H. injection H as <- _. reflexivity.
  - match type of H with bind ?x _ = _ => destruct x; [|discriminate H] end. cbn [bind] in H. injection H as <- _. reflexivity.
  - match type of H with bind ?x _ = _ => destruct x; [|discriminate H] end. cbn [bind] in H. injection H as <- _. reflexivity.
  - match type of H with bind ?x _ = _ => destruct x; [|discriminate H] end. cbn [bind] in H. injection H as <- _. reflexivity.
  - match type of H with bind ?x _ = _ => destruct x; [|discriminate H] end. cbn [bind] in H. injection H as <- _. reflexivity.
  - match type of H with bind ?x _ = _ => destruct x as [(j, r)|] eqn:E; [|discriminate H] end. cbn [bind fst snd] in H. injection H as <- _. unfold nt_inv in E. unbind E. injection E as <- _. reflexivity.
Qed.
Lemma chain_stays fn sm lu solve : forall fs p q ms, run_chain fn sm lu solve fs p = Ok (q, ms) -> Forall stays ms.
Proof.
  induction fs as [|f fs IH]; intros p q ms H; cbn in H; [injection H as _ <-; constructor|]. destruct (apply_tf lu solve f p) as [p'|]; [|discriminate]. cbn [bind] in H. destruct (run_chain fn sm lu solve fs p') as [(q2, m2)|] eqn:E; [|discriminate]. cbn [bind fst snd] in H. injection H as <- <-.
  apply Forall_app. split; [|now apply (IH p' q2)]. apply Forall_forall. intros m I. apply in_map_iff in I as (t & <- & _). apply build_stays.
Qed.
Lemma pass_stays : forall l (ps : pass R) l' ps', Forall stays l -> run_pass (apply_inv ROps) l ps = Ok (l', ps') -> l' = l.
Proof.
  induction l as [|a l IH]; intros ps l' ps' F H; cbn [run_pass] in H; [congruence|]. unfold step_pass in H. destruct (apply_inv ROps a (cur ps)) as [(a', s1)|] eqn:E; [|discriminate]. cbn [bind fst snd] in H. apply Forall_cons_iff in F as (F1 & F2).
  match type of H with context [run_pass _ _ ?x] => destruct (run_pass (apply_inv ROps) l x) as [(l2, ps2)|] eqn:E2; [|discriminate] end. cbn [bind fst snd] in H. injection H as <- _. rewrite (F1 a' _ _ E), (IH _ _ _ F2 E2). reflexivity.
Qed.
Lemma inv_stays ms (s : sol R) ms' r a : Forall stays ms -> inv_map_sol ROps ms s = Ok (ms', r, a) -> ms' = ms.
Proof.
  intros F H. unfold inv_map_sol in H. destruct (run_pass (apply_inv ROps) (rev ms) _) as [(l, ps)|] eqn:E; [|discriminate]. cbn [bind fst snd] in H. injection H as <- _ _. apply pass_stays in E; [|now apply Forall_rev]. subst l. apply rev_involutive.
Qed.
Lemma post_set_each ms : Forall stays ms -> forall l ms' r g, post_set ms l = Ok (ms', r) -> ms' = ms /\ (In g l -> exists x, inv_map_sol ROps ms (to_sol g) = Ok x).
Proof.
  intros F. induction l as [|h l IH]; intros ms' r g H; cbn [post_set] in H; [injection H as <- _; split; [reflexivity|intros []]|].
  destruct (inv_map_sol ROps ms (to_sol h)) as [((m1, r1), a1)|] eqn:E; [|discriminate]. cbn [bind fst snd] in H. rewrite (inv_stays _ _ _ _ _ F E) in H.
  destruct (post_set ms l) as [(m2, r2)|] eqn:E2; [|discriminate]. cbn [bind fst snd] in H. injection H as <- _. destruct (IH m2 r2 g eq_refl) as (-> & K). split; [reflexivity|]. intros [ <-|I]; [eauto|now apply K].
Qed.
Lemma post_each ms : Forall stays ms -> forall out r l g, post ms out = Ok r -> In l out -> In g l -> exists x, inv_map_sol ROps ms (to_sol g) = Ok x.
Proof.
  intros F. induction out as [|h out IH]; intros r l g H I J; [destruct I|]. cbn [post] in H. destruct (post_set ms h) as [(m1, r1)|] eqn:E; [|discriminate]. cbn [bind fst snd] in H. destruct (post_set_each ms F h m1 r1 g E) as (-> & K).
  destruct (post ms out) as [r2|] eqn:E2; [|discriminate]. destruct I as [ <-|I]; [now apply K|exact (IH r2 l g eq_refl I J)].
Qed.

(** Every run that returns has lost the quadratures of the boundary value problem in
    every trajectory. *)
Theorem C100_never_returned : forall fn sm lu solve o p p1 fs q ms u nan ivp recon fuel slv steps g k helper c0 out r l tr,
  make_indirect o p = Ok fs -> p_quads p1 = [] -> p_coparams p1 = [] -> p_params p1 <> [] -> run_chain fn sm lu solve fs p1 = Ok (q, ms) ->
  solve_run fn u q ms nan ivp recon fuel slv steps g k helper c0 = Finished out r -> In l out -> In tr l -> ~ has_quads q (to_sol tr).
Proof.
  intros fn sm lu solve o p p1 fs q ms u nan ivp recon fuel slv steps g k helper c0 out r l tr MK Q0 C0 NP RC RUN I J HQ. unfold solve_run in RUN.
  destruct (first_guess _ _ _ _ _ _ _ _ _ _); [|discriminate RUN]. destruct (run_set _ _ _ _ _ _) as [out'| |]; [|discriminate RUN..]. destruct (post ms out') as [r'|] eqn:E; [|discriminate RUN]. injection RUN as -> ->.
  destruct (post_each ms (chain_stays _ _ _ _ _ _ _ _ RC) out r l tr E I J) as (x & X). destruct (C100_parameters fn sm lu solve o p p1 fs q ms (to_sol tr) MK Q0 C0 NP RC HQ) as (e & Y). congruence.
Qed.
Print Assumptions C100_never_returned.
(** Read forwards: once the continuation is done, one trajectory with its quadratures
    is enough for the run to fail. *)
Theorem C100_run_fails : forall fn sm lu solve o p p1 fs q ms u nan ivp recon fuel slv steps g k helper c0 s out l tr,
  make_indirect o p = Ok fs -> p_quads p1 = [] -> p_coparams p1 = [] -> p_params p1 <> [] -> run_chain fn sm lu solve fs p1 = Ok (q, ms) ->
  first_guess fn u q ms nan ivp recon g k helper = Ok s -> run_set ROps fuel slv steps (begin_with c0 s) (p_consts q) = SetDone out -> In l out -> In tr l -> has_quads q (to_sol tr) ->
  exists e, solve_run fn u q ms nan ivp recon fuel slv steps g k helper c0 = Failed e.
Proof.
  intros fn sm lu solve o p p1 fs q ms u nan ivp recon fuel slv steps g k helper c0 s out l tr MK Q0 C0 NP RC FG RS I J HQ.
  destruct (solve_run fn u q ms nan ivp recon fuel slv steps g k helper c0) as [out' r|e|] eqn:E; [|eauto|].
  - exfalso. assert (X := E). unfold solve_run in X. rewrite FG, RS in X. destruct (post ms out); [|discriminate X]. injection X as -> _. exact (C100_never_returned fn sm lu solve o p p1 fs q ms u nan ivp recon fuel slv steps g k helper c0 out' r l tr MK Q0 C0 NP RC E I J HQ).
  - exfalso. unfold solve_run in E. rewrite FG, RS in E. destruct (post ms out); discriminate E.
Qed.
Print Assumptions C100_run_fails.
(** With the option [initial_helper] already the guess fails. *)
Theorem C100_helper : forall fn sm lu solve o p p1 fs q ms u s,
  make_indirect o p = Ok fs -> p_quads p1 = [] -> p_coparams p1 = [] -> p_params p1 <> [] -> run_chain fn sm lu solve fs p1 = Ok (q, ms) -> has_quads q s ->
  exists e, helped u ms true s = Raise e.
Proof.
  intros fn sm lu solve o p p1 fs q ms u s MK Q0 C0 NP RC HQ. destruct (C100_parameters fn sm lu solve o p p1 fs q ms s MK Q0 C0 NP RC HQ) as (e & Y). exists e. unfold helped. rewrite Y. reflexivity.
Qed.
Print Assumptions C100_helper.
(** End costs that mention a name the cost function has no argument for, such as a
    control: a run that returns has no trajectory at all, and none returns with
    [initial_helper]. *)
Theorem C100_end_never_returned : forall fn sm lu solve o p p1 fs pre rest p4 q ms x u nan ivp recon fuel slv steps g k helper c0 out r,
  make_indirect o p = Ok fs -> fs = pre ++ FDual (o_method o) :: rest -> run_tfs lu solve pre p1 = Ok p4 -> run_chain fn sm lu solve fs p1 = Ok (q, ms) ->
  In x (vars (p_cost_i p4) ++ vars (p_cost_t p4)) -> ~ In x (syms (p_states p4) ++ syms (p_quads p4) ++ p_params p4 ++ p_consts p4) ->
  solve_run fn u q ms nan ivp recon fuel slv steps g k helper c0 = Finished out r -> concat out = [] /\ helper = false.
Proof.
  intros fn sm lu solve o p p1 fs pre rest p4 q ms x u nan ivp recon fuel slv steps g k helper c0 out r MK EF R4 RC V NI RUN.
  assert (NO := fun s => C100_end_cost fn sm lu solve o p p1 fs pre rest p4 q ms s x MK EF R4 RC V NI). unfold solve_run in RUN.
  destruct (first_guess fn u q ms nan ivp recon g k helper) as [s|] eqn:FG; [|discriminate RUN]. destruct (run_set _ _ _ _ _ _) as [out'| |]; [|discriminate RUN..]. destruct (post ms out') as [r'|] eqn:E; [|discriminate RUN]. injection RUN as -> ->. split.
  - destruct (concat out) as [|tr l] eqn:C; [reflexivity|]. exfalso. assert (I : In tr (concat out)) by (rewrite C; now left). apply in_concat in I as (b & I & J).
    destruct (post_each ms (chain_stays _ _ _ _ _ _ _ _ RC) out r b tr E I J) as (y & Y). destruct (NO (to_sol tr)) as (e & Z). congruence.
  - destruct helper; [|reflexivity]. exfalso. unfold first_guess in FG. destruct (generate_sol fn q ms nan ivp recon g k) as [s0|]; [|discriminate FG]. cbn [bind] in FG. unfold helped in FG. destruct (NO s0) as (e & Z). rewrite Z in FG. discriminate FG.
Qed.
Print Assumptions C100_end_never_returned.

(** The problem of C99: there are trajectories with quadratures, and none of them is
    reported. *)
Example C100_report_ex : exists o p p1 fs q, sympify p = Ok p1 /\ make_indirect o p = Ok fs /\ run_tfs lu_gauss (solve_linear lu_gauss) fs p1 = Ok q /\ forall fn sm, exists ms, run_chain fn sm lu_gauss (solve_linear lu_gauss) fs p1 = Ok (q, ms) /\
  exists tr, has_quads q (to_sol tr) /\ forall out r, In [tr] out -> post ms out <> Ok r.
Proof.
  destruct C100_parameters_refuted as (o & rank & p & p1 & fs & q & _ & E1 & E2 & E3 & K). exists o, p, p1, fs, q. split; [exact E1|]. split; [exact E2|]. split; [exact E3|]. intros fn sm. destruct (K fn sm) as (_ & ms & RC & (s & S) & B). exists ms. split; [exact RC|].
  exists (begin_with (FTrue) s). assert (H : has_quads q (to_sol (begin_with (FTrue) s))) by (destruct s; exact S). split; [exact H|]. intros out r I X.
  destruct (post_each ms (chain_stays _ _ _ _ _ _ _ _ RC) out r _ _ X I (or_introl eq_refl)) as (x & Y). destruct (B _ H) as (e & Z). congruence.
Qed.
(** x' = u with the terminal cost u^2: nothing but the empty output is reported. *)
Example C100_end_report_ex : exists o p p1 fs q, p_params p = [] /\ sympify p = Ok p1 /\ make_indirect o p = Ok fs /\ run_tfs lu_gauss (solve_linear lu_gauss) fs p1 = Ok q /\ forall fn sm, exists ms, run_chain fn sm lu_gauss (solve_linear lu_gauss) fs p1 = Ok (q, ms) /\
  forall out, (exists r, post ms out = Ok r) <-> concat out = [].
Proof.
  destruct C100_end_control_refuted as (o & rank & p & p1 & fs & q & _ & E0 & E1 & E2 & E3 & K). exists o, p, p1, fs, q. split; [exact E0|]. split; [exact E1|]. split; [exact E2|]. split; [exact E3|]. intros fn sm. destruct (K fn sm) as (_ & ms & RC & B). exists ms. split; [exact RC|].
  intros out. split.
  - intros (r & X). destruct (concat out) as [|tr l] eqn:C; [reflexivity|]. exfalso. assert (I : In tr (concat out)) by (rewrite C; now left). apply in_concat in I as (b & I & J).
    destruct (post_each ms (chain_stays _ _ _ _ _ _ _ _ RC) out r b tr X I J) as (y & Y). destruct (B (to_sol tr)) as (e & Z). congruence.
  - induction out as [|l out IH]; intros C; [now exists []|]. cbn [concat] in C. apply app_eq_nil in C as (-> & C). destruct (IH C) as (r & X). exists ([] :: r). cbn [post post_set bind fst snd]. rewrite X. reflexivity.
Qed.
