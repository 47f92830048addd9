(** Whole runs of the transformations and dimensional consistency. *)
From Coq Require Import Reals Lra.
From Verif Require Import Base Base_Facts Sym_Expr Sym_Facts Sym_Model Sym_Lu Sym_Dual Sym_DiffCtl Unit_Model Unit_Spec Unit_Proofs Unit_Steps Unit_Dual Unit_Control.
Open Scope string_scope. Open Scope list_scope. Open Scope nat_scope.

(** The problem as the user poses it: nothing is derived yet. *)
Definition posed (p : prob) : Prop := p_costates p = [] /\ p_coparams p = [] /\ p_law p = [].

Section Run.
  Variable lu : list (list expr) -> list expr -> res (list expr).
  Variable solve : list expr -> list string -> list (list expr).
  Hypothesis LU : lu_units lu.

  (** The control laws that sympy.solve returns in the course of the run are
      dimensionally consistent. *)
  Fixpoint law_run (G : uenv) (fs : list tf) (p : prob) (u : units) : Prop :=
    match fs with
    | [] => True
    | f :: fs' => (f = FAlg -> law_typed solve G p u) /\
        forall p', apply_tf lu solve f p = Ok p' -> law_run (extend G (new_symbols f p u)) fs' p' (unit_tf f p u)
    end.

  Definition goal (G : uenv) (fs : list tf) (p : prob) (u : units) : Prop := forall p',
    fresh_run lu solve G fs p u -> law_run G fs p u -> run_tfs lu solve fs p = Ok p' ->
    consistent (run_env lu solve G fs p u) p' (run_units lu solve fs p u).

  Lemma goal_nil G p u : consistent G p u -> goal G [] p u.
  Proof. intros K p' _ _ H. cbn in *. apply Ok_inj in H. now subst p'. Qed.
  Lemma goal_step f fs G p u :
    (forall p1, apply_tf lu solve f p = Ok p1 -> fresh G (new_symbols f p u) -> (f = FAlg -> law_typed solve G p u) ->
       goal (extend G (new_symbols f p u)) fs p1 (unit_tf f p u)) -> goal G (f :: fs) p u.
  Proof.
    intros Q p' F L H. cbn [fresh_run law_run run_tfs run_env run_units] in *. destruct (apply_tf lu solve f p) as [p1|] eqn:E; [|discriminate]. cbn [bind] in H.
    destruct F as [F F']. destruct L as [L L']. apply (Q p1); auto.
  Qed.

  Lemma goal_jac (b : bool) G p u : consistent G p u -> goal G (if b then [FJac] else []) p u.
  Proof.
    intros K. destruct b; [|now apply goal_nil]. apply goal_step. intros p1 H _ _. cbn in H. apply Ok_inj in H. subst p1.
    apply goal_nil. apply (consistent_mono G); [apply extends_extend|apply extend_proper; [apply (k_proper _ _ _ K)|constructor]|exact K].
  Qed.
  Lemma consistent_ext G p u : consistent G p u -> consistent (extend G []) p u.
  Proof. intros K. apply (consistent_mono G); [apply extends_extend|apply extend_proper; [apply (k_proper _ _ _ K)|constructor]|exact K]. Qed.
  Lemma goal_squash b G p u : consistent G p u -> goal G (FSquash :: (if b : bool then [FJac] else [])) p u.
  Proof. intros K. apply goal_step. intros p1 H _ _. apply goal_jac. apply consistent_ext. now apply (squash_consistent G p u). Qed.
  Lemma goal_norm (n : bool) rest G p u :
    (forall G p u, consistent G p u -> goal G rest p u) ->
    consistent G p u -> (n = true -> p_quads p = [] /\ p_coparams p = []) -> goal G ((if n then [FNorm] else []) ++ rest) p u.
  Proof.
    intros R K N. destruct n; [|now apply R]. apply goal_step. intros p1 H F _. apply R. destruct (N eq_refl). now apply (norm_consistent G p u p1).
  Qed.

  Lemma alg_frame p p' : algebraic_control solve p = Ok p' -> p_quads p' = p_quads p /\ p_coparams p' = p_coparams p.
  Proof. unfold algebraic_control. destruct (p_dual p); [|discriminate]. destruct (p_ham p); [|discriminate]. intros H. apply Ok_inj in H. subst p'. split; reflexivity. Qed.
  Lemma diff_frame m p p' : differential_control lu m p = Ok p' -> p_quads p' = p_quads p /\ p_coparams p' = p_coparams p.
  Proof.
    unfold differential_control. destruct (p_dual p); [|discriminate]. destruct (p_ham p) as [h|]; [|discriminate].
    intros H. fold (control_rates lu p h) in H. destruct (control_rates lu p h) as [udot|]; cbn [bind] in H; [|discriminate]. cbv zeta in H.
    destruct (String.eqb (lower m) "traditional"); [apply Ok_inj in H; subst p'; split; reflexivity|].
    destruct (String.eqb (lower m) "diffyg"); [|discriminate]. destruct (negb _); [discriminate|].
    match type of H with bind ?e _ = _ => destruct e as [chi|] eqn:EC end; cbn [bind] in H; [|discriminate]. apply Ok_inj in H. subst p'. split; reflexivity.
  Qed.
  Lemma finish_frame h q : p_law (dual_finish h q) = p_law q /\ p_quads (dual_finish h q) = p_quads q.
  Proof. split; reflexivity. Qed.
  Lemma dual_frame m p p' : dualize lu m p = Ok p' -> p_coparams p = [] ->
    p_law p' = p_law p /\ p_quads p' = p_quads p /\ (p_params p = [] -> p_coparams p' = []).
  Proof.
    unfold dualize. destruct (p_symp p); [|discriminate]. cbv zeta. intros H CP.
    pose proof (dual_start_started p) as ST. pose proof (dual_start_kept p) as KE. pose proof (dual_start_coparams p) as C2.
    revert H ST KE C2. generalize (dual_start p) (dual_ham p). intros q0 h H ST KE C2. rewrite CP in C2. cbn [app] in C2.
    destruct (if String.eqb (lower m) "traditional" then Ok (costates_traditional h q0) else if String.eqb (lower m) "diffyg" then costates_diffyg lu h q0 else Ok q0) as [q|] eqn:E; [|discriminate].
    cbn [bind] in H. apply Ok_inj in H. subst p'. destruct (finish_frame h q) as [-> ->]. rewrite finish_coparams.
    destruct (String.eqb (lower m) "traditional"); [|destruct (String.eqb (lower m) "diffyg")].
    - apply Ok_inj in E. subst q. unfold costates_traditional. split; [apply (e_law _ _ (set_coparams_kept _ _ _ (set_costates_kept _ _ _ KE)))|].
      split; [apply (s_quads _ _ (started_coparams _ _ _ (started_costates _ _ _ ST)))|]. intros NP. rewrite (proj2 (set_coparams_spec _ _)), C2, NP. reflexivity.
    - unfold costates_diffyg in E. destruct (negb _); [discriminate|].
      match type of E with bind ?e _ = _ => destruct e as [chi|] end; cbn [bind] in E; [|discriminate]. apply Ok_inj in E. subst q.
      split; [apply (e_law _ _ (set_costates_kept _ _ _ KE))|]. split; [apply (s_quads _ _ (started_costates _ _ _ ST))|].
      intros NP. rewrite (proj2 (set_costates_spec _ _)), C2, NP. reflexivity.
    - apply Ok_inj in E. subst q. split; [apply (e_law _ _ KE)|]. split; [apply (s_quads _ _ ST)|]. intros NP. rewrite C2, NP. reflexivity.
  Qed.

  (** From Dualize on. *)
  Lemma goal_dual m alg n b G p u : consistent G p u -> posed p ->
    (lower m = "diffyg"%string -> p_params p = [] /\ (alg = false -> exists pre, u_states u = pre ++ [u_ind u])) ->
    (n = true -> p_quads p = [] /\ p_params p = []) ->
    goal G ([FDual m] ++ [if alg : bool then FAlg else FDiff m] ++ (if n : bool then [FNorm] else []) ++ FSquash :: (if b : bool then [FJac] else [])) p u.
  Proof.
    intros K (CS & CP & NL) MD NQ. cbn [app]. apply goal_step. intros p1 H F _. cbn in H.
    pose proof (dual_consistent lu LU G m p u p1 K CS CP (fun E => proj1 (MD E)) H F) as K1. destruct (dual_frame m p p1 H CP) as (L1 & Q1 & P1). rewrite NL in L1.
    assert (UC : u_costates u = []) by (pose proof (k_costates _ _ _ K) as Q; rewrite CS in Q; now inversion Q).
    assert (R : forall G p u, consistent G p u -> goal G (FSquash :: (if b : bool then [FJac] else [])) p u) by (intros; now apply goal_squash).
    destruct alg.
    - apply goal_step. intros p2 H2 _ T. specialize (T eq_refl). cbn in H2. destruct (alg_frame p1 p2 H2) as [E1 E2]. apply goal_norm; [exact R| |].
      + apply consistent_ext. now apply (alg_consistent solve _ p1).
      + intros E. destruct (NQ E) as [N1 N2]. rewrite E1, E2, Q1. auto.
    - apply goal_step. intros p2 H2 F2 _. cbn in H2. destruct (diff_frame m p1 p2 H2) as [E1 E2]. apply goal_norm; [exact R| |].
      + apply (diff_consistent lu LU _ m p1 _ p2 K1 L1); auto. intros E. destruct (MD E) as [_ SH]. destruct (SH eq_refl) as [pre ES].
        cbn. split; [reflexivity|]. split; [now rewrite UC|]. exists pre, (u_ind u). split; [exact ES|apply ueq_refl].
      + intros E. destruct (NQ E) as [N1 N2]. rewrite E1, E2, Q1. auto.
  Qed.

  Lemma subs_all_frame x n p : p_law (subs_all x n p) = p_law p /\ p_params (subs_all x n p) = p_params p /\
    p_costates (subs_all x n p) = map (subs_dyn x n) (p_costates p) /\ p_coparams (subs_all x n p) = map (subs_dyn x n) (p_coparams p) /\
    p_quads (subs_all x n p) = map (subs_dyn x n) (p_quads p).
  Proof. destruct p. repeat split; reflexivity. Qed.
  Definition same_frame (p p' : prob) : Prop := (posed p -> posed p') /\ p_params p' = p_params p /\ (p_quads p = [] -> p_quads p' = []).
  Lemma same_frame_trans p q r : same_frame p q -> same_frame q r -> same_frame p r.
  Proof. intros (A & B & C) (D & E & F). split; [auto|]. split; [congruence|auto]. Qed.
  Lemma subs_frame x n p : same_frame p (subs_all x n p).
  Proof.
    destruct (subs_all_frame x n p) as (A & B & C & D & E). split; [|split; [exact B|intros Q; now rewrite E, Q]].
    intros (P1 & P2 & P3). unfold posed. now rewrite A, C, D, P1, P2, P3.
  Qed.
  Lemma momentum_frame p p' : momentum_shift None p = Ok p' -> same_frame p p'.
  Proof. unfold momentum_shift. destruct (p_symp p); [|discriminate]. intros H. apply Ok_inj in H. subst p'. destruct p. split; [intros P; exact P|]. split; [reflexivity|intros E; exact E]. Qed.
  Lemma utm_frame p p' : utm p = Ok p' -> same_frame p p'.
  Proof.
    unfold utm. destruct (p_symp p); [|discriminate]. intros H.
    destruct (find_at utm_sel (p_ci p)) as [[k c]|]; [|destruct (find_at utm_sel (p_cp p)) as [[k c]|]; [|destruct (find_at utm_sel (p_ct p)) as [[k c]|]; [|discriminate]]];
      (destruct (utm_term p c); [|discriminate]; cbn [bind] in H; apply Ok_inj in H; subst p'; destruct p; split; [intros P; exact P|]; split; [reflexivity|intros E; exact E]).
  Qed.
  Lemma maps_frame p m : same_frame p (set_maps p m).
  Proof. destruct p; (split; [intros P; exact P|]; split; [reflexivity|intros E; exact E]). Qed.
  Lemma path_frame p a b c : same_frame p (set_cost_p (set_controls (set_cp p a) b) c).
  Proof. destruct p; (split; [intros P; exact P|]; split; [reflexivity|intros E; exact E]). Qed.
  Lemma eps_frame p p' : eps_trig p = Ok p' -> same_frame p p'.
  Proof.
    unfold eps_trig. destruct (p_symp p); [|discriminate]. intros H. destruct (find_at (is_method "epstrig") (p_cp p)) as [[k c]|]; [|discriminate].
    destruct (c_expr c) as [| |x| | | | | | | |]; try discriminate. destruct (index_of _ _) as [i|]; [|discriminate]. cbv zeta in H.
    destruct (set_nth _ i _) as [controls|]; [|discriminate]. cbn [bind] in H.
    destruct (c_act c) as [act|]; [|discriminate]. destruct (c_lower c) as [lo|]; [|discriminate]. destruct (c_upper c) as [up|]; [|discriminate].
    apply Ok_inj in H. subst p'.
    eapply same_frame_trans; [|apply maps_frame]. eapply same_frame_trans; [|apply subs_frame]. apply path_frame.
  Qed.
  Lemma rashs_frame p p' : rashs p = Ok p' -> same_frame p p'.
  Proof.
    unfold rashs. destruct (p_symp p); [|discriminate]. intros H. apply Ok_inj in H. subst p'. generalize (seq 0 (length (p_switches p))). intros l. revert p.
    induction l as [|i l IH]; intros p; cbn [fold_left]; [split; [auto|split; auto]|]. apply same_frame_trans with (rashs_at p i); [|apply IH].
    unfold rashs_at. destruct (nth_error (p_switches p) i) as [s|]; [|split; [auto|split; auto]]. destruct (sw_sym s); [apply subs_frame|split; [auto|split; auto]].
  Qed.
  Lemma eps_units_states p u : u_states (eps_units p u) = u_states u /\ u_ind (eps_units p u) = u_ind u.
  Proof. unfold eps_units. destruct (find_at _ _) as [[k c]|]; split; reflexivity. Qed.
  Lemma utm_units_states p u : u_states (utm_units p u) = u_states u /\ u_ind (utm_units p u) = u_ind u.
  Proof. unfold utm_units. destruct (find_at _ (p_ci p)) as [[k c]|]; [split; reflexivity|]. destruct (find_at _ (p_cp p)) as [[k c]|]; [split; reflexivity|]. destruct (find_at _ (p_ct p)) as [[k c]|]; split; reflexivity. Qed.

  (** What the later stages need to know. *)
  Definition carried (C : prob -> units -> Prop) : Prop := forall p p' u u', same_frame p p' -> u_states u' = u_states u -> u_ind u' = u_ind u -> C p u -> C p' u'.
  Variable C : prob -> units -> Prop.
  Hypothesis HC : carried C.
  Variable rest : list tf.
  Hypothesis GR : forall G p u, consistent G p u -> posed p -> C p u -> goal G rest p u.

  Lemma activators_ext G p u : activators G p u -> activators (extend G []) p u.
  Proof. apply activators_mono, extends_extend. Qed.
  Lemma goal_rashs (b : bool) G p u : consistent G p u -> posed p -> C p u -> goal G ((if b then [FRashs] else []) ++ rest) p u.
  Proof.
    intros K P HCp. destruct b; [|now apply GR]. apply goal_step. intros p1 H _ _. cbn in H. pose proof (rashs_frame p p1 H) as SF. apply GR.
    - apply consistent_ext. now apply (rashs_consistent G p u).
    - now apply SF.
    - apply (HC p p1 u u); auto.
  Qed.
  Lemma goal_cons cs fs (b : bool) : constraint_tfs cs = Ok fs -> forall G p u, consistent G p u -> activators G p u -> posed p -> C p u ->
    goal G (fs ++ (if b then [FRashs] else []) ++ rest) p u.
  Proof.
    assert (Q : forall fs, Forall (fun f => f = FEps \/ f = FUtm) fs -> forall G p u, consistent G p u -> activators G p u -> posed p -> C p u ->
      goal G (fs ++ (if b then [FRashs] else []) ++ rest) p u).
    { intros fs'. induction 1 as [|f fs' Hf F IH]; intros G p u K A P HCp; cbn [app]; [now apply goal_rashs|].
      apply goal_step. intros p1 H Fr _. destruct Hf as [->| ->]; cbn in H.
      - destruct (eps_consistent G p u p1 K A (proj2 (proj2 P)) H Fr) as (K1 & A1 & _). pose proof (eps_frame p p1 H) as SF. destruct (eps_units_states p u) as [E1 E2].
        apply IH; auto; [now apply SF|now apply (HC p p1 u)].
      - destruct (utm_consistent G p u p1 K A H) as (K1 & A1 & _). pose proof (utm_frame p p1 H) as SF. destruct (utm_units_states p u) as [E1 E2].
        apply IH; [now apply consistent_ext|now apply activators_ext|now apply SF|now apply (HC p p1 u)]. }
    intros E. apply Q. revert fs E. induction cs as [|c cs IH]; cbn [constraint_tfs]; intros fs E; [apply Ok_inj in E; subst; constructor|].
    destruct (two_sided c); [|now apply IH]. destruct (is_method "epstrig" c).
    - destruct (constraint_tfs cs) as [r|]; [|discriminate]. cbn [bind] in E. apply Ok_inj in E. subst fs. constructor; auto.
    - destruct (is_method "utm" c); [|discriminate]. destruct (constraint_tfs cs) as [r|]; [|discriminate]. cbn [bind] in E. apply Ok_inj in E. subst fs. constructor; auto.
  Qed.
End Run.

Lemma indirect_consistent lu solve o p u fs p' G : lu_units lu -> make_indirect o p = Ok fs -> posed p ->
  consistent G p u -> activators G p u ->
  (lower (o_method o) = "diffyg"%string -> p_params p = [] /\ (lower (o_control o) = "differential"%string -> o_shift o = true)) ->
  (o_norm o = true -> p_quads p = [] /\ p_params p = []) ->
  fresh_run lu solve G fs p u -> law_run lu solve G fs p u -> run_tfs lu solve fs p = Ok p' ->
  consistent (run_env lu solve G fs p u) p' (run_units lu solve fs p u).
Proof.
  intros LU MK P K A MD NQ. unfold make_indirect in MK. destruct (constraint_tfs (all_constraints p)) as [cons|] eqn:EC; [|discriminate]. cbn [bind] in MK.
  destruct (if String.eqb (lower (o_control o)) "algebraic" then Ok FAlg else if String.eqb (lower (o_control o)) "differential" then Ok (FDiff (o_method o)) else Raise NotImplementedError) as [ctl|] eqn:ECt; [|discriminate].
  cbn [bind] in MK. apply Ok_inj in MK. subst fs.
  set (alg := String.eqb (lower (o_control o)) "algebraic") in *.
  assert (Ectl : ctl = if alg then FAlg else FDiff (o_method o)).
  { destruct alg; [congruence|]. destruct (String.eqb (lower (o_control o)) "differential"); congruence. }
  assert (Edf : alg = false -> lower (o_control o) = "differential"%string).
  { intros E. rewrite E in ECt. destruct (String.eqb_spec (lower (o_control o)) "differential"); [assumption|discriminate]. }
  clearbody alg. clear ECt. subst ctl. set (bj := (o_jac o && negb (String.eqb (o_control o) "algebraic"))%bool). clearbody bj.
  set (C := fun (p : prob) (u : units) => (lower (o_method o) = "diffyg"%string -> p_params p = [] /\ (alg = false -> exists pre, u_states u = pre ++ [u_ind u])) /\
                       (o_norm o = true -> p_quads p = [] /\ p_params p = [])).
  set (rest := [FDual (o_method o)] ++ [if alg then FAlg else FDiff (o_method o)] ++ (if o_norm o then [FNorm] else []) ++ [FSquash] ++ (if bj then [FJac] else [])).
  assert (HC : carried C).
  { intros q q' v v' (_ & B & Q) ES EI [C1 C2]. split.
    - intros E. destruct (C1 E) as [D1 D2]. rewrite B. split; [exact D1|]. intros E'. destruct (D2 E') as [pre D3]. exists pre. now rewrite ES, EI.
    - intros E. destruct (C2 E) as [D1 D2]. rewrite B. auto. }
  assert (GR : forall G p u, consistent G p u -> posed p -> C p u -> goal lu solve G rest p u).
  { intros G0 q v K0 P0 [C1 C2]. apply goal_dual; auto. }
  destruct (o_shift o) eqn:ES.
  - apply (goal_step lu solve FMomentum). intros p1 H F _. cbn in H. pose proof (momentum_frame p p1 H) as SF.
    apply (goal_cons lu solve C HC rest GR _ _ _ EC).
    + now apply (momentum_consistent G p u).
    + apply (activators_mono G); [apply extends_extend|]. now apply (momentum_activators G p u).
    + now apply SF.
    + destruct SF as (_ & B & Q). split.
      * intros E. rewrite B. destruct (MD E) as [D1 _]. split; [exact D1|]. intros _. exists (u_states u). reflexivity.
      * intros E. rewrite B. destruct (NQ E). auto.
  - apply (goal_cons lu solve C HC rest GR _ _ _ EC); auto. split; [|exact NQ].
    intros E. destruct (MD E) as [D1 D2]. split; [exact D1|]. intros E'. specialize (D2 (Edf E')). discriminate.
Qed.

Lemma direct_consistent lu solve o p u fs p' G : make_direct o p = Ok fs -> posed p ->
  consistent G p u -> activators G p u -> (o_norm o = true -> p_quads p = []) ->
  fresh_run lu solve G fs p u -> law_run lu solve G fs p u -> run_tfs lu solve fs p = Ok p' ->
  consistent (run_env lu solve G fs p u) p' (run_units lu solve fs p u).
Proof.
  intros MK P K A NQ. unfold make_direct in MK. destruct (constraint_tfs (all_constraints p)) as [cons|] eqn:EC; [|discriminate]. cbn [bind] in MK.
  apply Ok_inj in MK. subst fs.
  set (C := fun (p : prob) (u : units) => o_norm o = true -> p_quads p = []).
  set (rest := (if o_norm o then [FNorm] else []) ++ (if o_jac o then [FJac] else [])).
  assert (HC : carried C) by (intros q q' v v' (_ & B & Q) ES EI C1 E; auto).
  assert (GR : forall G p u, consistent G p u -> posed p -> C p u -> goal lu solve G rest p u).
  { intros G0 q v K0 P0 C1. apply goal_norm; [intros; now apply goal_jac|exact K0|]. intros E. split; [now apply C1|apply P0]. }
  destruct (o_shift o) eqn:ES.
  - apply (goal_step lu solve FMomentum). intros p1 H F _. cbn in H. pose proof (momentum_frame p p1 H) as SF.
    apply (goal_cons lu solve C HC rest GR _ _ _ EC).
    + now apply (momentum_consistent G p u).
    + apply (activators_mono G); [apply extends_extend|]. now apply (momentum_activators G p u).
    + now apply SF.
    + destruct SF as (_ & B & Q). intros E. auto.
  - apply (goal_cons lu solve C HC rest GR _ _ _ EC); auto.
Qed.
