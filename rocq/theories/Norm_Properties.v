(** Property theorem C35: time normalisation of a problem. *)
From Coq Require Import Reals Lra.
From Coquelicot Require Import Coquelicot.
From Verif Require Import Base Base_Facts Sym_Expr Sym_Facts Sym_Model Sym_Lu Sym_Dual Sym_Traj Dual_Properties.
Open Scope R_scope.

(** [d] is the curve [c] run through with the normalised time s, t = t0 + D s;
    [dt] is the name of the duration, [tau] that of the new variable. *)
Definition rescaled (dt tau : string) (t0 D : R) (c d : R -> string -> R) : Prop :=
  forall s, d s dt = D /\ d s tau = s /\ forall y, y <> dt -> y <> tau -> d s y = c (t0 + D * s) y.
(** The names occur neither in [e] nor as [x]. *)
Definition unused (dt tau : string) (eqs : list (string * expr)) : Prop :=
  forall x e, In (x, e) eqs -> x <> dt /\ x <> tau /\ ~ In dt (vars e) /\ ~ In tau (vars e).

Lemma eval_rescaled fn dt tau t0 D c d e s : rescaled dt tau t0 D c d -> ~ In dt (vars e) -> ~ In tau (vars e) ->
  eval fn (d s) e = eval fn (c (t0 + D * s)) e.
Proof.
  intros H N1 N2. apply eval_ext. intros x Hx. destruct (H s) as (_ & _ & E). apply E; intros ->; contradiction.
Qed.
Lemma derive_rescaled dt tau t0 D c d x s v : D <> 0 -> rescaled dt tau t0 D c d -> x <> dt -> x <> tau ->
  is_derive (fun s => d s x) s (v * D) <-> is_derive (fun t => c t x) (t0 + D * s) v.
Proof.
  intros HD H N1 N2. split; intros G.
  - assert (E : forall t, c t x = d ((t - t0) / D) x).
    { intros t. destruct (H ((t - t0) / D)) as (_ & _ & E). rewrite E by assumption. f_equal. field. exact HD. }
    apply (is_derive_ext (fun t => d ((t - t0) / D) x)); [intros t; symmetry; apply E|].
    replace v with (/ D * (v * D)) by (field; exact HD).
    apply (is_derive_comp (fun s => d s x) (fun t => (t - t0) / D)).
    + assert (ES : (t0 + D * s - t0) / D = s) by (field; exact HD). rewrite ES. exact G.
    + auto_derive; [exact I|]. field. exact HD.
  - apply (is_derive_ext (fun s => c (t0 + D * s) x)).
    + intros r. destruct (H r) as (_ & _ & E). symmetry. now apply E.
    + replace (v * D) with (D * v) by ring. apply (is_derive_comp (fun t => c t x) (fun s => t0 + D * s)); [exact G|].
      auto_derive; [exact I|ring].
Qed.

(** C35.  For every duration D other than 0 a curve satisfies the equations of
    the states and costates of the normalised problem exactly when the original
    curve satisfies the original ones, and the path costs agree. *)
Theorem C35_solutions_correspond : forall fn nm p p' t0 D c d,
  normalize_time nm p = Ok p' ->
  let dt := ("_delta" ++ p_ind p)%string in
  D <> 0 -> rescaled dt (p_ind p') t0 D c d ->
  unused dt (p_ind p') (p_states p ++ p_costates p) ->
  ~ In dt (vars (p_cost_p p)) -> ~ In (p_ind p') (vars (p_cost_p p)) ->
  (forall s, follows fn d s (p_states p') <-> follows fn c (t0 + D * s) (p_states p)) /\
  (forall s, follows fn d s (p_costates p') <-> follows fn c (t0 + D * s) (p_costates p)) /\
  (forall a b I, is_RInt (fun s => eval fn (d s) (p_cost_p p')) a b I <->
     is_RInt (fun t => eval fn (c t) (p_cost_p p)) (t0 + D * a) (t0 + D * b) I) /\
  p_params p' = p_params p ++ [dt] /\ p_controls p' = p_controls p /\ p_ci p' = p_ci p /\ p_ct p' = p_ct p.
Proof.
  intros fn nm p p' t0 D c d HN dt HD HR HU N1 N2.
  unfold normalize_time in HN. destruct (p_symp p) eqn:SY; [|discriminate]. apply Ok_inj in HN.
  set (tau := match nm with None => "_tau"%string | Some s => s end) in HN.
  assert (ET : p_ind p' = tau) by (subst p'; destruct p; reflexivity).
  assert (ES : p_states p' = map (fun s => (fst s, Mul (snd s) (Var dt))) (p_states p)) by (subst p'; destruct p; reflexivity).
  assert (EC : p_costates p' = map (fun s => (fst s, Mul (snd s) (Var dt))) (p_costates p)) by (subst p'; destruct p; reflexivity).
  assert (EP : p_cost_p p' = Mul (p_cost_p p) (Var dt)) by (subst p'; destruct p; reflexivity).
  assert (EM : p_params p' = p_params p ++ [dt] /\ p_controls p' = p_controls p /\ p_ci p' = p_ci p /\ p_ct p' = p_ct p)
    by (subst p'; destruct p; repeat split; reflexivity).
  clear HN. rewrite ET in *.
  assert (F : forall eqs s, (forall q, In q eqs -> In q (p_states p ++ p_costates p)) ->
            follows fn d s (map (fun s => (fst s, Mul (snd s) (Var dt))) eqs) <-> follows fn c (t0 + D * s) eqs).
  { intros eqs s HI. assert (HV : forall x e, In (x, e) eqs -> eval fn (d s) (Mul e (Var dt)) = eval fn (c (t0 + D * s)) e * D).
    { intros x e I. destruct (HU x e (HI _ I)) as (_ & _ & M1 & M2). cbn [eval].
      rewrite (eval_rescaled fn dt tau t0 D c d e s HR M1 M2). destruct (HR s) as (-> & _). reflexivity. }
    split; intros G x e I.
    - destruct (HU x e (HI _ I)) as (M1 & M2 & _). apply (derive_rescaled dt tau t0 D c d x s _ HD HR M1 M2).
      rewrite <- (HV x e I). apply G. apply in_map_iff. exists (x, e). split; [reflexivity|exact I].
    - apply in_map_iff in I. destruct I as ([y f] & E & I). injection E as <- <-. cbn [fst snd]. rewrite (HV y f I).
      destruct (HU y f (HI _ I)) as (M1 & M2 & _). apply (derive_rescaled dt tau t0 D c d y s _ HD HR M1 M2). apply G. exact I. }
  split; [|split; [|split; [|exact EM]]].
  - intros s. rewrite ES. apply F. intros q I. apply in_or_app. now left.
  - intros s. rewrite EC. apply F. intros q I. apply in_or_app. now right.
  - intros a b I. rewrite EP.
    assert (EE : forall s, eval fn (d s) (Mul (p_cost_p p) (Var dt)) = D * eval fn (c (D * s + t0)) (p_cost_p p)).
    { intros s. cbn [eval]. rewrite (eval_rescaled fn dt tau t0 D c d _ s HR N1 N2). destruct (HR s) as (-> & _).
      replace (t0 + D * s) with (D * s + t0) by ring. ring. }
    split; intros G.
    + pose proof (is_RInt_comp_lin (V := R_NormedModule) (fun s => eval fn (d s) (Mul (p_cost_p p) (Var dt))) (/ D) (- t0 / D) (t0 + D * a) (t0 + D * b) I) as K.
      replace (/ D * (t0 + D * a) + - t0 / D) with a in K by (field; exact HD).
      replace (/ D * (t0 + D * b) + - t0 / D) with b in K by (field; exact HD).
      specialize (K G). apply (is_RInt_ext (V := R_NormedModule) _ (fun t => eval fn (c t) (p_cost_p p))) in K; [exact K|].
      intros t _. rewrite EE. unfold scal. simpl. unfold mult. simpl.
      replace (D * (/ D * t + - t0 / D) + t0) with t by (field; exact HD). field. exact HD.
    + pose proof (is_RInt_comp_lin (V := R_NormedModule) (fun t => eval fn (c t) (p_cost_p p)) D t0 a b I) as K.
      replace (D * a + t0) with (t0 + D * a) in K by ring. replace (D * b + t0) with (t0 + D * b) in K by ring.
      specialize (K G). apply (is_RInt_ext (V := R_NormedModule) _ (fun s => eval fn (d s) (Mul (p_cost_p p) (Var dt)))) in K; [exact K|].
      intros s _. rewrite EE. reflexivity.
Qed.
Print Assumptions C35_solutions_correspond.

(** C35.  Quadratures and multipliers of the parameters keep their unscaled
    equations, so the normalised problem integrates them too fast or too slow by
    the duration. *)
Theorem C35_quadratures_not_scaled : forall fn nm p p' t0 D c d,
  normalize_time nm p = Ok p' ->
  let dt := ("_delta" ++ p_ind p)%string in
  D <> 0 -> rescaled dt (p_ind p') t0 D c d ->
  unused dt (p_ind p') (p_quads p ++ p_coparams p) ->
  forall s, (follows fn d s (p_quads p') <->
       forall x e, In (x, e) (p_quads p) -> is_derive (fun t => c t x) (t0 + D * s) (eval fn (c (t0 + D * s)) e / D)) /\
     (follows fn d s (p_coparams p') <->
       forall x e, In (x, e) (p_coparams p) -> is_derive (fun t => c t x) (t0 + D * s) (eval fn (c (t0 + D * s)) e / D)).
Proof.
  intros fn nm p p' t0 D c d HN dt HD HR HU s.
  unfold normalize_time in HN. destruct (p_symp p) eqn:SY; [|discriminate]. apply Ok_inj in HN.
  set (tau := match nm with None => "_tau"%string | Some s => s end) in HN.
  assert (ET : p_ind p' = tau) by (subst p'; destruct p; reflexivity).
  assert (ES : p_quads p' = p_quads p) by (subst p'; destruct p; reflexivity).
  assert (EC : p_coparams p' = p_coparams p) by (subst p'; destruct p; reflexivity).
  clear HN. rewrite ET, ES, EC in *.
  assert (F : forall eqs, (forall q, In q eqs -> In q (p_quads p ++ p_coparams p)) ->
            follows fn d s eqs <-> forall x e, In (x, e) eqs -> is_derive (fun t => c t x) (t0 + D * s) (eval fn (c (t0 + D * s)) e / D)).
  { intros eqs HI. split; intros G x e I; destruct (HU x e (HI _ I)) as (M1 & M2 & M3 & M4); specialize (G x e I).
    - apply (derive_rescaled dt tau t0 D c d x s _ HD HR M1 M2). rewrite (eval_rescaled fn dt tau t0 D c d e s HR M3 M4) in G.
      replace (eval fn (c (t0 + D * s)) e / D * D) with (eval fn (c (t0 + D * s)) e) by (field; exact HD). exact G.
    - apply (derive_rescaled dt tau t0 D c d x s _ HD HR M1 M2) in G. rewrite (eval_rescaled fn dt tau t0 D c d e s HR M3 M4).
      replace (eval fn (c (t0 + D * s)) e) with (eval fn (c (t0 + D * s)) e / D * D) by (field; exact HD). exact G. }
  split; apply F; intros q I; apply in_or_app; [now left|now right].
Qed.
Print Assumptions C35_quadratures_not_scaled.

(** The problem x' = k, cost x + k x with parameter k, dualised. *)
Definition nt_oc : prob :=
  mkProb "t" [("x"%string, Var "k")] [] ["k"%string] [] [] [] [] [] [] [] []
    (Cst 0) (Mul (Var "k") (Var "x")) (Cst 0) [] [] [] [] None [] true false.
Definition nt1 : prob := Eval vm_compute in match dualize lu_gauss "traditional" nt_oc with Ok q => q | Raise _ => nt_oc end.
Definition nt2 : prob := Eval vm_compute in match normalize_time None nt1 with Ok q => q | Raise _ => nt_oc end.
(* x = t, k = 1, lam_x = -t, lam_k' = -(x + lam_x) = 0 *)
Definition nt_c (t : R) (y : string) : R :=
  if String.eqb y "t" then t else if String.eqb y "x" then t + 1 else if String.eqb y "k" then 1
  else if String.eqb y "_lam_x" then - t else if String.eqb y "_lam_k" then - t else 0.
Definition nt_d (s : R) (y : string) : R :=
  if String.eqb y "_deltat" then 2 else if String.eqb y "_tau" then s else nt_c (0 + 2 * s) y.
Lemma nt_rescaled : rescaled "_deltat" "_tau" 0 2 nt_c nt_d.
Proof.
  intros s. split; [reflexivity|]. split; [reflexivity|]. intros y N1 N2. unfold nt_d.
  apply String.eqb_neq in N1, N2. now rewrite N1, N2.
Qed.
Lemma nt_follows t : follows ex_fn nt_c t (p_states nt1 ++ p_costates nt1 ++ p_coparams nt1).
Proof.
  intros y e H. vm_compute in H. destruct H as [H|[H|[H|[]]]]; injection H as <- <-.
  - apply (is_derive_ext (fun t => t + 1)); [reflexivity|]. unfold nt_c. simpl. auto_derive; [exact I|ring].
  - apply (is_derive_ext (fun t => - t)); [reflexivity|]. unfold nt_c. simpl. auto_derive; [exact I|ring].
  - apply (is_derive_ext (fun t => - t)); [reflexivity|]. unfold nt_c. simpl. auto_derive; [exact I|ring].
Qed.

Example C35_ex : dualize lu_gauss "traditional" nt_oc = Ok nt1 /\ normalize_time None nt1 = Ok nt2 /\
  rescaled "_deltat" "_tau" 0 2 nt_c nt_d /\
  unused "_deltat" "_tau" ((p_states nt1 ++ p_costates nt1) ++ p_quads nt1 ++ p_coparams nt1) /\
  (forall s, follows ex_fn nt_d s (p_states nt2) /\ follows ex_fn nt_d s (p_costates nt2)) /\
  is_RInt (fun s => eval ex_fn (nt_d s) (p_cost_p nt2)) 0 1 4.
Proof.
  assert (B : normalize_time None nt1 = Ok nt2) by (vm_compute; reflexivity).
  assert (U : unused "_deltat" "_tau" ((p_states nt1 ++ p_costates nt1) ++ p_quads nt1 ++ p_coparams nt1)).
  { intros x e H. vm_compute in H. destruct H as [H|[H|[H|[]]]]; injection H as <- <-;
    (split; [discriminate|]); (split; [discriminate|]); simpl; intuition discriminate. }
  split; [vm_compute; reflexivity|]. split; [exact B|]. split; [exact nt_rescaled|]. split; [exact U|].
  destruct (C35_solutions_correspond ex_fn None nt1 nt2 0 2 nt_c nt_d B) as (A1 & A2 & A3 & _).
  - lra.
  - exact nt_rescaled.
  - intros x e H. apply U. apply in_or_app. now left.
  - simpl. intuition discriminate.
  - simpl. intuition discriminate.
  - split.
    + intros s. split; [apply A1|apply A2]; intros x e H; apply nt_follows; apply in_or_app; [now left|right; apply in_or_app; now left].
    + apply A3. replace (0 + 2 * 0) with 0 by ring. replace (0 + 2 * 1) with 2 by ring.
      apply (is_RInt_ext (V := R_NormedModule) (fun t => t + 1)). { intros t _. unfold nt_c. simpl. ring. }
      assert (K : is_RInt (V := R_NormedModule) (fun t => t + 1) 0 2 (minus ((fun t => t * t / 2 + t) 2) ((fun t => t * t / 2 + t) 0))).
      { apply (is_RInt_derive (V := R_CompleteNormedModule) (fun t => t * t / 2 + t) (fun t => t + 1)).
        - intros t _. auto_derive; [exact I|]. field.
        - intros t _. apply (continuous_plus (V := R_NormedModule) (fun t => t) (fun _ => 1)); [apply continuous_id|apply continuous_const]. }
      match type of K with is_RInt _ _ _ ?v => assert (E : v = 4) by (unfold minus, plus, opp; simpl; lra) end.
      rewrite <- E. exact K.
Qed.

(** C35 fails for the multipliers of parameters and for quadratures. *)
Theorem C35_parameter_multipliers_refuted : exists p p1 p2 fn t0 D c d,
  dualize lu_gauss "traditional" p = Ok p1 /\ normalize_time None p1 = Ok p2 /\
  D <> 0 /\ rescaled ("_delta" ++ p_ind p1)%string (p_ind p2) t0 D c d /\
  (forall t, follows fn c t (p_states p1 ++ p_costates p1 ++ p_coparams p1)) /\
  forall s, follows fn d s (p_states p2 ++ p_costates p2) /\ ~ follows fn d s (p_coparams p2).
Proof.
  exists nt_oc, nt1, nt2, ex_fn, 0, 2, nt_c, nt_d. destruct C35_ex as (A & B & HR & U & F & _).
  split; [exact A|]. split; [exact B|]. split; [lra|]. split; [exact HR|]. split; [apply nt_follows|].
  intros s. split.
  - intros x e H. apply in_app_or in H. destruct (F s) as [F1 F2]. destruct H; [now apply F1|now apply F2].
  - intros G. destruct (C35_quadratures_not_scaled ex_fn None nt1 nt2 0 2 nt_c nt_d B) with (s := s) as [_ Q].
    + lra.
    + exact HR.
    + intros x e H. apply U. apply in_or_app. now right.
    + apply (proj1 Q) with (x := "_lam_k"%string) (e := Opp (diff "k" (dual_ham nt_oc))) in G; [|now left].
      assert (H : is_derive (fun t => nt_c t "_lam_k") (0 + 2 * s) (eval ex_fn (nt_c (0 + 2 * s)) (Opp (diff "k" (dual_ham nt_oc))))).
      { apply nt_follows. vm_compute. tauto. }
      apply is_derive_unique in G. apply is_derive_unique in H. rewrite G in H. unfold nt_c in H. simpl in H. lra.
Qed.
Print Assumptions C35_parameter_multipliers_refuted.
