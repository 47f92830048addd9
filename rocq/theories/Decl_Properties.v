(** Property theorems C38, C39 and C40: declaration of names, sharing of the
    name table, unit check of the cost. *)
From Coq Require Import Ascii QArith.
From Verif Require Import Base Base_Facts Sym_Expr Sym_Facts Sym_Model Sym_Lu Sym_Dual Dual_Properties Decl_Model.
Open Scope nat_scope.

(** ** C38 *)

(** Declarations whose names are checked. *)
Definition checked (c : call) : Prop := match c with ConstraintParameter _ => False | _ => True end.
(** Names written in a call. *)
Definition named (c : call) : list string :=
  match c with
  | Independent n | Declare _ n _ | ConstraintParameter n => [n]
  | Scale ns => ns
  | Unnamed => []
  end.
(** One declaration of one name, whose constructor does not fail after having
    registered it. *)
Definition atomic (c : call) : Prop :=
  match c with Scale _ => False | Declare _ _ (FailsAfter _) => False | _ => True end.

Definition sane (s : list string * decls) : Prop := NoDup (entities (snd s)) /\ incl (entities (snd s)) (fst s).

Lemma in_register x n t : In x (register t n) <-> In x t \/ n = x.
Proof.
  unfold register. destruct (mem n t) eqn:E.
  - apply mem_In in E. split; [auto|]. intros [H| <-]; auto.
  - rewrite in_app_iff. simpl. firstorder.
Qed.
Lemma nodup_snoc (l : list string) x : NoDup l -> ~ In x l -> NoDup (l ++ [x]).
Proof.
  intros N I. induction N as [|a l A N IH]; simpl; [constructor; [easy|constructor]|].
  constructor; [|apply IH; simpl in I; tauto]. rewrite in_app_iff. simpl in *. firstorder.
Qed.
Lemma sane_declare k n o s : sane s -> sane (fst (declare k n o s)).
Proof.
  destruct s as [t [i its]]. intros [N I]. unfold declare. destruct (mem n t) eqn:E; [split; assumption|].
  assert (F : ~ In n t) by (intros H; apply mem_In in H; congruence).
  unfold sane, entities in *. simpl in N, I.
  destruct o; simpl; try (split; assumption).
  - rewrite map_app. simpl map. rewrite app_comm_cons. split.
    + apply nodup_snoc; [exact N|]. intros H. apply F, I, H.
    + intros x H. apply in_register. apply in_app_or in H. destruct H as [H|[<-|[]]]; [left; apply I, H|now right].
  - split; [exact N|]. intros x H. apply in_register. left. apply I, H.
Qed.
Lemma sane_scale ns : forall s, sane s -> sane (fst (scale_loop ns s)).
Proof.
  induction ns as [|n ns IH]; intros s H; [exact H|]. simpl.
  pose proof (sane_declare KUnit n Works s H) as D. destruct (declare KUnit n Works s) as [s' [e|]]; [exact D|]. apply IH, D.
Qed.
Lemma sane_step c s : checked c -> sane s -> sane (fst (step c s)).
Proof.
  intros C H. destruct c as [n|k n o|n|ns|]; try easy; destruct s as [t [i its]]; simpl; try exact H.
  - destruct (mem n t) eqn:E; [exact H|]. destruct H as [N I]. unfold sane, entities in *. simpl in *.
    assert (F : ~ In n t) by (intros H; apply mem_In in H; congruence). inversion N as [|a l A N']. subst. split.
    + constructor; [|exact N']. intros H. apply F, I. now right.
    + intros x [<-|H]; apply in_register; [now right|]. left. apply I. now right.
  - apply (sane_declare k n o (t, mkDecls i its) H).
  - apply (sane_scale ns (t, mkDecls i its) H).
Qed.
Lemma sane_steps cs : forall s, Forall checked cs -> sane s -> sane (steps cs s).
Proof.
  induction cs as [|c cs IH]; intros s F H; [exact H|]. inversion F. subst. simpl. apply IH; [assumption|]. now apply sane_step.
Qed.
Lemma sane_new : sane new_problem.
Proof. split; [repeat constructor; easy|]. intros x [<-|[]]. now left. Qed.

(** Without [constraint_parameter], no two declared entities share a name,
    whatever was called before, accepted or rejected, and every name in use is
    refused to every further checked declaration. *)
Theorem C38_names_unique : forall cs, Forall checked cs ->
  let s := steps cs new_problem in
  NoDup (entities (snd s)) /\
  (forall n, In n (entities (snd s)) ->
     (forall k o, step (Declare k n o) s = (s, Some RuntimeWarning)) /\
     step (Independent n) s = (s, Some RuntimeWarning) /\
     (forall ns, step (Scale (n :: ns)) s = (s, Some RuntimeWarning))).
Proof.
  intros cs F s. destruct (sane_steps cs new_problem F sane_new) as [N I]. fold s in N, I. split; [exact N|].
  intros n H. apply I in H. apply mem_In in H. destruct s as [t d]. simpl in *. rewrite H. repeat split; reflexivity.
Qed.
Print Assumptions C38_names_unique.

(** A rejected declaration of one name changes nothing. *)
Theorem C38_rejection_leaves_problem : forall c s s' e,
  atomic c -> step c s = (s', Some e) -> s' = s.
Proof.
  intros c [t d] s' e A. destruct c as [n|k n o|n|ns|]; simpl; try easy.
  - destruct (mem n t); [congruence|discriminate].
  - destruct (mem n t); [congruence|]. destruct o; [discriminate|congruence|easy].
Qed.
Print Assumptions C38_rejection_leaves_problem.

Lemma register_scale n ns : forall s, In n (fst (fst (scale_loop ns s))) -> In n (fst s) \/ In n ns.
Proof.
  induction ns as [|m ns IH]; intros s H; [now left|]. simpl in H. unfold declare in H. destruct s as [t d]. simpl.
  destruct (mem m t); [now left|]. apply IH in H. simpl in H. destruct H as [H|H]; [|tauto]. apply in_register in H. tauto.
Qed.
Lemma register_step n c s : In n (fst (fst (step c s))) -> In n (fst s) \/ In n (named c).
Proof.
  destruct s as [t d]. destruct c as [m|k m o|m|ns|]; simpl.
  - destruct (mem m t); simpl; [tauto|]. rewrite in_register. intuition.
  - destruct (mem m t); simpl; [tauto|]. destruct o; simpl; rewrite ?in_register; intuition.
  - rewrite in_register. intuition.
  - apply (register_scale n ns (t, d)).
  - tauto.
Qed.
Lemma register_steps n cs : forall s, In n (fst (steps cs s)) -> In n (fst s) \/ In n (flat_map named cs).
Proof.
  induction cs as [|c cs IH]; intros s H; [now left|]. simpl in *. apply IH in H. rewrite in_app_iff.
  destruct H as [H|H]; [|tauto]. apply register_step in H. tauto.
Qed.

(** A name that no earlier call mentioned is accepted, and the declaration adds
    exactly that entity. *)
Theorem C38_fresh_name_accepted : forall cs k n,
  n <> "_t"%string -> ~ In n (flat_map named cs) ->
  let '(t, d) := steps cs new_problem in
  step (Declare k n Works) (t, d) = ((t ++ [n], mkDecls (d_ind d) (d_items d ++ [(k, n)])), None).
Proof.
  intros cs k n T F. destruct (steps cs new_problem) as [t d] eqn:S. simpl.
  assert (M : mem n t = false).
  { destruct (mem n t) eqn:E; [|reflexivity]. apply mem_In in E. pose proof (register_steps n cs new_problem) as R. rewrite S in R.
    apply R in E. destruct E as [[E|[]]|E]; [congruence|contradiction]. }
  rewrite M. unfold register. now rewrite M.
Qed.
Print Assumptions C38_fresh_name_accepted.

(** [constraint_parameter] checks nothing: a name in use is accepted and two
    entities share it. *)
Theorem C38_constraint_parameter_refuted : exists n,
  let s := steps [Declare KState n Works] new_problem in
  In n (entities (snd s)) /\ snd (step (ConstraintParameter n) s) = None /\
  ~ NoDup (entities (snd (fst (step (ConstraintParameter n) s)))).
Proof.
  exists "nu"%string. split; [vm_compute; tauto|]. split; [reflexivity|].
  vm_compute. intros H. inversion H as [|a l A N]. inversion N as [|a' l' A' N']. apply A'. now left.
Qed.
Print Assumptions C38_constraint_parameter_refuted.

(** A rejected [scale] keeps the names before the duplicate. *)
Theorem C38_scale_refuted : exists cs ns e,
  let s := steps cs new_problem in
  snd (step (Scale ns) s) = Some e /\ snd (fst (step (Scale ns) s)) <> snd s.
Proof.
  exists [Declare KState "x" Works], ["m"%string; "x"%string], RuntimeWarning. split; [reflexivity|]. vm_compute. discriminate.
Qed.
Print Assumptions C38_scale_refuted.

(** A constant whose value is no number is rejected and not added, but its name
    cannot be declared any more. *)
Theorem C38_failed_constant_refuted : exists n e,
  let s := new_problem in
  let '(s', r) := step (Declare KConstant n (FailsAfter e)) s in
  r = Some e /\ snd s' = snd s /\
  snd (step (Declare KConstant n Works) s) = None /\
  snd (step (Declare KConstant n Works) s') = Some RuntimeWarning.
Proof. exists "g"%string, ValueError. repeat split. Qed.
Print Assumptions C38_failed_constant_refuted.

(** The default independent variable keeps its name reserved after it was
    replaced. *)
Theorem C38_replaced_independent_refuted : exists n k,
  let s := steps [Independent n] new_problem in
  ~ In "_t"%string (entities (snd s)) /\ snd (step (Declare k "_t" Works) s) = Some RuntimeWarning.
Proof. exists "t"%string, KState. split; [|reflexivity]. vm_compute. intuition discriminate. Qed.
Print Assumptions C38_replaced_independent_refuted.

Example C38_ex :
  let cs := [Independent "t"; Declare KState "x" Works; Declare KControl "x" Works; Scale ["m"; "t"];
             Declare KFunction "f" (FailsBefore TypeError); Unnamed; Declare KFunction "f" Works]%string in
  Forall checked cs /\ entities (snd (steps cs new_problem)) = ["t"; "x"; "m"; "f"]%string.
Proof. split; [repeat constructor|reflexivity]. Qed.

(** ** C39 *)

(** A name that no transformation generates. *)
Definition plain_name (n : string) : Prop :=
  match n with String c _ => c <> "_"%char | EmptyString => True end /\ n <> "hamiltonian"%string.

Lemma in_registers l : forall t x, In x (fold_left register l t) <-> In x t \/ In x l.
Proof.
  induction l as [|a l IH]; intros t x; simpl; [tauto|]. rewrite IH, in_register. intuition.
Qed.

(** Names of the variables a later transformation may register again. *)
Definition reused (p : prob) : list string := p_ind p :: p_controls p.

Lemma set_nth_incl {A} (l l' : list A) i v : set_nth l i v = Ok l' -> incl l' (v :: l).
Proof.
  intros H. unfold set_nth in H. destruct (Nat.ltb i (length l)); [|discriminate]. apply Ok_inj in H. subst l'.
  intros x H. apply in_app_or in H. simpl. destruct H as [H|[H|H]]; [right|now left|right].
  - rewrite <- (firstn_skipn i l). apply in_or_app. now left.
  - rewrite <- (firstn_skipn (S i) l). apply in_or_app. now right.
Qed.

Lemma reused_subs x n p : reused (subs_all x n p) = reused p.
Proof. now destruct p. Qed.
Lemma reused_step lu sol f p p' : apply_tf lu sol f p = Ok p' -> incl (reused p') (reused p ++ tf_names f p).
Proof.
  unfold reused. destruct f as [| | | |m| |m| | |]; simpl.
  - unfold momentum_shift. destruct (p_symp p); [|discriminate]. intros H. apply Ok_inj in H. subst p'. destruct p. simpl.
    intros x [<-|H]; [right; apply in_or_app; simpl; tauto|right; apply in_or_app; tauto].
  - unfold eps_trig, eps_names. destruct (p_symp p); [|discriminate].
    destruct (find_at _ (p_cp p)) as [[i c]|]; [|discriminate]. destruct (c_expr c) as [| |u| | | | | | | |]; try discriminate.
    destruct (index_of _ _) as [j|]; [|discriminate]. destruct (set_nth _ _ _) as [cs|] eqn:S; [|discriminate].
    cbn [bind]. destruct (c_act c), (c_lower c), (c_upper c); try discriminate. intros H. apply Ok_inj in H. subst p'.
    apply set_nth_incl in S. destruct p. simpl in *. intros x [<-|H]; [now left|]. right. apply S in H.
    apply in_or_app. simpl. destruct H as [H|H]; [right; left; exact H|now left].
  - unfold utm. destruct (p_symp p); [|discriminate]. intros H.
    destruct (find_at utm_sel (p_ci p)) as [[i c]|]; [|destruct (find_at utm_sel (p_cp p)) as [[i c]|]; [|destruct (find_at utm_sel (p_ct p)) as [[i c]|]; [|discriminate]]];
    (destruct (utm_term p c) as [t|]; [|discriminate]); cbn [bind] in H; apply Ok_inj in H; subst p'; destruct p; simpl; rewrite app_nil_r; apply incl_refl.
  - unfold rashs. destruct (p_symp p); [|discriminate]. intros H. apply Ok_inj in H. subst p'. rewrite app_nil_r.
    enough (E : forall l q, reused (fold_left rashs_at l q) = reused q) by (unfold reused in E; rewrite E; apply incl_refl).
    induction l as [|i l IH]; intros q; [reflexivity|]. simpl. rewrite IH. unfold rashs_at. destruct (nth_error _ _) as [s|]; [|reflexivity].
    destruct (sw_sym s); [|reflexivity]. apply reused_subs.
  - intros H. enough (E : reused p' = reused p) by (unfold reused in E; rewrite E; change (incl (reused p) (reused p ++ tf_names (FDual m) p)); apply incl_appl, incl_refl).
    unfold dualize in H. destruct (p_symp p); [|discriminate]. cbv zeta in H.
    assert (S : reused (dual_start p) = reused p) by (unfold dual_start; now destruct p).
    revert H S. generalize (dual_start p) (dual_ham p). intros p1 h H S.
    assert (X : exists p2, dual_finish h p2 = p' /\ reused p2 = reused p).
    { destruct (String.eqb (lower m) "traditional").
      - cbn [bind] in H. apply Ok_inj in H. eexists. split; [exact H|]. rewrite <- S. unfold costates_traditional. now destruct p1.
      - destruct (String.eqb (lower m) "diffyg").
        + destruct (costates_diffyg lu h p1) as [p2|] eqn:C; [|discriminate]. cbn [bind] in H. apply Ok_inj in H. exists p2. split; [exact H|].
          unfold costates_diffyg in C. destruct (negb _); [discriminate|]. destruct (ham_field _ _ _ _) as [chi|]; [|discriminate].
          cbn [bind] in C. apply Ok_inj in C. subst p2. rewrite <- S. now destruct p1.
        + cbn [bind] in H. apply Ok_inj in H. exists p1. split; assumption. }
    destruct X as (p2 & <- & E). rewrite <- E. unfold dual_finish. now destruct p2.
  - unfold algebraic_control. destruct (p_dual p); [|discriminate]. destruct (p_ham p) as [h|]; [|discriminate]. intros H. apply Ok_inj in H. subst p'.
    rewrite app_nil_r. destruct p. apply incl_refl.
  - unfold differential_control. destruct (p_dual p); [|discriminate]. destruct (p_ham p) as [h|]; [|discriminate]. cbv zeta.
    destruct (lu _ _) as [udot|]; [|discriminate]. cbn [bind]. destruct (String.eqb (lower m) "traditional").
    + intros H. apply Ok_inj in H. subst p'. destruct p. simpl. intros x [<-|[]]. now left.
    + destruct (String.eqb (lower m) "diffyg"); [|discriminate]. destruct (negb _); [discriminate|].
      destruct (ham_field _ _ _ _) as [chi|]; [|discriminate]. cbn [bind]. intros H. apply Ok_inj in H. subst p'. destruct p.
      intros x [<-|[]]. now left.
  - unfold normalize_time. destruct (p_symp p); [|discriminate]. intros H. apply Ok_inj in H. subst p'. destruct p. simpl.
    intros x [<-|H]; right; apply in_or_app; simpl; tauto.
  - unfold squash. intros H. apply Ok_inj in H. subst p'. rewrite app_nil_r. destruct p. apply incl_refl.
  - intros H. apply Ok_inj in H. subst p'. rewrite app_nil_r. apply incl_refl.
Qed.

(** Names registered are generated ones, or among [reused]. *)
Lemma tf_names_generated f p x : In x (tf_names f p) -> In x (reused p) \/ ~ plain_name x.
Proof.
  assert (U : forall s, ~ plain_name (String "_" s)) by (intros s [H _]; now apply H).
  destruct f as [| | | |m| |m| | |]; simpl.
  - intros [<-|[<-|[]]]; [left; now left|right; apply U].
  - unfold eps_names. destruct (find_at _ _) as [[i c]|]; [|easy]. destruct (c_expr c); try easy.
    intros [<-|[]]. right. apply U.
  - easy.
  - easy.
  - intros H. right. rewrite !in_app_iff in H. unfold nu_names in H. destruct H as [H|[H|[H|[<-|[]]]]].
    + apply in_map_iff in H. destruct H as (i & <- & _). apply U.
    + apply in_map_iff in H. destruct H as (i & <- & _). apply U.
    + apply in_map_iff in H. destruct H as (i & <- & _). apply U.
    + now intros [_ H].
  - easy.
  - intros H. apply in_app_or in H. destruct H as [H|H]; [left; now right|]. right.
    destruct (String.eqb _ _); [|easy]. apply in_map_iff in H. destruct H as (i & <- & _). apply U.
  - intros [<-|[<-|[]]]; right; apply U.
  - easy.
  - easy.
Qed.

Lemma names_after_keeps lu sol fs : forall p t x, In x t -> In x (names_after lu sol fs p t).
Proof.
  induction fs as [|f fs IH]; intros p t x H; [exact H|]. simpl.
  assert (H' : In x (fold_left register (tf_names f p) t)) by (apply in_registers; now left).
  destruct (apply_tf lu sol f p); [now apply IH|exact H'].
Qed.
Lemma names_after_plain lu sol fs : forall p t x, (forall y, In y (reused p) -> plain_name y -> In y t) ->
  plain_name x -> In x (names_after lu sol fs p t) -> In x t.
Proof.
  induction fs as [|f fs IH]; intros p t x R P H; [exact H|]. simpl in H.
  assert (N : forall y, In y (fold_left register (tf_names f p) t) -> plain_name y -> In y t).
  { intros y Y Py. apply in_registers in Y. destruct Y as [Y|Y]; [exact Y|]. apply tf_names_generated in Y. destruct Y; [now apply R|contradiction]. }
  destruct (apply_tf lu sol f p) as [p'|] eqn:A; [|now apply N]. apply N; [|exact P].
  apply (IH p' _ x); [|exact P|exact H]. intros y Y Py. apply in_registers. apply (reused_step _ _ _ _ _ A) in Y.
  apply in_app_or in Y. destruct Y as [Y|Y]; [left; now apply R|now right].
Qed.

(** Two tables that agree on the names of a call: same outcome, same
    declarations. *)
Lemma mem_agree n t t' : (In n t <-> In n t') -> mem n t = mem n t'.
Proof.
  intros H. destruct (mem n t) eqn:E; symmetry.
  - apply mem_In, H, mem_In, E.
  - destruct (mem n t') eqn:E'; [|reflexivity]. apply mem_In, H, mem_In in E'. congruence.
Qed.
Definition same (r r' : (list string * decls) * option exn) : Prop := snd (fst r) = snd (fst r') /\ snd r = snd r'.
Lemma scale_agree ns : forall t t' d, (forall n, In n ns -> (In n t <-> In n t')) -> same (scale_loop ns (t, d)) (scale_loop ns (t', d)).
Proof.
  induction ns as [|n ns IH]; intros t t' d H; [now split|]. simpl. rewrite (mem_agree n t t') by (apply H; now left).
  destruct (mem n t'); [now split|]. apply IH. intros m M. rewrite !in_register. specialize (H m (or_intror M)). tauto.
Qed.
Lemma step_agree c t t' d : (forall n, In n (named c) -> (In n t <-> In n t')) -> same (step c (t, d)) (step c (t', d)).
Proof.
  destruct c as [n|k n o|n|ns|]; simpl; intros H; try now split.
  - rewrite (mem_agree n t t') by (apply H; now left). destruct (mem n t'); now split.
  - rewrite (mem_agree n t t') by (apply H; now left). destruct (mem n t'); [now split|]. destruct o; now split.
  - now apply scale_agree.
Qed.

(** Processing a copy, with any list of transformations, successful or not,
    changes nothing for later declarations of names that do not start with an
    underscore and are not "hamiltonian": same acceptance, same declarations. *)
Theorem C39_plain_names_unaffected : forall lu sol fs (p : prob) t d c,
  (forall y, In y (p_ind p :: p_controls p) -> In y t) ->
  (forall n, In n (named c) -> plain_name n) ->
  let '((_, d1), r1) := step c (t, d) in
  let '((_, d2), r2) := step c (names_after lu sol fs p t, d) in
  d1 = d2 /\ r1 = r2.
Proof.
  intros lu sol fs p t d c R P.
  pose proof (step_agree c t (names_after lu sol fs p t) d) as S.
  destruct (step c (t, d)) as [[t1 d1] r1], (step c (names_after lu sol fs p t, d)) as [[t2 d2] r2]. apply S.
  intros n N. split; [apply names_after_keeps|]. apply names_after_plain; [|now apply P]. intros y Y _. now apply R.
Qed.
Print Assumptions C39_plain_names_unaffected.

(** A copy of a one-state problem is processed by the usual steps; afterwards
    the original rejects names it accepted before, one of them without an
    underscore. *)
Theorem C39_shared_table_refuted : exists cs p fs,
  let '(t, d) := steps cs new_problem in
  incl (p_ind p :: p_controls p ++ syms (p_states p)) (entities d) /\
  (exists q, run_tfs lu_gauss (fun _ _ => []) fs p = Ok q) /\
  forall n, In n ["_tau"; "_deltat"; "_lam_x"; "_nu_0_0"; "hamiltonian"]%string ->
    snd (step (Declare KState n Works) (t, d)) = None /\
    snd (step (Declare KState n Works) (names_after lu_gauss (fun _ _ => []) fs p t, d)) = Some RuntimeWarning.
Proof.
  exists [Independent "t"; Declare KState "x" Works; Declare KControl "u" Works], ex_oc, [FDual "traditional"; FAlg; FNorm; FSquash].
  split; [intros x H; simpl in *; tauto|]. split; [eexists; vm_compute; reflexivity|].
  intros n H. simpl in H. repeat (destruct H as [<-|H]; [split; vm_compute; reflexivity|]). destruct H.
Qed.
Print Assumptions C39_shared_table_refuted.

Example C39_ex :
  let t := fst (steps [Independent "t"; Declare KState "x" Works; Declare KControl "u" Works] new_problem) in
  (forall y, In y (p_ind ex_oc :: p_controls ex_oc) -> In y t) /\
  (forall n, In n (named (Scale ["m"; "kg"]%string)) -> plain_name n) /\
  length (names_after lu_gauss (fun _ _ => []) [FMomentum; FDual "diffyg"; FDiff "diffyg"; FNorm] ex_oc t) = 12.
Proof.
  split; [|split; [|vm_compute; reflexivity]].
  - intros y H. simpl in H. destruct H as [<-|[<-|[]]]; vm_compute; tauto.
  - intros n H. simpl in H. destruct H as [<-|[<-|[]]]; split; discriminate.
Qed.

(** ** C40 *)
Section C40.
  Context {U : Type}.
  Variables (mul div : U -> U -> U) (eqb : U -> U -> bool).

  (** A mismatch is reported at the first check, and at every check of a copy. *)
  Theorem C40_copies_always_reported : forall n ind u p,
    eqb u (mul p ind) = false ->
    checks_on_copies mul div eqb n ind (mkCU (Some u) (Some p)) = repeat (Some RuntimeWarning) n /\
    snd (check_path_units mul div eqb ind (mkCU (Some u) (Some p))) = Some RuntimeWarning.
  Proof.
    intros n ind u p H. unfold check_path_units. simpl. rewrite H. split; [|reflexivity].
    induction n as [|n IH]; [reflexivity|]. cbn [checks_on_copies repeat]. rewrite IH. unfold check_path_units. simpl. now rewrite H.
  Qed.

  (** A problem is consistent when a unit is missing or they agree.  Consistent
      problems pass every check, and are left with both units or none. *)
  Theorem C40_consistent_accepted : forall n ind c,
    (forall a b, eqb a b = true <-> a = b) ->
    (forall a b, mul (div a b) b = a) ->
    match cu_units c, cu_path c with Some u, Some p => u = mul p ind | _, _ => True end ->
    checks mul div eqb n ind c = repeat None n /\
    (match cu_units c, cu_path c with
     | None, None => fst (check_path_units mul div eqb ind c) = c
     | _, _ => exists u p, fst (check_path_units mul div eqb ind c) = mkCU (Some u) (Some p) /\ u = mul p ind
     end).
  Proof.
    intros n ind c E L H.
    assert (K : forall a, eqb a a = true) by (intros a; now apply E).
    split.
    - assert (B : forall n p, checks mul div eqb n ind (mkCU (Some (mul p ind)) (Some p)) = repeat None n).
      { clear - K. intros n p. induction n as [|n IH]; [reflexivity|]. cbn [checks repeat]. unfold check_path_units. simpl. rewrite K. simpl. now rewrite IH. }
      destruct n as [|n]; [reflexivity|]. cbn [checks repeat]. unfold check_path_units at 1. destruct c as [[u|] [p|]]; simpl in *.
      + subst u. rewrite K. simpl. now rewrite B.
      + specialize (B n (div u ind)). rewrite L in B. now rewrite B.
      + now rewrite B.
      + f_equal. clear. induction n as [|n IH]; [reflexivity|]. cbn [checks repeat]. unfold check_path_units. simpl. now rewrite IH.
    - unfold check_path_units. destruct c as [[u|] [p|]]; simpl in *.
      + subst u. rewrite K. simpl. eauto.
      + eexists _, _. split; [reflexivity|]. now rewrite L.
      + eauto.
      + reflexivity.
  Qed.

  (** The statement fails on one object: the first check repairs the units while
      reporting, so every later check of the same object passes. *)
  Theorem C40_reported_once : forall n ind u p,
    (forall a b, eqb a b = true <-> a = b) ->
    (forall a b, mul (div a b) b = a) ->
    u <> mul p ind ->
    checks mul div eqb (S n) ind (mkCU (Some u) (Some p)) = Some RuntimeWarning :: repeat None n.
  Proof.
    intros n ind u p E L H. assert (F : eqb u (mul p ind) = false).
    { destruct (eqb u (mul p ind)) eqn:B; [|reflexivity]. apply E in B. contradiction. }
    cbn [checks]. unfold check_path_units at 1. simpl. rewrite F. simpl. f_equal.
    apply (C40_consistent_accepted n ind (mkCU (Some u) (Some (div u ind)))); simpl; auto.
  Qed.
End C40.
Print Assumptions C40_copies_always_reported.
Print Assumptions C40_consistent_accepted.
Print Assumptions C40_reported_once.

(** Units as exponents of (length, time): metres against metres per second. *)
Definition umul (a b : Z * Z) : Z * Z := (fst a + fst b, snd a + snd b)%Z.
Definition udiv (a b : Z * Z) : Z * Z := (fst a - fst b, snd a - snd b)%Z.
Definition ueqb (a b : Z * Z) : bool := Z.eqb (fst a) (fst b) && Z.eqb (snd a) (snd b).
Theorem C40_second_check_refuted : exists n ind c,
  checks umul udiv ueqb n ind c = [Some RuntimeWarning; None].
Proof. exists 2, (0, 1)%Z, (mkCU (Some (1, 0)) (Some (1, 0)))%Z. reflexivity. Qed.
Print Assumptions C40_second_check_refuted.
Example C40_ex :
  (forall a b, ueqb a b = true <-> a = b) /\ (forall a b, umul (udiv a b) b = a) /\
  (1, 0)%Z <> umul (1, 0)%Z (0, 1)%Z /\ (1, 0)%Z = umul (1, -1)%Z (0, 1)%Z.
Proof.
  repeat split; try discriminate.
  - intros H. apply andb_prop in H. destruct H as [A B]. apply Z.eqb_eq in A, B. destruct a, b. simpl in *. congruence.
  - intros ->. unfold ueqb. now rewrite !Z.eqb_refl.
  - intros [a b] [c d]. unfold umul, udiv. simpl. f_equal; ring.
Qed.
