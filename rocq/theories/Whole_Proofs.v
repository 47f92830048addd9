(** From a solution of the compiled functions to a curve of named values. *)
From Coq Require Import Reals Lra FunctionalExtensionality.
From Coquelicot Require Import Coquelicot.
From Verif Require Import Base Base_Facts Map_Model Map_Proofs Map_More Sym_Expr Sym_Facts Sym_Model Sym_Lu Sym_Dual Sym_Traj Sym_Var Sym_DiffCtl Jac_Model Jac_Proofs Jac_Properties Unit_Model Unit_Spec Unit_Proofs Unit_Steps Unit_Scale Unit_Properties.
Open Scope string_scope.
Open Scope list_scope.
Open Scope nat_scope.

(** Values of [names], and [rest] for all others. *)
Definition over (names : list string) (vals : list R) (rest : string -> R) (x : string) : R :=
  match index_of x names with Ok i => nth i vals 0%R | Raise _ => rest x end.
Lemma over_cons a N v V rest x : over (a :: N) (v :: V) rest x = if String.eqb x a then v else over N V rest x.
Proof. unfold over. cbn [index_of]. destruct (String.eqb x a); [reflexivity|]. now destruct (index_of x N). Qed.
Lemma env_over A a N V x : length a = length A -> env (A ++ N) (a ++ V) x = over A a (env N V) x.
Proof.
  revert a. induction A as [|z A IH]; intros [|v a] L; try discriminate; [reflexivity|]. cbn [app]. rewrite env_cons, over_cons, IH by now injection L. reflexivity.
Qed.
Lemma over_out N V rest x : ~ In x N -> over N V rest x = rest x.
Proof. intros H. unfold over. now rewrite index_of_notIn. Qed.
Lemma over_nth N V rest x i : NoDup N -> nth_error N i = Some x -> over N V rest x = nth i V 0%R.
Proof. intros ND H. unfold over. now rewrite (index_of_NoDup x N i ND H). Qed.
Lemma over_ext N V r1 r2 x : (~ In x N -> r1 x = r2 x) -> over N V r1 x = over N V r2 x.
Proof.
  intros H. unfold over. destruct (index_of x N) as [i|e] eqn:E; [reflexivity|]. apply H. intros I. destruct (index_of_In x N I) as (j & F). congruence.
Qed.

Lemma call_inv fn groups es vals v : call fn groups es vals = Ok v ->
  fits groups vals = true /\ (forall e x, In e es -> In x (vars e) -> In x (concat groups)) /\ v = map (eval fn (env (concat groups) (concat vals))) es.
Proof.
  unfold call. destruct (fits groups vals); [|discriminate]. destruct (forallb _ es) eqn:E; [|discriminate]. intros H. injection H as <-. split; [reflexivity|]. split; [|reflexivity].
  intros e x Ie Ix. rewrite forallb_forall in E. specialize (E e Ie). rewrite forallb_forall in E. now apply mem_In, E.
Qed.
Lemma fits_lengths groups vals : fits groups vals = true -> Forall2 (fun g v => length g = length v) groups vals.
Proof.
  unfold fits. rewrite andb_true_iff. intros [L F]. apply Nat.eqb_eq in L. revert vals L F. induction groups as [|g gs IH]; intros [|v vs] L F; try discriminate; [constructor|].
  cbn in F. apply andb_true_iff in F. destruct F as [F1 F2]. constructor; [now apply Nat.eqb_eq|]. apply IH; [now injection L|exact F2].
Qed.

(** [Y], [Q] solve the boundary value problem on [a, b] up to errors: the
    derivatives differ from the compiled ones by at most [delta], and no boundary
    residual is larger than [eps]. *)
Definition near (delta eps : R) (fn : string -> nat -> R -> R) (p : prob) (a b : R) (Y Q : R -> list R) (pp pc k : list R) : Prop :=
  let cu := law_control fn p in
  (forall t, (a <= t <= b)%R -> exists v w,
     deriv_func fn p cu (Y t) None pp k = Ok v /\ quad_func fn p cu (Y t) None pp k = Ok w /\
     (forall i, i < length (p_states p) -> exists d, is_derive (fun s => nth i (Y s) 0%R) t d /\ (Rabs (d - nth i v 0) <= delta)%R) /\
     (forall i, i < length (p_quads p) -> exists d, is_derive (fun s => nth i (Q s) 0%R) t d /\ (Rabs (d - nth i w 0) <= delta)%R)) /\
  exists r, bc_func fn p cu (Y a) (Q a) (Y b) (Q b) pp pc k = Ok r /\ Forall (fun x => (Rabs x <= eps)%R) r.
Lemma abs_small (x y : R) : (Rabs (x - y) <= 0)%R -> x = y.
Proof. intros H. assert (Z := Rabs_pos (x - y)). assert (E : Rabs (x - y) = 0%R) by lra. apply Rabs_eq_0 in E. lra. Qed.
Lemma abs_zero (x : R) : (Rabs x <= 0)%R -> x = 0%R.
Proof. intros H. apply abs_small. now rewrite Rminus_0_r. Qed.
Lemma solves_near fn p a b Y Q pp pc k : solves fn p a b Y Q pp pc k <-> near 0 0 fn p a b Y Q pp pc k.
Proof.
  split; intros (H1 & r & H2 & H3).
  - split.
    + intros t Ht. destruct (H1 t Ht) as (v & w & V & W & DV & DW). exists v, w. split; [exact V|]. split; [exact W|].
      split; intros i Hi; [exists (nth i v 0%R); split; [now apply DV|]|exists (nth i w 0%R); split; [now apply DW|]];
        rewrite Rminus_eq_0, Rabs_R0; lra.
    + exists r. split; [exact H2|]. revert H3. apply Forall_impl. intros x ->. rewrite Rabs_R0. lra.
  - split.
    + intros t Ht. destruct (H1 t Ht) as (v & w & V & W & DV & DW). exists v, w. split; [exact V|]. split; [exact W|].
      split; intros i Hi; [destruct (DV i Hi) as (d & D & E)|destruct (DW i Hi) as (d & D & E)]; apply abs_small in E; rewrite <- E; exact D.
    + exists r. split; [exact H2|]. revert H3. apply Forall_impl. intros x. apply abs_zero.
Qed.
(** The equations of motion hold up to [d]. *)
Definition follows_near (d : R) (fn : string -> nat -> R -> R) (c : R -> string -> R) (t : R) (l : list (string * expr)) : Prop :=
  forall x e, In (x, e) l -> exists r, is_derive (fun s => c s x) t r /\ (Rabs (r - eval fn (c t) e) <= d)%R.
Lemma follows_exact fn c t l : follows_near 0 fn c t l -> follows fn c t l.
Proof. intros H x e I. destruct (H x e I) as (r & D & E). apply abs_small in E. rewrite <- E. exact D. Qed.

Section Curve.
  Variable fn : string -> nat -> R -> R.
  Variable p : prob.
  Variable Y Q : R -> list R.
  Variable pp pc k : list R.
  Definition used (s : R) : list R := match law_control fn p with Some f => f (Y s) pp k | None => [] end.
  Definition ctl : list string := match law_control fn p with Some _ => p_controls p | None => [] end.
  Definition fixed : list string := p_params p ++ p_cpars p ++ p_consts p.
  Definition fixed_at : string -> R := env fixed (pp ++ pc ++ k).
  (** The value of every symbol at (normalised) time [s]. *)
  Definition curve (s : R) : string -> R := over (states p) (Y s) (over ctl (used s) fixed_at).

  Hypothesis NQ : p_quads p = [].
  Hypothesis ND : NoDup (states p ++ ctl ++ fixed).

  Lemma nodup_parts {A} (l m : list A) : NoDup (l ++ m) -> NoDup l /\ NoDup m /\ forall x, In x l -> ~ In x m.
  Proof.
    induction l as [|a l IH]; cbn; intros H; [repeat split; auto using NoDup_nil|]. inversion H; subst. destruct (IH H3) as (A1 & A2 & A3). rewrite in_app_iff in H2.
    split; [constructor; tauto|]. split; [exact A2|]. intros x [ ->|I] J; [tauto|]. exact (A3 x I J).
  Qed.

  Lemma no_quads : with_quads p = false.
  Proof. unfold with_quads, quads. now rewrite NQ. Qed.
  Lemma bc_names : concat (bc_groups p (is_some (law_control fn p))) = states p ++ ctl ++ fixed.
  Proof. unfold bc_groups, ctl, fixed. rewrite no_quads. destruct (law_control fn p); cbn; rewrite ?app_nil_r; reflexivity. Qed.
  Lemma dyn_names : concat (dyn_groups p (is_some (law_control fn p))) = states p ++ ctl ++ p_params p ++ p_consts p.
  Proof. unfold dyn_groups, ctl. destruct (law_control fn p); cbn; rewrite ?app_nil_r; reflexivity. Qed.

  Lemma curve_bc s groups es v : 
    groups = bc_groups p (is_some (law_control fn p)) ->
    call fn groups es (bc_vals p (Y s) (Q s) (match law_control fn p with Some f => Some (f (Y s) pp k) | None => None end) pp pc k) = Ok v ->
    v = map (eval fn (curve s)) es /\ (forall e x, In e es -> In x (vars e) -> In x (states p ++ ctl ++ fixed)).
  Proof.
    intros -> H. apply call_inv in H. destruct H as (F & C & ->). rewrite bc_names in *. split; [|exact C].
    apply map_ext. intros e. f_equal. apply functional_extensionality. intros x. apply fits_lengths in F.
    unfold curve, bc_groups, bc_vals, used, ctl, fixed_at in *. rewrite no_quads in *. destruct (law_control fn p) as [f|]; cbn [is_some app concat] in *.
    - inversion F as [|? ? ? ? L1 F1]; subst. inversion F1 as [|? ? ? ? L2 F2]; subst. cbn [concat app]. rewrite app_nil_r.
      rewrite env_over by auto. apply over_ext. intros _. now rewrite env_over by auto.
    - inversion F as [|? ? ? ? L1 F1]; subst. cbn [concat app]. rewrite app_nil_r.
      rewrite env_over by auto. apply over_ext. intros _. unfold over. reflexivity.
  Qed.

  Lemma fixed_dyn x : length pp = length (p_params p) -> length pc = length (p_cpars p) -> ~ In x (p_cpars p) ->
    env (p_params p ++ p_consts p) (pp ++ k) x = fixed_at x.
  Proof. intros L1 L2 H. unfold fixed_at, fixed. rewrite env_insert; auto. Qed.

  Lemma curve_dyn s es v : length pp = length (p_params p) -> length pc = length (p_cpars p) ->
    call fn (dyn_groups p (is_some (control_of (law_control fn p) (Y s) None pp k))) es (dyn_vals (Y s) (control_of (law_control fn p) (Y s) None pp k) pp k) = Ok v ->
    v = map (eval fn (curve s)) es /\ length (Y s) = length (states p) /\ (forall e x, In e es -> In x (vars e) -> In x (states p ++ ctl ++ p_params p ++ p_consts p)).
  Proof.
    intros LP LC H. assert (E : is_some (control_of (law_control fn p) (Y s) None pp k) = is_some (law_control fn p)) by (unfold control_of; now destruct (law_control fn p)).
    rewrite E in H. apply call_inv in H. destruct H as (F & C & ->). rewrite dyn_names in *. apply fits_lengths in F.
    split; [|split; [|exact C]].
    - apply map_ext_in. intros e Ie. apply eval_ext. intros x Ix. specialize (C e x Ie Ix).
      assert (NC : ~ In x (p_cpars p)).
      { intros I. destruct (nodup_parts _ _ ND) as (_ & N2 & D1). destruct (nodup_parts _ _ N2) as (_ & N3 & D2). unfold fixed in *.
        destruct (nodup_parts _ _ N3) as (_ & N4 & D3). destruct (nodup_parts _ _ N4) as (_ & _ & D4).
        rewrite !in_app_iff in C. destruct C as [C|[C|[C|C]]]; [apply (D1 x C)|apply (D2 x C)|apply (D3 x C)|exact (D4 x I C)]; rewrite !in_app_iff; tauto. }
      unfold curve, dyn_groups, dyn_vals, control_of, used, ctl in *. destruct (law_control fn p) as [f|]; cbn [is_some app concat] in *.
      + inversion F as [|? ? ? ? L1 F1]; subst. inversion F1 as [|? ? ? ? L2 F2]; subst. cbn [concat app]. rewrite app_nil_r.
        rewrite env_over by auto. apply over_ext. intros _. rewrite env_over by auto. apply over_ext. intros _. now apply fixed_dyn.
      + inversion F as [|? ? ? ? L1 F1]; subst. cbn [concat app]. rewrite app_nil_r.
        rewrite env_over by auto. apply over_ext. intros _. rewrite fixed_dyn by auto. reflexivity.
    - unfold dyn_groups, dyn_vals in F. inversion F; subst. auto.
  Qed.

  Variable a b : R.
  Hypothesis AB : (a <= b)%R.
  Context {delta eps : R}.
  Hypothesis SOL : near delta eps fn p a b Y Q pp pc k.

  Lemma solved_lengths : length pp = length (p_params p) /\ length pc = length (p_cpars p) /\ length k = length (p_consts p).
  Proof.
    destruct SOL as [_ (r & B & _)]. unfold bc_func in B.
    match type of B with bind ?x _ = _ => destruct x as [b0|] eqn:B0; [|discriminate] end. apply call_inv in B0. destruct B0 as (F & _ & _).
    apply fits_lengths in F. unfold bc_groups, bc_vals in F. rewrite no_quads in F. destruct (law_control fn p); cbn [app] in F;
      repeat match goal with H : Forall2 _ (_ :: _) _ |- _ => inversion H; clear H; subst end; repeat split; congruence.
  Qed.
  Lemma curve_follows s : (a <= s <= b)%R -> follows_near delta fn curve s (p_states p) /\ length (Y s) = length (p_states p) /\
    forall e x, In e (eoms (p_states p)) -> In x (vars e) -> In x (states p ++ ctl ++ p_params p ++ p_consts p).
  Proof.
    intros Hs. destruct SOL as [D _]. destruct solved_lengths as (LP & LC & LK). destruct (D s Hs) as (v & w & V & _ & DV & _).
    unfold deriv_func in V. apply (curve_dyn s _ _ LP LC) in V. destruct V as (-> & LY & C). split; [|split; [|exact C]].
    - intros x e I. apply In_nth_error in I. destruct I as (i & I).
      assert (L : i < length (p_states p)) by (apply nth_error_Some; congruence). destruct (DV i L) as (d & DD & DE). exists d.
      assert (Nx : nth_error (states p) i = Some x) by (unfold states, syms; rewrite nth_error_map, I; reflexivity).
      split.
      { apply (is_derive_ext (fun r => nth i (Y r) 0%R)); [|exact DD]. intros r. unfold curve. symmetry. apply over_nth; [|exact Nx]. now destruct (nodup_parts _ _ ND). }
      assert (E : nth i (map (eval fn (curve s)) (eoms (p_states p))) 0%R = eval fn (curve s) e).
      { rewrite (nth_indep _ 0%R (eval fn (curve s) (Cst 0))) by (rewrite map_length; unfold eoms; rewrite map_length; exact L). rewrite map_nth. f_equal.
        apply nth_error_nth. unfold eoms. rewrite nth_error_map, I. reflexivity. }
      rewrite <- E. exact DE.
    - unfold states, syms in LY. rewrite map_length in LY. exact LY.
  Qed.
  Lemma curve_boundary : 
    (forall d, In d (p_ci p) -> (Rabs (eval fn (curve a) (c_expr d)) <= eps)%R) /\ (forall d, In d (p_ct p) -> (Rabs (eval fn (curve b) (c_expr d)) <= eps)%R) /\
    forall d x, In d (p_ci p ++ p_ct p) -> In x (vars (c_expr d)) -> In x (states p ++ ctl ++ fixed).
  Proof.
    destruct SOL as [_ (r & B & Z)]. unfold bc_func in B.
    match type of B with bind ?x _ = _ => destruct x as [b0|] eqn:B0; [|discriminate] end. cbn [bind] in B.
    match type of B with bind ?x _ = _ => destruct x as [b1|] eqn:B1; [|discriminate] end. injection B as <-.
    assert (EI : match law_control fn p with Some _ => true | None => false end = is_some (law_control fn p)) by now destruct (law_control fn p).
    rewrite EI in B0, B1. apply (curve_bc a _ _ _ eq_refl) in B0. apply (curve_bc b _ _ _ eq_refl) in B1. destruct B0 as [-> C0]. destruct B1 as [-> C1].
    rewrite Forall_forall in Z. unfold bc_exprs in *. rewrite !map_map in Z. split; [|split].
    - intros d I. apply (Z (eval fn _ (c_expr d))), in_or_app. left. apply in_map_iff. now exists d.
    - intros d I. apply (Z (eval fn _ (c_expr d))), in_or_app. right. apply in_map_iff. now exists d.
    - intros d x I Ix. apply in_app_or in I. destruct I as [I|I]; [apply (C0 (c_expr d))|apply (C1 (c_expr d))]; auto; now apply in_map.
  Qed.
  Lemma curve_fixed s x : ~ In x (states p) -> ~ In x ctl -> curve s x = fixed_at x.
  Proof. intros H1 H2. unfold curve. now rewrite !over_out. Qed.
End Curve.
