(** The curve behind a solution of the final boundary value problem, in the
    time of the user. *)
From Coq Require Import Reals Lra FunctionalExtensionality.
From Coquelicot Require Import Coquelicot.
From Verif Require Import Base Base_Facts Map_Model Map_Proofs Map_More Sym_Expr Sym_Facts Sym_Model Sym_Lu Sym_Dual Sym_Traj Sym_Var Sym_DiffCtl Jac_Model Jac_Proofs Jac_Properties Unit_Model Unit_Spec Unit_Proofs Unit_Steps Unit_Scale Unit_Properties Dual_Properties Ctl_Properties Whole_Proofs.
Open Scope string_scope.
Open Scope list_scope.
Open Scope nat_scope.

(** [c t x] is the value of the symbol [x] of the compiled problem [p] at time
    [t]: the columns of [Y] at normalised time, the control that the compiled
    control function returns, and the parameters and constants. *)
Record reads_off (fn : string -> nat -> R -> R) (p : prob) (ind : string) (Y : R -> list R) (pp nu k : list R) (t0 D : R) (c : R -> string -> R) : Prop := mkReads {
  ro_time : forall t, c t ind = t;
  ro_states : forall t i x, nth_error (syms (p_states p)) i = Some x -> c t x = nth i (Y ((t - t0) / D)%R) 0%R;
  ro_controls : forall f t i x, law_control fn p = Some f -> nth_error (p_controls p) i = Some x -> c t x = nth i (f (Y ((t - t0) / D)%R) pp k) 0%R;
  ro_params : forall t i x, nth_error (p_params p) i = Some x -> c t x = nth i pp 0%R;
  ro_cpars : forall t i x, nth_error (p_cpars p) i = Some x -> c t x = nth i nu 0%R;
  ro_consts : forall t i x, nth_error (p_consts p) i = Some x -> c t x = nth i k 0%R }.

(** All names of a compiled problem. *)
Definition all_names (p : prob) : list string := syms (p_states p) ++ p_controls p ++ p_params p ++ p_cpars p ++ p_consts p.

Lemma nodup_ctl fn p : NoDup (all_names p) -> NoDup (states p ++ ctl fn p ++ fixed p).
Proof.
  unfold all_names, ctl, fixed, states. destruct (law_control fn p); [auto|]. intros H. destruct (nodup_parts _ _ H) as (A & B & D). destruct (nodup_parts _ _ B) as (_ & B2 & _).
  cbn [app]. clear - A B2 D. revert A D. induction (syms (p_states p)) as [|x l IH]; cbn; intros A D; [exact B2|]. inversion A; subst. constructor.
  - rewrite in_app_iff. intros [I|I]; [tauto|]. apply (D x (or_introl eq_refl)). rewrite in_app_iff. now right.
  - apply IH; [assumption|]. intros y I. apply D. now right.
Qed.
Lemma in_ctl fn p x : In x (ctl fn p) -> In x (p_controls p).
Proof. unfold ctl. now destruct (law_control fn p). Qed.
Lemma in_all fn p x : In x (states p ++ ctl fn p ++ fixed p) -> In x (all_names p).
Proof. unfold all_names, fixed, states. rewrite !in_app_iff. intros [H|[H|H]]; [tauto| |tauto]. apply in_ctl in H. tauto. Qed.

Lemma reads_curve fn p ind Y pp nu k t0 D c t x : reads_off fn p ind Y pp nu k t0 D c -> NoDup (all_names p) ->
  length pp = length (p_params p) -> length nu = length (p_cpars p) ->
  In x (states p ++ ctl fn p ++ fixed p) -> c t x = curve fn p Y pp nu k ((t - t0) / D)%R x.
Proof.
  intros R ND LP LN I. assert (N := nodup_ctl fn p ND). destruct (nodup_parts _ _ N) as (N1 & N2 & D1). destruct (nodup_parts _ _ N2) as (N3 & N4 & D2).
  unfold fixed in *. destruct (nodup_parts _ _ N4) as (N5 & N6 & D3). destruct (nodup_parts _ _ N6) as (N7 & N8 & D4).
  unfold curve. rewrite !in_app_iff in I.
  assert (FI : In x (p_params p ++ p_cpars p ++ p_consts p) -> ~ In x (states p) /\ ~ In x (ctl fn p)).
  { intros J. split; intros K; [apply (D1 x K); rewrite in_app_iff; tauto|exact (D2 x K J)]. }
  assert (FE : fixed_at p pp nu k x = over (p_params p) pp (over (p_cpars p) nu (env (p_consts p) k)) x).
  { unfold fixed_at, fixed. rewrite env_over by exact LP. apply over_ext. intros _. now apply env_over. }
  destruct I as [I|[I|[I|[I|I]]]].
  - apply In_nth_error in I. destruct I as (i & I). rewrite (over_nth _ _ _ x i N1 I). now apply (ro_states _ _ _ _ _ _ _ _ _ _ R).
  - rewrite over_out by (intros J; apply (D1 x J); rewrite in_app_iff; tauto). apply In_nth_error in I. destruct I as (i & I). rewrite (over_nth _ _ _ x i N3 I).
    unfold ctl in I. unfold used. destruct (law_control fn p) as [f|] eqn:E; [|destruct i; discriminate]. now apply (ro_controls _ _ _ _ _ _ _ _ _ _ R).
  - destruct FI as [F1 F2]; [rewrite !in_app_iff; tauto|]. rewrite !over_out by assumption. rewrite FE. apply In_nth_error in I. destruct I as (i & I). rewrite (over_nth _ _ _ x i N5 I). now apply (ro_params _ _ _ _ _ _ _ _ _ _ R).
  - destruct FI as [F1 F2]; [rewrite !in_app_iff; tauto|]. rewrite !over_out by assumption. rewrite FE. rewrite over_out by (intros J; apply (D3 x J); rewrite in_app_iff; tauto).
    apply In_nth_error in I. destruct I as (i & I). rewrite (over_nth _ _ _ x i N7 I). now apply (ro_cpars _ _ _ _ _ _ _ _ _ _ R).
  - destruct FI as [F1 F2]; [rewrite !in_app_iff; tauto|]. rewrite !over_out by assumption. rewrite FE. rewrite over_out by (intros J; apply (D3 x J); rewrite in_app_iff; tauto).
    rewrite over_out by (intros J; exact (D4 x J I)). apply In_nth_error in I. destruct I as (i & I). unfold env. rewrite (index_of_NoDup x _ i N8 I). now apply (ro_consts _ _ _ _ _ _ _ _ _ _ R).
Qed.

(** NormalizeTime and SquashToBVP, as far as needed. *)
Definition slow (dt : string) (l : list (string * expr)) : list (string * expr) := map (fun s => (fst s, Mul (snd s) (Var dt))) l.
Lemma norm_squash p2 p3 p' : normalize_time None p2 = Ok p3 -> squash p3 = Ok p' -> let dt := ("_delta" ++ p_ind p2)%string in
  p_states p' = slow dt (p_states p2 ++ p_costates p2) /\ p_params p' = p_params p2 ++ [dt] /\ p_cpars p' = p_cpars p2 ++ p_cadj p2 /\
  p_quads p' = p_quads p2 ++ p_coparams p2 /\ p_consts p' = p_consts p2 /\ p_controls p' = p_controls p2 /\ p_law p' = p_law p2 /\ p_ham p' = p_ham p2 /\
  p_ci p' = p_ci p2 /\ p_ct p' = p_ct p2.
Proof.
  unfold normalize_time. destruct (p_symp p2); [|discriminate]. intros H G. apply Ok_inj in H. unfold squash in G. apply Ok_inj in G. subst p3. subst p'.
  cbv zeta. destruct p2. cbn. unfold slow. rewrite map_app. repeat split.
Qed.
Lemma syms_slow dt l : syms (slow dt l) = syms l.
Proof. unfold syms, slow. rewrite map_map. reflexivity. Qed.

Section Phys.
  Variable fn : string -> nat -> R -> R.
  Variable p2 p' : prob.
  Let ind := p_ind p2.
  Let dt := ("_delta" ++ ind)%string.
  Hypothesis ES : p_states p' = slow dt (p_states p2 ++ p_costates p2).
  Hypothesis EP : p_params p' = [dt].
  Hypothesis EQ : p_quads p' = [].
  Hypothesis EI : p_ci p' = p_ci p2.
  Hypothesis ET : p_ct p' = p_ct p2.
  Variable Y Q : R -> list R.
  Variable pp nu k : list R.
  Variable t0 D : R.
  Variable c : R -> string -> R.
  Hypothesis ND : NoDup (ind :: all_names p').
  Context {delta eps : R}.
  Hypothesis SOL : near delta eps fn p' 0 1 Y Q pp nu k.
  Hypothesis PD : pp = [D].
  Hypothesis D0 : (0 < D)%R.
  Hypothesis RO : reads_off fn p' ind Y pp nu k t0 D c.

  Lemma phys_names : NoDup (all_names p') /\ ~ In ind (all_names p').
  Proof. inversion ND; subst. split; assumption. Qed.
  Lemma phys_agree t x : In x (states p' ++ ctl fn p' ++ fixed p') -> c t x = curve fn p' Y pp nu k ((t - t0) / D)%R x.
  Proof.
    destruct (solved_lengths fn p' Y Q pp nu k EQ 0 1 SOL) as (LP & LN & _). apply reads_curve with (1 := RO); auto. apply phys_names.
  Qed.
  Lemma phys_time t : (t0 <= t <= t0 + D)%R -> (0 <= (t - t0) / D <= 1)%R.
  Proof.
    intros H. split.
    - apply Rmult_le_pos; [lra|]. apply Rlt_le, Rinv_0_lt_compat; lra.
    - apply Rmult_le_reg_r with D; [exact D0|]. unfold Rdiv. rewrite Rmult_assoc, Rinv_l by lra. lra.
  Qed.
  Lemma dyn_in x : In x (states p' ++ ctl fn p' ++ p_params p' ++ p_consts p') -> In x (states p' ++ ctl fn p' ++ fixed p').
  Proof. unfold fixed. rewrite !in_app_iff. tauto. Qed.
  Lemma in_slow x e l : In (x, e) l -> In (x, Mul e (Var dt)) (slow dt l).
  Proof. intros I. apply in_map_iff. now exists (x, e). Qed.
  Lemma phys_vars x e y : In (x, e) (p_states p2 ++ p_costates p2) -> In y (vars e) -> In y (states p' ++ ctl fn p' ++ fixed p').
  Proof.
    intros I J. destruct (curve_follows fn p' Y Q pp nu k EQ (nodup_ctl fn p' (proj1 phys_names)) 0 1 SOL 0 ltac:(lra)) as (_ & _ & C).
    apply dyn_in, (C (Mul e (Var dt))); [|cbn; rewrite in_app_iff; now left].
    unfold eoms. rewrite ES. apply in_map_iff. exists (x, Mul e (Var dt)). split; [reflexivity|]. now apply in_slow.
  Qed.
  Lemma phys_follows t : (t0 <= t <= t0 + D)%R -> follows_near (delta / D) fn c t (p_states p2 ++ p_costates p2).
  Proof.
    intros Ht x e I. destruct (curve_follows fn p' Y Q pp nu k EQ (nodup_ctl fn p' (proj1 phys_names)) 0 1 SOL _ (phys_time t Ht)) as (F & _ & _).
    specialize (F x (Mul e (Var dt))). rewrite ES in F. destruct (F (in_slow _ _ _ I)) as (r & DR & ER). clear F. cbn [eval] in ER. exists (r / D)%R.
    assert (Ix : In x (states p')) by (unfold states; rewrite ES, syms_slow; apply in_map_iff; now exists (x, e)).
    assert (ED : curve fn p' Y pp nu k ((t - t0) / D)%R dt = D).
    { rewrite <- phys_agree by (unfold fixed; rewrite EP, !in_app_iff; right; right; left; now left). 
      rewrite (ro_params _ _ _ _ _ _ _ _ _ _ RO t 0 dt) by now rewrite EP. now rewrite PD. }
    rewrite ED in ER. rewrite (eval_ext fn e (c t) (curve fn p' Y pp nu k ((t - t0) / D)%R)) by (intros y J; apply phys_agree; now apply (phys_vars x e)).
    split.
    - apply (is_derive_ext (fun s => curve fn p' Y pp nu k ((s - t0) / D)%R x)). { intros s. symmetry. apply phys_agree. rewrite in_app_iff. now left. }
      replace (r / D)%R with (scal (/ D)%R r) by (unfold scal; cbn; unfold mult; cbn; field; lra).
      apply (is_derive_comp (fun s => curve fn p' Y pp nu k s x) (fun s => (s - t0) / D)%R t); [exact DR|]. auto_derive; [trivial|]. field. lra.
    - set (v := eval fn (curve fn p' Y pp nu k ((t - t0) / D)%R) e) in *.
      replace (r / D - v)%R with ((r - v * D) / D)%R by (field; lra). unfold Rdiv. rewrite Rabs_mult, (Rabs_right (/ D)) by (apply Rle_ge, Rlt_le, Rinv_0_lt_compat, D0).
      apply Rmult_le_compat_r; [apply Rlt_le, Rinv_0_lt_compat, D0|exact ER].
  Qed.
  Lemma phys_boundary :
    (forall d, In d (p_ci p2) -> (Rabs (eval fn (c t0) (c_expr d)) <= eps)%R) /\ (forall d, In d (p_ct p2) -> (Rabs (eval fn (c (t0 + D)%R) (c_expr d)) <= eps)%R) /\
    forall d x, In d (p_ci p2 ++ p_ct p2) -> In x (vars (c_expr d)) -> In x (states p' ++ ctl fn p' ++ fixed p').
  Proof.
    destruct (curve_boundary fn p' Y Q pp nu k EQ (nodup_ctl fn p' (proj1 phys_names)) 0 1 SOL) as (B0 & B1 & C). rewrite EI, ET in *. split; [|split; [|exact C]].
    - intros d I. rewrite (eval_ext fn (c_expr d) (c t0) (curve fn p' Y pp nu k 0%R)); [now apply B0|]. intros x J.
      rewrite phys_agree by (apply (C d); [apply in_or_app; now left|exact J]). f_equal. field. lra.
    - intros d I. rewrite (eval_ext fn (c_expr d) (c (t0 + D)%R) (curve fn p' Y pp nu k 1%R)); [now apply B1|]. intros x J.
      rewrite phys_agree by (apply (C d); [apply in_or_app; now right|exact J]). f_equal. field. lra.
  Qed.
  Lemma phys_fixed t x : In x (states p' ++ ctl fn p' ++ fixed p') -> ~ In x (states p') -> ~ In x (ctl fn p') -> is_derive (fun s => c s x) t 0%R.
  Proof.
    intros I N1 N2. apply (is_derive_ext (fun _ => fixed_at p' pp nu k x)).
    - intros s. rewrite phys_agree by exact I. symmetry. now apply curve_fixed.
    - apply D_const.
  Qed.
  Lemma phys_clock t : is_derive (fun s => c s ind) t 1%R.
  Proof. apply (is_derive_ext (fun s => s)); [intros s; symmetry; apply (ro_time _ _ _ _ _ _ _ _ _ _ RO)|apply D_id]. Qed.
End Phys.
