(** One-sided path constraints have no effect on the pipelines (C25). *)
From Coq Require Import Reals Lra.
From Verif Require Import Base Base_Facts Sym_Expr Sym_Facts Sym_Model Sym_Spec Sym_Constr.
Open Scope nat_scope.

Section Find.
  Context {A : Type} (f g : A -> bool).
  Hypothesis FG : forall a, f a = true -> g a = true.
  Definition first (l : list A) : option A := option_map snd (find_at f l).
  Definition rem (l : list A) : list A :=
    match find_at f l with Some (k, _) => remove_at k l | None => l end.
  Lemma first_filter l : first (filter g l) = first l.
  Proof.
    unfold first. induction l as [|a l IH]; simpl; auto. destruct (g a) eqn:G; simpl.
    - destruct (f a); simpl; auto. destruct (find_at f l) as [[k b]|], (find_at f (filter g l)) as [[k' b']|];
        simpl in *; congruence.
    - destruct (f a) eqn:E; [rewrite (FG _ E) in G; discriminate|].
      rewrite IH. destruct (find_at f l) as [[k b]|]; reflexivity.
  Qed.
  Lemma rem_filter l : filter g (rem l) = rem (filter g l).
  Proof.
    unfold rem. induction l as [|a l IH]; simpl; auto. destruct (f a) eqn:E.
    - rewrite (FG _ E). simpl. rewrite E. reflexivity.
    - destruct (find_at f l) as [[k b]|] eqn:F.
      + simpl. destruct (g a); simpl.
        * rewrite E, IH. destruct (find_at f (filter g l)) as [[k' b']|]; reflexivity.
        * exact IH.
      + simpl. destruct (g a); simpl.
        * rewrite E. pose proof (first_filter l) as FF. unfold first in FF. rewrite F in FF. simpl in FF.
          destruct (find_at f (filter g l)) as [[k' b']|]; [discriminate|reflexivity].
        * exact IH.
  Qed.
  Lemma rem_Forall (Q : A -> Prop) l : Forall Q l -> Forall Q (rem l).
  Proof.
    unfold rem. destruct (find_at f l) as [[k a]|] eqn:E; auto.
    destruct (find_at_spec _ _ _ _ E) as (_ & l1 & l2 & -> & _ & -> & _). intros H.
    apply Forall_app in H. destruct H as [H1 H2]. inversion H2. apply Forall_app. auto.
  Qed.
  Lemma find_at_first l : find_at f l = match first l with
    | None => None | Some a => match find_at f l with Some (k, _) => Some (k, a) | None => None end end.
  Proof. unfold first. destruct (find_at f l) as [[k a]|]; reflexivity. Qed.
End Find.

Definition eps_ok (c : constr) : Prop := is_method "epstrig" c = true -> two_sided c = true.

(** Equal except for one-sided path constraints. *)
Definition sim (p q : prob) : Prop :=
  q = set_cp p (p_cp q) /\ filter two_sided (p_cp p) = filter two_sided (p_cp q) /\
  Forall eps_ok (p_cp p) /\ Forall eps_ok (p_cp q).

Lemma constraint_tfs_filter cs : constraint_tfs cs = constraint_tfs (filter two_sided cs).
Proof.
  induction cs as [|c cs IH]; auto. cbn [filter]. destruct (two_sided c) eqn:E.
  - cbn [constraint_tfs]. rewrite E, IH. reflexivity.
  - cbn [constraint_tfs]. rewrite E. exact IH.
Qed.

Lemma sim_constraint_tfs p q : sim p q ->
  constraint_tfs (all_constraints p) = constraint_tfs (all_constraints q).
Proof.
  intros (E & F & _). rewrite (constraint_tfs_filter (all_constraints p)), (constraint_tfs_filter (all_constraints q)).
  unfold all_constraints. rewrite !filter_app, F, E. reflexivity.
Qed.

Definition agree (r r' : res prob) : Prop :=
  match r, r' with Ok p, Ok q => sim p q | Raise e, Raise e' => e = e' | _, _ => False end.

Lemma sim_refl_set p l : filter two_sided (p_cp p) = filter two_sided l -> Forall eps_ok (p_cp p) ->
  Forall eps_ok l -> sim p (set_cp p l).
Proof. intros A B C. split; [reflexivity|]. auto. Qed.

Lemma eps_ok_subs x n l : Forall eps_ok l -> Forall eps_ok (map (subs_constr x n) l).
Proof.
  intros H. rewrite Forall_forall in *. intros c Hc. apply in_map_iff in Hc. destruct Hc as (d & <- & Hd).
  intros M. rewrite two_sided_subs. apply (H d Hd). exact M.
Qed.

Lemma sim_subs_all x n p q : sim p q -> sim (subs_all x n p) (subs_all x n q).
Proof.
  intros (E & F & A & B). split; [|split; [|split]].
  - rewrite E. reflexivity.
  - simpl. rewrite !filter_subs by (apply two_sided_subs). now rewrite F.
  - simpl. now apply eps_ok_subs.
  - simpl. now apply eps_ok_subs.
Qed.

Lemma sim_set_maps p q l : sim p q -> sim (set_maps p (p_maps p ++ l)) (set_maps q (p_maps q ++ l)).
Proof.
  intros (E & F & A & B). split; [|auto]. rewrite E. reflexivity.
Qed.

Section Agree.
  Variable lu : list (list expr) -> list expr -> res (list expr).
  Variable solve : list expr -> list string -> list (list expr).

  Lemma agree_set (F : prob -> res prob) :
    (forall p l, F (set_cp p l) = match F p with Ok r => Ok (set_cp r l) | Raise e => Raise e end) ->
    (forall p r, F p = Ok r -> p_cp r = p_cp p) ->
    forall p q, sim p q -> agree (F p) (F q).
  Proof.
    intros H1 H2 p q (E & D & A & B). rewrite E, H1. destruct (F p) as [r|] eqn:EF; simpl; auto.
    pose proof (H2 _ _ EF) as H. apply sim_refl_set; rewrite ?H; auto.
  Qed.

  Lemma agree_momentum p q : sim p q -> agree (momentum_shift None p) (momentum_shift None q).
  Proof.
    revert p q. apply agree_set; intros p; unfold momentum_shift; simpl; destruct (p_symp p); intros; try discriminate; auto.
    injection H as <-. reflexivity.
  Qed.
  Lemma agree_norm p q : sim p q -> agree (normalize_time None p) (normalize_time None q).
  Proof.
    revert p q. apply agree_set; intros p; unfold normalize_time; simpl; destruct (p_symp p); intros; try discriminate; auto.
    injection H as <-. reflexivity.
  Qed.
  Lemma agree_squash p q : sim p q -> agree (squash p) (squash q).
  Proof.
    revert p q. apply agree_set; intros p; unfold squash; simpl; intros; auto. injection H as <-. reflexivity.
  Qed.
  Lemma agree_alg p q : sim p q -> agree (algebraic_control solve p) (algebraic_control solve q).
  Proof.
    revert p q. apply agree_set; intros p; unfold algebraic_control; simpl; destruct (p_dual p); intros; try discriminate; auto;
      destruct (p_ham p); auto; try discriminate. injection H as <-. reflexivity.
  Qed.
  Lemma dual_start_cp p l : dual_start (set_cp p l) = set_cp (dual_start p) l.
  Proof. reflexivity. Qed.
  Lemma dual_finish_cp h p l : dual_finish h (set_cp p l) = set_cp (dual_finish h p) l.
  Proof. reflexivity. Qed.
  Lemma costates_traditional_cp h p l :
    costates_traditional h (set_cp p l) = set_cp (costates_traditional h p) l.
  Proof. reflexivity. Qed.
  Lemma costates_diffyg_cp h p l : costates_diffyg lu h (set_cp p l) =
    match costates_diffyg lu h p with Ok r => Ok (set_cp r l) | Raise e => Raise e end.
  Proof.
    unfold costates_diffyg. cbn [p_states p_params p_costates p_coparams set_cp].
    destruct (negb _); [reflexivity|]. destruct (ham_field _ _ _ _); reflexivity.
  Qed.
  Lemma costates_diffyg_keep h p r : costates_diffyg lu h p = Ok r -> p_cp r = p_cp p.
  Proof.
    unfold costates_diffyg. destruct (negb _); [discriminate|]. destruct (ham_field _ _ _ _); [|discriminate].
    intros H. injection H as <-. reflexivity.
  Qed.
  Lemma agree_dual m p q : sim p q -> agree (dualize lu m p) (dualize lu m q).
  Proof.
    revert p q. apply agree_set; intros p.
    - intros l. unfold dualize. change (p_symp (set_cp p l)) with (p_symp p). destruct (p_symp p); [|reflexivity].
      change (dual_ham (set_cp p l)) with (dual_ham p). rewrite dual_start_cp.
      destruct (String.eqb (lower m) "traditional"); [reflexivity|].
      destruct (String.eqb (lower m) "diffyg"); [|reflexivity].
      rewrite costates_diffyg_cp. destruct (costates_diffyg lu (dual_ham p) (dual_start p)); reflexivity.
    - intros r. unfold dualize. destruct (p_symp p); [|discriminate].
      destruct (String.eqb (lower m) "traditional"); [intros H; injection H as <-; reflexivity|].
      destruct (String.eqb (lower m) "diffyg"); [|intros H; injection H as <-; reflexivity].
      destruct (costates_diffyg lu (dual_ham p) (dual_start p)) as [r'|] eqn:E; [|discriminate].
      apply costates_diffyg_keep in E. intros H; injection H as <-. exact E.
  Qed.
  Lemma agree_diff m p q : sim p q -> agree (differential_control lu m p) (differential_control lu m q).
  Proof.
    revert p q. apply agree_set; intros p.
    - intros l. unfold differential_control. cbn [p_dual p_ham set_cp]. destruct (p_dual p); auto.
      destruct (p_ham p); auto. cbn [p_states p_costates p_controls set_cp].
      destruct (lu _ _); [|reflexivity]. cbn [bind].
      destruct (String.eqb (lower m) "traditional"); [reflexivity|].
      destruct (String.eqb (lower m) "diffyg"); [|reflexivity].
      cbn [set_states set_costates set_ct p_states p_costates p_controls p_ct set_cp].
      destruct (negb _); [reflexivity|]. destruct (ham_field _ _ _ _); reflexivity.
    - intros r. unfold differential_control. destruct (p_dual p); [|discriminate].
      destruct (p_ham p); [|discriminate]. destruct (lu _ _); [|discriminate]. cbn [bind].
      destruct (String.eqb (lower m) "traditional"); [intros H; injection H as <-; reflexivity|].
      destruct (String.eqb (lower m) "diffyg"); [|discriminate].
      destruct (negb _); [discriminate|]. destruct (ham_field _ _ _ _); [|discriminate].
      intros H; injection H as <-; reflexivity.
  Qed.

  Lemma agree_rashs p q : sim p q -> agree (rashs p) (rashs q).
  Proof.
    intros H. unfold rashs. assert (p_symp q = p_symp p /\ p_switches q = p_switches p) as [-> ->].
    { destruct H as (E & _). rewrite E. auto. }
    destruct (p_symp p); [|reflexivity]. simpl. generalize (seq 0 (length (p_switches p))) as l.
    intros l. revert p q H. induction l as [|i l IH]; simpl; intros p q H; auto. apply IH.
    assert (ES : p_switches q = p_switches p) by (destruct H as (E & _); rewrite E; auto).
    unfold rashs_at. rewrite ES. destruct (nth_error (p_switches p) i) as [s|]; auto.
    destruct (sw_sym s); auto. now apply sim_subs_all.
  Qed.

  Lemma agree_utm p q : sim p q -> agree (utm p) (utm q).
  Proof.
    intros (E & D & A & B). unfold utm.
    assert (S1 : p_symp q = p_symp p /\ p_ci q = p_ci p /\ p_ct q = p_ct p /\ p_consts q = p_consts p)
      by (rewrite E; auto).
    destruct S1 as (S1 & S2 & S3 & S4). rewrite S1, S2, S3. destruct (p_symp p); [|reflexivity].
    assert (TT : forall c, utm_term q c = utm_term p c) by (intros c; unfold utm_term; now rewrite S4).
    destruct (find_at utm_sel (p_ci p)) as [[k c]|] eqn:F1.
    - rewrite TT. destruct (utm_term p c); cbn [bind agree]; auto. split; [|auto]. rewrite E. reflexivity.
    - pose proof (first_filter utm_sel two_sided utm_sel_two (p_cp p)) as X1.
      pose proof (first_filter utm_sel two_sided utm_sel_two (p_cp q)) as X2.
      pose proof (rem_filter utm_sel two_sided utm_sel_two (p_cp p)) as Y1.
      pose proof (rem_filter utm_sel two_sided utm_sel_two (p_cp q)) as Y2.
      pose proof (rem_Forall utm_sel eps_ok _ A) as Z1. pose proof (rem_Forall utm_sel eps_ok _ B) as Z2.
      unfold rem in *. rewrite D in *. unfold first in *.
      destruct (find_at utm_sel (p_cp p)) as [[k c]|] eqn:F2, (find_at utm_sel (p_cp q)) as [[k' c']|] eqn:F3;
        cbn [option_map snd] in *; try congruence.
      + assert (c' = c) as -> by congruence. rewrite TT. destruct (utm_term p c); cbn [bind agree]; auto.
        split; [|split; [|split]]; simpl; auto; try congruence. rewrite E. reflexivity.
      + destruct (find_at utm_sel (p_ct p)) as [[k c]|]; [|reflexivity].
        rewrite TT. destruct (utm_term p c); cbn [bind agree]; auto. split; [|auto]. rewrite E. reflexivity.
  Qed.

  (** For the trigonometric method the selected constraint is two-sided. *)
  Lemma eps_first l : Forall eps_ok l ->
    first (is_method "epstrig") l = first (fun c => is_method "epstrig" c && two_sided c) l /\
    rem (is_method "epstrig") l = rem (fun c => is_method "epstrig" c && two_sided c) l.
  Proof.
    intros H. assert (FE : find_at (is_method "epstrig") l = find_at (fun c => is_method "epstrig" c && two_sided c) l).
    { induction H as [|c l Hc Hl IH]; simpl; auto. destruct (is_method "epstrig" c) eqn:E; simpl.
      - now rewrite (Hc E).
      - now rewrite IH. }
    unfold first, rem. now rewrite FE.
  Qed.

  Lemma agree_eps p q : sim p q -> agree (eps_trig p) (eps_trig q).
  Proof.
    intros H. pose proof H as (E & D & A & B). unfold eps_trig.
    assert (S1 : p_symp q = p_symp p) by (rewrite E; auto). rewrite S1. destruct (p_symp p); [|reflexivity].
    destruct (eps_first (p_cp p) A) as [P1 P2]. destruct (eps_first (p_cp q) B) as [Q1 Q2].
    assert (SUB : forall c : constr, is_method "epstrig" c && two_sided c = true -> two_sided c = true).
    { intros c Hc. apply andb_prop in Hc. tauto. }
    pose proof (first_filter _ two_sided SUB (p_cp p)) as X1.
    pose proof (first_filter _ two_sided SUB (p_cp q)) as X2.
    pose proof (rem_filter _ two_sided SUB (p_cp p)) as Y1.
    pose proof (rem_filter _ two_sided SUB (p_cp q)) as Y2.
    pose proof (rem_Forall (is_method "epstrig") eps_ok _ A) as Z1.
    pose proof (rem_Forall (is_method "epstrig") eps_ok _ B) as Z2.
    rewrite <- P1 in X1. rewrite <- Q1 in X2. rewrite <- P2 in Y1. rewrite <- Q2 in Y2.
    rewrite D in X1, Y1. unfold first, rem in X1, X2, Y1, Y2, Z1, Z2.
    destruct (find_at (is_method "epstrig") (p_cp p)) as [[k c]|] eqn:F2,
             (find_at (is_method "epstrig") (p_cp q)) as [[k' c']|] eqn:F3;
      cbn [option_map snd] in *; try congruence; try reflexivity.
    assert (c' = c) as -> by congruence.
    assert (SR : sim (set_cp p (remove_at k (p_cp p))) (set_cp q (remove_at k' (p_cp q)))).
    { split; [rewrite E; reflexivity|]. simpl. split; [congruence|auto]. }
    destruct (c_expr c) as [ | | u | | | | | | | | ]; try reflexivity.
    assert (C1 : p_controls q = p_controls p /\ p_cost_p q = p_cost_p p) by (rewrite E; auto). destruct C1 as [C1 C2].
    cbn [p_controls p_cost_p set_cp]. rewrite C1, C2. destruct (index_of u (p_controls p)); [|reflexivity].
    destruct (set_nth _ _ _) as [cs|]; cbn [bind]; [|reflexivity].
    destruct (c_act c) as [act|]; [|reflexivity]. destruct (c_lower c) as [lo|]; [|reflexivity].
    destruct (c_upper c) as [up|]; [|reflexivity].
    cbn [agree].
    match goal with |- sim (set_maps (subs_all u ?n ?a) _) (set_maps (subs_all u ?n ?b) _) =>
      assert (SA : sim (subs_all u n a) (subs_all u n b)) end.
    { apply sim_subs_all. destruct SR as (R1 & R2 & R3 & R4). simpl in R2, R3, R4.
      split; [rewrite E; reflexivity|]. simpl. auto. }
    now apply sim_set_maps.
  Qed.

  Lemma agree_tf f p q : sim p q -> agree (apply_tf lu solve f p) (apply_tf lu solve f q).
  Proof.
    intros H. destruct f; cbn [apply_tf].
    - now apply agree_momentum. - now apply agree_eps. - now apply agree_utm. - now apply agree_rashs.
    - now apply agree_dual. - now apply agree_alg. - now apply agree_diff. - now apply agree_norm.
    - now apply agree_squash. - exact H.
  Qed.

  Lemma agree_run fs : forall p q, sim p q -> agree (run_tfs lu solve fs p) (run_tfs lu solve fs q).
  Proof.
    induction fs as [|f fs IH]; cbn [run_tfs]; intros p q H; auto.
    pose proof (agree_tf f p q H) as HA.
    destruct (apply_tf lu solve f p), (apply_tf lu solve f q); cbn [bind agree] in *; auto; tauto.
  Qed.

  Lemma one_sided_ignored o p l1 c l2 : p_cp p = l1 ++ c :: l2 -> two_sided c = false ->
    is_method "epstrig" c = false -> Forall eps_ok (p_cp p) ->
    let q := set_cp p (l1 ++ l2) in
    make_indirect o p = make_indirect o q /\ make_direct o p = make_direct o q /\
    forall fs, match run_tfs lu solve fs p, run_tfs lu solve fs q with
               | Ok p', Ok q' => set_cp p' [] = set_cp q' []
               | Raise e, Raise e' => e = e'
               | _, _ => False
               end.
  Proof.
    intros E T M HO q.
    assert (S1 : sim p q).
    { split; [reflexivity|]. unfold q. simpl. rewrite E in *. split; [|split; auto].
      - rewrite !filter_app. simpl. now rewrite T.
      - apply Forall_app in HO. destruct HO as [H1 H2]. inversion H2. apply Forall_app. auto. }
    split; [|split].
    - unfold make_indirect. now rewrite (sim_constraint_tfs p q S1).
    - unfold make_direct. now rewrite (sim_constraint_tfs p q S1).
    - intros fs. pose proof (agree_run fs p q S1) as HA.
      destruct (run_tfs lu solve fs p) as [p'|], (run_tfs lu solve fs q) as [q'|]; cbn [agree] in HA; auto.
      destruct HA as (R & _). rewrite R. reflexivity.
  Qed.
End Agree.
