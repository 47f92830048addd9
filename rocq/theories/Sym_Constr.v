(** The constraint stage of the pipelines (C25, C26). *)
From Coq Require Import Reals Lra.
From Verif Require Import Base Base_Facts Sym_Expr Sym_Facts Sym_Model Sym_Spec.
Open Scope nat_scope.

Definition stays (c : constr) : bool := negb (two_sided c).
Definition n_two (l : list constr) : nat := length (filter two_sided l).
Definition subs_constrs (m : list (string * expr)) (c : constr) : constr :=
  fold_left (fun c xe => subs_constr (fst xe) (snd xe) c) m c.

Lemma find_at_spec {A} (f : A -> bool) l k a : find_at f l = Some (k, a) ->
  f a = true /\ exists l1 l2, l = l1 ++ a :: l2 /\ length l1 = k /\ remove_at k l = l1 ++ l2 /\
    Forall (fun b => f b = false) l1.
Proof.
  revert k. induction l as [|b l IH]; simpl; intros k H; [discriminate|].
  destruct (f b) eqn:E.
  - injection H as <- <-. split; auto. exists [], l. repeat split; auto.
  - destruct (find_at f l) as [[k' c]|] eqn:E2; [|discriminate]. injection H as <- <-.
    destruct (IH k' eq_refl) as (Hf & l1 & l2 & -> & Hl & Hr & Hn). split; auto.
    exists (b :: l1), l2. simpl. repeat split; auto; congruence.
Qed.

Lemma two_sided_subs x n c : two_sided (subs_constr x n c) = two_sided c.
Proof. unfold two_sided. simpl. destruct (c_lower c); simpl; auto. destruct (c_upper c); auto. Qed.

Lemma filter_subs (x : string) n (l : list constr) (f : constr -> bool) :
  (forall c, f (subs_constr x n c) = f c) ->
  filter f (map (subs_constr x n) l) = map (subs_constr x n) (filter f l).
Proof.
  intros H. induction l; simpl; auto. rewrite H. destruct (f a); simpl; congruence.
Qed.

Lemma n_two_map x n l : n_two (map (subs_constr x n) l) = n_two l.
Proof. unfold n_two. rewrite filter_subs by (apply two_sided_subs). apply map_length. Qed.

Definition total (p : prob) : nat := n_two (p_ci p) + n_two (p_cp p) + n_two (p_ct p).

(** What one elimination does to the constraint lists. *)
Record eliminates (m : list (string * expr)) (p p' : prob) : Prop := mkElim {
  e_total : S (total p') = total p;
  e_ci : filter stays (p_ci p') = map (subs_constrs m) (filter stays (p_ci p));
  e_cp : filter stays (p_cp p') = map (subs_constrs m) (filter stays (p_cp p));
  e_ct : filter stays (p_ct p') = map (subs_constrs m) (filter stays (p_ct p));
  e_maps : exists t, p_maps p' = p_maps p ++ [t];
  e_symp : p_symp p' = p_symp p }.

Lemma stays_subs x n c : stays (subs_constr x n c) = stays c.
Proof. unfold stays. now rewrite two_sided_subs. Qed.

Lemma filter_removed (l1 l2 : list constr) c : two_sided c = true ->
  filter stays (l1 ++ l2) = filter stays (l1 ++ c :: l2) /\ S (n_two (l1 ++ l2)) = n_two (l1 ++ c :: l2).
Proof.
  intros H. unfold n_two. rewrite !filter_app. simpl. unfold stays at 4. rewrite H. simpl.
  split; auto. rewrite !app_length. simpl. lia.
Qed.

Lemma map_subs_nil l : map (subs_constrs []) l = l.
Proof. induction l; simpl; congruence. Qed.

Lemma eps_eliminates p p' : eps_trig p = Ok p' ->
  exists u lo up nu, eliminates [(u, eps_expr lo up nu)] p p' /\ In u (p_controls p).
Proof.
  unfold eps_trig. destruct (p_symp p) eqn:HS; [|discriminate].
  destruct (find_at (is_method "epstrig") (p_cp p)) as [[k c]|] eqn:E; [|discriminate].
  destruct (find_at_spec _ _ _ _ E) as (Hm & l1 & l2 & El & Hk & Hr & _).
  destruct (c_expr c) as [| |u| | | | | | | |]; try discriminate.
  cbn [p_controls set_cp]. destruct (index_of u (p_controls p)) as [i|] eqn:EI; [|discriminate].
  destruct (set_nth (p_controls p) i _) as [cs|] eqn:EN; cbn [bind]; [|discriminate].
  destruct (c_act c) as [act|]; [|discriminate]. destruct (c_lower c) as [lo|] eqn:Elo; [|discriminate].
  destruct (c_upper c) as [up|] eqn:Eup; [|discriminate]. intros H. injection H as <-.
  assert (T : two_sided c = true) by (unfold two_sided; rewrite Elo, Eup; reflexivity).
  destruct (filter_removed l1 l2 c T) as [F1 F2].
  exists u, lo, up, ("_" ++ u ++ "_trig")%string. split.
  - constructor; simpl.
    + unfold total. simpl. rewrite !n_two_map, Hr, El. lia.
    + apply filter_subs. apply stays_subs.
    + rewrite filter_subs by (apply stays_subs). rewrite Hr, F1, El. reflexivity.
    + apply filter_subs. apply stays_subs.
    + eauto.
    + congruence.
  - clear - EI. revert i EI. induction (p_controls p) as [|a l IH]; simpl; intros i EI; [discriminate|].
    destruct (String.eqb u a) eqn:E; [apply String.eqb_eq in E; auto|].
    destruct (index_of u l); simpl in EI; [|discriminate]. right. eauto.
Qed.

Lemma utm_term_ok p c e : utm_term p c = Ok e ->
  exists a lo up, c_act c = Some (Var a) /\ In a (p_consts p) /\ c_lower c = Some lo /\ c_upper c = Some up /\
    e = utm_penalty (Var a) (c_expr c) lo up.
Proof.
  unfold utm_term. destruct (c_act c) as [[| |a| | | | | | | |]|]; try discriminate.
  destruct (mem a (p_consts p)) eqn:E; [|discriminate].
  destruct (c_lower c) as [lo|]; [|discriminate]. destruct (c_upper c) as [up|]; [|discriminate].
  intros H. injection H as <-. exists a, lo, up. repeat split; auto. now apply mem_In.
Qed.

Lemma utm_sel_two c : utm_sel c = true -> two_sided c = true.
Proof. unfold utm_sel. intros H. apply andb_prop in H. tauto. Qed.

Lemma utm_eliminates p p' : utm p = Ok p' -> eliminates [] p p'.
Proof.
  unfold utm. destruct (p_symp p) eqn:HS; [|discriminate].
  destruct (find_at utm_sel (p_ci p)) as [[k c]|] eqn:E1.
  - destruct (utm_term p c); cbn [bind]; [|discriminate]. intros H. injection H as <-.
    destruct (find_at_spec _ _ _ _ E1) as (Hm & l1 & l2 & El & Hk & Hr & _).
    destruct (filter_removed l1 l2 c (utm_sel_two _ Hm)) as [F1 F2].
    constructor; simpl; rewrite ?map_subs_nil; auto.
    + unfold total. simpl. rewrite Hr, El. lia.
    + rewrite Hr, El. exact F1.
    + eauto.
  - destruct (find_at utm_sel (p_cp p)) as [[k c]|] eqn:E2.
    + destruct (utm_term p c); cbn [bind]; [|discriminate]. intros H. injection H as <-.
      destruct (find_at_spec _ _ _ _ E2) as (Hm & l1 & l2 & El & Hk & Hr & _).
      destruct (filter_removed l1 l2 c (utm_sel_two _ Hm)) as [F1 F2].
      constructor; simpl; rewrite ?map_subs_nil; auto.
      * unfold total. simpl. rewrite Hr, El. lia.
      * rewrite Hr, El. exact F1.
      * eauto.
    + destruct (find_at utm_sel (p_ct p)) as [[k c]|] eqn:E3; [|discriminate].
      destruct (utm_term p c); cbn [bind]; [|discriminate]. intros H. injection H as <-.
      destruct (find_at_spec _ _ _ _ E3) as (Hm & l1 & l2 & El & Hk & Hr & _).
      destruct (filter_removed l1 l2 c (utm_sel_two _ Hm)) as [F1 F2].
      constructor; simpl; rewrite ?map_subs_nil; auto.
      * unfold total. simpl. rewrite Hr, El. lia.
      * rewrite Hr, El. exact F1.
      * eauto.
Qed.

Lemma subs_constrs_app m1 m2 c : subs_constrs (m1 ++ m2) c = subs_constrs m2 (subs_constrs m1 c).
Proof. unfold subs_constrs. apply fold_left_app. Qed.

Definition is_stage (f : tf) : Prop := f = FEps \/ f = FUtm.

Section Stage.
  Variable lu : list (list expr) -> list expr -> res (list expr).
  Variable solve : list expr -> list string -> list (list expr).

  Lemma stage_run fs : Forall is_stage fs -> forall p p', run_tfs lu solve fs p = Ok p' ->
    exists m ms, length m = length (filter (fun f => match f with FEps => true | _ => false end) fs) /\
      length ms = length fs /\ p_maps p' = p_maps p ++ ms /\
      total p' + length fs = total p /\ p_symp p' = p_symp p /\
      filter stays (p_ci p') = map (subs_constrs m) (filter stays (p_ci p)) /\
      filter stays (p_cp p') = map (subs_constrs m) (filter stays (p_cp p)) /\
      filter stays (p_ct p') = map (subs_constrs m) (filter stays (p_ct p)).
  Proof.
    induction 1 as [|f fs Hf Hfs IH]; intros p p' H; cbn [run_tfs] in H.
    - injection H as <-. exists [], []. rewrite !map_subs_nil, app_nil_r. simpl. repeat split; lia.
    - destruct (apply_tf lu solve f p) as [p1|] eqn:E; cbn [bind] in H; [|discriminate].
      assert (EL : exists m0, length m0 = (match f with FEps => 1 | _ => 0 end) /\ eliminates m0 p p1).
      { destruct Hf as [->| ->]; cbn [apply_tf] in E.
        - destruct (eps_eliminates _ _ E) as (u & lo & up & nu & Z & _). eexists. split; [|exact Z]. reflexivity.
        - exists []. split; auto. now apply utm_eliminates. }
      destruct EL as (m0 & L0 & [T0 C1 C2 C3 [t M0] S0]).
      destruct (IH p1 p' H) as (m & ms & L & Lm & M & T & SS & D1 & D2 & D3).
      exists (m0 ++ m), (t :: ms). split; [|split; [|split; [|split; [|split; [|split; [|split]]]]]].
      + rewrite app_length, L0, L. simpl. destruct Hf as [->| ->]; simpl; lia.
      + simpl. congruence.
      + rewrite M, M0, <- app_assoc. reflexivity.
      + simpl. lia.
      + congruence.
      + rewrite D1, C1, map_map. apply map_ext. intros c. now rewrite subs_constrs_app.
      + rewrite D2, C2, map_map. apply map_ext. intros c. now rewrite subs_constrs_app.
      + rewrite D3, C3, map_map. apply map_ext. intros c. now rewrite subs_constrs_app.
  Qed.

  Lemma constraint_tfs_spec cs fs : constraint_tfs cs = Ok fs ->
    Forall is_stage fs /\ length fs = n_two cs /\
    length (filter (fun f => match f with FEps => true | _ => false end) fs) =
      length (filter (fun c => two_sided c && is_method "epstrig" c) cs) /\
    forall c, In c cs -> two_sided c = true -> is_method "epstrig" c = true \/ is_method "utm" c = true.
  Proof.
    unfold n_two. revert fs. induction cs as [|c cs IH]; cbn [constraint_tfs]; intros fs H.
    - injection H as <-. split; [constructor|split; [reflexivity|split; [reflexivity|intros c []]]].
    - cbn [filter]. destruct (two_sided c) eqn:T; cbn [andb].
      + destruct (is_method "epstrig" c) eqn:E1.
        * destruct (constraint_tfs cs) as [r|]; cbn [bind] in H; [|discriminate]. injection H as <-.
          destruct (IH r eq_refl) as (A & B & C & D). split; [|split; [|split]].
          -- constructor; auto. now left.
          -- simpl. congruence.
          -- simpl. congruence.
          -- intros d [<-|Hd]; auto.
        * destruct (is_method "utm" c) eqn:E2; [|discriminate].
          destruct (constraint_tfs cs) as [r|]; cbn [bind] in H; [|discriminate]. injection H as <-.
          destruct (IH r eq_refl) as (A & B & C & D). split; [|split; [|split]]; auto.
          -- constructor; auto. now right.
          -- simpl. congruence.
          -- intros d [<-|Hd]; auto.
      + destruct (IH fs H) as (A & B & C & D). split; [|split; [|split]]; auto.
        intros d [<-|Hd]; [congruence|auto].
  Qed.

  Lemma n_two_app a b : n_two (a ++ b) = n_two a + n_two b.
  Proof. unfold n_two. now rewrite filter_app, app_length. Qed.

  Lemma no_two_filter l : n_two l = 0 -> filter stays l = l /\ Forall (fun c => two_sided c = false) l.
  Proof.
    unfold n_two, stays. induction l as [|c l IH]; simpl; intros H; auto.
    destruct (two_sided c) eqn:E; simpl in *; [lia|]. destruct (IH H) as [A B]. split; [congruence|auto].
  Qed.

  (** The stage leaves exactly the other constraints, in order. *)
  Lemma stage_ok p p1 p2 fs : constraint_tfs (all_constraints p) = Ok fs ->
    p_ci p1 = p_ci p -> p_cp p1 = p_cp p -> p_ct p1 = p_ct p ->
    run_tfs lu solve fs p1 = Ok p2 ->
    Forall (fun c => two_sided c = false) (p_ci p2 ++ p_cp p2 ++ p_ct p2) /\
    exists m, length m = length (filter (fun c => two_sided c && is_method "epstrig" c) (all_constraints p)) /\
      p_ci p2 = map (subs_constrs m) (filter stays (p_ci p)) /\
      p_cp p2 = map (subs_constrs m) (filter stays (p_cp p)) /\
      p_ct p2 = map (subs_constrs m) (filter stays (p_ct p)) /\
      exists ms, p_maps p2 = p_maps p1 ++ ms /\ length ms = n_two (all_constraints p).
  Proof.
    intros HB E1 E2 E3 HR. destruct (constraint_tfs_spec _ _ HB) as (A & B & C & _).
    destruct (stage_run fs A p1 p2 HR) as (m & ms & L & Lm & M & T & _ & D1 & D2 & D3).
    unfold total in T. rewrite E1, E2, E3 in *. unfold all_constraints in B. rewrite !n_two_app in B.
    destruct (no_two_filter (p_ci p2) ltac:(lia)) as [X1 Y1].
    destruct (no_two_filter (p_cp p2) ltac:(lia)) as [X2 Y2].
    destruct (no_two_filter (p_ct p2) ltac:(lia)) as [X3 Y3].
    split; [apply Forall_app; split; [|apply Forall_app]; auto|].
    exists m. split; [congruence|]. split; [congruence|]. split; [congruence|]. split; [congruence|].
    exists ms. split; auto. unfold all_constraints. rewrite !n_two_app. lia.
  Qed.

  (** With UTM constraints only, the costs gain exactly the penalties. *)
  Definition pen_value fn rho (c : constr) (act lo up : expr) : R :=
    (eval fn rho act * (/ cos (PI / 2 * (2 * eval fn rho (c_expr c) - eval fn rho up - eval fn rho lo)
                              / (eval fn rho up - eval fn rho lo)) - 1))%R.
  Definition penalty fn rho (c : constr) : R :=
    match c_act c, c_lower c, c_upper c with
    | Some a, Some lo, Some up => pen_value fn rho c a lo up
    | _, _, _ => 0%R
    end.
  Definition penalties fn rho (l : list constr) : R := rsum (map (penalty fn rho) (filter two_sided l)).

  Lemma utm_penalty_value fn rho a e lo up c : c_expr c = e ->
    eval fn rho (utm_penalty a e lo up) = pen_value fn rho c a lo up.
  Proof. intros <-. unfold utm_penalty, pen_value, Sub, Div. simpl. unfold Rdiv, Rminus. rewrite Rmult_1_l. reflexivity. Qed.

  Lemma penalties_removed fn rho l1 c l2 : two_sided c = true ->
    penalties fn rho (l1 ++ c :: l2) = (penalties fn rho (l1 ++ l2) + penalty fn rho c)%R.
  Proof.
    intros H. unfold penalties. rewrite !filter_app. cbn [filter]. rewrite H. rewrite !map_app. cbn [map]. rewrite !rsum_app. simpl. lra.
  Qed.

  Lemma utm_costs fn rho p p' : utm p = Ok p' ->
    (forall c, In c (all_constraints p) -> two_sided c = true -> is_method "utm" c = true) ->
    (eval fn rho (p_cost_i p') + penalties fn rho (p_ci p') = eval fn rho (p_cost_i p) + penalties fn rho (p_ci p))%R /\
    (eval fn rho (p_cost_p p') + penalties fn rho (p_cp p') = eval fn rho (p_cost_p p) + penalties fn rho (p_cp p))%R /\
    (eval fn rho (p_cost_t p') + penalties fn rho (p_ct p') = eval fn rho (p_cost_t p) + penalties fn rho (p_ct p))%R /\
    p_states p' = p_states p /\ p_controls p' = p_controls p /\ p_consts p' = p_consts p /\
    incl (all_constraints p') (all_constraints p).
  Proof.
    unfold utm. destruct (p_symp p) eqn:HS; [|discriminate].
    assert (HT : forall c e, utm_term p c = Ok e -> eval fn rho e = penalty fn rho c).
    { intros c e He. destruct (utm_term_ok _ _ _ He) as (a & lo & up & A1 & A2 & A3 & A4 & ->).
      unfold penalty. rewrite A1, A3, A4. now apply utm_penalty_value. }
    intros H _. unfold all_constraints.
    destruct (find_at utm_sel (p_ci p)) as [[k c]|] eqn:E1.
    - destruct (utm_term p c) as [e|] eqn:ET; cbn [bind] in H; [|discriminate]. injection H as <-.
      destruct (find_at_spec _ _ _ _ E1) as (Hm & l1 & l2 & El & Hk & Hr & _).
      simpl. rewrite Hr, El, (penalties_removed _ _ _ _ _ (utm_sel_two _ Hm)), (HT _ _ ET).
      repeat split; try lra. apply incl_app_app; [|apply incl_refl].
      intros x Hx. apply in_app_or in Hx. apply in_or_app. destruct Hx; [auto|right; now right].
    - destruct (find_at utm_sel (p_cp p)) as [[k c]|] eqn:E2.
      + destruct (utm_term p c) as [e|] eqn:ET; cbn [bind] in H; [|discriminate]. injection H as <-.
        destruct (find_at_spec _ _ _ _ E2) as (Hm & l1 & l2 & El & Hk & Hr & _).
        simpl. rewrite Hr, El, (penalties_removed _ _ _ _ _ (utm_sel_two _ Hm)), (HT _ _ ET).
        repeat split; try lra. apply incl_app_app; [apply incl_refl|]. apply incl_app_app; [|apply incl_refl].
        intros x Hx. apply in_app_or in Hx. apply in_or_app. destruct Hx; [auto|right; now right].
      + destruct (find_at utm_sel (p_ct p)) as [[k c]|] eqn:E3; [|discriminate].
        destruct (utm_term p c) as [e|] eqn:ET; cbn [bind] in H; [|discriminate]. injection H as <-.
        destruct (find_at_spec _ _ _ _ E3) as (Hm & l1 & l2 & El & Hk & Hr & _).
        simpl. rewrite Hr, El, (penalties_removed _ _ _ _ _ (utm_sel_two _ Hm)), (HT _ _ ET).
        repeat split; try lra. apply incl_app_app; [apply incl_refl|]. apply incl_app_app; [apply incl_refl|].
        intros x Hx. apply in_app_or in Hx. apply in_or_app. destruct Hx; [auto|right; now right].
  Qed.

  Lemma utm_stage_costs fn rho fs : Forall (fun f => f = FUtm) fs -> forall p p',
    (forall c, In c (all_constraints p) -> two_sided c = true -> is_method "utm" c = true) ->
    run_tfs lu solve fs p = Ok p' ->
    (eval fn rho (p_cost_i p') + penalties fn rho (p_ci p') = eval fn rho (p_cost_i p) + penalties fn rho (p_ci p))%R /\
    (eval fn rho (p_cost_p p') + penalties fn rho (p_cp p') = eval fn rho (p_cost_p p) + penalties fn rho (p_cp p))%R /\
    (eval fn rho (p_cost_t p') + penalties fn rho (p_ct p') = eval fn rho (p_cost_t p) + penalties fn rho (p_ct p))%R /\
    p_states p' = p_states p /\ p_controls p' = p_controls p.
  Proof.
    induction 1 as [|f fs -> Hfs IH]; intros p p' HU H; cbn [run_tfs] in H.
    - injection H as <-. repeat split; reflexivity.
    - cbn [apply_tf] in H. destruct (utm p) as [p1|] eqn:E; cbn [bind] in H; [|discriminate].
      destruct (utm_costs fn rho p p1 E HU) as (A & B & C & D1 & D2 & _ & I).
      destruct (IH p1 p') as (A' & B' & C' & D1' & D2'); auto.
      repeat split; try lra; congruence.
  Qed.

  Lemma penalties_none fn rho l : Forall (fun c => two_sided c = false) l -> penalties fn rho l = 0%R.
  Proof.
    unfold penalties. induction 1; simpl; auto. now rewrite H.
  Qed.

  (** Every two-sided UTM constraint ends up in the cost of its location. *)
  Lemma utm_enforced fn rho p p1 p2 fs : constraint_tfs (all_constraints p) = Ok fs ->
    (forall c, In c (all_constraints p) -> two_sided c = true -> is_method "utm" c = true) ->
    p_ci p1 = p_ci p -> p_cp p1 = p_cp p -> p_ct p1 = p_ct p ->
    run_tfs lu solve fs p1 = Ok p2 ->
    eval fn rho (p_cost_i p2) = (eval fn rho (p_cost_i p1) + penalties fn rho (p_ci p))%R /\
    eval fn rho (p_cost_p p2) = (eval fn rho (p_cost_p p1) + penalties fn rho (p_cp p))%R /\
    eval fn rho (p_cost_t p2) = (eval fn rho (p_cost_t p1) + penalties fn rho (p_ct p))%R /\
    p_states p2 = p_states p1 /\ p_controls p2 = p_controls p1.
  Proof.
    intros HB HU E1 E2 E3 HR.
    destruct (stage_ok p p1 p2 fs HB E1 E2 E3 HR) as (N & _).
    apply Forall_app in N. destruct N as [N1 N2]. apply Forall_app in N2. destruct N2 as [N2 N3].
    destruct (constraint_tfs_spec _ _ HB) as (A & _ & C & _).
    assert (FU : Forall (fun f => f = FUtm) fs).
    { assert (Z : filter (fun c => two_sided c && is_method "epstrig" c) (all_constraints p) = []).
      { clear - HU. induction (all_constraints p) as [|c l IH]; simpl; auto.
        destruct (two_sided c) eqn:T; simpl.
        - assert (M : is_method "utm" c = true) by (apply HU; auto; now left).
          unfold is_method in *. apply String.eqb_eq in M. rewrite M. simpl.
          apply IH. intros d Hd. apply HU. now right.
        - apply IH. intros d Hd. apply HU. now right. }
      rewrite Z in C. simpl in C. clear - A C. induction A as [|f fs [->| ->] A IH]; simpl in *; auto; discriminate. }
    destruct (utm_stage_costs fn rho fs FU p1 p2) as (X1 & X2 & X3 & X4 & X5); auto.
    { unfold all_constraints in *. rewrite E1, E2, E3. exact HU. }
    rewrite (penalties_none fn rho _ N1), E1 in X1. rewrite (penalties_none fn rho _ N2), E2 in X2.
    rewrite (penalties_none fn rho _ N3), E3 in X3. repeat split; auto; lra.
  Qed.
End Stage.
