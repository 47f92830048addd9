(** The EpsTrig step at the level of values, and the rejection of misplaced
    EpsTrig constraints (C25). *)
From Coq Require Import Reals Lra.
From Verif Require Import Base Base_Facts Sym_Expr Sym_Facts Sym_Model Sym_Spec Sym_Constr.
Open Scope nat_scope.

(** The control given by the bounds and the angle. *)
Definition bounded_control (lo up angle : R) : R := ((up - lo) / 2 * sin angle + (up + lo) / 2)%R.

Lemma trig_name_neq u : u <> ("_" ++ u ++ "_trig")%string.
Proof.
  intros H. apply (f_equal String.length) in H. simpl in H.
  assert (L : forall a b, String.length (a ++ b) = String.length a + String.length b).
  { clear. induction a; simpl; congruence. }
  rewrite L in H. simpl in H. lia.
Qed.

Lemma eps_expr_value fn rho lo up nu :
  eval fn rho (eps_expr lo up nu) = bounded_control (eval fn rho lo) (eval fn rho up) (rho nu).
Proof. unfold eps_expr, bounded_control, Sub, Div. simpl. unfold Rdiv, Rminus. reflexivity. Qed.

Lemma eps_step p p' : eps_trig p = Ok p' ->
  exists c u lo up act l1 l2 u1 u2,
    p_cp p = l1 ++ c :: l2 /\ is_method "epstrig" c = true /\ c_expr c = Var u /\
    c_lower c = Some lo /\ c_upper c = Some up /\ c_act c = Some act /\
    p_controls p = u1 ++ u :: u2 /\
    p_controls p' = u1 ++ ("_" ++ u ++ "_trig")%string :: u2 /\
    forall fn rho,
      let angle := rho ("_" ++ u ++ "_trig")%string in
      let rho' := upd rho u (bounded_control (eval fn rho lo) (eval fn rho up) angle) in
      Forall2 (fun s s' => fst s = fst s' /\ eval fn rho (snd s') = eval fn rho' (snd s))
              (p_states p) (p_states p') /\
      eval fn rho (p_cost_p p') = (eval fn rho' (p_cost_p p) - eval fn rho' act * cos angle)%R /\
      eval fn rho (p_cost_i p') = eval fn rho' (p_cost_i p) /\
      eval fn rho (p_cost_t p') = eval fn rho' (p_cost_t p).
Proof.
  unfold eps_trig. destruct (p_symp p); [|discriminate].
  destruct (find_at (is_method "epstrig") (p_cp p)) as [[k c]|] eqn:E; [|discriminate].
  destruct (find_at_spec _ _ _ _ E) as (M & l1 & l2 & EL & _).
  destruct (c_expr c) as [| |u| | | | | | | |] eqn:EC; try discriminate.
  pose proof (trig_name_neq u) as NE. remember ("_" ++ u ++ "_trig")%string as nu eqn:Hnu.
  cbn [p_controls set_cp]. destruct (index_of u (p_controls p)) as [i|] eqn:EI; [|discriminate].
  destruct (set_nth (p_controls p) i nu) as [cs|] eqn:ES; cbn [bind]; [|discriminate].
  destruct (c_act c) as [act|] eqn:EA; [|discriminate].
  destruct (c_lower c) as [lo|] eqn:E1; [|discriminate].
  destruct (c_upper c) as [up|] eqn:E2; [|discriminate].
  intros H. injection H as <-.
  assert (HC : exists u1 u2, p_controls p = u1 ++ u :: u2 /\ cs = u1 ++ nu :: u2).
  { unfold set_nth in ES. destruct (Nat.ltb i (length (p_controls p))); [|discriminate].
    assert (EQ : cs = firstn i (p_controls p) ++ nu :: skipn (S i) (p_controls p)) by congruence.
    exists (firstn i (p_controls p)), (skipn (S i) (p_controls p)). split; [|exact EQ].
    clear - EI. revert i EI. induction (p_controls p) as [|v vs IH]; cbn [index_of]; intros i EI; [discriminate|].
    destruct (String.eqb u v) eqn:EQ.
    - apply String.eqb_eq in EQ. subst v. assert (i = 0) as -> by congruence. reflexivity.
    - destruct (index_of u vs) as [j|] eqn:EJ; cbn [bind] in EI; [|discriminate].
      assert (i = S j) as -> by congruence. cbn [firstn skipn app]. f_equal. apply (IH j eq_refl). }
  destruct HC as (u1 & u2 & HC1 & HC2).
  exists c, u, lo, up, act, l1, l2, u1, u2. rewrite <- Hnu.
  split; [exact EL|]. split; [exact M|]. split; [exact EC|]. split; [exact E1|]. split; [exact E2|].
  split; [exact EA|]. split; [exact HC1|]. split; [exact HC2|].
  intros fn rho. cbv zeta. rewrite <- (eps_expr_value fn rho lo up).
  set (n := eps_expr lo up nu).
  cbn [set_maps subs_all set_states set_costates set_coparams set_ci set_cp set_ct set_cost_i set_cost_p set_cost_t
       set_quants set_switches set_ham set_quads set_controls p_states p_cost_p p_cost_i p_cost_t].
  split; [|split; [|split]].
  - induction (p_states p) as [|s l IH]; simpl; constructor; auto. split; [reflexivity|]. apply eval_subst.
  - rewrite eval_subst. cbn [eval].
    assert (upd rho u (eval fn rho n) nu = rho nu) as ->.
    { unfold upd. destruct (String.eqb u nu) eqn:Q; auto.
      apply String.eqb_eq in Q. contradiction. }
    ring.
  - apply eval_subst.
  - apply eval_subst.
Qed.

Definition misplaced (p : prob) : Prop :=
  exists c, In c (p_ci p ++ p_ct p) /\ two_sided c = true /\ is_method "epstrig" c = true.

Lemma misplaced_eps p p' : eps_trig p = Ok p' -> misplaced p -> misplaced p'.
Proof.
  unfold eps_trig. destruct (p_symp p); [|discriminate].
  destruct (find_at (is_method "epstrig") (p_cp p)) as [[k c]|]; [|discriminate].
  destruct (c_expr c) as [| |u| | | | | | | |]; try discriminate.
  cbn [p_controls set_cp]. destruct (index_of u (p_controls p)) as [i|]; [|discriminate].
  destruct (set_nth _ _ _) as [cs|]; cbn [bind]; [|discriminate].
  destruct (c_act c) as [act|]; [|discriminate]. destruct (c_lower c) as [lo|]; [|discriminate].
  destruct (c_upper c) as [up|]; [|discriminate].
  intros H. injection H as <-. intros (d & Hd & T & M).
  exists (subs_constr u (eps_expr lo up ("_" ++ u ++ "_trig")%string) d). split; [|split].
  - cbn [set_maps subs_all set_states set_costates set_coparams set_ci set_cp set_ct set_cost_i set_cost_p set_cost_t
       set_quants set_switches set_ham set_quads set_controls p_ci p_ct].
    rewrite <- map_app. now apply in_map.
  - now rewrite two_sided_subs.
  - exact M.
Qed.

Lemma misplaced_keep k l (c d : constr) : find_at utm_sel l = Some (k, c) -> is_method "epstrig" d = true ->
  In d l -> In d (remove_at k l).
Proof.
  intros E M H. destruct (find_at_spec _ _ _ _ E) as (S & l1 & l2 & -> & _ & -> & _).
  apply in_app_iff in H. apply in_app_iff. destruct H as [H|[->|H]]; auto.
  exfalso. unfold utm_sel, is_method in *. apply andb_prop in S. destruct S as [S1 S2].
  apply String.eqb_eq in M. rewrite M in *.
  first [apply String.eqb_eq in S1; discriminate | apply String.eqb_eq in S2; discriminate].
Qed.

Lemma misplaced_utm p p' : utm p = Ok p' -> misplaced p -> misplaced p'.
Proof.
  unfold utm. destruct (p_symp p); [|discriminate]. intros H (d & Hd & T & M).
  exists d. split; [|auto]. apply in_app_iff in Hd. apply in_app_iff.
  destruct (find_at utm_sel (p_ci p)) as [[k c]|] eqn:E1.
  - destruct (utm_term p c); cbn [bind] in H; [|discriminate]. injection H as <-. simpl.
    destruct Hd as [Hd|Hd]; auto. left. eapply misplaced_keep; eauto.
  - destruct (find_at utm_sel (p_cp p)) as [[k c]|] eqn:E2.
    + destruct (utm_term p c); cbn [bind] in H; [|discriminate]. injection H as <-. simpl. auto.
    + destruct (find_at utm_sel (p_ct p)) as [[k c]|] eqn:E3; [|discriminate].
      destruct (utm_term p c); cbn [bind] in H; [|discriminate]. injection H as <-. simpl.
      destruct Hd as [Hd|Hd]; auto. right. eapply misplaced_keep; eauto.
Qed.

Section Reject.
  Variable lu : list (list expr) -> list expr -> res (list expr).
  Variable solve : list expr -> list string -> list (list expr).

  Lemma misplaced_rejected p p1 fs : constraint_tfs (all_constraints p) = Ok fs ->
    p_ci p1 = p_ci p -> p_cp p1 = p_cp p -> p_ct p1 = p_ct p -> misplaced p ->
    forall p2, run_tfs lu solve fs p1 <> Ok p2.
  Proof.
    intros HB E1 E2 E3 HM p2 HR.
    destruct (stage_ok lu solve p p1 p2 fs HB E1 E2 E3 HR) as (N & _).
    destruct (constraint_tfs_spec _ _ HB) as (A & _).
    assert (M1 : misplaced p1) by (unfold misplaced; rewrite E1, E3; exact HM).
    assert (M2 : misplaced p2).
    { clear - A HR M1. revert p1 M1 HR. induction A as [|f fs [->| ->] A IH]; cbn [run_tfs]; intros p1 M1 HR.
      - injection HR as <-. exact M1.
      - cbn [apply_tf] in HR. destruct (eps_trig p1) as [q|] eqn:E; cbn [bind] in HR; [|discriminate].
        eapply IH; [|exact HR]. eapply misplaced_eps; eauto.
      - cbn [apply_tf] in HR. destruct (utm p1) as [q|] eqn:E; cbn [bind] in HR; [|discriminate].
        eapply IH; [|exact HR]. eapply misplaced_utm; eauto. }
    destruct M2 as (c & Hc & T & _). rewrite Forall_forall in N.
    rewrite (N c) in T; [discriminate|]. rewrite !in_app_iff in *. tauto.
  Qed.
End Reject.

Lemma unknown_method cs c : In c cs -> two_sided c = true -> is_method "epstrig" c = false ->
  is_method "utm" c = false -> constraint_tfs cs = Raise NotImplementedError.
Proof.
  intros Hin T M1 M2. induction cs as [|d cs IH]; [destruct Hin|]. cbn [constraint_tfs].
  destruct Hin as [->|Hin].
  - now rewrite T, M1, M2.
  - rewrite (IH Hin). destruct (two_sided d); auto. destruct (is_method "epstrig" d); auto.
    destruct (is_method "utm" d); auto.
Qed.
