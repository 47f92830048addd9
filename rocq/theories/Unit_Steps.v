(** The transformations keep a problem dimensionally consistent. *)
From Coq Require Import Reals Lra.
From Coq Require Import Ascii.
From Verif Require Import Base Base_Facts Sym_Expr Sym_Facts Sym_Model Sym_Lu Sym_Dual Sym_DiffCtl Unit_Model Unit_Spec Unit_Proofs.
Open Scope string_scope. Open Scope list_scope. Open Scope nat_scope.

Lemma extends_refl G : extends G G.
Proof. intros x u H. exact H. Qed.
Lemma extends_extend G l : extends G (extend G l).
Proof. intros x u H. unfold extend. now rewrite H. Qed.
Lemma extends_trans G1 G2 G3 : extends G1 G2 -> extends G2 G3 -> extends G1 G3.
Proof. intros A B x u H. apply B. now apply A. Qed.
Lemma find_unit_In l x u : NoDup (map fst l) -> In (x, u) l -> find_unit l x = Some u.
Proof.
  induction l as [|[y w] l IH]; cbn; [tauto|]. intros ND [E|I]; inversion ND as [|? ? N ND']; subst.
  - injection E as -> ->. now rewrite String.eqb_refl.
  - destruct (String.eqb_spec x y) as [->|]; [|now apply IH]. elim N. now apply (in_map fst) in I.
Qed.
Lemma find_unit_Some l x u : find_unit l x = Some u -> In (x, u) l.
Proof. induction l as [|[y w] l IH]; cbn; [discriminate|]. destruct (String.eqb_spec x y) as [->|]; [intros [= ->]; now left|auto]. Qed.
Lemma extend_new G l x u : fresh G l -> In (x, u) l -> extend G l x = Some u.
Proof.
  intros [ND F] I. unfold extend. rewrite Forall_forall in F. rewrite (F x) by (now apply (in_map fst) in I). now apply find_unit_In.
Qed.
Lemma extend_proper G l : (forall x v, G x = Some v -> proper v) -> Forall (fun xu => proper (snd xu)) l ->
  forall x v, extend G l x = Some v -> proper v.
Proof.
  intros P F x v. unfold extend. destruct (G x) eqn:E; [intros [= <-]; now apply (P x)|]. intros H. apply find_unit_Some in H. rewrite Forall_forall in F. now apply (F _ H).
Qed.

Lemma Forall2_imp {A B} (P Q : A -> B -> Prop) l r : (forall a b, P a b -> Q a b) -> Forall2 P l r -> Forall2 Q l r.
Proof. intros H. induction 1; constructor; auto. Qed.
Lemma Forall2_mapl {A B} (P Q : A -> B -> Prop) (f : A -> A) l r : (forall a b, P a b -> Q (f a) b) -> Forall2 P l r -> Forall2 Q (map f l) r.
Proof. intros H. induction 1; cbn; constructor; auto. Qed.
Lemma Forall2_app' {A B} (P : A -> B -> Prop) l1 l2 r1 r2 : Forall2 P l1 r1 -> Forall2 P l2 r2 -> Forall2 P (l1 ++ l2) (r1 ++ r2).
Proof. induction 1; cbn; auto. Qed.
Lemma Forall2_length' {A B} (P : A -> B -> Prop) l r : Forall2 P l r -> length l = length r.
Proof. induction 1; cbn; auto. Qed.
Lemma Forall2_remove {A B} (P : A -> B -> Prop) l r : Forall2 P l r -> forall k, Forall2 P (remove_at k l) (remove_at k r).
Proof. induction 1; intros [|k]; cbn; try constructor; auto. Qed.
Lemma Forall2_nth_error {A B} (P : A -> B -> Prop) l r : Forall2 P l r -> forall k a, nth_error l k = Some a -> exists b, nth_error r k = Some b /\ P a b.
Proof. induction 1; intros [|k] a; cbn; try discriminate; [intros [= ->]; eauto|auto]. Qed.
Lemma Forall_remove {A} (P : A -> Prop) l : Forall P l -> forall k, Forall P (remove_at k l).
Proof. induction 1; intros [|k]; cbn; auto. Qed.
Lemma find_at_nth {A} (f : A -> bool) l k a : find_at f l = Some (k, a) -> nth_error l k = Some a /\ f a = true.
Proof.
  revert k. induction l as [|b l IH]; cbn; [discriminate|]. intros k. destruct (f b) eqn:E; [intros [= <- <-]; auto|].
  destruct (find_at f l) as [[j c]|]; [|discriminate]. intros [= <- <-]. now apply (IH j).
Qed.

Section Mono.
  Variables G G' : uenv.
  Hypothesis X : extends G G'.
  Lemma dyn_mono ui s u : dyn_ok G ui s u -> dyn_ok G' ui s u.
  Proof. intros [A B]. split; [now apply X|now apply dim_mono with G]. Qed.
  Lemma has_mono x u : has G x u -> has G' x u.
  Proof. apply X. Qed.
  Lemma constr_mono c u : constr_ok G c u -> constr_ok G' c u.
  Proof. intros (P & A & B & C). split; [exact P|]. split; [now apply dim_mono with G|]. split; intros e E; apply dim_mono with G; auto. Qed.
  Lemma quant_mono q : quant_ok G q -> quant_ok G' q.
  Proof. intros (u & A & B). exists u. split; [now apply X|now apply dim_mono with G]. Qed.
  Lemma switch_mono s : switch_ok G s -> switch_ok G' s.
  Proof.
    intros (u & w & A & P & F & C & T & S). exists u, w. split; [now apply X|]. split; [exact P|]. split; [|split; [|split; [now apply dim_mono with G|]]].
    - eapply Forall_impl; [|exact F]. intros e. now apply dim_mono.
    - eapply Forall_impl; [|exact C]. intros l. apply Forall_impl. intros e. now apply dim_mono.
    - intros e E. apply dim_mono with G; auto.
  Qed.
  Lemma act_mono w c : act_ok G w c -> act_ok G' w c.
  Proof. intros A T a E. apply dim_mono with G; auto. Qed.
  Lemma activators_mono p u : activators G p u -> activators G' p u.
  Proof. intros (A & B & C). split; [|split]; (eapply Forall_impl; [apply act_mono|assumption]). Qed.
  Lemma consistent_mono p u : (forall x v, G' x = Some v -> proper v) -> consistent G p u -> consistent G' p u.
  Proof.
    intros P [K1 K2 K3 K4 K5 K6 K7 K8 K9 K10 K11 K12 K13 K14 K15 K16 K17 K18 K19 K20 K21 K22]. constructor; try assumption;
      try (eapply Forall2_imp; [apply dyn_mono|assumption]); try (eapply Forall2_imp; [apply has_mono|assumption]);
      try (eapply Forall2_imp; [apply constr_mono|assumption]); try (now apply dim_mono with G).
    - now apply X.
    - eapply Forall_impl; [apply quant_mono|assumption].
    - eapply Forall_impl; [apply switch_mono|assumption].
    - eapply Forall_impl; [|exact K21]. intros o. apply Forall2_imp. intros e v. now apply dim_mono.
    - intros h E. destruct (K22 h E). split; [assumption|now apply dim_mono with G].
  Qed.
End Mono.

(** RASHS weights are pure numbers. *)
Lemma rashs_units G s : switch_ok G s -> exists u, G (sw_name s) = Some u /\ dim G (rashs_func s) u.
Proof.
  intros (u & w & A & P & F & C & T & S). exists u. split; [exact A|]. unfold rashs_func. apply dim_Sum; [apply D_zero|].
  clear A S. revert C. generalize (sw_conds s). induction F as [|e fs He F IH]; intros cs C; [constructor|]. destruct C as [|c cs Hc C]; cbn; constructor; [|now apply IH].
  cbn. apply D_same with (Mul (Cst 1) u); [|usolve]. apply D_mul; [|exact He].
  unfold rashs_weight. apply dim_Sum; [apply D_zero|]. apply Forall_forall. intros e' I. apply in_map_iff in I. destruct I as (c0 & <- & I).
  rewrite Forall_forall in Hc. specialize (Hc c0 I). apply D_same with (Div (Cst 1) (Cst 1)); [|usolve]. apply dim_div; [apply D_number|].
  apply D_add; [apply D_number|]. apply D_exp. apply D_same with (Div w w); [now apply dim_div|]. usolve.
Qed.

(** Substitution of a symbol by an expression of the same unit. *)
Lemma subs_all_consistent G x n v p u : G x = Some v -> dim G n v -> consistent G p u -> consistent G (subs_all x n p) u.
Proof.
  intros Hx Hn K. pose proof (k_proper _ _ _ K) as PG. destruct K as [K1 K2 K3 K4 K5 K6 K7 K8 K9 K10 K11 K12 K13 K14 K15 K16 K17 K18 K19 K20 K21 K22].
  assert (S : forall e w, dim G e w -> dim G (subst x n e) w) by (intros e w; now apply dim_subst with v).
  assert (D : forall ui s w, dyn_ok G ui s w -> dyn_ok G ui (subs_dyn x n s) w) by (intros ui s w [A B]; split; [exact A|now apply S]).
  assert (C : forall c w, constr_ok G c w -> constr_ok G (subs_constr x n c) w).
  { intros c w (P & A & B & E). split; [exact P|]. split; [now apply S|]. cbn. split; intros e H.
    - destruct (c_lower c); [injection H as <-; apply S; auto|discriminate].
    - destruct (c_upper c); [injection H as <-; apply S; auto|discriminate]. }
  destruct p; cbn in *. constructor; cbn; try assumption; try (eapply Forall2_mapl; [apply D|assumption]); try (eapply Forall2_mapl; [apply C|assumption]); try (now apply S).
  - apply Forall_forall. intros q I. apply in_map_iff in I. destruct I as (q0 & <- & I). rewrite Forall_forall in K19. destruct (K19 q0 I) as (w & A & B). exists w. split; [exact A|now apply S].
  - apply Forall_forall. intros s I. apply in_map_iff in I. destruct I as (s0 & <- & I). rewrite Forall_forall in K20. pose proof (K20 s0 I) as Q.
    destruct (rashs_units G s0 Q) as (r & Hr & R). destruct Q as (w & w' & A & P & F & Cc & T & Sm). assert (r = w) as -> by congruence.
    unfold subs_switch. destruct (sw_sym s0) eqn:E; exists w, w'; cbn.
    + rewrite E. cbn. repeat (split; [assumption|]). intros e' [= <-]. apply S. apply Sm. reflexivity.
    + repeat (split; [assumption|]). intros e' [= <-]. now apply S.
  - intros h H. destruct p_ham as [h0|]; [|discriminate]. injection H as <-. destruct (K22 h0 eq_refl). split; [assumption|now apply S].
Qed.
Lemma subs_all_activators G x n p u : activators G p u -> activators G (subs_all x n p) u.
Proof.
  assert (S : forall w l, Forall (act_ok G w) l -> Forall (act_ok G w) (map (subs_constr x n) l)).
  { intros w l H. apply Forall_forall. intros c I. apply in_map_iff in I. destruct I as (c0 & <- & I). rewrite Forall_forall in H.
    intros T a E. apply (H c0 I); [|exact E]. revert T. unfold two_sided. cbn. destruct (c_lower c0), (c_upper c0); auto. }
  intros (A & B & C). destruct p; cbn in *. split; [|split]; cbn; now apply S.
Qed.

Lemma set_maps_consistent G p u m : consistent G p u -> consistent G (set_maps p m) u.
Proof. intros K. destruct p; destruct K; constructor; assumption. Qed.

Section Steps.
  Variable G : uenv.

  Lemma momentum_consistent p u p' : consistent G p u -> momentum_shift None p = Ok p' ->
    fresh G (new_symbols FMomentum p u) -> consistent (extend G (new_symbols FMomentum p u)) p' (momentum_units u).
  Proof.
    intros K H F. unfold momentum_shift in H. destruct (p_symp p); [|discriminate]. apply Ok_inj in H. subst p'. apply set_maps_consistent.
    pose proof (k_proper _ _ _ K) as PG. pose proof (k_ind _ _ _ K) as KI. pose proof (PG _ _ KI) as PI.
    set (G' := extend G (new_symbols FMomentum p u)) in *.
    assert (PG' : forall x v, G' x = Some v -> proper v) by (apply extend_proper; [exact PG|repeat constructor; exact PI]).
    assert (N : G' (String "_"%char (p_ind p)) = Some (u_ind u)) by (apply extend_new; [exact F|now left]).
    assert (X : extends G G') by apply extends_extend. clearbody G'. clear F.
    apply (consistent_mono G G' X p u PG') in K. destruct K as [K1 K2 K3 K4 K5 K6 K7 K8 K9 K10 K11 K12 K13 K14 K15 K16 K17 K18 K19 K20 K21 K22]. destruct p; cbn in *.
    constructor; cbn; try assumption.
    apply Forall2_app'; [assumption|]. constructor; [|constructor]. split; cbn; [exact K2|].
    apply D_same with (Cst 1); [apply D_number|usolve].
  Qed.
  Lemma momentum_activators p u p' : momentum_shift None p = Ok p' -> activators G p u -> activators G p' (momentum_units u).
  Proof. intros H A. unfold momentum_shift in H. destruct (p_symp p); [|discriminate]. apply Ok_inj in H. subst p'. destruct p. exact A. Qed.

  Lemma set_nth_has (l : list string) r i y w l' : Forall2 (has G) l r -> G y = Some w -> set_nth l i y = Ok l' ->
    exists r', set_nth r i w = Ok r' /\ Forall2 (has G) l' r'.
  Proof.
    intros F Hy. unfold set_nth. rewrite <- (Forall2_length' _ _ _ F). destruct (i <? length l); [|discriminate]. intros H. apply Ok_inj in H. subst l'.
    eexists. split; [reflexivity|]. apply Forall2_app'.
    - clear - F. revert i. induction F; intros [|i]; cbn; constructor; auto.
    - constructor; [exact Hy|]. clear - F. generalize (S i). induction F; intros [|j]; cbn; try constructor; auto.
  Qed.

  Lemma eps_expr_units lo up nu w : G nu = Some (Cst 1) -> dim G lo w -> dim G up w -> dim G (eps_expr lo up nu) w.
  Proof.
    intros N L U. unfold eps_expr. apply D_add.
    - apply D_same with (Mul (Div w (Cst 1)) (Cst 1)); [|intros fn fac P; unfold Div; cbn [eval]; field].
      apply D_mul; [|apply D_sin; now apply D_var]. apply dim_div; [now apply dim_sub|apply D_number].
    - apply D_same with (Div w (Cst 1)); [|intros fn fac P; unfold Div; cbn [eval]; field]. apply dim_div; [now apply D_add|apply D_number].
  Qed.
End Steps.

Lemma eps_consistent G p u p' : consistent G p u -> activators G p u -> p_law p = [] -> eps_trig p = Ok p' ->
  fresh G (new_symbols FEps p u) ->
  consistent (extend G (new_symbols FEps p u)) p' (eps_units p u) /\ activators (extend G (new_symbols FEps p u)) p' (eps_units p u) /\ p_law p' = [].
Proof.
  intros K A NL H F. unfold eps_trig in H. destruct (p_symp p); [|discriminate]. unfold eps_units, new_symbols in *.
  destruct (find_at (is_method "epstrig") (p_cp p)) as [[k c]|] eqn:E; [|discriminate].
  destruct (c_expr c) as [| |x| | | | | | | |] eqn:EC; try discriminate.
  replace (p_controls (set_cp p (remove_at k (p_cp p)))) with (p_controls p) in H by (destruct p; reflexivity).
  destruct (index_of x (p_controls p)) as [i|] eqn:EI; [|discriminate].
  destruct (set_nth (p_controls p) i ("_" ++ x ++ "_trig")%string) as [controls|] eqn:ES; [|discriminate]. cbn [bind] in H.
  destruct (c_act c) as [act|] eqn:EA; [|discriminate]. destruct (c_lower c) as [lo|] eqn:EL; [|discriminate]. destruct (c_upper c) as [up|] eqn:EU; [|discriminate].
  apply Ok_inj in H. subst p'.
  set (nu := ("_" ++ x ++ "_trig")%string) in *. set (G' := extend G [(nu, Cst 1)]) in *.
  pose proof (k_proper _ _ _ K) as PG.
  assert (PG' : forall x v, G' x = Some v -> proper v) by (apply extend_proper; [exact PG|repeat constructor; apply proper_one]).
  assert (N : G' nu = Some (Cst 1)) by (apply extend_new; [exact F|now left]).
  assert (X : extends G G') by apply extends_extend. clearbody G' nu. clear F.
  apply (consistent_mono G G' X p u PG') in K. apply (activators_mono G G' X) in A. clear G PG X.
  destruct (find_at_nth _ _ _ _ E) as [En _].
  destruct (Forall2_nth_error _ _ _ (k_cp _ _ _ K) k c En) as (w & Ew & (Pw & Dw & Dl & Du)). rewrite EC in Dw.
  destruct (dim_var_inv _ _ _ Dw) as (ux & Hx & Qx).
  destruct (set_nth_has G' (p_controls p) (u_controls u) i nu (Cst 1) controls (k_controls _ _ _ K) N ES) as (uc & Euc & Fuc). rewrite Euc.
  assert (Da : dim G' act (Div (u_cost u) (u_ind u))).
  { destruct A as (_ & A & _). rewrite Forall_forall in A. apply (A c); [now apply nth_error_In with k| |exact EA]. unfold two_sided. now rewrite EL, EU. }
  assert (AR : activators G' (set_cp p (remove_at k (p_cp p))) u).
  { destruct A as (A1 & A2 & A3). destruct p; cbn in *. repeat split; cbn; try assumption. now apply Forall_remove. }
  split; [apply set_maps_consistent|split].
  - apply subs_all_consistent with ux; [exact Hx| |].
    { apply D_same with w; [|now apply ueq_sym]. apply eps_expr_units; auto. }
    destruct K as [K1 K2 K3 K4 K5 K6 K7 K8 K9 K10 K11 K12 K13 K14 K15 K16 K17 K18 K19 K20 K21 K22].
    assert (DC : dim G' (Add (p_cost_p p) (Mul (Opp act) (Cos (Var nu)))) (Div (u_cost u) (u_ind u))).
    { apply D_add; [exact K17|]. apply D_same with (Mul (Div (u_cost u) (u_ind u)) (Cst 1)); [|intros fn fac P; unfold Div; cbn [eval]; ring].
      apply D_mul; [now apply D_opp|]. apply D_cos. now apply D_var. }
    destruct p; cbn in *. constructor; cbn; try assumption; [now apply Forall2_remove|]. subst p_law. constructor.
  - pose proof (subs_all_activators G' x (eps_expr lo up nu) _ _ AR) as R. destruct p; exact R.
  - destruct p; exact NL.
Qed.

Lemma utm_penalty_units G act e lo up w v : proper v -> dim G act w -> dim G e v -> dim G lo v -> dim G up v -> dim G (utm_penalty act e lo up) w.
Proof.
  intros Pv A E L U. unfold utm_penalty. apply D_same with (Mul w (Cst 1)); [|intros fn fac P; cbn [eval]; ring]. apply D_mul; [exact A|].
  apply dim_sub; [|apply D_number]. apply D_same with (Div (Cst 1) (Cst 1)); [|usolve]. apply dim_div; [apply D_number|]. apply D_cos.
  apply D_same with (Div (Mul (Div (Cst 1) (Cst 1)) v) v); [|usolve]. apply dim_div; [|now apply dim_sub].
  apply D_mul; [apply dim_div; constructor|]. apply dim_sub; [|exact L]. apply dim_sub; [|exact U].
  apply D_same with (Mul (Cst 1) v); [apply D_mul; [apply D_number|exact E]|]. intros fn fac P; cbn [eval]; ring.
Qed.
Lemma utm_term_units G p c w v term : constr_ok G c v -> act_ok G w c -> utm_term p c = Ok term -> dim G term w.
Proof.
  intros (Pv & De & Dl & Du) A H. unfold utm_term in H. unfold act_ok, two_sided in A. destruct (c_act c) as [[| |a| | | | | | | |]|]; try discriminate.
  destruct (mem a (p_consts p)); [|discriminate]. destruct (c_lower c) as [lo|]; [|discriminate]. destruct (c_upper c) as [up|]; [|discriminate].
  apply Ok_inj in H. subst term. apply utm_penalty_units with v; auto.
Qed.
Lemma utm_consistent G p u p' : consistent G p u -> activators G p u -> utm p = Ok p' ->
  consistent G p' (utm_units p u) /\ activators G p' (utm_units p u) /\ p_law p' = p_law p.
Proof.
  intros K A H. unfold utm in H. destruct (p_symp p); [|discriminate]. unfold utm_units. pose proof A as (A1 & A2 & A3).
  destruct K as [K1 K2 K3 K4 K5 K6 K7 K8 K9 K10 K11 K12 K13 K14 K15 K16 K17 K18 K19 K20 K21 K22].
  destruct (find_at utm_sel (p_ci p)) as [[k c]|] eqn:E1.
  - destruct (utm_term p c) as [term|] eqn:ET; [|discriminate]. cbn [bind] in H. apply Ok_inj in H.
    destruct (find_at_nth _ _ _ _ E1) as [En _]. destruct (Forall2_nth_error _ _ _ K12 k c En) as (w & Ew & Kc).
    assert (Dt : dim G term (u_cost u)) by (apply (utm_term_units G p c _ w); [exact Kc| |exact ET]; rewrite Forall_forall in A1; apply A1; now apply nth_error_In with k).
    destruct p; cbn in *. subst p'. split; [|split; [split; [|split]; cbn; try assumption; now apply Forall_remove|reflexivity]].
    constructor; cbn; try assumption; [now apply Forall2_remove|now apply D_add].
  - destruct (find_at utm_sel (p_cp p)) as [[k c]|] eqn:E2.
    + destruct (utm_term p c) as [term|] eqn:ET; [|discriminate]. cbn [bind] in H. apply Ok_inj in H.
      destruct (find_at_nth _ _ _ _ E2) as [En _]. destruct (Forall2_nth_error _ _ _ K13 k c En) as (w & Ew & Kc).
      assert (Dt : dim G term (Div (u_cost u) (u_ind u))) by (apply (utm_term_units G p c _ w); [exact Kc| |exact ET]; rewrite Forall_forall in A2; apply A2; now apply nth_error_In with k).
      destruct p; cbn in *. subst p'. split; [|split; [split; [|split]; cbn; try assumption; now apply Forall_remove|reflexivity]].
      constructor; cbn; try assumption; [now apply Forall2_remove|now apply D_add].
    + destruct (find_at utm_sel (p_ct p)) as [[k c]|] eqn:E3; [|discriminate].
      destruct (utm_term p c) as [term|] eqn:ET; [|discriminate]. cbn [bind] in H. apply Ok_inj in H.
      destruct (find_at_nth _ _ _ _ E3) as [En _]. destruct (Forall2_nth_error _ _ _ K14 k c En) as (w & Ew & Kc).
      assert (Dt : dim G term (u_cost u)) by (apply (utm_term_units G p c _ w); [exact Kc| |exact ET]; rewrite Forall_forall in A3; apply A3; now apply nth_error_In with k).
      destruct p; cbn in *. subst p'. split; [|split; [split; [|split]; cbn; try assumption; now apply Forall_remove|reflexivity]].
      constructor; cbn; try assumption; [now apply Forall2_remove|now apply D_add].
Qed.

Lemma rashs_consistent G p u p' : consistent G p u -> rashs p = Ok p' -> consistent G p' u /\ p_law p' = p_law p.
Proof.
  intros K H. unfold rashs in H. destruct (p_symp p); [|discriminate]. apply Ok_inj in H. subst p'.
  generalize (seq 0 (length (p_switches p))). intros l. revert p K. induction l as [|i l IH]; intros p K; cbn [fold_left]; [auto|].
  assert (S : consistent G (rashs_at p i) u /\ p_law (rashs_at p i) = p_law p).
  { unfold rashs_at. destruct (nth_error (p_switches p) i) as [s|] eqn:E; [|auto]. destruct (sw_sym s) as [f|] eqn:Ef; [|auto].
    split; [|destruct p; reflexivity]. apply nth_error_In in E. pose proof (k_switches _ _ _ K) as KS. rewrite Forall_forall in KS.
    destruct (KS s E) as (v & w & A & P & F & C & T & S). apply subs_all_consistent with v; auto. }
  destruct S as [S1 S2]. destruct (IH _ S1) as [I1 I2]. rewrite I2, S2. auto.
Qed.
