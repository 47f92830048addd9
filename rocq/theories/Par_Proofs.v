(** C93: unknown parameters.  The multipliers of the parameters are quadratures
    of the boundary value problem, and their rates are not scaled by the duration. *)
From Coq Require Import Reals Lra FunctionalExtensionality Permutation.
From Coquelicot Require Import Coquelicot.
From Verif Require Import Base Base_Facts Map_Model Map_Proofs Map_More Sym_Expr Sym_Facts Sym_Model Sym_Lu Sym_Dual Sym_Traj Sym_Var Sym_DiffCtl Jac_Model Jac_Proofs Jac_Properties Unit_Model Unit_Spec Unit_Proofs Unit_Steps Unit_Scale Unit_Properties Dual_Properties Ctl_Properties Count_Properties Shift_Properties Whole_Proofs Whole_Steps Whole_Geo Whole_Properties.
Open Scope string_scope.
Open Scope list_scope.
Open Scope nat_scope.

Section First.
  Variable fn : string -> nat -> R -> R.
  Local Open Scope R_scope.

  (** The first variation along a curve whose multipliers of parameters obey
      equations that are too slow by the factor [D]. *)
  Lemma first_variation_slow p p' (c v : R -> string -> R) t0 tf dtf I D :
    let X := syms (p_states p) in let P := p_params p in let U := p_controls p in
    let h := dual_ham p in
    t0 <= tf -> D <> 0 -> dual_of p p' h -> (forall x, In x X -> ~ In x P) ->
    (forall y, In y (X ++ P ++ U) -> ~ In y (map lam X)) ->
    (forall y, In y (X ++ P ++ [p_ind p]) -> ~ In y (nu_names "_nu_0_" (p_ci p)) /\ ~ In y (nu_names "_nu_f_" (p_ct p))) ->
    (forall t x, t0 <= t <= tf -> In x X -> is_derive (fun s => c s (lam x)) t (- eval fn (c t) (diff x h))) ->
    (forall t x, t0 <= t <= tf -> In x P -> is_derive (fun s => c s (lam x)) t (- eval fn (c t) (diff x h) / D)) ->
    (forall t u, t0 <= t <= tf -> In u U -> eval fn (c t) (diff u h) = 0) ->
    (forall b, In b (p_ci p') -> eval fn (c t0) (c_expr b) = 0) ->
    (forall b, In b (p_ct p') -> eval fn (c tf) (c_expr b) = 0) ->
    (forall t x f, t0 <= t <= tf -> In (x, f) (p_states p) -> is_derive (fun s => v s x) t (directional fn (c t) (X ++ P ++ U) f (v t))) ->
    (forall t x, t0 <= t <= tf -> In x P -> is_derive (fun s => v s x) t 0) ->
    forall df,
    (forall x f, In (x, f) (p_states p) -> df x = v tf x + eval fn (c tf) f * dtf) ->
    (forall x, In x P -> df x = v tf x) -> df (p_ind p) = dtf ->
    (forall b, In b (p_ci p) -> directional fn (c t0) (X ++ P) (c_expr b) (v t0) = 0) ->
    (forall b, In b (p_ct p) -> directional fn (c tf) (X ++ P ++ [p_ind p]) (c_expr b) df = 0) ->
    (forall t, t0 <= t <= tf -> continuous (fun s => directional fn (c s) (X ++ P ++ U) (p_cost_p p) (v s)) t) ->
    is_RInt (fun t => directional fn (c t) (X ++ P ++ U) (p_cost_p p) (v t)) t0 tf I ->
    directional fn (c t0) (X ++ P) (p_cost_i p) (v t0) +
    directional fn (c tf) (X ++ P ++ [p_ind p]) (p_cost_t p) df +
    eval fn (c tf) (p_cost_p p) * dtf + I =
    (1 - D) * rsum (map (fun x => (eval fn (c t0) (diff x (p_cost_i p')) + eval fn (c tf) (diff x (p_cost_t p'))) * v t0 x) P).
  Proof.
    intros X P U h Ht D0 DO XP HD HN HL HM HU HB0 HBf HX HP df Hdf HdP Hdt HC0 HCf HC HInt.
    set (S := fun s => rsum (map (fun x => c s (lam x) * v s x) (X ++ P))).
    set (T := fun s => rsum (map (fun x => c s (lam x) * v s x) P)).
    set (L := fun s => directional fn (c s) (X ++ P ++ U) (p_cost_p p) (v s)) in *.
    assert (DA : forall t, t0 <= t <= tf -> is_derive (fun s => S s + (D - 1) * T s) t (- L t)).
    { intros t H. set (e := fun x => if in_dec string_dec x P then (1 - / D) * eval fn (c t) (diff x h) else 0).
      assert (EX : forall x, In x X -> e x = 0) by (intros x Hx; unfold e; destruct (in_dec string_dec x P) as [J|J]; [destruct (XP x Hx J)|reflexivity]).
      assert (EP : forall x, In x P -> e x = (1 - / D) * eval fn (c t) (diff x h)) by (intros x Hx; unfold e; destruct (in_dec string_dec x P); [reflexivity|contradiction]).
      assert (HE : forall x, In x (X ++ P) -> is_derive (fun s => c s (lam x)) t (- eval fn (c t) (diff x h) + e x)).
      { intros x Hx. apply in_app_or in Hx. destruct Hx as [Hx|Hx].
        - rewrite (EX x Hx), Rplus_0_r. now apply HL.
        - assert (Z : - eval fn (c t) (diff x h) + e x = - eval fn (c t) (diff x h) / D) by (rewrite (EP x Hx); field; exact D0). rewrite Z. now apply HM. }
      pose proof (adjoint_defect fn p c v e t HD HE (fun x f => HX t x f H) (fun x => HP t x H)) as G. fold X P U h in G. fold S in G.
      assert (G2 : is_derive T t (rsum (map (fun x => - eval fn (c t) (diff x h) / D * v t x + c t (lam x) * 0) P))).
      { apply (is_derive_rsum (fun x s => c s (lam x) * v s x)). intros x Hin.
        apply (is_derive_mult (fun s => c s (lam x)) (fun s => v s x) t (- eval fn (c t) (diff x h) / D) 0).
        - now apply HM.
        - now apply HP.
        - intros; apply Rmult_comm. }
      pose proof (is_derive_plus (K := R_AbsRing) (V := R_NormedModule) _ _ _ _ _ G (is_derive_scal _ _ (D - 1) _ G2)) as GG.
      match type of GG with is_derive _ _ ?d => assert (Z : d = - L t) end.
      2: { rewrite Z in GG. exact GG. }
      match goal with |- plus ?a (?m ?q ?b) = _ => change (a + (D - 1) * b = - L t) end.
      assert (Z : directional fn (c t) U h (v t) = 0) by (unfold directional; apply rsum_zero; intros u Hu; rewrite (HU t u H Hu); lra).
      rewrite Z. rewrite map_app, rsum_app. rewrite (rsum_zero (fun x => e x * v t x) X) by (intros x Hx; rewrite (EX x Hx); lra).
      rewrite (rsum_ext (fun x => e x * v t x) (fun x => (1 - / D) * (eval fn (c t) (diff x h) * v t x)) P) by (intros x Hx; rewrite (EP x Hx); lra).
      rewrite (rsum_ext (fun x => - eval fn (c t) (diff x h) / D * v t x + c t (lam x) * 0) (fun x => (- / D) * (eval fn (c t) (diff x h) * v t x)) P) by (intros x Hx; unfold Rdiv; lra).
      rewrite !rsum_scal. fold (L t). field. exact D0. }
    assert (IA : is_RInt (fun t => - L t) t0 tf ((S tf + (D - 1) * T tf) - (S t0 + (D - 1) * T t0))).
    { apply (is_RInt_derive (fun s => S s + (D - 1) * T s)).
      - intros x Hx. rewrite Rmin_left, Rmax_right in Hx by lra. now apply DA.
      - intros x Hx. rewrite Rmin_left, Rmax_right in Hx by lra. apply (continuous_opp (V := R_NormedModule) L). now apply HC. }
    pose proof (is_RInt_opp _ _ _ _ HInt) as IO.
    pose proof (is_RInt_unique _ _ _ _ IA) as U1. pose proof (is_RInt_unique _ _ _ _ IO) as U2.
    assert (EI : - I = (S tf + (D - 1) * T tf) - (S t0 + (D - 1) * T t0)) by (rewrite <- U1; symmetry; exact U2).
    set (PI := adjoin (p_cost_i p) (nu_names "_nu_0_" (p_ci p)) (p_ci p)). set (PT := adjoin (p_cost_t p) (nu_names "_nu_f_" (p_ct p)) (p_ct p)).
    assert (L0 : forall x, In x (X ++ P) -> c t0 (lam x) = - eval fn (c t0) (diff x PI)).
    { intros x Hx. assert (B : eval fn (c t0) (Add (Var (lam x)) (diff x (p_cost_i p'))) = 0).
      { apply (HB0 (plain (Add (Var (lam x)) (diff x (p_cost_i p'))))). rewrite (d_ci _ _ _ DO). apply in_or_app. right.
        apply (in_map (fun x => plain (Add (Var (lam x)) (diff x (p_cost_i p'))))). exact Hx. }
      cbn [eval] in B. rewrite (d_cost_i _ _ _ DO) in B. fold PI in B. lra. }
    assert (LF : forall x, In x (X ++ P) -> c tf (lam x) = eval fn (c tf) (diff x PT)).
    { intros x Hx. assert (B : eval fn (c tf) (Sub (Var (lam x)) (diff x (p_cost_t p'))) = 0).
      { apply (HBf (plain (Sub (Var (lam x)) (diff x (p_cost_t p'))))). rewrite (d_ct _ _ _ DO). apply in_or_app. right.
        apply in_or_app. left. apply (in_map (fun x => plain (Sub (Var (lam x)) (diff x (p_cost_t p'))))). exact Hx. }
      unfold Sub in B. cbn [eval] in B. rewrite (d_cost_t _ _ _ DO) in B. fold PT in B. lra. }
    assert (HF : eval fn (c tf) (diff (p_ind p) PT) + eval fn (c tf) h = 0).
    { assert (B : eval fn (c tf) (Add (diff (p_ind p) (p_cost_t p')) h) = 0).
      { apply (HBf (plain (Add (diff (p_ind p) (p_cost_t p')) h))). rewrite (d_ct _ _ _ DO), !in_app_iff. simpl. tauto. }
      cbn [eval] in B. rewrite (d_cost_t _ _ _ DO) in B. exact B. }
    assert (T0 : directional fn (c t0) (X ++ P) (p_cost_i p) (v t0) = - S t0).
    { rewrite <- (adjoin_directional fn (p_cost_i p) (nu_names "_nu_0_" (p_ci p)) (p_ci p)).
      2: { intros y Hy. apply HN. rewrite app_assoc, in_app_iff. left. exact Hy. }
      2: { exact HC0. }
      fold PI. unfold S, directional. rewrite <- rsum_opp. apply rsum_ext. intros x Hx. rewrite (L0 x Hx). ring. }
    assert (TF : directional fn (c tf) (X ++ P ++ [p_ind p]) (p_cost_t p) df = S tf - eval fn (c tf) (p_cost_p p) * dtf).
    { rewrite <- (adjoin_directional fn (p_cost_t p) (nu_names "_nu_f_" (p_ct p)) (p_ct p)).
      2: { intros y Hy. apply HN. exact Hy. }
      2: { exact HCf. }
      fold PT. unfold directional. rewrite app_assoc, map_app, rsum_app.
      rewrite (rsum_ext (fun y => eval fn (c tf) (diff y PT) * df y) (fun y => c tf (lam y) * df y) (X ++ P)) by (intros y Hy; now rewrite (LF y Hy)).
      cbn [map]. unfold rsum at 2. cbn [fold_right]. rewrite Hdt.
      assert (HV : eval fn (c tf) h = eval fn (c tf) (p_cost_p p) +
                   rsum (map (fun s => c tf (lam (fst s)) * eval fn (c tf) (snd s)) (p_states p))) by (apply dual_ham_value).
      assert (SX : rsum (map (fun y => c tf (lam y) * df y) (X ++ P)) =
                   S tf + rsum (map (fun s => c tf (lam (fst s)) * eval fn (c tf) (snd s)) (p_states p)) * dtf).
      { unfold S. rewrite !map_app, !rsum_app. unfold X, syms. rewrite !map_map.
        rewrite (rsum_ext (fun x => c tf (lam x) * df x) (fun x => c tf (lam x) * v tf x) P) by (intros x Hx; now rewrite HdP).
        rewrite (rsum_ext (fun s => c tf (lam (fst s)) * df (fst s))
                          (fun s => c tf (lam (fst s)) * v tf (fst s) + dtf * (c tf (lam (fst s)) * eval fn (c tf) (snd s))) (p_states p)).
        2: { intros [y f] Hy. cbn [fst snd]. rewrite (Hdf y f Hy). ring. }
        rewrite rsum_plus, (rsum_scal (fun s => c tf (lam (fst s)) * eval fn (c tf) (snd s))). ring. }
      rewrite SX. set (S' := rsum (map (fun s => c tf (lam (fst s)) * eval fn (c tf) (snd s)) (p_states p))) in *.
      assert (HPI : eval fn (c tf) (diff (p_ind p) PT) = - (eval fn (c tf) (p_cost_p p) + S')) by lra.
      rewrite HPI. ring. }
    assert (VC : forall x, In x P -> v tf x = v t0 x).
    { intros x Hx. destruct (MVT_gen (fun s => v s x) t0 tf (fun _ => 0)) as (y & _ & E).
      - intros t T'. rewrite Rmin_left, Rmax_right in T' by lra. apply HP; [lra|exact Hx].
      - intros t T'. rewrite Rmin_left, Rmax_right in T' by lra. apply continuity_pt_filterlim.
        apply (ex_derive_continuous (K := R_AbsRing) (V := R_NormedModule) (fun s => v s x) t). exists 0. apply HP; [lra|exact Hx].
      - lra. }
    rewrite (d_cost_i _ _ _ DO), (d_cost_t _ _ _ DO). fold PI PT.
    rewrite (rsum_ext (fun x => (eval fn (c t0) (diff x PI) + eval fn (c tf) (diff x PT)) * v t0 x) (fun x => - (c t0 (lam x) * v t0 x) + c tf (lam x) * v tf x) P).
    2: { intros x Hx. rewrite (VC x Hx), (L0 x), (LF x) by (apply in_or_app; now right). ring. }
    rewrite rsum_plus, rsum_opp. fold (T t0) (T tf). rewrite T0, TF. lra.
  Qed.
End First.

(** Compiled problems with quadratures. *)
Section Quads.
  Variable fn : string -> nat -> R -> R.
  Variable p : prob.
  Variable Y Q : R -> list R.
  Variable pp pc k : list R.
  Hypothesis ND : NoDup (all_names p ++ quads p).
  Hypothesis SOL : solves fn p 0 1 Y Q pp pc k.

  Lemma q_names : NoDup (states p ++ ctl fn p ++ fixed p) /\ (forall x, In x (states p ++ ctl fn p ++ fixed p) -> ~ In x (quads p)) /\ NoDup (quads p).
  Proof.
    destruct (nodup_parts _ _ ND) as (N1 & N2 & D). split; [now apply nodup_ctl|]. split; [|exact N2]. intros x I. apply D. now apply in_all in I.
  Qed.

  (** The value of every symbol at normalised time [s], quadratures included. *)
  Definition qcurve (s : R) : string -> R := Whole_Proofs.over (quads p) (Q s) (curve fn p Y pp pc k s).

  Lemma quad_groups c : concat (bc_groups p c) = states p ++ quads p ++ (if c then p_controls p else []) ++ fixed p.
  Proof.
    unfold bc_groups, with_quads, fixed. destruct (quads p) as [|q l]; cbn [length Nat.ltb Nat.leb app concat]; destruct c; cbn [app concat]; rewrite ?app_nil_r; reflexivity.
  Qed.
  Lemma q_bc s es v : call fn (bc_groups p (is_some (law_control fn p))) es (bc_vals p (Y s) (Q s) (match law_control fn p with Some f => Some (f (Y s) pp k) | None => None end) pp pc k) = Ok v ->
    v = map (eval fn (qcurve s)) es /\ (forall e x, In e es -> In x (vars e) -> In x (states p ++ ctl fn p ++ fixed p) \/ In x (quads p)) /\
    length pp = length (p_params p) /\ length pc = length (p_cpars p) /\ length k = length (p_consts p).
  Proof.
    intros H. destruct q_names as (N1 & DQ & NQ). apply call_inv in H. destruct H as (F & C & ->). rewrite quad_groups in *. apply fits_lengths in F.
    assert (CN : (if is_some (law_control fn p) then p_controls p else []) = ctl fn p) by (unfold ctl; now destruct (law_control fn p)). rewrite CN in *.
    assert (LL : length (Y s) = length (states p) /\ length (Q s) = length (quads p) \/ length (Y s) = length (states p) /\ quads p = []).
    { unfold bc_groups, bc_vals, with_quads in F. destruct (quads p) as [|q l] eqn:EQ; [right|left]; cbn [length Nat.ltb Nat.leb app] in F; inversion F as [|? ? ? ? L1 F1]; subst; [now split|].
      inversion F1 as [|? ? ? ? L2 F2]; subst. now split. }
    assert (RR : length (used fn p Y pp k s) = length (ctl fn p) /\ length pp = length (p_params p) /\ length pc = length (p_cpars p) /\ length k = length (p_consts p)).
    { unfold bc_groups, bc_vals, with_quads, used, ctl in *. destruct (quads p) as [|q l]; destruct (law_control fn p) as [f|]; cbn [length Nat.ltb Nat.leb app is_some] in F;
        repeat match goal with H : Forall2 _ (_ :: _) _ |- _ => inversion H; clear H; subst end; repeat split; congruence. }
    destruct RR as (LU & LP & LC & LK). split; [|split; [|now repeat split]].
    - apply map_ext. intros e. f_equal. apply functional_extensionality. intros x.
      assert (EV : concat (bc_vals p (Y s) (Q s) (match law_control fn p with Some f => Some (f (Y s) pp k) | None => None end) pp pc k) =
                   Y s ++ (if with_quads p then Q s else []) ++ used fn p Y pp k s ++ (pp ++ pc ++ k)).
      { unfold bc_vals, used. destruct (with_quads p), (law_control fn p); cbn [app concat]; rewrite ?app_nil_r; reflexivity. }
      rewrite EV. unfold qcurve, curve. rewrite env_over by tauto.
      destruct LL as [[LY LQ]|[LY EQ]].
      + assert (WQ : (if with_quads p then Q s else []) = Q s).
        { unfold with_quads. destruct (quads p); cbn; [|reflexivity]. destruct (Q s); [reflexivity|discriminate]. }
        rewrite WQ. destruct (in_dec string_dec x (quads p)) as [I|I].
        * rewrite over_out by (intros J; apply (DQ x); [apply in_or_app; now left|exact I]). rewrite env_over by exact LQ.
          unfold Whole_Proofs.over. destruct (index_of_In x _ I) as (j & ->). reflexivity.
        * rewrite (over_out (quads p)) by exact I. apply over_ext. intros _. rewrite env_over by exact LQ. rewrite over_out by exact I.
          rewrite env_over by exact LU. reflexivity.
      + unfold with_quads. rewrite EQ. cbn [length Nat.ltb Nat.leb app]. unfold Whole_Proofs.over at 2. cbn [index_of]. apply over_ext. intros _. rewrite env_over by exact LU. reflexivity.
    - intros e x Ie Ix. specialize (C e x Ie Ix). rewrite !in_app_iff in *. tauto.
  Qed.
  Lemma q_boundary : length pp = length (p_params p) /\ length pc = length (p_cpars p) /\ length k = length (p_consts p) /\
    (forall d, In d (p_ci p) -> eval fn (qcurve 0) (c_expr d) = 0%R) /\ (forall d, In d (p_ct p) -> eval fn (qcurve 1) (c_expr d) = 0%R) /\
    forall d x, In d (p_ci p ++ p_ct p) -> In x (vars (c_expr d)) -> In x (states p ++ ctl fn p ++ fixed p) \/ In x (quads p).
  Proof.
    destruct SOL as [_ (r & B & Z)]. unfold bc_func in B.
    match type of B with bind ?x _ = _ => destruct x as [b0|] eqn:B0; [|discriminate] end. cbn [bind] in B.
    match type of B with bind ?x _ = _ => destruct x as [b1|] eqn:B1; [|discriminate] end. injection B as <-.
    assert (EI : match law_control fn p with Some _ => true | None => false end = is_some (law_control fn p)) by now destruct (law_control fn p).
    rewrite EI in B0, B1. apply (q_bc 0%R) in B0. apply (q_bc 1%R) in B1. destruct B0 as (-> & C0 & L1 & L2 & L3). destruct B1 as (-> & C1 & _).
    rewrite Forall_forall in Z. unfold bc_exprs in *. rewrite !map_map in Z. split; [exact L1|]. split; [exact L2|]. split; [exact L3|]. split; [|split].
    - intros d I. apply (Z (eval fn _ (c_expr d))), in_or_app. left. apply in_map_iff. now exists d.
    - intros d I. apply (Z (eval fn _ (c_expr d))), in_or_app. right. apply in_map_iff. now exists d.
    - intros d x I Ix. apply in_app_or in I. destruct I as [I|I]; [apply (C0 (c_expr d))|apply (C1 (c_expr d))]; auto; now apply in_map.
  Qed.
  Lemma nth_eoms l i x e rho : nth_error l i = Some (x, e) -> nth i (map (eval fn rho) (eoms l)) 0%R = eval fn rho e.
  Proof.
    intros I. rewrite (nth_indep _ 0%R (eval fn rho (Cst 0))) by (rewrite map_length; unfold eoms; rewrite map_length; apply nth_error_Some; congruence). rewrite map_nth. f_equal.
    apply nth_error_nth. unfold eoms. rewrite nth_error_map, I. reflexivity.
  Qed.
  Lemma q_follows s : (0 <= s <= 1)%R ->
    follows fn (curve fn p Y pp pc k) s (p_states p) /\ length (Y s) = length (states p) /\
    (forall i x e, nth_error (p_quads p) i = Some (x, e) -> is_derive (fun r => nth i (Q r) 0%R) s (eval fn (curve fn p Y pp pc k s) e)) /\
    forall e x, In e (eoms (p_states p) ++ eoms (p_quads p)) -> In x (vars e) -> In x (states p ++ ctl fn p ++ p_params p ++ p_consts p).
  Proof.
    intros Hs. destruct SOL as [D _]. destruct q_boundary as (LP & LC & LK & _). destruct q_names as (N1 & _). destruct (D s Hs) as (v & w & V & W & DV & DW).
    unfold deriv_func in V. unfold quad_func in W. apply (curve_dyn fn p Y Q pp pc k N1 s _ _ LP LC) in V, W. destruct V as (-> & LY & C). destruct W as (-> & _ & C'). split; [|split; [exact LY|split]].
    - intros x e I. apply In_nth_error in I. destruct I as (i & I). assert (L : i < length (p_states p)) by (apply nth_error_Some; congruence).
      specialize (DV i L). rewrite (nth_eoms _ _ _ _ _ I) in DV. revert DV. apply is_derive_ext. intros r. symmetry. unfold curve. apply over_nth; [now destruct (nodup_parts _ _ N1)|].
      unfold states, syms. rewrite nth_error_map, I. reflexivity.
    - intros i x e I. assert (L : i < length (p_quads p)) by (apply nth_error_Some; congruence). specialize (DW i L). rewrite (nth_eoms _ _ _ _ _ I) in DW. exact DW.
    - intros e x Ie Ix. apply in_app_or in Ie. destruct Ie as [Ie|Ie]; [exact (C e x Ie Ix)|exact (C' e x Ie Ix)].
  Qed.
End Quads.
