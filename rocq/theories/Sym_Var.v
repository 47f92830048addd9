(** First variation of the cost along a solution of the derived problem (C65). *)
From Coq Require Import Reals Lra.
From Coquelicot Require Import Coquelicot.
From Verif Require Import Base Base_Facts Sym_Expr Sym_Facts Sym_Model Sym_Lu Sym_Dual Sym_Traj.
Open Scope R_scope.

(** [directional fn rho L e v]: derivative of [e] when the symbols of [L] move
    with the speeds [v] and nothing else does. *)
Definition directional (fn : string -> nat -> R -> R) (rho : string -> R) (L : list string) (e : expr) (v : string -> R) : R :=
  rsum (map (fun y => eval fn rho (diff y e) * v y) L).

Lemma rsum_exchange {A B} (f : A -> B -> R) (l : list A) (m : list B) :
  rsum (map (fun a => rsum (map (fun b => f a b) m)) l) = rsum (map (fun b => rsum (map (fun a => f a b) l)) m).
Proof.
  induction l as [|a l IH].
  - simpl. symmetry. apply (rsum_zero (fun _ : B => rsum [])). reflexivity.
  - cbn [map]. unfold rsum at 1. cbn [fold_right]. fold (rsum (map (fun a => rsum (map (fun b => f a b) m)) l)).
    rewrite IH. rewrite <- rsum_plus. apply rsum_ext. intros b _. reflexivity.
Qed.
Lemma is_derive_rsum {A} (f : A -> R -> R) (df : A -> R) t l :
  (forall a, In a l -> is_derive (f a) t (df a)) ->
  is_derive (fun s => rsum (map (fun a => f a s) l)) t (rsum (map df l)).
Proof.
  induction l as [|a l IH]; intros H.
  - apply (is_derive_const (K := R_AbsRing) (V := R_NormedModule) 0 t).
  - cbn [map]. unfold rsum. cbn [fold_right].
    apply (is_derive_plus (K := R_AbsRing) (V := R_NormedModule) (f a) (fun s => rsum (map (fun a => f a s) l)) t (df a) (rsum (map df l))).
    + apply H. now left.
    + apply IH. intros b Hb. apply H. now right.
Qed.

(** Sum of the absolute values of the speeds [v] of the symbols [L]. *)
Definition asum (v : string -> R) (L : list string) : R := rsum (map (fun y => Rabs (v y)) L).
Lemma asum_app v L M : asum v (L ++ M) = asum v L + asum v M.
Proof.
  unfold asum. induction L as [|x l IH]; cbn [map app].
  - unfold rsum at 2. cbn. ring.
  - unfold rsum in *. cbn [fold_right]. rewrite IH. ring.
Qed.
Lemma asum_ext v w L : (forall y, In y L -> v y = w y) -> asum v L = asum w L.
Proof. intros H. unfold asum. f_equal. apply map_ext_in. intros y J. now rewrite H. Qed.
Lemma asum_pos v L : 0 <= asum v L.
Proof.
  unfold asum, rsum. induction L as [|y L IH]; cbn [map fold_right]; [lra|]. assert (Z := Rabs_pos (v y)). lra.
Qed.
Lemma asum_bound (w v : string -> R) L d : (forall y, In y L -> Rabs (w y) <= d) -> Rabs (rsum (map (fun y => w y * v y) L)) <= d * asum v L.
Proof.
  unfold asum. induction L as [|y L IH]; intros H.
  - simpl. rewrite Rabs_R0. lra.
  - cbn [map]. unfold rsum. cbn [fold_right]. fold (rsum (map (fun y => w y * v y) L)) (rsum (map (fun y => Rabs (v y)) L)).
    rewrite Rmult_plus_distr_l. apply Rle_trans with (1 := Rabs_triang _ _). apply Rplus_le_compat.
    + rewrite Rabs_mult. apply Rmult_le_compat_r; [apply Rabs_pos|]. apply H. now left.
    + apply IH. intros z Hz. apply H. now right.
Qed.
Lemma clamp_continuous a b t : continuity_pt (fun s => Rmax a (Rmin s b)) t.
Proof.
  apply continuity_pt_locally. intros e. exists e. intros s Hs. change (Rabs (s - t) < e) in Hs.
  revert Hs. unfold Rmax, Rmin, Rabs. repeat destruct (Rle_dec _ _); repeat destruct (Rcase_abs _); lra.
Qed.

Section Variation.
  Variable fn : string -> nat -> R -> R.

  Lemma adjoin_diff cost nus cs y rho : ~ In y nus ->
    eval fn rho (diff y (adjoin cost nus cs)) =
    eval fn rho (diff y cost) + rsum (map (fun nc => rho (fst nc) * eval fn rho (diff y (c_expr (snd nc)))) (combine nus cs)).
  Proof.
    intros H. unfold adjoin. rewrite diff_Sum, eval_Sum. f_equal. rewrite !map_map. apply rsum_ext. intros [nu c] Hin. cbn [fst snd].
    cbn [diff eval]. destruct (String.eqb_spec y nu) as [->|]; cbn [eval]; [|lra].
    exfalso. apply H. apply in_combine_l in Hin. exact Hin.
  Qed.

  (** Adding constraints whose linearisation vanishes does not change the
      directional derivative. *)
  Lemma adjoin_directional cost nus cs L v rho : (forall y, In y L -> ~ In y nus) ->
    (forall c, In c cs -> directional fn rho L (c_expr c) v = 0) ->
    directional fn rho L (adjoin cost nus cs) v = directional fn rho L cost v.
  Proof.
    intros HN HC. unfold directional.
    rewrite (rsum_ext _ (fun y => eval fn rho (diff y cost) * v y +
       rsum (map (fun nc => rho (fst nc) * eval fn rho (diff y (c_expr (snd nc))) * v y) (combine nus cs)))).
    - rewrite rsum_plus. rewrite (rsum_exchange (fun y nc => rho (fst nc) * eval fn rho (diff y (c_expr (snd nc))) * v y)).
      rewrite (rsum_zero _ (combine nus cs)); [lra|]. intros [nu c] Hin. cbn [fst snd].
      rewrite (rsum_ext _ (fun y => rho nu * (eval fn rho (diff y (c_expr c)) * v y))) by (intros; lra).
      rewrite rsum_scal. apply in_combine_r in Hin. specialize (HC c Hin). unfold directional in HC. rewrite HC. lra.
    - intros y Hy. rewrite adjoin_diff by (now apply HN). rewrite Rmult_plus_distr_r. f_equal.
      rewrite Rmult_comm, <- rsum_scal. apply rsum_ext. intros; lra.
  Qed.

  (** The adjoint identity at one time, [e] being the error of the costate rates. *)
  Lemma adjoint_defect p (c v : R -> string -> R) (e : string -> R) t :
    let X := syms (p_states p) in let P := p_params p in let U := p_controls p in
    let h := dual_ham p in
    (forall y, In y (X ++ P ++ U) -> ~ In y (map lam X)) ->
    (forall x, In x (X ++ P) -> is_derive (fun s => c s (lam x)) t (- eval fn (c t) (diff x h) + e x)) ->
    (forall x f, In (x, f) (p_states p) -> is_derive (fun s => v s x) t (directional fn (c t) (X ++ P ++ U) f (v t))) ->
    (forall x, In x P -> is_derive (fun s => v s x) t 0) ->
    is_derive (fun s => rsum (map (fun x => c s (lam x) * v s x) (X ++ P))) t
      (directional fn (c t) U h (v t) - directional fn (c t) (X ++ P ++ U) (p_cost_p p) (v t) + rsum (map (fun x => e x * v t x) (X ++ P))).
  Proof.
    intros X P U h HD HL HX HP.
    (* split the sum over states and parameters *)
    assert (D1 : is_derive (fun s => rsum (map (fun xf : string * expr => c s (lam (fst xf)) * v s (fst xf)) (p_states p))) t
       (rsum (map (fun xf => (- eval fn (c t) (diff (fst xf) h) + e (fst xf)) * v t (fst xf) + c t (lam (fst xf)) * directional fn (c t) (X ++ P ++ U) (snd xf) (v t)) (p_states p)))).
    { apply (is_derive_rsum (fun (xf : string * expr) s => c s (lam (fst xf)) * v s (fst xf))). intros [x f] Hin. cbn [fst snd].
      apply (is_derive_mult (fun s => c s (lam x)) (fun s => v s x) t (- eval fn (c t) (diff x h) + e x) (directional fn (c t) (X ++ P ++ U) f (v t))).
      - apply HL. apply in_or_app. left. unfold X, syms. apply (in_map fst) in Hin. exact Hin.
      - apply HX. exact Hin.
      - intros; apply Rmult_comm. }
    assert (D2 : is_derive (fun s => rsum (map (fun x => c s (lam x) * v s x) P)) t
       (rsum (map (fun x => (- eval fn (c t) (diff x h) + e x) * v t x + c t (lam x) * 0) P))).
    { apply (is_derive_rsum (fun x s => c s (lam x) * v s x)). intros x Hin.
      apply (is_derive_mult (fun s => c s (lam x)) (fun s => v s x) t (- eval fn (c t) (diff x h) + e x) 0).
      - apply HL. apply in_or_app. now right.
      - apply HP. exact Hin.
      - intros; apply Rmult_comm. }
    pose proof (is_derive_plus (K := R_AbsRing) (V := R_NormedModule) _ _ _ _ _ D1 D2) as D. clear D1 D2.
    assert (E : forall s, plus (rsum (map (fun xf : string * expr => c s (lam (fst xf)) * v s (fst xf)) (p_states p)))
                               (rsum (map (fun x => c s (lam x) * v s x) P)) =
                          rsum (map (fun x => c s (lam x) * v s x) (X ++ P))).
    { intros s. rewrite map_app, rsum_app. unfold X, syms. rewrite map_map. reflexivity. }
    apply (is_derive_ext _ _ _ _ E) in D. clear E.
    match type of D with is_derive _ _ ?d => assert (V : d = directional fn (c t) U h (v t) - directional fn (c t) (X ++ P ++ U) (p_cost_p p) (v t) + rsum (map (fun x => e x * v t x) (X ++ P))) end.
    2: { rewrite V in D. exact D. }
    change plus with Rplus.
    (* exchange the sums *)
    assert (S1 : rsum (map (fun xf => c t (lam (fst xf)) * directional fn (c t) (X ++ P ++ U) (snd xf) (v t)) (p_states p)) =
                 directional fn (c t) (X ++ P ++ U) h (v t) - directional fn (c t) (X ++ P ++ U) (p_cost_p p) (v t)).
    { assert (Q : forall y, In y (X ++ P ++ U) -> eval fn (c t) (diff y h) - eval fn (c t) (diff y (p_cost_p p)) =
         rsum (map (fun s => c t (lam (fst s)) * eval fn (c t) (diff y (snd s))) (p_states p))).
      { intros y Hy. unfold h. rewrite dual_ham_diff_plain by (now apply HD). lra. }
      unfold directional at 2 3. unfold Rminus. rewrite <- rsum_opp, <- rsum_plus.
      rewrite (rsum_ext (fun y => eval fn (c t) (diff y h) * v t y + - (eval fn (c t) (diff y (p_cost_p p)) * v t y))
                        (fun y => rsum (map (fun s => c t (lam (fst s)) * eval fn (c t) (diff y (snd s)) * v t y) (p_states p)))).
      - rewrite (rsum_exchange (fun y s => c t (lam (fst s)) * eval fn (c t) (diff y (snd s)) * v t y)).
        apply rsum_ext. intros s _. unfold directional. rewrite <- rsum_scal. apply rsum_ext. intros; lra.
      - intros y Hy. specialize (Q y Hy).
        transitivity (v t y * (eval fn (c t) (diff y h) - eval fn (c t) (diff y (p_cost_p p)))); [lra|].
        rewrite Q, <- rsum_scal. apply rsum_ext. intros; lra. }
    rewrite rsum_plus, S1.
    assert (S2 : directional fn (c t) (X ++ P ++ U) h (v t) =
                 rsum (map (fun xf => eval fn (c t) (diff (fst xf) h) * v t (fst xf)) (p_states p)) +
                 rsum (map (fun x => eval fn (c t) (diff x h) * v t x) P) + directional fn (c t) U h (v t)).
    { unfold directional. rewrite !map_app, !rsum_app. unfold X, syms. rewrite map_map. lra. }
    rewrite S2.
    rewrite (rsum_ext (fun x => (- eval fn (c t) (diff x h) + e x) * v t x + c t (lam x) * 0) (fun x => - (eval fn (c t) (diff x h) * v t x) + e x * v t x))
      by (intros; lra).
    rewrite (rsum_ext (fun xf : string * expr => (- eval fn (c t) (diff (fst xf) h) + e (fst xf)) * v t (fst xf)) (fun xf => - (eval fn (c t) (diff (fst xf) h) * v t (fst xf)) + e (fst xf) * v t (fst xf)))
      by (intros; lra).
    assert (SE : rsum (map (fun x => e x * v t x) (X ++ P)) = rsum (map (fun xf : string * expr => e (fst xf) * v t (fst xf)) (p_states p)) + rsum (map (fun x => e x * v t x) P))
      by (rewrite map_app, rsum_app; unfold X, syms; now rewrite map_map).
    rewrite SE, !rsum_plus, !rsum_opp. lra.
  Qed.
  Lemma adjoint_identity p (c v : R -> string -> R) t :
    let X := syms (p_states p) in let P := p_params p in let U := p_controls p in
    let h := dual_ham p in
    (forall y, In y (X ++ P ++ U) -> ~ In y (map lam X)) ->
    (forall x, In x (X ++ P) -> is_derive (fun s => c s (lam x)) t (- eval fn (c t) (diff x h))) ->
    (forall x f, In (x, f) (p_states p) -> is_derive (fun s => v s x) t (directional fn (c t) (X ++ P ++ U) f (v t))) ->
    (forall x, In x P -> is_derive (fun s => v s x) t 0) ->
    is_derive (fun s => rsum (map (fun x => c s (lam x) * v s x) (X ++ P))) t
      (directional fn (c t) U h (v t) - directional fn (c t) (X ++ P ++ U) (p_cost_p p) (v t)).
  Proof.
    intros X P U h HD HL HX HP. pose proof (adjoint_defect p c v (fun _ => 0) t HD) as G. fold X P U h in G.
    rewrite (rsum_zero (fun x => 0 * v t x)), Rplus_0_r in G by (intros; lra). apply G; auto.
    intros x Hx. rewrite Rplus_0_r. now apply HL.
  Qed.

  (** Integrated, with the transversality conditions. *)
  Lemma first_variation p p' (c v : R -> string -> R) t0 tf dtf I :
    let X := syms (p_states p) in let P := p_params p in let U := p_controls p in
    let h := dual_ham p in
    t0 <= tf -> dual_of p p' h ->
    (forall y, In y (X ++ P ++ U) -> ~ In y (map lam X)) ->
    (forall y, In y (X ++ P ++ [p_ind p]) -> ~ In y (nu_names "_nu_0_" (p_ci p)) /\ ~ In y (nu_names "_nu_f_" (p_ct p))) ->
    (* the curve: costates, stationarity, boundary conditions *)
    (forall t x, t0 <= t <= tf -> In x (X ++ P) -> is_derive (fun s => c s (lam x)) t (- eval fn (c t) (diff x h))) ->
    (forall t u, t0 <= t <= tf -> In u U -> eval fn (c t) (diff u h) = 0) ->
    (forall b, In b (p_ci p') -> eval fn (c t0) (c_expr b) = 0) ->
    (forall b, In b (p_ct p') -> eval fn (c tf) (c_expr b) = 0) ->
    (* the variation: linearised dynamics and constraints *)
    (forall t x f, t0 <= t <= tf -> In (x, f) (p_states p) -> is_derive (fun s => v s x) t (directional fn (c t) (X ++ P ++ U) f (v t))) ->
    (forall t x, t0 <= t <= tf -> In x P -> is_derive (fun s => v s x) t 0) ->
    forall df, (* total displacement of the end point *)
    (forall x f, In (x, f) (p_states p) -> df x = v tf x + eval fn (c tf) f * dtf) ->
    (forall x, In x P -> df x = v tf x) -> df (p_ind p) = dtf ->
    (forall b, In b (p_ci p) -> directional fn (c t0) (X ++ P) (c_expr b) (v t0) = 0) ->
    (forall b, In b (p_ct p) -> directional fn (c tf) (X ++ P ++ [p_ind p]) (c_expr b) df = 0) ->
    (forall t, t0 <= t <= tf -> continuous (fun s => directional fn (c s) (X ++ P ++ U) (p_cost_p p) (v s)) t) ->
    is_RInt (fun t => directional fn (c t) (X ++ P ++ U) (p_cost_p p) (v t)) t0 tf I ->
    directional fn (c t0) (X ++ P) (p_cost_i p) (v t0) +
    directional fn (c tf) (X ++ P ++ [p_ind p]) (p_cost_t p) df +
    eval fn (c tf) (p_cost_p p) * dtf + I = 0.
  Proof.
    intros X P U h Ht DO HD HN HL HU HB0 HBf HX HP df Hdf HdP Hdt HC0 HCf HC HInt.
    set (A := fun s => rsum (map (fun x => c s (lam x) * v s x) (X ++ P))).
    assert (DA : forall t, t0 <= t <= tf -> is_derive A t (- directional fn (c t) (X ++ P ++ U) (p_cost_p p) (v t))).
    { intros t H. pose proof (adjoint_identity p c v t HD (fun x => HL t x H) (fun x f => HX t x f H) (fun x => HP t x H)) as G.
      fold X P U h in G. unfold A.
      assert (Z : directional fn (c t) U h (v t) = 0).
      { unfold directional. apply rsum_zero. intros u Hu. rewrite (HU t u H Hu). lra. }
      rewrite Z in G. replace (- directional fn (c t) (X ++ P ++ U) (p_cost_p p) (v t)) with (0 - directional fn (c t) (X ++ P ++ U) (p_cost_p p) (v t)) by lra. exact G. }
    assert (IA : is_RInt (fun t => - directional fn (c t) (X ++ P ++ U) (p_cost_p p) (v t)) t0 tf (A tf - A t0)).
    { apply (is_RInt_derive A). 
      - intros x Hx. rewrite Rmin_left, Rmax_right in Hx by lra. now apply DA.
      - intros x Hx. rewrite Rmin_left, Rmax_right in Hx by lra.
        apply (continuous_opp (V := R_NormedModule) (fun s => directional fn (c s) (X ++ P ++ U) (p_cost_p p) (v s))). now apply HC. }
    pose proof (is_RInt_opp _ _ _ _ HInt) as IO.
    pose proof (is_RInt_unique _ _ _ _ IA) as U1. pose proof (is_RInt_unique _ _ _ _ IO) as U2.
    assert (EI : - I = A tf - A t0).
    { rewrite <- U1. symmetry. exact U2. }
    (* initial conditions *)
    assert (T0 : A t0 = - directional fn (c t0) (X ++ P) (p_cost_i p) (v t0)).
    { rewrite <- (adjoin_directional (p_cost_i p) (nu_names "_nu_0_" (p_ci p)) (p_ci p)).
      2: { intros y Hy. apply HN. rewrite app_assoc, in_app_iff. left. exact Hy. }
      2: { exact HC0. }
      unfold A, directional. rewrite <- rsum_opp. apply rsum_ext. intros x Hx.
      assert (B : eval fn (c t0) (Add (Var (lam x)) (diff x (p_cost_i p'))) = 0).
      { apply (HB0 (plain (Add (Var (lam x)) (diff x (p_cost_i p'))))). rewrite (d_ci _ _ _ DO). apply in_or_app. right.
        apply (in_map (fun x => plain (Add (Var (lam x)) (diff x (p_cost_i p'))))). exact Hx. }
      cbn [eval] in B. rewrite (d_cost_i _ _ _ DO) in B. 
      replace (c t0 (lam x)) with (- eval fn (c t0) (diff x (adjoin (p_cost_i p) (nu_names "_nu_0_" (p_ci p)) (p_ci p)))) by lra. lra. }
    (* terminal conditions *)
    set (PT := adjoin (p_cost_t p) (nu_names "_nu_f_" (p_ct p)) (p_ct p)).
    assert (LF : forall x, In x (X ++ P) -> c tf (lam x) = eval fn (c tf) (diff x PT)).
    { intros x Hx.
      assert (B : eval fn (c tf) (Sub (Var (lam x)) (diff x (p_cost_t p'))) = 0).
      { apply (HBf (plain (Sub (Var (lam x)) (diff x (p_cost_t p'))))). rewrite (d_ct _ _ _ DO). apply in_or_app. right.
        apply in_or_app. left. apply (in_map (fun x => plain (Sub (Var (lam x)) (diff x (p_cost_t p'))))). exact Hx. }
      unfold Sub in B. cbn [eval] in B. rewrite (d_cost_t _ _ _ DO) in B. fold PT in B. lra. }
    assert (HF : eval fn (c tf) (diff (p_ind p) PT) + eval fn (c tf) h = 0).
    { assert (B : eval fn (c tf) (Add (diff (p_ind p) (p_cost_t p')) h) = 0).
      { apply (HBf (plain (Add (diff (p_ind p) (p_cost_t p')) h))). rewrite (d_ct _ _ _ DO), !in_app_iff. simpl. tauto. }
      cbn [eval] in B. rewrite (d_cost_t _ _ _ DO) in B. exact B. }
    assert (TF : directional fn (c tf) (X ++ P ++ [p_ind p]) (p_cost_t p) df = A tf - eval fn (c tf) (p_cost_p p) * dtf).
    { rewrite <- (adjoin_directional (p_cost_t p) (nu_names "_nu_f_" (p_ct p)) (p_ct p)).
      2: { intros y Hy. apply HN. exact Hy. }
      2: { exact HCf. }
      fold PT. unfold directional. rewrite app_assoc, map_app, rsum_app.
      rewrite (rsum_ext (fun y => eval fn (c tf) (diff y PT) * df y) (fun y => c tf (lam y) * df y) (X ++ P)).
      2: { intros y Hy. now rewrite (LF y Hy). }
      cbn [map]. unfold rsum at 2. cbn [fold_right]. rewrite Hdt.
      assert (HV : eval fn (c tf) h = eval fn (c tf) (p_cost_p p) +
                   rsum (map (fun s => c tf (lam (fst s)) * eval fn (c tf) (snd s)) (p_states p))) by (apply dual_ham_value).
      assert (SX : rsum (map (fun y => c tf (lam y) * df y) (X ++ P)) =
                   A tf + rsum (map (fun s => c tf (lam (fst s)) * eval fn (c tf) (snd s)) (p_states p)) * dtf).
      { unfold A. rewrite !map_app, !rsum_app. unfold X, syms. rewrite !map_map.
        rewrite (rsum_ext (fun x => c tf (lam x) * df x) (fun x => c tf (lam x) * v tf x) P) by (intros x Hx; now rewrite HdP).
        rewrite (rsum_ext (fun s => c tf (lam (fst s)) * df (fst s))
                   (fun s => c tf (lam (fst s)) * v tf (fst s) + dtf * (c tf (lam (fst s)) * eval fn (c tf) (snd s))) (p_states p)).
        2: { intros [x f] Hx. cbn [fst snd]. rewrite (Hdf x f Hx). lra. }
        rewrite rsum_plus, rsum_scal. lra. }
      rewrite SX. 
      replace (eval fn (c tf) (diff (p_ind p) PT)) with (- eval fn (c tf) h) by lra. rewrite HV. lra. }
    rewrite TF. lra.
  Qed.
  (** The same for a curve that satisfies the costate equations up to [delta],
      stationarity up to [eta] and the boundary conditions up to [eps]. *)
  Lemma first_variation_near p p' (c v : R -> string -> R) t0 tf dtf I delta eta eps N :
    let X := syms (p_states p) in let P := p_params p in let U := p_controls p in
    let h := dual_ham p in
    t0 <= tf -> dual_of p p' h ->
    (forall y, In y (X ++ P ++ U) -> ~ In y (map lam X)) ->
    (forall y, In y (X ++ P ++ [p_ind p]) -> ~ In y (nu_names "_nu_0_" (p_ci p)) /\ ~ In y (nu_names "_nu_f_" (p_ct p))) ->
    (forall t x, t0 <= t <= tf -> In x (X ++ P) -> exists l, is_derive (fun s => c s (lam x)) t l /\ Rabs (l + eval fn (c t) (diff x h)) <= delta) ->
    (forall t u, t0 <= t <= tf -> In u U -> Rabs (eval fn (c t) (diff u h)) <= eta) ->
    (forall b, In b (p_ci p') -> Rabs (eval fn (c t0) (c_expr b)) <= eps) ->
    (forall b, In b (p_ct p') -> Rabs (eval fn (c tf) (c_expr b)) <= eps) ->
    (forall t x f, t0 <= t <= tf -> In (x, f) (p_states p) -> is_derive (fun s => v s x) t (directional fn (c t) (X ++ P ++ U) f (v t))) ->
    (forall t x, t0 <= t <= tf -> In x P -> is_derive (fun s => v s x) t 0) ->
    forall df,
    (forall x f, In (x, f) (p_states p) -> df x = v tf x + eval fn (c tf) f * dtf) ->
    (forall x, In x P -> df x = v tf x) -> df (p_ind p) = dtf ->
    (forall b, In b (p_ci p) -> directional fn (c t0) (X ++ P) (c_expr b) (v t0) = 0) ->
    (forall b, In b (p_ct p) -> directional fn (c tf) (X ++ P ++ [p_ind p]) (c_expr b) df = 0) ->
    (forall t, t0 <= t <= tf -> continuous (fun s => directional fn (c s) (X ++ P ++ U) (p_cost_p p) (v s)) t) ->
    is_RInt (fun t => directional fn (c t) (X ++ P ++ U) (p_cost_p p) (v t)) t0 tf I ->
    (forall t, t0 <= t <= tf -> delta * asum (v t) (X ++ P) + eta * asum (v t) U <= N) ->
    Rabs (directional fn (c t0) (X ++ P) (p_cost_i p) (v t0) +
    directional fn (c tf) (X ++ P ++ [p_ind p]) (p_cost_t p) df +
    eval fn (c tf) (p_cost_p p) * dtf + I) <= eps * (asum (v t0) (X ++ P) + asum df (X ++ P) + Rabs dtf) + N * (tf - t0).
  Proof.
    intros X P U h Ht DO HD HN HL HU HB0 HBf HX HP df Hdf HdP Hdt HC0 HCf HC HInt HNN.
    set (L := fun s => directional fn (c s) (X ++ P ++ U) (p_cost_p p) (v s)) in *.
    set (A := fun s => rsum (map (fun x => c s (lam x) * v s x) (X ++ P))).
    assert (DA : forall t, t0 <= t <= tf -> exists g, is_derive A t (g - L t) /\ Rabs g <= N).
    { intros t H. set (e := fun x => Derive (fun s => c s (lam x)) t + eval fn (c t) (diff x h)).
      assert (HE : forall x, In x (X ++ P) -> is_derive (fun s => c s (lam x)) t (- eval fn (c t) (diff x h) + e x) /\ Rabs (e x) <= delta).
      { intros x Hx. destruct (HL t x H Hx) as (l & D & B). assert (ED : e x = l + eval fn (c t) (diff x h)) by (unfold e; f_equal; exact (is_derive_unique _ _ _ D)). rewrite ED. split; [|exact B].
        assert (Z : forall a b : R, - a + (b + a) = b) by (intros; lra). rewrite Z. exact D. }
      pose proof (adjoint_defect p c v e t HD (fun x Hx => proj1 (HE x Hx)) (fun x f => HX t x f H) (fun x => HP t x H)) as G.
      fold X P U h in G. exists (directional fn (c t) U h (v t) + rsum (map (fun x => e x * v t x) (X ++ P))). split.
      - unfold A, L. match type of G with is_derive _ _ ?d => match goal with |- is_derive _ _ ?d' => replace d' with d by ring end end. exact G.
      - apply Rle_trans with (2 := HNN t H). apply Rle_trans with (1 := Rabs_triang _ _). rewrite Rplus_comm. apply Rplus_le_compat.
        + apply asum_bound. intros x Hx. apply (HE x Hx).
        + unfold directional. apply (asum_bound (fun u => eval fn (c t) (diff u h))). intros u Hu. now apply HU. }
    (* the cost accumulated so far, continued beyond the ends *)
    set (cl := fun t => Rmax t0 (Rmin t tf)).
    assert (CL : forall t, t0 <= cl t <= tf).
    { intros t. unfold cl. split; [apply Rmax_l|]. apply Rmax_lub; [lra|apply Rmin_r]. }
    assert (CI : forall t, t0 <= t <= tf -> cl t = t) by (intros t T; unfold cl; rewrite Rmin_left, Rmax_right; lra).
    assert (CC : forall t, continuous (fun s => L (cl s)) t).
    { intros t. apply (continuous_comp cl L); [|now apply HC].
      apply continuity_pt_filterlim. apply clamp_continuous. }
    set (B := fun t => RInt (fun s => L (cl s)) t0 t).
    assert (DB : forall t, is_derive B t (L (cl t))).
    { intros t. apply (is_derive_RInt (fun s => L (cl s)) B t0).
      - exists (mkposreal 1 Rlt_0_1). intros s _. apply (RInt_correct (fun s => L (cl s))), (ex_RInt_continuous (V := R_CompleteNormedModule)). intros z _. apply CC.
      - apply CC. }
    assert (BI : B tf - B t0 = I).
    { assert (Z : B t0 = 0) by (unfold B; rewrite RInt_point; reflexivity). rewrite Z, Rminus_0_r. unfold B. apply is_RInt_unique.
      apply (is_RInt_ext L); [|exact HInt]. intros s Hs. rewrite Rmin_left, Rmax_right in Hs by lra. rewrite CI by lra. reflexivity. }
    assert (VB : Rabs ((A tf + B tf) - (A t0 + B t0)) <= N * Rabs (tf - t0)).
    { assert (K : forall t, t0 <= t <= tf -> exists g, is_derive (fun t => A t + B t) t g /\ Rabs g <= N).
      { intros t T. destruct (DA t T) as (g & D & G). exists g. split; [|exact G].
        pose proof (is_derive_plus (K := R_AbsRing) (V := R_NormedModule) A B t _ _ D (DB t)) as K. rewrite (CI t T) in K.
        match type of K with is_derive _ _ ?d => assert (Z : d = g) by (unfold plus; cbn; lra) end. rewrite Z in K. exact K. }
      assert (KD : forall t, t0 <= t <= tf -> is_derive (fun t => A t + B t) t (Derive (fun t => A t + B t) t) /\ Rabs (Derive (fun t => A t + B t) t) <= N).
      { intros t T. destruct (K t T) as (g & D & G). assert (E : Derive (fun t => A t + B t) t = g) by exact (is_derive_unique _ _ _ D). rewrite E. now split. }
      destruct (MVT_gen (fun t => A t + B t) t0 tf (Derive (fun t => A t + B t))) as (x & Hx & E).
      - intros t T. rewrite Rmin_left, Rmax_right in T by lra. apply KD. lra.
      - intros t T. rewrite Rmin_left, Rmax_right in T by lra. destruct (K t T) as (g & D & _). apply continuity_pt_filterlim.
        apply (ex_derive_continuous (K := R_AbsRing) (V := R_NormedModule) (fun t => A t + B t) t). now exists g.
      - rewrite Rmin_left, Rmax_right in Hx by lra. rewrite E, Rabs_mult. apply Rmult_le_compat_r; [apply Rabs_pos|]. now apply KD. }
    rewrite (Rabs_right (tf - t0)) in VB by lra.
    (* initial conditions *)
    set (b0 := fun x => c t0 (lam x) + eval fn (c t0) (diff x (adjoin (p_cost_i p) (nu_names "_nu_0_" (p_ci p)) (p_ci p)))).
    assert (E0 : forall x, In x (X ++ P) -> Rabs (b0 x) <= eps).
    { intros x Hx. assert (B1 : Rabs (eval fn (c t0) (Add (Var (lam x)) (diff x (p_cost_i p')))) <= eps).
      { apply (HB0 (plain (Add (Var (lam x)) (diff x (p_cost_i p'))))). rewrite (d_ci _ _ _ DO). apply in_or_app. right.
        apply (in_map (fun x => plain (Add (Var (lam x)) (diff x (p_cost_i p'))))). exact Hx. }
      cbn [eval] in B1. rewrite (d_cost_i _ _ _ DO) in B1. exact B1. }
    assert (T0 : directional fn (c t0) (X ++ P) (p_cost_i p) (v t0) = rsum (map (fun x => b0 x * v t0 x) (X ++ P)) - A t0).
    { rewrite <- (adjoin_directional (p_cost_i p) (nu_names "_nu_0_" (p_ci p)) (p_ci p)).
      2: { intros y Hy. apply HN. rewrite app_assoc, in_app_iff. left. exact Hy. }
      2: { exact HC0. }
      unfold A, directional. unfold Rminus. rewrite <- rsum_opp, <- rsum_plus. apply rsum_ext. intros x Hx. unfold b0. ring. }
    (* terminal conditions *)
    set (PT := adjoin (p_cost_t p) (nu_names "_nu_f_" (p_ct p)) (p_ct p)).
    set (bf := fun x => c tf (lam x) - eval fn (c tf) (diff x PT)).
    assert (EF : forall x, In x (X ++ P) -> Rabs (bf x) <= eps).
    { intros x Hx.
      assert (B1 : Rabs (eval fn (c tf) (Sub (Var (lam x)) (diff x (p_cost_t p')))) <= eps).
      { apply (HBf (plain (Sub (Var (lam x)) (diff x (p_cost_t p'))))). rewrite (d_ct _ _ _ DO). apply in_or_app. right.
        apply in_or_app. left. apply (in_map (fun x => plain (Sub (Var (lam x)) (diff x (p_cost_t p'))))). exact Hx. }
      unfold Sub in B1. cbn [eval] in B1. rewrite (d_cost_t _ _ _ DO) in B1. fold PT in B1. unfold bf.
      match type of B1 with Rabs ?a <= _ => replace (c tf (lam x) - eval fn (c tf) (diff x PT)) with a by ring end. exact B1. }
    set (z := eval fn (c tf) (diff (p_ind p) PT) + eval fn (c tf) h).
    assert (HF : Rabs z <= eps).
    { assert (B1 : Rabs (eval fn (c tf) (Add (diff (p_ind p) (p_cost_t p')) h)) <= eps).
      { apply (HBf (plain (Add (diff (p_ind p) (p_cost_t p')) h))). rewrite (d_ct _ _ _ DO), !in_app_iff. simpl. tauto. }
      cbn [eval] in B1. rewrite (d_cost_t _ _ _ DO) in B1. exact B1. }
    assert (TF : directional fn (c tf) (X ++ P ++ [p_ind p]) (p_cost_t p) df = A tf - eval fn (c tf) (p_cost_p p) * dtf - rsum (map (fun x => bf x * df x) (X ++ P)) + z * dtf).
    { rewrite <- (adjoin_directional (p_cost_t p) (nu_names "_nu_f_" (p_ct p)) (p_ct p)).
      2: { intros y Hy. apply HN. exact Hy. }
      2: { exact HCf. }
      fold PT. unfold directional. rewrite app_assoc, map_app, rsum_app.
      rewrite (rsum_ext (fun y => eval fn (c tf) (diff y PT) * df y) (fun y => c tf (lam y) * df y + - (bf y * df y)) (X ++ P)).
      2: { intros y Hy. unfold bf. ring. }
      rewrite rsum_plus, rsum_opp. cbn [map]. unfold rsum at 3. cbn [fold_right]. rewrite Hdt.
      assert (HV : eval fn (c tf) h = eval fn (c tf) (p_cost_p p) +
                   rsum (map (fun s => c tf (lam (fst s)) * eval fn (c tf) (snd s)) (p_states p))) by (apply dual_ham_value).
      assert (SX : rsum (map (fun y => c tf (lam y) * df y) (X ++ P)) =
                   A tf + rsum (map (fun s => c tf (lam (fst s)) * eval fn (c tf) (snd s)) (p_states p)) * dtf).
      { unfold A. rewrite !map_app, !rsum_app. unfold X, syms. rewrite !map_map.
        rewrite (rsum_ext (fun x => c tf (lam x) * df x) (fun x => c tf (lam x) * v tf x) P) by (intros x Hx; now rewrite HdP).
        rewrite (rsum_ext (fun s => c tf (lam (fst s)) * df (fst s))
                   (fun s => c tf (lam (fst s)) * v tf (fst s) + dtf * (c tf (lam (fst s)) * eval fn (c tf) (snd s))) (p_states p)).
        2: { intros [x f] Hx. cbn [fst snd]. rewrite (Hdf x f Hx). lra. }
        rewrite rsum_plus, rsum_scal. lra. }
      rewrite SX. 
      replace (eval fn (c tf) (diff (p_ind p) PT)) with (z - eval fn (c tf) h) by (unfold z; ring). rewrite HV. ring. }
    rewrite TF, T0.
    assert (S0 := asum_bound b0 (v t0) (X ++ P) eps E0). assert (SF := asum_bound bf df (X ++ P) eps EF).
    assert (SZ : Rabs (z * dtf) <= eps * Rabs dtf) by (rewrite Rabs_mult; apply Rmult_le_compat_r; [apply Rabs_pos|exact HF]).
    set (r0 := rsum (map (fun x => b0 x * v t0 x) (X ++ P))) in *. set (rf := rsum (map (fun x => bf x * df x) (X ++ P))) in *.
    clearbody r0 rf. set (g := A tf + B tf - (A t0 + B t0)) in *. 
    assert (EG : r0 - A t0 + (A tf - eval fn (c tf) (p_cost_p p) * dtf - rf + z * dtf) + eval fn (c tf) (p_cost_p p) * dtf + I = r0 + - rf + z * dtf + g)
      by (unfold g; rewrite <- BI; ring).
    rewrite EG. apply Rle_trans with (1 := Rabs_triang _ _). apply Rplus_le_compat; [|exact VB].
    rewrite !Rmult_plus_distr_l.
    apply Rle_trans with (1 := Rabs_triang _ _). apply Rplus_le_compat; [|exact SZ].
    apply Rle_trans with (1 := Rabs_triang _ _). apply Rplus_le_compat; [exact S0|]. rewrite Rabs_Ropp. exact SF.
  Qed.
End Variation.
