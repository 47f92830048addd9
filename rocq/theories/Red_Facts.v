(** Facts on [simp], and the contracts of the sympy calls of the reduction. *)
From Coq Require Import Reals Lra.
From Coquelicot Require Import Coquelicot.
From Verif Require Import Base Base_Facts Sym_Expr Sym_Facts Sym_Model Sym_Lu Sym_Dual Geo_Model Red_Model.
Open Scope string_scope.
Open Scope list_scope.
Open Scope R_scope.

(** LUsolve on the standard symplectic form returns its solution. *)
Definition lu_std (lu : list (list expr) -> list expr -> res (list expr)) : Prop :=
  forall n b, length b = (2 * n)%nat ->
    lu (std_form n) b = Ok (map Opp (skipn n b) ++ firstn n b).
(** integrate on an integrand without the variable. *)
Definition int_const (integ : expr -> string -> expr) : Prop :=
  forall e v, ~ In v (vars e) -> integ e v = simp (Mul e (Var v)).
(** solve on v - s = 0 for v. *)
Definition solve_var (solve : expr -> list string -> list (string * expr)) : Prop :=
  forall v s, v <> s -> solve (Sub (Var v) (Var s)) [v] = [(v, Var s)].

Lemma sadd_cases a b : (exists x y, a = Cst x /\ b = Cst y /\ sadd a b = Cst (x + y)) \/
  (a = Cst 0 /\ sadd a b = b) \/ (b = Cst 0 /\ sadd a b = a) \/ sadd a b = Add a b.
Proof. destruct a as [[| |]| | | | | | | | | |], b as [[| |]| | | | | | | | | |]; cbn; eauto 12. Qed.
Lemma smul_cases a b : (exists x y, a = Cst x /\ b = Cst y /\ smul a b = Cst (x * y)) \/
  (a = Cst 0 /\ smul a b = Cst 0) \/ (b = Cst 0 /\ smul a b = Cst 0) \/
  (a = Cst 1 /\ smul a b = b) \/ (b = Cst 1 /\ smul a b = a) \/
  (b = Inv a /\ smul a b = Cst 1) \/ smul a b = Mul a b.
Proof.
  assert (G : forall c, b = Inv c -> (if expr_eqb a c then Cst 1 else Mul a b) = smul a b ->
    (b = Inv a /\ smul a b = Cst 1) \/ smul a b = Mul a b).
  { intros c -> E. destruct (expr_eqb a c) eqn:Q; [|right; congruence]. apply expr_eqb_eq in Q. subst c. left. auto. }
  destruct a as [[|p|p]| | | | | | | | | |], b as [[|q|q]| | | | | | | | | |];
    first
      [ left; do 2 eexists; split; [reflexivity|]; split; reflexivity
      | right; left; split; reflexivity
      | do 2 right; left; split; reflexivity
      | do 3 right; left; split; reflexivity
      | do 4 right; left; split; reflexivity
      | do 6 right; reflexivity
      | do 5 right; eapply G; reflexivity
      | destruct p; first
          [ do 2 right; left; split; reflexivity | do 3 right; left; split; reflexivity
          | do 6 right; reflexivity | do 5 right; eapply G; reflexivity ]
      | destruct q; first [ do 4 right; left; split; reflexivity | do 6 right; reflexivity ]
      | destruct p; left; do 2 eexists; (split; [reflexivity|]); split; reflexivity ].
Qed.
Lemma sopp_cases a : (exists x, a = Cst x /\ sopp a = Cst (- x)) \/ (exists b, a = Opp b /\ sopp a = b) \/ sopp a = Opp a.
Proof. destruct a; cbn; eauto. Qed.
Lemma sinv_cases a : (a = Cst 1 /\ sinv a = Cst 1) \/ (a = Cst (-1) /\ sinv a = Cst (-1)) \/ sinv a = Inv a.
Proof. destruct a as [[|[p|p|]|[p|p|]]| | | | | | | | | |]; cbn; auto. Qed.

Lemma simp_ok fn rho e : wd fn rho e -> wd fn rho (simp e) /\ eval fn rho (simp e) = eval fn rho e.
Proof.
  induction e; cbn [simp wd eval]; auto.
  - intros [W1 W2]. destruct (IHe1 W1) as [A1 A2], (IHe2 W2) as [B1 B2].
    destruct (sadd_cases (simp e1) (simp e2)) as [(x & y & Ea & Eb & E)|[(Ea & E)|[(Eb & E)|E]]]; rewrite E; cbn [wd eval].
    + split; auto. rewrite plus_IZR, <- A2, <- B2, Ea, Eb. reflexivity.
    + split; auto. rewrite <- A2, Ea, B2. cbn. lra.
    + split; auto. rewrite <- B2, Eb, A2. cbn. lra.
    + split; auto. now rewrite A2, B2.
  - intros [W1 W2]. destruct (IHe1 W1) as [A1 A2], (IHe2 W2) as [B1 B2].
    destruct (smul_cases (simp e1) (simp e2))
      as [(x & y & Ea & Eb & E)|[(Ea & E)|[(Eb & E)|[(Ea & E)|[(Eb & E)|[(Eb & E)|E]]]]]]; rewrite E; cbn [wd eval].
    + split; auto. rewrite mult_IZR, <- A2, <- B2, Ea, Eb. reflexivity.
    + split; auto. rewrite <- A2, Ea. cbn. lra.
    + split; auto. rewrite <- B2, Eb. cbn. lra.
    + split; auto. rewrite <- A2, Ea, B2. cbn. lra.
    + split; auto. rewrite <- B2, Eb, A2. cbn. lra.
    + split; auto. rewrite <- A2, <- B2, Eb in *. cbn [wd eval] in *. destruct B1 as [_ NZ]. symmetry. apply Rinv_r. exact NZ.
    + split; auto. now rewrite A2, B2.
  - intros W. destruct (IHe W) as [A1 A2].
    destruct (sopp_cases (simp e)) as [(x & Ea & E)|[(b & Ea & E)|E]]; rewrite E; cbn [wd eval].
    + split; auto. rewrite opp_IZR, <- A2, Ea. reflexivity.
    + rewrite Ea in *. cbn [wd eval] in *. split; auto. rewrite <- A2. lra.
    + split; auto. now rewrite A2.
  - intros [W NZ]. destruct (IHe W) as [A1 A2].
    destruct (sinv_cases (simp e)) as [(Ea & E)|[(Ea & E)|E]]; rewrite E; cbn [wd eval].
    + split; auto. rewrite <- A2, Ea. cbn. lra.
    + split; auto. rewrite <- A2, Ea. cbn [eval]. lra.
    + split; [split; auto; now rewrite A2|now rewrite A2].
  - intros W. destruct (IHe W) as [A1 A2]. now rewrite A2.
  - intros W. destruct (IHe W) as [A1 A2]. now rewrite A2.
  - intros W. destruct (IHe W) as [A1 A2]. now rewrite A2.
  - intros W. destruct (IHe W) as [A1 A2]. now rewrite A2.
Qed.

Lemma simp_vars e : incl (vars (simp e)) (vars e).
Proof.
  induction e; cbn [simp vars]; try apply incl_refl; auto.
  - destruct (sadd_cases (simp e1) (simp e2)) as [(x & y & Ea & Eb & E)|[(Ea & E)|[(Eb & E)|E]]]; rewrite E; cbn [vars].
    + intros z [].
    + apply incl_appr; auto.
    + apply incl_appl; auto.
    + apply incl_app; [apply incl_appl|apply incl_appr]; auto.
  - destruct (smul_cases (simp e1) (simp e2))
      as [(x & y & Ea & Eb & E)|[(Ea & E)|[(Eb & E)|[(Ea & E)|[(Eb & E)|[(Eb & E)|E]]]]]]; rewrite E; cbn [vars];
      try (intros z []; fail).
    + apply incl_appr; auto.
    + apply incl_appl; auto.
    + apply incl_app; [apply incl_appl|apply incl_appr]; auto.
  - destruct (sopp_cases (simp e)) as [(x & Ea & E)|[(b & Ea & E)|E]]; rewrite E; cbn [vars]; auto.
    + intros z [].
    + rewrite Ea in IHe. exact IHe.
  - destruct (sinv_cases (simp e)) as [(Ea & E)|[(Ea & E)|E]]; rewrite E; cbn [vars]; auto; intros z [].
Qed.

Lemma smul_0_l b : smul (Cst 0) b = Cst 0.
Proof. destruct b as [[| |]| | | | | | | | | |]; reflexivity. Qed.
Lemma smul_0_r a : smul a (Cst 0) = Cst 0.
Proof. destruct a as [[|[]|[]]| | | | | | | | | |]; reflexivity. Qed.
Lemma simp_diff_fresh x e : ~ In x (vars e) -> simp (diff x e) = Cst 0.
Proof.
  induction e; cbn [diff simp vars]; auto; intros N; rewrite ?in_app_iff in N; try (rewrite IHe by assumption; try rewrite smul_0_l; reflexivity).
  - destruct (String.eqb_spec x x0); [subst; cbn in N; tauto|reflexivity].
  - rewrite IHe1, IHe2 by tauto. reflexivity.
  - rewrite IHe1, IHe2 by tauto. rewrite smul_0_l, smul_0_r. reflexivity.
Qed.
