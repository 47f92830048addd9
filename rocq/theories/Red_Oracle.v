(** Instances of the sympy calls with the contracts of Red_Facts.v, used in the
    examples and counterexamples: LUsolve, integrate on polynomials, solve on
    equations linear in an unknown. *)
From Coq Require Import Reals Lra.
From Verif Require Import Base Base_Facts Sym_Expr Sym_Facts Sym_Model Sym_Lu Sym_Dual Geo_Model Red_Model Red_Facts.
Open Scope string_scope.
Open Scope list_scope.
Open Scope nat_scope.

Fixpoint rows_eqb (a b : list (list expr)) : bool :=
  match a, b with
  | [], [] => true
  | x :: a', y :: b' =>
      Nat.eqb (length x) (length y) && forallb (fun xy => expr_eqb (fst xy) (snd xy)) (combine x y) && rows_eqb a' b'
  | _, _ => false
  end.
Definition lu_red (A : list (list expr)) (b : list expr) : res (list expr) :=
  let n := Nat.div2 (length b) in
  if Nat.even (length b) && rows_eqb A (std_form n) then Ok (map Opp (skipn n b) ++ firstn n b) else lu_gauss A b.

Lemma rows_eqb_eq a : forall b, rows_eqb a b = true -> a = b.
Proof.
  induction a as [|x a IH]; intros [|y b] H; try discriminate; [reflexivity|]. cbn in H.
  apply andb_true_iff in H. destruct H as [H H3]. apply andb_true_iff in H. destruct H as [H1 H2].
  apply Nat.eqb_eq in H1. f_equal; [|now apply IH]. clear - H1 H2. revert y H1 H2.
  induction x as [|u x IH]; intros [|v y] L F; try discriminate; [reflexivity|]. cbn in F. apply andb_true_iff in F.
  destruct F as [F1 F2]. apply expr_eqb_eq in F1. cbn in F1, L. subst v. f_equal. apply IH; [lia|exact F2].
Qed.
Lemma rows_eqb_refl a : rows_eqb a a = true.
Proof.
  induction a as [|x a IH]; [reflexivity|]. cbn. rewrite Nat.eqb_refl, IH. rewrite andb_true_r. cbn.
  induction x as [|u x IHx]; [reflexivity|]. cbn. rewrite IHx. rewrite (proj2 (expr_eqb_eq u u) eq_refl). reflexivity.
Qed.
Lemma lu_red_std : lu_std lu_red.
Proof.
  intros n b H. unfold lu_red. rewrite H. replace (Nat.even (2 * n)) with true by (symmetry; apply Nat.even_spec; now exists n).
  rewrite Nat.div2_double, rows_eqb_refl. reflexivity.
Qed.
Lemma lu_red_ok : lu_ok lu_red.
Proof.
  intros A b x HA HF H. unfold lu_red in H. destruct (Nat.even (length b) && _)%bool eqn:Q; [|now apply lu_gauss_ok].
  apply andb_true_iff in Q. destruct Q as [Q1 Q2]. apply Nat.even_spec in Q1. destruct Q1 as [n Hn].
  assert (Hn' : length b = 2 * n) by lia. rewrite Hn', Nat.div2_double in *. apply rows_eqb_eq in Q2. subst A.
  apply Ok_inj in H. subst x. split.
  { rewrite app_length, map_length, skipn_length, firstn_length. lia. }
  intros fn rho _.
  set (x := map Opp (skipn n b) ++ firstn n b).
  assert (Lx : length x = 2 * n) by (unfold x; rewrite app_length, map_length, skipn_length, firstn_length; lia).
  assert (G : forall (A : list (list expr)) (c : list expr), length A = length c ->
    (forall i, i < length A -> rdot (map (eval fn rho) (nth i A [])) (map (eval fn rho) x) = eval fn rho (nth i c (Cst 0))) ->
    Forall2 (fun row bi => rdot (map (eval fn rho) row) (map (eval fn rho) x) = eval fn rho bi) A c).
  { induction A as [|r A IH]; intros [|u c] L V; try discriminate; constructor.
    - apply (V 0). cbn. lia.
    - apply IH; [cbn in L; lia|]. intros i Hi. apply (V (S i)). cbn. lia. }
  apply G; [rewrite std_form_length; lia|]. intros i Hi. rewrite std_form_length in Hi.
  rewrite std_form_dot by (rewrite ?map_length; lia).
  assert (NX : forall k, nth k (map (eval fn rho) x) 0%R = eval fn rho (nth k x (Cst 0))).
  { intros k. rewrite <- (map_nth (eval fn rho)). reflexivity. }
  rewrite !NX. unfold x. destruct (Nat.ltb_spec i n).
  - rewrite app_nth2 by (rewrite map_length, skipn_length; lia). rewrite map_length, skipn_length.
    replace (i + n - (length b - n)) with i by lia. rewrite <- (firstn_skipn n b) at 2. rewrite app_nth1 by (rewrite firstn_length; lia). reflexivity.
  - rewrite app_nth1 by (rewrite map_length, skipn_length; lia).
    rewrite (nth_indep _ (Cst 0) (Opp (Cst 0))) by (rewrite map_length, skipn_length; lia).
    rewrite (map_nth Opp), nth_skipn'. cbn [eval]. replace (n + (i - n)) with i by lia. lra.
Qed.

(** Coefficients of a polynomial in [v], lowest first. *)
Fixpoint padd (a b : list expr) : list expr :=
  match a, b with
  | x :: a', y :: b' => Add x y :: padd a' b'
  | [], _ => b
  | _, [] => a
  end.
Fixpoint pmul (a b : list expr) : list expr :=
  match a with
  | [] => []
  | x :: a' => padd (map (Mul x) b) (Cst 0 :: pmul a' b)
  end.
Fixpoint poly (v : string) (e : expr) : option (list expr) :=
  if negb (mem v (vars e)) then Some [e]
  else match e with
       | Var _ => Some [Cst 0; Cst 1]
       | Add a b => match poly v a, poly v b with Some x, Some y => Some (padd x y) | _, _ => None end
       | Mul a b => match poly v a, poly v b with Some x, Some y => Some (pmul x y) | _, _ => None end
       | Opp a => option_map (map Opp) (poly v a)
       | _ => None
       end.
Fixpoint power (v : string) (k : nat) : expr :=
  match k with O => Cst 1 | S O => Var v | S k' => Mul (power v k') (Var v) end.
(** integrate; a result sympy leaves unevaluated is an application of "Integral". *)
Definition integ_poly (e : expr) (v : string) : expr :=
  if negb (mem v (vars e)) then simp (Mul e (Var v))
  else match poly v e with
       | Some cs => simp (Sum (Cst 0) (map (fun kc => Mul (Div (snd kc) (Cst (Z.of_nat (S (fst kc))))) (power v (S (fst kc))))
                                           (combine (seq 0 (length cs)) cs)))
       | None => App "Integral" 0 e
       end.
(** solve for the first unknown in which the equation is linear. *)
Fixpoint solve_lin (e : expr) (xs : list string) : list (string * expr) :=
  match xs with
  | [] => []
  | x :: xs' =>
      match poly x e with
      | Some [c0; c1] => [(x, simp (Div (Opp c0) c1))]
      | _ => solve_lin e xs'
      end
  end.
Lemma integ_poly_const : int_const integ_poly.
Proof.
  intros e v H. unfold integ_poly. destruct (mem v (vars e)) eqn:Q; [|reflexivity]. apply mem_In in Q. contradiction.
Qed.
Lemma solve_lin_var : solve_var solve_lin.
Proof.
  intros v s H. unfold Sub. cbn. rewrite String.eqb_refl. cbn. rewrite (proj2 (String.eqb_neq v s) H). reflexivity.
Qed.
