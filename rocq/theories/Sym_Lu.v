(** What the code relies on when it calls sympy's [Matrix.LUsolve], and a
    verified solver with that contract: Gaussian elimination with the first
    row whose leading entry is not the literal zero as pivot row (sympy's
    LUsolve does the same with its zero test). *)
From Coq Require Import Reals Lra.
From Verif Require Import Base Base_Facts Sym_Expr Sym_Facts.
Open Scope nat_scope.

Definition rdot (a b : list R) : R := rsum (map (fun xy => fst xy * snd xy)%R (combine a b)).

(** If a solution is returned for a square system, it solves the system wherever
    no divisor in it vanishes. *)
Definition lu_ok (lu : list (list expr) -> list expr -> res (list expr)) : Prop :=
  forall A b x, length A = length b -> Forall (fun row => length row = length b) A -> lu A b = Ok x ->
    length x = length b /\
    forall fn rho, Forall (wd fn rho) x ->
      Forall2 (fun row bi => rdot (map (eval fn rho) row) (map (eval fn rho) x) = eval fn rho bi) A b.

Definition is_zero (e : expr) : bool := match e with Cst 0 => true | _ => false end.
Fixpoint pick (rows : list (list expr * expr)) : option (list expr * expr * list (list expr * expr)) :=
  match rows with
  | [] => None
  | row :: rows' =>
      match fst row with
      | [] => None
      | a :: _ =>
          if is_zero a then
            match pick rows' with None => None | Some (r, l) => Some (r, row :: l) end
          else Some (row, rows')
      end
  end.
(** x - m * y *)
Definition sub_mul (x m y : expr) : expr := if is_zero y then x else Sub x (Mul m y).
Definition eliminate (a : expr) (r : list expr) (b : expr) (row : list expr * expr) : list expr * expr :=
  match fst row with
  | [] => ([], snd row)
  | a' :: r' =>
      if is_zero a' then (r', snd row)
      else (map (fun xy => sub_mul (fst xy) (Div a' a) (snd xy)) (combine r' r), Sub (snd row) (Mul (Div a' a) b))
  end.
Fixpoint gauss (n : nat) (rows : list (list expr * expr)) : res (list expr) :=
  match n with
  | O => match rows with [] => Ok [] | _ => Raise ValueError end
  | S n' =>
      match pick rows with
      | None => Raise ValueError
      | Some ((row, b), others) =>
          match row with
          | [] => Raise ValueError
          | a :: r =>
              xs <- gauss n' (map (eliminate a r b) others) ;
              Ok (Div (Sub b (Sum (Cst 0) (map (fun xy => Mul (fst xy) (snd xy)) (combine r xs)))) a :: xs)
          end
      end
  end.
Definition lu_gauss (A : list (list expr)) (b : list expr) : res (list expr) :=
  gauss (length b) (combine A b).

Lemma pick_spec rows row others : pick rows = Some (row, others) ->
  forall P : list expr * expr -> Prop, (P row /\ Forall P others) <-> Forall P rows.
Proof.
  revert row others. induction rows as [|r rows IH]; cbn [pick]; intros row others H P; [discriminate|].
  destruct (fst r) as [|a r']; [discriminate|]. destruct (is_zero a).
  - destruct (pick rows) as [[r1 l]|] eqn:E; [|discriminate].
    assert (row = r1) as -> by congruence. assert (others = r :: l) as -> by congruence.
    rewrite !Forall_cons_iff, <- (IH _ _ eq_refl P). tauto.
  - assert (row = r) as -> by congruence. assert (others = rows) as -> by congruence.
    rewrite Forall_cons_iff. tauto.
Qed.
Lemma pick_length rows row others : pick rows = Some (row, others) -> length rows = S (length others).
Proof.
  revert row others. induction rows as [|r rows IH]; cbn [pick]; intros row others H; [discriminate|].
  destruct (fst r) as [|a r']; [discriminate|]. destruct (is_zero a).
  - destruct (pick rows) as [[r1 l]|] eqn:E; [|discriminate].
    assert (others = r :: l) as -> by congruence. simpl. now rewrite (IH _ _ eq_refl).
  - assert (others = rows) as -> by congruence. reflexivity.
Qed.

Lemma is_zero_eval fn rho e : is_zero e = true -> eval fn rho e = 0%R.
Proof. destruct e; try discriminate. destruct z; try discriminate. reflexivity. Qed.

Lemma sub_mul_eval fn rho x m y : eval fn rho (sub_mul x m y) = (eval fn rho x - eval fn rho m * eval fn rho y)%R.
Proof.
  unfold sub_mul. destruct (is_zero y) eqn:E; simpl; [|lra].
  rewrite (is_zero_eval _ _ _ E). lra.
Qed.

Lemma rdot_cons a l b m : rdot (a :: l) (b :: m) = (a * b + rdot l m)%R.
Proof. reflexivity. Qed.

Lemma rdot_sub_mul fn rho m r' r xs : length r' = length r ->
  rdot (map (eval fn rho) (map (fun xy => sub_mul (fst xy) m (snd xy)) (combine r' r))) xs =
  (rdot (map (eval fn rho) r') xs - eval fn rho m * rdot (map (eval fn rho) r) xs)%R.
Proof.
  revert r xs. induction r' as [|x r' IH]; intros [|y r] xs H; try discriminate; simpl.
  - unfold rdot. simpl. lra.
  - destruct xs as [|z xs]; [unfold rdot; simpl; lra|]. rewrite !rdot_cons, IH by auto.
    rewrite sub_mul_eval. lra.
Qed.

Lemma dot_eval fn rho r xs :
  eval fn rho (Sum (Cst 0) (map (fun xy => Mul (fst xy) (snd xy)) (combine r xs))) =
  rdot (map (eval fn rho) r) (map (eval fn rho) xs).
Proof.
  rewrite eval_Sum. cbn [eval]. rewrite Rplus_0_l. unfold rdot, rsum. f_equal.
  revert xs. induction r as [|a r IH]; intros [|b xs]; simpl; auto. f_equal. apply IH.
Qed.

Lemma gauss_ok n : forall rows x, length rows = n -> Forall (fun row => length (fst row) = n) rows ->
  gauss n rows = Ok x ->
  length x = n /\ forall fn rho, Forall (wd fn rho) x ->
    Forall (fun row => rdot (map (eval fn rho) (fst row)) (map (eval fn rho) x) = eval fn rho (snd row)) rows.
Proof.
  induction n as [|n IH]; cbn [gauss]; intros rows x HL HF H.
  - destruct rows; [|discriminate]. injection H as <-. split; auto.
  - destruct (pick rows) as [[[row b] others]|] eqn:E; [|discriminate].
    destruct row as [|a r]; [discriminate|].
    destruct (gauss n (map (eliminate a r b) others)) as [xs|] eqn:EG; cbn [bind] in H; [|discriminate].
    assert (Hx : x = Div (Sub b (Sum (Cst 0) (map (fun xy => Mul (fst xy) (snd xy)) (combine r xs)))) a :: xs) by congruence.
    clear H. subst x.
    apply (pick_spec _ _ _ E) in HF. destruct HF as [HR HO]. simpl in HR. injection HR as HR.
    pose proof (pick_length _ _ _ E) as PL.
    destruct (IH (map (eliminate a r b) others) xs) as [IL IV]; auto.
    { rewrite map_length. lia. }
    { rewrite Forall_forall in *. intros w Hw. apply in_map_iff in Hw. destruct Hw as ([l c] & <- & Hw).
      apply HO in Hw. simpl in Hw. unfold eliminate. simpl. destruct l as [|a' r']; [discriminate|].
      simpl in Hw. injection Hw as Hw. destruct (is_zero a'); simpl; auto.
      rewrite map_length, combine_length. lia. }
    split; [simpl; congruence|]. intros fn rho HW. inversion HW as [|? ? W0 WS]; subst.
    unfold Div in W0. simpl in W0. destruct W0 as [_ [_ NZ]].
    apply (pick_spec _ _ _ E (fun row => rdot (map (eval fn rho) (fst row)) (map (eval fn rho)
        (Div (Sub b (Sum (Cst 0) (map (fun xy => Mul (fst xy) (snd xy)) (combine r xs)))) a :: xs)) = eval fn rho (snd row))).
    assert (X0 : eval fn rho (Div (Sub b (Sum (Cst 0) (map (fun xy => Mul (fst xy) (snd xy)) (combine r xs)))) a)
                 = ((eval fn rho b - rdot (map (eval fn rho) r) (map (eval fn rho) xs)) / eval fn rho a)%R).
    { unfold Div, Sub. cbn [eval]. rewrite dot_eval. reflexivity. }
    split.
    + cbn [fst snd map]. rewrite rdot_cons, X0. field. exact NZ.
    + specialize (IV fn rho WS). rewrite Forall_forall in *. intros [l c] Hw.
      pose proof (HO _ Hw) as HLl. simpl in HLl. destruct l as [|a' r']; [discriminate|].
      specialize (IV (eliminate a r b (a' :: r', c))). unfold eliminate in IV. cbn [fst snd] in *.
      cbn [map]. rewrite rdot_cons, X0.
      assert (I2 := IV (in_map (eliminate a r b) others _ Hw)). clear IV.
      destruct (is_zero a') eqn:Z.
      * cbn [fst snd] in I2. rewrite I2, (is_zero_eval _ _ _ Z). lra.
      * cbn [fst snd] in I2. simpl in HLl. injection HLl as HLl. rewrite rdot_sub_mul in I2 by congruence.
        unfold Sub, Div in I2. cbn [eval] in I2.
        set (X := rdot (map (eval fn rho) r') (map (eval fn rho) xs)) in *.
        set (Y := rdot (map (eval fn rho) r) (map (eval fn rho) xs)) in *.
        assert (I3 : X = (eval fn rho c - eval fn rho a' * / eval fn rho a * eval fn rho b
                          + eval fn rho a' * / eval fn rho a * Y)%R) by lra.
        rewrite I3. field. exact NZ.
Qed.

Theorem lu_gauss_ok : lu_ok lu_gauss.
Proof.
  intros A b x HA HF H. unfold lu_gauss in H.
  destruct (gauss_ok (length b) (combine A b) x) as [L V]; auto.
  { rewrite combine_length. lia. }
  { rewrite Forall_forall in *. intros [r c] Hin. simpl. apply HF. eapply in_combine_l; eauto. }
  split; auto. intros fn rho HW. specialize (V fn rho HW). clear - HA V.
  revert b HA V. induction A as [|r A IH]; intros [|c b] HA V; try discriminate; constructor.
  - inversion V; auto.
  - apply IH; [simpl in HA; congruence|]. inversion V; auto.
Qed.
