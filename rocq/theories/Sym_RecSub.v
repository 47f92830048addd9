(** recursive_sub (C41). *)
From Coq Require Import Reals Lra FunctionalExtensionality.
From Verif Require Import Base Sym_Expr Sym_Facts.
Open Scope nat_scope.

Lemma subst_seq_Var_map m : forall e,
  subst_seq m e = (fix go (e : expr) : expr :=
    match e with
    | Cst _ | Pi => e
    | Var x => subst_seq m (Var x)
    | Add a b => Add (go a) (go b) | Mul a b => Mul (go a) (go b)
    | Opp a => Opp (go a) | Inv a => Inv (go a) | Sin a => Sin (go a) | Cos a => Cos (go a)
    | Exp a => Exp (go a) | App f k a => App f k (go a)
    end) e.
Proof.
  assert (HC : forall z m, subst_seq m (Cst z) = Cst z) by (intros z m0; induction m0; simpl; auto).
  assert (HP : forall m, subst_seq m Pi = Pi) by (intros m0; induction m0; simpl; auto).
  assert (H2 : forall m a b, subst_seq m (Add a b) = Add (subst_seq m a) (subst_seq m b)).
  { intros m0. unfold subst_seq. induction m0; simpl; intros; auto. }
  assert (H3 : forall m a b, subst_seq m (Mul a b) = Mul (subst_seq m a) (subst_seq m b)).
  { intros m0. unfold subst_seq. induction m0; simpl; intros; auto. }
  assert (H4 : forall m a, subst_seq m (Opp a) = Opp (subst_seq m a)).
  { intros m0. unfold subst_seq. induction m0; simpl; intros; auto. }
  assert (H5 : forall m a, subst_seq m (Inv a) = Inv (subst_seq m a)).
  { intros m0. unfold subst_seq. induction m0; simpl; intros; auto. }
  assert (H6 : forall m a, subst_seq m (Sin a) = Sin (subst_seq m a)).
  { intros m0. unfold subst_seq. induction m0; simpl; intros; auto. }
  assert (H7 : forall m a, subst_seq m (Cos a) = Cos (subst_seq m a)).
  { intros m0. unfold subst_seq. induction m0; simpl; intros; auto. }
  assert (H8 : forall m a, subst_seq m (Exp a) = Exp (subst_seq m a)).
  { intros m0. unfold subst_seq. induction m0; simpl; intros; auto. }
  assert (H9 : forall m f k a, subst_seq m (App f k a) = App f k (subst_seq m a)).
  { intros m0. unfold subst_seq. induction m0; simpl; intros; auto. }
  induction e; rewrite ?HC, ?HP, ?H2, ?H3, ?H4, ?H5, ?H6, ?H7, ?H8, ?H9; congruence.
Qed.

Section S.
  Variable m : list (string * expr).
  Notation pass := (subst_seq m).

  (** A variable changed by one pass. *)
  Definition moves (x : string) : Prop := pass (Var x) <> Var x.
  Definition keys : list string := map fst m.

  Lemma pass_stable e : pass e = e <-> forall x, In x (vars e) -> ~ moves x.
  Proof.
    unfold moves. rewrite subst_seq_Var_map.
    induction e; cbn [vars].
    - split; [intros _ ? []|reflexivity].
    - split; [intros _ ? []|reflexivity].
    - split.
      + intros H y [<-|[]] N. auto.
      + intros H. destruct (expr_eqb (pass (Var x)) (Var x)) eqn:E.
        * now apply expr_eqb_eq.
        * exfalso. apply (H x (or_introl eq_refl)). intros C. apply expr_eqb_eq in C. congruence.
    - split.
      + intros H x Hx. injection H as H1 H2. apply in_app_or in Hx. destruct Hx.
        * apply IHe1; auto. * apply IHe2; auto.
      + intros H. f_equal; [apply IHe1|apply IHe2]; intros; apply H; apply in_or_app; auto.
    - split.
      + intros H x Hx. injection H as H1 H2. apply in_app_or in Hx. destruct Hx.
        * apply IHe1; auto. * apply IHe2; auto.
      + intros H. f_equal; [apply IHe1|apply IHe2]; intros; apply H; apply in_or_app; auto.
    - rewrite <- IHe. split; [intros H; now injection H|congruence].
    - rewrite <- IHe. split; [intros H; now injection H|congruence].
    - rewrite <- IHe. split; [intros H; now injection H|congruence].
    - rewrite <- IHe. split; [intros H; now injection H|congruence].
    - rewrite <- IHe. split; [intros H; now injection H|congruence].
    - rewrite <- IHe. split; [intros H; now injection H|congruence].
  Qed.

  Lemma pass_vars e y : In y (vars (pass e)) <-> exists x, In x (vars e) /\ In y (vars (pass (Var x))).
  Proof.
    rewrite subst_seq_Var_map.
    induction e; cbn [vars].
    - split; [intros []|intros (x & [] & _)].
    - split; [intros []|intros (x & [] & _)].
    - split; [intros H; exists x; split; auto; left; auto|intros (z & [<-|[]] & H); auto].
    - rewrite in_app_iff, IHe1, IHe2. split.
      + intros [(x & A & B)|(x & A & B)]; exists x; split; auto; apply in_or_app; auto.
      + intros (x & A & B). apply in_app_or in A. destruct A; eauto.
    - rewrite in_app_iff, IHe1, IHe2. split.
      + intros [(x & A & B)|(x & A & B)]; exists x; split; auto; apply in_or_app; auto.
      + intros (x & A & B). apply in_app_or in A. destruct A; eauto.
    - exact IHe.
    - exact IHe.
    - exact IHe.
    - exact IHe.
    - exact IHe.
    - exact IHe.
  Qed.

  Lemma moves_key x : moves x -> In x keys.
  Proof.
    unfold moves, keys. intros H. destruct (mem x (map fst m)) eqn:E; [now apply mem_In|].
    exfalso. apply H. assert (N : ~ In x (map fst m)) by (rewrite <- mem_In; congruence).
    clear H E. unfold subst_seq. induction m as [|[k v] m' IH]; simpl in *; auto.
    destruct (String.eqb k x) eqn:E; [apply String.eqb_eq in E; tauto|]. apply IH; tauto.
  Qed.

  (** If after [k] passes something still moves, there is a chain of [k+1]
      moving variables, each occurring in the replacement of the one before. *)
  Inductive path : list string -> Prop :=
  | path_one x : moves x -> path [x]
  | path_cons x y l : moves x -> In y (vars (pass (Var x))) -> path (y :: l) -> path (x :: y :: l).

  Fixpoint iter_pass (k : nat) (e : expr) : expr :=
    match k with O => e | S k' => pass (iter_pass k' e) end.

  Lemma path_snoc l : forall x y, path (l ++ [x]) -> In y (vars (pass (Var x))) -> moves y ->
    path (l ++ [x; y]).
  Proof.
    induction l as [|z l IH]; intros x y H Hy M; simpl in *.
    - inversion H; subst. apply path_cons; auto. constructor; auto.
    - destruct l as [|w l]; simpl in *; inversion H; subst; apply path_cons; auto.
  Qed.

  Lemma moving_path k e z : In z (vars (iter_pass k e)) -> moves z ->
    exists l, path (l ++ [z]) /\ length l = k /\ exists x, hd_error (l ++ [z]) = Some x /\ In x (vars e).
  Proof.
    revert z. induction k; simpl; intros z Hz M.
    - exists []. split; [now constructor|]. split; auto. exists z. auto.
    - apply pass_vars in Hz. destruct Hz as (x & Hx & Hz).
      assert (Mx : moves x).
      { destruct (expr_eqb (pass (Var x)) (Var x)) eqn:E.
        - apply expr_eqb_eq in E. rewrite E in Hz. simpl in Hz. destruct Hz as [->|[]]. congruence.
        - intros C. apply expr_eqb_eq in C. congruence. }
      destruct (IHk x Hx Mx) as (l & Hp & L & w & Hw & Hwe). exists (l ++ [x]). split; [|split].
      + rewrite <- app_assoc. simpl. apply path_snoc; auto.
      + rewrite app_length. simpl. lia.
      + exists w. split; auto. destruct l; exact Hw.
  Qed.

  Lemma path_moves l : path l -> forall x, In x l -> moves x.
  Proof.
    induction 1; intros z Hz; simpl in Hz.
    - destruct Hz as [<-|[]]; auto.
    - destruct Hz as [<-|Hz]; auto.
  Qed.

  (** A moving variable on a cycle of moving variables never disappears. *)
  Definition forever (x : string) : Prop :=
    exists S : list string, In x S /\
      forall y, In y S -> moves y /\ exists z, In z S /\ In z (vars (pass (Var y))).

  Lemma forever_iter k e x S : In x (vars e) -> In x S ->
    (forall y, In y S -> moves y /\ exists z, In z S /\ In z (vars (pass (Var y)))) ->
    exists y, In y S /\ In y (vars (iter_pass k e)).
  Proof.
    intros Hx HS HC. induction k; simpl.
    - eauto.
    - destruct IHk as (y & Hy & Hv). destruct (HC y Hy) as (_ & z & Hz & Hzv).
      exists z. split; auto. apply pass_vars. eauto.
  Qed.

  Lemma path_app_r a : forall b, b <> [] -> path (a ++ b) -> path b.
  Proof.
    induction a; simpl; intros b N H; auto. apply IHa; auto.
    inversion H; subst; auto. destruct a0; simpl in *; try congruence.
  Qed.

  Lemma path_next l : path l -> forall i x y, nth_error l i = Some x -> nth_error l (S i) = Some y ->
    In y (vars (pass (Var x))).
  Proof.
    induction 1; intros i a b Ha Hb.
    - destruct i; simpl in Hb; [discriminate|destruct i; discriminate].
    - destruct i.
      + simpl in *. congruence.
      + simpl in Ha, Hb. eapply IHpath; eauto.
  Qed.

  Lemma not_nodup_split (l : list string) : ~ NoDup l -> exists a x b c, l = a ++ x :: b ++ x :: c.
  Proof.
    induction l as [|x l IH]; intros H; [exfalso; apply H; constructor|].
    destruct (in_dec String.string_dec x l) as [I|I].
    - apply in_split in I. destruct I as (b & c & ->). exists [], x, b, c. reflexivity.
    - destruct IH as (a & y & b & c & ->).
      + intros N. apply H. now constructor.
      + exists (x :: a), y, b, c. reflexivity.
  Qed.

  Lemma rec_loop_spec n : forall e r b, rec_sub_loop n m e = (r, b) ->
    (b = true -> pass r = r /\ exists k, k < n /\ r = iter_pass k e) /\
    (b = false -> r = iter_pass n e /\ forall k, k < n -> iter_pass (S k) e <> iter_pass k e).
  Proof.
    induction n; simpl; intros e r b H.
    - injection H as <- <-. split; [discriminate|]. intros _. split; auto. intros k Hk. lia.
    - assert (SH : forall k, iter_pass k (pass e) = pass (iter_pass k e)).
      { induction k; simpl; congruence. }
      destruct (expr_eqb (pass e) e) eqn:E.
      + injection H as <- <-. apply expr_eqb_eq in E. split; [|discriminate]. intros _.
        rewrite E. split; auto. exists 0. split; [lia|reflexivity].
      + destruct (IHn _ _ _ H) as [A B]. split.
        * intros Hb. destruct (A Hb) as (S1 & k & Hk & ->). split; auto.
          exists (S k). split; [lia|]. simpl. now rewrite SH.
        * intros Hb. destruct (B Hb) as (-> & C). split; [now rewrite SH|].
          intros [|k] Hk.
          -- simpl. intros C2. apply expr_eqb_eq in C2. congruence.
          -- simpl. rewrite <- !SH. apply (C k). lia.
  Qed.

  Lemma keys_len : length keys = length m.
  Proof. unfold keys. apply map_length. Qed.

  (** Success is reported exactly when the result is a fixed point. *)
  Lemma recursive_sub_flag e r b : recursive_sub e m = (r, b) -> (b = true <-> pass r = r).
  Proof.
    unfold recursive_sub. intros H. apply rec_loop_spec in H. destruct H as [A B]. split.
    - intros Hb. apply A. exact Hb.
    - intros Hs. destruct b; auto. exfalso. destruct (B eq_refl) as (-> & C).
      (* after len passes something still moves *)
      set (n := length m) in *.
      assert (NS : pass (iter_pass n e) <> iter_pass n e) by (apply (C n); lia).
      assert (EM : exists z, In z (vars (iter_pass n e)) /\ moves z).
      { destruct (existsb (fun z => negb (expr_eqb (pass (Var z)) (Var z))) (vars (iter_pass n e))) eqn:X.
        - apply existsb_exists in X. destruct X as (z & Hz & N). exists z. split; auto.
          intros C1. apply expr_eqb_eq in C1. rewrite C1 in N. discriminate.
        - exfalso. apply NS. apply pass_stable. intros x Hx Mx.
          assert (T : existsb (fun z => negb (expr_eqb (pass (Var z)) (Var z))) (vars (iter_pass n e)) = true).
          { apply existsb_exists. exists x. split; auto. destruct (expr_eqb (pass (Var x)) (Var x)) eqn:E; auto.
            apply expr_eqb_eq in E. exfalso. now apply Mx. }
          congruence. }
      destruct EM as (z & Hz & Mz). destruct (moving_path n e z Hz Mz) as (l & Hp & Hl & h0 & Hh & He).
      (* n+1 moving variables among n keys: a repetition *)
      assert (ND : ~ NoDup (l ++ [z])).
      { intros ND. assert (L : length (l ++ [z]) <= length keys).
        { apply NoDup_incl_length; auto. intros x Hx. apply moves_key. eapply path_moves; eauto. }
        rewrite app_length, keys_len in L. simpl in L. fold n in L. lia. }
      destruct (not_nodup_split _ ND) as (a & x & bb & c & E).
      (* the suffix starting at the first repeated variable survives every pass *)
      assert (PS : path (x :: bb ++ x :: c)).
      { rewrite E in Hp. apply path_app_r in Hp; [auto|discriminate]. }
      assert (CY : forall y, In y (x :: bb) -> moves y /\ exists w, In w (x :: bb) /\ In w (vars (pass (Var y)))).
      { intros y Hy. split.
        - eapply path_moves; [exact PS|]. change (In y ((x :: bb) ++ x :: c)). apply in_or_app. now left.
        - apply In_nth_error in Hy. destruct Hy as (i & Hi).
          assert (Li : i < length (x :: bb)) by (apply nth_error_Some; congruence).
          destruct (nth_error ((x :: bb) ++ x :: c) (S i)) as [w|] eqn:W.
          + exists w. split.
            * destruct (Nat.eq_dec (S i) (length (x :: bb))) as [Q|Q].
              -- rewrite Q in W. rewrite nth_error_app2, Nat.sub_diag in W by lia. simpl in W.
                 injection W as <-. now left.
              -- rewrite nth_error_app1 in W by lia. eapply nth_error_In; eauto.
            * eapply (path_next _ PS i).
              -- change (nth_error ((x :: bb) ++ x :: c) i = Some y). rewrite nth_error_app1; auto.
              -- exact W.
          + apply nth_error_None in W. rewrite app_length in W. simpl in W, Li. lia. }
      (* x occurs after [length a] passes *)
      assert (OCC : In x (vars (iter_pass (length a) e))).
      { assert (G : forall i y, nth_error (l ++ [z]) i = Some y -> In y (vars (iter_pass i e))).
        { induction i; intros y Hy.
          - destruct (l ++ [z]); simpl in *; congruence.
          - simpl. apply pass_vars. destruct (nth_error (l ++ [z]) i) as [v|] eqn:V.
            + exists v. split; [apply IHi; reflexivity|]. exact (path_next _ Hp i v y V Hy).
            + apply nth_error_None in V. assert (S i < length (l ++ [z])) by (apply nth_error_Some; congruence). lia. }
        apply G. rewrite E, nth_error_app2, Nat.sub_diag by lia. reflexivity. }
      assert (La : length a <= n + 1).
      { apply (f_equal (@length string)) in E. rewrite !app_length in E. simpl in E. rewrite app_length in E.
        simpl in E. lia. }
      destruct (forever_iter (n + 1 - length a) (iter_pass (length a) e) x (x :: bb) OCC (or_introl eq_refl) CY)
        as (y & Hy & Hv).
      assert (IT : forall p q e0, iter_pass p (iter_pass q e0) = iter_pass (p + q) e0).
      { induction p; simpl; intros; congruence. }
      rewrite IT in Hv. replace (n + 1 - length a + length a) with (n + 1) in Hv by lia.
      destruct (CY y Hy) as (My & _). rewrite pass_stable in Hs. exact (Hs y Hv My).
  Qed.
End S.

(** Replacement maps without cyclic dependencies. *)
Definition acyclic (m : list (string * expr)) : Prop :=
  exists rank : string -> nat, forall k v, In (k, v) m ->
    forall y, In y (vars v) -> In y (map fst m) -> rank y < rank k.

Section A.
  Variable m : list (string * expr).
  Variable rank : string -> nat.
  Hypothesis RK : forall k v, In (k, v) m -> forall y, In y (vars v) -> In y (map fst m) -> rank y < rank k.

  Lemma seq_rank_lt r l : incl l m -> forall e,
    (forall y, In y (vars e) -> In y (map fst m) -> rank y < r) ->
    forall y, In y (vars (subst_seq l e)) -> In y (map fst m) -> rank y < r.
  Proof.
    induction l as [|[k v] l IH]; simpl; intros HI e He y Hy Hk; auto.
    refine (IH _ (subst k v e) _ y Hy Hk).
    - intros z Hz. apply HI. now right.
    - intros z Hz Hzk. apply vars_subst_iff in Hz. destruct Hz as [[Hx Hv]|[Hx _]]; auto.
      assert (In (k, v) m) as Hin by (apply HI; now left).
      pose proof (RK k v Hin z Hv Hzk). assert (rank k < r).
      { apply He; auto. apply in_map_iff. exists (k, v). auto. }
      lia.
  Qed.

  Lemma seq_rank_var x l : incl l m -> In x (map fst l) ->
    forall y, In y (vars (subst_seq l (Var x))) -> In y (map fst m) -> rank y < rank x.
  Proof.
    induction l as [|[k v] l IH]; simpl; [tauto|]. intros HI Hx y Hy Hk.
    destruct (String.eqb k x) eqn:E.
    - apply String.eqb_eq in E. subst k.
      refine (seq_rank_lt (rank x) l _ v _ y Hy Hk).
      + intros z Hz. apply HI. now right.
      + intros z Hz Hzk. eapply RK; eauto. apply HI. now left.
    - apply String.eqb_neq in E. apply IH; auto.
      + intros z Hz. apply HI. now right.
      + destruct Hx; congruence.
  Qed.

  Lemma key_moves x : In x (map fst m) -> moves m x.
  Proof.
    intros Hx E. pose proof (seq_rank_var x m (incl_refl m) Hx x) as H.
    rewrite E in H. specialize (H (or_introl eq_refl) Hx). lia.
  Qed.

  Lemma path_rank l : path m l -> forall x l', l = x :: l' -> forall y, In y l' -> rank y < rank x.
  Proof.
    induction 1; intros a l' E z Hz; injection E as -> <-; [destruct Hz|].
    assert (rank y < rank a).
    { apply (seq_rank_var a m (incl_refl m)); auto.
      - now apply moves_key.
      - apply moves_key. eapply path_moves; eauto. now left. }
    destruct Hz as [<-|Hz]; auto.
    specialize (IHpath y l eq_refl z Hz). lia.
  Qed.

  Lemma path_nodup l : path m l -> NoDup l.
  Proof.
    intros H. induction H.
    - constructor; [intros []|constructor].
    - constructor; auto. intros C.
      pose proof (path_rank (x :: y :: l) (path_cons m x y l H H0 H1) x (y :: l) eq_refl x C). lia.
  Qed.

  Lemma acyclic_stable e : subst_seq m (iter_pass m (length m) e) = iter_pass m (length m) e.
  Proof.
    apply pass_stable. intros x Hx Mx. destruct (moving_path m (length m) e x Hx Mx) as (l & Hp & Hl & _).
    assert (L : length (l ++ [x]) <= length (keys m)).
    { apply NoDup_incl_length; [now apply path_nodup|]. intros y Hy. apply moves_key. eapply path_moves; eauto. }
    rewrite app_length, keys_len in L. simpl in L. lia.
  Qed.
End A.

Lemma recursive_sub_acyclic e m : acyclic m ->
  exists r, recursive_sub e m = (r, true) /\ (forall k, In k (map fst m) -> ~ In k (vars r)).
Proof.
  intros (rank & RK). destruct (recursive_sub e m) as [r b] eqn:E.
  assert (b = true) as ->.
  { destruct b; auto. unfold recursive_sub in E. apply rec_loop_spec in E. destruct E as [_ B].
    destruct (B eq_refl) as (_ & C). exfalso. apply (C (length m)); [lia|]. simpl.
    apply (acyclic_stable m rank RK). }
  exists r. split; auto. intros k Hk Hin.
  destruct (recursive_sub_flag m e r true E) as [H _]. specialize (H eq_refl).
  rewrite pass_stable in H. apply (H k Hin). eapply key_moves; eauto.
Qed.

Lemma subst_seq_value fn rho m : (forall k v, In (k, v) m -> rho k = eval fn rho v) ->
  forall e, eval fn rho (subst_seq m e) = eval fn rho e.
Proof.
  induction m as [|[k v] m IH]; simpl; intros H e; auto.
  unfold subst_seq in *. simpl. rewrite IH by (intros; apply H; auto).
  apply eval_subst_same. apply H. now left.
Qed.

Lemma iter_pass_value fn rho m n e : (forall k v, In (k, v) m -> rho k = eval fn rho v) ->
  eval fn rho (iter_pass m n e) = eval fn rho e.
Proof. intros H. induction n; simpl; auto. rewrite subst_seq_value; auto. Qed.

Lemma recursive_sub_value fn rho e m r b : (forall k v, In (k, v) m -> rho k = eval fn rho v) ->
  recursive_sub e m = (r, b) -> eval fn rho r = eval fn rho e.
Proof.
  intros H E. unfold recursive_sub in E. apply rec_loop_spec in E. destruct E as [A B]. destruct b.
  - destruct (A eq_refl) as (_ & k & _ & ->). now apply iter_pass_value.
  - destruct (B eq_refl) as (-> & _). now apply iter_pass_value.
Qed.
