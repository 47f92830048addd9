(** Lemmas for the analytical Jacobians. *)
From Coq Require Import Reals Lra FunctionalExtensionality.
From Coquelicot Require Import Coquelicot.
From Verif Require Import Base Base_Facts Sym_Expr Sym_Facts Sym_Model Jac_Model.
Open Scope nat_scope.

(** [l] with entry [i] replaced. *)
Definition setn (i : nat) (v : R) (l : list R) : list R := firstn i l ++ v :: skipn (S i) l.
Lemma setn_length i v l : i < length l -> length (setn i v l) = length l.
Proof. intros H. unfold setn. rewrite app_length, firstn_length_le by lia. cbn [length]. rewrite skipn_length. lia. Qed.
Lemma setn_nth i v l j : i < length l -> nth j (setn i v l) 0%R = if Nat.eqb j i then v else nth j l 0%R.
Proof.
  revert i j. induction l as [|a l IH]; intros i j H; [cbn in H; lia|]. destruct i as [|i]; destruct j as [|j]; try reflexivity.
  change (nth j (setn i v l) 0%R = if Nat.eqb j i then v else nth j l 0%R). apply IH. cbn in H. lia.
Qed.
Lemma setn_app_l i v a b : i < length a -> setn i v a ++ b = setn i v (a ++ b).
Proof.
  intros H. unfold setn. rewrite firstn_app. replace (i - length a) with 0 by lia. cbn [firstn]. rewrite app_nil_r, <- app_assoc. f_equal.
  cbn [app]. f_equal. rewrite skipn_app. replace (S i - length a) with 0 by lia. reflexivity.
Qed.
Lemma setn_app_r i v a b : a ++ setn i v b = setn (length a + i) v (a ++ b).
Proof. induction a as [|x a IH]; [reflexivity|]. change (x :: (a ++ setn i v b) = x :: setn (length a + i) v (a ++ b)). now rewrite IH. Qed.
Lemma setn_same i l : i < length l -> setn i (nth i l 0%R) l = l.
Proof.
  revert i. induction l as [|a l IH]; intros i H; [cbn in H; lia|]. destruct i as [|i]; [reflexivity|].
  change (a :: setn i (nth i l 0%R) l = a :: l). f_equal. apply IH. cbn in H. lia.
Qed.

Section Env.
  Variable N : list string.
  Hypothesis ND : NoDup N.
  Lemma env_nth vals i : i < length N -> env N vals (nth i N EmptyString) = nth i vals 0%R.
  Proof.
    intros H. unfold env. rewrite (index_of_NoDup _ N i ND); [reflexivity|]. now apply nth_error_nth'.
  Qed.
  Lemma env_setn vals i v : length vals = length N -> i < length N ->
    env N (setn i v vals) = upd (env N vals) (nth i N EmptyString) v.
  Proof.
    intros L H. apply functional_extensionality. intros y. unfold upd, env.
    destruct (String.eqb_spec (nth i N EmptyString) y) as [E|E].
    - rewrite (index_of_NoDup y N i ND) by (rewrite <- E; now apply nth_error_nth'). rewrite setn_nth by lia. now rewrite Nat.eqb_refl.
    - destruct (index_of y N) as [j|e] eqn:I; [|reflexivity]. rewrite setn_nth by lia. destruct (Nat.eqb_spec j i) as [->|]; [|reflexivity].
      exfalso. apply E. apply index_of_nth in I. symmetry. now apply nth_error_nth with (d := EmptyString) in I.
  Qed.
  Variable fn : string -> nat -> R -> R.
  Hypothesis Sm : smooth fn.
  Lemma flat_derive vals i e : length vals = length N -> i < length N -> wd fn (env N vals) e ->
    is_derive (fun s => eval fn (env N (setn i s vals)) e) (nth i vals 0%R) (eval fn (env N vals) (diff (nth i N EmptyString) e)).
  Proof.
    intros L H W. rewrite <- (env_nth vals i H).
    apply (is_derive_ext (fun s => eval fn (upd (env N vals) (nth i N EmptyString) s) e)).
    - intros s. now rewrite env_setn.
    - now apply diff_correct.
  Qed.
  Lemma stack_derive (A B : R -> list R) a (da db : expr -> R) g h k :
    (forall e, In e g -> is_derive (fun s => eval fn (env N (A s)) e) a (da e)) ->
    (forall e, In e h -> is_derive (fun s => eval fn (env N (B s)) e) a (db e)) ->
    k < length g + length h ->
    is_derive (fun s => nth k (map (eval fn (env N (A s))) g ++ map (eval fn (env N (B s))) h) 0%R) a (nth k (map da g ++ map db h) 0%R).
  Proof.
    intros HA HB Hk. destruct (Nat.lt_ge_cases k (length g)) as [C|C].
    - apply (is_derive_ext (fun s => eval fn (env N (A s)) (nth k g (Cst 0)))).
      + intros s. rewrite app_nth1 by (rewrite map_length; exact C). rewrite nth_indep with (d' := eval fn (env N (A s)) (Cst 0)) by (rewrite map_length; exact C).
        now rewrite map_nth.
      + rewrite app_nth1 by (rewrite map_length; exact C). rewrite nth_indep with (d' := da (Cst 0)) by (rewrite map_length; exact C).
        rewrite map_nth. apply HA. now apply nth_In.
    - apply (is_derive_ext (fun s => eval fn (env N (B s)) (nth (k - length g) h (Cst 0)))).
      + intros s. rewrite app_nth2 by (rewrite map_length; exact C). rewrite map_length.
        rewrite nth_indep with (d' := eval fn (env N (B s)) (Cst 0)) by (rewrite map_length; lia). now rewrite map_nth.
      + rewrite app_nth2 by (rewrite map_length; exact C). rewrite map_length.
        rewrite nth_indep with (d' := db (Cst 0)) by (rewrite map_length; lia). rewrite map_nth. apply HB. apply nth_In. lia.
  Qed.
End Env.

(** Column [i] of a matrix given by rows. *)
Lemma column_of (D : string -> expr -> R) xs g i k : i < length xs -> k < length g ->
  nth i (nth k (map (fun e => map (fun x => D x e) xs) g) []) 0%R = nth k (map (D (nth i xs EmptyString)) g) 0%R.
Proof.
  intros Hi Hk. rewrite nth_indep with (d' := (fun e => map (fun x => D x e) xs) (Cst 0)) by (rewrite map_length; exact Hk).
  rewrite (map_nth (fun e => map (fun x => D x e) xs)).
  rewrite nth_indep with (d' := (fun x => D x (nth k g (Cst 0))) EmptyString) by (rewrite map_length; exact Hi).
  rewrite (map_nth (fun x => D x (nth k g (Cst 0)))).
  rewrite nth_indep with (d' := D (nth i xs EmptyString) (Cst 0)) by (rewrite map_length; exact Hk). now rewrite map_nth.
Qed.
Lemma zeros_nth m n i k : nth i (nth k (zeros m n) []) 0%R = 0%R.
Proof.
  unfold zeros. destruct (Nat.lt_ge_cases k m) as [C|C].
  - rewrite nth_indep with (d' := repeat 0%R n) by (rewrite repeat_length; exact C). rewrite nth_repeat. now rewrite nth_repeat.
  - rewrite nth_overflow with (n := k) by (rewrite repeat_length; exact C). now destruct i.
Qed.
Lemma map_const_nth {A} (l : list A) k : nth k (map (fun _ => 0%R) l) 0%R = 0%R.
Proof. revert k. induction l as [|a l IH]; intros [|k]; cbn; auto. Qed.
(** Three block layouts. *)
Lemma col_top (D : string -> expr -> R) xs g h n i k : i < length xs -> k < length g + length h -> length h = n ->
  nth i (nth k (map (fun e => map (fun x => D x e) xs) g ++ zeros n (length xs)) []) 0%R
  = nth k (map (D (nth i xs EmptyString)) g ++ map (fun _ : expr => 0%R) h) 0%R.
Proof.
  intros Hi Hk Hn. destruct (Nat.lt_ge_cases k (length g)) as [C|C].
  - rewrite !app_nth1 by (rewrite map_length; exact C). now apply column_of.
  - rewrite !app_nth2 by (rewrite map_length; exact C). now rewrite zeros_nth, map_const_nth.
Qed.
Lemma col_bottom (D : string -> expr -> R) xs g h n i k : i < length xs -> k < length g + length h -> length g = n ->
  nth i (nth k (zeros n (length xs) ++ map (fun e => map (fun x => D x e) xs) h) []) 0%R
  = nth k (map (fun _ : expr => 0%R) g ++ map (D (nth i xs EmptyString)) h) 0%R.
Proof.
  intros Hi Hk Hn. assert (Z : length (zeros n (length xs)) = length g) by (unfold zeros; rewrite repeat_length; auto).
  destruct (Nat.lt_ge_cases k (length g)) as [C|C].
  - rewrite app_nth1 by lia. rewrite app_nth1 by (rewrite map_length; exact C). now rewrite zeros_nth, map_const_nth.
  - rewrite app_nth2 by lia. rewrite app_nth2 by (rewrite map_length; exact C). rewrite Z, map_length. apply column_of; lia.
Qed.
Lemma col_both (D E : string -> expr -> R) xs g h i k : i < length xs -> k < length g + length h ->
  nth i (nth k (map (fun e => map (fun x => D x e) xs) g ++ map (fun e => map (fun x => E x e) xs) h) []) 0%R
  = nth k (map (D (nth i xs EmptyString)) g ++ map (E (nth i xs EmptyString)) h) 0%R.
Proof.
  intros Hi Hk. destruct (Nat.lt_ge_cases k (length g)) as [C|C].
  - rewrite !app_nth1 by (rewrite map_length; exact C). now apply column_of.
  - rewrite !app_nth2 by (rewrite map_length; exact C). rewrite !map_length. apply column_of; lia.
Qed.

(** Calls that succeed. *)
Section Calls.
  Variable fn : string -> nat -> R -> R.
  Lemma call_ok groups es vals : fits groups vals = true -> Forall (fun e => incl (vars e) (concat groups)) es ->
    call fn groups es vals = Ok (map (eval fn (env (concat groups) (concat vals))) es).
  Proof.
    intros F V. unfold call. rewrite F. replace (forallb _ es) with true; [reflexivity|]. symmetry. apply forallb_forall.
    intros e He. apply forallb_forall. intros x Hx. apply mem_In. rewrite Forall_forall in V. now apply (V e He).
  Qed.
  Lemma call_rows_ok groups g xs vals : fits groups vals = true -> Forall (fun e => incl (vars e) (concat groups)) g ->
    call_rows fn groups (jacobian g xs) vals
    = Ok (map (fun e => map (fun x => eval fn (env (concat groups) (concat vals)) (diff x e)) xs) g).
  Proof.
    intros F V. unfold call_rows, jacobian. induction g as [|e g IH]; [reflexivity|]. inversion_clear V as [|? ? Ve Vg].
    cbn [map mapM]. rewrite call_ok; [|exact F|].
    - cbn [bind]. rewrite IH by exact Vg. cbn [bind]. now rewrite map_map.
    - apply Forall_forall. intros d Hd. apply in_map_iff in Hd as (x & <- & _). intros y Hy. apply Ve. now apply vars_diff in Hy.
  Qed.
  Lemma vstack_ok a b n : Forall (fun r => length r = n) a -> Forall (fun r => length r = n) b -> vstack a b = Ok (a ++ b).
  Proof.
    intros A B. assert (C : Forall (fun r => length r = n) (a ++ b)) by (apply Forall_app; now split). unfold vstack.
    destruct (a ++ b) as [|r l] eqn:E; [reflexivity|]. replace (forallb _ _) with true; [reflexivity|]. symmetry. apply forallb_forall.
    intros r' Hr. rewrite Forall_forall in C. apply Nat.eqb_eq. rewrite (C r') by exact Hr. now rewrite (C r) by now left.
  Qed.
  Lemma rows_width {A} (f : A -> string -> R) (g : list A) xs : Forall (fun r => length r = length xs) (map (fun e => map (f e) xs) g).
  Proof. apply Forall_forall. intros r Hr. apply in_map_iff in Hr as (e & <- & _). apply map_length. Qed.
  Lemma zeros_width m n : Forall (fun r => length r = n) (zeros m n).
  Proof. unfold zeros. apply Forall_forall. intros r Hr. apply repeat_spec in Hr. subst. apply repeat_length. Qed.
End Calls.

(** The shape of a symbolic Jacobian. *)
Lemma sym_jacobian_ok g xs m : sym_jacobian g xs = Ok m -> g <> [] /\ xs <> [] /\ m = jacobian g xs.
Proof. unfold sym_jacobian. destruct g, xs; try discriminate. intros [= <-]. repeat split; discriminate. Qed.
Lemma jacobian_shape g xs : g <> [] -> shape (jacobian g xs) = (length g, length xs).
Proof. intros H. unfold shape, jacobian. rewrite map_length. f_equal. destruct g; [easy|]. cbn. apply map_length. Qed.
