(** One reduction mapper on sampled curves. *)
From Coq Require Import Reals.
From Verif Require Import Base Base_Facts Sym_Expr Sym_Facts Sym_Model Map_Model Red_Model RedMap_Model.
Open Scope string_scope.
Open Scope list_scope.
Open Scope nat_scope.

(** Values of a curve [cv] for all symbols at the times [ts], as a trajectory of
    a problem with the given names; the other fields are those of [s0]. *)
Definition table (names : list string) (cv : R -> string -> R) (ts : list R) : arr R :=
  Mat (length names) (map (fun t => map (cv t) names) ts).
Definition samples (ss ls qs ps ks : list string) (cv : R -> string -> R) (a : R) (ts : list R) (s0 : sol R) : sol R :=
  mkSol ts (s_dual_t s0) (table ss cv ts) (table ls cv ts) (table qs cv ts) (s_u s0) (s_dual_u s0)
    (map (cv a) ps) (s_nu s0) (map (cv a) ks) (s_cost s0).

Lemma value_of_app l m x : value_of (l ++ m) x = if existsb (String.eqb x) (map fst l) then value_of l x else value_of m x.
Proof. induction l as [|[y v] l IH]; cbn; [reflexivity|]. destruct (String.eqb x y); [reflexivity|exact IH]. Qed.
Lemma value_of_in names (f : string -> R) x : In x names -> value_of (combine names (map f names)) x = f x.
Proof. induction names as [|y names IH]; cbn; [contradiction|]. destruct (String.eqb_spec x y) as [ ->|N]; [reflexivity|]. intros [E|I]; [congruence|auto]. Qed.
Lemma fst_combine {A B} (l : list A) : forall m : list B, length l <= length m -> map fst (combine l m) = l.
Proof. induction l as [|a l IH]; intros [|b m] H; cbn in *; try lia; auto. f_equal. apply IH. lia. Qed.
Lemma existsb_In x l : existsb (String.eqb x) l = true <-> In x l.
Proof. rewrite existsb_exists. split; [intros (y & I & E); apply String.eqb_eq in E; now subst|intros I; exists x; split; [exact I|apply String.eqb_refl]]. Qed.
(** A value found in a block, not hidden by an earlier one. *)
Lemma value_block l names (f : string -> R) m x : ~ In x (map fst l) -> In x names -> value_of (l ++ combine names (map f names) ++ m) x = f x.
Proof.
  intros N I. rewrite value_of_app. destruct (existsb _ _) eqn:E; [apply existsb_In in E; contradiction|].
  rewrite value_of_app, fst_combine by (rewrite map_length; lia). rewrite (proj2 (existsb_In x names) I). now apply value_of_in.
Qed.

Lemma del_row_map {A B} (f : A -> B) js l : forall i, del_row js i (map f l) = map f (del_row js i l).
Proof. induction l as [|a l IH]; intros i; cbn; [reflexivity|]. destruct (existsb _ _); cbn; now rewrite IH. Qed.
Lemma del_row_remove {A} (l : list A) : forall k i, del_row [i + k] i l = remove_at k l.
Proof.
  assert (NO : forall (l : list A) i j, j < i -> del_row [j] i l = l).
  { clear l. induction l as [|a l IH]; intros i j H; cbn; [reflexivity|]. destruct (Nat.eqb_spec i j); [lia|]. cbn. rewrite IH by lia. reflexivity. }
  induction l as [|a l IH]; intros k i; [destruct k; reflexivity|]. cbn. destruct k as [|k].
  - rewrite Nat.add_0_r, Nat.eqb_refl. cbn. apply NO. lia.
  - destruct (Nat.eqb_spec i (i + S k)); [lia|]. cbn. f_equal. replace (i + S k) with (S i + k) by lia. apply IH.
Qed.
Lemma remove_at_length' {A} (l : list A) : forall k, k < length l -> length (remove_at k l) = length l - 1.
Proof. induction l as [|a l IH]; intros [|k] H; cbn in *; try lia. rewrite IH; lia. Qed.
Lemma delete_table O names cv ts k : k < length names -> delete_cols O (table names cv ts) [k] = Ok (table (remove_at k names) cv ts).
Proof.
  intros H. unfold delete_cols, table. cbn [forallb]. rewrite (proj2 (Nat.ltb_lt k (length names)) H). cbn [andb]. f_equal. f_equal.
  - rewrite (del_row_remove (repeat _ _) k 0), !remove_at_length'; rewrite ?repeat_length; lia.
  - rewrite map_map. apply map_ext. intros t. rewrite del_row_map. f_equal. apply (del_row_remove names k 0).
Qed.
Lemma insert_row_map (f : string -> R) names : forall k x, nth_error names k = Some x ->
  insert_row k (f x) (map f (remove_at k names)) = map f names.
Proof.
  unfold insert_row. induction names as [|y names IH]; intros [|k] x H; cbn in *; try discriminate.
  - now injection H as ->.
  - f_equal. now apply IH.
Qed.
Lemma insert_rows_map k (col : list R -> R) (g : R -> R) (row full : R -> list R) ts :
  (forall t, In t ts -> insert_row k (g t) (row t) = full t) -> insert_rows k (map g ts) (map row ts) = map full ts.
Proof. induction ts as [|t ts IH]; intros H; cbn; [reflexivity|]. rewrite H by (now left). f_equal. apply IH. intros; apply H. now right. Qed.
Lemma stack_table names cv ts k x (g : R -> R) : nth_error names k = Some x -> (forall t, In t ts -> g t = cv t x) ->
  stack_col (table (remove_at k names) cv ts) k (map g ts) = Ok (table names cv ts).
Proof.
  intros H G. assert (L : k < length names) by (apply nth_error_Some; congruence). unfold stack_col, table. rewrite !map_length, Nat.eqb_refl, remove_at_length' by exact L.
  replace (Nat.min k (length names - 1)) with k by lia. f_equal. f_equal; [lia|].
  apply (insert_rows_map k (fun _ => 0%R)). intros t I. rewrite G by exact I. now apply insert_row_map.
Qed.
Lemma append_table names cv ts x (g : R -> R) : (forall t, In t ts -> g t = cv t x) ->
  append_col (table names cv ts) (map g ts) = Ok (table (names ++ [x]) cv ts).
Proof.
  intros G. unfold append_col, table. rewrite !map_length, Nat.eqb_refl, app_length. f_equal. f_equal; [cbn; lia|].
  apply (insert_rows_map _ (fun _ => 0%R)). intros t I. rewrite G by exact I. unfold insert_row.
  rewrite firstn_all2, skipn_all2 by (rewrite map_length; lia). now rewrite map_app.
Qed.
Lemma eval_rows_map (f : list R -> list R -> R) (row1 row2 : R -> list R) ts :
  eval_rows (fun y d => Ok (f y d)) (length ts) (map row1 ts) (map row2 ts) = Ok (map (fun t => f (row1 t) (row2 t)) ts).
Proof. induction ts as [|t ts IH]; cbn; [reflexivity|]. rewrite IH. reflexivity. Qed.
Lemma eval_rows_q_map (f : list R -> list R -> list R -> R) (row1 row2 row3 : R -> list R) ts :
  eval_rows_q f (length ts) (map row1 ts) (map row2 ts) (map row3 ts) = Ok (map (fun t => f (row1 t) (row2 t) (row3 t)) ts).
Proof. induction ts as [|t ts IH]; cbn; [reflexivity|]. rewrite IH. reflexivity. Qed.
Lemma delete_last_table O names cv ts x : delete_cols O (table (names ++ [x]) cv ts) [length names] = Ok (table names cv ts).
Proof.
  rewrite delete_table by (rewrite app_length; cbn; lia). f_equal. f_equal. induction names as [|y names IH]; cbn; [reflexivity|now f_equal].
Qed.

Section Step.
  Variable fn : string -> nat -> R -> R.
  Variables (ss ls qs ps ks : list string) (k : nat) (c x l q : string).
  Variables (cv : R -> string -> R) (a : R) (ts : list R) (s0 : sol R).
  Hypothesis NX : nth_error ss k = Some x.
  Hypothesis NL : nth_error ls k = Some l.
  Hypothesis FL : ~ In l ss.
  Hypothesis FC : ~ In c (ss ++ ls ++ qs ++ ps ++ ks).
  Hypothesis FQ : ~ In q (ss ++ ls ++ qs ++ ps ++ ks).
  Hypothesis NE : ts <> [].
  Hypothesis VC : forall t, In t ts -> cv t l = cv a c.
  Hypothesis VQ : forall t, In t ts -> cv t x = cv t q.
  Let ss' := remove_at k ss.
  Let ls' := remove_at k ls.
  Let fp := lambda4 fn ss ls ps ks (Var l).
  Let fq := lambda4 fn ss ls (ps ++ [c]) ks (Var x).
  Let fpi := lambda4 fn ss' ls' (ps ++ [c]) ks (Var c).
  Let fqi := lambda5 fn ss' ls' (qs ++ [q]) (ps ++ [c]) ks (Var q).

  Lemma rem_in {A} (m : list A) : forall j y, In y (remove_at j m) -> In y m.
  Proof. induction m as [|b m IH]; intros [|j] y I; cbn in *; auto. destruct I as [E|I]; eauto. Qed.
  Lemma names_fst names (f : string -> R) : map fst (combine names (map f names)) = names.
  Proof. apply fst_combine. rewrite map_length. lia. Qed.

  Lemma step_map : mf_map ROps (mkPlace false k) (mkPlace true k) fp fq (samples ss ls qs ps ks cv a ts s0)
    = Ok (samples ss' ls' (qs ++ [q]) (ps ++ [c]) ks cv a ts s0).
  Proof.
    assert (LX : k < length ss) by (apply nth_error_Some; congruence).
    assert (LL : k < length ls) by (apply nth_error_Some; congruence).
    assert (XI := nth_error_In _ _ NX). assert (LI := nth_error_In _ _ NL).
    unfold mf_map. destruct ts as [|t0 ts'] eqn:ET; [contradiction|]. rewrite <- ET in *.
    assert (I0 : In t0 ts) by (rewrite ET; now left).
    unfold samples at 1 2. cbn [s_y s_dual arows table]. rewrite ET. cbn [map get nth_error bind]. rewrite <- ET. cbn [get bind nth_error].
    assert (FP : fp (map (cv t0) ss) (map (cv t0) ls) (map (cv a) ps) (map (cv a) ks) = cv a c).
    { unfold fp, lambda4. cbn [eval]. rewrite <- (VC t0 I0). apply value_block; [|exact LI]. now rewrite names_fst. }
    unfold samples. cbn [s_p s_k s_t s_y s_dual set_p arows table]. rewrite FP.
    rewrite (eval_rows_map (fun y d => fq y d (map (cv a) ps ++ [cv a c]) (map (cv a) ks))). cbn [bind get_loc loc_states set_p s_y s_dual loc_idx].
    change (Mat (length ls) (map (fun t => map (cv t) ls) ts)) with (table ls cv ts). rewrite delete_table by exact LL. cbn [bind set_loc get_loc loc_idx loc_states set_p set_dual set_y s_y].
    rewrite delete_table by exact LX. cbn [bind set_loc loc_states set_p set_dual set_y s_q].
    rewrite (append_table qs cv ts q).
    - cbn [bind set_q s_t s_dual_t s_y s_dual s_u s_dual_u s_p s_nu s_k s_cost]. rewrite map_app. reflexivity.
    - intros t I. rewrite <- (VQ t I). unfold fq, lambda4. cbn [eval]. rewrite value_of_app, names_fst, (proj2 (existsb_In x ss) XI). now apply value_of_in.
  Qed.
  Lemma step_inv : mf_inv ROps (mkPlace false k) (mkPlace true k) fpi fqi (samples ss' ls' (qs ++ [q]) (ps ++ [c]) ks cv a ts s0)
    = Ok (samples ss ls qs ps ks cv a ts s0).
  Proof.
    unfold mf_inv, samples. cbn [s_p s_k s_t s_y s_dual s_q arows table].
    rewrite (eval_rows_q_map (fun y d q0 => fqi y d q0 (map (cv a) (ps ++ [c])) (map (cv a) ks))). cbn [bind].
    rewrite (eval_rows_map (fun y d => fpi y d (map (cv a) (ps ++ [c])) (map (cv a) ks))). cbn [bind get_loc loc_states loc_idx s_dual].
    assert (C1 : forall y, ~ In y (ss ++ ls ++ qs ++ ps ++ ks) -> ~ In y ss' /\ ~ In y ls' /\ ~ In y qs /\ ~ In y ps).
    { intros y N. rewrite !in_app_iff in N. repeat split; intros I; apply N; unfold ss', ls' in *; try apply rem_in in I; tauto. }
    destruct (C1 c FC) as (C2 & C3 & _ & _). destruct (C1 q FQ) as (Q2 & Q3 & _ & _).
    change (Mat (length ls') (map (fun t => map (cv t) ls') ts)) with (table ls' cv ts). unfold ls' at 1.
    rewrite (stack_table ls cv ts k l).
    2: exact NL.
    2: { intros t I. rewrite (VC t I). unfold fpi, lambda4. cbn [eval]. rewrite app_assoc. apply value_block.
         - rewrite map_app, !names_fst, in_app_iff. tauto.
         - rewrite in_app_iff. right. now left. }
    cbn [bind set_loc get_loc loc_idx loc_states set_dual s_y].
    change (Mat (length ss') (map (fun t => map (cv t) ss') ts)) with (table ss' cv ts). unfold ss' at 1.
    rewrite (stack_table ss cv ts k x).
    2: exact NX.
    2: { intros t I. rewrite (VQ t I). unfold fqi, lambda5. cbn [eval]. rewrite app_assoc. apply value_block.
         - rewrite map_app, !names_fst, in_app_iff. tauto.
         - rewrite in_app_iff. right. now left. }
    cbn [bind set_loc loc_states set_y set_dual s_q].
    assert (TT : table (qs ++ [q]) cv ts = Mat (S (length qs)) (map (fun t => map (cv t) (qs ++ [q])) ts)).
    { unfold table. rewrite app_length. cbn [length]. now rewrite Nat.add_1_r. }
    rewrite TT.
    cbn iota. rewrite <- TT, delete_last_table. cbn [bind set_p set_q set_y set_dual s_t s_dual_t s_y s_dual s_q s_u s_dual_u s_p s_nu s_k s_cost].
    rewrite (map_app (cv a) ps [c]). cbn [map]. rewrite removelast_last. reflexivity.
  Qed.
End Step.
