(** The inverse mappers on a trajectory that samples a curve. *)
From Coq Require Import Reals Lra Lia FunctionalExtensionality.
From Verif Require Import Base Base_Facts Sym_Expr Sym_Facts Sym_Model Jac_Model Jac_Proofs Unit_Model Whole_Proofs Chain_Model Map_Model Map_Proofs Map_Chain.
Open Scope string_scope.
Open Scope list_scope.
Open Scope nat_scope.

(** The values of [names] along [c] at [ts]. *)
Definition grid (c : R -> string -> R) (names : list string) (ts : list R) : arr R := Mat (length names) (map (fun t => map (c t) names) ts).

Lemma firstn_len {A} (a b : list A) : firstn (length a) (a ++ b) = a.
Proof. rewrite firstn_app, Nat.sub_diag, firstn_all, firstn_O, app_nil_r. reflexivity. Qed.
Lemma skipn_len {A} (a b : list A) : skipn (length a) (a ++ b) = b.
Proof. rewrite skipn_app, Nat.sub_diag, skipn_all. reflexivity. Qed.
Lemma mapM_gets {A} (a b e : list A) : mapM (get (a ++ b ++ e)) (seq (length a) (length b)) = Ok b.
Proof.
  revert a. induction b as [|x b IH]; intros a; [reflexivity|]. cbn [length seq mapM app].
  unfold get at 1. rewrite nth_error_app2, Nat.sub_diag by lia. cbn [nth_error bind].
  replace (a ++ x :: b ++ e) with ((a ++ [x]) ++ b ++ e) by now rewrite <- app_assoc.
  replace (S (length a)) with (length (a ++ [x])) by (rewrite app_length; cbn; lia). rewrite IH. reflexivity.
Qed.
Lemma del_tail (a b : list R) : del_row (seq (length a) (length b)) 0 (a ++ b) = a.
Proof.
  rewrite del_row_app. rewrite del_row_none by (intros j I; apply in_seq in I; right; lia). rewrite Nat.add_0_l, del_row_all by lia. apply app_nil_r.
Qed.
Lemma forallb_seq n m c : n + m <= c -> forallb (fun j => j <? c) (seq n m) = true.
Proof. intros H. apply forallb_forall. intros j I. apply in_seq in I. apply Nat.ltb_lt. lia. Qed.

Lemma delete_grid c A B ts : delete_cols ROps (grid c (A ++ B) ts) (seq (length A) (length B)) = Ok (grid c A ts).
Proof.
  unfold grid, delete_cols. rewrite app_length, forallb_seq by lia. f_equal. f_equal.
  - replace (repeat (n0 ROps) (length A + length B)) with (repeat (n0 ROps) (length A) ++ repeat (n0 ROps) (length B)) by now rewrite <- repeat_app.
    replace (length A) with (length (repeat (n0 ROps) (length A))) at 1 by apply repeat_length.
    replace (length B) with (length (repeat (n0 ROps) (length B))) at 1 by apply repeat_length. rewrite del_tail. apply repeat_length.
  - rewrite map_map. apply map_ext. intros t. rewrite map_app. replace (length A) with (length (map (c t) A)) by apply map_length.
    replace (length B) with (length (map (c t) B)) by apply map_length. apply del_tail.
Qed.
Lemma select_grid c A B ts : select_cols (grid c (A ++ B) ts) (seq (length A) (length B)) = Ok (grid c B ts).
Proof.
  unfold grid, select_cols. rewrite app_length, forallb_seq by lia.
  rewrite (mapM_ok_map _ (fun r => skipn (length A) r)).
  - cbn [bind]. rewrite seq_length, map_map. f_equal. f_equal. apply map_ext. intros t. rewrite map_app.
    replace (length A) with (length (map (c t) A)) by apply map_length. apply skipn_len.
  - intros r I. apply in_map_iff in I. destruct I as (t & <- & _). rewrite map_app.
    replace (length A) with (length (map (c t) A)) by apply map_length. replace (length B) with (length (map (c t) B)) by apply map_length.
    rewrite skipn_len. replace (map (c t) A ++ map (c t) B) with (map (c t) A ++ map (c t) B ++ []) by now rewrite app_nil_r. apply mapM_gets.
Qed.
Lemma column_grid c A x ts : column (grid c (A ++ [x]) ts) (length A) = Ok (map (fun t => c t x) ts).
Proof.
  unfold grid, column. rewrite app_length. cbn [length]. replace (length A <? length A + 1) with true by (symmetry; apply Nat.ltb_lt; lia).
  rewrite (mapM_ok_map _ (fun r => nth (length A) r 0%R)).
  - rewrite map_map. f_equal. apply map_ext. intros t. rewrite map_app, app_nth2 by (rewrite map_length; lia). rewrite map_length, Nat.sub_diag. reflexivity.
  - intros r I. apply in_map_iff in I. destruct I as (t & <- & _). unfold get. rewrite map_app, nth_error_app2 by (rewrite map_length; lia).
    rewrite app_nth2 by (rewrite map_length; lia). rewrite map_length, Nat.sub_diag. reflexivity.
Qed.

Lemma sq_back c A B ts lo hi (s : sol R) : s_y s = grid c (A ++ B) ts ->
  exists nu, sq_inv (length A) (length A + length B) lo hi s = Ok (set_nu nu (set_y (grid c A ts) (set_dual (grid c B ts) s))).
Proof.
  intros E. unfold sq_inv. rewrite E. cbn [select_slice grid bind]. rewrite app_length.
  cbn [set_dual s_y]. rewrite E. cbn [delete_slice grid bind]. rewrite app_length. eexists. f_equal. f_equal. unfold grid. rewrite !map_map.
  replace (Nat.min (length A + length B) (length A + length B) - Nat.min (length A) (length A + length B)) with (length B) by lia.
  replace (length A + length B - length B) with (length A) by lia.
  assert (E1 : map (fun x => slice (length A) (length A + length B) (map (c x) (A ++ B))) ts = map (fun t => map (c t) B) ts).
  { apply map_ext. intros t. rewrite map_app. unfold slice. replace (length A) with (length (map (c t) A)) at 3 by apply map_length. rewrite skipn_len.
    rewrite firstn_all2 by (rewrite map_length; lia). reflexivity. }
  assert (E2 : map (fun x => unslice (length A) (length A + length B) (map (c x) (A ++ B))) ts = map (fun t => map (c t) A) ts).
  { apply map_ext. intros t. rewrite map_app. unfold unslice. destruct (Nat.leb_spec (length A + length B) (length A)) as [L|L].
    + destruct B; [cbn; now rewrite app_nil_r|cbn in L; lia].
    + replace (length A) with (length (map (c t) A)) at 1 by apply map_length. rewrite firstn_len.
      rewrite skipn_all2 by (rewrite app_length, !map_length; lia). now rewrite app_nil_r. }
  rewrite E1, E2. reflexivity.
Qed.
Lemma nt_back D (s : sol R) : s_p s = [D] -> nt_inv ROps (Some 0) s = Ok (Some 0, set_p [] (set_t (map (fun t => t * D)%R (s_t s)) s)).
Proof. intros E. unfold nt_inv. cbn [bind]. rewrite E. cbn. destruct s. cbn in *. subst. reflexivity. Qed.
Lemma dc_back c A B ts (s : sol R) : s_y s = grid c (A ++ B) ts ->
  dc_inv ROps (seq (length A) (length B)) s = Ok (set_y (grid c A ts) (set_u (grid c B ts) s)).
Proof. intros E. unfold dc_inv. rewrite E, select_grid. cbn [bind set_u s_y]. rewrite E, delete_grid. reflexivity. Qed.
Lemma dg_back c A B L M ts (s : sol R) : s_y s = grid c (A ++ B) ts -> s_dual s = grid c (L ++ M) ts -> length L = length A -> length M = length B ->
  dg_inv ROps (seq (length A) (length B)) s = Ok (set_dual (grid c L ts) (set_y (grid c A ts) (set_u (grid c B ts) s))).
Proof.
  intros E F L1 L2. unfold dg_inv. rewrite E, select_grid. cbn [bind set_u s_y]. rewrite E, delete_grid. cbn [bind set_y set_u s_dual]. rewrite F, <- L1, <- L2, delete_grid. reflexivity.
Qed.
Lemma ms_back c X tau L ltau ts (s : sol R) : s_y s = grid c (X ++ [tau]) ts -> s_dual s = grid c (L ++ [ltau]) ts -> length L = length X ->
  ms_inv ROps (Some (length X)) s = Ok (Some (length X), set_dual (grid c L ts) (set_dual_t (map (fun t => c t ltau) ts) (set_y (grid c X ts) (set_t (map (fun t => c t tau) ts) s)))).
Proof.
  intros E F LL. assert (D1 := delete_grid c X [tau] ts). assert (D2 := delete_grid c L [ltau] ts). assert (C1 := column_grid c X tau ts). assert (C2 := column_grid c L ltau ts).
  rewrite LL in D2, C2. cbn [length seq] in D1, D2. destruct s as [ft fdt fy fd fq fu fdu fp fnu fk fc]. cbn [s_y s_dual] in E, F. subst fy fd. unfold ms_inv. cbn -[column delete_cols grid]. rewrite C1. cbn -[column delete_cols grid]. rewrite D1. cbn -[column delete_cols grid]. rewrite C2.
  cbn -[column delete_cols grid]. rewrite D2. reflexivity.
Qed.
Lemma alg_loop_back (options : R -> list R -> list R -> list R -> list R -> list (list R)) ham (c : R -> string -> R) A B U (g : R -> R) p k (ts : list R) :
  (forall t, In t ts -> pick_control ROps (fun u => ham (g t) (map (c t) A) (map (c t) B) u p k) (options (g t) (map (c t) A) (map (c t) B) p k) = Ok (map (c t) U)) ->
  alg_loop ROps options ham p k (map g ts) (map (fun t => map (c t) A) ts) (map (fun t => map (c t) B) ts) = Ok (map (fun t => map (c t) U) ts).
Proof.
  induction ts as [|t ts IH]; intros H; [reflexivity|]. cbn [map alg_loop]. rewrite (H t) by now left. cbn [bind]. rewrite IH by (intros; apply H; now right). reflexivity.
Qed.
Lemma alg_back options ham c A B U g ts (s : sol R) : s_t s = map g ts -> s_y s = grid c A ts -> s_dual s = grid c B ts -> ts <> [] ->
  (forall t, In t ts -> pick_control ROps (fun u => ham (g t) (map (c t) A) (map (c t) B) u (s_p s) (s_k s)) (options (g t) (map (c t) A) (map (c t) B) (s_p s) (s_k s)) = Ok (map (c t) U)) ->
  alg_inv ROps (length U) options ham s = Ok (set_u (grid c U ts) s).
Proof.
  intros E1 E2 E3 NE H. unfold alg_inv. rewrite E1, E2, E3. cbn [grid arows]. rewrite (alg_loop_back options ham c A B U g (s_p s) (s_k s) ts H). cbn [bind].
  destruct ts as [|t ts]; [contradiction|]. reflexivity.
Qed.

(** Evaluating at a point of the curve. *)
Lemma env_map (rho : string -> R) names x : In x names -> env names (map rho names) x = rho x.
Proof.
  intros I. destruct (index_of_In x names I) as (i & E). unfold env. rewrite E.
  revert i E. clear I. induction names as [|y names IH]; intros i E; cbn in E; [discriminate|]. destruct (String.eqb_spec x y) as [ ->|N].
  - injection E as <-. reflexivity.
  - destruct (index_of x names) as [j|]; [|discriminate]. cbn in E. injection E as <-. cbn. now apply IH.
Qed.
Lemma call_map fn (rho : string -> R) groups es : (forall e x, In e es -> In x (vars e) -> In x (concat groups)) ->
  call fn groups es (map (map rho) groups) = Ok (map (eval fn rho) es).
Proof.
  intros H. rewrite call_ok.
  - f_equal. apply map_ext_in. intros e I. apply eval_ext. intros x J. rewrite <- concat_map. apply env_map. exact (H e x I J).
  - unfold fits. rewrite map_length, Nat.eqb_refl. cbn [andb]. clear H. induction groups as [|g gs IH]; [reflexivity|]. cbn. rewrite map_length, Nat.eqb_refl. exact IH.
  - apply Forall_forall. intros e I x J. exact (H e x I J).
Qed.
Lemma map_over names vals rest : NoDup names -> length vals = length names -> map (over names vals rest) names = vals.
Proof.
  revert vals. induction names as [|x names IH]; intros [|v vals] ND L; try discriminate; [reflexivity|]. inversion ND; subst. cbn [map]. f_equal.
  - rewrite over_cons, String.eqb_refl. reflexivity.
  - rewrite <- (IH vals) at 2; [|assumption|now injection L]. apply map_ext_in. intros y I. rewrite over_cons. destruct (String.eqb_spec y x) as [ ->|]; [contradiction|reflexivity].
Qed.
Lemma map_over_out names vals rest l : (forall x, In x l -> ~ In x names) -> map (over names vals rest) l = map rest l.
Proof. intros H. apply map_ext_in. intros x I. apply over_out. now apply H. Qed.

(** The cost along the curve. *)
Lemma cost_back fn sm p c ts times q k v : ts <> [] -> p_params p = [] -> p_quads p = [] -> (alen q = 0 \/ exists w, q = Mat w (map (fun _ => []) ts)) ->
  (forall t, In t ts -> map (c t) (p_consts p) = k) ->
  incl (vars (p_cost_i p) ++ vars (p_cost_t p)) (syms (p_states p) ++ p_consts p) -> incl (vars (p_cost_p p)) (syms (p_states p) ++ p_controls p ++ p_consts p) ->
  sm (map (fun t => eval fn (c t) (p_cost_p p)) ts) times = Ok v ->
  compute_cost fn sm p times (grid c (syms (p_states p)) ts) q (grid c (p_controls p) ts) [] k =
    Ok (eval fn (c (hd 0%R ts)) (p_cost_i p) + eval fn (c (last ts 0%R)) (p_cost_t p) + v)%R.
Proof.
  intros NE EP EQ HQ HK VB VP SM. set (X := syms (p_states p)) in *. set (U := p_controls p) in *.
  assert (B : forall t e, In t ts -> incl (vars e) (X ++ p_consts p) -> call1 fn [X; syms (p_quads p); p_params p; p_consts p] e [map (c t) X; []; []; k] = Ok (eval fn (c t) e)).
  { intros t e I V. unfold call1. rewrite EP, EQ. rewrite <- (HK t I). change [map (c t) X; []; []; map (c t) (p_consts p)] with (map (map (c t)) [X; syms []; []; p_consts p]).
    rewrite call_map; [reflexivity|]. intros e' x [ <-|[]] J. cbn [concat syms map app]. rewrite app_nil_r. now apply V. }
  assert (P : forall t e, In t ts -> incl (vars e) (X ++ U ++ p_consts p) -> call1 fn [X; U; p_params p; p_consts p] e [map (c t) X; map (c t) U; []; k] = Ok (eval fn (c t) e)).
  { intros t e I V. unfold call1. rewrite EP. rewrite <- (HK t I). change [map (c t) X; map (c t) U; []; map (c t) (p_consts p)] with (map (map (c t)) [X; U; []; p_consts p]).
    rewrite call_map; [reflexivity|]. intros e' x [ <-|[]] J. cbn [concat app]. rewrite app_nil_r. now apply V. }
  assert (FQ : (if 0 <? alen q then first_row q else Ok []) = Ok [] /\ (if 0 <? alen q then last_row q else Ok []) = Ok []).
  { destruct HQ as [Z|(w & ->)]; [rewrite Z; split; reflexivity|]. cbn [alen]. rewrite map_length. destruct ts as [|t ts]; [contradiction|]. cbn [length Nat.ltb Nat.leb]. split; [reflexivity|].
    cbn [last_row map]. f_equal. clear. induction ts as [|x ts IH]; [reflexivity|exact IH]. }
  destruct FQ as [FQ1 FQ2].
  assert (FR : first_row (grid c X ts) = Ok (map (c (hd 0%R ts)) X)) by (destruct ts; [contradiction|reflexivity]).
  assert (LR : last_row (grid c X ts) = Ok (map (c (last ts 0%R)) X)).
  { unfold grid, last_row. destruct ts as [|t ts]; [contradiction|]. cbn [map]. f_equal. clear. revert t. induction ts as [|x ts IH]; intros t; [reflexivity|]. exact (IH x). }
  assert (H0 : In (hd 0%R ts) ts) by (destruct ts; [contradiction|now left]).
  assert (HL : In (last ts 0%R) ts).
  { destruct (exists_last NE) as (l & x & ->). rewrite last_last. apply in_or_app. right. now left. }
  unfold compute_cost. cbv zeta. fold X U. rewrite FR, FQ1. cbn [bind]. rewrite (B _ (p_cost_i p) H0) by (intros x I; apply VB, in_or_app; now left). cbn [bind].
  rewrite LR, FQ2. cbn [bind]. rewrite (B _ (p_cost_t p) HL) by (intros x I; apply VB, in_or_app; now right). cbn [bind].
  assert (PA : mapM (fun yu => call1 fn [X; U; p_params p; p_consts p] (p_cost_p p) [fst yu; snd yu; []; k]) (combine (arows (grid c X ts)) (arows (grid c U ts))) = Ok (map (fun t => eval fn (c t) (p_cost_p p)) ts)).
  { cbn [grid arows]. clear - P VP. induction ts as [|t ts IH]; [reflexivity|]. cbn [map combine mapM fst snd]. rewrite (P t) by (try exact VP; now left). cbn [bind].
    rewrite IH by (intros; apply P; auto; now right). reflexivity. }
  rewrite PA. cbn [bind]. rewrite SM. reflexivity.
Qed.
