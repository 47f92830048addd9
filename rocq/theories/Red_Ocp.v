(** From a problem with translation symmetries to the hypotheses of Red_Chain.v:
    Dualize, DifferentialControlLaw and NormalizeTime, geometric method. *)
From Coq Require Import Reals Lra.
From Coquelicot Require Import Coquelicot.
From Verif Require Import Base Base_Facts Sym_Expr Sym_Facts Sym_Model Sym_Lu Sym_Dual Sym_Traj Geo_Model Geo_Properties
  Red_Model Red_Facts Red_Noether Red_Step Red_Reduce Red_Chain.
From Verif Require Sym_DiffCtl.
Open Scope string_scope.
Open Scope list_scope.
Open Scope nat_scope.

(** LUsolve only uses the symbols it is given. *)
Definition lu_vars (lu : list (list expr) -> list expr -> res (list expr)) : Prop :=
  forall A b x e y, lu A b = Ok x -> In e x -> In y (vars e) ->
    (exists row d, In row A /\ In d row /\ In y (vars d)) \/ (exists d, In d b /\ In y (vars d)).
(** LUsolve on the form of DifferentialControlLaw: unknowns that one row fixes. *)
Definition lu_geo (lu : list (list expr) -> list expr -> res (list expr)) : Prop :=
  forall n m udot b x, length udot = m -> m < n -> length b = 2 * n -> lu (omega_new n m (n - m - 1) udot) b = Ok x ->
    length x = 2 * n /\
    (forall i, i < n - m -> nth_error x i = Some (Opp (nth (n + i) b (Cst 0)))) /\
    (forall i, i < n -> i <> n - m - 1 -> nth_error x (n + i) = Some (nth i b (Cst 0))).

(** Names the program makes up. *)
Definition reserved (y : string) : Prop :=
  exists s, y = ("_lam_" ++ s)%string \/ y = ("_nu_" ++ s)%string \/ y = ("_q_" ++ s)%string \/ y = ("com_" ++ s)%string \/ y = ("_delta" ++ s)%string.
Definition symbols (p : prob) : list string :=
  used p ++ p_controls p ++ vars (p_cost_i p) ++ vars (p_cost_p p) ++ vars (p_cost_t p).
Definition unit_field (n k : nat) : list expr := map (fun i => if Nat.eqb i k then Cst 1 else Cst 0) (seq 0 n).

(** A problem whose first symmetries are translations of the states numbered in
    [K], none of them the last state (time, after MomentumShift). *)
Record translations (K : list nat) (r : rprob) : Prop := mkTrans {
  tr_costates : p_costates (r_p r) = []; tr_coparams : p_coparams (r_p r) = []; tr_params : p_params (r_p r) = [];
  tr_law : p_law (r_p r) = []; tr_coms : r_coms r = [];
  tr_fields : exists rest, r_fields r = map (unit_field (length (p_states (r_p r)))) K ++ rest;
  tr_nodup : NoDup (syms (p_states (r_p r)) ++ p_controls (r_p r));
  tr_some : K <> []; tr_K : NoDup K; tr_range : forall k, In k K -> k < length (p_states (r_p r)) - 1;
  tr_sym : forall k x e, In k K -> nth_error (p_states (r_p r)) k = Some (x, e) ->
    (forall s, In s (p_states (r_p r)) -> ~ In x (vars (snd s))) /\ ~ In x (vars (p_cost_p (r_p r))) /\
    ~ In x (dyn_used (p_quads (r_p r)) ++ fixed_names (r_p r));
  tr_names : forall y, In y (symbols (r_p r)) -> ~ reserved y }.

(** ** [simp] *)
Definition plain_nf (e : expr) : Prop := forall b, e = Opp b -> (forall z, b <> Cst z) /\ forall c, b <> Opp c.
Lemma simp_nf e : plain_nf (simp e).
Proof.
  induction e; cbn [simp]; try (intros b E; discriminate).
  - destruct (sadd_cases (simp e1) (simp e2)) as [(x & y & _ & _ & E)|[(_ & E)|[(_ & E)|E]]]; rewrite E; auto; intros b F; discriminate.
  - destruct (smul_cases (simp e1) (simp e2)) as [(x & y & _ & _ & E)|[(_ & E)|[(_ & E)|[(_ & E)|[(_ & E)|[(_ & E)|E]]]]]]; rewrite E; auto; intros b F; discriminate.
  - destruct (simp e) eqn:Q; cbn [sopp]; try (intros b F; discriminate F || injection F as <-; split; intros; discriminate).
    destruct (IHe e0 eq_refl) as [N1 N2]. intros b F. subst e0. exfalso. now apply (N2 b).
  - destruct (sinv_cases (simp e)) as [(_ & E)|[(_ & E)|E]]; rewrite E; intros b F; discriminate.
Qed.
Lemma sopp_sopp e : sopp (sopp (simp e)) = simp e.
Proof.
  assert (N := simp_nf e). destruct (simp e); cbn; try reflexivity; [now rewrite Z.opp_involutive|].
  destruct (N e0 eq_refl) as [N1 N2]. destruct e0; try reflexivity; exfalso; [now apply (N1 z)|now apply (N2 e0)].
Qed.
Lemma sopp_vars e : incl (vars (sopp e)) (vars e).
Proof. destruct e; cbn; intros y I; auto. Qed.
Lemma smul_vars a b y : In y (vars (smul a b)) -> In y (vars a) \/ In y (vars b).
Proof.
  destruct (smul_cases a b) as [(x & z & _ & _ & E)|[(_ & E)|[(_ & E)|[(_ & E)|[(_ & E)|[(_ & E)|E]]]]]]; rewrite E; cbn; auto; try tauto.
  apply in_app_or.
Qed.

(** ** Entries of the form after DifferentialControlLaw *)
Lemma geo_form n m udot : m < n -> length udot = m ->
  skew (2 * n) (omega_new n m (n - m - 1) udot) /\
  forall k, k < n - m - 1 -> forall i, i < 2 * n ->
    simp (entry (omega_new n m (n - m - 1) udot) i (n + k)) = if Nat.eqb i k then Cst 1 else Cst 0.
Proof.
  intros MN LU. set (ind := n - m - 1). assert (HM : m + ind < n) by (unfold ind; lia).
  destruct (Sym_DiffCtl.omega_entries (2 * n) n m ind udot eq_refl HM ltac:(lia)) as [[SQ1 SQ2] EQ].
  assert (EQ' : forall i j, i < 2 * n -> j < 2 * n -> entry (omega_new n m ind udot) i j =
    if Nat.eqb i ind && Nat.leb (2 * n - m) j && Nat.ltb (j - (2 * n - m)) (length udot)
    then Opp (nth (j - (2 * n - m)) udot (Cst 0))
    else if Nat.eqb j ind && Nat.leb (2 * n - m) i && Nat.ltb (i - (2 * n - m)) (length udot)
    then nth (i - (2 * n - m)) udot (Cst 0)
    else if Nat.eqb j (i + n) then Cst 1 else if Nat.eqb i (j + n) then Cst (-1) else Cst 0).
  { intros i j Hi Hj. change (entry (omega_new n m ind udot) i j) with (Sym_DiffCtl.entry (omega_new n m ind udot) i j).
    rewrite EQ by assumption. destruct (_ && _ && _); [reflexivity|]. destruct (_ && _ && _); [reflexivity|].
    unfold Sym_DiffCtl.entry, std_form.
    rewrite (nth_indep _ [] (map (fun j => if Nat.eqb j (0 + n) then Cst 1 else if Nat.eqb 0 (j + n) then Cst (-1) else Cst 0) (seq 0 (2 * n))))
      by (now rewrite map_length, seq_length).
    rewrite (map_nth (fun i => map (fun j => if Nat.eqb j (i + n) then Cst 1 else if Nat.eqb i (j + n) then Cst (-1) else Cst 0) (seq 0 (2 * n)))).
    rewrite seq_nth by assumption. cbn [plus].
    rewrite (nth_indep _ (Cst 0) ((fun j => if Nat.eqb j (i + n) then Cst 1 else if Nat.eqb i (j + n) then Cst (-1) else Cst 0) 0)) by (now rewrite map_length, seq_length).
    rewrite (map_nth (fun j => if Nat.eqb j (i + n) then Cst 1 else if Nat.eqb i (j + n) then Cst (-1) else Cst 0)).
    rewrite seq_nth by assumption. reflexivity. }
  rewrite LU in EQ'. split.
  - split; [exact SQ1|]. split.
    + apply Forall_forall. intros row I. apply (In_nth _ _ []) in I. destruct I as (i & Hi & <-). apply SQ2. lia.
    + intros i j Hi Hj. rewrite !EQ' by assumption.
      destruct (Nat.eqb_spec i j) as [->|NE].
      * destruct (Nat.eqb_spec j ind) as [->|]; cbn [andb];
          repeat match goal with
          | |- context [Nat.leb ?u ?v] => destruct (Nat.leb_spec u v)
          | |- context [Nat.eqb ?u ?v] => destruct (Nat.eqb_spec u v)
          end; cbn [andb]; try lia; reflexivity.
      * destruct (Nat.eqb_spec i ind) as [->|NI]; destruct (Nat.eqb_spec j ind) as [->|NJ]; cbn [andb]; try congruence;
          repeat match goal with
          | |- context [Nat.leb ?u ?v] => destruct (Nat.leb_spec u v)
          | |- context [Nat.ltb ?u ?v] => destruct (Nat.ltb_spec u v)
          | |- context [Nat.eqb ?u ?v] => destruct (Nat.eqb_spec u v)
          end; cbn [andb]; try lia; cbn [simp]; rewrite ?sopp_sopp; try reflexivity.
  - intros k Hk i Hi. rewrite EQ' by lia.
    destruct (Nat.eqb_spec i ind) as [->|NI]; destruct (Nat.eqb_spec (n + k) ind); cbn [andb]; try lia;
      repeat match goal with
      | |- context [Nat.leb ?u ?v] => destruct (Nat.leb_spec u v)
      | |- context [Nat.ltb ?u ?v] => destruct (Nat.ltb_spec u v)
      | |- context [Nat.eqb ?u ?v] => destruct (Nat.eqb_spec u v)
      end; cbn [andb]; try lia; reflexivity.
Qed.

(** ** The constants of motion *)
Lemma unit_noether lu integ n k dyn l : lu_std lu -> int_const integ -> k < n -> length dyn = 2 * n ->
  nth_error dyn (n + k) = Some l ->
  noether_field lu integ (std_form n) dyn (unit_field n k ++ zeros n) = Ok (Var l).
Proof.
  intros LS INT KN LD NL. unfold noether_field.
  assert (SY : symplectic (Some (std_form n)) = true).
  { apply (skew_symplectic n). apply (proj1 (geo_form n 0 [] ltac:(lia) eq_refl)). }
  assert (LUF : length (unit_field n k) = n) by (unfold unit_field; now rewrite map_length, seq_length).
  assert (LZ : length (zeros n) = n) by apply repeat_length.
  rewrite SY, app_length, std_form_length, LUF, LZ. replace (n + n) with (2 * n) by lia. rewrite Nat.eqb_refl.
  rewrite LS by (rewrite app_length; lia). cbn [bind]. f_equal.
  rewrite skipn_app, skipn_all2 by lia. rewrite LUF, Nat.sub_diag. cbn [skipn app].
  rewrite firstn_app, LUF, Nat.sub_diag. cbn [firstn]. rewrite app_nil_r, firstn_all2 by lia.
  rewrite simp_Sum. cbn [simp]. apply (hot_sum (n + k) _ (2 * n)); [lia|]. split.
  { rewrite !map_length, combine_length, app_length, map_length. lia. }
  intros i Hi. destruct (nth_error_some dyn i ltac:(lia)) as (v & Hv).
  rewrite !nth_error_map, nth_error_comb, Hv.
  destruct (Nat.ltb_spec i n) as [Hn|Hn].
  - rewrite nth_error_app1 by (rewrite map_length; lia). rewrite nth_error_map. unfold zeros.
    rewrite nth_error_repeat by assumption. cbn [option_map fst snd simp sopp Z.opp].
    rewrite INT by (cbn; tauto). destruct (Nat.eqb_spec i (n + k)); [lia|]. reflexivity.
  - rewrite nth_error_app2 by (rewrite map_length; lia). rewrite map_length, LZ. unfold unit_field.
    rewrite nth_error_map, nth_error_seq' by lia. cbn [option_map fst snd]. rewrite Nat.add_0_l.
    destruct (Nat.eqb_spec (i - n) k), (Nat.eqb_spec i (n + k)); try lia; cbn [simp].
    + rewrite INT by (cbn; tauto). subst i. rewrite NL in Hv. injection Hv as <-. reflexivity.
    + rewrite INT by (cbn; tauto). reflexivity.
Qed.

Lemma noether_all_app lu integ om dyn fs1 fs2 : forall i new, noether_all lu integ om dyn i (fs1 ++ fs2) = Ok new ->
  exists a b, new = a ++ b /\ noether_all lu integ om dyn i fs1 = Ok a.
Proof.
  induction fs1 as [|f fs IH]; intros i new H; [exists [], new; auto|]. cbn [app noether_all] in *.
  destruct (noether_field lu integ om dyn f) as [e|]; cbn [bind] in *; [|discriminate].
  destruct (noether_all lu integ om dyn (S i) (fs ++ fs2)) as [l|] eqn:E2; cbn [bind] in H; [|discriminate].
  destruct (IH _ _ E2) as (a & b & -> & E3). rewrite E3. cbn [bind]. apply Ok_inj in H. subst new.
  eexists _, b. split; [|reflexivity]. reflexivity.
Qed.

(** The triples (constant of motion, state, costate) of the translations. *)
Fixpoint triples (i : nat) (xs : list string) : list (string * string * string) :=
  match xs with [] => [] | x :: xs' => (("com_" ++ of_nat i)%string, x, lam x) :: triples (S i) xs' end.
Lemma noether_units lu integ n dyn xs : lu_std lu -> int_const integ -> length dyn = 2 * n -> forall K i,
  (forall k, In k K -> k < n) -> length K = length xs ->
  (forall j k x, nth_error K j = Some k -> nth_error xs j = Some x -> nth_error dyn (n + k) = Some (lam x)) ->
  noether_all lu integ (std_form n) dyn i (map (fun k => unit_field n k ++ zeros n) K) =
  Ok (map (fun t => (fst (fst t), Var (snd t))) (triples i xs)).
Proof.
  intros LS INT LD. induction xs as [|x xs IH]; intros [|k K] i HK HL HN; try discriminate; [reflexivity|].
  cbn [map noether_all triples]. rewrite (unit_noether lu integ n k dyn (lam x)); auto.
  - cbn [bind]. rewrite IH; auto.
    + intros k' I. apply HK. now right.
    + intros j k' x' E1 E2. apply (HN (S j)); assumption.
  - apply HK. now left.
  - apply (HN 0); reflexivity.
Qed.
Lemma triples_In xs : forall i c x l, In (c, x, l) (triples i xs) -> In x xs /\ l = lam x /\ exists j, c = ("com_" ++ of_nat j)%string /\ i <= j.
Proof.
  induction xs as [|y xs IH]; [intros i c x l []|intros i c x l [E|I]].
  - injection E as <- <- <-. repeat split; [now left|]. exists i. auto.
  - destruct (IH _ _ _ _ I) as (A & B & j & C & D). repeat split; [now right|exact B|]. exists j. split; [exact C|lia].
Qed.
Lemma triples_xs xs : forall i, map (fun t => snd (fst t)) (triples i xs) = xs.
Proof. induction xs as [|y xs IH]; intros i; [reflexivity|]. cbn. now rewrite IH. Qed.
Lemma triples_cs xs : forall i, NoDup (map (fun t => fst (fst t)) (triples i xs)).
Proof.
  induction xs as [|y xs IH]; intros i; cbn [triples map fst]; constructor; auto.
  intros I. apply in_map_iff in I. destruct I as ([[c x] l] & E & I). cbn in E. subst c. apply triples_In in I.
  destruct I as (_ & _ & j & E & Hj). cbn in E. injection E as E. apply of_nat_inj in E. lia.
Qed.
Lemma triples_length xs : forall i, length (triples i xs) = length xs.
Proof. induction xs as [|y xs IH]; intros i; [reflexivity|]. cbn. now rewrite IH. Qed.

(** ** What the steps leave alone *)
Lemma finish_keeps h q : p_consts (dual_finish h q) = p_consts q /\ p_law (dual_finish h q) = p_law q.
Proof. split; reflexivity. Qed.
Lemma start_keeps p : p_consts (dual_start p) = p_consts p /\ p_law (dual_start p) = p_law p.
Proof. split; reflexivity. Qed.
Lemma dualize_keeps lu m p p' : dualize lu m p = Ok p' -> lower m = "diffyg" -> p_consts p' = p_consts p /\ p_law p' = p_law p.
Proof.
  intros H M. destruct (dualize_diffyg_eq lu m p p' H M) as (q & E & ->).
  rewrite (proj1 (finish_keeps _ _)), (proj2 (finish_keeps _ _)), <- (proj1 (start_keeps p)), <- (proj2 (start_keeps p)).
  revert E. generalize (dual_start p). generalize (dual_ham p). intros h q0 E.
  unfold costates_diffyg in E. destruct (negb _); [discriminate|].
  match type of E with bind ?e _ = _ => destruct e as [chi|] end; cbn [bind] in E; [|discriminate]. apply Ok_inj in E. subst q. split; reflexivity.
Qed.
Lemma diffctl_keeps lu m p p2 : differential_control lu m p = Ok p2 -> lower m = "diffyg" ->
  p_consts p2 = p_consts p /\ p_law p2 = p_law p /\ p_quads p2 = p_quads p /\ p_coparams p2 = p_coparams p /\
  p_params p2 = p_params p /\ p_cpars p2 = p_cpars p /\ p_cadj p2 = p_cadj p /\ p_symp p2 = p_symp p.
Proof.
  unfold differential_control. destruct (p_dual p); [|discriminate]. destruct (p_ham p) as [h|]; [|discriminate].
  intros H M. match type of H with bind ?e _ = _ => destruct e as [udot|] end; cbn [bind] in H; [|discriminate]. rewrite M in H. cbv zeta in H.
  cbn [String.eqb Ascii.eqb Bool.eqb] in H. destruct (negb _); [discriminate|].
  match type of H with bind ?e _ = _ => destruct e as [chi|] end; cbn [bind] in H; [|discriminate].
  apply Ok_inj in H. subst p2. repeat split; reflexivity.
Qed.

(** ** Symbols after Dualize and DifferentialControlLaw *)
Definition made (y : string) : Prop := exists s, y = lam s \/ y = ("_nu_" ++ s)%string.
Definition known (p : prob) (y : string) : Prop := In y (symbols p) \/ made y.

Lemma dyn_used_In l y : In y (dyn_used l) <-> exists s, In s l /\ (y = fst s \/ In y (vars (snd s))).
Proof. unfold dyn_used. rewrite in_flat_map. split; intros (s & I & J); exists s; split; auto; destruct J; cbn; auto. Qed.
Lemma constr_used_In l y : In y (constr_used l) <-> exists k, In k l /\ In y (vars (c_expr k)).
Proof. unfold constr_used. apply in_flat_map. Qed.
Lemma nu_made pre cs y : (exists s, pre = ("_nu_" ++ s)%string) -> In y (nu_names pre cs) -> made y.
Proof.
  intros (s & ->) I. unfold nu_names in I. apply in_map_iff in I. destruct I as (i & <- & _). exists (s ++ of_nat i)%string. now right.
Qed.
Lemma vars_adjoin c nus cs y : In y (vars (adjoin c nus cs)) -> In y (vars c) \/ In y nus \/ In y (constr_used cs).
Proof.
  unfold adjoin. rewrite vars_Sum. intros [H|(e & I & J)]; auto. apply in_map_iff in I. destruct I as ([nu k] & <- & I).
  cbn [fst snd vars] in J. cbn in J. destruct J as [<-|J].
  - right. left. eapply in_combine_l, I.
  - right. right. apply constr_used_In. exists k. split; auto. eapply in_combine_r, I.
Qed.
Lemma ham_vars p y : In y (vars (dual_ham p)) -> In y (vars (p_cost_p p)) \/
  exists s, In s (p_states p) /\ (y = lam (fst s) \/ In y (vars (snd s))).
Proof.
  unfold dual_ham. rewrite vars_Sum. intros [H|(e & I & J)]; auto. apply in_map_iff in I. destruct I as (s & <- & I).
  cbn [vars] in J. cbn in J. right. exists s. split; auto. destruct J as [<-|J]; auto.
Qed.
Lemma ham_known p y : In y (vars (dual_ham p)) -> known p y.
Proof.
  intros I. apply ham_vars in I. unfold known, symbols, used. rewrite !in_app_iff. destruct I as [I|(s & I & [->|J])]; [tauto| |].
  - right. exists (fst s). now left.
  - left. left. left. apply dyn_used_In. eauto.
Qed.
Lemma std_form_vars n row d y : In row (std_form n) -> In d row -> ~ In y (vars d).
Proof.
  unfold std_form. intros I J. apply in_map_iff in I. destruct I as (i & <- & _). apply in_map_iff in J. destruct J as (j & <- & _).
  destruct (Nat.eqb _ _); [tauto|]. destruct (Nat.eqb _ _); cbn; tauto.
Qed.
Lemma omega_vars n m ind udot row d y : m + ind < n -> length udot <= m -> In row (omega_new n m ind udot) -> In d row -> In y (vars d) ->
  exists u, In u udot /\ In y (vars u).
Proof.
  intros MI LU IR ID IY.
  destruct (Sym_DiffCtl.omega_entries (2 * n) n m ind udot eq_refl MI LU) as [[SQ1 SQ2] EQ].
  apply (In_nth _ _ []) in IR. destruct IR as (i & Hi & <-). rewrite SQ1 in Hi.
  apply (In_nth _ _ (Cst 0)) in ID. destruct ID as (j & Hj & <-). rewrite SQ2 in Hj by assumption.
  fold (Sym_DiffCtl.entry (omega_new n m ind udot) i j) in IY. rewrite EQ in IY by assumption.
  destruct (Nat.eqb i ind && _ && _) eqn:B1.
  - apply andb_prop in B1. destruct B1 as [_ B1]. apply Nat.ltb_lt in B1. eexists. split; [apply nth_In, B1|exact IY].
  - destruct (Nat.eqb j ind && _ && _) eqn:B2.
    + apply andb_prop in B2. destruct B2 as [_ B2]. apply Nat.ltb_lt in B2. eexists. split; [apply nth_In, B2|exact IY].
    + exfalso. revert IY. unfold Sym_DiffCtl.entry. assert (IR := nth_In (std_form n) [] (n := i) ltac:(rewrite std_form_length; exact Hi)).
      apply (std_form_vars n _ _ y IR). apply nth_In.
      pose proof (std_form_row n) as F. rewrite Forall_forall in F. rewrite (F _ IR). exact Hj.
Qed.

Lemma skipn_In' {A} n (l : list A) x : In x (skipn n l) -> In x l.
Proof. intros I. rewrite <- (firstn_skipn n l). apply in_or_app. now right. Qed.
Section Chi.
  Variable lu : list (list expr) -> list expr -> res (list expr).
  Hypothesis LV : lu_vars lu.
  Hypothesis LU : lu_ok lu.

  Lemma ham_field_vars h om basis chi e y : ham_field lu h om basis = Ok chi -> In e chi -> In y (vars e) ->
    (exists row d, In row om /\ In d row /\ In y (vars d)) \/ In y (vars h).
  Proof.
    unfold ham_field. destruct (Nat.odd _); [discriminate|]. destruct (lu om _) as [x|] eqn:E; cbn [bind]; [|discriminate].
    intros H I J. apply Ok_inj in H. subst chi. apply in_map_iff in I. destruct I as (d & <- & I). cbn [vars] in J.
    destruct (LV _ _ _ _ _ E I J) as [K|(c & K1 & K2)]; [now left|]. right. apply in_map_iff in K1. destruct K1 as (b & <- & _).
    now apply vars_diff in K2.
  Qed.
  (** Costate rates only use the symbols of the Hamiltonian. *)
  Lemma costate_vars m p p' s y : dualize lu m p = Ok p' -> lower m = "diffyg" -> p_costates p = [] ->
    In s (p_costates p') -> In y (vars (snd s)) -> In y (vars (dual_ham p)).
  Proof.
    intros H M E1. destruct (dualize_diffyg_eq lu m p p' H M) as (q & E & ->).
    assert (CS : forall s, In s (p_costates (dual_start p)) -> snd s = Cst 0).
    { intros s'. rewrite dual_start_costates, E1. cbn. rewrite in_map_iff. intros (z & <- & _). reflexivity. }
    change (p_costates (dual_finish (dual_ham p) q)) with (p_costates q).
    revert E CS. generalize (dual_start p). generalize (dual_ham p). intros h q0 E CS.
    unfold costates_diffyg in E. destruct (negb _); [discriminate|].
    match type of E with bind ?e _ = _ => destruct e as [chi|] eqn:EC end; cbn [bind] in E; [|discriminate]. apply Ok_inj in E. subst q.
    cbn [set_costates p_costates]. rewrite in_app_iff. intros [I|I] J.
    - apply in_map_iff in I. destruct I as ([[a0 b0] e] & <- & I). cbn [fst snd] in *. apply in_combine_r in I. unfold last_k in I.
      assert (IC : In e chi).
      { destruct (Nat.eqb _ _); [exact I|]. rewrite <- (firstn_skipn (length chi - length (p_states q0)) chi). apply in_or_app. now right. }
      destruct (ham_field_vars _ _ _ _ _ _ EC IC J) as [(row & d & K1 & K2 & K3)|K]; [|exact K].
      exfalso. eapply std_form_vars; eauto.
    - rewrite (CS s) in J; [contradiction|]. eapply (skipn_In' _ _ _ I).
  Qed.
  (** Control rates only use known symbols. *)
  Lemma rates_vars m p p0 h udot u y : dualize lu m p = Ok p0 -> lower m = "diffyg" -> p_costates p = [] ->
    h = dual_ham p -> p_states p0 = p_states p ->
    control_rates lu p0 h = Ok udot -> In u udot -> In y (vars u) -> known p y.
  Proof.
    intros H M E1 -> ES C I J. destruct (LV _ _ _ _ _ C I J) as [(row & d & K1 & K2 & K3)|(d & K1 & K2)].
    - unfold jacobian in K1. apply in_map_iff in K1. destruct K1 as (g & <- & K1). apply in_map_iff in K1. destruct K1 as (v & <- & _).
      apply in_map_iff in K2. destruct K2 as (w & <- & _). apply ham_known. now apply vars_diff, vars_diff in K3.
    - apply in_map_iff in K1. destruct K1 as (row & <- & K1). unfold dot in K2. rewrite vars_Sum in K2. destruct K2 as [[]|(e & K2 & K3)].
      apply in_map_iff in K2. destruct K2 as ([a b] & <- & K2). cbn [fst snd vars] in K3. apply in_app_or in K3. destruct K3 as [K3|K3].
      + apply in_combine_l in K2. apply in_map_iff in K2. destruct K2 as (d & <- & K2). cbn [vars] in K3.
        unfold jacobian in K1. apply in_map_iff in K1. destruct K1 as (g & <- & K1). apply in_map_iff in K1. destruct K1 as (v & <- & _).
        apply in_map_iff in K2. destruct K2 as (w & <- & _). apply ham_known. now apply vars_diff, vars_diff in K3.
      + apply in_combine_r in K2. unfold eoms in K2. apply in_map_iff in K2. destruct K2 as (s & <- & K2). apply in_app_or in K2.
        destruct K2 as [K2|K2].
        * rewrite ES in K2. left. unfold symbols, used. rewrite !in_app_iff. left. left. apply dyn_used_In. eauto.
        * apply ham_known. eapply costate_vars; eauto.
  Qed.
End Chi.

(** The derivative of the Hamiltonian for a costate is a rate. *)
Lemma ham_lam_vars p x y : (forall s, In s (p_states p) -> ~ In (lam x) (vars (snd s))) -> ~ In (lam x) (vars (p_cost_p p)) ->
  In y (vars (simp (diff (lam x) (dual_ham p)))) -> exists s, In s (p_states p) /\ In y (vars (snd s)).
Proof.
  intros F1 F2. unfold dual_ham. rewrite diff_Sum, simp_Sum, simp_diff_fresh by assumption.
  assert (G : forall l acc, (forall s, In s l -> In s (p_states p)) -> (In y (vars acc) -> exists s, In s (p_states p) /\ In y (vars (snd s))) ->
    In y (vars (fold_left sadd (map simp (map (diff (lam x)) (map (fun s => Mul (Var (lam (fst s))) (snd s)) l))) acc)) ->
    exists s, In s (p_states p) /\ In y (vars (snd s))).
  { induction l as [|s l IH]; intros acc HS HA I; [auto|]. cbn [map fold_left] in I. apply IH in I; auto.
    { intros s' I'. apply HS. now right. }
    cbn [diff simp]. rewrite (simp_diff_fresh (lam x) (snd s)) by (apply F1, HS; now left). rewrite smul_0_r.
    intros J. assert (K : In y (vars acc) \/ In y (vars (simp (snd s)))).
    { assert (SA : forall a b, In y (vars (sadd a b)) -> In y (vars a) \/ In y (vars b)).
      { intros a b. destruct (sadd_cases a b) as [(z & w & _ & _ & E)|[(_ & E)|[(_ & E)|E]]]; rewrite E; cbn; auto; [contradiction|apply in_app_or]. }
      apply SA in J. destruct J as [J|J]; [now left|]. apply SA in J. destruct J as [J|[]]. right.
      apply smul_vars in J. destruct J as [J|J]; [|exact J]. exfalso. revert J. destruct (String.eqb _ _); cbn; tauto. }
    destruct K as [K|K]; [auto|]. exists s. split; [apply HS; now left|]. now apply simp_vars in K. }
  apply G; auto. intros [].
Qed.

Lemma not_made_com s : ~ made ("com_" ++ s)%string.
Proof. intros (t & [E|E]); discriminate. Qed.
Lemma not_made_q s : ~ made ("_q_" ++ s)%string.
Proof. intros (t & [E|E]); discriminate. Qed.
Lemma not_made_delta s : ~ made ("_delta" ++ s)%string.
Proof. intros (t & [E|E]); discriminate. Qed.
Lemma lam_inj' x y : lam x = lam y -> x = y.
Proof. unfold lam. cbn. now injection 1. Qed.

(** ** The problem after Dualize and DifferentialControlLaw *)
Lemma NoDup_map_inj_on {A B} (f : A -> B) l : (forall a b, In a l -> In b l -> f a = f b -> a = b) -> NoDup l -> NoDup (map f l).
Proof.
  induction l as [|a l IH]; intros H N; cbn; constructor; inversion N; subst.
  - intros I. apply in_map_iff in I. destruct I as (b & E & I). apply H in E; [|now right|now left]. congruence.
  - apply IH; auto. intros x y Ix Iy. apply H; now right.
Qed.
Lemma nodup_app' {A} (l m : list A) : NoDup l -> NoDup m -> (forall x, In x l -> ~ In x m) -> NoDup (l ++ m).
Proof.
  induction l as [|a l IH]; intros N1 N2 D; cbn; auto. inversion N1; subst. constructor.
  - rewrite in_app_iff. intros [I|I]; auto. apply (D a); auto. now left.
  - apply IH; auto. intros x I. apply D. now right.
Qed.
Lemma nth_error_firstn {A} (l : list A) : forall n i, i < n -> nth_error (firstn n l) i = nth_error l i.
Proof. induction l as [|a l IH]; intros [|n] [|i] H; cbn; try lia; auto. apply IH. lia. Qed.
Lemma nth_error_skipn' {A} (l : list A) : forall n i, nth_error (skipn n l) i = nth_error l (n + i).
Proof. induction l as [|a l IH]; intros [|n] i; cbn; auto. destruct i; reflexivity. Qed.
Section Ocp.
  Variable lu : list (list expr) -> list expr -> res (list expr).
  Variable integ : expr -> string -> expr.
  Hypothesis LU : lu_ok lu.
  Hypothesis LS : lu_std lu.
  Hypothesis LG : lu_geo lu.
  Hypothesis LV : lu_vars lu.
  Hypothesis INT : int_const integ.

  Record dual_diff (p : prob) (r r1 : rprob) (udot chi : list expr) (new : list (string * expr)) : Prop := mkDD {
    dd_udot : length udot = length (p_controls p);
    dd_uvars : forall u y, In u udot -> In y (vars u) -> known p y;
    dd_chi : ham_field lu (dual_ham p)
       (omega_new (length (p_states p) + length (p_controls p)) (length (p_controls p)) (length (p_states p) - 1) udot)
       ((syms (p_states p) ++ p_controls p) ++ map lam (syms (p_states p) ++ p_controls p)) = Ok chi;
    dd_states : p_states (r_p r1) = combine (syms (p_states p) ++ p_controls p) (firstn (length (p_states p) + length (p_controls p)) chi);
    dd_costates : p_costates (r_p r1) = combine (map lam (syms (p_states p) ++ p_controls p)) (skipn (length (p_states p) + length (p_controls p)) chi);
    dd_omega : r_omega r1 = Some (omega_new (length (p_states p) + length (p_controls p)) (length (p_controls p)) (length (p_states p) - 1) udot);
    dd_law : p_law (r_p r1) = p_law p; dd_coparams : p_coparams (r_p r1) = []; dd_params : p_params (r_p r1) = [];
    dd_quads : p_quads (r_p r1) = p_quads p;
    dd_fixed : fixed_names (r_p r1) = fixed_names p ++ nu_names "_nu_0_" (p_ci p) ++ nu_names "_nu_f_" (p_ct p);
    dd_ci : forall k, In k (p_ci (r_p r1)) -> In k (p_ci p) \/ forall y, In y (vars (c_expr k)) -> known p y;
    dd_ct : forall k, In k (p_ct (r_p r1)) -> In k (p_ct p) \/ forall y, In y (vars (c_expr k)) -> known p y;
    dd_coms : r_coms r1 = r_coms r ++ [("hamiltonian", dual_ham p)] ++ new;
    dd_new : noether_all lu integ (std_form (length (p_states p))) (syms (p_states p) ++ map lam (syms (p_states p))) 0
        (map (fun f => f ++ zeros (length (p_states p))) (r_fields r)) = Ok new;
    dd_reds : r_reds r1 = r_reds r; dd_ind : p_ind (r_p r1) = p_ind p; dd_symp : p_symp (r_p r1) = p_symp p }.

  Lemma plain_expr e : c_expr (plain e) = e.
  Proof. reflexivity. Qed.
  Lemma adj_known p y : In y (vars (adjoin (p_cost_i p) (nu_names "_nu_0_" (p_ci p)) (p_ci p))) \/
      In y (vars (adjoin (p_cost_t p) (nu_names "_nu_f_" (p_ct p)) (p_ct p))) -> known p y.
  Proof.
    intros [I|I]; apply vars_adjoin in I; unfold known, symbols, used; rewrite !in_app_iff; destruct I as [I|[I|I]]; try tauto;
      right; eapply nu_made; try exact I; eexists; reflexivity.
  Qed.

  Lemma dual_diff_shape m r r0 r1 : lower m = "diffyg" -> p_costates (r_p r) = [] -> p_coparams (r_p r) = [] -> p_params (r_p r) = [] ->
    0 < length (p_states (r_p r)) ->
    dualize_r lu integ m r = Ok r0 -> diff_r lu m r0 = Ok r1 -> exists udot chi new, dual_diff (r_p r) r r1 udot chi new.
  Proof.
    intros M E1 E2 E3 POS H0 H1. set (p := r_p r) in *. set (h := dual_ham p).
    unfold dualize_r in H0. fold p in H0. destruct (dualize lu m p) as [p0|] eqn:D; cbn [bind] in H0; [|discriminate].
    rewrite M in H0. cbn [String.eqb Ascii.eqb Bool.eqb] in H0.
    destruct (dualize_keeps lu m p p0 D M) as [KC KL].
    destruct (dualize_diffyg lu LU m p p0 D M E1 E2) as (DO & CO & _). fold h in DO.
    assert (LCS : length (p_costates p0) = length (p_states p)).
    { assert (A := d_lams _ _ _ DO). apply (f_equal (@length string)) in A. unfold syms in A. now rewrite !map_length in A. }
    rewrite (d_states _ _ _ DO), (d_params _ _ _ DO), (d_lams _ _ _ DO), E3, LCS in H0. cbn [length] in H0. rewrite Nat.add_0_r in H0.
    match type of H0 with bind ?e _ = _ => destruct e as [new|] eqn:NA end; cbn [bind] in H0; [|discriminate]. apply Ok_inj in H0.
    assert (P0 : r_p r0 = p0) by (now subst r0). assert (C0 : r_coms r0 = (r_coms r ++ [("hamiltonian", h)]) ++ new) by (now subst r0).
    assert (R0 : r_reds r0 = r_reds r) by (now subst r0). clear H0.
    unfold diff_r in H1. rewrite P0 in H1. destruct (differential_control lu m p0) as [p1|] eqn:DC; cbn [bind] in H1; [|discriminate].
    rewrite M in H1. cbn [String.eqb Ascii.eqb Bool.eqb] in H1. rewrite (d_ham _ _ _ DO) in H1.
    destruct (control_rates lu p0 h) as [udot|] eqn:CR; cbn [bind] in H1; [|discriminate]. apply Ok_inj in H1.
    destruct (diffctl_keeps lu m p0 p1 DC M) as (KC1 & KL1 & KQ1 & KO1 & KP1 & KR1 & KA1 & KS1).
    destruct (Sym_DiffCtl.diffctl_diffyg lu m p0 p1 DC M) as (h' & udot' & chi & HH & CR' & SH & _ & ECT & ECI & EIN).
    rewrite (d_ham _ _ _ DO) in HH. injection HH as <-. change (control_rates lu p0 h = Ok udot') in CR'. rewrite CR in CR'. apply Ok_inj in CR'. subst udot'.
    assert (LUD : length udot = length (p_controls p0)).
    { unfold control_rates in CR. apply LU in CR.
      - destruct CR as [L _]. rewrite L. unfold jacobian. now rewrite !map_length.
      - unfold jacobian. now rewrite !map_length.
      - apply Forall_forall. intros row I. unfold jacobian in I. apply in_map_iff in I. destruct I as (g & <- & _). unfold jacobian. now rewrite !map_length. }
    destruct (SH LUD) as (HF & S1 & S2). clear SH.
    rewrite (d_states _ _ _ DO), (d_controls _ _ _ DO), (d_lams _ _ _ DO), <- map_app in HF.
    rewrite (d_states _ _ _ DO), (d_controls _ _ _ DO) in S1. rewrite (d_states _ _ _ DO), (d_controls _ _ _ DO), (d_lams _ _ _ DO), <- map_app in S2.
    rewrite (d_controls _ _ _ DO) in LUD.
    assert (LN : length (p_states p1) = length (p_states p) + length (p_controls p)).
    { rewrite S1, combine_length, app_length, firstn_length. unfold syms. rewrite map_length.
      assert (LC : length chi = 2 * (length (p_states p) + length (p_controls p))); [|lia].
      unfold ham_field in HF. destruct (Nat.odd _); [discriminate|]. match type of HF with bind ?e _ = _ => destruct e as [x|] eqn:EX end; cbn [bind] in HF; [|discriminate].
      apply Ok_inj in HF. subst chi. rewrite map_length.
      replace (length (p_states p) - 1) with (length (p_states p) + length (p_controls p) - length (p_controls p) - 1) in EX by lia.
      apply LG in EX; [tauto|exact LUD|lia|]. rewrite map_length, app_length, map_length, app_length. unfold syms. rewrite map_length. lia. }
    rewrite (d_states _ _ _ DO), (d_controls _ _ _ DO), LN in H1.
    exists udot, chi, new. subst r1. constructor; cbn [r_p r_omega r_coms r_reds]; auto.
    - intros u y I J. eapply (rates_vars lu LV m p p0 h udot u y); eauto. apply (d_states _ _ _ DO).
    - congruence.
    - rewrite KO1, CO, E3. reflexivity.
    - rewrite KP1, (d_params _ _ _ DO). exact E3.
    - rewrite KQ1. apply (d_quads _ _ _ DO).
    - unfold fixed_names. rewrite KP1, KC1, KR1, KA1, KC, (d_params _ _ _ DO), (d_cpars _ _ _ DO), (d_cadj _ _ _ DO), !app_assoc. reflexivity.
    - intros k I. rewrite ECI, (d_ci _ _ _ DO), E3, app_nil_r, (d_cost_i _ _ _ DO), !in_app_iff, !in_map_iff in I.
      destruct I as [[I|(x & <- & I)]|(u & <- & I)]; [now left| |]; right; rewrite plain_expr; intros y J; cbn [vars] in J.
      + destruct J as [<-|J]; [right; exists x; now left|]. apply vars_diff in J. apply adj_known. now left.
      + destruct J as [<-|[]]. right. exists u. now left.
    - intros k I. rewrite ECT, (d_ct _ _ _ DO), E3, app_nil_r, (d_cost_t _ _ _ DO), !in_app_iff, !in_map_iff in I.
      destruct I as [[I|[(x & <- & I)|[<-|[]]]]|(u & <- & I)]; [now left| | |]; right; rewrite plain_expr; intros y J; cbn [vars Sub] in J.
      + destruct J as [<-|J]; [right; exists x; now left|]. apply vars_diff in J. apply adj_known. now right.
      + apply in_app_or in J. destruct J as [J|J]; [apply vars_diff in J; apply adj_known; now right|]. now apply ham_known.
      + apply vars_diff in J. now apply ham_known.
    - rewrite C0, <- app_assoc. reflexivity.
    - rewrite EIN. apply (d_ind _ _ _ DO).
    - rewrite KS1. apply (d_symp _ _ _ DO).
  Qed.

  Lemma known_used r r1 udot chi new : 0 < length (p_states (r_p r)) -> dual_diff (r_p r) r r1 udot chi new ->
    forall y, In y (used (r_p r1)) -> known (r_p r) y.
  Proof.
    intros POS DD y. set (p := r_p r) in *.
    assert (CV : forall e, In e chi -> In y (vars e) -> known p y).
    { intros e I J. destruct (ham_field_vars lu LV _ _ _ _ _ _ (dd_chi _ _ _ _ _ _ DD) I J) as [(row & d & K1 & K2 & K3)|K]; [|now apply ham_known].
      assert (U : exists u, In u udot /\ In y (vars u)).
      { eapply omega_vars; [| |exact K1|exact K2|exact K3]; [lia|rewrite (dd_udot _ _ _ _ _ _ DD); lia]. }
      destruct U as (u & U1 & U2).
      eapply (dd_uvars _ _ _ _ _ _ DD); eauto. }
    unfold used. rewrite (dd_states _ _ _ _ _ _ DD), (dd_costates _ _ _ _ _ _ DD), (dd_coparams _ _ _ _ _ _ DD), (dd_quads _ _ _ _ _ _ DD), (dd_fixed _ _ _ _ _ _ DD).
    cbn [app]. rewrite !in_app_iff. intros [I|[I|[I|[[I|[I|I]]|[I|I]]]]].
    - apply dyn_used_In in I. destruct I as ([z e] & I & [->|J]); cbn [fst snd] in *.
      + apply in_combine_l in I. left. unfold symbols, used. rewrite !in_app_iff in *. destruct I as [I|I]; [|tauto].
        left. left. apply dyn_used_In. unfold syms in I. apply in_map_iff in I. destruct I as (s0 & <- & I). eauto.
      + apply in_combine_r in I. apply CV with e; auto. rewrite <- (firstn_skipn (length (p_states p) + length (p_controls p)) chi). apply in_or_app. now left.
    - apply dyn_used_In in I. destruct I as ([z e] & I & [->|J]); cbn [fst snd] in *.
      + apply in_combine_l in I. apply in_map_iff in I. destruct I as (x & <- & _). right. exists x. now left.
      + apply in_combine_r in I. apply CV with e; auto. now apply skipn_In' in I.
    - left. unfold symbols, used. rewrite dyn_used_app, !in_app_iff. tauto.
    - left. unfold symbols, used. rewrite !in_app_iff. tauto.
    - right. eapply nu_made; [|exact I]. eexists; reflexivity.
    - right. eapply nu_made; [|exact I]. eexists; reflexivity.
    - apply constr_used_In in I. destruct I as (k & I & J). apply (dd_ci _ _ _ _ _ _ DD) in I. destruct I as [I|I]; [|auto].
      left. unfold symbols, used. rewrite !in_app_iff. left. do 4 right. left. apply constr_used_In. eauto.
    - apply constr_used_In in I. destruct I as (k & I & J). apply (dd_ct _ _ _ _ _ _ DD) in I. destruct I as [I|I]; [|auto].
      left. unfold symbols, used. rewrite !in_app_iff. left. do 5 right. apply constr_used_In. eauto.
  Qed.

  Definition xs_of (K : list nat) (p : prob) : list string := map (fun k => nth k (syms (p_states p)) "") K.
  Lemma xs_of_In K p x : (forall k, In k K -> k < length (p_states p)) -> In x (xs_of K p) ->
    exists k e, In k K /\ nth_error (p_states p) k = Some (x, e) /\ nth_error (syms (p_states p)) k = Some x.
  Proof.
    intros HK I. unfold xs_of in I. apply in_map_iff in I. destruct I as (k & <- & I). destruct (nth_error_some (p_states p) k (HK k I)) as ([y e] & E).
    assert (E2 : nth_error (syms (p_states p)) k = Some y) by (unfold syms; rewrite nth_error_map, E; reflexivity).
    exists k, e. rewrite (nth_error_nth _ _ "" E2). auto.
  Qed.

  Theorem dual_diff_reducible K m r r0 r1 : lower m = "diffyg" -> translations K r ->
    dualize_r lu integ m r = Ok r0 -> diff_r lu m r0 = Ok r1 -> reducible (triples 0 (xs_of K (r_p r))) r1.
  Proof.
    intros M T H0 H1.
    assert (POS : 0 < length (p_states (r_p r)) - 1).
    { destruct K as [|k K]; [exfalso; now apply (tr_some _ _ T)|]. pose proof (tr_range _ _ T k (or_introl eq_refl)). lia. }
    assert (HK : forall k, In k K -> k < length (p_states (r_p r))) by (intros k I; apply (tr_range _ _ T) in I; lia).
    destruct (dual_diff_shape m r r0 r1 M (tr_costates _ _ T) (tr_coparams _ _ T) (tr_params _ _ T) ltac:(lia) H0 H1) as (udot & chi & new & DD).
    assert (KU := known_used r r1 udot chi new ltac:(lia) DD).
    set (p := r_p r) in *. set (qs := syms (p_states p) ++ p_controls p). set (n := length (p_states p) + length (p_controls p)).
    assert (LQ : length qs = n) by (unfold qs, syms; now rewrite app_length, map_length).
    assert (NAMES : forall y, In y (symbols p) -> ~ reserved y) by apply (tr_names _ _ T).
    assert (QS : forall y, In y qs -> In y (symbols p)).
    { intros y I. unfold symbols, used. unfold qs in I. rewrite !in_app_iff in *. destruct I as [I|I]; [|tauto].
      left. left. apply dyn_used_In. unfold syms in I. apply in_map_iff in I. destruct I as (s0 & <- & I). eauto. }
    assert (RL : forall s, reserved (lam s)) by (intros s; exists s; now left).
    assert (RN : forall s, reserved ("_nu_" ++ s)) by (intros s; exists s; tauto).
    assert (RM : forall y, made y -> reserved y) by (intros y (s & [E|E]); rewrite E; auto).
    assert (HCHI := dd_chi _ _ _ _ _ _ DD). fold qs n in HCHI.
    replace (length (p_states p) - 1) with (n - length (p_controls p) - 1) in HCHI by (unfold n; lia).
    assert (CHI : length chi = 2 * n /\
      (forall i, i < n - length (p_controls p) -> nth_error chi i = Some (Opp (Opp (diff (lam (nth i qs "")) (dual_ham p))))) /\
      (forall i, i < n -> i <> n - length (p_controls p) - 1 -> nth_error chi (n + i) = Some (Opp (diff (nth i qs "") (dual_ham p))))).
    { unfold ham_field in HCHI. destruct (Nat.odd _); [discriminate|]. match type of HCHI with bind ?e _ = _ => destruct e as [x|] eqn:EX end; cbn [bind] in HCHI; [|discriminate].
      apply Ok_inj in HCHI. subst chi. rewrite map_length.
      assert (LB : length (map (fun b => diff b (dual_ham p)) (qs ++ map lam qs)) = 2 * n) by (rewrite map_length, app_length, map_length; lia).
      assert (NB : forall i d, i < 2 * n -> nth i (map (fun b => diff b (dual_ham p)) (qs ++ map lam qs)) d = diff (nth i (qs ++ map lam qs) "") (dual_ham p)).
      { intros i d Hi. rewrite (nth_indep _ d (diff "" (dual_ham p))) by lia. apply (map_nth (fun b => diff b (dual_ham p))). }
      apply LG in EX; [|apply (dd_udot _ _ _ _ _ _ DD)|unfold n; lia|exact LB]. destruct EX as (A & B & C). split; [exact A|]. split.
      - intros i Hi. rewrite nth_error_map, (B i Hi). cbn [option_map]. do 3 f_equal. rewrite NB by lia. f_equal.
        rewrite app_nth2 by lia. rewrite LQ. replace (n + i - n) with i by lia.
        rewrite (nth_indep _ "" (lam "")) by (rewrite map_length; lia). apply map_nth.
      - intros i Hi Ne. rewrite nth_error_map, (C i Hi Ne). cbn [option_map]. do 2 f_equal. rewrite NB by lia. f_equal. rewrite app_nth1 by lia. reflexivity. }
    destruct CHI as (LCH & CH1 & CH2).
    assert (LST : length (p_states (r_p r1)) = n) by (rewrite (dd_states _ _ _ _ _ _ DD); fold qs n; rewrite combine_length, firstn_length; lia).
    assert (LCS : length (p_costates (r_p r1)) = n) by (rewrite (dd_costates _ _ _ _ _ _ DD); fold qs n; rewrite combine_length, skipn_length, map_length; lia).
    assert (SQ : syms (p_states (r_p r1) ++ p_costates (r_p r1)) = qs ++ map lam qs).
    { unfold syms. rewrite map_app, (dd_states _ _ _ _ _ _ DD), (dd_costates _ _ _ _ _ _ DD). fold qs n.
      rewrite !Sym_DiffCtl.map_fst_combine; [reflexivity| |]; rewrite ?skipn_length, ?firstn_length, ?map_length; lia. }
    assert (NXH : forall x, In x (xs_of K p) -> ~ In x (vars (dual_ham p))).
    { intros x I J. destruct (xs_of_In K p x HK I) as (k & e & IK & NE & _). destruct (tr_sym _ _ T k x e IK NE) as (A & B & _).
      apply ham_vars in J. destruct J as [J|(s & J & [ ->|J2])]; [contradiction| |now apply (A s J)].
      apply (NAMES (lam (fst s))); [|apply RL]. apply QS. unfold qs. rewrite in_app_iff. left. apply nth_error_In in NE. apply (in_map fst) in NE. exact NE. }
    assert (IX : forall c x l, In (c, x, l) (triples 0 (xs_of K p)) -> l = lam x /\ exists k e, In k K /\ nth_error (p_states p) k = Some (x, e) /\ nth_error (syms (p_states p)) k = Some x).
    { intros c x l I. apply triples_In in I. destruct I as (I & -> & _). split; [reflexivity|]. now apply xs_of_In. }
    assert (FL : forall x s, In s (p_states p) -> ~ In (lam x) (vars (snd s))).
    { intros x s I J. apply (NAMES (lam x)); [|apply RL]. unfold symbols, used. rewrite !in_app_iff. left. left. apply dyn_used_In. eauto. }
    assert (FC : forall x, ~ In (lam x) (vars (p_cost_p p))).
    { intros x J. apply (NAMES (lam x)); [|apply RL]. unfold symbols. rewrite !in_app_iff. tauto. }
    constructor.
    - rewrite (dd_law _ _ _ _ _ _ DD). apply (tr_law _ _ T).
    - congruence.
    - rewrite SQ. apply nodup_app'.
      + apply (tr_nodup _ _ T).
      + apply NoDup_map_inj_on; [intros a b _ _; apply lam_inj'|]. apply (tr_nodup _ _ T).
      + intros x I J. apply in_map_iff in J. destruct J as (y & <- & _). apply (NAMES (lam y)); auto.
    - rewrite (dd_coms _ _ _ _ _ _ DD), (tr_coms _ _ T). cbn [app].
      destruct (tr_fields _ _ T) as (rest & EF). fold p in EF. assert (NA := dd_new _ _ _ _ _ _ DD). rewrite EF, map_app, map_map in NA.
      apply noether_all_app in NA. destruct NA as (a & b & -> & NA). exists ("hamiltonian", dual_ham p), b. do 2 f_equal.
      rewrite (noether_units lu integ (length (p_states p)) _ (xs_of K p) LS INT) in NA.
      + apply Ok_inj in NA. now symmetry.
      + rewrite app_length, map_length. unfold syms. rewrite map_length. lia.
      + exact HK.
      + unfold xs_of. now rewrite map_length.
      + intros j k x E1 E2. unfold xs_of in E2. rewrite nth_error_map, E1 in E2. cbn in E2. injection E2 as <-.
        assert (KN : k < length (p_states p)) by (apply HK; eapply nth_error_In, E1).
        rewrite nth_error_app2 by (unfold syms; rewrite map_length; lia). replace (length (syms (p_states p))) with (length (p_states p)) by (unfold syms; now rewrite map_length).
        replace (length (p_states p) + k - length (p_states p)) with k by lia. rewrite nth_error_map.
        rewrite (nth_error_nth' _ "") by (unfold syms; rewrite map_length; lia). reflexivity.
    - apply triples_cs.
    - rewrite triples_xs. unfold xs_of. apply NoDup_map_inj_on; [|apply (tr_K _ _ T)].
      intros a b Ia Ib E. assert (ND := tr_nodup _ _ T). fold p in ND. apply NoDup_app_disj in ND. destruct ND as (ND & _ & _).
      apply (proj1 (NoDup_nth (syms (p_states p)) "") ND); auto; unfold syms; rewrite map_length; auto.
    - exists (omega_new n (length (p_controls p)) (n - length (p_controls p) - 1) udot).
      rewrite (dd_omega _ _ _ _ _ _ DD), LST. fold n. replace (length (p_states p) - 1) with (n - length (p_controls p) - 1) by (unfold n; lia).
      split; [reflexivity|]. destruct (geo_form n (length (p_controls p)) udot ltac:(unfold n; lia) (dd_udot _ _ _ _ _ _ DD)) as [SK COL].
      split; [exact SK|]. intros c x l I. destruct (IX c x l I) as (-> & k & e & IK & NE & NS). assert (KR := tr_range _ _ T k IK). fold p in KR.
      assert (NQ : nth_error qs k = Some x) by (unfold qs; rewrite nth_error_app1; [exact NS|unfold syms; rewrite map_length; lia]).
      assert (NN : nth k qs "" = x) by (apply nth_error_nth, NQ).
      exists k, (Opp (Opp (diff (lam x) (dual_ham p)))), (Opp (diff x (dual_ham p))). split; [|split; [|split; [|split]]].
      + rewrite (dd_states _ _ _ _ _ _ DD). fold qs n. rewrite nth_error_comb, NQ, nth_error_firstn by (unfold n; lia). rewrite CH1 by (unfold n; lia). now rewrite NN.
      + rewrite (dd_costates _ _ _ _ _ _ DD). fold qs n. rewrite nth_error_comb, nth_error_map, NQ, nth_error_skipn', CH2 by (unfold n; lia). cbn [option_map]. now rewrite NN.
      + apply COL. unfold n. lia.
      + intros fn rho. cbn [eval]. rewrite eval_diff_fresh; [apply Ropp_0|]. apply NXH. apply triples_In in I. tauto.
      + intros c' x' l' I'. cbn [simp]. rewrite sopp_sopp. destruct (IX c' x' l' I') as (-> & _). split; intros J.
        * apply simp_vars, vars_diff in J. apply triples_In in I'. now apply (NXH x').
        * apply ham_lam_vars in J; auto. destruct J as (s & J1 & J2). now apply (FL x' s).
    - intros c x l I. destruct (IX c x l I) as (-> & k & e & IK & NE & NS). destruct (tr_sym _ _ T k x e IK NE) as (_ & _ & NX). fold p in NX.
      assert (XS : In x (symbols p)) by (apply QS; unfold qs; rewrite in_app_iff; left; eapply nth_error_In, NS).
      rewrite (dd_coparams _ _ _ _ _ _ DD), (dd_quads _ _ _ _ _ _ DD), (dd_fixed _ _ _ _ _ _ DD). cbn [app]. rewrite !in_app_iff in *.
      split; intros [J|[J|[J|J]]]; try tauto.
      + apply (NAMES x XS). apply RM. eapply nu_made; [|exact J]. eexists; reflexivity.
      + apply (NAMES x XS). apply RM. eapply nu_made; [|exact J]. eexists; reflexivity.
      + apply (NAMES (lam x)); [|apply RL]. unfold symbols, used. rewrite dyn_used_app, !in_app_iff. tauto.
      + apply (NAMES (lam x)); [|apply RL]. unfold symbols, used. rewrite !in_app_iff. tauto.
      + unfold nu_names in J. apply in_map_iff in J. destruct J as (i & E & _). discriminate.
      + unfold nu_names in J. apply in_map_iff in J. destruct J as (i & E & _). discriminate.
    - intros c x l I. apply triples_In in I. destruct I as (_ & _ & j & -> & _). split; [|intros i E; discriminate].
      intros J. apply KU in J. destruct J as [J|J]; [|now apply not_made_com in J]. apply (NAMES _ J). eexists. right. right. right. left. reflexivity.
    - intros i _ J. apply KU in J. destruct J as [J|J]; [|now apply not_made_q in J]. apply (NAMES _ J). eexists. right. right. left. reflexivity.
  Qed.
End Ocp.

(** ** NormalizeTime *)
Lemma map_scale_syms dt l : syms (map (fun s : string * expr => (fst s, Mul (snd s) (Var dt))) l) = syms l.
Proof. unfold syms. rewrite map_map. reflexivity. Qed.
Lemma scale_used dt l y : In y (dyn_used (map (fun s : string * expr => (fst s, Mul (snd s) (Var dt))) l)) -> y = dt \/ In y (dyn_used l).
Proof.
  rewrite !dyn_used_In. intros (s & I & J). apply in_map_iff in I. destruct I as (s' & <- & I). cbn [fst snd vars] in J.
  rewrite in_app_iff in J. cbn in J. destruct J as [J|[J|[J|[]]]]; [right|right|now left]; exists s'; auto.
Qed.
Lemma norm_used p p' y : normalize_time None p = Ok p' -> In y (used p') -> y = ("_delta" ++ p_ind p)%string \/ In y (used p).
Proof.
  unfold normalize_time. destruct (p_symp p); [|discriminate]. cbv zeta. intros H. apply Ok_inj in H. subst p'.
  unfold used, fixed_names. cbn [set_maps set_ind set_cost_p set_costates set_states set_params p_states p_costates p_coparams p_quads p_params p_consts p_cpars p_cadj p_ci p_ct].
  rewrite !in_app_iff. cbn [In]. intros [I|[I|[I|[I|[I|I]]]]]; try tauto.
  - apply scale_used in I. tauto.
  - apply scale_used in I. tauto.
  - destruct I as [[I|[I|[]]]|I]; [tauto|left; now symmetry|tauto].
Qed.
Lemma reducible_norm L r r' p' : reducible L r -> normalize_time None (r_p r) = Ok p' ->
  r' = mkR p' (r_fields r) (r_coms r) (r_omega r) (r_reds r) ->
  ~ In ("_delta" ++ p_ind (r_p r))%string (used (r_p r)) -> (forall c x l, In (c, x, l) L -> c <> ("_delta" ++ p_ind (r_p r))%string) ->
  reducible L r'.
Proof.
  intros R N E ND NC. assert (NU := fun y => norm_used _ _ y N).
  unfold normalize_time in N. destruct (p_symp (r_p r)); [|discriminate]. cbv zeta in N. apply Ok_inj in N.
  set (dt := ("_delta" ++ p_ind (r_p r))%string) in *.
  assert (ES : p_states p' = map (fun s => (fst s, Mul (snd s) (Var dt))) (p_states (r_p r))) by (now subst p').
  assert (EC : p_costates p' = map (fun s => (fst s, Mul (snd s) (Var dt))) (p_costates (r_p r))) by (now subst p').
  assert (EO : p_coparams p' = p_coparams (r_p r)) by (now subst p'). assert (EQ : p_quads p' = p_quads (r_p r)) by (now subst p').
  assert (EL : p_law p' = p_law (r_p r)) by (now subst p').
  assert (EF : forall y, In y (fixed_names p') -> y = dt \/ In y (fixed_names (r_p r))).
  { intros y. subst p'. unfold fixed_names. cbn [set_maps set_ind set_cost_p set_costates set_states set_params p_params p_consts p_cpars p_cadj].
    rewrite !in_app_iff. cbn [In]. intros [[I|[I|[]]]|I]; [tauto|left; now symmetry|tauto]. }
  clear N. subst r'. 
  assert (UX : forall c x l, In (c, x, l) L -> x <> dt /\ l <> dt).
  { intros c x l I. destruct (rc_omega _ _ R) as (om & _ & _ & H). destruct (H c x l I) as (k & ex & el & H1 & H2 & _).
    split; intros ->; apply ND; unfold used; rewrite !in_app_iff.
    - left. apply nth_error_In in H1. apply (proj1 (used_dyn _ _ _ H1)).
    - right. left. apply nth_error_In in H2. apply (proj1 (used_dyn _ _ _ H2)). }
  constructor; cbn [r_p r_coms r_omega].
  - rewrite EL. apply (rc_law _ _ R).
  - rewrite EC, ES, !map_length. apply (rc_len _ _ R).
  - rewrite ES, EC, <- map_app, map_scale_syms. apply (rc_nodup _ _ R).
  - apply (rc_coms _ _ R).
  - apply (rc_cs _ _ R).
  - apply (rc_xs _ _ R).
  - destruct (rc_omega _ _ R) as (om & H0 & SK & H). exists om. rewrite ES, map_length. split; [exact H0|]. split; [exact SK|].
    intros c x l I. destruct (H c x l I) as (k & ex & el & H1 & H2 & H3 & H4 & H5).
    exists k, (Mul ex (Var dt)), (Mul el (Var dt)). rewrite EC, !nth_error_map, H1, H2. split; [reflexivity|]. split; [reflexivity|]. split; [exact H3|]. split.
    + intros fn rho. cbn [eval]. rewrite H4. apply Rmult_0_l.
    + intros c' x' l' I'. destruct (H5 c' x' l' I') as [A B]. destruct (UX c' x' l' I') as [U1 U2]. cbn [simp].
      split; intros J; apply smul_vars in J; destruct J as [J|[J|[]]]; try contradiction; congruence.
  - intros c x l I. destruct (rc_rest _ _ R c x l I) as [A B]. destruct (UX c x l I) as [U1 U2]. rewrite EO, EQ. rewrite in_app_iff in A. rewrite in_app_iff in B. rewrite !in_app_iff.
    split; intros [J|J]; try tauto; apply EF in J; destruct J as [J|J]; try contradiction; tauto.
  - intros c x l I. destruct (rc_fresh_c _ _ R c x l I) as [A B]. split; [|exact B]. intros J. apply NU in J. destruct J as [J|J]; [|contradiction]. now apply (NC c x l).
  - intros i Hi J. rewrite EQ in Hi. apply NU in J. destruct J as [J|J]; [discriminate|]. now apply (rc_fresh_q _ _ R i).
Qed.

(** ** The curves of Red_Chain.v, symbol by symbol *)
Definition xs_t (L : list (string * string * string)) := map (fun t => snd (fst t)) L.
Definition ls_t (L : list (string * string * string)) := map (fun t => snd t) L.
Definition cs_t (L : list (string * string * string)) := map (fun t => fst (fst t)) L.
Lemma lift_out L : forall i cv s y, ~ In y (xs_t L) -> ~ In y (ls_t L) -> lift i L cv s y = cv s y.
Proof.
  induction L as [|[[c x] l] L IH]; intros i cv s y A B; [reflexivity|]. cbn [lift xs_t ls_t map fst snd In] in *. unfold lift1.
  destruct (String.eqb_spec y x) as [E|_]; [exfalso; apply A; now left|]. destruct (String.eqb_spec y l) as [E|_]; [exfalso; apply B; now left|].
  apply IH; tauto.
Qed.
Lemma lift_in L : forall i cv s j c x l, nth_error L j = Some (c, x, l) -> NoDup (xs_t L ++ ls_t L) ->
  (forall k, ~ In (qn k) (xs_t L) /\ ~ In (qn k) (ls_t L)) -> (forall c', In c' (cs_t L) -> ~ In c' (xs_t L) /\ ~ In c' (ls_t L)) ->
  lift i L cv s x = cv s (qn (i + j)) /\ lift i L cv s l = cv s c.
Proof.
  induction L as [|[[c0 x0] l0] L IH]; intros i cv s j c x l H ND Q C; [destruct j; discriminate|].
  assert (ND' := ND). cbn [xs_t ls_t map fst snd app] in ND. apply NoDup_app_disj in ND'. destruct ND' as (D1 & D2 & D3).
  cbn [xs_t ls_t map fst snd] in D1, D2. inversion D1 as [|? ? X1 D1']; inversion D2 as [|? ? L1 D2']; subst.
  assert (XL0 : x0 <> l0) by (intros ->; apply (D3 l0); now left).
  assert (TAIL : NoDup (xs_t L ++ ls_t L)).
  { apply nodup_app'; auto. intros y I J. apply (D3 y); now right. }
  destruct j as [|j]; cbn [nth_error] in H.
  - injection H as -> -> ->. cbn [lift]. unfold lift1. rewrite String.eqb_refl, Nat.add_0_r.
    destruct (String.eqb_spec l x); [congruence|]. rewrite String.eqb_refl. destruct (Q i) as [Q1 Q2]. destruct (C c (or_introl eq_refl)) as [C1 C2].
    cbn [xs_t ls_t map fst snd In] in Q1, Q2, C1, C2. rewrite !lift_out; auto; tauto.
  - assert (IXL : In x (xs_t L) /\ In l (ls_t L)).
    { apply nth_error_In in H. split; [apply (in_map (fun t => snd (fst t))) in H|apply (in_map (fun t => snd t)) in H]; exact H. }
    destruct IXL as [IX IL].
    destruct (IH (S i) cv s j c x l H TAIL) as [A B].
    { intros k. destruct (Q k) as [Q1 Q2]. cbn [xs_t ls_t map fst snd In] in Q1, Q2. tauto. }
    { intros c' I. destruct (C c' (or_intror I)) as [C1 C2]. cbn [xs_t ls_t map fst snd In] in C1, C2. tauto. }
    cbn [lift]. unfold lift1.
    destruct (String.eqb_spec x x0) as [->|_]; [contradiction|]. destruct (String.eqb_spec x l0) as [->|_]; [exfalso; apply (D3 l0); [now right|now left]|].
    destruct (String.eqb_spec l x0) as [->|_]; [exfalso; apply (D3 x0); [now left|now right]|]. destruct (String.eqb_spec l l0) as [->|_]; [contradiction|].
    rewrite A, B. split; [|reflexivity]. do 2 f_equal. lia.
Qed.
Lemma push_out a L : forall i cv s y, ~ In y (cs_t L) -> (forall k, i <= k -> k < i + length L -> y <> qn k) -> push a i L cv s y = cv s y.
Proof.
  induction L as [|[[c x] l] L IH]; intros i cv s y A B; [reflexivity|]. cbn [push cs_t map fst snd In length] in *.
  rewrite IH; [|tauto|intros k K1 K2; apply B; lia]. unfold push1. destruct (String.eqb_spec y (qn i)) as [E|_]; [exfalso; apply (B i); auto; lia|].
  destruct (String.eqb_spec y c) as [E|_]; [exfalso; apply A; now left|]. reflexivity.
Qed.
Lemma push_in a L : forall i cv s j c x l, nth_error L j = Some (c, x, l) -> NoDup (cs_t L) ->
  (forall k, ~ In (qn k) (xs_t L) /\ ~ In (qn k) (ls_t L) /\ ~ In (qn k) (cs_t L)) -> (forall c', In c' (cs_t L) -> ~ In c' (xs_t L) /\ ~ In c' (ls_t L)) ->
  push a i L cv s (qn (i + j)) = cv s x /\ push a i L cv s c = cv a l.
Proof.
  induction L as [|[[c0 x0] l0] L IH]; intros i cv s j c x l H ND Q C; [destruct j; discriminate|].
  cbn [cs_t map fst snd] in ND. inversion ND as [|? ? C1 ND']; subst.
  assert (Q' : forall k, ~ In (qn k) (xs_t L) /\ ~ In (qn k) (ls_t L) /\ ~ In (qn k) (cs_t L)).
  { intros k. destruct (Q k) as (Q1 & Q2 & Q3). cbn [xs_t ls_t cs_t map fst snd In] in Q1, Q2, Q3. tauto. }
  assert (C' : forall c', In c' (cs_t L) -> ~ In c' (xs_t L) /\ ~ In c' (ls_t L)).
  { intros c' I. destruct (C c' (or_intror I)) as [A B]. cbn [xs_t ls_t map fst snd In] in A, B. tauto. }
  assert (Q0 := Q). specialize (Q0 i). destruct Q0 as (Q1 & Q2 & Q3). cbn [xs_t ls_t cs_t map fst snd In] in Q1, Q2, Q3.
  destruct j as [|j]; cbn [nth_error] in H.
  - injection H as -> -> ->. cbn [push]. rewrite Nat.add_0_r. split.
    + rewrite push_out; [|tauto|intros k K1 K2 E; apply qn_inj in E; lia]. unfold push1. now rewrite String.eqb_refl.
    + rewrite push_out; [|exact C1|intros k _ _ E; destruct (Q k) as (_ & _ & Q4); apply Q4; rewrite <- E; now left].
      unfold push1. destruct (String.eqb_spec c (qn i)) as [E|_]; [exfalso; apply Q3; now left|]. now rewrite String.eqb_refl.
  - assert (IXL : In x (xs_t L) /\ In l (ls_t L)).
    { apply nth_error_In in H. split; [apply (in_map (fun t => snd (fst t))) in H|apply (in_map (fun t => snd t)) in H]; exact H. }
    destruct IXL as [IX IL]. cbn [push]. destruct (IH (S i) (push1 a c0 x0 l0 (qn i) cv) s j c x l H ND' Q' C') as [A B].
    replace (i + S j) with (S i + j) by lia. rewrite A, B. unfold push1. destruct (C c0 (or_introl eq_refl)) as [CX CL]. cbn [xs_t ls_t map fst snd In] in CX, CL.
    destruct (String.eqb_spec x (qn i)) as [E|_]; [exfalso; apply Q1; right; now rewrite <- E|]. destruct (String.eqb_spec x c0) as [E|_]; [exfalso; apply CX; right; now rewrite <- E|].
    destruct (String.eqb_spec l (qn i)) as [E|_]; [exfalso; apply Q2; right; now rewrite <- E|]. destruct (String.eqb_spec l c0) as [E|_]; [exfalso; apply CL; right; now rewrite <- E|]. auto.
Qed.
