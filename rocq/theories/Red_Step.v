(** One MishchenkoFomenko step when the constant of motion is a costate. *)
From Coq Require Import Reals Lra.
From Verif Require Import Base Base_Facts Sym_Expr Sym_Facts Sym_Model Geo_Model Geo_Properties Red_Model Red_Facts.
Open Scope string_scope.
Open Scope list_scope.
Open Scope nat_scope.

Lemma sadd_0_l b : sadd (Cst 0) b = b.
Proof. destruct b as [[| |]| | | | | | | | | |]; reflexivity. Qed.
Lemma sadd_0_r a : sadd a (Cst 0) = a.
Proof. destruct a as [[| |]| | | | | | | | | |]; reflexivity. Qed.
Lemma smul_1_r a : smul a (Cst 1) = a.
Proof. destruct a as [[|[]|[]]| | | | | | | | | |]; try reflexivity; unfold smul; now rewrite Z.mul_1_r. Qed.
Lemma simp_Sum l : forall acc, simp (Sum acc l) = fold_left sadd (map simp l) (simp acc).
Proof. induction l as [|e l IH]; intros acc; [reflexivity|]. cbn [Sum map fold_left]. now rewrite IH. Qed.

(** A list with [e] at place [k] and zeros elsewhere. *)
Definition hot (k : nat) (e : expr) (n : nat) (l : list expr) : Prop :=
  length l = n /\ forall i, i < n -> nth_error l i = Some (if Nat.eqb i k then e else Cst 0).
Lemma fold_zero l : (forall i, i < length l -> nth_error l i = Some (Cst 0)) -> forall a, fold_left sadd l a = a.
Proof.
  induction l as [|z l IH]; intros H a; [reflexivity|]. cbn [fold_left]. specialize (H 0 ltac:(cbn; lia)) as H0. injection H0 as ->.
  rewrite sadd_0_r. apply IH. intros i Hi. apply (H (S i)). cbn. lia.
Qed.
Lemma hot_sum k e n l : k < n -> hot k e n l -> fold_left sadd l (Cst 0) = e.
Proof.
  revert n l. induction k as [|k IH]; intros n l Hk [L H].
  - destruct l as [|z l]; [cbn in L; lia|]. specialize (H 0 ltac:(lia)) as H0. injection H0 as ->. cbn [fold_left]. rewrite sadd_0_l.
    apply fold_zero. intros i Hi. apply (H (S i)). cbn in L. lia.
  - destruct l as [|z l]; [cbn in L; lia|]. specialize (H 0 ltac:(lia)) as H0. injection H0 as ->. cbn [fold_left]. rewrite sadd_0_l.
    apply (IH (length l)); [cbn in L; lia|]. split; [reflexivity|]. intros i Hi. apply (H (S i)). cbn in L. lia.
Qed.
Lemma hot_first k n l : k < n -> hot k (Cst 1) n l -> first_nonzero l = Some k.
Proof.
  revert n l. induction k as [|k IH]; intros n l Hk [L H]; (destruct l as [|z l]; [cbn in L; lia|]);
    specialize (H 0 ltac:(lia)) as H0; injection H0 as ->; cbn; [reflexivity|].
  rewrite (IH (length l) l); [reflexivity|cbn in L; lia|]. split; [reflexivity|]. intros i Hi. apply (H (S i)). cbn in L. lia.
Qed.
Lemma nth_error_comb {A B} (l : list A) : forall (m : list B) i,
  nth_error (combine l m) i = match nth_error l i, nth_error m i with Some a, Some b => Some (a, b) | _, _ => None end.
Proof. induction l as [|a l IH]; intros [|b m] [|i]; cbn; auto. now destruct (nth_error l i). Qed.
Lemma nth_error_seq' n : forall s i, i < n -> nth_error (seq s n) i = Some (s + i).
Proof. induction n as [|n IH]; intros s [|i] H; cbn; try lia; [f_equal; lia|]. rewrite IH by lia. f_equal. lia. Qed.
Lemma nth_error_some {A} (l : list A) i : i < length l -> exists a, nth_error l i = Some a.
Proof. intros H. destruct (nth_error l i) eqn:E; eauto. apply nth_error_None in E. lia. Qed.

Lemma rec_sub_var e v w : v <> w -> fst (recursive_sub e [(v, Var w)]) = subst v (Var w) e.
Proof.
  intros N. assert (F : subst v (Var w) (subst v (Var w) e) = subst v (Var w) e).
  { apply subst_fresh. rewrite vars_subst_iff. cbn. intuition congruence. }
  unfold recursive_sub. cbn [length plus rec_sub_loop]. unfold subst_seq. cbn [fold_left fst snd].
  destruct (expr_eqb _ e); [reflexivity|]. rewrite F. now destruct (expr_eqb _ _).
Qed.

Lemma NoDup_app_disj {A} (l m : list A) : NoDup (l ++ m) -> NoDup l /\ NoDup m /\ forall x, In x l -> ~ In x m.
Proof.
  induction l as [|a l IH]; cbn; intros H; [repeat split; auto; constructor|]. inversion H; subst. destruct (IH H3) as (A1 & A2 & A3).
  rewrite in_app_iff in H2. repeat split; auto.
  - constructor; tauto.
  - intros x [<-|I]; [tauto|auto].
Qed.
Lemma index_of_nth x l : forall k, NoDup l -> nth_error l k = Some x -> index_of x l = Some k.
Proof.
  induction l as [|y l IH]; intros [|k] N H; try discriminate; cbn in *.
  - injection H as ->. now rewrite String.eqb_refl.
  - inversion N; subst. destruct (String.eqb_spec x y) as [->|]; [exfalso; apply nth_error_In in H; contradiction|]. now rewrite IH with (k := k).
Qed.
Lemma drop_fresh x l : ~ In x (map fst l) -> drop_named x l = l.
Proof.
  induction l as [|[y e] l IH]; [reflexivity|]. cbn. intros N. destruct (String.eqb_spec x y) as [->|]; [tauto|]. cbn. f_equal. apply IH. tauto.
Qed.
Lemma drop_nth x l : forall k e, NoDup (map fst l) -> nth_error l k = Some (x, e) -> drop_named x l = remove_at k l.
Proof.
  induction l as [|[y d] l IH]; intros [|k] e N H; try discriminate; cbn in *; inversion N; subst.
  - injection H as -> ->. rewrite String.eqb_refl. cbn. now apply drop_fresh.
  - destruct (String.eqb_spec x y) as [->|]; [exfalso; apply nth_error_In in H; apply (in_map fst) in H; contradiction|]. cbn. f_equal.
    now apply (IH k e).
Qed.
Lemma remove_at_map {A B} (f : A -> B) l : forall k, remove_at k (map f l) = map f (remove_at k l).
Proof. induction l as [|a l IH]; intros [|k]; cbn; auto. now rewrite IH. Qed.

(** The renaming done by the step: the costate by the constant of motion, the
    state by the quadrature. *)
Definition ren (c l q x : string) (e : expr) : expr := subst x (Var q) (subst l (Var c) e).
Definition ren_dyn (c l q x : string) (s : string * expr) : string * expr := (fst s, ren c l q x (snd s)).
Definition ren_constr (c l q x : string) (k : constr) : constr :=
  mkConstr (ren c l q x (c_expr k)) (c_lower k) (c_upper k) (c_act k) (c_method k).

Lemma pb_costate om names j l : NoDup names -> nth_error names j = Some l ->
  length (pb om names (Var l)) = length names /\
  forall i, i < length names -> nth_error (pb om names (Var l)) i = Some (simp (entry om i j)).
Proof.
  intros ND NL. split; [unfold pb; now rewrite map_length, seq_length|]. intros i Hi. unfold pb.
  rewrite nth_error_map, nth_error_seq' by assumption. cbn [option_map plus]. f_equal. rewrite simp_Sum. cbn [simp].
  assert (HJ : j < length names) by (apply nth_error_Some; congruence).
  apply (hot_sum j _ (length names)); [assumption|]. split; [rewrite !map_length, combine_length, seq_length; lia|].
  intros m Hm. rewrite !nth_error_map, nth_error_comb, nth_error_seq' by assumption.
  destruct (nth_error_some names m Hm) as (v & Hv). rewrite Hv. cbn [option_map fst snd plus simp]. f_equal. cbn [diff].
  destruct (String.eqb_spec v l) as [->|NE].
  - assert (m = j) by (apply (proj1 (NoDup_nth_error names) ND); [assumption|congruence]). subst m. rewrite Nat.eqb_refl. cbn [simp]. apply smul_1_r.
  - destruct (Nat.eqb_spec m j) as [->|]; [congruence|]. cbn [simp]. apply smul_0_r.
Qed.

Section Step.
  Variable integ : expr -> string -> expr.
  Variable solve : expr -> list string -> list (string * expr).
  Hypothesis INT : int_const integ.
  Hypothesis SOL : solve_var solve.

  Definition new_quad (p : prob) : string := ("_q_" ++ of_nat (length (p_quads p)))%string.
  (** What the step produces. *)
  Definition reduced (k : nat) (c x l : string) (ex : expr) (p : prob) : prob :=
    let q := new_quad p in
    set_ct (set_ci (set_costates (set_states (set_quads (set_params p (p_params p ++ [c]))
      (p_quads p ++ [(q, simp ex)]))
      (map (ren_dyn c l q x) (remove_at k (p_states p))))
      (map (ren_dyn c l q x) (remove_at k (p_costates p))))
      (map (ren_constr c l q x) (p_ci p)))
      (map (ren_constr c l q x) (p_ct p)).

  Lemma mf_step_coord ci r om k c x l ex el :
    let p := r_p r in let ns := length (p_states p) in let q := new_quad p in
    r_omega r = Some om -> symplectic (Some om) = true -> length (p_costates p) = ns ->
    NoDup (syms (p_states p ++ p_costates p)) -> p_law p = [] ->
    nth_error (r_coms r) ci = Some (c, Var l) ->
    nth_error (p_states p) k = Some (x, ex) -> nth_error (p_costates p) k = Some (l, el) ->
    (forall i, i < 2 * ns -> simp (entry om i (ns + k)) = if Nat.eqb i k then Cst 1 else Cst 0) ->
    ~ In l (p_params p ++ p_consts p) -> l <> c -> x <> c -> x <> q ->
    mf_step integ solve ci r =
      Ok (mkR (reduced k c x l ex p) (r_fields r) (remove_at ci (map (ren_dyn c l q x) (r_coms r)))
            (Some (drop_cross k (drop_cross (ns + k) om)))
            (r_reds r ++ [mkRed c (Var l) l (Var c) x q (Var x) (Var q)])).
  Proof.
    intros p ns q HO HS HL ND LAW HC HX HLl COL NP LC XC XQ.
    assert (XL : x <> l).
    { intros ->. unfold syms in ND. rewrite map_app in ND. apply NoDup_app_disj in ND. destruct ND as (_ & _ & D).
      apply (D l); [apply nth_error_In in HX; apply (in_map fst) in HX|apply nth_error_In in HLl; apply (in_map fst) in HLl]; assumption. }
    unfold mf_step. fold p. rewrite HO. rewrite HS. cbn [negb]. rewrite HC. cbv beta iota.
    fold ns. set (dyn := p_states p ++ p_costates p) in *. set (names := syms dyn) in *.
    assert (LN : length names = 2 * ns). { unfold names, syms, dyn. rewrite map_length, app_length. fold ns. lia. }
    assert (KN : k < ns) by (apply nth_error_Some; rewrite HX; discriminate).
    assert (NX : nth_error names k = Some x).
    { unfold names, syms, dyn. rewrite nth_error_map, nth_error_app1 by assumption. now rewrite HX. }
    assert (NLl : nth_error names (ns + k) = Some l).
    { unfold names, syms, dyn. rewrite nth_error_map, nth_error_app2 by (fold ns; lia). fold ns. replace (ns + k - ns) with k by lia. now rewrite HLl. }
    assert (AT : com_atoms p (Var l) = [l]).
    { unfold com_atoms. cbn [vars nodup]. cbn. destruct (mem l (p_params p ++ p_consts p)) eqn:Q; [apply mem_In in Q; contradiction|reflexivity]. }
    rewrite AT, SOL by assumption. cbv iota.
    destruct (pb_costate om names (ns + k) l ND NLl) as [PL PV].
    set (g := pb om names (Var l)) in *.
    assert (HG : hot k (Cst 1) (2 * ns) g). { split; [congruence|]. intros i Hi. rewrite PV by lia. f_equal. now apply COL. }
    assert (NC : noether_com om ns names (Var l) = Ok g).
    { unfold noether_com. rewrite HS. fold g. rewrite (hot_first k (2 * ns) g) by (auto; lia).
      destruct (Nat.ltb_spec k ns); [reflexivity|lia]. }
    rewrite NC. cbn [bind fst snd]. rewrite (index_of_nth l names (ns + k) ND NLl).
    destruct (Nat.leb_spec ns (ns + k)) as [_|]; [|lia]. replace (ns + k - ns) with k by lia.
    rewrite NLl, NX. cbv beta iota. fold (new_quad p). fold q.
    set (L := map (fun gx => integ (simp (Mul (Div (Var l) (Var c)) (fst gx))) (snd gx)) (combine g names)).
    assert (LHS : simp (Sum (Cst 0) L) = Mul (Mul (Var l) (Inv (Var c))) (Var x)).
    { rewrite simp_Sum. cbn [simp]. apply (hot_sum k _ (2 * ns)); [lia|]. destruct HG as [G1 G2]. unfold L.
      split; [rewrite !map_length, combine_length; lia|]. intros i Hi.
      destruct (nth_error_some names i ltac:(lia)) as (v & Hv).
      rewrite !nth_error_map, nth_error_comb, (G2 i Hi), Hv. cbn [option_map fst snd]. f_equal.
      destruct (Nat.eqb_spec i k) as [->|NE].
      - rewrite NX in Hv. injection Hv as <-. unfold Div.
        assert (S1 : simp (Mul (Mul (Var l) (Inv (Var c))) (Cst 1)) = Mul (Var l) (Inv (Var c))).
        { cbn. rewrite (proj2 (String.eqb_neq l c) LC). reflexivity. }
        rewrite S1, INT. { cbn. rewrite (proj2 (String.eqb_neq l c) LC). cbn. rewrite (proj2 (String.eqb_neq l c) LC). reflexivity. }
        cbn. intuition congruence.
      - assert (S1 : simp (Mul (Div (Var l) (Var c)) (Cst 0)) = Cst 0) by (cbn [simp]; apply smul_0_r).
        rewrite S1, INT by (cbn; tauto). reflexivity. }
    rewrite LHS, rec_sub_var by assumption.
    assert (S2 : simp (subst l (Var c) (Mul (Mul (Var l) (Inv (Var c))) (Var x))) = Var x).
    { cbn [subst]. rewrite String.eqb_refl, (proj2 (String.eqb_neq l c) LC). rewrite (proj2 (String.eqb_neq l x)) by congruence.
      cbn. rewrite String.eqb_refl. reflexivity. }
    rewrite S2, SOL by assumption. cbv iota. rewrite LAW. cbv iota.
    assert (QE : simp (Sum (Cst 0) (map (fun sg => Mul (snd (fst sg)) (snd sg)) (combine dyn g))) = simp ex).
    { rewrite simp_Sum. cbn [simp]. apply (hot_sum k _ (2 * ns)); [lia|]. destruct HG as [G1 G2].
      assert (LD : length dyn = 2 * ns) by (rewrite <- LN; unfold names, syms; now rewrite map_length).
      split; [rewrite !map_length, combine_length; lia|]. intros i Hi.
      destruct (nth_error_some dyn i ltac:(lia)) as (s & Hs).
      rewrite !nth_error_map, nth_error_comb, (G2 i Hi), Hs. cbn [option_map fst snd simp]. f_equal.
      destruct (Nat.eqb_spec i k) as [->|NE]; cbn [simp].
      - unfold dyn in Hs. rewrite nth_error_app1, HX in Hs by assumption. injection Hs as <-. cbn [snd]. apply smul_1_r.
      - apply smul_0_r. }
    rewrite QE.
    assert (S3 : forall s, sub2_dyn (l, Var c) (x, Var q) s = ren_dyn c l q x s).
    { intros s. unfold sub2_dyn, ren_dyn, ren, sub2. now rewrite !rec_sub_var by assumption. }
    assert (S4 : forall s, sub2_constr (l, Var c) (x, Var q) s = ren_constr c l q x s).
    { intros s. unfold sub2_constr, ren_constr, ren, sub2. now rewrite !rec_sub_var by assumption. }
    assert (NDs := ND). unfold names, syms, dyn in NDs. rewrite map_app in NDs. apply NoDup_app_disj in NDs. destruct NDs as (N1 & N2 & N3).
    assert (DS : forall (ll : list (string * expr)), map fst (map (sub2_dyn (l, Var c) (x, Var q)) ll) = map fst ll).
    { intros ll. rewrite map_map. apply map_ext. intros s. reflexivity. }
    replace (Nat.min (ns + k) k) with k by lia. replace (Nat.max (ns + k) k) with (ns + k) by lia.
    assert (E1 : drop_named x (drop_named l (map (sub2_dyn (l, Var c) (x, Var q)) (p_states p))) =
                 map (ren_dyn c l q x) (remove_at k (p_states p))).
    { rewrite (drop_fresh l).
      - erewrite (drop_nth x _ k); [rewrite remove_at_map; apply map_ext; exact S3|rewrite DS; exact N1|rewrite nth_error_map, HX; reflexivity].
      - rewrite DS. intros I. apply (N3 l I). apply nth_error_In in HLl. apply (in_map fst) in HLl. exact HLl. }
    assert (E2 : drop_named x (drop_named l (map (sub2_dyn (l, Var c) (x, Var q)) (p_costates p))) =
                 map (ren_dyn c l q x) (remove_at k (p_costates p))).
    { erewrite (drop_nth l _ k); [|rewrite DS; exact N2|rewrite nth_error_map, HLl; reflexivity].
      rewrite remove_at_map. rewrite (drop_fresh x).
      - apply map_ext. exact S3.
      - rewrite map_map. cbn [sub2_dyn fst]. intros I. apply (N3 x); [apply nth_error_In in HX; apply (in_map fst) in HX; exact HX|].
        apply in_map_iff in I. destruct I as (s & <- & I). apply in_map.
        clear - I. revert k I. induction (p_costates p) as [|a w IH]; intros [|k] I; cbn in *; auto. destruct I as [->|I]; eauto. }
    assert (E3 : map (sub2_constr (l, Var c) (x, Var q)) (p_ci p) = map (ren_constr c l q x) (p_ci p)) by (apply map_ext; exact S4).
    assert (E4 : map (sub2_constr (l, Var c) (x, Var q)) (p_ct p) = map (ren_constr c l q x) (p_ct p)) by (apply map_ext; exact S4).
    assert (E5 : map (sub2_dyn (l, Var c) (x, Var q)) (r_coms r) = map (ren_dyn c l q x) (r_coms r)) by (apply map_ext; exact S3).
    clearbody p. rewrite E5. unfold reduced. fold q. rewrite <- E1, <- E2, <- E3, <- E4. reflexivity.
  Qed.
End Step.
