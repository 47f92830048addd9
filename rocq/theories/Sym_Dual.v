(** Dualize: what the derived problem contains (C31, C33). *)
From Coq Require Import Reals Lra.
From Verif Require Import Base Base_Facts Sym_Expr Sym_Facts Sym_Model Sym_Lu.
Open Scope nat_scope.

Lemma lam_inj x y : lam x = lam y -> x = y.
Proof. unfold lam. simpl. congruence. Qed.

Lemma give_rates_cons s l e r : give_rates (s :: l) (e :: r) = (fst s, e) :: give_rates l r.
Proof.
  unfold give_rates. cbn [length seq map nth_error]. f_equal. rewrite <- seq_shift, map_map. reflexivity.
Qed.
Lemma give_rates_map {A} (nm : A -> string) (z : A -> expr) (f : A -> expr) (l : list A) rest :
  give_rates (map (fun s => (nm s, z s)) l) (map f l ++ rest) = map (fun s => (nm s, f s)) l.
Proof. induction l as [|a l IH]; [reflexivity|]. cbn [map app]. rewrite give_rates_cons, IH. reflexivity. Qed.

(** ** The traditional method *)
Record dual_of (p p' : prob) (h : expr) : Prop := mkDualOf {
  d_states : p_states p' = p_states p;
  d_params : p_params p' = p_params p;
  d_controls : p_controls p' = p_controls p;
  d_ind : p_ind p' = p_ind p;
  d_quads : p_quads p' = p_quads p;
  d_cpars : p_cpars p' = p_cpars p;
  d_cost_p : p_cost_p p' = p_cost_p p;
  d_ham : p_ham p' = Some h;
  d_hdef : h = dual_ham p;
  d_lams : syms (p_costates p') = map lam (syms (p_states p));
  d_colams : syms (p_coparams p') = map lam (p_params p);
  d_cadj : p_cadj p' = p_cadj p ++ nu_names "_nu_0_" (p_ci p) ++ nu_names "_nu_f_" (p_ct p);
  d_cost_i : p_cost_i p' = adjoin (p_cost_i p) (nu_names "_nu_0_" (p_ci p)) (p_ci p);
  d_cost_t : p_cost_t p' = adjoin (p_cost_t p) (nu_names "_nu_f_" (p_ct p)) (p_ct p);
  d_ci : p_ci p' = p_ci p ++ map (fun x => plain (Add (Var (lam x)) (diff x (p_cost_i p'))))
                               (syms (p_states p) ++ p_params p);
  d_ct : p_ct p' = p_ct p ++ map (fun x => plain (Sub (Var (lam x)) (diff x (p_cost_t p'))))
                               (syms (p_states p) ++ p_params p)
                          ++ [plain (Add (diff (p_ind p) (p_cost_t p')) h)];
  d_dual : p_dual p' = true;
  d_symp : p_symp p' = p_symp p }.

Lemma combine_map_lam (l : list string) : combine l (map lam l) = map (fun x => (x, lam x)) l.
Proof. induction l as [|a l IH]; simpl; congruence. Qed.

Lemma dual_finish_of p q h : h = dual_ham p ->
  p_states q = p_states p -> p_params q = p_params p -> p_controls q = p_controls p -> p_ind q = p_ind p ->
  p_quads q = p_quads p -> p_cpars q = p_cpars p -> p_cost_p q = p_cost_p p ->
  p_ham q = Some h ->
  syms (p_costates q) = map lam (syms (p_states p)) -> syms (p_coparams q) = map lam (p_params p) ->
  p_cadj q = p_cadj p ++ nu_names "_nu_0_" (p_ci p) ++ nu_names "_nu_f_" (p_ct p) ->
  p_cost_i q = adjoin (p_cost_i p) (nu_names "_nu_0_" (p_ci p)) (p_ci p) ->
  p_cost_t q = adjoin (p_cost_t p) (nu_names "_nu_f_" (p_ct p)) (p_ct p) ->
  p_ci q = p_ci p -> p_ct q = p_ct p -> p_symp q = p_symp p ->
  dual_of p (dual_finish h q) h.
Proof.
  intros -> E1 E2 E3 E4 E5 E6 E7 E8 E9 E10 E11 E12 E13 E14 E15 E16.
  assert (PR : combine (syms (p_states q) ++ p_params q) (syms (p_costates q) ++ syms (p_coparams q)) =
               map (fun x => (x, lam x)) (syms (p_states p) ++ p_params p)).
  { rewrite E1, E2, E9, E10, <- map_app. apply combine_map_lam. }
  constructor; auto.
  - unfold dual_finish. cbn [p_ci p_cost_i set_ci set_ct set_maps set_dual]. rewrite E14, PR, map_map. reflexivity.
  - unfold dual_finish. cbn [p_ct p_cost_t p_ind set_ci set_ct set_maps set_dual]. rewrite E15, PR, map_map, E4. reflexivity.
Qed.

Lemma Ok_inj {A} (a b : A) : Ok a = Ok b -> a = b.
Proof. congruence. Qed.
Lemma set_costates_spec q l : p_costates (set_costates q l) = l /\ p_coparams (set_costates q l) = p_coparams q.
Proof. split; reflexivity. Qed.
Lemma finish_costates h q : p_costates (dual_finish h q) = p_costates q.
Proof. reflexivity. Qed.
Lemma finish_coparams h q : p_coparams (dual_finish h q) = p_coparams q.
Proof. reflexivity. Qed.

(** Fields of the problem before the boundary conditions are attached. *)
Record started (p q : prob) : Prop := mkStarted {
  s_states : p_states q = p_states p;
  s_params : p_params q = p_params p;
  s_controls : p_controls q = p_controls p;
  s_ind : p_ind q = p_ind p;
  s_quads : p_quads q = p_quads p;
  s_cpars : p_cpars q = p_cpars p;
  s_cost_p : p_cost_p q = p_cost_p p;
  s_ham : p_ham q = Some (dual_ham p);
  s_cadj : p_cadj q = p_cadj p ++ nu_names "_nu_0_" (p_ci p) ++ nu_names "_nu_f_" (p_ct p);
  s_cost_i : p_cost_i q = adjoin (p_cost_i p) (nu_names "_nu_0_" (p_ci p)) (p_ci p);
  s_cost_t : p_cost_t q = adjoin (p_cost_t p) (nu_names "_nu_f_" (p_ct p)) (p_ct p);
  s_ci : p_ci q = p_ci p;
  s_ct : p_ct q = p_ct p;
  s_symp : p_symp q = p_symp p }.
Lemma started_costates p q l : started p q -> started p (set_costates q l).
Proof. intros []; constructor; assumption. Qed.
Lemma started_coparams p q l : started p q -> started p (set_coparams q l).
Proof. intros []; constructor; assumption. Qed.
Lemma dual_start_started p : started p (dual_start p).
Proof. unfold dual_start. cbv zeta. apply started_coparams, started_costates. constructor; reflexivity. Qed.
Lemma dual_start_costates p :
  p_costates (dual_start p) = p_costates p ++ map (fun s => (lam (fst s), Cst 0)) (p_states p).
Proof. reflexivity. Qed.
Lemma dual_start_coparams p :
  p_coparams (dual_start p) = p_coparams p ++ map (fun s => (lam s, Cst 0)) (p_params p).
Proof. reflexivity. Qed.

Lemma started_finish p q : started p q ->
  syms (p_costates q) = map lam (syms (p_states p)) -> syms (p_coparams q) = map lam (p_params p) ->
  dual_of p (dual_finish (dual_ham p) q) (dual_ham p).
Proof. intros [] E1 E2. apply dual_finish_of; auto. Qed.

Section Methods.
  Variable lu : list (list expr) -> list expr -> res (list expr).

  Lemma dualize_traditional m p p' : dualize lu m p = Ok p' -> lower m = "traditional"%string ->
    p_costates p = [] -> p_coparams p = [] ->
    dual_of p p' (dual_ham p) /\
    p_costates p' = map (fun s => (lam (fst s), Opp (diff (fst s) (dual_ham p)))) (p_states p) /\
    p_coparams p' = map (fun x => (lam x, Opp (diff x (dual_ham p)))) (p_params p).
  Proof.
    intros H M E1 E2. unfold dualize in H. destruct (p_symp p) eqn:S; [|discriminate].
    rewrite M in H. cbn [String.eqb Ascii.eqb Bool.eqb bind] in H.
    assert (Hp : p' = dual_finish (dual_ham p) (costates_traditional (dual_ham p) (dual_start p))) by congruence.
    clear H. subst p'. set (h := dual_ham p).
    assert (ST : started p (costates_traditional h (dual_start p))).
    { unfold costates_traditional. apply started_coparams, started_costates, dual_start_started. }
    assert (C1 : p_costates (costates_traditional h (dual_start p)) =
                 map (fun s => (lam (fst s), Opp (diff (fst s) h))) (p_states p)).
    { unfold costates_traditional. cbn [set_coparams set_costates p_costates].
      rewrite (s_states _ _ (dual_start_started p)), (s_params _ _ (dual_start_started p)), dual_start_costates.
      rewrite E1. cbn [app]. rewrite map_app. unfold syms. rewrite map_map.
      apply (give_rates_map (fun s : string * expr => lam (fst s)) (fun _ => Cst 0) (fun s => Opp (diff (fst s) h))). }
    assert (C2 : p_coparams (costates_traditional h (dual_start p)) =
                 map (fun x => (lam x, Opp (diff x h))) (p_params p)).
    { unfold costates_traditional. cbn [set_coparams set_costates p_coparams].
      rewrite (s_states _ _ (dual_start_started p)), (s_params _ _ (dual_start_started p)), dual_start_costates, dual_start_coparams.
      rewrite E1, E2. cbn [app]. rewrite map_app. unfold syms. rewrite !map_map, map_length.
      rewrite skipn_app, skipn_all2 by (rewrite map_length; lia).
      rewrite map_length, Nat.sub_diag. cbn [app skipn].
      rewrite <- (app_nil_r (map (fun x => Opp (diff x h)) (p_params p))).
      apply (give_rates_map lam (fun _ => Cst 0) (fun x => Opp (diff x h))). }
    revert ST C1 C2. generalize (costates_traditional h (dual_start p)). intros q ST C1 C2.
    rewrite finish_costates, finish_coparams.
    split; [|split; [exact C1|exact C2]].
    apply started_finish; [exact ST| |].
    - rewrite C1. unfold syms. rewrite !map_map. reflexivity.
    - rewrite C2. unfold syms. rewrite !map_map. reflexivity.
  Qed.
End Methods.

(** ** The standard symplectic form *)
Lemma rdot_seq (f : nat -> R) : forall x k,
  rdot (map f (seq k (length x))) x = rsum (map (fun j => (f (k + j)%nat * nth j x 0)%R) (seq 0 (length x))).
Proof.
  induction x as [|a x IH]; intros k; [reflexivity|]. cbn [length seq map]. rewrite rdot_cons, IH.
  unfold rsum. cbn [fold_right nth]. rewrite Nat.add_0_r. f_equal. f_equal.
  rewrite <- seq_shift, map_map. apply map_ext. intros j. cbn [nth]. f_equal. f_equal. lia.
Qed.
Lemma rsum_single_nat (g : nat -> R) k : forall n s, s <= k < s + n ->
  rsum (map (fun j => (if Nat.eqb j k then 1 else 0) * g j)%R (seq s n)) = g k.
Proof.
  induction n as [|n IH]; intros s H; [lia|]. cbn [seq map]. unfold rsum. cbn [fold_right]. fold (rsum (map (fun j => ((if Nat.eqb j k then 1 else 0) * g j)%R) (seq (S s) n))).
  destruct (Nat.eq_dec s k) as [->|N].
  - rewrite Nat.eqb_refl. rewrite rsum_zero.
    + lra.
    + intros j Hj. apply in_seq in Hj. destruct (Nat.eqb_spec j k); [lia|lra].
  - rewrite IH by lia. destruct (Nat.eqb_spec s k); [lia|]. lra.
Qed.

Lemma std_form_length n : length (std_form n) = 2 * n.
Proof. unfold std_form. now rewrite map_length, seq_length. Qed.
Lemma std_form_row n : Forall (fun row => length row = 2 * n) (std_form n).
Proof.
  unfold std_form. rewrite Forall_forall. intros r Hr. apply in_map_iff in Hr. destruct Hr as (i & <- & _).
  now rewrite map_length, seq_length.
Qed.
Lemma std_form_dot fn rho n x i : length x = 2 * n -> i < 2 * n ->
  rdot (map (eval fn rho) (nth i (std_form n) [])) x =
  (if Nat.ltb i n then nth (i + n) x 0 else - nth (i - n) x 0)%R.
Proof.
  intros L H. unfold std_form.
  rewrite (nth_indep _ [] ((fun i => map (fun j => if Nat.eqb j (i + n) then Cst 1 else if Nat.eqb i (j + n) then Cst (-1) else Cst 0) (seq 0 (2 * n))) 0))
    by (rewrite map_length, seq_length; lia).
  rewrite (map_nth (fun i => map (fun j => if Nat.eqb j (i + n) then Cst 1 else if Nat.eqb i (j + n) then Cst (-1) else Cst 0) (seq 0 (2 * n)))).
  rewrite seq_nth by lia. cbn [plus]. rewrite map_map, <- L, rdot_seq. cbn [plus].
  destruct (Nat.ltb_spec i n).
  - rewrite <- (rsum_single_nat (fun j => nth j x 0%R) (i + n) (length x) 0) by lia.
    apply rsum_ext. intros j Hj. apply in_seq in Hj. destruct (Nat.eqb_spec j (i + n)); [simpl; lra|].
    destruct (Nat.eqb_spec i (j + n)); [lia|]. simpl. lra.
  - rewrite <- (rsum_single_nat (fun j => nth j x 0%R) (i - n) (length x) 0) by lia.
    rewrite <- rsum_opp. apply rsum_ext. intros j Hj. apply in_seq in Hj.
    destruct (Nat.eqb_spec j (i + n)); [lia|]. destruct (Nat.eqb_spec i (j + n)); destruct (Nat.eqb_spec j (i - n)); try lia; simpl; lra.
Qed.

Section Field.
  Variable lu : list (list expr) -> list expr -> res (list expr).
  Hypothesis LU : lu_ok lu.

  (** Hamilton's equations from the symplectic form. *)
  Lemma ham_field_values h qs ls chi : length qs = length ls ->
    ham_field lu h (std_form (length qs)) (qs ++ ls) = Ok chi ->
    length chi = 2 * length qs /\
    forall fn rho, Forall (wd fn rho) chi -> forall i, i < length qs ->
      eval fn rho (nth i chi (Cst 0)) = eval fn rho (diff (nth i ls EmptyString) h) /\
      eval fn rho (nth (length qs + i) chi (Cst 0)) = (- eval fn rho (diff (nth i qs EmptyString) h))%R.
  Proof.
    intros HL H. set (n := length qs) in *. unfold ham_field in H. rewrite std_form_length in H.
    destruct (Nat.odd (2 * n)); [discriminate|].
    destruct (lu (std_form n) (map (fun b => diff b h) (qs ++ ls))) as [x|] eqn:E; cbn [bind] in H; [|discriminate].
    assert (EC : chi = map Opp x) by congruence. clear H.
    assert (LB : length (map (fun b => diff b h) (qs ++ ls)) = 2 * n).
    { rewrite map_length, app_length. unfold n. lia. }
    destruct (LU _ _ _ (eq_trans (std_form_length n) (eq_sym LB)) ltac:(rewrite LB; apply std_form_row) E) as [Lx V].
    rewrite LB in Lx. split; [rewrite EC, map_length; exact Lx|].
    intros fn rho W i Hi.
    assert (WX : Forall (wd fn rho) x).
    { rewrite EC in W. rewrite Forall_map in W. exact W. }
    specialize (V fn rho WX).
    assert (RW : forall k, k < 2 * n ->
      rdot (map (eval fn rho) (nth k (std_form n) [])) (map (eval fn rho) x) =
      eval fn rho (diff (nth k (qs ++ ls) EmptyString) h)).
    { intros k Hk.
      assert (G : forall (A : list (list expr)) b k, Forall2 (fun row bi => rdot (map (eval fn rho) row) (map (eval fn rho) x) = eval fn rho bi) A b ->
         k < length A -> rdot (map (eval fn rho) (nth k A [])) (map (eval fn rho) x) = eval fn rho (nth k b (Cst 0))).
      { clear. intros A b k F. revert k. induction F; intros [|k] Hk; simpl in *; try lia; auto. apply IHF. lia. }
      rewrite (G _ _ _ V) by (rewrite std_form_length; exact Hk).
      rewrite (nth_indep _ (Cst 0) (diff EmptyString h)) by (rewrite LB; exact Hk).
      now rewrite (map_nth (fun b => diff b h)). }
    assert (NX : forall k, nth k (map (eval fn rho) x) 0%R = eval fn rho (nth k x (Cst 0))).
    { intros k. rewrite <- (map_nth (eval fn rho)). reflexivity. }
    assert (NC : forall k, k < 2 * n -> eval fn rho (nth k chi (Cst 0)) = (- eval fn rho (nth k x (Cst 0)))%R).
    { intros k Hk. rewrite EC. rewrite (nth_indep _ (Cst 0) (Opp (Cst 0))) by (rewrite map_length; lia).
      now rewrite (map_nth Opp). }
    split.
    - rewrite NC by lia. pose proof (RW (n + i) ltac:(lia)) as R1.
      rewrite std_form_dot in R1 by (rewrite ?map_length; lia).
      destruct (Nat.ltb_spec (n + i) n); [lia|]. replace (n + i - n) with i in R1 by lia.
      rewrite NX in R1. rewrite app_nth2 in R1 by (unfold n; lia). fold n in R1. replace (n + i - n) with i in R1 by lia.
      exact R1.
    - rewrite NC by lia. pose proof (RW i ltac:(lia)) as R1.
      rewrite std_form_dot in R1 by (rewrite ?map_length; lia).
      destruct (Nat.ltb_spec i n); [|lia]. rewrite NX in R1. rewrite app_nth1 in R1 by exact Hi.
      rewrite <- R1. f_equal. f_equal. f_equal. lia.
  Qed.
End Field.

Lemma combine_names {A B C} (f : A -> B) : forall (l : list A) (r : list C),
  map (fun ce => (f (fst ce), snd ce)) (combine l r) = combine (map f l) r.
Proof. induction l as [|a l IH]; intros [|b r]; simpl; auto. now rewrite IH. Qed.

Lemma last_k_skipn {A} k (l : list A) : 0 < k -> last_k k l = skipn (length l - k) l.
Proof. intros H. unfold last_k. destruct (Nat.eqb_spec k 0); [lia|reflexivity]. Qed.

Lemma nth_skipn' {A} (d : A) : forall k l i, nth i (skipn k l) d = nth (k + i) l d.
Proof. induction k as [|k IH]; intros [|a l] i; simpl; auto. now destruct i. Qed.

Lemma dualize_diffyg_eq lu m p p' : dualize lu m p = Ok p' -> lower m = "diffyg"%string ->
  exists q, costates_diffyg lu (dual_ham p) (dual_start p) = Ok q /\ p' = dual_finish (dual_ham p) q.
Proof.
  unfold dualize. cbv zeta. generalize (dual_ham p) (dual_start p). intros h q0 H M.
  destruct (p_symp p); [|discriminate]. rewrite M in H.
  destruct (costates_diffyg lu h q0) as [q|] eqn:E.
  - exists q. split; [reflexivity|]. symmetry. apply Ok_inj. exact H.
  - exfalso. cbn [String.eqb Ascii.eqb Bool.eqb bind] in H. discriminate.
Qed.

Section Diffyg.
  Variable lu : list (list expr) -> list expr -> res (list expr).
  Hypothesis LU : lu_ok lu.

  (** The costate equations of the geometric method, whatever the number of
      parameters. *)
  Lemma dualize_diffyg m p p' : dualize lu m p = Ok p' -> lower m = "diffyg"%string ->
    p_costates p = [] -> p_coparams p = [] ->
    let h := dual_ham p in
    let q := syms (p_states p) ++ p_params p in
    dual_of p p' h /\
    p_coparams p' = map (fun x => (lam x, Cst 0)) (p_params p) /\
    exists chi rates,
      ham_field lu h (std_form (length q)) (q ++ map lam q) = Ok chi /\
      length rates = length (p_states p) /\
      p_costates p' = combine (map lam (syms (p_states p))) rates /\
      forall fn rho, Forall (wd fn rho) chi -> forall i, i < length (p_states p) ->
        eval fn rho (nth i rates (Cst 0)) =
        (- eval fn rho (diff (nth (length (p_params p) + i) q EmptyString) h))%R.
  Proof.
    intros H0 M E1 E2 h q. destruct (dualize_diffyg_eq lu m p p' H0 M) as (q2 & H & Hp'). clear H0. fold h in H, Hp'.
    assert (CS : p_costates (dual_start p) = map (fun s => (lam (fst s), Cst 0)) (p_states p)).
    { rewrite dual_start_costates, E1. reflexivity. }
    assert (CP : p_coparams (dual_start p) = map (fun s => (lam s, Cst 0)) (p_params p)).
    { rewrite dual_start_coparams, E2. reflexivity. }
    pose proof (dual_start_started p) as ST. revert H ST CS CP. generalize (dual_start p). intros q0 H ST CS CP.
    assert (SQ : syms (p_costates q0) ++ syms (p_coparams q0) = map lam q).
    { rewrite CS, CP. unfold q, syms. rewrite map_app, !map_map. reflexivity. }
    unfold costates_diffyg in H. rewrite (s_states _ _ ST), (s_params _ _ ST) in H. fold q in H.
    rewrite SQ, map_length, Nat.eqb_refl in H. cbn [negb] in H.
    destruct (ham_field lu h (std_form (length q)) (q ++ map lam q)) as [chi|] eqn:EH; cbn [bind] in H; [|discriminate].
    destruct (ham_field_values lu LU h q (map lam q) chi (eq_sym (map_length _ _)) EH) as [LC V].
    set (n := length (p_states p)) in *.
    assert (LQ : length q = n + length (p_params p)).
    { unfold q, syms. rewrite app_length, map_length. reflexivity. }
    set (rates := if Nat.eqb n 0 then [] else last_k n chi).
    assert (LR : length rates = n).
    { unfold rates. destruct (Nat.eqb_spec n 0); [simpl; lia|]. rewrite last_k_skipn by lia. rewrite skipn_length. lia. }
    assert (EC : map (fun ce => (fst (fst ce), snd ce)) (combine (p_costates q0) (last_k n chi)) ++
                 skipn (length (last_k n chi)) (p_costates q0) = combine (map lam (syms (p_states p))) rates).
    { rewrite (combine_names (fun s : string * expr => fst s)), CS. rewrite map_map. cbn [fst].
      rewrite skipn_all2.
      - rewrite app_nil_r. unfold rates, syms. rewrite map_map. destruct (Nat.eqb_spec n 0) as [N0|]; [|reflexivity].
        assert (p_states p = []) as -> by (destruct (p_states p); [reflexivity|simpl in N0; unfold n in N0; simpl in N0; lia]).
        reflexivity.
      - rewrite map_length. fold n. unfold rates in LR. destruct (Nat.eqb_spec n 0); lia. }
    rewrite EC in H. apply Ok_inj in H. clear EC. subst p'. revert H.
    generalize (set_costates_spec q0 (combine (map lam (syms (p_states p))) rates)).
    pose proof (started_costates p q0 (combine (map lam (syms (p_states p))) rates) ST) as ST'. revert ST'.
    generalize (set_costates q0 (combine (map lam (syms (p_states p))) rates)). intros q1 ST' [EC CP'] <-.
    rewrite CP in CP'. clear CS CP SQ ST. rewrite finish_coparams, finish_costates.
    split; [|split].
    - apply started_finish; [exact ST'| |].
      + rewrite EC. unfold syms at 1.
        clear - LR. assert (L2 : length (map lam (syms (p_states p))) = length rates)
          by (unfold syms; rewrite !map_length; symmetry; exact LR).
        revert L2. generalize (map lam (syms (p_states p))). intros l. clear. revert l.
        induction rates as [|e r IH]; intros [|a l] HL; simpl in *; auto; try lia. f_equal. apply IH. lia.
      + rewrite CP'. unfold syms. rewrite map_map. apply map_id || (rewrite map_ext with (g := lam); auto).
    - exact CP'.
    - exists chi, rates. split; [reflexivity|]. split; [exact LR|]. split; [exact EC|].
      intros fn rho W i Hi. unfold rates. destruct (Nat.eqb_spec n 0); [lia|]. rewrite last_k_skipn by lia.
      destruct (V fn rho W (length (p_params p) + i) ltac:(lia)) as [_ V2]. rewrite <- V2.
      f_equal. rewrite nth_skipn'. f_equal. lia.
  Qed.
End Diffyg.

(** ** Derivatives of the Hamiltonian *)
Section Ham.
  Variable fn : string -> nat -> R -> R.
  Open Scope R_scope.

  Lemma dual_ham_value p rho : eval fn rho (dual_ham p) =
    eval fn rho (p_cost_p p) + rsum (map (fun s => rho (lam (fst s)) * eval fn rho (snd s)) (p_states p)).
  Proof. unfold dual_ham. rewrite eval_Sum, map_map. reflexivity. Qed.

  Lemma dual_ham_diff p y rho : eval fn rho (diff y (dual_ham p)) =
    eval fn rho (diff y (p_cost_p p)) +
    rsum (map (fun s => (if String.eqb y (lam (fst s)) then 1 else 0) * eval fn rho (snd s) +
                        rho (lam (fst s)) * eval fn rho (diff y (snd s))) (p_states p)).
  Proof.
    unfold dual_ham. rewrite diff_Sum, eval_Sum. f_equal. rewrite !map_map. apply rsum_ext. intros s _.
    cbn [diff eval]. destruct (String.eqb y (lam (fst s))); cbn [eval]; lra.
  Qed.

  (** In a symbol that is not a costate. *)
  Lemma dual_ham_diff_plain p y rho : ~ In y (map lam (syms (p_states p))) ->
    eval fn rho (diff y (dual_ham p)) =
    eval fn rho (diff y (p_cost_p p)) +
    rsum (map (fun s => rho (lam (fst s)) * eval fn rho (diff y (snd s))) (p_states p)).
  Proof.
    intros H. rewrite dual_ham_diff. f_equal. apply rsum_ext. intros s Hs.
    destruct (String.eqb_spec y (lam (fst s))); [|lra]. exfalso. apply H. subst y. apply in_map. unfold syms. now apply in_map.
  Qed.

  (** In a costate. *)
  Lemma dual_ham_diff_lam p x f rho : NoDup (syms (p_states p)) -> In (x, f) (p_states p) ->
    ~ In (lam x) (vars (p_cost_p p)) ->
    (forall s, In s (p_states p) -> ~ In (lam x) (vars (snd s))) ->
    eval fn rho (diff (lam x) (dual_ham p)) = eval fn rho f.
  Proof.
    intros ND Hin HC HF. rewrite dual_ham_diff. rewrite (eval_diff_fresh fn) by exact HC. rewrite Rplus_0_l.
    assert (G : forall l, NoDup (syms l) -> (forall s, In s l -> ~ In (lam x) (vars (snd s))) ->
      rsum (map (fun s => (if String.eqb (lam x) (lam (fst s)) then 1 else 0) * eval fn rho (snd s) +
                          rho (lam (fst s)) * eval fn rho (diff (lam x) (snd s))) l) =
      rsum (map (fun s => (if String.eqb (fst s) x then 1 else 0) * eval fn rho (snd s)) l)).
    { intros l _ HL. apply rsum_ext. intros s Hs. rewrite (eval_diff_fresh fn _ (snd s)) by (now apply HL).
      destruct (String.eqb_spec (lam x) (lam (fst s))) as [E|E], (String.eqb_spec (fst s) x) as [E'|E']; try lra.
      - apply lam_inj in E. congruence.
      - subst x. congruence. }
    rewrite G by assumption. clear G HC HF. revert ND Hin. induction (p_states p) as [|[y g] l IH]; simpl; [tauto|].
    intros ND Hin. inversion ND as [|? ? NI ND']; subst. unfold rsum. cbn [fold_right fst snd].
    fold (rsum (map (fun s : string * expr => (if String.eqb (fst s) x then 1 else 0) * eval fn rho (snd s)) l)).
    destruct Hin as [E|Hin].
    - injection E as -> ->. rewrite String.eqb_refl. rewrite rsum_zero; [lra|].
      intros s Hs. destruct (String.eqb_spec (fst s) x) as [E|E]; [|lra].
      exfalso. apply NI. rewrite <- E. unfold syms. now apply in_map.
    - rewrite IH by assumption. destruct (String.eqb_spec y x) as [->|E]; [|lra].
      exfalso. apply NI. unfold syms. apply (in_map fst) in Hin. exact Hin.
  Qed.

  (** Chain rule when only the names in [L] move. *)
  Lemma dir_moving rho d L e : NoDup L -> (forall x, In x (vars e) -> In x L \/ d x = 0) ->
    dir fn rho d e = rsum (map (fun v => eval fn rho (diff v e) * d v) L).
  Proof.
    intros ND H.
    set (M := filter (fun v => negb (mem v L)) (nodup String.string_dec (vars e))).
    assert (NM : NoDup (L ++ M)).
    { assert (D : forall x, In x L -> ~ In x M).
      { intros x HL HM. unfold M in HM. apply filter_In in HM. destruct HM as [_ HM].
        apply mem_In in HL. rewrite HL in HM. discriminate. }
      assert (NDM : NoDup M) by (apply NoDup_filter, NoDup_nodup).
      clearbody M. clear - ND D NDM. induction L as [|a L IH]; simpl; auto. inversion ND; subst. constructor.
      - rewrite in_app_iff. intros [?|HM]; [tauto|]. apply (D a); simpl; auto.
      - apply IH; auto. intros x Hx. apply D. simpl. auto. }
    rewrite (dir_sum fn rho d (L ++ M)); auto.
    - rewrite map_app, rsum_app. rewrite (rsum_zero _ M); [lra|]. intros v Hv. unfold M in Hv. apply filter_In in Hv.
      destruct Hv as [Hv Hn]. apply nodup_In in Hv. destruct (H v Hv) as [HL| ->]; [|lra].
      apply mem_In in HL. rewrite HL in Hn. discriminate.
    - intros x Hx. apply in_or_app. destruct (mem x L) eqn:E; [left; now apply mem_In|right].
      unfold M. apply filter_In. split; [now apply nodup_In|]. now rewrite E.
  Qed.
End Ham.
