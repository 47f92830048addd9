(** Dualize and the control laws keep a problem dimensionally consistent. *)
From Coq Require Import Reals Lra.
From Verif Require Import Base Base_Facts Sym_Expr Sym_Facts Sym_Model Sym_Lu Sym_Dual Sym_DiffCtl Unit_Model Unit_Spec Unit_Proofs Unit_Steps.
Open Scope string_scope. Open Scope list_scope. Open Scope nat_scope.

Lemma Forall2_combine {A B} (l : list A) (r : list B) (P : A -> B -> Prop) : length l = length r ->
  (forall a b, In (a, b) (combine l r) -> P a b) -> Forall2 P l r.
Proof.
  revert r. induction l as [|a l IH]; intros [|b r] E H; try discriminate; constructor; [apply H; now left|].
  apply IH; [cbn in E; congruence|]. intros x y I. apply H. now right.
Qed.
Lemma Forall2_seq {A B} (P : A -> B -> Prop) (da : A) (db : B) l r : length l = length r ->
  (forall i, i < length l -> P (nth i l da) (nth i r db)) -> Forall2 P l r.
Proof.
  revert r. induction l as [|a l IH]; intros [|b r] E H; try discriminate; constructor; [apply (H 0); cbn; lia|].
  apply IH; [cbn in E; congruence|]. intros i Hi. apply (H (S i)). cbn. lia.
Qed.
Lemma Forall2_nth' {A B} (P : A -> B -> Prop) da db l r : Forall2 P l r -> forall i, i < length l -> P (nth i l da) (nth i r db).
Proof. induction 1; intros [|i] Hi; cbn in *; try lia; auto. apply IHForall2. lia. Qed.
Lemma Forall2_split {A B} (P : A -> B -> Prop) l1 : forall l2 r1 r2, Forall2 P (l1 ++ l2) (r1 ++ r2) -> length l1 = length r1 -> Forall2 P l1 r1 /\ Forall2 P l2 r2.
Proof.
  induction l1 as [|a l1 IH]; intros l2 [|b r1] r2 F L; try discriminate; [auto|]. inversion F; subst. cbn in L.
  destruct (IH l2 r1 r2) as [X Y]; [assumption|congruence|]. auto.
Qed.
Lemma Forall_nth' {A} (P : A -> Prop) d l : Forall P l -> forall i, i < length l -> P (nth i l d).
Proof. intros F i Hi. rewrite Forall_forall in F. apply F. now apply nth_In. Qed.

Section Dual.
  Variable G : uenv.
  Hypothesis PG : forall x v, G x = Some v -> proper v.

  Lemma has_proper l r : Forall2 (has G) l r -> Forall proper r.
  Proof. induction 1; constructor; eauto. Qed.
  Lemma dyn_has ui l r : Forall2 (dyn_ok G ui) l r -> Forall2 (has G) (syms l) r.
  Proof. induction 1; cbn; constructor; auto. apply H. Qed.
  Lemma dyn_proper ui l r : Forall2 (dyn_ok G ui) l r -> Forall proper r.
  Proof. intros H. apply dyn_has in H. now apply has_proper in H. Qed.
  Lemma constr_proper l r : Forall2 (constr_ok G) l r -> Forall proper r.
  Proof. induction 1; constructor; auto. apply H. Qed.

  Lemma adjoin_units w cost cs us : proper w -> dim G cost w -> Forall2 (constr_ok G) cs us -> forall nus,
    Forall2 (has G) nus (per w us) -> dim G (adjoin cost nus cs) w.
  Proof.
    intros Pw C F nus N. unfold adjoin. apply dim_Sum; [exact C|]. revert nus N. clear C.
    induction F as [|c v cs us Hc F IH]; intros nus N; inversion N as [|nu ? nus' ? Hn N' E1 E2]; subst; cbn; constructor; [|now apply IH].
    destruct Hc as (Pv & Dc & _). cbn. apply D_same with (Mul (Div w v) v); [|usolve]. apply D_mul; [now apply D_var|exact Dc].
  Qed.
  Lemma ham_units w ui cost l us : proper w -> proper ui -> dim G cost (Div w ui) -> Forall2 (dyn_ok G ui) l us ->
    Forall2 (has G) (map lam (syms l)) (per w us) ->
    dim G (Sum cost (map (fun s => Mul (Var (lam (fst s))) (snd s)) l)) (Div w ui).
  Proof.
    intros Pw Pi C F N. apply dim_Sum; [exact C|]. clear C. induction F as [|s v l us [Hs Ds] F IH]; cbn; constructor; inversion N; subst; auto.
    pose proof (PG _ _ Hs) as Pv. apply D_same with (Mul (Div w v) (Div v ui)); [|usolve]. apply D_mul; [now apply D_var|exact Ds].
  Qed.

  (** Costate equations: x has unit v, its costate w / v, and h unit w / ui. *)
  Lemma costate_rate w ui h x v : proper w -> proper ui -> dim G h (Div w ui) -> G x = Some v ->
    dim G (Opp (diff x h)) (Div (Div w v) ui).
  Proof.
    intros Pw Pi Dh Hx. pose proof (PG _ _ Hx) as Pv. apply D_opp. apply D_same with (Div (Div w ui) v); [|usolve]. now apply dim_diff.
  Qed.
  Lemma boundary_units w e (sg : bool) q us : proper w -> dim G e w -> Forall2 (has G) q us -> Forall2 (has G) (map lam q) (per w us) ->
    Forall2 (constr_ok G) (map (fun xl => plain (if sg then Add (Var (snd xl)) (diff (fst xl) e) else Sub (Var (snd xl)) (diff (fst xl) e))) (combine q (map lam q)))
      (map snd (combine us (per w us))).
  Proof.
    intros Pw De. induction 1 as [|x v q us Hx F IH]; cbn; intros N; constructor; inversion N as [|? ? ? ? Hl N']; subst; auto.
    pose proof (PG _ _ Hx) as Pv. split; [cbn; auto with proper|]. split; [|split; discriminate].
    assert (D : dim G (diff x e) (Div w v)) by now apply dim_diff. assert (L : dim G (Var (lam x)) (Div w v)) by now apply D_var.
    destruct sg; cbn; [now apply D_add|now apply dim_sub].
  Qed.

  Variable lu : list (list expr) -> list expr -> res (list expr).
  Hypothesis LU : lu_units lu.

  Lemma std_entry n i j : i < 2 * n -> j < 2 * n ->
    nth j (nth i (std_form n) []) (Cst 0) = if Nat.eqb j (i + n) then Cst 1 else if Nat.eqb i (j + n) then Cst (-1) else Cst 0.
  Proof.
    intros Hi Hj. unfold std_form.
    rewrite (nth_indep _ [] ((fun i => map (fun j => if Nat.eqb j (i + n) then Cst 1 else if Nat.eqb i (j + n) then Cst (-1) else Cst 0) (seq 0 (2 * n))) 0))
      by (rewrite map_length, seq_length; lia).
    rewrite (map_nth (fun i => map (fun j => if Nat.eqb j (i + n) then Cst 1 else if Nat.eqb i (j + n) then Cst (-1) else Cst 0) (seq 0 (2 * n)))).
    rewrite seq_nth by lia. rewrite ?Nat.add_0_l.
    rewrite (nth_indep _ (Cst 0) ((fun j => if Nat.eqb j (i + n) then Cst 1 else if Nat.eqb i (j + n) then Cst (-1) else Cst 0) 0)) by (rewrite map_length, seq_length; lia).
    rewrite (map_nth (fun j => if Nat.eqb j (i + n) then Cst 1 else if Nat.eqb i (j + n) then Cst (-1) else Cst 0)).
    rewrite seq_nth by lia. reflexivity.
  Qed.

  (** A field derived from a form whose entries (i, j) have unit w / (u_i u_j). *)
  Lemma field_units w ui h om basis us chi : proper w -> proper ui -> dim G h (Div w ui) ->
    Forall2 (has G) basis us -> length om = length basis ->
    (forall i, i < length basis -> length (nth i om []) = length basis) ->
    (forall i j, i < length basis -> j < length basis -> dim G (nth j (nth i om []) (Cst 0)) (Div w (Mul (nth i us (Cst 1)) (nth j us (Cst 1))))) ->
    ham_field lu h om basis = Ok chi -> Forall2 (fun e u => dim G e (Div u ui)) chi us.
  Proof.
    intros Pw Pi Dh F LO LR DE H. unfold ham_field in H. destruct (Nat.odd (length om)); [discriminate|].
    destruct (lu om (map (fun b => diff b h) basis)) as [x|] eqn:E; [|discriminate]. cbn [bind] in H. apply Ok_inj in H. subst chi.
    pose proof (has_proper _ _ F) as PU. pose proof (Forall2_length' _ _ _ F) as LU'.
    assert (X : Forall2 (fun e c => dim G e (Div (Inv ui) c)) x (map Inv us)).
    { apply (LU G om (map (fun b => diff b h) basis) x (per w us) (map Inv us) (Inv ui)); auto with proper.
      - now rewrite !map_length.
      - now apply proper_per.
      - apply Forall_forall. intros e I. apply in_map_iff in I. destruct I as (v & <- & I). rewrite Forall_forall in PU. auto with proper.
      - unfold per. apply Forall2_seq with (da := []) (db := Cst 1); [rewrite map_length; congruence|]. intros i Hi. rewrite LO in Hi.
        rewrite (nth_indep _ (Cst 1) (Div w (Cst 1))) by (rewrite map_length; lia). rewrite (map_nth (Div w)).
        apply Forall2_seq with (da := Cst 0) (db := Inv (Cst 1)); [rewrite map_length, LR; auto|]. intros j Hj. rewrite LR in Hj by exact Hi.
        rewrite (map_nth Inv). eapply D_same; [apply DE; assumption|].
        pose proof (Forall_nth' proper (Cst 1) us PU i ltac:(lia)) as P1. pose proof (Forall_nth' proper (Cst 1) us PU j ltac:(lia)) as P2. usolve.
      - unfold per. clear - F PG Dh Pw Pi. induction F as [|b v basis us Hb F IH]; cbn; constructor; [|exact IH].
        pose proof (PG _ _ Hb) as Pv. apply D_same with (Div (Div w ui) v); [now apply dim_diff|]. usolve. }
    clear - X PU Pi. revert x X. induction PU as [|v us Pv PU IH]; intros x X; inversion X; subst; cbn; constructor; auto.
    apply D_opp. eapply D_same; [eassumption|]. usolve.
  Qed.
  Lemma std_field_units w ui h q us chi : proper w -> proper ui -> dim G h (Div w ui) ->
    Forall2 (has G) q us -> Forall2 (has G) (map lam q) (per w us) ->
    ham_field lu h (std_form (length q)) (q ++ map lam q) = Ok chi -> Forall2 (fun e u => dim G e (Div u ui)) chi (us ++ per w us).
  Proof.
    intros Pw Pi Dh F N H. pose proof (has_proper _ _ F) as PU. pose proof (Forall2_length' _ _ _ F) as L.
    apply (field_units w ui h (std_form (length q)) (q ++ map lam q)); auto.
    - now apply Forall2_app'.
    - rewrite std_form_length, app_length, map_length. lia.
    - intros i Hi. rewrite app_length, map_length in *. pose proof (std_form_row (length q)) as R. rewrite Forall_forall in R.
      rewrite R; [lia|]. apply nth_In. rewrite std_form_length. lia.
    - intros i j Hi Hj. rewrite app_length, map_length in *. rewrite std_entry by lia.
      assert (PN : forall k, k < length us -> proper (nth k us (Cst 1))) by (intros k Hk; now apply Forall_nth').
      assert (NP : forall k, k < length us -> nth k (per w us) (Cst 1) = Div w (nth k us (Cst 1))).
      { intros k Hk. unfold per. rewrite (nth_indep _ (Cst 1) (Div w (Cst 1))) by (rewrite map_length; lia). apply (map_nth (Div w)). }
      destruct (Nat.eqb_spec j (i + length q)) as [->|N1]; [|destruct (Nat.eqb_spec i (j + length q)) as [->|N2]; [|apply D_zero]].
      + apply D_same with (Cst 1); [apply D_number|]. rewrite (@app_nth1 _ us (per w us) (Cst 1) i) by lia. rewrite (@app_nth2 _ us (per w us) (Cst 1) (i + length q)) by lia.
        replace (i + length q - length us) with i by lia. rewrite NP by lia. pose proof (PN i ltac:(lia)). usolve.
      + apply D_same with (Cst 1); [apply D_number|]. rewrite (@app_nth1 _ us (per w us) (Cst 1) j) by lia. rewrite (@app_nth2 _ us (per w us) (Cst 1) (j + length q)) by lia.
        replace (j + length q - length us) with j by lia. rewrite NP by lia. pose proof (PN j ltac:(lia)). usolve.
  Qed.

  Record kept (p q : prob) : Prop := mkKept {
    e_cp : p_cp q = p_cp p; e_consts : p_consts q = p_consts p; e_quants : p_quants q = p_quants p;
    e_switches : p_switches q = p_switches p; e_law : p_law q = p_law p }.

  Lemma finish_consistent p u q : consistent G p u -> u_costates u = [] -> u_coparams u = [] ->
    Forall2 (has G) (nu_names "_nu_0_" (p_ci p)) (per (u_cost u) (u_ci u)) ->
    Forall2 (has G) (nu_names "_nu_f_" (p_ct p)) (per (u_cost u) (u_ct u)) ->
    Forall2 (has G) (map lam (syms (p_states p) ++ p_params p)) (per (u_cost u) (u_states u ++ u_params u)) ->
    started p q -> kept p q ->
    syms (p_costates q) = map lam (syms (p_states p)) -> syms (p_coparams q) = map lam (p_params p) ->
    Forall2 (dyn_ok G (u_ind u)) (p_costates q) (per (u_cost u) (u_states u)) ->
    Forall2 (dyn_ok G (u_ind u)) (p_coparams q) (per (u_cost u) (u_params u)) ->
    consistent G (dual_finish (dual_ham p) q) (dual_units u).
  Proof.
    intros K UC UP N0 NF NL ST KE SC SP DC DP.
    pose proof (started_finish p q ST SC SP) as D.
    destruct K as [K1 K2 K3 K4 K5 K6 K7 K8 K9 K10 K11 K12 K13 K14 K15 K16 K17 K18 K19 K20 K21 K22].
    pose proof (PG _ _ K2) as Pi.
    assert (QU : Forall2 (has G) (syms (p_states p) ++ p_params p) (u_states u ++ u_params u)).
    { apply Forall2_app'; [now apply dyn_has with (u_ind u)|exact K7]. }
    assert (CI : dim G (p_cost_i (dual_finish (dual_ham p) q)) (u_cost u)).
    { rewrite (d_cost_i _ _ _ D). now apply adjoin_units with (u_ci u). }
    assert (CT : dim G (p_cost_t (dual_finish (dual_ham p) q)) (u_cost u)).
    { rewrite (d_cost_t _ _ _ D). now apply adjoin_units with (u_ct u). }
    assert (HU : dim G (dual_ham p) (Div (u_cost u) (u_ind u))).
    { unfold dual_ham. apply ham_units with (us := u_states u); auto.
      rewrite map_app in NL. unfold per in NL. rewrite map_app in NL.
      apply Forall2_split in NL; [apply NL|]. unfold syms. rewrite !map_length. now apply Forall2_length' in K3. }
    assert (BC : map snd (combine (u_states u ++ u_params u) (per (u_cost u) (u_states u) ++ per (u_cost u) (u_params u)))
                 = map snd (combine (u_states u ++ u_params u) (per (u_cost u) (u_states u ++ u_params u)))).
    { unfold per. now rewrite map_app. }
    destruct KE as [E1 E2 E3 E4 E5].
    unfold dual_units. rewrite UC, UP. cbn [app]. constructor; cbn [u_ind u_states u_costates u_params u_coparams u_controls u_cpars u_cadj u_consts u_quads u_ci u_cp u_ct u_cost u_ham].
    - exact K1.
    - now rewrite (d_ind _ _ _ D).
    - now rewrite (d_states _ _ _ D).
    - rewrite finish_costates. exact DC.
    - rewrite finish_coparams. exact DP.
    - now rewrite (d_quads _ _ _ D).
    - now rewrite (d_params _ _ _ D).
    - now rewrite (d_controls _ _ _ D).
    - now rewrite (d_cpars _ _ _ D).
    - rewrite (d_cadj _ _ _ D). apply Forall2_app'; [exact K10|]. now apply Forall2_app'.
    - change (p_consts (dual_finish (dual_ham p) q)) with (p_consts q). now rewrite E2.
    - rewrite (d_ci _ _ _ D). apply Forall2_app'; [exact K12|]. rewrite BC.
      pose proof (boundary_units (u_cost u) (p_cost_i (dual_finish (dual_ham p) q)) true _ _ K15 CI QU NL) as B.
      rewrite combine_map_lam, map_map in B. exact B.
    - change (p_cp (dual_finish (dual_ham p) q)) with (p_cp q). now rewrite E1.
    - rewrite (d_ct _ _ _ D). apply Forall2_app'; [exact K14|]. apply Forall2_app'.
      + rewrite BC. pose proof (boundary_units (u_cost u) (p_cost_t (dual_finish (dual_ham p) q)) false _ _ K15 CT QU NL) as B.
        rewrite combine_map_lam, map_map in B. exact B.
      + constructor; [|constructor]. split; [auto with proper|]. split; [|split; discriminate]. cbn.
        apply D_add; [|exact HU]. apply dim_diff; assumption.
    - exact K15.
    - exact CI.
    - now rewrite (d_cost_p _ _ _ D).
    - exact CT.
    - change (p_quants (dual_finish (dual_ham p) q)) with (p_quants q). now rewrite E3.
    - change (p_switches (dual_finish (dual_ham p) q)) with (p_switches q). now rewrite E4.
    - change (p_law (dual_finish (dual_ham p) q)) with (p_law q). now rewrite E5.
    - intros h Hh. rewrite (d_ham _ _ _ D) in Hh. injection Hh as <-. split; [auto with proper|exact HU].
  Qed.
End Dual.

Lemma kept_refl p : kept p p.
Proof. constructor; reflexivity. Qed.
Lemma dual_start_kept p : kept p (dual_start p).
Proof. constructor; reflexivity. Qed.

Lemma map_dyn_units G ui (l : list string) us (r : string -> expr) :
  Forall2 (has G) (map lam l) us -> (forall x u, In (x, u) (combine l us) -> dim G (r x) (Div u ui)) ->
  Forall2 (dyn_ok G ui) (map (fun x => (lam x, r x)) l) us.
Proof.
  revert us. induction l as [|x l IH]; intros us F H; inversion F as [|? v ? us' Hx F' E1 E2]; subst; cbn; constructor.
  - split; [exact Hx|]. apply H. now left.
  - apply IH; [assumption|]. intros y w I. apply H. now right.
Qed.
Lemma combine_dyn_units G ui (l : list string) us r :
  Forall2 (has G) l us -> Forall2 (fun e u => dim G e (Div u ui)) r us -> Forall2 (dyn_ok G ui) (combine l r) us.
Proof.
  intros F. revert r. induction F; intros r R; inversion R; subst; cbn; constructor; auto. split; assumption.
Qed.
Lemma combine_In_has G l us x u w : Forall2 (has G) l us -> In (x, u) (combine l (per w us)) -> exists v, u = Div w v /\ G x = Some v.
Proof.
  induction 1 as [|y v l us H F IH]; cbn; [tauto|]. intros [E|I]; [|now apply IH]. injection E as <- <-. exists v. auto.
Qed.
Lemma combine_In_nth {A B} (l : list A) (r : list B) a b : In (a, b) (combine l r) -> exists k, nth_error l k = Some a /\ nth_error r k = Some b.
Proof.
  revert r. induction l as [|x l IH]; intros [|y r]; cbn; try tauto. intros [E|I]; [injection E as -> ->; exists 0; auto|].
  destruct (IH r I) as (k & A1 & B1). exists (S k). auto.
Qed.
Lemma extend_combine G l names us rest rest' : l = rest ++ combine names us ++ rest' -> fresh G l -> length names = length us ->
  Forall2 (has (extend G l)) names us.
Proof.
  intros -> F L. apply Forall2_combine; [exact L|]. intros a b I. apply extend_new; [exact F|]. rewrite !in_app_iff. tauto.
Qed.
Lemma combine_app {A B} (l1 l2 : list A) (r1 r2 : list B) : length l1 = length r1 -> combine (l1 ++ l2) (r1 ++ r2) = combine l1 r1 ++ combine l2 r2.
Proof. revert r1. induction l1 as [|a l1 IH]; intros [|b r1] L; try discriminate; cbn; [reflexivity|]. f_equal. apply IH. cbn in L. congruence. Qed.

Lemma set_costates_kept p q l : kept p q -> kept p (set_costates q l).
Proof. intros []; constructor; assumption. Qed.
Lemma set_coparams_kept p q l : kept p q -> kept p (set_coparams q l).
Proof. intros []; constructor; assumption. Qed.
Lemma set_coparams_spec q l : p_costates (set_coparams q l) = p_costates q /\ p_coparams (set_coparams q l) = l.
Proof. split; reflexivity. Qed.

Lemma traditional_mid h p q0 : started p q0 -> kept p q0 ->
  p_costates q0 = map (fun s => (lam (fst s), Cst 0)) (p_states p) -> p_coparams q0 = map (fun s => (lam s, Cst 0)) (p_params p) ->
  started p (costates_traditional h q0) /\ kept p (costates_traditional h q0) /\
  p_costates (costates_traditional h q0) = map (fun x => (lam x, Opp (diff x h))) (syms (p_states p)) /\
  p_coparams (costates_traditional h q0) = map (fun x => (lam x, Opp (diff x h))) (p_params p).
Proof.
  intros ST KE C1 C2. unfold costates_traditional.
  split; [now apply started_coparams, started_costates|]. split; [now apply set_coparams_kept, set_costates_kept|].
  rewrite (proj1 (set_coparams_spec _ _)), (proj2 (set_coparams_spec _ _)), (proj1 (set_costates_spec _ _)), C1, C2, (s_states _ _ ST), (s_params _ _ ST). clear.
  split.
  - rewrite map_app. unfold syms. rewrite !map_map.
    apply (give_rates_map (fun s : string * expr => lam (fst s)) (fun _ => Cst 0) (fun s => Opp (diff (fst s) h))).
  - rewrite map_app. unfold syms. rewrite !map_map, map_length.
    rewrite skipn_app, skipn_all2 by (rewrite map_length; lia).
    rewrite map_length, Nat.sub_diag. cbn [app skipn].
    rewrite <- (app_nil_r (map (fun x => Opp (diff x h)) (p_params p))).
    apply (give_rates_map lam (fun _ => Cst 0) (fun x => Opp (diff x h))).
Qed.
Lemma diffyg_mid lu G (PG : forall x v, G x = Some v -> proper v) (LU : lu_units lu) w ui us h p q0 q : proper w -> proper ui -> dim G h (Div w ui) ->
  Forall2 (has G) (syms (p_states p)) us -> Forall2 (has G) (map lam (syms (p_states p))) (per w us) ->
  started p q0 -> kept p q0 -> p_params p = [] ->
  p_costates q0 = map (fun s => (lam (fst s), Cst 0)) (p_states p) -> p_coparams q0 = [] ->
  costates_diffyg lu h q0 = Ok q ->
  started p q /\ kept p q /\ p_coparams q = [] /\ syms (p_costates q) = map lam (syms (p_states p)) /\
  Forall2 (dyn_ok G ui) (p_costates q) (per w us).
Proof.
  intros Pw Pi Dh HS NS ST KE NP C1 C2 H. unfold costates_diffyg in H. rewrite (s_states _ _ ST), (s_params _ _ ST), C1, C2, NP in H.
  assert (SL : syms (map (fun s : string * expr => (lam (fst s), Cst 0)) (p_states p)) = map lam (syms (p_states p))) by (unfold syms; now rewrite !map_map).
  change (syms []) with (@nil string) in H. rewrite !app_nil_r, SL, map_length, Nat.eqb_refl in H. cbn [negb] in H.
  destruct (ham_field lu h (std_form (length (syms (p_states p)))) (syms (p_states p) ++ map lam (syms (p_states p)))) as [chi|] eqn:EH; [|discriminate].
  cbn [bind] in H. apply Ok_inj in H.
  pose proof (std_field_units G PG lu LU w ui h _ _ chi Pw Pi Dh HS NS EH) as CH.
  pose proof (Forall2_length' _ _ _ HS) as LS. unfold syms in LS. rewrite map_length in LS.
  pose proof (Forall2_length' _ _ _ CH) as LC. rewrite app_length in LC. unfold per in LC at 1. rewrite map_length, <- LS in LC.
  set (rates := if Nat.eqb (length (p_states p)) 0 then [] else last_k (length (p_states p)) chi).
  assert (CR : Forall2 (fun e v => dim G e (Div v ui)) rates (per w us)).
  { unfold rates. destruct (Nat.eqb_spec (length (p_states p)) 0) as [E0|E0].
    - destruct us; [constructor|]. cbn in LS. lia.
    - rewrite last_k_skipn by lia. replace (length chi - length (p_states p)) with (length us) by lia.
      rewrite <- (firstn_skipn (length us) chi) in CH. apply Forall2_split in CH; [apply CH|]. rewrite firstn_length. lia. }
  pose proof (Forall2_length' _ _ _ CR) as LR. unfold per in LR. rewrite map_length in LR.
  assert (EC : map (fun ce : string * expr * expr => (fst (fst ce), snd ce)) (combine (map (fun s => (lam (fst s), Cst 0)) (p_states p)) (last_k (length (p_states p)) chi)) ++
      skipn (length (last_k (length (p_states p)) chi)) (map (fun s => (lam (fst s), Cst 0)) (p_states p)) = combine (map lam (syms (p_states p))) rates).
  { unfold rates in *. destruct (Nat.eqb_spec (length (p_states p)) 0) as [E0|E0].
    - destruct (p_states p); [|discriminate]. cbn. now rewrite skipn_nil.
    - rewrite (combine_names fst), skipn_all2 by (rewrite map_length; lia). rewrite app_nil_r. unfold syms. now rewrite !map_map. }
  rewrite EC in H. clear EC EH CH LC. clearbody rates. subst q.
  rewrite (proj1 (set_costates_spec _ _)), (proj2 (set_costates_spec _ _)).
  split; [now apply started_costates|]. split; [now apply set_costates_kept|]. split; [exact C2|]. split.
  - unfold syms at 1. apply map_fst_combine. unfold syms. rewrite !map_length. lia.
  - now apply combine_dyn_units.
Qed.

Lemma dual_consistent lu (LU : lu_units lu) G m p u p' : consistent G p u -> p_costates p = [] -> p_coparams p = [] ->
  (lower m = "diffyg"%string -> p_params p = []) -> dualize lu m p = Ok p' -> fresh G (new_symbols (FDual m) p u) ->
  consistent (extend G (new_symbols (FDual m) p u)) p' (dual_units u).
Proof.
  intros K CS CP ND H F.
  pose proof (k_proper _ _ _ K) as PG. pose proof (k_ind _ _ _ K) as KI. pose proof (PG _ _ KI) as Pi. pose proof (k_cost _ _ _ K) as Pc.
  assert (PU : Forall proper (u_states u ++ u_params u)).
  { apply Forall_app. split; [apply (dyn_proper G PG (u_ind u) _ _ (k_states _ _ _ K))|apply (has_proper G PG _ _ (k_params _ _ _ K))]. }
  assert (PB : Forall proper (u_ci u ++ u_ct u)).
  { apply Forall_app. split; eapply constr_proper; [apply (k_ci _ _ _ K)|apply (k_ct _ _ _ K)]. }
  pose proof (Forall2_length' _ _ _ (k_ci _ _ _ K)) as L0. pose proof (Forall2_length' _ _ _ (k_ct _ _ _ K)) as LF.
  pose proof (Forall2_length' _ _ _ (k_states _ _ _ K)) as LS. pose proof (Forall2_length' _ _ _ (k_params _ _ _ K)) as LP.
  set (new := new_symbols (FDual m) p u) in *. set (G' := extend G new) in *.
  assert (NL : forall pre cs, length (nu_names pre cs) = length cs) by (intros; unfold nu_names; now rewrite map_length, seq_length).
  assert (EN : new = (combine (nu_names "_nu_0_" (p_ci p)) (per (u_cost u) (u_ci u)) ++ combine (nu_names "_nu_f_" (p_ct p)) (per (u_cost u) (u_ct u)))
                     ++ combine (map lam (syms (p_states p) ++ p_params p)) (per (u_cost u) (u_states u ++ u_params u))).
  { unfold new, new_symbols. f_equal. unfold per. rewrite map_app. apply combine_app. rewrite NL, map_length. exact L0. }
  assert (N0 : Forall2 (has G') (nu_names "_nu_0_" (p_ci p)) (per (u_cost u) (u_ci u))).
  { apply (extend_combine G new _ _ [] (combine (nu_names "_nu_f_" (p_ct p)) (per (u_cost u) (u_ct u)) ++ combine (map lam (syms (p_states p) ++ p_params p)) (per (u_cost u) (u_states u ++ u_params u)))); [|exact F|].
    - rewrite EN. now rewrite <- app_assoc.
    - unfold per. rewrite NL, map_length. exact L0. }
  assert (NF : Forall2 (has G') (nu_names "_nu_f_" (p_ct p)) (per (u_cost u) (u_ct u))).
  { apply (extend_combine G new _ _ (combine (nu_names "_nu_0_" (p_ci p)) (per (u_cost u) (u_ci u))) (combine (map lam (syms (p_states p) ++ p_params p)) (per (u_cost u) (u_states u ++ u_params u)))); [|exact F|].
    - rewrite EN. now rewrite <- app_assoc.
    - unfold per. rewrite NL, map_length. exact LF. }
  assert (NLm : Forall2 (has G') (map lam (syms (p_states p) ++ p_params p)) (per (u_cost u) (u_states u ++ u_params u))).
  { eapply (extend_combine G new _ _ _ []); [rewrite app_nil_r; exact EN|exact F|]. unfold per, syms. rewrite !map_length, !app_length, map_length. congruence. }
  assert (PG' : forall x v, G' x = Some v -> proper v).
  { apply extend_proper; [exact PG|]. rewrite EN. rewrite !Forall_app. 
    assert (C : forall (names : list string) us, Forall proper us -> Forall (fun xu : string * expr => proper (snd xu)) (combine names (per (u_cost u) us))).
    { intros names us PU'. revert names. induction PU'; intros [|nm names]; cbn; constructor; auto. cbn. auto with proper. }
    apply Forall_app in PB. destruct PB. auto. }
  assert (X : extends G G') by apply extends_extend.
  apply (consistent_mono G G' X p u PG') in K. clear F EN. clearbody G' new. clear X PG KI. clear new. rename PG' into PG.
  assert (UC : u_costates u = []) by (pose proof (k_costates _ _ _ K) as Q; rewrite CS in Q; now inversion Q).
  assert (UP : u_coparams u = []) by (pose proof (k_coparams _ _ _ K) as Q; rewrite CP in Q; now inversion Q).
  assert (NLs : Forall2 (has G') (map lam (syms (p_states p))) (per (u_cost u) (u_states u)) /\ Forall2 (has G') (map lam (p_params p)) (per (u_cost u) (u_params u))).
  { apply Forall2_split; [unfold per; rewrite <- !map_app; exact NLm|]. unfold per, syms. rewrite !map_length. exact LS. }
  destruct NLs as [NS NP].
  assert (HU : dim G' (dual_ham p) (Div (u_cost u) (u_ind u))).
  { unfold dual_ham. apply ham_units with (us := u_states u); auto; [apply (k_cost_p _ _ _ K)|apply (k_states _ _ _ K)]. }
  assert (HS : Forall2 (has G') (syms (p_states p)) (u_states u)) by apply (dyn_has G' (u_ind u) _ _ (k_states _ _ _ K)).
  pose proof (k_params _ _ _ K) as HP.
  unfold dualize in H. destruct (p_symp p); [|discriminate]. cbv zeta in H.
  pose proof (dual_start_started p) as ST. pose proof (dual_start_kept p) as KE. pose proof (dual_start_costates p) as C1. pose proof (dual_start_coparams p) as C2.
  rewrite CS in C1. rewrite CP in C2. cbn [app] in C1, C2. revert H ST KE C1 C2. generalize (dual_start p). intros q0 H ST KE C1 C2.
  destruct (String.eqb_spec (lower m) "traditional") as [MT|MT]; [|destruct (String.eqb_spec (lower m) "diffyg") as [MD|MD]].
  - clear MT ND. destruct (traditional_mid (dual_ham p) p q0 ST KE C1 C2) as (ST' & KE' & C1' & C2').
    cbn [bind] in H. apply Ok_inj in H. subst p'. revert ST' KE' C1' C2'. generalize (costates_traditional (dual_ham p) q0). intros q ST' KE' C1' C2'.
    apply finish_consistent; auto.
    + rewrite C1'. unfold syms. rewrite !map_map. reflexivity.
    + rewrite C2'. unfold syms. rewrite !map_map. reflexivity.
    + rewrite C1'. apply map_dyn_units; [exact NS|]. intros x w I. destruct (combine_In_has G' _ _ _ _ _ HS I) as (v & -> & Hx). now apply costate_rate.
    + rewrite C2'. apply map_dyn_units; [exact NP|]. intros x w I. destruct (combine_In_has G' _ _ _ _ _ HP I) as (v & -> & Hx). now apply costate_rate.
  - specialize (ND MD). destruct (costates_diffyg lu (dual_ham p) q0) as [q|] eqn:EQ; [|discriminate]. cbn [bind] in H. apply Ok_inj in H. subst p'.
    rewrite ND in C2. cbn [map] in C2.
    destruct (diffyg_mid lu G' PG LU (u_cost u) (u_ind u) (u_states u) (dual_ham p) p q0 q Pc Pi HU HS NS ST KE ND C1 C2 EQ) as (ST' & KE' & C2' & C1' & D1).
    apply finish_consistent; auto.
    + now rewrite C2', ND.
    + rewrite C2'. rewrite ND in HP. inversion HP. constructor.
  - cbn [bind] in H. apply Ok_inj in H. subst p'.
    apply finish_consistent; auto.
    + rewrite C1. unfold syms. now rewrite !map_map.
    + rewrite C2. unfold syms. rewrite !map_map. reflexivity.
    + rewrite C1. rewrite <- (map_map fst (fun x => (lam x, Cst 0))). apply map_dyn_units; [exact NS|]. intros; apply D_zero.
    + rewrite C2. apply map_dyn_units; [exact NP|]. intros; apply D_zero.
Qed.
