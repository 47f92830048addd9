(** The control laws, NormalizeTime and SquashToBVP keep a problem
    dimensionally consistent. *)
From Coq Require Import Reals Lra.
From Verif Require Import Base Base_Facts Sym_Expr Sym_Facts Sym_Model Sym_Lu Sym_Dual Sym_DiffCtl Unit_Model Unit_Spec Unit_Proofs Unit_Steps Unit_Dual.
Open Scope string_scope. Open Scope list_scope. Open Scope nat_scope.

(** What is used about sympy.solve: every option it returns gives the controls
    expressions of their own unit. *)
Definition law_typed (solve : list expr -> list string -> list (list expr)) (G : uenv) (p : prob) (u : units) : Prop :=
  forall h, p_ham p = Some h ->
    Forall (fun o => Forall2 (dim G) o (u_controls u)) (solve (map (fun c => diff c h) (p_controls p)) (p_controls p)).

Lemma alg_consistent solve G p u p' : consistent G p u -> law_typed solve G p u -> algebraic_control solve p = Ok p' -> consistent G p' u.
Proof.
  intros K T H. unfold algebraic_control in H. destruct (p_dual p); [|discriminate]. destruct (p_ham p) as [h|] eqn:E; [|discriminate].
  apply Ok_inj in H. subst p'. specialize (T h E). apply set_maps_consistent.
  destruct K as [K1 K2 K3 K4 K5 K6 K7 K8 K9 K10 K11 K12 K13 K14 K15 K16 K17 K18 K19 K20 K21 K22]. destruct p; cbn in *. constructor; assumption.
Qed.

Lemma squash_consistent G p u p' : consistent G p u -> squash p = Ok p' -> consistent G p' (squash_units u).
Proof.
  intros K H. unfold squash in H. cbv zeta in H. apply Ok_inj in H. subst p'.
  destruct K as [K1 K2 K3 K4 K5 K6 K7 K8 K9 K10 K11 K12 K13 K14 K15 K16 K17 K18 K19 K20 K21 K22]. destruct p; cbn in *.
  constructor; cbn; try assumption; try (constructor; fail); now apply Forall2_app'.
Qed.

Lemma norm_consistent G p u p' : consistent G p u -> p_quads p = [] -> p_coparams p = [] -> normalize_time None p = Ok p' ->
  fresh G (new_symbols FNorm p u) -> consistent (extend G (new_symbols FNorm p u)) p' (norm_units u).
Proof.
  intros K NQ NC H F. unfold normalize_time in H. destruct (p_symp p); [|discriminate]. cbv zeta in H. apply Ok_inj in H. subst p'. apply set_maps_consistent.
  pose proof (k_proper _ _ _ K) as PG. pose proof (k_ind _ _ _ K) as KI. pose proof (PG _ _ KI) as Pi. pose proof (k_cost _ _ _ K) as Pc.
  set (new := new_symbols FNorm p u) in *. set (G' := extend G new) in *.
  assert (PG' : forall x v, G' x = Some v -> proper v) by (apply extend_proper; [exact PG|repeat constructor; [exact Pi|apply proper_one]]).
  assert (ND : G' ("_delta" ++ p_ind p)%string = Some (u_ind u)) by (apply extend_new; [exact F|now left]).
  assert (NT : G' "_tau" = Some (Cst 1)) by (apply extend_new; [exact F|right; now left]).
  assert (X : extends G G') by apply extends_extend. clearbody G' new. clear F.
  apply (consistent_mono G G' X p u PG') in K. destruct K as [K1 K2 K3 K4 K5 K6 K7 K8 K9 K10 K11 K12 K13 K14 K15 K16 K17 K18 K19 K20 K21 K22].
  assert (SC : forall l us, Forall2 (dyn_ok G' (u_ind u)) l us ->
            Forall2 (dyn_ok G' (Cst 1)) (map (fun s : string * expr => (fst s, Mul (snd s) (Var ("_delta" ++ p_ind p)%string))) l) us).
  { induction 1 as [|s v l us [Hs Ds] L IH]; cbn; constructor; [|exact IH]. split; [exact Hs|]. cbn.
    apply D_same with (Mul (Div v (u_ind u)) (u_ind u)); [|usolve]. apply D_mul; [exact Ds|now apply D_var]. }
  rewrite NQ in K6. rewrite NC in K5. inversion K5 as [E1 E2|]. inversion K6 as [E3 E4|].
  destruct p; cbn in *. subst p_quads p_coparams. constructor; cbn; try assumption; try (now apply SC); try (rewrite <- ?E2, <- ?E4; constructor; fail).
  - apply Forall2_app'; [assumption|]. constructor; [exact ND|constructor].
  - apply D_same with (Mul (Div (u_cost u) (u_ind u)) (u_ind u)); [|usolve]. apply D_mul; [assumption|now apply D_var].
Qed.

(** ** The differential control law *)
Section Diff.
  Variable G : uenv.
  Hypothesis PG : forall x v, G x = Some v -> proper v.
  Variable lu : list (list expr) -> list expr -> res (list expr).
  Hypothesis LU : lu_units lu.

  Lemma udot_units w ui h us uus dyn ud udot : proper w -> proper ui -> dim G h w ->
    Forall2 (has G) us uus -> Forall2 (dyn_ok G ui) dyn ud ->
    (let g := map (fun u => diff u h) us in
     lu (jacobian g us) (map (fun row => dot (map Opp row) (eoms dyn)) (jacobian g (syms dyn)))) = Ok udot ->
    Forall2 (fun e v => dim G e (Div v ui)) udot uus.
  Proof.
    intros Pw Pi Dh HU HD H. cbv zeta in H. pose proof (has_proper G PG _ _ HU) as PU. pose proof (dyn_has G ui _ _ HD) as HX.
    pose proof (Forall2_length' _ _ _ HU) as LE.
    assert (X : Forall2 (fun e c => dim G e (Div (Inv ui) c)) udot (map Inv uus)).
    { apply (LU G _ _ udot (per w uus) (map Inv uus) (Inv ui) PG) in H; auto with proper.
      - unfold jacobian. rewrite !map_length. congruence.
      - now apply proper_per.
      - apply Forall_forall. intros e I. apply in_map_iff in I. destruct I as (v & <- & I). rewrite Forall_forall in PU. auto with proper.
      - unfold jacobian, per. rewrite map_map. assert (R : forall ks uks, Forall2 (has G) ks uks ->
          Forall2 (fun row r => Forall2 (fun e c => dim G e (Mul r c)) row (map Inv uus)) (map (fun x => map (fun x0 => diff x0 (diff x h)) us) ks) (map (Div w) uks)).
        { induction 1 as [|k v ks uks Hk F IH]; cbn; constructor; [|exact IH]. pose proof (PG _ _ Hk) as Pv.
          assert (Dk : dim G (diff k h) (Div w v)) by now apply dim_diff. clear - HU PG Dk Pw Pv.
          induction HU as [|x y us uus Hx F IH]; cbn; constructor; [|exact IH]. pose proof (PG _ _ Hx) as Py.
          apply D_same with (Div (Div w v) y); [now apply dim_diff|]. usolve. }
        now apply R.
      - unfold jacobian, per. rewrite !map_map.
        clear - HU HD PG Dh Pw Pi HX. induction HU as [|k v us uus Hk F IH]; cbn; constructor; [|exact IH]. pose proof (PG _ _ Hk) as Pv.
        assert (Dk : dim G (diff k h) (Div w v)) by now apply dim_diff. unfold dot. apply dim_Sum; [apply D_zero|].
        clear - HD PG Dk Pw Pi Pv. induction HD as [|s y dyn ud [Hs Ds] F IH]; cbn; constructor; [|exact IH]. pose proof (PG _ _ Hs) as Py. cbn.
        apply D_same with (Mul (Div (Div w v) y) (Div y ui)); [|usolve]. apply D_mul; [|exact Ds]. apply D_opp. now apply dim_diff. }
    clear - X PU Pi. revert udot X. induction PU as [|v uus Pv PU IH]; intros x X; inversion X; subst; cbn; constructor; auto.
    eapply D_same; [eassumption|]. usolve.
  Qed.

  Lemma extended_field_units w ui h qs ls us n0 udot chi : proper w -> proper ui -> dim G h (Div w ui) ->
    Forall2 (has G) qs us -> Forall2 (has G) ls (per w us) -> 0 < n0 -> length us = n0 + length udot ->
    ueq (nth (n0 - 1) us (Cst 1)) ui -> Forall2 (fun e v => dim G e (Div v ui)) udot (skipn n0 us) ->
    ham_field lu h (omega_new (length qs) (length udot) (n0 - 1) udot) (qs ++ ls) = Ok chi ->
    Forall2 (fun e v => dim G e (Div v ui)) chi (us ++ per w us).
  Proof.
    intros Pw Pi Dh HQ HL N0 LS LT DU H. pose proof (has_proper G PG _ _ HQ) as PU. pose proof (Forall2_length' _ _ _ HQ) as LQ.
    pose proof (Forall2_length' _ _ _ HL) as LL. unfold per in LL. rewrite map_length in LL.
    set (n := length qs) in *. set (m := length udot) in *.
    destruct (omega_entries (2 * n) n m (n0 - 1) udot eq_refl ltac:(lia) ltac:(lia)) as [[SQ1 SQ2] EQ].
    apply (field_units G PG lu LU w ui h (omega_new n m (n0 - 1) udot) (qs ++ ls)); auto.
    - now apply Forall2_app'.
    - rewrite SQ1, app_length. fold n. lia.
    - intros i Hi. rewrite app_length in *. fold n in Hi |- *. rewrite SQ2; lia.
    - intros i j Hi Hj. rewrite app_length in *. fold n in Hi, Hj.
      change (nth j (nth i (omega_new n m (n0 - 1) udot) []) (Cst 0)) with (entry (omega_new n m (n0 - 1) udot) i j). rewrite EQ by lia. fold m.
      assert (PN : forall k, k < length us -> proper (nth k us (Cst 1))) by (intros k Hk; now apply Forall_nth').
      assert (NP : forall k, k < length us -> nth k (per w us) (Cst 1) = Div w (nth k us (Cst 1))).
      { intros k Hk. unfold per. rewrite (nth_indep _ (Cst 1) (Div w (Cst 1))) by (rewrite map_length; lia). apply (map_nth (Div w)). }
      assert (NQ : forall k, k < n -> nth (k + n) (us ++ per w us) (Cst 1) = Div w (nth k us (Cst 1))).
      { intros k Hk. rewrite app_nth2 by lia. replace (k + n - length us) with k by lia. apply NP. lia. }
      assert (UD : forall k, k < m -> dim G (nth k udot (Cst 0)) (Div (nth (n0 + k) us (Cst 1)) ui)).
      { intros k Hk. pose proof (Forall2_nth' _ (Cst 0) (Cst 1) _ _ DU k Hk) as D. cbv beta in D. rewrite nth_skipn' in D. exact D. }
      destruct (Nat.eqb_spec i (n0 - 1)) as [Ei|Ei]; [destruct (Nat.leb_spec (2 * n - m) j); [destruct (Nat.ltb_spec (j - (2 * n - m)) m)|]|]; cbn [andb].
      + subst i. apply D_opp. eapply D_same; [apply UD; assumption|].
        replace j with ((j - n) + n) at 2 by lia. rewrite NQ by lia. rewrite app_nth1 by lia.
        replace (n0 + (j - (2 * n - m))) with (j - n) by lia. pose proof (PN (j - n) ltac:(lia)) as P1. pose proof (PN (n0 - 1) ltac:(lia)) as P2.
        intros fn fac P. specialize (LT fn fac P). pose proof (proper_ne _ fn fac P1 P). pose proof (proper_ne _ fn fac P2 P). pose proof (proper_ne _ fn fac Pw P).
        unfold Div. cbn [eval]. rewrite <- LT. field. auto.
      + exfalso. lia.
      + destruct (Nat.eqb_spec j (n0 - 1)) as [Ej|Ej]; [destruct (Nat.leb_spec (2 * n - m) i); [lia|]|]; cbn [andb];
          (unfold entry; rewrite std_entry by lia; destruct (Nat.eqb_spec j (i + n)) as [->|N1]; [|destruct (Nat.eqb_spec i (j + n)); [lia|apply D_zero]]);
          (apply D_same with (Cst 1); [apply D_number|]; rewrite NQ by lia; rewrite app_nth1 by lia; pose proof (PN i ltac:(lia)); usolve).
      + destruct (Nat.eqb_spec j (n0 - 1)) as [Ej|Ej]; [destruct (Nat.leb_spec (2 * n - m) i); [destruct (Nat.ltb_spec (i - (2 * n - m)) m)|]|]; cbn [andb].
        * subst j. eapply D_same; [apply UD; assumption|].
          replace i with ((i - n) + n) at 2 by lia. rewrite NQ by lia. rewrite app_nth1 by lia.
          replace (n0 + (i - (2 * n - m))) with (i - n) by lia. pose proof (PN (i - n) ltac:(lia)) as P1. pose proof (PN (n0 - 1) ltac:(lia)) as P2.
          intros fn fac P. specialize (LT fn fac P). pose proof (proper_ne _ fn fac P1 P). pose proof (proper_ne _ fn fac P2 P). pose proof (proper_ne _ fn fac Pw P).
          unfold Div. cbn [eval]. rewrite <- LT. field. auto.
        * exfalso. lia.
        * unfold entry. rewrite std_entry by lia. destruct (Nat.eqb_spec j (i + n)) as [E|N1]; [lia|]. destruct (Nat.eqb_spec i (j + n)) as [->|N2]; [|apply D_zero].
          apply D_same with (Cst 1); [apply D_number|]. rewrite NQ by lia. rewrite app_nth1 by lia. pose proof (PN j ltac:(lia)). usolve.
        * unfold entry. rewrite std_entry by lia. destruct (Nat.eqb_spec j (i + n)) as [->|N1]; [|destruct (Nat.eqb_spec i (j + n)) as [->|N2]; [|apply D_zero]];
            apply D_same with (Cst 1); try apply D_number; rewrite NQ by lia; rewrite app_nth1 by lia; [pose proof (PN i ltac:(lia))|pose proof (PN j ltac:(lia))]; usolve.
  Qed.
End Diff.

Lemma stationary_units G (PG : forall x v, G x = Some v -> proper v) w h us uus : proper w -> dim G h w -> Forall2 (has G) us uus ->
  Forall2 (constr_ok G) (map plain (map (fun u => diff u h) us)) (per w uus).
Proof.
  intros Pw Dh. induction 1 as [|x v us uus Hx F IH]; cbn; constructor; [|exact IH]. pose proof (PG _ _ Hx) as Pv.
  split; [auto with proper|]. split; [now apply dim_diff|split; discriminate].
Qed.

Lemma diff_consistent lu (LU : lu_units lu) G m p u p' : consistent G p u -> p_law p = [] ->
  (lower m = "diffyg"%string -> u_ham u = Div (u_cost u) (u_ind u) /\ u_costates u = per (u_cost u) (u_states u) /\
     exists pre ux, u_states u = pre ++ [ux] /\ ueq ux (u_ind u)) ->
  differential_control lu m p = Ok p' -> fresh G (new_symbols (FDiff m) p u) ->
  consistent (extend G (new_symbols (FDiff m) p u)) p' (diff_units m u).
Proof.
  intros K NL GE H F. unfold differential_control in H. destruct (p_dual p); [|discriminate]. destruct (p_ham p) as [h|] eqn:EH; [|discriminate].
  destruct (lu (jacobian (map (fun u => diff u h) (p_controls p)) (p_controls p)) (map (fun row => dot (map Opp row) (eoms (p_states p ++ p_costates p))) (jacobian (map (fun u => diff u h) (p_controls p)) (syms (p_states p ++ p_costates p))))) as [udot|] eqn:EU; [|discriminate].
  cbv zeta in H. cbn [bind] in H.
  pose proof (k_proper _ _ _ K) as PG. pose proof (k_ind _ _ _ K) as KI. pose proof (PG _ _ KI) as Pi. pose proof (k_cost _ _ _ K) as Pc.
  pose proof (k_controls _ _ _ K) as HC. pose proof (Forall2_length' _ _ _ HC) as LC.
  destruct (k_ham _ _ _ K h EH) as [Ph Dh].
  assert (UD : Forall2 (fun e v => dim G e (Div v (u_ind u))) udot (u_controls u)).
  { apply (udot_units G PG lu LU (u_ham u) (u_ind u) h (p_controls p) (u_controls u) (p_states p ++ p_costates p) (u_states u ++ u_costates u)); auto.
    apply Forall2_app'; [apply (k_states _ _ _ K)|apply (k_costates _ _ _ K)]. }
  pose proof (Forall2_length' _ _ _ UD) as LUD. unfold new_symbols, diff_units in *.
  destruct (String.eqb_spec (lower m) "traditional") as [MT|MT].
  - assert (MD : String.eqb (lower m) "diffyg" = false) by (rewrite MT; reflexivity). rewrite MD in *. clear GE MD MT.
    apply Ok_inj in H. subst p'. apply set_maps_consistent. pose proof (stationary_units G PG (u_ham u) h _ _ Ph Dh HC) as SU.
    assert (DC : Forall2 (dyn_ok G (u_ind u)) (combine (p_controls p) udot) (u_controls u)) by now apply combine_dyn_units.
    apply (consistent_mono G); [apply extends_extend|apply extend_proper; [exact PG|constructor]|].
    clear EU. destruct K as [K1 K2 K3 K4 K5 K6 K7 K8 K9 K10 K11 K12 K13 K14 K15 K16 K17 K18 K19 K20 K21 K22].
    destruct p; cbn in *. subst p_law. constructor; cbn; try assumption; try constructor; now apply Forall2_app'.
  - destruct (String.eqb_spec (lower m) "diffyg") as [MD|MD]; [|discriminate]. destruct (GE MD) as (EHam & ECos & pre & ux & ES & Ux). clear GE.
    set (new := combine (map lam (p_controls p)) (per (u_cost u) (u_controls u))) in *. set (G' := extend G new) in *.
    assert (PU : Forall proper (u_controls u)) by now apply (has_proper G PG) in HC.
    assert (PG' : forall x v, G' x = Some v -> proper v).
    { apply extend_proper; [exact PG|]. unfold new. generalize (map lam (p_controls p)). clear - PU Pc. induction PU; intros [|nm names]; cbn; constructor; auto. cbn. auto with proper. }
    assert (NLm : Forall2 (has G') (map lam (p_controls p)) (per (u_cost u) (u_controls u))).
    { apply (extend_combine G new _ _ [] []); [unfold new; now rewrite app_nil_r|exact F|]. unfold per. rewrite !map_length. exact LC. }
    assert (X : extends G G') by apply extends_extend. clearbody G' new. clear F new.
    apply (consistent_mono G G' X p u PG') in K.
    assert (UD' : Forall2 (fun e v => dim G' e (Div v (u_ind u))) udot (u_controls u)) by (eapply Forall2_imp; [|exact UD]; intros e v; now apply dim_mono).
    assert (Dh' : dim G' h (u_ham u)) by now apply dim_mono with G. apply (Forall2_imp _ _ _ _ (has_mono G G' X)) in HC.
    clear UD Dh KI PG X G EU. rename PG' into PG.
    pose proof (stationary_units G' PG (u_ham u) h _ _ Ph Dh' HC) as SU.
    pose proof (k_states _ _ _ K) as KS. pose proof (k_costates _ _ _ K) as KC. pose proof (Forall2_length' _ _ _ KS) as LS. pose proof (Forall2_length' _ _ _ KC) as LCo.
    cbn [set_ct set_states set_costates p_states p_costates p_controls] in H.
    destruct (negb _); [discriminate|].
    match type of H with bind ?e _ = _ => destruct e as [chi|] eqn:EC end; cbn [bind] in H; [|discriminate].
    apply Ok_inj in H. subst p'. apply set_maps_consistent.
    set (qs := syms (p_states p) ++ p_controls p). set (ls := syms (p_costates p) ++ map lam (p_controls p)).
    set (us := u_states u ++ u_controls u) in *.
    assert (EQ : syms (p_states p ++ combine (p_controls p) udot) = qs).
    { unfold qs, syms. rewrite map_app, (map_fst_combine (p_controls p) udot) by congruence. reflexivity. }
    assert (EL : syms (p_costates p ++ map (fun u => (lam u, Cst 0)) (p_controls p)) = ls).
    { unfold ls, syms. rewrite map_app, map_map. reflexivity. }
    assert (LN : length (p_states p ++ combine (p_controls p) udot) = length qs) by (rewrite <- EQ; unfold syms; now rewrite map_length).
    assert (HQ : Forall2 (has G') qs us) by (apply Forall2_app'; [now apply dyn_has with (u_ind u)|exact HC]).
    assert (HL : Forall2 (has G') ls (per (u_cost u) us)).
    { unfold us, per. rewrite map_app. apply Forall2_app'; [|exact NLm]. change (map (Div (u_cost u)) (u_states u)) with (per (u_cost u) (u_states u)). rewrite <- ECos. now apply dyn_has with (u_ind u). }
    rewrite EQ, EL, LN in *. replace (length (p_controls p)) with (length udot) in EC by congruence.
    assert (LUS : length us = length (p_states p) + length udot) by (unfold us; rewrite app_length; congruence).
    assert (N0 : 0 < length (p_states p)) by (rewrite LS, ES, app_length; cbn; lia).
    assert (CH : Forall2 (fun e v => dim G' e (Div v (u_ind u))) chi (us ++ per (u_cost u) us)).
    { apply (extended_field_units G' PG lu LU (u_cost u) (u_ind u) h qs ls us (length (p_states p)) udot chi); auto.
      - now rewrite <- EHam.
      - unfold us. rewrite LS, ES, app_nth1 by (rewrite app_length; cbn; lia).
        rewrite app_nth2; rewrite app_length; cbn [length]; [|lia]. replace (length pre + 1 - 1 - length pre) with 0 by lia. exact Ux.
      - unfold us. rewrite LS, skipn_app, skipn_all, Nat.sub_diag. cbn [skipn app]. exact UD'. }
    pose proof (Forall2_length' _ _ _ CH) as LCH. pose proof (Forall2_length' _ _ _ HQ) as LQ. unfold per in LCH at 1. rewrite app_length, map_length in LCH.
    rewrite <- (firstn_skipn (length qs) chi) in CH. apply Forall2_split in CH; [|rewrite firstn_length; lia]. destruct CH as [C1 C2].
    pose proof (combine_dyn_units _ _ _ _ _ HQ C1) as D1. pose proof (combine_dyn_units _ _ _ _ _ HL C2) as D2.
    assert (E2 : u_costates u ++ per (u_cost u) (u_controls u) = per (u_cost u) us) by (rewrite ECos; unfold us, per; now rewrite map_app).
    assert (CIL : Forall2 (constr_ok G') (map (fun c => plain (Var (lam c))) (p_controls p)) (per (u_cost u) (u_controls u))).
    { clear - NLm PG. revert NLm. generalize (per (u_cost u) (u_controls u)). induction (p_controls p) as [|x l IH]; intros r N; inversion N; subst; cbn; constructor; auto.
      split; [eapply PG; eassumption|]. split; [now apply D_var|split; discriminate]. }
    clear EC. destruct K as [K1 K2 K3 K4 K5 K6 K7 K8 K9 K10 K11 K12 K13 K14 K15 K16 K17 K18 K19 K20 K21 K22].
    clearbody qs ls. destruct p; cbn in *. subst p_law. rewrite E2. constructor; cbn; try assumption; try constructor; now apply Forall2_app'.
Qed.
