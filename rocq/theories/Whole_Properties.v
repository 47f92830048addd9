(** C85, C86: solutions of the derived boundary value problem are stationary points
    of the optimal control problem. *)
From Coq Require Import Reals Lra FunctionalExtensionality Permutation.
From Coquelicot Require Import Coquelicot.
From Verif Require Import Base Base_Facts Map_Model Map_Proofs Map_More Sym_Expr Sym_Facts Sym_Model Sym_Lu Sym_Dual Sym_Traj Sym_Var Sym_DiffCtl Jac_Model Jac_Proofs Jac_Properties Unit_Model Unit_Spec Unit_Proofs Unit_Steps Unit_Scale Unit_Properties Dual_Properties Ctl_Properties Count_Properties Shift_Properties Whole_Proofs Whole_Steps Whole_Geo.
Open Scope string_scope.
Open Scope list_scope.
Open Scope nat_scope.

(** The curve obeys the equations of motion and the boundary conditions of the
    optimal control problem [p] on [t0, tf]. *)
Definition feasible (fn : string -> nat -> R -> R) (p : prob) (c : R -> string -> R) (t0 tf : R) : Prop :=
  (forall t, (t0 <= t <= tf)%R -> follows fn c t (p_states p) /\ c t (p_ind p) = t) /\
  (forall d, In d (p_ci p) -> eval fn (c t0) (c_expr d) = 0%R) /\ (forall d, In d (p_ct p) -> eval fn (c tf) (c_expr d) = 0%R).
(** [v] varies states and controls, [dtf] the final time and [df] the end point,
    to first order within the dynamics and the boundary conditions. *)
Definition admissible (fn : string -> nat -> R -> R) (p : prob) (c v : R -> string -> R) (t0 tf dtf : R) (df : string -> R) : Prop :=
  let X := syms (p_states p) in let P := p_params p in let U := p_controls p in
  (forall t x f, (t0 <= t <= tf)%R -> In (x, f) (p_states p) -> is_derive (fun s => v s x) t (directional fn (c t) (X ++ P ++ U) f (v t))) /\
  (forall t x, (t0 <= t <= tf)%R -> In x P -> is_derive (fun s => v s x) t 0%R) /\
  (forall x f, In (x, f) (p_states p) -> df x = (v tf x + eval fn (c tf) f * dtf)%R) /\
  (forall x, In x P -> df x = v tf x) /\ df (p_ind p) = dtf /\
  (forall b, In b (p_ci p) -> directional fn (c t0) (X ++ P) (c_expr b) (v t0) = 0%R) /\
  (forall b, In b (p_ct p) -> directional fn (c tf) (X ++ P ++ [p_ind p]) (c_expr b) df = 0%R) /\
  (forall t, (t0 <= t <= tf)%R -> continuous (fun s => directional fn (c s) (X ++ P ++ U) (p_cost_p p) (v s)) t).
(** The first variation of the cost vanishes for all of them. *)
Definition extremal (fn : string -> nat -> R -> R) (p : prob) (c : R -> string -> R) (t0 tf : R) : Prop :=
  let X := syms (p_states p) in let P := p_params p in let U := p_controls p in
  forall v dtf df I, admissible fn p c v t0 tf dtf df ->
  is_RInt (fun t => directional fn (c t) (X ++ P ++ U) (p_cost_p p) (v t)) t0 tf I ->
  (directional fn (c t0) (X ++ P) (p_cost_i p) (v t0) + directional fn (c tf) (X ++ P ++ [p_ind p]) (p_cost_t p) df +
   eval fn (c tf) (p_cost_p p) * dtf + I = 0)%R.

Lemma split_unique {A} (x : A) a b c e : ~ In x a -> ~ In x b -> a ++ x :: b = c ++ x :: e -> a = c /\ b = e.
Proof.
  intros NA NB. revert c. induction a as [|y a IH]; intros c H; destruct c as [|z c]; cbn in H.
  - injection H as H. now subst.
  - injection H as H1 H2. subst. exfalso. apply NB. apply in_or_app. right. now left.
  - injection H as H1 H2. subst. exfalso. apply NA. now left.
  - injection H as H1 H2. subst z. destruct (IH (fun I => NA (or_intror I)) c H2) as [-> ->]. now split.
Qed.
Lemma constraint_no_dual m cs l : constraint_tfs cs = Ok l -> ~ In (FDual m) l.
Proof.
  revert l. induction cs as [|c cs IH]; cbn; intros l H; [injection H as <-; intros []|]. destruct (two_sided c); [|now apply IH].
  destruct (is_method "epstrig" c); [|destruct (is_method "utm" c); [|discriminate]];
    (destruct (constraint_tfs cs) as [r|]; [|discriminate]; cbn in H; injection H as <-; intros [E|I]; [discriminate|exact (IH r eq_refl I)]).
Qed.
Definition control_tf (o : options) : tf := if String.eqb (lower (o_control o)) "algebraic" then FAlg else FDiff (o_method o).

Lemma indirect_steps lu solve o p fs pre post p1 p' :
  make_indirect o p = Ok fs -> fs = pre ++ FDual (o_method o) :: post -> run_tfs lu solve pre p = Ok p1 -> run_tfs lu solve fs p = Ok p' -> o_norm o = true ->
  exists pD p2 p3, dualize lu (o_method o) p1 = Ok pD /\ apply_tf lu solve (control_tf o) pD = Ok p2 /\ normalize_time None p2 = Ok p3 /\ squash p3 = Ok p'.
Proof.
  intros MK EF R1 R N. unfold make_indirect in MK. destruct (constraint_tfs (all_constraints p)) as [cons|] eqn:EC; [|discriminate]. cbn [bind] in MK.
  assert (CT : exists ct, ct = control_tf o /\ (if String.eqb (lower (o_control o)) "algebraic" then Ok FAlg
      else if String.eqb (lower (o_control o)) "differential" then Ok (FDiff (o_method o)) else Raise NotImplementedError) = Ok ct).
  { unfold control_tf. destruct (String.eqb (lower (o_control o)) "algebraic"); [eexists; split; reflexivity|].
    destruct (String.eqb (lower (o_control o)) "differential"); [eexists; split; reflexivity|discriminate]. }
  destruct CT as (ct & ECT & CT). rewrite CT in MK. cbn [bind] in MK. rewrite N in MK. injection MK as MK.
  set (A := (if o_shift o then [FMomentum] else []) ++ cons ++ (if Nat.ltb 0 (length (p_switches p)) then [FRashs] else [])) in *.
  set (J := if o_jac o && negb (String.eqb (o_control o) "algebraic") then [FJac] else []) in *.
  assert (EA : fs = A ++ FDual (o_method o) :: ct :: FNorm :: FSquash :: J) by (rewrite <- MK; unfold A; rewrite <- !app_assoc; reflexivity).
  assert (NA : ~ In (FDual (o_method o)) A).
  { unfold A. rewrite !in_app_iff. intros [I|[I|I]].
    - destruct (o_shift o); cbn in I; [destruct I as [I|[]]; discriminate I|exact I].
    - exact (constraint_no_dual _ _ _ EC I).
    - destruct (Nat.ltb _ _); cbn in I; [destruct I as [I|[]]; discriminate I|exact I]. }
  assert (NB : ~ In (FDual (o_method o)) (ct :: FNorm :: FSquash :: J)).
  { rewrite ECT. unfold control_tf, J. intros [I|[I|[I|I]]].
    - destruct (String.eqb (lower (o_control o)) "algebraic"); discriminate I.
    - discriminate I.
    - discriminate I.
    - destruct (_ && _); cbn in I; [destruct I as [I|[]]; discriminate I|exact I]. }
  rewrite EA in EF. destruct (split_unique _ _ _ _ _ NA NB EF) as [E1 E2]. rewrite EA in R. apply run_app in R. destruct R as (q & RA & R). rewrite E1 in RA. rewrite RA in R1. injection R1 as ->.
  cbn [run_tfs apply_tf] in R. destruct (dualize lu (o_method o) p1) as [pD|] eqn:HD; [|discriminate]. cbn [bind] in R.
  destruct (apply_tf lu solve ct pD) as [p2|] eqn:H2; [|discriminate]. cbn [bind] in R.
  destruct (normalize_time None p2) as [p3|] eqn:H3; [|discriminate]. cbn [bind] in R.
  destruct (squash p3) as [p4|] eqn:H4; [|discriminate]. cbn [bind] in R. exists pD, p2, p3. rewrite <- ECT.
  split; [reflexivity|]. split; [exact H2|]. split; [exact H3|].
  destruct J as [|j J'] eqn:EJ; [injection R as ->; exact H4|]. unfold J in EJ. destruct (_ && _); [|discriminate]. injection EJ as <- <-. cbn in R. injection R as ->. exact H4.
Qed.

Lemma assign_same rho us : forall vs, length vs = length us -> (forall i u, nth_error us i = Some u -> rho u = nth i vs 0%R) -> assign rho us vs = rho.
Proof.
  induction us as [|u us IH]; intros [|v vs] L H; try discriminate; [reflexivity|]. cbn [assign]. apply functional_extensionality. intros y.
  rewrite IH; [|now injection L|intros i w E; exact (H (S i) w E)]. destruct (String.eqb_spec u y) as [ <-|]; [|reflexivity]. symmetry. exact (H 0 u eq_refl).
Qed.
Lemma dual_of_exists lu (LU : lu_ok lu) m p pD : dualize lu m p = Ok pD -> lower m = "traditional" \/ lower m = "diffyg" -> p_costates p = [] -> p_coparams p = [] ->
  dual_of p pD (dual_ham p).
Proof. intros H [M|M] E1 E2; [now apply (dualize_traditional lu m p pD H M)|now apply (dualize_diffyg lu LU m p pD H M)]. Qed.
Lemma syms_nil l : syms l = [] -> l = [].
Proof. destruct l; [reflexivity|discriminate]. Qed.

(** What the last two steps need to know of the problem before them. *)
Lemma control_rest lu solve o pD p2 : apply_tf lu solve (control_tf o) pD = Ok p2 ->
  p_params p2 = p_params pD /\ p_quads p2 = p_quads pD /\ p_coparams p2 = p_coparams pD /\ p_cpars p2 = p_cpars pD /\ p_cadj p2 = p_cadj pD /\ p_ham p2 = p_ham pD /\ p_ind p2 = p_ind pD.
Proof.
  unfold control_tf. destruct (String.eqb (lower (o_control o)) "algebraic"); cbn [apply_tf]; intros H.
  - unfold algebraic_control in H. destruct (p_dual pD); [|discriminate]. destruct (p_ham pD) as [h|] eqn:E; [|discriminate]. apply Ok_inj in H. subst p2. destruct pD; cbn in *; repeat split; auto.
  - unfold differential_control in H. destruct (p_dual pD); [|discriminate]. destruct (p_ham pD) as [h|] eqn:E; [|discriminate].
    match type of H with bind ?x _ = _ => destruct x as [udot|]; [|discriminate] end. cbn [bind] in H. cbv zeta in H.
    destruct (String.eqb (lower (o_method o)) "traditional"); [apply Ok_inj in H; subst p2; destruct pD; cbn in *; repeat split; auto|].
    destruct (String.eqb (lower (o_method o)) "diffyg"); [|discriminate]. destruct (negb _); [discriminate|].
    match type of H with bind ?x _ = _ => destruct x as [chi|]; [|discriminate] end. cbn [bind] in H. apply Ok_inj in H. subst p2. destruct pD; cbn in *; repeat split; auto.
Qed.

(** Everything but the stationarity of the control. *)
Lemma derived_extremal lu (LU : lu_ok lu) fn m p1 pD c t0 tf : (t0 <= tf)%R ->
  lower m = "traditional" \/ lower m = "diffyg" -> p_costates p1 = [] -> p_coparams p1 = [] -> p_params p1 = [] ->
  dualize lu m p1 = Ok pD ->
  (forall y, In y (syms (p_states p1) ++ p_controls p1) -> ~ In y (map lam (syms (p_states p1)))) ->
  (forall y, In y (syms (p_states p1) ++ [p_ind p1]) -> ~ In y (p_cadj pD)) ->
  (forall t, (t0 <= t <= tf)%R -> field_defined lu fn m p1 (dual_ham p1) (c t) /\ follows fn c t (p_states p1) /\ follows fn c t (p_costates pD) /\ c t (p_ind p1) = t /\
     forall u, In u (p_controls p1) -> eval fn (c t) (diff u (dual_ham p1)) = 0%R) ->
  (forall b, In b (p_ci pD) -> eval fn (c t0) (c_expr b) = 0%R) -> (forall b, In b (p_ct pD) -> eval fn (c tf) (c_expr b) = 0%R) ->
  feasible fn p1 c t0 tf /\ extremal fn p1 c t0 tf.
Proof.
  intros T M E1 E2 EP HD N1 N2 HC B0 B1. assert (DO := dual_of_exists lu LU m p1 pD HD M E1 E2). split.
  - split; [intros t Ht; split; apply (HC t Ht)|]. split; intros d I.
    + apply B0. rewrite (d_ci _ _ _ DO). apply in_or_app. now left.
    + apply B1. rewrite (d_ct _ _ _ DO). apply in_or_app. now left.
  - intros v dtf df I (V1 & V2 & V3 & V4 & V5 & V6 & V7 & V8) HI.
    apply (C65_first_variation_vanishes lu LU fn m p1 pD (dual_ham p1) c v t0 tf dtf df I); auto.
    + destruct M as [M|M]; [now left|right; now split].
    + apply (d_ham _ _ _ DO).
    + rewrite EP. exact N1.
    + rewrite EP. exact N2.
    + intros t Ht. destruct (HC t Ht) as (F & _ & G & _ & U). split; [exact F|]. split; [exact G|]. split; [|exact U].
      assert (Z : p_coparams pD = []) by (apply syms_nil; rewrite (d_colams _ _ _ DO), EP; reflexivity). rewrite Z. intros x e [].
Qed.

Lemma algebraic_curve : forall lu, lu_ok lu -> forall solve, solve_sound solve -> forall fn o p fs pre post p1 p' h Y Q D nu k t0 c delta eps,
  (* the problem handed to Dualize is [p1], the boundary value problem is [p'] *)
  make_indirect o p = Ok fs -> fs = pre ++ FDual (o_method o) :: post -> run_tfs lu solve pre p = Ok p1 -> run_tfs lu solve fs p = Ok p' -> p_ham p' = Some h ->
  lower (o_control o) = "algebraic" -> o_norm o = true -> lower (o_method o) = "traditional" \/ lower (o_method o) = "diffyg" ->
  p_costates p1 = [] -> p_coparams p1 = [] -> p_params p1 = [] -> p_quads p1 = [] -> NoDup (p_ind p1 :: all_names p') ->
  (* the control law mentions only arguments of the control function *)
  (forall cand e x, In cand (p_law p') -> In e cand -> In x (vars e) -> In x (syms (p_states p') ++ p_params p' ++ p_consts p')) ->
  (* a solution, and the curve it stands for *)
  near delta eps fn p' 0 1 Y Q [D] nu k -> (0 < D)%R -> reads_off fn p' (p_ind p1) Y [D] nu k t0 D c ->
  (* along which everything is defined *)
  (forall t, (t0 <= t <= t0 + D)%R -> wd fn (c t) h /\ Forall (Forall (wd fn (c t))) (p_law p') /\ field_defined lu fn (o_method o) p1 h (c t)) ->
  exists pD, dualize lu (o_method o) p1 = Ok pD /\ h = dual_ham p1 /\
  (forall y, In y (syms (p_states p1) ++ p_controls p1) -> ~ In y (map lam (syms (p_states p1)))) /\
  (forall y, In y (syms (p_states p1) ++ [p_ind p1]) -> ~ In y (p_cadj pD)) /\
  (forall t, (t0 <= t <= t0 + D)%R -> follows_near (delta / D) fn c t (p_states p1) /\ follows_near (delta / D) fn c t (p_costates pD) /\ c t (p_ind p1) = t /\
     forall u, In u (p_controls p1) -> eval fn (c t) (diff u h) = 0%R) /\
  (forall b, In b (p_ci pD) -> (Rabs (eval fn (c t0) (c_expr b)) <= eps)%R) /\ (forall b, In b (p_ct pD) -> (Rabs (eval fn (c (t0 + D)%R) (c_expr b)) <= eps)%R).
Proof.
  intros lu LU solve SO fn o p fs pre post p1 p' h Y Q D nu k t0 c delta eps MK EF R1 RN HH OC ON M E1 E2 EP EQ ND CL SOL D0 RO WD.
  destruct (indirect_steps lu solve o p fs pre post p1 p' MK EF R1 RN ON) as (pD & p2 & p3 & HD & HC & HN & HS).
  destruct (norm_squash p2 p3 p' HN HS) as (S1 & S2 & S3 & S4 & S5 & S6 & S7 & S8 & S9 & S10).
  destruct (control_rest lu solve o pD p2 HC) as (K1 & K2 & K3 & K4 & K5 & K6 & K7).
  assert (DO := dual_of_exists lu LU _ p1 pD HD M E1 E2).
  assert (EH : h = dual_ham p1) by (rewrite S8, K6, (d_ham _ _ _ DO) in HH; congruence).
  assert (EI : p_ind p2 = p_ind p1) by (rewrite K7; apply (d_ind _ _ _ DO)).
  assert (CP : p_coparams pD = []) by (apply syms_nil; rewrite (d_colams _ _ _ DO), EP; reflexivity).
  assert (PP : p_params p' = [("_delta" ++ p_ind p2)%string]) by (rewrite S2, K1, (d_params _ _ _ DO), EP; reflexivity).
  assert (QQ : p_quads p' = []) by (rewrite S4, K2, K3, (d_quads _ _ _ DO), EQ, CP; reflexivity).
  (* the control step *)
  unfold control_tf in HC. rewrite OC in HC. cbn [String.eqb Ascii.eqb Bool.eqb apply_tf] in HC.
  unfold algebraic_control in HC. rewrite (d_dual _ _ _ DO), (d_ham _ _ _ DO), (d_controls _ _ _ DO) in HC. apply Ok_inj in HC.
  assert (C1 : p_states p2 = p_states p1 /\ p_costates p2 = p_costates pD /\ p_controls p2 = p_controls p1 /\ p_ci p2 = p_ci pD /\ p_ct p2 = p_ct pD /\
    p_law p2 = solve (map (fun u => diff u (dual_ham p1)) (p_controls p1)) (p_controls p1)).
  { subst p2. pose proof (d_states _ _ _ DO). pose proof (d_controls _ _ _ DO). destruct pD; cbn in *; repeat split; auto. }
  assert (EH0 := f_equal (fun e => e) EH). cbv beta in EH0. clear HC. destruct C1 as (C1 & C2 & C3 & C4 & C5 & C6). rewrite <- EH in DO, C6.
  assert (EX : syms (p_states p') = syms (p_states p1) ++ map lam (syms (p_states p1))).
  { rewrite S1, syms_slow. unfold syms at 1. rewrite map_app. fold (syms (p_states p2)) (syms (p_costates p2)). now rewrite C1, C2, (d_lams _ _ _ DO). }
  rewrite <- EI in ND, RO.
  assert (NA : NoDup (all_names p')) by (inversion ND; assumption).
  assert (FO := phys_follows fn p2 p' S1 PP QQ Y Q [D] nu k t0 D c ND SOL eq_refl D0 RO).
  destruct (phys_boundary fn p2 p' QQ S9 S10 Y Q [D] nu k t0 D c ND SOL eq_refl D0 RO) as (B0 & B1 & BV).
  assert (VH : forall x, In x (vars h) -> In x (states p' ++ ctl fn p' ++ fixed p')).
  { intros x I. apply (BV (plain (Add (diff (p_ind p1) (p_cost_t pD)) h))).
    - apply in_or_app. right. rewrite C5, (d_ct _ _ _ DO). apply in_or_app. right. apply in_or_app. right. now left.
    - cbn. apply in_or_app. now right. }
  assert (NC : NoDup (p_controls p1)).
  { unfold all_names in NA. destruct (nodup_parts _ _ NA) as (_ & N2 & _). destruct (nodup_parts _ _ N2) as (N3 & _ & _). now rewrite S6, C3 in N3. }
  (* the control is stationary *)
  assert (ST : forall t u, (t0 <= t <= t0 + D)%R -> In u (p_controls p1) -> eval fn (c t) (diff u h) = 0%R).
  { intros t u Ht Hu. destruct (WD t Ht) as (W1 & W2 & _). rewrite <- S7 in C6.
    destruct (p_law p') as [|l0 law] eqn:EL.
    - apply (eval_diff_fresh fn). intros I. apply VH in I. unfold ctl, law_control in I. rewrite EL in I. cbn [app] in I.
      unfold all_names in NA. rewrite S6, C3 in NA. destruct (nodup_parts _ _ NA) as (_ & N2 & D1). destruct (nodup_parts _ _ N2) as (_ & _ & D2).
      apply in_app_or in I. destruct I as [I|I]; [apply (D1 u I); apply in_or_app; now left|exact (D2 u Hu I)].
    - set (s := ((t - t0) / D)%R).
      destruct (curve_follows fn p' Y Q [D] nu k QQ (nodup_ctl fn p' NA) 0 1 SOL s (phys_time t0 D D0 t Ht)) as (_ & LY & _).
      assert (LS : length (Y s) = length (states p')) by (unfold states, syms; now rewrite map_length).
      destruct (solved_lengths fn p' Y Q [D] nu k QQ 0 1 SOL) as (LP & LN & _).
      set (rho := env (concat (dyn_groups p' false)) (Y s ++ [D] ++ k)).
      set (H := fun cc : list R => match p_ham p' with Some h => eval fn (env (concat (dyn_groups p' true)) (Y s ++ cc ++ [D] ++ k)) h | None => 0%R end).
      destruct (pick_control_spec H (map (map (eval fn rho)) (p_law p'))) as (w & j & P1 & P2 & _); [rewrite EL; clear; cbn [map]; intros Z; discriminate Z|].
      apply nth_error_In, in_map_iff in P2. destruct P2 as (cand & <- & IC).
      assert (LC : law_control fn p' = Some (fun y pp k => match pick_control ROps (fun c => match p_ham p' with Some h => eval fn (env (concat (dyn_groups p' true)) (y ++ c ++ pp ++ k)) h | None => 0%R end)
           (map (map (eval fn (env (concat (dyn_groups p' false)) (y ++ pp ++ k)))) (p_law p')) with Ok c => c | Raise _ => [] end)) by (unfold law_control; rewrite EL; reflexivity).
      assert (AG : forall e x, In e cand -> In x (vars e) -> rho x = c t x).
      { intros e x Ie Ix. rewrite <- EL in CL. specialize (CL cand e x IC Ie Ix).
        unfold all_names in NA. destruct (nodup_parts _ _ NA) as (_ & N2 & D1). destruct (nodup_parts _ _ N2) as (_ & N3 & D2). destruct (nodup_parts _ _ N3) as (_ & N4 & D3). destruct (nodup_parts _ _ N4) as (_ & _ & D4).
        rewrite (phys_agree fn p2 p' QQ Y Q [D] nu k t0 D c ND SOL eq_refl RO) by (unfold states, fixed; rewrite !in_app_iff in *; tauto).
        unfold rho, dyn_groups. cbn [app concat]. rewrite app_nil_r. rewrite (env_over (states p') (Y s) (p_params p' ++ p_consts p') (D :: k)) by auto.
        unfold curve. apply over_ext. intros NS.
        assert (IPC : In x (p_params p' ++ p_consts p')) by (rewrite !in_app_iff in *; destruct CL; [contradiction|assumption]).
        rewrite over_out.
        - change (D :: k) with ([D] ++ k). apply fixed_dyn; auto. intros J. rewrite in_app_iff in IPC. destruct IPC as [I|I]; [apply (D3 x I); rewrite in_app_iff; tauto|exact (D4 x J I)].
        - intros J. apply in_ctl in J. apply (D2 x J). rewrite !in_app_iff in *. tauto. }
      rewrite <- EL in C6. rewrite C6 in IC. destruct (SO _ _ _ NC IC) as [L V]. rewrite <- C6 in IC.
      assert (EC : assign (c t) (p_controls p1) (map (eval fn (c t)) cand) = c t).
      { apply assign_same; [now rewrite map_length|]. intros i x I. rewrite (ro_controls _ _ _ _ _ _ _ _ _ _ RO _ t i x LC) by now rewrite S6, C3.
        cbv beta. fold s. unfold H, rho in P1. rewrite P1. f_equal. apply map_ext_in. intros e Ie. apply eval_ext. intros y Iy. now apply (AG e). }
      rewrite <- EC. apply V.
      + rewrite Forall_forall in W2. apply W2. rewrite <- EL. exact IC.
      + apply in_map_iff. exists u. split; [reflexivity|exact Hu].
      + rewrite EC. apply wd_diff. exact W1. }
  exists pD. split; [exact HD|]. split; [exact EH0|]. split; [|split; [|split; [|split]]].
  - unfold all_names in NA. rewrite EX, S6, C3, <- app_assoc in NA. destruct (nodup_parts _ _ NA) as (_ & N2 & D1). destruct (nodup_parts _ _ N2) as (_ & _ & D2).
    intros y I J. apply in_app_or in I. destruct I as [I|I]; [apply (D1 y I); apply in_or_app; now left|]. apply (D2 y J). apply in_or_app. now left.
  - intros y I J. apply in_app_or in I. assert (Z : In y (p_cpars p')) by (rewrite S3, K5; apply in_or_app; now right). destruct I as [I|[ <-|[]]].
    + unfold all_names in NA. destruct (nodup_parts _ _ NA) as (_ & _ & D1). apply (D1 y); [rewrite EX; apply in_or_app; now left|]. rewrite !in_app_iff. tauto.
    + inversion ND as [|? ? NI ?]. apply NI. rewrite EI. unfold all_names. rewrite !in_app_iff. tauto.
  - intros t Ht. specialize (FO t Ht). split; [|split; [|split]].
    + intros x e I. apply FO. rewrite C1. apply in_or_app. now left.
    + intros x e I. apply FO. rewrite C2. apply in_or_app. now right.
    + rewrite <- EI. apply (ro_time _ _ _ _ _ _ _ _ _ _ RO).
    + intros u Hu. exact (ST t u Ht Hu).
  - rewrite <- C4. exact B0.
  - rewrite <- C5. exact B1.
Qed.

Theorem C85_algebraic : forall lu, lu_ok lu -> forall solve, solve_sound solve -> forall fn o p fs pre post p1 p' h Y Q D nu k t0 c,
  (* the problem handed to Dualize is [p1], the boundary value problem is [p'] *)
  make_indirect o p = Ok fs -> fs = pre ++ FDual (o_method o) :: post -> run_tfs lu solve pre p = Ok p1 -> run_tfs lu solve fs p = Ok p' -> p_ham p' = Some h ->
  lower (o_control o) = "algebraic" -> o_norm o = true -> lower (o_method o) = "traditional" \/ lower (o_method o) = "diffyg" ->
  p_costates p1 = [] -> p_coparams p1 = [] -> p_params p1 = [] -> p_quads p1 = [] -> NoDup (p_ind p1 :: all_names p') ->
  (* the control law mentions only arguments of the control function *)
  (forall cand e x, In cand (p_law p') -> In e cand -> In x (vars e) -> In x (syms (p_states p') ++ p_params p' ++ p_consts p')) ->
  (* a solution, and the curve it stands for *)
  solves fn p' 0 1 Y Q [D] nu k -> (0 < D)%R -> reads_off fn p' (p_ind p1) Y [D] nu k t0 D c ->
  (* along which everything is defined *)
  (forall t, (t0 <= t <= t0 + D)%R -> wd fn (c t) h /\ Forall (Forall (wd fn (c t))) (p_law p') /\ field_defined lu fn (o_method o) p1 h (c t)) ->
  feasible fn p1 c t0 (t0 + D)%R /\ extremal fn p1 c t0 (t0 + D)%R /\
  forall t u, (t0 <= t <= t0 + D)%R -> In u (p_controls p1) -> eval fn (c t) (diff u h) = 0%R.
Proof.
  intros lu LU solve SO fn o p fs pre post p1 p' h Y Q D nu k t0 c MK EF R1 RN HH OC ON M E1 E2 EP EQ ND CL SOL D0 RO WD. apply solves_near in SOL.
  destruct (algebraic_curve lu LU solve SO fn o p fs pre post p1 p' h Y Q D nu k t0 c 0%R 0%R MK EF R1 RN HH OC ON M E1 E2 EP EQ ND CL SOL D0 RO WD) as (pD & HD & EH & N1 & N2 & HC & B0 & B1).
  replace (0 / D)%R with 0%R in HC by (unfold Rdiv; ring). assert (TT : (t0 <= t0 + D)%R) by (clear - D0; lra).
  destruct (derived_extremal lu LU fn (o_method o) p1 pD c t0 (t0 + D)%R TT M E1 E2 EP HD N1 N2) as [G1 G2].
  - intros t Ht. destruct (HC t Ht) as (F1 & F2 & T & U). rewrite <- EH. split; [apply (WD t Ht)|]. split; [now apply follows_exact|]. split; [now apply follows_exact|]. now split.
  - intros b I. now apply abs_zero, B0.
  - intros b I. now apply abs_zero, B1.
  - split; [exact G1|]. split; [exact G2|]. intros t u Ht Hu. destruct (HC t Ht) as (_ & _ & _ & U). now apply U.
Qed.
Print Assumptions C85_algebraic.

Lemma syms_combine (l : list string) (r : list expr) : length r = length l -> syms (combine l r) = l.
Proof. intros H. unfold syms. apply map_fst_combine. symmetry. exact H. Qed.
Lemma wd_slow fn rho dt l : Forall (wd fn rho) (eoms (slow dt l)) -> Forall (wd fn rho) (eoms l).
Proof.
  unfold eoms, slow. rewrite map_map, !Forall_map. cbn [snd wd]. apply Forall_impl. intros a H. apply H.
Qed.

(** Control obtained by integrating its rate (traditional method). *)
Lemma differential_curve : forall lu, lu_ok lu -> forall fn, smooth fn -> forall solve o p fs pre post p1 p' h Y Q D nu k t0 c eps,
  make_indirect o p = Ok fs -> fs = pre ++ FDual (o_method o) :: post -> run_tfs lu solve pre p = Ok p1 -> run_tfs lu solve fs p = Ok p' -> p_ham p' = Some h ->
  lower (o_control o) = "differential" -> o_norm o = true -> lower (o_method o) = "traditional" ->
  p_costates p1 = [] -> p_coparams p1 = [] -> p_params p1 = [] -> p_quads p1 = [] -> NoDup (p_ind p1 :: all_names p') ->
  near 0 eps fn p' 0 1 Y Q [D] nu k -> (0 < D)%R -> reads_off fn p' (p_ind p1) Y [D] nu k t0 D c ->
  (forall t, (t0 <= t <= t0 + D)%R -> wd fn (c t) h /\ Forall (wd fn (c t)) (eoms (p_states p'))) ->
  exists pD, dualize lu (o_method o) p1 = Ok pD /\ h = dual_ham p1 /\
  (forall y, In y (syms (p_states p1) ++ p_controls p1) -> ~ In y (map lam (syms (p_states p1)))) /\
  (forall y, In y (syms (p_states p1) ++ [p_ind p1]) -> ~ In y (p_cadj pD)) /\
  (forall t, (t0 <= t <= t0 + D)%R -> follows fn c t (p_states p1) /\ follows fn c t (p_costates pD) /\ c t (p_ind p1) = t /\
     forall u, In u (p_controls p1) -> (Rabs (eval fn (c t) (diff u h)) <= eps)%R) /\
  (forall b, In b (p_ci pD) -> (Rabs (eval fn (c t0) (c_expr b)) <= eps)%R) /\ (forall b, In b (p_ct pD) -> (Rabs (eval fn (c (t0 + D)%R) (c_expr b)) <= eps)%R).
Proof.
  intros lu LU fn Sm solve o p fs pre post p1 p' h Y Q D nu k t0 c eps MK EF R1 RN HH OC ON M E1 E2 EP EQ ND SOL D0 RO WD.
  destruct (indirect_steps lu solve o p fs pre post p1 p' MK EF R1 RN ON) as (pD & p2 & p3 & HD & HC & HN & HS).
  destruct (norm_squash p2 p3 p' HN HS) as (S1 & S2 & S3 & S4 & S5 & S6 & S7 & S8 & S9 & S10).
  destruct (control_rest lu solve o pD p2 HC) as (K1 & K2 & K3 & K4 & K5 & K6 & K7).
  assert (DO := dual_of_exists lu LU _ p1 pD HD (or_introl M) E1 E2).
  assert (HHD := d_ham _ _ _ DO).
  assert (EH : h = dual_ham p1) by (rewrite S8, K6, HHD in HH; congruence).
  assert (EI : p_ind p2 = p_ind p1) by (rewrite K7; apply (d_ind _ _ _ DO)).
  assert (CP : p_coparams pD = []) by (apply syms_nil; rewrite (d_colams _ _ _ DO), EP; reflexivity).
  assert (PP : p_params p' = [("_delta" ++ p_ind p2)%string]) by (rewrite S2, K1, (d_params _ _ _ DO), EP; reflexivity).
  assert (QQ : p_quads p' = []) by (rewrite S4, K2, K3, (d_quads _ _ _ DO), EQ, CP; reflexivity).
  unfold control_tf in HC. rewrite OC in HC. cbn [String.eqb Ascii.eqb Bool.eqb apply_tf] in HC.
  destruct (diffctl_traditional lu (o_method o) pD p2 HC M) as (h' & udot & H1 & H2 & H3 & H4 & H5 & H6 & H7 & H8).
  assert (h' = dual_ham p1) by congruence. subst h'. clear H1.
  destruct (udot_values lu LU (dual_ham p1) (p_controls pD) (p_states pD ++ p_costates pD) udot H2) as [LUD _]. clear H2.
  assert (SD := d_states _ _ _ DO). assert (UD := d_controls _ _ _ DO). assert (LD := d_lams _ _ _ DO).
  assert (EX : syms (p_states p') = (syms (p_states p1) ++ p_controls p1) ++ map lam (syms (p_states p1))).
  { rewrite S1, syms_slow. unfold syms at 1. rewrite map_app. fold (syms (p_states p2)) (syms (p_costates p2)). rewrite H3, H4. unfold syms at 1. rewrite map_app.
    fold (syms (p_states pD)) (syms (combine (p_controls pD) udot)). rewrite syms_combine by exact LUD. rewrite SD, UD, LD. reflexivity. }
  rewrite <- EI in ND, RO.
  assert (NA : NoDup (all_names p')) by (inversion ND; assumption).
  assert (NI : ~ In (p_ind p2) (all_names p')) by (inversion ND; assumption).
  assert (FO : forall t, (t0 <= t <= t0 + D)%R -> follows fn c t (p_states p2 ++ p_costates p2)).
  { intros t Ht. apply follows_exact. replace 0%R with (0 / D)%R by (unfold Rdiv; ring). exact (phys_follows fn p2 p' S1 PP QQ Y Q [D] nu k t0 D c ND SOL eq_refl D0 RO t Ht). }
  destruct (phys_boundary fn p2 p' QQ S9 S10 Y Q [D] nu k t0 D c ND SOL eq_refl D0 RO) as (B0 & B1 & BV).
  assert (VH : forall x, In x (vars (dual_ham p1)) -> In x (states p' ++ ctl fn p' ++ fixed p')).
  { intros x I. apply (BV (plain (Add (diff (p_ind p1) (p_cost_t pD)) (dual_ham p1)))).
    - apply in_or_app. right. rewrite H6, (d_ct _ _ _ DO). rewrite !in_app_iff. left. right. right. now left.
    - cbn. apply in_or_app. now right. }
  assert (NX : NoDup (syms (p_states p'))) by (unfold all_names in NA; now destruct (nodup_parts _ _ NA)).
  assert (PE : forall x, In x (syms (p_states pD ++ p_costates pD) ++ p_controls pD ++ [p_ind pD]) <-> x = p_ind p2 \/ In x (syms (p_states p'))).
  { intros x. unfold syms at 1. rewrite map_app. fold (syms (p_states pD)) (syms (p_costates pD)). rewrite EX, SD, UD, LD, <- K7, !in_app_iff. cbn [In]. clear. intuition congruence. }
  assert (ST : forall t u, (t0 <= t <= t0 + D)%R -> In u (p_controls p1) -> (Rabs (eval fn (c t) (diff u h)) <= eps)%R).
  { intros t u Ht Hu. rewrite EH. rewrite <- UD in Hu.
    rewrite (stationarity_constant lu LU fn Sm (o_method o) pD p2 (dual_ham p1) c t0 (t0 + D)%R M HC HHD) with (5 := Ht) (4 := Hu).
    { apply (B1 (plain (diff u (dual_ham p1)))). rewrite H6. apply in_or_app. right. apply in_map_iff. exists u. split; [reflexivity|exact Hu]. }
    - unfold syms. rewrite map_app. fold (syms (p_states pD)) (syms (p_costates pD)). rewrite SD, UD, LD, <- K7.
      apply (Permutation.Permutation_NoDup (l := p_ind p2 :: syms (p_states p'))).
      + rewrite EX. rewrite app_assoc. apply Permutation.Permutation_trans with ((syms (p_states p1) ++ map lam (syms (p_states p1)) ++ p_controls p1) ++ [p_ind p2]).
        * apply Permutation.Permutation_cons_app. rewrite app_nil_r, <- app_assoc. apply Permutation.Permutation_app_head, Permutation.Permutation_app_comm.
        * rewrite <- !app_assoc. apply Permutation.Permutation_refl.
      + constructor; [|exact NX]. intros I. apply NI. unfold all_names. apply in_or_app. now left.
    - intros I. apply VH, in_all in I. apply NI. rewrite K7. exact I.
    - clear t u Ht Hu. intros t Ht. destruct (WD t Ht) as [W1 W2]. specialize (FO t Ht). split; [rewrite <- EH; exact W1|]. split; [|split; [|split; [|split]]].
      + rewrite S1 in W2. apply wd_slow in W2. unfold eoms in W2. rewrite map_app in W2. apply Forall_app in W2. apply W2.
      + intros x e I. apply FO. apply in_or_app. now left.
      + intros x e I. apply FO. apply in_or_app. now right.
      + rewrite <- K7. apply (phys_clock fn p2 p' Y [D] nu k t0 D c RO).
      + intros x I NM. apply (phys_fixed fn p2 p' QQ Y Q [D] nu k t0 D c ND SOL eq_refl RO); [exact (VH x I)| |].
        * intros J. apply NM, PE. now right.
        * intros J. apply in_ctl in J. rewrite S6, H5 in J. exact J. }
  exists pD. split; [exact HD|]. split; [exact EH|]. split; [|split; [|split; [|split]]].
  - rewrite EX in NX. intros y I J. destruct (nodup_parts _ _ NX) as (_ & _ & D1). exact (D1 y I J).
  - intros y I J. apply in_app_or in I. assert (Z : In y (p_cpars p')) by (rewrite S3, K5; apply in_or_app; now right). destruct I as [I|[ <-|[]]].
    + unfold all_names in NA. destruct (nodup_parts _ _ NA) as (_ & _ & D1). apply (D1 y); [rewrite EX, !in_app_iff; tauto|]. rewrite !in_app_iff. tauto.
    + apply NI. rewrite EI. unfold all_names. rewrite !in_app_iff. tauto.
  - intros t Ht. specialize (FO t Ht). split; [|split; [|split]].
    + intros x e I. apply FO. rewrite H3, SD, !in_app_iff. tauto.
    + intros x e I. apply FO. rewrite H4. apply in_or_app. now right.
    + rewrite <- EI. apply (ro_time _ _ _ _ _ _ _ _ _ _ RO).
    + intros u Hu. exact (ST t u Ht Hu).
  - rewrite <- H7. exact B0.
  - intros b I. apply B1. rewrite H6. apply in_or_app. now left.
Qed.

Theorem C85_differential : forall lu, lu_ok lu -> forall fn, smooth fn -> forall solve o p fs pre post p1 p' h Y Q D nu k t0 c,
  make_indirect o p = Ok fs -> fs = pre ++ FDual (o_method o) :: post -> run_tfs lu solve pre p = Ok p1 -> run_tfs lu solve fs p = Ok p' -> p_ham p' = Some h ->
  lower (o_control o) = "differential" -> o_norm o = true -> lower (o_method o) = "traditional" ->
  p_costates p1 = [] -> p_coparams p1 = [] -> p_params p1 = [] -> p_quads p1 = [] -> NoDup (p_ind p1 :: all_names p') ->
  solves fn p' 0 1 Y Q [D] nu k -> (0 < D)%R -> reads_off fn p' (p_ind p1) Y [D] nu k t0 D c ->
  (forall t, (t0 <= t <= t0 + D)%R -> wd fn (c t) h /\ Forall (wd fn (c t)) (eoms (p_states p'))) ->
  feasible fn p1 c t0 (t0 + D)%R /\ extremal fn p1 c t0 (t0 + D)%R /\
  forall t u, (t0 <= t <= t0 + D)%R -> In u (p_controls p1) -> eval fn (c t) (diff u h) = 0%R.
Proof.
  intros lu LU fn Sm solve o p fs pre post p1 p' h Y Q D nu k t0 c MK EF R1 RN HH OC ON M E1 E2 EP EQ ND SOL D0 RO WD. apply solves_near in SOL.
  destruct (differential_curve lu LU fn Sm solve o p fs pre post p1 p' h Y Q D nu k t0 c 0%R MK EF R1 RN HH OC ON M E1 E2 EP EQ ND SOL D0 RO WD) as (pD & HD & EH & N1 & N2 & HC & B0 & B1).
  assert (TT : (t0 <= t0 + D)%R) by (clear - D0; lra).
  destruct (derived_extremal lu LU fn (o_method o) p1 pD c t0 (t0 + D)%R TT (or_introl M) E1 E2 EP HD N1 N2) as [G1 G2].
  - intros t Ht. destruct (HC t Ht) as (F1 & F2 & T & U). rewrite <- EH. split; [intros MD; rewrite M in MD; discriminate MD|]. split; [exact F1|]. split; [exact F2|]. split; [exact T|].
    intros u Hu. now apply abs_zero, U.
  - intros b I. now apply abs_zero, B0.
  - intros b I. now apply abs_zero, B1.
  - split; [exact G1|]. split; [exact G2|]. intros t u Ht Hu. destruct (HC t Ht) as (_ & _ & _ & U). now apply abs_zero, U.
Qed.
Print Assumptions C85_differential.

(** Control obtained by integrating its rate along the Hamiltonian vector field
    (geometric method), time being the last state, as after the momentum shift. *)
Theorem C85_geometric : forall lu, lu_ok lu -> forall fn, smooth fn -> forall solve o p fs pre post p1 p' h Y Q D nu k t0 c xs tau,
  make_indirect o p = Ok fs -> fs = pre ++ FDual (o_method o) :: post -> run_tfs lu solve pre p = Ok p1 -> run_tfs lu solve fs p = Ok p' -> p_ham p' = Some h ->
  lower (o_control o) = "differential" -> o_norm o = true -> lower (o_method o) = "diffyg" -> p_states p1 = xs ++ [(tau, Cst 1)] ->
  p_costates p1 = [] -> p_coparams p1 = [] -> p_params p1 = [] -> p_quads p1 = [] -> NoDup (p_ind p1 :: all_names p') ->
  (* no expression of the user mentions the name of a costate *)
  (forall x, In x (syms (p_states p1) ++ p_controls p1) -> ~ In (lam x) (vars (p_cost_p p1)) /\ forall s, In s (p_states p1) -> ~ In (lam x) (vars (snd s))) ->
  solves fn p' 0 1 Y Q [D] nu k -> (0 < D)%R -> reads_off fn p' (p_ind p1) Y [D] nu k t0 D c ->
  (forall t, (t0 <= t <= t0 + D)%R -> wd fn (c t) h /\ Forall (wd fn (c t)) (eoms (p_states p')) /\ field_defined lu fn (o_method o) p1 h (c t) /\
     forall pD udot, dualize lu (o_method o) p1 = Ok pD -> control_rates lu pD h = Ok udot -> Forall (wd fn (c t)) udot) ->
  feasible fn p1 c t0 (t0 + D)%R /\ extremal fn p1 c t0 (t0 + D)%R /\
  forall t u, (t0 <= t <= t0 + D)%R -> In u (p_controls p1) -> eval fn (c t) (diff u h) = 0%R.
Proof.
  intros lu LU fn Sm solve o p fs pre post p1 p' h Y Q D nu k t0 c xs tau MK EF R1 RN HH OC ON M ET E1 E2 EP EQ ND CN SOL D0 RO WD. apply solves_near in SOL.
  destruct (indirect_steps lu solve o p fs pre post p1 p' MK EF R1 RN ON) as (pD & p2 & p3 & HD & HC & HN & HS).
  destruct (norm_squash p2 p3 p' HN HS) as (S1 & S2 & S3 & S4 & S5 & S6 & S7 & S8 & S9 & S10).
  destruct (control_rest lu solve o pD p2 HC) as (K1 & K2 & K3 & K4 & K5 & K6 & K7).
  assert (DO := dual_of_exists lu LU _ p1 pD HD (or_intror M) E1 E2).
  assert (HHD := d_ham _ _ _ DO).
  assert (EH : h = dual_ham p1) by (rewrite S8, K6, HHD in HH; congruence).
  assert (EI : p_ind p2 = p_ind p1) by (rewrite K7; apply (d_ind _ _ _ DO)).
  assert (CP : p_coparams pD = []) by (apply syms_nil; rewrite (d_colams _ _ _ DO), EP; reflexivity).
  assert (PP : p_params p' = [("_delta" ++ p_ind p2)%string]) by (rewrite S2, K1, (d_params _ _ _ DO), EP; reflexivity).
  assert (QQ : p_quads p' = []) by (rewrite S4, K2, K3, (d_quads _ _ _ DO), EQ, CP; reflexivity).
  unfold control_tf in HC. rewrite OC in HC. cbn [String.eqb Ascii.eqb Bool.eqb apply_tf] in HC.
  destruct (diffctl_diffyg lu (o_method o) pD p2 HC M) as (h' & udot & chi & H1 & H2 & H3 & H5 & H6 & H7 & H8).
  assert (h' = dual_ham p1) by congruence. subst h'. clear H1.
  destruct (udot_values lu LU (dual_ham p1) (p_controls pD) (p_states pD ++ p_costates pD) udot H2) as [LUD _].
  specialize (H3 LUD). cbv zeta in H3. destruct H3 as (HF & H3 & H4).
  assert (SD := d_states _ _ _ DO). assert (UD := d_controls _ _ _ DO). assert (LD := d_lams _ _ _ DO).
  rewrite SD, UD, LD in *.
  set (X := syms (p_states p1)) in *. set (U := p_controls p1) in *.
  assert (LX : length X = length (p_states p1)) by (unfold X, syms; apply map_length).
  assert (LC : length chi = 2 * (length (p_states p1) + length U)).
  { assert (P0 : 0 < length (p_states p1)) by (rewrite ET, app_length; cbn; lia). assert (LQ : length (X ++ U) = length (p_states p1) + length U) by (rewrite app_length, LX; reflexivity).
    rewrite <- LQ in HF. destruct (ham_field_extended lu LU (dual_ham p1) (X ++ U) (map lam X ++ map lam U) (length U) (length (p_states p1) - 1) udot chi) as [L _].
    - rewrite !app_length, !map_length. reflexivity.
    - lia.
    - exact LUD.
    - exact HF.
    - rewrite L. lia. }
  assert (EX : syms (p_states p') = (X ++ U) ++ map lam X ++ map lam U).
  { rewrite S1, syms_slow. unfold syms at 1. rewrite map_app. fold (syms (p_states p2)) (syms (p_costates p2)). rewrite H3, H4.
    rewrite !syms_combine; [reflexivity| |]; rewrite ?firstn_length, ?skipn_length, !app_length, ?map_length; lia. }
  rewrite <- EI in ND, RO.
  assert (NA : NoDup (all_names p')) by (inversion ND; assumption).
  assert (NI : ~ In (p_ind p2) (all_names p')) by (inversion ND; assumption).
  assert (FO : forall t, (t0 <= t <= t0 + D)%R -> follows fn c t (p_states p2 ++ p_costates p2)).
  { intros t Ht. apply follows_exact. replace 0%R with (0 / D)%R by (unfold Rdiv; ring). exact (phys_follows fn p2 p' S1 PP QQ Y Q [D] nu k t0 D c ND SOL eq_refl D0 RO t Ht). }
  destruct (phys_boundary fn p2 p' QQ S9 S10 Y Q [D] nu k t0 D c ND SOL eq_refl D0 RO) as (B0' & B1' & BV).
  assert (B0 : forall d, In d (p_ci p2) -> eval fn (c t0) (c_expr d) = 0%R) by (intros d I; now apply abs_zero, B0').
  assert (B1 : forall d, In d (p_ct p2) -> eval fn (c (t0 + D)%R) (c_expr d) = 0%R) by (intros d I; now apply abs_zero, B1'). clear B0' B1'.
  assert (VH : forall x, In x (vars (dual_ham p1)) -> In x (states p' ++ ctl fn p' ++ fixed p')).
  { intros x I. apply (BV (plain (Add (diff (p_ind p1) (p_cost_t pD)) (dual_ham p1)))).
    - apply in_or_app. right. rewrite H6, (d_ct _ _ _ DO). rewrite !in_app_iff. left. right. right. now left.
    - cbn. apply in_or_app. now right. }
  assert (NX : NoDup (syms (p_states p'))) by (unfold all_names in NA; now destruct (nodup_parts _ _ NA)).
  assert (ND5 : NoDup (X ++ map lam X ++ U ++ map lam U ++ [p_ind p1])).
  { apply (Permutation.Permutation_NoDup (l := p_ind p2 :: syms (p_states p'))).
    - rewrite EX, EI. apply Permutation.Permutation_trans with ((X ++ map lam X ++ U ++ map lam U) ++ [p_ind p1]).
      + apply Permutation.Permutation_cons_app. rewrite app_nil_r, <- app_assoc. apply Permutation.Permutation_app_head. rewrite !app_assoc. apply Permutation.Permutation_app_tail, Permutation.Permutation_app_comm.
      + rewrite <- !app_assoc. apply Permutation.Permutation_refl.
    - constructor; [|exact NX]. intros I. apply NI. unfold all_names. apply in_or_app. now left. }
  assert (NDX : NoDup X) by (destruct (nodup_parts _ _ ND5); assumption).
  assert (CN1 : costates_new p1) by (intros x I; apply CN; apply in_or_app; now left).
  assert (LN : forall u, In u U -> ~ In (lam u) (vars (dual_ham p1))).
  { intros u Hu I. destruct (CN u (in_or_app _ _ _ (or_intror Hu))) as [N1 N2]. unfold dual_ham in I. apply vars_Sum in I. destruct I as [I|(e & E & I)]; [exact (N1 I)|].
    apply in_map_iff in E. destruct E as (s & <- & IS). cbn [vars] in I. apply in_app_or in I. destruct I as [[I|[]]|I]; [|exact (N2 s IS I)].
    apply lam_inj in I. destruct (nodup_parts _ _ ND5) as (_ & _ & D1). apply (D1 u).
    - rewrite <- I. unfold X, syms. now apply in_map.
    - rewrite !in_app_iff. tauto. }
  assert (NH : ~ In (p_ind p1) (vars (dual_ham p1))).
  { intros I. apply VH, in_all in I. apply NI. rewrite EI. exact I. }
  assert (WC : forall t, (t0 <= t <= t0 + D)%R -> Forall (wd fn (c t)) (eoms (p_states p2) ++ eoms (p_costates p2))).
  { intros t Ht. destruct (WD t Ht) as (_ & W2 & _). rewrite S1 in W2. apply wd_slow in W2. unfold eoms in W2. rewrite map_app in W2. exact W2. }
  assert (F2 : forall t, (t0 <= t <= t0 + D)%R -> follows fn c t (p_states p2) /\ follows fn c t (p_costates p2)).
  { intros t Ht. specialize (FO t Ht). split; intros x e I; apply FO; apply in_or_app; [now left|now right]. }
  assert (ST : forall t u, (t0 <= t <= t0 + D)%R -> In u U -> eval fn (c t) (diff u h) = 0%R).
  { intros t u Ht Hu. rewrite EH.
    assert (EB : eval fn (c (t0 + D)%R) (diff u (dual_ham p1)) = 0%R).
    { apply (B1 (plain (diff u (dual_ham p1)))). rewrite H6. apply in_or_app. right. apply in_map_iff. exists u. split; [reflexivity|exact Hu]. }
    destruct (Req_dec t (t0 + D)) as [ ->|NE]; [exact EB|]. rewrite <- EB.
    apply (eq_is_derive (V := R_NormedModule) (fun s => eval fn (c s) (diff u (dual_ham p1))) t (t0 + D)%R); [|clear - Ht NE; lra].
    intros s Hs. assert (Hs' : (t0 <= s <= t0 + D)%R) by (clear - Hs Ht; lra). destruct (WD s Hs') as (W & _ & FD & WU). destruct (F2 s Hs') as [FS FC].
    assert (G : is_derive (fun r => eval fn (c r) (diff u (dual_ham p1))) s (eval fn (c s) (diff (p_ind p1) (diff u (dual_ham p1))))).
    { apply (C34_geometric_residual_rate lu LU fn Sm (o_method o) p1 pD p2 (dual_ham p1) xs tau c s u M ET EP E1 E2 HD HHD HC Hu ND5 CN1 LN).
      - rewrite <- EH. exact W.
      - rewrite <- EH. exact FD.
      - intros ud HU. rewrite <- EH in HU. exact (WU pD ud HD HU).
      - exact (WC s Hs').
      - exact FS.
      - exact FC.
      - rewrite <- EI. apply (phys_clock fn p2 p' Y [D] nu k t0 D c RO).
      - intros x I NM. assert (VX := VH x I). fold X U in NM. rewrite !in_app_iff in NM.
        apply (phys_fixed fn p2 p' QQ Y Q [D] nu k t0 D c ND SOL eq_refl RO); [exact VX| |].
        + intros J. unfold states in J. rewrite EX, !in_app_iff in J. destruct J as [[J|J]|[J|J]]; [tauto|tauto|tauto|].
          apply in_map_iff in J. destruct J as (w & <- & Hw). exact (LN w Hw I).
        + intros J. apply in_ctl in J. rewrite S6, H5 in J. exact J. }
    rewrite (eval_diff_fresh fn) in G; [exact G|]. intros I. apply NH. apply (vars_diff _ _ _ I). }
  assert (G : feasible fn p1 c t0 (t0 + D)%R /\ extremal fn p1 c t0 (t0 + D)%R).
  { assert (TT : (t0 <= t0 + D)%R) by (clear - D0; lra).
    apply (derived_extremal lu LU fn (o_method o) p1 pD c t0 (t0 + D)%R TT (or_intror M) E1 E2 EP HD).
    - rewrite EX in NX. intros y I J. destruct (nodup_parts _ _ NX) as (_ & _ & D1). apply (D1 y I). apply in_or_app. now left.
    - intros y I J. apply in_app_or in I. assert (Z : In y (p_cpars p')) by (rewrite S3, K5; apply in_or_app; now right). destruct I as [I|[ <-|[]]].
      + unfold all_names in NA. destruct (nodup_parts _ _ NA) as (_ & _ & D1). apply (D1 y); [rewrite EX, !in_app_iff; fold X in I; tauto|]. rewrite !in_app_iff. tauto.
      + apply NI. rewrite EI. unfold all_names. rewrite !in_app_iff. tauto.
    - intros t Ht. rewrite <- EH. destruct (WD t Ht) as (_ & _ & FD & _). destruct (F2 t Ht) as [FS FC]. split; [exact FD|].
      destruct (geo_follows lu LU fn (o_method o) p1 pD p2 (dual_ham p1) xs tau c t M ET EP E1 E2 HD HHD HC NDX CN1) as [GS GC].
      + rewrite <- EH. exact FD.
      + exact (WC t Ht).
      + exact FS.
      + exact FC.
      + intros u Hu. rewrite <- EH. exact (ST t u Ht Hu).
      + split; [exact GS|]. split; [exact GC|]. split; [rewrite <- EI; apply (ro_time _ _ _ _ _ _ _ _ _ _ RO)|].
        intros u Hu. exact (ST t u Ht Hu).
    - intros b I. apply B0. rewrite H7. apply in_or_app. now left.
    - intros b I. apply B1. rewrite H6. apply in_or_app. now left. }
  destruct G as [G1 G2]. split; [exact G1|]. split; [exact G2|exact ST].
Qed.
Print Assumptions C85_geometric.

(** ** Time as a state *)
Lemma dir_app fn rho L M e v : directional fn rho (L ++ M) e v = (directional fn rho L e v + directional fn rho M e v)%R.
Proof. unfold directional. now rewrite map_app, rsum_app. Qed.
Lemma dir_ext fn rho L e v w : (forall y, In y L -> v y = w y) -> directional fn rho L e v = directional fn rho L e w.
Proof. intros H. unfold directional. apply rsum_ext. intros y I. now rewrite H. Qed.
Lemma dir_zero fn rho y e v : v y = 0%R -> directional fn rho [y] e v = 0%R.
Proof. intros H. unfold directional. cbn [map]. unfold rsum. cbn [fold_right]. rewrite H. ring. Qed.
Lemma dir_fresh fn rho y e v : ~ In y (vars e) -> directional fn rho [y] e v = 0%R.
Proof. intros H. unfold directional. cbn [map]. unfold rsum. cbn [fold_right]. rewrite (eval_diff_fresh fn) by exact H. ring. Qed.

Lemma time_variation fn nm p q c t0 tf : momentum_shift nm p = Ok q ->
  NoDup (syms (p_states p) ++ p_params p ++ p_controls p ++ [p_ind p]) ->
  (forall d, In d (p_ct p) -> ~ In (p_ind q) (vars (c_expr d))) -> ~ In (p_ind q) (vars (p_cost_t p)) ->
  ~ In (p_ind q) (p_ind p :: syms (p_states p) ++ p_params p) ->
  let X := syms (p_states p) in let P := p_params p in let U := p_controls p in
  let X' := syms (p_states q) in let P' := p_params q in let U' := p_controls q in
  forall v dtf df I, admissible fn p c v t0 tf dtf df ->
  is_RInt (fun t => directional fn (c t) (X ++ P ++ U) (p_cost_p p) (v t)) t0 tf I ->
  exists w dg, admissible fn q c w t0 tf dtf dg /\
  is_RInt (fun t => directional fn (c t) (X' ++ P' ++ U') (p_cost_p q) (w t)) t0 tf I /\
  (directional fn (c t0) (X' ++ P') (p_cost_i q) (w t0) + directional fn (c tf) (X' ++ P' ++ [p_ind q]) (p_cost_t q) dg + eval fn (c tf) (p_cost_p q) * dtf + I =
   directional fn (c t0) (X ++ P) (p_cost_i p) (v t0) + directional fn (c tf) (X ++ P ++ [p_ind p]) (p_cost_t p) df + eval fn (c tf) (p_cost_p p) * dtf + I)%R /\
  (forall t, asum (w t) (X' ++ P' ++ U') = asum (v t) (X ++ P ++ U)) /\ asum (w t0) (X' ++ P') = asum (v t0) (X ++ P) /\
  asum dg (X' ++ P') = (asum df (X ++ P) + Rabs dtf)%R.
Proof.
  intros HM ND NC NT NN X P U X' P' U' v dtf df I (V1 & V2 & V3 & V4 & V5 & V6 & V7 & V8) HI. cbv zeta in *.
  destruct (momentum_ok nm p q HM) as (S1 & I1 & _ & P1 & _ & U1 & CI & _ & CT & G1 & G2 & G3 & _).
  subst X' P' U'. fold X P U in V1, V2, V3, V4, V5, V6, V7, V8, HI, ND, NN. set (tau := p_ind p) in *.
  assert (SX : syms (p_states q) = X ++ [tau]) by (rewrite S1; unfold syms; rewrite map_app; reflexivity).
  destruct (nodup_parts _ _ ND) as (_ & N2 & D1). destruct (nodup_parts _ _ N2) as (_ & N3 & D2). destruct (nodup_parts _ _ N3) as (_ & _ & D3).
  assert (TX : ~ In tau X) by (intros J; apply (D1 _ J); rewrite !in_app_iff; cbn; tauto).
  assert (TP : ~ In tau P) by (intros J; apply (D2 _ J); rewrite !in_app_iff; cbn; tauto).
  assert (TU : ~ In tau U) by (intros J; apply (D3 _ J); now left).
    set (w := fun s y => if String.eqb y tau then 0%R else v s y).
    set (dg := fun y => if String.eqb y (p_ind q) then dtf else df y).
    assert (WV : forall s y, y <> tau -> w s y = v s y) by (intros s y N; unfold w; destruct (String.eqb_spec y tau); [contradiction|reflexivity]).
    assert (WT : forall s, w s tau = 0%R) by (intros s; unfold w; now rewrite String.eqb_refl).
    assert (GV : forall y, y <> p_ind q -> dg y = df y) by (intros y N; unfold dg; destruct (String.eqb_spec y (p_ind q)); [contradiction|reflexivity]).
    assert (NX : forall y, In y (X ++ P ++ U) -> y <> tau) by (intros y J ->; rewrite !in_app_iff in J; tauto).
    assert (DW : forall s e, directional fn (c s) ((X ++ [tau]) ++ P ++ U) e (w s) = directional fn (c s) (X ++ P ++ U) e (v s)).
    { intros s e. rewrite <- app_assoc, !dir_app. rewrite (dir_zero fn (c s) tau) by apply WT. 
      rewrite (dir_ext fn (c s) X e (w s) (v s)), (dir_ext fn (c s) P e (w s) (v s)), (dir_ext fn (c s) U e (w s) (v s)); [ring| | |]; intros y J; apply WV, NX; rewrite !in_app_iff; tauto. }
    assert (DW0 : forall e, directional fn (c t0) ((X ++ [tau]) ++ P) e (w t0) = directional fn (c t0) (X ++ P) e (v t0)).
    { intros e. rewrite <- app_assoc, !dir_app. rewrite (dir_zero fn (c t0) tau) by apply WT. 
      rewrite (dir_ext fn (c t0) X e (w t0) (v t0)), (dir_ext fn (c t0) P e (w t0) (v t0)); [ring| |]; intros y J; apply WV, NX; rewrite !in_app_iff; tauto. }
    assert (DF : forall e, ~ In (p_ind q) (vars e) -> directional fn (c tf) ((X ++ [tau]) ++ P ++ [p_ind q]) e dg = directional fn (c tf) (X ++ P ++ [tau]) e df).
    { intros e NE. rewrite <- app_assoc, !dir_app. rewrite (dir_fresh fn (c tf) (p_ind q)) by exact NE. cbn [In] in NN.
      assert (NN' : forall y, In y (tau :: X ++ P) -> y <> p_ind q) by (intros y J ->; exact (NN J)).
      rewrite (dir_ext fn (c tf) X e dg df), (dir_ext fn (c tf) P e dg df), (dir_ext fn (c tf) [tau] e dg df); [ring| | |];
        intros y J; apply GV, NN'; cbn [In] in *; rewrite in_app_iff; tauto. }
    assert (AW : forall t, asum (w t) ((X ++ [tau]) ++ P ++ U) = asum (v t) (X ++ P ++ U)).
    { intros t. rewrite <- app_assoc, !asum_app. rewrite (asum_ext (w t) (v t) X), (asum_ext (w t) (v t) P), (asum_ext (w t) (v t) U) by (intros y J; apply WV, NX; rewrite !in_app_iff; tauto).
      unfold asum at 2. cbn [map rsum fold_right]. rewrite WT, Rabs_R0. ring. }
    assert (AW0 : asum (w t0) ((X ++ [tau]) ++ P) = asum (v t0) (X ++ P)).
    { rewrite <- app_assoc, !asum_app. rewrite (asum_ext (w t0) (v t0) X), (asum_ext (w t0) (v t0) P) by (intros y J; apply WV, NX; rewrite !in_app_iff; tauto).
      unfold asum at 2. cbn [map rsum fold_right]. rewrite WT, Rabs_R0. ring. }
    assert (AG : asum dg ((X ++ [tau]) ++ P) = (asum df (X ++ P) + Rabs dtf)%R).
    { assert (NN' : forall y, In y (tau :: X ++ P) -> y <> p_ind q) by (intros y J ->; exact (NN J)).
      rewrite <- app_assoc, !asum_app. rewrite (asum_ext dg df X), (asum_ext dg df P) by (intros y J; apply GV, NN'; right; rewrite in_app_iff; tauto).
      unfold asum at 2. cbn [map rsum fold_right]. rewrite (GV tau) by (apply NN'; now left). rewrite V5. ring. }
    exists w, dg. rewrite SX, P1, U1, G1, G2, G3. fold P U. split; [|split; [|split; [rewrite DW0, DF by exact NT; reflexivity|split; [exact AW|split; [exact AW0|exact AG]]]]].
    + unfold admissible. cbv zeta. rewrite SX, P1, U1, CI, CT, G2. fold P U. split; [|split; [|split; [|split; [|split; [|split; [|split]]]]]].
      * intros t x f Ht J. rewrite DW. rewrite S1 in J. apply in_app_or in J. destruct J as [J|[J|[]]].
        -- apply (is_derive_ext (fun s => v s x)); [|now apply V1]. intros s. symmetry. apply WV. intros ->. apply TX. unfold X, syms. now apply (in_map fst) in J.
        -- injection J as <- <-. rewrite <- DW. rewrite <- app_assoc, !dir_app.
           assert (Z : forall L, directional fn (c t) L (Cst 1) (w t) = 0%R).
           { intros L. unfold directional. apply rsum_zero. intros y _. cbn [diff eval]. lra. }
           rewrite !Z. apply (is_derive_ext (fun _ => 0%R)); [intros s; symmetry; apply WT|]. rewrite !Rplus_0_l. apply D_const.
      * intros t x Ht J. apply (is_derive_ext (fun s => v s x)); [|now apply V2]. intros s. symmetry. apply WV. intros ->. contradiction.
      * intros x f J. rewrite S1 in J. apply in_app_or in J. destruct J as [J|[J|[]]].
        -- rewrite WV by (intros ->; apply TX; unfold X, syms; now apply (in_map fst) in J). rewrite GV; [now apply V3|].
           intros ->. apply NN. right. apply in_or_app. left. now apply (in_map fst) in J.
        -- injection J as <- <-. rewrite WT. rewrite GV by (intros EQ; apply NN; left; exact EQ). rewrite V5. cbn. lra.
      * intros x J. rewrite WV by (intros ->; contradiction). rewrite GV; [now apply V4|]. intros ->. apply NN. right. apply in_or_app. now right.
      * unfold dg. now rewrite String.eqb_refl.
      * intros b J. rewrite DW0. now apply V6.
      * intros b J. rewrite DF by now apply NC. now apply V7.
      * intros t Ht. apply (continuous_ext (fun s => directional fn (c s) (X ++ P ++ U) (p_cost_p p) (v s))); [intros s; symmetry; apply DW|now apply V8].
    + apply (is_RInt_ext (fun t => directional fn (c t) (X ++ P ++ U) (p_cost_p p) (v t))); [intros s _; symmetry; apply DW|exact HI].
Qed.

(** A stationary point of the problem with time as a state is one of the problem
    itself: when its clock starts at the initial time. *)
Theorem C86_time_as_state : forall fn nm p q c t0 tf, momentum_shift nm p = Ok q -> (t0 <= tf)%R ->
  NoDup (syms (p_states p) ++ p_params p ++ p_controls p ++ [p_ind p]) ->
  (forall d, In d (p_ct p) -> ~ In (p_ind q) (vars (c_expr d))) -> ~ In (p_ind q) (vars (p_cost_t p)) ->
  ~ In (p_ind q) (p_ind p :: syms (p_states p) ++ p_params p) -> c t0 (p_ind p) = t0 ->
  feasible fn q c t0 tf -> extremal fn q c t0 tf -> feasible fn p c t0 tf /\ extremal fn p c t0 tf.
Proof.
  intros fn nm p q c t0 tf HM T ND NC NT NN C0 F E.
  destruct (momentum_ok nm p q HM) as (S1 & I1 & _ & P1 & _ & U1 & CI & _ & CT & G1 & G2 & G3 & _).
  set (tau := p_ind p) in *. set (X := syms (p_states p)) in *. set (P := p_params p) in *. set (U := p_controls p) in *.
  assert (SX : syms (p_states q) = X ++ [tau]) by (rewrite S1; unfold syms; rewrite map_app; reflexivity).
  destruct F as (F1 & F2 & F3). destruct (nodup_parts _ _ ND) as (_ & N2 & D1). destruct (nodup_parts _ _ N2) as (_ & N3 & D2). destruct (nodup_parts _ _ N3) as (_ & _ & D3).
  assert (TX : ~ In tau X) by (intros I; apply (D1 _ I); rewrite !in_app_iff; cbn; tauto).
  assert (TP : ~ In tau P) by (intros I; apply (D2 _ I); rewrite !in_app_iff; cbn; tauto).
  assert (TU : ~ In tau U) by (intros I; apply (D3 _ I); now left).
  split.
  - split; [|split].
    + intros t Ht. split; [intros x e I; apply (F1 t Ht); rewrite S1; apply in_or_app; now left|].
      destruct (Req_dec t t0) as [ ->|NE]; [exact C0|].
      assert (Z : (c t0 tau - t0)%R = (c t tau - t)%R).
      { apply (eq_is_derive (V := R_NormedModule) (fun s => (c s tau - s)%R) t0 t); [|clear - Ht NE; lra].
        intros s Hs. assert (Hs' : (t0 <= s <= tf)%R) by (clear - Hs Ht; lra). destruct (F1 s Hs') as [FS _].
        assert (K := FS tau (Cst 1)). rewrite S1 in K. specialize (K ltac:(apply in_or_app; right; now left)). cbn [eval] in K.
        assert (K2 := is_derive_minus (fun s => c s tau) (fun s => s) s 1%R 1%R K (D_id s)). assert (K3 : is_derive (fun s => (c s tau - s)%R) s (1 - 1)%R) by exact K2. replace (1 - 1)%R with 0%R in K3 by ring. exact K3. }
      fold tau. lra.
    + intros d I. apply F2. now rewrite CI.
    + intros d I. apply F3. now rewrite CT.
  - intros v dtf df I A HI.
    destruct (time_variation fn nm p q c t0 tf HM ND NC NT NN v dtf df I A HI) as (w & dg & A' & HI' & EQ & _). cbv zeta. rewrite <- EQ. exact (E w dtf dg I A' HI').
Qed.
Print Assumptions C86_time_as_state.

(** Without bounds to regularise and without switches the problem handed to
    Dualize is the problem of the user, with time as a state if asked for; so a
    stationary point of the one is a stationary point of the other. *)
Theorem C86_user_problem : forall lu solve fn o p fs pre post p1 c t0 tf,
  make_indirect o p = Ok fs -> fs = pre ++ FDual (o_method o) :: post -> run_tfs lu solve pre p = Ok p1 ->
  (forall d, In d (p_ci p ++ p_cp p ++ p_ct p) -> c_lower d = None \/ c_upper d = None) -> p_switches p = [] -> (t0 <= tf)%R ->
  (o_shift o = true ->
     NoDup (("_" ++ p_ind p)%string :: syms (p_states p) ++ p_params p ++ p_controls p ++ [p_ind p]) /\
     (forall d, In d (p_ct p) -> ~ In ("_" ++ p_ind p)%string (vars (c_expr d))) /\ ~ In ("_" ++ p_ind p)%string (vars (p_cost_t p)) /\
     c t0 (p_ind p) = t0) ->
  feasible fn p1 c t0 tf -> extremal fn p1 c t0 tf -> feasible fn p c t0 tf /\ extremal fn p c t0 tf.
Proof.
  intros lu solve fn o p fs pre post p1 c t0 tf MK EF R1 NB NS T SH F E.
  assert (EC : constraint_tfs (all_constraints p) = Ok []).
  { clear - NB. unfold all_constraints. induction (p_ci p ++ p_cp p ++ p_ct p) as [|d l IH]; [reflexivity|]. cbn [constraint_tfs].
    assert (W : two_sided d = false) by (unfold two_sided; destruct (NB d (or_introl eq_refl)) as [ ->| ->]; [reflexivity|now destruct (c_lower d)]).
    rewrite W. apply IH. intros e I. apply NB. now right. }
  unfold make_indirect in MK. rewrite EC in MK. cbn [bind] in MK. rewrite NS in MK. cbn [length Nat.ltb Nat.leb app] in MK.
  match type of MK with bind ?x _ = _ => destruct x as [ct|] eqn:ECT; [|discriminate] end. cbn [bind] in MK. injection MK as MK.
  assert (PR : pre = if o_shift o then [FMomentum] else []).
  { assert (W : (if o_shift o then [FMomentum] else []) ++ FDual (o_method o) :: ct :: (if o_norm o then [FNorm] else []) ++ FSquash :: (if o_jac o && negb (String.eqb (o_control o) "algebraic") then [FJac] else []) = pre ++ FDual (o_method o) :: post)
      by (rewrite <- EF, <- MK; reflexivity).
    apply split_unique in W; [symmetry; apply W| |].
    - destruct (o_shift o); cbn; [intros [I|[]]; discriminate I|tauto].
    - cbn [In]. rewrite in_app_iff. intros [I|[I|[I|I]]].
      + clear - ECT I. subst ct. destruct (String.eqb (lower (o_control o)) "algebraic"); [discriminate|]. destruct (String.eqb (lower (o_control o)) "differential"); discriminate.
      + destruct (o_norm o); [destruct I as [I|[]]; discriminate I|exact I].
      + discriminate I.
      + destruct (_ && _); [destruct I as [I|[]]; discriminate I|exact I]. }
  rewrite PR in R1. destruct (o_shift o).
  - cbn [run_tfs apply_tf] in R1. destruct (momentum_shift None p) as [q|] eqn:HM; [|discriminate]. cbn [bind] in R1. injection R1 as ->.
    destruct (SH eq_refl) as (ND & N1 & N2 & C0). destruct (momentum_ok None p p1 HM) as (_ & I1 & _). inversion ND as [|? ? NI ND']; subst.
    apply (C86_time_as_state fn None p p1 c t0 tf HM T ND'); rewrite ?I1; auto.
    intros [I|I]; apply NI; rewrite !in_app_iff in *; cbn [In]; [right; right; right; left; exact I|tauto].
  - cbn [run_tfs] in R1. injection R1 as ->. now split.
Qed.
Print Assumptions C86_user_problem.

(** ** Example: go from 0 to 1 with cost 1 + u^2; the solution is u = 1 for one
    unit of time. *)
Definition go_oc (ci : list constr) : prob :=
  mkProb "t" [("x", Var "u")] [] [] [] ["u"] [] ci [] [plain (Sub (Var "x") (Cst 1))] [] []
    (Cst 0) (Add (Cst 1) (Mul (Var "u") (Var "u"))) (Cst 0) [] [] [] [] None [] true false.
Definition go_x : prob := go_oc [plain (Var "x")].
Definition go_xt : prob := go_oc [plain (Var "x"); plain (Var "t")].
Definition go_alg : options := opts "algebraic" "traditional" false true.
Definition go_diff : options := opts "differential" "traditional" false true.
Definition go_geo : options := opts "differential" "diffyg" true true.
Definition go_tfs (o : options) (p : prob) : list tf := match make_indirect o p with Ok fs => fs | Raise _ => [] end.
Definition go_bvp (o : options) (p : prob) : prob := match run_tfs lu_gauss (solve_linear lu_gauss) (go_tfs o p) p with Ok q => q | Raise _ => p end.
Definition go_pa : prob := Eval vm_compute in go_bvp go_alg go_x.
Definition go_pd : prob := Eval vm_compute in go_bvp go_diff go_x.
Definition go_pg : prob := Eval vm_compute in go_bvp go_geo go_xt.
Definition go_shift : prob := Eval vm_compute in match momentum_shift None go_xt with Ok q => q | Raise _ => go_xt end.
Definition go_c (t : R) (y : string) : R :=
  if String.eqb y "x" then t else if String.eqb y "t" then t else if String.eqb y "_t" then t else if String.eqb y "u" then 1%R else if String.eqb y "_lam_x" then (-2)%R
  else if String.eqb y "_deltat" then 1%R else if String.eqb y "_delta_t" then 1%R else if String.eqb y "_nu_0_0" then 2%R else if String.eqb y "_nu_f_0" then (-2)%R else 0%R.

Lemma D_line (a b t : R) : is_derive (fun s => a * s + b)%R t a.
Proof. auto_derive; [trivial|ring]. Qed.
Ltac line a b := match goal with |- is_derive _ _ ?v => replace v with (a : R) by (cbn; field; lra); apply (is_derive_ext (fun s => a * s + b)%R); [intros; cbn; ring|apply D_line] end.

Lemma go_pa_solves : solves ex_fn go_pa 0 1 (fun s => [s; -2]%R) (fun _ => []) [1%R] [2; -2]%R [].
Proof.
  split.
  - intros t Ht. eexists. eexists. split; [reflexivity|]. split; [reflexivity|]. split; [|intros i Hi; cbn in Hi; lia].
    intros [|[|i]] Hi; [| |cbn in Hi; lia].
    + cbn. line 1%R 0%R.
    + cbn. line 0%R (-2)%R.
  - eexists. split; [reflexivity|]. repeat (apply Forall_cons; [cbn; lra|]). apply Forall_nil.
Qed.
Lemma go_pd_solves : solves ex_fn go_pd 0 1 (fun s => [s; 1; -2]%R) (fun _ => []) [1%R] [2; -2]%R [].
Proof.
  split.
  - intros t Ht. eexists. eexists. split; [reflexivity|]. split; [reflexivity|]. split; [|intros i Hi; cbn in Hi; lia].
    intros [|[|[|i]]] Hi; [| | |cbn in Hi; lia].
    + cbn. line 1%R 0%R.
    + cbn. line 0%R 1%R.
    + cbn. line 0%R (-2)%R.
  - eexists. split; [reflexivity|]. repeat (apply Forall_cons; [cbn; lra|]). apply Forall_nil.
Qed.
Lemma go_pg_solves : solves ex_fn go_pg 0 1 (fun s => [s; s; 1; -2; 0; 0]%R) (fun _ => []) [1%R] [2; 0; -2]%R [].
Proof.
  split.
  - intros t Ht. eexists. eexists. split; [reflexivity|]. split; [reflexivity|]. split; [|intros i Hi; cbn in Hi; lia].
    intros [|[|[|[|[|[|i]]]]]] Hi; [| | | | | |cbn in Hi; lia].
    + cbn. line 1%R 0%R.
    + cbn. line 1%R 0%R.
    + cbn. line 0%R 1%R.
    + cbn. line 0%R (-2)%R.
    + cbn. line 0%R 0%R.
    + cbn. line 0%R 0%R.
  - eexists. split; [reflexivity|]. repeat (apply Forall_cons; [cbn; lra|]). apply Forall_nil.
Qed.
Ltac reads := constructor;
  [intros t; reflexivity
  |intros t i x E; repeat (destruct i as [|i]; [cbn in E; injection E as <-; cbn; field|]); cbn in E; destruct i; discriminate E
  |intros f t i x L E
  |intros t i x E; repeat (destruct i as [|i]; [cbn in E; injection E as <-; reflexivity|]); cbn in E; destruct i; discriminate E
  |intros t i x E; repeat (destruct i as [|i]; [cbn in E; injection E as <-; reflexivity|]); cbn in E; destruct i; discriminate E
  |intros t i x E; cbn in E; destruct i; discriminate E].
Ltac names := repeat (apply NoDup_cons; [cbn; intros I; repeat (destruct I as [I|I]; [discriminate I|]); exact I|]); apply NoDup_nil.

(** Algebraic control: the hypotheses hold, and so does the conclusion. *)
Example C85_ex : exists h, let fs := go_tfs go_alg go_x in
  make_indirect go_alg go_x = Ok fs /\ fs = [] ++ FDual (o_method go_alg) :: [FAlg; FNorm; FSquash] /\
  run_tfs lu_gauss (solve_linear lu_gauss) fs go_x = Ok go_pa /\ p_ham go_pa = Some h /\ NoDup (p_ind go_x :: all_names go_pa) /\
  (forall cand e x, In cand (p_law go_pa) -> In e cand -> In x (vars e) -> In x (syms (p_states go_pa) ++ p_params go_pa ++ p_consts go_pa)) /\
  solves ex_fn go_pa 0 1 (fun s => [s; -2]%R) (fun _ => []) [1%R] [2; -2]%R [] /\
  reads_off ex_fn go_pa (p_ind go_x) (fun s => [s; -2]%R) [1%R] [2; -2]%R [] 0 1 go_c /\
  (forall t, wd ex_fn (go_c t) h /\ Forall (Forall (wd ex_fn (go_c t))) (p_law go_pa) /\ field_defined lu_gauss ex_fn (o_method go_alg) go_x h (go_c t)) /\
  feasible ex_fn go_x go_c 0 1 /\ extremal ex_fn go_x go_c 0 1.
Proof.
  eexists. cbv zeta.
  assert (A1 : make_indirect go_alg go_x = Ok (go_tfs go_alg go_x)) by reflexivity.
  assert (A2 : go_tfs go_alg go_x = [] ++ FDual (o_method go_alg) :: [FAlg; FNorm; FSquash]) by reflexivity.
  assert (A3 : run_tfs lu_gauss (solve_linear lu_gauss) (go_tfs go_alg go_x) go_x = Ok go_pa) by (vm_compute; reflexivity).
  assert (A5 : NoDup (p_ind go_x :: all_names go_pa)) by (vm_compute; names).
  assert (A6 : forall cand e x, In cand (p_law go_pa) -> In e cand -> In x (vars e) -> In x (syms (p_states go_pa) ++ p_params go_pa ++ p_consts go_pa)).
  { intros cand e x [ <-|[]] [ <-|[]] I. cbn in I. repeat (destruct I as [ <-|I]; [cbn; tauto|]). destruct I. }
  assert (A8 : reads_off ex_fn go_pa (p_ind go_x) (fun s => [s; -2]%R) [1%R] [2; -2]%R [] 0 1 go_c).
  { reads. cbn in L. injection L as <-. destruct i as [|i]; [cbn in E; injection E as <-; cbn; field; lra|destruct i; discriminate E]. }
  assert (A9 : forall t, wd ex_fn (go_c t) (Add (Add (Cst 1) (Mul (Var "u") (Var "u"))) (Mul (Var "_lam_x") (Var "u"))) /\ Forall (Forall (wd ex_fn (go_c t))) (p_law go_pa) /\
     field_defined lu_gauss ex_fn (o_method go_alg) go_x (Add (Add (Cst 1) (Mul (Var "u") (Var "u"))) (Mul (Var "_lam_x") (Var "u"))) (go_c t)).
  { intros t. split; [cbn; tauto|]. split; [repeat (apply Forall_cons || apply Forall_nil); cbn; repeat split; lra|]. intros Z. discriminate Z. }
  destruct (C85_algebraic lu_gauss lu_gauss_ok (solve_linear lu_gauss) (C67_linear_solver_sound _ lu_gauss_ok) ex_fn go_alg go_x (go_tfs go_alg go_x) [] [FAlg; FNorm; FSquash] go_x go_pa _
    (fun s => [s; -2]%R) (fun _ => []) 1%R [2; -2]%R [] 0%R go_c A1 A2 eq_refl A3 eq_refl eq_refl eq_refl (or_introl eq_refl) eq_refl eq_refl eq_refl eq_refl A5 A6 go_pa_solves Rlt_0_1 A8 (fun t _ => A9 t)) as (F & E & _).
  rewrite Rplus_0_l in F, E. repeat (split; [assumption || reflexivity || exact go_pa_solves|]). exact E.
Qed.

(** Differential control. *)
Example C85_ex_differential : exists h, let fs := go_tfs go_diff go_x in
  make_indirect go_diff go_x = Ok fs /\ fs = [] ++ FDual (o_method go_diff) :: [FDiff "traditional"; FNorm; FSquash] /\
  run_tfs lu_gauss (solve_linear lu_gauss) fs go_x = Ok go_pd /\ p_ham go_pd = Some h /\ NoDup (p_ind go_x :: all_names go_pd) /\
  solves ex_fn go_pd 0 1 (fun s => [s; 1; -2]%R) (fun _ => []) [1%R] [2; -2]%R [] /\
  reads_off ex_fn go_pd (p_ind go_x) (fun s => [s; 1; -2]%R) [1%R] [2; -2]%R [] 0 1 go_c /\
  (forall t, wd ex_fn (go_c t) h /\ Forall (wd ex_fn (go_c t)) (eoms (p_states go_pd))) /\
  feasible ex_fn go_x go_c 0 1 /\ extremal ex_fn go_x go_c 0 1.
Proof.
  exists (Add (Add (Cst 1) (Mul (Var "u") (Var "u"))) (Mul (Var "_lam_x") (Var "u"))). cbv zeta.
  assert (A1 : make_indirect go_diff go_x = Ok (go_tfs go_diff go_x)) by reflexivity.
  assert (A2 : go_tfs go_diff go_x = [] ++ FDual (o_method go_diff) :: [FDiff "traditional"; FNorm; FSquash]) by reflexivity.
  assert (A3 : run_tfs lu_gauss (solve_linear lu_gauss) (go_tfs go_diff go_x) go_x = Ok go_pd) by (vm_compute; reflexivity).
  assert (A5 : NoDup (p_ind go_x :: all_names go_pd)) by (vm_compute; names).
  assert (A8 : reads_off ex_fn go_pd (p_ind go_x) (fun s => [s; 1; -2]%R) [1%R] [2; -2]%R [] 0 1 go_c).
  { reads. cbn in L. discriminate L. }
  assert (A9 : forall t, wd ex_fn (go_c t) (Add (Add (Cst 1) (Mul (Var "u") (Var "u"))) (Mul (Var "_lam_x") (Var "u"))) /\ Forall (wd ex_fn (go_c t)) (eoms (p_states go_pd))).
  { intros t. split; [cbn; tauto|]. repeat (apply Forall_cons || apply Forall_nil); cbn; repeat split; lra. }
  destruct (C85_differential lu_gauss lu_gauss_ok ex_fn ex_smooth (solve_linear lu_gauss) go_diff go_x (go_tfs go_diff go_x) [] [FDiff "traditional"; FNorm; FSquash] go_x go_pd _
    (fun s => [s; 1; -2]%R) (fun _ => []) 1%R [2; -2]%R [] 0%R go_c A1 A2 eq_refl A3 eq_refl eq_refl eq_refl eq_refl eq_refl eq_refl eq_refl eq_refl A5 go_pd_solves Rlt_0_1 A8 (fun t _ => A9 t)) as (F & E & _).
  rewrite Rplus_0_l in F, E. repeat (split; [assumption || reflexivity || exact go_pd_solves|]). exact E.
Qed.

(** Geometric differential control with time as a state; the stationary point is
    one of the problem of the user. *)
Example C85_ex_geometric : exists h xs tau, let fs := go_tfs go_geo go_xt in
  make_indirect go_geo go_xt = Ok fs /\ fs = [FMomentum] ++ FDual (o_method go_geo) :: [FDiff "diffyg"; FNorm; FSquash] /\
  run_tfs lu_gauss (solve_linear lu_gauss) [FMomentum] go_xt = Ok go_shift /\
  run_tfs lu_gauss (solve_linear lu_gauss) fs go_xt = Ok go_pg /\ p_ham go_pg = Some h /\ p_states go_shift = xs ++ [(tau, Cst 1)] /\ NoDup (p_ind go_shift :: all_names go_pg) /\
  solves ex_fn go_pg 0 1 (fun s => [s; s; 1; -2; 0; 0]%R) (fun _ => []) [1%R] [2; 0; -2]%R [] /\
  reads_off ex_fn go_pg (p_ind go_shift) (fun s => [s; s; 1; -2; 0; 0]%R) [1%R] [2; 0; -2]%R [] 0 1 go_c /\
  (forall t, wd ex_fn (go_c t) h /\ Forall (wd ex_fn (go_c t)) (eoms (p_states go_pg)) /\ field_defined lu_gauss ex_fn (o_method go_geo) go_shift h (go_c t)) /\
  feasible ex_fn go_xt go_c 0 1 /\ extremal ex_fn go_xt go_c 0 1.
Proof.
  eexists. exists [("x", Var "u")], "t". cbv zeta.
  assert (A1 : make_indirect go_geo go_xt = Ok (go_tfs go_geo go_xt)) by reflexivity.
  assert (A2 : go_tfs go_geo go_xt = [FMomentum] ++ FDual (o_method go_geo) :: [FDiff "diffyg"; FNorm; FSquash]) by reflexivity.
  assert (A0 : run_tfs lu_gauss (solve_linear lu_gauss) [FMomentum] go_xt = Ok go_shift) by reflexivity.
  assert (A3 : run_tfs lu_gauss (solve_linear lu_gauss) (go_tfs go_geo go_xt) go_xt = Ok go_pg) by (vm_compute; reflexivity).
  assert (A4 : p_ham go_pg = Some (dual_ham go_shift)) by (vm_compute; reflexivity).
  assert (A5 : NoDup (p_ind go_shift :: all_names go_pg)) by (vm_compute; names).
  assert (A8 : reads_off ex_fn go_pg (p_ind go_shift) (fun s => [s; s; 1; -2; 0; 0]%R) [1%R] [2; 0; -2]%R [] 0 1 go_c).
  { reads. cbn in L. discriminate L. }
  assert (AC : forall x, In x (syms (p_states go_shift) ++ p_controls go_shift) -> ~ In (lam x) (vars (p_cost_p go_shift)) /\ forall s, In s (p_states go_shift) -> ~ In (lam x) (vars (snd s))).
  { intros x I. split.
    - intros J. cbn in I, J. repeat (destruct J as [J|J]; [discriminate J|]). exact J.
    - intros s Is J. cbn in Is. destruct Is as [ <-|[ <-|[]]]; cbn in J; [destruct J as [J|[]]; discriminate J|exact J]. }
  assert (A9 : forall t, wd ex_fn (go_c t) (dual_ham go_shift) /\ Forall (wd ex_fn (go_c t)) (eoms (p_states go_pg)) /\ field_defined lu_gauss ex_fn (o_method go_geo) go_shift (dual_ham go_shift) (go_c t) /\
     forall pD udot, dualize lu_gauss (o_method go_geo) go_shift = Ok pD -> control_rates lu_gauss pD (dual_ham go_shift) = Ok udot -> Forall (wd ex_fn (go_c t)) udot).
  { intros t. split; [cbn; tauto|]. split; [repeat (apply Forall_cons || apply Forall_nil); cbn; repeat split; lra|]. split.
    - intros _ chi HC. vm_compute in HC. injection HC as <-. repeat (apply Forall_cons || apply Forall_nil); cbn; repeat split; lra.
    - intros pD udot HD HU. vm_compute in HD. injection HD as <-. vm_compute in HU. injection HU as <-. repeat (apply Forall_cons || apply Forall_nil); cbn; repeat split; lra. }
  destruct (C85_geometric lu_gauss lu_gauss_ok ex_fn ex_smooth (solve_linear lu_gauss) go_geo go_xt (go_tfs go_geo go_xt) [FMomentum] [FDiff "diffyg"; FNorm; FSquash] go_shift go_pg _
    (fun s => [s; s; 1; -2; 0; 0]%R) (fun _ => []) 1%R [2; 0; -2]%R [] 0%R go_c [("x", Var "u")] "t" A1 A2 A0 A3 A4 eq_refl eq_refl eq_refl eq_refl eq_refl eq_refl eq_refl eq_refl A5 AC go_pg_solves Rlt_0_1 A8 (fun t _ => A9 t)) as (F & E & _).
  rewrite Rplus_0_l in F, E.
  destruct (C86_user_problem lu_gauss (solve_linear lu_gauss) ex_fn go_geo go_xt (go_tfs go_geo go_xt) [FMomentum] [FDiff "diffyg"; FNorm; FSquash] go_shift go_c 0%R 1%R A1 A2 A0) as [F' E']; [| | | |exact F|exact E|].
  - intros d I. cbn in I. repeat (destruct I as [ <-|I]; [now left|]). destruct I.
  - reflexivity.
  - apply Rle_0_1.
  - intros _. split; [vm_compute; names|]. split; [|split; [cbn; tauto|reflexivity]]. intros d [ <-|[]]. cbn. intros [I|[]]. discriminate I.
  - split; [exact A1|]. split; [exact A2|]. split; [exact A0|]. split; [exact A3|]. split; [exact A4|]. split; [reflexivity|]. split; [exact A5|]. split; [exact go_pg_solves|]. split; [exact A8|].
    split; [intros t; destruct (A9 t) as (W1 & W2 & W3 & _); split; [exact W1|split; [exact W2|exact W3]]|]. split; [exact F'|exact E'].
Qed.
