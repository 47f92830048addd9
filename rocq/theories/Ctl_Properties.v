(** Property theorem C34: the differential control law. *)
From Coq Require Import Reals Lra.
From Coquelicot Require Import Coquelicot.
From Verif Require Import Base Base_Facts Sym_Expr Sym_Facts Sym_Model Sym_Lu Sym_Dual Sym_Traj Sym_DiffCtl Dual_Properties.
Open Scope R_scope.

(** C34, traditional method: along every curve obeying the new equations at
    time [t], each stationarity residual changes at the rate of its explicit
    time dependence only. *)
Theorem C34_residual_rate : forall lu, lu_ok lu -> forall fn, smooth fn -> forall m p p2 h c t u,
  lower m = "traditional"%string -> differential_control lu m p = Ok p2 -> p_ham p = Some h ->
  In u (p_controls p) ->
  let names := syms (p_states p ++ p_costates p) ++ p_controls p ++ [p_ind p] in
  NoDup names -> wd fn (c t) h -> Forall (wd fn (c t)) (eoms (p_states p2)) ->
  follows fn c t (p_states p2) -> follows fn c t (p_costates p2) ->
  is_derive (fun s => c s (p_ind p)) t 1 -> others_fixed c t names h ->
  is_derive (fun s => eval fn (c s) (diff u h)) t (eval fn (c t) (diff (p_ind p) (diff u h))).
Proof.
  intros lu LU fn Sm m p p2 h c t u M HD HH Hu names ND W WD FS FC HI HO.
  destruct (diffctl_traditional lu m p p2 HD M) as (h' & udot & H1 & H2 & H3 & H4 & _).
  assert (h' = h) by congruence. subst h'.
  destruct (udot_values lu LU h (p_controls p) (p_states p ++ p_costates p) udot H2) as [L _].
  apply (residual_rate lu LU fn Sm h (p_controls p) (p_states p ++ p_costates p) udot (p_ind p) c t (fun s => eval fn (c t) (snd s)) u H2 Hu ND W).
  - rewrite H3 in WD. unfold eoms in WD. rewrite map_app in WD. apply Forall_app in WD. destruct WD as [_ WD].
    assert (E : map snd (combine (p_controls p) udot) = udot).
    { clear - L. revert udot L. induction (p_controls p) as [|a l IH]; intros [|e r] L; try discriminate; [reflexivity|].
      simpl. f_equal. apply IH. simpl in L. congruence. }
    rewrite E in WD. exact WD.
  - intros [x e] Hs. split; [|reflexivity]. cbn [fst snd]. apply in_app_or in Hs. destruct Hs as [Hs|Hs].
    + apply FS. rewrite H3. apply in_or_app. now left.
    + apply FC. rewrite H4. exact Hs.
  - intros x e Hx. apply FS. rewrite H3. apply in_or_app. now right.
  - exact HI.
  - exact HO.
Qed.
Print Assumptions C34_residual_rate.

Lemma stationarity_constant lu (LU : lu_ok lu) fn (Sm : smooth fn) m p p2 h c a b :
  lower m = "traditional"%string -> differential_control lu m p = Ok p2 -> p_ham p = Some h ->
  let names := syms (p_states p ++ p_costates p) ++ p_controls p ++ [p_ind p] in
  NoDup names -> ~ In (p_ind p) (vars h) ->
  (forall t, a <= t <= b -> wd fn (c t) h /\ Forall (wd fn (c t)) (eoms (p_states p2)) /\
     follows fn c t (p_states p2) /\ follows fn c t (p_costates p2) /\
     is_derive (fun s => c s (p_ind p)) t 1 /\ others_fixed c t names h) ->
  forall u t, In u (p_controls p) -> a <= t <= b -> eval fn (c t) (diff u h) = eval fn (c b) (diff u h).
Proof.
  intros M HD HH names ND NI HC u t Hu Ht.
  destruct (Req_dec t b) as [->|NE]; [reflexivity|].
  apply (eq_is_derive (V := R_NormedModule) (fun s => eval fn (c s) (diff u h)) t b); [|lra].
  intros s Hs. destruct (HC s ltac:(lra)) as (W & WD & FS & FC & HI & HO).
  pose proof (C34_residual_rate lu LU fn Sm m p p2 h c s u M HD HH Hu ND W WD FS FC HI HO) as G.
  rewrite (eval_diff_fresh fn) in G; [exact G|]. intros I. apply NI. eapply vars_diff; eauto.
Qed.
(** C34.  On an interval, if time does not appear explicitly, the terminal
    conditions of the new problem make the controls stationary everywhere. *)
Theorem C34_stationary_everywhere : forall lu, lu_ok lu -> forall fn, smooth fn -> forall m p p2 h c a b,
  lower m = "traditional"%string -> differential_control lu m p = Ok p2 -> p_ham p = Some h ->
  let names := syms (p_states p ++ p_costates p) ++ p_controls p ++ [p_ind p] in
  NoDup names -> ~ In (p_ind p) (vars h) ->
  (forall t, a <= t <= b -> wd fn (c t) h /\ Forall (wd fn (c t)) (eoms (p_states p2)) /\
     follows fn c t (p_states p2) /\ follows fn c t (p_costates p2) /\
     is_derive (fun s => c s (p_ind p)) t 1 /\ others_fixed c t names h) ->
  (forall d, In d (p_ct p2) -> eval fn (c b) (c_expr d) = 0) ->
  forall u t, In u (p_controls p) -> a <= t <= b -> eval fn (c t) (diff u h) = 0.
Proof.
  intros lu LU fn Sm m p p2 h c a b M HD HH names ND NI HC HT u t Hu Ht.
  destruct (diffctl_traditional lu m p p2 HD M) as (h' & udot & H1 & _ & _ & _ & _ & H6 & _).
  assert (h' = h) by congruence. subst h'.
  assert (EB : eval fn (c b) (diff u h) = 0).
  { apply (HT (plain (diff u h))). rewrite H6. apply in_or_app. right.
    apply (in_map (fun u => plain (diff u h))). exact Hu. }
  rewrite <- EB. exact (stationarity_constant lu LU fn Sm m p p2 h c a b M HD HH ND NI HC u t Hu Ht).
Qed.
Print Assumptions C34_stationary_everywhere.

Lemma nth_firstn' {A} (d : A) : forall k l i, (i < k)%nat -> nth i (firstn k l) d = nth i l d.
Proof. induction k as [|k IH]; intros [|a l] [|i] H; simpl; auto; try lia. apply IH. lia. Qed.
Lemma follows_combine fn c t qs (l : list expr) i : follows fn c t (combine qs l) -> length qs = length l -> (i < length qs)%nat ->
  is_derive (fun s => c s (nth i qs EmptyString)) t (eval fn (c t) (nth i l (Cst 0))).
Proof.
  intros F L H. apply F. rewrite <- combine_nth by exact L. apply nth_In. rewrite combine_length. lia.
Qed.
Lemma NoDup_nth_neq {A} (l : list A) d i j : NoDup l -> (i < length l)%nat -> (j < length l)%nat -> i <> j -> nth i l d <> nth j l d.
Proof. intros ND Hi Hj N E. apply N. apply (proj1 (NoDup_nth l d) ND i j Hi Hj E). Qed.
Lemma nodup_disjoint {A} (l m : list A) x : NoDup (l ++ m) -> In x l -> ~ In x m.
Proof.
  induction l as [|a l IH]; simpl; [tauto|]. intros ND [->|I] J; inversion ND as [|? ? NI ND']; subst.
  - apply NI. apply in_or_app. now right.
  - exact (IH ND' I J).
Qed.
Lemma nodup_suffix {A} (l m : list A) : NoDup (l ++ m) -> NoDup m.
Proof. induction l as [|a l IH]; simpl; auto. intros H. inversion H; auto. Qed.

(** C34, geometric method, for problems in which time is the last state (as
    MomentumShift makes it) and without parameters. *)
Theorem C34_geometric_residual_rate : forall lu, lu_ok lu -> forall fn, smooth fn -> forall m p p1 p2 h pre tau c t u,
  lower m = "diffyg"%string -> p_states p = pre ++ [(tau, Cst 1)] -> p_params p = [] ->
  p_costates p = [] -> p_coparams p = [] ->
  dualize lu m p = Ok p1 -> p_ham p1 = Some h -> differential_control lu m p1 = Ok p2 ->
  In u (p_controls p) ->
  let X := syms (p_states p) in let U := p_controls p in
  NoDup (X ++ map lam X ++ U ++ map lam U ++ [p_ind p]) -> costates_new p ->
  (forall v, In v U -> ~ In (lam v) (vars h)) ->
  wd fn (c t) h -> field_defined lu fn m p h (c t) ->
  (forall udot, control_rates lu p1 h = Ok udot -> Forall (wd fn (c t)) udot) ->
  Forall (wd fn (c t)) (eoms (p_states p2) ++ eoms (p_costates p2)) ->
  follows fn c t (p_states p2) -> follows fn c t (p_costates p2) ->
  is_derive (fun s => c s (p_ind p)) t 1 ->
  others_fixed c t (X ++ map lam X ++ U ++ [p_ind p]) h ->
  is_derive (fun s => eval fn (c s) (diff u h)) t (eval fn (c t) (diff (p_ind p) (diff u h))).
Proof.
  intros lu LU fn Sm m p p1 p2 h pre tau c t u M EP NP E1 E2 HD HH HDC Hu X U ND CN LN W FD WU WC FS FC HI HO.
  destruct (dualize_diffyg lu LU m p p1 HD M E1 E2) as (DO & C2 & chi1 & rates & G1 & G2 & G3 & G4).
  assert (EH : h = dual_ham p) by (pose proof (d_ham _ _ _ DO); congruence).
  rewrite NP, app_nil_r in *. cbn [length Nat.add] in G4.
  assert (LX : length X = length (p_states p)) by (unfold X, syms; apply map_length).
  fold X in G1, G3, G4. rewrite LX in G1.
  unfold field_defined in FD. rewrite EH in FD. specialize (FD M chi1 G1). specialize (G4 fn (c t) FD). rewrite <- EH in G4. 
  destruct (diffctl_diffyg lu m p1 p2 HDC M) as (h' & udot & chi & H1 & H2 & H3 & _).
  assert (h' = h) by congruence. subst h'.
  assert (S1 : p_states p1 = p_states p) by apply (d_states _ _ _ DO).
  assert (U1 : p_controls p1 = U) by apply (d_controls _ _ _ DO).
  assert (L1 : syms (p_costates p1) = map lam X) by apply (d_lams _ _ _ DO).
  destruct (udot_values lu LU h (p_controls p1) (p_states p1 ++ p_costates p1) udot H2) as [LUD _].
  specialize (WU udot H2). specialize (H3 LUD). cbv zeta in H3. rewrite S1, U1, L1 in H3. rewrite U1 in LUD. 
  set (n0 := length (p_states p)) in *. set (mU := length U) in *. fold X in H3.
  destruct H3 as (HF & HS2 & HC2).
  assert (N0 : (0 < n0)%nat) by (unfold n0; rewrite EP, app_length; simpl; lia).
  assert (LQ : length (X ++ U) = (n0 + mU)%nat) by (rewrite app_length, LX; reflexivity).
  assert (LL : length (map lam X ++ map lam U) = length (X ++ U)) by (rewrite !app_length, !map_length; reflexivity).
  assert (HF' := HF). rewrite <- LQ in HF'.
  destruct (ham_field_extended lu LU h (X ++ U) (map lam X ++ map lam U) mU (n0 - 1) udot chi LL ltac:(lia) LUD HF') as [LC V].
  clear HF'. rewrite LQ in LC, V.
  assert (WCHI : Forall (wd fn (c t)) chi).
  { rewrite HS2, HC2 in WC. unfold eoms in WC.
    assert (SN : forall (l : list string) (r : list expr), length l = length r -> map snd (combine l r) = r).
    { clear. induction l as [|a l IH]; intros [|e r] H; try discriminate; [reflexivity|]. simpl. f_equal. apply IH. simpl in H. congruence. }
    rewrite !SN in WC by (rewrite ?firstn_length, ?skipn_length; lia).
    rewrite firstn_skipn in WC. exact WC. }
  specialize (V fn (c t) WCHI). destruct V as (V1 & V2 & V3).
  replace (n0 + mU - mU)%nat with n0 in V1, V2 by lia.
  (* speeds from the curve *)
  assert (DQ : forall i, (i < n0 + mU)%nat -> is_derive (fun s => c s (nth i (X ++ U) EmptyString)) t (eval fn (c t) (nth i chi (Cst 0)))).
  { intros i Hi. rewrite HS2 in FS. pose proof (follows_combine fn c t (X ++ U) (firstn (n0 + mU) chi) i FS) as G.
    rewrite nth_firstn' in G by exact Hi. apply G; [rewrite firstn_length; lia|lia]. }
  assert (DL : forall i, (i < n0 + mU)%nat -> is_derive (fun s => c s (nth i (map lam X ++ map lam U) EmptyString)) t (eval fn (c t) (nth (n0 + mU + i) chi (Cst 0)))).
  { intros i Hi. rewrite HC2 in FC. pose proof (follows_combine fn c t (map lam X ++ map lam U) (skipn (n0 + mU) chi) i FC) as G.
    rewrite nth_skipn' in G. apply G; [rewrite skipn_length; lia|lia]. }
  assert (NDX : NoDup X) by exact (nodup_prefix _ _ ND).
  assert (NL : forall i, (i < n0)%nat -> nth i (map lam X ++ map lam U) EmptyString = lam (nth i X EmptyString)).
  { intros i Hi. rewrite app_nth1 by (rewrite map_length; lia).
    rewrite (nth_indep _ EmptyString (lam EmptyString)) by (rewrite map_length; lia). now rewrite (map_nth lam). }
  assert (HLAM : forall x f, In (x, f) (p_states p) -> eval fn (c t) (diff (lam x) h) = eval fn (c t) f).
  { intros x f Hs. rewrite EH. apply dual_ham_diff_lam; [exact NDX|exact Hs| |]; apply CN; unfold syms; apply (in_map fst) in Hs; exact Hs. }
  assert (NT : nth (n0 - 1) X EmptyString = tau).
  { unfold X, n0. rewrite EP. unfold syms. rewrite map_app, app_length. cbn [length map fst].
    rewrite app_nth2 by (rewrite map_length; lia). rewrite map_length. replace (length pre + 1 - 1 - length pre)%nat with 0%nat by lia. reflexivity. }
  assert (CI : eval fn (c t) (nth (n0 - 1) chi (Cst 0)) = 1).
  { rewrite (V1 (n0 - 1)%nat) by lia. rewrite NL by lia. rewrite NT. rewrite (HLAM tau (Cst 1)); [reflexivity|]. rewrite EP. apply in_or_app. right. now left. }
  set (sp := fun s : string * expr => if String.eqb (fst s) (lam tau) then eval fn (c t) (nth (n0 + mU + (n0 - 1)) chi (Cst 0)) else eval fn (c t) (snd s)).
  assert (ND2 : NoDup (syms (p_states p ++ p_costates p1) ++ U ++ [p_ind p])).
  { unfold syms. rewrite map_app. fold (syms (p_states p)). fold (syms (p_costates p1)). rewrite L1. fold X. rewrite <- app_assoc.
    clear - ND. 
    assert (G : forall (A : list string) B C, NoDup (A ++ B ++ C) -> NoDup (A ++ C)).
    { induction A as [|a A IH]; simpl; intros B C H; [exact (nodup_suffix _ _ H)|]. inversion H as [|? ? NI ND']; subst.
      constructor; [|exact (IH B C ND')]. intros I. apply NI. apply in_app_or in I. apply in_or_app. destruct I; [now left|right; apply in_or_app; now right]. }
    assert (R := ND). rewrite (app_assoc X), (app_assoc (X ++ map lam X)) in R. apply G in R. rewrite <- !app_assoc in R. exact R. }
  assert (TN : In tau X) by (rewrite <- NT; apply nth_In; lia).
  apply (residual_rate lu LU fn Sm h U (p_states p ++ p_costates p1) udot (p_ind p) c t sp u).
  - unfold control_rates in H2. rewrite S1, U1 in H2. exact H2.
  - exact Hu.
  - exact ND2.
  - exact W.
  - exact WU.
  - intros s Hs. apply in_app_or in Hs. destruct Hs as [Hs|Hs].
    + (* a state *)
      assert (NS : String.eqb (fst s) (lam tau) = false).
      { apply String.eqb_neq. intros E. apply (nodup_disjoint _ _ (fst s) ND).
        - unfold X, syms. now apply in_map.
        - apply in_or_app. left. rewrite E. now apply in_map. }
      unfold sp. rewrite NS. split; [|reflexivity].
      apply (In_nth _ _ (EmptyString, Cst 0)) in Hs. destruct Hs as (i & Hi & Es). fold n0 in Hi.
      assert (NX : nth i (X ++ U) EmptyString = fst s).
      { rewrite app_nth1 by lia. unfold X, syms. change EmptyString with (fst (EmptyString, Cst 0)). rewrite (map_nth fst), Es. reflexivity. }
      pose proof (DQ i ltac:(lia)) as D. rewrite NX, V1 in D by exact Hi. rewrite NL in D by exact Hi.
      rewrite app_nth1 in NX by lia. rewrite NX in D. 
      rewrite (HLAM (fst s) (snd s)) in D; [exact D|]. rewrite <- Es. destruct (nth i (p_states p) (EmptyString, Cst 0)) eqn:EN.
      cbn [fst snd]. rewrite <- EN. apply nth_In. exact Hi.
    + (* a costate *)
      rewrite G3 in Hs. apply (In_nth _ _ (lam EmptyString, Cst 0)) in Hs. destruct Hs as (i & Hi & Es).
      rewrite combine_length, map_length, LX, G2, Nat.min_id in Hi. fold n0 in Hi.
      rewrite combine_nth in Es by (rewrite map_length, LX; symmetry; exact G2). rewrite (map_nth lam) in Es. subst s. cbn [fst snd].
      pose proof (DL i ltac:(lia)) as D. rewrite NL in D by exact Hi. unfold sp. cbn [fst snd].
      destruct (String.eqb_spec (lam (nth i X EmptyString)) (lam tau)) as [E|E].
      * apply lam_inj in E. assert (i = n0 - 1)%nat as ->.
        { destruct (Nat.eq_dec i (n0 - 1)); [assumption|]. exfalso. apply (NoDup_nth_neq X EmptyString i (n0 - 1) NDX); [lia|lia|assumption|]. now rewrite NT. }
        split; [exact D|]. rewrite NT. rewrite EH.
        rewrite (time_costate_absent fn p pre tau u (c t) EP NDX).
        -- lra.
        -- intros I. apply (nodup_disjoint (X ++ map lam X) (U ++ map lam U ++ [p_ind p]) u).
           ++ rewrite <- app_assoc. exact ND.
           ++ apply in_or_app. right. exact I.
           ++ apply in_or_app. now left.
        -- apply CN. exact TN.
        -- apply CN. exact TN.
      * split; [|reflexivity]. rewrite V3 in D.
        -- rewrite app_nth1 in D by lia. rewrite (G4 i Hi). exact D.
        -- lia.
        -- intros ->. apply E. now rewrite NT.
  - intros x e Hx. apply (In_nth _ _ (EmptyString, Cst 0)) in Hx. destruct Hx as (k & Hk & Ek).
    rewrite combine_length, LUD, Nat.min_id in Hk. fold mU in Hk. rewrite combine_nth in Ek by (symmetry; exact LUD).
    injection Ek as <- <-. pose proof (DQ (n0 + k)%nat ltac:(lia)) as D. rewrite app_nth2 in D by lia.
    replace (n0 + k - length X)%nat with k in D by lia. rewrite (V2 k Hk), CI in D.
    rewrite app_nth2 in D by (rewrite map_length; lia). rewrite map_length in D. replace (n0 + k - length X)%nat with k in D by lia.
    rewrite (nth_indep (map lam U) EmptyString (lam EmptyString)) in D by (rewrite map_length; exact Hk). rewrite (map_nth lam) in D.
    rewrite (eval_diff_fresh fn (lam (nth k U EmptyString))) in D.
    + rewrite Rplus_0_l, Rmult_1_r in D. exact D.
    + apply LN. apply nth_In. exact Hk.
  - exact HI.
  - unfold syms. rewrite map_app. fold (syms (p_states p)). fold (syms (p_costates p1)). rewrite L1. rewrite <- app_assoc. exact HO.
Qed.
Print Assumptions C34_geometric_residual_rate.

(** The linear-quadratic problem x' = u, cost x^2 + u^2, x(tf) = 1, solved by
    exponentials. *)
Definition lq (cost : expr) (ct : list constr) : prob :=
  mkProb "t" [("x"%string, Var "u")] [] [] [] ["u"%string] [] [] [] ct [] []
    (Cst 0) cost (Cst 0) [] [] [] [] None [] true false.
Definition lq_oc : prob := lq (Add (Mul (Var "x") (Var "x")) (Mul (Var "u") (Var "u"))) [plain (Sub (Var "x") (Cst 1))].
Definition lq1 : prob := Eval vm_compute in match dualize lu_gauss "traditional" lq_oc with Ok q => q | Raise _ => lq_oc end.
Definition lq2 : prob := Eval vm_compute in match differential_control lu_gauss "traditional" lq1 with Ok q => q | Raise _ => lq_oc end.
Definition lq_h : expr := Eval vm_compute in dual_ham lq_oc.
Definition lq_curve (s : R) (y : string) : R :=
  if String.eqb y "t" then s else if String.eqb y "x" then exp s else if String.eqb y "u" then exp s
  else if String.eqb y "_lam_x" then -2 * exp s else if String.eqb y "_nu_f_0" then -2 else 0.

Lemma D_exp a t : is_derive (fun s => a * exp s) t (a * exp t).
Proof. auto_derive; [exact I|ring]. Qed.

Example C34_ex :
  dualize lu_gauss "traditional" lq_oc = Ok lq1 /\ differential_control lu_gauss "traditional" lq1 = Ok lq2 /\
  p_ham lq1 = Some lq_h /\ In "u"%string (p_controls lq1) /\
  (forall t, follows ex_fn lq_curve t (p_states lq2) /\ follows ex_fn lq_curve t (p_costates lq2)) /\
  (forall d, In d (p_ct lq2) -> eval ex_fn (lq_curve 0) (c_expr d) = 0) /\
  (forall t, -1 <= t <= 0 -> eval ex_fn (lq_curve t) (diff "u" lq_h) = 0).
Proof.
  assert (A : dualize lu_gauss "traditional" lq_oc = Ok lq1) by (vm_compute; reflexivity).
  assert (B : differential_control lu_gauss "traditional" lq1 = Ok lq2) by (vm_compute; reflexivity).
  assert (F1 : forall t, follows ex_fn lq_curve t (p_states lq2)).
  { intros t y e H. vm_compute in H. destruct H as [H|[H|[]]]; injection H as <- <-;
      apply (is_derive_ext (fun s => 1 * exp s)); try (intros s; unfold lq_curve; simpl; lra);
      match goal with |- is_derive _ _ ?v => replace v with (1 * exp t) by (unfold lq_curve; simpl; field) end; apply D_exp. }
  assert (F2 : forall t, follows ex_fn lq_curve t (p_costates lq2)).
  { intros t y e H. vm_compute in H. destruct H as [H|[]]; injection H as <- <-;
      apply (is_derive_ext (fun s => -2 * exp s)); try (intros s; unfold lq_curve; simpl; lra);
      match goal with |- is_derive _ _ ?v => replace v with (-2 * exp t) by (unfold lq_curve; simpl; field) end; apply D_exp. }
  assert (T : forall d, In d (p_ct lq2) -> eval ex_fn (lq_curve 0) (c_expr d) = 0).
  { intros d H. vm_compute in H. repeat (destruct H as [<-|H]; [unfold lq_curve; simpl; rewrite ?exp_0; lra|]). destruct H. }
  split; [exact A|]. split; [exact B|]. split; [reflexivity|]. split; [now left|].
  split; [intros t; split; [apply F1|apply F2]|]. split; [exact T|]. intros t Ht.
  apply (C34_stationary_everywhere lu_gauss lu_gauss_ok ex_fn ex_smooth "traditional" lq1 lq2 lq_h lq_curve (-1) 0 eq_refl B eq_refl).
  - simpl. repeat constructor; simpl; intuition discriminate.
  - simpl. intuition discriminate.
  - intros s _. split; [simpl; tauto|]. split; [|split; [apply F1|split; [apply F2|split]]].
    + repeat constructor; simpl; lra.
    + apply (is_derive_ext (fun s => s)); [intros; reflexivity|apply D_id].
    + intros y Hy N. simpl in Hy, N. exfalso. intuition.
  - exact T.
  - now left.
  - exact Ht.
Qed.

(** C34 fails when time appears explicitly and was not made a state: the law
    omits the explicit time derivative.  Witness: cost u^2 + t u. *)
Definition te_oc : prob := lq (Add (Mul (Var "u") (Var "u")) (Mul (Var "t") (Var "u"))) [].
Definition te1 : prob := Eval vm_compute in match dualize lu_gauss "traditional" te_oc with Ok q => q | Raise _ => te_oc end.
Definition te2 : prob := Eval vm_compute in match differential_control lu_gauss "traditional" te1 with Ok q => q | Raise _ => te_oc end.
Definition te_curve (s : R) (y : string) : R := if String.eqb y "t" then s else 0.

Theorem C34_explicit_time_refuted : exists p p1 p2 h u fn (c : R -> string -> R),
  dualize lu_gauss "traditional" p = Ok p1 /\ p_ham p1 = Some h /\
  differential_control lu_gauss "traditional" p1 = Ok p2 /\ In u (p_controls p1) /\
  (forall t, follows fn c t (p_states p2) /\ follows fn c t (p_costates p2) /\ c t (p_ind p) = t /\
    wd fn (c t) h /\ Forall (wd fn (c t)) (eoms (p_states p2))) /\
  (forall d, In d (p_ct p2) -> eval fn (c 0) (c_expr d) = 0) /\
  forall t, t < 0 -> eval fn (c t) (diff u h) <> 0.
Proof.
  exists te_oc, te1, te2, (dual_ham te_oc), "u"%string, ex_fn, te_curve.
  split; [vm_compute; reflexivity|]. split; [reflexivity|]. split; [vm_compute; reflexivity|]. split; [now left|].
  split; [|split].
  - intros t. split; [|split; [|split; [reflexivity|split]]].
    + intros y e H. vm_compute in H. destruct H as [H|[H|[]]]; injection H as <- <-;
        match goal with |- is_derive _ _ ?v => replace v with 0 by (unfold te_curve; simpl; field) end;
        apply (is_derive_ext (fun _ => 0)); try (intros s; reflexivity); apply D_const.
    + intros y e H. vm_compute in H. destruct H as [H|[]]; injection H as <- <-;
        match goal with |- is_derive _ _ ?v => replace v with 0 by (unfold te_curve; simpl; field) end;
        apply (is_derive_ext (fun _ => 0)); try (intros s; reflexivity); apply D_const.
    + simpl; tauto.
    + repeat constructor; simpl; lra.
  - intros d H. vm_compute in H. repeat (destruct H as [<-|H]; [unfold te_curve; simpl; lra|]). destruct H.
  - intros t Ht E. unfold te_curve in E. simpl in E. lra.
Qed.
Print Assumptions C34_explicit_time_refuted.

(** C34 fails for the geometric method when time is not the last state: the
    last state is taken for time.  Witness: x' = u, cost x + u^2. *)
Definition gs_oc : prob := lq (Add (Var "x") (Mul (Var "u") (Var "u"))) [].
Definition gs1 : prob := Eval vm_compute in match dualize lu_gauss "diffyg" gs_oc with Ok q => q | Raise _ => gs_oc end.
Definition gs2 : prob := Eval vm_compute in match differential_control lu_gauss "diffyg" gs1 with Ok q => q | Raise _ => gs_oc end.
Definition gs_curve (s : R) (y : string) : R :=
  if String.eqb y "t" then s else if String.eqb y "_lam_x" then -2 + 2 * exp (- s / 2)
  else if String.eqb y "_lam_u" then 2 * s + 4 * exp (- s / 2) else 0.

Theorem C34_geometric_without_shift_refuted : exists p p1 p2 h u fn (c : R -> string -> R),
  dualize lu_gauss "diffyg" p = Ok p1 /\ p_ham p1 = Some h /\
  differential_control lu_gauss "diffyg" p1 = Ok p2 /\ In u (p_controls p1) /\ p_params p = [] /\ ~ In (p_ind p) (vars h) /\
  (forall t, follows fn c t (p_states p2) /\ follows fn c t (p_costates p2) /\ c t (p_ind p) = t /\
    wd fn (c t) h /\ Forall (wd fn (c t)) (eoms (p_states p2) ++ eoms (p_costates p2))) /\
  (forall d, In d (p_ct p2) -> eval fn (c 0) (c_expr d) = 0) /\
  forall t, t < 0 -> eval fn (c t) (diff u h) <> 0.
Proof.
  exists gs_oc, gs1, gs2, (dual_ham gs_oc), "u"%string, ex_fn, gs_curve.
  split; [vm_compute; reflexivity|]. split; [reflexivity|]. split; [vm_compute; reflexivity|]. split; [now left|].
  split; [reflexivity|]. split; [vm_compute; intuition discriminate|].
  split; [|split].
  - intros t. split; [|split; [|split; [reflexivity|split]]].
    + intros y e H. vm_compute in H. destruct H as [H|[H|[]]]; injection H as <- <-;
        match goal with |- is_derive _ _ ?v => replace v with 0 by (unfold gs_curve; simpl; field) end;
        apply (is_derive_ext (fun _ => 0)); try (intros s; reflexivity); apply D_const.
    + intros y e H. vm_compute in H. destruct H as [H|[H|[]]]; injection H as <- <-.
      * match goal with |- is_derive _ _ ?v => replace v with (- exp (- t / 2)) by (unfold gs_curve; simpl; field) end.
        apply (is_derive_ext (fun s => -2 + 2 * exp (- s / 2))); [intros s; reflexivity|]. auto_derive; [exact I|]. unfold Rdiv. field.
      * match goal with |- is_derive _ _ ?v => replace v with (2 - 2 * exp (- t / 2)) by (unfold gs_curve; simpl; field) end.
        apply (is_derive_ext (fun s => 2 * s + 4 * exp (- s / 2))); [intros s; reflexivity|]. auto_derive; [exact I|]. unfold Rdiv. field.
    + simpl; tauto.
    + vm_compute eoms. repeat constructor; simpl; try lra; tauto.
  - intros d H. vm_compute in H. repeat (destruct H as [<-|H]; [unfold gs_curve; simpl; replace (- 0 / 2) with 0 by lra; rewrite ?exp_0; lra|]). destruct H.
  - intros t Ht E. unfold gs_curve in E. simpl in E.
    assert (exp 0 < exp (- t / 2)) by (apply exp_increasing; lra). rewrite exp_0 in *. lra.
Qed.
Print Assumptions C34_geometric_without_shift_refuted.

(** A problem meeting the hypotheses of the geometric theorem: the same
    linear-quadratic problem with time made a state. *)
Definition gt_oc : prob :=
  mkProb "_t" [("x"%string, Var "u"); ("t"%string, Cst 1)] [] [] [] ["u"%string] [] [] [] [plain (Sub (Var "x") (Cst 1))] [] []
    (Cst 0) (Add (Mul (Var "x") (Var "x")) (Mul (Var "u") (Var "u"))) (Cst 0) [] [] [] [] None [] true false.
Definition gt1 : prob := Eval vm_compute in match dualize lu_gauss "diffyg" gt_oc with Ok q => q | Raise _ => gt_oc end.
Definition gt2 : prob := Eval vm_compute in match differential_control lu_gauss "diffyg" gt1 with Ok q => q | Raise _ => gt_oc end.
Definition gt_h : expr := Eval vm_compute in dual_ham gt_oc.
Definition gt_curve (s : R) (y : string) : R :=
  if String.eqb y "_t" then s else if String.eqb y "t" then s + 3 else if String.eqb y "x" then exp s else if String.eqb y "u" then exp s
  else if String.eqb y "_lam_x" then -2 * exp s else 0.
Definition gt_udot : list expr := Eval vm_compute in match control_rates lu_gauss gt1 gt_h with Ok q => q | Raise _ => [] end.

Example C34_geometric_ex :
  dualize lu_gauss "diffyg" gt_oc = Ok gt1 /\ differential_control lu_gauss "diffyg" gt1 = Ok gt2 /\
  p_ham gt1 = Some gt_h /\ length (p_states gt2) = 3%nat /\
  (forall t, follows ex_fn gt_curve t (p_states gt2) /\ follows ex_fn gt_curve t (p_costates gt2)) /\
  forall t, is_derive (fun s => eval ex_fn (gt_curve s) (diff "u" gt_h)) t 0.
Proof.
  assert (A : dualize lu_gauss "diffyg" gt_oc = Ok gt1) by (vm_compute; reflexivity).
  assert (B : differential_control lu_gauss "diffyg" gt1 = Ok gt2) by (vm_compute; reflexivity).
  assert (C : control_rates lu_gauss gt1 gt_h = Ok gt_udot) by (vm_compute; reflexivity).
  assert (F1 : forall t, follows ex_fn gt_curve t (p_states gt2)).
  { intros t y e H. vm_compute in H. destruct H as [H|[H|[H|[]]]]; injection H as <- <-.
    - apply (is_derive_ext (fun s => 1 * exp s)); [intros s; unfold gt_curve; simpl; lra|].
      match goal with |- is_derive _ _ ?v => replace v with (1 * exp t) by (unfold gt_curve; simpl; field) end; apply D_exp.
    - apply (is_derive_ext (fun s => s + 3)); [intros s; reflexivity|].
      match goal with |- is_derive _ _ ?v => replace v with 1 by (unfold gt_curve; simpl; field) end. auto_derive; [exact I|ring].
    - apply (is_derive_ext (fun s => 1 * exp s)); [intros s; unfold gt_curve; simpl; lra|].
      match goal with |- is_derive _ _ ?v => replace v with (1 * exp t) by (unfold gt_curve; simpl; field) end; apply D_exp. }
  assert (F2 : forall t, follows ex_fn gt_curve t (p_costates gt2)).
  { intros t y e H. vm_compute in H. destruct H as [H|[H|[H|[]]]]; injection H as <- <-.
    - apply (is_derive_ext (fun s => -2 * exp s)); [intros s; reflexivity|].
      match goal with |- is_derive _ _ ?v => replace v with (-2 * exp t) by (unfold gt_curve; simpl; field) end; apply D_exp.
    - apply (is_derive_ext (fun _ => 0)); [intros s; reflexivity|].
      match goal with |- is_derive _ _ ?v => replace v with 0 by (unfold gt_curve; simpl; field) end; apply D_const.
    - apply (is_derive_ext (fun _ => 0)); [intros s; reflexivity|].
      match goal with |- is_derive _ _ ?v => replace v with 0 by (unfold gt_curve; simpl; field) end; apply D_const. }
  split; [exact A|]. split; [exact B|]. split; [reflexivity|]. split; [reflexivity|].
  split; [intros t; split; [apply F1|apply F2]|]. intros t.
  assert (G : is_derive (fun s => eval ex_fn (gt_curve s) (diff "u" gt_h)) t (eval ex_fn (gt_curve t) (diff "_t" (diff "u" gt_h)))).
  { apply (C34_geometric_residual_rate lu_gauss lu_gauss_ok ex_fn ex_smooth "diffyg" gt_oc gt1 gt2 gt_h [("x"%string, Var "u")] "t" gt_curve t "u" eq_refl eq_refl eq_refl eq_refl eq_refl A eq_refl B).
    - now left.
    - simpl. repeat constructor; simpl; intuition discriminate.
    - intros y [<-|[<-|[]]]; (split; [simpl; intuition discriminate|]); intros s [<-|[<-|[]]]; simpl; intuition discriminate.
    - intros v [<-|[]]. simpl. intuition discriminate.
    - simpl; tauto.
    - intros _ chi. vm_compute ham_field. intros H. apply Ok_inj in H. subst chi. repeat constructor; simpl; try lra; tauto.
    - intros udot. rewrite C. intros H. apply Ok_inj in H. subst udot. repeat constructor; simpl; try lra; tauto.
    - vm_compute eoms. repeat constructor; simpl; try lra; tauto.
    - apply F1.
    - apply F2.
    - apply (is_derive_ext (fun s => s)); [intros s; reflexivity|apply D_id].
    - intros y Hy N. simpl in Hy, N. exfalso. intuition. }
  rewrite (eval_diff_fresh ex_fn "_t") in G; [exact G|]. intros I. apply vars_diff in I. simpl in I. intuition discriminate.
Qed.
