(** The geometric differential control law: on curves along which the control is
    stationary its flow is the flow of the derived equations. *)
From Coq Require Import Reals Lra FunctionalExtensionality.
From Coquelicot Require Import Coquelicot.
From Verif Require Import Base Base_Facts Map_Model Map_Proofs Map_More Sym_Expr Sym_Facts Sym_Model Sym_Lu Sym_Dual Sym_Traj Sym_Var Sym_DiffCtl Dual_Properties Ctl_Properties.
Open Scope string_scope.
Open Scope list_scope.
Open Scope nat_scope.

(** The row of the time variable. *)
Lemma ham_field_time_row lu (LU : lu_ok lu) h qs ls m ind udot chi :
  let n := length qs in
  length ls = n -> m + ind < n -> length udot = m ->
  ham_field lu h (omega_new n m ind udot) (qs ++ ls) = Ok chi ->
  forall fn rho, Forall (wd fn rho) chi ->
    eval fn rho (nth (n + ind) chi (Cst 0)) = (- eval fn rho (diff (nth ind qs EmptyString) h) +
      rsum (map (fun k => eval fn rho (nth k udot (Cst 0)) * eval fn rho (nth (2 * n - m + k) chi (Cst 0))) (seq 0 m)))%R.
Proof.
  intros n HL HM LUD H fn rho W. unfold ham_field in H.
  destruct (omega_entries (2 * n) n m ind udot eq_refl HM ltac:(lia)) as [[SQ1 SQ2] _].
  set (om := omega_new n m ind udot) in *. rewrite SQ1 in H.
  destruct (Nat.odd (2 * n)); [discriminate|].
  destruct (lu om (map (fun b => diff b h) (qs ++ ls))) as [x|] eqn:E; cbn [bind] in H; [|discriminate].
  assert (EC : chi = map Opp x) by congruence. clear H.
  assert (LB : length (map (fun b => diff b h) (qs ++ ls)) = 2 * n).
  { rewrite map_length, app_length. unfold n in *. lia. }
  assert (HA : length om = length (map (fun b => diff b h) (qs ++ ls))) by lia.
  assert (HB : Forall (fun row => length row = length (map (fun b => diff b h) (qs ++ ls))) om).
  { apply Forall_forall. intros row Hr. apply (In_nth _ _ []) in Hr. destruct Hr as (i & Hi & <-). rewrite LB. apply SQ2. lia. }
  destruct (LU _ _ _ HA HB E) as [Lx V].
  rewrite LB in Lx.
  assert (WX : Forall (wd fn rho) x).
  { rewrite EC in W. rewrite Forall_map in W. exact W. }
  specialize (V fn rho WX).
  assert (RW : rdot (map (eval fn rho) (nth ind om [])) (map (eval fn rho) x) = eval fn rho (diff (nth ind (qs ++ ls) EmptyString) h)).
  { assert (G : forall (A : list (list expr)) b k, Forall2 (fun row bi => rdot (map (eval fn rho) row) (map (eval fn rho) x) = eval fn rho bi) A b ->
       k < length A -> rdot (map (eval fn rho) (nth k A [])) (map (eval fn rho) x) = eval fn rho (nth k b (Cst 0))).
    { clear. intros A b k F. revert k. induction F; intros [|k] Hk; simpl in *; try lia; auto. apply IHF. lia. }
    rewrite (G _ _ _ V) by lia.
    rewrite (nth_indep _ (Cst 0) (diff EmptyString h)) by (rewrite LB; lia).
    now rewrite (map_nth (fun b => diff b h)). }
  assert (NX : forall k, nth k (map (eval fn rho) x) 0%R = eval fn rho (nth k x (Cst 0))).
  { intros k. rewrite <- (map_nth (eval fn rho)). reflexivity. }
  assert (NC : forall k, k < 2 * n -> eval fn rho (nth k chi (Cst 0)) = (- eval fn rho (nth k x (Cst 0)))%R).
  { intros k Hk. rewrite EC. rewrite (nth_indep _ (Cst 0) (Opp (Cst 0))) by (rewrite map_length; lia).
    now rewrite (map_nth Opp). }
  unfold om in RW. rewrite (omega_dot fn rho n m ind udot (map (eval fn rho) x) ind HM LUD) in RW by (rewrite ?map_length; lia).
  destruct (Nat.ltb_spec ind n); [|lia]. rewrite Nat.eqb_refl, NX, app_nth1 in RW by (fold n; lia). rewrite NC by lia.
  rewrite (rsum_ext _ (fun k => - (eval fn rho (nth k udot (Cst 0)) * nth (2 * n - m + k) (map (eval fn rho) x) 0))%R).
  - rewrite rsum_opp, (Nat.add_comm n ind). rewrite <- RW. lra.
  - intros k Hk. apply in_seq in Hk. rewrite NC by lia. rewrite NX. lra.
Qed.

Lemma geo_follows lu (LU : lu_ok lu) fn m p p1 p2 h pre tau c t :
  lower m = "diffyg"%string -> p_states p = pre ++ [(tau, Cst 1)] -> p_params p = [] ->
  p_costates p = [] -> p_coparams p = [] ->
  dualize lu m p = Ok p1 -> p_ham p1 = Some h -> differential_control lu m p1 = Ok p2 ->
  let X := syms (p_states p) in let U := p_controls p in
  NoDup X -> costates_new p -> field_defined lu fn m p h (c t) ->
  Forall (wd fn (c t)) (eoms (p_states p2) ++ eoms (p_costates p2)) ->
  follows fn c t (p_states p2) -> follows fn c t (p_costates p2) ->
  (forall u, In u U -> eval fn (c t) (diff u h) = 0%R) ->
  follows fn c t (p_states p) /\ follows fn c t (p_costates p1).
Proof.
  intros M EP NP E1 E2 HD HH HDC X U NDX CN FD WC FS FC ST.
  destruct (dualize_diffyg lu LU m p p1 HD M E1 E2) as (DO & C2 & chi1 & rates & G1 & G2 & G3 & G4).
  assert (EH : h = dual_ham p) by (pose proof (d_ham _ _ _ DO); congruence).
  rewrite NP, app_nil_r in *. cbn [length Nat.add] in G4.
  assert (LX : length X = length (p_states p)) by (unfold X, syms; apply map_length).
  fold X in G1, G3, G4. rewrite LX in G1.
  unfold field_defined in FD. rewrite EH in FD. specialize (FD M chi1 G1). specialize (G4 fn (c t) FD). rewrite <- EH in G4. 
  destruct (diffctl_diffyg lu m p1 p2 HDC M) as (h' & udot & chi & H1 & H2 & H3 & _).
  assert (h' = h) by congruence. subst h'.
  assert (S1 : p_states p1 = p_states p) by apply (d_states _ _ _ DO).
  assert (U1 : p_controls p1 = U) by apply (d_controls _ _ _ DO).
  assert (L1 : syms (p_costates p1) = map lam X) by apply (d_lams _ _ _ DO).
  destruct (udot_values lu LU h (p_controls p1) (p_states p1 ++ p_costates p1) udot H2) as [LUD _].
  specialize (H3 LUD). cbv zeta in H3. rewrite S1, U1, L1 in H3. rewrite U1 in LUD. 
  set (n0 := length (p_states p)) in *. set (mU := length U) in *. fold X in H3.
  destruct H3 as (HF & HS2 & HC2).
  assert (N0 : (0 < n0)%nat) by (unfold n0; rewrite EP, app_length; simpl; lia).
  assert (LQ : length (X ++ U) = (n0 + mU)%nat) by (rewrite app_length, LX; reflexivity).
  assert (LL : length (map lam X ++ map lam U) = length (X ++ U)) by (rewrite !app_length, !map_length; reflexivity).
  assert (HF' := HF). rewrite <- LQ in HF'.
  destruct (ham_field_extended lu LU h (X ++ U) (map lam X ++ map lam U) mU (n0 - 1) udot chi LL ltac:(lia) LUD HF') as [LC V].
  assert (TR := ham_field_time_row lu LU h (X ++ U) (map lam X ++ map lam U) mU (n0 - 1) udot chi LL ltac:(lia) LUD HF').
  clear HF'. rewrite LQ in LC, V, TR.
  assert (WCHI : Forall (wd fn (c t)) chi).
  { rewrite HS2, HC2 in WC. unfold eoms in WC.
    assert (SN : forall (l : list string) (r : list expr), length l = length r -> map snd (combine l r) = r).
    { clear. induction l as [|a l IH]; intros [|e r] H; try discriminate; [reflexivity|]. simpl. f_equal. apply IH. simpl in H. congruence. }
    rewrite !SN in WC by (rewrite ?firstn_length, ?skipn_length; lia).
    rewrite firstn_skipn in WC. exact WC. }
  specialize (V fn (c t) WCHI). specialize (TR fn (c t) WCHI). destruct V as (V1 & V2 & V3).
  replace (n0 + mU - mU)%nat with n0 in V1, V2 by lia.
  assert (DQ : forall i, (i < n0 + mU)%nat -> is_derive (fun s => c s (nth i (X ++ U) EmptyString)) t (eval fn (c t) (nth i chi (Cst 0)))).
  { intros i Hi. rewrite HS2 in FS. pose proof (follows_combine fn c t (X ++ U) (firstn (n0 + mU) chi) i FS) as G.
    rewrite nth_firstn' in G by exact Hi. apply G; [rewrite firstn_length; lia|lia]. }
  assert (DL : forall i, (i < n0 + mU)%nat -> is_derive (fun s => c s (nth i (map lam X ++ map lam U) EmptyString)) t (eval fn (c t) (nth (n0 + mU + i) chi (Cst 0)))).
  { intros i Hi. rewrite HC2 in FC. pose proof (follows_combine fn c t (map lam X ++ map lam U) (skipn (n0 + mU) chi) i FC) as G.
    rewrite nth_skipn' in G. apply G; [rewrite skipn_length; lia|lia]. }
  assert (NL : forall i, (i < n0)%nat -> nth i (map lam X ++ map lam U) EmptyString = lam (nth i X EmptyString)).
  { intros i Hi. rewrite app_nth1 by (rewrite map_length; lia).
    rewrite (nth_indep _ EmptyString (lam EmptyString)) by (rewrite map_length; lia). now rewrite (map_nth lam). }
  assert (HLAM : forall x f, In (x, f) (p_states p) -> eval fn (c t) (diff (lam x) h) = eval fn (c t) f).
  { intros x f Hs. rewrite EH. apply dual_ham_diff_lam; [exact NDX|exact Hs| |]; apply CN; unfold syms; apply (in_map fst) in Hs; exact Hs. }
  split.
  - intros x f Hs. assert (Is := Hs). apply (In_nth _ _ (EmptyString, Cst 0)) in Hs. destruct Hs as (i & Hi & Es). fold n0 in Hi.
    assert (NX : nth i X EmptyString = x).
    { unfold X, syms. change EmptyString with (fst (EmptyString, Cst 0)). rewrite (map_nth fst), Es. reflexivity. }
    pose proof (DQ i ltac:(lia)) as D. rewrite app_nth1 in D by lia. rewrite V1 in D by exact Hi. rewrite NL in D by exact Hi. rewrite NX in D. 
    rewrite (HLAM x f Is) in D. exact D.
  - intros x e Hs. rewrite G3 in Hs. apply (In_nth _ _ (lam EmptyString, Cst 0)) in Hs. destruct Hs as (i & Hi & Es).
    rewrite combine_length, map_length, LX, G2, Nat.min_id in Hi. fold n0 in Hi.
    rewrite combine_nth in Es by (rewrite map_length, LX; symmetry; exact G2). rewrite (map_nth lam) in Es. injection Es as <- <-.
    pose proof (DL i ltac:(lia)) as D. rewrite NL in D by exact Hi. rewrite (G4 i Hi).
    destruct (Nat.eq_dec i (n0 - 1)) as [ ->|Ni].
    + rewrite TR in D. rewrite app_nth1 in D by lia. rewrite rsum_zero in D; [rewrite Rplus_0_r in D; exact D|].
      intros k Hk. apply in_seq in Hk. replace (2 * (n0 + mU) - mU + k) with (n0 + mU + (n0 + k)) by lia. rewrite V3 by lia.
      rewrite app_nth2 by lia. replace (n0 + k - length X) with k by lia. rewrite ST by (apply nth_In; unfold mU in Hk; lia). ring.
    + rewrite V3 in D by lia. rewrite app_nth1 in D by lia. exact D.
Qed.
