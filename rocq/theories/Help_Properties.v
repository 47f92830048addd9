(** C94: the initial helper of solve makes the starting guess meet the boundary
    conditions that are written with the constants x_0 and x_f. *)
From Coq Require Import Reals Ranalysis5 Lra Lia.
From Coquelicot Require Import Coquelicot.
From Verif Require Import Base Base_Facts Cont_Model Cont_Spec Cont_Proofs Cont_Warm Cont_Live Cont_Properties.
From Verif Require Import Map_More Sym_Expr Sym_Facts Sym_Model Sym_Constr Sym_Eps Sym_Lu Sym_Dual Sym_Traj Sym_Var Sym_DiffCtl Scale_Model Jac_Model Jac_Proofs Unit_Model Unit_Spec Unit_Proofs Unit_Scale Unit_Properties.
From Verif Require Import Dual_Properties Ctl_Properties Shift_Properties Spbvp_Model Spbvp_Properties Pipe_Model Pipe_Properties.
From Verif Require Import Whole_Proofs Whole_Steps Whole_Geo Whole_Properties Chain_Model Chain_Facts Map_Model Map_Proofs Map_Chain Chain_Back Chain_Proofs Chain_Simpson Chain_Properties.
From Verif Require Import Full_Model Full_Proofs Full_Properties Bound_Proofs.
From Verif Require Import Sym_Constr Guess_Model Guess_Properties Bound_Properties Start_Model Start_Proofs Help_Proofs Start_Properties.
Open Scope string_scope.
Open Scope list_scope.
Open Scope nat_scope.

(** The rows of solve_ivp have the length of the initial state if the rates have. *)
Definition ivp_wide (ivp : (R -> list R -> res (list R)) -> R -> R -> list R -> res (list R * list (list R))) : Prop :=
  forall f t0 tf y0 ts rows, (forall t y d, f t y = Ok d -> length d = length y0) -> ivp f t0 tf y0 = Ok (ts, rows) -> Forall (fun r => length r = length y0) rows.
Definition wide (p' : prob) (s : sol R) : Prop := Forall (fun r => length r = length (p_states p')) (arows (s_y s)).

Lemma generated_wide lu (LU : lu_ok lu) solve fn sm o p fs pre post p1 p' ms nan ivp recon g k x0 T kk s :
  prepared lu solve fn sm o p fs pre post p1 p' ms -> ivp_ok ivp -> ivp_wide ivp -> guess_from o pre p g k x0 T kk ->
  generate_sol fn p' ms nan ivp recon g k = Ok s -> nearly o p' x0 s /\ s_p s = [T] /\ s_k s = kk /\ wide p' s.
Proof.
  intros PR IV IW GF H.
  destruct (generated_nearly lu LU solve fn sm o p fs pre post p1 p' ms nan ivp recon g k x0 T kk PR IV GF) as (s0 & N0 & P0 & K0 & GQ & GA & GN).
  assert (MW : forall u u' a, guess_of o pre p u -> map_sol ROps ms u = Ok (ms, u', a) -> wide p' u').
  { intros u u' a GO MS. destruct (C91_mapped lu LU solve fn sm o p fs pre post p1 p' ms u PR GO) as (v & b & MS' & _ & _ & _ & _ & _ & _ & LY & RO).
    rewrite MS in MS'. injection MS' as <- <-. unfold wide. apply Forall_forall. intros r I. apply In_nth_error in I as (i & E).
    assert (L : i < length (s_t u)) by (rewrite <- LY; apply nth_error_Some; congruence). destruct (RO i L) as (_ & row & E1 & E2 & _). rewrite E in E1. injection E1 as <-. exact E2. }
  destruct (string_dec (g_mode g) "auto") as [A|A].
  - rewrite (GA A) in H. destruct (propagate_nearly lu LU solve fn sm o p p1 p' fs pre post ms nan ivp recon PR IV s0 x0 s N0 H) as (NN & EP & EK).
    split; [exact NN|]. split; [congruence|]. split; [congruence|].
    destruct N0 as (_ & _ & _ & rest & FR & LR). unfold propagate in H. destruct (first_row (s_y s0)) as [y0|] eqn:EY; [|discriminate]. cbn [bind] in H.
    assert (LY0 : length y0 = length (p_states p')).
    { unfold first_row in EY. destruct (s_y s0) as [|c rows]; [discriminate|]. cbn [arows] in FR. destruct rows as [|r rows]; [discriminate|]. cbn in EY, FR. injection EY as <-. injection FR as ->. exact LR. }
    destruct (first_row (s_q s0)); [|discriminate]. cbn [bind] in H. destruct (get _ 0); [|discriminate]. cbn [bind] in H. destruct (get _ _); [|discriminate]. cbn [bind] in H.
    match type of H with bind ?q _ = _ => destruct q as [[ts rs]|] eqn:EI; [|discriminate] end. cbn [bind fst snd] in H. match type of H with bind ?q _ = _ => destruct q; [|discriminate] end. cbn [bind] in H.
    apply Ok_inj in H. subst s. unfold wide. cbn [s_y arows]. rewrite <- LY0. refine (IW _ _ _ _ _ _ _ EI). intros t y d HD. unfold deriv_func in HD. apply call_length in HD. rewrite HD, LY0. unfold eoms. apply map_length.
  - assert (Q := GN A). rewrite H in Q. apply Ok_inj in Q. subst s0. split; [exact N0|]. split; [exact P0|]. split; [exact K0|].
    destruct GF as [x1 SO LK|u x1 GM GI GO FX].
    + destruct (settings_start nan o pre p g x1 k SO LK) as (d & GD & GO & _). unfold generate_sol in H. rewrite GD in H. cbn [bind] in H.
      destruct (C91_mapped lu LU solve fn sm o p fs pre post p1 p' ms _ PR GO) as (s' & a & MS & _). rewrite MS in H. cbn [bind fst snd] in H. apply String.eqb_neq in A. rewrite A in H. apply Ok_inj in H. subst s'. exact (MW _ _ _ GO MS).
    + destruct (C91_mapped lu LU solve fn sm o p fs pre post p1 p' ms u PR GO) as (s' & a & MS & _).
      unfold generate_sol, generate_in_solve, generate in H. rewrite GM in H. cbn [String.eqb Ascii.eqb Bool.eqb bind] in H. rewrite GI in H. cbn [bind] in H. rewrite MS in H. cbn [bind fst snd] in H. apply Ok_inj in H. subst s'. exact (MW _ _ _ GO MS).
Qed.

Lemma nth_last (rows : list (list R)) r : nth_error rows (length rows - 1) = Some r -> rows <> [] /\ last rows [] = r.
Proof.
  intros H. split; [intros Z; rewrite Z in H; discriminate|]. assert (Q : nth (length rows - 1) rows [] = last rows []).
  { clear. induction rows as [|v l IH]; [reflexivity|]. destruct l as [|w l]; [reflexivity|]. cbn [length last] in *. rewrite <- IH. cbn [Nat.sub]. rewrite Nat.sub_0_r. reflexivity. }
  rewrite <- Q. now apply nth_error_nth.
Qed.

(** Every constant named after a state of the user with [_0] has the state's first
    value in the guess that enters the continuation, with [_f] its last value;
    constants named after the independent variable have its first and last value.
    All other constants keep their values. *)
Theorem C94_matched : forall lu, lu_ok lu -> forall solve fn sm o p fs pre post p1 p' ms nan ivp recon g k x0 T kk s,
  prepared lu solve fn sm o p fs pre post p1 p' ms -> ivp_ok ivp -> ivp_wide ivp -> guess_from o pre p g k x0 T kk ->
  NoDup (syms (p_states p) ++ [p_ind p]) -> NoDup (p_consts p) ->
  first_guess fn p p' ms nan ivp recon g k true = Ok s ->
  exists y0 yf, nth_error (arows (s_y s)) 0 = Some y0 /\ nth_error (arows (s_y s)) (length (arows (s_y s)) - 1) = Some yf /\
  length y0 = length (p_states p') /\ length yf = length (p_states p') /\ length (s_k s) = length (p_consts p) /\
  forall j c, nth_error (p_consts p) j = Some c ->
    (forall i x, nth_error (syms (p_states p)) i = Some x -> c = (x ++ "_0")%string -> nth_error (s_k s) j = nth_error y0 i) /\
    (forall i x, nth_error (syms (p_states p)) i = Some x -> c = (x ++ "_f")%string -> nth_error (s_k s) j = nth_error yf i) /\
    (c = (p_ind p ++ "_0")%string -> nth_error (s_k s) j = if o_shift o then nth_error y0 (length (p_states p)) else Some 0%R) /\
    (c = (p_ind p ++ "_f")%string -> nth_error (s_k s) j = if o_shift o then nth_error yf (length (p_states p)) else Some T) /\
    ((forall x, In x (syms (p_states p) ++ [p_ind p]) -> c <> (x ++ "_0")%string /\ c <> (x ++ "_f")%string) -> nth_error (s_k s) j = nth_error kk j).
Proof.
  intros lu LU solve fn sm o p fs pre post p1 p' ms nan ivp recon g k x0 T kk s PR IV IW GF NS NC H.
  unfold first_guess in H. destruct (generate_sol fn p' ms nan ivp recon g k) as [s1|] eqn:E1; [|discriminate]. cbn [bind] in H.
  destruct (generated_wide lu LU solve fn sm o p fs pre post p1 p' ms nan ivp recon g k x0 T kk s1 PR IV IW GF E1) as (N1 & P1 & K1 & W1).
  destruct (helped p ms true s1) as [s2|] eqn:E2; [|discriminate]. cbn [bind] in H.
  destruct (helped_nearly o p p' ms true s1 x0 s2 N1 E2) as (N2 & P2 & _).
  destruct (controls_span lu solve fn sm o p p1 p' fs pre post ms PR s2 x0 s N2 H) as (SP & _ & K3 & T3 & Y3).
  unfold helped in E2. destruct (inv_map_sol ROps ms s1) as [[[ms' r] a]|] eqn:EI; [|discriminate]. cbn [bind fst snd] in E2.
  destruct (match_constants _ _ _ _ _ _) as [k2|] eqn:EM; [|discriminate]. cbn [bind] in E2. apply Ok_inj in E2. subst s2. cbn [Map_Model.set_k s_k s_y s_t] in K3, T3, Y3.
  assert (KR := inv_keeps_k _ _ _ _ _ EI).
  destruct N1 as ((((rows & EY & NE & _) & _ & (_ & _ & SK)) & H0 & H1 & NT) & LY & _ & _). cbn [Map_Model.set_u s_t s_y s_k] in *.
  destruct PR as [A1 A2 A3 A4 A5 A6 CK A7 (B1 & B2 & B3 & B4 & B5) G].
  assert (GEO : geometric o = true -> length (p_controls p) = 1 /\ (p_states p <> [] \/ o_shift o = true)).
  { unfold geometric, differential. intros E. apply andb_true_iff in E. destruct E as [Q1 Q2]. destruct CK as [(OC & _)|(OC & _)]; [rewrite OC in Q1; discriminate|].
    destruct A6 as [M|M]; [rewrite M in Q2; discriminate|]. exact (G OC M). }
  unfold wide in W1. rewrite EY in W1, LY. cbn [arows] in W1, LY.
  destruct (inverse_tops lu LU solve fn sm o p p1 p' fs pre post ms A1 A2 A3 A4 A5 A6 A7 (conj B1 (conj B2 (conj B3 B4))) GEO s1 r ms' a T rows EY W1 P1 EI) as (CC & LE & _ & TT & TY).
  rewrite Y3, EY. cbn [arows]. rewrite TY in EM. cbn [arows] in EM.
  assert (R0 : exists y0, nth_error rows 0 = Some y0) by (destruct rows as [|y0 rows]; [contradiction|now exists y0]). destruct R0 as (y0 & R0).
  assert (RF : exists yf, nth_error rows (length rows - 1) = Some yf) by (destruct (nth_error rows (length rows - 1)) eqn:E; [eauto|]; apply nth_error_None in E; destruct rows; [contradiction|cbn in E; lia]). destruct RF as (yf & RF).
  exists y0, yf. split; [exact R0|]. split; [exact RF|].
  assert (L0 : length y0 = length (p_states p')) by (rewrite Forall_forall in W1; apply W1; exact (nth_error_In _ _ R0)).
  assert (LF : length yf = length (p_states p')) by (rewrite Forall_forall in W1; apply W1; exact (nth_error_In _ _ RF)).
  split; [exact L0|]. split; [exact LF|].
  set (n := length (p_states p)) in *. assert (LN : length (syms (p_states p)) = n) by (unfold syms, n; apply map_length).
  assert (TE : exists t0 tf, nth_error (s_t r) 0 = Some t0 /\ nth_error (s_t r) (length (s_t r) - 1) = Some tf /\
    (if o_shift o then nth_error y0 n = Some t0 /\ nth_error yf n = Some tf else t0 = 0%R /\ tf = T)).
  { rewrite TT. destruct (o_shift o).
    - exists (nth n y0 0%R), (nth n yf 0%R). rewrite map_length, !nth_error_map, R0, RF. cbn. split; [reflexivity|]. split; [reflexivity|]. split; apply nth_error_nth'; lia.
    - exists (0 * T)%R, (1 * T)%R. rewrite map_length, !nth_error_map. split; [destruct (s_t s1); [contradiction|cbn in H0 |- *; now subst]|]. split; [|split; ring].
      rewrite (nth_error_nth' _ 0%R) by (destruct (s_t s1); [contradiction|cbn; lia]). rewrite last_nth, H1. reflexivity. }
  destruct TE as (t0 & tf & TE0 & TEF & TV).
  destruct (C57_matched R (syms (p_states p)) (p_ind p) (p_consts p) (s_t r) (map (firstn n) rows) (s_k r) (firstn n y0) (firstn n yf) t0 tf NS NC) as (k3 & EM' & L3 & MM).
  { rewrite KR, SK, CC. reflexivity. }
  { now rewrite nth_error_map, R0. }
  { now rewrite map_length, nth_error_map, RF. }
  { exact TE0. }
  { exact TEF. }
  { rewrite firstn_length, LN. lia. }
  { rewrite firstn_length, LN. lia. }
  rewrite EM in EM'. apply Ok_inj in EM'. subst k3. rewrite K3. split; [rewrite L3, KR, SK, CC; reflexivity|].
  intros j c J. destruct (MM j c J) as (M1 & M2 & M3 & M4 & M5).
  assert (FN : forall (y : list R) i x, nth_error (syms (p_states p)) i = Some x -> nth_error (firstn n y) i = nth_error y i).
  { intros y i x E. assert (I : i < n) by (rewrite <- LN; apply nth_error_Some; congruence). clear - I. revert y i I. induction n as [|m IH]; intros y i I; [lia|]. destruct y as [|v y]; [now destruct i|]. destruct i; [reflexivity|]. cbn. apply IH. lia. }
  split; [intros i x E C; rewrite (M1 i x E C); exact (FN y0 i x E)|]. split; [intros i x E C; rewrite (M2 i x E C); exact (FN yf i x E)|].
  split; [intros C; rewrite (M3 C); destruct (o_shift o); destruct TV as [V1 V2]; [now rewrite V1|now rewrite V1]|].
  split; [intros C; rewrite (M4 C); destruct (o_shift o); destruct TV as [V1 V2]; [now rewrite V2|now rewrite V2]|].
  intros C. rewrite (M5 C), KR, K1. reflexivity.
Qed.
Print Assumptions C94_matched.

Lemma env_pos names vals i x : NoDup names -> nth_error names i = Some x -> env names vals x = nth i vals 0%R.
Proof. intros ND E. unfold env. now rewrite (index_of_NoDup _ names i ND E). Qed.
(** The last group of a call: the constants. *)
Lemma env_const names consts vals k j c : NoDup (names ++ consts) -> length vals = length names -> nth_error consts j = Some c -> env (names ++ consts) (vals ++ k) c = nth j k 0%R.
Proof.
  intros ND L E. rewrite (env_pos _ _ (length names + j) c ND); [rewrite <- L; rewrite app_nth2 by lia; f_equal; lia|].
  rewrite nth_error_app2 by lia. rewrite <- E. f_equal. lia.
Qed.
Lemma fits_lengths groups vals : fits groups vals = true -> length (concat vals) = length (concat groups).
Proof.
  unfold fits. revert vals. induction groups as [|g groups IH]; intros [|v vals] H; [reflexivity|discriminate|discriminate|]. cbn [length combine forallb Nat.eqb fst snd concat] in *.
  apply andb_true_iff in H as [A B]. apply andb_true_iff in B as [B C]. apply Nat.eqb_eq in B. rewrite !app_length, B. f_equal. apply IH. now rewrite A, C.
Qed.

Lemma NoDup_app_remove_mid {A} (a b c : list A) : NoDup (a ++ b ++ c) -> NoDup (a ++ c).
Proof. induction b as [|x b IH]; intros H; [exact H|]. apply IH. cbn [app] in H. now apply NoDup_remove_1 in H. Qed.
(** Fixing a state at the end with a constant: [e] is the state minus the constant. *)
Definition fixes (fn : string -> nat -> R -> R) (x c : string) (e : expr) : Prop := forall rho, eval fn rho e = (rho x - rho c)%R.

(** The residual of such a condition in a call. *)
Lemma fixed_residual fn names mid consts (y : list R) vmid k es r j e i x jc c :
  call fn ([names] ++ mid ++ [consts]) es ([y] ++ vmid ++ [k]) = Ok r -> NoDup (concat ([names] ++ mid ++ [consts])) -> length k = length consts ->
  nth_error es j = Some e -> fixes fn x c e -> nth_error names i = Some x -> nth_error consts jc = Some c -> nth_error k jc = nth_error y i -> nth_error r j = Some 0%R.
Proof.
  intros H ND LK EJ FX EX EC EQ. unfold call in H. destruct (fits _ _) eqn:FI; [|discriminate]. destruct (forallb _ _); [|discriminate]. apply Ok_inj in H. subst r.
  rewrite nth_error_map, EJ. cbn [option_map]. rewrite FX. f_equal. apply fits_lengths in FI.
  assert (JL : jc < length k) by (rewrite LK; apply nth_error_Some; congruence).
  rewrite (env_pos _ _ i x ND) by (cbn [concat app]; rewrite nth_error_app1; [exact EX|apply nth_error_Some; congruence]).
  assert (XY : nth i (concat ([y] ++ vmid ++ [k])) 0%R = nth jc k 0%R).
  { assert (IL : i < length y) by (apply nth_error_Some; rewrite <- EQ; apply nth_error_Some; exact JL). cbn [concat app]. rewrite app_nth1 by exact IL.
    apply nth_error_nth. rewrite <- EQ. now apply nth_error_nth'. }
  rewrite XY. cbn [concat app] in *. rewrite !concat_app in *. cbn [concat] in *. rewrite !app_nil_r in *. rewrite !app_assoc in *.
  rewrite (env_const _ consts _ k jc c ND); [ring| |exact EC]. rewrite !app_length in *. lia.
Qed.

(** With the helper, the conditions that fix a state at the start with the constant
    named after it with [_0] and at the end with [_f] have residual zero at the
    starting guess, wherever they stand among the conditions of the boundary value
    problem. *)
Theorem C94_conditions : forall lu, lu_ok lu -> forall solve fn sm o p fs pre post p1 p' ms nan ivp recon g k x0 T kk s q0 qf,
  prepared lu solve fn sm o p fs pre post p1 p' ms -> ivp_ok ivp -> ivp_wide ivp -> guess_from o pre p g k x0 T kk ->
  NoDup (syms (p_states p) ++ [p_ind p]) -> NoDup (concat (bc_groups p' true)) ->
  first_guess fn p p' ms nan ivp recon g k true = Ok s ->
  exists y0 yf, nth_error (arows (s_y s)) 0 = Some y0 /\ nth_error (arows (s_y s)) (length (arows (s_y s)) - 1) = Some yf /\
  forall r, bc_func fn p' (law_control fn p') y0 q0 yf qf (s_p s) (s_nu s) (s_k s) = Ok r ->
    forall x, In x (syms (p_states p)) ->
    (forall j e, In (x ++ "_0")%string (p_consts p) -> nth_error (map c_expr (p_ci p')) j = Some e -> fixes fn x (x ++ "_0") e -> nth_error r j = Some 0%R) /\
    (forall j e, In (x ++ "_f")%string (p_consts p) -> nth_error (map c_expr (p_ct p')) j = Some e -> fixes fn x (x ++ "_f") e -> nth_error r (length (p_ci p') + j) = Some 0%R).
Proof.
  intros lu LU solve fn sm o p fs pre post p1 p' ms nan ivp recon g k x0 T kk s q0 qf PR IV IW GF NS ND H.
  assert (NMS : p_consts p' = p_consts p /\ exists rest, syms (p_states p') = syms (p_states p) ++ rest).
  { unfold first_guess in H. destruct (generate_sol fn p' ms nan ivp recon g k) as [s1|] eqn:E1; [|discriminate]. cbn [bind] in H.
    destruct (generated_wide lu LU solve fn sm o p fs pre post p1 p' ms nan ivp recon g k x0 T kk s1 PR IV IW GF E1) as (N1 & P1 & K1 & W1).
    unfold helped in H. destruct (inv_map_sol ROps ms s1) as [[[ms' r] a]|] eqn:EI; [|discriminate].
    destruct N1 as ((((rows & EY & NE & _) & _ & (_ & _ & SK)) & H0 & H1 & NT) & LY & _ & _). cbn [Map_Model.set_u s_t s_y s_k] in *.
    destruct PR as [A1 A2 A3 A4 A5 A6 CK A7 (B1 & B2 & B3 & B4 & B5) G].
    assert (GEO : geometric o = true -> length (p_controls p) = 1 /\ (p_states p <> [] \/ o_shift o = true)).
    { unfold geometric, differential. intros E. apply andb_true_iff in E. destruct E as [Q1 Q2]. destruct CK as [(OC & _)|(OC & _)]; [rewrite OC in Q1; discriminate|].
      destruct A6 as [M|M]; [rewrite M in Q2; discriminate|]. exact (G OC M). }
    unfold wide in W1. rewrite EY in W1. cbn [arows] in W1.
    destruct (inverse_tops lu LU solve fn sm o p p1 p' fs pre post ms A1 A2 A3 A4 A5 A6 A7 (conj B1 (conj B2 (conj B3 B4))) GEO s1 r ms' a T rows EY W1 P1 EI) as (CC & _ & (rest & SN) & _).
    split; [exact CC|]. eexists. exact SN. }
  destruct NMS as (CC & rest & SN).
  assert (GR : forall b, exists mid, bc_groups p' b = [syms (p_states p')] ++ mid ++ [p_consts p'] /\ forall y q u pp pc kc, (b = true <-> u <> None) -> exists vmid, bc_vals p' y q u pp pc kc = [y] ++ vmid ++ [kc]).
  { intros b. exists ((if with_quads p' then [quads p'] else []) ++ (if b then [p_controls p'] else []) ++ [p_params p'; p_cpars p']). split.
    - unfold bc_groups, states. destruct (with_quads p'), b; reflexivity.
    - intros y q u pp pc kc _. exists ((if with_quads p' then [q] else []) ++ (match u with Some u => [u] | None => [] end) ++ [pp; pc]). unfold bc_vals. destruct (with_quads p'), u; reflexivity. }
  assert (NDB : forall b, NoDup (concat (bc_groups p' b))).
  { intros b. destruct b; [exact ND|]. unfold bc_groups in *. revert ND. generalize (states p'). intros l.
    cbn [app concat]. destruct (with_quads p'); cbn [app concat]; intros ND.
    - rewrite app_assoc in ND |- *. apply (NoDup_app_remove_mid _ _ _ ND).
    - apply (NoDup_app_remove_mid _ _ _ ND). }
  assert (NC : NoDup (p_consts p)).
  { destruct (GR true) as (mid & E & _). rewrite E in ND. cbn [app concat] in ND. rewrite concat_app in ND. cbn [concat] in ND. rewrite app_nil_r, app_assoc, CC in ND. clear - ND. revert ND. generalize (syms (p_states p') ++ concat mid). intros l. induction l as [|v l IH]; intros ND; [exact ND|]. apply IH. now inversion ND. }
  destruct (C94_matched lu LU solve fn sm o p fs pre post p1 p' ms nan ivp recon g k x0 T kk s PR IV IW GF NS NC H) as (y0 & yf & R0 & RF & L0 & LF & LK & MM).
  exists y0, yf. split; [exact R0|]. split; [exact RF|]. intros r HR x IX. apply In_nth_error in IX as (i & EX).
  assert (EX' : nth_error (syms (p_states p')) i = Some x) by (rewrite SN, nth_error_app1; [exact EX|apply nth_error_Some; congruence]).
  unfold bc_func in HR. match type of HR with bind ?q _ = _ => destruct q as [b0|] eqn:C0; [|discriminate] end. cbn [bind] in HR. match type of HR with bind ?q _ = _ => destruct q as [bf|] eqn:CF; [|discriminate] end. cbn [bind] in HR. apply Ok_inj in HR. subst r.
  assert (LB : length b0 = length (p_ci p')).
  { clear - C0. unfold call in C0. destruct (fits _ _); [|discriminate]. destruct (forallb _ _); [|discriminate]. apply Ok_inj in C0. subst b0. unfold bc_exprs. now rewrite !map_length. }
  set (b := match law_control fn p' with Some _ => true | None => false end) in *. destruct (GR b) as (mid & EG & EV). assert (NB := NDB b). rewrite EG in C0, CF, NB.
  assert (UB : forall y pp kc, b = true <-> match law_control fn p' with Some f => Some (f y pp kc) | None => None end <> None) by (intros; unfold b; destruct (law_control fn p'); split; congruence).
  split; intros j e IC EJ FX; apply In_nth_error in IC as (jc & EC).
  - destruct (EV y0 q0 _ (s_p s) (s_nu s) (s_k s) (UB y0 (s_p s) (s_k s))) as (vmid & EVV). rewrite EVV in C0.
    rewrite nth_error_app1 by (rewrite LB, <- (map_length c_expr); apply nth_error_Some; congruence).
    refine (fixed_residual fn _ mid _ y0 vmid (s_k s) _ b0 j e i x jc _ C0 NB _ EJ FX EX' _ _); [now rewrite CC|now rewrite CC|].
    destruct (MM jc _ EC) as (M1 & _). exact (M1 i x EX eq_refl).
  - destruct (EV yf qf _ (s_p s) (s_nu s) (s_k s) (UB yf (s_p s) (s_k s))) as (vmid & EVV). rewrite EVV in CF.
    rewrite nth_error_app2 by (rewrite LB; lia). rewrite LB. replace (length (p_ci p') + j - length (p_ci p')) with j by lia.
    refine (fixed_residual fn _ mid _ yf vmid (s_k s) _ bf j e i x jc _ CF NB _ EJ FX EX' _ _); [now rewrite CC|now rewrite CC|].
    destruct (MM jc _ EC) as (_ & M2 & _). exact (M2 i x EX eq_refl).
Qed.
Print Assumptions C94_conditions.

(** ** A case: one Euler step from x = 3; the constants x_0 and x_f are matched, g is
    not.  The guess then meets both boundary conditions. *)
Definition hp_p : prob :=
  mkProb "t" [("x", Var "u")] [] [] [] ["u"] [] [plain (Sub (Var "x") (Var "x_0"))] [] [plain (Sub (Var "x") (Var "x_f"))] [] []
    (Cst 0) (Add (Var "g") (Mul (Var "u") (Var "u"))) (Cst 0) ["x_f"; "g"; "x_0"; "t_f"] [] [] [] None [] true false.
Definition hp_b : prob := Eval vm_compute in go_bvp go_alg hp_p.
Lemma hp_prepared : prepared lu_gauss (solve_linear lu_gauss) ex_fn scipy_simpson go_alg hp_p (go_tfs go_alg hp_p) [] [FAlg; FNorm; FSquash] hp_p hp_b (go_ms go_alg hp_p).
Proof.
  apply mkPrepared.
  - reflexivity.
  - reflexivity.
  - reflexivity.
  - apply go_chain. vm_compute. reflexivity.
  - reflexivity.
  - left. reflexivity.
  - left. split; [reflexivity|]. split; [discriminate|]. split.
    + intros cand e x I J V. cbn in I. destruct I as [ <-|[]]. cbn in J. destruct J as [ <-|[]]. cbn in V. repeat (destruct V as [ <-|V]; [cbn; tauto|]). destruct V.
    + intros h x H I. injection H as <-. cbn in I. repeat (destruct I as [ <-|I]; [cbn; tauto|]). destruct I.
  - reflexivity.
  - repeat split.
  - discriminate.
Qed.
Lemma euler_wide : ivp_wide euler.
Proof.
  intros f t0 tf y0 ts rows L H. unfold euler in H. destruct (f t0 y0) as [d|] eqn:E; [|discriminate]. cbn [bind] in H. injection H as <- <-. specialize (L _ _ _ E). constructor; [reflexivity|constructor; [|constructor]].
  clear - L. revert d L. induction y0 as [|v y IH]; intros [|w d] L; try discriminate; [reflexivity|]. cbn [map2 length]. f_equal. apply IH. now injection L.
Qed.
Example C94_ex nan recon : prepared lu_gauss (solve_linear lu_gauss) ex_fn scipy_simpson go_alg hp_p (go_tfs go_alg hp_p) [] [FAlg; FNorm; FSquash] hp_p hp_b (go_ms go_alg hp_p) /\
  ivp_ok euler /\ ivp_wide euler /\ guess_from go_alg [] hp_p (plain_gen "auto" [3]%R) [7; 8; 9; 5]%R [3]%R (tspan_end ROps (plain_gen "auto" [3]%R)) [7; 8; 9; 5]%R /\
  NoDup (syms (p_states hp_p) ++ [p_ind hp_p]) /\ NoDup (p_consts hp_p) /\ NoDup (concat (bc_groups hp_b true)) /\
  exists s, first_guess ex_fn hp_p hp_b (go_ms go_alg hp_p) nan euler recon (plain_gen "auto" [3]%R) [7; 8; 9; 5]%R true = Ok s /\
  s_y s = Mat 2 [[3; 1 / 10]; [3 - 1 / 20; 1 / 10]]%R /\ s_k s = [3 - 1 / 20; 8; 3; 1]%R /\
  exists e0 e1, nth_error (map c_expr (p_ci hp_b)) 0 = Some e0 /\ fixes ex_fn "x" "x_0" e0 /\ nth_error (map c_expr (p_ct hp_b)) 0 = Some e1 /\ fixes ex_fn "x" "x_f" e1 /\
  exists r, bc_func ex_fn hp_b (law_control ex_fn hp_b) [3; 1 / 10]%R [] [3 - 1 / 20; 1 / 10]%R [] (s_p s) (s_nu s) (s_k s) = Ok r /\ nth_error r 0 = Some 0%R /\ nth_error r (length (p_ci hp_b)) = Some 0%R.
Proof.
  split; [exact hp_prepared|]. split; [exact euler_ok|]. split; [exact euler_wide|]. split.
  { apply from_settings; [|reflexivity]. apply (C91_settings go_alg [] hp_p "auto" (just_start [3]%R) (plain_gen "auto" [3]%R) [3]%R); [apply plain_gen_ok; now left|reflexivity|reflexivity|now left|exact I|reflexivity|left; split; [reflexivity|tauto]]. }
  split; [names|]. split; [names|]. split; [names|].
  assert (Q : exists s, first_guess ex_fn hp_p hp_b (go_ms go_alg hp_p) nan euler recon (plain_gen "auto" [3]%R) [7; 8; 9; 5]%R true = Ok s /\
    s_y s = Mat 2 [[3; 1 / 10]; [3 - 1 / 20; 1 / 10]]%R /\ s_k s = [3 - 1 / 20; 8; 3; 1]%R /\ s_p s = [1]%R /\ s_nu s = [1; 1]%R).
  { let t := eval lazy -[Rplus Rmult Rminus Rdiv Ropp Rinv IZR Rabs] in (first_guess ex_fn hp_p hp_b (go_ms go_alg hp_p) nan euler recon (plain_gen "auto" [3]%R) [7; 8; 9; 5]%R true) in
    match t with Ok ?s => exists s; split; [vm_cast_no_check (@eq_refl (res (sol R)) (Ok s))|] end. cbn [s_y s_k s_p s_nu]. rewrite Rabs_R1.
    split; [f_equal; f_equal; [f_equal; f_equal; field|]; f_equal; f_equal; [field|]; f_equal; field|].
    split; [f_equal; [field|]; do 3 f_equal; field|]. split; [f_equal; ring|]. reflexivity. }
  destruct Q as (s & E1 & E2 & E3 & E4 & E5). exists s. split; [exact E1|]. split; [exact E2|]. split; [exact E3|]. rewrite E3, E4, E5.
  eexists. eexists. split; [reflexivity|]. split; [intros rho; cbn; ring|]. split; [reflexivity|]. split; [intros rho; cbn; ring|].
  eexists. split; [lazy -[Rplus Rmult Rminus Rdiv Ropp Rinv IZR]; reflexivity|]. split; [cbn; f_equal; ring|cbn; f_equal; ring].
Qed.
