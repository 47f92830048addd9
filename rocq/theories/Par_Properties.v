(** C93: unknown parameters of the optimal control problem. *)
From Coq Require Import Reals Lra FunctionalExtensionality Permutation.
From Coquelicot Require Import Coquelicot.
From Verif Require Import Base Base_Facts Map_Model Map_Proofs Map_More Sym_Expr Sym_Facts Sym_Model Sym_Lu Sym_Dual Sym_Traj Sym_Var Sym_DiffCtl Jac_Model Jac_Proofs Jac_Properties Unit_Model Unit_Spec Unit_Proofs Unit_Steps Unit_Scale Unit_Properties Dual_Properties Ctl_Properties Count_Properties Shift_Properties Whole_Proofs Whole_Steps Whole_Geo Whole_Properties Par_Proofs.
Open Scope string_scope.
Open Scope list_scope.
Open Scope nat_scope.

(** The curve read off a solution, the multipliers of parameters included. *)
Definition reads_quads (p : prob) (Q : R -> list R) (t0 D : R) (c : R -> string -> R) : Prop :=
  forall t i x, nth_error (quads p) i = Some x -> c t x = nth i (Q ((t - t0) / D)%R) 0%R.

(** How strongly the ends of the trajectory pull at parameter [x]: the derivative
    of the end costs with the boundary conditions adjoined. *)
Definition end_pull (fn : string -> nat -> R -> R) (p : prob) (c : R -> string -> R) (t0 tf : R) (x : string) : R :=
  (eval fn (c t0) (diff x (adjoin (p_cost_i p) (nu_names "_nu_0_" (p_ci p)) (p_ci p))) +
   eval fn (c tf) (diff x (adjoin (p_cost_t p) (nu_names "_nu_f_" (p_ct p)) (p_ct p))))%R.

Lemma parameter_curve : forall lu, lu_ok lu -> forall solve, solve_sound solve -> forall fn o p fs pre post p1 p' h Y Q pv D nu k t0 c,
  make_indirect o p = Ok fs -> fs = pre ++ FDual (o_method o) :: post -> run_tfs lu solve pre p = Ok p1 -> run_tfs lu solve fs p = Ok p' -> p_ham p' = Some h ->
  lower (o_control o) = "algebraic" -> o_norm o = true -> lower (o_method o) = "traditional" ->
  p_costates p1 = [] -> p_coparams p1 = [] -> p_quads p1 = [] -> NoDup (p_ind p1 :: all_names p' ++ quads p') ->
  (forall cand e x, In cand (p_law p') -> In e cand -> In x (vars e) -> In x (syms (p_states p') ++ p_params p' ++ p_consts p')) ->
  solves fn p' 0 1 Y Q (pv ++ [D]) nu k -> (0 < D)%R -> reads_off fn p' (p_ind p1) Y (pv ++ [D]) nu k t0 D c -> reads_quads p' Q t0 D c ->
  (forall x, In x (vars h) -> ~ In x (quads p')) ->
  (forall t, (t0 <= t <= t0 + D)%R -> wd fn (c t) h /\ Forall (Forall (wd fn (c t))) (p_law p')) ->
  exists pD, dualize lu (o_method o) p1 = Ok pD /\ dual_of p1 pD h /\ NoDup (p_ind p1 :: all_names p' ++ quads p') /\
  p_cpars p' = p_cpars p1 ++ p_cadj pD /\ p_params p' = p_params p1 ++ [("_delta" ++ p_ind p1)%string] /\ p_controls p' = p_controls p1 /\
  syms (p_states p') = syms (p_states p1) ++ map lam (syms (p_states p1)) /\
  (forall t, (t0 <= t <= t0 + D)%R -> follows fn c t (p_states p1) /\ follows fn c t (p_costates pD) /\ c t (p_ind p1) = t /\
     (forall x e, In (x, e) (p_coparams pD) -> is_derive (fun s => c s x) t (eval fn (c t) e / D)%R) /\
     forall u, In u (p_controls p1) -> eval fn (c t) (diff u h) = 0%R) /\
  (forall b, In b (p_ci pD) -> eval fn (c t0) (c_expr b) = 0%R) /\ (forall b, In b (p_ct pD) -> eval fn (c (t0 + D)%R) (c_expr b) = 0%R).
Proof.
  intros lu LU solve SO fn o p fs pre post p1 p' h Y Q pv D nu k t0 c MK EF R1 RN HH OC ON M E1 E2 EQ ND CL SOL D0 RO RQ HQ WD.
  destruct (indirect_steps lu solve o p fs pre post p1 p' MK EF R1 RN ON) as (pD & p2 & p3 & HD & HC & HN & HS).
  destruct (norm_squash p2 p3 p' HN HS) as (S1 & S2 & S3 & S4 & S5 & S6 & S7 & S8 & S9 & S10).
  destruct (control_rest lu solve o pD p2 HC) as (K1 & K2 & K3 & K4 & K5 & K6 & K7).
  assert (DO := dual_of_exists lu LU _ p1 pD HD (or_introl M) E1 E2).
  assert (EH : h = dual_ham p1) by (rewrite S8, K6, (d_ham _ _ _ DO) in HH; congruence).
  assert (EI : p_ind p2 = p_ind p1) by (rewrite K7; apply (d_ind _ _ _ DO)).
  set (dt := ("_delta" ++ p_ind p2)%string) in *.
  assert (PP : p_params p' = p_params p1 ++ [dt]) by (rewrite S2, K1, (d_params _ _ _ DO); reflexivity).
  assert (QQ : p_quads p' = p_coparams pD) by (rewrite S4, K2, K3, (d_quads _ _ _ DO), EQ; reflexivity).
  unfold control_tf in HC. rewrite OC in HC. cbn [String.eqb Ascii.eqb Bool.eqb apply_tf] in HC.
  unfold algebraic_control in HC. rewrite (d_dual _ _ _ DO), (d_ham _ _ _ DO), (d_controls _ _ _ DO) in HC. apply Ok_inj in HC.
  assert (C1 : p_states p2 = p_states p1 /\ p_costates p2 = p_costates pD /\ p_controls p2 = p_controls p1 /\ p_ci p2 = p_ci pD /\ p_ct p2 = p_ct pD /\
    p_law p2 = solve (map (fun u => diff u (dual_ham p1)) (p_controls p1)) (p_controls p1)).
  { subst p2. pose proof (d_states _ _ _ DO). pose proof (d_controls _ _ _ DO). destruct pD; cbn in *; repeat split; auto. }
  clear HC. destruct C1 as (C1 & C2 & C3 & C4 & C5 & C6). rewrite <- EH in DO, C6.
  assert (EX : syms (p_states p') = syms (p_states p1) ++ map lam (syms (p_states p1))).
  { rewrite S1, syms_slow. unfold syms at 1. rewrite map_app. fold (syms (p_states p2)) (syms (p_costates p2)). now rewrite C1, C2, (d_lams _ _ _ DO). }
  assert (NDQ : NoDup (all_names p' ++ quads p')) by (inversion ND; assumption). assert (NN := ND). destruct (nodup_parts _ _ NDQ) as (NA & _ & DQ).
  destruct (q_boundary fn p' Y Q (pv ++ [D]) nu k NDQ SOL) as (LP & LN & LK & B0 & B1 & BV).
  assert (LV : length pv = length (p_params p1)) by (rewrite PP, !app_length in LP; cbn in LP; lia).
  assert (AG : forall t x, In x (states p' ++ ctl fn p' ++ fixed p') -> c t x = curve fn p' Y (pv ++ [D]) nu k ((t - t0) / D)%R x).
  { intros t x I. exact (reads_curve fn p' _ Y (pv ++ [D]) nu k t0 D c t x RO NA LP LN I). }
  destruct (q_names fn p' NDQ) as (N1 & NQ1 & NQ2).
  assert (AQ : forall t x, In x (states p' ++ ctl fn p' ++ fixed p') \/ In x (quads p') -> c t x = qcurve fn p' Y Q (pv ++ [D]) nu k ((t - t0) / D)%R x).
  { intros t x [I|I]; unfold qcurve.
    - rewrite over_out by (now apply NQ1). now apply AG.
    - apply In_nth_error in I. destruct I as (i & I). rewrite (over_nth _ _ _ x i NQ2 I). now apply RQ. }
  assert (TI : forall t, (t0 <= t <= t0 + D)%R -> (0 <= (t - t0) / D <= 1)%R) by (intros t Ht; apply (phys_time t0 D D0 t Ht)).
  assert (ED : forall s, curve fn p' Y (pv ++ [D]) nu k s dt = D).
  { intros s. assert (ID : In dt (states p' ++ ctl fn p' ++ fixed p')) by (unfold fixed; rewrite PP, !in_app_iff; right; right; left; right; now left).
    replace s with ((t0 + D * s - t0) / D)%R by (field; lra). rewrite <- AG by exact ID.
    rewrite (ro_params _ _ _ _ _ _ _ _ _ _ RO _ (length (p_params p1)) dt) by (rewrite PP, nth_error_app2, Nat.sub_diag by lia; reflexivity).
    rewrite app_nth2, LV, Nat.sub_diag by lia. reflexivity. }
  assert (SC : forall (f : R -> R) t d, is_derive f ((t - t0) / D)%R d -> is_derive (fun s => f ((s - t0) / D)%R) t (d / D)%R).
  { intros f t d H. replace (d / D)%R with (scal (/ D)%R d) by (unfold scal; cbn; unfold mult; cbn; field; lra).
    apply (is_derive_comp f (fun s => (s - t0) / D)%R t); [exact H|]. auto_derive; [trivial|]. field. lra. }
  assert (DY : forall x, In x (states p' ++ ctl fn p' ++ p_params p' ++ p_consts p') -> In x (states p' ++ ctl fn p' ++ fixed p')) by (intros x; unfold fixed; rewrite !in_app_iff; tauto).
  assert (FO : forall t, (t0 <= t <= t0 + D)%R -> follows fn c t (p_states p2 ++ p_costates p2)).
  { intros t Ht x e I. destruct (q_follows fn p' Y Q (pv ++ [D]) nu k NDQ SOL _ (TI t Ht)) as (F & _ & _ & CV).
    assert (IS : In (x, Mul e (Var dt)) (p_states p')) by (rewrite S1; now apply in_slow).
    specialize (F _ _ IS). cbn [eval] in F. rewrite ED in F. apply SC in F.
    rewrite (eval_ext fn e (c t) (curve fn p' Y (pv ++ [D]) nu k ((t - t0) / D)%R)).
    2: { intros y J. apply AG, DY, (CV (Mul e (Var dt))); [|cbn; rewrite in_app_iff; now left]. apply in_or_app. left. unfold eoms. apply in_map_iff. exists (x, Mul e (Var dt)). split; [reflexivity|exact IS]. }
    assert (Z : forall a : R, (a * D / D)%R = a) by (intros; field; lra). rewrite Z in F. revert F. apply is_derive_ext. intros s. symmetry. apply AG. apply in_or_app. left.
    unfold states, syms. apply in_map_iff. exists (x, Mul e (Var dt)). split; [reflexivity|exact IS]. }
  assert (FQ : forall t, (t0 <= t <= t0 + D)%R -> forall x e, In (x, e) (p_coparams pD) -> is_derive (fun s => c s x) t (eval fn (c t) e / D)%R).
  { intros t Ht x e I. rewrite <- QQ in I. destruct (q_follows fn p' Y Q (pv ++ [D]) nu k NDQ SOL _ (TI t Ht)) as (_ & _ & F & CV).
    rewrite (eval_ext fn e (c t) (curve fn p' Y (pv ++ [D]) nu k ((t - t0) / D)%R)).
    2: { intros y J. apply AG, DY, (CV e); [|exact J]. apply in_or_app. right. unfold eoms. apply in_map_iff. exists (x, e). split; [reflexivity|exact I]. }
    apply In_nth_error in I. destruct I as (i & I). specialize (F _ _ _ I). apply (SC (fun r => nth i (Q r) 0%R)) in F. revert F. apply is_derive_ext. intros s. symmetry. apply RQ.
    unfold quads, syms. rewrite nth_error_map, I. reflexivity. }
  assert (TE : forall t s, s = ((t - t0) / D)%R -> forall e, (forall x, In x (vars e) -> In x (states p' ++ ctl fn p' ++ fixed p') \/ In x (quads p')) ->
     eval fn (c t) e = eval fn (qcurve fn p' Y Q (pv ++ [D]) nu k s) e).
  { intros t s -> e V. apply eval_ext. intros x I. apply AQ. now apply V. }
  assert (B0' : forall b, In b (p_ci pD) -> eval fn (c t0) (c_expr b) = 0%R).
  { intros b I. rewrite <- C4, <- S9 in I. rewrite (TE t0 0%R) by (try (field; lra); intros x; apply (BV b), in_or_app; now left). now apply B0. }
  assert (B1' : forall b, In b (p_ct pD) -> eval fn (c (t0 + D)%R) (c_expr b) = 0%R).
  { intros b I. rewrite <- C5, <- S10 in I. rewrite (TE (t0 + D)%R 1%R) by (try (field; lra); intros x; apply (BV b), in_or_app; now right). now apply B1. }
  assert (VH : forall x, In x (vars h) -> In x (states p' ++ ctl fn p' ++ fixed p')).
  { intros x I. destruct (BV (plain (Add (diff (p_ind p1) (p_cost_t pD)) h)) x) as [J|J]; [| |exact J|destruct (HQ x I J)].
    - apply in_or_app. right. rewrite S10, C5, (d_ct _ _ _ DO). apply in_or_app. right. apply in_or_app. right. now left.
    - cbn. apply in_or_app. now right. }
  assert (NC : NoDup (p_controls p1)).
  { unfold all_names in NA. destruct (nodup_parts _ _ NA) as (_ & N2 & _). destruct (nodup_parts _ _ N2) as (N3 & _ & _). now rewrite S6, C3 in N3. }
  assert (ST : forall t u, (t0 <= t <= t0 + D)%R -> In u (p_controls p1) -> eval fn (c t) (diff u h) = 0%R).
  { intros t u Ht Hu. destruct (WD t Ht) as (W1 & W2). rewrite <- S7 in C6. set (pp := pv ++ [D]) in *.
    destruct (p_law p') as [|l0 law] eqn:EL.
    - apply (eval_diff_fresh fn). intros I. apply VH in I. unfold ctl, law_control in I. rewrite EL in I. cbn [app] in I.
      unfold all_names in NA. rewrite S6, C3 in NA. destruct (nodup_parts _ _ NA) as (_ & N2 & D1). destruct (nodup_parts _ _ N2) as (_ & _ & D2).
      apply in_app_or in I. destruct I as [I|I]; [apply (D1 u I); apply in_or_app; now left|exact (D2 u Hu I)].
    - set (s := ((t - t0) / D)%R).
      destruct (q_follows fn p' Y Q pp nu k NDQ SOL s (TI t Ht)) as (_ & LS & _).
      set (rho := env (concat (dyn_groups p' false)) (Y s ++ pp ++ k)).
      set (H := fun cc : list R => match p_ham p' with Some h => eval fn (env (concat (dyn_groups p' true)) (Y s ++ cc ++ pp ++ k)) h | None => 0%R end).
      destruct (pick_control_spec H (map (map (eval fn rho)) (p_law p'))) as (w & j & P1 & P2 & _); [rewrite EL; clear; cbn [map]; intros Z; discriminate Z|].
      apply nth_error_In, in_map_iff in P2. destruct P2 as (cand & <- & IC).
      assert (LC : law_control fn p' = Some (fun y pp k => match pick_control ROps (fun c => match p_ham p' with Some h => eval fn (env (concat (dyn_groups p' true)) (y ++ c ++ pp ++ k)) h | None => 0%R end)
           (map (map (eval fn (env (concat (dyn_groups p' false)) (y ++ pp ++ k)))) (p_law p')) with Ok c => c | Raise _ => [] end)) by (unfold law_control; rewrite EL; reflexivity).
      assert (AC : forall e x, In e cand -> In x (vars e) -> rho x = c t x).
      { intros e x Ie Ix. rewrite <- EL in CL. specialize (CL cand e x IC Ie Ix).
        unfold all_names in NA. destruct (nodup_parts _ _ NA) as (_ & N2 & D1). destruct (nodup_parts _ _ N2) as (_ & N3 & D2). destruct (nodup_parts _ _ N3) as (_ & N4 & D3). destruct (nodup_parts _ _ N4) as (_ & _ & D4).
        rewrite AG by (unfold states, fixed; rewrite !in_app_iff in *; tauto).
        unfold rho, dyn_groups. cbn [app concat]. rewrite app_nil_r. rewrite (env_over (states p') (Y s) (p_params p' ++ p_consts p') (pp ++ k)) by auto.
        unfold curve. apply over_ext. intros NS.
        assert (IPC : In x (p_params p' ++ p_consts p')) by (rewrite !in_app_iff in *; destruct CL; [contradiction|assumption]).
        rewrite over_out.
        - apply fixed_dyn; auto. intros J. rewrite in_app_iff in IPC. destruct IPC as [I|I]; [apply (D3 x I); rewrite in_app_iff; tauto|exact (D4 x J I)].
        - intros J. apply in_ctl in J. apply (D2 x J). rewrite !in_app_iff in *. tauto. }
      rewrite <- EL in C6. rewrite C6 in IC. destruct (SO _ _ _ NC IC) as [L V]. rewrite <- C6 in IC.
      assert (EC : assign (c t) (p_controls p1) (map (eval fn (c t)) cand) = c t).
      { apply assign_same; [now rewrite map_length|]. intros i x I. rewrite (ro_controls _ _ _ _ _ _ _ _ _ _ RO _ t i x LC) by now rewrite S6, C3.
        cbv beta. fold s. unfold H, rho in P1. rewrite P1. f_equal. apply map_ext_in. intros e Ie. apply eval_ext. intros y Iy. now apply (AC e). }
      rewrite <- EC. apply V.
      + rewrite Forall_forall in W2. apply W2. rewrite <- EL. exact IC.
      + apply in_map_iff. exists u. split; [reflexivity|exact Hu].
      + rewrite EC. apply wd_diff. exact W1. }
  exists pD. split; [exact HD|]. split; [exact DO|]. split; [exact NN|]. split; [now rewrite S3, K4, K5, (d_cpars _ _ _ DO)|].
  split; [rewrite PP; unfold dt; now rewrite EI|]. split; [now rewrite S6, C3|]. split; [exact EX|]. split; [|now split].
  intros t Ht. specialize (FO t Ht). split; [|split; [|split; [|split]]].
  - intros x e I. apply FO. rewrite C1. apply in_or_app. now left.
  - intros x e I. apply FO. rewrite C2. apply in_or_app. now right.
  - apply (ro_time _ _ _ _ _ _ _ _ _ _ RO).
  - now apply FQ.
  - intros u Hu. exact (ST t u Ht Hu).
Qed.

(** A solution of the boundary value problem derived from a problem with unknown
    parameters, [pv] being their values and [D] the duration, and the curve it
    stands for. *)
Record param_solution lu (solve : list expr -> list string -> list (list expr)) (fn : string -> nat -> R -> R) (o : options) (p : prob) (fs pre post : list tf) (p1 p' : prob) (h : expr)
    (Y Q : R -> list R) (pv : list R) (D : R) (nu k : list R) (t0 : R) (c : R -> string -> R) : Prop := mkParam {
  (* the problem handed to Dualize is [p1], the boundary value problem is [p'] *)
  ps_make : make_indirect o p = Ok fs; ps_split : fs = pre ++ FDual (o_method o) :: post; ps_pre : run_tfs lu solve pre p = Ok p1; ps_run : run_tfs lu solve fs p = Ok p';
  ps_ham : p_ham p' = Some h;
  ps_control : lower (o_control o) = "algebraic"; ps_norm : o_norm o = true; ps_method : lower (o_method o) = "traditional";
  ps_costates : p_costates p1 = []; ps_coparams : p_coparams p1 = []; ps_quads : p_quads p1 = []; ps_names : NoDup (p_ind p1 :: all_names p' ++ quads p');
  (* the control law mentions only arguments of the control function *)
  ps_law : forall cand e x, In cand (p_law p') -> In e cand -> In x (vars e) -> In x (syms (p_states p') ++ p_params p' ++ p_consts p');
  (* a solution, and the curve it stands for *)
  ps_solves : solves fn p' 0 1 Y Q (pv ++ [D]) nu k; ps_pos : (0 < D)%R; ps_reads : reads_off fn p' (p_ind p1) Y (pv ++ [D]) nu k t0 D c; ps_reads_quads : reads_quads p' Q t0 D c;
  (* the problem does not mention the multipliers, and everything is defined *)
  ps_plain : forall x, In x (vars h) -> ~ In x (quads p');
  ps_defined : forall t, (t0 <= t <= t0 + D)%R -> wd fn (c t) h /\ Forall (Forall (wd fn (c t))) (p_law p') }.

(** What a solution of the boundary value problem means when the problem has
    unknown parameters (traditional method, algebraic control).  Equations of
    motion, boundary conditions and the control are right; the first variation of
    the cost is not zero but [(1 - D)] times what the ends pull at the parameters,
    [D] being the duration. *)
Theorem C93_first_variation : forall lu, lu_ok lu -> forall solve, solve_sound solve -> forall fn o p fs pre post p1 p' h Y Q pv D nu k t0 c,
  param_solution lu solve fn o p fs pre post p1 p' h Y Q pv D nu k t0 c ->
  feasible fn p1 c t0 (t0 + D)%R /\
  (forall t u, (t0 <= t <= t0 + D)%R -> In u (p_controls p1) -> eval fn (c t) (diff u h) = 0%R) /\
  forall v dtf df I, admissible fn p1 c v t0 (t0 + D)%R dtf df ->
  let X := syms (p_states p1) in let P := p_params p1 in let U := p_controls p1 in
  is_RInt (fun t => directional fn (c t) (X ++ P ++ U) (p_cost_p p1) (v t)) t0 (t0 + D)%R I ->
  (directional fn (c t0) (X ++ P) (p_cost_i p1) (v t0) + directional fn (c (t0 + D)%R) (X ++ P ++ [p_ind p1]) (p_cost_t p1) df +
   eval fn (c (t0 + D)%R) (p_cost_p p1) * dtf + I = (1 - D) * rsum (map (fun x => end_pull fn p1 c t0 (t0 + D)%R x * v t0 x)%R P))%R.
Proof.
  intros lu LU solve SO fn o p fs pre post p1 p' h Y Q pv D nu k t0 c [MK EF R1 RN HH OC ON M E1 E2 EQ ND CL SOL D0 RO RQ HQ WD].
  destruct (parameter_curve lu LU solve SO fn o p fs pre post p1 p' h Y Q pv D nu k t0 c MK EF R1 RN HH OC ON M E1 E2 EQ ND CL SOL D0 RO RQ HQ WD)
    as (pD & HD & DO & _ & A1 & A2 & A3 & A4 & HC & B0 & B1).
  assert (EH := d_hdef _ _ _ DO).
  destruct (dualize_traditional lu (o_method o) p1 pD HD M E1 E2) as (_ & CO & CP).
  split; [|split].
  - split; [intros t Ht; split; apply (HC t Ht)|]. split; intros d I.
    + apply B0. rewrite (d_ci _ _ _ DO). apply in_or_app. now left.
    + apply B1. rewrite (d_ct _ _ _ DO). apply in_or_app. now left.
  - intros t u Ht. now apply (HC t Ht).
  - intros v dtf df I (V1 & V2 & V3 & V4 & V5 & V6 & V7 & V8) X P U HI.
    assert (NDQ : NoDup (all_names p' ++ quads p')) by (inversion ND; assumption). destruct (nodup_parts _ _ NDQ) as (NA & _ & _).
    assert (NI : ~ In (p_ind p1) (all_names p')) by (inversion ND as [|? ? NI ?]; intros J; apply NI, in_or_app; now left).
    unfold all_names in NA, NI. rewrite A1, A2, A3, A4 in NA, NI. fold X P U in NA, NI.
    destruct (nodup_parts _ _ NA) as (NX & N2 & D1). destruct (nodup_parts _ _ NX) as (_ & _ & DX). destruct (nodup_parts _ _ N2) as (_ & N3 & D2). destruct (nodup_parts _ _ N3) as (_ & N4 & D3).
    unfold end_pull. rewrite <- (d_cost_i _ _ _ DO), <- (d_cost_t _ _ _ DO). rewrite EH in DO.
    apply (first_variation_slow fn p1 pD c v t0 (t0 + D)%R dtf I D).
    + lra.
    + lra.
    + exact DO.
    + intros x J K. apply (D1 x); [apply in_or_app; now left|]. fold P in K. rewrite !in_app_iff. tauto.
    + intros y J K. fold X P U in J. rewrite !in_app_iff in J. destruct J as [J|[J|J]].
      * exact (DX y J K).
      * apply (D1 y); [apply in_or_app; now right|]. rewrite !in_app_iff. tauto.
      * apply (D1 y); [apply in_or_app; now right|]. rewrite !in_app_iff. tauto.
    + intros y J. fold X P in J.
      assert (Z : ~ In y (p_cadj pD)).
      { intros K. rewrite !in_app_iff in J. destruct J as [J|[J|[ <-|[]]]].
        - apply (D1 y); [apply in_or_app; now left|]. rewrite !in_app_iff. tauto.
        - apply (D3 y); [apply in_or_app; now left|]. rewrite !in_app_iff. tauto.
        - apply NI. rewrite !in_app_iff. tauto. }
      rewrite (d_cadj _ _ _ DO), !in_app_iff in Z. tauto.
    + intros t x Ht Hx. destruct (HC t Ht) as (_ & G & _). fold X in Hx. unfold X, syms in Hx. apply in_map_iff in Hx. destruct Hx as ([y f] & <- & Iy).
      specialize (G (lam y) (Opp (diff y (dual_ham p1)))). cbn [eval] in G. apply G. rewrite CO. apply in_map_iff. exists (y, f). split; [reflexivity|exact Iy].
    + intros t x Ht Hx. destruct (HC t Ht) as (_ & _ & _ & G & _). specialize (G (lam x) (Opp (diff x (dual_ham p1)))). cbn [eval] in G. apply G. rewrite CP.
      apply in_map_iff. exists x. split; [reflexivity|exact Hx].
    + intros t u Ht Hu. rewrite <- EH. destruct (HC t Ht) as (_ & _ & _ & _ & G). now apply G.
    + exact B0.
    + exact B1.
    + exact V1.
    + exact V2.
    + exact V3.
    + exact V4.
    + exact V5.
    + exact V6.
    + exact V7.
    + exact V8.
    + exact HI.
Qed.
Print Assumptions C93_first_variation.

Lemma vars_adjoin y cost : forall nus cs, In y (vars (adjoin cost nus cs)) -> In y (vars cost) \/ In y nus \/ exists d, In d cs /\ In y (vars (c_expr d)).
Proof.
  intros nus cs. unfold adjoin, Sum. revert cost cs. induction nus as [|n nus IH]; intros cost cs; [now left|]. destruct cs as [|d cs]; [now left|]. cbn [combine map fold_left fst snd].
  intros H. apply IH in H. destruct H as [H|[H|(d' & I & H)]].
  - cbn in H. rewrite in_app_iff in H. cbn in H. destruct H as [H|[ <-|H]]; [now left|right; left; now left|]. right. right. exists d. split; [now left|exact H].
  - right. left. now right.
  - right. right. exists d'. split; [now right|exact H].
Qed.

(** So the solutions are stationary if the duration is one, or if the ends do not
    depend on the parameters. *)
Theorem C93_stationary : forall lu, lu_ok lu -> forall solve, solve_sound solve -> forall fn o p fs pre post p1 p' h Y Q pv D nu k t0 c,
  param_solution lu solve fn o p fs pre post p1 p' h Y Q pv D nu k t0 c ->
  (* a unit of time, or ends without parameters *)
  D = 1%R \/ (forall x, In x (p_params p1) -> ~ In x (vars (p_cost_i p1)) /\ ~ In x (vars (p_cost_t p1)) /\ forall d, In d (p_ci p1 ++ p_ct p1) -> ~ In x (vars (c_expr d))) ->
  feasible fn p1 c t0 (t0 + D)%R /\ extremal fn p1 c t0 (t0 + D)%R.
Proof.
  intros lu LU solve SO fn o p fs pre post p1 p' h Y Q pv D nu k t0 c PS W.
  destruct (C93_first_variation lu LU solve SO fn o p fs pre post p1 p' h Y Q pv D nu k t0 c PS) as (F & _ & V).
  destruct PS as [MK EF R1 RN HH OC ON M E1 E2 EQ ND CL SOL D0 RO RQ HQ WD].
  destruct (parameter_curve lu LU solve SO fn o p fs pre post p1 p' h Y Q pv D nu k t0 c MK EF R1 RN HH OC ON M E1 E2 EQ ND CL SOL D0 RO RQ HQ WD)
    as (pD & _ & DO & _ & A1 & A2 & _).
  split; [exact F|]. intros v dtf df I AD HI. cbv zeta in *. rewrite (V v dtf df I AD HI). destruct W as [ ->|W]; [ring|].
  rewrite rsum_zero; [ring|]. intros x Hx. destruct (W x Hx) as (W1 & W2 & W3). unfold end_pull.
  assert (NN : ~ In x (p_cadj pD)).
  { intros J. assert (NDQ : NoDup (all_names p' ++ quads p')) by (inversion ND; assumption). destruct (nodup_parts _ _ NDQ) as (NA & _ & _).
    unfold all_names in NA. rewrite A1, A2 in NA. destruct (nodup_parts _ _ NA) as (_ & N2 & _). destruct (nodup_parts _ _ N2) as (_ & N3 & _). destruct (nodup_parts _ _ N3) as (_ & _ & D3).
    apply (D3 x); [apply in_or_app; now left|]. rewrite !in_app_iff. tauto. }
  rewrite (d_cadj _ _ _ DO), !in_app_iff in NN.
  rewrite !(eval_diff_fresh fn); [ring| |].
  - intros J. apply vars_adjoin in J. destruct J as [J|[J|(d & Id & J)]]; [tauto|tauto|]. apply (W3 d); [apply in_or_app; now right|exact J].
  - intros J. apply vars_adjoin in J. destruct J as [J|[J|(d & Id & J)]]; [tauto|tauto|]. apply (W3 d); [apply in_or_app; now left|exact J].
Qed.
Print Assumptions C93_stationary.

(** ** Examples: go from 0 to 1 at speed s + u, with s an unknown parameter. *)
Definition par_oc (path term : expr) : prob :=
  mkProb "t" [("x", Add (Var "s") (Var "u"))] [] ["s"] [] ["u"] [] [plain (Var "x")] [] [plain (Sub (Var "x") (Cst 1))] [] []
    (Cst 0) path term [] [] [] [] None [] true false.
Definition sq (x : string) : expr := Mul (Var x) (Var x).
(** The parameter costs at every time: 2 + u^2 + s^2; speed 2 for half a unit of time. *)
Definition par_path : prob := par_oc (Add (Add (Cst 2) (sq "u")) (sq "s")) (Cst 0).
(** The parameter costs once: 1 + u^2, and s^2 / 4 at the end. *)
Definition par_end : prob := par_oc (Add (Cst 1) (sq "u")) (Div (sq "s") (Cst 4)).
Definition par_pp : prob := Eval vm_compute in go_bvp go_alg par_path.
Definition par_pe : prob := Eval vm_compute in go_bvp go_alg par_end.
Definition named (l : list (string * R)) (rest : R) (y : string) : R :=
  match find (fun e => String.eqb y (fst e)) l with Some e => snd e | None => rest end.
Definition par_cp (t : R) : string -> R :=
  named [("x", 2 * t); ("t", t); ("u", 1); ("s", 1); ("_lam_x", -2); ("_lam_s", 0); ("_deltat", / 2); ("_nu_0_0", 2); ("_nu_f_0", -2)]%R 0%R.
Definition par_ce (t : R) : string -> R :=
  named [("x", 5 / 3 * t); ("t", t); ("u", / 3); ("s", 4 / 3); ("_lam_x", - (2 / 3)); ("_lam_s", 10 / 9 * t); ("_deltat", 3 / 5); ("_nu_0_0", 2 / 3); ("_nu_f_0", - (2 / 3))]%R 0%R.

Lemma par_pp_solves : solves ex_fn par_pp 0 1 (fun s => [s; -2]%R) (fun _ => [0%R]) [1; / 2]%R [2; -2]%R [].
Proof.
  split.
  - intros t Ht. eexists. eexists. split; [reflexivity|]. split; [reflexivity|]. split.
    + intros [|[|i]] Hi; [| |cbn in Hi; lia].
      * cbn. line 1%R 0%R.
      * cbn. line 0%R (-2)%R.
    + intros [|i] Hi; [|cbn in Hi; lia]. cbn. line 0%R 0%R.
  - eexists. split; [reflexivity|]. repeat (apply Forall_cons; [cbn; lra|]). apply Forall_nil.
Qed.
Lemma par_pe_solves : solves ex_fn par_pe 0 1 (fun s => [s; - (2 / 3)]%R) (fun s => [2 / 3 * s]%R) [4 / 3; 3 / 5]%R [2 / 3; - (2 / 3)]%R [].
Proof.
  split.
  - intros t Ht. eexists. eexists. split; [reflexivity|]. split; [reflexivity|]. split.
    + intros [|[|i]] Hi; [| |cbn in Hi; lia].
      * cbn. line 1%R 0%R.
      * cbn. line 0%R (- (2 / 3))%R.
    + intros [|i] Hi; [|cbn in Hi; lia]. cbn. line (2 / 3)%R 0%R.
  - eexists. split; [reflexivity|]. repeat (apply Forall_cons; [cbn; lra|]). apply Forall_nil.
Qed.

Lemma par_pp_case : param_solution lu_gauss (solve_linear lu_gauss) ex_fn go_alg par_path (go_tfs go_alg par_path) [] [FAlg; FNorm; FSquash] par_path par_pp
  (match p_ham par_pp with Some h => h | None => Cst 0 end) (fun s => [s; -2]%R) (fun _ => [0%R]) [1%R] (/ 2)%R [2; -2]%R [] 0%R par_cp.
Proof.
  apply mkParam; try reflexivity.
  - vm_compute. names.
  - intros cand e x [ <-|[]] [ <-|[]] I. cbn in I. repeat (destruct I as [ <-|I]; [cbn; tauto|]). destruct I.
  - exact par_pp_solves.
  - lra.
  - reads. cbn in L. injection L as <-. destruct i as [|i]; [cbn in E; injection E as <-; cbn; field; lra|destruct i; discriminate E].
  - intros t i x E. destruct i as [|i]; [cbn in E; injection E as <-; reflexivity|destruct i; discriminate E].
  - intros x I J. cbn in J. destruct J as [ <-|[]]. cbn in I. repeat (destruct I as [I|I]; [discriminate I|]). exact I.
  - intros t Ht. split; [cbn; tauto|]. repeat (apply Forall_cons || apply Forall_nil); cbn; repeat split; lra.
Qed.
Lemma par_pe_case : param_solution lu_gauss (solve_linear lu_gauss) ex_fn go_alg par_end (go_tfs go_alg par_end) [] [FAlg; FNorm; FSquash] par_end par_pe
  (match p_ham par_pe with Some h => h | None => Cst 0 end) (fun s => [s; - (2 / 3)]%R) (fun s => [2 / 3 * s]%R) [4 / 3]%R (3 / 5)%R [2 / 3; - (2 / 3)]%R [] 0%R par_ce.
Proof.
  apply mkParam; try reflexivity.
  - vm_compute. names.
  - intros cand e x [ <-|[]] [ <-|[]] I. cbn in I. repeat (destruct I as [ <-|I]; [cbn; tauto|]). destruct I.
  - exact par_pe_solves.
  - lra.
  - reads. cbn in L. injection L as <-. destruct i as [|i]; [cbn in E; injection E as <-; cbn; field; lra|destruct i; discriminate E].
  - intros t i x E. destruct i as [|i]; [cbn in E; injection E as <-; cbn; field|destruct i; discriminate E].
  - intros x I J. cbn in J. destruct J as [ <-|[]]. cbn in I. repeat (destruct I as [I|I]; [discriminate I|]). exact I.
  - intros t Ht. split; [cbn; tauto|]. repeat (apply Forall_cons || apply Forall_nil); cbn; repeat split; lra.
Qed.

(** The hypotheses hold, and the solution is stationary. *)
Example C93_ex : param_solution lu_gauss (solve_linear lu_gauss) ex_fn go_alg par_path (go_tfs go_alg par_path) [] [FAlg; FNorm; FSquash] par_path par_pp
  (match p_ham par_pp with Some h => h | None => Cst 0 end) (fun s => [s; -2]%R) (fun _ => [0%R]) [1%R] (/ 2)%R [2; -2]%R [] 0%R par_cp /\
  feasible ex_fn par_path par_cp 0 (/ 2) /\ extremal ex_fn par_path par_cp 0 (/ 2).
Proof.
  split; [exact par_pp_case|]. replace (/ 2)%R with (0 + / 2)%R by lra.
  apply (C93_stationary _ lu_gauss_ok _ (C67_linear_solver_sound _ lu_gauss_ok) _ _ _ _ _ _ _ _ _ _ _ _ _ _ _ _ _ par_pp_case).
  right. intros x [ <-|[]]. split; [cbn; tauto|]. split; [cbn; tauto|]. intros d [ <-|[ <-|[]]]; cbn; intros I; repeat (destruct I as [I|I]; [discriminate I|]); exact I.
Qed.

(** A parameter that costs at the end: the boundary value problem has a solution
    that is no stationary point.  Here s = 4/3 and u = 1/3 for 3/5 units of time;
    making s larger and u smaller by the same small amount raises the cost at the
    rate 4/15, so smaller s is better. *)
Lemma par_move : exists df I, admissible ex_fn par_end par_ce (fun _ => named [("s", 1); ("u", -1)]%R 0%R) 0 (3 / 5) 0 df /\
  is_RInt (fun t => directional ex_fn (par_ce t) ["x"; "s"; "u"] (p_cost_p par_end) (named [("s", 1); ("u", -1)]%R 0%R)) 0 (3 / 5) I /\
  (directional ex_fn (par_ce 0) ["x"; "s"] (p_cost_i par_end) (named [("s", 1); ("u", -1)]%R 0%R) +
   directional ex_fn (par_ce (3 / 5)) ["x"; "s"; "t"] (p_cost_t par_end) df + eval ex_fn (par_ce (3 / 5)) (p_cost_p par_end) * 0 + I = 4 / 15)%R.
Proof.
  set (v := named [("s", 1); ("u", -1)]%R 0%R). exists (named [("s", 1)]%R 0%R), (- (2 / 5))%R.
  assert (DP : forall t, directional ex_fn (par_ce t) ["x"; "s"; "u"] (p_cost_p par_end) v = (- (2 / 3))%R) by (intros t; unfold directional; cbn; field).
  split; [|split].
  - unfold admissible. cbv zeta. split; [|split; [|split; [|split; [|split; [|split; [|split]]]]]].
    + intros t x f Ht [E|[]]. injection E as <- <-. match goal with |- is_derive _ _ ?d => replace d with 0%R by (unfold directional; cbn; ring) end. apply D_const.
    + intros t x Ht _. apply D_const.
    + intros x f [E|[]]. injection E as <- <-. cbn. ring.
    + intros x [ <-|[]]. reflexivity.
    + reflexivity.
    + intros b [ <-|[]]. unfold directional. cbn. ring.
    + intros b [ <-|[]]. unfold directional. cbn. ring.
    + intros t Ht. apply (continuous_ext (fun _ => (- (2 / 3))%R)); [intros s; symmetry; apply DP|apply continuous_const].
  - apply (is_RInt_ext (fun _ => (- (2 / 3))%R)); [intros s _; symmetry; apply DP|].
    replace (- (2 / 5))%R with (scal (3 / 5 - 0)%R (- (2 / 3))%R) by (unfold scal; cbn; unfold mult; cbn; field). apply (is_RInt_const (V := R_NormedModule)).
  - unfold directional. cbn. field.
Qed.
Theorem C93_refuted : exists fn o p fs pre post p1 p' h Y Q pv D nu k t0 c,
  param_solution lu_gauss (solve_linear lu_gauss) fn o p fs pre post p1 p' h Y Q pv D nu k t0 c /\ p1 = p /\
  feasible fn p c t0 (t0 + D)%R /\ ~ extremal fn p c t0 (t0 + D)%R.
Proof.
  exists ex_fn, go_alg, par_end, (go_tfs go_alg par_end), [], [FAlg; FNorm; FSquash], par_end, par_pe, (match p_ham par_pe with Some h => h | None => Cst 0 end),
    (fun s => [s; - (2 / 3)]%R), (fun s => [2 / 3 * s]%R), [4 / 3]%R, (3 / 5)%R, [2 / 3; - (2 / 3)]%R, [], 0%R, par_ce.
  split; [exact par_pe_case|]. split; [reflexivity|].
  destruct (C93_first_variation _ lu_gauss_ok _ (C67_linear_solver_sound _ lu_gauss_ok) _ _ _ _ _ _ _ _ _ _ _ _ _ _ _ _ _ par_pe_case) as (F & _).
  split; [exact F|]. intros E. destruct par_move as (df & I & A & HI & V). rewrite Rplus_0_l in E. specialize (E _ _ _ _ A HI). cbv zeta in E.
  assert (Z : (4 / 15 = 0)%R) by (rewrite <- V; exact E). lra.
Qed.
Print Assumptions C93_refuted.
