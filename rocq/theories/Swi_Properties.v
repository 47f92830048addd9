(** Problems with switches, from the declaration to the returned trajectories (C95). *)
From Coq Require Import Reals Ranalysis5 Lra Lia.
From Coquelicot Require Import Coquelicot.
From Verif Require Import Base Base_Facts Cont_Model Cont_Spec Cont_Proofs Cont_Warm Cont_Live Cont_Properties.
From Verif Require Import Map_More Sym_Expr Sym_Facts Sym_Model Sym_Spec Sym_RecSub Sym_Quant Sym_Switch Sym_Constr Sym_Eps Sym_Lu Sym_Dual Sym_Traj Sym_Var Sym_DiffCtl Scale_Model Jac_Model Jac_Proofs Unit_Model Unit_Spec Unit_Proofs Unit_Scale Unit_Properties.
From Verif Require Import Dual_Properties Ctl_Properties Shift_Properties Spbvp_Model Spbvp_Properties Pipe_Model Pipe_Properties.
From Verif Require Import Whole_Proofs Whole_Steps Whole_Geo Whole_Properties Chain_Model Chain_Facts Map_Model Map_Proofs Map_Chain Chain_Back Chain_Proofs Chain_Simpson Chain_Properties.
From Verif Require Import Full_Model Full_Proofs Full_Properties Bound_Proofs.
From Verif Require Import Sym_Constr Bound_Properties Start_Model Start_Proofs Start_Properties Swi_Proofs.
Open Scope string_scope.
Open Scope list_scope.
Open Scope nat_scope.

(** ** The values of switches *)
Definition swaps_of (p : prob) : list (string * expr) := swaps (length (p_switches p)) 0 (p_switches p).
Lemma swaps_values fn rho : forall n k sws, Forall (fun s => sw_sym s <> None) sws -> (forall s f, In s sws -> sw_sym s = Some f -> rho (sw_name s) = eval fn rho f) ->
  forall e, eval fn rho (subst_seq (swaps n k sws) e) = eval fn rho e /\ (wd fn rho (subst_seq (swaps n k sws) e) -> wd fn rho e).
Proof.
  induction n as [|n IH]; intros k sws SY C e; cbn [swaps]; [now split|]. destruct (nth_error sws k) as [s|] eqn:E; [|now apply IH]. destruct (sw_sym s) as [f|] eqn:ES; [|now apply IH].
  assert (V := C s f (nth_error_In _ _ E) ES). rewrite Forall_forall in SY.
  assert (NS : forall b, In b sws -> exists g, sw_sym b = Some g /\ sw_sym (subs_switch (sw_name s) f b) = Some (subst (sw_name s) f g)).
  { intros b IB. unfold subs_switch. destruct (sw_sym b) as [g|] eqn:EB; [|now apply SY in IB]. exists g. cbn. now rewrite EB. }
  match goal with |- context [swaps n (S k) ?a] => destruct (IH (S k) a) with (e := subst (sw_name s) f e) as (I1 & I2) end.
  - apply Forall_forall. intros a IA. apply in_map_iff in IA as (b & <- & IB). destruct (NS b IB) as (g & _ & ->). discriminate.
  - intros a g IA EA. apply in_map_iff in IA as (b & <- & IB). rewrite sw_name_subs. destruct (NS b IB) as (g0 & EB & EB'). rewrite EB' in EA. injection EA as <-. rewrite eval_subst_same by exact V. now apply C.
  - split; [etransitivity; [exact I1|]; now apply eval_subst_same|]. intros W. apply I2 in W. apply wd_subst_inv in W. rewrite <- V, upd_self in W. exact W.
Qed.

(** The switches of a problem: sympified, each defined once and not through
    itself, under names of their own. *)
Record switches_ok (p : prob) : Prop := mkSwitchesOk {
  sk_symp : p_symp p = true;
  sk_settled : settled p;
  sk_once : NoDup (map sw_name (p_switches p));
  sk_acyclic : acyclic (switch_map p);
  sk_apart : forall x, In x (map sw_name (p_switches p)) -> ~ In x (known p);
  sk_acts : forall d a x, In d (p_ci p ++ p_cp p ++ p_ct p) -> two_sided d = true -> c_act d = Some a -> In x (map sw_name (p_switches p)) -> ~ In x (vars a) }.

Lemma switch_names p : map fst (switch_map p) = map sw_name (p_switches p).
Proof. unfold switch_map. rewrite map_map. reflexivity. Qed.
(** [fill] gives every switch its value. *)
Lemma fill_exists fn p : p_symp p = true -> Forall (fun s => sw_sym s <> None) (p_switches p) -> NoDup (map sw_name (p_switches p)) -> acyclic (switch_map p) ->
  exists fill : (string -> R) -> string -> R, forall rho, Sym_Spec.consistent fn (switch_map p) (fill rho) /\ (forall x, ~ In x (map sw_name (p_switches p)) -> fill rho x = rho x) /\
    forall e, eval fn rho (subst_seq (swaps_of p) e) = eval fn (fill rho) e /\ (wd fn rho (subst_seq (swaps_of p) e) -> wd fn (fill rho) e).
Proof.
  intros SY SW ND AC. assert (GO : forall e x, In x (map sw_name (p_switches p)) -> ~ In x (vars (subst_seq (swaps_of p) e))).
  { intros e x I. destruct (rashs_values fn (set_cost_p p e)) as (q & RA & H); [exact SY|exact AC|exact ND|exact SW|]. assert (B := unsw_rashs _ _ RA). destruct (H (fun _ => 0%R)) as (rho & _ & _ & RL).
    assert (EQ : p_cost_p q = subst_seq (swaps_of p) e) by (change (p_cost_p q) with (p_cost_p (bare q)); rewrite B; reflexivity). rewrite <- EQ.
    destruct (r_cost_p _ _ _ RL) as (_ & G). apply in_map_iff in I as (s & <- & I). now apply G. }
  destruct AC as (rank & RK). exists (fun rho x => approx fn (switch_map p) rho (S (rank x)) x). intros rho.
  set (rho' := fun x => approx fn (switch_map p) rho (S (rank x)) x).
  assert (OUT : forall x, ~ In x (map sw_name (p_switches p)) -> rho' x = rho x) by (intros x NI; apply approx_other; now rewrite switch_names).
  assert (CO : Sym_Spec.consistent fn (switch_map p) rho').
  { intros k v Hkv. unfold rho'. cbn [approx]. rewrite (assoc_NoDup fn rho k v (switch_map p)) by (rewrite ?switch_names; assumption). apply eval_ext. intros y Hy.
    destruct (in_dec String.string_dec y (map fst (switch_map p))) as [I|I].
    - pose proof (RK k v Hkv y Hy I). exact (approx_stable fn (switch_map p) rank RK rho (S (rank y)) y ltac:(lia) (rank k) ltac:(lia)).
    - change (match assoc y (switch_map p) with Some v0 => eval fn (approx fn (switch_map p) rho (rank y)) v0 | None => rho y end) with (approx fn (switch_map p) rho (S (rank y)) y). now rewrite !approx_other. }
  split; [exact CO|]. split; [exact OUT|]. intros e.
  assert (EX : forall x, In x (vars (subst_seq (swaps_of p) e)) -> rho' x = rho x) by (intros x I; apply OUT; intros J; exact (GO e x J I)).
  destruct (swaps_values fn rho' (length (p_switches p)) 0 (p_switches p) SW) with (e := e) as (V1 & V2).
  { intros s f I E. apply CO. unfold switch_map. apply in_map_iff. exists s. split; [|exact I]. unfold switch_fun. now rewrite E. }
  split.
  - rewrite <- V1. symmetry. apply eval_ext. exact EX.
  - intros W. apply V2. revert W. apply wd_ext. intros x I. symmetry. now apply EX.
Qed.

(** ** C95: the pipeline *)

(** [q] is [p] without switches: same names, and at every assignment [rho] its
    expressions have the values that those of [p] have at [fill rho]. *)
Definition same_rate (fn : string -> nat -> R -> R) (fill : (string -> R) -> string -> R) (a b : string * expr) : Prop :=
  fst b = fst a /\ forall rho, eval fn rho (snd b) = eval fn (fill rho) (snd a).
Definition same_bound (fn : string -> nat -> R -> R) (fill : (string -> R) -> string -> R) (a b : option expr) : Prop :=
  match a, b with None, None => True | Some e, Some e' => forall rho, eval fn rho e' = eval fn (fill rho) e | _, _ => False end.
Record same_constr (fn : string -> nat -> R -> R) (fill : (string -> R) -> string -> R) (a b : constr) : Prop := mkSameConstr {
  sc_expr : forall rho, eval fn rho (c_expr b) = eval fn (fill rho) (c_expr a);
  sc_lower : same_bound fn fill (c_lower a) (c_lower b);
  sc_upper : same_bound fn fill (c_upper a) (c_upper b);
  sc_rest : c_act b = c_act a /\ c_method b = c_method a }.
Record without_switches (fn : string -> nat -> R -> R) (fill : (string -> R) -> string -> R) (p q : prob) : Prop := mkWithout {
  ws_none : p_switches q = [] /\ p_quants q = [];
  ws_names : p_ind q = p_ind p /\ p_controls q = p_controls p /\ p_consts q = p_consts p /\ p_params q = p_params p /\ p_cpars q = p_cpars p /\ p_maps q = p_maps p;
  ws_states : Forall2 (same_rate fn fill) (p_states p) (p_states q);
  ws_ci : Forall2 (same_constr fn fill) (p_ci p) (p_ci q);
  ws_cp : Forall2 (same_constr fn fill) (p_cp p) (p_cp q);
  ws_ct : Forall2 (same_constr fn fill) (p_ct p) (p_ct q);
  ws_cost_i : forall rho, eval fn rho (p_cost_i q) = eval fn (fill rho) (p_cost_i p);
  ws_cost_p : forall rho, eval fn rho (p_cost_p q) = eval fn (fill rho) (p_cost_p p);
  ws_cost_t : forall rho, eval fn rho (p_cost_t q) = eval fn (fill rho) (p_cost_t p) }.

Lemma Forall2_map_r {A B} (P : A -> B -> Prop) (f : A -> B) l : (forall a, In a l -> P a (f a)) -> Forall2 P l (map f l).
Proof. induction l as [|a l IH]; intros H; [constructor|]. constructor; [apply H; now left|]. apply IH. intros b I. apply H. now right. Qed.
Lemma unsw_without fn fill p : (forall rho e, eval fn rho (subst_seq (swaps_of p) e) = eval fn (fill rho) e) -> without_switches fn fill p (unswitched p).
Proof.
  intros V. assert (CS : forall l, Forall2 (same_constr fn fill) l (map (plug_constr (swaps_of p)) l)).
  { intros l. apply Forall2_map_r. intros c _. constructor; [intros rho; apply V| | |now split]; cbn [plug_constr c_lower c_upper]; [destruct (c_lower c)|destruct (c_upper c)]; cbn; auto. }
  constructor; try (intros rho; apply V); try apply CS; [now split|now repeat split|]. apply Forall2_map_r. intros s _. split; [reflexivity|]. intros rho. apply V.
Qed.

Lemma run_cat lu solve b : forall a p q r, run_tfs lu solve a p = Ok q -> run_tfs lu solve b q = Ok r -> run_tfs lu solve (a ++ b) p = Ok r.
Proof. induction a as [|f a IH]; intros p q r H K; cbn [app run_tfs] in *; [apply Ok_inj in H; now subst q|]. destruct (apply_tf lu solve f p) as [p1|]; [|discriminate]. cbn [bind] in *. now apply (IH p1 q r). Qed.
Lemma chain_cat fn sm lu solve b : forall a p q r m1 m2, run_chain fn sm lu solve a p = Ok (q, m1) -> run_chain fn sm lu solve b q = Ok (r, m2) -> run_chain fn sm lu solve (a ++ b) p = Ok (r, m1 ++ m2).
Proof.
  induction a as [|f a IH]; intros p q r m1 m2 H K; cbn [app run_chain] in *; [apply Ok_inj in H; injection H as <- <-; exact K|]. destruct (apply_tf lu solve f p) as [p1|]; [|discriminate]. cbn [bind] in *.
  destruct (run_chain fn sm lu solve a p1) as [[x y]|] eqn:E; [|discriminate]. cbn [bind fst snd] in H. apply Ok_inj in H. injection H as <- <-. rewrite (IH p1 x r y m2 E K). cbn [bind fst snd]. now rewrite app_assoc.
Qed.

(** What is run for [p] with switches is what is run for the problem without. *)
Lemma unsw_indirect o p fs : make_indirect o p = Ok fs -> exists e, constraint_tfs (all_constraints p) = Ok e /\ exists post,
  fs = ((if o_shift o then [FMomentum] else []) ++ e) ++ (if Nat.ltb 0 (length (p_switches p)) then [FRashs] else []) ++ FDual (o_method o) :: post /\
  ~ In FRashs (FDual (o_method o) :: post) /\ ~ In (FDual (o_method o)) post /\ make_indirect o (unswitched p) = Ok (((if o_shift o then [FMomentum] else []) ++ e) ++ FDual (o_method o) :: post).
Proof.
  intros MK. unfold make_indirect in *. assert (AC : constraint_tfs (all_constraints (unswitched p)) = constraint_tfs (all_constraints p)).
  { unfold all_constraints, unswitched, plug. cbn [p_ci p_cp p_ct]. rewrite <- !map_app. apply unsw_constraints. }
  rewrite AC. destruct (constraint_tfs (all_constraints p)) as [e|]; [|discriminate]. cbn [bind] in *.
  match type of MK with bind ?x _ = _ => destruct x as [ct|] eqn:EC; [|discriminate] end. cbn [bind] in *. apply Ok_inj in MK. exists e. split; [reflexivity|].
  eexists. split; [rewrite <- MK; rewrite <- !app_assoc; reflexivity|]. split; [|split; [|change (p_switches (unswitched p)) with (@nil switch); cbn [length Nat.ltb Nat.leb app]; rewrite <- !app_assoc; reflexivity]].
  all: assert (NC : ct <> FRashs /\ ct <> FDual (o_method o)) by
    (destruct (String.eqb _ "algebraic"); [apply Ok_inj in EC; subst ct; split; discriminate|]; destruct (String.eqb _ "differential"); [apply Ok_inj in EC; subst ct; split; discriminate|discriminate]).
  - intros [Q|Q]; [discriminate|]. cbn [app] in Q. destruct Q as [Q|Q]; [now apply NC|]. rewrite !in_app_iff in Q. destruct (o_norm o), (o_jac o && _)%bool; cbn in Q; intuition discriminate.
  - intros Q. cbn [app] in Q. destruct Q as [Q|Q]; [now apply NC|]. rewrite !in_app_iff in Q. destruct (o_norm o), (o_jac o && _)%bool; cbn in Q; intuition discriminate.
Qed.
Lemma unsw_chain fn sm lu solve o p fs p' ms : settled p -> make_indirect o p = Ok fs -> run_chain fn sm lu solve fs p = Ok (p', ms) ->
  exists early post p1, fs = (early ++ (if Nat.ltb 0 (length (p_switches p)) then [FRashs] else [])) ++ FDual (o_method o) :: post /\ ~ In FRashs early /\ ~ In (FDual (o_method o)) early /\ ~ In (FDual (o_method o)) post /\
    make_indirect o (unswitched p) = Ok (early ++ FDual (o_method o) :: post) /\
    run_tfs lu solve (early ++ (if Nat.ltb 0 (length (p_switches p)) then [FRashs] else [])) p = Ok p1 /\ run_tfs lu solve early (unswitched p) = Ok (bare p1) /\
    run_chain fn sm lu solve (early ++ FDual (o_method o) :: post) (unswitched p) = Ok (bare p', ms).
Proof.
  intros ST MK RC. destruct (unsw_indirect o p fs MK) as (e & EC & post & EF & NR & ND & MK'). set (a := (if o_shift o then [FMomentum] else []) ++ e) in *. exists a, post.
  assert (EA : Forall early a) by (apply Forall_app; split; [destruct (o_shift o); constructor; [now left|constructor]|exact (constraint_early _ _ EC)]).
  assert (NA : ~ In FRashs a) by (rewrite Forall_forall in EA; intros I; destruct (EA _ I) as [Q|[Q|Q]]; discriminate).
  subst fs. destruct (unsw_early fn sm lu solve a _ p p' ms EA ST RC) as (q & ms1 & ms2 & R1 & R2 & SQ & R3 & ->).
  assert (SW : length (p_switches q) = length (p_switches p)).
  { clear - EA R1. revert p ms1 R1. induction a as [|f a IH]; intros p ms1 R1; cbn [run_chain] in R1; [apply Ok_inj in R1; now injection R1 as <- <-|].
    assert (EF : early f) by (inversion EA; assumption). assert (FF : Forall early a) by (inversion EA; assumption). destruct (apply_tf lu solve f p) as [r|] eqn:E; [|discriminate]. cbn [bind] in R1.
    destruct (run_chain fn sm lu solve a r) as [[x y]|] eqn:ER; [|discriminate]. cbn [bind fst snd] in R1. apply Ok_inj in R1. injection R1 as <- _. rewrite (IH FF r y ER). clear IH ER.
    destruct EF as [ ->|[ ->| ->]]; cbn [apply_tf] in E.
    - unfold momentum_shift in E. destruct (p_symp p); [|discriminate]. apply Ok_inj in E. now subst r.
    - unfold eps_trig in E. destruct (p_symp p); [|discriminate]. destruct (find_at _ _) as [[k c]|]; [|discriminate]. cbv zeta in E. destruct (c_expr c); try discriminate. destruct (index_of _ _); [|discriminate]. destruct (set_nth _ _ _); [|discriminate]. cbn [bind] in E.
      destruct (c_act c), (c_lower c), (c_upper c); try discriminate. apply Ok_inj in E. subst r. cbn [p_switches set_maps subs_all set_quads set_ham set_switches]. apply map_length.
    - unfold utm in E. destruct (p_symp p); [|discriminate]. destruct (find_at _ _) as [[k c]|]; [destruct (utm_term p c); [|discriminate]; apply Ok_inj in E; now subst r|].
      destruct (find_at _ (p_cp p)) as [[k c]|]; [destruct (utm_term p c); [|discriminate]; apply Ok_inj in E; now subst r|].
      destruct (find_at _ (p_ct p)) as [[k c]|]; [destruct (utm_term p c); [|discriminate]; apply Ok_inj in E; now subst r|discriminate]. }
  assert (T1 := run_chain_tfs _ _ _ _ _ _ _ _ R1). assert (T2 := run_chain_tfs _ _ _ _ _ _ _ _ R2).
  assert (HB : exists p1, run_tfs lu solve (if Nat.ltb 0 (length (p_switches p)) then [FRashs] else []) q = Ok p1 /\ bare p1 = unswitched q /\ run_chain fn sm lu solve (FDual (o_method o) :: post) p1 = Ok (p', ms2)).
  { destruct (Nat.ltb_spec 0 (length (p_switches p))) as [L|L].
    - cbn [app] in R3. assert (T3 := run_chain_tfs _ _ _ _ _ _ _ _ R3). cbn [run_tfs apply_tf] in T3 |- *. destruct (rashs q) as [p1|] eqn:ER; [|discriminate]. cbn [bind].
      exists p1. split; [reflexivity|]. assert (B := unsw_rashs _ _ ER). split; [exact B|].
      assert (EM : p_maps p1 = p_maps q ++ []) by (rewrite app_nil_r; change (p_maps p1) with (p_maps (bare p1)); now rewrite B).
      destruct (run_chain_step fn sm lu solve FRashs (FDual (o_method o) :: post) q p1 p' ms2 [] ER EM R3) as (m2 & R4 & ->). exact R4.
    - exists q. split; [reflexivity|]. split; [|exact R3]. unfold unswitched. destruct (p_switches q) as [|s l]; [|cbn in SW; lia]. cbn [length swaps]. now rewrite plug_nil. }
  destruct HB as (p1 & H1 & H2 & H3). exists p1. split; [now rewrite <- app_assoc|]. split; [exact NA|]. split; [rewrite Forall_forall in EA; intros I; destruct (EA _ I) as [Q|[Q|Q]]; discriminate|]. split; [exact ND|]. split; [exact MK'|].
  split; [exact (run_cat lu solve _ _ _ _ _ T1 H1)|]. split; [now rewrite H2|]. apply (chain_cat fn sm lu solve _ _ _ _ _ _ _ R2). rewrite <- H2. now apply bare_run.
Qed.

(** A problem with switches becomes the boundary value problem, with the mappers,
    that it would become with the smoothed functions written in place of the
    switches. *)
Theorem C95_same : forall fn sm lu solve o p fs p' ms,
  switches_ok p -> make_indirect o p = Ok fs -> run_chain fn sm lu solve fs p = Ok (p', ms) ->
  exists fill q fs', (forall rho, Sym_Spec.consistent fn (switch_map p) (fill rho) /\ forall x, ~ In x (map sw_name (p_switches p)) -> fill rho x = rho x) /\
    without_switches fn fill p q /\ make_indirect o q = Ok fs' /\ run_chain fn sm lu solve fs' q = Ok (set_quants (set_switches p' []) [], ms).
Proof.
  intros fn sm lu solve o p fs p' ms [SY ST ON AC AP AA] MK RC. destruct (fill_exists fn p SY (st_sym _ ST) ON AC) as (fill & FI).
  destruct (unsw_chain fn sm lu solve o p fs p' ms ST MK RC) as (a & post & p1 & _ & _ & _ & _ & MK' & _ & _ & RC'). exists fill, (unswitched p), (a ++ FDual (o_method o) :: post).
  split; [intros rho; destruct (FI rho) as (A & B & _); now split|]. split; [|split; [exact MK'|exact RC']]. apply unsw_without. intros rho e. apply (FI rho).
Qed.
Print Assumptions C95_same.

(** ** C95: the solution *)

Record switch_setup (lu : list (list expr) -> list expr -> res (list expr)) (solve : list expr -> list string -> list (list expr)) (fn : string -> nat -> R -> R)
    (sm : list R -> list R -> res R) (o : options) (p p0 : prob) (fs pre post : list tf) (p1 p' : prob) (ms : list (mapper R)) : Prop := mkSwitchSetup {
  ss_make : make_indirect o p = Ok fs;
  ss_split : fs = pre ++ FDual (o_method o) :: post;
  ss_pre : run_tfs lu solve pre p = Ok p1;
  ss_chain : run_chain fn sm lu solve fs p = Ok (p', ms);
  ss_switches : switches_ok p;
  ss_norm : o_norm o = true;
  ss_method : lower (o_method o) = "traditional" \/ lower (o_method o) = "diffyg";
  ss_control : control_known o p1 p';
  ss_fresh : p_costates p = [] /\ p_coparams p = [] /\ p_params p = [] /\ p_quads p = [];
  ss_names : NoDup (p_ind p1 :: all_names p');
  ss_shift : if o_shift o then momentum_shift None p = Ok p0 else p0 = p;
  ss_tame : tame p0;
  ss_lams : forall x, In x (syms (p_states p0)) -> ~ In (lam x) (p_controls p0);
  ss_bounds : o_shift o = true -> forall d e, trig p0 d -> c_lower d = Some e \/ c_upper d = Some e -> ~ In (p_ind p0) (vars e);
  ss_cost : incl (vars (p_cost_i p1) ++ vars (p_cost_t p1)) (syms (p_states p1) ++ p_consts p1) /\ incl (vars (p_cost_p p1)) (syms (p_states p1) ++ p_controls p1 ++ p_consts p1) }.

(** [p1] is what Dualize starts from: bounds and switches are in its expressions. *)
Record regular_switched (fn : string -> nat -> R -> R) (p p1 : prob) (back : (string -> R) -> string -> R) : Prop := mkRegSw {
  rw_same : forall rho x, (forall d, trig p d -> c_expr d <> Var x) -> ~ In x (map sw_name (p_switches p)) -> back rho x = rho x;
  rw_states : forall rho x e, In (x, e) (p_states p) -> exists e1, In (x, e1) (p_states p1) /\ eval fn rho e1 = eval fn (back rho) e;
  rw_cost_i : forall rho, eval fn rho (p_cost_i p1) = (eval fn (back rho) (p_cost_i p) + sums (fence fn (back rho)) (p_ci p))%R;
  rw_cost_p : forall rho, eval fn rho (p_cost_p p1) = (eval fn (back rho) (p_cost_p p) + sums (charge fn (back rho)) (p_cp p))%R;
  rw_cost_t : forall rho, eval fn rho (p_cost_t p1) = (eval fn (back rho) (p_cost_t p) + sums (fence fn (back rho)) (p_ct p))%R }.
(** [r] shows, from start to end, a curve on which every switch has the value of its
    smoothed function; it respects what the user asked for and comes from a
    stationary point of the problem with bounds and switches put in. *)
Definition switched_samples (fn : string -> nat -> R -> R) (p p1 : prob) (k : list R) (D : R) (r : sol R) : Prop :=
  exists t0 c back, returned p (fun t => back (c t)) (s_t r) k r /\ hd 0%R (s_t r) = t0 /\ last (s_t r) 0%R = (t0 + D)%R /\
    Forall (fun t => (t0 <= t <= t0 + D)%R) (s_t r) /\ (forall t i x, nth_error (p_consts p) i = Some x -> back (c t) x = nth i k 0%R) /\
    (forall rho, Sym_Spec.consistent fn (switch_map p) (back rho)) /\
    respects fn p (fun t => back (c t)) t0 (t0 + D)%R /\ regular_switched fn p p1 back /\ feasible fn p1 c t0 (t0 + D)%R /\ extremal fn p1 c t0 (t0 + D)%R.

Section Transfer.
  Variables (fn : string -> nat -> R -> R) (p : prob) (fill : (string -> R) -> string -> R).
  Hypothesis OK : switches_ok p.
  Hypothesis FI : forall rho, Sym_Spec.consistent fn (switch_map p) (fill rho) /\ (forall x, ~ In x (map sw_name (p_switches p)) -> fill rho x = rho x) /\
    forall e, eval fn rho (subst_seq (swaps_of p) e) = eval fn (fill rho) e /\ (wd fn rho (subst_seq (swaps_of p) e) -> wd fn (fill rho) e).
  Local Notation names := (map sw_name (p_switches p)).
  Local Notation q := (unswitched p).

  Lemma tr_out rho x : ~ In x names -> fill rho x = rho x.
  Proof. apply FI. Qed.
  Lemma tr_val rho e : eval fn rho (subst_seq (swaps_of p) e) = eval fn (fill rho) e.
  Proof. apply FI. Qed.
  Lemma tr_wd rho e : wd fn rho (subst_seq (swaps_of p) e) -> wd fn (fill rho) e.
  Proof. apply FI. Qed.
  Lemma tr_fresh e : (forall x, In x names -> ~ In x (vars e)) -> subst_seq (swaps_of p) e = e.
  Proof. intros H. apply seq_fresh. intros x I. apply H. exact (swaps_names _ _ _ _ I). Qed.
  Lemma tr_same rho e : (forall x, In x names -> ~ In x (vars e)) -> eval fn (fill rho) e = eval fn rho e.
  Proof. intros H. rewrite <- tr_val, tr_fresh by exact H. reflexivity. Qed.
  Lemma tr_state x : In x (syms (p_states p)) -> ~ In x names.
  Proof. intros I J. apply (sk_apart p OK x J). unfold known. right. apply in_app_iff. now left. Qed.
  Lemma tr_control x : In x (p_controls p) -> ~ In x names.
  Proof. intros I J. exact (st_controls p (sk_settled p OK) x J I). Qed.
  Lemma tr_const x : In x (p_consts p) -> ~ In x names.
  Proof. intros I J. exact (st_consts p (sk_settled p OK) x J I). Qed.
  Lemma tr_under s : ~ In ("_" ++ s)%string names.
  Proof. intros J. exact (st_plain p (sk_settled p OK) _ s J eq_refl). Qed.

  Lemma tr_within rho d : (forall u, c_expr d = Var u -> ~ In u names) -> (exists u, c_expr d = Var u) -> within fn rho (plug_constr (swaps_of p) d) -> within fn (fill rho) d.
  Proof.
    intros NU (u & EU) (v & lo & up & E1 & E2 & E3 & H). cbn [plug_constr c_expr c_lower c_upper] in *. rewrite EU in E1. rewrite tr_fresh in E1 by (intros x J [ <-|[]]; exact (NU u EU J)). injection E1 as <-.
    destruct (c_lower d) as [lo'|] eqn:EL; [|discriminate]. destruct (c_upper d) as [up'|] eqn:EP; [|discriminate]. cbn in E2, E3. injection E2 as <-. injection E3 as <-.
    rewrite !tr_val in H. exists u, lo', up'. split; [exact EU|]. split; [exact EL|]. split; [exact EP|]. now rewrite tr_out by (now apply NU).
  Qed.
  Lemma tr_clear rho d : clear fn rho (plug_constr (swaps_of p) d) -> clear fn (fill rho) d.
  Proof.
    intros (lo & up & E2 & E3 & H1 & H2 & H3 & H4 & H5). cbn [plug_constr c_expr c_lower c_upper] in *.
    destruct (c_lower d) as [lo'|] eqn:EL; [|discriminate]. destruct (c_upper d) as [up'|] eqn:EP; [|discriminate]. cbn in E2, E3. injection E2 as <-. injection E3 as <-.
    rewrite !tr_val in H1. rewrite !tr_val in H2. exists lo', up'. split; [exact EL|]. split; [exact EP|]. split; [exact H1|]. split; [exact H2|]. split; [now apply tr_wd|]. split; now apply tr_wd.
  Qed.
  Lemma tr_two d : two_sided (plug_constr (swaps_of p) d) = two_sided d.
  Proof. apply plug_sides. Qed.
  Lemma filter_map' {A B} (g : A -> B) (f : B -> bool) l : filter f (map g l) = map g (filter (fun a => f (g a)) l).
  Proof. induction l as [|a l IH]; [reflexivity|]. cbn. destruct (f (g a)); cbn; now rewrite IH. Qed.
  Lemma tr_sums (f : (string -> R) -> constr -> R) rho l : (forall d, In d l -> two_sided d = true -> f rho (plug_constr (swaps_of p) d) = f (fill rho) d) ->
    sums (f rho) (map (plug_constr (swaps_of p)) l) = sums (f (fill rho)) l.
  Proof.
    intros H. unfold sums. rewrite filter_map', map_map. f_equal. rewrite (filter_ext _ two_sided) by (intros; apply tr_two). apply map_ext_in. intros d I. apply filter_In in I as (I & T). now apply H.
  Qed.
  Lemma tr_fence rho d : In d (p_ci p ++ p_cp p ++ p_ct p) -> two_sided d = true -> fence fn rho (plug_constr (swaps_of p) d) = fence fn (fill rho) d.
  Proof.
    intros I T. unfold fence. cbn [plug_constr c_expr c_lower c_upper c_act]. destruct (c_act d) as [a|] eqn:EA; [|reflexivity].
    destruct (c_lower d) as [lo|]; [|reflexivity]. destruct (c_upper d) as [up|]; [|reflexivity]. cbn [option_map]. rewrite !tr_val. f_equal. symmetry. apply tr_same. intros x J. exact (sk_acts p OK d a x I T EA J).
  Qed.
  Lemma tr_charge rho d : In d (p_cp p) -> two_sided d = true -> (is_method "epstrig" d = true -> exists u, c_expr d = Var u /\ In u (p_controls p)) -> charge fn rho (plug_constr (swaps_of p) d) = charge fn (fill rho) d.
  Proof.
    intros I T BU. unfold charge. change (is_method "epstrig" (plug_constr (swaps_of p) d)) with (is_method "epstrig" d). cbn [plug_constr c_expr c_lower c_upper c_act]. destruct (c_act d) as [a|] eqn:EA; [|reflexivity].
    destruct (c_lower d) as [lo|]; [|reflexivity]. destruct (c_upper d) as [up|]; [|reflexivity]. cbn [option_map]. rewrite !tr_val.
    assert (ID : In d (p_ci p ++ p_cp p ++ p_ct p)) by (rewrite !in_app_iff; tauto). assert (EV : eval fn (fill rho) a = eval fn rho a) by (apply tr_same; intros x J; exact (sk_acts p OK d a x ID T EA J)). rewrite EV.
    destruct (is_method "epstrig" d); [|reflexivity]. destruct (BU eq_refl) as (u & -> & IU). rewrite tr_fresh by (intros x J [ <-|[]]; exact (tr_control u IU J)). rewrite tr_out; [reflexivity|]. apply tr_under.
  Qed.

  Hypothesis BD : forall d, trig p d -> exists u, c_expr d = Var u /\ In u (p_controls p).
  Lemma tr_respects c t0 tf : respects fn q c t0 tf -> respects fn p (fun t => fill (c t)) t0 tf.
  Proof.
    intros [A1 A2 A3 A4 A5]. constructor.
    - intros t Ht. destruct (A1 t Ht) as (F & T). split.
      + intros x e I. assert (IX : In x (syms (p_states p))) by (apply in_map_iff; exists (x, e); now split). rewrite <- tr_val.
        apply (is_derive_ext (fun s => c s x)); [intros s; symmetry; apply tr_out; now apply tr_state|]. apply F. change (In (plug_dyn (swaps_of p) (x, e)) (map (plug_dyn (swaps_of p)) (p_states p))). now apply in_map.
      + rewrite tr_out; [exact T|]. intros J. apply (sk_apart p OK _ J). now left.
    - intros d I T. rewrite <- tr_val. apply (A2 (plug_constr (swaps_of p) d)); [now apply (in_map (plug_constr (swaps_of p)))|]. now rewrite tr_two.
    - intros d I T. rewrite <- tr_val. apply (A3 (plug_constr (swaps_of p) d)); [now apply (in_map (plug_constr (swaps_of p)))|]. now rewrite tr_two.
    - intros t d Ht TD. destruct (BD d TD) as (u & EU & IU). apply tr_within; [intros v EV; assert (v = u) by congruence; subst v; now apply tr_control|now exists u|]. apply A4; [exact Ht|].
      destruct TD as (I1 & I2 & I3). split; [now apply (in_map (plug_constr (swaps_of p)))|]. split; [now rewrite tr_two|exact I3].
    - intros t d Ht I U. apply tr_clear. apply A5; [exact Ht|now apply (in_map (plug_constr (swaps_of p)))|]. now rewrite plug_sel.
  Qed.
  Lemma tr_regular p1 back : regularised fn q p1 back -> regular_switched fn p p1 (fun rho => fill (back rho)).
  Proof.
    intros [B1 B2 B3 B4 B5]. constructor.
    - intros rho x NT NS. rewrite tr_out by exact NS. apply B1. intros d' (I & T & M) E. apply in_map_iff in I as (d & <- & I). assert (TD : trig p d) by (split; [exact I|]; split; [now rewrite <- tr_two|exact M]).
      destruct (BD d TD) as (u & EU & IU). cbn [plug_constr c_expr] in E. rewrite EU, tr_fresh in E by (intros y J [ <-|[]]; exact (tr_control u IU J)). apply (NT d TD). congruence.
    - intros rho x e I. destruct (B2 rho x (subst_seq (swaps_of p) e)) as (e1 & I1 & E1); [change (In (plug_dyn (swaps_of p) (x, e)) (map (plug_dyn (swaps_of p)) (p_states p))); now apply in_map|]. exists e1. split; [exact I1|]. now rewrite E1, tr_val.
    - intros rho. rewrite B3. f_equal; [apply tr_val|]. apply tr_sums. intros d I T. apply tr_fence; [rewrite !in_app_iff; tauto|exact T].
    - intros rho. rewrite B4. f_equal; [apply tr_val|]. apply tr_sums. intros d I T. apply tr_charge; [exact I|exact T|]. intros M. apply BD. now repeat split.
    - intros rho. rewrite B5. f_equal; [apply tr_val|]. apply tr_sums. intros d I T. apply tr_fence; [rewrite !in_app_iff; tauto|exact T].
  Qed.
  Lemma tr_returned c ts k r : returned q c ts k r -> returned p (fun t => fill (c t)) ts k r.
  Proof.
    assert (ES : syms (p_states q) = syms (p_states p)) by apply unsw_names. assert (LS : length (p_states q) = length (p_states p)) by (change (p_states q) with (map (plug_dyn (swaps_of p)) (p_states p)); apply map_length).
    intros [A1 A2 A3 A4 A5 A6]. rewrite ES, LS in *. constructor; try assumption.
    - rewrite A2. f_equal. apply map_ext. intros t. apply map_ext_in. intros x I. symmetry. apply tr_out. now apply tr_state.
    - rewrite A3. f_equal. apply map_ext. intros t. apply map_ext_in. intros x I. symmetry. apply tr_out. now apply tr_control.
    - rewrite A4. f_equal. apply map_ext. intros t. apply map_ext_in. intros x I. symmetry. apply tr_out. apply (tr_under ("lam_" ++ x)).
  Qed.
  Lemma tr_samples p1 k D r : bounded_samples fn q p1 k D r -> switched_samples fn p p1 k D r.
  Proof.
    intros (t0 & c & back & A1 & A2 & A3 & A4 & A5 & A6 & A7 & A8 & A9). exists t0, c, (fun rho => fill (back rho)).
    split; [now apply (tr_returned (fun t => back (c t)))|]. split; [exact A2|]. split; [exact A3|]. split; [exact A4|].
    split; [intros t i x E; rewrite tr_out by (apply tr_const; exact (nth_error_In _ _ E)); exact (A5 t i x E)|].
    split; [intros rho; apply FI|]. split; [now apply (tr_respects (fun t => back (c t)))|]. split; [now apply tr_regular|]. now split.
  Qed.
End Transfer.

Lemma bare_samples fn p p1 k D r : switched_samples fn p (bare p1) k D r -> switched_samples fn p p1 k D r.
Proof.
  intros (t0 & c & back & A1 & A2 & A3 & A4 & A5 & A6 & A7 & [B1 B2 B3 B4 B5] & A8 & A9). exists t0, c, back. do 7 (split; [assumption|]). split; [constructor; assumption|].
  split; [destruct A8; constructor; assumption|exact A9].
Qed.
Lemma bare_tidy lu fn o p p1 p' h g : tidy lu fn o p p1 p' h g -> tidy lu fn o (unswitched p) (bare p1) (bare p') h g.
Proof.
  intros TI Y Q t0 c S CL RO t Ht. destruct (TI Y Q t0 c) with (t := t) as (D1 & D2 & D3 & D4); [|exact CL| |exact Ht|].
  - destruct S. constructor; assumption.
  - destruct RO. constructor; assumption.
  - split; [exact D1|]. split; [exact D2|]. split; [exact D3|]. intros OC. destruct (D4 OC) as (D5 & D6). split; [exact D5|]. intros pD udot ED EU. rewrite bare_dualize in ED.
    destruct (dualize lu (o_method o) p1) as [pE|]; [|discriminate]. cbn [over_bare] in ED. apply Ok_inj in ED. subst pD. exact (D6 pE udot eq_refl EU).
Qed.
(** Bounds of a problem and of the problem without switches. *)
Lemma unsw_tame p : (forall x, In x (map sw_name (p_switches p)) -> ~ In x (known p) /\ ~ In x (p_controls p)) -> tame p -> tame (unswitched p) /\
  (forall d', trig (unswitched p) d' -> exists d, trig p d /\ c_lower d' = c_lower d /\ c_upper d' = c_upper d).
Proof.
  intros NK [A1 A2 A3 A4 A5 A6]. set (l := swaps_of p).
  assert (FR : forall e, (forall x, In x (map sw_name (p_switches p)) -> ~ In x (vars e)) -> subst_seq l e = e) by (intros e H; apply seq_fresh; intros x I; apply H; exact (swaps_names _ _ _ _ I)).
  assert (KN : known (unswitched p) = known p) by (unfold known; rewrite unsw_names; reflexivity).
  assert (TR : forall d', trig (unswitched p) d' -> exists d, trig p d /\ d' = plug_constr l d /\ c_expr d' = c_expr d /\ c_lower d' = c_lower d /\ c_upper d' = c_upper d).
  { intros d' (I & T & M). apply in_map_iff in I as (d & <- & I). change (swaps _ _ _) with l in *. assert (TD : trig p d) by (split; [exact I|]; split; [now rewrite <- (plug_sides l)|exact M]). exists d. split; [exact TD|]. split; [reflexivity|].
    destruct (A3 d TD) as (u & EU & IU & _). assert (A6d := A6 d). cbn [plug_constr c_expr c_lower c_upper]. rewrite EU. split; [apply FR; intros x J [ <-|[]]; now apply (NK u J)|].
    split; [destruct (c_lower d) as [e|] eqn:E|destruct (c_upper d) as [e|] eqn:E]; cbn [option_map]; try reflexivity; rewrite FR; try reflexivity; intros x J K; apply (proj1 (NK x J)); apply (A6d e TD); auto. }
  split; [|intros d' TD; destruct (TR d' TD) as (d & T1 & _ & _ & T2 & T3); exists d; split; [exact T1|]; split; [exact T2|exact T3]].
  constructor; rewrite ?KN; try assumption.
  - intros d' TD. destruct (TR d' TD) as (d & T1 & _ & T4 & _). rewrite T4. exact (A3 d T1).
  - change (p_cp (unswitched p)) with (map (plug_constr l) (p_cp p)). rewrite filter_map', map_map.
    assert (EQ : map (fun d => c_expr (plug_constr l d)) (filter (fun a => (two_sided (plug_constr l a) && is_method "epstrig" (plug_constr l a))%bool) (p_cp p)) = map c_expr (filter (fun d => (two_sided d && is_method "epstrig" d)%bool) (p_cp p))).
    { rewrite (filter_ext _ (fun d => (two_sided d && is_method "epstrig" d)%bool)) by (intros d; rewrite plug_sides; reflexivity). apply map_ext_in. intros d I. apply filter_In in I as (I & TM). apply andb_true_iff in TM as (T & M).
      destruct (A3 d) as (u & EU & IU & _); [now repeat split|]. cbn [plug_constr c_expr]. rewrite EU. apply FR. intros x J [ <-|[]]. now apply (NK u J). }
    rewrite EQ. exact A4.
  - intros d' a I T E. assert (I' : In d' (map (plug_constr l) (p_ci p ++ p_cp p ++ p_ct p))) by (rewrite !map_app; exact I). apply in_map_iff in I' as (d & <- & I'). rewrite plug_sides in T. exact (A5 d a I' T E).
  - intros d' e TD H. destruct (TR d' TD) as (d & T1 & _ & _ & T2 & T3). rewrite T2, T3 in H. exact (A6 d e T1 H).
Qed.

Lemma unsw_setup lu solve fn sm o p p0 fs pre post p1 p' ms : switch_setup lu solve fn sm o p p0 fs pre post p1 p' ms ->
  exists fs' pre', bound_setup lu solve fn sm o (unswitched p) (unswitched p0) fs' pre' post (bare p1) (bare p') ms /\ (In FEps pre' -> In FEps pre).
Proof.
  intros [A1 A2 A3 A4 A5 A6 A7 A8 A9 A10 A11 A12 A13 A14 A15]. destruct A5 as [SY ST ON AC AP AA].
  destruct (unsw_chain fn sm lu solve o p fs p' ms ST A1 A4) as (early & post' & p1' & EF & NR & ND1 & ND2 & MK & R1 & R2 & RC).
  rewrite A2 in EF. symmetry in EF. apply split_unique in EF; [|rewrite in_app_iff; intros [I|I]; [exact (ND1 I)|destruct (Nat.ltb _ _); [destruct I as [I|[]]; discriminate|exact I]]|exact ND2].
  destruct EF as (EP & EQ). subst pre post'. rewrite A3 in R1. apply Ok_inj in R1. subst p1'.
  assert (SH : (if o_shift o then momentum_shift None (unswitched p) = Ok (unswitched p0) else unswitched p0 = unswitched p) /\ p_switches p0 = p_switches p /\ p_controls p0 = p_controls p /\
    (forall x, In x (map sw_name (p_switches p)) -> ~ In x (known p0))).
  { destruct (o_shift o); [|subst p0; now repeat split]. split; [exact (proj2 (unsw_momentum p p0 ST A11))|]. unfold momentum_shift in A11. rewrite SY in A11. apply Ok_inj in A11. subst p0. split; [reflexivity|]. split; [reflexivity|].
    intros x I J. unfold known in J. cbn [p_ind set_maps set_ind set_states Sym_Model.p_states p_consts] in J. destruct J as [J|J]; [exact (st_plain p ST x (p_ind p) I (eq_sym J))|]. apply (AP x I). unfold known.
    rewrite in_app_iff in J. change (In x (syms (p_states p ++ [(p_ind p, Cst 1)])) \/ In x (p_consts p)) in J. unfold syms in J. rewrite map_app, in_app_iff in J. cbn in J. cbn [In]. rewrite in_app_iff. tauto. }
  destruct SH as (SH & SW & SC & SK).
  destruct (unsw_tame p0) as (TM & TB); [rewrite SW, SC; intros x I; split; [now apply SK|exact (st_controls p ST x I)]|exact A12|].
  exists (early ++ FDual (o_method o) :: post), early. split; [|intros I; apply in_app_iff; now left].
  constructor; try assumption; try reflexivity.
  - destruct A9 as (B1 & B2 & B3 & B4). repeat split; unfold unswitched, plug; cbn [p_costates p_coparams p_params p_quads]; now rewrite ?B1, ?B2, ?B3, ?B4.
  - rewrite unsw_names. exact A13.
  - intros OS d' e TD H. destruct (TB d' TD) as (d & T1 & T2 & T3). rewrite T2, T3 in H. exact (A14 OS d e T1 H).
Qed.

(** Every trajectory that converged and is returned for a problem with switches and
    bounds shows what the user asked for. *)
Theorem C95_solve : forall lu, lu_ok lu -> forall solve fn sm o p p0 p1 p' fs pre post ms h nan ivp recon auto compute slv fuel steps g k helper c0 x0 T kk out res,
  switch_setup lu solve fn sm o p p0 fs pre post p1 p' ms -> p_cpars p = [] ->
  (lower (o_control o) = "differential" -> lower (o_method o) = "diffyg" -> length (p_controls p) = 1 /\ (p_states p <> [] \/ o_shift o = true)) ->
  supported solve fn o p1 -> p_ham p' = Some h -> (forall ys ts, length ys = length ts -> ts <> [] -> exists v, sm ys ts = Ok v) ->
  scaling_ok auto p' compute -> runs fn p' auto compute slv -> ivp_ok ivp -> guess_from o pre p g k x0 T kk ->
  solve_run fn p p' ms nan ivp recon fuel slv steps g k helper c0 = Finished out res ->
  Forall2 (Forall2 (fun g r => converged g -> (0 < duration g)%R -> tidy lu fn o p p1 p' h g -> switched_samples fn p p1 (t_const g) (duration g) r)) out res.
Proof.
  intros lu LU solve fn sm o p p0 p1 p' fs pre post ms h nan ivp recon auto compute slv fuel steps g k helper c0 x0 T kk out res SS CP GE SU HH SMT SC RU IV GF SR.
  destruct (unsw_setup lu solve fn sm o p p0 fs pre post p1 p' ms SS) as (fs' & pre' & BS & EP).
  assert (OK := ss_switches _ _ _ _ _ _ _ _ _ _ _ _ _ SS). destruct (fill_exists fn p (sk_symp _ OK) (st_sym _ (sk_settled _ OK)) (sk_once _ OK) (sk_acyclic _ OK)) as (fill & FI).
  assert (LS : length (p_states (unswitched p)) = length (p_states p)) by (change (p_states (unswitched p)) with (map (plug_dyn (swaps_of p)) (p_states p)); apply map_length).
  assert (GF' : guess_from o pre' (unswitched p) g k x0 T kk).
  { destruct GF as [x1 SO LK|s x1 GM GI GO FX].
    - apply from_settings; [|exact LK]. destruct SO as [S1 S2 S3 S4 S5 S6]. constructor; rewrite ?LS; try assumption. destruct S5 as [(D & N)|S5]; [left; split; [exact D|tauto]|now right].
    - apply from_user; try assumption. destruct GO. constructor; rewrite ?LS; try assumption. tauto. }
  assert (SR' : solve_run fn (unswitched p) (bare p') ms nan ivp recon fuel slv steps g k helper c0 = Finished out res).
  { rewrite <- SR. unfold solve_run, first_guess, helped. rewrite unsw_names. reflexivity. }
  assert (GE' : lower (o_control o) = "differential" -> lower (o_method o) = "diffyg" -> length (p_controls (unswitched p)) = 1 /\ (p_states (unswitched p) <> [] \/ o_shift o = true)).
  { intros Q1 Q2. destruct (GE Q1 Q2) as (G1 & G2). split; [exact G1|]. destruct G2 as [G2|G2]; [left|now right]. intros E. apply G2. apply length_zero_iff_nil. rewrite <- LS, E. reflexivity. }
  assert (SC' : scaling_ok auto (bare p') compute).
  { intros A. destruct (SC A) as (G & u & CO & FA). exists G, u. split; [|exact FA]. destruct CO. constructor; try assumption; constructor. }
  assert (F := C91_solve_bounded lu LU solve fn sm o (unswitched p) (unswitched p0) (bare p1) (bare p') fs' pre' post ms h nan ivp recon auto compute slv fuel steps g k helper c0 x0 T kk out res BS CP GE' SU HH SMT SC' RU IV GF' SR').
  assert (BD : forall d, trig p d -> exists u, c_expr d = Var u /\ In u (p_controls p)).
  { intros d TD. assert (TM := ss_tame _ _ _ _ _ _ _ _ _ _ _ _ _ SS). assert (SH := ss_shift _ _ _ _ _ _ _ _ _ _ _ _ _ SS).
    assert (K : p_cp p0 = p_cp p /\ p_controls p0 = p_controls p) by (destruct (o_shift o); [unfold momentum_shift in SH; destruct (p_symp p); [|discriminate]; apply Ok_inj in SH; now subst p0|now subst p0]).
    destruct (tm_bounded p0 TM d) as (u & E & I & _); [unfold trig; rewrite (proj1 K); exact TD|]. exists u. split; [exact E|]. now rewrite <- (proj2 K). }
  clear - F OK FI BD. induction F as [|l rs out res H F IH]; constructor; [|exact IH]. clear IH F. induction H as [|t r l rs H F IH]; constructor; [|exact IH].
  intros C D TI. apply bare_samples, (tr_samples fn p fill OK FI BD (bare p1)). apply H; [exact C|exact D|now apply bare_tidy].
Qed.
Print Assumptions C95_solve.

From Verif Require Guess_Model.
(** ** Example *)
(** From x0 to x0 + 1 with cost w + u^2, where the switch w is 1 for x <= 0 and 1
    for -x <= 0: smoothed, 1 / (1 + exp (10 x)) + 1 / (1 + exp (-10 x)). *)
Definition sw_w : switch := sympify_switch (mkSwitch "w" [Cst 1; Cst 1] [[Var "x"]; [Opp (Var "x")]] (Div (Cst 1) (Cst 10)) None).
Definition sw_p : prob :=
  mkProb "t" [("x", Var "u")] [] [] [] ["u"] [] [plain (Sub (Var "x") (Var "x0"))] [] [plain (Sub (Var "x") (Add (Var "x0") (Cst 1)))] [] []
    (Cst 0) (Add (Var "w") (Mul (Var "u") (Var "u"))) (Cst 0) ["x0"] [] [sw_w] [] None [] true false.
Definition sw_p1 : prob := Eval vm_compute in match rashs sw_p with Ok q => q | Raise _ => sw_p end.
Definition sw_b : prob := Eval vm_compute in go_bvp go_alg sw_p.
Lemma sw_setup : switch_setup lu_gauss (solve_linear lu_gauss) ex_fn scipy_simpson go_alg sw_p sw_p (go_tfs go_alg sw_p) [FRashs] [FAlg; FNorm; FSquash] sw_p1 sw_b (go_ms go_alg sw_p).
Proof.
  apply mkSwitchSetup.
  - reflexivity.
  - reflexivity.
  - vm_compute. reflexivity.
  - apply go_chain. vm_compute. reflexivity.
  - constructor.
    + reflexivity.
    + constructor.
      * constructor; [discriminate|constructor].
      * intros x [ <-|[]] [J|[]]. discriminate J.
      * intros x [ <-|[]] [J|[]]. discriminate J.
      * intros x s [ <-|[]] J. discriminate J.
      * intros d [].
    + repeat constructor; cbn; tauto.
    + exists (fun _ => 0). intros k v [H|[]] y Hy I. injection H as <- <-. cbn in I. destruct I as [ <-|[]]. cbn in Hy. repeat (destruct Hy as [Hy|Hy]; [discriminate Hy|]). destruct Hy.
    + intros x [ <-|[]] J. cbn in J. repeat (destruct J as [J|J]; [discriminate J|]). destruct J.
    + intros d a x I T E. cbn in I. repeat (destruct I as [ <-|I]; [discriminate T|]). destruct I.
  - reflexivity.
  - left. reflexivity.
  - left. split; [reflexivity|]. split; [discriminate|]. split.
    + intros cand e x I J V. cbn in I. destruct I as [ <-|[]]. cbn in J. destruct J as [ <-|[]]. cbn in V. repeat (destruct V as [ <-|V]; [cbn; tauto|]). destruct V.
    + intros h x H I. injection H as <-. cbn in I. repeat (destruct I as [ <-|I]; [cbn; tauto|]). destruct I.
  - repeat split.
  - names.
  - reflexivity.
  - constructor.
    + names.
    + intros x I J. cbn in I, J. destruct I as [ <-|[]]. repeat (destruct J as [J|J]; [discriminate J|]). exact J.
    + intros d (I & _). destruct I.
    + constructor.
    + intros d a I T E. cbn in I. repeat (destruct I as [ <-|I]; [discriminate T|]). destruct I.
    + intros d e (I & _). destruct I.
  - intros x I J. cbn in I, J. destruct J as [J|[]]. repeat (destruct I as [ <-|I]; [discriminate J|]). destruct I.
  - discriminate.
  - split; [intros x []|]. intros x I. cbn in I. repeat (destruct I as [ <-|I]; [cbn; tauto|]). destruct I.
Qed.
Lemma sw_solves x0 : solves ex_fn sw_b 0 1 (fun s => [x0 + s; -2]%R) (fun _ => []) [1%R] [2; -2]%R [x0].
Proof.
  assert (EX : forall x, exp (- x * / (1 * / 10)) = (/ exp (x * / (1 * / 10)))%R) by (intros x; rewrite <- exp_Ropp; f_equal; field).
  split.
  - intros t Ht. eexists. eexists. split; [reflexivity|]. split; [reflexivity|]. split; [|intros i Hi; cbn in Hi; lia].
    intros [|[|i]] Hi; [| |cbn in Hi; lia]; cbn; rewrite ?EX; assert (EP := exp_pos ((x0 + t) * / (1 * / 10)));
      set (E := exp ((x0 + t) * / (1 * / 10))) in *.
    + match goal with |- is_derive _ _ ?v => replace v with 1%R by (field; repeat split; lra) end. line 1%R x0.
    + match goal with |- is_derive _ _ ?v => replace v with 0%R by (field; repeat split; lra) end. line 0%R (-2)%R.
  - eexists. split; [reflexivity|]. cbn. rewrite ?EX. assert (EP := exp_pos ((x0 + 1) * / (1 * / 10))). set (E := exp ((x0 + 1) * / (1 * / 10))) in *.
    repeat (apply Forall_cons; [first [lra|field; repeat split; lra]|]). apply Forall_nil.
Qed.
Definition sw_alg : spalg (F := R) := mkSpalg (deriv_of ex_fn sw_b) (quad_of ex_fn sw_b) (bc5 (fun y0 yf pp pc k => bc_of ex_fn sw_b y0 [] yf [] pp pc k)) None None 20.
Definition sw_slv (sb : handed (F := R) -> res (opt (F := R))) : Cont_Model.solver R (sol R) :=
  fun _ g => match solve_case false (fun _ => mkFactors 1%R [] [] [] [] [] []) true sb sw_alg g with Ok r => Ok (snd r) | Raise e => Raise e end.
Lemma sw_runs sb : honest 2 sb -> runs ex_fn sw_b false (fun _ => mkFactors 1%R [] [] [] [] [] []) (sw_slv sb).
Proof. intros HO k g. exists true, sb, sw_alg. split; [exact HO|]. split; [repeat split|reflexivity]. Qed.
Lemma sw_converges sb : honest 2 sb -> finds 2 sb -> forall k g, spans sw_b 0 1 (to_sol g) -> exists sol, sw_slv sb k g = Ok sol /\ converged sol /\ (0 < duration sol)%R.
Proof.
  intros HO FI k g (GF & H0 & H1 & NE).
  destruct (C83_unscaled_collocation ex_fn sw_b sw_alg (to_sol g) (fun _ => mkFactors 1%R [] [] [] [] [] [])) as (h & HT & HP & IFF & _ & CV & RUN); [repeat split|exact GF|].
  assert (KX : exists x0, s_k (to_sol g) = [x0]).
  { destruct GF as (_ & _ & (_ & _ & LK)). cbn in LK |- *. destruct (t_const g) as [|x0 [|y l]]; try discriminate LK. now exists x0. }
  destruct KX as (x0 & KX). cbn [length p_states p_quads sw_b Nat.add] in *.
  assert (PP : length (h_p h) = 3) by (rewrite HP, app_length; destruct GF as (_ & _ & (L1 & L2 & _)); rewrite L1, L2; reflexivity).
  assert (NH : h_t h <> []) by (rewrite HT; exact NE).
  destruct (FI h) as (o & SB & OS & OD).
  { exists (Spbvp_Model.mkOpt [0; 1]%R [[x0; -2]; [x0 + 1; -2]]%R (Some [1; 2; -2]%R) true "" 1). split; [reflexivity|]. split; [cbn; lra|].
    assert (GR : good_result 0 h 2 (Spbvp_Model.mkOpt [0; 1]%R [[x0; -2]; [x0 + 1; -2]]%R (Some [1; 2; -2]%R) true "" 1)).
    { unfold good_result. rewrite HT, H0, H1, PP. cbn [hd last o_x o_y params_of o_p length]. split; [reflexivity|]. split; [reflexivity|]. split; [repeat (apply Forall_cons; [lra|]); apply Forall_nil|]. split; [reflexivity|].
      exists (fun s => [x0 + s; -2]%R). split; [reflexivity|]. split; [cbn; now rewrite Rplus_0_r|].
      assert (S := proj1 (IFF 0%R 1%R (fun s => [x0 + s; -2]%R) (fun _ => []) [1]%R [2; -2]%R (fun _ => eq_refl) (fun _ => eq_refl) eq_refl eq_refl)). rewrite KX in S. exact (S (sw_solves x0)). }
    split; [discriminate|]. rewrite HT, H0, H1, PP. repeat (split; [reflexivity|]). intros _. exact GR. }
  destruct (RUN sb o SB) as (al' & r & LS & C & _ & _ & _ & _ & PA & _); [now apply (HO h o SB)|]. rewrite OS in C.
  destruct (C89_residuals ex_fn sw_b false (fun _ => mkFactors 1%R [] [] [] [] [] []) sb sw_alg g al' r) as [_ E]; [discriminate|exact HO|repeat split|exact GF|exact NE|exact LS|exact C|].
  destruct (case_sound ex_fn sw_b false (fun _ => mkFactors 1%R [] [] [] [] [] []) sb sw_alg (to_sol g) al' r) as (_ & ((_ & _ & (LP & _)) & _) & _); [discriminate|exact HO|repeat split|exact GF|exact NE|exact LS|].
  exists (of_result r). unfold sw_slv. rewrite E. split; [reflexivity|]. split; [unfold of_result; rewrite C; reflexivity|].
  unfold duration, of_result. cbn [t_body]. rewrite <- PA in OD. cbn in LP. rewrite app_nth1 in OD by (rewrite LP; lia). exact OD.
Qed.
Definition sw_h : expr := Eval vm_compute in dual_ham sw_p1.
Lemma sw_tidy g : tidy lu_gauss ex_fn go_alg sw_p sw_p1 sw_b sw_h g.
Proof.
  intros Y Q t0 c _ _ _ t _. assert (EP : forall x, (1 + exp x <> 0)%R) by (intros x; assert (H := exp_pos x); lra).
  split; [cbn; repeat split; try apply EP; lra|]. split; [intros Z; discriminate Z|]. split; [|intros Z; discriminate Z].
  intros _. repeat (apply Forall_cons || apply Forall_nil); cbn; repeat split; try apply EP; lra.
Qed.

(** A start and nothing else: solve returns a trajectory along which w is 1. *)
Example C95_ex sb mode ivp : honest 2 sb -> finds 2 sb -> mode = "auto" \/ mode = "ones" -> ivp_ok ivp -> (forall f t0 tf y0, exists r, ivp f t0 tf y0 = Ok r) ->
  exists gen, Guess_Model.guess_generator ROps mode (Guess_Model.KwGuess (just_start [3]%R)) = Ok gen /\ forall nan recon, exists g r,
  solve_run ex_fn sw_p sw_b (go_ms go_alg sw_p) nan ivp recon 10 (sw_slv sb) None gen [3]%R false FTrue = Finished [[g]] [[r]] /\
  converged g /\ (0 < duration g)%R /\ t_const g = [3]%R /\ switched_samples ex_fn sw_p sw_p1 [3]%R (duration g) r /\
  forall rho, Sym_Spec.consistent ex_fn (switch_map sw_p) rho -> rho "w" = 1%R.
Proof.
  intros HO FI M IV TO. exists (plain_gen mode [3]%R). split; [now apply plain_gen_ok|]. intros nan recon.
  destruct (unsw_setup _ _ _ _ _ _ _ _ _ _ _ _ _ sw_setup) as (fs' & pre' & BS & EP).
  assert (PR := prepared_bound _ _ _ _ _ _ _ _ _ _ _ _ _ BS eq_refl ltac:(discriminate)).
  assert (NE : ~ In FEps pre') by (intros I; apply EP in I; destruct I as [I|[]]; discriminate I).
  assert (GF : guess_from go_alg [FRashs] sw_p (plain_gen mode [3]%R) [3]%R [3]%R (Guess_Model.tspan_end ROps (plain_gen mode [3]%R)) [3]%R).
  { apply from_settings; [|reflexivity]. apply (C91_settings go_alg [FRashs] sw_p mode (just_start [3]%R) (plain_gen mode [3]%R) [3]%R); [now apply plain_gen_ok|reflexivity|reflexivity|exact M|exact I|reflexivity|left; split; [reflexivity|]]. intros [J|[]]. discriminate J. }
  assert (GF' : guess_from go_alg pre' (unswitched sw_p) (plain_gen mode [3]%R) [3]%R [3]%R (Guess_Model.tspan_end ROps (plain_gen mode [3]%R)) [3]%R).
  { apply from_settings; [|reflexivity]. apply (C91_settings go_alg pre' (unswitched sw_p) mode (just_start [3]%R) (plain_gen mode [3]%R) [3]%R); [now apply plain_gen_ok|reflexivity|reflexivity|exact M|exact I|reflexivity|left; split; [reflexivity|exact NE]]. }
  destruct (C91_first_total lu_gauss lu_gauss_ok (solve_linear lu_gauss) ex_fn scipy_simpson go_alg (unswitched sw_p) fs' pre' [FAlg; FNorm; FSquash] (bare sw_p1) (bare sw_b) (go_ms go_alg sw_p) nan ivp recon _ _ _ _ _ PR IV GF' (fun _ => TO)) as (s & FG).
  destruct (C91_first lu_gauss lu_gauss_ok (solve_linear lu_gauss) ex_fn scipy_simpson go_alg (unswitched sw_p) fs' pre' [FAlg; FNorm; FSquash] (bare sw_p1) (bare sw_b) (go_ms go_alg sw_p) nan ivp recon _ _ false _ _ _ s PR IV GF' FG) as (SP & _ & KK & _). specialize (KK eq_refl).
  assert (SB : spans sw_b 0 1 (to_sol (begin_with FTrue s))) by (rewrite to_sol_begin; exact SP).
  destruct (sw_converges sb HO FI 0 (begin_with FTrue s) SB) as (g & SV & C & D0).
  assert (RU := sw_runs sb HO). assert (SC : scaling_ok false sw_b (fun _ => mkFactors 1%R [] [] [] [] [] [])) by discriminate.
  destruct (call_sound ex_fn sw_b false _ (sw_slv sb) 0 1 0 _ g SC RU SB SV) as (S1 & KG & S3).
  assert (RS : run_set ROps 10 (sw_slv sb) None (begin_with FTrue s) (p_consts sw_b) = SetDone [[g]]) by (unfold run_set; rewrite SV; reflexivity).
  assert (SU : supported (solve_linear lu_gauss) ex_fn go_alg (bare sw_p1)) by (left; split; [reflexivity|exact (C67_linear_solver_sound _ lu_gauss_ok)]).
  assert (HH : p_ham (bare sw_b) = Some sw_h) by (vm_compute; reflexivity).
  destruct (bs_reached_back lu_gauss (solve_linear lu_gauss) ex_fn scipy_simpson go_alg (unswitched sw_p) (unswitched sw_p) (bare sw_p1) (bare sw_b) fs' pre' [FAlg; FNorm; FSquash] (go_ms go_alg sw_p) sw_h lu_gauss_ok BS SU HH simpson_total g) as (r & a & INV & _); [|exact C|exact D0|apply bare_tidy, sw_tidy|].
  { assert (RE := set_sound ex_fn sw_b false _ (sw_slv sb) 0 1 10 None (begin_with FTrue s) (p_consts sw_b) _ SC RU SB RS). inversion RE as [|? ? RE1 _]; subst. inversion RE1 as [|? ? RE2 _]; subst. exact RE2. }
  assert (PO : Full_Model.post (go_ms go_alg sw_p) [[g]] = Ok [[r]]) by (cbn [Full_Model.post post_set]; rewrite INV; reflexivity).
  assert (SR : solve_run ex_fn sw_p sw_b (go_ms go_alg sw_p) nan ivp recon 10 (sw_slv sb) None (plain_gen mode [3]%R) [3]%R false FTrue = Finished [[g]] [[r]]).
  { unfold solve_run. change (first_guess ex_fn sw_p sw_b) with (first_guess ex_fn (unswitched sw_p) (bare sw_b)). rewrite FG, RS, PO. reflexivity. }
  assert (RT := C95_solve lu_gauss lu_gauss_ok (solve_linear lu_gauss) ex_fn scipy_simpson go_alg sw_p sw_p sw_p1 sw_b (go_tfs go_alg sw_p) [FRashs] [FAlg; FNorm; FSquash] (go_ms go_alg sw_p) sw_h nan ivp recon false _ (sw_slv sb) 10 None _ _ false FTrue _ _ _ [[g]] [[r]]
    sw_setup eq_refl ltac:(discriminate) SU eq_refl simpson_total SC RU IV GF SR).
  inversion RT as [|? rs ? ? F2 F3]; subst. inversion F2 as [|? r' ? ? F4 F5]; subst.
  exists g, r. split; [exact SR|]. split; [exact C|]. split; [exact D0|]. assert (KS : t_const g = [3]%R) by (rewrite KG; exact KK). split; [exact KS|]. split; [rewrite <- KS; apply F4; [exact C|exact D0|apply sw_tidy]|].
  intros rho CO. assert (V := CO "w" _ (or_introl eq_refl)). rewrite V. cbn. replace (exp (- rho "x" * / (1 * / 10))) with (/ exp (rho "x" * / (1 * / 10)))%R by (rewrite <- exp_Ropp; f_equal; field).
  assert (EX := exp_pos (rho "x" * / (1 * / 10))). field. repeat split; lra.
Qed.
