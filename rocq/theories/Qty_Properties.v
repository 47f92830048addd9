(** Problems with quantities and switches, from the text the user declares to the
    returned trajectories (C96). *)
From Coq Require Import Reals Ranalysis5 Lra Lia.
From Coquelicot Require Import Coquelicot.
From Verif Require Import Base Base_Facts Cont_Model Cont_Spec Cont_Proofs Cont_Warm Cont_Live Cont_Properties.
From Verif Require Import Map_More Sym_Expr Sym_Facts Sym_Model Sym_Spec Sym_RecSub Sym_Quant Sym_Switch Sym_Constr Sym_Eps Sym_Lu Sym_Dual Sym_Traj Sym_Var Sym_DiffCtl Scale_Model Jac_Model Jac_Proofs Unit_Model Unit_Spec Unit_Proofs Unit_Scale Unit_Properties.
From Verif Require Import Dual_Properties Ctl_Properties Shift_Properties Spbvp_Model Spbvp_Properties Pipe_Model Pipe_Properties.
From Verif Require Import Whole_Proofs Whole_Steps Whole_Geo Whole_Properties Chain_Model Chain_Facts Map_Model Map_Proofs Map_Chain Chain_Back Chain_Proofs Chain_Simpson Chain_Properties.
From Verif Require Import Full_Model Full_Proofs Full_Properties Bound_Proofs.
From Verif Require Import Sym_Constr Bound_Properties Start_Model Start_Proofs Start_Properties Swi_Proofs Swi_Properties Pen_Proofs Qty_Model Qty_Proofs.
Open Scope string_scope.
Open Scope list_scope.
Open Scope nat_scope.

(** ** What the user asked for *)

(** The value of a switch: the smoothed sum of its functions. *)
Definition smoothed (fn : string -> nat -> R -> R) (rho : string -> R) (s : switch) : R :=
  rsum (map (fun fc => (rsum (map (fun c => 1 / (1 + exp (eval fn rho c / eval fn rho (sw_tol s))))%R (snd fc)) * eval fn rho (fst fc))%R) (combine (sw_funs s) (sw_conds s))).
Lemma smoothed_func fn rho s : eval fn rho (rashs_func s) = smoothed fn rho s.
Proof.
  unfold rashs_func, smoothed. rewrite eval_Sum. unfold rsum. cbn [eval]. rewrite Rplus_0_l, map_map. f_equal. apply map_ext. intros fc. cbn [eval]. f_equal.
  unfold rashs_weight. rewrite eval_Sum. unfold rsum. cbn [eval]. rewrite Rplus_0_l, map_map. reflexivity.
Qed.

(** [back] gives quantities and switches the values the user defined. *)
Definition defines (fn : string -> nat -> R -> R) (u : prob) (rho : string -> R) : Prop :=
  (forall q, In q (p_quants u) -> rho (q_name q) = eval fn rho (q_expr q)) /\ (forall s, In s (p_switches u) -> rho (sw_name s) = smoothed fn rho s).
Definition defined_names (u : prob) : list string := map q_name (p_quants u) ++ map sw_name (p_switches u).
(** The quantities of a problem: each defined once and not through itself, under
    names of their own. *)
Record quants_ok (u : prob) : Prop := mkQuantsOk {
  qk_once : NoDup (map q_name (p_quants u));
  qk_acyclic : acyclic (quant_map u);
  qk_apart : forall x, In x (map q_name (p_quants u)) -> ~ In x (known u) /\ ~ In x (p_controls u) /\ ~ In x (map sw_name (p_switches u));
  qk_plain : forall x s, In x (map q_name (p_quants u)) -> x <> ("_" ++ s)%string;
  qk_bounded : forall d, trig u d -> exists x, c_expr d = Var x /\ In x (p_controls u);
  qk_acts : forall d a x, In d (p_ci u ++ p_cp u ++ p_ct u) -> two_sided d = true -> c_act d = Some a -> In x (map q_name (p_quants u)) -> ~ In x (vars a) }.

(** [p1] is what Dualize starts from; [names] are given values by [back]. *)
Record regular_but (names : list string) (fn : string -> nat -> R -> R) (u p1 : prob) (back : (string -> R) -> string -> R) : Prop := mkRegAsked {
  ra_same : forall rho x, (forall d, trig u d -> c_expr d <> Var x) -> ~ In x names -> back rho x = rho x;
  ra_states : forall rho x e, In (x, e) (p_states u) -> exists e1, In (x, e1) (p_states p1) /\ eval fn rho e1 = eval fn (back rho) e;
  ra_cost_i : forall rho, eval fn rho (p_cost_i p1) = (eval fn (back rho) (p_cost_i u) + sums (fence fn (back rho)) (p_ci u))%R;
  ra_cost_p : forall rho, eval fn rho (p_cost_p p1) = (eval fn (back rho) (p_cost_p u) + sums (charge fn (back rho)) (p_cp u))%R;
  ra_cost_t : forall rho, eval fn rho (p_cost_t p1) = (eval fn (back rho) (p_cost_t u) + sums (fence fn (back rho)) (p_ct u))%R }.
(** [r] shows, from start to end, a curve on which every quantity and every switch
    has its value; it respects what the user declared and comes from a stationary
    point of the problem with bounds, quantities and switches put in. *)
Definition asked_samples (fn : string -> nat -> R -> R) (u p1 : prob) (k : list R) (D : R) (r : sol R) : Prop :=
  exists t0 c back, returned u (fun t => back (c t)) (s_t r) k r /\ hd 0%R (s_t r) = t0 /\ last (s_t r) 0%R = (t0 + D)%R /\
    Forall (fun t => (t0 <= t <= t0 + D)%R) (s_t r) /\ (forall t i x, nth_error (p_consts u) i = Some x -> back (c t) x = nth i k 0%R) /\
    (forall rho, defines fn u (back rho)) /\
    respects fn u (fun t => back (c t)) t0 (t0 + D)%R /\ regular_but (defined_names u) fn u p1 back /\ feasible fn p1 c t0 (t0 + D)%R /\ extremal fn p1 c t0 (t0 + D)%R.

(** ** Replacements under names of their own *)
Section Transfer.
  Variables (fn : string -> nat -> R -> R) (p : prob) (wr : list (string * expr)) (names : list string) (fill : (string -> R) -> string -> R).
  Hypothesis LN : forall x, In x (map fst wr) -> In x names.
  Hypothesis AP : forall x, In x names -> ~ In x (known p) /\ ~ In x (p_controls p).
  Hypothesis PL : forall x s, In x names -> x <> ("_" ++ s)%string.
  Hypothesis AA : forall d a x, In d (p_ci p ++ p_cp p ++ p_ct p) -> two_sided d = true -> c_act d = Some a -> In x names -> ~ In x (vars a).
  Hypothesis FI : forall rho, (forall x, ~ In x names -> fill rho x = rho x) /\
    forall e, eval fn rho (subst_seq wr e) = eval fn (fill rho) e /\ (wd fn rho (subst_seq wr e) -> wd fn (fill rho) e).
  Local Notation q := (plug wr p).
  Lemma qt_names : syms (p_states q) = syms (p_states p).
  Proof. unfold plug, syms. cbn [Sym_Model.p_states]. rewrite map_map. reflexivity. Qed.
  Lemma tr_out rho x : ~ In x names -> fill rho x = rho x.
  Proof. apply FI. Qed.
  Lemma tr_val rho e : eval fn rho (subst_seq wr e) = eval fn (fill rho) e.
  Proof. apply FI. Qed.
  Lemma tr_wd rho e : wd fn rho (subst_seq wr e) -> wd fn (fill rho) e.
  Proof. apply FI. Qed.
  Lemma tr_fresh e : (forall x, In x names -> ~ In x (vars e)) -> subst_seq wr e = e.
  Proof. intros H. apply seq_fresh. intros x I. apply H. now apply LN. Qed.
  Lemma tr_same rho e : (forall x, In x names -> ~ In x (vars e)) -> eval fn (fill rho) e = eval fn rho e.
  Proof. intros H. rewrite <- tr_val, tr_fresh by exact H. reflexivity. Qed.
  Lemma tr_state x : In x (syms (p_states p)) -> ~ In x names.
  Proof. intros I J. apply (proj1 (AP x J)). unfold known. right. apply in_app_iff. now left. Qed.
  Lemma tr_control x : In x (p_controls p) -> ~ In x names.
  Proof. intros I J. exact (proj2 (AP x J) I). Qed.
  Lemma tr_const x : In x (p_consts p) -> ~ In x names.
  Proof. intros I J. apply (proj1 (AP x J)). unfold known. right. apply in_app_iff. now right. Qed.
  Lemma tr_under s : ~ In ("_" ++ s)%string names.
  Proof. intros J. exact (PL _ s J eq_refl). Qed.

  Lemma tr_within rho d : (forall u, c_expr d = Var u -> ~ In u names) -> (exists u, c_expr d = Var u) -> within fn rho (plug_constr wr d) -> within fn (fill rho) d.
  Proof.
    intros NU (u & EU) (v & lo & up & E1 & E2 & E3 & H). cbn [plug_constr c_expr c_lower c_upper] in *. rewrite EU in E1. rewrite tr_fresh in E1 by (intros x J [ <-|[]]; exact (NU u EU J)). injection E1 as <-.
    destruct (c_lower d) as [lo'|] eqn:EL; [|discriminate]. destruct (c_upper d) as [up'|] eqn:EP; [|discriminate]. cbn in E2, E3. injection E2 as <-. injection E3 as <-.
    rewrite !tr_val in H. exists u, lo', up'. split; [exact EU|]. split; [exact EL|]. split; [exact EP|]. now rewrite tr_out by (now apply NU).
  Qed.
  Lemma tr_clear rho d : clear fn rho (plug_constr wr d) -> clear fn (fill rho) d.
  Proof.
    intros (lo & up & E2 & E3 & H1 & H2 & H3 & H4 & H5). cbn [plug_constr c_expr c_lower c_upper] in *.
    destruct (c_lower d) as [lo'|] eqn:EL; [|discriminate]. destruct (c_upper d) as [up'|] eqn:EP; [|discriminate]. cbn in E2, E3. injection E2 as <-. injection E3 as <-.
    rewrite !tr_val in H1. rewrite !tr_val in H2. exists lo', up'. split; [exact EL|]. split; [exact EP|]. split; [exact H1|]. split; [exact H2|]. split; [now apply tr_wd|]. split; now apply tr_wd.
  Qed.
  Lemma tr_two d : two_sided (plug_constr wr d) = two_sided d.
  Proof. apply plug_sides. Qed.
  Lemma filter_map' {A B} (g : A -> B) (f : B -> bool) l : filter f (map g l) = map g (filter (fun a => f (g a)) l).
  Proof. induction l as [|a l IH]; [reflexivity|]. cbn. destruct (f (g a)); cbn; now rewrite IH. Qed.
  Lemma tr_sums (f : (string -> R) -> constr -> R) rho l : (forall d, In d l -> two_sided d = true -> f rho (plug_constr wr d) = f (fill rho) d) ->
    sums (f rho) (map (plug_constr wr) l) = sums (f (fill rho)) l.
  Proof.
    intros H. unfold sums. rewrite filter_map', map_map. f_equal. rewrite (filter_ext _ two_sided) by (intros; apply tr_two). apply map_ext_in. intros d I. apply filter_In in I as (I & T). now apply H.
  Qed.
  Lemma tr_fence rho d : In d (p_ci p ++ p_cp p ++ p_ct p) -> two_sided d = true -> fence fn rho (plug_constr wr d) = fence fn (fill rho) d.
  Proof.
    intros I T. unfold fence. cbn [plug_constr c_expr c_lower c_upper c_act]. destruct (c_act d) as [a|] eqn:EA; [|reflexivity].
    destruct (c_lower d) as [lo|]; [|reflexivity]. destruct (c_upper d) as [up|]; [|reflexivity]. cbn [option_map]. rewrite !tr_val. f_equal. symmetry. apply tr_same. intros x J. exact (AA d a x I T EA J).
  Qed.
  Lemma tr_charge rho d : In d (p_cp p) -> two_sided d = true -> (is_method "epstrig" d = true -> exists u, c_expr d = Var u /\ In u (p_controls p)) -> charge fn rho (plug_constr wr d) = charge fn (fill rho) d.
  Proof.
    intros I T BU. unfold charge. change (is_method "epstrig" (plug_constr wr d)) with (is_method "epstrig" d). cbn [plug_constr c_expr c_lower c_upper c_act]. destruct (c_act d) as [a|] eqn:EA; [|reflexivity].
    destruct (c_lower d) as [lo|]; [|reflexivity]. destruct (c_upper d) as [up|]; [|reflexivity]. cbn [option_map]. rewrite !tr_val.
    assert (ID : In d (p_ci p ++ p_cp p ++ p_ct p)) by (rewrite !in_app_iff; tauto). assert (EV : eval fn (fill rho) a = eval fn rho a) by (apply tr_same; intros x J; exact (AA d a x ID T EA J)). rewrite EV.
    destruct (is_method "epstrig" d); [|reflexivity]. destruct (BU eq_refl) as (u & -> & IU). rewrite tr_fresh by (intros x J [ <-|[]]; exact (tr_control u IU J)). rewrite tr_out; [reflexivity|]. apply tr_under.
  Qed.

  Hypothesis BD : forall d, trig p d -> exists u, c_expr d = Var u /\ In u (p_controls p).
  Lemma tr_respects c t0 tf : respects fn q c t0 tf -> respects fn p (fun t => fill (c t)) t0 tf.
  Proof.
    intros [A1 A2 A3 A4 A5]. constructor.
    - intros t Ht. destruct (A1 t Ht) as (F & T). split.
      + intros x e I. assert (IX : In x (syms (p_states p))) by (apply in_map_iff; exists (x, e); now split). rewrite <- tr_val.
        apply (is_derive_ext (fun s => c s x)); [intros s; symmetry; apply tr_out; now apply tr_state|]. apply F. change (In (plug_dyn wr (x, e)) (map (plug_dyn wr) (p_states p))). now apply in_map.
      + rewrite tr_out; [exact T|]. intros J. apply (proj1 (AP _ J)). now left.
    - intros d I T. rewrite <- tr_val. apply (A2 (plug_constr wr d)); [now apply (in_map (plug_constr wr))|]. now rewrite tr_two.
    - intros d I T. rewrite <- tr_val. apply (A3 (plug_constr wr d)); [now apply (in_map (plug_constr wr))|]. now rewrite tr_two.
    - intros t d Ht TD. destruct (BD d TD) as (u & EU & IU). apply tr_within; [intros v EV; assert (v = u) by congruence; subst v; now apply tr_control|now exists u|]. apply A4; [exact Ht|].
      destruct TD as (I1 & I2 & I3). split; [now apply (in_map (plug_constr wr))|]. split; [now rewrite tr_two|exact I3].
    - intros t d Ht I U. apply tr_clear. apply A5; [exact Ht|now apply (in_map (plug_constr wr))|]. now rewrite plug_sel.
  Qed.
  Lemma tr_regular more p1 back : regular_but more fn q p1 back -> regular_but (names ++ more) fn p p1 (fun rho => fill (back rho)).
  Proof.
    intros [B1 B2 B3 B4 B5]. constructor.
    - intros rho x NT NS. rewrite in_app_iff in NS. rewrite tr_out by tauto. apply B1; [|tauto]. intros d' (I & T & M) E. apply in_map_iff in I as (d & <- & I). assert (TD : trig p d) by (split; [exact I|]; split; [now rewrite <- tr_two|exact M]).
      destruct (BD d TD) as (u & EU & IU). cbn [plug_constr c_expr] in E. rewrite EU, tr_fresh in E by (intros y J [ <-|[]]; exact (tr_control u IU J)). apply (NT d TD). congruence.
    - intros rho x e I. destruct (B2 rho x (subst_seq wr e)) as (e1 & I1 & E1); [change (In (plug_dyn wr (x, e)) (map (plug_dyn wr) (p_states p))); now apply in_map|]. exists e1. split; [exact I1|]. now rewrite E1, tr_val.
    - intros rho. rewrite B3. f_equal; [apply tr_val|]. apply tr_sums. intros d I T. apply tr_fence; [rewrite !in_app_iff; tauto|exact T].
    - intros rho. rewrite B4. f_equal; [apply tr_val|]. apply tr_sums. intros d I T. apply tr_charge; [exact I|exact T|]. intros M. apply BD. now repeat split.
    - intros rho. rewrite B5. f_equal; [apply tr_val|]. apply tr_sums. intros d I T. apply tr_fence; [rewrite !in_app_iff; tauto|exact T].
  Qed.
  Lemma tr_returned c ts k r : returned q c ts k r -> returned p (fun t => fill (c t)) ts k r.
  Proof.
    assert (ES : syms (p_states q) = syms (p_states p)) by apply qt_names. assert (LS : length (p_states q) = length (p_states p)) by (change (p_states q) with (map (plug_dyn wr) (p_states p)); apply map_length).
    intros [A1 A2 A3 A4 A5 A6]. rewrite ES, LS in *. constructor; try assumption.
    - rewrite A2. f_equal. apply map_ext. intros t. apply map_ext_in. intros x I. symmetry. apply tr_out. now apply tr_state.
    - rewrite A3. f_equal. apply map_ext. intros t. apply map_ext_in. intros x I. symmetry. apply tr_out. now apply tr_control.
    - rewrite A4. f_equal. apply map_ext. intros t. apply map_ext_in. intros x I. symmetry. apply tr_out. apply (tr_under ("lam_" ++ x)).
  Qed.
End Transfer.

(** ** C96: the solution *)
Lemma sympify_switch_map u u0 : sympify u = Ok u0 -> u0 = set_symp (set_switches (set_quants u (map sympify_quant (p_quants u))) (map sympify_switch (p_switches u))) true.
Proof. unfold sympify. destruct (p_states _); [discriminate|]. intros H. apply Ok_inj in H. now subst u0. Qed.

(** Every trajectory that converged and is returned for a problem with quantities,
    switches and bounds shows what the user declared. *)
Theorem C96_solve : forall lu, lu_ok lu -> forall solve fn sm o u p p0 p1 p' fs pre post ms h nan ivp recon auto compute slv fuel steps g k helper c0 x0 T kk out res,
  preprocess u = Ok p -> quants_ok u ->
  switch_setup lu solve fn sm o p p0 fs pre post p1 p' ms -> p_cpars p = [] ->
  (lower (o_control o) = "differential" -> lower (o_method o) = "diffyg" -> length (p_controls p) = 1 /\ (p_states p <> [] \/ o_shift o = true)) ->
  supported solve fn o p1 -> p_ham p' = Some h -> (forall ys ts, length ys = length ts -> ts <> [] -> exists v, sm ys ts = Ok v) ->
  scaling_ok auto p' compute -> runs fn p' auto compute slv -> ivp_ok ivp -> guess_from o pre p g k x0 T kk ->
  solve_run fn p p' ms nan ivp recon fuel slv steps g k helper c0 = Finished out res ->
  Forall2 (Forall2 (fun g r => converged g -> (0 < duration g)%R -> tidy lu fn o p p1 p' h g -> asked_samples fn u p1 (t_const g) (duration g) r)) out res.
Proof.
  intros lu LU solve fn sm o u p p0 p1 p' fs pre post ms h nan ivp recon auto compute slv fuel steps g k helper c0 x0 T kk out res PP QO SS CP GE SU HH SMT SC RU IV GF SR.
  assert (F := C95_solve lu LU solve fn sm o p p0 p1 p' fs pre post ms h nan ivp recon auto compute slv fuel steps g k helper c0 x0 T kk out res SS CP GE SU HH SMT SC RU IV GF SR).
  unfold preprocess in PP. destruct (sympify u) as [u0|] eqn:EU; [|discriminate]. cbn [bind] in PP. apply sympify_switch_map in EU.
  assert (SY : Forall (fun s => sw_sym s <> None) (p_switches u0)) by (subst u0; cbn [p_switches set_symp set_switches]; apply Forall_forall; intros s I; apply in_map_iff in I as (b & <- & _); discriminate).
  assert (EN : map q_name (p_quants u0) = map q_name (p_quants u)) by (subst u0; cbn [p_quants set_symp set_switches set_quants]; rewrite map_map; reflexivity).
  assert (EM : quant_map u0 = quant_map u) by (subst u0; unfold quant_map; cbn [p_quants set_symp set_switches set_quants]; rewrite map_map; reflexivity).
  assert (EW : map sw_name (p_switches u0) = map sw_name (p_switches u)) by (subst u0; cbn [p_switches set_symp set_switches set_quants]; rewrite map_map; reflexivity).
  destruct QO as [Q1 Q2 Q3 Q4 Q5 Q6].
  destruct (quant_fill fn u0) as (fill & FI); [now subst u0|exact SY|now rewrite EN|now rewrite EM|].
  destruct (q_written u0 p SY PP) as (BP & PS). assert (EC : plug (written u0) u0 = set_symp (plug (written u0) u) true) by (subst u0; reflexivity). rewrite EC in BP. set (wr := written u0) in *.
  assert (LN : forall x, In x (map fst wr) -> In x (map q_name (p_quants u))) by (intros x I; rewrite <- EN; exact (written_names u0 x I)).
  assert (AP : forall x, In x (map q_name (p_quants u)) -> ~ In x (known u) /\ ~ In x (p_controls u)) by (intros x I; destruct (Q3 x I) as (A & B & _); now split).
  assert (FI2 : forall rho, (forall x, ~ In x (map q_name (p_quants u)) -> fill rho x = rho x) /\ forall e, eval fn rho (subst_seq wr e) = eval fn (fill rho) e /\ (wd fn rho (subst_seq wr e) -> wd fn (fill rho) e)).
  { intros rho. destruct (FI rho) as (_ & A & B). rewrite EN in A. split; [exact A|exact B]. }
  assert (ST : forall r k D, switched_samples fn p p1 k D r -> asked_samples fn u p1 k D r).
  { clear F. intros r kc D (t0 & c & back & A1 & A2 & A3 & A4 & A5 & A6 & A7 & A8 & A9). exists t0, c, (fun rho => fill (back rho)).
    assert (A1' : returned (bare p) (fun t => back (c t)) (s_t r) kc r) by (destruct A1; constructor; assumption).
    assert (A7' : respects fn (bare p) (fun t => back (c t)) t0 (t0 + D)%R) by (destruct A7; constructor; assumption).
    assert (A8' : regular_but (map sw_name (p_switches u)) fn (bare p) p1 back).
    { destruct A8 as [B1 B2 B3 B4 B5]. constructor; try assumption. intros rho x NT NS. apply B1; [exact NT|]. rewrite PS, map_map. change (~ In x (map sw_name (p_switches u0))). now rewrite EW. }
    rewrite BP in A1'. rewrite BP in A7'. rewrite BP in A8'.
    assert (B1 : returned (plug wr u) (fun t => back (c t)) (s_t r) kc r) by (destruct A1'; constructor; assumption).
    assert (B7 : respects fn (plug wr u) (fun t => back (c t)) t0 (t0 + D)%R) by (destruct A7'; constructor; assumption).
    assert (B8 : regular_but (map sw_name (p_switches u)) fn (plug wr u) p1 back) by (destruct A8'; constructor; assumption).
    change (p_consts p) with (p_consts (bare p)) in A5. rewrite BP in A5.
    split; [refine (tr_returned fn u wr (map q_name (p_quants u)) fill _ _ _ (fun t => back (c t)) _ _ _ B1); assumption|]. split; [exact A2|]. split; [exact A3|]. split; [exact A4|].
    split; [intros t i x E; rewrite (proj1 (FI2 (back (c t))) x); [exact (A5 t i x E)|]; intros J; apply (proj1 (AP x J)); unfold known; right; apply in_app_iff; right; exact (nth_error_In _ _ E)|].
    split.
    { intros rho. destruct (FI (back rho)) as (C1 & C2 & C3). split.
      - intros q I. apply C1. rewrite EM. unfold quant_map. apply in_map_iff. now exists q.
      - intros s I. assert (NQ : ~ In (sw_name s) (map q_name (p_quants u))) by (intros J; destruct (Q3 _ J) as (_ & _ & N); apply N; now apply in_map).
        rewrite (proj1 (FI2 (back rho)) _ NQ), <- smoothed_func, <- (proj1 (C3 _)). apply (A6 rho). unfold switch_map. apply in_map_iff. exists (plug_switch wr (sympify_switch s)). split; [reflexivity|].
        rewrite PS. apply in_map. subst u0. cbn [p_switches set_symp set_switches]. now apply in_map. }
    split; [refine (tr_respects fn u wr (map q_name (p_quants u)) fill _ _ _ _ (fun t => back (c t)) _ _ B7); assumption|].
    split; [refine (tr_regular fn u wr (map q_name (p_quants u)) fill _ _ _ _ _ _ _ _ _ B8); assumption|exact A9]. }
  clear - F ST. induction F as [|l rs out res H F IH]; constructor; [|exact IH]. clear IH F. induction H as [|t r l rs H F IH]; constructor; [|exact IH].
  intros C D TI. apply ST. now apply H.
Qed.
Print Assumptions C96_solve.

From Verif Require Guess_Model.
(** ** Example *)
(** The problem of C95_ex as a user would write it: cost w + power with the
    quantities power = v v, v = u and z = x, the conditions of the switch w being
    z <= 0 and -z <= 0. *)
Definition qt_u : prob :=
  mkProb "t" [("x", Var "u")] [] [] [] ["u"] [] [plain (Sub (Var "z") (Var "x0"))] [] [plain (Sub (Var "x") (Add (Var "x0") (Cst 1)))] [] []
    (Cst 0) (Add (Var "w") (Var "power")) (Cst 0) ["x0"] [mkQuant "power" (Mul (Var "v") (Var "v")) []; mkQuant "v" (Var "u") []; mkQuant "z" (Var "x") []]
    [mkSwitch "w" [Cst 1; Cst 1] [[Var "z"]; [Opp (Var "z")]] (Div (Cst 1) (Cst 10)) None] [] None [] false false.
Definition qt_p : prob := Eval vm_compute in match preprocess qt_u with Ok q => q | Raise _ => qt_u end.
Lemma qt_pre : preprocess qt_u = Ok qt_p.
Proof. vm_compute. reflexivity. Qed.
Definition qt_p1 : prob := Eval vm_compute in match rashs qt_p with Ok q => q | Raise _ => qt_p end.
Definition qt_b : prob := Eval vm_compute in go_bvp go_alg qt_p.
Lemma qt_quants : quants_ok qt_u.
Proof.
  constructor.
  - names.
  - exists (fun x => if String.eqb x "power" then 1 else 0). intros k v H y Hy I. cbn in H. destruct H as [H|[H|[H|[]]]]; injection H as <- <-; cbn in Hy.
    + destruct Hy as [ <-|[ <-|[]]]; cbn; lia.
    + destruct Hy as [ <-|[]]. cbn in I. repeat (destruct I as [I|I]; [discriminate I|]). destruct I.
    + destruct Hy as [ <-|[]]. cbn in I. repeat (destruct I as [I|I]; [discriminate I|]). destruct I.
  - intros x I. cbn in I. repeat (destruct I as [ <-|I]; [cbn; intuition discriminate|]). destruct I.
  - intros x s I. cbn in I. repeat (destruct I as [ <-|I]; [discriminate|]). destruct I.
  - intros d (I & _). destruct I.
  - intros d a x I T E. cbn in I. repeat (destruct I as [ <-|I]; [discriminate T|]). destruct I.
Qed.
Lemma qt_setup : switch_setup lu_gauss (solve_linear lu_gauss) ex_fn scipy_simpson go_alg qt_p qt_p (go_tfs go_alg qt_p) [FRashs] [FAlg; FNorm; FSquash] qt_p1 qt_b (go_ms go_alg qt_p).
Proof.
  apply mkSwitchSetup.
  - reflexivity.
  - reflexivity.
  - vm_compute. reflexivity.
  - apply go_chain. vm_compute. reflexivity.
  - constructor.
    + reflexivity.
    + constructor.
      * constructor; [discriminate|constructor].
      * intros x [ <-|[]] [J|[]]. discriminate J.
      * intros x [ <-|[]] [J|[]]. discriminate J.
      * intros x s [ <-|[]] J. discriminate J.
      * intros d [].
    + repeat constructor; cbn; tauto.
    + exists (fun _ => 0). intros k v [H|[]] y Hy I. injection H as <- <-. cbn in I. destruct I as [ <-|[]]. cbn in Hy. repeat (destruct Hy as [Hy|Hy]; [discriminate Hy|]). destruct Hy.
    + intros x [ <-|[]] J. cbn in J. repeat (destruct J as [J|J]; [discriminate J|]). destruct J.
    + intros d a x I T E. cbn in I. repeat (destruct I as [ <-|I]; [discriminate T|]). destruct I.
  - reflexivity.
  - left. reflexivity.
  - left. split; [reflexivity|]. split; [discriminate|]. split.
    + intros cand e x I J V. cbn in I. destruct I as [ <-|[]]. cbn in J. destruct J as [ <-|[]]. cbn in V. repeat (destruct V as [ <-|V]; [cbn; tauto|]). destruct V.
    + intros h x H I. injection H as <-. cbn in I. repeat (destruct I as [ <-|I]; [cbn; tauto|]). destruct I.
  - repeat split.
  - names.
  - reflexivity.
  - constructor.
    + names.
    + intros x I J. cbn in I, J. destruct I as [ <-|[]]. repeat (destruct J as [J|J]; [discriminate J|]). exact J.
    + intros d (I & _). destruct I.
    + constructor.
    + intros d a I T E. cbn in I. repeat (destruct I as [ <-|I]; [discriminate T|]). destruct I.
    + intros d e (I & _). destruct I.
  - intros x I J. cbn in I, J. destruct J as [J|[]]. repeat (destruct I as [ <-|I]; [discriminate J|]). destruct I.
  - discriminate.
  - split; [intros x []|]. intros x I. cbn in I. repeat (destruct I as [ <-|I]; [cbn; tauto|]). destruct I.
Qed.
(** Once the quantities are written out the problem is the one of C95_ex. *)
Lemma qt_same : bare qt_p1 = bare sw_p1 /\ bare qt_b = bare sw_b /\ unswitched qt_p = unswitched sw_p.
Proof. vm_compute. repeat split. Qed.
Lemma qt_ms : go_ms go_alg qt_p = go_ms go_alg sw_p.
Proof. vm_compute. reflexivity. Qed.

(** A start and nothing else: solve returns a trajectory along which the quantities
    have their values and w is 1. *)
Example C96_ex sb mode ivp : honest 2 sb -> finds 2 sb -> mode = "auto" \/ mode = "ones" -> ivp_ok ivp -> (forall f t0 tf y0, exists r, ivp f t0 tf y0 = Ok r) ->
  exists gen, Guess_Model.guess_generator ROps mode (Guess_Model.KwGuess (just_start [3]%R)) = Ok gen /\ forall nan recon, exists g r,
  solve_run ex_fn qt_p qt_b (go_ms go_alg qt_p) nan ivp recon 10 (sw_slv sb) None gen [3]%R false FTrue = Finished [[g]] [[r]] /\
  converged g /\ (0 < duration g)%R /\ asked_samples ex_fn qt_u qt_p1 [3]%R (duration g) r /\
  forall rho, defines ex_fn qt_u rho -> rho "power" = (rho "u" * rho "u")%R /\ rho "v" = rho "u" /\ rho "z" = rho "x" /\ rho "w" = 1%R.
Proof.
  intros HO FI M IV TO. exists (plain_gen mode [3]%R). split; [now apply plain_gen_ok|]. intros nan recon.
  destruct (C95_ex sb mode ivp HO FI M IV TO) as (gen & EG & RUN). assert (gen = plain_gen mode [3]%R). { assert (G2 := plain_gen_ok mode [3]%R M). rewrite G2 in EG. now apply Ok_inj in EG. } subst gen.
  destruct (RUN nan recon) as (g & r & SR & C & D0 & KS & _ & _). clear RUN.
  assert (SR2 : solve_run ex_fn qt_p qt_b (go_ms go_alg qt_p) nan ivp recon 10 (sw_slv sb) None (plain_gen mode [3]%R) [3]%R false FTrue = Finished [[g]] [[r]]).
  { rewrite qt_ms, <- SR. reflexivity. }
  assert (RU : runs ex_fn qt_b false (fun _ => mkFactors 1%R [] [] [] [] [] []) (sw_slv sb)) by (intros k g'; exists true, sb, sw_alg; split; [exact HO|]; split; [repeat split|reflexivity]).
  assert (SC : scaling_ok false qt_b (fun _ => mkFactors 1%R [] [] [] [] [] [])) by discriminate.
  assert (GF : guess_from go_alg [FRashs] qt_p (plain_gen mode [3]%R) [3]%R [3]%R (Guess_Model.tspan_end ROps (plain_gen mode [3]%R)) [3]%R).
  { apply from_settings; [|reflexivity]. apply (C91_settings go_alg [FRashs] qt_p mode (just_start [3]%R) (plain_gen mode [3]%R) [3]%R); [now apply plain_gen_ok|reflexivity|reflexivity|exact M|exact I|reflexivity|left; split; [reflexivity|]]. intros [J|[]]. discriminate J. }
  assert (SU : supported (solve_linear lu_gauss) ex_fn go_alg qt_p1) by (left; split; [reflexivity|exact (C67_linear_solver_sound _ lu_gauss_ok)]).
  assert (RT := C96_solve lu_gauss lu_gauss_ok (solve_linear lu_gauss) ex_fn scipy_simpson go_alg qt_u qt_p qt_p qt_p1 qt_b (go_tfs go_alg qt_p) [FRashs] [FAlg; FNorm; FSquash] (go_ms go_alg qt_p) sw_h nan ivp recon false _ (sw_slv sb) 10 None _ _ false FTrue _ _ _ [[g]] [[r]]
    qt_pre qt_quants qt_setup eq_refl ltac:(discriminate) SU eq_refl simpson_total SC RU IV GF SR2).
  assert (TI : tidy lu_gauss ex_fn go_alg qt_p qt_p1 qt_b sw_h g).
  { intros Y Q t0 c _ _ _ t _. assert (EP : forall x, (1 + exp x <> 0)%R) by (intros x; assert (H := exp_pos x); lra).
    split; [cbn; repeat split; try apply EP; lra|]. split; [intros Z; discriminate Z|]. split; [|intros Z; discriminate Z].
    intros _. repeat (apply Forall_cons || apply Forall_nil); cbn; repeat split; try apply EP; lra. }
  inversion RT as [|? rs ? ? F2 F3]; subst. inversion F2 as [|? r' ? ? F4 F5]; subst.
  exists g, r. split; [exact SR2|]. split; [exact C|]. split; [exact D0|]. split; [rewrite <- KS; now apply F4|].
  intros rho (DQ & DS). assert (P1 := DQ _ (or_introl eq_refl)). assert (P2 := DQ _ (or_intror (or_introl eq_refl))). assert (P3 := DQ _ (or_intror (or_intror (or_introl eq_refl)))). assert (P4 := DS _ (or_introl eq_refl)). cbn in P1, P2, P3, P4.
  split; [now rewrite P1, P2|]. split; [exact P2|]. split; [exact P3|]. rewrite P4. replace (- rho "z" / (1 * / 10))%R with (- (rho "z" / (1 * / 10)))%R by field. rewrite exp_Ropp.
  assert (EX := exp_pos (rho "z" / (1 * / 10))). set (E := exp (rho "z" / (1 * / 10))) in *. field. repeat split; lra.
Qed.
