(** Quantities written out: the replacements ApplyQuantities makes and the values
    they keep (C96). *)
From Coq Require Import Reals Ranalysis5 Lra Lia.
From Coquelicot Require Import Coquelicot.
From Verif Require Import Base Base_Facts Cont_Model Cont_Spec Cont_Proofs Cont_Warm Cont_Live Cont_Properties.
From Verif Require Import Map_More Sym_Expr Sym_Facts Sym_Model Sym_Spec Sym_RecSub Sym_Quant Sym_Switch Sym_Constr Sym_Eps Sym_Lu Sym_Dual Sym_Traj Sym_Var Sym_DiffCtl Scale_Model Jac_Model Jac_Proofs Unit_Model Unit_Spec Unit_Proofs Unit_Scale Unit_Properties.
From Verif Require Import Dual_Properties Ctl_Properties Shift_Properties Spbvp_Model Spbvp_Properties Pipe_Model Pipe_Properties.
From Verif Require Import Whole_Proofs Whole_Steps Whole_Geo Whole_Properties Chain_Model Chain_Facts Map_Model Map_Proofs Map_Chain Chain_Back Chain_Proofs Chain_Simpson Chain_Properties.
From Verif Require Import Full_Model Full_Proofs Full_Properties Bound_Proofs.
From Verif Require Import Sym_Constr Bound_Properties Start_Model Start_Proofs Start_Properties Swi_Proofs Qty_Model.
Open Scope nat_scope.

Fixpoint qswaps (n k : nat) (qs : list quant) : list (string * expr) :=
  match n with
  | O => []
  | S n' =>
      match nth_error qs k with
      | Some q => (q_name q, q_expr q) :: qswaps n' (S k) (map (subs_quant (q_name q) (q_expr q)) qs)
      | None => qswaps n' (S k) qs
      end
  end.
(** The replacements made in [p] and the problem they leave. *)
Definition written (p : prob) : list (string * expr) := qswaps (length (p_quants p)) 0 (quant_expand (p_quants p)).
Definition plug_switch (l : list (string * expr)) (s : switch) : switch :=
  mkSwitch (sw_name s) (sw_funs s) (sw_conds s) (sw_tol s) (option_map (subst_seq l) (sw_sym s)).

Lemma q_loop : forall n k p, Forall (fun s => sw_sym s <> None) (p_switches p) ->
  bare (fold_left quant_apply_at (seq k n) p) = plug (qswaps n k (p_quants p)) p /\
  p_switches (fold_left quant_apply_at (seq k n) p) = map (plug_switch (qswaps n k (p_quants p))) (p_switches p).
Proof.
  induction n as [|n IH]; intros k p SY; cbn [seq fold_left qswaps].
  - rewrite plug_nil. split; [reflexivity|]. rewrite (map_ext _ (fun s => s)); [now rewrite map_id|]. intros [a b c d [f|]]; reflexivity.
  - unfold quant_apply_at at 2 4. destruct (nth_error (p_quants p) k) as [q|]; [|now apply IH].
    destruct (IH (S k) (subs_all (q_name q) (q_expr q) p)) as (A & B); [now apply subs_all_switches|]. split.
    + rewrite A, plug_subs. reflexivity.
    + rewrite B. change (p_quants (subs_all (q_name q) (q_expr q) p)) with (map (subs_quant (q_name q) (q_expr q)) (p_quants p)).
      change (p_switches (subs_all (q_name q) (q_expr q) p)) with (map (subs_switch (q_name q) (q_expr q)) (p_switches p)).
      rewrite map_map. apply map_ext_in. intros s I. rewrite Forall_forall in SY. specialize (SY s I). unfold subs_switch. destruct (sw_sym s) as [f|] eqn:E; [|congruence]. unfold plug_switch. cbn. rewrite E. reflexivity.
Qed.
Lemma q_written p q : Forall (fun s => sw_sym s <> None) (p_switches p) -> apply_quantities p = Ok q ->
  bare q = plug (written p) p /\ p_switches q = map (plug_switch (written p)) (p_switches p).
Proof.
  intros SY H. unfold apply_quantities in H. destruct (p_symp p); [|discriminate]. apply Ok_inj in H. subst q. cbn [p_quants set_quants]. rewrite quant_expand_length.
  destruct (q_loop (length (p_quants p)) 0 (set_quants p (quant_expand (p_quants p))) SY) as (A & B). split; [exact A|exact B].
Qed.

Lemma qswaps_names : forall n k qs x, In x (map fst (qswaps n k qs)) -> In x (map q_name qs).
Proof.
  induction n as [|n IH]; intros k qs x I; cbn [qswaps] in I; [destruct I|]. destruct (nth_error qs k) as [q|] eqn:E; [|now apply IH in I].
  cbn in I. destruct I as [ <-|I]; [apply in_map; exact (nth_error_In _ _ E)|]. apply IH in I. rewrite map_map in I. exact I.
Qed.
Lemma written_names p x : In x (map fst (written p)) -> In x (map q_name (p_quants p)).
Proof.
  intros I. apply qswaps_names in I. assert (E : map q_name (quant_expand (p_quants p)) = map q_name (p_quants p)); [|now rewrite <- E].
  unfold quant_expand. generalize (seq 0 (length (p_quants p))) as is. generalize (p_quants p) as qs. clear. intros qs is. revert qs. induction is as [|i is IH]; intros qs; [reflexivity|]. cbn [fold_left]. rewrite IH. unfold quant_inner.
  generalize (seq 0 (length qs)) as js. clear. intros js. revert qs. induction js as [|j js IH]; intros qs; [reflexivity|]. cbn [fold_left]. rewrite IH. unfold quant_step.
  destruct (nth_error qs i) as [a|]; [|reflexivity]. destruct (nth_error qs j); [|reflexivity]. destruct (mem _ _); [|reflexivity]. now apply update_at_map.
Qed.
Lemma qswaps_values fn names rank m rho : Sym_Spec.consistent fn m rho -> forall n k qs, qinv fn names rank m qs ->
  forall e, eval fn rho (subst_seq (qswaps n k qs) e) = eval fn rho e /\ (wd fn rho (subst_seq (qswaps n k qs) e) -> wd fn rho e).
Proof.
  intros CO. induction n as [|n IH]; intros k qs QI e; cbn [qswaps]; [now split|]. destruct (nth_error qs k) as [q|] eqn:E; [|now apply IH].
  assert (Hq := nth_error_In _ _ E). assert (V : rho (q_name q) = eval fn rho (q_expr q)) by (destruct QI as (_ & _ & VV); rewrite Forall_forall in VV; now apply (VV q Hq)).
  destruct (IH (S k) _ (subs_quants_inv fn names rank m qs q Hq QI) (subst (q_name q) (q_expr q) e)) as (I1 & I2).
  split; [etransitivity; [exact I1|]; now apply eval_subst_same|]. intros W. apply I2 in W. apply wd_subst_inv in W. rewrite <- V, upd_self in W. exact W.
Qed.
Lemma quant_names p : map fst (quant_map p) = map q_name (p_quants p).
Proof. unfold quant_map. rewrite map_map. reflexivity. Qed.

(** [fill] gives every quantity its value. *)
Lemma quant_fill fn p : p_symp p = true -> Forall (fun s => sw_sym s <> None) (p_switches p) -> NoDup (map q_name (p_quants p)) -> acyclic (quant_map p) ->
  exists fill : (string -> R) -> string -> R, forall rho, Sym_Spec.consistent fn (quant_map p) (fill rho) /\ (forall x, ~ In x (map q_name (p_quants p)) -> fill rho x = rho x) /\
    forall e, eval fn rho (subst_seq (written p) e) = eval fn (fill rho) e /\ (wd fn rho (subst_seq (written p) e) -> wd fn (fill rho) e).
Proof.
  intros SY SW ND AC. assert (GO : forall e x, In x (map q_name (p_quants p)) -> ~ In x (vars (subst_seq (written p) e))).
  { intros e x I. destruct (apply_quantities_ok fn (set_cost_p p e)) as (q & AQ & RL); [exact SY|exact AC|exact SW|]. destruct (q_written (set_cost_p p e) q SW AQ) as (B & _).
    assert (EQ : p_cost_p q = subst_seq (written p) e) by (change (p_cost_p q) with (p_cost_p (bare q)); rewrite B; reflexivity). rewrite <- EQ.
    destruct (r_cost_p _ _ _ RL) as (_ & G). apply in_map_iff in I as (s & <- & I). now apply G. }
  destruct AC as (rank & RK). exists (fun rho x => approx fn (quant_map p) rho (S (rank x)) x). intros rho.
  set (rho' := fun x => approx fn (quant_map p) rho (S (rank x)) x).
  assert (OUT : forall x, ~ In x (map q_name (p_quants p)) -> rho' x = rho x) by (intros x NI; apply approx_other; now rewrite quant_names).
  assert (CO : Sym_Spec.consistent fn (quant_map p) rho').
  { intros k v Hkv. unfold rho'. cbn [approx]. rewrite (assoc_NoDup fn rho k v (quant_map p)) by (rewrite ?quant_names; assumption). apply eval_ext. intros y Hy.
    destruct (in_dec String.string_dec y (map fst (quant_map p))) as [I|I].
    - pose proof (RK k v Hkv y Hy I). exact (approx_stable fn (quant_map p) rank RK rho (S (rank y)) y ltac:(lia) (rank k) ltac:(lia)).
    - change (match assoc y (quant_map p) with Some v0 => eval fn (approx fn (quant_map p) rho (rank y)) v0 | None => rho y end) with (approx fn (quant_map p) rho (S (rank y)) y). now rewrite !approx_other. }
  split; [exact CO|]. split; [exact OUT|]. intros e.
  assert (EX : forall x, In x (vars (subst_seq (written p) e)) -> rho' x = rho x) by (intros x I; apply OUT; intros J; exact (GO e x J I)).
  assert (QI : qinv fn (map q_name (p_quants p)) rank (quant_map p) (p_quants p)).
  { split; [reflexivity|]. split; rewrite Forall_forall; intros q Hq.
    - intros y Hy Hn. apply (RK (q_name q) (q_expr q)); [unfold quant_map; apply in_map_iff; now exists q|exact Hy|]. now rewrite quant_names.
    - intros r C. apply C. unfold quant_map. apply in_map_iff. now exists q. }
  destruct (qswaps_values fn _ rank _ rho' CO (length (p_quants p)) 0 _ (quant_expand_inv fn _ rank _ _ QI) e) as (V1 & V2). fold (written p) in V1, V2.
  split.
  - rewrite <- V1. symmetry. apply eval_ext. exact EX.
  - intros W. apply V2. revert W. apply wd_ext. intros x I. symmetry. now apply EX.
Qed.
