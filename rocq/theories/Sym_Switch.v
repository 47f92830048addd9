(** RASHS: elimination of the switches (C29). *)
From Coq Require Import Reals Lra.
From Verif Require Import Base Base_Facts Sym_Expr Sym_Facts Sym_Model Sym_Spec Sym_RecSub Sym_Quant.
Open Scope nat_scope.

(** The switches as a replacement map. *)
Definition switch_fun (s : switch) : expr := match sw_sym s with Some f => f | None => Cst 0 end.
Definition switch_map (p : prob) : list (string * expr) :=
  map (fun s => (sw_name s, switch_fun s)) (p_switches p).
Definition wq (s : switch) : quant := mkQuant (sw_name s) (switch_fun s) [].

Section Loop.
  Variable fn : string -> nat -> R -> R.
  Variable names : list string.
  Variable rank : string -> nat.
  Variable m : list (string * expr).

  Record sw_inv (p0 : prob) (k : nat) (p : prob) : Prop := mkSwInv {
    si_q : qinv fn names rank m (map wq (p_switches p));
    si_gone : Forall (fun s => gone names k (switch_fun s)) (p_switches p);
    si_sw : Forall (fun s => sw_sym s <> None) (p_switches p);
    si_rel : related (step_rel fn names m k) p0 p }.

  Lemma switch_fun_subs x n s : sw_sym s <> None -> switch_fun (subs_switch x n s) = subst x n (switch_fun s).
  Proof. unfold switch_fun, subs_switch. destruct (sw_sym s) eqn:E; [|congruence]. simpl. now rewrite E. Qed.
  Lemma sw_name_subs x n s : sw_name (subs_switch x n s) = sw_name s.
  Proof. unfold subs_switch. destruct (sw_sym s); reflexivity. Qed.

  Lemma sw_step p0 k p : k < length names -> sw_inv p0 k p -> sw_inv p0 (S k) (rashs_at p k).
  Proof.
    intros Hk [Hq Hg Hs Hr]. unfold rashs_at. pose proof Hq as (N & R1 & V1).
    destruct (nth_error (p_switches p) k) as [s|] eqn:E.
    2:{ apply nth_error_None in E. rewrite <- N, !map_length in Hk. lia. }
    pose proof (nth_error_In _ _ E) as Hin.
    assert (Hsn : sw_sym s <> None) by (rewrite Forall_forall in Hs; auto).
    destruct (sw_sym s) as [f|] eqn:EF; [|congruence].
    assert (Ef : f = switch_fun s) by (unfold switch_fun; now rewrite EF). subst f.
    assert (Rq : ranked names rank (wq s)) by (rewrite Forall_forall in R1; apply R1; now apply in_map).
    assert (Vq : valued fn m (wq s)) by (rewrite Forall_forall in V1; apply V1; now apply in_map).
    assert (Gq : gone names k (switch_fun s)) by (rewrite Forall_forall in Hg; auto).
    assert (NX : nth_error names k = Some (sw_name s)).
    { rewrite <- N, map_map. now apply (map_nth_error (fun a => q_name (wq a))). }
    assert (HNs : In (sw_name s) names) by (eapply nth_error_In; eauto).
    assert (FR : ~ In (sw_name s) (vars (switch_fun s))).
    { intros C. pose proof (Rq _ C HNs) as L. simpl in L. lia. }
    assert (SO : forall b, In b (p_switches p) ->
       ranked names rank (wq (subs_switch (sw_name s) (switch_fun s) b)) /\
       valued fn m (wq (subs_switch (sw_name s) (switch_fun s) b))).
    { intros b Hb. assert (Hbn : sw_sym b <> None) by (rewrite Forall_forall in Hs; auto).
      assert (Rb : ranked names rank (wq b)) by (rewrite Forall_forall in R1; apply R1; now apply in_map).
      assert (Vb : valued fn m (wq b)) by (rewrite Forall_forall in V1; apply V1; now apply in_map).
      destruct (subs_quant_ok fn names rank m (wq s) (wq b) HNs Rq Vq Rb Vb) as [A B].
      unfold wq. rewrite switch_fun_subs by auto. rewrite sw_name_subs. split; [exact A|exact B]. }
    constructor.
    - simpl. split; [|split].
      + rewrite !map_map. rewrite map_map in N. etransitivity; [|exact N]. apply map_ext. intros b.
        cbn [wq q_name]. apply sw_name_subs.
      + rewrite Forall_forall. intros b Hb. rewrite map_map in Hb. apply in_map_iff in Hb.
        destruct Hb as (c & <- & Hc). now apply SO.
      + rewrite Forall_forall. intros b Hb. rewrite map_map in Hb. apply in_map_iff in Hb.
        destruct Hb as (c & <- & Hc). now apply SO.
    - simpl. rewrite Forall_forall. intros b Hb. apply in_map_iff in Hb. destruct Hb as (c & <- & Hc).
      rewrite switch_fun_subs by (rewrite Forall_forall in Hs; auto). apply gone_step; auto.
      rewrite Forall_forall in Hg. auto.
    - now apply subs_all_switches.
    - eapply related_trans; [|exact Hr|apply subs_all_related; auto].
      intros a b c [K G] ->. split.
      + intros rho C. rewrite eval_subst_same by (apply (Vq rho C)). apply K. exact C.
      + apply gone_step; auto.
  Qed.

  Lemma sw_all p0 : forall n k p, k + n <= length names -> sw_inv p0 k p ->
    sw_inv p0 (k + n) (fold_left rashs_at (seq k n) p).
  Proof.
    induction n; simpl; intros k p L H.
    - now rewrite Nat.add_0_r.
    - replace (k + S n) with (S k + n) by lia. apply IHn; [lia|]. apply sw_step; auto. lia.
  Qed.
End Loop.

Lemma rashs_values fn p : p_symp p = true -> acyclic (switch_map p) ->
  NoDup (map sw_name (p_switches p)) -> Forall (fun s => sw_sym s <> None) (p_switches p) ->
  exists p', rashs p = Ok p' /\ forall rho0,
    exists rho, consistent fn (switch_map p) rho /\
      (forall x, ~ In x (map sw_name (p_switches p)) -> rho x = rho0 x) /\
      related (fun e e' => eval fn rho0 e' = eval fn rho e /\
                           forall s, In s (p_switches p) -> ~ In (sw_name s) (vars e')) p p'.
Proof.
  intros HS AC ND SW. unfold rashs. rewrite HS. eexists. split; [reflexivity|].
  destruct AC as (rank & RK).
  set (names := map sw_name (p_switches p)) in *. set (m := switch_map p) in *.
  assert (NM : map fst m = names) by (unfold m, switch_map, names; rewrite map_map; reflexivity).
  assert (I0 : sw_inv fn names rank m p 0 p).
  { constructor; auto.
    - split; [unfold names; rewrite map_map; reflexivity|]. split; rewrite Forall_forall; intros q Hq;
        apply in_map_iff in Hq; destruct Hq as (s & <- & Hin).
      + intros y Hy Hn. simpl in *. eapply RK; eauto.
        * unfold m, switch_map. apply in_map_iff. exists s. split; [reflexivity|exact Hin].
        * rewrite NM. exact Hn.
      + intros rho C. simpl. apply C. unfold m, switch_map. apply in_map_iff. exists s. auto.
    - rewrite Forall_forall. intros s Hin y [].
    - apply related_refl. intros e. split; [intros rho _; reflexivity|intros y []]. }
  assert (L : length names = length (p_switches p)) by (unfold names; apply map_length).
  pose proof (sw_all fn names rank m p (length (p_switches p)) 0 p ltac:(lia) I0) as [_ _ _ Hr].
  intros rho0.
  destruct (extension_exists fn m rank RK rho0) as (rho & C & O); [now rewrite NM|].
  rewrite NM in O. exists rho. split; auto. split; auto.
  eapply related_trans; [|exact Hr|apply related_refl with (R := eq); reflexivity].
  intros a b c [K G] <-.
  assert (GO : forall s, In s (p_switches p) -> ~ In (sw_name s) (vars b)).
  { intros s Hin. apply G. simpl. rewrite <- L, firstn_all. unfold names. now apply in_map. }
  split; auto. rewrite <- (K rho C). apply eval_ext. intros x Hx. symmetry. apply O.
  intros I. apply in_map_iff in I. destruct I as (s & <- & Hin). exact (GO s Hin Hx).
Qed.
