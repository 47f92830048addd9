(** ApplyQuantities (C30). *)
From Coq Require Import Reals Lra.
From Verif Require Import Base Base_Facts Sym_Expr Sym_Facts Sym_Model Sym_Spec Sym_RecSub.
Open Scope nat_scope.

(** ** The relation between problems *)
Lemma Forall2_trans3 {A B C} (R1 : A -> B -> Prop) (R2 : B -> C -> Prop) (R3 : A -> C -> Prop) :
  (forall a b c, R1 a b -> R2 b c -> R3 a c) ->
  forall l1 l2 l3, Forall2 R1 l1 l2 -> Forall2 R2 l2 l3 -> Forall2 R3 l1 l3.
Proof.
  intros H l1 l2 l3 F. revert l3. induction F; intros l3 G; inversion G; subst; constructor; eauto.
Qed.

Lemma opt_rel_trans {A} (R1 R2 R3 : A -> A -> Prop) :
  (forall a b c, R1 a b -> R2 b c -> R3 a c) ->
  forall a b c, opt_rel R1 a b -> opt_rel R2 b c -> opt_rel R3 a c.
Proof. intros H [a|] [b|] [c|]; simpl; try tauto. apply H. Qed.

Lemma related_trans (R1 R2 R3 : expr -> expr -> Prop) p q r :
  (forall a b c, R1 a b -> R2 b c -> R3 a c) -> related R1 p q -> related R2 q r -> related R3 p r.
Proof.
  intros H A B.
  assert (HD : forall a b c, rel_dyn R1 a b -> rel_dyn R2 b c -> rel_dyn R3 a c).
  { intros a b c [X1 X2] [Y1 Y2]. split; [congruence|eauto]. }
  assert (HC : forall a b c, rel_constr R1 a b -> rel_constr R2 b c -> rel_constr R3 a c).
  { intros a b c (X1 & X2 & X3 & X4 & X5) (Y1 & Y2 & Y3 & Y4 & Y5).
    split; [eauto|]. split; [eapply opt_rel_trans; eauto|]. split; [eapply opt_rel_trans; eauto|].
    split; congruence. }
  assert (HS : forall a b c, rel_switch R1 a b -> rel_switch R2 b c -> rel_switch R3 a c).
  { intros a b c (X1 & X2) (Y1 & Y2). split; [congruence|eapply opt_rel_trans; eauto]. }
  destruct A, B.
  constructor; try congruence; eauto using Forall2_trans3, opt_rel_trans.
Qed.

Lemma Forall2_refl' {A} (R : A -> A -> Prop) l : (forall a, In a l -> R a a) -> Forall2 R l l.
Proof. induction l; intros H; constructor; auto. - apply H. now left. - apply IHl. intros. apply H. now right. Qed.

Lemma related_refl (R : expr -> expr -> Prop) p : (forall e, R e e) -> related R p p.
Proof.
  intros H. assert (HO : forall o : option expr, opt_rel R o o) by (intros [e|]; simpl; auto).
  constructor; auto; apply Forall2_refl'; intros; unfold rel_dyn, rel_constr, rel_switch; repeat split; auto.
Qed.

Lemma Forall2_map_r {A B} (R : A -> B -> Prop) (f : A -> B) l : (forall a, In a l -> R a (f a)) -> Forall2 R l (map f l).
Proof. induction l; intros H; simpl; constructor; auto. - apply H; now left. - apply IHl. intros. apply H. now right. Qed.

Lemma subs_all_related x n p : Forall (fun s => sw_sym s <> None) (p_switches p) ->
  related (fun e e' => e' = subst x n e) p (subs_all x n p).
Proof.
  intros HS.
  assert (HO : forall o : option expr, opt_rel (fun e e' => e' = subst x n e) o (option_map (subst x n) o)).
  { intros [e|]; simpl; auto. }
  constructor; simpl; auto; apply Forall2_map_r; intros a Ha; unfold rel_dyn, rel_constr, rel_switch; simpl; auto.
  - repeat split; auto.
  - repeat split; auto.
  - repeat split; auto.
  - rewrite Forall_forall in HS. specialize (HS a Ha). destruct (sw_sym a) eqn:E; [|congruence]. auto.
  - rewrite Forall_forall in HS. specialize (HS a Ha). destruct (sw_sym a) eqn:E; [|congruence].
    rewrite E. simpl. auto.
Qed.

Lemma subs_all_switches x n p : Forall (fun s => sw_sym s <> None) (p_switches p) ->
  Forall (fun s => sw_sym s <> None) (p_switches (subs_all x n p)).
Proof.
  intros H. simpl. rewrite Forall_forall in *. intros s Hs. apply in_map_iff in Hs. destruct Hs as (t & <- & Ht).
  specialize (H t Ht). unfold subs_switch. destruct (sw_sym t) eqn:E; [|congruence]. simpl. rewrite E. discriminate.
Qed.

(** ** Invariant of the quantity list *)
Section Inv.
  Variable fn : string -> nat -> R -> R.
  Variable names : list string.
  Variable rank : string -> nat.
  Variable m : list (string * expr).

  Definition ranked (q : quant) : Prop :=
    forall y, In y (vars (q_expr q)) -> In y names -> rank y < rank (q_name q).
  Definition valued (q : quant) : Prop :=
    forall rho, consistent fn m rho -> rho (q_name q) = eval fn rho (q_expr q).
  Definition qinv (qs : list quant) : Prop :=
    map q_name qs = names /\ Forall ranked qs /\ Forall valued qs.

  Lemma subs_quant_ok a b : In (q_name a) names -> ranked a -> valued a -> ranked b -> valued b ->
    ranked (subs_quant (q_name a) (q_expr a) b) /\ valued (subs_quant (q_name a) (q_expr a) b).
  Proof.
    intros HN R1 V1 R2 V2. split.
    - intros y Hy Hn. simpl in *. apply vars_subst_iff in Hy. destruct Hy as [[Hx Hv]|[Hx _]]; auto.
      pose proof (R2 _ Hx HN). pose proof (R1 _ Hv Hn). lia.
    - intros rho C. simpl. rewrite eval_subst_same; auto.
  Qed.

  Lemma update_at_map {A B} (g : A -> B) (f : A -> A) k : forall l,
    (forall a, g (f a) = g a) -> map g (update_at k f l) = map g l.
  Proof. induction k; intros [|a l] H; simpl; auto; [now rewrite H|now rewrite IHk]. Qed.
  Lemma update_at_Forall {A} (Q : A -> Prop) (f : A -> A) k : forall l,
    (forall a, In a l -> Q a -> Q (f a)) -> Forall Q l -> Forall Q (update_at k f l).
  Proof.
    induction k; intros [|a l] H F; simpl; auto; inversion F; subst; constructor; auto.
    - apply H; auto. now left.
    - apply IHk; auto. intros. apply H; auto. now right.
  Qed.

  Lemma quant_step_inv i j qs : qinv qs -> qinv (quant_step i j qs).
  Proof.
    intros (N & R1 & V1). unfold quant_step. destruct (nth_error qs i) as [qi|] eqn:Ei; [|split; auto].
    destruct (nth_error qs j) as [qj|] eqn:Ej; [|split; auto].
    destruct (mem (q_name qi) (q_free qj)); [|split; auto].
    pose proof (nth_error_In _ _ Ei) as Hi.
    pose proof (proj1 (Forall_forall _ _) R1 qi Hi) as Ri. pose proof (proj1 (Forall_forall _ _) V1 qi Hi) as Vi.
    assert (Hn : In (q_name qi) names) by (rewrite <- N; apply in_map; auto).
    split; [|split].
    - rewrite <- N. apply update_at_map. reflexivity.
    - assert (F : Forall (fun b => ranked b /\ valued b) qs).
      { rewrite Forall_forall in *. intros b Hb. auto. }
      apply update_at_Forall with (k := j) (f := subs_quant (q_name qi) (q_expr qi)) in F.
      + rewrite Forall_forall in *. intros b Hb. apply F. exact Hb.
      + intros b _ [Rb Vb]. apply subs_quant_ok; auto.
    - assert (F : Forall (fun b => ranked b /\ valued b) qs).
      { rewrite Forall_forall in *. intros b Hb. auto. }
      apply update_at_Forall with (k := j) (f := subs_quant (q_name qi) (q_expr qi)) in F.
      + rewrite Forall_forall in *. intros b Hb. apply F. exact Hb.
      + intros b _ [Rb Vb]. apply subs_quant_ok; auto.
  Qed.

  Lemma quant_inner_inv n i qs : qinv qs -> qinv (quant_inner n i qs).
  Proof.
    unfold quant_inner. generalize (seq 0 n) as l. intros l. revert qs.
    induction l; simpl; intros qs H; auto. apply IHl. now apply quant_step_inv.
  Qed.
  Lemma quant_expand_inv qs : qinv qs -> qinv (quant_expand qs).
  Proof.
    unfold quant_expand. generalize (seq 0 (length qs)) as l. intros l. revert qs.
    induction l; simpl; intros qs H; auto. apply IHl. now apply quant_inner_inv.
  Qed.

  (** Substituting every quantity by the [i]-th. *)
  Lemma subs_quants_inv qs q : In q qs -> qinv qs -> qinv (map (subs_quant (q_name q) (q_expr q)) qs).
  Proof.
    intros Hq (N & R1 & V1).
    pose proof (proj1 (Forall_forall _ _) R1 q Hq) as Ri. pose proof (proj1 (Forall_forall _ _) V1 q Hq) as Vi.
    assert (Hn : In (q_name q) names) by (rewrite <- N; apply in_map; auto).
    split; [|split].
    - rewrite map_map. exact N.
    - rewrite Forall_forall in *. intros b Hb. apply in_map_iff in Hb. destruct Hb as (c & <- & Hc).
      apply subs_quant_ok; auto.
    - rewrite Forall_forall in *. intros b Hb. apply in_map_iff in Hb. destruct Hb as (c & <- & Hc).
      apply subs_quant_ok; auto.
  Qed.

  Definition gone (k : nat) (e : expr) : Prop := forall y, In y (firstn k names) -> ~ In y (vars e).
  Definition kept (e e' : expr) : Prop := forall rho, consistent fn m rho -> eval fn rho e' = eval fn rho e.
  Definition step_rel (k : nat) (e e' : expr) : Prop := kept e e' /\ gone k e'.

  Record loop_inv (p0 : prob) (k : nat) (p : prob) : Prop := mkLoopInv {
    li_q : qinv (p_quants p);
    li_gone : Forall (fun q => gone k (q_expr q)) (p_quants p);
    li_sw : Forall (fun s => sw_sym s <> None) (p_switches p);
    li_rel : related (step_rel k) p0 p }.

  Lemma gone_step k x n e : nth_error names k = Some x -> gone k e -> gone k n -> ~ In x (vars n) ->
    gone (S k) (subst x n e).
  Proof.
    intros Hx He Hn Hf y Hy Hv.
    assert (Hy2 : In y (firstn k names) \/ y = x).
    { assert (FS : firstn (S k) names = firstn k names ++ [x]).
      { clear - Hx. revert k Hx. induction names as [|a l IH]; intros [|k] Hx; simpl in *; try discriminate.
        - injection Hx as <-. reflexivity.
        - f_equal. apply IH. exact Hx. }
      rewrite FS in Hy. apply in_app_or in Hy. destruct Hy as [Hy|[<-|[]]]; auto. }
    apply vars_subst_iff in Hv. destruct Hv as [[Hxe Hyn]|[Hye Hne]].
    - destruct Hy2 as [Hy2| ->]; [exact (Hn y Hy2 Hyn)|exact (Hf Hyn)].
    - destruct Hy2 as [Hy2| ->]; [exact (He y Hy2 Hye)|congruence].
  Qed.

  Lemma loop_step p0 k p : k < length names -> loop_inv p0 k p -> loop_inv p0 (S k) (quant_apply_at p k).
  Proof.
    intros Hk [Hq Hg Hs Hr]. unfold quant_apply_at.
    destruct (nth_error (p_quants p) k) as [q|] eqn:E.
    - pose proof (nth_error_In _ _ E) as Hin. pose proof Hq as (N & R1 & V1).
      pose proof (proj1 (Forall_forall _ _) R1 q Hin) as Rq. pose proof (proj1 (Forall_forall _ _) V1 q Hin) as Vq.
      pose proof (proj1 (Forall_forall _ _) Hg q Hin) as Gq.
      assert (NX : nth_error names k = Some (q_name q)).
      { rewrite <- N. now apply map_nth_error. }
      assert (FR : ~ In (q_name q) (vars (q_expr q))).
      { intros C. pose proof (Rq _ C (nth_error_In _ _ NX)). lia. }
      constructor.
      + simpl. apply subs_quants_inv; auto.
      + simpl. rewrite Forall_forall. intros b Hb. apply in_map_iff in Hb. destruct Hb as (c & <- & Hc).
        simpl. apply gone_step; auto. rewrite Forall_forall in Hg. auto.
      + now apply subs_all_switches.
      + eapply related_trans; [|exact Hr|apply subs_all_related; auto].
        intros a b c [K G] ->. split.
        * intros rho C. rewrite eval_subst_same by (apply Vq; auto). apply K. exact C.
        * apply gone_step; auto.
    - apply nth_error_None in E. destruct Hq as (N & _). rewrite <- N, map_length in Hk. lia.
  Qed.

  Lemma loop_all p0 : forall n k p, k + n <= length names -> loop_inv p0 k p ->
    loop_inv p0 (k + n) (fold_left quant_apply_at (seq k n) p).
  Proof.
    induction n; simpl; intros k p L H.
    - now rewrite Nat.add_0_r.
    - replace (k + S n) with (S k + n) by lia. apply IHn; [lia|]. apply loop_step; auto. lia.
  Qed.
End Inv.

Lemma quant_expand_length qs : length (quant_expand qs) = length qs.
Proof.
  assert (U : forall A (f : A -> A) k l, length (update_at k f l) = length l).
  { intros A f. induction k; intros [|a l]; simpl; auto. }
  assert (S1 : forall i j l, length (quant_step i j l) = length l).
  { intros i j l. unfold quant_step. destruct (nth_error l i); auto. destruct (nth_error l j); auto.
    destruct (mem _ _); auto. }
  assert (S2 : forall n i l, length (quant_inner n i l) = length l).
  { intros n i l. unfold quant_inner. generalize (seq 0 n) as js. intros js. revert l.
    induction js; simpl; intros l; auto. rewrite IHjs. apply S1. }
  unfold quant_expand. generalize (seq 0 (length qs)) as is. intros is. revert qs.
  induction is; simpl; intros qs; auto. rewrite IHis. apply S2.
Qed.

Lemma apply_quantities_ok fn p : p_symp p = true -> acyclic (quant_map p) ->
  Forall (fun s => sw_sym s <> None) (p_switches p) ->
  exists p', apply_quantities p = Ok p' /\
    related (fun e e' =>
      (forall rho, consistent fn (quant_map p) rho -> eval fn rho e' = eval fn rho e) /\
      (forall q, In q (p_quants p) -> ~ In (q_name q) (vars e'))) p p'.
Proof.
  intros HS (rank & RK) SW. unfold apply_quantities. rewrite HS. eexists. split; [reflexivity|].
  set (names := map q_name (p_quants p)). set (m := quant_map p).
  assert (NM : map fst m = names) by (unfold m, quant_map, names; rewrite map_map; reflexivity).
  assert (Q0 : qinv fn names rank m (p_quants p)).
  { split; [reflexivity|]. split; rewrite Forall_forall; intros q Hq.
    - intros y Hy Hn. eapply RK; eauto.
      + unfold quant_map. apply in_map_iff. exists q. split; [reflexivity|exact Hq].
      + fold m. rewrite NM. exact Hn.
    - intros rho C. apply C. unfold m, quant_map. apply in_map_iff. exists q. auto. }
  pose proof (quant_expand_inv fn names rank m _ Q0) as Q1.
  set (p1 := set_quants p (quant_expand (p_quants p))).
  assert (L : length (p_quants p1) = length names).
  { unfold p1. simpl. rewrite quant_expand_length. unfold names. now rewrite map_length. }
  assert (I0 : loop_inv fn names rank m p 0 p1).
  { constructor.
    - exact Q1.
    - rewrite Forall_forall. intros q Hq y [].
    - exact SW.
    - assert (RF : related (step_rel fn names m 0) p p).
      { apply related_refl. intros e. split; [intros rho _; reflexivity|intros y []]. }
      destruct RF. constructor; auto. }
  pose proof (loop_all fn names rank m p (length (p_quants p1)) 0 p1 ltac:(lia) I0) as [_ _ _ Hr].
  eapply related_trans; [|exact Hr|apply related_refl with (R := eq); reflexivity].
  intros a b c [K G] <-. split; [exact K|]. intros q Hq. apply G. rewrite L. simpl. rewrite firstn_all.
  unfold names. now apply in_map.
Qed.

(** Every assignment of the other symbols extends to the quantities. *)
Section Ext.
  Variable fn : string -> nat -> R -> R.
  Variable m : list (string * expr).
  Variable rank : string -> nat.
  Hypothesis RK : forall k v, In (k, v) m -> forall y, In y (vars v) -> In y (map fst m) -> rank y < rank k.
  Variable rho0 : string -> R.
  Fixpoint assoc (x : string) (l : list (string * expr)) : option expr :=
    match l with [] => None | (k, v) :: l' => if String.eqb k x then Some v else assoc x l' end.
  Lemma assoc_In x l v : assoc x l = Some v -> In (x, v) l.
  Proof.
    induction l as [|[k w] l IH]; simpl; [discriminate|]. destruct (String.eqb k x) eqn:E.
    - apply String.eqb_eq in E. intros H. injection H as ->. subst. now left.
    - intros H. right. auto.
  Qed.
  Lemma assoc_None x l : assoc x l = None -> ~ In x (map fst l).
  Proof.
    induction l as [|[k w] l IH]; simpl; [tauto|]. destruct (String.eqb k x) eqn:E; [discriminate|].
    apply String.eqb_neq in E. intros H [C|C]; [congruence|]. now apply IH.
  Qed.
  Lemma assoc_NoDup x v l : NoDup (map fst l) -> In (x, v) l -> assoc x l = Some v.
  Proof.
    induction l as [|[k w] l IH]; simpl; [tauto|]. intros ND [H|H]; inversion ND; subst.
    - injection H as -> ->. now rewrite String.eqb_refl.
    - destruct (String.eqb k x) eqn:E; auto. apply String.eqb_eq in E. subst.
      exfalso. apply H2. apply in_map_iff. exists (x, v). auto.
  Qed.
  Fixpoint approx (n : nat) (x : string) : R :=
    match n with
    | O => rho0 x
    | S n' => match assoc x m with Some v => eval fn (approx n') v | None => rho0 x end
    end.
  Lemma approx_other n x : ~ In x (map fst m) -> approx n x = rho0 x.
  Proof.
    intros H. destruct n; simpl; auto. destruct (assoc x m) eqn:E; auto.
    exfalso. apply H. apply in_map_iff. exists (x, e). split; auto. now apply assoc_In.
  Qed.
  Lemma approx_stable r : forall x, rank x < r -> forall n, rank x < n -> approx n x = approx (S (rank x)) x.
  Proof.
    induction r; intros x Hr n Hn; [lia|]. destruct n; [lia|]. cbn [approx].
    destruct (assoc x m) as [v|] eqn:E; auto. apply eval_ext. intros y Hy.
    destruct (in_dec String.string_dec y (map fst m)) as [I|I].
    - pose proof (RK x v (assoc_In _ _ _ E) y Hy I).
      rewrite (IHr y) by lia. symmetry. apply IHr; lia.
    - now rewrite !approx_other.
  Qed.
  Lemma extension_exists : NoDup (map fst m) ->
    exists rho, consistent fn m rho /\ forall x, ~ In x (map fst m) -> rho x = rho0 x.
  Proof.
    intros ND. exists (fun x => approx (S (rank x)) x). split.
    - intros k v Hkv. cbn [approx]. rewrite (assoc_NoDup k v m ND Hkv). apply eval_ext. intros y Hy.
      destruct (in_dec String.string_dec y (map fst m)) as [I|I].
      + pose proof (RK k v Hkv y Hy I). exact (approx_stable (S (rank y)) y ltac:(lia) (rank k) ltac:(lia)).
      + change (match assoc y m with Some v0 => eval fn (approx (rank y)) v0 | None => rho0 y end)
          with (approx (S (rank y)) y). now rewrite !approx_other.
    - intros x Hx. now apply approx_other.
  Qed.
End Ext.

(** Final form: at every assignment of the symbols, the new expression has the
    value the old one has when the quantities take their defined values. *)
Lemma apply_quantities_values fn p : p_symp p = true -> acyclic (quant_map p) ->
  NoDup (map q_name (p_quants p)) -> Forall (fun s => sw_sym s <> None) (p_switches p) ->
  exists p', apply_quantities p = Ok p' /\ forall rho0,
    exists rho, consistent fn (quant_map p) rho /\
      (forall x, ~ In x (map q_name (p_quants p)) -> rho x = rho0 x) /\
      related (fun e e' => eval fn rho0 e' = eval fn rho e /\
                           forall q, In q (p_quants p) -> ~ In (q_name q) (vars e')) p p'.
Proof.
  intros HS AC ND SW. destruct (apply_quantities_ok fn p HS AC SW) as (p' & E & Rl).
  exists p'. split; auto. intros rho0. destruct AC as (rank & RK).
  assert (NM : map fst (quant_map p) = map q_name (p_quants p)) by (unfold quant_map; rewrite map_map; reflexivity).
  destruct (extension_exists fn (quant_map p) rank RK rho0) as (rho & C & O); [now rewrite NM|].
  rewrite NM in O. exists rho. split; auto. split; auto.
  eapply related_trans; [|exact Rl|apply related_refl with (R := eq); reflexivity].
  intros a b c [K G] <-. split; auto. rewrite <- (K rho C). apply eval_ext. intros x Hx. symmetry. apply O.
  intros I. apply in_map_iff in I. destruct I as (q & <- & Hq). exact (G q Hq Hx).
Qed.
