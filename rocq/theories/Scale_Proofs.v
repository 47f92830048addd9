From Coq Require Import Reals Lra.
From Verif Require Import Base Base_Facts Map_Model Map_Spec Scale_Model.
Open Scope nat_scope.

(** Factors that fit the trajectory: one non-zero factor per component. *)
Definition fits (f : factors R) (N n nq m : nat) (s : sol R) : Prop :=
  f_t f <> 0%R /\
  shape N n (s_y s) /\ length (f_y f) = n /\
  ((s_q s = E1 /\ f_q f = []) \/ (shape N nq (s_q s) /\ length (f_q f) = nq)) /\
  ((s_u s = E1) \/ (shape N m (s_u s) /\ length (f_u f) = m)) /\
  length (f_p f) = length (s_p s) /\ length (f_nu f) = length (s_nu s) /\
  length (f_k f) = length (s_k s) /\
  Forall (fun x => x <> 0%R) (f_y f) /\ Forall (fun x => x <> 0%R) (f_q f) /\
  Forall (fun x => x <> 0%R) (f_u f) /\ Forall (fun x => x <> 0%R) (f_p f) /\
  Forall (fun x => x <> 0%R) (f_nu f) /\ Forall (fun x => x <> 0%R) (f_k f).

Lemma map2_back (f : list R) : Forall (fun x => x <> 0%R) f -> forall l, length f = length l ->
  map2 Rmult (map2 Rdiv l f) f = l /\ length (map2 Rdiv l f) = length l.
Proof.
  induction 1 as [|b f Hb Hf IH]; intros [|a l] Hl; simpl in *; try lia; [split; reflexivity|].
  destruct (IH l) as [E1 E2]; [lia|]; rewrite E1, E2; split; [|reflexivity].
  f_equal; field; exact Hb.
Qed.

Lemma bcast_back (f l : list R) : Forall (fun x => x <> 0%R) f -> length f = length l ->
  exists l', bcast Rdiv l f = Ok l' /\ bcast Rmult l' f = Ok l.
Proof.
  intros Hf Hl; destruct (map2_back f Hf l Hl) as [E1 E2].
  exists (map2 Rdiv l f); unfold bcast; rewrite E2, Hl, Nat.eqb_refl, E1; split; reflexivity.
Qed.

Lemma scale_arr_back (f : list R) N c a :
  Forall (fun x => x <> 0%R) f -> shape N c a -> length f = c ->
  exists a', scale_arr Rdiv a f = Ok a' /\ scale_arr Rmult a' f = Ok a /\
    nonempty a' = nonempty a.
Proof.
  intros Hf (rows & -> & HN & Hr) Hc.
  exists (Mat c (map (fun r => map2 Rdiv r f) rows)); unfold scale_arr.
  rewrite Hc, Nat.eqb_refl; split; [reflexivity|]; split.
  - do 2 f_equal. rewrite map_map. rewrite <- (map_id rows) at 2; apply map_ext_in.
    intros r Hin; rewrite Forall_forall in Hr; specialize (Hr r Hin).
    apply (map2_back f Hf r); lia.
  - simpl; rewrite map_length; reflexivity.
Qed.

Lemma scale_back f N n nq m (s : sol R) :
  fits f N n nq m s ->
  exists s', scale_sol ROps s f false = Ok s' /\ scale_sol ROps s' f true = Ok s.
Proof.
  intros (Ht & Hy & Hyl & Hq & Hu & Hp & Hnu & Hk & Fy & Fq & Fu & Fp & Fnu & Fk).
  destruct (scale_arr_back _ _ _ _ Fy Hy Hyl) as (y' & Ey & Ey' & _).
  assert (exists q', scale_arr Rdiv (s_q s) (f_q f) = Ok q' /\ scale_arr Rmult q' (f_q f) = Ok (s_q s))
    as (q' & Eq & Eq').
  { destruct Hq as [[-> ->]|[Hq Hql]]; [exists E1; split; reflexivity|].
    destruct (scale_arr_back _ _ _ _ Fq Hq Hql) as (q' & ? & ? & _); eauto. }
  assert (exists u', (if nonempty (s_u s) then scale_arr Rdiv (s_u s) (f_u f) else Ok (s_u s)) = Ok u'
      /\ (if nonempty u' then scale_arr Rmult u' (f_u f) else Ok u') = Ok (s_u s))
    as (u' & Eu & Eu').
  { destruct Hu as [->|[Hu Hul]]; [exists E1; split; reflexivity|].
    destruct (scale_arr_back _ _ _ _ Fu Hu Hul) as (u' & ? & ? & Hne).
    destruct (nonempty (s_u s)) eqn:E.
    - exists u'; rewrite Hne; split; assumption.
    - exists (s_u s); rewrite E; split; reflexivity. }
  destruct (bcast_back _ _ Fp Hp) as (p' & Ep & Ep').
  destruct (bcast_back _ _ Fnu Hnu) as (nu' & En & En').
  destruct (bcast_back _ _ Fk Hk) as (k' & Ek & Ek').
  eexists; split.
  - unfold scale_sol; cbn [s_y s_q s_u s_p s_nu s_k set_t set_y set_q set_u set_p set_nu set_k].
    cbn [ndiv ROps]. rewrite Ey; cbn [bind]; rewrite Eq; cbn [bind]; rewrite Eu; cbn [bind].
    rewrite Ep; cbn [bind]; rewrite En; cbn [bind]; rewrite Ek; cbn [bind]. reflexivity.
  - unfold scale_sol; cbn [s_t s_y s_q s_u s_p s_nu s_k set_t set_y set_q set_u set_p set_nu set_k].
    cbn [nmul ROps]. rewrite Ey'; cbn [bind]; rewrite Eq'; cbn [bind]; rewrite Eu'; cbn [bind].
    rewrite Ep'; cbn [bind]; rewrite En'; cbn [bind]; rewrite Ek'; cbn [bind].
    f_equal; rewrite map_map.
    assert (map (fun x => x / f_t f * f_t f)%R (s_t s) = s_t s) as Et.
    { rewrite <- (map_id (s_t s)) at 2; apply map_ext; intros a; field; exact Ht. }
    destruct s; simpl in *; rewrite Et; reflexivity.
Qed.

(** Every component is combined with its own factor, in any arithmetic. *)
Section Components.
  Context {F : Type}.
  Lemma map2_nth (op : F -> F -> F) : forall l f j a b,
    nth_error l j = Some a -> nth_error f j = Some b -> nth_error (map2 op l f) j = Some (op a b).
  Proof.
    induction l as [|x l IH]; intros [|y f] [|j] a b Ha Hb; simpl in *; try discriminate.
    - congruence.
    - now apply IH.
  Qed.
  Lemma scale_arr_entry (op : F -> F -> F) a f a' N c k j v w :
    shape N c a -> length f = c -> scale_arr op a f = Ok a' ->
    entry a k j = Some v -> nth_error f j = Some w -> entry a' k j = Some (op v w).
  Proof.
    intros (rows & -> & HN & Hr) Hc. unfold scale_arr. rewrite Hc, Nat.eqb_refl.
    intros H. injection H as <-. unfold entry. rewrite nth_error_map.
    destruct (nth_error rows k) as [r|]; simpl; [|discriminate]. intros. now apply map2_nth.
  Qed.
  Lemma bcast_nth (op : F -> F -> F) l f l' j a b : length f = length l -> bcast op l f = Ok l' ->
    nth_error l j = Some a -> nth_error f j = Some b -> nth_error l' j = Some (op a b).
  Proof.
    intros Hl. unfold bcast. rewrite Hl, Nat.eqb_refl. intros H. injection H as <-. apply map2_nth.
  Qed.

  Lemma scale_components (O : NumOps F) f inv N n nq m (s s' : sol F) :
    scale_sol O s f inv = Ok s' ->
    let op := if inv then nmul O else ndiv O in
    s_t s' = map (fun x => op x (f_t f)) (s_t s) /\
    (shape N n (s_y s) -> length (f_y f) = n -> forall k j v w,
       entry (s_y s) k j = Some v -> nth_error (f_y f) j = Some w -> entry (s_y s') k j = Some (op v w)) /\
    (shape N nq (s_q s) -> length (f_q f) = nq -> forall k j v w,
       entry (s_q s) k j = Some v -> nth_error (f_q f) j = Some w -> entry (s_q s') k j = Some (op v w)) /\
    (shape N m (s_u s) -> length (f_u f) = m -> forall k j v w,
       entry (s_u s) k j = Some v -> nth_error (f_u f) j = Some w -> entry (s_u s') k j = Some (op v w)) /\
    (length (f_p f) = length (s_p s) -> forall j v w,
       nth_error (s_p s) j = Some v -> nth_error (f_p f) j = Some w -> nth_error (s_p s') j = Some (op v w)) /\
    (length (f_nu f) = length (s_nu s) -> forall j v w,
       nth_error (s_nu s) j = Some v -> nth_error (f_nu f) j = Some w -> nth_error (s_nu s') j = Some (op v w)) /\
    (length (f_k f) = length (s_k s) -> forall j v w,
       nth_error (s_k s) j = Some v -> nth_error (f_k f) j = Some w -> nth_error (s_k s') j = Some (op v w)).
  Proof.
    unfold scale_sol. set (op := if inv then nmul O else ndiv O).
    cbn [s_y s_q s_u s_p s_nu s_k set_t set_y set_q set_u set_p set_nu set_k].
    destruct (scale_arr op (s_y s) (f_y f)) as [y|] eqn:Ey; cbn [bind]; [|discriminate].
    cbn [s_y s_q s_u s_p s_nu s_k set_t set_y set_q set_u set_p set_nu set_k].
    destruct (scale_arr op (s_q s) (f_q f)) as [q|] eqn:Eq; cbn [bind]; [|discriminate].
    cbn [s_y s_q s_u s_p s_nu s_k set_t set_y set_q set_u set_p set_nu set_k].
    destruct (if nonempty (s_u s) then scale_arr op (s_u s) (f_u f) else Ok (s_u s)) as [u|] eqn:Eu;
      cbn [bind]; [|discriminate].
    cbn [s_y s_q s_u s_p s_nu s_k set_t set_y set_q set_u set_p set_nu set_k].
    destruct (bcast op (s_p s) (f_p f)) as [p|] eqn:Ep; cbn [bind]; [|discriminate].
    cbn [s_y s_q s_u s_p s_nu s_k set_t set_y set_q set_u set_p set_nu set_k].
    destruct (bcast op (s_nu s) (f_nu f)) as [nu|] eqn:En; cbn [bind]; [|discriminate].
    cbn [s_y s_q s_u s_p s_nu s_k set_t set_y set_q set_u set_p set_nu set_k].
    destruct (bcast op (s_k s) (f_k f)) as [k|] eqn:Ek; cbn [bind]; [|discriminate].
    intros H. injection H as <-.
    cbn [s_t s_y s_q s_u s_p s_nu s_k set_t set_y set_q set_u set_p set_nu set_k].
    split; [reflexivity|].
    split; [intros; eapply scale_arr_entry; eauto|].
    split; [intros; eapply scale_arr_entry; eauto|].
    split; [|split; [intros; eapply bcast_nth; eauto|split; intros; eapply bcast_nth; eauto]].
    intros Hs Hf k0 j v w Hv Hw.
    destruct (nonempty (s_u s)) eqn:E; [eapply scale_arr_entry; eauto|].
    exfalso. destruct Hs as (rows & Er & _). rewrite Er in E, Hv. simpl in E. unfold entry in Hv.
    apply Bool.andb_false_iff in E. destruct E as [E|E]; apply Nat.ltb_ge in E.
    - assert (j < length (f_u f)) by (apply nth_error_Some; congruence). lia.
    - destruct rows; simpl in E; [|lia]. destruct k0; discriminate.
  Qed.
End Components.
