(** Proofs about composition of functors (C24). *)
From Verif Require Import Base Base_Facts Functor_Model.
Open Scope nat_scope.

Section S.
  Context {P : Type}.
  Implicit Types (h : heap P) (f g : op P).

  (** [chain h a fs]: the object at address [a] consists of the transformations
      [fs], leftmost first; this is the meaning of a functor value. *)
  Inductive chain h : nat -> list (op P) -> Prop :=
  | chain_end a f : nth_error h a = Some (mkObj f None) -> chain h a [f]
  | chain_step a f r fs : nth_error h a = Some (mkObj f (Some r)) -> chain h r fs ->
      chain h a (f :: fs).

  (** Meaning of a list of transformations: the rightmost is applied first. *)
  Fixpoint run (fs : list (op P)) (p : P) : res P :=
    match fs with
    | [] => Ok p
    | f :: fs' => p' <- run fs' p ; f p'
    end.

  Lemma run_app fs gs p : run (fs ++ gs) p = (p' <- run gs p ; run fs p').
  Proof.
    induction fs; simpl.
    - destruct (run gs p); reflexivity.
    - rewrite IHfs. destruct (run gs p); reflexivity.
  Qed.

  Lemma chain_prefix h k a fs : chain h a fs -> chain (h ++ k) a fs.
  Proof.
    induction 1.
    - apply chain_end. rewrite nth_error_app1; auto. apply nth_error_Some. congruence.
    - eapply chain_step; eauto. rewrite nth_error_app1; auto. apply nth_error_Some. congruence.
  Qed.

  Lemma chain_nonnil h a fs : chain h a fs -> fs <> [].
  Proof. destruct 1; discriminate. Qed.

  Lemma chain_det h a fs : chain h a fs -> forall gs, chain h a gs -> fs = gs.
  Proof.
    induction 1; intros gs H2; inversion H2; subst; try congruence.
    assert (r0 = r) as -> by congruence. assert (f0 = f) as -> by congruence.
    f_equal. auto.
  Qed.

  (** A call returns the composition, given enough fuel for the chain. *)
  Lemma call_chain h a fs : chain h a fs -> forall fuel p, length fs <= fuel ->
    call fuel h a p = Some (run fs p).
  Proof.
    induction 1; intros fuel p L; destruct fuel; simpl in L; try lia; simpl.
    - rewrite H. simpl. destruct (f p); reflexivity.
    - rewrite H. simpl. rewrite IHchain by lia. destruct (run fs p); reflexivity.
  Qed.

  Lemma firstn_len_app {A} (l : list A) x : firstn (length l) (l ++ [x]) = l.
  Proof. rewrite firstn_app, Nat.sub_diag, firstn_all. simpl. apply app_nil_r. Qed.

  Lemma mul_chain h a fs : chain h a fs -> forall h0 k fuel b gs,
    h0 = h ++ k -> chain h0 b gs -> length fs <= fuel ->
    exists h1 c, mul fuel h0 a b = Some (h0 ++ h1, c) /\ length h0 <= c /\
      forall hh, (forall x, length h0 <= x -> nth_error hh x = nth_error (h0 ++ h1) x) ->
                 chain hh b gs -> chain hh c (fs ++ gs).
  Proof.
    induction 1; intros h0 k fuel b gs Eh Hb L; destruct fuel; simpl in L; try lia.
    - assert (N : nth_error h0 a = Some (mkObj f None)).
      { subst h0. rewrite nth_error_app1; auto. apply nth_error_Some. congruence. }
      simpl. rewrite N. cbn [o_op o_right]. rewrite firstn_len_app.
      exists [mkObj f (Some b)], (length h0). split; [reflexivity|]. split; [lia|].
      intros hh A C. simpl. eapply chain_step; [|exact C].
      rewrite A by lia. rewrite nth_error_app2, Nat.sub_diag by lia. reflexivity.
    - assert (N : nth_error h0 a = Some (mkObj f (Some r))).
      { subst h0. rewrite nth_error_app1; auto. apply nth_error_Some. congruence. }
      simpl. rewrite N. cbn [o_op o_right].
      destruct (IHchain (h0 ++ [mkObj f (Some r)]) (k ++ [mkObj f (Some r)]) fuel b gs)
        as (h1 & d & E & Hd & C).
      + subst h0. rewrite app_assoc. reflexivity.
      + apply chain_prefix. exact Hb.
      + lia.
      + rewrite E. rewrite <- app_assoc. cbn [app].
        exists (mkObj f (Some d) :: h1), (length h0).
        assert (F1 : firstn (length h0) (h0 ++ mkObj f (Some r) :: h1) = h0).
        { rewrite firstn_app, Nat.sub_diag, firstn_all. simpl. apply app_nil_r. }
        assert (F2 : skipn (S (length h0)) (h0 ++ mkObj f (Some r) :: h1) = h1).
        { rewrite skipn_app, skipn_all2 by lia. replace (S (length h0) - length h0) with 1 by lia. reflexivity. }
        cbn [app] in *.
        replace (match h0 ++ mkObj f (Some r) :: h1 with
          | [] => [] | _ :: l => skipn (length h0) l end) with h1 by (symmetry; exact F2).
        rewrite F1. split; [reflexivity|]. split; [lia|].
        rewrite app_length in Hd. simpl in Hd.
        intros hh A Cb. simpl. eapply chain_step.
        * rewrite A by lia. rewrite nth_error_app2, Nat.sub_diag by lia. reflexivity.
        * apply C; [|exact Cb]. intros x Hx. rewrite app_length in Hx. simpl in Hx.
          rewrite A by lia. rewrite <- app_assoc. simpl.
          rewrite !nth_error_app2 by lia. replace (x - length h0) with (S (x - length h0 - 1)) by lia.
          reflexivity.
  Qed.

  (** Composition: the result is the concatenated chain, the old heap is kept. *)
  Lemma mul_ok h a b fs gs fuel : chain h a fs -> chain h b gs -> length fs <= fuel ->
    exists h1 c, mul fuel h a b = Some (h ++ h1, c) /\ chain (h ++ h1) c (fs ++ gs).
  Proof.
    intros Ha Hb L. destruct (mul_chain h a fs Ha h [] fuel b gs) as (h1 & c & E & _ & C); auto.
    - now rewrite app_nil_r.
    - exists h1, c. split; auto. apply C; auto. apply chain_prefix. exact Hb.
  Qed.

  Fixpoint repeat_list (n : nat) (fs : list (op P)) : list (op P) :=
    match n with O => [] | S n' => fs ++ repeat_list n' fs end.

  Lemma repeat_snoc n fs : repeat_list n fs ++ fs = fs ++ repeat_list n fs.
  Proof. induction n; simpl; [now rewrite app_nil_r|]. rewrite <- app_assoc, IHn. reflexivity. Qed.

  Lemma pow_loop_ok k : forall h acc a fs gs fuel, chain h acc gs -> chain h a fs ->
    length gs + k * length fs <= fuel ->
    exists h1 c, pow_loop fuel k h acc a = Some (h ++ h1, c) /\
                 chain (h ++ h1) c (gs ++ repeat_list k fs).
  Proof.
    induction k; intros h acc a fs gs fuel Hg Ha L; simpl.
    - exists [], acc. rewrite !app_nil_r. auto.
    - destruct (mul_ok h acc a gs fs fuel Hg Ha) as (h1 & c & E & C); [simpl in L; lia|].
      rewrite E. destruct (IHk (h ++ h1) c a fs (gs ++ fs) fuel) as (h2 & d & E2 & C2).
      + exact C.
      + apply chain_prefix. exact Ha.
      + rewrite app_length. simpl in L. lia.
      + exists (h1 ++ h2), d. rewrite (app_assoc gs fs), (app_assoc h h1 h2). auto.
  Qed.

  Fixpoint iter (n : nat) (fs : list (op P)) (p : P) : res P :=
    match n with O => Ok p | S n' => p' <- iter n' fs p ; run fs p' end.

  Lemma run_repeat n fs p : run (repeat_list n fs) p = iter n fs p.
  Proof.
    induction n; simpl; auto. rewrite run_app, IHn. destruct (iter n fs p); reflexivity.
  Qed.

  Lemma pow_ok h a fs n fuel : chain h a fs -> (0 <= n)%Z -> 1 + Z.to_nat n * length fs <= fuel ->
    exists h1 c, pow fuel h a n = PowOk (h ++ h1) c /\
      exists gs, chain (h ++ h1) c gs /\ forall p, run gs p = iter (Z.to_nat n) fs p.
  Proof.
    intros Ha Hn L. unfold pow. replace (n <? 0)%Z with false by (symmetry; apply Z.ltb_ge; lia).
    simpl. destruct (pow_loop_ok (Z.to_nat n) (h ++ [mkObj identity None]) (length h) a fs [identity] fuel)
      as (h1 & c & E & C).
    - apply chain_end. rewrite nth_error_app2, Nat.sub_diag by lia. reflexivity.
    - apply chain_prefix. exact Ha.
    - simpl. lia.
    - rewrite E. exists (mkObj identity None :: h1), c. rewrite <- app_assoc in *. simpl in *.
      split; auto. eexists. split; [exact C|]. intros p. simpl. rewrite run_repeat.
      unfold identity. destruct (iter (Z.to_nat n) fs p); reflexivity.
  Qed.
End S.

(** The observable meaning of a functor object: calling it computes [F] (for
    every large enough recursion limit). *)
Definition computes {P} (h : heap P) (a : nat) (F : P -> res P) : Prop :=
  exists N, forall fuel p, N <= fuel -> call fuel h a p = Some (F p).

Section T.
  Context {P : Type} (p0 : P).

  Lemma call_some_chain fuel : forall (h : heap P) a p r, call fuel h a p = Some r -> exists fs, chain h a fs.
  Proof.
    induction fuel; simpl; intros h a p r H; [discriminate|].
    destruct (nth_error h a) as [[f [r'|]]|] eqn:N; simpl in H; try discriminate.
    - destruct (call fuel h r' p) as [x|] eqn:E; [|discriminate].
      destruct (IHfuel _ _ _ _ E) as [fs C]. exists (f :: fs). eapply chain_step; eauto.
    - exists [f]. apply chain_end. exact N.
  Qed.

  Lemma computes_chain h a (F : P -> res P) : computes h a F <->
    exists fs, chain h a fs /\ forall p, run fs p = F p.
  Proof.
    split.
    - intros [N H]. destruct (call_some_chain N h a p0 _ (H N p0 (Nat.le_refl N))) as [fs C].
      exists fs. split; auto. intros p.
      pose proof (H (N + length fs) p ltac:(lia)) as H1.
      rewrite (call_chain h a fs C) in H1 by lia. congruence.
    - intros (fs & C & E). exists (length fs). intros fuel p L. rewrite (call_chain h a fs C) by lia.
      now rewrite E.
  Qed.

  Lemma computes_prefix h k a (F : P -> res P) : computes h a F -> computes (h ++ k) a F.
  Proof.
    rewrite !computes_chain. intros (fs & C & E). exists fs. split; auto. now apply chain_prefix.
  Qed.

  Lemma compose_computes h a b (F G : P -> res P) : computes h a F -> computes h b G ->
    exists N, forall fuel, N <= fuel ->
    exists k c, mul fuel h a b = Some (h ++ k, c) /\ computes (h ++ k) c (fun p => q <- G p ; F q).
  Proof.
    rewrite !computes_chain. intros (fs & C & E) (gs & D & E2). exists (length fs). intros fuel L.
    destruct (mul_ok h a b fs gs fuel C D L) as (k & c & M & CC). exists k, c. split; auto.
    apply computes_chain. exists (fs ++ gs). split; auto. intros p. rewrite run_app, E2.
    destruct (G p); simpl; auto.
  Qed.

  Lemma iter_ext n fs (F : P -> res P) : (forall p, run fs p = F p) ->
    forall p, iter n fs p = Nat.iter n (fun r => q <- r ; F q) (Ok p).
  Proof.
    intros E. induction n; simpl; auto. intros p. rewrite IHn.
    destruct (Nat.iter n _ (Ok p)); simpl; auto.
  Qed.

  Lemma pow_computes h a n (F : P -> res P) : computes h a F -> (0 <= n)%Z ->
    exists N, forall fuel, N <= fuel ->
    exists k c, pow fuel h a n = PowOk (h ++ k) c /\
      computes (h ++ k) c (fun p => Nat.iter (Z.to_nat n) (fun r => q <- r ; F q) (Ok p)).
  Proof.
    rewrite computes_chain. intros (fs & C & E) Hn. exists (1 + Z.to_nat n * length fs). intros fuel L.
    destruct (pow_ok h a fs n fuel C Hn L) as (k & c & M & gs & CC & R). exists k, c. split; auto.
    apply computes_chain. exists gs. split; auto. intros p. rewrite R. apply iter_ext. exact E.
  Qed.

  Lemma compose_assoc h a b c (F G H : P -> res P) : computes h a F -> computes h b G -> computes h c H ->
    exists N, forall fuel, N <= fuel -> exists h1 ab h2 l h3 bc h4 r,
      mul fuel h a b = Some (h1, ab) /\ mul fuel h1 ab c = Some (h2, l) /\
      mul fuel h b c = Some (h3, bc) /\ mul fuel h3 a bc = Some (h4, r) /\
      exists K, computes h2 l K /\ computes h4 r K.
  Proof.
    rewrite !computes_chain. intros (fs & Ca & E1) (gs & Cb & E2) (hs & Cc & E3).
    exists (length fs + length gs). intros fuel L.
    destruct (mul_ok h a b fs gs fuel Ca Cb ltac:(lia)) as (k1 & ab & M1 & D1).
    destruct (mul_ok (h ++ k1) ab c (fs ++ gs) hs fuel D1 (chain_prefix _ k1 _ _ Cc)) as (k2 & l & M2 & D2);
      [rewrite app_length; lia|].
    destruct (mul_ok h b c gs hs fuel Cb Cc ltac:(lia)) as (k3 & bc & M3 & D3).
    destruct (mul_ok (h ++ k3) a bc fs (gs ++ hs) fuel (chain_prefix _ k3 _ _ Ca) D3 ltac:(lia)) as (k4 & r & M4 & D4).
    do 8 eexists. split; [exact M1|]. split; [exact M2|]. split; [exact M3|]. split; [exact M4|].
    exists (run ((fs ++ gs) ++ hs)). split; apply computes_chain; eexists; (split; [eassumption|]); intros p; auto.
    now rewrite app_assoc.
  Qed.
End T.
