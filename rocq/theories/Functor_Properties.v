(** C24: composition of problem transformations.  A functor value is observed by
    calling it: [computes h a F] says that calling the object at address [a] of
    heap [h] returns [F p] for every problem [p], for every large enough
    recursion limit.  Every conclusion [mul ... = Some (h ++ k, c)] says that the
    heap before the operation is an unchanged part of the heap after it, so no
    operand is modified. *)
From Verif Require Import Base Base_Facts Functor_Model Functor_Proofs.
Open Scope nat_scope.

Theorem C24_product : forall (P : Type) (p0 : P) (h : heap P) a b (F G : P -> res P),
  computes h a F -> computes h b G ->
  exists N, forall fuel, N <= fuel ->
  exists k c, mul fuel h a b = Some (h ++ k, c) /\
              computes (h ++ k) c (fun p => q <- G p ; F q).
Proof. intros. eapply compose_computes; eauto. Qed.

Theorem C24_bind_applies_left_first : forall (P : Type) (p0 : P) (h : heap P) a b (F G : P -> res P),
  computes h a F -> computes h b G ->
  exists N, forall fuel, N <= fuel ->
  exists k c, rshift fuel h a b = Some (h ++ k, c) /\
              computes (h ++ k) c (fun p => q <- F p ; G q).
Proof. intros. unfold rshift. eapply compose_computes; eauto. Qed.

Theorem C24_lshift : forall (P : Type) (p0 : P) (h : heap P) a b (F G : P -> res P),
  computes h a F -> computes h b G ->
  exists N, forall fuel, N <= fuel ->
  exists k c, lshift fuel h a b = Some (h ++ k, c) /\
              computes (h ++ k) c (fun p => q <- G p ; F q).
Proof. intros. unfold lshift. eapply compose_computes; eauto. Qed.

Theorem C24_power_applies_n_times : forall (P : Type) (p0 : P) (h : heap P) a (n : Z) (F : P -> res P),
  computes h a F -> (0 <= n)%Z ->
  exists N, forall fuel, N <= fuel ->
  exists k c, pow fuel h a n = PowOk (h ++ k) c /\
    computes (h ++ k) c (fun p => Nat.iter (Z.to_nat n) (fun r => q <- r ; F q) (Ok p)).
Proof. intros. eapply pow_computes; eauto. Qed.

Theorem C24_negative_power_raises : forall (P : Type) (h : heap P) a (n : Z) fuel,
  (n < 0)%Z -> pow fuel h a n = PowRaise ValueError.
Proof. intros P h a n fuel H. unfold pow. now replace (n <? 0)%Z with true by (symmetry; apply Z.ltb_lt; lia). Qed.

Theorem C24_associative : forall (P : Type) (p0 : P) (h : heap P) a b c (F G H : P -> res P),
  computes h a F -> computes h b G -> computes h c H ->
  exists N, forall fuel, N <= fuel -> exists h1 ab h2 l h3 bc h4 r,
    mul fuel h a b = Some (h1, ab) /\ mul fuel h1 ab c = Some (h2, l) /\
    mul fuel h b c = Some (h3, bc) /\ mul fuel h3 a bc = Some (h4, r) /\
    exists K, computes h2 l K /\ computes h4 r K.
Proof. intros. eapply compose_assoc; eauto. Qed.

(** The identity functor [GenericFunctor()] is a unit on both sides. *)
Theorem C24_identity_unit : forall (P : Type) (p0 : P) (h : heap P) a (F : P -> res P),
  computes h a F ->
  exists N, forall fuel, N <= fuel ->
    let h1 := fst (alloc h (mkObj identity None)) in
    let i := snd (alloc h (mkObj identity None)) in
    (exists k c, mul fuel h1 i a = Some (h1 ++ k, c) /\ computes (h1 ++ k) c F) /\
    (exists k c, mul fuel h1 a i = Some (h1 ++ k, c) /\ computes (h1 ++ k) c F).
Proof.
  intros P p0 h a F HF. cbn [alloc fst snd].
  set (h1 := h ++ [mkObj identity None]).
  assert (Ha : computes h1 a F) by (apply computes_prefix; auto).
  assert (Hi : computes h1 (length h) (fun p => Ok p)).
  { exists 1. intros fuel p L. destruct fuel as [|fuel]; [lia|]. simpl. unfold h1.
    rewrite nth_error_app2, Nat.sub_diag by lia. reflexivity. }
  destruct (compose_computes p0 h1 (length h) a _ _ Hi Ha) as [N1 A].
  destruct (compose_computes p0 h1 a (length h) _ _ Ha Hi) as [N2 B].
  exists (N1 + N2). intros fuel L. split.
  - destruct (A fuel ltac:(lia)) as (k & c & E & M & C). exists k, c. split; auto.
    exists M. intros f p Hf. rewrite C by auto. destruct (F p); reflexivity.
  - destruct (B fuel ltac:(lia)) as (k & c & E & M & C). exists k, c. split; auto.
    exists M. intros f p Hf. rewrite C by auto. reflexivity.
Qed.

(** A concrete case: problems are numbers, [f] doubles, [g] subtracts one and
    raises below zero; (f * g)(5) = 8, f >> g gives 9, f ** 3 gives 40. *)
Definition ex_f : op Z := fun p => Ok (2 * p)%Z.
Definition ex_g : op Z := fun p => if (p <? 1)%Z then Raise ValueError else Ok (p - 1)%Z.
Definition ex_heap : heap Z := [mkObj ex_f None; mkObj ex_g None].
Definition call_after (o : option (heap Z * nat)) (p : Z) : option (res Z) :=
  match o with Some (h, c) => call 10 h c p | None => None end.
Example C24_ex :
  computes ex_heap 0 ex_f /\ computes ex_heap 1 ex_g /\
  call_after (mul 10 ex_heap 0 1) 5 = Some (Ok 8%Z) /\
  call_after (rshift 10 ex_heap 0 1) 5 = Some (Ok 9%Z) /\
  call_after (mul 10 ex_heap 0 1) 0 = Some (Raise ValueError) /\
  match pow 10 ex_heap 0 3 with PowOk h c => call 10 h c 5%Z = Some (Ok 40%Z) | _ => False end.
Proof.
  repeat split; try (vm_compute; reflexivity).
  - exists 1. intros [|fuel] p L; [lia|reflexivity].
  - exists 1. intros [|fuel] p L; [lia|reflexivity].
Qed.

Print Assumptions C24_product.
Print Assumptions C24_bind_applies_left_first.
Print Assumptions C24_lshift.
Print Assumptions C24_power_applies_n_times.
Print Assumptions C24_negative_power_raises.
Print Assumptions C24_associative.
Print Assumptions C24_identity_unit.
