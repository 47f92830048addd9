(** C41: recursive_sub, beluga/utils/helper_functions.py lines 27-35. *)
From Coq Require Import Reals Lra.
From Verif Require Import Base Sym_Expr Sym_Facts Sym_RecSub.
Open Scope nat_scope.

(** The flag is exact: it is True exactly when one more pass would change
    nothing.  The loop is structurally bounded by len + 1 passes. *)
Theorem C41_flag_exact : forall e m r b, recursive_sub e m = (r, b) ->
  (b = true <-> subst_seq m r = r).
Proof. intros. eapply recursive_sub_flag; eauto. Qed.

(** At most [length m + 1] passes: the result is the [k]-th pass for such a [k]. *)
Theorem C41_passes_bounded : forall e m r b, recursive_sub e m = (r, b) ->
  exists k, k <= length m + 1 /\ r = Nat.iter k (subst_seq m) e.
Proof.
  intros e m r b H. unfold recursive_sub in H. apply rec_loop_spec in H. destruct H as [A B].
  assert (I : forall k, iter_pass m k e = Nat.iter k (subst_seq m) e)
    by (induction k; simpl; congruence).
  destruct b.
  - destruct (A eq_refl) as (_ & k & Hk & ->). exists k. split; [lia|apply I].
  - destruct (B eq_refl) as (-> & _). exists (length m + 1). split; [lia|apply I].
Qed.

Theorem C41_acyclic_succeeds : forall e m, acyclic m ->
  exists r, recursive_sub e m = (r, true) /\ (forall k, In k (map fst m) -> ~ In k (vars r)).
Proof. exact recursive_sub_acyclic. Qed.

(** Substituting symbols by expressions of equal value keeps the value,
    whether or not the loop reports success. *)
Theorem C41_value_unchanged : forall fn rho e m r b,
  (forall k v, In (k, v) m -> rho k = eval fn rho v) ->
  recursive_sub e m = (r, b) -> eval fn rho r = eval fn rho e.
Proof. intros. eapply recursive_sub_value; eauto. Qed.

(** a -> b + 1, b -> c * c in an order that needs a second pass; and the cycle
    x -> y, y -> x + 1 on which failure is reported. *)
Definition ex_m : list (string * expr) :=
  [("b", Mul (Var "c") (Var "c")); ("a", Add (Var "b") (Cst 1))]%string.
Definition ex_cyc : list (string * expr) := [("x", Var "y"); ("y", Add (Var "x") (Cst 1))]%string.
Example C41_ex :
  acyclic ex_m /\
  recursive_sub (Sin (Var "a")) ex_m = (Sin (Add (Mul (Var "c") (Var "c")) (Cst 1)), true) /\
  snd (recursive_sub (Var "x") ex_cyc) = false /\
  (forall fn, let rho := fun s => if String.eqb s "c" then 3%R else if String.eqb s "b" then 9%R else 10%R in
     forall k v, In (k, v) ex_m -> rho k = eval fn rho v).
Proof.
  split; [|split; [vm_compute; reflexivity|split; [vm_compute; reflexivity|]]].
  - exists (fun s => if String.eqb s "a" then 1 else 0).
    intros k v [E|[E|[]]]; injection E as <- <-; simpl; intros y Hy Hk.
    + destruct Hy as [<-|[<-|[]]]; destruct Hk as [E|[E|[]]]; discriminate.
    + destruct Hy as [<-|[]]. simpl. lia.
  - intros fn rho k v [E|[E|[]]]; injection E as <- <-; unfold rho; simpl; lra.
Qed.

Print Assumptions C41_flag_exact.
Print Assumptions C41_passes_bounded.
Print Assumptions C41_acyclic_succeeds.
Print Assumptions C41_value_unchanged.
