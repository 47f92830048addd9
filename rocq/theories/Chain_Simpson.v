(** Simpson's rule for unequal spacing is exact for quadratic integrands. *)
From Coq Require Import Reals Lra Lia Sorted.
From Verif Require Import Base Chain_Model.
Open Scope list_scope.
Open Scope nat_scope.

Lemma parabolas_step y0 y1 y2 ys t0 t1 t2 ts : let h0 := (t1 - t0)%R in let h1 := (t2 - t1)%R in
  parabolas (y0 :: y1 :: y2 :: ys) (t0 :: t1 :: t2 :: ts) =
    ((h0 + h1) / 6 * (y0 * (2 - h1 / h0) + y1 * ((h0 + h1) * ((h0 + h1) / (h0 * h1))) + y2 * (2 - h0 / h1)) + parabolas (y2 :: ys) (t2 :: ts))%R.
Proof. reflexivity. Qed.

Section Exact.
  Variable a b e : R.
  Let F (t : R) : R := (a * t * t + b * t + e)%R.
  Let P (t : R) : R := (a * t * t * t / 3 + b * t * t / 2 + e * t)%R.

  Lemma parabola t0 t1 t2 : (t0 < t1)%R -> (t1 < t2)%R -> let h0 := (t1 - t0)%R in let h1 := (t2 - t1)%R in
    ((h0 + h1) / 6 * (F t0 * (2 - h1 / h0) + F t1 * ((h0 + h1) * ((h0 + h1) / (h0 * h1))) + F t2 * (2 - h0 / h1)) = P t2 - P t0)%R.
  Proof. intros A B h0 h1. unfold F, P, h0, h1. field. lra. Qed.
  Lemma last_parabola t0 t1 t2 : (t0 < t1)%R -> (t1 < t2)%R -> let h0 := (t1 - t0)%R in let h1 := (t2 - t1)%R in
    ((2 * h1 * h1 + 3 * h0 * h1) / (6 * (h0 + h1)) * F t2 + (h1 * h1 + 3 * h1 * h0) / (6 * h0) * F t1 - h1 * h1 * h1 / (6 * h0 * (h0 + h1)) * F t0 = P t2 - P t1)%R.
  Proof. intros A B h0 h1. unfold F, P, h0, h1. field. lra. Qed.

  Lemma parabolas_exact n : forall t ts, length ts <= n -> Sorted Rlt (t :: ts) -> Nat.odd (length (t :: ts)) = true -> parabolas (map F (t :: ts)) (t :: ts) = (P (last (t :: ts) 0) - P t)%R.
  Proof.
    induction n as [|n IH]; intros t ts L S O.
    - destruct ts; [|cbn in L; lia]. cbn. lra.
    - destruct ts as [|t1 [|t2 ts]]; [cbn; lra|discriminate|].
      inversion S as [|? ? S1 H1]; subst. inversion H1; subst. inversion S1 as [|? ? S2 H2]; subst. inversion H2; subst.
      cbn [map]. rewrite parabolas_step. rewrite (parabola t t1 t2) by assumption.
      change (F t2 :: map F ts) with (map F (t2 :: ts)). rewrite (IH t2 ts); [|cbn in L; lia|exact S2|exact O].
      change (last (t :: t1 :: t2 :: ts) 0%R) with (last (t2 :: ts) 0%R). lra.
  Qed.
  Lemma sorted_app_l (l m : list R) : Sorted Rlt (l ++ m) -> Sorted Rlt l.
  Proof.
    induction l as [|x l IH]; intros H; [constructor|]. inversion H as [|? ? H1 H2]; subst. constructor; [now apply IH|]. destruct l; [constructor|]. inversion H2; subst. now constructor.
  Qed.
  Lemma sorted_app_r (l m : list R) : Sorted Rlt (l ++ m) -> Sorted Rlt m.
  Proof. induction l as [|x l IH]; intros H; [exact H|]. inversion H; subst. now apply IH. Qed.

  Theorem simpson_exact ts : Sorted Rlt ts -> 3 <= length ts -> scipy_simpson (map F ts) ts = Ok (P (last ts 0) - P (hd 0 ts))%R.
  Proof.
    intros S L. unfold scipy_simpson. rewrite map_length, Nat.eqb_refl. cbn [negb].
    destruct (Nat.odd (length ts)) eqn:O.
    - destruct ts as [|t0 [|t1 [|t2 ts]]]; try (cbn in L; lia). change (hd 0%R (t0 :: t1 :: t2 :: ts)) with t0. rewrite <- (parabolas_exact (length (t1 :: t2 :: ts)) t0 (t1 :: t2 :: ts) (le_n _) S O). reflexivity.
    - assert (NE : ts <> []) by (destruct ts; [cbn in L; lia|discriminate]).
      destruct (exists_last NE) as (l & x & E). subst ts. rewrite app_length in *. cbn [length] in *.
      assert (NE1 : l <> []) by (destruct l; [cbn in L; lia|discriminate]).
      destruct (exists_last NE1) as (l1 & y & E). subst l. rewrite app_length in *. cbn [length] in *.
      assert (NE2 : l1 <> []) by (destruct l1; [cbn in L; lia|discriminate]).
      destruct (exists_last NE2) as (l2 & z & E). subst l1.
      assert (OL : Nat.odd (length ((l2 ++ [z]) ++ [y])) = true).
      { rewrite app_length. cbn [length]. rewrite Nat.add_1_r in O. rewrite Nat.odd_succ, <- Nat.negb_odd in O. now apply Bool.negb_false_iff in O. }
      assert (SL := sorted_app_l _ _ S). set (l := (l2 ++ [z]) ++ [y]) in *.
      assert (Z1 : (z < y)%R /\ (y < x)%R).
      { unfold l in S. rewrite <- !app_assoc in S. cbn [app] in S. apply sorted_app_r in S. inversion S as [|? ? S1 H1]; subst. inversion H1; subst. inversion S1 as [|? ? S2 H2]; subst. inversion H2; subst. now split. }
      destruct l as [|w l'] eqn:EL; [destruct l2; discriminate EL|].
      assert (GO : parabolas (removelast (map F ((w :: l') ++ [x]))) (removelast ((w :: l') ++ [x])) = (P y - P w)%R).
      { rewrite map_app. cbn [map]. change (F w :: map F l') with (map F (w :: l')). rewrite !removelast_last. rewrite (parabolas_exact (length l') w l' (le_n _) SL OL).
        f_equal. f_equal. rewrite <- EL. unfold l. apply last_last. }
      assert (GL : last_interval (map F ((w :: l') ++ [x])) ((w :: l') ++ [x]) = (P x - P y)%R).
      { unfold last_interval. rewrite <- EL. unfold l. rewrite !map_app. cbn [map]. rewrite !rev_app_distr. cbn [rev app]. apply last_parabola; apply Z1. }
      assert (LE : last ((w :: l') ++ [x]) 0%R = x) by apply last_last. rewrite LE. cbn [app hd]. cbn [app] in GO, GL.
      replace (P x - P w)%R with ((P y - P w) + (P x - P y))%R by lra. rewrite <- GO, <- GL.
      destruct l' as [|w1 l'']; [exfalso; unfold l in EL; apply (f_equal (@length R)) in EL; rewrite !app_length in EL; cbn in EL; lia|]. destruct l'' as [|w2 l3]; [|reflexivity]. reflexivity.
  Qed.
End Exact.

(** Two nodes: exact for affine integrands. *)
Theorem simpson_two b e t0 t1 : scipy_simpson [(b * t0 + e)%R; (b * t1 + e)%R] [t0; t1] = Ok ((b * t1 * t1 / 2 + e * t1) - (b * t0 * t0 / 2 + e * t0))%R.
Proof. cbn. f_equal. field. Qed.
