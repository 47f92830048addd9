(** Exact linear algebra for the table splines: elimination, the tridiagonal
    system of a natural spline, and gluing of derivatives. *)
From Coq Require Import Reals Lra.
From Coquelicot Require Import Coquelicot.
From Verif Require Import Base Base_Facts Spline_Model.
Open Scope R_scope.

Notation dotR := (dot ROps).

Lemma zip_length f (a b : list R) : length a = length b -> length (zip_with f a b) = length a.
Proof. intro H. unfold zip_with. rewrite map_length, combine_length, H. apply Nat.min_id. Qed.
Lemma dot_cons a r b w : dotR (a :: r) (b :: w) = a * b + dotR r w.
Proof. reflexivity. Qed.
Lemma dot_elim m s r w : length s = length w -> length r = length w ->
  dotR (zip_with (fun x y => nsub ROps x (nmul ROps m y)) s r) w = dotR s w - m * dotR r w.
Proof.
  revert s r. induction w as [|b w IH]; intros [|a s] [|c r] H1 H2; try discriminate.
  - cbn. ring.
  - cbn [zip_with combine map fst snd]. rewrite !dot_cons. change (map _ (combine s r)) with (zip_with (fun x y => nsub ROps x (nmul ROps m y)) s r).
    rewrite IH by (simpl in *; lia). cbn [nsub nmul ROps]. ring.
Qed.

Definition holds (w : list R) (e : list R * R) : Prop := dotR (fst e) w = snd e.
Definition sized (n : nat) (e : list R * R) : Prop := length (fst e) = n.

Lemma find_pivot_none n E : Forall (sized (S n)) E -> find_pivot ROps E = None ->
  Forall (fun e => exists r, fst e = 0 :: r) E.
Proof.
  induction E as [|[[|a r] c] E IH]; intros S H; [constructor | |]; inversion S; subst.
  - discriminate.
  - cbn [find_pivot] in H. cbn [neqb n0 ROps] in H. destruct (Req_EM_T a 0) as [->|]; [|discriminate].
    destruct (find_pivot ROps E) as [[p rest]|] eqn:Q; [discriminate|]. constructor; [now exists r | now apply IH].
Qed.
Lemma find_pivot_some E a r c rest : find_pivot ROps E = Some (a, r, c, rest) ->
  a <> 0 /\ forall P, Forall P E <-> P (a :: r, c) /\ Forall P rest.
Proof.
  revert rest. induction E as [|[[|b s] d] E IH]; intros rest H; try discriminate.
  cbn [find_pivot] in H. cbn [neqb n0 ROps] in H. destruct (Req_EM_T b 0) as [->|N].
  - destruct (find_pivot ROps E) as [[[[a' r'] c'] rest']|] eqn:Q; [|discriminate]. injection H as <- <- <- <-.
    destruct (IH _ eq_refl) as [Ha HP]. split; [exact Ha|]. intro P. rewrite !Forall_cons_iff, HP. tauto.
  - injection H as -> -> -> ->. split; [exact N|]. intro P. apply Forall_cons_iff.
Qed.

(** A system with exactly one solution is solved. *)
Lemma gauss_complete n : forall E z, Forall (sized n) E -> length z = n ->
  (forall w, length w = n -> (Forall (holds w) E <-> w = z)) -> gauss ROps n E = Some z.
Proof.
  induction n as [|n IH]; intros E z S L U.
  - destruct z; [reflexivity | discriminate].
  - destruct z as [|z0 z]; [discriminate|]. injection L as L.
    assert (Hz : Forall (holds (z0 :: z)) E) by (apply U; [simpl; lia | reflexivity]).
    cbn [gauss]. destruct (find_pivot ROps E) as [[[[a r] c] rest]|] eqn:Q.
    + destruct (find_pivot_some _ _ _ _ _ Q) as [Ha HP].
      apply HP in S as [Sp Sr]. unfold sized in Sp. cbn [fst length] in Sp. injection Sp as Sp.
      apply HP in Hz as Hz2. destruct Hz2 as [Hp Hr].
      unfold holds in Hp. cbn [fst snd] in Hp. rewrite dot_cons in Hp.
      (* the reduced system *)
      assert (El : forall w', length w' = n -> forall e, sized (Datatypes.S n) e ->
                (holds w' (eliminate ROps a r c e) <-> holds ((c - dotR r w') / a :: w') e)).
      { intros w' Lw [[|b s] d] Se; [discriminate|]. unfold sized in Se. cbn [fst length] in Se. injection Se as Se.
        unfold holds, eliminate. cbn [fst snd]. rewrite dot_elim by congruence. rewrite dot_cons.
        cbn [nsub nmul ndiv ROps]. split; intro H.
        - replace (b * ((c - dotR r w') / a)) with (b / a * c - b / a * dotR r w') by (field; exact Ha). lra.
        - replace (b * ((c - dotR r w') / a)) with (b / a * c - b / a * dotR r w') in H by (field; exact Ha). lra. }
      assert (All : forall w', length w' = n -> (Forall (holds w') (map (eliminate ROps a r c) rest) <-> Forall (holds ((c - dotR r w') / a :: w')) rest)).
      { intros w' Lw. rewrite Forall_map. rewrite !Forall_forall. rewrite Forall_forall in Sr.
        split; intros H e He; apply (El w' Lw e (Sr e He)), H, He. }
      assert (Z0 : (c - dotR r z) / a = z0) by (apply (Rmult_eq_reg_l a); [field_simplify; lra | exact Ha]).
      rewrite (IH _ z).
      * cbn [ndiv nsub ROps]. rewrite Z0. reflexivity.
      * rewrite Forall_map. apply Forall_forall. intros [[|b s] d] He; rewrite Forall_forall in Sr; specialize (Sr _ He);
          [discriminate|]. unfold sized in *. cbn [fst length eliminate] in *. injection Sr as Sr. rewrite zip_length; congruence.
      * exact L.
      * intros w' Lw. rewrite (All w' Lw). split; intro H.
        -- assert (Q2 : (c - dotR r w') / a :: w' = z0 :: z).
           { apply U; [simpl; lia|]. apply HP. split; [|exact H]. unfold holds. cbn [fst snd]. rewrite dot_cons. field. exact Ha. }
           now injection Q2.
        -- subst w'. rewrite Z0. exact Hr.
    + exfalso. pose proof (find_pivot_none n E S Q) as Z.
      assert (H : z0 + 1 :: z = z0 :: z).
      { apply U; [simpl; lia|]. rewrite Forall_forall in *. intros e He. destruct (Z e He) as [r Er]. specialize (Hz e He).
        unfold holds in *. rewrite Er in *. rewrite dot_cons in *. lra. }
      injection H as H. lra.
Qed.

(** ** The tridiagonal system of a natural spline *)
Section Tri.
  Variables h r : nat -> R.
  Variable m : nat.
  Hypothesis hpos : forall i, (i <= m)%nat -> 0 < h i.
  Definition eqn (z : nat -> R) (i : nat) : Prop :=
    h i * z i + 2 * (h i + h (S i)) * z (S i) + h (S i) * z (S (S i)) = r i.
  Fixpoint sweep (i : nat) : R * R :=
    match i with
    | 0%nat => (0, 0)
    | S j => let (al, be) := sweep j in let D := 2 * (h j + h (S j)) - h j * be in ((r j - h j * al) / D, h (S j) / D)
    end.
  Lemma sweep_bound i : (i <= m)%nat -> 0 <= snd (sweep i) <= 1.
  Proof.
    induction i as [|i IH]; intro H; [simpl; lra|]. cbn [sweep]. destruct (sweep i) as [al be]. cbn [snd] in *.
    specialize (IH ltac:(lia)). pose proof (hpos i ltac:(lia)). pose proof (hpos (S i) H).
    assert (h i * be <= h i) by (rewrite <- (Rmult_1_r (h i)) at 2; apply Rmult_le_compat_l; lra).
    assert (D : 0 < 2 * (h i + h (S i)) - h i * be) by lra.
    split; [apply Rlt_le, Rdiv_lt_0_compat; assumption|].
    apply (Rmult_le_reg_r (2 * (h i + h (S i)) - h i * be)); [exact D|]. field_simplify; lra.
  Qed.
  Lemma pivot_pos i : (S i <= m)%nat -> 0 < 2 * (h i + h (S i)) - h i * snd (sweep i).
  Proof.
    intro H. pose proof (sweep_bound i ltac:(lia)). pose proof (hpos i ltac:(lia)). pose proof (hpos (S i) H).
    assert (h i * snd (sweep i) <= h i) by (rewrite <- (Rmult_1_r (h i)) at 2; apply Rmult_le_compat_l; lra). lra.
  Qed.
  Lemma sweep_iff z k : (k <= m)%nat ->
    (z 0%nat = 0 /\ forall i, (i < k)%nat -> eqn z i) <-> (forall i, (i <= k)%nat -> z i = fst (sweep i) - snd (sweep i) * z (S i)).
  Proof.
    induction k as [|k IH]; intro H.
    - split; [intros [Z _] i Hi; assert (i = 0%nat) as -> by lia; simpl; lra|].
      intro A. specialize (A 0%nat (le_n _)). simpl in A. split; [lra | intros; lia].
    - specialize (IH ltac:(lia)). pose proof (pivot_pos k H) as D.
      assert (step : z k = fst (sweep k) - snd (sweep k) * z (S k) ->
        (eqn z k <-> z (S k) = fst (sweep (S k)) - snd (sweep (S k)) * z (S (S k)))).
      { intro Zk. unfold eqn. cbn [sweep]. destruct (sweep k) as [al be]. cbn [fst snd] in *. rewrite Zk.
        set (d := 2 * (h k + h (S k)) - h k * be) in *.
        assert (Q : h k * (al - be * z (S k)) + 2 * (h k + h (S k)) * z (S k) + h (S k) * z (S (S k)) = d * z (S k) + h k * al + h (S k) * z (S (S k))) by (unfold d; ring).
        rewrite Q. split; intro E.
        - apply (Rmult_eq_reg_l d); [|lra]. field_simplify; lra.
        - rewrite E. field. lra. }
      split.
      + intros [Z E]. assert (A : forall i, (i <= k)%nat -> z i = fst (sweep i) - snd (sweep i) * z (S i)).
        { apply IH. split; [exact Z | intros; apply E; lia]. }
        intros i Hi. destruct (Nat.eq_dec i (S k)) as [->|]; [|apply A; lia].
        apply step; [apply A; lia | apply E; lia].
      + intro A. destruct (proj2 IH) as [Z E]; [intros; apply A; lia|]. split; [exact Z|].
        intros i Hi. destruct (Nat.eq_dec i k) as [->|]; [|apply E; lia]. apply step; apply A; lia.
  Qed.
  Fixpoint back (k : nat) : R :=
    match k with 0%nat => 0 | S j => fst (sweep (m - j)) - snd (sweep (m - j)) * back j end.
  Lemma tri_solution : exists z, z 0%nat = 0 /\ z (S m) = 0 /\ (forall i, (i < m)%nat -> eqn z i) /\
    forall w, w 0%nat = 0 -> w (S m) = 0 -> (forall i, (i < m)%nat -> eqn w i) -> forall i, (i <= S m)%nat -> w i = z i.
  Proof.
    set (z := fun i => back (S m - i)).
    assert (A : forall i, (i <= m)%nat -> z i = fst (sweep i) - snd (sweep i) * z (S i)).
    { intros i Hi. unfold z. replace (S m - i)%nat with (S (S m - S i)) by lia. cbn [back]. replace (m - (S m - S i))%nat with i by lia. reflexivity. }
    exists z. apply (sweep_iff z m (le_n _)) in A as [Z E]. split; [exact Z|]. split; [unfold z; rewrite Nat.sub_diag; reflexivity|].
    split; [exact E|]. intros w W0 W1 WE.
    pose proof (proj1 (sweep_iff w m (le_n _)) (conj W0 WE)) as WA.
    pose proof (proj1 (sweep_iff z m (le_n _)) (conj Z E)) as ZA.
    assert (G : forall k i, (i + k = S m)%nat -> w i = z i).
    { induction k as [|k IHk]; intros i Hi.
      - replace i with (S m) by lia. rewrite W1. unfold z. rewrite Nat.sub_diag. reflexivity.
      - rewrite WA, ZA by lia. rewrite (IHk (S i)) by lia. reflexivity. }
    intros i Hi. apply (G (S m - i)%nat). lia.
  Qed.
End Tri.

(** ** Gluing *)
Lemma glue_derive (f g k : R -> R) t d e : 0 < e ->
  (forall x, t - e < x <= t -> f x = g x) -> (forall x, t <= x < t + e -> f x = k x) ->
  is_derive g t d -> is_derive k t d -> is_derive f t d.
Proof.
  intros He Hl Hr Dg Dk. apply is_derive_Reals. apply is_derive_Reals in Dg. apply is_derive_Reals in Dk.
  intros eps Heps. destruct (Dg eps Heps) as [d1 H1]. destruct (Dk eps Heps) as [d2 H2].
  assert (P : 0 < Rmin e (Rmin d1 d2)) by (repeat apply Rmin_glb_lt; [exact He | apply cond_pos | apply cond_pos]).
  exists (mkposreal _ P). intros h Hh Hd. cbn [pos] in Hd.
  pose proof (Rmin_l e (Rmin d1 d2)). pose proof (Rmin_r e (Rmin d1 d2)). pose proof (Rmin_l d1 d2). pose proof (Rmin_r d1 d2).
  destruct (Rabs_def2 _ _ Hd) as [B1 B2]. destruct (Rle_dec h 0).
  - rewrite (Hl (t + h)), (Hl t) by lra. apply H1; [exact Hh | lra].
  - rewrite (Hr (t + h)), (Hr t) by lra. apply H2; [exact Hh | lra].
Qed.
Lemma glue_continuous (f g k : R -> R) t e : 0 < e ->
  (forall x, t - e < x <= t -> f x = g x) -> (forall x, t <= x < t + e -> f x = k x) ->
  continuity_pt g t -> continuity_pt k t -> continuity_pt f t.
Proof.
  intros He Hl Hr Cg Ck eps Heps. destruct (Cg eps Heps) as (d1 & P1 & H1). destruct (Ck eps Heps) as (d2 & P2 & H2).
  exists (Rmin e (Rmin d1 d2)). split; [repeat apply Rmin_glb_lt; assumption|].
  intros x [Dx Hd]. cbn [dist R_met] in *. unfold R_dist in *.
  pose proof (Rmin_l e (Rmin d1 d2)). pose proof (Rmin_r e (Rmin d1 d2)). pose proof (Rmin_l d1 d2). pose proof (Rmin_r d1 d2).
  destruct (Rabs_def2 _ _ Hd) as [B1 B2]. destruct (Rle_dec x t).
  - rewrite (Hl x), (Hl t) by lra. apply H1. cbn [dist R_met]. unfold R_dist. split; [exact Dx | lra].
  - rewrite (Hr x), (Hr t) by lra. apply H2. cbn [dist R_met]. unfold R_dist. split; [exact Dx | lra].
Qed.
