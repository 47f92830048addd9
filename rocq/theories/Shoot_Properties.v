(** Property theorems C42, C43, C47-C50: the shooting solver around its root
    finder. *)
From Coq Require Import QArith Reals Lra Sorted.
From Verif Require Import Base Base_Facts Sym_Dual Shoot_Model.
Open Scope nat_scope.

(** ** C42 *)

(** Initial states of the arcs, and the quadratures at the first point. *)
Definition starts_with {F} (arcs : list (arc F)) (rows : list (list F)) (q0 : list F) : Prop :=
  map (fun g => nth_error (a_y g) 0) arcs = map Some rows /\
  match arcs with g :: _ => nth_error (a_q g) 0 = Some q0 | [] => False end.

Lemma skipn_skipn_add {A} a : forall b (l : list A), skipn a (skipn b l) = skipn (b + a) l.
Proof.
  intros b. revert a. induction b as [|b IH]; intros a l; [reflexivity|]. destruct l; simpl; [apply skipn_nil|apply IH].
Qed.
Lemma write_app {F} (vals : list F) : forall a b c, length b = length vals ->
  write vals (length a) (a ++ b ++ c) = Ok (a ++ vals ++ c, length a + length vals).
Proof.
  induction vals as [|v vals IH]; intros a [|x b] c L; try discriminate; cbn [write length].
  - now rewrite Nat.add_0_r.
  - assert (E : set_nth (a ++ (x :: b) ++ c) (length a) v = Ok ((a ++ [v]) ++ b ++ c)).
    { unfold set_nth. assert (H : Nat.ltb (length a) (length (a ++ (x :: b) ++ c)) = true)
        by (apply Nat.ltb_lt; rewrite app_length; simpl; lia).
      rewrite H. rewrite firstn_app, Nat.sub_diag, firstn_all. simpl firstn. rewrite app_nil_r.
      rewrite skipn_app, (skipn_all2 a) by lia. replace (S (length a) - length a) with 1 by lia. simpl. now rewrite <- app_assoc. }
    rewrite E. cbn [bind]. replace (S (length a)) with (length (a ++ [v])) by (rewrite app_length; simpl; lia).
    rewrite IH by (simpl in L; lia). rewrite app_length, <- !app_assoc. simpl. do 2 f_equal. lia.
Qed.
Lemma write_all_app {F} (rows : list (list F)) : forall a b c, length b = length (concat rows) ->
  write_all rows (length a) (a ++ b ++ c) = Ok (a ++ concat rows ++ c, length a + length (concat rows)).
Proof.
  induction rows as [|r rows IH]; intros a b c L; simpl in *.
  - destruct b; [|discriminate]. now rewrite Nat.add_0_r.
  - rewrite app_length in *. rewrite <- (firstn_skipn (length r) b), <- app_assoc.
    rewrite write_app by (rewrite firstn_length; lia). cbn [bind fst snd].
    rewrite app_assoc, <- app_length. rewrite IH by (rewrite skipn_length; lia).
    rewrite app_length, <- !app_assoc. do 2 f_equal. lia.
Qed.
Lemma mapM_starts {F} (arcs : list (arc F)) : forall rows, map (fun g => nth_error (a_y g) 0) arcs = map Some rows ->
  mapM (fun g => get (a_y g) 0) arcs = Ok rows.
Proof.
  induction arcs as [|g arcs IH]; intros [|r rows] H; try discriminate; [reflexivity|]. cbn [map] in H.
  assert (H1 : nth_error (a_y g) 0 = Some r) by congruence. assert (H2 : map (fun g => nth_error (a_y g) 0) arcs = map Some rows) by congruence.
  cbn [mapM]. unfold get at 1. rewrite H1. cbn [bind]. rewrite (IH _ H2). reflexivity.
Qed.
Lemma concat_length {A} n (rows : list (list A)) : Forall (fun r => length r = n) rows -> length (concat rows) = length rows * n.
Proof. induction 1 as [|r rows H F IH]; simpl; [reflexivity|]. now rewrite app_length, IH, H. Qed.
Lemma slice_mid {A} (a b c : list A) : slice (length a) (length a + length b) (a ++ b ++ c) = b.
Proof.
  unfold slice. replace (length a + length b - length a) with (length b) by lia.
  rewrite skipn_app, skipn_all, Nat.sub_diag. simpl. rewrite firstn_app, Nat.sub_diag, firstn_all. simpl. apply app_nil_r.
Qed.

Lemma wrap_value {F} (zero : F) arcs rows q0 n params nparams :
  starts_with arcs rows q0 -> Forall (fun r => length r = n) rows ->
  wrap_y0 zero arcs params nparams = Ok (concat rows ++ q0 ++ params ++ nparams).
Proof.
  intros [S Q] L. destruct arcs as [|g arcs]; [easy|]. destruct rows as [|r rows]; [discriminate|].
  pose proof (mapM_starts _ _ S) as M. pose proof (f_equal (@length _) S) as N. rewrite !map_length in N.
  unfold wrap_y0. unfold get at 1. cbn [nth_error bind].
  assert (R : nth_error (a_y g) 0 = Some r) by (cbn [map] in S; congruence).
  unfold get at 1. rewrite R. cbn [bind]. unfold get at 1. rewrite Q. cbn [bind]. rewrite M. cbn [bind].
  assert (LR : length r = n) by now inversion L.
  rewrite (N : length (g :: arcs) = length (r :: rows)), LR. pose proof (concat_length n _ L) as C.
  remember (r :: rows) as rs. clear Heqrs. rewrite <- C. clear - zero.
  rewrite !repeat_app.
  rewrite <- !app_assoc.
  pose proof (write_all_app rs [] (repeat zero (length (concat rs)))) as W. cbn [length app] in W.
  rewrite W by apply repeat_length. cbn [bind fst snd]. clear W.
  replace (0 + length (concat rs)) with (length (concat rs)) by lia.
  rewrite write_app by apply repeat_length. cbn [bind fst snd].
  rewrite app_assoc, <- app_length. rewrite write_app by apply repeat_length. cbn [bind fst snd].
  rewrite app_assoc, <- app_length. rewrite <- (app_nil_r (repeat zero (length nparams))).
  rewrite write_app by apply repeat_length. cbn [bind fst snd]. now rewrite app_nil_r, <- !app_assoc.
Qed.
Lemma reshape_concat {F} n (rows : list (list F)) : Forall (fun r => length r = n) rows ->
  reshape (length rows) n (concat rows) = Ok rows.
Proof.
  intros L. unfold reshape. rewrite (concat_length n rows L), Nat.eqb_refl. f_equal.
  assert (G : forall (rows : list (list F)) k pre, Forall (fun r => length r = n) rows -> length pre = k * n ->
    map (fun i => slice (i * n) (i * n + n) (pre ++ concat rows)) (seq k (length rows)) = rows).
  { clear. induction rows as [|r rows IH]; intros k pre L P; [reflexivity|]. cbn [length seq map concat].
    inversion L as [|x l Lr Lrs]. subst x l. f_equal.
    - rewrite <- P. rewrite <- Lr at 1. apply slice_mid.
    - rewrite app_assoc. apply IH; [exact Lrs|]. rewrite app_length. lia. }
  apply (G rows 0 [] L eq_refl).
Qed.

(** Packing never loses anything: unpacking gives back the initial states of
    every arc, the quadratures and both parameter vectors. *)
Theorem C42_unpack_pack : forall (F : Type) (zero : F) arcs rows q0 n params nparams,
  starts_with arcs rows q0 -> Forall (fun r => length r = n) rows ->
  exists v, wrap_y0 zero arcs params nparams = Ok v /\
    length v = length arcs * n + length q0 + length params + length nparams /\
    unwrap_y0 v n (length q0) (length params) (length arcs) = Ok (rows, q0, params, nparams).
Proof.
  intros F zero arcs rows q0 n params nparams S L. pose proof (wrap_value zero arcs rows q0 n params nparams S L) as W.
  eexists. split; [exact W|]. destruct S as [S _]. pose proof (f_equal (@length _) S) as N. rewrite !map_length in N.
  pose proof (concat_length n rows L) as C. split; [rewrite !app_length; lia|].
  unfold unwrap_y0. rewrite N, (Nat.mul_comm n), <- C.
  rewrite firstn_app, Nat.sub_diag, firstn_all. simpl firstn. rewrite app_nil_r, reshape_concat by exact L. cbn [bind].
  rewrite slice_mid. rewrite (app_assoc (concat rows) q0), <- app_length, slice_mid.
  do 2 f_equal. replace (length (concat rows) + length params + length q0) with (length ((concat rows ++ q0) ++ params)) by (rewrite !app_length; lia).
  rewrite app_assoc. rewrite skipn_app, skipn_all, Nat.sub_diag. reflexivity.
Qed.
Print Assumptions C42_unpack_pack.

Lemma reshape_rows {F} rows n (h : list F) r : reshape rows n h = Ok r ->
  length r = rows /\ Forall (fun x => length x = n) r /\ concat r = h.
Proof.
  unfold reshape. destruct (Nat.eqb_spec (length h) (rows * n)) as [E|]; [|discriminate]. intros H. apply Ok_inj in H. subst r.
  split; [now rewrite map_length, seq_length|]. split.
  - apply Forall_forall. intros x H. apply in_map_iff in H. destruct H as (i & <- & H). apply in_seq in H.
    unfold slice. rewrite firstn_length, skipn_length, E. enough (i * n + n <= rows * n) by lia.
    replace (i * n + n) with (S i * n) by lia. apply Nat.mul_le_mono_r. lia.
  - assert (G : forall m k, (k + m) * n <= length h ->
      concat (map (fun i => slice (i * n) (i * n + n) h) (seq k m)) = slice (k * n) (k * n + m * n) h).
    { clear. induction m as [|m IH]; intros k H; simpl.
      - unfold slice. replace (k * n + 0 - k * n) with 0 by lia. reflexivity.
      - rewrite IH by lia. unfold slice. replace (k * n + n - k * n) with n by lia. simpl.
        replace (k * n + (n + m * n) - k * n) with (n + m * n) by lia.
        replace (n + k * n + m * n - (n + k * n)) with (m * n) by lia.
        rewrite <- (firstn_skipn n (firstn (n + m * n) (skipn (k * n) h))). f_equal.
        + rewrite firstn_firstn. f_equal. lia.
        + rewrite skipn_firstn_comm. replace (n + m * n - n) with (m * n) by lia. f_equal.
          rewrite skipn_skipn_add. f_equal. lia. }
    rewrite G by lia. unfold slice. simpl. rewrite Nat.sub_0_r. rewrite <- E. apply firstn_all.
Qed.

(** Conversely every vector of the right size is the packing of what was
    unpacked from it. *)
Theorem C42_pack_unpack : forall (F : Type) (zero : F) v n nq nd nn na,
  na > 0 -> length v = na * n + nq + nd + nn ->
  exists rows q0 params nparams,
    unwrap_y0 v n nq nd na = Ok (rows, q0, params, nparams) /\
    length rows = na /\ Forall (fun r => length r = n) rows /\ length q0 = nq /\ length params = nd /\ length nparams = nn /\
    forall arcs, starts_with arcs rows q0 -> wrap_y0 zero arcs params nparams = Ok v.
Proof.
  intros F zero v n nq nd nn na A L. unfold unwrap_y0.
  assert (LH : length (firstn (n * na) v) = na * n) by (rewrite firstn_length, (Nat.mul_comm n); lia).
  destruct (reshape na n (firstn (n * na) v)) as [rows|e] eqn:E.
  2:{ unfold reshape in E. rewrite LH, Nat.eqb_refl in E. discriminate. }
  cbn [bind]. apply reshape_rows in E. destruct E as (E1 & E2 & E3).
  eexists _, _, _, _. split; [reflexivity|]. split; [exact E1|]. split; [exact E2|].
  rewrite (Nat.mul_comm n) in *. unfold slice.
  split; [rewrite firstn_length, skipn_length; lia|]. split; [rewrite firstn_length, skipn_length; lia|].
  split; [rewrite skipn_length; lia|].
  intros arcs S. rewrite (wrap_value zero arcs rows _ n _ _ S E2). f_equal. rewrite E3.
  replace (na * n + nq - na * n) with nq by lia. replace (na * n + nq + nd - (na * n + nq)) with nd by lia.
  replace (na * n + nd + nq) with (na * n + nq + nd) by lia.
  rewrite <- (firstn_skipn (na * n) v) at 5. f_equal.
  rewrite <- (firstn_skipn nq (skipn (na * n) v)) at 2. f_equal.
  rewrite skipn_skipn_add. rewrite <- (firstn_skipn nd (skipn (na * n + nq) v)) at 2. f_equal.
  rewrite skipn_skipn_add. reflexivity.
Qed.
Print Assumptions C42_pack_unpack.

(** A vector too short for the states is rejected, and only that. *)
Theorem C42_short_vector : forall (F : Type) (v : list F) n nq nd na,
  unwrap_y0 v n nq nd na = Raise ValueError <-> length v < n * na.
Proof.
  intros F v n nq nd na. unfold unwrap_y0, reshape. rewrite firstn_length.
  destruct (Nat.eqb_spec (Nat.min (n * na) (length v)) (na * n)) as [E|E]; cbn [bind]; split; intros H; try discriminate; try reflexivity; try lia.
Qed.
Print Assumptions C42_short_vector.

(** When [solve] ignores the quadratures of the guess (no quadrature function,
    or all NaN), packing still includes them: the parameters it unpacks are the
    quadratures. *)
Theorem C42_ignored_quadratures_refuted : exists (arcs : list (arc Q)) rows q0 params v nq,
  starts_with arcs rows q0 /\ Forall (fun r => length r = 1) rows /\
  n_quads_used false (fun _ => false) (match arcs with g :: _ => a_q g | [] => [] end) = Ok nq /\
  wrap_y0 0%Q arcs params [] = Ok v /\
  exists p', unwrap_y0 v 1 nq (length params) (length arcs) = Ok (rows, [], p', params) /\ p' <> params.
Proof.
  exists [mkArc [0; 1]%Q [[1]; [2]]%Q [[7]; [8]]%Q [[]; []]], [[1%Q]], [7%Q], [5%Q], [1; 7; 5]%Q, 0.
  split; [split; reflexivity|]. split; [repeat constructor|]. split; [reflexivity|]. split; [reflexivity|].
  exists [7%Q]. split; [reflexivity|discriminate].
Qed.
Print Assumptions C42_ignored_quadratures_refuted.

Example C42_ex : exists arcs : list (arc Q),
  starts_with arcs [[1; 2]; [3; 4]; [5; 6]]%Q [9%Q] /\
  wrap_y0 0%Q arcs [10%Q] [11; 12]%Q = Ok [1; 2; 3; 4; 5; 6; 9; 10; 11; 12]%Q.
Proof.
  exists (map (fun y => mkArc [0; 1]%Q [y; y] [[9]; [8]]%Q [[]; []]) [[1; 2]; [3; 4]; [5; 6]]%Q). split; [split; reflexivity|reflexivity].
Qed.

(** ** C43 *)

Lemma last_of_snoc {A} (l : list A) x : last_of (l ++ [x]) = Ok x.
Proof. unfold last_of. now rewrite rev_unit. Qed.
Lemma last_of_spec {A} (l : list A) d : l <> [] -> last_of l = Ok (last l d).
Proof. intros H. destruct (exists_last H) as (l' & y & ->). now rewrite last_of_snoc, last_last. Qed.

(** First and last states of the arcs, all with [n] components. *)
Definition arc_ends {F} (n : nat) (arcs : list (arc F)) (firsts lasts : list (list F)) : Prop :=
  map (fun g => nth_error (a_y g) 0) arcs = map Some firsts /\
  map (fun g => last_of (a_y g)) arcs = map Ok lasts /\
  Forall (fun r => length r = n) firsts /\ Forall (fun r => length r = n) lasts.

Section C43.
  Context {F : Type}.
  Variables (zero : F) (sub : F -> F -> F).
  Hypothesis sub_zero : forall a b, sub a b = zero <-> a = b.

  Lemma row_sub_zero (a b : list F) : length a = length b ->
    Forall (fun x => x = zero) (map (fun p => sub (fst p) (snd p)) (combine a b)) <-> a = b.
  Proof.
    revert b. induction a as [|x a IH]; intros [|y b] L; try discriminate; simpl; [split; [reflexivity|constructor]|].
    split.
    - intros H. pose proof (Forall_inv H) as H1. pose proof (Forall_inv_tail H) as H2. simpl in H1. apply (proj1 (sub_zero x y)) in H1. apply IH in H2; [|simpl in L; lia]. now rewrite H1, H2.
    - intros [= -> ->]. constructor; [now apply sub_zero|]. now apply IH.
  Qed.
  Lemma defects_spec n (arcs : list (arc F)) : forall firsts lasts, arc_ends n arcs firsts lasts -> arcs <> [] ->
    exists ds, defects sub arcs = Ok ds /\ length (concat ds) = (length arcs - 1) * n /\
      (Forall (fun x => x = zero) (concat ds) <-> removelast lasts = tl firsts).
  Proof.
    induction arcs as [|g arcs IH]; intros firsts lasts (E1 & E2 & L1 & L2) NE; [easy|].
    destruct firsts as [|f firsts]; [discriminate|]. destruct lasts as [|l lasts]; [discriminate|]. cbn [map] in E1, E2.
    assert (G2 : last_of (a_y g) = Ok l) by congruence.
    assert (E1' : map (fun g => nth_error (a_y g) 0) arcs = map Some firsts) by congruence.
    assert (E2' : map (fun g => last_of (a_y g)) arcs = map Ok lasts) by congruence.
    inversion L1. inversion L2. subst. destruct arcs as [|h arcs].
    - destruct firsts; [|discriminate]. destruct lasts; [|discriminate]. exists []. split; [reflexivity|]. split; [reflexivity|].
      split; [reflexivity|constructor].
    - destruct firsts as [|f2 firsts]; [discriminate|]. destruct lasts as [|l2 lasts]; [discriminate|].
      assert (Hh : nth_error (a_y h) 0 = Some f2) by (cbn [map] in E1'; congruence).
      destruct (IH (f2 :: firsts) (l2 :: lasts)) as (ds & D1 & D2 & D3); [repeat split; assumption|discriminate|].
      change (defects sub (g :: h :: arcs)) with (yf <- last_of (a_y g) ; y0 <- get (a_y h) 0 ; d <- row_sub sub yf y0 ; ds <- defects sub (h :: arcs) ; Ok (d :: ds)).
      rewrite D1, G2. cbn [bind]. unfold get. rewrite Hh. cbn [bind]. unfold row_sub.
      assert (LL : length l = length f2) by (inversion L1 as [|? ? ? X]; inversion X; congruence).
      rewrite LL, Nat.eqb_refl. cbn [bind]. eexists. split; [reflexivity|].
      split.
      + simpl. rewrite app_length, D2, map_length, combine_length, LL, Nat.min_id. cbn [length]. rewrite <- LL. nia.
      + cbn [concat]. rewrite Forall_app, D3, row_sub_zero by exact LL. cbn [removelast tl]. split.
        * intros [-> H]. now rewrite H.
        * intros H. split; congruence.
  Qed.

  (** The residual is zero exactly when consecutive arcs join and the boundary
      conditions hold at the outer ends; its size is the number of joints times
      the number of states, plus the number of boundary conditions. *)
  Theorem C43_zero_exactly_at_solutions : forall n arcs firsts lasts bc b,
    arcs <> [] -> arc_ends n arcs firsts lasts ->
    (let g0 := hd (mkArc [] [] [] []) arcs in let gl := last arcs (mkArc [] [] [] []) in
     bc (hd [] firsts) (hd [] (a_q g0)) (last lasts []) (last (a_q gl) []) = Ok b) ->
    exists r, residual_ms sub bc arcs = Ok r /\
      length r = (length arcs - 1) * n + length b /\
      (Forall (fun x => x = zero) r <-> removelast lasts = tl firsts /\ Forall (fun x => x = zero) b).
  Proof.
    intros n arcs firsts lasts bc b NE E B. destruct (defects_spec n arcs firsts lasts E NE) as (ds & D1 & D2 & D3).
    destruct E as (E1 & E2 & _ & _). unfold residual_ms.
    assert (EA : exists g rest, arcs = g :: rest) by (destruct arcs; [easy|eauto]). destruct EA as (g & rest & EA).
    assert (G0 : get arcs 0 = Ok g) by (now rewrite EA). rewrite G0. cbn [bind].
    rewrite (last_of_spec arcs (mkArc [] [] [] []) NE). cbn [bind].
    assert (F0 : nth_error (a_y g) 0 = Some (hd [] firsts)).
    { rewrite EA in E1. destruct firsts; [discriminate|]. cbn [map] in E1. cbn [hd]. congruence. }
    unfold get at 1. rewrite F0. cbn [bind].
    assert (FL : last_of (a_y (last arcs (mkArc [] [] [] []))) = Ok (last lasts [])).
    { destruct (exists_last NE) as (a' & gl & ->). rewrite last_last. rewrite map_app in E2. cbn [map] in E2.
      destruct lasts as [|l0 ls] eqn:EL; [destruct a'; discriminate|]. rewrite <- EL in *.
      assert (NL : lasts <> []) by (subst; discriminate). destruct (exists_last NL) as (l' & x & ->). rewrite last_last.
      rewrite map_app in E2. cbn [map] in E2. apply app_inj_tail in E2. apply E2. }
    rewrite FL. cbn [bind]. rewrite D1. cbn [bind].
    assert (Q0 : match a_q g with r :: _ => r | [] => [] end = hd [] (a_q g)) by (now destruct (a_q g)).
    assert (QF : forall l : list (list F), match rev l with r :: _ => r | [] => [] end = last l []).
    { intros [|x l]; [reflexivity|]. assert (N2 : x :: l <> []) by discriminate. destruct (exists_last N2) as (l' & y & E). rewrite E.
      now rewrite rev_unit, last_last. }
    rewrite Q0, QF. cbv zeta in B. assert (HD : hd (mkArc [] [] [] []) arcs = g) by (now rewrite EA). rewrite HD in B. rewrite B. cbn [bind].
    eexists. split; [reflexivity|]. split; [now rewrite app_length, D2|]. now rewrite Forall_app, D3.
  Qed.
End C43.
Print Assumptions C43_zero_exactly_at_solutions.

Example C43_ex :
  let arcs := [mkArc [0; 1] [[1; 2]; [3; 4]] [] []; mkArc [1; 2] [[3; 4]; [5; 6]] [] []; mkArc [2; 3] [[5; 6]; [7; 8]] [] []]%Z in
  let bc := fun y0 (_ : list Z) yf (_ : list Z) => Ok [hd 0%Z y0 - 1; hd 0%Z yf - 7; 0]%Z in
  arc_ends 2 arcs [[1; 2]; [3; 4]; [5; 6]]%Z [[3; 4]; [5; 6]; [7; 8]]%Z /\
  (forall a b, (a - b = 0 <-> a = b)%Z) /\
  residual_ms Z.sub bc arcs = Ok [0; 0; 0; 0; 0; 0; 0]%Z.
Proof. split; [repeat split; repeat constructor|]. split; [lia|reflexivity]. Qed.

(** ** C48 *)

(** Quadrature values of one arc: at least one row, rows of length [n]. *)
Definition quad_rows (n : nat) (q : list (list R)) : Prop := q <> [] /\ Forall (fun r => length r = n) q.
(** Entry [c] of row [j]. *)
Definition entry (q : list (list R)) (j c : nat) : R := nth c (nth j q []) 0%R.
Definition same_increments (n : nat) (q q' : list (list R)) : Prop :=
  length q' = length q /\
  forall j k c, j < length q -> k < length q -> c < n -> (entry q' j c - entry q' k c = entry q j c - entry q k c)%R.

Definition zip_with (f : R -> R -> R) (a b : list R) : list R := map (fun p => f (fst p) (snd p)) (combine a b).
Lemma zip_with_length f a b : length a = length b -> length (zip_with f a b) = length b.
Proof. intros L. unfold zip_with. rewrite map_length, combine_length. lia. Qed.
Lemma nth_zip_with f a : forall b c, length a = length b -> c < length a -> nth c (zip_with f a b) 0%R = f (nth c a 0%R) (nth c b 0%R).
Proof.
  induction a as [|x a IH]; intros [|y b] [|c] L C; simpl in *; try lia; [reflexivity|]. apply IH; lia.
Qed.
Lemma shift_rows n d q : Forall (fun r => length r = n) q -> length d = n ->
  mapM (fun r => row_add Rplus r d) q = Ok (map (fun r => zip_with Rplus r d) q).
Proof.
  intros L D. induction L as [|r q H L IH]; [reflexivity|]. cbn [mapM map]. unfold row_add at 1. rewrite H, D, Nat.eqb_refl. cbn [bind].
  rewrite IH. reflexivity.
Qed.
Lemma shift_increments n d q : Forall (fun r => length r = n) q -> length d = n -> same_increments n q (map (fun r => zip_with Rplus r d) q).
Proof.
  intros L D. split; [apply map_length|]. intros j k c J K C. unfold entry.
  assert (Z : [] = zip_with Rplus [] d) by reflexivity.
  rewrite Z. rewrite !(map_nth (fun r => zip_with Rplus r d)). rewrite <- Z.
  assert (LJ : length (nth j q []) = n) by (eapply Forall_forall in L; [exact L|now apply nth_In]).
  assert (LK : length (nth k q []) = n) by (eapply Forall_forall in L; [exact L|now apply nth_In]).
  rewrite !nth_zip_with by lia. ring.
Qed.
Lemma zip_cancel a : forall b, length a = length b -> zip_with Rplus b (zip_with Rminus a b) = a.
Proof.
  induction a as [|x a IH]; intros [|y b] L; try discriminate; [reflexivity|]. unfold zip_with in *. simpl in *. f_equal; [ring|]. apply IH. lia.
Qed.

Lemma join_from_spec n qs : forall prev, length prev = n -> Forall (quad_rows n) qs ->
  exists qs', join_from Rminus Rplus prev qs = Ok qs' /\ length qs' = length qs /\
    (qs <> [] -> hd [] (hd [] qs') = prev) /\
    (forall i, S i < length qs -> last (nth i qs' []) [] = hd [] (nth (S i) qs' [])) /\
    (forall i, i < length qs -> same_increments n (nth i qs []) (nth i qs' [])).
Proof.
  induction qs as [|q qs IH]; intros prev LP H; cbn [join_from].
  - exists []. split; [reflexivity|]. split; [reflexivity|]. split; [easy|]. split; simpl; intros; lia.
  - pose proof (Forall_inv H) as [NE L]. pose proof (Forall_inv_tail H) as H'.
    destruct q as [|f q]; [easy|]. unfold get at 1. cbn [nth_error bind].
    assert (LF : length f = n) by (now apply Forall_inv in L).
    unfold row_sub at 1. rewrite LP, LF, Nat.eqb_refl. cbn [bind]. fold (zip_with Rminus prev f).
    assert (LD : length (zip_with Rminus prev f) = n) by (rewrite zip_with_length; lia).
    rewrite (shift_rows n _ _ L LD). cbn [bind]. remember (map _ (f :: q)) as q' eqn:EQ'.
    assert (NE' : q' <> []) by (rewrite EQ'; discriminate). rewrite (last_of_spec q' [] NE'). cbn [bind].
    assert (LL : length (last q' []) = n).
    { destruct (exists_last NE') as (a & b & E). rewrite E, last_last. assert (I : In b q') by (rewrite E; apply in_or_app; right; now left).
      rewrite EQ' in I. apply in_map_iff in I. destruct I as (r & <- & I). rewrite zip_with_length; [exact LD|].
      eapply Forall_forall in L; [|exact I]. simpl in L. lia. }
    destruct (IH _ LL H') as (qs' & J & N & HD & C & SI). rewrite J. cbn [bind]. exists (q' :: qs'). split; [reflexivity|].
    split; [simpl; lia|]. split; [|split].
    + intros _. rewrite EQ'. cbn [map hd]. apply zip_cancel. lia.
    + intros [|i] Hi; simpl in Hi.
      * cbn [nth]. rewrite <- HD by (destruct qs; [simpl in Hi; lia|discriminate]). destruct qs'; reflexivity.
      * cbn [nth]. apply C. lia.
    + intros [|i] Hi; cbn [nth]; [|apply SI; simpl in Hi; lia]. rewrite EQ'. now apply shift_increments.
Qed.

(** With several arcs and at least one quadrature: after the shift each arc
    starts where the previous one ends, the first arc is unchanged, and all
    increments inside the arcs are unchanged. *)
Theorem C48_quadratures_continuous : forall n qs,
  n > 0 -> Forall (quad_rows n) qs ->
  exists qs', join_quads Rminus Rplus n qs = Ok qs' /\ length qs' = length qs /\
    hd [] qs' = hd [] qs /\
    (forall i, S i < length qs -> last (nth i qs' []) [] = hd [] (nth (S i) qs' [])) /\
    (forall i, i < length qs -> same_increments n (nth i qs []) (nth i qs' [])).
Proof.
  intros n qs N H. assert (SELF : forall q, same_increments n q q) by (intros q; split; [reflexivity|intros; reflexivity]).
  unfold join_quads. assert (N0 : Nat.ltb 0 n = true) by (apply Nat.ltb_lt; lia). rewrite N0, andb_true_r.
  destruct (Nat.ltb_spec 1 (length qs)) as [L|L].
  - destruct qs as [|q qs]; [simpl in L; lia|]. pose proof (Forall_inv H) as [NE LR]. pose proof (Forall_inv_tail H) as H'.
    rewrite (last_of_spec q [] NE). cbn [bind].
    assert (LL : length (last q []) = n).
    { destruct (exists_last NE) as (a & b & E). rewrite E, last_last. eapply Forall_forall in LR; [exact LR|]. rewrite E. apply in_or_app. right. now left. }
    destruct (join_from_spec n qs _ LL H') as (qs' & J & M & HD & C & SI). rewrite J. cbn [bind]. exists (q :: qs').
    split; [reflexivity|]. split; [simpl; lia|]. split; [reflexivity|]. split.
    + intros [|i] Hi; simpl in Hi; cbn [nth]; [|apply C; lia]. rewrite <- HD by (destruct qs; [simpl in L; lia|discriminate]). destruct qs'; reflexivity.
    + intros [|i] Hi; cbn [nth]; [apply SELF|apply SI; simpl in Hi; lia].
  - exists qs. split; [reflexivity|]. split; [reflexivity|]. split; [reflexivity|]. split; [intros; lia|auto].
Qed.
Print Assumptions C48_quadratures_continuous.
Example C48_ex :
  Forall (quad_rows 1) [[[1]; [2]]; [[5]; [7]]; [[0]; [1]]]%R /\
  exists qs', join_quads Rminus Rplus 1 [[[1]; [2]]; [[5]; [7]]; [[0]; [1]]]%R = Ok qs' /\
    qs' = [[[1]; [2]]; [[2]; [4]]; [[4]; [5]]]%R.
Proof.
  split; [repeat constructor; discriminate|]. eexists. split; [reflexivity|].
  assert (E1 : (5 + (2 - 5) = 2)%R) by ring. assert (E2 : (7 + (2 - 5) = 4)%R) by ring. simpl. rewrite E1, E2.
  assert (E3 : (0 + (4 - 0) = 4)%R) by ring. assert (E4 : (1 + (4 - 0) = 5)%R) by ring. rewrite E3, E4. reflexivity.
Qed.

(** ** C49 *)

Lemma mapM_head {A B} (f : A -> res B) a l e : f a = Raise e -> mapM f (a :: l) = Raise e.
Proof. intros H. cbn [mapM]. now rewrite H. Qed.

(** A derivative function of fixed arity works at most in one of the two modes:
    with a pool the functions get the controls as one more argument. *)
Theorem C49_never_both : forall (V A : Type) (integrate : (V -> res V) -> V -> V -> V -> V -> res A) eom dyn const starts r,
  starts <> [] ->
  (arcs_serial integrate eom dyn const starts = Ok r -> arcs_parallel integrate eom dyn const starts = Raise TypeError) /\
  (arcs_parallel integrate eom dyn const starts = Ok r -> arcs_serial integrate eom dyn const starts = Raise TypeError).
Proof.
  intros V A integrate [k f] dyn const [|[[[t y] q] u] starts] r NE; [easy|]. split.
  - intros H. apply mapM_head. unfold propagate, call. cbn [arity body length].
    assert (K : k = 3).
    { unfold arcs_serial in H. cbn [mapM] in H. unfold propagate at 1, call at 1 in H. cbn [arity body length] in H.
      destruct (Nat.eqb_spec 3 k) as [E|E]; [congruence|discriminate]. }
    subst k. reflexivity.
  - intros H. apply mapM_head. unfold propagate, call. cbn [arity body length].
    assert (K : k = 4).
    { unfold arcs_parallel in H. cbn [mapM] in H. unfold propagate at 1, call at 1 in H. cbn [arity body length] in H.
      destruct (Nat.eqb_spec 4 k) as [E|E]; [congruence|discriminate]. }
    subst k. reflexivity.
Qed.
Print Assumptions C49_never_both.

(** In particular the functions that NumericProblem compiles for the indirect
    methods, (y, p, k), never work with a pool. *)
Theorem C49_pool_refuted : exists (eom : pyfun (V := Z)) dyn const starts (integrate : (Z -> res Z) -> Z -> Z -> Z -> Z -> res Z) r,
  arcs_serial integrate eom dyn const starts = Ok r /\
  arcs_parallel integrate eom dyn const starts = Raise TypeError.
Proof.
  exists (mkPy 3 (fun l => hd 0%Z l)), 0%Z, 0%Z, [(0, 5, 0, 0)]%Z, (fun f _ y _ d => Ok (y + d)%Z), [10%Z]. split; reflexivity.
Qed.
Print Assumptions C49_pool_refuted.

(** ** C47 *)

Lemma linspace_R t0 tf n tn i : n > 0 -> (t0 < tf)%R -> linspace ROps t0 tf (Z.of_nat n + 1) = Ok tn -> i <= n ->
  get tn i = Ok (t0 + INR i * ((tf - t0) / INR n))%R.
Proof.
  intros N T E I. assert (NZ : (0 < INR n)%R) by (apply lt_0_INR; lia).
  apply get_some. rewrite (linspace_nth ROps t0 tf _ _ i E) by lia. f_equal.
  replace (Z.to_nat (Z.of_nat n + 1) - 1) with n by lia. replace (1 <? Z.of_nat n + 1)%Z with true by (symmetry; apply Z.ltb_lt; lia). cbn [andb].
  destruct (Nat.eqb_spec i n) as [->|NE]; [field; lra|].
  unfold linspace_elem. replace (Z.of_nat n + 1 - 1)%Z with (Z.of_nat n) by lia.
  replace (0 <? Z.of_nat n)%Z with true by (symmetry; apply Z.ltb_lt; lia).
  cbn [nsub nofZ ndiv neqb n0 nadd nmul ROps]. rewrite <- !INR_IZR_INZ.
  match goal with |- context[if ?b then _ else _] => destruct b end; field; lra.
Qed.

(** The arcs tile [t0, tf]: [n] arcs of two points, the first starts at t0, each
    next one starts where the previous one ends, the last ends at tf, all have
    the same positive length, and the values are those of the guess there. *)
Theorem C47_arcs_tile : forall at_ t0 tf (n : nat),
  n > 0 -> (t0 < tf)%R -> (forall t, exists v, at_ t = Ok v) ->
  exists arcs, build_arcs ROps at_ t0 tf (Z.of_nat n) = Ok arcs /\ length arcs = n /\
    nth 0 (a_t (nth 0 arcs (mkArc [] [] [] []))) 0%R = t0 /\
    nth 1 (a_t (nth (n - 1) arcs (mkArc [] [] [] []))) 0%R = tf /\
    forall i, i < n -> let g := nth i arcs (mkArc [] [] [] []) in
      exists ta tb ya yb qa qb ua ub, g = mkArc [ta; tb] [ya; yb] [qa; qb] [ua; ub] /\
        at_ ta = Ok (ya, qa, ua) /\ at_ tb = Ok (yb, qb, ub) /\
        (tb - ta = (tf - t0) / INR n)%R /\ (ta < tb)%R /\
        (S i < n -> nth 0 (a_t (nth (S i) arcs (mkArc [] [] [] []))) 0%R = tb).
Proof.
  intros at_ t0 tf n N T AT. unfold build_arcs.
  destruct (linspace_ok ROps true t0 tf (Z.of_nat n + 1)) as [tn E]; [lia|]. fold (linspace ROps t0 tf (Z.of_nat n + 1)) in E.
  rewrite E. cbn [bind]. rewrite Nat2Z.id.
  set (tau := fun i => (t0 + INR i * ((tf - t0) / INR n))%R).
  assert (NZ : (0 < INR n)%R) by (apply lt_0_INR; lia).
  assert (P : forall i, i <= n -> get tn i = Ok (tau i)) by (intros i I; apply (linspace_R t0 tf n tn i); assumption).
  assert (M : forall is, Forall (fun i => i < n) is -> exists arcs,
    mapM (fun i => ta <- get tn i ; tb <- get tn (S i) ; va <- at_ ta ; vb <- at_ tb ;
       let '(ya, qa, ua) := va in let '(yb, qb, ub) := vb in Ok (mkArc [ta; tb] [ya; yb] [qa; qb] [ua; ub])) is = Ok arcs /\
    length arcs = length is /\
    forall j, j < length is -> exists ya yb qa qb ua ub, nth j arcs (mkArc [] [] [] []) = mkArc [tau (nth j is 0); tau (S (nth j is 0))] [ya; yb] [qa; qb] [ua; ub] /\
      at_ (tau (nth j is 0)) = Ok (ya, qa, ua) /\ at_ (tau (S (nth j is 0))) = Ok (yb, qb, ub)).
  { induction is as [|i is IH]; intros FI.
    - exists []. split; [reflexivity|]. split; [reflexivity|]. simpl. intros; lia.
    - pose proof (Forall_inv FI) as Hi. cbv beta in Hi. pose proof (Forall_inv_tail FI) as FI'. destruct (IH FI') as (arcs & E1 & E2 & E3).
      destruct (AT (tau i)) as [[[ya qa] ua] A1]. destruct (AT (tau (S i))) as [[[yb qb] ub] A2].
      exists (mkArc [tau i; tau (S i)] [ya; yb] [qa; qb] [ua; ub] :: arcs). split; [|split].
      + cbn [mapM]. rewrite (P i), (P (S i)) by lia. cbn [bind]. rewrite A1, A2. cbn [bind]. rewrite E1. reflexivity.
      + simpl. lia.
      + intros [|j] J; cbn [nth]; [exists ya, yb, qa, qb, ua, ub; auto|]. apply E3. simpl in J. lia. }
  destruct (M (seq 0 n)) as (arcs & E1 & E2 & E3). { apply Forall_forall. intros i I. apply in_seq in I. lia. }
  exists arcs. rewrite seq_length in *. split; [exact E1|]. split; [exact E2|].
  assert (G : forall i, i < n -> exists ya yb qa qb ua ub, nth i arcs (mkArc [] [] [] []) = mkArc [tau i; tau (S i)] [ya; yb] [qa; qb] [ua; ub] /\
      at_ (tau i) = Ok (ya, qa, ua) /\ at_ (tau (S i)) = Ok (yb, qb, ub)).
  { intros i I. specialize (E3 i I). rewrite seq_nth in E3 by exact I. exact E3. }
  clear E3. split; [|split].
  - destruct (G 0) as (ya & yb & qa & qb & ua & ub & X & _ & _); [lia|]. rewrite X. unfold tau. simpl. ring.
  - destruct (G (n - 1)) as (ya & yb & qa & qb & ua & ub & X & _ & _); [lia|]. rewrite X. cbn [a_t nth]. unfold tau.
    replace (S (n - 1)) with n by lia. field. lra.
  - intros i I. cbv zeta. destruct (G i I) as (ya & yb & qa & qb & ua & ub & X & A1 & A2).
    exists (tau i), (tau (S i)), ya, yb, qa, qb, ua, ub. split; [exact X|]. split; [exact A1|]. split; [exact A2|].
    assert (D : (tau (S i) - tau i = (tf - t0) / INR n)%R) by (unfold tau; rewrite S_INR; ring).
    split; [exact D|]. split.
    + assert (0 < (tf - t0) / INR n)%R by (apply Rdiv_lt_0_compat; lra). lra.
    + intros Si. destruct (G (S i) Si) as (? & ? & ? & ? & ? & ? & X2 & _ & _). rewrite X2. reflexivity.
Qed.
Print Assumptions C47_arcs_tile.

(** Lists that follow each other with one common element. *)
Fixpoint linked {A} (d : A) (prev : list A) (ls : list (list A)) : Prop :=
  match ls with
  | [] => True
  | l :: ls' => l <> [] /\ last prev d = hd d l /\ linked d l ls'
  end.
Lemma last_default {A} (ls : list A) : forall m a b, last (m :: ls) a = last (m :: ls) b.
Proof. induction ls as [|x ls IH]; intros m a b; [reflexivity|]. exact (IH x a b). Qed.
Lemma linked_last {A} (d : A) a b ls : last a d = last b d -> linked d a ls -> linked d b ls.
Proof. destruct ls; simpl; [auto|]. intros <-. auto. Qed.
Lemma last_app_tl {A} (d : A) s l : s <> [] -> l <> [] -> last s d = hd d l -> last (s ++ tl l) d = last l d.
Proof.
  intros S L H. destruct l as [|x l]; [easy|]. simpl tl. simpl hd in H. destruct l as [|y l].
  - rewrite app_nil_r, H. reflexivity.
  - assert (N : y :: l <> []) by discriminate. destruct (exists_last N) as (l' & z & E). rewrite E.
    rewrite app_assoc, last_last. change (x :: l' ++ [z]) with ((x :: l') ++ [z]). now rewrite last_last.
Qed.
Lemma in_last {A} (d : A) s : s <> [] -> In (last s d) s.
Proof. intros S. destruct (exists_last S) as (l & z & ->). rewrite last_last. apply in_or_app. right. now left. Qed.
Lemma stitch_list {A} (d : A) ls : forall s, s <> [] -> linked d s ls ->
  let r := fold_left (fun s l => s ++ tl l) ls s in
  (forall x, In x r <-> exists l, In l (s :: ls) /\ In x l) /\ hd d r = hd d s /\ last r d = last (last ls s) d /\
  length r + length ls = length s + list_sum (map (@length A) ls).
Proof.
  induction ls as [|l ls IH]; intros s S H; simpl fold_left; cbv zeta.
  - split; [|split; [reflexivity|split; [reflexivity|reflexivity]]]. intros x. split; [intros X; exists s; simpl; auto|].
    intros (l & [<-|[]] & X). exact X.
  - simpl in H. destruct H as (L & E & K).
    assert (S' : s ++ tl l <> []) by (destruct s; [easy|discriminate]).
    assert (LL : last (s ++ tl l) d = last l d) by (now apply last_app_tl).
    destruct (IH (s ++ tl l) S') as (I1 & I2 & I3 & I4); [apply (linked_last d l); [now symmetry|exact K]|].
    split; [|split; [|split]].
    + intros x. rewrite I1. split.
      * intros (m & [<-|M] & X); [|exists m; simpl; auto]. apply in_app_or in X. destruct X as [X|X]; [exists s; simpl; auto|].
        exists l. split; [simpl; auto|]. destruct l; [easy|]. now right.
      * intros (m & [<-|[<-|M]] & X).
        -- exists (s ++ tl l). split; [now left|]. apply in_or_app. now left.
        -- exists (s ++ tl l). split; [now left|]. apply in_or_app. destruct l as [|y l]; [easy|]. destruct X as [<-|X]; [|now right].
           left. simpl in E. rewrite <- E. now apply in_last.
        -- exists m. split; [now right|exact X].
    + rewrite I2. destruct s; [easy|reflexivity].
    + rewrite I3. destruct ls as [|m ls]; [exact LL|]. rewrite (last_default ls m (s ++ tl l) s). reflexivity.
    + rewrite app_length in I4. destruct l as [|y l]; [easy|]. simpl in *. lia.
Qed.
Lemma sorted_app a b : StronglySorted Rlt a -> StronglySorted Rlt b -> (forall x y, In x a -> In y b -> (x < y)%R) -> StronglySorted Rlt (a ++ b).
Proof.
  intros A B H. induction A as [|x a A IH F]; [exact B|]. simpl. constructor.
  - apply IH. intros u v U V. apply H; [now right|exact V].
  - apply Forall_app. split; [exact F|]. apply Forall_forall. intros y Y. apply H; [now left|exact Y].
Qed.
Lemma sorted_last a x : StronglySorted Rlt a -> In x a -> (x <= last a 0)%R.
Proof.
  intros S. revert x. induction S as [|y a S IH F]; intros x H; [easy|]. destruct a as [|z a]; [destruct H as [->|[]]; simpl; lra|].
  change (last (y :: z :: a) 0%R) with (last (z :: a) 0%R). destruct H as [->|H]; [|now apply IH].
  apply Forall_inv in F. specialize (IH z (or_introl eq_refl)). lra.
Qed.
Lemma stitch_sorted ls : forall s, s <> [] -> linked 0%R s ls -> Forall (StronglySorted Rlt) (s :: ls) ->
  StronglySorted Rlt (fold_left (fun s l => s ++ tl l) ls s).
Proof.
  induction ls as [|l ls IH]; intros s S H F; [now apply Forall_inv in F|]. simpl. simpl in H. destruct H as (L & E & K).
  pose proof (Forall_inv F) as FS. pose proof (Forall_inv_tail F) as F'. pose proof (Forall_inv F') as FL. apply IH.
  - destruct s; [easy|discriminate].
  - apply (linked_last 0%R l); [|exact K]. symmetry. now apply last_app_tl.
  - constructor; [|now apply Forall_inv_tail in F']. destruct l as [|y l]; [easy|]. simpl in *. inversion FL as [|y' l' S1 S2]. subst.
    apply sorted_app; [exact FS|exact S1|]. intros u v U V. apply (sorted_last s u FS) in U.
    eapply Forall_forall in S2; [|exact V]. simpl in S2. lra.
Qed.

(** An arc as the propagator should return it: increasing times, one state per
    time. *)
Definition proper (g : arc R) : Prop := a_t g <> [] /\ StronglySorted Rlt (a_t g) /\ length (a_y g) = length (a_t g).
Definition points (g : arc R) : list (R * list R) := combine (a_t g) (a_y g).

Lemma tl_length {A} (l : list A) : length (tl l) = length l - 1.
Proof. destruct l; simpl; lia. Qed.
Lemma stitch_t ls : forall g, a_t (fold_left (fun s g => mkArc (a_t s ++ tl (a_t g)) (a_y s ++ tl (a_y g)) (a_q s ++ tl (a_q g)) (a_u s ++ tl (a_u g))) ls g)
  = fold_left (fun s l => s ++ tl l) (map (@a_t R) ls) (a_t g).
Proof. induction ls as [|h ls IH]; intros g; [reflexivity|]. simpl. now rewrite IH. Qed.
Lemma combine_app {A B} (a : list A) : forall (c : list B) b d, length a = length c -> combine (a ++ b) (c ++ d) = combine a c ++ combine b d.
Proof. induction a as [|x a IH]; intros [|y c] b d L; try discriminate; [reflexivity|]. simpl. f_equal. apply IH. simpl in L. lia. Qed.
Lemma combine_tl {A B} (a : list A) (b : list B) : combine (tl a) (tl b) = tl (combine a b).
Proof. destruct a as [|x a], b as [|y b]; try reflexivity. simpl. now destruct a. Qed.
Lemma stitch_points ls : forall g, length (a_y g) = length (a_t g) -> Forall proper ls ->
  let s := fold_left (fun s g => mkArc (a_t s ++ tl (a_t g)) (a_y s ++ tl (a_y g)) (a_q s ++ tl (a_q g)) (a_u s ++ tl (a_u g))) ls g in
  length (a_y s) = length (a_t s) /\ points s = fold_left (fun s l => s ++ tl l) (map points ls) (points g).
Proof.
  induction ls as [|h ls IH]; intros g L F; [split; [exact L|reflexivity]|]. simpl fold_left. cbv zeta.
  pose proof (Forall_inv F) as (H1 & H2 & H3). pose proof (Forall_inv_tail F) as F'.
  destruct (IH (mkArc (a_t g ++ tl (a_t h)) (a_y g ++ tl (a_y h)) (a_q g ++ tl (a_q h)) (a_u g ++ tl (a_u h)))) as [I1 I2].
  - simpl. rewrite !app_length, !tl_length. lia.
  - exact F'.
  - split; [exact I1|]. rewrite I2. f_equal. unfold points. simpl. rewrite combine_app by now symmetry. now rewrite combine_tl.
Qed.

(** The stitched trajectory: increasing times from the first to the last, one
    state per time, exactly the times of the arcs; when the states join, exactly
    the points of the arcs (each once, since times increase). *)
Theorem C47_stitched : forall g gs,
  Forall proper (g :: gs) -> linked 0%R (a_t g) (map (@a_t R) gs) ->
  exists s, stitch (g :: gs) = Ok s /\
    StronglySorted Rlt (a_t s) /\ length (a_y s) = length (a_t s) /\
    hd 0%R (a_t s) = hd 0%R (a_t g) /\ last (a_t s) 0%R = last (a_t (last gs g)) 0%R /\
    length (a_t s) + length gs = list_sum (map (fun h => length (a_t h)) (g :: gs)) /\
    (forall t, In t (a_t s) <-> exists h, In h (g :: gs) /\ In t (a_t h)) /\
    (linked (0%R, []) (points g) (map points gs) ->
     forall p, In p (points s) <-> exists h, In h (g :: gs) /\ In p (points h)).
Proof.
  intros g gs F L. pose proof (Forall_inv F) as (G1 & G2 & G3). pose proof (Forall_inv_tail F) as F'.
  unfold stitch. unfold get. cbn [nth_error bind tl]. eexists. split; [reflexivity|].
  destruct (stitch_points gs g G3 F') as [P1 P2]. rewrite stitch_t.
  destruct (stitch_list 0%R (map (@a_t R) gs) (a_t g) G1 L) as (I1 & I2 & I3 & I4).
  split; [|split; [|split; [|split; [|split; [|split]]]]].
  - apply stitch_sorted; [exact G1|exact L|]. rewrite <- (map_cons (@a_t R)). apply Forall_map. eapply Forall_impl; [|exact F]. intros a (_ & A & _). exact A.
  - rewrite P1. now rewrite stitch_t.
  - exact I2.
  - rewrite I3. f_equal. clear. induction gs as [|h gs IH] in g |- *; [reflexivity|]. cbn [map last]. destruct gs; [reflexivity|]. apply (IH g).
  - rewrite map_length in I4. rewrite I4. cbn [map list_sum fold_right]. unfold list_sum. now rewrite map_map.
  - intros t. rewrite I1. split.
    + intros (l & X & T). rewrite <- (map_cons (@a_t R)) in X. apply in_map_iff in X. destruct X as (h & <- & X). eauto.
    + intros (h & X & T). exists (a_t h). split; [|exact T]. rewrite <- (map_cons (@a_t R)). now apply in_map.
  - intros LP p. rewrite P2. assert (PN : points g <> []) by (unfold points; destruct (a_t g), (a_y g); simpl in *; easy).
    destruct (stitch_list (0%R, []) (map points gs) (points g) PN LP) as (J1 & _). rewrite J1. split.
    + intros (l & X & T). rewrite <- (map_cons points) in X. apply in_map_iff in X. destruct X as (h & <- & X). eauto.
    + intros (h & X & T). exists (points h). split; [|exact T]. rewrite <- (map_cons points). now apply in_map.
Qed.
Print Assumptions C47_stitched.

(** The propagator does not check that the integration reached the end of its
    arc (ivpsol.py lines 84-92).  When it did not, the first point of the next
    arc is dropped and the trajectory has a gap. *)
Theorem C47_early_stop_refuted : exists g h s (t : R),
  Forall proper [g; h] /\ stitch [g; h] = Ok s /\ In t (a_t h) /\ ~ In t (a_t s).
Proof.
  exists (mkArc [0; 1 / 2] [[1]; [2]] [] [])%R, (mkArc [1; 2] [[3]; [4]] [] [])%R, (mkArc [0; 1 / 2; 2] [[1]; [2]; [4]] [] [])%R, 1%R.
  split; [|split; [reflexivity|split; [now left|]]].
  - repeat constructor; try discriminate; simpl; lra.
  - simpl. intros [H|[H|[H|[]]]]; lra.
Qed.
Print Assumptions C47_early_stop_refuted.

Example C47_ex :
  let g := (mkArc [0; 1] [[1]; [2]] [] [])%R in let h := (mkArc [1; 3 / 2; 2] [[2]; [3]; [4]] [] [])%R in
  Forall proper [g; h] /\ linked 0%R (a_t g) (map (@a_t R) [h]) /\ linked (0%R, []) (points g) (map points [h]).
Proof.
  split; [repeat constructor; try discriminate; simpl; lra|]. split; (split; [discriminate|]); split; reflexivity.
Qed.

(** ** C50 *)

(** The function set last, or the one given at construction. *)
Definition last_set {T} (pick : op (T := T) -> option T) (initial : option T) (l : list (op (T := T))) : option T :=
  fold_left (fun f o => match pick o with Some g => Some g | None => f end) l initial.
Definition set_deriv {T} (o : op (T := T)) := match o with SetDeriv f => Some f | _ => None end.
Definition set_quad {T} (o : op (T := T)) := match o with SetQuad f => Some f | _ => None end.
Definition set_bc {T} (o : op (T := T)) := match o with SetBc f => Some f | _ => None end.
Definition shooting_op {T} (o : op (T := T)) : Prop := match o with SolveSPBVP _ => False | _ => True end.

Lemma cache_inv {T} (nilf : T) l : forall a, Forall shooting_op l ->
  (al_stm a = None \/ al_stm a = al_deriv a) -> (al_bcms a = None \/ al_bcms a = al_bc a) ->
  let b := ops nilf l a in
  al_deriv b = last_set set_deriv (al_deriv a) l /\ al_quad b = last_set set_quad (al_quad a) l /\ al_bc b = last_set set_bc (al_bc a) l /\
  (al_stm b = None \/ al_stm b = al_deriv b) /\ (al_bcms b = None \/ al_bcms b = al_bc b).
Proof.
  induction l as [|o l IH]; intros a F S B; [repeat split; assumption|]. pose proof (Forall_inv F) as Fo. apply Forall_inv_tail in F.
  cbv zeta. cbn [ops]. destruct a as [d q b stm ms]. simpl in S, B.
  destruct o as [f|f|f| |h]; try easy; cbn [do_op fst al_deriv al_quad al_bc al_stm al_bcms].
  - destruct (IH (mkAlgo d q (Some f) stm None) F) as (A1 & A2 & A3 & A4 & A5); simpl; auto.
  - destruct (IH (mkAlgo (Some f) q b None ms) F) as (A1 & A2 & A3 & A4 & A5); simpl; auto.
  - destruct (IH (mkAlgo d (Some f) b stm ms) F) as (A1 & A2 & A3 & A4 & A5); simpl; auto.
  - apply IH; [exact F| |]; simpl.
    + right. destruct S as [->| ->]; [reflexivity|now destruct d].
    + right. destruct B as [->| ->]; [reflexivity|now destruct b].
Qed.

(** Shooting: whatever was set and solved before, the next solve uses the
    functions set last, also inside its cached wrappers. *)
Theorem C50_shooting_uses_last_set : forall (T : Type) (nilf : T) d q b l u,
  Forall shooting_op l -> snd (do_op nilf SolveShooting (ops nilf l (new_algo d q b))) = Some u ->
  us_deriv u = last_set set_deriv d l /\ us_quad u = last_set set_quad q l /\ us_bc u = last_set set_bc b l /\
  us_stm u = us_deriv u /\ us_bcms u = us_bc u.
Proof.
  intros T nilf d q b l u F. destruct (cache_inv nilf l (new_algo d q b) F) as (A1 & A2 & A3 & A4 & A5); [now left|now right|].
  destruct (ops nilf l (new_algo d q b)) as [d' q' b' stm ms]. simpl in *. intros [= <-]. simpl.
  repeat split; try assumption.
  - destruct A4 as [->| ->]; [reflexivity|now destruct d'].
  - destruct A5 as [->| ->]; [reflexivity|now destruct b'].
Qed.
Print Assumptions C50_shooting_uses_last_set.

(** SPBVP overwrites its quadrature function when the guess has no quadratures,
    so a later solve does not use the one that was set. *)
Theorem C50_spbvp_refuted : exists (l : list (op (T := nat))) u,
  snd (do_op 0 (SolveSPBVP true) (ops 0 l (new_algo None None None))) = Some u /\
  last_set set_quad None l = Some 7 /\ us_quad u = Some 0.
Proof. exists [SetQuad 7; SolveSPBVP false]. eexists. repeat split. Qed.
Print Assumptions C50_spbvp_refuted.
(** Its derivative and boundary functions are those set last. *)
Theorem C50_spbvp_other_functions : forall (T : Type) (nilf : T) h d q b l u,
  snd (do_op nilf (SolveSPBVP h) (ops nilf l (new_algo d q b))) = Some u ->
  us_deriv u = last_set set_deriv d l /\ us_bc u = last_set set_bc b l.
Proof.
  intros T nilf h d q b l u.
  assert (G : forall l a, al_deriv (ops nilf l a) = last_set set_deriv (al_deriv a) l /\ al_bc (ops nilf l a) = last_set set_bc (al_bc a) l).
  { clear. induction l as [|o l IH]; intros a; [split; reflexivity|]. cbn [ops]. destruct (IH (fst (do_op nilf o a))) as [-> ->]. destruct o; split; reflexivity. }
  destruct (G l (new_algo d q b)) as [G1 G2]. simpl. intros [= <-]. simpl. auto.
Qed.
Print Assumptions C50_spbvp_other_functions.
Example C50_ex : exists u, snd (do_op 0 SolveShooting (ops 0 [SetDeriv 1; SetBc 2; SolveShooting; SetBc 3; SetDeriv 4] (new_algo None None None))) = Some u /\
  us_stm u = Some 4 /\ us_bcms u = Some 3.
Proof. eexists. repeat split. Qed.
