(** A trajectory used as a sequence of samples (C98). *)
From Verif Require Import Base Trj_Model.
Open Scope Z_scope.
Open Scope list_scope.

Lemma nth_error_firstn_lt {A} (l : list A) : forall i j, (j < i)%nat -> nth_error (firstn i l) j = nth_error l j.
Proof. induction l as [|a l IH]; intros [|i] j H; try lia; [reflexivity|]. destruct j; [reflexivity|]. cbn. apply IH. lia. Qed.
Lemma nth_error_skipn_add {A} (l : list A) : forall i j, nth_error (skipn i l) j = nth_error l (i + j)%nat.
Proof. induction l as [|a l IH]; intros [|i] j; [reflexivity|now destruct j|reflexivity|apply IH]. Qed.

Section Claims.
  Context {T V : Type}.
  Implicit Type x : trj T V.

  (** Sample number [k]: entry [k] of each array that has one. *)
  Definition sample x (k : nat) : option T * option V * option V * option V :=
    (nth_error (tr_t x) k, nth_error (tr_y x) k, nth_error (tr_q x) k, nth_error (tr_u x) k).
  (** Each array has [n] entries or none at all. *)
  Definition full {A} (n : nat) (l : list A) : Prop := l = [] \/ length l = n.
  Record uniform x : Prop := mkUniform { un_t : tr_t x <> []; un_y : full (len x) (tr_y x); un_q : full (len x) (tr_q x); un_u : full (len x) (tr_u x) }.

  Lemma item_at {A} (l : list A) (k : nat) a : nth_error l k = Some a -> item l (Z.of_nat k) = Ok a.
  Proof.
    intros E. assert (H : (k < length l)%nat) by (apply nth_error_Some; congruence). unfold item. replace (Z.of_nat k <? 0) with false by (symmetry; apply Z.ltb_ge; lia).
    replace ((0 <=? Z.of_nat k) && (Z.of_nat k <? Z.of_nat (length l))) with true by (symmetry; apply andb_true_iff; rewrite Z.leb_le, Z.ltb_lt; lia). unfold get. now rewrite Nat2Z.id, E.
  Qed.
  Lemma item_neg {A} (l : list A) (k : nat) a : nth_error l k = Some a -> item l (Z.of_nat k - Z.of_nat (length l)) = Ok a.
  Proof.
    intros E. assert (H : (k < length l)%nat) by (apply nth_error_Some; congruence). unfold item. replace (Z.of_nat k - Z.of_nat (length l) <? 0) with true by (symmetry; apply Z.ltb_lt; lia).
    replace (Z.of_nat k - Z.of_nat (length l) + Z.of_nat (length l)) with (Z.of_nat k) by lia.
    replace ((0 <=? Z.of_nat k) && (Z.of_nat k <? Z.of_nat (length l))) with true by (symmetry; apply andb_true_iff; rewrite Z.leb_le, Z.ltb_lt; lia). unfold get. now rewrite Nat2Z.id, E.
  Qed.
  Lemma item_out {A} (l : list A) i : i < - Z.of_nat (length l) \/ Z.of_nat (length l) <= i -> item l i = Raise IndexError.
  Proof.
    intros H. unfold item. destruct (i <? 0) eqn:E; [apply Z.ltb_lt in E|apply Z.ltb_ge in E].
    - replace (0 <=? i + Z.of_nat (length l)) with false by (symmetry; apply Z.leb_gt; lia). reflexivity.
    - replace (i <? Z.of_nat (length l)) with false by (symmetry; apply Z.ltb_ge; lia). now rewrite andb_false_r.
  Qed.
  Lemma pick_at {A} (l : list A) k : l = [] \/ (k < length l)%nat -> pick (fun l => item l (Z.of_nat k)) l = Ok (nth_error l k).
  Proof.
    intros [->|H]; [now destruct k|]. destruct (nth_error l k) as [a|] eqn:E; [|apply nth_error_None in E; lia]. unfold pick. rewrite (item_at l k a E). now destruct l; [destruct k|].
  Qed.
  Lemma pick_neg {A} (l : list A) n k : full n l -> (k < n)%nat -> pick (fun l => item l (Z.of_nat k - Z.of_nat n)) l = Ok (nth_error l k).
  Proof.
    intros [->|L] H; [now destruct k|]. subst n. destruct (nth_error l k) as [a|] eqn:E; [|apply nth_error_None in E; lia]. unfold pick. rewrite (item_neg l k a E). now destruct l; [destruct k|].
  Qed.

  (** trajectory[i] is sample i, counted from the end for negative i; other indices
      raise IndexError. *)
  Theorem C98_item : forall x, uniform x ->
    (forall k, (k < len x)%nat -> getitem x (Z.of_nat k) = Ok (sample x k) /\ getitem x (Z.of_nat k - Z.of_nat (len x)) = Ok (sample x k)) /\
    (forall i, i < - Z.of_nat (len x) \/ Z.of_nat (len x) <= i -> getitem x i = Raise IndexError).
  Proof.
    intros x [N Y Q U]. assert (FT : full (len x) (tr_t x)) by now right. assert (W : forall A (l : list A) k, full (len x) l -> (k < len x)%nat -> l = [] \/ (k < length l)%nat) by (intros A l k [F|F] H; [now left|right; lia]).
    split.
    - intros k H. unfold getitem, sample. split; [rewrite !pick_at by (now apply W); reflexivity|rewrite !(pick_neg _ (len x)) by assumption; reflexivity].
    - intros i H. unfold getitem, pick. rewrite item_out by exact H. destruct (tr_t x); [now elim N|reflexivity].
  Qed.

  (** The number of samples iteration visits: the shortest array that is not empty. *)
  Definition shorter {A} (l : list A) (n : option nat) : option nat :=
    match l with [] => n | _ => Some (match n with Some n => Nat.min (length l) n | None => length l end) end.
  Definition visited x : option nat := shorter (tr_t x) (shorter (tr_y x) (shorter (tr_q x) (shorter (tr_u x) None))).
  Lemma shorter_spec {A} (l : list A) r m : shorter l r = Some m -> (l = [] \/ (m <= length l)%nat) /\ (r = None \/ exists n, r = Some n /\ (m <= n)%nat) /\ ((l <> [] /\ m = length l) \/ r = Some m).
  Proof.
    destruct l as [|a l]; cbn [shorter].
    - intros ->. split; [now left|]. split; [right; now exists m|now right].
    - assert (IS : forall u v : nat, Some u = Some v -> u = v) by congruence. destruct r as [n|]; intros H; apply IS in H; subst m.
      + split; [right; lia|]. split; [right; exists n; split; [reflexivity|lia]|]. destruct (Nat.le_ge_cases (length (a :: l)) n) as [L|L]; [left; split; [discriminate|lia]|right; f_equal; lia].
      + split; [right; lia|]. split; [now left|]. left. split; [discriminate|reflexivity].
  Qed.
  Lemma shorter_below {A} (l : list A) r m : shorter l r = Some m -> l = [] \/ (m <= length l)%nat.
  Proof. intros H. now apply shorter_spec in H. Qed.
  Lemma pick_out {A} (l : list A) (k : nat) : l <> [] -> length l = k -> pick (fun l => item l (Z.of_nat k)) l = Raise IndexError.
  Proof. intros N <-. unfold pick. rewrite item_out by lia. now destruct l. Qed.
  Lemma pick_some {A} (l : list A) k : exists r, pick (fun l => item l (Z.of_nat k)) l = r /\ (r = Raise IndexError \/ exists v, r = Ok v).
  Proof.
    eexists. split; [reflexivity|]. unfold pick. destruct l as [|a l]; [right; now eexists|]. unfold item, get. destruct (_ && _); [|now left]. destruct (nth_error _ _); [right; now eexists|now left].
  Qed.
  Lemma visited_at x m k : visited x = Some m -> (k < m)%nat -> getitem x (Z.of_nat k) = Ok (sample x k).
  Proof.
    unfold visited. intros V1 H. destruct (shorter_spec _ _ _ V1) as (T1 & R1 & _).
    assert (B : forall A (l : list A) r, (r = None \/ exists n, r = Some n /\ (m <= n)%nat) -> (exists r', r = shorter l r') -> (l = [] \/ (k < length l)%nat)).
    { intros A l r [->|(n & -> & L)] (r' & E); symmetry in E; [left; destruct l; [reflexivity|discriminate E]|]. destruct (shorter_below _ _ _ E); [now left|right; lia]. }
    assert (R2 : forall A (l : list A) r', (shorter l r' = None \/ exists n, shorter l r' = Some n /\ (m <= n)%nat) -> r' = None \/ exists n, r' = Some n /\ (m <= n)%nat).
    { intros A l r' [E|(n & E & L)]; [left; destruct l; [exact E|discriminate E]|]. destruct (shorter_spec _ _ _ E) as (_ & [->|(n' & -> & L')] & _); [now left|right; exists n'; split; [reflexivity|lia]]. }
    unfold getitem, sample. rewrite !pick_at; [reflexivity| | | |destruct T1; [now left|right; lia]].
    - eapply B; [|now eexists]. eapply R2, R2, R1.
    - eapply B; [|now eexists]. eapply R2, R1.
    - eapply B; [|now eexists]. exact R1.
  Qed.
  Lemma visited_end x m : visited x = Some m -> getitem x (Z.of_nat m) = Raise IndexError.
  Proof.
    unfold visited. intros V1. unfold getitem.
    destruct (pick_some (tr_t x) m) as (rt & Et & [->|(vt & ->)]); rewrite Et; [reflexivity|]. cbn [bind].
    destruct (pick_some (tr_y x) m) as (ry & Ey & [->|(vy & ->)]); rewrite Ey; [reflexivity|]. cbn [bind].
    destruct (pick_some (tr_q x) m) as (rq & Eq & [->|(vq & ->)]); rewrite Eq; [reflexivity|]. cbn [bind].
    destruct (pick_some (tr_u x) m) as (ru & Eu & [->|(vu & ->)]); rewrite Eu; [reflexivity|]. exfalso.
    destruct (shorter_spec _ _ _ V1) as (_ & _ & [(N & L)|V2]); [rewrite pick_out in Et by auto; discriminate|].
    destruct (shorter_spec _ _ _ V2) as (_ & _ & [(N & L)|V3]); [rewrite pick_out in Ey by auto; discriminate|].
    destruct (shorter_spec _ _ _ V3) as (_ & _ & [(N & L)|V4]); [rewrite pick_out in Eq by auto; discriminate|].
    destruct (shorter_spec _ _ _ V4) as (_ & _ & [(N & L)|V5]); [rewrite pick_out in Eu by auto; discriminate|discriminate].
  Qed.
  (** A loop over a trajectory visits the samples in order, up to the end of the
      shortest array, and never reports that another array was longer. *)
  Theorem C98_iterate : forall x m fuel, visited x = Some m -> (m < fuel)%nat -> iterate fuel x 0 = Some (Ok (map (sample x) (seq 0 m))).
  Proof.
    intros x m fuel V1 L. assert (G : forall n k f, (k + n = m)%nat -> (n < f)%nat -> iterate f x (Z.of_nat k) = Some (Ok (map (sample x) (seq k n)))).
    { induction n as [|n IH]; intros k [|f] E F; try lia; cbn [iterate].
      - rewrite Nat.add_0_r in E. subst k. now rewrite (visited_end x m V1).
      - rewrite (visited_at x m k V1) by lia. replace (Z.of_nat k + 1) with (Z.of_nat (S k)) by lia. rewrite (IH (S k) f) by lia. reflexivity. }
    exact (G m 0%nat fuel eq_refl L).
  Qed.
  (** On a uniform trajectory that is every sample. *)
  Theorem C98_iterate_all : forall x, uniform x -> iterate (S (len x)) x 0 = Some (Ok (map (sample x) (seq 0 (len x)))).
  Proof.
    intros x [N Y Q U]. apply C98_iterate; [|lia]. unfold visited. assert (S1 : forall A (l : list A) r, full (len x) l -> r = None \/ r = Some (len x) -> shorter l r = None \/ shorter l r = Some (len x)).
    { intros A l r [->|L] R; [exact R|]. destruct l as [|a l]; [exact R|]. right. destruct R as [-> | ->]; cbn [shorter]; rewrite L; [reflexivity|now rewrite Nat.min_id]. }
    assert (R := S1 _ (tr_y x) _ Y (S1 _ (tr_q x) _ Q (S1 _ (tr_u x) None U (or_introl eq_refl)))). destruct (shorter (tr_y x) _) as [n|] eqn:E.
    - destruct R as [R|R]; [discriminate|]. injection R as ->. unfold len. destruct (tr_t x); [now elim N|]. cbn [shorter]. now rewrite Nat.min_id.
    - unfold len. destruct (tr_t x); [now elim N|reflexivity].
  Qed.
  (** A loop over a trajectory without samples never ends: no item raises IndexError. *)
  Theorem C98_empty : forall x, visited x = None -> len x = 0%nat /\ forall i, getitem x i = Ok (None, None, None, None) /\ forall fuel, iterate fuel x i = None.
  Proof.
    intros x H. unfold visited in H. assert (ET : tr_t x = []) by (destruct (tr_t x); [reflexivity|discriminate]). rewrite ET in H. assert (EY : tr_y x = []) by (destruct (tr_y x); [reflexivity|discriminate]). rewrite EY in H.
    assert (EQ : tr_q x = []) by (destruct (tr_q x); [reflexivity|discriminate]). rewrite EQ in H. assert (EU : tr_u x = []) by (destruct (tr_u x); [reflexivity|discriminate]).
    split; [unfold len; now rewrite ET|]. assert (G : forall i, getitem x i = Ok (None, None, None, None)) by (intros i; unfold getitem, pick; now rewrite ET, EY, EQ, EU).
    intros i. split; [apply G|]. intros fuel. revert i. induction fuel as [|f IH]; intros i; [reflexivity|]. cbn [iterate]. now rewrite G, IH.
  Qed.

  Lemma slice_nth {A} (l : list A) a b k : let n := Z.of_nat (length l) in
    let lo := Z.to_nat (clip n (match a with Some a => a | None => 0 end)) in let hi := Z.to_nat (clip n (match b with Some b => b | None => n end)) in
    nth_error (slice l a b) k = if Nat.ltb (lo + k) hi then nth_error l (lo + k) else None.
  Proof.
    intros n lo hi. unfold slice. fold n. set (zl := clip n _) in *. set (zh := clip n (match b with Some _ => _ | None => _ end)) in *.
    assert (C : forall i, 0 <= clip n i) by (intros i; unfold clip; destruct (i <? 0) eqn:E; [lia|apply Z.ltb_ge in E; lia]). assert (Z1 : 0 <= zl) by apply C. assert (Z2 : 0 <= zh) by apply C.
    replace (Z.to_nat (zh - zl)) with (hi - lo)%nat by (unfold hi, lo; lia). fold lo.
    destruct (Nat.ltb (lo + k) hi) eqn:E; [apply Nat.ltb_lt in E|apply Nat.ltb_ge in E].
    - rewrite nth_error_firstn_lt by lia. apply nth_error_skipn_add.
    - apply nth_error_None. rewrite firstn_length. lia.
  Qed.
  Lemma slice_length {A} (l l' : list A) a b : length l = length l' -> length (slice l a b) = length (slice l' a b).
  Proof. intros E. unfold slice. rewrite !firstn_length, !skipn_length, E. reflexivity. Qed.
  Lemma slice_full {A B} (l : list A) (m : list B) a b : full (length l) m -> full (length (slice l a b)) (slice m a b).
  Proof. intros [->|E]; [left; unfold slice; now rewrite skipn_nil, firstn_nil|right]. unfold slice. rewrite !firstn_length, !skipn_length, E. reflexivity. Qed.
  (** Trajectory( *trajectory[a:b]) is the part from sample a up to, not including, b;
      bounds beyond the ends are cut off, negative ones count from the end. *)
  Theorem C98_slice : forall x a b kind h, uniform x ->
    let n := Z.of_nat (len x) in let lo := Z.to_nat (clip n (match a with Some a => a | None => 0 end)) in let hi := Z.to_nat (clip n (match b with Some b => b | None => n end)) in
    let '(t, y, q, u) := getslice x a b in let (h', at_) := fresh t y q u kind h in
    exists p, nth_error h' at_ = Some p /\ len p = (hi - lo)%nat /\ (forall k, (k < len p)%nat -> sample p k = sample x (lo + k)) /\ ((lo < hi)%nat -> uniform p) /\
    forall k p0, nth_error h k = Some p0 -> nth_error h' k = Some p0 /\ k <> at_.
  Proof.
    intros x a b kind h [N Y Q U] n lo hi. unfold getslice, fresh. eexists. split; [rewrite nth_error_app2, Nat.sub_diag by lia; reflexivity|].
    assert (B : forall i, 0 <= clip n i <= n) by (intros i; unfold clip, n; destruct (i <? 0) eqn:E; [apply Z.ltb_lt in E|apply Z.ltb_ge in E]; lia).
    assert (LP : length (slice (tr_t x) a b) = (hi - lo)%nat).
    { unfold slice. change (Z.of_nat (length (tr_t x))) with n. rewrite firstn_length, skipn_length. assert (B1 := B (match a with Some a => a | None => 0 end)). assert (B2 := B (match b with Some b => b | None => n end)). unfold lo, hi. change (length (tr_t x)) with (len x). unfold n in *. lia. }
    split; [exact LP|]. unfold len in *. cbn [init set_interpolate tr_t tr_y tr_q tr_u tr_type tr_interp] in *. split; [|split; [|]].
    - intros k K. rewrite LP in K. unfold sample. cbn [tr_t tr_y tr_q tr_u init set_interpolate].
      assert (SN : forall A (l : list A), full (length (tr_t x)) l -> nth_error (slice l a b) k = nth_error l (lo + k)).
      { intros A l [->|E]; [unfold slice; rewrite skipn_nil, firstn_nil; now destruct k, (lo + _)%nat|]. rewrite slice_nth, E. fold n. fold lo hi. now replace (Nat.ltb (lo + k) hi) with true by (symmetry; apply Nat.ltb_lt; lia). }
      rewrite !SN by (assumption || now right). reflexivity.
    - intros L. constructor; unfold len; cbn [tr_t tr_y tr_q tr_u init set_interpolate]; [|now apply slice_full..]. intros E. rewrite E in LP. cbn in LP. lia.
    - intros k p0 E. assert (K : (k < length h)%nat) by (apply nth_error_Some; congruence). split; [now rewrite nth_error_app1|lia].
  Qed.

  (** Trajectory(gamma) is gamma itself, not a copy: its samples are kept, but an
      interpolation chosen with set_interpolate_function is forgotten. *)
  Theorem C98_wrap : forall h a x, nth_error h a = Some x -> exists h', wrap a h = Ok (h', a) /\
    (forall b, b <> a -> nth_error h' b = nth_error h b) /\
    exists x', nth_error h' a = Some x' /\ tr_t x' = tr_t x /\ tr_y x' = tr_y x /\ tr_q x' = tr_q x /\ tr_u x' = tr_u x /\ tr_interp x' = Some (Kind (Sym_Model.lower (tr_type x))).
  Proof.
    intros h a x E. assert (L : (a < length h)%nat) by (apply nth_error_Some; congruence). unfold wrap, get. rewrite E. cbn [bind]. unfold set_nth. replace (Nat.ltb a (length h)) with true by (symmetry; now apply Nat.ltb_lt). cbn [bind].
    eexists. split; [reflexivity|]. assert (F : length (firstn a h) = a) by (rewrite firstn_length; lia). split.
    - intros b N. destruct (Nat.lt_ge_cases b a) as [H|H]; [rewrite nth_error_app1 by lia; now apply nth_error_firstn_lt|]. rewrite nth_error_app2, F by lia. replace (b - a)%nat with (S (b - S a)) by lia. cbn [nth_error]. rewrite nth_error_skipn_add. f_equal. lia.
    - exists (init x). split; [rewrite nth_error_app2, F, Nat.sub_diag by lia; reflexivity|]. now repeat split.
  Qed.
End Claims.
Print Assumptions C98_item.
Print Assumptions C98_iterate.
Print Assumptions C98_iterate_all.
Print Assumptions C98_empty.
Print Assumptions C98_slice.
Print Assumptions C98_wrap.

(** Three samples but two controls: the loop stops after two samples without an error. *)
Theorem C98_ragged_refuted : exists x : trj nat nat, len x = 3%nat /\ exists l, iterate 10 x 0 = Some (Ok l) /\ length l = 2%nat.
Proof. exists (mkTrj [0; 1; 2]%nat [5; 6; 7]%nat [] [8; 9]%nat "linear" None). split; [reflexivity|]. eexists. split; [vm_compute; reflexivity|reflexivity]. Qed.
Print Assumptions C98_ragged_refuted.

(** list(Trajectory()) does not end, although its length is zero. *)
Theorem C98_empty_refuted : exists x : trj nat nat, nth_error (fst (fresh [] [] [] [] None [])) 0 = Some x /\ len x = 0%nat /\ forall fuel, iterate fuel x 0 = None.
Proof. eexists. split; [reflexivity|]. split; [reflexivity|]. intros fuel. now apply C98_empty. Qed.
Print Assumptions C98_empty_refuted.

(** The user's interpolation does not survive Trajectory(gamma). *)
Theorem C98_interpolation_refuted : exists (x : trj nat nat) h' x', tr_interp x = Some (Kind "cubic") /\ wrap 0 [x] = Ok (h', 0%nat) /\ nth_error h' 0 = Some x' /\ tr_interp x' = Some (Kind "linear").
Proof. exists (set_interpolate (Kind "Cubic") (init (mkTrj [0; 1]%nat [5; 6]%nat [] [] "linear" None))). eexists. eexists. split; [reflexivity|]. split; [reflexivity|]. split; reflexivity. Qed.
Print Assumptions C98_interpolation_refuted.

(** ** Example *)
(** Three samples of states and controls, no quadratures. *)
Definition ex_t : trj nat nat := init (mkTrj [0; 1; 2]%nat [5; 6; 7]%nat [] [8; 9; 10]%nat "linear" None).
Example C98_ex : uniform ex_t /\ getitem ex_t (-1) = Ok (Some 2%nat, Some 7%nat, None, Some 10%nat) /\
  iterate 4 ex_t 0 = Some (Ok [(Some 0, Some 5, None, Some 8); (Some 1, Some 6, None, Some 9); (Some 2, Some 7, None, Some 10)]%nat) /\
  getslice ex_t (Some 1) None = ([1; 2], [6; 7], [], [9; 10])%nat.
Proof. split; [constructor; [discriminate|right; reflexivity|left; reflexivity|right; reflexivity]|]. now repeat split. Qed.
