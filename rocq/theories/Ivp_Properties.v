(** Properties of the propagator's time grid, of integration nodes, of
    evaluating a trajectory and of reconstructed quadratures. *)
From Coq Require Import QArith Qround Lqa Sorted.
From Verif Require Import Base Base_Facts Shoot_Model Ivp_Model Ivp_Proofs.
Open Scope Q_scope.

(** ** C51: the fixed-step grid *)
Fixpoint gaps (P : Q -> Q -> Prop) (l : list Q) : Prop :=
  match l with
  | [] => True
  | a :: l' => match l' with [] => True | b :: _ => P a b /\ gaps P l' end
  end.

Lemma gaps_snoc P l a b : gaps P (l ++ [a]) -> P a b -> gaps P ((l ++ [a]) ++ [b]).
Proof.
  induction l as [|x l IH]; simpl; intros H Hb; [tauto|].
  destruct (l ++ [a]) as [|y l'] eqn:E; [now destruct l|]. simpl. split; [tauto|]. apply IH; tauto.
Qed.
Lemma gaps_map (P : Q -> Q -> Prop) f n : forall k : nat, (forall i, P (f i) (f (S i))) -> gaps P (map f (seq k n)).
Proof.
  induction n as [|n IH]; intros k H; [exact I|]. simpl. destruct n; [exact I|]. simpl. split; [apply H|]. apply IH, H.
Qed.
Lemma gaps_steps l : gaps Qlt l -> steps_ok Qltb l = true.
Proof.
  induction l as [|a [|b l] IH]; auto. intros [H G]. cbn [steps_ok]. rewrite (proj2 (Qltb_iff a b) H).
  apply IH, G.
Qed.
Lemma gaps_and P R l : gaps (fun a b => P a b /\ R a b) l -> gaps P l.
Proof. induction l as [|a [|b l] IH]; auto. intros [[H _] G]. split; [exact H | apply IH, G]. Qed.

Lemma fixed_grid_exact t0 tf h :
  0 < h -> t0 < tf ->
  exists n, fixed_grid exact t0 tf h = Ok (map (grid_pt t0 h) (seq 0 (S n)) ++ [tf])
            /\ t0 + inject_Z (Z.of_nat n) * h < tf /\ tf <= t0 + inject_Z (Z.of_nat (S n)) * h.
Proof.
  intros Hh Ht. destruct (grid_len_spec t0 tf h Hh Ht) as (n & En & A & B). exists n.
  split; [|split; assumption].
  unfold fixed_grid. rewrite arange_exact by assumption. rewrite En. cbn [bind].
  rewrite seq_S, map_app. cbn [map]. rewrite last_of_snoc. cbn [bind].
  assert (E : Qeq_bool (grid_pt t0 h (0 + n)) tf = false) by (apply Qeq_bool_false; rewrite grid_pt_val; simpl (0 + n)%nat; lra).
  rewrite E. reflexivity.
Qed.

(** In exact arithmetic the forward grid starts at [t0], ends at [tf],
    increases, has no gap above the step, and is accepted by the integrator. *)
Theorem C51_grid (t0 tf h : Q) :
  0 < h -> t0 < tf ->
  exists l, fixed_times exact t0 tf h = Ok (t0 :: l ++ [tf])
            /\ gaps (fun a b => a < b /\ b - a <= h) (t0 :: l ++ [tf]).
Proof.
  intros Hh Ht. destruct (fixed_grid_exact t0 tf h Hh Ht) as (n & E & A & B).
  assert (G : gaps (fun a b => a < b /\ b - a <= h) (map (grid_pt t0 h) (seq 0 (S n)) ++ [tf])).
  { rewrite seq_S, map_app. apply gaps_snoc.
    - change [grid_pt t0 h (0 + n)] with (map (grid_pt t0 h) [(0 + n)%nat]). rewrite <- map_app, <- seq_S. apply gaps_map. intro i. rewrite !grid_pt_val, Nat2Z.inj_succ, <- Z.add_1_r, inject_Z_plus.
      change (inject_Z 1) with 1. lra.
    - rewrite grid_pt_val. simpl (0 + n)%nat. rewrite Nat2Z.inj_succ, <- Z.add_1_r, inject_Z_plus in B.
      change (inject_Z 1) with 1 in B. lra. }
  exists (map (grid_pt t0 h) (seq 1 n)). split; [|exact G].
  unfold fixed_times. rewrite E. cbn [bind]. unfold t_eval_check.
  assert (L1 : Qle_bool t0 tf = true) by (apply Qle_bool_iff; lra). rewrite L1.
  assert (X : existsb (fun t => Qltb t t0 || Qltb tf t) (map (grid_pt t0 h) (seq 0 (S n)) ++ [tf]) = false).
  { apply not_true_is_false. intro X. apply existsb_exists in X as (t & It & Ht').
    apply in_app_iff in It as [It|[<-|[]]].
    - apply in_map_iff in It as (i & <- & Ii). apply in_seq in Ii.
      assert (V : 0 <= inject_Z (Z.of_nat i)) by (change 0 with (inject_Z 0); rewrite <- Zle_Qle; lia).
      assert (W : inject_Z (Z.of_nat i) <= inject_Z (Z.of_nat n)) by (rewrite <- Zle_Qle; lia).
      assert (V' : 0 <= inject_Z (Z.of_nat i) * h) by (apply Qmult_le_0_compat; lra).
      assert (W' : inject_Z (Z.of_nat i) * h <= inject_Z (Z.of_nat n) * h) by (apply Qmult_le_compat_r; lra).
      pose proof (grid_pt_val t0 h i) as P.
      apply orb_true_iff in Ht' as [Ht'|Ht']; apply Qltb_iff in Ht'; lra.
    - apply orb_true_iff in Ht' as [Ht'|Ht']; apply Qltb_iff in Ht'; lra. }
  rewrite X. apply gaps_and in G. rewrite (gaps_steps _ G).
  assert (L2 : Qltb tf t0 = false) by (apply Qltb_false; lra). rewrite L2, andb_false_r. reflexivity.
Qed.
Print Assumptions C51_grid.

Example C51_grid_ex : exists l, fixed_times exact 0 1 (3 # 10) = Ok l /\ Forall2 Qeq l [0; 3 # 10; 6 # 10; 9 # 10; 1].
Proof. eexists. split; [vm_compute; reflexivity|]. repeat constructor. Qed.

(** Whatever the rounding, a grid that is produced starts at [t0] and ends at
    [tf]. *)
Theorem C51_ends (rnd : Q -> Q) (t0 tf h : Q) (l : list Q) :
  fixed_grid rnd t0 tf h = Ok l ->
  exists z l', l = l' ++ [z] /\ z == tf /\ hd_error l = Some t0.
Proof.
  unfold fixed_grid, arange. destruct (Qeq_bool h 0); [discriminate|]. cbn [bind].
  set (n := Z.to_nat _). clearbody n. destruct n as [|n]; [discriminate|].
  set (f := fun i : nat => _). assert (F0 : f O = t0) by reflexivity. clearbody f.
  destruct (last_of (map f (seq 0 (S n)))) as [z|e] eqn:E; [|discriminate]. cbn [bind].
  intro H. injection H as <-. apply last_of_ok in E as (l' & E).
  destruct (Qeq_bool z tf) eqn:B.
  - exists z, l'. split; [exact E|]. split; [now apply Qeq_bool_iff|]. simpl. now rewrite F0.
  - exists tf, (map f (seq 0 (S n))). split; [reflexivity|]. split; [reflexivity|]. simpl. now rewrite F0.
Qed.
Print Assumptions C51_ends.
Example C51_ends_ex : exists l, fixed_grid rnd53 1 (rnd53 (13 # 10)) (rnd53 (1 # 10)) = Ok l /\ length l = 5%nat.
Proof. eexists. split; vm_compute; reflexivity. Qed.

(** Reverse and empty intervals: the propagator fails on an empty grid. *)
Theorem C51_reverse_fails (t0 tf h : Q) : 0 < h -> tf <= t0 -> fixed_times exact t0 tf h = Raise IndexError.
Proof.
  intros Hh Ht. unfold fixed_times, fixed_grid. rewrite arange_exact by assumption.
  assert (N : grid_len t0 tf h = O).
  { unfold grid_len. assert (R : (tf - t0) / h <= inject_Z 0) by (apply Qle_shift_div_r; [assumption | change (inject_Z 0) with 0; lra]).
    apply Qceiling_resp_le in R. rewrite Qceiling_Z in R. lia. }
  rewrite N. reflexivity.
Qed.
Print Assumptions C51_reverse_fails.
Theorem C51_reverse_refuted :
  exists t0 tf h, 0 < h /\ tf < t0 /\ ~ (exists l, fixed_times exact t0 tf h = Ok l).
Proof.
  exists 1, 0, (1 # 10). split; [reflexivity|]. split; [reflexivity|]. intros (l & H).
  rewrite C51_reverse_fails in H; [discriminate | reflexivity | discriminate].
Qed.
Print Assumptions C51_reverse_refuted.

(** Doubles: on [1, 1.3] with step 0.1 the grid overshoots the end, goes back,
    and the integrator rejects it. *)
Theorem C51_rounding_refuted :
  exists t0 tf h, 0 < h /\ t0 < tf /\ rnd53 t0 = t0 /\ rnd53 tf = tf /\ rnd53 h = h /\
    fixed_times rnd53 t0 tf h = Raise ValueError /\
    (exists l t, fixed_grid rnd53 t0 tf h = Ok l /\ In t l /\ tf < t).
Proof.
  exists 1, (rnd53 (13 # 10)), (rnd53 (1 # 10)).
  repeat (split; [vm_compute; reflexivity|]).
  eexists. exists (2927339757790823 # 2251799813685248).
  split; [vm_compute; reflexivity|]. split; [|reflexivity].
  do 3 right. left. reflexivity.
Qed.
Print Assumptions C51_rounding_refuted.

(** ** C52: integration nodes *)
Definition between (a b : Q) (ts : list Q) : list Q := filter (fun t => Qltb a t && Qltb t b) ts.

Lemma node_index_count x ts first z :
  StronglySorted Qlt ts -> hd_error ts = Some first -> last_of ts = Ok z -> first <= x -> x <= z ->
  node_index exact x ts = Ok (Z.of_nat (length (before x ts))).
Proof.
  intros S Hf Hz H1 H2. destruct ts as [|t rest]; [discriminate|]. injection Hf as ->.
  unfold node_index, np_interp. cbn [length]. fold (indices 0 (Datatypes.S (length rest))).
  change (indices 0 (Datatypes.S (length rest))) with (inject_Z (Z.of_nat 0) :: indices 1 (length rest)). cbn [combine].
  destruct (last_of_ok _ _ Hz) as (l' & El).
  assert (R : exists v r, rev ((first, inject_Z (Z.of_nat 0)) :: combine rest (indices 1 (length rest))) = (z, v) :: r).
  { change ((first, inject_Z (Z.of_nat 0)) :: combine rest (indices 1 (length rest)))
      with (combine (first :: rest) (indices 0 (length (first :: rest)))). rewrite El.
    rewrite app_length. cbn [length]. unfold indices. rewrite Nat.add_1_r, seq_S, map_app.
    assert (C : forall (a b : list Q) c d, length a = length b -> combine (a ++ [c]) (b ++ [d]) = combine a b ++ [(c, d)]).
    { clear. induction a as [|x a IH]; intros [|y b] c d H; simpl in *; try discriminate; [reflexivity|]. rewrite IH; auto. }
    cbn [map]. rewrite C by (now rewrite map_length, seq_length). rewrite rev_app_distr. simpl. eauto. }
  destruct R as (v & r & R). rewrite R. cbn [fst snd bind].
  assert (B1 : Qltb z x = false) by now apply Qltb_false.
  assert (B2 : Qltb x first = false) by now apply Qltb_false.
  rewrite B1, B2. f_equal. rewrite interp_count; auto.
  assert (L : last rest first = z).
  { destruct rest as [|b rest] using rev_ind.
    - destruct l' as [|c [|]]; simpl in El; try discriminate. now injection El.
    - rewrite last_last. change (first :: rest ++ [b]) with ((first :: rest) ++ [b]) in El. now apply app_inj_tail in El. }
  rewrite L. exact H2.
Qed.

Lemma before_from a b ts : StronglySorted Qlt ts -> a <= b -> skipn (length (before a ts)) ts = from a ts.
Proof.
  intros S _. rewrite (split_at a ts S) at 2. rewrite skipn_app, skipn_all, Nat.sub_diag. reflexivity.
Qed.
Lemma before_firstn b ts : StronglySorted Qlt ts -> firstn (length (before b ts)) ts = before b ts.
Proof.
  intros S. rewrite (split_at b ts S) at 2. rewrite firstn_app, Nat.sub_diag, firstn_all. simpl. apply app_nil_r.
Qed.
Lemma before_before a b ts : a <= b -> before b (before a ts) = before a ts.
Proof.
  intro H. induction ts as [|t ts IH]; [reflexivity|]. unfold before in *. cbn [filter]. destruct (Qltb t a) eqn:E; auto.
  cbn [filter]. apply Qltb_iff in E. assert (E2 : Qltb t b = true) by (apply Qltb_iff; lra). rewrite E2. now f_equal.
Qed.

(** For an increasing trajectory and [first <= t0 < tf <= last]: the nodes are
    the lower limit, the stored times strictly between the limits, and the upper
    limit. *)
Theorem C52_nodes (ts : list Q) (first z t0 tf : Q) :
  StronglySorted Qlt ts -> hd_error ts = Some first -> last_of ts = Ok z ->
  first <= t0 -> t0 < tf -> tf <= z ->
  exists l, quad_nodes exact t0 tf ts = Ok l /\ Forall2 Qeq l (t0 :: between t0 tf ts ++ [tf]).
Proof.
  intros S Hf Hz H1 H2 H3. unfold quad_nodes.
  assert (G0 : get ts 0 = Ok first) by (destruct ts; [discriminate|]; now injection Hf as ->).
  rewrite G0. cbn [bind]. rewrite (proj2 (Qltb_false t0 first) H1), Hz. cbn [bind].
  rewrite (proj2 (Qltb_false z tf) H3).
  rewrite (node_index_count t0 ts first z), (node_index_count tf ts first z) by (auto; lra). cbn [bind].
  unfold py_get.
  assert (P : forall n, Z.leb 0 (Z.of_nat n) = true) by (intro; apply Z.leb_le; lia).
  rewrite P, Nat2Z.id.
  (* the first stored time not before t0 *)
  pose proof (split_at t0 ts S) as Sp0.
  assert (Iz : In z ts) by (destruct (last_of_ok _ _ Hz) as (l' & ->); apply in_or_app; right; now left).
  assert (Fne : In z (from t0 ts)).
  { apply filter_In. split; [assumption|]. apply negb_true_iff, Qltb_false. lra. }
  destruct (from t0 ts) as [|g rest] eqn:Fr; [destruct Fne|].
  assert (Hg : get ts (length (before t0 ts)) = Ok g).
  { apply get_some. rewrite Sp0 at 1. rewrite nth_error_app2 by lia. now rewrite Nat.sub_diag. }
  rewrite Hg. cbn [bind].
  assert (Sfr : StronglySorted Qlt (g :: rest)) by (rewrite <- Fr; apply sorted_filter, S).
  assert (Gg : t0 <= g).
  { assert (I : In g (from t0 ts)) by (rewrite Fr; now left). apply filter_In in I as [_ I]. now apply negb_true_iff, Qltb_false in I. }
  (* points before tf *)
  assert (Bf : before tf ts = before t0 ts ++ before tf (g :: rest)).
  { rewrite Sp0 at 1. unfold before at 1. rewrite filter_app. f_equal. apply before_before. lra. }
  assert (Bne : In first (before tf ts)).
  { apply filter_In. split; [destruct ts; [discriminate|]; injection Hf as ->; now left|]. apply Qltb_iff. lra. }
  (* the slice *)
  assert (Sl : slice (length (before t0 ts)) (Z.to_nat (Z.of_nat (length (before tf ts)))) ts = before tf (g :: rest)).
  { unfold slice. rewrite Nat2Z.id, (before_from t0 tf ts S), Fr by lra.
    rewrite Bf, app_length. replace (_ + _ - _)%nat with (length (before tf (g :: rest))) by lia.
    now apply before_firstn. }
  rewrite Sl.
  (* the last stored time before tf *)
  destruct (exists_last (l := before tf ts)) as (lb & w & Ew); [intro E; rewrite E in Bne; destruct Bne|].
  assert (Hw : w < tf).
  { assert (I : In w (before tf ts)) by (rewrite Ew; apply in_or_app; right; now left). apply filter_In in I as [_ I]. now apply Qltb_iff. }
  assert (Lw : (Z.of_nat (length (before tf ts)) - 1)%Z = Z.of_nat (length lb)) by (rewrite Ew, app_length; simpl; lia).
  rewrite Lw, P, Nat2Z.id.
  assert (Hgf : get ts (length lb) = Ok w).
  { apply get_some. rewrite (split_at tf ts S), Ew, <- app_assoc, nth_error_app2 by lia. now rewrite Nat.sub_diag. }
  rewrite Hgf. cbn [bind].
  assert (Nw : Qeq_bool tf w = false) by (apply Qeq_bool_false; lra). rewrite Nw.
  eexists. split; [reflexivity|].
  (* between in terms of the suffix *)
  assert (Bt : between t0 tf ts = between t0 tf (g :: rest)).
  { rewrite Sp0 at 1. unfold between. rewrite filter_app.
    assert (X : filter (fun t => Qltb t0 t && Qltb t tf) (before t0 ts) = []).
    { assert (Y : forall t, In t (before t0 ts) -> Qltb t0 t = false).
      { intros t I. apply filter_In in I as [_ I]. apply Qltb_iff in I. apply Qltb_false. lra. }
      revert Y. generalize (before t0 ts). intro l. induction l as [|a l IH]; intro Y; [reflexivity|].
      cbn [filter]. rewrite (Y a) by now left. cbn [andb]. apply IH. intros; apply Y; now right. }
    now rewrite X. }
  rewrite Bt.
  assert (Rr : between t0 tf rest = before tf rest).
  { apply StronglySorted_inv in Sfr as [_ Fg]. unfold between, before. apply filter_ext_in. intros t I.
    rewrite Forall_forall in Fg. specialize (Fg _ I). assert (X : Qltb t0 t = true) by (apply Qltb_iff; lra). now rewrite X. }
  assert (Refl : forall l, Forall2 Qeq l l) by (intro l; induction l; constructor; [reflexivity | assumption]).
  destruct (Qeq_bool t0 g) eqn:Eg.
  - apply Qeq_bool_iff in Eg. unfold between, before. cbn [filter app].
    assert (X1 : Qltb t0 g = false) by (apply Qltb_false; lra).
    assert (X2 : Qltb g tf = true) by (apply Qltb_iff; lra).
    rewrite X1, X2. cbn [andb app]. fold (between t0 tf rest) (before tf rest). rewrite Rr.
    constructor; [lra | apply Refl].
  - apply Qeq_bool_false in Eg. unfold between, before. cbn [filter app].
    assert (X1 : Qltb t0 g = true) by (apply Qltb_iff; lra). rewrite X1. cbn [andb].
    fold (between t0 tf rest) (before tf rest). rewrite Rr. apply Refl.
Qed.
Print Assumptions C52_nodes.
Example C52_nodes_ex :
  quad_nodes exact (1 # 2) 3 [0; 1; 2; 3; 4] = Ok [1 # 2; 1; 2; 3]
  /\ quad_nodes exact 1 (7 # 2) [0; 1; 2; 3; 4] = Ok [1; 2; 3; 7 # 2]
  /\ quad_nodes exact (5 # 4) (3 # 2) [0; 1; 2; 3; 4] = Ok [5 # 4; 3 # 2].
Proof. repeat split. Qed.

(** Limits outside the trajectory are rejected. *)
Theorem C52_outside (rnd : Q -> Q) (ts : list Q) (first z t0 tf : Q) :
  hd_error ts = Some first -> last_of ts = Ok z -> t0 < first \/ z < tf ->
  quad_nodes rnd t0 tf ts = Raise RuntimeError.
Proof.
  intros Hf Hz H. unfold quad_nodes.
  assert (G0 : get ts 0 = Ok first) by (destruct ts; [discriminate|]; now injection Hf as ->).
  rewrite G0, Hz. cbn [bind]. destruct (Qltb t0 first) eqn:E; [reflexivity|].
  apply Qltb_false in E. destruct H as [H|H]; [lra|]. now rewrite (proj2 (Qltb_iff z tf) H).
Qed.
Print Assumptions C52_outside.
Example C52_outside_ex : quad_nodes exact (-1) 1 [0; 1; 2] = Raise RuntimeError /\ quad_nodes exact 1 3 [0; 1; 2] = Raise RuntimeError.
Proof. split; reflexivity. Qed.

(** Doubles: a lower limit one rounding unit after a stored time gets that
    earlier time as its second node. *)
Theorem C52_rounding_refuted :
  exists ts t0 tf l, StronglySorted Qlt ts /\ hd_error ts = Some 0 /\ last_of ts = Ok tf /\ 0 <= t0 /\ t0 < tf /\
    rnd53 t0 = t0 /\ Forall (fun t => rnd53 t = t) ts /\
    quad_nodes rnd53 t0 tf ts = Ok l /\ ~ gaps Qlt l.
Proof.
  exists [0; 1; 1000000], (4503599627370497 # 4503599627370496), 1000000.
  exists [4503599627370497 # 4503599627370496; 1; 1000000].
  split; [repeat constructor|]. do 5 (split; [vm_compute; try reflexivity; discriminate|]).
  split; [repeat constructor|]. split; [vm_compute; reflexivity|]. intros [H _]. discriminate.
Qed.
Print Assumptions C52_rounding_refuted.

Lemma np_interp_ends rnd x a va l z vz :
  np_interp rnd x ((a, va) :: l ++ [(z, vz)])
  = Ok (if Qltb z x then vz else if Qltb x a then va else interp_from rnd x (a, va) (l ++ [(z, vz)])).
Proof.
  unfold np_interp. change ((a, va) :: l ++ [(z, vz)]) with (((a, va) :: l) ++ [(z, vz)]).
  rewrite rev_app_distr. reflexivity.
Qed.

(** A trajectory propagated backwards: all points but the first are lost and no
    error is raised, whatever the trajectory. *)
Theorem C52_reverse_loses (rnd : Q -> Q) (ts : list Q) (first z : Q) :
  hd_error ts = Some first -> last_of ts = Ok z -> z < first ->
  quad_nodes rnd first z ts = Ok [first].
Proof.
  intros Hf Hz H. destruct (last_of_ok _ _ Hz) as (l & El). destruct ts as [|t rest]; [discriminate|]. injection Hf as ->.
  destruct l as [|t l]; [injection El as -> ->; lra|]. injection El as <- ->.
  unfold quad_nodes. cbn [get nth_error bind]. rewrite Hz. cbn [bind].
  rewrite (proj2 (Qltb_false first first)) by lra. rewrite (proj2 (Qltb_false z z)) by lra.
  set (n := length l).
  assert (Ln : length (first :: l ++ [z]) = S (S n)) by (simpl; rewrite app_length; simpl; unfold n; lia).
  assert (R : combine (first :: l ++ [z]) (map (fun i => inject_Z (Z.of_nat i)) (seq 0 (S (S n))))
              = (first, inject_Z 0) :: combine l (map (fun i => inject_Z (Z.of_nat i)) (seq 1 n)) ++ [(z, inject_Z (Z.of_nat (S n)))]).
  { rewrite seq_S, map_app. change (first :: l ++ [z]) with ((first :: l) ++ [z]). cbn [map].
    assert (C : forall (a b : list Q) c d, length a = length b -> combine (a ++ [c]) (b ++ [d]) = combine a b ++ [(c, d)]).
    { clear. induction a as [|x a IH]; intros [|y b] c d H; simpl in *; try discriminate; [reflexivity|]. rewrite IH; auto. }
    rewrite C by (now rewrite map_length, seq_length). reflexivity. }
  assert (I0 : node_index rnd first (first :: l ++ [z]) = Ok (Z.of_nat (S n))).
  { unfold node_index. rewrite Ln, R, np_interp_ends. cbn [bind].
    rewrite (proj2 (Qltb_iff z first) H). f_equal. apply Qceiling_Z. }
  assert (If : node_index rnd z (first :: l ++ [z]) = Ok 0%Z).
  { unfold node_index. rewrite Ln, R, np_interp_ends. cbn [bind].
    rewrite (proj2 (Qltb_false z z)) by lra. rewrite (proj2 (Qltb_iff z first) H). reflexivity. }
  rewrite I0, If. cbn [bind]. unfold py_get at 1.
  assert (P : Z.leb 0 (Z.of_nat (S n)) = true) by (apply Z.leb_le; lia). rewrite P, Nat2Z.id.
  assert (Gz : get (first :: l ++ [z]) (S n) = Ok z).
  { apply get_some. change (first :: l ++ [z]) with ((first :: l) ++ [z]). rewrite nth_error_app2 by (simpl; unfold n; lia).
    replace (S n - length (first :: l))%nat with O by (simpl; unfold n; lia). reflexivity. }
  rewrite Gz. cbn [bind]. rewrite (proj2 (Qeq_bool_false first z)) by lra.
  unfold slice. change (Z.to_nat 0) with O. cbn [Nat.sub firstn app].
  unfold py_get. change (0 - 1)%Z with (-1)%Z. cbn [Z.leb Z.compare]. rewrite Ln.
  assert (P2 : Z.leb (- Z.of_nat (S (S n))) (-1) = true) by (apply Z.leb_le; lia). rewrite P2.
  replace (Z.to_nat (Z.of_nat (S (S n)) + -1)) with (S n) by lia. rewrite Gz. cbn [bind].
  rewrite (proj2 (Qeq_bool_iff z z)) by reflexivity. reflexivity.
Qed.
Print Assumptions C52_reverse_loses.
Theorem C52_reverse_refuted :
  exists ts t0 tf l, hd_error ts = Some t0 /\ last_of ts = Ok tf /\ quad_nodes exact t0 tf ts = Ok l /\ ~ In tf l /\ ~ In 1 l /\ In 1 ts.
Proof.
  exists [2; 1; 0], 2, 0, [2]. repeat (split; [reflexivity|]).
  split; [intros [H|[]]; discriminate|]. split; [intros [H|[]]; discriminate | right; now left].
Qed.
Print Assumptions C52_reverse_refuted.

(** ** C64: evaluating a trajectory *)
(** Row [i] of a field that may be absent. *)
Definition stored (rows : list (list Q)) (i : nat) (r : list Q) : Prop :=
  (rows = [] /\ r = []) \/ nth_error rows i = Some r.
Definition shaped (n : nat) (rows : list (list Q)) : Prop :=
  rows = [] \/ (length rows = n /\ exists d, Forall (fun r => length r = d) rows).

Lemma field_hit rnd ts rows i t r :
  distinct ts -> shaped (length ts) rows -> nth_error ts i = Some t -> stored rows i r -> interp_rows rnd ts rows t = Ok r.
Proof.
  intros D [->|(L & d & F)] Ht [(E & ->)|Hr]; try reflexivity.
  - now destruct i.
  - subst rows. reflexivity.
  - eapply interp_rows_hit; eauto.
Qed.

(** At a stored time the stored row is returned unchanged: any rounding, any
    order of the (distinct) times. *)
Theorem C64_stored (rnd : Q -> Q) (g : arc Q) (i : nat) (t : Q) (y q u : list Q) :
  distinct (a_t g) -> length (a_y g) = length (a_t g) ->
  shaped (length (a_t g)) (a_y g) -> shaped (length (a_t g)) (a_q g) -> shaped (length (a_t g)) (a_u g) ->
  nth_error (a_t g) i = Some t -> stored (a_y g) i y -> stored (a_q g) i q -> stored (a_u g) i u ->
  traj_call rnd g t = Ok (y, q, u).
Proof.
  intros D L Sy Sq Su Ht Hy Hq Hu. unfold traj_call.
  pose proof (field_hit rnd _ _ _ _ _ D Sy Ht Hy) as Ey.
  pose proof (field_hit rnd _ _ _ _ _ D Sq Ht Hq) as Eq.
  pose proof (field_hit rnd _ _ _ _ _ D Su Ht Hu) as Eu.
  destruct (a_t g) as [|t0 ts] eqn:T; [now destruct i|].
  destruct (a_y g) as [|r rows] eqn:Y; [discriminate|].
  rewrite Ey, Eq, Eu. reflexivity.
Qed.
Print Assumptions C64_stored.
Definition ex_arc : arc Q := mkArc [0; 1; 3] [[1; 10]; [2; 20]; [6; 0]] [] [[5]; [7]; [9]].
Example ex_arc_ok : distinct (a_t ex_arc) /\ shaped 3 (a_y ex_arc) /\ shaped 3 (a_q ex_arc) /\ shaped 3 (a_u ex_arc).
Proof.
  split; [|split; [right; split; [reflexivity | exists 2%nat; repeat constructor]|split; [now left|right; split; [reflexivity | exists 1%nat; repeat constructor]]]].
  intros [|[|[|i]]] [|[|[|j]]] a b Hi Hj E; simpl in Hi, Hj; try reflexivity;
    try (destruct i; discriminate); try (destruct j; discriminate);
    injection Hi as <-; injection Hj as <-; vm_compute in E; discriminate.
Qed.
Example C64_stored_ex : traj_call rnd53 ex_arc 1 = Ok ([2; 20], [], [7]).
Proof. reflexivity. Qed.

(** Between two neighbouring stored times every component is on the straight
    line joining its stored values (exact arithmetic, either direction). *)
Theorem C64_segment (ts : list Q) (rows : list (list Q)) (d i j : nat) (a b x : Q) (ra rb : list Q) :
  distinct ts -> length rows = length ts -> Forall (fun r => length r = d) rows ->
  nth_error ts i = Some a -> nth_error rows i = Some ra -> nth_error ts j = Some b -> nth_error rows j = Some rb ->
  a < b -> (forall t, In t ts -> ~ (a < t /\ t < b)) -> a <= x -> x <= b ->
  exists r, interp_rows exact ts rows x = Ok r /\ length r = d /\
    forall k, (k < d)%nat -> nth k r 0 == nth k ra 0 + (x - a) / (b - a) * (nth k rb 0 - nth k ra 0).
Proof.
  intros D L F Ha Hra Hb Hrb Hab N H1 H2.
  assert (W : forall k, exists w, interp1d exact ts (column k rows) x = Ok w /\ w == line a (nth k ra 0) b (nth k rb 0) x).
  { intro k. apply (interp1d_segment ts _ i j); auto; [unfold column; now rewrite map_length | |]; now apply nth_error_column. }
  unfold interp_rows. destruct rows as [|r0 rows']; [now destruct i|].
  pose proof (Forall_inv F) as F0. cbv beta in F0. rewrite F0. revert W. generalize (r0 :: rows'). intros rs W.
  assert (M : forall n k, exists r, mapM (fun ii => interp1d exact ts (column ii rs) x) (seq k n) = Ok r /\ length r = n /\
    forall m, (m < n)%nat -> nth m r 0 == line a (nth (k + m) ra 0) b (nth (k + m) rb 0) x).
  { induction n as [|n IH]; intro k; [exists []; repeat split; intros; lia|].
    destruct (W k) as (w & Ew & Hw). destruct (IH (S k)) as (r & Er & Lr & Hr). exists (w :: r).
    cbn [seq mapM]. rewrite Ew. cbn [bind]. rewrite Er. cbn [bind length]. split; [reflexivity|]. split; [lia|].
    intros [|m] Hm; simpl; [rewrite Nat.add_0_r; exact Hw|]. rewrite Hr by lia. rewrite <- Nat.add_succ_comm. reflexivity. }
  destruct (M d 0%nat) as (r & Er & Lr & Hr). exists r. split; [exact Er|]. split; [exact Lr|]. exact Hr.
Qed.
Print Assumptions C64_segment.
Example C64_segment_ex : exists y q u, traj_call exact ex_arc 2 = Ok (y, q, u) /\ Forall2 Qeq y [4; 10] /\ q = [] /\ Forall2 Qeq u [8].
Proof. do 3 eexists. split; [vm_compute; reflexivity|]. repeat constructor. Qed.

(** Times before or after all stored times are rejected. *)
Theorem C64_outside (rnd : Q -> Q) (g : arc Q) (x : Q) :
  distinct (a_t g) -> a_t g <> [] -> (forall r, hd_error (a_y g) = Some r -> r <> []) ->
  (forall t, In t (a_t g) -> x < t) \/ (forall t, In t (a_t g) -> t < x) ->
  traj_call rnd g x = Raise ValueError.
Proof.
  intros D Ne Hy H. unfold traj_call. destruct (a_t g) as [|t0 ts] eqn:T; [congruence|].
  destruct (a_y g) as [|r rows]; [reflexivity|]. unfold interp_rows.
  specialize (Hy r eq_refl). destruct r as [|v r]; [congruence|]. cbn [length seq mapM].
  rewrite (interp1d_outside rnd (t0 :: ts)) by assumption. reflexivity.
Qed.
Print Assumptions C64_outside.
Example C64_outside_ex : traj_call exact ex_arc (-1) = Raise ValueError /\ traj_call exact ex_arc 4 = Raise ValueError.
Proof. split; reflexivity. Qed.

(** ** C68: reconstructed quadratures *)
Section C68.
  Context {V : Type}.
  Variables (rule : list Q -> list (list Q) -> res (list Q)) (of_value : V -> list Q) (time_value : Q -> V) (row_value : list Q -> V).

  Lemma mapM_nth {A B} (f : A -> res B) l r : mapM f l = Ok r ->
    length r = length l /\ forall i a, nth_error l i = Some a -> exists b, nth_error r i = Some b /\ f a = Ok b.
  Proof.
    revert r. induction l as [|x l IH]; intros r H; simpl in H.
    - injection H as <-. split; [reflexivity|]. now intros [|i].
    - destruct (f x) as [b|] eqn:Fx; [|discriminate]. cbn [bind] in H. destruct (mapM f l) as [bs|]; [|discriminate].
      injection H as <-. destruct (IH bs eq_refl) as [L N]. split; [simpl; now rewrite L|].
      intros [|i] a Ha; [injection Ha as <-; exists b; auto|]. apply N, Ha.
  Qed.
  Lemma row_plus_nth a b k : length a = length b -> nth k (row_plus a b) 0 == nth k a 0 + nth k b 0.
  Proof.
    unfold row_plus. revert b k. induction a as [|x a IH]; intros [|y b] k L; simpl in L; try discriminate.
    - destruct k; reflexivity.
    - destruct k as [|k]; simpl; [reflexivity|]. apply IH. congruence.
  Qed.

  (** A reconstructed trajectory has one quadrature row per time; the first is the
      given start; row [i] is the start plus the rule applied to the integrand
      at the first [i+1] points. *)
  Theorem C68_rows (quadfun : pyfun (V := V)) (args : list V) (at_ : Q -> res (list Q)) (ts q0 : list Q) rows :
    reconstruct rule of_value row_value quadfun args at_ ts q0 = Ok rows ->
    ts <> [] ->
    (forall xs ds w, rule xs ds = Ok w -> length w = length q0) ->
    exists dq,
      length dq = length ts
      /\ (forall i t, nth_error ts i = Some t -> exists y, at_ t = Ok y /\
            nth_error dq i = Some (of_value (body quadfun (row_value y :: args))))
      /\ length rows = length ts
      /\ (forall i r, nth_error rows i = Some r ->
            (i = 0%nat /\ forall k, nth k r 0 == nth k q0 0)
            \/ (exists w, (0 < i)%nat /\ rule (firstn (S i) ts) (firstn (S i) dq) = Ok w
                  /\ forall k, nth k r 0 == nth k q0 0 + nth k w 0)).
  Proof.
    unfold reconstruct. intros H Ne Hr.
    destruct (mapM _ ts) as [dq|] eqn:Ed; [|discriminate]. cbn [bind] in H.
    destruct (mapM (fun ii => rule _ _) _) as [ws|] eqn:Ew; [|discriminate]. cbn [bind] in H. injection H as <-.
    destruct (mapM_nth _ _ _ Ed) as [Ld Nd]. destruct (mapM_nth _ _ _ Ew) as [Lw Nw]. rewrite seq_length in Lw.
    exists dq. split; [exact Ld|]. split.
    { intros i t Ht. destruct (Nd i t Ht) as (b & Hb & E). destruct (at_ t) as [y|]; [|discriminate]. cbn [bind] in E.
      unfold call in E. destruct (Nat.eqb _ _); [|discriminate]. cbn [bind] in E. injection E as <-. exists y. auto. }
    split; [simpl; rewrite map_length, Lw; destruct ts; [congruence|]; simpl; lia|].
    intros [|i] r Hi; cbn [map nth_error] in Hi.
    - left. split; [reflexivity|]. injection Hi as <-. intro k. rewrite row_plus_nth by now rewrite map_length.
      assert (Z : nth k (map (fun _ : Q => 0) q0) 0 == 0) by (clear; revert k; induction q0; intros [|k]; simpl; auto; reflexivity).
      rewrite Z. ring.
    - right. rewrite nth_error_map in Hi. destruct (nth_error ws i) as [w|] eqn:Hw; [|discriminate]. injection Hi as <-.
      assert (Li : (i < length ws)%nat) by (apply nth_error_Some; congruence).
      destruct (Nw i i) as (b & Hb & E).
      { rewrite (nth_error_nth' _ 0%nat) by (rewrite seq_length; lia). now rewrite seq_nth by lia. }
      rewrite Hw in Hb. injection Hb as <-. exists w. split; [lia|]. split; [now rewrite Nat.add_comm in E|].
      intro k. rewrite row_plus_nth by (rewrite (Hr _ _ _ E); reflexivity). ring.
  Qed.

  (** The two ways of filling in quadratures never work with the same quadrature
      function. *)
  Theorem C68_arity (quadfun : pyfun (V := V)) (args : list V) (at_ : Q -> res (list Q)) (ts nodes q0 : list Q) rows :
    ts <> [] -> reconstruct rule of_value row_value quadfun args at_ ts q0 = Ok rows ->
    forall rows', quick rule of_value time_value row_value quadfun args at_ ts nodes q0 <> Ok rows'.
  Proof.
    intros Ne H rows' Hq.
    assert (A1 : arity quadfun = S (length args)).
    { unfold reconstruct in H. destruct ts as [|t ts]; [congruence|]. cbn [mapM] in H.
      destruct (at_ t) as [y|]; [|discriminate]. cbn [bind] in H. unfold call in H at 1. cbn [length] in H.
      destruct (Nat.eqb_spec (S (length args)) (arity quadfun)); [auto | discriminate]. }
    unfold quick, integrate_quads in Hq. destruct nodes as [|t nodes]; [discriminate|]. cbn [get nth_error bind mapM] in Hq.
    destruct (at_ t) as [y|]; [|discriminate]. cbn [bind fst] in Hq. unfold call in Hq at 1. cbn [length] in Hq.
    rewrite A1 in Hq. destruct (Nat.eqb_spec (S (S (length args))) (S (length args))); [lia | discriminate].
  Qed.
End C68.
Print Assumptions C68_rows.
Print Assumptions C68_arity.

(** Trapezoidal rule for one quadrature, as a concrete rule. *)
Fixpoint xtrap_sum (a u : Q) (xs : list Q) (ds : list (list Q)) : Q :=
  match xs, ds with
  | b :: xs', [v] :: ds' => (b - a) * (u + v) / 2 + xtrap_sum b v xs' ds'
  | _, _ => 0
  end.
Definition xtrap (xs : list Q) (ds : list (list Q)) : res (list Q) :=
  match xs, ds with
  | a :: xs', [u] :: ds' => Ok [Qred (xtrap_sum a u xs' ds')]
  | _, _ => Raise ValueError
  end.
Lemma xtrap_len xs ds w : xtrap xs ds = Ok w -> length w = 1%nat.
Proof. destruct xs as [|a xs], ds as [|[|u [|]] ds]; simpl; try discriminate. intro H. now injection H as <-. Qed.
(** Values are lists of numbers; the integrand is the first state, compiled with
    arguments (states, parameters, constants). *)
Definition xquad : pyfun (V := list Q) := mkPy 3 (fun l => [hd 0 (hd [] l)]).
Definition xat (t : Q) : res (list Q) := r <- traj_call exact ex_arc t ; Ok (fst (fst r)).
Example C68_rows_ex :
  exists rows, reconstruct xtrap (fun v => v) (fun v => v) xquad [[]; []] xat [0; 1; 3] [100] = Ok rows
               /\ Forall2 (Forall2 Qeq) rows [[100]; [203 # 2]; [219 # 2]].
Proof. eexists. split; [vm_compute; reflexivity|]. repeat constructor. Qed.

(** With the compiled three-argument function the quick reconstruction always
    raises TypeError. *)
Theorem C68_quick_refuted :
  exists (quadfun : pyfun (V := list Q)) args ts q0 rows,
    reconstruct xtrap (fun v => v) (fun v => v) quadfun args xat ts q0 = Ok rows
    /\ quick xtrap (fun v => v) (fun t => [t]) (fun v => v) quadfun args xat ts ts q0 = Raise TypeError.
Proof.
  exists xquad, [[]; []], [0; 1; 3], [100]. eexists. split; vm_compute; reflexivity.
Qed.
Print Assumptions C68_quick_refuted.

(** And with a function that accepts the extra time argument, the rows it stores
    at interior points are zero instead of the quadratures there. *)
Definition xquad4 : pyfun (V := list Q) := mkPy 4 (fun l => [hd 0 (nth 1 l [])]).
Theorem C68_quick_interior_refuted :
  exists rows r rows3 r3,
    quick xtrap (fun v => v) (fun t => [t]) (fun v => v) xquad4 [[]; []] xat [0; 1; 3] [0; 1; 3] [100] = Ok rows
    /\ reconstruct xtrap (fun v => v) (fun v => v) xquad [[]; []] xat [0; 1; 3] [100] = Ok rows3
    /\ nth_error rows 1 = Some r /\ nth_error rows3 1 = Some r3 /\ r = [0] /\ ~ hd 0 r3 == 0
    /\ exists z z3, nth_error rows 2 = Some z /\ nth_error rows3 2 = Some z3 /\ Forall2 Qeq z z3.
Proof.
  do 4 eexists. split; [vm_compute; reflexivity|]. split; [vm_compute; reflexivity|].
  split; [reflexivity|]. split; [reflexivity|]. split; [reflexivity|]. split; [intro H; vm_compute in H; discriminate|].
  do 2 eexists. split; [reflexivity|]. split; [reflexivity|]. repeat constructor.
Qed.
Print Assumptions C68_quick_interior_refuted.
