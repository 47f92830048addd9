(** Properties C14-C23 and C62: trajectory mappers, control selection, scaling. *)
From Coq Require Import QArith Reals Lra.
From Verif Require Import Base Base_Facts Base_NaN Map_Model Map_Spec Map_Proofs Map_Chain
  Map_More Map_MF Scale_Model Scale_Proofs.
Open Scope nat_scope.

(** A concrete rational trajectory: three points, two states, two costates,
    two controls, one parameter. *)
Definition ex_sol : sol Q :=
  mkSol [0; 1; 4]%Q [] (Mat 2 [[1; 2]; [3; 4]; [5; 6]]%Q) (Mat 2 [[7; 8]; [9; 10]; [11; 12]]%Q)
    (Mat 0 [[]; []; []]) (Mat 2 [[20; 21]; [22; 23]; [24; 25]]%Q) E1 [30]%Q [] [40; 41]%Q 0%Q.

Ltac shape_by_computation :=
  eexists; split; [reflexivity|]; split; [reflexivity|]; repeat constructor.

(** ** C14 *)
Theorem C14_momentum_shift_round_trip :
  forall (F : Type) (O : NumOps F) i N n nd (s : sol F),
    length (s_t s) = N -> shape N n (s_y s) -> shape N nd (s_dual s) ->
    (s_dual_t s = [] \/ length (s_dual_t s) = N) -> i <= n -> i <= nd ->
    exists s', ms_map O (Some i) s = Ok (Some i, s') /\
      ms_inv O (Some i) s' = Ok (Some i, set_dual_t (full_dual_t O s) s) /\
      shape N (S n) (s_y s') /\ shape N (S nd) (s_dual s') /\
      column_inserted i (s_t s) (s_y s) (s_y s') /\
      column_inserted i (full_dual_t O s) (s_dual s) (s_dual s') /\
      (s_t s', s_q s', s_u s', s_dual_u s', s_p s', s_nu s', s_k s', s_cost s')
      = (s_t s, s_q s, s_u s, s_dual_u s, s_p s, s_nu s, s_k s, s_cost s) /\
      s_dual_t s' = full_dual_t O s.
Proof. exact @ms_roundtrip. Qed.
Print Assumptions C14_momentum_shift_round_trip.

Theorem C14_default_index :
  forall (F : Type) (O : NumOps F) (s : sol F) n rows,
    (s_y s = Mat n rows -> ms_map O None s = ms_map O (Some n) s) /\
    (s_y s = Mat (S n) rows -> ms_inv O None s = ms_inv O (Some n) s).
Proof.
  intros F O s n rows; split; intros H.
  - exact (ms_default O s n rows H).
  - exact (ms_inv_default O s n rows H).
Qed.
Print Assumptions C14_default_index.

Theorem C14_inverse_reads_time_column :
  forall (F : Type) (O : NumOps F) i (s s' : sol F) i',
    ms_inv O (Some i) s = Ok (i', s') ->
    (length (s_t s') = alen (s_y s) /\
     forall k, k < alen (s_y s) -> nth_error (s_t s') k = entry (s_y s) k i) /\
    (length (s_dual_t s') = alen (s_dual s) /\
     forall k, k < alen (s_dual s) -> nth_error (s_dual_t s') k = entry (s_dual s) k i) /\
    (forall k j, entry (s_y s') k j = entry (s_y s) k (if j <? i then j else S j)) /\
    (forall k j, entry (s_dual s') k j = entry (s_dual s) k (if j <? i then j else S j)) /\
    s_q s' = s_q s /\ s_u s' = s_u s /\ s_p s' = s_p s /\ s_nu s' = s_nu s /\ s_k s' = s_k s.
Proof. exact @ms_inv_reads. Qed.
Print Assumptions C14_inverse_reads_time_column.

(** A trajectory without costates cannot be shifted at all. *)
Theorem C14_no_costates_raises :
  forall (F : Type) (O : NumOps F) i N n (s : sol F),
    length (s_t s) = N -> shape N n (s_y s) -> s_dual s = E1 -> i <= n ->
    ms_map O (Some i) s = Raise ValueError.
Proof.
  intros F O i N n s Ht (rows & Ey & Hl & Hf) Hd Hi; unfold ms_map; cbn [bind].
  destruct (length (s_dual_t s) =? 0); cbn [s_y s_t s_dual set_dual_t];
    rewrite Ey, insert_col_ok by lia; cbn [bind s_dual set_y set_dual_t]; rewrite Hd; reflexivity.
Qed.
Print Assumptions C14_no_costates_raises.

Example C14_example :
  length (s_t ex_sol) = 3 /\ shape 3 2 (s_y ex_sol) /\ shape 3 2 (s_dual ex_sol) /\
  ms_map QOps (Some 1) ex_sol =
    Ok (Some 1, mkSol [0; 1; 4]%Q [0; 0; 0]%Q (Mat 3 [[1; 0; 2]; [3; 1; 4]; [5; 4; 6]]%Q)
      (Mat 3 [[7; 0; 8]; [9; 0; 10]; [11; 0; 12]]%Q) (Mat 0 [[]; []; []])
      (Mat 2 [[20; 21]; [22; 23]; [24; 25]]%Q) E1 [30]%Q [] [40; 41]%Q 0%Q).
Proof.
  split; [reflexivity|]; split; [shape_by_computation|]; split; [shape_by_computation|].
  vm_compute; reflexivity.
Qed.

(** ** C15 *)
Theorem C15_eps_trig_round_trip_refuted :
  exists (s s1 s2 : sol R) m,
    m = eps_mapper 0 (fun _ _ _ _ => (-1)%R) (fun _ _ _ _ => 1%R) /\
    entry (s_u s) 0 0 = Some 1%R /\
    apply_map ROps m s = Ok (m, s1) /\ apply_inv ROps m s1 = Ok (m, s2) /\
    entry (s_u s2) 0 0 = Some (1 / 2)%R.
Proof.
  set (s := mkSol [0%R] [] (Mat 1 [[0%R]]) E1 E1 (Mat 1 [[1%R]]) E1 [] [] [] 0%R).
  destruct (eps_roundtrip 0 (fun _ _ _ _ => (-1)%R) (fun _ _ _ _ => 1%R) 1 1 1 s)
    as (s1 & s2 & E1 & E2 & _ & _ & H);
    [reflexivity | shape_by_computation | shape_by_computation | lia |].
  exists s, s1, s2; eexists; split; [reflexivity|].
  split; [reflexivity|]; split; [exact E1|]; split; [exact E2|].
  rewrite (H 0 0%R [0%R] 1%R) by (reflexivity || lra).
  f_equal; lra.
Qed.
Print Assumptions C15_eps_trig_round_trip_refuted.

(** What the pair of maps really does: the distance of the control to the
    middle of its bounds is halved. *)
Theorem C15_round_trip_halves :
  forall ci lower upper N n c (s : sol R),
    length (s_t s) = N -> shape N n (s_y s) -> shape N c (s_u s) -> ci < c ->
    exists s1 s2,
      apply_map ROps (eps_mapper ci lower upper) s = Ok (eps_mapper ci lower upper, s1) /\
      apply_inv ROps (eps_mapper ci lower upper) s1 = Ok (eps_mapper ci lower upper, s2) /\
      set_u (s_u s) s2 = s /\
      (forall k j, j <> ci -> entry (s_u s2) k j = entry (s_u s) k j) /\
      (forall k t y u, nth_error (s_t s) k = Some t -> nth_error (arows (s_y s)) k = Some y ->
         entry (s_u s) k ci = Some u ->
         (lower t y (s_p s) (s_k s) < upper t y (s_p s) (s_k s))%R ->
         (lower t y (s_p s) (s_k s) <= u <= upper t y (s_p s) (s_k s))%R ->
         entry (s_u s2) k ci =
           Some ((u + (upper t y (s_p s) (s_k s) + lower t y (s_p s) (s_k s)) / 2) / 2)%R).
Proof. exact eps_roundtrip. Qed.
Print Assumptions C15_round_trip_halves.

Theorem C15_recovered_within_bounds :
  forall ci lower upper N n c (s : sol R),
    length (s_t s) = N -> shape N n (s_y s) -> shape N c (s_u s) -> ci < c ->
    exists s1, apply_inv ROps (eps_mapper ci lower upper) s = Ok (eps_mapper ci lower upper, s1) /\
      (forall k t y, nth_error (s_t s) k = Some t -> nth_error (arows (s_y s)) k = Some y ->
         (lower t y (s_p s) (s_k s) <= upper t y (s_p s) (s_k s))%R ->
         exists u, entry (s_u s1) k ci = Some u /\
           (lower t y (s_p s) (s_k s) <= u <= upper t y (s_p s) (s_k s))%R).
Proof. exact eps_recovered_within. Qed.
Print Assumptions C15_recovered_within_bounds.

Example C15_example :
  let s := mkSol [0%R; 1%R] [] (Mat 1 [[0%R]; [2%R]]) E1 E1 (Mat 2 [[5%R; 1%R]; [5%R; (-1)%R]]) E1 [] [] [] 0%R in
  length (s_t s) = 2 /\ shape 2 1 (s_y s) /\ shape 2 2 (s_u s) /\ 1 < 2.
Proof.
  cbv zeta; split; [reflexivity|]; split; [shape_by_computation|]; split; [shape_by_computation|lia].
Qed.

(** ** C16 *)
Theorem C16_normalize_time :
  forall i t0 tf (s : sol R),
    nth_error (s_t s) 0 = Some t0 -> nth_error (s_t s) (length (s_t s) - 1) = Some tf ->
    (t0 < tf)%R -> i <= length (s_p s) ->
    exists s', map_sol ROps [MNormalizeTime (Some i)] s = Ok ([MNormalizeTime (Some i)], s', s) /\
      length (s_t s') = length (s_t s) /\
      nth_error (s_t s') 0 = Some 0%R /\
      nth_error (s_t s') (length (s_t s) - 1) = Some 1%R /\
      (forall k t, nth_error (s_t s) k = Some t ->
         nth_error (s_t s') k = Some ((t - t0) / (tf - t0))%R /\
         ((t0 <= t <= tf)%R -> (0 <= (t - t0) / (tf - t0) <= 1)%R)) /\
      (forall a b ta tb ta' tb', nth_error (s_t s) a = Some ta -> nth_error (s_t s) b = Some tb ->
         nth_error (s_t s') a = Some ta' -> nth_error (s_t s') b = Some tb' ->
         ((ta < tb)%R <-> (ta' < tb')%R)) /\
      s_p s' = firstn i (s_p s) ++ (tf - t0)%R :: skipn i (s_p s) /\
      set_t (s_t s) (set_p (s_p s) s') = s /\
      inv_map_sol ROps [MNormalizeTime (Some i)] s'
        = Ok ([MNormalizeTime (Some i)], set_t (map (fun t => t - t0)%R (s_t s)) s, s').
Proof. exact nt_real. Qed.
Print Assumptions C16_normalize_time.

Theorem C16_round_trip_from_zero :
  forall i tf (s : sol R),
    nth_error (s_t s) 0 = Some 0%R -> nth_error (s_t s) (length (s_t s) - 1) = Some tf ->
    (0 < tf)%R -> i <= length (s_p s) ->
    exists s' a, map_sol ROps [MNormalizeTime (Some i)] s = Ok ([MNormalizeTime (Some i)], s', a) /\
      inv_map_sol ROps [MNormalizeTime (Some i)] s' = Ok ([MNormalizeTime (Some i)], s, s').
Proof.
  intros i tf s H0 Hf Hlt Hi.
  destruct (nt_real i 0%R tf s H0 Hf Hlt Hi) as (s' & E & _ & _ & _ & _ & _ & _ & _ & E').
  exists s', s; split; [exact E|]; rewrite E'; do 3 f_equal.
  assert (map (fun t => t - 0)%R (s_t s) = s_t s) as ->.
  { rewrite <- (map_id (s_t s)) at 2; apply map_ext; intros t; lra. }
  destruct s; reflexivity.
Qed.
Print Assumptions C16_round_trip_from_zero.

(** A trajectory that does not start at time zero comes back shifted. *)
Theorem C16_round_trip_refuted :
  exists (s s' r a a' : sol Q) ms ms',
    s_t s = [1; 2; 5]%Q /\
    map_sol QOps [MNormalizeTime None] s = Ok (ms, s', a) /\
    inv_map_sol QOps ms s' = Ok (ms', r, a') /\ s_t r = [0; 1; 4]%Q.
Proof.
  exists (set_t [1; 2; 5]%Q ex_sol).
  do 6 eexists; split; [reflexivity|].
  split; [vm_compute; reflexivity|]; split; [vm_compute; reflexivity|]; vm_compute; reflexivity.
Qed.
Print Assumptions C16_round_trip_refuted.

Example C16_example :
  exists t0 tf, nth_error [1%R; 2%R; 5%R] 0 = Some t0 /\ nth_error [1%R; 2%R; 5%R] 2 = Some tf /\ (t0 < tf)%R.
Proof. exists 1%R, 5%R; split; [reflexivity|]; split; [reflexivity|lra]. Qed.

(** ** C17 *)
Theorem C17_differential_control_round_trip :
  forall (F : Type) (O : NumOps F) N n m idxs (s : sol F),
    shape N n (s_y s) -> shape N m (s_u s) ->
    length idxs = m -> NoDup idxs -> (forall i, In i idxs -> i < n + m) ->
    exists s', dc_map O idxs s = Ok s' /\ dc_inv O idxs s' = Ok s /\
      shape N (n + m) (s_y s') /\ shape N 0 (s_u s') /\
      (forall j i, nth_error idxs j = Some i -> column_placed (s_u s) j (s_y s') i) /\
      (forall k j, (forall i, In i idxs -> j < i) -> entry (s_y s') k j = entry (s_y s) k j) /\
      set_y (s_y s) (set_u (s_u s) s') = s.
Proof. exact @dc_roundtrip. Qed.
Print Assumptions C17_differential_control_round_trip.

(** Indices out of order: control 0 lands in column 3, control 1 in column 0. *)
Example C17_example :
  shape 3 2 (s_y ex_sol) /\ shape 3 2 (s_u ex_sol) /\ NoDup [3; 0] /\
  (s' <- dc_map QOps [3; 0] ex_sol ; Ok (s_y s'))
    = Ok (Mat 4 [[21; 1; 2; 20]; [23; 3; 4; 22]; [25; 5; 6; 24]]%Q).
Proof.
  split; [shape_by_computation|]; split; [shape_by_computation|].
  split; [|vm_compute; reflexivity].
  constructor; [intros [H|[]]; discriminate|]. constructor; [intros []|constructor].
Qed.

(** ** C18 *)
(** With one control the last costate is overwritten by the control costate. *)
Theorem C18_one_control_loses_last_costate :
  forall (F : Type) (O : NumOps F) N n (s : sol F),
    0 < N -> length (s_t s) = N -> shape N n (s_y s) -> shape N n (s_dual s) -> 0 < n ->
    shape N 1 (s_u s) -> s_dual_u s = E1 ->
    exists s1 s2, dg_map O (n0 O) [n] s = Ok s1 /\ dg_inv O [n] s1 = Ok s2 /\
      s_y s2 = s_y s /\ s_u s2 = s_u s /\ shape N n (s_dual s2) /\
      (forall k, k < N -> entry (s_dual s2) k (n - 1) = Some (nmul O (n0 O) (nofZ O 1))) /\
      (forall k j, j < n - 1 -> entry (s_dual s2) k j = entry (s_dual s) k j).
Proof. exact @dg_one_control. Qed.
Print Assumptions C18_one_control_loses_last_costate.

Theorem C18_two_controls_rejected :
  forall (F : Type) (O : NumOps F) N n m (s : sol F),
    2 <= N -> 2 <= m -> length (s_t s) = N -> shape N n (s_y s) -> shape N n (s_dual s) -> 0 < n ->
    shape N m (s_u s) -> s_dual_u s = E1 ->
    dg_map O (n0 O) (seq n m) s = Raise ValueError.
Proof. exact @dg_two_controls. Qed.
Print Assumptions C18_two_controls_rejected.

Definition ex_one_control : sol Q := set_u (Mat 1 [[20]; [22]; [24]]%Q) ex_sol.

Theorem C18_geometric_round_trip_refuted :
  exists (s s1 s2 : sol Q), dg_map QOps 0%Q [2] s = Ok s1 /\ dg_inv QOps [2] s1 = Ok s2 /\
    s_dual s = Mat 2 [[7; 8]; [9; 10]; [11; 12]]%Q /\
    s_dual s2 = Mat 2 [[7; 0]; [9; 0]; [11; 0]]%Q.
Proof.
  exists ex_one_control; do 2 eexists; split; [vm_compute; reflexivity|].
  split; [vm_compute; reflexivity|]; split; vm_compute; reflexivity.
Qed.
Print Assumptions C18_geometric_round_trip_refuted.

Example C18_example :
  0 < 3 /\ length (s_t ex_sol) = 3 /\ shape 3 2 (s_y ex_sol) /\ shape 3 2 (s_dual ex_sol) /\
  shape 3 2 (s_u ex_sol) /\ s_dual_u ex_sol = E1 /\ dg_map QOps 0%Q [2; 3] ex_sol = Raise ValueError.
Proof.
  split; [lia|]; split; [reflexivity|]; split; [shape_by_computation|].
  split; [shape_by_computation|]; split; [shape_by_computation|].
  split; [reflexivity|vm_compute; reflexivity].
Qed.

(** ** C19 *)
Theorem C19_squash_round_trip :
  forall (F : Type) (O : NumOps F) N n nd a_lo a_hi (s : sol F),
    0 < N -> shape N n (s_y s) -> shape N nd (s_dual s) ->
    exists s', sq_map s = Ok s' /\
      sq_inv n (n + nd) a_lo a_hi s' = Ok (set_nu (unslice a_lo a_hi (s_nu s)) s) /\
      shape N (n + nd) (s_y s') /\
      (forall k j, j < n -> entry (s_y s') k j = entry (s_y s) k j) /\
      (forall k j, j < nd -> entry (s_y s') k (n + j) = entry (s_dual s) k j) /\
      set_y (s_y s) s' = s.
Proof. intros F O; exact sq_roundtrip. Qed.
Print Assumptions C19_squash_round_trip.

(** The slice handed to the mapper starts behind the last parameter, so no
    adjoint parameter is ever removed. *)
Theorem C19_adjoints_never_removed :
  forall (F : Type) (O : NumOps F) (ncp nadj n nd : nat) (s s' : sol F),
    length (s_nu s) = ncp + nadj ->
    apply_inv O (squash_mapper ncp nadj n nd) s = Ok (squash_mapper ncp nadj n nd, s') ->
    s_nu s' = s_nu s.
Proof.
  intros F O ncp nadj n nd s s' Hl H; unfold squash_mapper, apply_inv, with_mapper, sq_inv in H.
  destruct (select_slice (s_y s) n (n + nd)) as [d|]; cbn [bind] in H; [|discriminate].
  cbn [s_y set_dual] in H.
  destruct (delete_slice (s_y s) n (n + nd)) as [y|]; cbn [bind] in H; [|discriminate].
  injection H as <-; cbn [s_nu set_nu set_y set_dual]; unfold unslice.
  destruct (Nat.leb_spec (ncp + nadj + nadj) (ncp + nadj)); [reflexivity|].
  rewrite firstn_all2, skipn_all2 by lia; apply app_nil_r.
Qed.
Print Assumptions C19_adjoints_never_removed.

Theorem C19_adjoints_removed_refuted :
  exists (ncp nadj : nat) (s s1 s2 : sol Q),
    s_nu s = [50; 60]%Q /\ (* one user parameter, one adjoint *) ncp = 1 /\ nadj = 1 /\
    apply_map QOps (squash_mapper ncp nadj 2 2) s = Ok (squash_mapper ncp nadj 2 2, s1) /\
    apply_inv QOps (squash_mapper ncp nadj 2 2) s1 = Ok (squash_mapper ncp nadj 2 2, s2) /\
    s_nu s2 = [50; 60]%Q /\ s_nu s2 <> [50]%Q.
Proof.
  exists 1, 1, (set_nu [50; 60]%Q ex_sol); do 2 eexists.
  split; [reflexivity|]; split; [reflexivity|]; split; [reflexivity|].
  split; [vm_compute; reflexivity|]; split; [vm_compute; reflexivity|].
  split; [reflexivity|discriminate].
Qed.
Print Assumptions C19_adjoints_removed_refuted.

Example C19_example :
  (s' <- sq_map ex_sol ; Ok (s_y s'))
  = Ok (Mat 4 [[1; 2; 7; 8]; [3; 4; 9; 10]; [5; 6; 11; 12]]%Q).
Proof. vm_compute; reflexivity. Qed.

(** ** C20 *)
(** Differential control; [shift] and [norm] are the two options of
    make_indirect_method.  With the shift every field comes back exactly, in
    any arithmetic; without it the times come back as
    [(t - t0) / (tf - t0) * (tf - t0)]. *)
Theorem C20_differential_chain :
  forall (F : Type) (O : NumOps F) shift norm N n m ncp nadj nutm cost (s : sol F) t0 tf,
    (forall t y q u p k, exists v, cost t y q u p k = Ok v) -> 0 < N -> length (s_t s) = N -> shape N n (s_y s) -> shape N n (s_dual s) ->
    shape N m (s_u s) -> (s_dual_t s = [] \/ length (s_dual_t s) = N) ->
    nth_error (s_t s) 0 = Some t0 -> nth_error (s_t s) (length (s_t s) - 1) = Some tf ->
    let chain := chain_differential shift norm n m (length (s_p s)) ncp nadj nutm cost in
    exists s' r a1 a2, map_sol O chain s = Ok (chain, s', a1) /\
      inv_map_sol O chain s' = Ok (chain, r, a2) /\
      s_y r = s_y s /\ s_dual r = s_dual s /\ s_u r = s_u s /\ s_q r = s_q s /\
      s_p r = s_p s /\ s_k r = s_k s /\ s_dual_u r = s_dual_u s /\ s_nu r = [] /\
      s_dual_t r = back_dual_t O shift s /\
      s_t r = (if shift then s_t s else back_t O norm t0 tf (s_t s)).
Proof. exact @chain_differential_ok. Qed.
Print Assumptions C20_differential_chain.

(** Algebraic control: as above, and every control row is the one selected at
    the state and costate rows of the shifted trajectory. *)
Theorem C20_algebraic_chain :
  forall (F : Type) (O : NumOps F) shift norm N n m ncp nadj nutm cost options ham (s : sol F) t0 tf,
    (forall t y q u p k, exists v, cost t y q u p k = Ok v) -> 0 < N -> length (s_t s) = N -> shape N n (s_y s) -> shape N n (s_dual s) ->
    (s_dual_t s = [] \/ length (s_dual_t s) = N) ->
    nth_error (s_t s) 0 = Some t0 -> nth_error (s_t s) (length (s_t s) - 1) = Some tf ->
    (forall t y d p k, options t y d p k <> []) ->
    let chain := chain_algebraic shift norm n m (length (s_p s)) ncp nadj nutm cost options ham in
    exists s' r a1 a2 ys ds us,
      map_sol O chain s = Ok (chain, s', a1) /\
      inv_map_sol O chain s' = Ok (chain, r, a2) /\
      s_y r = s_y s /\ s_dual r = s_dual s /\ s_q r = s_q s /\
      s_p r = s_p s /\ s_k r = s_k s /\ s_dual_u r = s_dual_u s /\ s_nu r = [] /\
      s_dual_t r = back_dual_t O shift s /\
      s_t r = (if shift then s_t s else back_t O norm t0 tf (s_t s)) /\
      (if shift then column_inserted n (s_t s) (s_y s) (Mat (S n) ys) /\
                     column_inserted n (full_dual_t O s) (s_dual s) (Mat (S n) ds)
       else s_y s = Mat n ys /\ s_dual s = Mat n ds) /\
      length us = N /\ s_u r = Mat m us /\
      (forall k t y d, nth_error (back_t O norm t0 tf (s_t s)) k = Some t ->
         nth_error ys k = Some y -> nth_error ds k = Some d ->
         exists u, nth_error us k = Some u /\
           pick_control O (fun c => ham t y d c (s_p s) (s_k s)) (options t y d (s_p s) (s_k s)) = Ok u).
Proof. exact @chain_algebraic_ok. Qed.
Print Assumptions C20_algebraic_chain.

(** Without the shift, exact arithmetic returns the times shifted by [t0]. *)
Theorem C20_times_without_shift :
  forall (ts : list R) t0 tf, t0 <> tf ->
    back_t ROps true t0 tf ts = map (fun t => t - t0)%R ts.
Proof. intros ts t0 tf H; apply nt_exact; simpl; lra. Qed.
Print Assumptions C20_times_without_shift.

Example C20_example :
  exists s' a r ms a', map_sol QOps (chain_differential true true 2 2 1 0 3 1 (fun _ _ _ _ _ _ => Ok 99%Q)) ex_sol
     = Ok (ms, s', a) /\
   s_t s' = [0; 1 # 4; 1]%Q /\ s_p s' = [30; 4]%Q /\ s_nu s' = [1; 1; 1]%Q /\
   s_y s' = Mat 8 [[1; 2; 0; 20; 21; 7; 8; 0]; [3; 4; 1; 22; 23; 9; 10; 0]; [5; 6; 4; 24; 25; 11; 12; 0]]%Q /\
   inv_map_sol QOps ms s' = Ok (ms, r, a') /\
   r = set_cost 99%Q (set_dual_t [0; 0; 0]%Q ex_sol).
Proof.
  do 5 eexists; split; [vm_compute; reflexivity|].
  split; [vm_compute; reflexivity|]; split; [vm_compute; reflexivity|].
  split; [vm_compute; reflexivity|]; split; [vm_compute; reflexivity|].
  split; [vm_compute; reflexivity|]; vm_compute; reflexivity.
Qed.

(** ** C21 *)
(** The trajectory handed to inv_map_sol of an indirect method is changed: its
    states lose the costate columns, and the second call fails. *)
Theorem C21_argument_unchanged_refuted :
  exists (s s' a r a' : sol Q) chain,
    chain = chain_differential true true 2 2 1 0 3 0 (fun _ _ _ _ _ _ => Ok 99%Q) /\
    map_sol QOps chain s = Ok (chain, s', a) /\
    inv_map_sol QOps chain s' = Ok (chain, r, a') /\
    s_y s' = Mat 8 [[1; 2; 0; 20; 21; 7; 8; 0]; [3; 4; 1; 22; 23; 9; 10; 0]; [5; 6; 4; 24; 25; 11; 12; 0]]%Q /\
    s_y a' = Mat 5 [[1; 2; 0; 20; 21]; [3; 4; 1; 22; 23]; [5; 6; 4; 24; 25]]%Q /\
    inv_map_sol QOps chain a' = Raise IndexError.
Proof.
  exists ex_sol; do 5 eexists; split; [reflexivity|].
  split; [vm_compute; reflexivity|]; split; [vm_compute; reflexivity|].
  split; [vm_compute; reflexivity|]; split; vm_compute; reflexivity.
Qed.
Print Assumptions C21_argument_unchanged_refuted.

(** A chain that ends with time normalisation (direct methods) leaves the
    argument alone, whatever precedes. *)
Theorem C21_normalised_chain_preserves_argument :
  forall (F : Type) (O : NumOps F) chain i s ms r a,
    inv_map_sol O (chain ++ [MNormalizeTime i]) s = Ok (ms, r, a) -> a = s.
Proof. exact @inv_map_sol_preserves. Qed.
Print Assumptions C21_normalised_chain_preserves_argument.

(** A chain without time normalisation returns the very object it was given. *)
Theorem C21_in_place_chain :
  forall (F : Type) (O : NumOps F) chain s ms r a,
    Forall (fun m => copies m = false) chain ->
    inv_map_sol O chain s = Ok (ms, r, a) -> a = r.
Proof.
  intros F O chain s ms r a Hc H; unfold inv_map_sol in H.
  destruct (run_pass (apply_inv O) (rev chain) (mkPass s s true)) as [[x y]|] eqn:E; simpl in H; [|discriminate].
  injection H as _ <- <-.
  apply (run_pass_nocopy (apply_inv O) (rev chain) (mkPass s s true) x y); auto.
  apply Forall_rev; exact Hc.
Qed.
Print Assumptions C21_in_place_chain.

Example C21_example :
  exists ms r, inv_map_sol QOps ([MDualize 0 (fun _ _ _ _ _ _ => Ok 99%Q)] ++ [MNormalizeTime None]) ex_sol
     = Ok (ms, r, ex_sol) /\ s_t r = [0; 30; 120]%Q.
Proof. do 2 eexists; split; vm_compute; reflexivity. Qed.

(** ** C22 *)
Theorem C22_control_minimises_hamiltonian :
  forall (ham : list R -> R) cands, cands <> [] ->
    exists v j, pick_control ROps ham cands = Ok v /\ nth_error cands j = Some v /\
      (forall c, In c cands -> (ham v <= ham c)%R) /\
      (forall i c, i < j -> nth_error cands i = Some c -> (ham v < ham c)%R).
Proof. exact pick_control_spec. Qed.
Print Assumptions C22_control_minimises_hamiltonian.

Theorem C22_no_candidate_raises :
  forall (F : Type) (O : NumOps F) ham, pick_control O ham [] = Raise RuntimeError.
Proof. reflexivity. Qed.
Print Assumptions C22_no_candidate_raises.

(** A first candidate whose Hamiltonian is NaN is kept although a finite
    candidate follows. *)
Theorem C22_nan_candidate_refuted :
  exists (ham : list (option Q) -> option Q) cands v w,
    pick_control XOps ham cands = Ok v /\ In w cands /\ ham v = None /\ ham w = Some 1%Q.
Proof.
  exists (fun u => hd None u), [[None]; [Some 1%Q]], [None], [Some 1%Q].
  split; [vm_compute; reflexivity|]; split; [right; left; reflexivity|]; split; reflexivity.
Qed.
Print Assumptions C22_nan_candidate_refuted.

Example C22_example :
  pick_control QOps (fun u => hd 0%Q u) [[3]; [1]; [2]; [1]]%Q = Ok [1]%Q.
Proof. vm_compute; reflexivity. Qed.

(** ** C23 *)
Theorem C23_scaling_round_trip :
  forall f N n nq m (s : sol R), fits f N n nq m s ->
    exists s', scale_sol ROps s f false = Ok s' /\ scale_sol ROps s' f true = Ok s.
Proof. exact scale_back. Qed.
Print Assumptions C23_scaling_round_trip.

(** Every component is divided by its own factor (multiplied when scaling
    back), in any arithmetic. *)
Theorem C23_every_component_scaled :
  forall (F : Type) (O : NumOps F) f inv N n nq m (s s' : sol F),
    scale_sol O s f inv = Ok s' ->
    let op := if inv then nmul O else ndiv O in
    s_t s' = map (fun x => op x (f_t f)) (s_t s) /\
    (shape N n (s_y s) -> length (f_y f) = n -> forall k j v w,
       entry (s_y s) k j = Some v -> nth_error (f_y f) j = Some w -> entry (s_y s') k j = Some (op v w)) /\
    (shape N nq (s_q s) -> length (f_q f) = nq -> forall k j v w,
       entry (s_q s) k j = Some v -> nth_error (f_q f) j = Some w -> entry (s_q s') k j = Some (op v w)) /\
    (shape N m (s_u s) -> length (f_u f) = m -> forall k j v w,
       entry (s_u s) k j = Some v -> nth_error (f_u f) j = Some w -> entry (s_u s') k j = Some (op v w)) /\
    (length (f_p f) = length (s_p s) -> forall j v w,
       nth_error (s_p s) j = Some v -> nth_error (f_p f) j = Some w -> nth_error (s_p s') j = Some (op v w)) /\
    (length (f_nu f) = length (s_nu s) -> forall j v w,
       nth_error (s_nu s) j = Some v -> nth_error (f_nu f) j = Some w -> nth_error (s_nu s') j = Some (op v w)) /\
    (length (f_k f) = length (s_k s) -> forall j v w,
       nth_error (s_k s) j = Some v -> nth_error (f_k f) j = Some w -> nth_error (s_k s') j = Some (op v w)).
Proof. exact @scale_components. Qed.
Print Assumptions C23_every_component_scaled.

Example C23_example :
  exists f s, fits f 2 1 0 1 s /\ s_y s = Mat 1 [[3%R]; [(-4)%R]].
Proof.
  exists (mkFactors 2%R [4%R] [] [3%R] [] [] [5%R]),
    (mkSol [0%R; 1%R] [] (Mat 1 [[3%R]; [(-4)%R]]) E1 E1 (Mat 1 [[1%R]; [2%R]]) E1 [] [] [7%R] 0%R).
  split; [|reflexivity].
  unfold fits; simpl.
  split; [lra|]; split; [shape_by_computation|]; split; [reflexivity|].
  split; [left; split; reflexivity|]; split; [right; split; [shape_by_computation|reflexivity]|].
  split; [reflexivity|]; split; [reflexivity|]; split; [reflexivity|].
  repeat split; repeat constructor; lra.
Qed.

(** A unit scaled by the magnitude of a state that is identically zero makes
    the automatic factor zero: scaling destroys the trajectory. *)
Theorem C23_automatic_factor_refuted :
  exists (s s' r : sol (option Q)) f unit_fun factor_fun,
    unit_fun = (fun _ my _ _ _ _ => my) /\
    factor_fun = (fun uf => mkFactors (Some 1%Q) uf [] [] [] [] []) /\
    f = compute_scale_factors XOps unit_fun factor_fun s /\
    scale_sol XOps s f false = Ok s' /\ scale_sol XOps s' f true = Ok r /\
    s_y s = Mat 1 [[Some 0%Q]; [Some 0%Q]] /\ s_y r = Mat 1 [[None]; [None]].
Proof.
  exists (mkSol [Some 0%Q; Some 1%Q] [] (Mat 1 [[Some 0%Q]; [Some 0%Q]]) E1 E1 E1 E1 [] [] [] None).
  do 5 eexists; split; [reflexivity|]; split; [reflexivity|]; split; [reflexivity|].
  split; [vm_compute; reflexivity|]; split; [vm_compute; reflexivity|]; split; reflexivity.
Qed.
Print Assumptions C23_automatic_factor_refuted.

(** ** C62 *)
Theorem C62_reduction_round_trip :
  forall (F : Type) (O : NumOps F) (p_in_states : bool) i j N n nd nq fn_p fn_q fn_p_inv fn_q_inv
         (s : sol F) y0 d0,
    let pp := mkPlace p_in_states i in
    let ps := mkPlace (negb p_in_states) j in
    let iy := if p_in_states then i else j in
    let id := if p_in_states then j else i in
    length (s_t s) = N -> shape N (S n) (s_y s) -> shape N (S nd) (s_dual s) -> shape N nq (s_q s) ->
    iy <= n -> id <= nd ->
    nth_error (arows (s_y s)) 0 = Some y0 -> nth_error (arows (s_dual s)) 0 = Some d0 ->
    let p' := s_p s ++ [fn_p y0 d0 (s_p s) (s_k s)] in
    (forall k y d q, nth_error (arows (s_y s)) k = Some y -> nth_error (arows (s_dual s)) k = Some d ->
       nth_error (arows (s_q s)) k = Some q ->
       nth_error (if p_in_states then y else d) i
         = Some (fn_p_inv (del_row [iy] 0 y) (del_row [id] 0 d) p' (s_k s)) /\
       nth_error (if p_in_states then d else y) j
         = Some (fn_q_inv (del_row [iy] 0 y) (del_row [id] 0 d)
                   (q ++ [fn_q y d p' (s_k s)]) p' (s_k s))) ->
    exists s', mf_map O pp ps fn_p fn_q s = Ok s' /\
      mf_inv O pp ps fn_p_inv fn_q_inv s' = Ok s /\
      shape N n (s_y s') /\ shape N nd (s_dual s') /\ shape N (S nq) (s_q s') /\ s_p s' = p'.
Proof. exact @mf_roundtrip. Qed.
Print Assumptions C62_reduction_round_trip.

(** Costate 1 is a constant of motion (value 8), state 1 the cyclic variable. *)
Definition ex_cyclic : sol Q :=
  mkSol [0; 1; 4]%Q [] (Mat 2 [[1; 2]; [3; 4]; [5; 6]]%Q) (Mat 2 [[7; 8]; [9; 8]; [11; 8]]%Q)
    (Mat 0 [[]; []; []]) E1 E1 [30]%Q [] [40; 41]%Q 0%Q.

Example C62_example :
  let fn_p := fun _ d _ _ => nth 1 d 0%Q in
  let fn_q := fun y _ _ _ => nth 1 y 0%Q in
  let fn_p_inv := fun _ _ p _ => last p 0%Q in
  let fn_q_inv := fun _ _ q _ _ => last q 0%Q in
  exists s', mf_map QOps (mkPlace false 1) (mkPlace true 1) fn_p fn_q ex_cyclic = Ok s' /\
    s_y s' = Mat 1 [[1]; [3]; [5]]%Q /\ s_dual s' = Mat 1 [[7]; [9]; [11]]%Q /\
    s_q s' = Mat 1 [[2]; [4]; [6]]%Q /\ s_p s' = [30; 8]%Q /\
    mf_inv QOps (mkPlace false 1) (mkPlace true 1) fn_p_inv fn_q_inv s' = Ok ex_cyclic.
Proof.
  cbv zeta; eexists; split; [vm_compute; reflexivity|].
  split; [vm_compute; reflexivity|]; split; [vm_compute; reflexivity|].
  split; [vm_compute; reflexivity|]; split; vm_compute; reflexivity.
Qed.

(** A trajectory along which the constant of motion varies is not restored:
    the inverse puts its initial value everywhere. *)
Theorem C62_varying_constant_refuted :
  exists (s s' r : sol Q) fn_p fn_q fn_p_inv fn_q_inv,
    fn_p = (fun _ d _ _ => nth 1 d 0%Q) /\ fn_q = (fun y _ _ _ => nth 1 y 0%Q) /\
    fn_p_inv = (fun _ _ p _ => last p 0%Q) /\ fn_q_inv = (fun _ _ q _ _ => last q 0%Q) /\
    mf_map QOps (mkPlace false 1) (mkPlace true 1) fn_p fn_q s = Ok s' /\
    mf_inv QOps (mkPlace false 1) (mkPlace true 1) fn_p_inv fn_q_inv s' = Ok r /\
    s_dual s = Mat 2 [[7; 8]; [9; 10]; [11; 12]]%Q /\ s_dual r = Mat 2 [[7; 8]; [9; 8]; [11; 8]]%Q.
Proof.
  exists ex_sol; do 6 eexists.
  split; [reflexivity|]; split; [reflexivity|]; split; [reflexivity|]; split; [reflexivity|].
  split; [vm_compute; reflexivity|]; split; [vm_compute; reflexivity|]; split; vm_compute; reflexivity.
Qed.
Print Assumptions C62_varying_constant_refuted.
