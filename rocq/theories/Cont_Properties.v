(** Properties C01-C13 and C61: continuation (beluga/continuation/continuation.py).
    Every theorem is followed by its axioms and by a concrete instance. *)
From Coq Require Import QArith Reals Lra.
From Verif Require Import Base Base_Facts Cont_Model Cont_Spec Cont_Proofs Cont_Bisection2
  Cont_Bisection3 Cont_Warm Cont_Rest Cont_Product Cont_Product2 Cont_Live Cont_Live2 Cont_Settings.
Open Scope Z_scope.

(** ** Concrete data for the examples.  The body of a trajectory is a number
    identifying the solver call it came from (999 for the incoming guess). *)
Definition qtraj := traj Q nat.
Definition ans (k : nat) (g : qtraj) (f : flag) : res qtraj := Ok (mkTraj (t_const g) f k).
Definition good : solver Q nat := fun k g => ans k g FTrue.
Definition fails_at (ks : list nat) (f : flag) : solver Q nat :=
  fun k g => ans k g (if existsb (Nat.eqb k) ks then f else FTrue).
Definition guess0 : qtraj := mkTraj [0; 5; 7]%Q FFalse 999%nat.
Definition names : list string := ["a"; "b"; "c"]%string.
Definition two_vars {P} (s : strat Q P) : strat Q P := set_const (set_const s "c" 9%Q) "a" 1%Q.
Definition consts (o : outcome Q nat) : list (list Q) := map (fun c => t_const (snd c)) (log_of o).
Definition goodR : solver R nat := fun k g => Ok (mkTraj (t_const g) FTrue k).
Definition guessR : traj R nat := mkTraj [0; 5; 7]%R FFalse 999%nat.
Definition varsR (s : strat R nat) : strat R nat := set_const (set_const s "c" 9%R) "a" 1%R.

Lemma good_keeps : keeps_const good.
Proof. intros k g sol H. injection H as <-. reflexivity. Qed.
Lemma fails_keeps ks f : keeps_const (fails_at ks f).
Proof. intros k g sol H. unfold fails_at, ans in H. injection H as <-. reflexivity. Qed.
Lemma fails_total ks f : total_solver (fails_at ks f).
Proof. intros k g. eexists. reflexivity. Qed.
Lemma goodR_keeps : keeps_const goodR.
Proof. intros k g sol H. injection H as <-. reflexivity. Qed.
Lemma goodR_good : good_solver goodR.
Proof. intros k g. eexists. repeat split. Qed.
Lemma names_ok : well_named names (t_const guess0).
Proof. split; [|reflexivity]. repeat constructor; simpl; intuition discriminate. Qed.
Lemma namesR_ok : well_named names (t_const guessR).
Proof. split; [|reflexivity]. repeat constructor; simpl; intuition discriminate. Qed.
Lemma vars_nodup : NoDup ["c"; "a"]%string.
Proof. repeat constructor; simpl; intuition discriminate. Qed.

(** ** C01 *)
Theorem C01_manual_reaches_targets : forall {F P} (O : NumOps F) (slv : solver F P) fuel k s guess cn n s' lst calls,
  keeps_const slv -> well_named cn (t_const guess) -> NoDup (map v_name (s_vars s)) ->
  s_kind s = Manual -> s_spacing s = Linear -> s_num s = Some n -> 2 <= n ->
  run_step O fuel slv k s guess cn = Finished s' lst calls ->
  Z.of_nat (length calls) = n /\
  (exists g, last calls (g, guess) = (g, lst) /\ In (g, lst) calls) /\
  at_targets cn (targets (s_vars s)) (t_const guess) (t_const lst).
Proof. intros F P O. exact (manual_targets O). Qed.
Print Assumptions C01_manual_reaches_targets.

Example C01_ex : exists s' lst calls,
  run_step QOps 10 good 0 (two_vars (new_manual 3)) guess0 names = Finished s' lst calls /\
  map (fun c => t_const (snd c)) calls = [[0; 5; 7]; [1#2; 5; 8]; [1; 5; 9]]%Q /\ t_const lst = [1; 5; 9]%Q.
Proof. eexists _, _, _. vm_compute. repeat split. Qed.

Theorem C01_manual_grid : forall {P} (slv : solver R P) fuel k s guess cn n s' lst calls,
  keeps_const slv -> well_named cn (t_const guess) -> NoDup (map v_name (s_vars s)) ->
  s_kind s = Manual -> s_spacing s = Linear -> s_num s = Some n -> 2 <= n ->
  run_step ROps fuel slv k s guess cn = Finished s' lst calls ->
  forall i g sol, nth_error calls i = Some (g, sol) ->
    t_const g = t_const sol /\ at_grid cn (targets (s_vars s)) n i (t_const guess) (t_const sol).
Proof. exact @manual_grid. Qed.
Print Assumptions C01_manual_grid.

Example C01_grid_ex : exists s' lst calls,
  run_step ROps 10 goodR 0 (varsR (new_manual 3)) guessR names = Finished s' lst calls.
Proof.
  destruct (all_converge ROps goodR 10 0 (varsR (new_manual 3)) guessR names 3) as (s' & lst & calls & H & _);
    try reflexivity; try lia; [exact goodR_good|exact namesR_ok|left; reflexivity|discriminate| |eauto].
  repeat (apply Forall_cons || apply Forall_nil); simpl; auto.
Qed.

(** An unknown constant is rejected before anything is solved. *)
Theorem C01_unknown_constant : forall {F P} (O : NumOps F) (slv : solver F P) fuel k s guess cn n v,
  s_kind s = Manual \/ s_kind s = Bisection -> s_num s = Some n -> 0 <= n -> length cn = length (t_const guess) ->
  In v (s_vars s) -> ~ In (v_name v) cn ->
  exists s', run_step O fuel slv k s guess cn = Raised ValueError s' [].
Proof. intros F P O. exact (manual_unknown O). Qed.
Print Assumptions C01_unknown_constant.

Example C01_unknown_ex : exists s',
  run_step QOps 10 good 0 (set_const (two_vars (new_manual 3)) "zz" 1%Q) guess0 names = Raised ValueError s' [].
Proof. eexists. vm_compute. reflexivity. Qed.

(** Declaring constants through the interface never makes a name occur twice. *)
Theorem C01_names_distinct : forall {F P} (s : strat F P) name T,
  NoDup (map v_name (s_vars s)) -> NoDup (map v_name (s_vars (set_const s name T))).
Proof. intros. apply set_var_NoDup. assumption. Qed.
Print Assumptions C01_names_distinct.

Example C01_names_ex :
  map v_name (s_vars (set_const (two_vars (new_manual 3 : strat Q nat)) "a" 4%Q)) = ["c"; "a"]%string.
Proof. reflexivity. Qed.

(** ** C02 *)
(** Refuted: with one case (the default of manual and product steps) a step
    returns normally having solved only the starting problem. *)
Theorem C02_default_case_count_refuted :
  forall s, In s [two_vars (new_manual 1); two_vars (new_bisection 1 10 2); two_vars (new_product 1)] ->
  exists s' lst calls, run_step QOps 10 good 0 s guess0 names = Finished s' lst calls /\
    length calls = 1%nat /\
    ~ exists c, In c calls /\ at_targets names (targets (s_vars s)) (t_const guess0) (t_const (snd c)).
Proof.
  intros s [<-|[<-|[<-|[]]]]; (eexists _, _, _; split; [vm_compute; reflexivity|]; split; [reflexivity|];
    intros (c & [<-|[]] & _ & H); specialize (H 0%nat "a"%string eq_refl); vm_compute in H; discriminate).
Qed.
Print Assumptions C02_default_case_count_refuted.

(** From two cases on, every normal return of the three strategies has reached
    the targets (manual: C01, bisection: C05; here product). *)
Theorem C02_at_least_two : forall {P} (slv : solver R P) fuel k s guess cn n s' lst calls,
  keeps_const slv -> well_named cn (t_const guess) -> NoDup (map v_name (s_vars s)) -> 2 <= n ->
  (s_kind s = Manual /\ s_spacing s = Linear /\ s_num s = Some n \/
   s_kind s = Bisection /\ s_spacing s = Linear /\ s_num s = Some n /\ 1 <= s_ndiv s \/
   s_kind s = Product /\ Forall (fun v => v_steps v = []) (s_vars s) /\ s_nsub s = n) ->
  run_step ROps fuel slv k s guess cn = Finished s' lst calls ->
  at_targets cn (targets (s_vars s)) (t_const guess) (t_const lst).
Proof.
  intros P slv fuel k s guess cn n s' lst calls H1 H2 H3 H4 [(A & B & C)|[(A & B & C & D)|(A & B & C)]] H5.
  - exact (proj2 (proj2 (manual_targets ROps _ _ _ _ _ _ _ _ _ _ H1 H2 H3 A B C H4 H5))).
  - exact (proj2 (proj2 (bisection_targets ROps _ _ _ _ _ _ _ _ _ _ H1 H2 H3 A B C H4 D H5))).
  - exact (proj2 (product_ends _ _ _ _ _ _ _ _ _ _ H1 H2 H3 A B C H4 H5)).
Qed.
Print Assumptions C02_at_least_two.

Lemma runs_R s : (s_kind s = Product /\ 1 <= s_nsub s \/ s_kind s = Sparse) ->
  Forall (fun v => v_steps v = []) (s_vars s) ->
  (exists s1 u, init ROps (reset s) guessR names = (s1, Ok u)) ->
  exists fuel s' lst calls, run_step ROps fuel goodR 0 s guessR names = Finished s' lst calls.
Proof.
  intros Hk Hf (s1 & u & Hi).
  destruct (points_live ROps goodR 0 s s1 guessR names u goodR_good namesR_ok Hk Hf Hi) as [n Hn].
  destruct (Hn (S (Z.to_nat n)) ltac:(lia)) as (s' & lst & calls & H & _). eauto 6.
Qed.

Example C02_ex : exists fuel s' lst calls,
  run_step ROps fuel goodR 0 (varsR (new_product 2)) guessR names = Finished s' lst calls.
Proof.
  apply runs_R; [left; split; [reflexivity|simpl; lia]|repeat constructor|].
  eexists _, _. unfold init. simpl. unfold init_product. reflexivity.
Qed.

(** ** C03 *)
Theorem C03_manual_stops : forall {F P} (O : NumOps F) (slv : solver F P) fuel k s guess cn o,
  s_kind s = Manual -> run_step O fuel slv k s guess cn = o ->
  (forall i c, nth_error (log_of o) i = Some c -> ~ converged (snd c) ->
     length (log_of o) = S i /\ exists s', o = Raised RuntimeError s' (log_of o)) /\
  (forall s' lst calls n, o = Finished s' lst calls -> s_num s = Some n ->
     Forall converged (map snd calls) /\ Z.of_nat (length calls) = Z.max 0 n).
Proof. intros F P O. exact (manual_stops O). Qed.
Print Assumptions C03_manual_stops.

(** The failing case is the second of three, and the last of three. *)
Example C03_ex1 : exists s' calls,
  run_step QOps 10 (fails_at [1%nat] FFalse) 0 (two_vars (new_manual 3)) guess0 names = Raised RuntimeError s' calls /\
  length calls = 2%nat.
Proof. eexists _, _. vm_compute. repeat split. Qed.
Example C03_ex2 : exists s' calls,
  run_step QOps 10 (fails_at [2%nat] FFalsy) 0 (two_vars (new_manual 3)) guess0 names = Raised RuntimeError s' calls /\
  length calls = 3%nat.
Proof. eexists _, _. vm_compute. repeat split. Qed.

(** A manual step makes at most num_cases calls. *)
Theorem C03_manual_terminates : forall {F P} (O : NumOps F) (slv : solver F P) fuel k s guess cn n,
  s_kind s = Manual -> s_num s = Some n -> (Z.to_nat n < fuel)%nat ->
  run_step O fuel slv k s guess cn <> OutOfFuel.
Proof. intros F P O. exact (manual_terminates O). Qed.
Print Assumptions C03_manual_terminates.

(** ** C04 *)
Theorem C04_warm_start : forall {P} (slv : solver R P) fuel k s guess cn,
  let log := log_of (run_step ROps fuel slv k s guess cn) in
  real_flags log -> close_enough log -> warm_started guess log.
Proof. intros P. exact warm_start. Qed.
Print Assumptions C04_warm_start.

Example C04_ex : exists s' lst calls,
  let o := run_step ROps 10 goodR 0 (varsR (new_manual 2)) guessR names in
  o = Finished s' lst calls /\ length calls = 2%nat /\ real_flags (log_of o) /\ close_enough (log_of o).
Proof.
  destruct (all_converge ROps goodR 10 0 (varsR (new_manual 2)) guessR names 2) as (s' & lst & calls & H & Hlen & _);
    try reflexivity; try lia; [exact goodR_good|exact namesR_ok|left; reflexivity|discriminate| |].
  { repeat (apply Forall_cons || apply Forall_nil); simpl; auto. }
  exists s', lst, calls. cbv zeta. rewrite H.
  assert (Hans : forall c, In c calls -> t_conv (snd c) = FTrue).
  { intros [g sol] Hc. apply In_nth_error in Hc. destruct Hc as [i Hi].
    pose proof (run_step_answers ROps goodR 10 0 (varsR (new_manual 2)) guessR names i g sol) as HA.
    rewrite H in HA. specialize (HA Hi). injection HA as <-. reflexivity. }
  assert (Hc : forall c, In c calls -> exists x y, t_const (fst c) = [x; 5; y]%R /\ t_const (snd c) = [x; 5; y]%R /\
                 (0 <= x <= 1)%R /\ (7 <= y <= 9)%R).
  { intros [g sol] Hin. apply In_nth_error in Hin. destruct Hin as [i Hi].
    assert (Hi2 : (i < 2)%nat) by (assert (i < length calls)%nat by (apply nth_error_Some; congruence); lia).
    assert (HR : (0 <= INR i <= 1)%R).
    { split; [apply pos_INR|]. change 1%R with (INR 1). apply le_INR. lia. }
    destruct (manual_grid goodR 10 0 (varsR (new_manual 2)) guessR names 2 s' lst calls
                goodR_keeps namesR_ok vars_nodup eq_refl eq_refl eq_refl ltac:(lia) H i g sol Hi) as [Hg [Hl Hv]].
    pose proof (Hv 0%nat _ eq_refl) as H0. pose proof (Hv 1%nat _ eq_refl) as H1. pose proof (Hv 2%nat _ eq_refl) as H2.
    cbn [fst snd]. rewrite Hg. destruct (t_const sol) as [|x [|z [|y [|w l]]]]; try discriminate.
    cbn in H0, H1, H2. injection H0 as H0. injection H1 as H1. injection H2 as H2.
    exists x, y. rewrite H1. split; [reflexivity|]. split; [reflexivity|]. rewrite H0, H2. split; lra. }
  split; [reflexivity|]. split; [lia|]. split.
  - intros c Hin. rewrite (Hans c Hin). discriminate.
  - intros c d Hin1 Hin2. cbn [log_of] in *. destruct (Hc c Hin1) as (x & y & _ & -> & Hx & Hy).
    destruct (Hc d Hin2) as (x' & y' & -> & _ & Hx' & Hy'). cbn [dist].
    apply Rle_lt_trans with (IZR 10); [|apply IZR_lt; reflexivity].
    pose proof (Rabs_le (x' - x) 1 ltac:(lra)). pose proof (Rabs_le (5 - 5) 0 ltac:(lra)).
    pose proof (Rabs_le (y' - y) 2 ltac:(lra)). lra.
Qed.

(** Without the hypothesis on the flags: a solver that reports failure with a
    falsy object other than False (numpy.False_, as scipy's SLSQP does) makes the
    next case start from the data of a failed solve, although converged ones
    exist. *)
Theorem C04_warm_start_numpy_flag_refuted :
  exists (slv : solver Q nat) s s' lst calls g sol,
    keeps_const slv /\
    run_step QOps 20 slv 0 s guess0 names = Finished s' lst calls /\
    nth_error calls 3 = Some (g, sol) /\
    (exists c, In c (firstn 3 calls) /\ converged (snd c)) /\
    forall c, In c calls -> t_body (snd c) = t_body g -> ~ converged (snd c).
Proof.
  exists (fails_at [1%nat] FFalsy), (two_vars (new_bisection 2 10 2)). eexists _, _, _, _, _.
  split; [apply fails_keeps|]. split; [vm_compute; reflexivity|]. split; [reflexivity|]. split.
  - eexists. split; [left; reflexivity|reflexivity].
  - intros c [<-|[<-|[<-|[<-|[]]]]]; vm_compute; discriminate.
Qed.
Print Assumptions C04_warm_start_numpy_flag_refuted.

(** ** C05 *)
Theorem C05_bisection_targets : forall {F P} (O : NumOps F) (slv : solver F P) fuel k s guess cn n s' lst calls,
  keeps_const slv -> well_named cn (t_const guess) -> NoDup (map v_name (s_vars s)) ->
  s_kind s = Bisection -> s_spacing s = Linear -> s_num s = Some n -> 2 <= n -> 1 <= s_ndiv s ->
  run_step O fuel slv k s guess cn = Finished s' lst calls ->
  converged lst /\ In lst (map snd calls) /\
  at_targets cn (targets (s_vars s)) (t_const guess) (t_const lst).
Proof. intros F P O. exact (bisection_targets O). Qed.
Print Assumptions C05_bisection_targets.

Theorem C05_bisection_schedule : forall {P} (slv : solver R P) fuel k s guess cn n s' lst calls,
  keeps_const slv -> well_named cn (t_const guess) -> NoDup (map v_name (s_vars s)) ->
  s_kind s = Bisection -> s_spacing s = Linear -> s_num s = Some n -> 2 <= n -> 1 <= s_ndiv s ->
  run_step ROps fuel slv k s guess cn = Finished s' lst calls ->
  exists grid : list (list R),
    length grid = Z.to_nat n /\
    (forall i c, nth_error grid i = Some c -> at_grid cn (targets (s_vars s)) n i (t_const guess) c) /\
    Subseq grid (map t_const (converged_sols calls)).
Proof. exact @bisection_grid. Qed.
Print Assumptions C05_bisection_schedule.

Theorem C05_bisection_monotone : forall {P} (slv : solver R P) fuel k s guess cn n s' lst calls,
  keeps_const slv -> well_named cn (t_const guess) -> NoDup (map v_name (s_vars s)) ->
  s_kind s = Bisection -> s_spacing s = Linear -> s_num s = Some n -> 2 <= n -> 1 <= s_ndiv s ->
  run_step ROps fuel slv k s guess cn = Finished s' lst calls ->
  forall i sol1 sol2, nth_error (converged_sols calls) i = Some sol1 ->
    nth_error (converged_sols calls) (S i) = Some sol2 ->
  forall j name x0 T a b, nth_error cn j = Some name -> nth_error (t_const guess) j = Some x0 ->
    assoc name (targets (s_vars s)) = Some T ->
    nth_error (t_const sol1) j = Some a -> nth_error (t_const sol2) j = Some b -> toward x0 T a b.
Proof. exact @bisection_monotone. Qed.
Print Assumptions C05_bisection_monotone.

(** Two failures at the last case of two: 1/2 and 1/4 are inserted. *)
Example C05_ex : exists s' lst calls,
  run_step QOps 20 (fails_at [1; 2]%nat FFalse) 0 (two_vars (new_bisection 2 10 2)) guess0 names = Finished s' lst calls /\
  map (fun t => t_const t) (converged_sols calls) = [[0; 5; 7]; [1#4; 5; 15#2]; [1#2; 5; 8]; [1; 5; 9]]%Q.
Proof. eexists _, _, _. vm_compute. repeat split. Qed.
Example C05_ex_R : exists s' lst calls,
  run_step ROps 10 goodR 0 (varsR (new_bisection 5 10 2)) guessR names = Finished s' lst calls.
Proof.
  destruct (all_converge ROps goodR 10 0 (varsR (new_bisection 5 10 2)) guessR names 5) as (s' & lst & calls & H & _);
    try reflexivity; try lia; [exact goodR_good|exact namesR_ok|right; reflexivity|discriminate| |eauto].
  repeat (apply Forall_cons || apply Forall_nil); simpl; auto.
Qed.

(** ** C06 *)
Theorem C06_bounded_failures : forall {F P} (O : NumOps F) (slv : solver F P) fuel k s guess cn n o,
  s_kind s = Bisection -> s_spacing s <> OtherSpacing -> s_num s = Some n -> 0 <= n -> 1 <= s_ndiv s ->
  run_step O fuel slv k s guess cn = o ->
  failures_at_most (Z.max 1 (s_maxdiv s + 2)) (log_of o) /\
  (forall s' calls, total_solver slv -> o = Raised RuntimeError s' calls ->
     (exists c, calls = [c] /\ ~ converged (snd c)) \/
     ends_with_failures (Z.max 1 (s_maxdiv s + 2)) calls).
Proof. intros F P O. exact (bisection_failures O). Qed.
Print Assumptions C06_bounded_failures.

Theorem C06_first_failure : forall {F P} (O : NumOps F) (slv : solver F P) fuel k s guess cn n o c rest,
  s_kind s = Bisection -> s_spacing s <> OtherSpacing -> s_num s = Some n -> 0 <= n -> 1 <= s_ndiv s ->
  run_step O fuel slv k s guess cn = o -> log_of o = c :: rest -> ~ converged (snd c) -> rest = [].
Proof. intros F P O. exact (bisection_first_failure O). Qed.
Print Assumptions C06_first_failure.

(** max_divisions = 1: three failing calls after the first converged one. *)
Example C06_ex : exists s' calls,
  run_step QOps 20 (fails_at [1; 2; 3; 4; 5]%nat FFalse) 0 (two_vars (new_bisection 2 1 2)) guess0 names
    = Raised RuntimeError s' calls /\ length calls = 4%nat.
Proof. eexists _, _. vm_compute. repeat split. Qed.
Example C06_ex2 : exists s' calls,
  run_step QOps 20 (fails_at [0]%nat FFalse) 0 (two_vars (new_bisection 2 1 2)) guess0 names
    = Raised RuntimeError s' calls /\ length calls = 1%nat.
Proof. eexists _, _. vm_compute. repeat split. Qed.

(** ** C07 *)
(** Refuted: with a solver that converges on every other call the step never
    ends (no fuel suffices), for any arithmetic and any start and target;
    max_divisions (here 10) bounds only consecutive failures. *)
Theorem C07_bisection_finishes_refuted : forall {F P} (O : NumOps F) (body : P) (x T : F),
  exists slv : solver F P, keeps_const slv /\ total_solver slv /\
  forall fuel, run_step O fuel slv 0 (set_const (new_bisection 2 10 2) "a" T) (mkTraj [x] FFalse body) ["a"%string]
    = OutOfFuel.
Proof.
  intros F P O body x T. exists (alternating body). split; [|split].
  - intros k g sol H. injection H as <-. reflexivity.
  - intros k g. eexists. reflexivity.
  - intros fuel. exact (zeno_never_ends O body x T fuel).
Qed.
Print Assumptions C07_bisection_finishes_refuted.

(** It ends when only finitely many calls fail. *)
Theorem C07_bisection_ends : forall {F P} (O : NumOps F) (slv : solver F P) fuel k s guess cn n K,
  s_kind s = Bisection -> s_spacing s <> OtherSpacing -> s_num s = Some n -> 0 <= n -> 1 <= s_ndiv s ->
  (forall k g sol, (K <= k)%nat -> slv k g = Ok sol -> converged sol) ->
  n + s_ndiv s * Z.of_nat K < Z.of_nat fuel ->
  run_step O fuel slv k s guess cn <> OutOfFuel.
Proof. intros F P O. exact (bisection_ends O). Qed.
Print Assumptions C07_bisection_ends.

Example C07_ex : forall k g sol, (3 <= k)%nat -> fails_at [1; 2]%nat FFalse k g = Ok sol -> converged sol.
Proof.
  intros k g sol Hk H. unfold fails_at, ans in H. injection H as <-. destruct k as [|[|[|k]]]; try lia. reflexivity.
Qed.

(** ** C08 *)
Theorem C08_manual_rerun : forall {F P} (O : NumOps F) slv1 fuel1 k1 guess1 cn1 (s s1 : strat F P) slv fuel k guess cn,
  s_kind s = Manual -> s_spacing s <> OtherSpacing ->
  state_after (run_step O fuel1 slv1 k1 s guess1 cn1) = Some s1 ->
  observe (run_step O fuel slv k s1 guess cn) = observe (run_step O fuel slv k s guess cn).
Proof. intros F P O. exact (manual_rerun O). Qed.
Print Assumptions C08_manual_rerun.

Example C08_ex : exists s1,
  state_after (run_step QOps 10 (fails_at [1%nat] FFalse) 0 (two_vars (new_manual 3)) guess0 names) = Some s1 /\
  s_ctr s1 = 2%nat.
Proof. eexists. vm_compute. split; reflexivity. Qed.

(** Refuted for bisection: after a run with one failure the object schedules
    one case more, at other values. *)
Theorem C08_bisection_rerun_refuted :
  exists s s1 : strat Q nat, s = two_vars (new_bisection 2 10 2) /\
    state_after (run_step QOps 20 (fails_at [1%nat] FFalse) 0 s guess0 names) = Some s1 /\
    consts (run_step QOps 20 good 0 s guess0 names) = [[0; 5; 7]; [1; 5; 9]]%Q /\
    consts (run_step QOps 20 good 0 s1 guess0 names) = [[0; 5; 7]; [1#2; 5; 8]; [1; 5; 9]]%Q.
Proof.
  eexists _, _. split; [reflexivity|]. split; [vm_compute; reflexivity|]. split; vm_compute; reflexivity.
Qed.
Print Assumptions C08_bisection_rerun_refuted.

(** Refuted for product: the second run walks the grid of the first one, so
    started elsewhere it does not begin at its start. *)
Theorem C08_product_rerun_refuted :
  exists (s s1 : strat Q nat) guess, s = two_vars (new_product 2) /\
    state_after (run_step QOps 20 good 0 s guess0 names) = Some s1 /\
    consts (run_step QOps 20 good 0 s guess names) = [[4; 5; 3]; [1; 5; 3]; [4; 5; 9]; [1; 5; 9]]%Q /\
    consts (run_step QOps 20 good 0 s1 guess names) = [[0; 5; 7]; [1; 5; 7]; [0; 5; 9]; [1; 5; 9]]%Q.
Proof.
  eexists _, _, (mkTraj [4; 5; 3]%Q FFalse 999%nat). split; [reflexivity|]. split; [vm_compute; reflexivity|].
  split; vm_compute; reflexivity.
Qed.
Print Assumptions C08_product_rerun_refuted.

(** ** C09 *)
Theorem C09_product_grid : forall {P} (slv : solver R P) fuel k s guess cn n s' lst calls,
  keeps_const slv -> well_named cn (t_const guess) -> NoDup (map v_name (s_vars s)) ->
  s_kind s = Product -> Forall (fun v => v_steps v = []) (s_vars s) -> s_nsub s = n -> 1 <= n ->
  run_step ROps fuel slv k s guess cn = Finished s' lst calls ->
  let v := length (s_vars s) in
  Z.of_nat (length calls) = n ^ Z.of_nat v /\
  lst = last (map snd calls) guess /\
  (forall i g sol, nth_error calls i = Some (g, sol) -> t_const g = t_const sol /\
     at_point cn (targets (s_vars s)) (repeat n v) (digits (Z.to_nat n) v i) (t_const guess) (t_const sol)).
Proof. exact @product_grid. Qed.
Print Assumptions C09_product_grid.

(** Every index vector of the grid belongs to exactly one case number. *)
Theorem C09_every_point_once : forall n v, (0 < n)%nat ->
  (forall ds, length ds = v -> Forall (fun d => (d < n)%nat) ds ->
     exists i, (i < n ^ v)%nat /\ digits n v i = ds) /\
  (forall i j, (i < n ^ v)%nat -> (j < n ^ v)%nat -> digits n v i = digits n v j -> i = j).
Proof.
  intros n v Hn. split.
  - intros ds <- Hd. destruct (digits_exist n ds Hn Hd) as (i & H1 & H2). exists i. split; assumption.
  - intros i j. apply digits_inj. exact Hn.
Qed.
Print Assumptions C09_every_point_once.

Theorem C09_product_ends : forall {P} (slv : solver R P) fuel k s guess cn n s' lst calls,
  keeps_const slv -> well_named cn (t_const guess) -> NoDup (map v_name (s_vars s)) ->
  s_kind s = Product -> Forall (fun v => v_steps v = []) (s_vars s) -> s_nsub s = n -> 2 <= n ->
  run_step ROps fuel slv k s guess cn = Finished s' lst calls ->
  (exists g sol, nth_error calls 0 = Some (g, sol) /\ t_const sol = t_const guess) /\
  at_targets cn (targets (s_vars s)) (t_const guess) (t_const lst).
Proof. exact @product_ends. Qed.
Print Assumptions C09_product_ends.

Theorem C09_product_terminates : forall {F P} (O : NumOps F) (slv : solver F P) fuel k s guess cn n,
  keeps_const slv -> NoDup cn -> NoDup (map v_name (s_vars s)) ->
  s_kind s = Product -> s_nsub s = n ->
  (Z.to_nat (n ^ Z.of_nat (length (s_vars s))) < fuel)%nat ->
  run_step O fuel slv k s guess cn <> OutOfFuel.
Proof. intros F P O. exact (product_finishes O). Qed.
Print Assumptions C09_product_terminates.

Example C09_ex : consts (run_step QOps 20 good 0 (two_vars (new_product 3)) guess0 names) =
  [[0; 5; 7]; [1#2; 5; 7]; [1; 5; 7]; [0; 5; 8]; [1#2; 5; 8]; [1; 5; 8]; [0; 5; 9]; [1#2; 5; 9]; [1; 5; 9]]%Q.
Proof. vm_compute. reflexivity. Qed.
Example C09_ex_R : exists fuel s' lst calls,
  run_step ROps fuel goodR 0 (varsR (new_product 3)) guessR names = Finished s' lst calls.
Proof.
  apply runs_R; [left; split; [reflexivity|simpl; lia]|repeat constructor|].
  eexists _, _. unfold init. simpl. unfold init_product. reflexivity.
Qed.

(** ** C10 *)
Theorem C10_sparse : forall {P} (slv : solver R P) fuel k s guess cn M m s' lst calls,
  keeps_const slv -> well_named cn (t_const guess) -> NoDup (map v_name (s_vars s)) ->
  s_kind s = Sparse -> Forall (fun v => v_steps v = []) (s_vars s) -> s_sub s = (M, m) ->
  length M = length (s_vars s) -> length m = length (s_vars s) ->
  Forall (fun x => 1 <= x) M -> Forall (fun x => 0 <= x) m ->
  run_step ROps fuel slv k s guess cn = Finished s' lst calls ->
  Z.of_nat (length calls) = 1 + sparse_count 1 M m /\
  (exists g sol, nth_error calls 0 = Some (g, sol) /\ t_const sol = t_const guess) /\
  (forall i g sol, nth_error calls (S i) = Some (g, sol) ->
     exists i' g' sol', (i' <= i)%nat /\ nth_error calls i' = Some (g', sol') /\
       differ_in_one (t_const sol') (t_const sol)) /\
  (forall ds, length ds = length (s_vars s) ->
     (forall k d mj, nth_error ds k = Some d -> nth_error M k = Some mj -> Z.of_nat d < mj) ->
     exists i g sol, nth_error calls i = Some (g, sol) /\
       at_point cn (targets (s_vars s)) M ds (t_const guess) (t_const sol)).
Proof. exact @sparse_run. Qed.
Print Assumptions C10_sparse.

Example C10_ex : consts (run_step QOps 20 good 0 (two_vars (new_sparse ([2; 2], [1; 0]))) guess0 names) =
  [[0; 5; 7]; [0; 5; 8]; [0; 5; 9]; [1; 5; 7]; [1; 5; 9]]%Q.
Proof. vm_compute. reflexivity. Qed.
Example C10_ex_R : exists fuel s' lst calls,
  run_step ROps fuel goodR 0 (varsR (new_sparse ([2; 2], [1; 0]))) guessR names = Finished s' lst calls.
Proof.
  apply runs_R; [right; reflexivity|repeat constructor|].
  eexists _, _. unfold init. simpl. unfold init_sparse. reflexivity.
Qed.

(** ** C11 *)
Theorem C11_chained : forall {F P} (O : NumOps F) (slv : solver F P) fuel ss guess cn out,
  run_set O fuel slv (Some ss) guess cn = SetDone out ->
  exists groups, out = map (map snd) groups /\ length groups = length ss /\ chained slv 0 guess groups.
Proof. intros F P O slv fuel ss guess cn out H. apply (steps_chained O slv fuel cn ss 0 guess [] out H). Qed.
Print Assumptions C11_chained.

Example C11_ex : exists out,
  run_set QOps 20 (fails_at [4%nat] FFalse) (Some [two_vars (new_manual 3);
     set_const (new_bisection 2 10 2) "b" 6%Q]) guess0 names = SetDone out /\
  map (map t_body) out = [[0; 1; 2]; [3; 4; 5; 6]]%nat.
Proof. eexists. vm_compute. split; reflexivity. Qed.

(** ** C12 *)
(** Refuted: the last case failed and the step returned normally. *)
Theorem C12_product_all_converged_refuted :
  exists (slv : solver Q nat) s s' lst calls, keeps_const slv /\ s = two_vars (new_product 2) /\
    run_step QOps 20 slv 0 s guess0 names = Finished s' lst calls /\
    at_targets names (targets (s_vars s)) (t_const guess0) (t_const lst) /\ ~ converged lst.
Proof.
  exists (fails_at [3%nat] FFalse). eexists _, _, _, _. split; [apply fails_keeps|]. split; [reflexivity|].
  split; [vm_compute; reflexivity|]. split; [|vm_compute; discriminate].
  split; [reflexivity|]. intros [|[|[|j]]] name H; vm_compute in H; try (injection H as <-; vm_compute; reflexivity).
  destruct j; discriminate.
Qed.
Print Assumptions C12_product_all_converged_refuted.

(** What a product step does guarantee: it raises only when its first case
    fails. *)
Theorem C12_product_only_first : forall {F P} (O : NumOps F) (slv : solver F P) fuel k s guess cn n e s' calls,
  keeps_const slv -> total_solver slv -> well_named cn (t_const guess) -> NoDup (map v_name (s_vars s)) ->
  s_kind s = Product -> Forall (fun v => v_steps v = []) (s_vars s) -> s_nsub s = n -> 1 <= n ->
  Forall (fun v => In (v_name v) cn) (s_vars s) ->
  run_step O fuel slv k s guess cn = Raised e s' calls ->
  e = RuntimeError /\ exists c, calls = [c] /\ ~ converged (snd c).
Proof. intros F P O. exact (product_only_first O). Qed.
Print Assumptions C12_product_only_first.

Example C12_ex : exists s' calls,
  run_step QOps 20 (fails_at [0%nat] FFalse) 0 (two_vars (new_product 2)) guess0 names = Raised RuntimeError s' calls.
Proof. eexists _, _. vm_compute. reflexivity. Qed.

(** ** C13 *)
Theorem C13_add_step_known : forall {S} (mk : kind -> S) l name kd,
  known_strategy name kd -> add_step mk l (Named name) = (l ++ [mk kd], Ok (mk kd)).
Proof. exact @add_step_known. Qed.
Print Assumptions C13_add_step_known.

Theorem C13_add_step_unknown : forall {S} (mk : kind -> S) l name,
  (forall kd, ~ known_strategy name kd) -> add_step mk l (Named name) = (l, Raise ValueError).
Proof. exact @add_step_unknown. Qed.
Print Assumptions C13_add_step_unknown.

Theorem C13_add_step_sequence : forall {S} (mk : kind -> S) args l l' rs,
  add_all mk l args = (l', rs) ->
  l' = l ++ flat_map (fun r => match r with Ok s => [s] | Raise _ => [] end) rs.
Proof. intros S mk args l l' rs H. rewrite add_step_run in H. congruence. Qed.
Print Assumptions C13_add_step_sequence.

Example C13_ex : add_all (fun k => k) [] [Named "manual"; Named "guess"; Object Sparse; Named "bisection"]%string
  = ([Manual; Sparse; Bisection], [Ok Manual; Raise ValueError; Ok Sparse; Ok Bisection]).
Proof. reflexivity. Qed.

(** ** C61 *)
Theorem C61_all_converge : forall {F P} (O : NumOps F) (slv : solver F P) fuel k s guess cn n,
  good_solver slv -> well_named cn (t_const guess) ->
  s_kind s = Manual \/ s_kind s = Bisection -> s_spacing s <> OtherSpacing -> s_num s = Some n -> 0 <= n ->
  Forall (fun v => In (v_name v) cn) (s_vars s) -> (Z.to_nat n < fuel)%nat ->
  exists s' lst calls, run_step O fuel slv k s guess cn = Finished s' lst calls /\
    Z.of_nat (length calls) = n /\ Forall converged (map snd calls).
Proof. intros F P O. exact (all_converge O). Qed.
Print Assumptions C61_all_converge.

Example C61_ex : Forall (fun v => In (v_name v) names) (s_vars (two_vars (new_manual 3 : strat Q nat))).
Proof. repeat (apply Forall_cons || apply Forall_nil); simpl; auto. Qed.

(** ** C63 *)
Theorem C63_last_declaration_wins : forall {F P} (s : strat F P) cs,
  s_vars s = [] ->
  map v_name (s_vars (declare s cs)) = first_seen (map fst cs) /\
  (forall v, In v (s_vars (declare s cs)) ->
     find (fun c => String.eqb (fst c) (v_name v)) (rev cs) = Some (v_name v, v_target v) /\
     v_steps v = [] /\ v_value v = None).
Proof. intros F P. exact declare_vars. Qed.
Print Assumptions C63_last_declaration_wins.

Example C63_ex : map (fun v => (v_name v, v_target v))
    (s_vars (declare (new_manual 3 : strat Q nat) [("c"%string, 9%Q); ("a"%string, 1%Q); ("c"%string, 4%Q)])) =
  [("c"%string, 4%Q); ("a"%string, 1%Q)].
Proof. reflexivity. Qed.

Theorem C63_num_cases_locked_while_running : forall {F P} (O : NumOps F) (s s' : strat F P) g num sp,
  next O s = (s', Ok g) -> set_num_cases s' num sp = (s', Raise RuntimeError).
Proof. intros F P. exact num_cases_locked. Qed.
Print Assumptions C63_num_cases_locked_while_running.

Theorem C63_num_cases_after_reset : forall {F P} (s : strat F P) num sp,
  exists s', set_num_cases (reset s) num sp = (s', Ok tt) /\ s_num s' = Some num /\ s_spacing s' = sp /\
    s_vars s' = s_vars s.
Proof. intros F P. exact num_cases_unlocked. Qed.
Print Assumptions C63_num_cases_after_reset.

Example C63_ex_locked : exists s1 s' g,
  init QOps (two_vars (new_manual 3)) guess0 names = (s1, Ok tt) /\ next QOps s1 = (s', Ok g) /\
  set_num_cases s' 7 Log = (s', Raise RuntimeError).
Proof. do 3 eexists. split; [vm_compute; reflexivity|]. split; vm_compute; reflexivity. Qed.
