(** Property C80: trajectories of the full and the reduced problem. *)
From Coq Require Import Reals Lra Ascii.
From Coquelicot Require Import Coquelicot.
From Verif Require Import Base Base_Facts Sym_Expr Sym_Facts Sym_Model Sym_Lu Sym_Dual Map_Model Red_Model Red_Facts Red_Oracle Red_Noether Red_Step Red_Reduce Red_Chain Red_Ocp Red_Lu Reduction_Properties RedMap_Model RedMap_Facts.
Open Scope string_scope.
Open Scope list_scope.
Open Scope nat_scope.

(** The trajectory of a curve: its values at the times [ts], in the columns of
    the problem; parameters and constants are those at [a]. *)
Definition trajectory (p : prob) (cv : R -> string -> R) (a : R) (ts : list R) (s0 : sol R) : sol R :=
  mkSol ts (s_dual_t s0) (table (syms (p_states p)) cv ts) (table (syms (p_costates p)) cv ts) (table (syms (p_quads p)) cv ts)
    (s_u s0) (s_dual_u s0) (map (cv a) (p_params p)) (s_nu s0) (map (cv a) (p_consts p)) (s_cost s0).

Lemma index_of_none x l : ~ In x l -> index_of x l = None.
Proof. induction l as [|y l IH]; intros N; [reflexivity|]. cbn. destruct (String.eqb_spec x y) as [ ->|]; [exfalso; apply N; now left|]. rewrite IH; [reflexivity|]. intros I. apply N. now right. Qed.
Lemma run_pass_app (F : Type) app (ms1 ms2 : list (mapper F)) : forall s, run_pass app (ms1 ++ ms2) s =
  (r <- run_pass app ms1 s ; r' <- run_pass app ms2 (snd r) ; Ok (fst r ++ fst r', snd r')).
Proof.
  induction ms1 as [|m ms1 IH]; intros s; cbn [run_pass List.app bind].
  - cbn [fst snd List.app]. destruct (run_pass app ms2 s) as [[? ?]|]; reflexivity.
  - destruct (step_pass app m s) as [r|]; cbn [bind]; [|reflexivity]. rewrite IH. destruct (run_pass app ms1 (snd r)) as [r'|]; cbn [bind]; [|reflexivity].
    destruct (run_pass app ms2 _) as [r''|]; cbn [bind fst snd List.app]; reflexivity.
Qed.
Lemma in_used p y : In y (syms (p_states p) ++ syms (p_costates p) ++ syms (p_quads p) ++ p_params p ++ p_consts p) -> In y (used p).
Proof.
  assert (D : forall l y, In y (syms l) -> In y (dyn_used l)).
  { intros l z I. unfold syms in I. apply in_map_iff in I. destruct I as ([n e] & <- & I). apply (proj1 (used_dyn _ _ _ I)). }
  rewrite !in_app_iff. unfold used, fixed_names. rewrite !dyn_used_app, !in_app_iff. intros [I|[I|[I|[I|I]]]]; try apply D in I; tauto.
Qed.

Lemma chain_maps integ solve lu ctl fn : int_const integ -> solve_var solve -> forall L r, reducible L r ->
  exists r' ms, reduce_mappers integ solve fn (length L) r = Some (r', ms) /\ run_rtfs lu ctl integ solve (repeat RMF (length L)) r = Ok r' /\
    forall cv a ts s0, ts <> [] ->
      (forall i c x l, nth_error L i = Some (c, x, l) -> forall t, In t ts -> cv t l = cv a c /\ cv t x = cv t (qn (length (p_quads (r_p r)) + i))) ->
      run_pass (apply_map ROps) ms (mkPass (trajectory (r_p r) cv a ts s0) (trajectory (r_p r) cv a ts s0) true)
        = Ok (ms, mkPass (trajectory (r_p r') cv a ts s0) (trajectory (r_p r') cv a ts s0) true) /\
      run_pass (apply_inv ROps) (rev ms) (mkPass (trajectory (r_p r') cv a ts s0) (trajectory (r_p r') cv a ts s0) true)
        = Ok (rev ms, mkPass (trajectory (r_p r) cv a ts s0) (trajectory (r_p r) cv a ts s0) true).
Proof.
  intros INT SOL L. induction L as [|[[c x] l] L IH]; intros r H.
  - exists r, []. split; [reflexivity|]. split; [reflexivity|]. intros cv a ts s0 _ _. split; reflexivity.
  - destruct (reducible_step integ solve INT SOL c x l L r H) as (k & ex & el & r1 & ST & EP & HX & HL & _ & _ & _ & RD & H1).
    destruct (IH r1 H1) as (r' & ms & RM & RUN & MAP).
    set (p := r_p r) in *. set (q := qn (length (p_quads p))) in *.
    assert (NX : nth_error (syms (p_states p)) k = Some x) by (unfold syms; now rewrite nth_error_map, HX).
    assert (NL : nth_error (syms (p_costates p)) k = Some l) by (unfold syms; now rewrite nth_error_map, HL).
    assert (ND := rc_nodup _ _ H). fold p in ND. unfold syms in ND. rewrite map_app in ND. apply NoDup_app_disj in ND. destruct ND as (D1 & D2 & D3).
    change (NoDup (syms (p_states p))) in D1. change (NoDup (syms (p_costates p))) in D2.
    assert (FL : ~ In l (syms (p_states p))) by (intros I; apply (D3 l I); apply (nth_error_In _ _ NL)).
    assert (ES : syms (p_states (r_p r1)) = remove_at k (syms (p_states p))) by (rewrite EP; cbn; rewrite syms_map; unfold syms; now rewrite remove_at_map).
    assert (EL : syms (p_costates (r_p r1)) = remove_at k (syms (p_costates p))) by (rewrite EP; cbn; rewrite syms_map; unfold syms; now rewrite remove_at_map).
    assert (EQ : syms (p_quads (r_p r1)) = syms (p_quads p) ++ [q]) by (rewrite EP; cbn; unfold syms; now rewrite map_app).
    assert (EPa : p_params (r_p r1) = p_params p ++ [c]) by (now rewrite EP).
    assert (EK : p_consts (r_p r1) = p_consts p) by (now rewrite EP).
    assert (LQ : length (p_quads (r_p r1)) = S (length (p_quads p))) by (rewrite EP; cbn; rewrite app_length; cbn; lia).
    assert (FC : ~ In c (syms (p_states p) ++ syms (p_costates p) ++ syms (p_quads p) ++ p_params p ++ p_consts p)).
    { intros I. apply in_used in I. exact (proj1 (rc_fresh_c _ _ H c x l (or_introl eq_refl)) I). }
    assert (FQ : ~ In q (syms (p_states p) ++ syms (p_costates p) ++ syms (p_quads p) ++ p_params p ++ p_consts p)).
    { intros I. apply in_used in I. revert I. apply (rc_fresh_q _ _ H). fold p. lia. }
    set (m := MMF (mkPlace false k) (mkPlace true k)
      (lambda4 fn (syms (p_states p)) (syms (p_costates p)) (p_params p) (p_consts p) (Var l))
      (lambda4 fn (syms (p_states p)) (syms (p_costates p)) (p_params p ++ [c]) (p_consts p) (Var x))
      (lambda4 fn (remove_at k (syms (p_states p))) (remove_at k (syms (p_costates p))) (p_params p ++ [c]) (p_consts p) (Var c))
      (lambda5 fn (remove_at k (syms (p_states p))) (remove_at k (syms (p_costates p))) (syms (p_quads p) ++ [q]) (p_params p ++ [c]) (p_consts p) (Var q))).
    assert (SM : step_mapper fn r r1 = Some [m]).
    { unfold step_mapper. rewrite RD, skipn_app, skipn_all, Nat.sub_diag. cbn [skipn app]. unfold mf_mapper. fold p. cbn [rd_p rd_q rd_com_expr rd_q_fwd rd_p_expr rd_q_expr].
      unfold place_of at 1. rewrite (index_of_none l _ FL), (index_of_nth l _ k D2 NL). unfold without. cbn [loc_states loc_idx fst snd].
      unfold place_of. rewrite (index_of_nth x _ k D1 NX), ES, EL, EQ, EPa, EK. reflexivity. }
    exists r', (m :: ms). cbn [length reduce_mappers repeat run_rtfs apply_rtf]. rewrite ST, SM, RM. cbn [bind List.app].
    split; [reflexivity|]. split; [exact RUN|]. intros cv a ts s0 NE V.
    assert (V0 : forall t, In t ts -> cv t l = cv a c /\ cv t x = cv t q).
    { intros t I. destruct (V 0 c x l eq_refl t I) as [A B]. rewrite Nat.add_0_r in B. auto. }
    destruct (MAP cv a ts s0 NE) as [M1 M2].
    { intros i c' x' l' E t I. rewrite LQ. replace (S (length (p_quads p)) + i) with (length (p_quads p) + S i) by lia. now apply (V (S i)). }
    assert (T0 : trajectory p cv a ts s0 = samples (syms (p_states p)) (syms (p_costates p)) (syms (p_quads p)) (p_params p) (p_consts p) cv a ts s0) by reflexivity.
    assert (T1 : trajectory (r_p r1) cv a ts s0 = samples (remove_at k (syms (p_states p))) (remove_at k (syms (p_costates p))) (syms (p_quads p) ++ [q]) (p_params p ++ [c]) (p_consts p) cv a ts s0).
    { unfold trajectory. rewrite ES, EL, EQ, EPa, EK. reflexivity. }
    assert (A1 : apply_map ROps m (trajectory p cv a ts s0) = Ok (m, trajectory (r_p r1) cv a ts s0)).
    { unfold m. cbn [apply_map]. rewrite T0. unfold with_mapper.
      rewrite (step_map fn _ _ (syms (p_quads p)) _ _ k c x l q); auto; try (intros t I; now apply V0). cbn [bind]. now rewrite T1. }
    assert (A2 : apply_inv ROps m (trajectory (r_p r1) cv a ts s0) = Ok (m, trajectory p cv a ts s0)).
    { unfold m. cbn [apply_inv]. rewrite T1. unfold with_mapper.
      rewrite (step_inv fn _ _ (syms (p_quads p)) _ _ k c x l q); auto; try (intros t I; now apply V0). }
    assert (CP : copies m = false) by reflexivity. clearbody m.
    split.
    + cbn [run_pass]. unfold step_pass at 1. cbn [cur same arg]. rewrite A1. cbn [bind fst snd]. rewrite CP. cbn [negb andb]. rewrite M1. reflexivity.
    + cbn [rev]. rewrite run_pass_app, M2. cbn [bind snd fst run_pass]. unfold step_pass. cbn [cur same arg]. rewrite A2. cbn [bind fst snd]. rewrite CP. reflexivity.
Qed.

(** C80.  The mappers of the reductions turn the trajectory of a solution of the
    full problem into the trajectory of the solution of the reduced problem that
    stands for it (C78), and back. *)
Theorem C80_trajectories : forall lu ctl integ solve,
  lu_ok lu -> lu_std lu -> lu_geo lu -> lu_vars lu -> int_const integ -> solve_var solve ->
  forall K o r, symmetric K r -> o_shift o = true -> lower (o_method o) = "diffyg" -> lower (o_control o) = "differential" ->
  p_switches (r_p r) = [] -> constraint_tfs (all_constraints (r_p r)) = Ok [] ->
  forall r1, run_rtfs lu ctl integ solve (before o) r = Ok r1 ->
  forall fn, exists r2 ms,
    run_rtfs lu ctl integ solve (repeat RMF (length K)) r1 = Ok r2 /\
    reduce_mappers integ solve fn (length K) r1 = Some (r2, ms) /\
    forall a b full red ts s0, (a <= b)%R -> ts <> [] -> (forall t, In t ts -> (a <= t <= b)%R) ->
      stand_for (moved K r) (length (p_quads (r_p r))) a b (used (r_p r2)) full red -> solves fn (r_p r2) a b red ->
      map_sol ROps ms (trajectory (r_p r1) full a ts s0) = Ok (ms, trajectory (r_p r2) red a ts s0, trajectory (r_p r2) red a ts s0) /\
      inv_map_sol ROps ms (trajectory (r_p r2) red a ts s0) = Ok (ms, trajectory (r_p r1) full a ts s0, trajectory (r_p r1) full a ts s0).
Proof.
  intros lu ctl integ solve LU LS LG LV INT SOL K o r SY HS HM HC SW CT r1 H1 fn.
  destruct (full_reducible lu ctl integ solve LU LS LG LV INT K o r r1 SY HM H1) as [RED QQ].
  set (xs := moved K r) in *. assert (LX : length xs = length K) by (unfold xs, moved; apply map_length).
  destruct (chain_maps integ solve lu ctl fn INT SOL _ r1 RED) as (r2 & ms & RM & RUN & MAP).
  destruct (chain integ solve INT SOL lu ctl (triples 0 xs) r1 RED) as (r2' & RUN' & US & GO & PA & QU & _ & _ & _ & _).
  rewrite RUN in RUN'. apply Ok_inj in RUN'. subst r2'. rewrite triples_length, LX in RM, RUN, QU.
  exists r2, ms. split; [exact RUN|]. split; [exact RM|]. intros a b full red ts s0 AB NE IN [SF1 SF2] SV.
  set (w := fun t y => if in_dec string_dec y (used (r_p r2)) then red t y else full t y).
  set (nq := length (p_quads (r_p r))) in *.
  assert (NX : forall j x, nth_error xs j = Some x -> nth_error (triples 0 xs) j = Some (com j, x, lam x)) by (intros j x E; apply (triples_nth xs 0 j x E)).
  assert (CM : forall i, i < length xs -> In (com i) (p_params (r_p r2))).
  { intros i Hi. rewrite PA, in_app_iff. right. change (In (com i) (cs_t (triples 0 xs))). rewrite triples_com. apply in_map. apply in_seq. lia. }
  assert (W2 : forall t y, In y (used (r_p r2)) -> w t y = red t y) by (intros t y I; unfold w; destruct (in_dec _ _ _); [reflexivity|contradiction]).
  assert (W1 : forall t y, (a <= t <= b)%R -> In y (used (r_p r1)) -> w t y = full t y).
  { intros t y Ht I. unfold w. destruct (in_dec _ _ _) as [J|]; [|reflexivity]. symmetry. apply SF2; [exact J|]. intros i Hi. split; intros E; subst y.
    - destruct (nth_error_some xs i Hi) as (x & EX). apply NX in EX. apply nth_error_In in EX. exact (proj1 (rc_fresh_c _ _ RED _ _ _ EX) I).
    - apply (rc_fresh_q _ _ RED (nq + i)); [rewrite QQ; fold nq; lia|exact I]. }
  assert (TAB : forall names g h, (forall t y, (a <= t <= b)%R -> In y names -> g t y = h t y) -> table names g ts = table names h ts).
  { intros names g h E. unfold table. f_equal. apply map_ext_in. intros t I. apply map_ext_in. intros y J. apply E; auto. }
  assert (TR : forall p g h, (forall t y, (a <= t <= b)%R -> In y (used p) -> g t y = h t y) -> trajectory p g a ts s0 = trajectory p h a ts s0).
  { intros p g h E. assert (A : (a <= a <= b)%R) by lra. unfold trajectory. f_equal; try apply TAB; try (apply map_ext_in); intros; apply E; auto; apply in_used; rewrite !in_app_iff; tauto. }
  assert (E1 : trajectory (r_p r1) full a ts s0 = trajectory (r_p r1) w a ts s0) by (apply TR; intros; symmetry; auto).
  assert (E2 : trajectory (r_p r2) red a ts s0 = trajectory (r_p r2) w a ts s0) by (apply TR; intros; symmetry; auto).
  destruct (MAP w a ts s0 NE) as [M1 M2].
  { intros i c x l E t I.  assert (IT := nth_error_In _ _ E). destruct (GO _ _ _ IT) as [GX GL]. 
    assert (Hi : i < length xs) by (rewrite <- (triples_length xs 0); apply nth_error_Some; congruence).
    destruct (nth_error_some xs i Hi) as (x0 & EX). assert (EX' := NX _ _ EX). rewrite EX' in E. injection E as <- <- <-.
    destruct (SF1 i x0 t EX (IN t I)) as [A B]. rewrite QQ. fold nq.
    assert (QI : In (qn (nq + i)) (used (r_p r2))).
    { apply in_used. rewrite QU, !in_app_iff. right. right. left. right. rewrite QQ. apply in_map. apply in_seq. fold nq. lia. }
    assert (CI : In (com i) (used (r_p r2))) by (apply in_used; rewrite !in_app_iff; right; right; right; left; now apply CM).
    rewrite (W2 a (com i) CI), (W2 t (qn (nq + i)) QI). unfold w. destruct (in_dec _ _ _) as [J|_]; [contradiction|]. destruct (in_dec _ _ _) as [J|_]; [contradiction|].
    split; [|exact A]. rewrite B. apply (sv_fixed _ _ _ _ _ SV). unfold fixed_names. rewrite in_app_iff. left. now apply CM. }
  unfold map_sol, inv_map_sol. rewrite E1, E2, M1, M2. cbn [bind fst snd cur arg]. rewrite rev_involutive. split; reflexivity.
Qed.
Print Assumptions C80_trajectories.

(** Moving along a line: a solution of the full problem sampled at three times,
    its trajectory in the reduced problem, and back. *)
Definition blank : sol R := mkSol [] [] E1 E1 E1 E1 E1 [] [] [] 0%R.
Example C80_ex : exists r1 r2 ms s2,
  run_rtfs lu_geom (fun _ _ => []) integ_poly solve_lin (before ex_opt) line = Ok r1 /\
  reduce_mappers integ_poly solve_lin (fun _ _ z => z) 1 r1 = Some (r2, ms) /\ length ms = 1 /\
  let s1 := trajectory (r_p r1) line_curve 0 [0; 1/2; 1]%R blank in
  map_sol ROps ms s1 = Ok (ms, s2, s2) /\ inv_map_sol ROps ms s2 = Ok (ms, s1, s1) /\
  s_q s1 = Mat 0 [[]; []; []] /\ s_p s1 = [1]%R /\ s_q s2 = Mat 1 [[0]; [1/2]; [1]]%R /\ s_p s2 = [1; -2]%R.
Proof.
  assert (D : exists r1, run_rtfs lu_geom (fun _ _ => []) integ_poly solve_lin (before ex_opt) line = Ok r1) by (eexists; vm_compute; reflexivity).
  destruct D as (r1 & D). destruct (line_solved r1 D) as [SV WD].
  destruct (C78_reduction lu_geom (fun _ _ => []) integ_poly solve_lin lu_geom_ok lu_geom_std lu_geom_geo lu_geom_vars integ_poly_const solve_lin_var
              [0] ex_opt line line_symmetric eq_refl eq_refl eq_refl eq_refl eq_refl) as [_ H].
  destruct (H r1 D) as (r2 & E & PA & QU & _ & _ & _ & SO). cbn [length] in E.
  destruct (C80_trajectories lu_geom (fun _ _ => []) integ_poly solve_lin lu_geom_ok lu_geom_std lu_geom_geo lu_geom_vars integ_poly_const solve_lin_var
              [0] ex_opt line line_symmetric eq_refl eq_refl eq_refl eq_refl eq_refl r1 D (fun _ _ z => z)) as (r2' & ms & E' & RM & T).
  assert (r2' = r2).
  { assert (STEP : forall fs gs r0 r', run_rtfs lu_geom (fun _ _ => []) integ_poly solve_lin fs r0 = Ok r' ->
      run_rtfs lu_geom (fun _ _ => []) integ_poly solve_lin (fs ++ gs) r0 = run_rtfs lu_geom (fun _ _ => []) integ_poly solve_lin gs r').
    { induction fs as [|f fs IH]; intros gs r0 r' G; cbn [run_rtfs app] in *; [now apply Ok_inj in G; subst|].
      destruct (apply_rtf _ _ _ _ f r0) as [r''|]; cbn [bind] in *; [|discriminate]. now apply IH. }
    rewrite (STEP _ _ _ _ D) in E. cbn [length] in E'. rewrite E' in E. now apply Ok_inj in E. }
  subst r2'. destruct (SO (fun _ _ z => z) 0%R 1%R ltac:(lra)) as [S1 _].
  destruct (S1 line_curve SV) as (red & SF & SR); [intros x e t I J _; now apply (WD x)|].
  destruct (T 0%R 1%R line_curve red [0; 1/2; 1]%R blank ltac:(lra) ltac:(discriminate)) as [M1 M2]; auto.
  { intros t [<-|[<-|[<-|[]]]]; lra. }
  exists r1, r2, ms, (trajectory (r_p r2) red 0 [0; 1/2; 1]%R blank). split; [exact D|]. split; [exact RM|].
  assert (P1 : p_params (r_p r1) = ["_delta_t"] /\ p_quads (r_p r1) = []) by (clear - D; vm_compute in D; apply Ok_inj in D; subst r1; split; reflexivity).
  destruct P1 as [P1 P2]. split.
  { assert (C : option_map (fun x => length (snd x)) (reduce_mappers integ_poly solve_lin (fun _ _ z => z) 1 r1) = Some 1).
    { clear - D. vm_compute in D. apply Ok_inj in D. subst r1. vm_compute. reflexivity. }
    cbn [length] in RM. rewrite RM in C. cbn in C. now injection C. }
  cbv zeta. split; [exact M1|]. split; [exact M2|].
  assert (V : forall t, (0 <= t <= 1)%R -> red t "_q_0" = t /\ red t "com_0" = (-2)%R).
  { intros t Ht. destruct (proj1 SF 0 "x" t eq_refl Ht) as [A B]. change (quad _) with "_q_0" in A. change (com 0) with "com_0" in B.
    change (lam "x") with "_lam_x" in B. unfold line_curve in A, B. cbn [String.eqb Ascii.eqb Bool.eqb] in A, B. auto. }
  unfold trajectory. cbn [s_q s_p]. rewrite QU, PA, P1, P2. cbn [table length syms map app p_quads r_p line].
  split; [reflexivity|]. split; [reflexivity|]. split.
  - unfold table. cbn [length app map seq]. change (quad _) with "_q_0". now rewrite !(fun t H => proj1 (V t H)) by lra.
  - cbn [length app map seq]. change (com 0) with "com_0". rewrite (proj2 (V 0%R ltac:(lra))). f_equal. symmetry.
    apply (proj2 SF "_delta_t" 0%R).
    + apply in_used. rewrite PA, P1, !in_app_iff. right. right. right. left. left. apply in_eq.
    + clear. intros i _. split; discriminate.
Qed.
