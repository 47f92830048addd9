(** C81, C82, C84: the collocation solver SPBVP. *)
From Coq Require Import Reals Lra.
From Coquelicot Require Import Coquelicot.
From Verif Require Import Base Map_Model Spbvp_Model.
Open Scope string_scope.
Open Scope list_scope.
Open Scope nat_scope.

(** [Y] and [Q] solve, up to [eps], the boundary value problem with [ny] states,
    [nq] quadratures, rates [f] and [g] and boundary residuals [bc]. *)
Definition near_solution (eps : R) (ny nq : nat) (f g : list R -> list R -> list R -> res (list R))
    (bc : list R -> list R -> list R -> list R -> list R -> list R -> list R -> res (list R))
    (a b : R) (Y Q : R -> list R) (pp nu k : list R) : Prop :=
  (forall t, (a <= t <= b)%R ->
     (exists v, f (Y t) pp k = Ok v /\
        forall i, i < ny -> exists d, is_derive (fun s => nth i (Y s) 0%R) t d /\ (Rabs (d - nth i v 0) <= eps)%R) /\
     (0 < nq -> exists w, g (Y t) pp k = Ok w /\
        forall i, i < nq -> exists d, is_derive (fun s => nth i (Q s) 0%R) t d /\ (Rabs (d - nth i w 0) <= eps)%R)) /\
  exists r, bc (Y a) (Q a) (Y b) (Q b) pp nu k = Ok r /\ Forall (fun x => (Rabs x <= eps)%R) r.

(** [Z] solves, up to [eps], the problem handed to solve_bvp: its documented
    meaning of [fun] and [bc]. *)
Definition solves_handed (eps : R) (h : handed (F := R)) (n : nat) (a b : R) (Z : R -> list R) (pv : list R) : Prop :=
  (forall t, (a <= t <= b)%R -> exists v, h_fun h [Z t] pv = Ok [v] /\
     forall i, i < n -> exists d, is_derive (fun s => nth i (Z s) 0%R) t d /\ (Rabs (d - nth i v 0) <= eps)%R) /\
  exists r, h_bc h (Z a) (Z b) pv = Ok r /\ Forall (fun x => (Rabs x <= eps)%R) r.

Definition params_of (o : opt (F := R)) : list R := match o_p o with Some p => p | None => [] end.
(** What solve_bvp promises with [success]: nodes between the ends of the guess,
    values at the nodes of one near solution. *)
Definition good_result (eps : R) (h : handed (F := R)) (n : nat) (o : opt (F := R)) : Prop :=
  let a := hd 0%R (h_t h) in let b := last (h_t h) 0%R in
  hd 0%R (o_x o) = a /\ last (o_x o) 0%R = b /\ Forall (fun t => (a <= t <= b)%R) (o_x o) /\
  length (params_of o) = length (h_p h) /\
  exists Z, (forall t, length (Z t) = n) /\ o_y o = map Z (o_x o) /\ solves_handed eps h n a b Z (params_of o).

(** The functions of a problem with [nq] quadratures, as compiled: the boundary
    function has arguments for quadratures exactly if there are any. *)
Definition set_up (nq : nat) (f g : list R -> list R -> list R -> res (list R))
    (bc : list R -> list R -> list R -> list R -> list R -> list R -> list R -> res (list R)) (al : spalg (F := R)) : Prop :=
  a_deriv al = f /\ a_quad al = g /\
  a_bc al = (if nq =? 0 then bc5 (fun y0 yf p nu k => bc y0 [] yf [] p nu k) else bc7 bc).
(** A guess with [ny] states and [nq] quadratures. *)
Definition guess_ok (ny nq : nat) (g : sol R) : Prop :=
  exists rows, s_y g = Mat ny rows /\ rows <> [] /\
  if nq =? 0 then s_q g = E1 \/ exists qs, s_q g = Mat 0 qs else exists qs, s_q g = Mat nq qs /\ length qs = length rows.

Lemma nquads_ok ny nq g : guess_ok ny nq g -> nquads_of (s_q g) = nq.
Proof.
  intros (rows & _ & NE & H). destruct (Nat.eqb_spec nq 0) as [ ->|N].
  - destruct H as [ ->|(qs & ->)]; [reflexivity|]. cbn. now destruct qs.
  - destruct H as (qs & -> & L). cbn. destruct qs; [destruct rows; [easy|discriminate]|reflexivity].
Qed.
Lemma split_firstn {A} (l m : list A) : firstn (length l) (l ++ m) = l.
Proof. rewrite firstn_app, firstn_all, Nat.sub_diag. cbn. apply app_nil_r. Qed.
Lemma split_skipn {A} (l m : list A) : skipn (length l) (l ++ m) = m.
Proof. rewrite skipn_app, skipn_all, Nat.sub_diag. reflexivity. Qed.

Theorem C81_collocation : forall ny nq f g bc al guess,
  set_up nq f g bc al -> guess_ok ny nq guess ->
  (forall y p v, f y p (s_k guess) = Ok v -> length v = ny) -> (forall y p w, g y p (s_k guess) = Ok w -> length w = nq) ->
  exists h, h_t h = s_t guess /\ h_p h = s_p guess ++ s_nu guess /\
  (forall eps a b Y Q pp nu, (forall t, length (Y t) = ny) -> (forall t, length (Q t) = nq) ->
     length pp = length (s_p guess) -> length nu = length (s_nu guess) ->
     (near_solution eps ny nq f g bc a b Y Q pp nu (s_k guess) <->
      solves_handed eps h (ny + nq) a b (fun t => Y t ++ Q t) (pp ++ nu))) /\
  (forall sb e, sb h = Raise e -> sp_solve ROps sb al guess = Raise e) /\
  (forall sb o, sb h = Ok o -> exists al' r, sp_solve ROps sb al guess = Ok (al', r) /\
     sr_converged r = o_success o /\ sr_success r = o_success o /\ sr_message r = o_message o /\ s_k (sr_sol r) = s_k guess /\ s_u (sr_sol r) = s_u guess /\
     forall eps, good_result eps h (ny + nq) o ->
       let s := sr_sol r in let a := hd 0%R (s_t guess) in let b := last (s_t guess) 0%R in
       hd 0%R (s_t s) = a /\ last (s_t s) 0%R = b /\ Forall (fun t => (a <= t <= b)%R) (s_t s) /\
       exists Y Q, (forall t, length (Y t) = ny) /\ (forall t, length (Q t) = nq) /\
         s_y s = Mat ny (map Y (s_t s)) /\ s_q s = Mat nq (map Q (s_t s)) /\
         length (s_p s) = length (s_p guess) /\ length (s_nu s) = length (s_nu guess) /\ s_p s ++ s_nu s = params_of o /\
         near_solution eps ny nq f g bc a b Y Q (s_p s) (s_nu s) (s_k s)).
Proof.
  intros ny nq f g bc al guess (EF & EG & EB) GO LF LG. assert (NQ := nquads_ok ny nq guess GO).
  destruct GO as (rows & EY & NE & HQ).
  assert (EH : exists al' h, sp_handed ROps al guess = Ok (al', ny, nq, h) /\ h_t h = s_t guess /\ h_p h = s_p guess ++ s_nu guess /\
     (forall y q pp nu, length y = ny -> length q = nq -> length pp = length (s_p guess) ->
        h_fun h [y ++ q] (pp ++ nu) = (v <- f y pp (s_k guess) ; if nq =? 0 then Ok [v] else w <- g y pp (s_k guess) ; Ok [v ++ w])) /\
     (forall ya qa yb qb pp nu, length ya = ny -> length qa = nq -> length yb = ny -> length qb = nq ->
        length pp = length (s_p guess) -> length nu = length (s_nu guess) ->
        h_bc h (ya ++ qa) (yb ++ qb) (pp ++ nu) = bc ya qa yb qb pp nu (s_k guess))).
  { unfold sp_handed. rewrite EY. cbn [acols bind]. rewrite NQ. cbv zeta. cbn [arows].
    destruct (Nat.eqb_spec nq 0) as [ ->|N].
    - cbn [bind]. eexists _, _. split; [reflexivity|]. cbn [h_t h_p h_fun h_bc]. split; [reflexivity|]. split; [reflexivity|]. split.
      + intros y q pp nu Ly Lq Lp. apply length_zero_iff_nil in Lq. subst q. cbn [mapM a_deriv].
        rewrite app_nil_r, <- Ly, firstn_all, <- Lp, split_firstn, EF. destruct (f y pp (s_k guess)); reflexivity.
      + intros ya qa yb qb pp nu La Lqa Lb Lqb Lp Ln. apply length_zero_iff_nil in Lqa, Lqb. subst qa qb. cbn [a_bc]. rewrite EB. cbn [bc5].
        rewrite !app_nil_r, <- Lp, split_firstn, split_skipn, <- Ln, firstn_all. reflexivity.
    - destruct HQ as (qs & EQ & LQ). rewrite EQ. cbn [arows]. unfold hstack2. rewrite LQ, Nat.eqb_refl. cbn [bind].
      eexists _, _. split; [reflexivity|]. cbn [h_t h_p h_fun h_bc]. split; [reflexivity|]. split; [reflexivity|]. split.
      + intros y q pp nu Ly Lq Lp. cbn [mapM]. rewrite <- Ly, <- Lp, !split_firstn, EF, EG.
        destruct (f y pp (s_k guess)) as [v|]; cbn; [|reflexivity]. destruct (g y pp (s_k guess)); reflexivity.
      + intros ya qa yb qb pp nu La Lqa Lb Lqb Lp Ln. rewrite EB. cbn [bc7].
        replace (firstn ny (ya ++ qa)) with ya by (rewrite <- La; now rewrite split_firstn).
        replace (firstn ny (yb ++ qb)) with yb by (rewrite <- Lb; now rewrite split_firstn).
        replace (firstn nq (skipn ny (ya ++ qa))) with qa by (rewrite <- La, split_skipn, <- Lqa; now rewrite firstn_all).
        replace (firstn nq (skipn ny (yb ++ qb))) with qb by (rewrite <- Lb, split_skipn, <- Lqb; now rewrite firstn_all).
        rewrite <- Lp, split_firstn, split_skipn, <- Ln, firstn_all. reflexivity. }
  destruct EH as (al' & h & EH & HT & HP & HF & HB). exists h. split; [exact HT|]. split; [exact HP|].
  assert (IFF : forall eps a b Y Q pp nu, (forall t, length (Y t) = ny) -> (forall t, length (Q t) = nq) ->
     length pp = length (s_p guess) -> length nu = length (s_nu guess) ->
     (near_solution eps ny nq f g bc a b Y Q pp nu (s_k guess) <->
      solves_handed eps h (ny + nq) a b (fun t => Y t ++ Q t) (pp ++ nu))).
  { intros eps a b Y Q pp nu LY LQ LP LN. unfold near_solution, solves_handed. rewrite (HB _ _ _ _ _ _ (LY a) (LQ a) (LY b) (LQ b) LP LN).
    assert (N1 : forall t i, i < ny -> nth i (Y t ++ Q t) 0%R = nth i (Y t) 0%R) by (intros t i Hi; apply app_nth1; now rewrite LY).
    assert (N2 : forall t i, ny <= i -> nth i (Y t ++ Q t) 0%R = nth (i - ny) (Q t) 0%R) by (intros t i Hi; rewrite app_nth2, LY; rewrite ?LY; auto).
    split; (intros [D R]; split; [|exact R]); intros t Ht; specialize (D t Ht).
    - destruct D as [(v & EV & DV) DW]. rewrite (HF _ _ _ _ (LY t) (LQ t) LP), EV. cbn [bind].
      destruct (Nat.eqb_spec nq 0) as [Z|Z].
      + exists v. split; [reflexivity|]. intros i Hi. destruct (DV i ltac:(lia)) as (d & H1 & H2). exists d. split; [|exact H2].
        apply (is_derive_ext (fun s => nth i (Y s) 0%R)); [intros s; symmetry; apply N1; lia|exact H1].
      + destruct DW as (w & EW & DW); [lia|]. rewrite EW. cbn [bind]. exists (v ++ w). split; [reflexivity|]. assert (LV := LF _ _ _ EV). intros i Hi.
        destruct (Nat.lt_ge_cases i ny) as [C|C].
        * destruct (DV i C) as (d & H1 & H2). exists d. rewrite app_nth1 by (rewrite LV; exact C). split; [|exact H2].
          apply (is_derive_ext (fun s => nth i (Y s) 0%R)); [intros s; symmetry; now apply N1|exact H1].
        * destruct (DW (i - ny) ltac:(lia)) as (d & H1 & H2). exists d. rewrite app_nth2, LV by (rewrite LV; exact C). split; [|exact H2].
          apply (is_derive_ext (fun s => nth (i - ny) (Q s) 0%R)); [intros s; symmetry; now apply N2|exact H1].
    - destruct D as (v & EV & DV). rewrite (HF _ _ _ _ (LY t) (LQ t) LP) in EV.
      destruct (f (Y t) pp (s_k guess)) as [v0|] eqn:E0; [|discriminate]. cbn [bind] in EV. assert (LV := LF _ _ _ E0).
      destruct (Nat.eqb_spec nq 0) as [Z|Z].
      + injection EV as <-. split; [|intros; lia]. exists v0. split; [reflexivity|]. intros i Hi. destruct (DV i ltac:(lia)) as (d & H1 & H2).
        exists d. split; [|exact H2]. apply (is_derive_ext (fun s => nth i (Y s ++ Q s) 0%R)); [intros s; apply N1; lia|exact H1].
      + destruct (g (Y t) pp (s_k guess)) as [w|] eqn:E1; [|discriminate]. cbn [bind] in EV. injection EV as <-. split.
        * exists v0. split; [reflexivity|]. intros i Hi. destruct (DV i ltac:(lia)) as (d & H1 & H2). rewrite app_nth1 in H2 by (rewrite LV; exact Hi).
          exists d. split; [|exact H2]. apply (is_derive_ext (fun s => nth i (Y s ++ Q s) 0%R)); [intros s; apply N1; lia|exact H1].
        * intros _. exists w. split; [reflexivity|]. intros i Hi. destruct (DV (ny + i) ltac:(lia)) as (d & H1 & H2).
          rewrite app_nth2, LV, Nat.add_comm, Nat.add_sub in H2 by lia.
          exists d. split; [|exact H2]. apply (is_derive_ext (fun s => nth (ny + i) (Y s ++ Q s) 0%R)); [|exact H1].
          intros s. rewrite N2 by lia. f_equal. lia. }
  split; [exact IFF|]. unfold sp_solve. rewrite EH. cbn [bind]. split.
  { intros sb e E. rewrite E. reflexivity. }
  intros sb o E. rewrite E. cbn [bind]. exists al', (sp_result ROps guess ny nq o).
  assert (KK : s_k (sr_sol (sp_result ROps guess ny nq o)) = s_k guess) by (unfold sp_result; cbv zeta; destruct (o_p o); reflexivity).
  repeat (split; [reflexivity|]). split; [exact KK|]. split; [unfold sp_result; cbv zeta; destruct (o_p o); reflexivity|]. intros eps (GA & GB & GT & LP & Z & LZ & EZ & SO). rewrite HT in *.
  cbv zeta. assert (TT : s_t (sr_sol (sp_result ROps guess ny nq o)) = o_x o) by (unfold sp_result; cbv zeta; destruct (o_p o); reflexivity).
  rewrite TT, KK. split; [exact GA|]. split; [exact GB|]. split; [exact GT|].
  exists (fun t => firstn ny (Z t)), (fun t => skipn ny (Z t)).
  assert (LY : forall t, length (firstn ny (Z t)) = ny) by (intros t; rewrite firstn_length, LZ; lia).
  assert (LQ : forall t, length (skipn ny (Z t)) = nq) by (intros t; rewrite skipn_length, LZ; lia).
  split; [exact LY|]. split; [exact LQ|]. split.
  { unfold sp_result; cbv zeta; destruct (o_p o); cbn; rewrite EZ, map_map; reflexivity. }
  split.
  { assert (Q : s_q (sr_sol (sp_result ROps guess ny nq o)) = Mat nq (map (fun c => firstn nq (skipn ny c)) (o_y o))) by (unfold sp_result; cbv zeta; destruct (o_p o); reflexivity).
    rewrite Q, EZ, map_map. f_equal. apply map_ext. intros t. rewrite <- (LQ t). apply firstn_all. }
  rewrite HP, app_length in LP.
  assert (P1 : s_p (sr_sol (sp_result ROps guess ny nq o)) = firstn (length (s_p guess)) (params_of o))
    by (unfold sp_result, params_of; cbv zeta; destruct (o_p o); cbn; [reflexivity|now rewrite firstn_nil]).
  assert (P2 : s_nu (sr_sol (sp_result ROps guess ny nq o)) = skipn (length (s_p guess)) (params_of o)).
  { transitivity (firstn (length (s_nu guess)) (skipn (length (s_p guess)) (params_of o))).
    - unfold sp_result, params_of; cbv zeta; destruct (o_p o); cbn; [reflexivity|now rewrite skipn_nil, firstn_nil].
    - apply firstn_all2. rewrite skipn_length. lia. }
  rewrite P1, P2.
  split; [rewrite firstn_length; lia|]. split; [rewrite skipn_length; lia|]. split; [apply firstn_skipn|]. apply IFF; auto.
  - rewrite firstn_length. lia.
  - rewrite skipn_length. lia.
  - rewrite firstn_skipn. destruct SO as [S1 (r & S2 & S3)]. split.
    + intros t Ht. destruct (S1 t Ht) as (v & V1 & V2). exists v. rewrite firstn_skipn. split; [exact V1|]. intros i Hi. destruct (V2 i Hi) as (d & D1 & D2).
      exists d. split; [|exact D2]. apply (is_derive_ext (fun s => nth i (Z s) 0%R)); [intros s; now rewrite firstn_skipn|exact D1].
    + exists r. rewrite !firstn_skipn. now split.
Qed.
Print Assumptions C81_collocation.

(** y' = p, q' = y, y(0) = 0, q(0) = 0, y(1) = 1: y = t, q = t^2/2, p = 1. *)
Definition ramp_f (y p k : list R) : res (list R) := Ok [nth 0 p 0%R].
Definition ramp_g (y p k : list R) : res (list R) := Ok [nth 0 y 0%R].
Definition ramp_bc (y0 q0 yf qf p nu k : list R) : res (list R) := Ok [nth 0 y0 0; nth 0 q0 0; nth 0 yf 0 - 1]%R.
Definition ramp_alg : spalg (F := R) := mkSpalg ramp_f ramp_g (bc7 ramp_bc) None None 2000.
Definition ramp_guess : sol R := mkSol [0; 1]%R [] (Mat 1 [[0]; [0]]%R) E1 (Mat 1 [[0]; [0]]%R) (Mat 1 [[7]; [7]]%R) E1 [5]%R [] [] 0%R.
Definition ramp_opt : opt (F := R) := mkOpt [0; 1/2; 1]%R [[0; 0]; [1/2; 1/8]; [1; 1/2]]%R (Some [1]%R) true "" 3.
Lemma ramp_solution : near_solution 0 1 1 ramp_f ramp_g ramp_bc 0 1 (fun t => [t]) (fun t => [t * t / 2]%R) [1]%R [] [].
Proof.
  split.
  - intros t _. split; [|intros _]; eexists; (split; [reflexivity|]); (intros [|i] Hi; [|lia]); cbn.
    + exists 1%R. split; [apply (is_derive_id (K := R_AbsRing))|]. rewrite Rminus_eq_0, Rabs_R0. lra.
    + exists t. split; [|rewrite Rminus_eq_0, Rabs_R0; lra]. auto_derive; [exact I|field].
  - eexists. split; [reflexivity|]. cbn. repeat (apply Forall_cons; [match goal with |- (Rabs ?x <= 0)%R => replace x with 0%R by field; rewrite Rabs_R0; lra end|]); apply Forall_nil.
Qed.
Example C81_ex : exists al' r h, sp_solve ROps (fun _ => Ok ramp_opt) ramp_alg ramp_guess = Ok (al', r) /\ good_result 0 h 2 ramp_opt /\
  h_t h = s_t ramp_guess /\ sr_converged r = true /\
  s_t (sr_sol r) = [0; 1/2; 1]%R /\ s_y (sr_sol r) = Mat 1 [[0]; [1/2]; [1]]%R /\ s_q (sr_sol r) = Mat 1 [[0]; [1/8]; [1/2]]%R /\ s_p (sr_sol r) = [1]%R.
Proof.
  destruct (C81_collocation 1 1 ramp_f ramp_g ramp_bc ramp_alg ramp_guess) as (h & HT & HP & IFF & _ & RUN).
  - repeat split.
  - eexists. split; [reflexivity|]. split; [discriminate|]. eexists. split; reflexivity.
  - intros y p v [= <-]. reflexivity.
  - intros y p v [= <-]. reflexivity.
  - destruct (RUN (fun _ => Ok ramp_opt) ramp_opt eq_refl) as (al' & r & E & _). exists al', r, h. split; [exact E|]. split.
    + unfold good_result. rewrite HT, HP. cbn. repeat (split; [reflexivity|]). split; [repeat (apply Forall_cons; [lra|]); apply Forall_nil|]. split; [reflexivity|].
      exists (fun t => [t] ++ [t * t / 2]%R). split; [reflexivity|]. split; [cbn; repeat (f_equal; try lra)|].
      apply (IFF 0 0 1 (fun t => [t]) (fun t => [t * t / 2]) [1] [])%R; try reflexivity. exact ramp_solution.
    + split; [exact HT|]. cbn in E. injection E as <- <-. cbn. repeat split.
Qed.

(** A guess without quadratures for a problem with quadratures: the boundary
    function is called without them, whatever the values. *)
Theorem C81_missing_quadratures_refuted : forall ny f g bc al guess rows,
  a_deriv al = f -> a_quad al = g -> a_bc al = bc7 bc -> s_y guess = Mat ny rows -> s_q guess = E1 ->
  exists h, (forall sb, sp_solve ROps sb al guess = sp_solve ROps (fun _ => sb h) al guess) /\
  forall ya yb p, h_bc h ya yb p = Raise TypeError.
Proof.
  intros ny f g bc al guess rows EF EG EB EY EQ.
  destruct (sp_handed ROps al guess) as [[[[al' n] m] h]|] eqn:E; [|unfold sp_handed in E; rewrite EY, EQ in E; discriminate].
  exists h. split; [intros sb; unfold sp_solve; rewrite E; reflexivity|]. intros ya yb p.
  unfold sp_handed in E. rewrite EY, EQ in E. cbn [acols bind nquads_of] in E. cbv zeta in E. cbn in E. apply (f_equal (fun x => match x with Ok (_, _, _, h0) => h_bc h0 ya yb p | Raise e => Raise e end)) in E.
  cbn in E. rewrite <- E, EB. reflexivity.
Qed.
Print Assumptions C81_missing_quadratures_refuted.

Example C81_missing_ex : exists rows, s_y (set_q E1 ramp_guess) = Mat 1 rows /\ s_q (set_q E1 ramp_guess) = E1 /\ a_bc ramp_alg = bc7 ramp_bc.
Proof. eexists. repeat split. Qed.

(** ** C82: the arrays of the result belong to its nodes *)
Definition rows_per_node (n : nat) (a : arr R) : Prop := a = E1 \/ alen a = n.
Theorem C82_nodes : forall sb al guess al' r, (forall h o, sb h = Ok o -> length (o_y o) = length (o_x o)) ->
  sp_solve ROps sb al guess = Ok (al', r) ->
  let s := sr_sol r in let n := length (s_t s) in
  alen (s_y s) = n /\ alen (s_q s) = n /\ alen (s_dual s) = n /\ acols (s_dual s) = acols (s_y s) /\
  s_u s = s_u guess /\ s_dual_t s = s_dual_t guess /\ s_dual_u s = s_dual_u guess /\ s_k s = s_k guess /\ s_cost s = s_cost guess.
Proof.
  intros sb al guess al' r C E. unfold sp_solve in E. destruct (sp_handed ROps al guess) as [[[[a1 n] m] h]|]; [|discriminate]. cbn in E.
  destruct (sb h) as [o|] eqn:Eo; [|discriminate]. cbn in E. injection E as <- <-. specialize (C h o Eo). unfold sp_result. cbv zeta.
  destruct (o_p o); cbn; rewrite !map_length, C; repeat split.
Qed.
Print Assumptions C82_nodes.
(** The control is the one of the guess: on a refined mesh it has the wrong
    number of rows. *)
Theorem C82_control_refuted : exists sb al guess al' r,
  rows_per_node (length (s_t guess)) (s_u guess) /\ (forall h o, sb h = Ok o -> length (o_y o) = length (o_x o)) /\
  sp_solve ROps sb al guess = Ok (al', r) /\ sr_converged r = true /\ ~ rows_per_node (length (s_t (sr_sol r))) (s_u (sr_sol r)).
Proof.
  exists (fun _ => Ok ramp_opt), ramp_alg, ramp_guess. eexists _, _. split; [right; reflexivity|]. split; [intros h o [= <-]; reflexivity|].
  split; [reflexivity|]. split; [reflexivity|]. intros [H|H]; discriminate H.
Qed.
Print Assumptions C82_control_refuted.

(** ** C84: the number of arrays that the Jacobian functions return *)
(** solve_bvp documents: one array and two without unknown parameters, two and
    three with. *)
Theorem C84_functions : forall sb al guess al' r, sp_solve ROps sb al guess = Ok (al', r) ->
  exists h, (forall sb', sp_solve ROps sb' al guess = sp_solve ROps (fun _ => sb' h) al guess) /\
  (forall j ys params l, h_fun_jac h = Some j -> j ys params = Ok l ->
     length l = (if length (h_p h) =? 0 then 1 else 2)) /\
  (forall j ya yb params l, h_bc_jac h = Some j -> j ya yb params = Ok l -> length l = 3).
Proof.
  intros sb al guess al' r E. unfold sp_solve in E. destruct (sp_handed ROps al guess) as [[[[a1 n] m] h]|] eqn:EH; [|discriminate].
  exists h. split; [intros sb'; unfold sp_solve; rewrite EH; reflexivity|]. clear E.
  unfold sp_handed in EH. destruct (acols (s_y guess)) as [ns|]; [|discriminate]. cbn [bind] in EH. cbv zeta in EH.
  match type of EH with bind ?x _ = _ => destruct x as [ys0|]; [|discriminate] end. cbn [bind] in EH. injection EH as <- <- <- <-. cbn [h_fun_jac h_bc_jac h_p]. split.
  - intros j ys params l EJ EL. match type of EJ with match ?x with _ => _ end = _ => destruct x as [f|]; [|discriminate] end. injection EJ as <-.
    destruct ys as [|y0 ys]; [discriminate|]. match type of EL with bind ?x _ = _ => destruct x as [bs|]; [|discriminate] end. cbn [bind] in EL. rewrite app_length.
    destruct (_ + _ =? 0); injection EL as <-; reflexivity.
  - intros j ya yb params l EJ EL. match type of EJ with match ?x with _ => _ end = _ => destruct x as [f|]; [|discriminate] end. injection EJ as <-.
    match type of EL with bind ?x _ = _ => destruct x as [bs|]; [|discriminate] end. cbn [bind] in EL. destruct bs as [|b1 [|b2 [|b3 [|]]]]; try discriminate. injection EL as <-. reflexivity.
Qed.
Print Assumptions C84_functions.

(** Without unknown parameters three matrices are returned where two are asked
    for. *)
Theorem C84_no_parameters_refuted : exists (al : spalg (F := R)) guess h j l,
  (forall sb, sp_solve ROps sb al guess = sp_solve ROps (fun _ => sb h) al guess) /\
  length (h_p h) = 0 /\ h_bc_jac h = Some j /\ j [0%R] [0%R] [] = Ok l /\ length l <> 2.
Proof.
  exists (mkSpalg ramp_f ramp_g (bc5 (fun y0 yf _ _ _ => Ok [nth 0 y0 0; nth 0 yf 0]%R)) None
    (Some (bc5 (fun _ _ _ _ _ => Ok [[[1]; [0]]; [[0]; [1]]; [[]; []]]%R))) 20),
    (mkSol [0; 1]%R [] (Mat 1 [[0]; [0]]%R) E1 E1 E1 E1 [] [] [] 0%R).
  eexists _, _, _. split; [intros sb; reflexivity|]. split; [reflexivity|]. split; [reflexivity|]. split; [reflexivity|]. discriminate.
Qed.
Print Assumptions C84_no_parameters_refuted.

Example C84_ex : exists al' r, sp_solve ROps (fun _ => Ok ramp_opt)
  (mkSpalg ramp_f ramp_g (bc7 ramp_bc) None (Some (bc7 (fun _ _ _ _ _ _ _ => Ok [[]; []; []]))) 20) ramp_guess = Ok (al', r) /\ sr_niter r = 3.
Proof. eexists _, _. split; reflexivity. Qed.
