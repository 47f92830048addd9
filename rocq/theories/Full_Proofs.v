(** The continuation loop with collocation: every trajectory it handles has the
    shapes of the problem, and every converged one consists of samples of a
    solution. *)
From Coq Require Import Reals Lra.
From Coquelicot Require Import Coquelicot.
From Verif Require Import Base Base_Facts Cont_Model Cont_Spec Cont_Proofs Cont_Warm.
From Verif Require Import Sym_Expr Sym_Facts Sym_Model Map_Model Scale_Model Jac_Model Unit_Model Unit_Spec Unit_Proofs Unit_Scale Unit_Properties.
From Verif Require Import Spbvp_Model Spbvp_Properties Pipe_Model Pipe_Properties Chain_Model Full_Model.
Open Scope string_scope.
Open Scope list_scope.
Open Scope nat_scope.

(** What solve_bvp promises for [n] components: nodes from end to end, one
    vector per node, as many parameters as handed; on success, values at the
    nodes of a solution. *)
Definition answer_ok (n : nat) (h : handed (F := R)) (o : opt (F := R)) : Prop :=
  o_x o <> [] /\ hd 0%R (o_x o) = hd 0%R (h_t h) /\ last (o_x o) 0%R = last (h_t h) 0%R /\
  length (o_y o) = length (o_x o) /\ length (params_of o) = length (h_p h) /\
  (o_success o = true -> good_result 0 h n o).
Definition honest (n : nat) (sb : handed (F := R) -> res (opt (F := R))) : Prop := forall h o, sb h = Ok o -> answer_ok n h o.

(** The functions of [p] are loaded; SPBVP replaces the quadrature function when
    there are no quadratures. *)
Definition carries (fn : string -> nat -> R -> R) (p : prob) (al : spalg (F := R)) : Prop :=
  a_deriv al = deriv_of fn p /\ (p_quads p <> [] -> a_quad al = quad_of fn p) /\
  a_bc al = (if length (p_quads p) =? 0 then bc5 (fun y0 yf pp pc k => bc_of fn p y0 [] yf [] pp pc k) else bc7 (bc_of fn p)).

(** Shape of a trajectory and its time span. *)
Definition spans (p : prob) (a b : R) (g : sol R) : Prop := guess_for p g /\ hd 0%R (s_t g) = a /\ last (s_t g) 0%R = b /\ s_t g <> [].
(** Samples of a solution. *)
Definition samples (fn : string -> nat -> R -> R) (p : prob) (a b : R) (s : sol R) : Prop :=
  Forall (fun t => (a <= t <= b)%R) (s_t s) /\
  exists Y Q, (forall t, length (Y t) = length (p_states p) /\ length (Q t) = length (p_quads p)) /\
    s_y s = Mat (length (p_states p)) (map Y (s_t s)) /\ s_q s = Mat (length (p_quads p)) (map Q (s_t s)) /\
    solves fn p a b Y Q (s_p s) (s_nu s) (s_k s).

Lemma handed_shape ny nq (al : spalg (F := R)) g : guess_ok ny nq g ->
  exists al' h, sp_handed ROps al g = Ok (al', ny, nq, h) /\ h_t h = s_t g /\ h_p h = s_p g ++ s_nu g /\
    a_deriv al' = a_deriv al /\ a_bc al' = a_bc al /\ (nq <> 0 -> a_quad al' = a_quad al).
Proof.
  intros GO. assert (NQ := nquads_ok ny nq g GO). destruct GO as (rows & EY & NE & HQ).
  unfold sp_handed. rewrite NQ, EY. cbn [acols bind arows]. destruct (nq =? 0) eqn:Z.
  - cbn [bind]. eexists _, _. split; [reflexivity|]. repeat split. intros N. apply Nat.eqb_eq in Z. contradiction.
  - destruct HQ as (qs & EQ & L). rewrite EQ. cbn [arows]. assert (HS : exists v, hstack2 rows qs = Ok v) by (unfold hstack2; rewrite L, Nat.eqb_refl; now eexists). destruct HS as (v & HS). rewrite HS. cbn [bind]. eexists _, _. split; [reflexivity|]. repeat split.
Qed.

Lemma sp_shape p sb al g : honest (length (p_states p) + length (p_quads p)) sb ->
  guess_ok (length (p_states p)) (length (p_quads p)) g -> (s_u g = E1 \/ exists rows, s_u g = Mat (length (p_controls p)) rows) ->
  forall al' r, sp_solve ROps sb al g = Ok (al', r) ->
  guess_ok (length (p_states p)) (length (p_quads p)) (sr_sol r) /\ s_u (sr_sol r) = s_u g /\ s_k (sr_sol r) = s_k g /\
  length (s_p (sr_sol r)) = length (s_p g) /\ length (s_nu (sr_sol r)) = length (s_nu g) /\
  hd 0%R (s_t (sr_sol r)) = hd 0%R (s_t g) /\ last (s_t (sr_sol r)) 0%R = last (s_t g) 0%R /\ s_t (sr_sol r) <> [] /\
  (exists rows, s_q (sr_sol r) = Mat (length (p_quads p)) rows) /\
  a_deriv al' = a_deriv al /\ a_bc al' = a_bc al /\ (length (p_quads p) <> 0 -> a_quad al' = a_quad al).
Proof.
  intros HO GO GU al' r. unfold sp_solve. destruct (handed_shape _ _ al g GO) as (al1 & h & EH & HT & HP & A1 & A2 & A3). rewrite EH. cbn [bind].
  destruct (sb h) as [o|] eqn:SB; [|discriminate]. cbn [bind]. intros E. injection E as <- <-.
  destruct (HO h o SB) as (X1 & X2 & X3 & X4 & X5 & _). rewrite HT in X2, X3. rewrite HP, app_length in X5.
  cbn [sp_result sr_sol].
  assert (NE : o_y o <> []) by (intros Z; rewrite Z in X4; cbn in X4; destruct (o_x o); [contradiction|discriminate X4]).
  unfold params_of in X5.
  destruct (o_p o) as [pv|] eqn:EO; cbn [set_nu set_p set_dual set_q set_y set_t s_y s_q s_u s_k s_p s_nu s_t].
  - split.
    { eexists. split; [reflexivity|]. split; [now destruct (o_y o)|]. cbn [s_q set_nu set_p set_dual set_q]. destruct (length (p_quads p) =? 0) eqn:Z.
      - right. apply Nat.eqb_eq in Z. rewrite Z. now eexists.
      - eexists. split; [reflexivity|]. now rewrite !map_length. }
    repeat split; auto; [rewrite firstn_length; lia|rewrite firstn_length, skipn_length; lia|now eexists].
  - cbn in X5. split.
    { eexists. split; [reflexivity|]. split; [now destruct (o_y o)|]. cbn [s_q set_nu set_p set_dual set_q]. destruct (length (p_quads p) =? 0) eqn:Z.
      - right. apply Nat.eqb_eq in Z. rewrite Z. now eexists.
      - eexists. split; [reflexivity|]. now rewrite !map_length. }
    repeat split; auto; [cbn; lia|cbn; lia|now eexists].
Qed.

(** The quadrature function does not matter when there are no quadratures. *)
Lemma sp_solve_quad sb al f g : nquads_of (s_q g) = 0 ->
  sp_solve ROps sb (mkSpalg (a_deriv al) f (a_bc al) (a_fjac al) (a_bjac al) (a_nodes al)) g = sp_solve ROps sb al g.
Proof. intros Z. unfold sp_solve, sp_handed. rewrite Z. reflexivity. Qed.

(** One case, scaled or not. *)
Definition scaling_ok (auto : bool) (p : prob) (compute : sol R -> factors R) : Prop :=
  auto = true -> exists G u, consistent G p u /\ forall g, exists fac, positive fac /\ compute g = component_factors u fac.

Lemma case_sound fn p auto compute sb al g al' r : scaling_ok auto p compute -> honest (length (p_states p) + length (p_quads p)) sb ->
  carries fn p al -> guess_for p g -> s_t g <> [] -> loop_solve ROps auto compute sb al g = Ok (al', r) ->
  carries fn p al' /\ spans p (hd 0%R (s_t g)) (last (s_t g) 0%R) (sr_sol r) /\ s_k (sr_sol r) = s_k g /\
  (sr_converged r = true -> samples fn p (hd 0%R (s_t g)) (last (s_t g) 0%R) (sr_sol r)).
Proof.
  intros SC HO CA GF NE LS.
  set (al0 := mkSpalg (a_deriv al) (quad_of fn p) (a_bc al) (a_fjac al) (a_bjac al) (a_nodes al)).
  assert (LD : loaded fn p al0) by (destruct CA as (C1 & C2 & C3); repeat split; assumption).
  assert (QUAD : forall g1, guess_ok (length (p_states p)) (length (p_quads p)) g1 -> sp_solve ROps sb al0 g1 = sp_solve ROps sb al g1).
  { intros g1 GO. destruct (p_quads p) as [|q qs] eqn:EQ.
    - apply sp_solve_quad. apply (nquads_ok _ _ _ GO).
    - destruct CA as (C1 & C2 & C3). assert (N : p_quads p <> []) by (rewrite EQ; discriminate). unfold al0. rewrite <- (C2 N). now destruct al. }
  assert (CAR : forall al1, a_deriv al1 = a_deriv al -> a_bc al1 = a_bc al -> (length (p_quads p) <> 0 -> a_quad al1 = a_quad al) -> carries fn p al1).
  { intros al1 B1 B2 B3. destruct CA as (C1 & C2 & C3). split; [congruence|]. split; [|congruence]. intros N. rewrite B3; [now apply C2|]. now destruct (p_quads p). }
  destruct auto.
  - (* scaled *)
    destruct (SC eq_refl) as (G & u & K & FAC). destruct (FAC g) as (fac & P & EF).
    assert (LS0 : loop_solve ROps true compute sb al0 g = Ok (al', r)).
    { unfold loop_solve in LS |- *. cbv zeta in *. rewrite EF in *.
      destruct (factor_facts fac G p u P K) as (Pt & (Ly & Py) & (Lq & Pq) & Lu & (Lp & Pp) & (Lnu & Pnu) & (Lk & Pk)).
      destruct (scaled_guess p _ g Ly Lq Lu Lp Lnu Lk GF) as (g1 & SG & GO1 & _). rewrite SG in *. cbn [bind] in *. now rewrite (QUAD g1 GO1). }
    destruct (C83_scaled_collocation fn fac G p u al0 g _ compute P K eq_refl EF LD GF) as (h & HT & HP & _ & HR & HC & RUN).
    assert (SH : carries fn p al' /\ spans p (hd 0%R (s_t g)) (last (s_t g) 0%R) (sr_sol r) /\ s_k (sr_sol r) = s_k g).
    { unfold loop_solve in LS. cbv zeta in LS. rewrite EF in LS.
      destruct (factor_facts fac G p u P K) as (Pt & (Ly & Py) & (Lq & Pq) & Lu & (Lp & Pp) & (Lnu & Pnu) & (Lk & Pk)).
      destruct (scaled_guess p _ g Ly Lq Lu Lp Lnu Lk GF) as (g1 & SG & GO1 & GU1 & ET & EP & EN & EK). rewrite SG in LS. cbn [bind] in LS. set (f := component_factors u fac) in *. clearbody f.
      destruct (sp_solve ROps sb al g1) as [[al1 r1]|] eqn:SS; [|discriminate]. cbn [bind fst snd] in LS.
      destruct (sp_shape p sb al g1 HO GO1 GU1 al1 r1 SS) as (S1 & S2 & S3 & S4 & S5 & S6 & S7 & S8 & (qrows & S9) & A1 & A2 & A3).
      destruct GF as (GO & GU & (Sp & Sn & Sk)).
      assert (TT : forall x : R, (x / f_t f * f_t f)%R = x) by (intros x; field; lra).
      destruct S1 as (rows & EY & NR & HQ).
      unfold scale_sol in LS. cbv zeta in LS. cbn [set_t s_t s_y set_y s_q set_q s_u set_u s_p set_p s_nu set_nu s_k set_k] in LS.
      rewrite EY in LS. cbn [scale_arr bind] in LS. rewrite Ly, Nat.eqb_refl in LS. cbn [bind set_y s_q] in LS. rewrite S9 in LS. cbn [scale_arr] in LS. rewrite Lq, Nat.eqb_refl in LS. cbn [bind set_q s_u] in LS. rewrite S2 in LS.
      assert (BC : forall l g, length l = length g -> bcast Rmult l g = Ok (restored l g)) by (intros l g2 H; unfold bcast; now rewrite H, Nat.eqb_refl).
      assert (AU : exists u1, (if nonempty (s_u g1) then scale_arr (nmul ROps) (s_u g1) (f_u f) else Ok (s_u g1)) = Ok u1 /\ (u1 = E1 \/ exists us, u1 = Mat (length (p_controls p)) us)).
      { destruct GU1 as [->|(us & ->)]; cbn [nonempty]; [eexists; split; [reflexivity|now left]|]. destruct (_ && _); [|eexists; split; [reflexivity|right; now eexists]].
        cbn [scale_arr]. rewrite Lu, Nat.eqb_refl. eexists. split; [reflexivity|]. right. now eexists. }
      destruct AU as (u1 & AU & HU). rewrite AU in LS. cbn [bind set_u s_p] in LS. change (nmul ROps) with Rmult in LS.
      rewrite BC in LS by (rewrite S4, EP; unfold scaled; rewrite map2_length; lia). cbn [bind set_p s_nu] in LS.
      rewrite BC in LS by (rewrite S5, EN; unfold scaled; rewrite map2_length; lia). cbn [bind set_nu s_k] in LS.
      rewrite BC in LS by (rewrite S3, EK; unfold scaled; rewrite map2_length; lia). cbn [bind] in LS. injection LS as <- <-. cbn [sr_sol].
      assert (EKK : restored (s_k (sr_sol r1)) (f_k f) = s_k g) by (rewrite S3, EK; apply restored_scaled; [lia|exact Pk]).
      split; [now apply CAR|]. split.
      - split; [|cbn [s_t set_k set_nu set_p set_u set_q set_y set_t]; split; [|split]].
        + split; [|split; [cbn; exact HU|]].
          * eexists. cbn [s_y set_k set_nu set_p set_u set_q set_y]. split; [reflexivity|]. split; [now destruct rows|]. cbn [s_q set_k set_nu set_p set_u set_q].
            destruct (length (p_quads p) =? 0) eqn:Z; [right; apply Nat.eqb_eq in Z; rewrite Z; now eexists|]. destruct HQ as (qs & EQ & LQ). rewrite S9 in EQ. injection EQ as ->. eexists. split; [reflexivity|]. now rewrite !map_length.
          * cbn [s_p s_nu s_k set_k set_nu set_p]. rewrite EKK. unfold restored. split; [rewrite map2_length; rewrite ?S4, ?EP; unfold scaled; rewrite ?map2_length; lia|].
            split; [rewrite map2_length; rewrite ?S5, ?EN; unfold scaled; rewrite ?map2_length; lia|exact Sk].
        + change (nmul ROps) with Rmult. rewrite hd_map_mul, S6, ET, hd_map_div. apply TT.
        + change (nmul ROps) with Rmult. rewrite (last_map0 (fun t => t * f_t f)%R) by ring. rewrite S7, ET, (last_map0 (fun t => t / f_t f)%R) by (unfold Rdiv; ring). apply TT.
        + intros Z. apply map_eq_nil in Z. contradiction.
      - cbn [s_k set_k]. exact EKK. }
    destruct SH as (H1 & H2 & H3). split; [exact H1|]. split; [exact H2|]. split; [exact H3|]. intros CV.
    destruct (sb h) as [o|e] eqn:SB; [|rewrite (HR sb e SB) in LS0; discriminate LS0].
    assert (OS : o_success o = true) by (rewrite <- (HC sb o al' r SB LS0); exact CV).
    destruct (HO h o SB) as (_ & _ & _ & _ & _ & GR). destruct (RUN sb o SB (GR OS)) as (al2 & r2 & L2 & _ & T1 & T2 & T3 & T4 & Y & Q & T5 & T6 & T7 & T8).
    rewrite LS0 in L2. injection L2 as <- <-. split; [exact T3|]. exists Y, Q. split; [exact T5|]. split; [exact T6|]. split; [exact T7|exact T8].
  - (* not scaled *)
    assert (LS0 : loop_solve ROps false compute sb al0 g = Ok (al', r)).
    { unfold loop_solve in LS |- *. cbv zeta in *. cbn [bind] in *. now rewrite (QUAD g (proj1 GF)). }
    destruct (C83_unscaled_collocation fn p al0 g compute LD GF) as (h & HT & HP & _ & HR & HC & RUN).
    assert (SH : carries fn p al' /\ spans p (hd 0%R (s_t g)) (last (s_t g) 0%R) (sr_sol r) /\ s_k (sr_sol r) = s_k g).
    { unfold loop_solve in LS. cbv zeta in LS. cbn [bind] in LS. destruct GF as (GO & GU & (Sp & Sn & Sk)).
      destruct (sp_solve ROps sb al g) as [[al1 r1]|] eqn:SS; [|discriminate]. cbn [bind fst snd] in LS. injection LS as <- <-. cbn [sr_sol].
      destruct (sp_shape p sb al g HO GO GU al1 r1 SS) as (S1 & S2 & S3 & S4 & S5 & S6 & S7 & S8 & _ & A1 & A2 & A3).
      split; [now apply CAR|]. split; [|exact S3]. split; [|split; [exact S6|split; [exact S7|exact S8]]].
      split; [exact S1|]. rewrite S2. split; [exact GU|]. split; [congruence|]. split; congruence. }
    destruct SH as (H1 & H2 & H3). split; [exact H1|]. split; [exact H2|]. split; [exact H3|]. intros CV.
    destruct (sb h) as [o|e] eqn:SB; [|rewrite (HR sb e SB) in LS0; discriminate LS0].
    assert (OS : o_success o = true) by (rewrite <- (HC sb o al' r SB LS0); exact CV).
    destruct (HO h o SB) as (_ & _ & _ & _ & _ & GR). destruct (RUN sb o SB (GR OS)) as (al2 & r2 & L2 & _ & T1 & T2 & T3 & T4 & _ & Y & Q & T5 & T6 & T7 & T8).
    rewrite LS0 in L2. injection L2 as <- <-. split; [exact T3|]. exists Y, Q. split; [exact T5|]. split; [exact T6|]. split; [exact T7|exact T8].
Qed.

(** ** The loop *)
Section Loop.
  Context {F : Type} (O : NumOps F) {P : Type}.
  Lemma put_vars_length cn (vs : list (cvar F)) i c c' : put_vars cn vs i c = Ok c' -> length c' = length c.
  Proof.
    revert c. induction vs as [|v vs IH]; intros c H; cbn in H; [now injection H as <-|].
    destruct (index_of (v_name v) cn) as [jj|]; cbn in H; [|discriminate]. destruct (get (v_steps v) i) as [x|]; cbn in H; [|discriminate].
    destruct (set_nth c jj x) as [c1|] eqn:E1; cbn in H; [|discriminate]. rewrite (IH c1 H). apply (set_nth_ok _ _ _ _ E1).
  Qed.
  (** The next guess is one of the solutions with some constants replaced. *)
  Lemma next_from (s s' : strat F P) g : next O s = (s', Ok g) ->
    s_gammas s' = s_gammas s /\ exists lg gi, In lg (s_gammas s) /\ In gi (s_gammas s) /\ t_body g = t_body gi /\ length (t_const g) = length (t_const lg).
  Proof.
    assert (HB : forall (t : strat F P) ig, next_base O t ig = (s', Ok g) ->
      s_gammas s' = s_gammas t /\ exists lg gi, In lg (s_gammas t) /\ In gi (s_gammas t) /\ t_body g = t_body gi /\ length (t_const g) = length (t_const lg)).
    { intros t ig H. apply next_base_cases in H. cbn in H. destruct H as (lg & num & c & i & gi & Hlg & _ & _ & Hput & _ & Hgi & _ & -> & ->).
      split; [reflexivity|]. exists lg, gi. split; [|split; [exact (nth_error_In _ _ Hgi)|split; [reflexivity|exact (put_vars_length _ _ _ _ _ Hput)]]].
      apply in_rev. destruct (rev (s_gammas t)) as [|x l]; [discriminate|]. injection Hlg as ->. now left. }
    assert (HC : forall (t : strat F P) ig, s_gammas t = s_gammas s -> next_base O t ig = (s', Ok g) ->
      s_gammas s' = s_gammas s /\ exists lg gi, In lg (s_gammas s) /\ In gi (s_gammas s) /\ t_body g = t_body gi /\ length (t_const g) = length (t_const lg)).
    { intros t ig E H. rewrite <- E. exact (HB t ig H). }
    unfold next. destruct (s_kind s).
    - now apply HC.
    - unfold next_bisection. destruct (s_ctr s =? 0); [now apply HC|]. destruct (last_conv s) as [[|]|]; [now apply HC| |discriminate].
      destruct (s_ctr s =? 1); [discriminate|]. destruct (s_maxdiv s <? s_divctr s)%Z; [discriminate|].
      destruct (divide_vars O (s_spacing s) (s_ndiv s) (s_ctr s) (s_vars s)) as [vs [u|e]]; [|discriminate]. now apply HC.
    - unfold next_product. destruct (s_ctr s =? 0); [now apply HC|]. destruct (last_conv s) as [[|]|]; [now apply HC| |discriminate]. destruct (s_ctr s =? 1); [discriminate|now apply HC].
    - unfold next_product. destruct (s_ctr s =? 0); [now apply HC|]. destruct (last_conv s) as [[|]|]; [now apply HC| |discriminate]. destruct (s_ctr s =? 1); [discriminate|now apply HC].
  Qed.
End Loop.

Lemma to_sol_body g : t_const g = s_k (t_body g) -> to_sol g = t_body g.
Proof. unfold to_sol. intros ->. now destruct (t_body g). Qed.
Lemma spans_body p a b (g g1 g2 : traj) : spans p a b (to_sol g1) -> spans p a b (to_sol g2) -> t_body g = t_body g1 -> length (t_const g) = length (t_const g2) -> spans p a b (to_sol g).
Proof.
  unfold to_sol, spans, guess_for, guess_ok, shaped. destruct g as [c v s], g1 as [c1 v1 s1], g2 as [c2 v2 s2]. cbn.
  intros ((H1 & H2 & H3 & H4 & H5) & H6) ((_ & _ & _ & _ & G5) & _) -> L. rewrite L. repeat (split; try assumption); apply H6.
Qed.

(** Every call of the solver is a case solved with the functions of [p] and an
    honest solve_bvp.  By [case_sound] the functions stay those of [p]. *)
Definition runs (fn : string -> nat -> R -> R) (p : prob) (auto : bool) (compute : sol R -> factors R) (slv : Cont_Model.solver R (sol R)) : Prop :=
  forall k g, exists log sb al, honest (length (p_states p) + length (p_quads p)) sb /\ carries fn p al /\
    slv k g = match solve_case auto compute log sb al g with Ok r => Ok (snd r) | Raise e => Raise e end.

(** What is known about every trajectory in the output. *)
Definition reached (fn : string -> nat -> R -> R) (p : prob) (a b : R) (g : traj) : Prop :=
  spans p a b (t_body g) /\ t_const g = s_k (t_body g) /\ (converged g -> samples fn p a b (t_body g)).

Lemma call_sound fn p auto compute slv a b k g sol : scaling_ok auto p compute -> runs fn p auto compute slv ->
  spans p a b (to_sol g) -> slv k g = Ok sol -> reached fn p a b sol /\ t_const sol = t_const g /\ spans p a b (to_sol sol).
Proof.
  intros SC RU (GF & H0 & H1 & NE) SV. destruct (RU k g) as (log & sb & al & HO & CA & E). rewrite E in SV.
  unfold solve_case in SV. destruct (loop_solve ROps auto compute sb al (to_sol g)) as [[al' r]|] eqn:LS; [|discriminate]. cbn [bind fst snd] in SV.
  destruct (if log then _ else _); [|discriminate]. cbn [bind] in SV. injection SV as <-.
  destruct (case_sound fn p auto compute sb al (to_sol g) al' r SC HO CA GF NE LS) as (_ & SP & SK & SA). rewrite H0, H1 in SP, SA.
  assert (RE : reached fn p a b (of_result r)).
  { split; [exact SP|]. split; [reflexivity|]. intros C. apply SA. unfold converged, of_result in C. cbn in C. now destruct (sr_converged r). }
  split; [exact RE|]. split; [exact SK|]. rewrite to_sol_body by reflexivity. exact SP.
Qed.

(** What is known about every call: guess and answer. *)
Definition call_ok fn (p : prob) (slv : Cont_Model.solver R (sol R)) (a b : R) (c : traj * traj) : Prop :=
  reached fn p a b (snd c) /\ t_const (snd c) = t_const (fst c) /\ spans p a b (to_sol (fst c)) /\ exists k, slv k (fst c) = Ok (snd c).
Lemma iterate_sound fn p auto compute slv a b : scaling_ok auto p compute -> runs fn p auto compute slv ->
  forall fuel k s guess calls, (Forall (fun g => spans p a b (to_sol g)) (s_gammas s) /\ spans p a b (to_sol guess) /\ Forall (call_ok fn p slv a b) calls) ->
  forall s' last calls', iterate ROps fuel slv k s guess calls = Finished s' last calls' ->
  spans p a b (to_sol last) /\ Forall (call_ok fn p slv a b) calls'.
Proof.
  intros SC RU.
  apply (iterate_inv ROps slv
    (fun s guess calls => Forall (fun g => spans p a b (to_sol g)) (s_gammas s) /\ spans p a b (to_sol guess) /\ Forall (call_ok fn p slv a b) calls)
    (fun o => forall s' last calls', o = Finished s' last calls' -> spans p a b (to_sol last) /\ Forall (call_ok fn p slv a b) calls')); try discriminate.
  - intros s guess calls s' (G & H & C) _ s2 l2 c2 E. injection E as <- <- <-. split; assumption.
  - intros s guess calls s' g k sol (G & H & C) N SV. destruct (next_from ROps s s' g N) as (E & lg & gi & I1 & I2 & B & L). rewrite Forall_forall in G.
    assert (SG := spans_body p a b g gi lg (G gi I2) (G lg I1) B L). destruct (call_sound fn p auto compute slv a b k g sol SC RU SG SV) as (R1 & R2 & R3).
    split; [|split; [exact R3|]].
    + unfold add_gamma. cbn. rewrite E. apply Forall_app. split; [now apply Forall_forall|]. now constructor.
    + apply Forall_app. split; [exact C|]. constructor; [|constructor]. split; [exact R1|]. split; [exact R2|]. split; [exact SG|now exists k].
Qed.

Lemma steps_sound fn p auto compute slv a b fuel cn : scaling_ok auto p compute -> runs fn p auto compute slv ->
  forall ss k guess acc out, spans p a b (to_sol guess) -> Forall (Forall (reached fn p a b)) acc ->
  run_steps ROps fuel slv k ss guess cn acc = SetDone out -> Forall (Forall (reached fn p a b)) out.
Proof.
  intros SC RU. induction ss as [|s ss IH]; intros k guess acc out SP HA H; cbn [run_steps] in H; [now injection H as <-|].
  unfold run_step in H. destruct (init ROps (reset s) guess cn) as [s' [u|e]] eqn:EI; [|discriminate].
  destruct (init_facts ROps (reset s) s' guess cn u EI) as (_ & EG & _).
  destruct (iterate ROps fuel slv k s' guess []) as [s2 lst calls| |] eqn:IT; try discriminate.
  assert (IS' : spans p a b (to_sol lst) /\ Forall (call_ok fn p slv a b) calls).
  { apply (iterate_sound fn p auto compute slv a b SC RU fuel k s' guess [] ) with (s' := s2); [|exact IT]. rewrite EG. split; [|split; [exact SP|constructor]]. constructor; [|constructor]. exact SP. }
  destruct IS' as [SL SCC]. apply (IH (k + length calls) lst (acc ++ [map snd calls]) out SL); [|exact H]. apply Forall_app. split; [exact HA|]. constructor; [|constructor].
  apply Forall_forall. intros g I. apply in_map_iff in I. destruct I as (c & <- & I). rewrite Forall_forall in SCC. exact (proj1 (SCC c I)).
Qed.

Lemma set_sound fn p auto compute slv a b fuel steps guess cn out : scaling_ok auto p compute -> runs fn p auto compute slv ->
  spans p a b (to_sol guess) -> run_set ROps fuel slv steps guess cn = SetDone out -> Forall (Forall (reached fn p a b)) out.
Proof.
  intros SC RU SP H. unfold run_set in H. destruct steps as [ss|].
  - exact (steps_sound fn p auto compute slv a b fuel cn SC RU ss 0 guess [] out SP (Forall_nil _) H).
  - destruct (slv 0 guess) as [sol|] eqn:SV; [|discriminate]. injection H as <-. destruct (call_sound fn p auto compute slv a b 0 guess sol SC RU SP SV) as (RR & _). constructor; [|constructor]. constructor; [exact RR|constructor].
Qed.

(** ** The logged residuals *)
Lemma bc_length fn p cu y0 q0 yf qf pp pc k r : bc_func fn p cu y0 q0 yf qf pp pc k = Ok r -> length r = length (p_ci p) + length (p_ct p).
Proof.
  unfold bc_func. cbv zeta. intros H. match type of H with bind ?x _ = _ => destruct x as [b0|] eqn:E0; [|discriminate] end. cbn [bind] in H.
  match type of H with bind ?x _ = _ => destruct x as [bf|] eqn:E1; [|discriminate] end. cbn [bind] in H. injection H as <-.
  apply call_length in E0. apply call_length in E1. rewrite app_length, E0, E1. unfold bc_exprs. now rewrite !map_length.
Qed.
Lemma residuals_zero fn p a b al s : carries fn p al -> spans p a b s -> samples fn p a b s ->
  exists rs, residuals al s = Ok rs /\ Forall (fun x => x = 0%R) rs /\ length rs = length (p_ci p) + length (p_ct p).
Proof.
  intros (_ & _ & CB) (_ & H0 & H1 & NE) (_ & Y & Q & LYQ & EY & EQ & (_ & (rs & BC & Z))). exists rs. split; [|split; [exact Z|exact (bc_length _ _ _ _ _ _ _ _ _ _ _ BC)]].
  unfold residuals. rewrite EY, EQ. destruct (s_t s) as [|x l] eqn:ET; [contradiction|]. cbn [hd] in H0. subst x.
  assert (LM : forall f : R -> list R, last (map f (a :: l)) [] = f b).
  { intros f. rewrite <- H1. clear. revert a. induction l as [|y l IH]; intros a; [reflexivity|]. cbn [map last] in *. rewrite IH. reflexivity. }
  assert (FR : forall w (f : R -> list R), first_row (Mat w (map f (a :: l))) = Ok (f a) /\ last_row (Mat w (map f (a :: l))) = Ok (f b)).
  { intros w f. split; [reflexivity|]. unfold last_row. rewrite LM. reflexivity. }
  rewrite !(proj1 (FR _ _)), !(proj2 (FR _ _)). cbn [bind]. rewrite CB. destruct (p_quads p) as [|q qs] eqn:PQ.
  - cbn [length Nat.eqb]. replace (0 <? nquads_of (Mat 0 (map Q (a :: l)))) with false by (cbn; reflexivity). cbn [bc5]. unfold bc_of.
    assert (QN : forall t, Q t = []) by (intros t; assert (L := proj2 (LYQ t)); cbn in L; now destruct (Q t)). rewrite !QN in BC. exact BC.
  - cbn [length Nat.eqb]. replace (0 <? nquads_of (Mat (S (length qs)) (map Q (a :: l)))) with true by (cbn; reflexivity). cbn [bc7]. exact BC.
Qed.
