(** C83: the continuation loop with scaling and collocation returns solutions. *)
From Coq Require Import Reals Lra FunctionalExtensionality.
From Coquelicot Require Import Coquelicot.
From Verif Require Import Base Base_Facts Sym_Expr Sym_Facts Sym_Model Sym_Lu Sym_Dual Map_Model Scale_Model Jac_Model Unit_Model Unit_Spec Unit_Proofs Unit_Steps Unit_Scale Unit_Properties.
From Verif Require Import Spbvp_Model Spbvp_Properties Pipe_Model.
Open Scope string_scope.
Open Scope list_scope.
Open Scope nat_scope.

Definition deriv_of fn p : list R -> list R -> list R -> res (list R) := fun y pp k => deriv_func fn p (law_control fn p) y None pp k.
Definition quad_of fn p : list R -> list R -> list R -> res (list R) := fun y pp k => quad_func fn p (law_control fn p) y None pp k.
Definition bc_of fn p := fun y0 q0 yf qf pp pc k => bc_func fn p (law_control fn p) y0 q0 yf qf pp pc k.

Lemma call_fits fn groups es vals v : call fn groups es vals = Ok v -> fits groups vals = true.
Proof. unfold call. now destruct (fits groups vals). Qed.
Lemma near_zero (d v : R) : (Rabs (d - v) <= 0)%R -> d = v.
Proof. intros H. assert (Rabs (d - v) = 0)%R by (apply Rle_antisym; [exact H|apply Rabs_pos]). apply Rabs_eq_0 in H0. lra. Qed.
Lemma near_exact fn p a b Y Q pp pc k :
  solves fn p a b Y Q pp pc k <->
  near_solution 0 (length (p_states p)) (length (p_quads p)) (deriv_of fn p) (quad_of fn p) (bc_of fn p) a b Y Q pp pc k.
Proof.
  unfold solves, near_solution. assert (Z : forall x : R, (Rabs (x - x) <= 0)%R) by (intros x; rewrite Rminus_eq_0, Rabs_R0; lra).
  assert (RS : (exists r, bc_func fn p (law_control fn p) (Y a) (Q a) (Y b) (Q b) pp pc k = Ok r /\ Forall (fun x => x = 0%R) r) <->
               (exists r, bc_of fn p (Y a) (Q a) (Y b) (Q b) pp pc k = Ok r /\ Forall (fun x => (Rabs x <= 0)%R) r)).
  { split; intros (r & E & F); exists r; (split; [exact E|]); rewrite Forall_forall in *; intros x I; specialize (F x I).
    - rewrite F, Rabs_R0. lra.
    - apply (near_zero x 0). now rewrite Rminus_0_r. }
  rewrite <- RS. cbv zeta. split; (intros [D R]; split; [|exact R]); intros t Ht; specialize (D t Ht).
  - destruct D as (v & w & V & W & DV & DW). split; [|intros _].
    + exists v. split; [exact V|]. intros i Hi. exists (nth i v 0%R). split; [now apply DV|apply Z].
    + exists w. split; [exact W|]. intros i Hi. exists (nth i w 0%R). split; [now apply DW|apply Z].
  - destruct D as [(v & V & DV) DW]. exists v.
    assert (W : exists w, quad_func fn p (law_control fn p) (Y t) None pp k = Ok w /\
              forall i, i < length (p_quads p) -> exists d, is_derive (fun s => nth i (Q s) 0%R) t d /\ (Rabs (d - nth i w 0) <= 0)%R).
    { destruct (p_quads p) as [|x l] eqn:EQ.
      - exists []. split; [|intros i Hi; cbn in Hi; lia]. unfold quad_func. rewrite EQ. unfold deriv_of, deriv_func in V. apply call_fits in V.
        unfold call. cbn [eoms map forallb]. now rewrite V.
      - apply DW. cbn. lia. }
    destruct W as (w & W & DW'). exists w. split; [exact V|]. split; [exact W|]. split; intros i Hi.
    + destruct (DV i Hi) as (d & D1 & D2). apply near_zero in D2. now subst d.
    + destruct (DW' i Hi) as (d & D1 & D2). apply near_zero in D2. now subst d.
Qed.

(** A guess with the shapes of the problem. *)
Definition guess_for (p : prob) (g : sol R) : Prop :=
  guess_ok (length (p_states p)) (length (p_quads p)) g /\
  (s_u g = E1 \/ exists rows, s_u g = Mat (length (p_controls p)) rows) /\ shaped p (s_p g) (s_nu g) (s_k g).
(** The values times the factors. *)
Definition restored (l f : list R) : list R := map2 Rmult l f.

Lemma restored_scaled l f : length l = length f -> Forall (fun x => (0 < x)%R) f -> restored (scaled l f) f = l.
Proof.
  unfold restored, scaled. revert f; induction l as [|x l IH]; intros [|y f] L P; try discriminate; [reflexivity|]. cbn.
  inversion P; subst. rewrite IH; [|now injection L|assumption]. f_equal. field. lra.
Qed.
Lemma scaled_restored l f : length l = length f -> Forall (fun x => (0 < x)%R) f -> scaled (restored l f) f = l.
Proof.
  unfold restored, scaled. revert f; induction l as [|x l IH]; intros [|y f] L P; try discriminate; [reflexivity|]. cbn.
  inversion P; subst. rewrite IH; [|now injection L|assumption]. f_equal. field. lra.
Qed.
Lemma map2_length (op : R -> R -> R) l f : length l = length f -> length (map2 op l f) = length l.
Proof. revert f; induction l as [|x l IH]; intros [|y f] L; try discriminate; [reflexivity|]. cbn. rewrite IH; auto. Qed.
Lemma hd_map_div (ft : R) l : hd 0%R (map (fun x => x / ft)%R l) = (hd 0 l / ft)%R.
Proof. destruct l; cbn; [unfold Rdiv; ring|reflexivity]. Qed.
Lemma hd_map_mul (ft : R) l : hd 0%R (map (fun x => x * ft)%R l) = (hd 0 l * ft)%R.
Proof. destruct l; cbn; [ring|reflexivity]. Qed.
Lemma last_map0 (f : R -> R) l : f 0%R = 0%R -> last (map f l) 0%R = f (last l 0%R).
Proof. intros Z. induction l as [|x l IH]; [now cbn|]. destruct l; [reflexivity|]. exact IH. Qed.

Lemma factor_facts fac G p u : positive fac -> consistent G p u -> let f := component_factors u fac in
  (0 < f_t f)%R /\
  (length (f_y f) = length (p_states p) /\ Forall (fun x => (0 < x)%R) (f_y f)) /\ (length (f_q f) = length (p_quads p) /\ Forall (fun x => (0 < x)%R) (f_q f)) /\
  length (f_u f) = length (p_controls p) /\
  (length (f_p f) = length (p_params p) /\ Forall (fun x => (0 < x)%R) (f_p f)) /\ (length (f_nu f) = length (p_cpars p) /\ Forall (fun x => (0 < x)%R) (f_nu f)) /\
  (length (f_k f) = length (p_consts p) /\ Forall (fun x => (0 < x)%R) (f_k f)).
Proof.
  intros P K f. unfold f. cbn.
  assert (PROP : forall xs us, Forall2 (has G) xs us -> length (map (unit_value fac) us) = length xs /\ Forall (fun x => (0 < x)%R) (map (unit_value fac) us)).
  { intros xs us H. split; [rewrite map_length; symmetry; apply (Forall2_length' _ _ _ H)|].
    apply unit_pos; [exact P|]. exact (has_proper G p u xs us K H). }
  split; [apply (k_proper _ _ _ K _ _ (k_ind _ _ _ K)); exact P|].
  destruct (PROP _ _ (state_has fac G p u K)) as [S1 S2]. destruct (PROP _ _ (quad_has fac G p u K)) as [Q1 Q2].
  assert (L1 : length (states p) = length (p_states p)) by (unfold states, syms; apply map_length).
  assert (L2 : length (quads p) = length (p_quads p)) by (unfold quads, syms; apply map_length). rewrite L1 in S1. rewrite L2 in Q1.
  split; [split; assumption|]. split; [split; assumption|]. split; [apply PROP, (k_controls _ _ _ K)|].
  split; [apply PROP, (k_params _ _ _ K)|]. split; [apply PROP, (k_cpars _ _ _ K)|]. apply PROP, (k_consts _ _ _ K).
Qed.

(** Scaling a guess keeps its shape. *)
Lemma scaled_guess p f g : length (f_y f) = length (p_states p) -> length (f_q f) = length (p_quads p) -> length (f_u f) = length (p_controls p) ->
  length (f_p f) = length (p_params p) -> length (f_nu f) = length (p_cpars p) -> length (f_k f) = length (p_consts p) ->
  guess_for p g -> exists g1, scale_sol ROps g f false = Ok g1 /\ guess_ok (length (p_states p)) (length (p_quads p)) g1 /\
    (s_u g1 = E1 \/ exists rows, s_u g1 = Mat (length (p_controls p)) rows) /\
    s_t g1 = map (fun t => t / f_t f)%R (s_t g) /\ s_p g1 = scaled (s_p g) (f_p f) /\ s_nu g1 = scaled (s_nu g) (f_nu f) /\ s_k g1 = scaled (s_k g) (f_k f).
Proof.
  intros Ly Lq Lu Lp Lnu Lk ((rows & EY & NE & HQ) & HU & (Sp & Sn & Sk)). unfold scale_sol. cbv zeta.
  assert (AY : scale_arr (ndiv ROps) (s_y g) (f_y f) = Ok (Mat (length (p_states p)) (map (fun r => map2 Rdiv r (f_y f)) rows))).
  { rewrite EY. cbn. now rewrite Ly, Nat.eqb_refl. }
  assert (AQ : exists q1, scale_arr (ndiv ROps) (s_q g) (f_q f) = Ok q1 /\
    (if length (p_quads p) =? 0 then q1 = E1 \/ (exists qs, q1 = Mat 0 qs) else exists qs, q1 = Mat (length (p_quads p)) qs /\ length qs = length rows)).
  { destruct (length (p_quads p) =? 0) eqn:Z.
    - apply Nat.eqb_eq in Z. destruct (f_q f); [|cbn in Lq; lia]. destruct HQ as [->|(qs & ->)]; cbn; eexists; (split; [reflexivity|]); [now left|right; now eexists].
    - destruct HQ as (qs & -> & L). cbn. rewrite Lq, Nat.eqb_refl. eexists. split; [reflexivity|]. eexists. split; [reflexivity|]. now rewrite map_length. }
  destruct AQ as (q1 & AQ & HQ1).
  assert (AU : exists u1, (if nonempty (s_u g) then scale_arr (ndiv ROps) (s_u g) (f_u f) else Ok (s_u g)) = Ok u1 /\
    (u1 = E1 \/ exists rows, u1 = Mat (length (p_controls p)) rows)).
  { destruct HU as [->|(us & ->)]; cbn [nonempty]; [exists E1; split; [reflexivity|now left]|].
    destruct (_ && _); [|eexists; split; [reflexivity|right; now eexists]].
    cbn. rewrite Lu, Nat.eqb_refl. eexists. split; [reflexivity|right; now eexists]. }
  destruct AU as (u1 & AU & HU1).
  cbn [set_t s_t s_y set_y s_q set_q s_u set_u s_p set_p s_nu set_nu s_k set_k]. rewrite AY. cbn [bind set_y s_q]. rewrite AQ. cbn [bind set_q s_u]. rewrite AU. cbn [bind set_u s_p].
  change (ndiv ROps) with Rdiv. rewrite bcast_same by lia. cbn [bind set_p s_nu]. rewrite bcast_same by lia. cbn [bind set_nu s_k]. rewrite bcast_same by lia. cbn [bind].
  eexists. split; [reflexivity|]. cbn. split.
  - eexists. split; [reflexivity|]. split; [now destruct rows|]. destruct (length (p_quads p) =? 0); [exact HQ1|]. destruct HQ1 as (qs & E & L). exists qs. split; [exact E|]. now rewrite map_length.
  - split; [exact HU1|]. repeat split.
Qed.

Lemma scaled_run : forall fn fac G p u al guess f compute,
  positive fac -> consistent G p u -> f = component_factors u fac -> compute guess = f -> loaded fn p al -> guess_for p guess ->
  let n := length (p_states p) + length (p_quads p) in
  exists h, h_t h = map (fun t => t / f_t f)%R (s_t guess) /\ h_p h = scaled (s_p guess) (f_p f) ++ scaled (s_nu guess) (f_nu f) /\
  (* the problem handed to the collocation is the scaled problem *)
  (forall a b Y Q pp nu, (forall t, length (Y t) = length (p_states p)) -> (forall t, length (Q t) = length (p_quads p)) ->
     length pp = length (p_params p) -> length nu = length (p_cpars p) ->
     (solves fn p a b Y Q pp nu (s_k guess) <->
      solves_handed 0 h n (a / f_t f) (b / f_t f) (fun s => scaled (Y (s * f_t f)%R) (f_y f) ++ scaled (Q (s * f_t f)%R) (f_q f))
        (scaled pp (f_p f) ++ scaled nu (f_nu f)))) /\
  (forall eps a b Y Q pp nu, (forall t, length (Y t) = length (p_states p)) -> (forall t, length (Q t) = length (p_quads p)) ->
     length pp = length (p_params p) -> length nu = length (p_cpars p) ->
     (near_solution eps (length (p_states p)) (length (p_quads p)) (deriv_of fn p) (quad_of fn p) (bc_of fn p) a b Y Q pp nu (scaled (s_k guess) (f_k f)) <->
      solves_handed eps h n a b (fun s => Y s ++ Q s) (pp ++ nu))) /\
  (* a failure is passed on *)
  (forall sb e, sb h = Raise e -> loop_solve ROps true compute sb al guess = Raise e) /\
  (forall sb o al' r, sb h = Ok o -> loop_solve ROps true compute sb al guess = Ok (al', r) -> sr_converged r = o_success o) /\
  (* the trajectory returned consists of samples of a solution, at the constants of the guess *)
  (forall sb o eps, sb h = Ok o -> good_result eps h n o ->
     exists al' r, loop_solve ROps true compute sb al guess = Ok (al', r) /\ sr_converged r = o_success o /\
     let s := sr_sol r in let a := hd 0%R (s_t guess) in let b := last (s_t guess) 0%R in
     hd 0%R (s_t s) = a /\ last (s_t s) 0%R = b /\ Forall (fun t => (a <= t <= b)%R) (s_t s) /\ s_k s = s_k guess /\
     exists Y Q, (forall t, length (Y t) = length (p_states p) /\ length (Q t) = length (p_quads p)) /\ s_y s = Mat (length (p_states p)) (map Y (s_t s)) /\ s_q s = Mat (length (p_quads p)) (map Q (s_t s)) /\
       near_solution eps (length (p_states p)) (length (p_quads p)) (deriv_of fn p) (quad_of fn p) (bc_of fn p) (a / f_t f) (b / f_t f)
         (fun s => scaled (Y (s * f_t f)%R) (f_y f)) (fun s => scaled (Q (s * f_t f)%R) (f_q f)) (scaled (s_p s) (f_p f)) (scaled (s_nu s) (f_nu f)) (scaled (s_k s) (f_k f)) /\
       shaped p (s_p s) (s_nu s) (s_k s)).
Proof.
  intros fn fac G p u al guess f compute P K EF CF LD GO n.
  destruct (factor_facts fac G p u P K) as (Pt & (Ly & Py) & (Lq & Pq) & Lu & (Lp & Pp) & (Lnu & Pnu) & (Lk & Pk)). rewrite <- EF in *.
  assert (C74 := fun a b Y Q pp pc k => C74_solutions fn fac G p u f a b Y Q pp pc k P K EF). clear EF.
  destruct (scaled_guess p f guess Ly Lq Lu Lp Lnu Lk GO) as (g1 & SG & GO1 & GU1 & ET & EP & EN & EK).
  destruct GO as (GO & GU & (Sp & Sn & Sk)).
  destruct (C81_collocation (length (p_states p)) (length (p_quads p)) (deriv_of fn p) (quad_of fn p) (bc_of fn p) al g1 LD GO1) as (h & HT & HP & IFF & HR & RUN).
  { intros y pp v H. apply call_length in H. rewrite H. unfold eoms. now rewrite map_length. }
  { intros y pp v H. apply call_length in H. rewrite H. unfold eoms. now rewrite map_length. }
  exists h. split; [now rewrite HT, ET|]. split; [now rewrite HP, EP, EN|].
  assert (LPP : length (s_p g1) = length (p_params p)) by (rewrite EP; unfold scaled; rewrite map2_length; lia).
  assert (LNN : length (s_nu g1) = length (p_cpars p)) by (rewrite EN; unfold scaled; rewrite map2_length; lia).
  split.
  { intros a b Y Q pp nu LY LQ LP LN. rewrite (C74 a b Y Q pp nu (s_k guess)) by (try split; auto; now split).
    rewrite near_exact, <- EK. apply IFF.
    - intros t. unfold scaled. rewrite map2_length; rewrite LY; auto.
    - intros t. unfold scaled. rewrite map2_length; rewrite LQ; auto.
    - unfold scaled. rewrite map2_length; lia.
    - unfold scaled. rewrite map2_length; lia. }
  split.
  { intros eps a b Y Q pp nu LY LQ LP LN. rewrite <- EK. apply IFF; congruence || auto. }
  unfold loop_solve. cbv zeta. rewrite CF, SG. cbn [bind]. split.
  { intros sb e E. now rewrite (HR sb e E). }
  split.
  { intros sb o al' r E. destruct (RUN sb o E) as (al1 & r1 & R1 & R2 & _). rewrite R1. cbn [bind fst snd]. destruct (scale_sol ROps (sr_sol r1) f true); [|discriminate]. cbn [bind]. intros H. injection H as <- <-. exact R2. }
  intros sb o eps E GR. destruct (RUN sb o E) as (al' & r & R1 & R2 & R3 & R4 & R5 & RU & R6). rewrite R1. cbn [bind fst snd].
  destruct (R6 eps GR) as (GA & GB & GT & Y & Q & LY & LQ & EY & EQ & LR & LN & PA & NS). cbv zeta in *. rewrite LPP in LR. rewrite LNN in LN.
  set (s1 := sr_sol r) in *.
  assert (SU : exists s, scale_sol ROps s1 f true = Ok s /\ s_t s = map (fun t => t * f_t f)%R (s_t s1) /\
     s_y s = Mat (length (p_states p)) (map (fun t => restored (Y t) (f_y f)) (s_t s1)) /\
     s_q s = Mat (length (p_quads p)) (map (fun t => restored (Q t) (f_q f)) (s_t s1)) /\
     s_p s = restored (s_p s1) (f_p f) /\ s_nu s = restored (s_nu s1) (f_nu f) /\ s_k s = restored (s_k s1) (f_k f)).
  { unfold scale_sol. cbv zeta. cbn [set_t s_t s_y set_y s_q set_q s_u set_u s_p set_p s_nu set_nu s_k set_k].
    rewrite EY. cbn [scale_arr bind]. rewrite Ly, Nat.eqb_refl. cbn [bind set_y s_q]. rewrite EQ. cbn [scale_arr]. rewrite Lq, Nat.eqb_refl. cbn [bind set_q s_u].
    assert (AU : exists u1, (if nonempty (s_u s1) then scale_arr (nmul ROps) (s_u s1) (f_u f) else Ok (s_u s1)) = Ok u1).
    { rewrite RU. destruct GU1 as [->|(us & ->)]; cbn [nonempty]; [now eexists|]. destruct (_ && _); [|now eexists]. cbn. rewrite Lu, Nat.eqb_refl. now eexists. }
    destruct AU as (u1 & AU). rewrite AU. cbn [bind set_u s_p]. change (nmul ROps) with Rmult.
    assert (BC : forall l g, length l = length g -> bcast Rmult l g = Ok (restored l g)) by (intros l g H; unfold bcast; now rewrite H, Nat.eqb_refl).
    rewrite BC by lia. cbn [bind set_p s_nu]. rewrite BC by lia. cbn [bind set_nu s_k].
    rewrite BC by (rewrite R5, EK; unfold scaled; rewrite map2_length; lia). cbn [bind]. eexists. split; [reflexivity|]. cbn. rewrite !map_map. repeat split. }
  destruct SU as (s & SS & ST & SY & SQ & SP & SN & SK). rewrite SS. cbn [bind]. eexists _, _. split; [reflexivity|]. cbn [sr_converged sr_sol].
  split; [exact R2|]. assert (Ft : f_t f <> 0%R) by lra.
  assert (E1 : hd 0%R (s_t s) = hd 0%R (s_t guess)) by (rewrite ST, hd_map_mul, GA, ET, hd_map_div; field; lra).
  assert (E2 : last (s_t s) 0%R = last (s_t guess) 0%R).
  { rewrite ST, (last_map0 (fun t => t * f_t f)%R) by ring. rewrite GB, ET, (last_map0 (fun t => t / f_t f)%R) by (unfold Rdiv; ring). field. lra. }
  assert (E3 : s_k s = s_k guess) by (rewrite SK, R5, EK; apply restored_scaled; [lia|exact Pk]).
  split; [exact E1|]. split; [exact E2|]. split.
  { rewrite ST, <- E1, <- E2, ST, hd_map_mul, (last_map0 (fun t => t * f_t f)%R) by ring. rewrite GA, GB, ET, hd_map_div, (last_map0 (fun t => t / f_t f)%R) by (unfold Rdiv; ring).
    rewrite Forall_forall in GT |- *. intros t I. apply in_map_iff in I. destruct I as (t1 & <- & I). specialize (GT _ I).
    rewrite ET, hd_map_div, (last_map0 (fun t => t / f_t f)%R) in GT by (unfold Rdiv; ring). split; apply Rmult_le_compat_r; lra. }
  split; [exact E3|].
  exists (fun t => restored (Y (t / f_t f)%R) (f_y f)), (fun t => restored (Q (t / f_t f)%R) (f_q f)).
  assert (TT : forall x : R, (x * f_t f / f_t f)%R = x) by (intros x; field; lra).
  split; [intros t; unfold restored; rewrite !map2_length; rewrite ?LY, ?LQ; auto|].
  split; [rewrite SY, ST, map_map; f_equal; apply map_ext; intros t; now rewrite TT|].
  split; [rewrite SQ, ST, map_map; f_equal; apply map_ext; intros t; now rewrite TT|].
  rewrite E3. split.
  - rewrite GA in *.
    assert (EA : (hd 0 (s_t guess) / f_t f)%R = hd 0%R (s_t g1)) by (rewrite ET, hd_map_div; reflexivity).
    assert (EB : (last (s_t guess) 0 / f_t f)%R = last (s_t g1) 0%R) by (rewrite ET, (last_map0 (fun t => t / f_t f)%R) by (unfold Rdiv; ring); reflexivity).
    rewrite EA, EB, SP, SN, !scaled_restored, <- EK by (auto; lia). rewrite R5 in NS.
    replace (fun s0 : R => scaled (restored (Y (s0 * f_t f / f_t f)%R) (f_y f)) (f_y f)) with Y
      by (apply functional_extensionality; intros x; rewrite TT, scaled_restored; auto; now rewrite LY).
    replace (fun s0 : R => scaled (restored (Q (s0 * f_t f / f_t f)%R) (f_q f)) (f_q f)) with Q
      by (apply functional_extensionality; intros x; rewrite TT, scaled_restored; auto; now rewrite LQ).
    exact NS.
  - rewrite SP, SN. unfold restored. split; [rewrite map2_length; lia|]. split; [rewrite map2_length; lia|exact Sk].
Qed.

Theorem C83_scaled_collocation : forall fn fac G p u al guess f compute,
  positive fac -> consistent G p u -> f = component_factors u fac -> compute guess = f -> loaded fn p al -> guess_for p guess ->
  let n := length (p_states p) + length (p_quads p) in
  exists h, h_t h = map (fun t => t / f_t f)%R (s_t guess) /\ h_p h = scaled (s_p guess) (f_p f) ++ scaled (s_nu guess) (f_nu f) /\
  (* the problem handed to the collocation is the scaled problem *)
  (forall a b Y Q pp nu, (forall t, length (Y t) = length (p_states p)) -> (forall t, length (Q t) = length (p_quads p)) ->
     length pp = length (p_params p) -> length nu = length (p_cpars p) ->
     (solves fn p a b Y Q pp nu (s_k guess) <->
      solves_handed 0 h n (a / f_t f) (b / f_t f) (fun s => scaled (Y (s * f_t f)%R) (f_y f) ++ scaled (Q (s * f_t f)%R) (f_q f))
        (scaled pp (f_p f) ++ scaled nu (f_nu f)))) /\
  (* a failure is passed on *)
  (forall sb e, sb h = Raise e -> loop_solve ROps true compute sb al guess = Raise e) /\
  (forall sb o al' r, sb h = Ok o -> loop_solve ROps true compute sb al guess = Ok (al', r) -> sr_converged r = o_success o) /\
  (* the trajectory returned consists of samples of a solution, at the constants of the guess *)
  (forall sb o, sb h = Ok o -> good_result 0 h n o ->
     exists al' r, loop_solve ROps true compute sb al guess = Ok (al', r) /\ sr_converged r = o_success o /\
     let s := sr_sol r in let a := hd 0%R (s_t guess) in let b := last (s_t guess) 0%R in
     hd 0%R (s_t s) = a /\ last (s_t s) 0%R = b /\ Forall (fun t => (a <= t <= b)%R) (s_t s) /\ s_k s = s_k guess /\
     exists Y Q, (forall t, length (Y t) = length (p_states p) /\ length (Q t) = length (p_quads p)) /\ s_y s = Mat (length (p_states p)) (map Y (s_t s)) /\ s_q s = Mat (length (p_quads p)) (map Q (s_t s)) /\
       solves fn p a b Y Q (s_p s) (s_nu s) (s_k s)).
Proof.
  intros fn fac G p u al guess f compute P K EF CF LD GO n.
  destruct (scaled_run fn fac G p u al guess f compute P K EF CF LD GO) as (h & H1 & H2 & H3 & _ & H4 & H5 & H6). exists h. repeat (split; [assumption|]).
  intros sb o E GR. destruct (H6 sb o 0%R E GR) as (al' & r & R1 & R2 & R3 & R4 & R5 & R6 & Y & Q & LL & EY & EQ & NS & SH). exists al', r. split; [exact R1|]. split; [exact R2|]. cbv zeta.
  split; [exact R3|]. split; [exact R4|]. split; [exact R5|]. split; [exact R6|]. exists Y, Q. split; [exact LL|]. split; [exact EY|]. split; [exact EQ|].
  apply (C74_solutions fn fac G p u f _ _ Y Q _ _ _ P K EF SH LL). apply near_exact. exact NS.
Qed.
Print Assumptions C83_scaled_collocation.

(** The same without scaling. *)
Theorem C83_unscaled_collocation : forall fn p al guess factors, loaded fn p al -> guess_for p guess ->
  let n := length (p_states p) + length (p_quads p) in
  exists h, h_t h = s_t guess /\ h_p h = s_p guess ++ s_nu guess /\
  (forall a b Y Q pp nu, (forall t, length (Y t) = length (p_states p)) -> (forall t, length (Q t) = length (p_quads p)) ->
     length pp = length (p_params p) -> length nu = length (p_cpars p) ->
     (solves fn p a b Y Q pp nu (s_k guess) <-> solves_handed 0 h n a b (fun s => Y s ++ Q s) (pp ++ nu))) /\
  (forall sb e, sb h = Raise e -> loop_solve ROps false factors sb al guess = Raise e) /\
  (forall sb o al' r, sb h = Ok o -> loop_solve ROps false factors sb al guess = Ok (al', r) -> sr_converged r = o_success o) /\
  (forall sb o, sb h = Ok o -> good_result 0 h n o ->
     exists al' r, loop_solve ROps false factors sb al guess = Ok (al', r) /\ sr_converged r = o_success o /\
     let s := sr_sol r in let a := hd 0%R (s_t guess) in let b := last (s_t guess) 0%R in
     hd 0%R (s_t s) = a /\ last (s_t s) 0%R = b /\ Forall (fun t => (a <= t <= b)%R) (s_t s) /\ s_k s = s_k guess /\ s_p s ++ s_nu s = params_of o /\
     exists Y Q, (forall t, length (Y t) = length (p_states p) /\ length (Q t) = length (p_quads p)) /\ s_y s = Mat (length (p_states p)) (map Y (s_t s)) /\ s_q s = Mat (length (p_quads p)) (map Q (s_t s)) /\
       solves fn p a b Y Q (s_p s) (s_nu s) (s_k s)).
Proof.
  intros fn p al guess factors LD (GO & GU & (Sp & Sn & Sk)) n.
  destruct (C81_collocation (length (p_states p)) (length (p_quads p)) (deriv_of fn p) (quad_of fn p) (bc_of fn p) al guess LD GO) as (h & HT & HP & IFF & HR & RUN).
  { intros y pp v H. apply call_length in H. rewrite H. unfold eoms. now rewrite map_length. }
  { intros y pp v H. apply call_length in H. rewrite H. unfold eoms. now rewrite map_length. }
  exists h. split; [exact HT|]. split; [exact HP|]. split.
  { intros a b Y Q pp nu LY LQ LP LN. rewrite near_exact. apply IFF; auto; congruence. }
  split.
  { intros sb e E. unfold loop_solve. cbv zeta. cbn [bind]. now rewrite (HR sb e E). }
  split.
  { intros sb o al' r E. destruct (RUN sb o E) as (al1 & r1 & R1 & R2 & _). unfold loop_solve. cbv zeta. cbn [bind]. rewrite R1. cbn [bind fst snd]. intros H. injection H as <- <-. exact R2. }
  intros sb o E GR. destruct (RUN sb o E) as (al' & r & R1 & R2 & R3 & R4 & R5 & RU & R6).
  destruct (R6 0%R GR) as (GA & GB & GT & Y & Q & LY & LQ & EY & EQ & LR & LN & PA & NS).
  unfold loop_solve. cbv zeta. cbn [bind]. rewrite R1. cbn [bind fst snd]. eexists _, _. split; [reflexivity|]. cbn [sr_converged sr_sol].
  split; [exact R2|]. cbv zeta in *. split; [exact GA|]. split; [exact GB|]. split; [exact GT|]. split; [exact R5|]. split; [exact PA|].
  exists Y, Q. split; [intros t; split; [apply LY|apply LQ]|]. split; [exact EY|]. split; [exact EQ|]. apply near_exact. exact NS.
Qed.
Print Assumptions C83_unscaled_collocation.

(** x' = w with an unknown speed w, d' = x, from x = d = 0 to x = xf in 2 s;
    lengths are divided by 6 m and times by 2 s. *)
Definition drift : prob :=
  mkProb "t" [("x", Var "w")] [] ["w"] [] [] [] [plain (Var "x"); plain (Var "d")] [] [plain (Sub (Var "x") (Var "xf"))] [] []
    (Cst 0) (Cst 0) (Cst 0) ["xf"] [] [] [("d", Var "x")] None [] true false.
Definition drift_units : units :=
  mkUnits us [um] [] [Div um us] [] [] [] [] [um] [Mul um us] [um; Mul um us] [] [um] um (Cst 1).
Definition drift_env : uenv := find_unit [("t", us); ("x", um); ("w", Div um us); ("xf", um); ("d", Mul um us)].
Lemma drift_consistent : consistent drift_env drift drift_units.
Proof. unfold drift, drift_units. consistent_tac. Qed.
Definition drift_alg fn : spalg (F := R) :=
  mkSpalg (deriv_of fn drift) (quad_of fn drift) (bc7 (bc_of fn drift)) None None 20.
Definition drift_guess : sol R := mkSol [0; 2]%R [] (Mat 1 [[0]; [0]]%R) E1 (Mat 1 [[0]; [0]]%R) E1 E1 [12]%R [] [6]%R 0%R.
Lemma drift_solution fn : solves fn drift 0 2 (fun t => [3 * t]%R) (fun t => [3 * t * t / 2]%R) [3]%R [] [6]%R.
Proof.
  split.
  - intros t Ht. exists [3%R], [(3 * t)%R]. split; [reflexivity|split; [reflexivity|split]]; intros i Hi; cbn in Hi; (destruct i; [|lia]); cbn; auto_derive; trivial; field.
  - eexists. split; [reflexivity|]. cbn. repeat (apply Forall_cons; [lra|]). apply Forall_nil.
Qed.
Lemma drift_run fn (t y q p k t1 t2 y0 y1 q0 q1 p0 k0 : R) (x0 : R) (o : list (list R)) ts ps :
  match loop_solve ROps true (fun _ => mkFactors t [y] [q] [] [p] [] [k]) (fun _ => Ok (mkOpt ts o (Some [ps]) true "" 3)) (drift_alg fn)
    (mkSol [t1; t2] [] (Mat 1 [[y0]; [y1]]) E1 (Mat 1 [[q0]; [q1]]) E1 E1 [p0] [] [k0] x0) with
  | Ok (_, r) => (s_t (sr_sol r), s_y (sr_sol r), s_q (sr_sol r), s_p (sr_sol r), s_nu (sr_sol r))
  | Raise _ => ([], E1, E1, [], [])
  end = (map (fun a => a * t)%R ts, Mat 1 (map (fun r => restored r [y]) (map (firstn 1) o)),
         Mat 1 (map (fun r => restored r [q]) (map (fun c => firstn 1 (skipn 1 c)) o)), [(ps * p)%R], []).
Proof. vm_compute. reflexivity. Qed.
Lemma drift_factors : component_factors drift_units six_two = mkFactors 2%R [6]%R [12]%R [] [3]%R [] [6]%R.
Proof. unfold component_factors, drift_units, unit_value. cbn. unfold six_two. cbn. repeat (f_equal; try field). Qed.
Example C83_ex fn : exists al' r,
  loop_solve ROps true (fun _ => component_factors drift_units six_two) (fun _ => Ok ramp_opt) (drift_alg fn) drift_guess = Ok (al', r) /\
  s_t (sr_sol r) = [0; 1; 2]%R /\ s_y (sr_sol r) = Mat 1 [[0]; [3]; [6]]%R /\ s_q (sr_sol r) = Mat 1 [[0]; [3 / 2]; [6]]%R /\ s_p (sr_sol r) = [3]%R /\
  exists Y Q, s_y (sr_sol r) = Mat 1 (map Y (s_t (sr_sol r))) /\ solves fn drift 0 2 Y Q (s_p (sr_sol r)) [] [6]%R.
Proof.
  destruct (C83_scaled_collocation fn six_two drift_env drift drift_units (drift_alg fn) drift_guess _ (fun _ => component_factors drift_units six_two) six_two_positive drift_consistent eq_refl eq_refl) as (h & HT & HP & IFF & _ & _ & RUN).
  { repeat split. }
  { split; [|split; [now left|repeat split]]. eexists. split; [reflexivity|]. split; [discriminate|]. eexists. split; reflexivity. }
  assert (HT' : h_t h = [0; 1]%R) by (rewrite HT; cbn; unfold unit_value, six_two; cbn; repeat f_equal; field).
  destruct (RUN (fun _ => Ok ramp_opt) ramp_opt eq_refl) as (al' & r & E & C & A).
  { unfold good_result. rewrite HT', HP. cbn [hd last ramp_opt o_x o_y params_of o_p length]. repeat (split; [reflexivity|]).
    split; [repeat (apply Forall_cons; [lra|]); apply Forall_nil|]. split; [reflexivity|].
    exists (fun t => [t] ++ [t * t / 2]%R). split; [reflexivity|]. split; [cbn; repeat (f_equal; try lra)|].
    assert (S := proj1 (IFF 0%R 2%R (fun t => [3 * t]%R) (fun t => [3 * t * t / 2]%R) [3]%R [] (fun _ => eq_refl) (fun _ => eq_refl) eq_refl eq_refl) (drift_solution fn)).
    cbn [component_factors drift_units u_ind u_states u_quads u_params u_cpars f_t f_y f_q f_p f_nu map] in S.
    replace (unit_value six_two us) with 2%R in S by (unfold unit_value, six_two; reflexivity).
    replace (unit_value six_two um) with 6%R in S by (unfold unit_value, six_two; reflexivity).
    replace (unit_value six_two (Mul um us)) with 12%R in S by (unfold unit_value, six_two; cbn; ring).
    replace (unit_value six_two (Div um us)) with 3%R in S by (unfold unit_value, six_two; cbn; field).
    unfold scaled in S. cbn [map2 app] in S. replace (0 / 2)%R with 0%R in S by field. replace (2 / 2)%R with 1%R in S by field. replace (3 / 3)%R with 1%R in S by field.
    cbn [app]. match type of S with solves_handed _ _ _ _ _ ?Z _ => replace Z with (fun t : R => [t; t * t / 2]%R) in S by (apply functional_extensionality; intros t; repeat (f_equal; try field)) end.
    exact S. }
  exists al', r. split; [exact E|]. destruct A as (_ & _ & _ & KK & Y & Q & _ & EY & _ & SO).
  rewrite drift_factors in E. assert (F := (drift_run fn 2 6 12 3 6 0 2 0 0 0 0 12 6 0 [[0; 0]; [1/2; 1/8]; [1; 1/2]] [0; 1/2; 1] 1)%R).
  unfold drift_guess, ramp_opt in E. rewrite E in F. injection F as F1 F2 F3 F4 F5.
  assert (G1 : s_t (sr_sol r) = [0; 1; 2]%R) by (rewrite F1; cbn; repeat (f_equal; try field)).
  split; [exact G1|]. split; [rewrite F2; unfold restored; cbn; repeat (f_equal; try field)|]. split; [rewrite F3; unfold restored; cbn; repeat (f_equal; try field)|].
  split; [rewrite F4; f_equal; ring|]. exists Y, Q. split; [exact EY|]. rewrite F5, KK in SO. exact SO.
Qed.
