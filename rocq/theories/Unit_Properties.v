(** Units and scaling (C74-C76). *)
From Coq Require Import Reals Ascii Lra.
From Coquelicot Require Import Coquelicot.
From Verif Require Import Base Base_Facts Sym_Expr Sym_Facts Sym_Model Sym_Lu Sym_Dual Sym_DiffCtl Map_Model Scale_Model Jac_Model Unit_Model Unit_Spec Unit_Proofs Unit_Steps Unit_Control Unit_Run Unit_Scale.
Open Scope string_scope. Open Scope list_scope. Open Scope nat_scope.

(** * C74: scaling does not change the boundary value problem *)

(** The values of a state, quadrature, ... divided by the scale factors. *)
Definition scaled (l f : list R) : list R := map2 Rdiv l f.
Definition scaled_res (r : res (list R)) (f : list R) : res (list R) :=
  match r with Ok v => Ok (scaled v f) | Raise e => Raise e end.
(** Factors of derivatives. *)
Definition rates (l : list R) (ft : R) : list R := map (fun a => a / ft)%R l.
(** The arguments have the shapes of the problem. *)
Definition shaped (p : prob) (pp pc k : list R) : Prop :=
  length pp = length (p_params p) /\ length pc = length (p_cpars p) /\ length k = length (p_consts p).

Lemma rates_units fac us w : map (unit_value fac) (map (fun v => Div v w) us) = rates (map (unit_value fac) us) (unit_value fac w).
Proof. unfold rates. rewrite !map_map. reflexivity. Qed.

(** The control law, the rates of the states and of the quadratures, the cost
    integrand and the boundary residuals at scaled values are the scaled ones. *)
Theorem C74_functions fn fac G p u f : positive fac -> consistent G p u -> f = component_factors u fac ->
  forall pp pc k, shaped p pp pc k ->
  let cu := law_control fn p in
  let pp' := scaled pp (f_p f) in let pc' := scaled pc (f_nu f) in let k' := scaled k (f_k f) in
  (forall y w, length y = length (p_states p) -> (forall v, w = Some v -> length v = length (p_controls p)) ->
     let w' := match w with Some v => Some (scaled v (f_u f)) | None => None end in
     (forall c, cu = Some c -> c (scaled y (f_y f)) pp' k' = scaled (c y pp k) (f_u f)) /\
     deriv_func fn p cu (scaled y (f_y f)) w' pp' k' = scaled_res (deriv_func fn p cu y w pp k) (rates (f_y f) (f_t f)) /\
     quad_func fn p cu (scaled y (f_y f)) w' pp' k' = scaled_res (quad_func fn p cu y w pp k) (rates (f_q f) (f_t f)) /\
     path_cost fn p cu (scaled y (f_y f)) w' pp' k'
       = scaled_res (path_cost fn p cu y w pp k) [unit_value fac (u_cost u) / f_t f]%R) /\
  (forall y q, length y = length (p_states p) -> length q = length (p_quads p) ->
     forall e, e = p_cost_i p \/ e = p_cost_t p ->
     point_cost fn p e (scaled y (f_y f)) (scaled q (f_q f)) pp' pc' k'
       = scaled_res (point_cost fn p e y q pp pc k) [unit_value fac (u_cost u)]) /\
  (forall y0 q0 yf qf, length y0 = length (p_states p) -> length q0 = length (p_quads p) ->
     length yf = length (p_states p) -> length qf = length (p_quads p) ->
     bc_func fn p cu (scaled y0 (f_y f)) (scaled q0 (f_q f)) (scaled yf (f_y f)) (scaled qf (f_q f)) pp' pc' k'
       = scaled_res (bc_func fn p cu y0 q0 yf qf pp pc k) (map (unit_value fac) (u_ci u ++ u_ct u))).
Proof.
  intros P K -> pp pc k (Lp & Lpc & Lk) cu pp' pc' k'. cbn [component_factors f_t f_y f_q f_u f_p f_nu f_k] in *. split; [|split].
  - intros y w Ly Lw. split; [|split; [|split]].
    + intros c Hc. apply (law_scaled fn fac G p u P K y pp k Ly Lp Lk c Hc).
    + unfold deriv_func. rewrite <- rates_units. apply (dyn_call_scaled fn fac G p u P K y pp k Ly Lp Lk _ _ w (state_dim fac G p u K) Lw).
    + unfold quad_func. rewrite <- rates_units. apply (dyn_call_scaled fn fac G p u P K y pp k Ly Lp Lk _ _ w (quad_dim fac G p u K) Lw).
    + unfold path_cost. apply (dyn_call_scaled fn fac G p u P K y pp k Ly Lp Lk _ [Div (u_cost u) (u_ind u)] w); [|exact Lw].
      constructor; [exact (k_cost_p _ _ _ K)|constructor].
  - intros y q Ly Lq e He. unfold point_cost.
    apply (bc_call_scaled fn fac G p u P K y q pp pc k Ly Lq Lp Lpc Lk _ [u_cost u] None); [|intros v; discriminate].
    constructor; [|constructor]. destruct He as [->| ->]; [exact (k_cost_i _ _ _ K)|exact (k_cost_t _ _ _ K)].
  - intros y0 q0 yf qf L1 L2 L3 L4. apply (bc_scaled fn fac G p u P K); assumption.
Qed.
Print Assumptions C74_functions.

(** [Y], [Q] solve the boundary value problem on [a, b]: the derivatives are the
    compiled ones and all boundary residuals vanish. *)
Definition solves (fn : string -> nat -> R -> R) (p : prob) (a b : R) (Y Q : R -> list R) (pp pc k : list R) : Prop :=
  let cu := law_control fn p in
  (forall t, (a <= t <= b)%R -> exists v w,
     deriv_func fn p cu (Y t) None pp k = Ok v /\ quad_func fn p cu (Y t) None pp k = Ok w /\
     (forall i, i < length (p_states p) -> is_derive (fun s => nth i (Y s) 0%R) t (nth i v 0%R)) /\
     (forall i, i < length (p_quads p) -> is_derive (fun s => nth i (Q s) 0%R) t (nth i w 0%R))) /\
  exists r, bc_func fn p cu (Y a) (Q a) (Y b) (Q b) pp pc k = Ok r /\ Forall (fun x => x = 0%R) r.

Lemma derive_scaled (g : R -> R) (c w t l : R) : (0 < c)%R -> (0 < w)%R ->
  is_derive g (t * w)%R l <-> is_derive (fun s => g (s * w) / c)%R t (l / (c / w))%R.
Proof.
  intros C W. assert (C' : c <> 0%R) by lra. assert (W' : w <> 0%R) by lra. split; intros H.
  - assert (E : (l / (c / w) = scal (/ c) (w * l))%R) by (unfold scal; cbn; unfold mult; cbn; field; auto).
    rewrite E. apply is_derive_ext with (fun s => scal (/ c) (g (s * w)))%R.
    { intros s. unfold scal; cbn; unfold mult; cbn. unfold Rdiv. ring. }
    apply is_derive_scal. apply (is_derive_comp g (fun s => s * w)%R t l w); [exact H|].
    auto_derive; [trivial|ring].
  - apply is_derive_ext with (fun x => scal c ((fun s => g (s * w) / c) (x / w)))%R.
    { intros x. change (@eq R (c * (g (x / w * w) / c)) (g x))%R. assert (X : @eq R (x / w * w)%R x) by (field; exact W'). rewrite X. field. exact C'. }
    assert (E : (l = scal c (/ w * (l / (c / w))))%R) by (unfold scal; cbn; unfold mult; cbn; field; auto).
    rewrite E. apply is_derive_scal.
    apply (is_derive_comp (fun s => g (s * w) / c)%R (fun x => x / w)%R (t * w)%R (l / (c / w))%R (/ w)%R).
    + replace (t * w / w)%R with t by (field; auto). exact H.
    + auto_derive; [trivial|ring].
Qed.

Lemma scaled_zero v f : length v = length f -> Forall (fun x => (0 < x)%R) f ->
  (Forall (fun x => x = 0%R) v <-> Forall (fun x => x = 0%R) (scaled v f)).
Proof.
  unfold scaled. revert f; induction v as [|a v IH]; intros [|b f] L F; try discriminate; cbn; [split; constructor|].
  inversion F as [|? ? Hb F']; subst. cbn in L. specialize (IH f ltac:(lia) F'). split; intros H; inversion H; subst; constructor; try tauto.
  - unfold Rdiv. ring.
  - apply (Rmult_eq_reg_r (/ b)%R); [|apply Rinv_neq_0_compat; lra]. unfold Rdiv in *. lra.
Qed.
Lemma unit_pos fac us : positive fac -> Forall proper us -> Forall (fun x => (0 < x)%R) (map (unit_value fac) us).
Proof. intros P F. induction F as [|u us H F IH]; cbn; constructor; auto. now apply H. Qed.
Lemma nth_pos l i : Forall (fun x => (0 < x)%R) l -> (0 < nth i l 1)%R.
Proof. intros F. revert i; induction F as [|a l H F IH]; intros [|i]; cbn; auto; lra. Qed.
Lemma rates_nth l w i : i < length l -> nth i (rates l w) 1%R = (nth i l 1 / w)%R.
Proof. intros H. unfold rates. rewrite (nth_indep _ 1%R (1 / w)%R) by (rewrite map_length; lia). apply (map_nth (fun a => a / w)%R). Qed.

Lemma derive_list (Y : R -> list R) f w t v n : (forall s, length (Y s) = n) -> length v = n -> length f = n ->
  Forall (fun x => (0 < x)%R) f -> (0 < w)%R -> forall i, i < n ->
  (is_derive (fun s => nth i (Y s) 0%R) (t * w)%R (nth i v 0%R) <->
   is_derive (fun s => nth i (scaled (Y (s * w)%R) f) 0%R) t (nth i (scaled v (rates f w)) 0%R)).
Proof.
  intros LY Lv Lf F W i Hi. unfold scaled.
  change (map2 Rdiv v (rates f w)) with (over v (rates f w)). rewrite over_nth by (unfold rates; rewrite map_length; lia).
  rewrite rates_nth by lia. rewrite (derive_scaled (fun s => nth i (Y s) 0%R) (nth i f 1%R) w t (nth i v 0%R) (nth_pos _ _ F) W).
  assert (E : forall s, (nth i (Y (s * w)%R) 0 / nth i f 1)%R = nth i (map2 Rdiv (Y (s * w)%R) f) 0%R).
  { intros s. change (map2 Rdiv) with over. rewrite over_nth; [reflexivity|]. rewrite LY. lia. }
  split; apply is_derive_ext; intros s; rewrite E; reflexivity.
Qed.

Lemma has_proper G p u names us : consistent G p u -> Forall2 (has G) names us -> Forall proper us.
Proof. intros K F. induction F; constructor; auto. now apply (k_proper _ _ _ K _ _ H). Qed.
Lemma constr_proper G cs us : Forall2 (constr_ok G) cs us -> Forall proper us.
Proof. induction 1; constructor; auto. apply H. Qed.

(** Dividing by the scale factors turns the solutions of the problem into the
    solutions of the same compiled problem at the scaled constants, and back. *)
Theorem C74_solutions fn fac G p u f a b Y Q pp pc k :
  positive fac -> consistent G p u -> f = component_factors u fac -> shaped p pp pc k ->
  (forall t, length (Y t) = length (p_states p) /\ length (Q t) = length (p_quads p)) ->
  (solves fn p a b Y Q pp pc k <->
   solves fn p (a / f_t f) (b / f_t f)
     (fun s => scaled (Y (s * f_t f)%R) (f_y f)) (fun s => scaled (Q (s * f_t f)%R) (f_q f))
     (scaled pp (f_p f)) (scaled pc (f_nu f)) (scaled k (f_k f))).
Proof.
  intros P K E Sh L. destruct (C74_functions fn fac G p u f P K E pp pc k Sh) as (FD & _ & FB). rewrite E in *. clear f E.
  cbn [component_factors f_t f_y f_q f_u f_p f_nu f_k] in *.
  set (w := unit_value fac (u_ind u)) in *. set (fy := map (unit_value fac) (u_states u)) in *.
  set (fq := map (unit_value fac) (u_quads u)) in *. set (fb := map (unit_value fac) (u_ci u ++ u_ct u)) in *.
  assert (W : (0 < w)%R) by (apply (k_proper _ _ _ K _ _ (k_ind _ _ _ K)); exact P).
  assert (Py : Forall (fun x => (0 < x)%R) fy) by (apply unit_pos; [exact P|]; exact (has_proper G p u _ _ K (state_has fac G p u K))).
  assert (Pq : Forall (fun x => (0 < x)%R) fq) by (apply unit_pos; [exact P|]; exact (has_proper G p u _ _ K (quad_has fac G p u K))).
  assert (Pb : Forall (fun x => (0 < x)%R) fb).
  { apply unit_pos; [exact P|]. apply Forall_app. split; [exact (constr_proper _ _ _ (k_ci _ _ _ K))|exact (constr_proper _ _ _ (k_ct _ _ _ K))]. }
  assert (Ny : length fy = length (p_states p)) by (unfold fy; rewrite map_length; symmetry; apply (Forall2_length' _ _ _ (k_states _ _ _ K))).
  assert (Nq : length fq = length (p_quads p)) by (unfold fq; rewrite map_length; symmetry; apply (Forall2_length' _ _ _ (k_quads _ _ _ K))).
  assert (NB : forall y0 q0 yf qf r, bc_func fn p (law_control fn p) y0 q0 yf qf pp pc k = Ok r -> length r = length fb).
  { intros y0 q0 yf qf r H. unfold bc_func in H.
    destruct (call fn _ (bc_exprs (p_ci p)) _) as [b0|] eqn:E0; [|discriminate]. cbn in H.
    destruct (call fn _ (bc_exprs (p_ct p)) _) as [bf|] eqn:Ef; [|discriminate]. cbn in H. apply Ok_inj in H. subst r.
    apply call_length in E0. apply call_length in Ef. unfold fb, bc_exprs in *. rewrite map_length, !app_length, E0, Ef, !map_length.
    now rewrite (Forall2_length' _ _ _ (k_ci _ _ _ K)), (Forall2_length' _ _ _ (k_ct _ _ _ K)). }
  assert (ND : forall y v, deriv_func fn p (law_control fn p) y None pp k = Ok v -> length v = length (p_states p)).
  { intros y v H. unfold deriv_func in H. apply call_length in H. rewrite H. unfold eoms. apply map_length. }
  assert (NQ : forall y v, quad_func fn p (law_control fn p) y None pp k = Ok v -> length v = length (p_quads p)).
  { intros y v H. unfold quad_func in H. apply call_length in H. rewrite H. unfold eoms. apply map_length. }
  assert (FD' : forall t, _) by (intros t; exact (FD (Y t) None (proj1 (L t)) ltac:(intros; discriminate))). clear FD. cbn zeta in FD'.
  assert (Ta : (a / w * w = a)%R) by (field; lra). assert (Tb : (b / w * w = b)%R) by (field; lra).
  specialize (FB (Y a) (Q a) (Y b) (Q b) (proj1 (L a)) (proj2 (L a)) (proj1 (L b)) (proj2 (L b))).
  assert (LY := fun t => proj1 (L t)). assert (LQ := fun t => proj2 (L t)).
  unfold solves; cbn zeta. rewrite Ta, Tb. split; intros (H & r & Hr & Zr); split.
  - intros t Ht. destruct (H (t * w)%R) as (v & x & Hv & Hx & Dv & Dx).
    { destruct Ht as [A B]. split; [rewrite <- Ta|rewrite <- Tb]; apply Rmult_le_compat_r; lra. }
    destruct (FD' (t * w)%R) as (_ & F1 & F2 & _). rewrite Hv in F1. rewrite Hx in F2.
    exists (scaled v (rates fy w)), (scaled x (rates fq w)). split; [exact F1|split; [exact F2|]]. split; intros i Hi.
    + apply (derive_list Y fy w t v (length (p_states p)) LY (ND _ _ Hv) Ny Py W i Hi). now apply Dv.
    + apply (derive_list Q fq w t x (length (p_quads p)) LQ (NQ _ _ Hx) Nq Pq W i Hi). now apply Dx.
  - rewrite FB, Hr. eexists. split; [reflexivity|]. apply scaled_zero; [now apply (NB _ _ _ _ _ Hr)|exact Pb|exact Zr].
  - intros t Ht. destruct (H (t / w)%R) as (v' & x' & Hv & Hx & Dv & Dx).
    { destruct Ht as [A B]. split; apply Rmult_le_compat_r; try lra; left; now apply Rinv_0_lt_compat. }
    assert (Tt : (t / w * w = t)%R) by (field; lra).
    rewrite Tt in Hv, Hx. destruct (FD' t) as (_ & F1 & F2 & _). rewrite F1 in Hv. rewrite F2 in Hx.
    destruct (deriv_func fn p (law_control fn p) (Y t) None pp k) as [v|] eqn:E1; [|discriminate].
    destruct (quad_func fn p (law_control fn p) (Y t) None pp k) as [x|] eqn:E2; [|discriminate].
    cbn in Hv, Hx. apply Ok_inj in Hv. apply Ok_inj in Hx. subst v' x'.
    exists v, x. split; [reflexivity|split; [reflexivity|]]. split; intros i Hi.
    + specialize (Dv i Hi). apply (derive_list Y fy w (t / w)%R v (length (p_states p)) LY (ND _ _ E1) Ny Py W i Hi) in Dv. rewrite Tt in Dv. exact Dv.
    + specialize (Dx i Hi). apply (derive_list Q fq w (t / w)%R x (length (p_quads p)) LQ (NQ _ _ E2) Nq Pq W i Hi) in Dx. rewrite Tt in Dx. exact Dx.
  - rewrite FB in Hr. destruct (bc_func fn p (law_control fn p) (Y a) (Q a) (Y b) (Q b) pp pc k) as [r0|] eqn:E0; [|discriminate].
    cbn in Hr. apply Ok_inj in Hr. subst r. exists r0. split; [reflexivity|]. apply (scaled_zero r0 fb); [now apply (NB _ _ _ _ _ E0)|exact Pb|exact Zr].
Qed.
Print Assumptions C74_solutions.

(** A trajectory with the shapes of the problem. *)
Definition table (n : nat) (a : arr R) : Prop := (n = 0 /\ a = E1) \/ exists rows, a = Mat n rows /\ Forall (fun r => length r = n) rows.
Definition traj_ok (p : prob) (s : sol R) : Prop :=
  table (length (p_states p)) (s_y s) /\ table (length (p_quads p)) (s_q s) /\
  (s_u s = E1 \/ table (length (p_controls p)) (s_u s)) /\ shaped p (s_p s) (s_nu s) (s_k s).

Lemma scale_table n a f : length f = n -> table n a ->
  exists a', scale_arr Rdiv a f = Ok a' /\ arows a' = map (fun r => scaled r f) (arows a) /\ table n a'.
Proof.
  intros L [[-> ->]|(rows & -> & F)].
  - destruct f; [|discriminate]. exists E1. split; [reflexivity|]. split; [reflexivity|left; auto].
  - cbn. rewrite L, Nat.eqb_refl. eexists. split; [reflexivity|]. split; [reflexivity|]. right. eexists. split; [reflexivity|].
    rewrite Forall_forall in *. intros r Hr. apply in_map_iff in Hr. destruct Hr as (r0 & <- & H0).
    change (map2 Rdiv r0 f) with (over r0 f). rewrite over_length; rewrite (F r0 H0); auto.
Qed.
Lemma bcast_same l f : length l = length f -> bcast Rdiv l f = Ok (scaled l f).
Proof. intros H. unfold bcast. rewrite H, Nat.eqb_refl. reflexivity. Qed.

(** The solver sees the scaled trajectory: at every node the rates it computes
    are the scaled ones, and the boundary residuals are the scaled ones. *)
Theorem C74_trajectory fn fac G p u f s : positive fac -> consistent G p u -> f = component_factors u fac -> traj_ok p s ->
  exists s', scale_sol ROps s f false = Ok s' /\ s_t s' = map (fun t => t / f_t f)%R (s_t s) /\
  (forall i y, nth_error (arows (s_y s)) i = Some y -> exists y', nth_error (arows (s_y s')) i = Some y' /\
     deriv_func fn p (law_control fn p) y' None (s_p s') (s_k s')
       = scaled_res (deriv_func fn p (law_control fn p) y None (s_p s) (s_k s)) (rates (f_y f) (f_t f)) /\
     quad_func fn p (law_control fn p) y' None (s_p s') (s_k s')
       = scaled_res (quad_func fn p (law_control fn p) y None (s_p s) (s_k s)) (rates (f_q f) (f_t f))) /\
  (forall i j y0 q0 yf qf, nth_error (arows (s_y s)) i = Some y0 -> nth_error (arows (s_y s)) j = Some yf ->
     nth_error (arows (s_q s)) i = Some q0 \/ (p_quads p = [] /\ q0 = []) ->
     nth_error (arows (s_q s)) j = Some qf \/ (p_quads p = [] /\ qf = []) ->
     exists y0' q0' yf' qf', nth_error (arows (s_y s')) i = Some y0' /\ nth_error (arows (s_y s')) j = Some yf' /\
     (nth_error (arows (s_q s')) i = Some q0' \/ (p_quads p = [] /\ q0' = [])) /\
     (nth_error (arows (s_q s')) j = Some qf' \/ (p_quads p = [] /\ qf' = [])) /\
     bc_func fn p (law_control fn p) y0' q0' yf' qf' (s_p s') (s_nu s') (s_k s')
       = scaled_res (bc_func fn p (law_control fn p) y0 q0 yf qf (s_p s) (s_nu s) (s_k s)) (map (unit_value fac) (u_ci u ++ u_ct u))).
Proof.
  intros P K E (Ty & Tq & Tu & Sh). assert (Sh' := Sh). destruct Sh' as (Lp & Lnu & Lk).
  destruct (C74_functions fn fac G p u f P K E _ _ _ Sh) as (FD & _ & FB).
  assert (Ny : length (f_y f) = length (p_states p)) by (subst f; cbn; rewrite map_length; symmetry; apply (Forall2_length' _ _ _ (k_states _ _ _ K))).
  assert (Nq : length (f_q f) = length (p_quads p)) by (subst f; cbn; rewrite map_length; symmetry; apply (Forall2_length' _ _ _ (k_quads _ _ _ K))).
  assert (Nu : length (f_u f) = length (p_controls p)) by (subst f; cbn; rewrite map_length; symmetry; apply (Forall2_length' _ _ _ (k_controls _ _ _ K))).
  assert (Np : length (f_p f) = length (p_params p)) by (subst f; cbn; rewrite map_length; symmetry; apply (Forall2_length' _ _ _ (k_params _ _ _ K))).
  assert (Nnu : length (f_nu f) = length (p_cpars p)) by (subst f; cbn; rewrite map_length; symmetry; apply (Forall2_length' _ _ _ (k_cpars _ _ _ K))).
  assert (Nk : length (f_k f) = length (p_consts p)) by (subst f; cbn; rewrite map_length; symmetry; apply (Forall2_length' _ _ _ (k_consts _ _ _ K))).
  clear E. destruct (scale_table _ _ _ Ny Ty) as (ay & Ey & Ry & _). destruct (scale_table _ _ _ Nq Tq) as (aq & Eq & Rq & _).
  assert (Eu : exists au, (if nonempty (s_u s) then scale_arr Rdiv (s_u s) (f_u f) else Ok (s_u s)) = Ok au).
  { destruct Tu as [->|Tu]; [eexists; reflexivity|]. destruct (nonempty (s_u s)); [|eexists; reflexivity].
    destruct (scale_table _ _ _ Nu Tu) as (au & Eu & _). eauto. }
  destruct Eu as (au & Eu).
  set (s0 := set_k (scaled (s_k s) (f_k f)) (set_nu (scaled (s_nu s) (f_nu f)) (set_p (scaled (s_p s) (f_p f))
    (set_u au (set_q aq (set_y ay (set_t (map (fun x => x / f_t f)%R (s_t s)) s))))))).
  exists s0. assert (ES : scale_sol ROps s f false = Ok s0).
  { unfold scale_sol. cbn [ndiv ROps]. cbv zeta. destruct s as [st sdt sy sd sq su sdu sp snu sk sc]; cbn in *.
    unfold set_t; cbn. rewrite Ey; cbn. rewrite Eq; cbn. rewrite Eu; cbn.
    rewrite (bcast_same sp), (bcast_same snu), (bcast_same sk) by congruence. reflexivity. }
  split; [exact ES|]. clear ES. destruct s as [st sdt sy sd sq su sdu sp snu sk sc]; cbn [s_t s_y s_q s_u s_p s_nu s_k] in *. subst s0. cbn.
  assert (NY : forall i y, nth_error (arows sy) i = Some y -> length y = length (p_states p) /\ nth_error (arows ay) i = Some (scaled y (f_y f))).
  { intros i y Hi. rewrite Ry, nth_error_map, Hi. split; [|reflexivity]. destruct Ty as [[_ ->]|(rows & -> & F)]; [destruct i; discriminate|].
    rewrite Forall_forall in F. apply F. exact (nth_error_In _ _ Hi). }
  assert (NQ : forall i q, nth_error (arows sq) i = Some q \/ (p_quads p = [] /\ q = []) ->
    length q = length (p_quads p) /\ (nth_error (arows aq) i = Some (scaled q (f_q f)) \/ (p_quads p = [] /\ scaled q (f_q f) = []))).
  { intros i q [Hi|[A ->]]; [|rewrite A; split; [reflexivity|right; split; reflexivity]]. rewrite Rq, nth_error_map, Hi.
    split; [|left; reflexivity]. destruct Tq as [[_ ->]|(rows & -> & F)]; [destruct i; discriminate|].
    rewrite Forall_forall in F. apply F. exact (nth_error_In _ _ Hi). }
  split; [reflexivity|split].
  - intros i y Hi. destruct (NY i y Hi) as [L Hi']. exists (scaled y (f_y f)). split; [exact Hi'|].
    destruct (FD y None L ltac:(intros; discriminate)) as (_ & A & B & _). split; assumption.
  - intros i j y0 q0 yf qf H1 H2 H3 H4. destruct (NY _ _ H1) as [L1 H1']. destruct (NY _ _ H2) as [L2 H2'].
    destruct (NQ _ _ H3) as [L3 H3']. destruct (NQ _ _ H4) as [L4 H4'].
    exists (scaled y0 (f_y f)), (scaled q0 (f_q f)), (scaled yf (f_y f)), (scaled qf (f_q f)). repeat (split; [assumption|]). now apply FB.
Qed.
Print Assumptions C74_trajectory.

(** ** Examples: reading off units *)
Definition um : expr := Var "m".
Definition us : expr := Var "s".
Ltac proper_tac := let fn := fresh in let fac := fresh in let P := fresh in
  intros fn fac P; unfold Div, um, us; cbn [eval];
  repeat first [apply Rmult_lt_0_compat | apply Rinv_0_lt_compat | apply P | lra].
Ltac same_tac := let fn := fresh in let fac := fresh in let P := fresh in
  intros fn fac P; unfold Div, um, us; cbn [eval];
  pose proof (Rgt_not_eq _ _ (P "m"%string)); pose proof (Rgt_not_eq _ _ (P "s"%string));
  first [reflexivity | field; repeat split; assumption].
Ltac infer := lazymatch goal with
  | |- dim _ (Var _) _ => eapply D_var; reflexivity
  | |- dim _ (Cst _) _ => apply D_number
  | |- dim _ Pi _ => apply D_pi
  | |- dim _ (Mul _ _) _ => eapply D_mul; [infer|infer]
  | |- dim _ (Opp _) _ => eapply D_opp; infer
  | |- dim _ (Inv _) _ => eapply D_inv; infer
  | |- dim _ (Add _ _) _ => eapply D_add; [infer|check]
  | |- dim _ (Sin _) _ => apply D_sin; check
  | |- dim _ (Cos _) _ => apply D_cos; check
  end
with check := lazymatch goal with
  | |- dim _ (Cst 0) _ => apply D_zero
  | |- dim _ (Add _ _) _ => apply D_add; check
  | |- dim _ (Sub _ _) _ => apply D_add; check
  | |- dim _ (Opp _) _ => apply D_opp; check
  | |- dim _ _ _ => eapply D_same; [infer|same_tac]
  end.
Ltac constr_tac := split; [proper_tac|split; [cbn [plain c_expr]; check|split; intros ? ?; discriminate]].

Lemma find_unit_proper l : Forall (fun e => proper (snd e)) l -> forall x v, find_unit l x = Some v -> proper v.
Proof. induction 1 as [|[y u] l H F IH]; cbn; intros x v E; [discriminate|]. destruct (String.eqb x y); [injection E as <-; exact H|eauto]. Qed.
Ltac consistent_tac :=
  constructor; cbn [p_ind p_states p_costates p_coparams p_quads p_params p_controls p_cpars p_cadj p_consts p_ci p_cp p_ct p_cost_i p_cost_p p_cost_t p_quants p_switches p_law p_ham
    u_ind u_states u_costates u_coparams u_quads u_params u_controls u_cpars u_cadj u_consts u_ci u_cp u_ct u_cost u_ham];
    unfold um, us; lazymatch goal with
    | |- forall x v, _ = Some v -> proper v => apply find_unit_proper; repeat (constructor; [cbn [snd]; proper_tac|]); apply Forall_nil
    | |- proper _ => proper_tac
    | |- Forall2 (dyn_ok _ _) _ _ => repeat (constructor; [split; [reflexivity|cbn [snd]; check]|]); apply Forall2_nil
    | |- Forall2 (constr_ok _) _ _ => repeat (constructor; [constr_tac|]); apply Forall2_nil
    | |- Forall2 (has _) _ _ => repeat (constructor; [reflexivity|]); apply Forall2_nil
    | |- dim _ _ _ => check
    | |- Forall _ [] => constructor
    | |- _ => first [reflexivity | discriminate]
    end.

(** Least control effort: x' = v, v' = a, from rest to rest over the distance xf;
    lengths in m, times in s. *)
Definition cart : prob :=
  mkProb "t" [("x", Var "v"); ("v", Var "a")] [] [] [] ["a"] [] [plain (Var "x"); plain (Var "v")] []
    [plain (Sub (Var "x") (Var "xf")); plain (Var "v")] [] []
    (Cst 0) (Mul (Var "a") (Var "a")) (Cst 0) ["xf"] [] [] [] None [] true false.
Definition cart_units : units :=
  mkUnits us [um; Div um us] [] [] [] [Div um (Mul us us)] [] [] [um] [] [um; Div um us] [] [um; Div um us]
    (Div (Mul um um) (Mul us (Mul us us))) (Cst 1).
Definition cart_env : uenv := find_unit [("t", us); ("x", um); ("v", Div um us); ("a", Div um (Mul us us)); ("xf", um)].
Lemma cart_consistent : consistent cart_env cart cart_units.
Proof.
  unfold cart, cart_units. consistent_tac.
Qed.

(** x' = v from 0 to xf: x = 3 t on [0, 2] in metres and seconds, x = t on [0, 1]
    in units of 6 m and 2 s. *)
Definition move : prob :=
  mkProb "t" [("x", Var "v")] [] [] [] [] [] [plain (Var "x")] [] [plain (Sub (Var "x") (Var "xf"))] [] []
    (Cst 0) (Cst 0) (Cst 0) ["v"; "xf"] [] [] [] None [] true false.
Definition move_units : units :=
  mkUnits us [um] [] [] [] [] [] [] [Div um us; um] [] [um] [] [um] um (Cst 1).
Definition move_env : uenv := find_unit [("t", us); ("x", um); ("v", Div um us); ("xf", um)].
Lemma move_consistent : consistent move_env move move_units.
Proof.
  unfold move, move_units. consistent_tac.
Qed.
Definition six_two (x : string) : R := if String.eqb x "m" then 6%R else if String.eqb x "s" then 2%R else 1%R.
Lemma six_two_positive : positive six_two.
Proof. intros x. unfold six_two. destruct (String.eqb x "m"); [lra|]. destruct (String.eqb x "s"); lra. Qed.
Example C74_ex fn : solves fn move 0 2 (fun t => [3 * t]%R) (fun _ => []) [] [] [3; 6]%R /\
  exists Y k, Y (1/2)%R = [(1/2)%R] /\ k = [1; 1]%R /\ solves fn move 0 1 Y (fun _ => []) [] [] k.
Proof.
  assert (S : solves fn move 0 2 (fun t => [3 * t]%R) (fun _ => []) [] [] [3; 6]%R).
  { split.
    - intros t Ht. exists [3%R], []. split; [reflexivity|split; [reflexivity|split]]; intros i Hi; cbn in Hi; [|lia].
      destruct i; [|lia]. cbn. auto_derive; [trivial|ring].
    - eexists. split; [reflexivity|]. cbn. repeat constructor; lra. }
  split; [exact S|].
  apply (C74_solutions fn six_two move_env move move_units _ _ _ _ _ _ _ _ six_two_positive move_consistent eq_refl) in S;
    [|repeat split|intros t; split; reflexivity].
  eexists. eexists. split; [|split; [|]]; [| |]. 3: { cbn in S. replace (0 / 2)%R with 0%R in S by field. replace (2 / 2)%R with 1%R in S by field. exact S. }
  - cbn. unfold scaled; cbn. unfold six_two; cbn. f_equal. field.
  - unfold scaled; cbn. unfold unit_value; cbn. unfold six_two; cbn. repeat f_equal; field.
Qed.

(** A user function of a dimensional argument keeps its values when its argument
    is divided by a scale factor: h' = rho(h) with rho(h) = h^2 (h in m, rho in
    m/s) gives a different speed after scaling. *)
Theorem C74_user_function_refuted : exists fn p u fac y, positive fac /\
  p_states p = [("h", App "rho" 0 (Var "h"))] /\ u_states u = [Var "m"] /\ u_ind u = Var "s" /\
  let f := component_factors u fac in
  exists v v', deriv_func fn p None y None [] [] = Ok v /\ deriv_func fn p None (scaled y (f_y f)) None [] [] = Ok v' /\
  v' <> scaled v (rates (f_y f) (f_t f)).
Proof.
  exists (fun _ _ x => x * x)%R.
  exists (mkProb "t" [("h", App "rho" 0 (Var "h"))] [] [] [] [] [] [] [] [] [] [] (Cst 0) (Cst 0) (Cst 0) [] [] [] [] None [] true false).
  exists (mkUnits us [um] [] [] [] [] [] [] [] [] [] [] [] (Cst 1) (Cst 1)). exists six_two. exists [12%R].
  split; [exact six_two_positive|]. split; [reflexivity|]. split; [reflexivity|]. split; [reflexivity|].
  eexists. eexists. split; [reflexivity|]. split; [reflexivity|]. unfold scaled, rates; cbn. unfold unit_value; cbn. unfold six_two; cbn.
  intros H. injection H as H. lra.
Qed.
Print Assumptions C74_user_function_refuted.

(** * C75: the transformations keep problems dimensionally consistent *)
Theorem C75_indirect lu solve o p u fs p' G : lu_units lu -> make_indirect o p = Ok fs -> posed p ->
  consistent G p u -> activators G p u ->
  (lower (o_method o) = "diffyg" -> p_params p = [] /\ (lower (o_control o) = "differential" -> o_shift o = true)) ->
  (o_norm o = true -> p_quads p = [] /\ p_params p = []) ->
  fresh_run lu solve G fs p u -> law_run lu solve G fs p u -> run_tfs lu solve fs p = Ok p' ->
  consistent (run_env lu solve G fs p u) p' (run_units lu solve fs p u).
Proof. apply indirect_consistent. Qed.
Print Assumptions C75_indirect.
Theorem C75_direct lu solve o p u fs p' G : make_direct o p = Ok fs -> posed p ->
  consistent G p u -> activators G p u -> (o_norm o = true -> p_quads p = []) ->
  fresh_run lu solve G fs p u -> law_run lu solve G fs p u -> run_tfs lu solve fs p = Ok p' ->
  consistent (run_env lu solve G fs p u) p' (run_units lu solve fs p u).
Proof. apply direct_consistent. Qed.
Print Assumptions C75_direct.
(** Gaussian elimination meets the contract asked of [lu]. *)
Theorem C75_elimination : lu_units lu_gauss.
Proof. exact lu_gauss_units. Qed.
Print Assumptions C75_elimination.

Ltac fresh_tac := split; [vm_compute; repeat (constructor; [cbn; intuition discriminate|]); constructor
                         |vm_compute; repeat (constructor; [reflexivity|]); constructor].
Ltac step_tac := let p' := fresh "p'" in let H := fresh "H" in intros p' H; vm_compute in H; apply Ok_inj in H; subst p'.

(** The control law of the cart: a = - lam_v / 2. *)
Definition cart_law (_ : list expr) (_ : list string) : list (list expr) := [[Opp (Mul (Var "_lam_v") (Inv (Cst 2)))]].
Definition cart_opts : options := mkOpt false "algebraic" "traditional" false true.
Definition cart_tfs : list tf := [FDual "traditional"; FAlg; FNorm; FSquash].
Lemma cart_run : make_indirect cart_opts cart = Ok cart_tfs /\ posed cart /\ activators cart_env cart cart_units /\
  fresh_run lu_gauss cart_law cart_env cart_tfs cart cart_units /\ law_run lu_gauss cart_law cart_env cart_tfs cart cart_units /\
  exists p', run_tfs lu_gauss cart_law cart_tfs cart = Ok p'.
Proof.
  split; [reflexivity|]. split; [repeat split|]. split; [repeat split; repeat (constructor; [intros A; discriminate A|]); constructor|].
  split; [|split].
  - unfold cart_tfs. cbn [fresh_run]. split; [fresh_tac|]. step_tac. split; [fresh_tac|]. step_tac. split; [fresh_tac|]. step_tac. split; [fresh_tac|]. intros; exact I.
  - unfold cart_tfs. cbn [law_run]. split; [discriminate|]. step_tac. split; [|step_tac; split; [discriminate|step_tac; split; [discriminate|intros; exact I]]].
    intros _ h _. constructor; [|constructor]. constructor; [|constructor].
    apply D_opp. eapply D_same; [eapply D_mul; [eapply D_var; reflexivity|eapply D_inv; apply D_number]|].
    cbn [cart_units u_cost u_states per dual_units u_controls unit_tf]. same_tac.
  - eexists. vm_compute. reflexivity.
Qed.
Example C75_ex : exists p', run_tfs lu_gauss cart_law cart_tfs cart = Ok p' /\
  syms (p_states p') = ["x"; "v"; "_lam_x"; "_lam_v"] /\ p_params p' = ["_deltat"] /\
  consistent (run_env lu_gauss cart_law cart_env cart_tfs cart cart_units) p' (run_units lu_gauss cart_law cart_tfs cart cart_units).
Proof.
  destruct cart_run as (M & P & A & F & L & p' & R). exists p'. split; [exact R|].
  assert (K := C75_indirect lu_gauss cart_law cart_opts cart cart_units cart_tfs p' cart_env lu_gauss_units M P cart_consistent A
    ltac:(intros H; discriminate H) ltac:(intros _; split; reflexivity) F L R).
  vm_compute in R. apply Ok_inj in R. subst p'. split; [reflexivity|]. split; [reflexivity|]. exact K.
Qed.

(** Where the hypotheses on parameters are needed. *)
Lemma not_consistent fn fac p u y pp k v : positive fac -> length y = length (p_states p) -> length pp = length (p_params p) ->
  length k = length (p_consts p) -> p_cpars p = [] -> law_control fn p = None ->
  let f := component_factors u fac in
  quad_func fn p None y None pp k = Ok v ->
  quad_func fn p None (scaled y (f_y f)) None (scaled pp (f_p f)) (scaled k (f_k f)) <> Ok (scaled v (rates (f_q f) (f_t f))) ->
  forall G, ~ consistent G p u.
Proof.
  intros P Ly Lp Lk Ec El f E1 E2 G K.
  destruct (C74_functions fn fac G p u f P K eq_refl pp [] k) as (F & _). { repeat split; auto. rewrite Ec. reflexivity. }
  destruct (F y None Ly ltac:(intros; discriminate)) as (_ & _ & F1 & _). rewrite El, E1 in F1. exact (E2 F1).
Qed.
Lemma not_consistent_states fn fac p u y pp k v : positive fac -> length y = length (p_states p) -> length pp = length (p_params p) ->
  length k = length (p_consts p) -> p_cpars p = [] -> law_control fn p = None ->
  let f := component_factors u fac in
  deriv_func fn p None y None pp k = Ok v ->
  deriv_func fn p None (scaled y (f_y f)) None (scaled pp (f_p f)) (scaled k (f_k f)) <> Ok (scaled v (rates (f_y f) (f_t f))) ->
  forall G, ~ consistent G p u.
Proof.
  intros P Ly Lp Lk Ec El f E1 E2 G K.
  destruct (C74_functions fn fac G p u f P K eq_refl pp [] k) as (F & _). { repeat split; auto. rewrite Ec. reflexivity. }
  destruct (F y None Ly ltac:(intros; discriminate)) as (_ & F1 & _). rewrite El, E1 in F1. exact (E2 F1).
Qed.

(** Coasting at an unknown speed w: x' = w, minimal time. *)
Definition coast : prob :=
  mkProb "t" [("x", Var "w")] [] ["w"] [] [] [] [] [] [] [] []
    (Cst 0) (Cst 1) (Cst 0) [] [] [] [] None [] true false.
Definition coast_units : units :=
  mkUnits us [um] [] [Div um us] [] [] [] [] [] [] [] [] [] us (Cst 1).
Definition coast_env : uenv := find_unit [("t", us); ("x", um); ("w", Div um us)].
Lemma coast_consistent : consistent coast_env coast coast_units.
Proof. unfold coast, coast_units. consistent_tac. Qed.
Definition no_law (_ : list expr) (_ : list string) : list (list expr) := [].

(** A run that loses dimensional consistency. *)
Definition loses (o : options) (fs : list tf) : Prop := exists p u G p',
  make_indirect o p = Ok fs /\ posed p /\ consistent G p u /\ activators G p u /\
  fresh_run lu_gauss no_law G fs p u /\ law_run lu_gauss no_law G fs p u /\ run_tfs lu_gauss no_law fs p = Ok p' /\
  forall G', ~ consistent G' p' (run_units lu_gauss no_law fs p u).

(** NormalizeTime leaves the rate of the adjoint of a parameter per unit of time,
    although the new independent variable is a pure number. *)
Theorem C75_parameter_normalized_refuted :
  loses (mkOpt false "algebraic" "traditional" false true) [FDual "traditional"; FAlg; FNorm; FSquash].
Proof.
  exists coast, coast_units, coast_env. eexists.
  split; [reflexivity|]. split; [repeat split|]. split; [exact coast_consistent|]. split; [repeat split; constructor|]. split; [|split; [|split]].
  - cbn [fresh_run]. split; [fresh_tac|]. step_tac. split; [fresh_tac|]. step_tac. split; [fresh_tac|]. step_tac. split; [fresh_tac|]. intros; exact I.
  - cbn [law_run]. split; [discriminate|]. step_tac. split; [intros _ h _; constructor|]. step_tac. split; [discriminate|]. step_tac. split; [discriminate|]. intros; exact I.
  - vm_compute. reflexivity.
  - let U := eval vm_compute in (run_units lu_gauss no_law [FDual "traditional"; FAlg; FNorm; FSquash] coast coast_units) in
    assert (E : run_units lu_gauss no_law [FDual "traditional"; FAlg; FNorm; FSquash] coast coast_units = U) by (vm_compute; reflexivity).
    rewrite E. eapply (not_consistent (fun _ _ _ => 0%R) six_two _ _ [0; 1]%R [0; 1]%R []); try reflexivity; [exact six_two_positive|].
    unfold quad_func, scaled, rates; cbn. unfold unit_value; cbn. unfold six_two; cbn. intros H. apply Ok_inj in H. injection H as H. lra.
Qed.
Print Assumptions C75_parameter_normalized_refuted.

(** With the geometric method the costates get the last rates of the canonical
    field, which with parameters are not theirs. *)
Theorem C75_parameter_geometric_refuted :
  loses (mkOpt false "algebraic" "diffyg" false false) [FDual "diffyg"; FAlg; FSquash].
Proof.
  exists coast, coast_units, coast_env. eexists.
  split; [reflexivity|]. split; [repeat split|]. split; [exact coast_consistent|]. split; [repeat split; constructor|]. split; [|split; [|split]].
  - cbn [fresh_run]. split; [fresh_tac|]. step_tac. split; [fresh_tac|]. step_tac. split; [fresh_tac|]. intros; exact I.
  - cbn [law_run]. split; [discriminate|]. step_tac. split; [intros _ h _; constructor|]. step_tac. split; [discriminate|]. intros; exact I.
  - vm_compute. reflexivity.
  - let U := eval vm_compute in (run_units lu_gauss no_law [FDual "diffyg"; FAlg; FSquash] coast coast_units) in
    assert (E : run_units lu_gauss no_law [FDual "diffyg"; FAlg; FSquash] coast coast_units = U) by (vm_compute; reflexivity).
    rewrite E. eapply (not_consistent_states (fun _ _ _ => 0%R) six_two _ _ [0; 1]%R [0]%R []); try reflexivity; [exact six_two_positive|].
    unfold deriv_func, scaled, rates; cbn. unfold unit_value; cbn. unfold six_two; cbn. intros H. apply Ok_inj in H. injection H as H. lra.
Qed.
Print Assumptions C75_parameter_geometric_refuted.

(** * C76: scaling the boundary value problem of an indirect method *)
Theorem C76_indirect lu solve o p u fs p' G fn fac f a b Y Q pp pc k : lu_units lu -> make_indirect o p = Ok fs -> posed p ->
  consistent G p u -> activators G p u ->
  (lower (o_method o) = "diffyg" -> p_params p = [] /\ (lower (o_control o) = "differential" -> o_shift o = true)) ->
  (o_norm o = true -> p_quads p = [] /\ p_params p = []) ->
  fresh_run lu solve G fs p u -> law_run lu solve G fs p u -> run_tfs lu solve fs p = Ok p' ->
  positive fac -> f = component_factors (run_units lu solve fs p u) fac -> shaped p' pp pc k ->
  (forall t, length (Y t) = length (p_states p') /\ length (Q t) = length (p_quads p')) ->
  (solves fn p' a b Y Q pp pc k <->
   solves fn p' (a / f_t f) (b / f_t f)
     (fun s => scaled (Y (s * f_t f)%R) (f_y f)) (fun s => scaled (Q (s * f_t f)%R) (f_q f))
     (scaled pp (f_p f)) (scaled pc (f_nu f)) (scaled k (f_k f))).
Proof.
  intros H1 H2 H3 H4 H5 H6 H7 H8 H9 H10 P E Sh L.
  exact (C74_solutions fn fac _ p' _ f a b Y Q pp pc k P (indirect_consistent lu solve o p u fs p' G H1 H2 H3 H4 H5 H6 H7 H8 H9 H10) E Sh L).
Qed.
Print Assumptions C76_indirect.

(** The factors of declared units at nonzero reference values are positive, so
    they can be used for [fac]. *)
Theorem C76_declared declared ref : (forall x, (0 < ref x)%R) -> Forall (fun d => proper (snd d)) declared ->
  positive (unit_factors declared ref).
Proof.
  intros R F x. induction F as [|[n e] l H F IH]; cbn; [lra|]. destruct (String.eqb x n); [apply H; exact R|exact IH].
Qed.
Print Assumptions C76_declared.
(** A reference value is the largest magnitude along the guess, so it can be
    zero, and with it the factor. *)
Theorem C76_zero_reference_refuted : exists declared ref, Forall (fun d => proper (snd d)) declared /\ (forall x, (0 <= ref x)%R) /\
  ~ positive (unit_factors declared ref).
Proof.
  exists [("m", Var "y")], (fun _ => 0%R). split; [constructor; [|constructor]; intros fn fac P; apply P|]. split; [intros; lra|].
  intros P. specialize (P "m"). cbn in P. unfold unit_value in P. cbn in P. lra.
Qed.
Print Assumptions C76_zero_reference_refuted.

(** The cart, scaled with m = xf and s = 1: a trajectory of the boundary value
    problem for xf = 6 is a trajectory for xf = 1. *)
Example C76_ex fn : exists p', run_tfs lu_gauss cart_law cart_tfs cart = Ok p' /\
  forall Y nu T, (forall t, length (Y t) = 4) -> length nu = 4 ->
  let f := component_factors (run_units lu_gauss cart_law cart_tfs cart cart_units) six_two in
  (solves fn p' 0 1 Y (fun _ => []) [T] nu [6%R] <->
   solves fn p' 0 1 (fun s => scaled (Y (s * 1)%R) (f_y f)) (fun _ => []) [(T / 2)%R] (scaled nu (f_nu f)) [1%R]) /\
  f_y f = [6; 6 / 2; 6 / 2 / (2 * 2); 6 / (2 * 2)]%R.
Proof.
  destruct cart_run as (M & P & A & F & L & p' & R). exists p'. split; [exact R|]. intros Y nu T LY Ln f.
  assert (H := C76_indirect lu_gauss cart_law cart_opts cart cart_units cart_tfs p' cart_env fn six_two f 0 1 Y (fun _ => []) [T] nu [6%R]
    lu_gauss_units M P cart_consistent A ltac:(intros H; discriminate H) ltac:(intros _; split; reflexivity) F L R six_two_positive eq_refl).
  vm_compute in R. apply Ok_inj in R. subst p'.
  specialize (H (conj eq_refl (conj Ln eq_refl)) (fun t => conj (LY t) eq_refl)).
  let U := eval vm_compute in (run_units lu_gauss cart_law cart_tfs cart cart_units) in
    assert (EU : run_units lu_gauss cart_law cart_tfs cart cart_units = U) by (vm_compute; reflexivity).
  assert (Ft : f_t f = 1%R) by (unfold f; rewrite EU; reflexivity).
  assert (Fp : scaled [T] (f_p f) = [(T / 2)%R]) by (unfold f; rewrite EU; reflexivity).
  assert (Fk : scaled [6%R] (f_k f) = [1%R]). { unfold scaled, f. rewrite EU. cbn. unfold unit_value; cbn. unfold six_two; cbn. f_equal. field. }
  rewrite Ft, Fp, Fk in H. replace (0 / 1)%R with 0%R in H by field. replace (1 / 1)%R with 1%R in H by field. split; [exact H|].
  unfold f. rewrite EU. cbn. unfold unit_value; cbn. unfold six_two; cbn. repeat (apply (f_equal2 cons); [field|]). reflexivity.
Qed.
