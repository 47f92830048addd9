(** C77: the constants of motion recorded for declared symmetries. *)
From Coq Require Import Reals Lra.
From Coquelicot Require Import Coquelicot.
From Verif Require Import Base Base_Facts Sym_Expr Sym_Facts Sym_Model Sym_Lu Sym_Dual Sym_Traj Sym_Var
  Geo_Model Red_Model Red_Facts Red_Oracle Red_Noether Dual_Properties.
Open Scope string_scope.
Open Scope list_scope.
Open Scope R_scope.

Lemma noether_all_nth lu integ om dyn : forall fs i new, noether_all lu integ om dyn i fs = Ok new ->
  forall k f, nth_error fs k = Some f ->
    exists e, nth_error new k = Some (("com_" ++ of_nat (i + k))%string, e) /\ noether_field lu integ om dyn f = Ok e.
Proof.
  induction fs as [|f fs IH]; intros i new H k g Hk; [destruct k; discriminate|]. cbn [noether_all] in H.
  destruct (noether_field lu integ om dyn f) as [e|] eqn:E; cbn [bind] in H; [|discriminate].
  destruct (noether_all lu integ om dyn (S i) fs) as [l|] eqn:E2; cbn [bind] in H; [|discriminate].
  apply Ok_inj in H. subst new. destruct k as [|k].
  - cbn in Hk. injection Hk as <-. exists e. cbn. rewrite Nat.add_0_r. auto.
  - cbn in Hk. destruct (IH (S i) l E2 k g Hk) as (e' & E3 & E4). exists e'. cbn [nth_error]. rewrite E3.
    replace (S i + k)%nat with (i + S k)%nat by lia. auto.
Qed.

Lemma lu_std_defined lu m p fn rho : lu_std lu -> wd fn rho (dual_ham p) -> field_defined lu fn m p (dual_ham p) rho.
Proof.
  intros LS W M chi H. unfold ham_field in H. destruct (Nat.odd _); [discriminate|].
  rewrite LS in H by (rewrite map_length, app_length, map_length; unfold syms; rewrite !map_length; lia).
  cbn [bind] in H. apply Ok_inj in H. subst chi. rewrite map_app, !map_map. apply Forall_app. split.
  - rewrite Forall_map. apply Forall_forall. intros e He. cbn [wd].
    assert (In e (map (fun b => diff b (dual_ham p)) (syms (p_states p) ++ map lam (syms (p_states p))))).
    { rewrite <- (firstn_skipn (length (p_states p))). apply in_or_app. now right. }
    apply in_map_iff in H. destruct H as (x & <- & _). now apply wd_diff.
  - rewrite Forall_map. apply Forall_forall. intros e He. cbn [wd].
    assert (In e (map (fun b => diff b (dual_ham p)) (syms (p_states p) ++ map lam (syms (p_states p))))).
    { rewrite <- (firstn_skipn (length (p_states p))). apply in_or_app. now left. }
    apply in_map_iff in H. destruct H as (x & <- & _). now apply wd_diff.
Qed.

(** C77.  With the geometric method and no parameters, every declared symmetry
    is recorded as the sum of costates times components of its field, and that
    sum keeps its value along the extremals if the dynamics and the integrand
    of the cost are invariant under the field, whatever the controls do. *)
Theorem C77_conserved : forall lu integ, lu_ok lu -> lu_std lu -> int_const integ -> forall m r r' i X,
  lower m = "diffyg" -> p_params (r_p r) = [] -> p_costates (r_p r) = [] -> p_coparams (r_p r) = [] ->
  dualize_r lu integ m r = Ok r' -> nth_error (r_fields r) i = Some X ->
  let S := p_states (r_p r) in let xs := syms S in
  NoDup (xs ++ map lam xs) -> (forall a v, In a X -> In v (vars a) -> ~ In v (map lam xs)) ->
  exists e,
    nth_error (r_coms r') (length (r_coms r) + 1 + i) = Some (("com_" ++ of_nat i)%string, e) /\
    length X = length xs /\
    (forall fn rho, Forall (wd fn rho) X ->
       eval fn rho e = rsum (map (fun xa => rho (lam (fst xa)) * eval fn rho (snd xa)) (combine xs X))) /\
    (forall fn, smooth fn -> forall c a b h, a < b -> p_ham (r_p r') = Some h ->
       (forall t, a <= t <= b ->
          wd fn (c t) h /\ Forall (wd fn (c t)) X /\
          follows fn c t (p_states (r_p r')) /\ follows fn c t (p_costates (r_p r')) /\
          (forall e, In e X -> others_fixed c t xs e) /\
          invariant fn (c t) S (p_cost_p (r_p r)) X) ->
       eval fn (c a) e = eval fn (c b) e).
Proof.
  intros lu integ LU LS IC m r r' i X M NP E1 E2 HD HX S xs ND NL.
  unfold dualize_r in HD. destruct (dualize lu m (r_p r)) as [p'|] eqn:D; cbn [bind] in HD; [|discriminate].
  rewrite M in HD. change (String.eqb "diffyg" "diffyg") with true in HD. cbv iota in HD.
  destruct (dualize_diffyg lu LU m (r_p r) p' D M E1 E2) as (DO & CP & _).
  rewrite (d_states _ _ _ DO), (d_params _ _ _ DO), (d_lams _ _ _ DO), NP in HD. cbn [length] in HD. rewrite Nat.add_0_r in HD.
  fold S xs in HD.
  assert (LC : length (p_costates p') = length xs).
  { rewrite <- (map_length fst). fold (syms (p_costates p')). rewrite (d_lams _ _ _ DO). unfold xs. now rewrite map_length. }
  rewrite LC in HD. assert (LSx : length S = length xs) by (unfold xs, syms; now rewrite map_length). rewrite LSx in HD.
  destruct (noether_all _ _ _ _ _ _) as [new|] eqn:NA; cbn [bind] in HD; [|discriminate]. apply Ok_inj in HD. subst r'.
  cbn [r_coms r_p].
  destruct (noether_all_nth _ _ _ _ _ _ _ NA i (X ++ zeros (length xs))) as (e & N1 & N2).
  { rewrite nth_error_map, HX. reflexivity. }
  destruct (noether_value lu integ LS IC xs X e N2 NL) as [LX V].
  exists e. split.
  { rewrite nth_error_app2; rewrite app_length; cbn [length]; [|lia].
    replace (length (r_coms r) + 1 + i - (length (r_coms r) + 1))%nat with i by lia. exact N1. }
  split; [exact LX|]. split; [intros fn rho W; now apply V|].
  intros fn Sm c a b h AB HH H.
  assert (EH : h = dual_ham (r_p r)) by (pose proof (d_ham _ _ _ DO); congruence).
  destruct (H a ltac:(lra)) as (_ & WA & _). destruct (H b ltac:(lra)) as (_ & WB & _).
  rewrite (proj2 (V fn (c a) WA)), (proj2 (V fn (c b) WB)).
  apply (eq_is_derive (V := R_NormedModule)
           (fun s => rsum (map (fun xa => c s (lam (fst xa)) * eval fn (c s) (snd xa)) (combine xs X))) a b); [|exact AB].
  intros t Ht. destruct (H t Ht) as (W & WX & FS & FC & OF & IV). rewrite EH in W.
  assert (FP : follows fn c t (p_coparams p')) by (rewrite CP, NP; intros x e0 []).
  destruct (costate_rates lu LU fn m (r_p r) p' h c t (or_intror (conj M NP)) E1 E2 D HH) as (_ & _ & CR); auto.
  { rewrite EH. now apply lu_std_defined. }
  rewrite EH in CR. rewrite (d_states _ _ _ DO) in FS.
  refine (conserved_rate fn Sm (r_p r) X c t ND LX NL W WX FS _ OF IV).
  intros x Hx. apply CR. apply in_or_app. now left.
Qed.
Print Assumptions C77_conserved.

(** Two states that grow at a common rate set by the control: a' = u a, b' = u b,
    cost integrand u^2.  Scaling both is a symmetry. *)
Definition grow : rprob :=
  mkR (mkProb "t" [("a", Mul (Var "u") (Var "a")); ("b", Mul (Var "u") (Var "b"))] [] [] [] ["u"] []
         [plain (Var "a"); plain (Sub (Var "b") (Cst 2))] [] [plain (Sub (Var "a") (Cst 3))] [] []
         (Cst 0) (Mul (Var "u") (Var "u")) (Cst 0) [] [] [] [] None [] true false)
      [[Var "a"; Var "b"]; [Var "b"; Cst 0]] [] None [].
Definition grow_curve (s : R) (y : string) : R :=
  if String.eqb y "a" then exp s else if String.eqb y "b" then 5 * exp s
  else if String.eqb y "_lam_a" then exp (- s) else if String.eqb y "u" then 1 else 0.
Lemma D_exp t : is_derive exp t (exp t).
Proof. auto_derive; [exact I|]. ring. Qed.
Lemma D_exp5 t : is_derive (fun s => 5 * exp s) t (5 * exp t).
Proof. auto_derive; [exact I|]. ring. Qed.
Lemma D_expm t : is_derive (fun s => exp (- s)) t (- exp (- t)).
Proof. auto_derive; [exact I|]. ring. Qed.
Example C77_ex : exists r' e,
  dualize_r lu_red integ_poly "diffyg" grow = Ok r' /\
  nth_error (r_coms r') 1 = Some ("com_0", e) /\ length (r_coms r') = 3%nat /\
  (forall fn rho, eval fn rho e = rho "_lam_a" * rho "a" + rho "_lam_b" * rho "b") /\
  eval ex_fn (grow_curve 0) e = eval ex_fn (grow_curve 1) e /\
  eval ex_fn (grow_curve 0) e = 1.
Proof.
  assert (D : exists r', dualize_r lu_red integ_poly "diffyg" grow = Ok r') by (eexists; vm_compute; reflexivity).
  destruct D as (r' & D). 
  destruct (C77_conserved lu_red integ_poly lu_red_ok lu_red_std integ_poly_const "diffyg" grow r' 0 [Var "a"; Var "b"]
              eq_refl eq_refl eq_refl eq_refl D eq_refl) as (e & N & _ & V & K).
  { cbn. repeat constructor; cbn; intuition discriminate. }
  { intros a v [<-|[<-|[]]] [<-|[]]; cbn; intuition discriminate. }
  assert (VE : forall fn rho, eval fn rho e = rho "_lam_a" * rho "a" + rho "_lam_b" * rho "b").
  { intros fn rho. rewrite V by (repeat constructor). cbn. unfold rsum. cbn. change (lam "a") with "_lam_a". change (lam "b") with "_lam_b". ring. }
  exists r', e. split; [exact D|]. split; [exact N|]. 
  split. { assert (Q : dualize_r lu_red integ_poly "diffyg" grow = Ok r') by exact D. vm_compute in Q. apply Ok_inj in Q. subst r'. reflexivity. }
  split; [exact VE|]. split.
  - assert (HH : exists h, p_ham (r_p r') = Some h /\ (forall fn rho, wd fn rho h)).
    { vm_compute in D. apply Ok_inj in D. subst r'. eexists. split; [reflexivity|]. intros; cbn; tauto. }
    destruct HH as (h & HH & HW).
    apply (K ex_fn ex_smooth grow_curve 0 1 h); [lra|exact HH|]. intros t _. split; [apply HW|]. split; [repeat constructor|].
    vm_compute in D. apply Ok_inj in D. subst r'. cbn [r_p p_states p_costates].
    split; [|split; [|split]].
    + intros x e0 [H|[H|[]]]; injection H as <- <-; cbn [eval]; unfold grow_curve; cbn.
      * rewrite Rmult_1_l. apply D_exp.
      * rewrite Rmult_1_l. apply D_exp5.
    + intros x e0 [H|[H|[]]]; injection H as <- <-; cbn [eval]; unfold grow_curve; cbn.
      * match goal with |- is_derive _ _ ?v => replace v with (- exp (- t)) by ring end. apply D_expm.
      * match goal with |- is_derive _ _ ?v => replace v with 0 by ring end. apply (is_derive_const (K := R_AbsRing) (V := R_NormedModule)).
    + intros a [<-|[<-|[]]] v [<-|[]] N'; exfalso; apply N'; cbn; auto.
    + split; [cbn; unfold rsum; cbn; ring|]. intros x f a [H|[H|[]]]; injection H as <- <- <-; cbn; unfold rsum; cbn; ring.
  - rewrite VE. unfold grow_curve. cbn. rewrite Ropp_0, exp_0. ring.
Qed.

(** MomentumShift adds a translation of time by looking at the equations of
    motion only: if the integrand of the cost depends on time, the value
    recorded is not constant. *)
Definition timed : rprob :=
  mkR (mkProb "t" [("x", Var "u")] [] [] [] ["u"] [] [plain (Var "x"); plain (Var "t")] [] [plain (Sub (Var "x") (Cst 1))] [] []
         (Cst 0) (Add (Var "t") (Mul (Var "u") (Var "u"))) (Cst 0) [] [] [] [] None [] true false) [] [] None [].
Definition timed_curve (s : R) (y : string) : R :=
  if String.eqb y "t" then s else if String.eqb y "_lam_t" then - s else 0.
Theorem C77_time_refuted : exists r1 r2 e c,
  shift_r timed = Ok r1 /\ dualize_r lu_red integ_poly "diffyg" r1 = Ok r2 /\
  nth_error (r_coms r2) 1 = Some ("com_0", e) /\
  (forall t, follows ex_fn c t (p_states (r_p r2)) /\ follows ex_fn c t (p_costates (r_p r2))) /\
  eval ex_fn (c 0) e <> eval ex_fn (c 1) e.
Proof.
  eexists _, _, _, timed_curve. split; [vm_compute; reflexivity|]. split; [vm_compute; reflexivity|]. split; [reflexivity|].
  cbn [r_p p_states p_costates]. split.
  - intros t. split.
    + intros x e0 [H|[H|[]]]; injection H as <- <-; cbn [eval]; unfold timed_curve; cbn.
      * apply (is_derive_const (K := R_AbsRing) (V := R_NormedModule)).
      * apply (is_derive_id (K := R_AbsRing)).
    + intros x e0 [H|[H|[]]]; injection H as <- <-; cbn [eval]; unfold timed_curve; cbn.
      * match goal with |- is_derive _ _ ?v => replace v with 0 by ring end. apply (is_derive_const (K := R_AbsRing) (V := R_NormedModule)).
      * match goal with |- is_derive _ _ ?v => replace v with (- (1)) by ring end.
        apply (is_derive_opp (K := R_AbsRing) (V := R_NormedModule) (fun s => s) t 1). apply (is_derive_id (K := R_AbsRing)).
  - cbn. unfold timed_curve. cbn. lra.
Qed.
Print Assumptions C77_time_refuted.

(** A field has one component per state; with parameters the linear system of
    [noether] has another size and Dualize stops. *)
Theorem C77_parameters_rejected : forall lu integ m r p', lower m = "diffyg" ->
  dualize lu m (r_p r) = Ok p' -> p_costates (r_p r) = [] -> p_coparams (r_p r) = [] -> p_params (r_p r) <> [] ->
  lu_ok lu -> forall X fs, r_fields r = X :: fs -> length X = length (p_states (r_p r)) ->
  dualize_r lu integ m r = Raise ValueError.
Proof.
  intros lu integ m r p' M D E1 E2 NP LU X fs HF LX. unfold dualize_r. rewrite D. cbn [bind]. rewrite M.
  change (String.eqb "diffyg" "diffyg") with true. cbv iota.
  destruct (dualize_diffyg lu LU m (r_p r) p' D M E1 E2) as (DO & CP & _).
  rewrite HF. cbn [map noether_all].
  assert (N : noether_field lu integ (std_form (length (p_states p') + length (p_params p')))
                (syms (p_states p') ++ syms (p_costates p')) (X ++ zeros (length (p_costates p'))) = Raise ValueError).
  { unfold noether_field. destruct (symplectic _); [|reflexivity].
    assert (LC : length (p_costates p') = length (p_states (r_p r))).
    { rewrite <- (map_length fst). fold (syms (p_costates p')). rewrite (d_lams _ _ _ DO). unfold syms. now rewrite !map_length. }
    rewrite app_length, std_form_length, LC. unfold zeros. rewrite repeat_length, LX, (d_states _ _ _ DO), (d_params _ _ _ DO).
    destruct (Nat.eqb_spec (length (p_states (r_p r)) + length (p_states (r_p r)))
                (2 * (length (p_states (r_p r)) + length (p_params (r_p r))))) as [E|]; [|reflexivity].
    exfalso. apply NP. destruct (p_params (r_p r)); [reflexivity|cbn [length] in E; lia]. }
  rewrite N. reflexivity.
Qed.
Print Assumptions C77_parameters_rejected.
Definition grow_k : rprob := mkR (set_params (r_p grow) ["k"]) (r_fields grow) [] None [].
Example C77_parameters_ex : exists p',
  dualize lu_red "diffyg" (r_p grow_k) = Ok p' /\ dualize_r lu_red integ_poly "diffyg" grow_k = Raise ValueError.
Proof.
  assert (D : exists p', dualize lu_red "diffyg" (r_p grow_k) = Ok p') by (eexists; vm_compute; reflexivity).
  destruct D as (p' & D). exists p'. split; [exact D|].
  apply (C77_parameters_rejected lu_red integ_poly "diffyg" grow_k p' eq_refl D eq_refl eq_refl ltac:(discriminate) lu_red_ok
           [Var "a"; Var "b"] [[Var "b"; Cst 0]] eq_refl eq_refl).
Qed.
