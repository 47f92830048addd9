(** C66: time as a state (MomentumShift).  C67: the algebraic control law. *)
From Coq Require Import Reals Lra FunctionalExtensionality.
From Coquelicot Require Import Coquelicot.
From Verif Require Import Base Base_Facts Map_Model Map_Proofs Map_More Sym_Expr Sym_Facts Sym_Model Sym_Lu Sym_Dual Sym_Traj Sym_Var Sym_DiffCtl Dual_Properties Ctl_Properties.
Open Scope R_scope.

Lemma momentum_ok nm p p1 : momentum_shift nm p = Ok p1 ->
  p_states p1 = p_states p ++ [(p_ind p, Cst 1)] /\ p_ind p1 = match nm with None => ("_" ++ p_ind p)%string | Some s => s end /\
  p_costates p1 = p_costates p /\ p_params p1 = p_params p /\ p_coparams p1 = p_coparams p /\ p_controls p1 = p_controls p /\
  p_ci p1 = p_ci p /\ p_cp p1 = p_cp p /\ p_ct p1 = p_ct p /\
  p_cost_i p1 = p_cost_i p /\ p_cost_p p1 = p_cost_p p /\ p_cost_t p1 = p_cost_t p /\ p_quads p1 = p_quads p.
Proof.
  unfold momentum_shift. destruct (p_symp p); [|discriminate]. intros H. apply Ok_inj in H. subst p1. destruct p, nm; repeat split.
Qed.

(** ** C66 *)

(** Same trajectories: a curve solves the shifted dynamics exactly when it
    solves the original ones and the old time variable advances at rate one;
    cost, constraints and everything else stay as they are. *)
Theorem C66_same_trajectories : forall nm p p1, momentum_shift nm p = Ok p1 ->
  (forall fn c t, follows fn c t (p_states p1) <->
     (follows fn c t (p_states p) /\ is_derive (fun s => c s (p_ind p)) t 1)) /\
  p_params p1 = p_params p /\ p_controls p1 = p_controls p /\ p_quads p1 = p_quads p /\
  p_ci p1 = p_ci p /\ p_cp p1 = p_cp p /\ p_ct p1 = p_ct p /\
  p_cost_i p1 = p_cost_i p /\ p_cost_p p1 = p_cost_p p /\ p_cost_t p1 = p_cost_t p.
Proof.
  intros nm p p1 H. destruct (momentum_ok nm p p1 H) as (S1 & I1 & H1 & H2 & H3 & H4 & H5 & H6 & H7 & H8 & H9 & H10 & H11).
  split; [|repeat split; assumption]. intros fn c t. rewrite S1. unfold follows. split.
  - intros F. split; [intros x e X; apply F; apply in_or_app; now left|].
    apply (F (p_ind p) (Cst 1)). apply in_or_app. right. now left.
  - intros [F G] x e X. apply in_app_or in X. destruct X as [X|[X|[]]]; [now apply F|]. injection X as <- <-. exact G.
Qed.
Print Assumptions C66_same_trajectories.

(** The Hamiltonian of the shifted problem is the original one plus the costate
    of time, and does not mention the new independent variable. *)
Theorem C66_hamiltonian_autonomous : forall lu m p p1 p2 h, 
  momentum_shift None p = Ok p1 -> dualize lu m p1 = Ok p2 -> p_ham p2 = Some h ->
  (forall fn rho, eval fn rho h = eval fn rho (dual_ham p) + rho (lam (p_ind p))) /\
  (~ In (p_ind p1) (vars (p_cost_p p)) -> (forall s, In s (p_states p) -> ~ In (p_ind p1) (vars (snd s))) ->
   ~ In (p_ind p1) (map lam (syms (p_states p1))) -> ~ In (p_ind p1) (vars h)).
Proof.
  intros lu m p p1 p2 h HM HD HH. destruct (momentum_ok None p p1 HM) as (S1 & I1 & _ & _ & _ & _ & _ & _ & _ & _ & C1 & _).
  assert (EV : forall fn rho, eval fn rho h = eval fn rho (dual_ham p1)).
  { intros fn rho. rewrite (C31_hamiltonian_is_cost_plus_costates_times_dynamics lu m p1 p2 fn rho h HD HH). now rewrite dual_ham_value. }
  assert (EH : h = dual_ham p1).
  { unfold dualize in HD. revert HD. cbv zeta. generalize (s_ham _ _ (dual_start_started p1)).
    generalize (dual_ham p1) (dual_start p1). intros h0 q SH HD. destruct (p_symp p1); [|discriminate].
    destruct (String.eqb (lower m) "traditional").
    - apply Ok_inj in HD. subst p2. assert (HH' : p_ham q = Some h) by exact HH. congruence.
    - destruct (String.eqb (lower m) "diffyg").
      + unfold costates_diffyg in HD. destruct (negb _); [discriminate|].
        destruct (ham_field _ _ _ _) as [chi|]; [|discriminate]. cbn [bind] in HD. apply Ok_inj in HD. subst p2.
        assert (HH' : p_ham q = Some h) by exact HH. congruence.
      + apply Ok_inj in HD. subst p2. assert (HH' : p_ham q = Some h) by exact HH. congruence. }
  split.
  - intros fn rho. rewrite EV, !dual_ham_value, C1, S1, map_app, rsum_app. simpl. ring.
  - intros NC NS NL X. rewrite EH in X. unfold dual_ham in X. apply vars_Sum in X. rewrite C1 in X. destruct X as [X|(e & E & X)]; [now apply NC|].
    apply in_map_iff in E. destruct E as (s & <- & IS). simpl in X. destruct X as [X|X].
    + apply NL. unfold syms. rewrite map_map, <- X. exact (in_map (fun s => lam (fst s)) _ _ IS).
    + rewrite S1 in IS. apply in_app_or in IS. destruct IS as [IS|[<-|[]]]; [now apply (NS s IS)|]. exact X.
Qed.
Print Assumptions C66_hamiltonian_autonomous.

(** So along every solution of the derived equations the Hamiltonian is constant,
    also when the user's problem depends on time. *)
Theorem C66_hamiltonian_constant : forall lu, lu_ok lu -> forall fn, smooth fn -> forall m p p1 p2 h c w a b,
  momentum_shift None p = Ok p1 -> sound_method m p1 -> p_costates p = [] -> p_coparams p = [] ->
  dualize lu m p1 = Ok p2 -> p_ham p2 = Some h ->
  let X := syms (p_states p) ++ [p_ind p] in let U := p_controls p in
  NoDup (X ++ map lam X ++ U ++ [p_ind p1]) -> costates_new p1 ->
  ~ In (p_ind p1) (vars (p_cost_p p)) -> (forall s, In s (p_states p) -> ~ In (p_ind p1) (vars (snd s))) -> a < b ->
  (forall t, a <= t <= b ->
    wd fn (c t) h /\ field_defined lu fn m p1 h (c t) /\
    follows fn c t (p_states p2) /\ follows fn c t (p_costates p2) /\ follows fn c t (p_coparams p2) /\
    (forall u, In u U -> is_derive (fun s => c s u) t (w t u) /\ eval fn (c t) (diff u h) = 0) /\
    is_derive (fun s => c s (p_ind p1)) t 1 /\
    others_fixed c t (X ++ map lam X ++ U ++ [p_ind p1]) h) ->
  eval fn (c a) h = eval fn (c b) h.
Proof.
  intros lu LU fn Sm m p p1 p2 h c w a b HM SM E1 E2 HD HH X U ND CN NC NS AB H.
  destruct (momentum_ok None p p1 HM) as (S1 & I1 & C1 & _ & C2 & C3 & _).
  assert (EX : syms (p_states p1) = X) by (unfold X, syms; rewrite S1, map_app; reflexivity).
  apply (C31_hamiltonian_constant lu LU fn Sm m p1 p2 h c w a b SM); try assumption; try congruence.
  - rewrite EX, C3. exact ND.
  - apply (C66_hamiltonian_autonomous lu m p p1 p2 h HM HD HH); try assumption. rewrite EX. intros I.
    apply nodup_suffix in ND. apply (nodup_disjoint _ _ _ ND I). apply in_or_app. right. now left.
  - rewrite EX, C3. exact H.
Qed.
Print Assumptions C66_hamiltonian_constant.

(** minimise the integral of u^2 + 2 t u with x' = u: u = -t, and the costate of
    time is t^2. *)
Definition td_oc : prob :=
  mkProb "t" [("x"%string, Var "u")] [] [] [] ["u"%string] [] [] [] [] [] []
    (Cst 0) (Add (Mul (Var "u") (Var "u")) (Mul (Cst 2) (Mul (Var "t") (Var "u")))) (Cst 0) [] [] [] [] None [] true false.
Definition td_curve (s : R) (y : string) : R :=
  if String.eqb y "t" then s else if String.eqb y "_t" then s else if String.eqb y "x" then - (s * s / 2) else if String.eqb y "u" then - s
  else if String.eqb y "_lam_t" then s * s else 0.
Example C66_ex : exists p1 p2 h, momentum_shift None td_oc = Ok p1 /\ dualize lu_gauss "traditional" p1 = Ok p2 /\ p_ham p2 = Some h /\
  In "t"%string (vars (p_cost_p td_oc)) /\ eval ex_fn (td_curve 0) h = eval ex_fn (td_curve 1) h.
Proof.
  eexists. eexists. eexists.
  split; [vm_compute; reflexivity|]. split; [vm_compute; reflexivity|]. split; [reflexivity|]. split; [simpl; tauto|].
  eapply (C66_hamiltonian_constant lu_gauss lu_gauss_ok ex_fn ex_smooth "traditional" td_oc _ _ _ td_curve (fun _ _ => -1) 0 1);
    [vm_compute; reflexivity|now left|reflexivity|reflexivity|vm_compute; reflexivity|reflexivity| | | | |lra|].
  - simpl. repeat constructor; simpl; intuition discriminate.
  - intros x [<-|[<-|[]]]; (split; [simpl; intuition discriminate|]); intros s [<-|[<-|[]]]; simpl; intuition discriminate.
  - simpl. intuition discriminate.
  - intros s [<-|[]]. simpl. intuition discriminate.
  - intros t _. split; [simpl; tauto|]. split; [intros X; discriminate X|].
    split; [|split; [|split; [|split; [|split]]]].
    + intros x e H. vm_compute in H. destruct H as [H|[H|[]]]; injection H as <- <-.
      * apply (is_derive_ext (fun s => - (s * s / 2))); [intros s; reflexivity|]. auto_derive; [exact I|]. unfold td_curve. simpl. field.
      * apply (is_derive_ext (fun s => s)); [intros s; reflexivity|]. simpl. apply D_id.
    + intros x e H. vm_compute in H. destruct H as [H|[H|[]]]; injection H as <- <-.
      * apply (is_derive_ext (fun s => 0)); [intros s; reflexivity|]. match goal with |- is_derive _ _ ?v => replace v with 0 by (unfold td_curve; simpl; field) end. apply D_const.
      * apply (is_derive_ext (fun s => s * s)); [intros s; reflexivity|]. auto_derive; [exact I|]. unfold td_curve. simpl. field.
    + intros x e [].
    + intros u [<-|[]]. split; [|unfold td_curve; simpl; field].
      apply (is_derive_ext (fun s => - s)); [intros s; reflexivity|]. auto_derive; [exact I|ring].
    + apply (is_derive_ext (fun s => s)); [intros s; reflexivity|]. apply D_id.
    + intros x IX NX. exfalso. apply NX. simpl in IX. simpl. tauto.
Qed.

(** With the differential control law (traditional method) the controls stay
    stationary on the whole interval, also when the user's problem depends on
    time: the shift removes the condition of C34. *)
Theorem C66_controls_stationary : forall lu, lu_ok lu -> forall fn, smooth fn -> forall p p1 p2 p3 h c a b,
  momentum_shift None p = Ok p1 -> p_costates p = [] -> p_coparams p = [] ->
  dualize lu "traditional" p1 = Ok p2 -> p_ham p2 = Some h -> differential_control lu "traditional" p2 = Ok p3 ->
  let X := syms (p_states p) ++ [p_ind p] in let U := p_controls p in
  NoDup (X ++ map lam X ++ U ++ [p_ind p1]) ->
  ~ In (p_ind p1) (vars (p_cost_p p)) -> (forall s, In s (p_states p) -> ~ In (p_ind p1) (vars (snd s))) ->
  (forall t, a <= t <= b -> wd fn (c t) h /\ Forall (wd fn (c t)) (eoms (p_states p3)) /\
     follows fn c t (p_states p3) /\ follows fn c t (p_costates p3) /\
     is_derive (fun s => c s (p_ind p1)) t 1 /\ others_fixed c t (X ++ map lam X ++ U ++ [p_ind p1]) h) ->
  (forall d, In d (p_ct p3) -> eval fn (c b) (c_expr d) = 0) ->
  forall u t, In u U -> a <= t <= b -> eval fn (c t) (diff u h) = 0.
Proof.
  intros lu LU fn Sm p p1 p2 p3 h c a b HM E1 E2 HD HH HC X U ND NC NS H HT u t Hu Ht.
  destruct (momentum_ok None p p1 HM) as (S1 & I1 & C1 & _ & C2 & C3 & _).
  assert (EX : syms (p_states p1) = X) by (unfold X, syms; rewrite S1, map_app; reflexivity).
  destruct (dualize_traditional lu "traditional" p1 p2 HD eq_refl) as (D & _ & _); [congruence|congruence|].
  assert (EN : syms (p_states p2 ++ p_costates p2) ++ p_controls p2 ++ [p_ind p2] = X ++ map lam X ++ U ++ [p_ind p1]).
  { unfold syms at 1. rewrite map_app. fold (syms (p_states p2)) (syms (p_costates p2)).
    rewrite (d_states _ _ _ D), (d_lams _ _ _ D), (d_controls _ _ _ D), (d_ind _ _ _ D), C3, EX. now rewrite <- app_assoc. }
  apply (C34_stationary_everywhere lu LU fn Sm "traditional" p2 p3 h c a b eq_refl HC HH); try assumption.
  - rewrite EN. exact ND.
  - rewrite (d_ind _ _ _ D). apply (C66_hamiltonian_autonomous lu "traditional" p p1 p2 h HM HD HH); try assumption. rewrite EX. intros I.
    apply nodup_suffix in ND. apply (nodup_disjoint _ _ _ ND I). apply in_or_app. right. now left.
  - rewrite EN, (d_ind _ _ _ D). exact H.
  - rewrite (d_controls _ _ _ D), C3. exact Hu.
Qed.
Print Assumptions C66_controls_stationary.

(** ** C67 *)

(** [rho] with new values for the controls. *)
Fixpoint assign (rho : string -> R) (us : list string) (vs : list R) : string -> R :=
  match us, vs with
  | u :: us', v :: vs' => fun y => if String.eqb u y then v else assign rho us' vs' y
  | _, _ => rho
  end.

(** What is assumed of [sympy.solve]: every solution it returns gives one value
    per unknown, and these values solve the equations wherever all is defined. *)
Definition solve_sound (solve : list expr -> list string -> list (list expr)) : Prop :=
  forall g us cand, NoDup us -> In cand (solve g us) ->
    length cand = length us /\
    forall fn rho, Forall (wd fn rho) cand -> forall e, In e g ->
      wd fn (assign rho us (map (eval fn rho) cand)) e -> eval fn (assign rho us (map (eval fn rho) cand)) e = 0.

(** The control used at a point: the candidates are the solutions of dH/du = 0,
    and the one with the least Hamiltonian is taken.  It is stationary, and no
    candidate is better. *)
Theorem C67_control_stationary : forall solve, solve_sound solve -> forall fn p p' h rho,
  algebraic_control solve p = Ok p' -> p_ham p = Some h -> NoDup (p_controls p) ->
  let U := p_controls p in
  let cands := map (map (eval fn rho)) (p_law p') in
  let H := fun u => eval fn (assign rho U u) h in
  p_law p' <> [] -> Forall (Forall (wd fn rho)) (p_law p') -> (forall u, In u cands -> wd fn (assign rho U u) h) ->
  exists u, pick_control ROps H cands = Ok u /\ In u cands /\ length u = length U /\
    (forall v, In v U -> eval fn (assign rho U u) (diff v h) = 0) /\
    (forall u', In u' cands -> H u <= H u').
Proof.
  intros solve SO fn p p' h rho HA HH ND U cands H NE WC WH.
  unfold algebraic_control in HA. destruct (p_dual p); [|discriminate]. rewrite HH in HA. apply Ok_inj in HA.
  assert (EL : p_law p' = solve (map (fun u => diff u h) U) U) by (subst p'; destruct p; reflexivity).
  assert (CN : cands <> []) by (unfold cands; destruct (p_law p'); [easy|discriminate]).
  destruct (pick_control_spec H cands CN) as (u & j & P1 & P2 & P3 & _).
  apply nth_error_In in P2. exists u. split; [exact P1|]. split; [exact P2|].
  assert (P2' := P2). unfold cands in P2'. apply in_map_iff in P2'. destruct P2' as (cand & <- & IC).
  pose proof IC as IC'. rewrite EL in IC'. destruct (SO _ _ _ ND IC') as [L V].
  split; [now rewrite map_length|]. split; [|exact P3].
  intros v Hv. apply V.
  - rewrite Forall_forall in WC. now apply WC.
  - apply (in_map (fun u => diff u h)). exact Hv.
  - apply wd_diff. apply WH. exact P2.
Qed.
Print Assumptions C67_control_stationary.

(** If [solve] found all solutions at this point, the control used has the least
    Hamiltonian of all stationary controls. *)
Theorem C67_least_stationary : forall solve, solve_sound solve -> forall fn p p' h rho,
  algebraic_control solve p = Ok p' -> p_ham p = Some h -> NoDup (p_controls p) ->
  let U := p_controls p in
  let cands := map (map (eval fn rho)) (p_law p') in
  let H := fun u => eval fn (assign rho U u) h in
  p_law p' <> [] -> Forall (Forall (wd fn rho)) (p_law p') -> (forall u, In u cands -> wd fn (assign rho U u) h) ->
  (forall u, length u = length U -> (forall v, In v U -> eval fn (assign rho U u) (diff v h) = 0) -> In u cands) ->
  exists u, pick_control ROps H cands = Ok u /\
    forall u', length u' = length U -> (forall v, In v U -> eval fn (assign rho U u') (diff v h) = 0) -> H u <= H u'.
Proof.
  intros solve SO fn p p' h rho HA HH ND U cands H NE WC WH CO.
  destruct (C67_control_stationary solve SO fn p p' h rho HA HH ND NE WC WH) as (u & P1 & _ & _ & _ & P5).
  exists u. split; [exact P1|]. intros u' L S. apply P5. now apply CO.
Qed.
Print Assumptions C67_least_stationary.

(** No solution found: the control function raises at run time. *)
Theorem C67_no_solution : forall solve p p' h (H : list R -> R) fn rho,
  algebraic_control solve p = Ok p' -> p_ham p = Some h -> solve (map (fun u => diff u h) (p_controls p)) (p_controls p) = [] ->
  pick_control ROps H (map (map (eval fn rho)) (p_law p')) = Raise RuntimeError.
Proof.
  intros solve p p' h H fn rho HA HH HS. unfold algebraic_control in HA. destruct (p_dual p); [|discriminate]. rewrite HH in HA. apply Ok_inj in HA.
  assert (EL : p_law p' = []) by (subst p'; destruct p; exact HS). rewrite EL. reflexivity.
Qed.
Print Assumptions C67_no_solution.

(** *** A solver that meets the contract: systems affine in the unknowns. *)
Section Affine.
  Variable us : list string.
  Definition free_of (e : expr) : bool := forallb (fun x => negb (mem x us)) (vars e).
  Definition zeros : list expr := map (fun _ => Cst 0) us.
  Fixpoint aff (e : expr) : option (list expr * expr) :=
    if free_of e then Some (zeros, e) else
    match e with
    | Var x => Some (map (fun u => if String.eqb u x then Cst 1 else Cst 0) us, Cst 0)
    | Add a b =>
        match aff a, aff b with
        | Some (ca, da), Some (cb, db) => Some (map (fun xy => Add (fst xy) (snd xy)) (combine ca cb), Add da db)
        | _, _ => None
        end
    | Opp a => match aff a with Some (c, d) => Some (map Opp c, Opp d) | None => None end
    | Mul a b =>
        if is_zero a || is_zero b then Some (zeros, Cst 0)
        else if free_of a then match aff b with Some (c, d) => Some (map (Mul a) c, Mul a d) | None => None end
        else if free_of b then match aff a with Some (c, d) => Some (map (Mul b) c, Mul b d) | None => None end
        else None
    | _ => None
    end.
  Fixpoint affs (g : list expr) : option (list (list expr * expr)) :=
    match g with
    | [] => Some []
    | e :: g' => match aff e, affs g' with Some r, Some rs => Some (r :: rs) | _, _ => None end
    end.
End Affine.
Definition solve_linear (lu : list (list expr) -> list expr -> res (list expr)) (g : list expr) (us : list string) : list (list expr) :=
  match affs us g with
  | Some rows =>
      if Nat.eqb (length g) (length us) then
        match lu (map fst rows) (map (fun r => Opp (snd r)) rows) with Ok x => [x] | Raise _ => [] end
      else []
  | None => []
  end.

Lemma free_of_in us e x : free_of us e = true -> In x us -> ~ In x (vars e).
Proof.
  unfold free_of. rewrite forallb_forall. intros H U V. specialize (H x V). destruct (mem x us) eqn:M; [discriminate|].
  apply mem_In in U. congruence.
Qed.
Lemma assign_out us : forall rho vs y, ~ In y us -> assign rho us vs y = rho y.
Proof.
  induction us as [|u us IH]; intros rho [|v vs] y H; try reflexivity. simpl.
  destruct (String.eqb_spec u y) as [->|N]; [exfalso; apply H; now left|]. apply IH. intros I. apply H. now right.
Qed.
Lemma assign_at us : forall rho vs, NoDup us -> length vs = length us -> map (assign rho us vs) us = vs.
Proof.
  induction us as [|u us IH]; intros rho [|v vs] ND L; try discriminate; [reflexivity|]. inversion ND as [|? ? NI ND']; subst.
  simpl. rewrite String.eqb_refl. f_equal. etransitivity; [|apply (IH rho vs ND'); simpl in L; congruence].
  apply map_ext_in. intros y Y. destruct (String.eqb_spec u y) as [->|N]; [easy|reflexivity].
Qed.
Lemma eval_free us fn rho vs e : free_of us e = true -> eval fn (assign rho us vs) e = eval fn rho e.
Proof.
  intros H. apply eval_ext. intros x X. apply assign_out. intros I. exact (free_of_in us e x H I X).
Qed.
Lemma rdot_map_scale fn rho k c xs : rdot (map (eval fn rho) (map (Mul k) c)) xs = eval fn rho k * rdot (map (eval fn rho) c) xs.
Proof.
  unfold rdot. revert xs. induction c as [|a c IH]; intros [|x xs]; simpl; try ring. rewrite IH. ring.
Qed.
Lemma rdot_zeros us fn rho xs : rdot (map (eval fn rho) (zeros us)) xs = 0.
Proof.
  unfold rdot, zeros. rewrite map_map. simpl. revert xs. induction us as [|a us IH]; intros [|x xs]; simpl; try reflexivity. rewrite IH. ring.
Qed.
Lemma rdot_unit us : forall fn rho rho' x, NoDup us -> In x us ->
  rdot (map (eval fn rho) (map (fun u => if String.eqb u x then Cst 1 else Cst 0) us)) (map rho' us) = rho' x.
Proof.
  unfold rdot. induction us as [|u us IH]; intros fn rho rho' x ND I; [easy|]. inversion ND as [|? ? NI ND']; subst. simpl.
  destruct (String.eqb_spec u x) as [->|N].
  - cbn [eval]. assert (Z : rsum (map (fun xy => fst xy * snd xy) (combine (map (eval fn rho) (map (fun u => if String.eqb u x then Cst 1 else Cst 0) us)) (map rho' us))) = 0).
    { clear - NI. induction us as [|u us IH]; [reflexivity|]. simpl. destruct (String.eqb_spec u x) as [->|N]; [exfalso; apply NI; now left|].
      cbn [eval]. rewrite IH; [ring|]. intros I. apply NI. now right. }
    rewrite Z. ring.
  - cbn [eval]. destruct I as [I|I]; [congruence|]. rewrite (IH fn rho rho' x ND' I). ring.
Qed.

(** Coefficients of an affine expression: free of the unknowns, and right. *)
Lemma aff_ok us (ND : NoDup us) fn rho vs : length vs = length us -> forall e c d, aff us e = Some (c, d) ->
  length c = length us /\
  eval fn (assign rho us vs) e = rdot (map (eval fn rho) c) vs + eval fn rho d.
Proof.
  intros L. assert (AT := assign_at us rho vs ND L). set (rho' := assign rho us vs) in *.
  assert (FR : forall e c d, Some (zeros us, e) = Some (c, d) -> free_of us e = true ->
    length c = length us /\ eval fn rho' e = rdot (map (eval fn rho) c) vs + eval fn rho d).
  { intros e c d [= <- <-] F. split; [unfold zeros; apply map_length|]. rewrite rdot_zeros. unfold rho'. rewrite eval_free by exact F. ring. }
  induction e; intros c d H; cbn [aff] in H;
    match type of H with (if free_of us ?e then _ else _) = _ => destruct (free_of us e) eqn:F; [now apply FR|] end; try discriminate.
  - injection H as <- <-. split; [apply map_length|]. rewrite <- AT at 1. rewrite rdot_unit; [simpl; ring|exact ND|].
    unfold free_of in F. simpl in F. rewrite andb_true_r in F. apply negb_false_iff in F. now apply mem_In.
  - destruct (aff us e1) as [[c1 d1]|]; [|discriminate]. destruct (aff us e2) as [[c2 d2]|]; [|discriminate]. injection H as <- <-.
    destruct (IHe1 c1 d1 eq_refl) as [L1 V1]. destruct (IHe2 c2 d2 eq_refl) as [L2 V2].
    split; [rewrite map_length, combine_length; lia|]. simpl. rewrite V1, V2.
    assert (S : forall c1 c2 xs, length c1 = length c2 -> rdot (map (eval fn rho) (map (fun xy => Add (fst xy) (snd xy)) (combine c1 c2))) xs =
       rdot (map (eval fn rho) c1) xs + rdot (map (eval fn rho) c2) xs).
    { clear. unfold rdot. induction c1 as [|a c1 IH]; intros [|b c2] [|x xs] L; try discriminate; simpl; try ring.
      rewrite IH by (simpl in L; congruence). ring. }
    rewrite S by congruence. ring.
  - destruct (is_zero e1 || is_zero e2) eqn:Z.
    + injection H as <- <-. split; [unfold zeros; apply map_length|]. rewrite rdot_zeros. simpl. apply orb_true_iff in Z.
      destruct Z as [Z|Z]; [destruct e1 as [[]| | | | | | | | | |]|destruct e2 as [[]| | | | | | | | | |]]; try discriminate; simpl; ring.
    + destruct (free_of us e1) eqn:F1.
      * destruct (aff us e2) as [[c2 d2]|]; [|discriminate]. injection H as <- <-. destruct (IHe2 c2 d2 eq_refl) as [L2 V2].
        split; [now rewrite map_length|]. rewrite rdot_map_scale. simpl. rewrite V2. unfold rho'. rewrite (eval_free us fn rho vs e1 F1). ring.
      * destruct (free_of us e2) eqn:F2; [|discriminate]. destruct (aff us e1) as [[c1 d1]|]; [|discriminate]. injection H as <- <-.
        destruct (IHe1 c1 d1 eq_refl) as [L1 V1]. split; [now rewrite map_length|]. rewrite rdot_map_scale. simpl. rewrite V1. unfold rho'. rewrite (eval_free us fn rho vs e2 F2). ring.
  - destruct (aff us e) as [[c1 d1]|]; [|discriminate]. injection H as <- <-. destruct (IHe c1 d1 eq_refl) as [L1 V1].
    split; [now rewrite map_length|]. simpl. rewrite V1.
    assert (S : forall c xs, rdot (map (eval fn rho) (map Opp c)) xs = - rdot (map (eval fn rho) c) xs).
    { clear. unfold rdot. induction c as [|a c IH]; intros [|x xs]; simpl; try ring. rewrite IH. ring. }
    rewrite S. ring.
Qed.
Theorem C67_linear_solver_sound : forall lu, lu_ok lu -> solve_sound (solve_linear lu).
Proof.
  intros lu LU g us cand ND H. unfold solve_linear in H. destruct (affs us g) as [rows|] eqn:A; [|easy].
  destruct (Nat.eqb_spec (length g) (length us)) as [LG|]; [|easy].
  destruct (lu (map fst rows) (map (fun r => Opp (snd r)) rows)) as [x|] eqn:E; [|easy]. destruct H as [<-|[]].
  assert (R : length rows = length g /\ forall e, In e g -> exists r, In r rows /\ aff us e = Some r).
  { clear - A. revert rows A. induction g as [|e g IH]; intros rows A; simpl in A; [injection A as <-; split; [reflexivity|easy]|].
    destruct (aff us e) as [r|] eqn:Er; [|discriminate]. destruct (affs us g) as [rs|]; [|discriminate]. injection A as <-.
    destruct (IH rs eq_refl) as [I1 I2]. split; [simpl; congruence|]. intros e' [<-|I]; [exists r; split; [now left|exact Er]|].
    destruct (I2 e' I) as (r' & J1 & J2). exists r'. split; [now right|exact J2]. }
  assert (R' : forall r, In r rows -> exists e, aff us e = Some r).
  { clear - A. revert rows A. induction g as [|e g IH]; intros rows A; simpl in A; [injection A as <-; easy|].
    destruct (aff us e) as [r|] eqn:Er; [|discriminate]. destruct (affs us g) as [rs|]; [|discriminate]. injection A as <-.
    intros r' [<-|I]; [eauto|]. now apply (IH rs). }
  destruct R as [LR RI].
  assert (FL : Forall (fun row => length row = length (map (fun r => Opp (snd r)) rows)) (map fst rows)).
  { apply Forall_forall. intros row I. apply in_map_iff in I. destruct I as ([c d] & <- & I). destruct (R' _ I) as [e Ee].
    rewrite map_length, LR, LG. refine (proj1 (aff_ok us ND (fun _ _ _ => 0) (fun _ => 0) (map (fun _ => 0) us) _ e c d Ee)). apply map_length. }
  assert (EL : length (map fst rows) = length (map (fun r => Opp (snd r)) rows)) by (now rewrite !map_length).
  destruct (LU _ _ _ EL FL E) as [LX VX]. rewrite map_length, LR, LG in LX.
  split; [exact LX|]. intros fn rho W e I _. specialize (VX fn rho W). destruct (RI e I) as ([c d] & J & Ee).
  assert (LV : length (map (eval fn rho) x) = length us) by (rewrite map_length; exact LX).
  rewrite (proj2 (aff_ok us ND fn rho _ LV e c d Ee)).
  clear - VX J. induction rows as [|r rows IH]; [easy|]. simpl in VX. inversion VX as [|? ? ? ? V1 V2]; subst.
  destruct J as [->|J]; [|now apply IH]. simpl in V1. rewrite V1. ring.
Qed.
Print Assumptions C67_linear_solver_sound.

(** H = 4 + u^2 + lam_x u: the control is -lam_x / 2. *)
Example C67_ex : exists p1 p2 h, dualize lu_gauss "traditional" ex_oc = Ok p1 /\ algebraic_control (solve_linear lu_gauss) p1 = Ok p2 /\
  p_ham p1 = Some h /\ NoDup (p_controls p1) /\ p_law p2 <> [] /\
  forall rho, Forall (Forall (wd ex_fn rho)) (p_law p2) /\ map (map (eval ex_fn rho)) (p_law p2) = [[- rho "_lam_x"%string / 2]].
Proof.
  eexists. eexists. eexists. split; [vm_compute; reflexivity|]. split; [vm_compute; reflexivity|]. split; [reflexivity|].
  split; [repeat constructor; simpl; tauto|]. split; [discriminate|]. intros rho. split.
  - repeat constructor; simpl; lra.
  - simpl. f_equal. f_equal. field.
Qed.
