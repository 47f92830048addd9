(** Property theorems C31, C33 and C65: the equations derived by Dualize. *)
From Coq Require Import Reals Lra.
From Coquelicot Require Import Coquelicot.
From Verif Require Import Base Base_Facts Sym_Expr Sym_Facts Sym_Model Sym_Lu Sym_Dual Sym_Traj Sym_Var.
Open Scope R_scope.

(** The methods on which the costate equations are right: the traditional one,
    and the geometric one when the problem has no parameters (see C33). *)
Definition sound_method (m : string) (p : prob) : Prop :=
  lower m = "traditional"%string \/ (lower m = "diffyg"%string /\ p_params p = []).

(** With the geometric method, the solution of its linear system is defined. *)
Definition field_defined lu fn (m : string) (p : prob) (h : expr) (rho : string -> R) : Prop :=
  lower m = "diffyg"%string -> forall chi, ham_field lu h (std_form (length (p_states p))) (syms (p_states p) ++ map lam (syms (p_states p))) = Ok chi ->
  Forall (wd fn rho) chi.

(** No symbol of the user's dynamics or path cost is named like a costate. *)
Definition costates_new (p : prob) : Prop :=
  forall x, In x (syms (p_states p)) ->
    ~ In (lam x) (vars (p_cost_p p)) /\ forall s, In s (p_states p) -> ~ In (lam x) (vars (snd s)).

Lemma costate_rates lu (LU : lu_ok lu) fn m p p' h c t :
  sound_method m p -> p_costates p = [] -> p_coparams p = [] -> dualize lu m p = Ok p' -> p_ham p' = Some h ->
  field_defined lu fn m p h (c t) -> follows fn c t (p_costates p') -> follows fn c t (p_coparams p') ->
  h = dual_ham p /\ dual_of p p' h /\
  forall x, In x (syms (p_states p) ++ p_params p) ->
    is_derive (fun s => c s (lam x)) t (- eval fn (c t) (diff x h)).
Proof.
  intros SM E1 E2 HD HH FD FC FP. destruct SM as [M|[M NP]].
  - destruct (dualize_traditional lu m p p' HD M E1 E2) as (DO & C1 & C2).
    assert (EH : h = dual_ham p) by (pose proof (d_ham _ _ _ DO); congruence). subst h.
    split; [reflexivity|split; [exact DO|]]. intros x Hx. apply in_app_or in Hx. destruct Hx as [Hx|Hx].
    + unfold syms in Hx. apply in_map_iff in Hx. destruct Hx as (s & <- & Hs).
      apply (FC (lam (fst s)) (Opp (diff (fst s) (dual_ham p)))). rewrite C1.
      apply (in_map (fun s => (lam (fst s), Opp (diff (fst s) (dual_ham p))))). exact Hs.
    + apply (FP (lam x) (Opp (diff x (dual_ham p)))). rewrite C2.
      apply (in_map (fun x => (lam x, Opp (diff x (dual_ham p))))). exact Hx.
  - destruct (dualize_diffyg lu LU m p p' HD M E1 E2) as (DO & C2 & chi & rates & H1 & H2 & H3 & H4).
    assert (EH : h = dual_ham p) by (pose proof (d_ham _ _ _ DO); congruence). subst h.
    split; [reflexivity|split; [exact DO|]]. rewrite NP, app_nil_r in *. cbn [length Nat.add] in H4.
    intros x Hx. apply (In_nth _ _ EmptyString) in Hx. destruct Hx as (i & Hi & <-).
    assert (Hi' : (i < length (p_states p))%nat) by (unfold syms in Hi; rewrite map_length in Hi; exact Hi).
    assert (LS : length (syms (p_states p)) = length (p_states p)) by (unfold syms; apply map_length).
    rewrite LS in H1. rewrite <- (H4 fn (c t) (FD M chi H1) i Hi').
    apply FC. rewrite H3. 
    assert (N : nth i (combine (map lam (syms (p_states p))) rates) (lam EmptyString, Cst 0) =
                (lam (nth i (syms (p_states p)) EmptyString), nth i rates (Cst 0))).
    { rewrite combine_nth; [now rewrite (map_nth lam)|]. rewrite map_length, LS. symmetry. exact H2. }
    rewrite <- N. apply nth_In. rewrite combine_length, map_length, LS, H2. lia.
Qed.


Lemma nodup_prefix {A} (l m : list A) : NoDup (l ++ m) -> NoDup l.
Proof.
  induction l as [|a l IH]; simpl; intros H; [constructor|]. inversion H as [|? ? NI ND]; subst.
  constructor; [rewrite in_app_iff in NI; tauto|auto].
Qed.

(** C31.  The Hamiltonian is the path cost plus costates times dynamics. *)
Theorem C31_hamiltonian_is_cost_plus_costates_times_dynamics : forall lu m p p' fn rho h,
  dualize lu m p = Ok p' -> p_ham p' = Some h ->
  eval fn rho h = eval fn rho (p_cost_p p) +
                  rsum (map (fun s => rho (lam (fst s)) * eval fn rho (snd s)) (p_states p)).
Proof.
  intros lu m p p' fn rho h HD HH. rewrite <- dual_ham_value. f_equal.
  unfold dualize in HD. revert HD. cbv zeta. generalize (s_ham _ _ (dual_start_started p)).
  generalize (dual_ham p) (dual_start p). intros h0 q SH HD.
  destruct (p_symp p); [|discriminate].
  destruct (String.eqb (lower m) "traditional").
  - apply Ok_inj in HD. subst p'. assert (HH' : p_ham q = Some h) by exact HH. congruence.
  - destruct (String.eqb (lower m) "diffyg").
    + unfold costates_diffyg in HD. destruct (negb _); [discriminate|].
      destruct (ham_field _ _ _ _) as [chi|]; [|discriminate]. cbn [bind] in HD. apply Ok_inj in HD. subst p'.
      assert (HH' : p_ham q = Some h) by exact HH. congruence.
    + apply Ok_inj in HD. subst p'. assert (HH' : p_ham q = Some h) by exact HH. congruence.
Qed.
Print Assumptions C31_hamiltonian_is_cost_plus_costates_times_dynamics.

(** C31.  Along every curve obeying the derived equations at time [t] the
    Hamiltonian changes only through the controls and the explicit time. *)
Theorem C31_energy_balance : forall lu, lu_ok lu -> forall fn, smooth fn -> forall m p p' h c t w,
  sound_method m p -> p_costates p = [] -> p_coparams p = [] ->
  dualize lu m p = Ok p' -> p_ham p' = Some h ->
  let X := syms (p_states p) in let U := p_controls p in
  NoDup (X ++ map lam X ++ U ++ [p_ind p]) -> costates_new p ->
  wd fn (c t) h -> field_defined lu fn m p h (c t) ->
  follows fn c t (p_states p') -> follows fn c t (p_costates p') -> follows fn c t (p_coparams p') ->
  (forall u, In u U -> is_derive (fun s => c s u) t (w u)) ->
  is_derive (fun s => c s (p_ind p)) t 1 ->
  others_fixed c t (X ++ map lam X ++ U ++ [p_ind p]) h ->
  is_derive (fun s => eval fn (c s) h) t
    (rsum (map (fun u => eval fn (c t) (diff u h) * w u) U) + eval fn (c t) (diff (p_ind p) h)).
Proof.
  intros lu LU fn Sm m p p' h c t w SM E1 E2 HD HH X U ND CN W FD FS FC FP HU HI HO.
  destruct (costate_rates lu LU fn m p p' h c t SM E1 E2 HD HH FD FC FP) as (EH & DO & HL).
  apply (energy_balance fn Sm h X U (p_ind p) c w t); auto.
  - intros x Hx. unfold X, syms in Hx. apply in_map_iff in Hx. destruct Hx as ([y f] & <- & Hs). cbn [fst].
    rewrite EH. rewrite (dual_ham_diff_lam fn p y f).
    + apply FS. rewrite (d_states _ _ _ DO). exact Hs.
    + exact (nodup_prefix _ _ ND).
    + exact Hs.
    + apply CN. unfold syms. apply (in_map fst) in Hs. exact Hs.
    + apply CN. unfold syms. apply (in_map fst) in Hs. exact Hs.
  - intros x Hx. apply HL. apply in_or_app. now left.
Qed.
Print Assumptions C31_energy_balance.

(** C31.  On an interval: constant when the controls are stationary and time
    does not appear. *)
Theorem C31_hamiltonian_constant : forall lu, lu_ok lu -> forall fn, smooth fn -> forall m p p' h c w a b,
  sound_method m p -> p_costates p = [] -> p_coparams p = [] ->
  dualize lu m p = Ok p' -> p_ham p' = Some h ->
  let X := syms (p_states p) in let U := p_controls p in
  NoDup (X ++ map lam X ++ U ++ [p_ind p]) -> costates_new p -> ~ In (p_ind p) (vars h) -> a < b ->
  (forall t, a <= t <= b ->
    wd fn (c t) h /\ field_defined lu fn m p h (c t) /\
    follows fn c t (p_states p') /\ follows fn c t (p_costates p') /\ follows fn c t (p_coparams p') /\
    (forall u, In u U -> is_derive (fun s => c s u) t (w t u) /\ eval fn (c t) (diff u h) = 0) /\
    is_derive (fun s => c s (p_ind p)) t 1 /\
    others_fixed c t (X ++ map lam X ++ U ++ [p_ind p]) h) ->
  eval fn (c a) h = eval fn (c b) h.
Proof.
  intros lu LU fn Sm m p p' h c w a b SM E1 E2 HD HH X U ND CN NI AB H.
  apply (eq_is_derive (V := R_NormedModule) (fun s => eval fn (c s) h) a b); [|exact AB].
  intros t Ht. destruct (H t Ht) as (W & FD & FS & FC & FP & HU & HI & HO).
  pose proof (C31_energy_balance lu LU fn Sm m p p' h c t (w t) SM E1 E2 HD HH ND CN W FD FS FC FP
                (fun u Hu => proj1 (HU u Hu)) HI HO) as G.
  assert (Z : rsum (map (fun u => eval fn (c t) (diff u h) * w t u) (p_controls p)) + eval fn (c t) (diff (p_ind p) h) = 0).
  { rewrite (eval_diff_fresh fn) by exact NI. rewrite rsum_zero; [lra|].
    intros u Hu. rewrite (proj2 (HU u Hu)). lra. }
  rewrite Z in G. exact G.
Qed.
Print Assumptions C31_hamiltonian_constant.

(** An example for C31 and C65: minimise the integral of 4 + u^2 over
    trajectories of x' = u from x = 0 to x = 1 with free final time; the solution
    is u = 2, x = 2 t on [0, 1/2] with costate -4. *)
Definition ex_fn : string -> nat -> R -> R := fun _ k x => match k with O => x | S O => 1 | _ => 0 end.
Lemma ex_smooth : smooth ex_fn.
Proof.
  intros f k x. destruct k as [|[|k]]; simpl.
  - apply (is_derive_id (K := R_AbsRing)).
  - apply (is_derive_const (K := R_AbsRing) (V := R_NormedModule)).
  - apply (is_derive_const (K := R_AbsRing) (V := R_NormedModule)).
Qed.
Definition ex_oc : prob :=
  mkProb "t" [("x"%string, Var "u")] [] [] [] ["u"%string] [] [plain (Var "x")] [] [plain (Sub (Var "x") (Cst 1))] [] []
    (Cst 0) (Add (Cst 4) (Mul (Var "u") (Var "u"))) (Cst 0) [] [] [] [] None [] true false.
Definition ex_curve (s : R) (y : string) : R :=
  if String.eqb y "t" then s else if String.eqb y "x" then 2 * s else if String.eqb y "u" then 2
  else if String.eqb y "_lam_x" then -4 else if String.eqb y "_nu_0_0" then 4 else if String.eqb y "_nu_f_0" then -4 else 0.
Definition ex_var (s : R) (y : string) : R := if String.eqb y "x" then s else if String.eqb y "u" then 1 else 0.
Definition ex_end (y : string) : R := if String.eqb y "t" then - (1 / 4) else 0.

Lemma D_id t : is_derive (fun s : R => s) t 1.
Proof. apply (is_derive_id (K := R_AbsRing)). Qed.
Lemma D_const a t : is_derive (fun _ : R => a) t 0.
Proof. apply (is_derive_const (K := R_AbsRing) (V := R_NormedModule)). Qed.
Lemma D_lin a t : is_derive (fun s : R => a * s) t a.
Proof. auto_derive; [exact I|ring]. Qed.

Definition ex_diffyg : prob := Eval vm_compute in match dualize lu_gauss "diffyg" ex_oc with Ok q => q | Raise _ => ex_oc end.
Definition ex_trad : prob := Eval vm_compute in match dualize lu_gauss "traditional" ex_oc with Ok q => q | Raise _ => ex_oc end.
Definition ex_h : expr := Eval vm_compute in dual_ham ex_oc.

Example C31_ex : exists p' h,
  dualize lu_gauss "diffyg" ex_oc = Ok p' /\ p_ham p' = Some h /\ sound_method "diffyg" ex_oc /\
  NoDup (syms (p_states ex_oc) ++ map lam (syms (p_states ex_oc)) ++ p_controls ex_oc ++ [p_ind ex_oc]) /\
  costates_new ex_oc /\ ~ In (p_ind ex_oc) (vars h) /\ eval ex_fn (ex_curve 0) h = eval ex_fn (ex_curve 1) h.
Proof.
  exists ex_diffyg, ex_h.
  assert (A : dualize lu_gauss "diffyg" ex_oc = Ok ex_diffyg) by (vm_compute; reflexivity).
  assert (B : p_ham ex_diffyg = Some ex_h) by reflexivity.
  assert (SM : sound_method "diffyg" ex_oc) by (right; split; reflexivity).
  assert (ND : NoDup (syms (p_states ex_oc) ++ map lam (syms (p_states ex_oc)) ++ p_controls ex_oc ++ [p_ind ex_oc])).
  { simpl. repeat constructor; simpl; intuition discriminate. }
  assert (CN : costates_new ex_oc).
  { intros x [<-|[]]. split; [simpl; intuition discriminate|]. intros s [<-|[]]. simpl. intuition discriminate. }
  assert (NI : ~ In (p_ind ex_oc) (vars ex_h)) by (simpl; intuition discriminate).
  split; [exact A|]. split; [exact B|]. split; [exact SM|]. split; [exact ND|]. split; [exact CN|]. split; [exact NI|].
  apply (C31_hamiltonian_constant lu_gauss lu_gauss_ok ex_fn ex_smooth "diffyg" ex_oc ex_diffyg ex_h ex_curve (fun _ _ => 0) 0 1 SM eq_refl eq_refl A B ND CN NI); [lra|].
  intros t _. split; [simpl; tauto|]. split.
  { intros _ chi. vm_compute ham_field. intros H. apply Ok_inj in H. subst chi.
    repeat constructor; simpl; lra. }
  split; [|split; [|split; [|split; [|split]]]].
  - intros x e H. vm_compute in H. destruct H as [H|[]]. injection H as <- <-. simpl. apply (is_derive_ext (fun s => 2 * s)); [intros s; reflexivity|apply D_lin].
  - intros x e H. vm_compute in H. destruct H as [H|[]]. injection H as <- <-.
    match goal with |- is_derive _ _ ?v => replace v with 0 by (simpl; field) end. apply (is_derive_ext (fun _ => -4)); [intros s; reflexivity|apply D_const].
  - intros x e H. vm_compute in H. contradiction.
  - intros u [<-|[]]. split; [apply (is_derive_ext (fun _ => 2)); [intros s; reflexivity|apply D_const]|]. simpl. unfold ex_curve. simpl. lra.
  - apply (is_derive_ext (fun s => s)); [intros s; reflexivity|apply D_id].
  - intros x Hx N. simpl in Hx, N. exfalso. intuition.
Qed.

(** C33.  Without parameters both methods give the same derived problem. *)
Theorem C33_same_without_parameters : forall lu, lu_ok lu -> forall p p1 p2 m1 m2 h,
  lower m1 = "traditional"%string -> lower m2 = "diffyg"%string ->
  p_params p = [] -> p_costates p = [] -> p_coparams p = [] ->
  dualize lu m1 p = Ok p1 -> dualize lu m2 p = Ok p2 -> p_ham p1 = Some h ->
  (p_ham p2 = Some h /\ p_states p1 = p_states p2 /\ p_coparams p1 = p_coparams p2 /\ p_cadj p1 = p_cadj p2 /\
   p_ci p1 = p_ci p2 /\ p_ct p1 = p_ct p2 /\ syms (p_costates p1) = syms (p_costates p2)) /\
  forall fn rho, field_defined lu fn m2 p h rho ->
    map (fun s => eval fn rho (snd s)) (p_costates p1) = map (fun s => eval fn rho (snd s)) (p_costates p2).
Proof.
  intros lu LU p p1 p2 m1 m2 h M1 M2 NP E1 E2 H1 H2 HH.
  destruct (dualize_traditional lu m1 p p1 H1 M1 E1 E2) as (D1 & C1 & Q1).
  destruct (dualize_diffyg lu LU m2 p p2 H2 M2 E1 E2) as (D2 & Q2 & chi & rates & G1 & G2 & G3 & G4).
  assert (EH : h = dual_ham p) by (pose proof (d_ham _ _ _ D1); congruence).
  assert (SC : syms (p_costates p1) = syms (p_costates p2)).
  { rewrite (d_lams _ _ _ D1), (d_lams _ _ _ D2). reflexivity. }
  split.
  - split; [rewrite EH; apply (d_ham _ _ _ D2)|].
    split; [rewrite (d_states _ _ _ D1), (d_states _ _ _ D2); reflexivity|].
    split; [rewrite Q1, Q2, NP; reflexivity|].
    split; [rewrite (d_cadj _ _ _ D1), (d_cadj _ _ _ D2); reflexivity|].
    split; [rewrite (d_ci _ _ _ D1), (d_ci _ _ _ D2), (d_cost_i _ _ _ D1), (d_cost_i _ _ _ D2); reflexivity|].
    split; [rewrite (d_ct _ _ _ D1), (d_ct _ _ _ D2), (d_cost_t _ _ _ D1), (d_cost_t _ _ _ D2); reflexivity|].
    exact SC.
  - intros fn rho FD. rewrite NP, app_nil_r in *. cbn [length Nat.add] in G4.
    assert (LS : length (syms (p_states p)) = length (p_states p)) by (unfold syms; apply map_length).
    rewrite EH in FD. rewrite LS in G1. pose proof (G4 fn rho (FD M2 chi G1)) as V. clear G4.
    rewrite C1, map_map, G3. cbn [snd].
    assert (R2 : map (fun s : string * expr => eval fn rho (snd s)) (combine (map lam (syms (p_states p))) rates) = map (eval fn rho) rates).
    { assert (L2 : length (map lam (syms (p_states p))) = length rates) by (rewrite map_length, LS; symmetry; exact G2).
      revert L2. generalize (map lam (syms (p_states p))). clear. intros l. revert l.
      induction rates as [|e r IH]; intros [|a l] HL; simpl in *; auto; try lia. f_equal. apply IH. lia. }
    rewrite R2. apply (nth_ext _ _ (eval fn rho (Opp (diff (fst (EmptyString, Cst 0)) (dual_ham p)))) (eval fn rho (Cst 0))).
    + rewrite !map_length. symmetry. exact G2.
    + intros i Hi. rewrite map_length in Hi.
      rewrite (map_nth (eval fn rho)), (V i Hi).
      rewrite (map_nth (fun x : string * expr => eval fn rho (Opp (diff (fst x) (dual_ham p))))). cbn [eval]. f_equal. f_equal. f_equal.
      unfold syms. rewrite <- (map_nth fst). reflexivity.
Qed.
Print Assumptions C33_same_without_parameters.

Example C33_ex : exists p1 p2, dualize lu_gauss "traditional" ex_oc = Ok p1 /\ dualize lu_gauss "diffyg" ex_oc = Ok p2 /\
  p_params ex_oc = [] /\ length (p_costates p1) = 1%nat /\ length (p_ct p1) = 3%nat /\
  forall fn rho, field_defined lu_gauss fn "diffyg" ex_oc (dual_ham ex_oc) rho.
Proof.
  do 2 eexists. split; [vm_compute; reflexivity|]. split; [vm_compute; reflexivity|].
  split; [reflexivity|]. split; [reflexivity|]. split; [reflexivity|].
  intros fn rho _ chi. vm_compute ham_field. intros H. apply Ok_inj in H. subst chi. repeat constructor; simpl; lra.
Qed.

(** C33.  With k parameters the geometric method assigns to the i-th state the
    derivative with respect to the (i+k)-th entry of states ++ parameters, and
    no equation at all to the parameters. *)
Theorem C33_with_parameters_shifted : forall lu, lu_ok lu -> forall p p2 m,
  lower m = "diffyg"%string -> p_costates p = [] -> p_coparams p = [] -> dualize lu m p = Ok p2 ->
  let q := syms (p_states p) ++ p_params p in
  Forall (fun s => snd s = Cst 0) (p_coparams p2) /\
  exists h chi, p_ham p2 = Some h /\ ham_field lu h (std_form (length q)) (q ++ map lam q) = Ok chi /\
  forall fn rho, Forall (wd fn rho) chi -> forall i, (i < length (p_states p))%nat ->
    exists x e, nth_error (p_costates p2) i = Some (lam x, e) /\ nth_error q i = Some x /\
      eval fn rho e = - eval fn rho (diff (nth (i + length (p_params p)) q EmptyString) h).
Proof.
  intros lu LU p p2 m M E1 E2 HD q.
  destruct (dualize_diffyg lu LU m p p2 HD M E1 E2) as (D2 & Q2 & chi & rates & G1 & G2 & G3 & G4).
  split. { rewrite Q2. apply Forall_map. apply Forall_forall. reflexivity. }
  exists (dual_ham p), chi. split; [apply (d_ham _ _ _ D2)|]. split; [exact G1|].
  intros fn rho W i Hi. assert (LS : length (syms (p_states p)) = length (p_states p)) by (unfold syms; apply map_length).
  exists (nth i (syms (p_states p)) EmptyString), (nth i rates (Cst 0)). split; [|split].
  - rewrite G3. rewrite (nth_error_nth' _ (lam EmptyString, Cst 0)) by (rewrite combine_length, map_length, LS, G2; lia).
    rewrite combine_nth by (rewrite map_length, LS; symmetry; exact G2). now rewrite (map_nth lam).
  - unfold q. rewrite nth_error_app1 by (rewrite LS; exact Hi). apply nth_error_nth'. rewrite LS. exact Hi.
  - rewrite (G4 fn rho W i Hi), Nat.add_comm. reflexivity.
Qed.
Print Assumptions C33_with_parameters_shifted.

(** Refutation of C33 with one parameter: x' = k, path cost x.  The traditional
    method gives -1 and -costate, the geometric one -costate and 0. *)
Definition ex_par : prob :=
  mkProb "t" [("x"%string, Var "k")] [] ["k"%string] [] [] [] [] [] [] [] []
    (Cst 0) (Var "x") (Cst 0) [] [] [] [] None [] true false.
Theorem C33_with_parameters_refuted : exists p p1 p2 fn rho,
  dualize lu_gauss "traditional" p = Ok p1 /\ dualize lu_gauss "diffyg" p = Ok p2 /\
  map (fun s => eval fn rho (snd s)) (p_costates p1) <> map (fun s => eval fn rho (snd s)) (p_costates p2) /\
  map (fun s => eval fn rho (snd s)) (p_coparams p1) <> map (fun s => eval fn rho (snd s)) (p_coparams p2).
Proof.
  exists ex_par. do 2 eexists. exists ex_fn, (fun _ => 5). split; [vm_compute; reflexivity|]. split; [vm_compute; reflexivity|].
  split; cbn [p_costates p_coparams map snd]; intros H; injection H; clear H; simpl; intros H.
  - field_simplify in H; lra.
  - lra.
Qed.
Print Assumptions C33_with_parameters_refuted.

(** C33.  A method name that is neither leaves every costate equation zero,
    without an error. *)
Theorem C33_unknown_method_zero_rates : forall lu m p,
  lower m <> "traditional"%string -> lower m <> "diffyg"%string ->
  p_symp p = true -> p_costates p = [] -> p_coparams p = [] ->
  exists p', dualize lu m p = Ok p' /\
    p_costates p' = map (fun x => (lam x, Cst 0)) (syms (p_states p)).
Proof.
  intros lu m p M1 M2 S E1 E2. unfold dualize. cbv zeta. rewrite S.
  pose proof (dual_start_costates p) as CS. rewrite E1 in CS. revert CS.
  generalize (dual_start p) (dual_ham p). intros q h CS.
  apply String.eqb_neq in M1. apply String.eqb_neq in M2. rewrite M1, M2. cbn [bind].
  eexists. split; [reflexivity|]. rewrite finish_costates, CS. unfold syms. rewrite map_map. reflexivity.
Qed.
Print Assumptions C33_unknown_method_zero_rates.

(** C65.  A curve that solves the derived boundary-value problem and is
    stationary in the controls is a stationary point of the cost: the first
    variation of the cost vanishes for every variation of states, parameters,
    controls and final time that respects the linearised dynamics and boundary
    constraints. *)
Theorem C65_first_variation_vanishes : forall lu, lu_ok lu -> forall fn m p p' h (c v : R -> string -> R) t0 tf dtf df I,
  sound_method m p -> p_costates p = [] -> p_coparams p = [] ->
  dualize lu m p = Ok p' -> p_ham p' = Some h ->
  let X := syms (p_states p) in let P := p_params p in let U := p_controls p in
  t0 <= tf ->
  (forall y, In y (X ++ P ++ U) -> ~ In y (map lam X)) ->
  (forall y, In y (X ++ P ++ [p_ind p]) -> ~ In y (p_cadj p')) ->
  (* the curve solves the derived problem *)
  (forall t, t0 <= t <= tf ->
     field_defined lu fn m p h (c t) /\ follows fn c t (p_costates p') /\ follows fn c t (p_coparams p') /\
     forall u, In u U -> eval fn (c t) (diff u h) = 0) ->
  (forall b, In b (p_ci p') -> eval fn (c t0) (c_expr b) = 0) ->
  (forall b, In b (p_ct p') -> eval fn (c tf) (c_expr b) = 0) ->
  (* the variation is admissible *)
  (forall t x f, t0 <= t <= tf -> In (x, f) (p_states p) ->
     is_derive (fun s => v s x) t (directional fn (c t) (X ++ P ++ U) f (v t))) ->
  (forall t x, t0 <= t <= tf -> In x P -> is_derive (fun s => v s x) t 0) ->
  (forall x f, In (x, f) (p_states p) -> df x = v tf x + eval fn (c tf) f * dtf) ->
  (forall x, In x P -> df x = v tf x) -> df (p_ind p) = dtf ->
  (forall b, In b (p_ci p) -> directional fn (c t0) (X ++ P) (c_expr b) (v t0) = 0) ->
  (forall b, In b (p_ct p) -> directional fn (c tf) (X ++ P ++ [p_ind p]) (c_expr b) df = 0) ->
  (forall t, t0 <= t <= tf -> continuous (fun s => directional fn (c s) (X ++ P ++ U) (p_cost_p p) (v s)) t) ->
  is_RInt (fun t => directional fn (c t) (X ++ P ++ U) (p_cost_p p) (v t)) t0 tf I ->
  directional fn (c t0) (X ++ P) (p_cost_i p) (v t0) +
  directional fn (c tf) (X ++ P ++ [p_ind p]) (p_cost_t p) df +
  eval fn (c tf) (p_cost_p p) * dtf + I = 0.
Proof.
  intros lu LU fn m p p' h c v t0 tf dtf df I SM E1 E2 HD HH X P U Ht D1 D2 HC B0 Bf V1 V2 F1 F2 F3 L0 Lf CT HI.
  assert (G : forall t, t0 <= t <= tf -> h = dual_ham p /\ dual_of p p' h /\
     forall x, In x (X ++ P) -> is_derive (fun s => c s (lam x)) t (- eval fn (c t) (diff x h))).
  { intros t T. destruct (HC t T) as (FD & FC & FP & _).
    exact (costate_rates lu LU fn m p p' h c t SM E1 E2 HD HH FD FC FP). }
  destruct (G t0 ltac:(lra)) as (EH & DO & _). subst h.
  apply (first_variation fn p p' c v t0 tf dtf I Ht DO); auto.
  - intros y Hy. specialize (D2 y Hy). rewrite (d_cadj _ _ _ DO), !in_app_iff in D2. tauto.
  - intros t x T Hx. apply G; auto.
  - intros t u T Hu. apply (HC t T). exact Hu.
Qed.
Print Assumptions C65_first_variation_vanishes.

Example C65_ex : exists p', dualize lu_gauss "traditional" ex_oc = Ok p' /\
  eval ex_fn (ex_curve (1/2)) (p_cost_p ex_oc) * - (1 / 4) + 2 = 0 /\
  (forall b, In b (p_ct p') -> eval ex_fn (ex_curve (1/2)) (c_expr b) = 0).
Proof.
  exists ex_trad.
  assert (A : dualize lu_gauss "traditional" ex_oc = Ok ex_trad) by (vm_compute; reflexivity).
  assert (B : p_ham ex_trad = Some ex_h) by reflexivity.
  split; [exact A|].
  assert (T : forall b, In b (p_ct ex_trad) -> eval ex_fn (ex_curve (1/2)) (c_expr b) = 0).
  { intros b Hb. vm_compute in Hb. destruct Hb as [<-|[<-|[<-|[]]]]; unfold ex_curve; simpl; lra. }
  split; [|exact T].
  assert (DR : forall s, directional ex_fn (ex_curve s) (syms (p_states ex_oc) ++ p_params ex_oc ++ p_controls ex_oc) (p_cost_p ex_oc) (ex_var s) = 4).
  { intros s. unfold directional, ex_curve, ex_var. simpl. lra. }
  pose proof (C65_first_variation_vanishes lu_gauss lu_gauss_ok ex_fn "traditional" ex_oc ex_trad ex_h ex_curve ex_var 0 (1/2) (- (1/4)) ex_end 2
    (or_introl eq_refl) eq_refl eq_refl A B ltac:(lra)) as G. cbv zeta in G.
  assert (Z : directional ex_fn (ex_curve 0) (syms (p_states ex_oc) ++ p_params ex_oc) (p_cost_i ex_oc) (ex_var 0) +
              directional ex_fn (ex_curve (1/2)) (syms (p_states ex_oc) ++ p_params ex_oc ++ [p_ind ex_oc]) (p_cost_t ex_oc) ex_end +
              eval ex_fn (ex_curve (1/2)) (p_cost_p ex_oc) * - (1 / 4) + 2 = 0).
  { apply G; clear G.
    - simpl. intros y [<-|[<-|[]]]; intuition discriminate.
    - intros y Hy. vm_compute. simpl in Hy. destruct Hy as [<-|[<-|[]]]; intuition discriminate.
    - intros t _. split; [intros H; discriminate|]. split; [|split].
      + intros x e H. vm_compute in H. destruct H as [H|[]]. injection H as <- <-.
        match goal with |- is_derive _ _ ?d => replace d with 0 by (simpl; lra) end. apply (is_derive_ext (fun _ => -4)); [intros s; reflexivity|apply D_const].
      + intros x e H. vm_compute in H. contradiction.
      + intros u [<-|[]]. unfold ex_curve. simpl. lra.
    - intros b Hb. vm_compute in Hb. destruct Hb as [<-|[<-|[]]]; unfold ex_curve; simpl; lra.
    - exact T.
    - intros t x f _ [H|[]]. injection H as <- <-.
      match goal with |- is_derive _ _ ?d => replace d with 1 by (unfold directional, ex_var; simpl; lra) end. apply (is_derive_ext (fun s => s)); [intros s; reflexivity|apply D_id].
    - intros t x _ [].
    - intros x f [H|[]]. injection H as <- <-. unfold ex_end, ex_var, ex_curve. simpl. lra.
    - intros x [].
    - reflexivity.
    - intros b [<-|[]]. unfold directional, ex_var. simpl. lra.
    - intros b [<-|[]]. unfold directional, ex_end. simpl. lra.
    - intros t _. apply (continuous_ext (fun _ => 4)); [intros s; symmetry; apply DR|]. apply continuous_const.
    - apply (is_RInt_ext (fun _ => 4)); [intros s _; symmetry; apply DR|].
      pose proof (is_RInt_const (V := R_NormedModule) 0 (1/2) 4) as K.
      match type of K with is_RInt _ _ _ ?i => assert (E : i = 2) by (unfold scal; simpl; unfold mult; simpl; lra) end.
      rewrite E in K. exact K. }
  unfold directional, ex_end, ex_var in Z. simpl in Z. simpl. lra.
Qed.

(** Refutation of C31 for the geometric method with a parameter (C33 gives the
    cause): no controls, no explicit time, all derived equations obeyed at time
    0, and yet the Hamiltonian changes there. *)
Theorem C31_geometric_with_parameters_refuted : exists p p' h fn (c : R -> string -> R) d,
  smooth fn /\ dualize lu_gauss "diffyg" p = Ok p' /\ p_ham p' = Some h /\
  p_controls p = [] /\ ~ In (p_ind p) (vars h) /\ costates_new p /\
  follows fn c 0 (p_states p') /\ follows fn c 0 (p_costates p') /\ follows fn c 0 (p_coparams p') /\
  others_fixed c 0 (syms (p_states p) ++ map lam (syms (p_states p)) ++ [p_ind p]) h /\
  is_derive (fun s => eval fn (c s) h) 0 d /\ d <> 0.
Proof.
  exists ex_par. eexists. eexists. exists ex_fn,
    (fun s y => if String.eqb y "x" then s else if String.eqb y "_lam_x" then 2 - 2 * s else if String.eqb y "k" then 1 else 0), (-1).
  split; [exact ex_smooth|]. split; [vm_compute; reflexivity|]. split; [reflexivity|]. split; [reflexivity|].
  split; [simpl; intuition discriminate|].
  split. { intros x [<-|[]]. split; [simpl; intuition discriminate|]. intros s [<-|[]]. simpl. intuition discriminate. }
  assert (DL : is_derive (fun s : R => 2 - 2 * s) 0 (-2)) by (auto_derive; [exact I|ring]).
  split. { intros x e H. destruct H as [H|[]]. injection H as <- <-.
           apply (is_derive_ext (fun s => s)); [intros s; reflexivity|]. simpl. apply D_id. }
  split. { intros x e H. destruct H as [H|[]]. injection H as <- <-.
           apply (is_derive_ext (fun s => 2 - 2 * s)); [intros s; reflexivity|].
           match goal with |- is_derive _ _ ?v => replace v with (-2) by (simpl; field) end. exact DL. }
  split. { intros x e H. destruct H as [H|[]]. injection H as <- <-.
           apply (is_derive_ext (fun s => 0)); [intros s; reflexivity|]. simpl. apply D_const. }
  split. { intros x Hx N. simpl in Hx, N. destruct Hx as [<-|[<-|[<-|[]]]]; try (exfalso; tauto).
           apply (is_derive_ext (fun s => 1)); [intros s; reflexivity|]. apply D_const. }
  split; [|lra].
  apply (is_derive_ext (fun s : R => s + (2 - 2 * s) * 1)); [intros s; reflexivity|]. auto_derive; [exact I|ring].
Qed.
Print Assumptions C31_geometric_with_parameters_refuted.
