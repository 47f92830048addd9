(** C78: reduction of a problem by declared translation symmetries. *)
From Coq Require Import Reals Lra Ascii.
From Coquelicot Require Import Coquelicot.
From Verif Require Import Base Base_Facts Sym_Expr Sym_Facts Sym_Model Sym_Lu Sym_Dual Sym_Traj Geo_Model
  Red_Model Red_Facts Red_Oracle Red_Noether Red_Step Red_Reduce Red_Chain Red_Ocp Red_Lu.
Open Scope string_scope.
Open Scope list_scope.
Open Scope nat_scope.

(** The symmetries declared for [r] are the translations of the states numbered
    in [K]: no equation of motion, cost integrand or quadrature uses them. *)
Record symmetric (K : list nat) (r : rprob) : Prop := mkSymmetric {
  sy_new : p_costates (r_p r) = [] /\ p_coparams (r_p r) = [] /\ p_params (r_p r) = [] /\ p_law (r_p r) = [] /\ r_coms r = [];
  sy_fields : r_fields r = map (unit_field (length (p_states (r_p r)))) K;
  sy_nodup : NoDup (p_ind (r_p r) :: syms (p_states (r_p r)) ++ p_controls (r_p r));
  sy_K : K <> [] /\ NoDup K /\ forall k, In k K -> k < length (p_states (r_p r));
  sy_inv : forall k x e, In k K -> nth_error (p_states (r_p r)) k = Some (x, e) ->
    (forall y f, In (y, f) (p_states (r_p r)) -> ~ In x (vars f)) /\ ~ In x (vars (p_cost_p (r_p r))) /\
    (forall y f, In (y, f) (p_quads (r_p r)) -> x <> y /\ ~ In x (vars f)) /\
    ~ In x (p_consts (r_p r) ++ p_cpars (r_p r) ++ p_cadj (r_p r));
  sy_names : forall y, y = p_ind (r_p r) \/ In y (symbols (r_p r)) -> ~ reserved y }.

Lemma unit_field_snoc n k : k < n -> unit_field n k ++ [Cst 0] = unit_field (S n) k.
Proof.
  intros H. unfold unit_field. rewrite seq_S, map_app. cbn [map]. rewrite Nat.add_0_l. destruct (Nat.eqb_spec n k); [lia|reflexivity].
Qed.
Lemma shift_translations K r r0 : symmetric K r -> shift_r r = Ok r0 ->
  translations K r0 /\ p_quads (r_p r0) = p_quads (r_p r) /\ p_states (r_p r0) = p_states (r_p r) ++ [(p_ind (r_p r), Cst 1)] /\ r_reds r0 = r_reds r /\
  (forall s, ~ In ("_delta" ++ s)%string (symbols (r_p r0))).
Proof.
  intros S H. unfold shift_r in H. destruct (momentum_shift None (r_p r)) as [p|] eqn:E; cbn [bind] in H; [|discriminate].
  unfold momentum_shift in E. destruct (p_symp (r_p r)); [|discriminate]. cbv zeta in E. apply Ok_inj in E.
  assert (ES : p_states p = p_states (r_p r) ++ [(p_ind (r_p r), Cst 1)]) by (now subst p).
  assert (SYM : forall y, In y (symbols p) -> y = p_ind (r_p r) \/ In y (symbols (r_p r))).
  { intros y. unfold symbols, used. rewrite ES, dyn_used_app. subst p.
    unfold fixed_names. cbn [set_maps set_ind set_states p_states p_costates p_coparams p_quads p_params p_consts p_cpars p_cadj p_ci p_ct p_controls p_cost_i p_cost_p p_cost_t].
    rewrite !in_app_iff. cbn [dyn_used flat_map fst snd vars app In]. intuition auto. }
  destruct (sy_new _ _ S) as (N1 & N2 & N3 & N4 & N5). destruct (sy_K _ _ S) as (K1 & K2 & K3).
  apply Ok_inj in H. subst r0. cbn [r_p r_fields r_coms r_reds]. split; [|split; [now subst p|split; [exact ES|split; [reflexivity|]]]].
  - constructor; cbn [r_p r_fields r_coms]; auto.
    + now subst p.
    + now subst p.
    + now subst p.
    + now subst p.
    + exists (if autonomous (p_ind (r_p r)) (p_states p) then [zeros (length (p_states p) - 1) ++ [Cst 1]] else []).
      assert (EM : map (fun f => f ++ [Cst 0]) (r_fields r) = map (unit_field (length (p_states p))) K).
      { rewrite (sy_fields _ _ S), map_map, ES, app_length. cbn [length]. rewrite Nat.add_1_r. apply map_ext_in. intros k I. now apply unit_field_snoc, K3. }
      rewrite EM. destruct (autonomous _ _); [reflexivity|]. now rewrite app_nil_r.
    + rewrite ES. replace (p_controls p) with (p_controls (r_p r)) by (now subst p). unfold syms. rewrite map_app, <- app_assoc. cbn [map fst app].
      apply (NoDup_Add (a := p_ind (r_p r)) (l := map fst (p_states (r_p r)) ++ p_controls (r_p r))).
      * apply Add_app.
      * assert (ND := sy_nodup _ _ S). inversion ND; auto.
    + rewrite ES, app_length. cbn [length]. intros k I. apply K3 in I. lia.
    + intros k x e I NE. rewrite ES in *. rewrite nth_error_app1 in NE by auto. destruct (sy_inv _ _ S k x e I NE) as (A & B & C & D).
      split; [|split].
      * intros [y f] J. apply in_app_or in J. destruct J as [J|[J|[]]]; [now apply (A y)|]. injection J as <- <-. cbn. auto.
      * subst p. exact B.
      * rewrite in_app_iff. intros [J|J].
        -- apply dyn_used_In in J. destruct J as ([y f] & J1 & J2). replace (p_quads p) with (p_quads (r_p r)) in J1 by (now subst p).
           destruct (C y f J1) as [C1 C2]. destruct J2; contradiction.
        -- apply D. unfold fixed_names in J. subst p. cbn [set_maps set_ind set_states p_params p_consts p_cpars p_cadj] in J. rewrite N3 in J. exact J.
    + intros y I. apply (sy_names _ _ S). auto.
  - intros s I. apply SYM in I. apply (sy_names _ _ S _ I). exists s. tauto.
Qed.

(** Names of the translated states. *)
Definition moved (K : list nat) (r : rprob) : list string := map (fun k => nth k (syms (p_states (r_p r))) "") K.
Definition com (i : nat) : string := ("com_" ++ of_nat i)%string.
Definition quad (i : nat) : string := ("_q_" ++ of_nat i)%string.
(** Curves of the full and of the reduced problem that stand for each other: a
    translated state is a new quadrature, its costate a new parameter. *)
Definition stand_for (xs : list string) (nq : nat) (a b : R) (used2 : list string) (full red : R -> string -> R) : Prop :=
  (forall i x t, nth_error xs i = Some x -> (a <= t <= b)%R ->
     full t x = red t (quad (nq + i)) /\ full t (lam x) = red t (com i)) /\
  (forall y t, In y used2 -> (forall i, i < length xs -> y <> com i /\ y <> quad (nq + i)) -> full t y = red t y).

Lemma triples_nth xs : forall i j x, nth_error xs j = Some x -> nth_error (triples i xs) j = Some (com (i + j), x, lam x).
Proof.
  induction xs as [|y xs IH]; intros i [|j] x H; cbn in *; try discriminate.
  - injection H as ->. now rewrite Nat.add_0_r.
  - rewrite (IH (S i) j x H). now replace (S i + j) with (i + S j) by lia.
Qed.
Lemma triples_ls xs : forall i, ls_t (triples i xs) = map lam xs.
Proof. induction xs as [|y xs IH]; intros i; [reflexivity|]. cbn. unfold ls_t in IH. now rewrite IH. Qed.
Lemma triples_com xs : forall i, cs_t (triples i xs) = map com (seq i (length xs)).
Proof. induction xs as [|y xs IH]; intros i; [reflexivity|]. cbn. unfold cs_t in IH. now rewrite IH. Qed.

Definition before (o : options) : list rtf := map RBase (FMomentum :: FDual (o_method o) :: FDiff (o_method o) :: if o_norm o then [FNorm] else []).
Lemma full_reducible lu ctl integ solve : lu_ok lu -> lu_std lu -> lu_geo lu -> lu_vars lu -> int_const integ ->
  forall K o r r1, symmetric K r -> lower (o_method o) = "diffyg" -> run_rtfs lu ctl integ solve (before o) r = Ok r1 ->
  reducible (triples 0 (moved K r)) r1 /\ p_quads (r_p r1) = p_quads (r_p r).
Proof.
  intros LU LS LG LV INT K o r r1 SY HM H1. set (xs := moved K r).
  unfold before in H1. cbn [map run_rtfs apply_rtf] in H1.
  destruct (shift_r r) as [s0|] eqn:E0; cbn [bind] in H1; [|discriminate].
  destruct (dualize_r lu integ (o_method o) s0) as [s1|] eqn:E1; cbn [bind] in H1; [|discriminate].
  destruct (diff_r lu (o_method o) s1) as [s2|] eqn:E2; cbn [bind] in H1; [|discriminate].
  destruct (shift_translations K r s0 SY E0) as (T & Q & ST & _ & ND).
  assert (RED := dual_diff_reducible lu integ LU LS LG LV INT K (o_method o) s0 s1 s2 HM T E1 E2).
  assert (XS : xs_of K (r_p s0) = xs).
  { unfold xs_of, xs, moved. apply map_ext_in. intros k I. rewrite ST. unfold syms. rewrite map_app. apply app_nth1. rewrite map_length.
    now apply (proj2 (proj2 (sy_K _ _ SY))). }
  rewrite XS in RED.
  assert (POS : 0 < length (p_states (r_p s0))) by (rewrite ST, app_length; cbn; lia).
  destruct (dual_diff_shape lu integ LU LG LV (o_method o) s0 s1 s2 HM (tr_costates _ _ T) (tr_coparams _ _ T) (tr_params _ _ T) POS E1 E2) as (udot & chi & new & DD).
  assert (QQ : p_quads (r_p s2) = p_quads (r_p r)) by (rewrite (dd_quads _ _ _ _ _ _ _ _ DD); exact Q).
  destruct (o_norm o); cbn [map run_rtfs bind] in H1.
  - cbn [apply_rtf apply_tf] in H1. destruct (normalize_time None (r_p s2)) as [p3|] eqn:EN; cbn [bind] in H1; [|discriminate]. apply Ok_inj in H1. split.
    + apply (reducible_norm _ s2 r1 p3 RED EN); [now symmetry| |].
      * intros I. apply (known_used lu integ LV s0 s2 udot chi new POS DD) in I. destruct I as [I|I]; [now apply ND in I|now apply not_made_delta in I].
      * intros c x l I E. apply triples_In in I. destruct I as (_ & _ & j & -> & _). discriminate.
    + subst r1. cbn [r_p]. rewrite <- QQ. unfold normalize_time in EN. destruct (p_symp (r_p s2)); [|discriminate]. cbv zeta in EN. apply Ok_inj in EN. now subst p3.
  - apply Ok_inj in H1. subst r1. auto.
Qed.

(** C78.  With the geometric method, differential control and momentum shift,
    every declared translation symmetry removes a state and its costate, and
    the reduced boundary value problem has the same solutions. *)
Theorem C78_reduction : forall lu ctl integ solve,
  lu_ok lu -> lu_std lu -> lu_geo lu -> lu_vars lu -> int_const integ -> solve_var solve ->
  forall K o r, symmetric K r -> o_shift o = true -> lower (o_method o) = "diffyg" -> lower (o_control o) = "differential" ->
  p_switches (r_p r) = [] -> constraint_tfs (all_constraints (r_p r)) = Ok [] ->
  let pre := map RBase (FMomentum :: FDual (o_method o) :: FDiff (o_method o) :: if o_norm o then [FNorm] else []) in
  let xs := moved K r in let nq := length (p_quads (r_p r)) in
  (exists post, make_reduced o true r = Ok (pre ++ repeat RMF (length K) ++ map RBase post)) /\
  forall r1, run_rtfs lu ctl integ solve pre r = Ok r1 ->
  exists r2, run_rtfs lu ctl integ solve (pre ++ repeat RMF (length K)) r = Ok r2 /\
    p_params (r_p r2) = p_params (r_p r1) ++ map com (seq 0 (length K)) /\
    syms (p_quads (r_p r2)) = syms (p_quads (r_p r)) ++ map quad (seq nq (length K)) /\
    length (p_states (r_p r2)) + length K = length (p_states (r_p r1)) /\
    length (p_costates (r_p r2)) + length K = length (p_costates (r_p r1)) /\
    (forall x, In x xs -> ~ In x (used (r_p r2)) /\ ~ In (lam x) (used (r_p r2))) /\
    forall fn a b, (a <= b)%R ->
      let defined cv := forall x e t, In x xs -> In (x, e) (p_states (r_p r1)) -> (a <= t <= b)%R -> wd fn (cv t) e in
      (forall full, solves fn (r_p r1) a b full -> defined full ->
         exists red, stand_for xs nq a b (used (r_p r2)) full red /\ solves fn (r_p r2) a b red) /\
      (forall red, solves fn (r_p r2) a b red ->
         exists full, stand_for xs nq a b (used (r_p r2)) full red /\ (defined full -> solves fn (r_p r1) a b full)).
Proof.
  intros lu ctl integ solve LU LS LG LV INT SOL K o r SY HS HM HC SW CT pre xs nq. split.
  { unfold make_reduced. rewrite CT. cbn [bind]. rewrite HC, HM, HS, SW. cbn [String.eqb Ascii.eqb Bool.eqb bind andb].
    destruct (sy_new _ _ SY) as (_ & _ & _ & _ & N5). rewrite N5, (sy_fields _ _ SY). cbn [length Nat.ltb Nat.leb app].
    rewrite Nat.add_0_r, map_length. eexists. reflexivity. }
  intros r1 H1.
  assert (STEP : forall fs gs r0 r', run_rtfs lu ctl integ solve fs r0 = Ok r' ->
    run_rtfs lu ctl integ solve (fs ++ gs) r0 = run_rtfs lu ctl integ solve gs r').
  { induction fs as [|f fs IH]; intros gs r0 r' E; cbn [run_rtfs app] in *; [now apply Ok_inj in E; subst|].
    destruct (apply_rtf lu ctl integ solve f r0) as [r''|]; cbn [bind] in *; [|discriminate]. now apply IH. }
  rewrite (STEP _ _ _ _ H1).
  destruct (full_reducible lu ctl integ solve LU LS LG LV INT K o r r1 SY HM H1) as [RED QQ]. fold xs in RED.
  destruct (chain integ solve INT SOL lu ctl (triples 0 xs) r1 RED) as (r2 & RUN & US & GO & PA & QU & _ & LSt & LCo & SO).
  assert (LX : length xs = length K) by (unfold xs, moved; apply map_length).
  rewrite triples_length, LX in RUN, QU, LSt, LCo.
  exists r2. split; [exact RUN|].
  assert (CS : map (fun t => fst (fst t)) (triples 0 xs) = map com (seq 0 (length K))).
  { change (cs_t (triples 0 xs) = map com (seq 0 (length K))). now rewrite triples_com, LX. }
  rewrite CS in PA. rewrite QQ in QU, SO. fold nq in QU, SO.
  split; [exact PA|]. split; [exact QU|]. split; [exact LSt|]. split; [exact LCo|].
  assert (NX : forall j x, nth_error xs j = Some x -> nth_error (triples 0 xs) j = Some (com j, x, lam x)) by (intros j x E; apply (triples_nth xs 0 j x E)).
  split.
  { intros x I. apply In_nth_error in I. destruct I as (j & E). apply NX in E. apply nth_error_In in E. apply (GO _ _ _ E). }
  (* names *)
  assert (XN : forall x, In x xs -> ~ reserved x).
  { intros x I. apply (sy_names _ _ SY). right. unfold xs, moved in I. apply in_map_iff in I. destruct I as (k & <- & I).
    apply (proj2 (proj2 (sy_K _ _ SY))) in I. unfold symbols, used. rewrite !in_app_iff. left. left. apply dyn_used_In.
    assert (IN : In (nth k (syms (p_states (r_p r))) "") (syms (p_states (r_p r)))) by (apply nth_In; unfold syms; now rewrite map_length).
    unfold syms in IN at 2. apply in_map_iff in IN. destruct IN as (s & E & IN). exists s. split; [exact IN|]. left. now symmetry. }
  assert (QX : forall k, ~ In (qn k) (xs_t (triples 0 xs)) /\ ~ In (qn k) (ls_t (triples 0 xs)) /\ ~ In (qn k) (cs_t (triples 0 xs))).
  { intros k. unfold xs_t. rewrite triples_xs, triples_ls, triples_com. split; [|split].
    - intros I. apply (XN _ I). exists (of_nat k). right. right. left. reflexivity.
    - intros I. apply in_map_iff in I. destruct I as (x & E & _). discriminate.
    - intros I. apply in_map_iff in I. destruct I as (x & E & _). discriminate. }
  assert (CX : forall c', In c' (cs_t (triples 0 xs)) -> ~ In c' (xs_t (triples 0 xs)) /\ ~ In c' (ls_t (triples 0 xs))).
  { intros c'. unfold xs_t. rewrite triples_xs, triples_ls, triples_com. intros I. apply in_map_iff in I. destruct I as (j & <- & _). split.
    - intros I. apply (XN _ I). exists (of_nat j). right. right. right. left. reflexivity.
    - intros I. apply in_map_iff in I. destruct I as (x & E & _). discriminate. }
  assert (NDX : NoDup (xs_t (triples 0 xs) ++ ls_t (triples 0 xs))).
  { unfold xs_t. rewrite triples_xs, triples_ls. assert (N := rc_xs _ _ RED). rewrite triples_xs in N. apply nodup_app'.
    - exact N.
    - apply NoDup_map_inj_on; [intros u v _ _; apply lam_inj'|exact N].
    - intros y I J. apply in_map_iff in J. destruct J as (x & <- & _). apply (XN _ I). exists x. now left. }
  intros fn a b AB defined. destruct (SO fn a b AB) as [S1 S2]. split.
  - intros full SV DEF. exists (push a nq (triples 0 xs) full). split.
    + split.
      * intros i x t E Ht. destruct (push_in a (triples 0 xs) nq full t i (com i) x (lam x) (NX i x E) (rc_cs _ _ RED) QX CX) as [A B].
        split; [symmetry; exact A|]. rewrite B.
        destruct (rc_omega _ _ RED) as (om & _ & _ & HO). assert (IT := nth_error_In _ _ (NX i x E)). destruct (HO _ _ _ IT) as (k & ex & el & _ & HL & _ & Z & _).
        apply nth_error_In in HL. destruct (Req_dec t a) as [->|NE]; [reflexivity|]. symmetry.
        apply (eq_is_derive (V := R_NormedModule) (fun s => full s (lam x)) a t); [|lra].
        intros s Hs. assert (D := sv_costates _ _ _ _ _ SV s ltac:(lra) (lam x) el HL). rewrite Z in D. exact D.
      * intros y t I N. symmetry. apply push_out.
        -- rewrite triples_com. intros J. apply in_map_iff in J. destruct J as (j & <- & J). apply in_seq in J. now apply (proj1 (N j ltac:(lia))).
        -- intros k K1 K2 E. rewrite triples_length in K2. apply (proj2 (N (k - nq) ltac:(lia))). replace (nq + (k - nq)) with k by lia. exact E.
    + apply S1; [exact SV|]. intros c x l ex I J t Ht. apply (DEF x ex t); auto. apply triples_In in I. tauto.
  - intros red SV. exists (lift nq (triples 0 xs) red). split.
    + split.
      * intros i x t E _. apply (lift_in (triples 0 xs) nq red t i (com i) x (lam x) (NX i x E) NDX); [|exact CX]. intros k. destruct (QX k) as (A & B & _). auto.
      * intros y t I N. apply lift_out.
        -- unfold xs_t. rewrite triples_xs. intros J. apply In_nth_error in J. destruct J as (j & E). apply NX in E. apply nth_error_In in E. now apply (proj1 (GO _ _ _ E)).
        -- rewrite triples_ls. intros J. apply in_map_iff in J. destruct J as (x & <- & J). apply In_nth_error in J. destruct J as (j & E). apply NX in E. apply nth_error_In in E. now apply (proj2 (GO _ _ _ E)).
    + intros DEF. apply S2; [exact SV|]. intros c x l ex I J t Ht. apply (DEF x ex t); auto. apply triples_In in I. tauto.
Qed.
Print Assumptions C78_reduction.

(** The brachistochrone of examples/: x' = v cos th, y' = v sin th, v' = g sin th,
    translations in x and y declared. *)
Definition brach : rprob :=
  mkR (mkProb "t" [("x", Mul (Var "v") (Cos (Var "th"))); ("y", Mul (Var "v") (Sin (Var "th"))); ("v", Mul (Var "g") (Sin (Var "th")))]
         [] [] [] ["th"] []
         [plain (Var "x"); plain (Var "y"); plain (Var "v"); plain (Var "t")] []
         [plain (Sub (Var "x") (Var "xf")); plain (Sub (Var "y") (Var "yf"))] [] []
         (Cst 0) (Cst 1) (Cst 0) ["g"; "xf"; "yf"] [] [] [] None [] true false)
      (map (unit_field 3) [0; 1]) [] None [].
Definition ex_opt : options := mkOpt false "differential" "diffyg" true true.
Lemma not_reserved y : match y with String "_"%char _ | String "c"%char _ => false | _ => true end = true -> ~ reserved y.
Proof. intros H (s & [E|[E|[E|[E|E]]]]); rewrite E in H; discriminate. Qed.
Ltac names := intros y H; apply not_reserved; cbn in H;
  repeat (destruct H as [H|H]; [subst y; reflexivity|]); destruct H.
Lemma brach_symmetric : symmetric [0; 1] brach.
Proof.
  constructor.
  - repeat split; reflexivity.
  - reflexivity.
  - cbn. repeat constructor; cbn; intuition discriminate.
  - split; [discriminate|]. split; [repeat constructor; cbn; intuition discriminate|]. cbn. intuition lia.
  - intros k x e [<-|[<-|[]]] H; cbn in H; injection H as <- <-; (split; [|split; [cbn; tauto|split; [intros y f []|cbn; intuition discriminate]]]);
      intros y f [E|[E|[E|[]]]]; injection E as <- <-; cbn; intuition discriminate.
  - names.
Qed.
(** Expressions without quotients are defined everywhere. *)
Fixpoint total (e : expr) : bool :=
  match e with
  | Cst _ | Pi | Var _ => true
  | Add a b | Mul a b => total a && total b
  | Opp a | Sin a | Cos a | Exp a | App _ _ a => total a
  | Inv _ => false
  end.
Lemma total_wd fn rho e : total e = true -> wd fn rho e.
Proof. induction e; cbn; intros H; auto; try discriminate; apply andb_prop in H; destruct H; auto. Qed.
Definition shown (x : list string) (o : res rprob) : list string * list string * list string * bool :=
  match o with
  | Ok r => (syms (p_states (r_p r)), syms (p_costates (r_p r)), p_params (r_p r),
             forallb (fun s => negb (mem (fst s) x) || total (snd s)) (p_states (r_p r)))
  | Raise _ => ([], [], [], false)
  end.
Example C78_ex_brach : exists r1 r2,
  run_rtfs lu_geom (fun _ _ => []) integ_poly solve_lin (map RBase [FMomentum; FDual "diffyg"; FDiff "diffyg"; FNorm]) brach = Ok r1 /\
  run_rtfs lu_geom (fun _ _ => []) integ_poly solve_lin (map RBase [FMomentum; FDual "diffyg"; FDiff "diffyg"; FNorm] ++ repeat RMF 2) brach = Ok r2 /\
  syms (p_states (r_p r1)) = ["x"; "y"; "v"; "t"; "th"] /\
  syms (p_states (r_p r2)) = ["v"; "t"; "th"] /\ syms (p_costates (r_p r2)) = ["_lam_v"; "_lam_t"; "_lam_th"] /\
  p_params (r_p r2) = ["_delta_t"; "com_0"; "com_1"] /\ syms (p_quads (r_p r2)) = ["_q_0"; "_q_1"] /\
  forall fn a b, (a <= b)%R -> forall red, solves fn (r_p r2) a b red ->
    exists full, solves fn (r_p r1) a b full /\ (forall t, (a <= t <= b)%R -> full t "x" = red t "_q_0" /\ full t "_lam_y" = red t "com_1").
Proof.
  destruct (C78_reduction lu_geom (fun _ _ => []) integ_poly solve_lin lu_geom_ok lu_geom_std lu_geom_geo lu_geom_vars integ_poly_const solve_lin_var
              [0; 1] ex_opt brach brach_symmetric eq_refl eq_refl eq_refl eq_refl eq_refl) as [_ H].
  assert (C : shown ["x"; "y"] (run_rtfs lu_geom (fun _ _ => []) integ_poly solve_lin (map RBase [FMomentum; FDual "diffyg"; FDiff "diffyg"; FNorm]) brach) =
    (["x"; "y"; "v"; "t"; "th"], map lam ["x"; "y"; "v"; "t"; "th"], ["_delta_t"], true)) by (vm_compute; reflexivity).
  assert (C2 : shown [] (run_rtfs lu_geom (fun _ _ => []) integ_poly solve_lin (map RBase [FMomentum; FDual "diffyg"; FDiff "diffyg"; FNorm] ++ repeat RMF 2) brach) =
    (["v"; "t"; "th"], ["_lam_v"; "_lam_t"; "_lam_th"], ["_delta_t"; "com_0"; "com_1"], true)) by (vm_compute; reflexivity).
  cbv beta iota delta [ex_opt o_method o_norm] in H.
  destruct (run_rtfs lu_geom (fun _ _ => []) integ_poly solve_lin (map RBase [FMomentum; FDual "diffyg"; FDiff "diffyg"; FNorm]) brach) as [r1|] eqn:D; [|discriminate C].
  destruct (H r1 eq_refl) as (r2 & E & PA & QU & _ & _ & _ & SO). clear H. cbn [length] in E. rewrite E in C2.
  exists r1, r2. split; [reflexivity|]. split; [exact E|]. clear D E. unfold shown in C, C2.
  injection C as C11 C12 C13 C14. injection C2 as C21 C22 C23.
  split; [exact C11|]. split; [exact C21|]. split; [exact C22|]. split; [exact C23|]. split; [exact QU|].
  assert (S3 : forall fn rho x e, In x ["x"; "y"] -> In (x, e) (p_states (r_p r1)) -> wd fn rho e).
  { intros fn rho x e IX IE. rewrite forallb_forall in C14. specialize (C14 _ IE). cbn [fst snd] in C14. apply orb_true_iff in C14.
    destruct C14 as [C|C]; [|now apply total_wd]. apply negb_true_iff in C. destruct IX as [<-|[<-|[]]]; discriminate C. }
  intros fn a b AB red SV. destruct (SO fn a b AB) as [_ B]. destruct (B red SV) as (full & [ST _] & SF). exists full. split.
  - apply SF. intros x e t IX IE _. now apply (S3 fn (full t) x e).
  - intros t Ht. split; [apply (ST 0 "x" t eq_refl Ht)|]. apply (ST 1 "y" t eq_refl Ht).
Qed.

(** A curve that solves the full problem: x' = u, cost the integral of u^2, from
    x = 0 to x = 1 in unit time at constant speed; translation in x. *)
Definition line : rprob :=
  mkR (mkProb "t" [("x", Var "u")] [] [] [] ["u"] []
         [plain (Var "x"); plain (Var "t")] [] [plain (Sub (Var "x") (Cst 1)); plain (Sub (Var "t") (Cst 1))] [] []
         (Cst 0) (Mul (Var "u") (Var "u")) (Cst 0) [] [] [] [] None [] true false)
      (map (unit_field 1) [0]) [] None [].
Definition line_curve (s : R) (y : string) : R :=
  (if String.eqb y "x" then s else if String.eqb y "t" then s else if String.eqb y "u" then 1
   else if String.eqb y "_lam_x" then -2 else if String.eqb y "_lam_t" then 1
   else if String.eqb y "_nu_0_0" then 2 else if String.eqb y "_nu_0_1" then -1
   else if String.eqb y "_nu_f_0" then -2 else if String.eqb y "_nu_f_1" then 1
   else if String.eqb y "_delta_t" then 1 else 0)%R.
Lemma line_symmetric : symmetric [0] line.
Proof.
  constructor.
  - repeat split; reflexivity.
  - reflexivity.
  - cbn. repeat constructor; cbn; intuition discriminate.
  - split; [discriminate|]. split; [repeat constructor; cbn; intuition discriminate|]. cbn. intuition lia.
  - intros k x e [<-|[]] H; cbn in H; injection H as <- <-; (split; [|split; [cbn; intuition discriminate|split; [intros y f []|cbn; tauto]]]);
      intros y f [E|[]]; injection E as <- <-; cbn; intuition discriminate.
  - names.
Qed.
Lemma line_solved r1 : run_rtfs lu_geom (fun _ _ => []) integ_poly solve_lin (before ex_opt) line = Ok r1 ->
  solves (fun _ _ z => z) (r_p r1) 0 1 line_curve /\
     forall x e t, In x ["x"] -> In (x, e) (p_states (r_p r1)) -> wd (fun _ _ z => z) (line_curve t) e.
Proof.
  intros D.
  assert (Z : forall (c : R) t, is_derive (fun _ : R => c) t 0%R) by (intros c t; apply (is_derive_const (K := R_AbsRing) (V := R_NormedModule))).
  assert (I1 : forall t, is_derive (fun s : R => s) t 1%R) by (intros t; apply (is_derive_id (K := R_AbsRing))).
  vm_compute in D. apply Ok_inj in D. subst r1. cbn [r_p]. split; [constructor|].
  - intros t Ht x e J; cbn in J; repeat (destruct J as [J|J]; [injection J as <- <-; cbn [eval]; unfold line_curve; cbn [String.eqb Ascii.eqb Bool.eqb];
      match goal with |- is_derive _ _ ?v => first [replace v with 1%R by (cbn; field); apply I1 | replace v with 0%R by (cbn; field); apply Z] end|]); destruct J.
  - intros t Ht x e J; cbn in J; repeat (destruct J as [J|J]; [injection J as <- <-; cbn [eval]; unfold line_curve; cbn [String.eqb Ascii.eqb Bool.eqb];
      match goal with |- is_derive _ _ ?v => replace v with 0%R by (cbn; field); apply Z end|]); destruct J.
  - intros t Ht x e J; cbn in J; destruct J.
  - intros t y J; cbn in J. repeat (destruct J as [<-|J]; [reflexivity|]). destruct J.
  - intros k J; cbn in J. repeat (destruct J as [<-|J]; [cbn; unfold line_curve; cbn; lra|]). destruct J.
  - intros k J; cbn in J. repeat (destruct J as [<-|J]; [cbn; unfold line_curve; cbn; lra|]). destruct J.
  - intros x e t [<-|[]] J; cbn in J. repeat (destruct J as [J|J]; [try discriminate J; injection J as <-; cbn; tauto|]). destruct J.
Qed.
Example C78_ex_line : exists r1 r2 red,
  run_rtfs lu_geom (fun _ _ => []) integ_poly solve_lin (map RBase [FMomentum; FDual "diffyg"; FDiff "diffyg"; FNorm]) line = Ok r1 /\
  run_rtfs lu_geom (fun _ _ => []) integ_poly solve_lin (map RBase [FMomentum; FDual "diffyg"; FDiff "diffyg"; FNorm] ++ repeat RMF 1) line = Ok r2 /\
  solves (fun _ _ z => z) (r_p r1) 0 1 line_curve /\ solves (fun _ _ z => z) (r_p r2) 0 1 red /\
  syms (p_states (r_p r2)) = ["t"; "u"] /\
  forall t, (0 <= t <= 1)%R -> red t "_q_0" = t /\ red t "com_0" = (-2)%R.
Proof.
  destruct (C78_reduction lu_geom (fun _ _ => []) integ_poly solve_lin lu_geom_ok lu_geom_std lu_geom_geo lu_geom_vars integ_poly_const solve_lin_var
              [0] ex_opt line line_symmetric eq_refl eq_refl eq_refl eq_refl eq_refl) as [_ H].
  assert (C2 : shown [] (run_rtfs lu_geom (fun _ _ => []) integ_poly solve_lin (map RBase [FMomentum; FDual "diffyg"; FDiff "diffyg"; FNorm] ++ repeat RMF 1) line) =
    (["t"; "u"], ["_lam_t"; "_lam_u"], ["_delta_t"; "com_0"], true)) by (vm_compute; reflexivity).
  cbv beta iota delta [ex_opt o_method o_norm] in H.
  assert (D : exists r1, run_rtfs lu_geom (fun _ _ => []) integ_poly solve_lin (map RBase [FMomentum; FDual "diffyg"; FDiff "diffyg"; FNorm]) line = Ok r1)
    by (eexists; vm_compute; reflexivity).
  destruct D as (r1 & D). destruct (H r1 D) as (r2 & E & _ & _ & _ & _ & _ & SO). cbn [length] in E. rewrite E in C2.
  assert (SV := line_solved r1 D).
  destruct SV as [SV DEF].
  destruct (SO (fun _ _ z => z) 0%R 1%R ltac:(lra)) as [A _]. destruct (A line_curve SV) as (red & [ST _] & SR); [intros x e t I J _; now apply (DEF x e t)|].
  exists r1, r2, red. split; [exact D|]. split; [exact E|]. split; [exact SV|]. split; [exact SR|]. split; [unfold shown in C2; congruence|].
  intros t Ht. destruct (ST 0 "x" t eq_refl Ht) as [S1 S2]. split; [symmetry; exact S1|symmetry; exact S2].
Qed.

(** A translation along a diagonal: x' = u, y' = x - y, field (1, 1).  The
    equation of the new quadrature keeps the removed state x, and the equation
    left for y uses the quadrature. *)
Definition diag : rprob :=
  mkR (mkProb "t" [("x", Var "u"); ("y", Sub (Var "x") (Var "y"))] [] [] [] ["u"] []
         [plain (Var "x"); plain (Var "y"); plain (Var "t")] [] [plain (Sub (Var "x") (Cst 1)); plain (Sub (Var "t") (Cst 1))] [] []
         (Cst 0) (Mul (Var "u") (Var "u")) (Cst 0) [] [] [] [] None [] true false)
      [[Cst 1; Cst 1]] [] None [].
Theorem C78_combination_refuted : exists r, 
  r_fields r = [[Cst 1; Cst 1]] /\
  (forall fn rho, invariant fn rho (p_states (r_p r)) (p_cost_p (r_p r)) [Cst 1; Cst 1]) /\
  exists r2 q e y f, 
  run_rtfs lu_geom (fun _ _ => []) integ_poly solve_lin (map RBase [FMomentum; FDual "diffyg"; FDiff "diffyg"; FNorm] ++ repeat RMF 1) r = Ok r2 /\
  syms (p_states (r_p r)) = ["x"; y] /\
  In (q, e) (p_quads (r_p r2)) /\ In "x" (vars e) /\
  ~ In "x" (syms (p_states (r_p r2) ++ p_costates (r_p r2) ++ p_quads (r_p r2)) ++ p_params (r_p r2) ++ p_consts (r_p r2)) /\
  In (y, f) (p_states (r_p r2)) /\ In q (vars f).
Proof.
  exists diag. split; [reflexivity|]. split.
  { intros fn rho. split; [cbn; unfold rsum; cbn; ring|]. intros x f a [H|[H|[]]]; injection H as <- <- <-; cbn; unfold rsum; cbn; ring. }
  do 5 eexists. split; [vm_compute; reflexivity|]. split; [reflexivity|]. cbn [r_p p_quads p_states].
  split; [left; reflexivity|]. split; [cbn; tauto|]. split; [cbn; intuition discriminate|]. split; [left; reflexivity|]. cbn. tauto.
Qed.
Print Assumptions C78_combination_refuted.

(** ** C79: the constants of motion that are used *)
Lemma mf_step_names lu ctl integ solve r r' : apply_rtf lu ctl integ solve RMF r = Ok r' ->
  r' = r \/ exists h c rest, map fst (r_coms r) = h :: c :: rest /\ map fst (r_coms r') = h :: rest /\
    map rd_com (r_reds r') = map rd_com (r_reds r) ++ [c].
Proof.
  cbn [apply_rtf]. unfold mf_step. destruct (r_omega r) as [om|]; [|intros H; left; now apply Ok_inj in H].
  destruct (negb _); [intros H; left; now apply Ok_inj in H|]. destruct (nth_error (r_coms r) 1) as [[cn ce]|] eqn:EC; [|discriminate].
  destruct (solve _ _) as [|sp [|? ?]]; try discriminate.
  destruct (noether_com _ _ _ _) as [g|]; cbn [bind]; [|discriminate].
  destruct (nth_error (syms _) _) as [pn|]; [|discriminate]. destruct (nth_error (syms _) _) as [xn|]; [|discriminate].
  destruct (solve _ _) as [|sq ?]; [discriminate|]. destruct (p_law (r_p r)); [|discriminate].
  intros H. apply Ok_inj in H. right. subst r'. cbn [r_coms r_reds].
  destruct (r_coms r) as [|[h he] [|[c ce'] rest]]; try discriminate. cbn in EC. injection EC as <- <-.
  exists h, c, (map fst rest). split; [reflexivity|]. split.
  - cbn. f_equal. rewrite map_map. reflexivity.
  - rewrite map_app. reflexivity.
Qed.

(** C79.  The constants used are those recorded after the first one, in order,
    without gaps; the first one recorded is never used. *)
Theorem C79_used : forall lu ctl integ solve n r r' h l,
  run_rtfs lu ctl integ solve (repeat RMF n) r = Ok r' -> map fst (r_coms r) = h :: l ->
  exists j, j <= n /\ map rd_com (r_reds r') = map rd_com (r_reds r) ++ firstn j l /\ map fst (r_coms r') = h :: skipn j l.
Proof.
  intros lu ctl integ solve n. induction n as [|n IH]; intros r r' h l H E; cbn [repeat run_rtfs] in H.
  - apply Ok_inj in H. subst r'. exists 0. cbn. rewrite app_nil_r. auto.
  - destruct (apply_rtf lu ctl integ solve RMF r) as [r0|] eqn:ST; cbn [bind] in H; [|discriminate].
    destruct (mf_step_names _ _ _ _ _ _ ST) as [ ->|(h' & c & rest & E1 & E2 & E3)].
    + destruct (IH r r' h l H E) as (j & J1 & J2 & J3). exists j. auto.
    + rewrite E in E1. injection E1 as <- ->. destruct (IH r0 r' h rest H E2) as (j & J1 & J2 & J3). exists (S j).
      split; [lia|]. rewrite J2, E3, <- app_assoc. split; [reflexivity|exact J3].
Qed.
Print Assumptions C79_used.
Lemma noether_all_names lu integ om dyn fs : forall i new, noether_all lu integ om dyn i fs = Ok new -> map fst new = map com (seq i (length fs)).
Proof.
  induction fs as [|f fs IH]; intros i new H; cbn [noether_all] in H; [now apply Ok_inj in H; subst|].
  destruct (noether_field _ _ _ _ _) as [e|]; cbn [bind] in H; [|discriminate].
  destruct (noether_all _ _ _ _ _ fs) as [l|] eqn:E; cbn [bind] in H; [|discriminate]. apply Ok_inj in H. subst new. cbn. f_equal. now apply IH.
Qed.
(** What Dualize records: declared constants, the Hamiltonian, one per symmetry. *)
Theorem C79_recorded : forall lu integ m r r', dualize_r lu integ m r = Ok r' -> lower m = "diffyg" ->
  map fst (r_coms r') = map fst (r_coms r) ++ "hamiltonian" :: map com (seq 0 (length (r_fields r))).
Proof.
  intros lu integ m r r' H M. unfold dualize_r in H. destruct (dualize lu m (r_p r)) as [p|]; cbn [bind] in H; [|discriminate].
  rewrite M in H. cbn [String.eqb Ascii.eqb Bool.eqb] in H.
  match type of H with bind ?e _ = _ => destruct e as [new|] eqn:E end; cbn [bind] in H; [|discriminate]. apply Ok_inj in H. subst r'. cbn [r_coms].
  apply noether_all_names in E. rewrite map_length in E. rewrite !map_app, E, <- app_assoc. reflexivity.
Qed.
Print Assumptions C79_recorded.
(** With no declared constant, as many reductions as declared symmetries use the
    constants of exactly these symmetries. *)
Theorem C79_symmetries_only : forall lu ctl integ solve m r r0 r1 r',
  lower m = "diffyg" -> r_coms r = [] -> r_reds r = [] ->
  dualize_r lu integ m r = Ok r0 -> diff_r lu m r0 = Ok r1 ->
  forall n, n <= length (r_fields r) -> run_rtfs lu ctl integ solve (repeat RMF n) r1 = Ok r' ->
  exists j, j <= n /\ map rd_com (r_reds r') = map com (seq 0 j).
Proof.
  intros lu ctl integ solve m r r0 r1 r' M NC NR H0 H1 n LN H.
  assert (E := C79_recorded _ _ _ _ _ H0 M). rewrite NC in E. cbn [map app] in E.
  assert (E1 : r_coms r1 = r_coms r0 /\ r_reds r1 = r_reds r0).
  { unfold diff_r in H1. destruct (differential_control _ _ _) as [p|]; cbn [bind] in H1; [|discriminate]. destruct (String.eqb _ _).
    - destruct (p_ham _) as [h|]; [|discriminate]. destruct (control_rates _ _ _) as [u|]; cbn [bind] in H1; [|discriminate]. apply Ok_inj in H1. subst r1. auto.
    - apply Ok_inj in H1. subst r1. auto. }
  assert (E2 : r_reds r0 = r_reds r).
  { unfold dualize_r in H0. destruct (dualize lu m (r_p r)) as [p|]; cbn [bind] in H0; [|discriminate]. rewrite M in H0. cbn [String.eqb Ascii.eqb Bool.eqb] in H0.
    match type of H0 with bind ?e _ = _ => destruct e end; cbn [bind] in H0; [|discriminate]. apply Ok_inj in H0. now subst r0. }
  destruct E1 as [E1 E3]. rewrite <- E1 in E. destruct (C79_used lu ctl integ solve n r1 r' _ _ H E) as (j & J1 & J2 & _).
  exists j. split; [exact J1|]. rewrite J2, E3, E2, NR. cbn [map app].
  replace (length (r_fields r)) with (j + (length (r_fields r) - j)) by lia. rewrite seq_app, map_app, firstn_app, map_length, seq_length, Nat.sub_diag.
  cbn [firstn]. rewrite app_nil_r. apply firstn_all2. now rewrite map_length, seq_length.
Qed.
Print Assumptions C79_symmetries_only.
Example C79_ex : exists s r0 r1 r', shift_r brach = Ok s /\ r_coms s = [] /\ dualize_r lu_geom integ_poly "diffyg" s = Ok r0 /\ diff_r lu_geom "diffyg" r0 = Ok r1 /\
  run_rtfs lu_geom (fun _ _ => []) integ_poly solve_lin (repeat RMF 2) r1 = Ok r' /\ map rd_com (r_reds r') = ["com_0"; "com_1"] /\
  map fst (r_coms r1) = ["hamiltonian"; "com_0"; "com_1"; "com_2"] /\ map fst (r_coms r') = ["hamiltonian"; "com_2"].
Proof.
  assert (C : match shift_r brach with Ok s => match dualize_r lu_geom integ_poly "diffyg" s with Ok r0 => match diff_r lu_geom "diffyg" r0 with Ok r1 =>
    match run_rtfs lu_geom (fun _ _ => []) integ_poly solve_lin (repeat RMF 2) r1 with Ok r' => Some (r_coms s, map rd_com (r_reds r'), map fst (r_coms r1), map fst (r_coms r')) | _ => None end
    | _ => None end | _ => None end | _ => None end = Some ([], ["com_0"; "com_1"], ["hamiltonian"; "com_0"; "com_1"; "com_2"], ["hamiltonian"; "com_2"])) by (vm_compute; reflexivity).
  destruct (shift_r brach) as [s|]; [|discriminate C]. destruct (dualize_r lu_geom integ_poly "diffyg" s) as [r0|] eqn:D0; [|discriminate C].
  destruct (diff_r lu_geom "diffyg" r0) as [r1|] eqn:D1; [|discriminate C].
  destruct (run_rtfs lu_geom (fun _ _ => []) integ_poly solve_lin (repeat RMF 2) r1) as [r'|] eqn:D2; [|discriminate C].
  exists s, r0, r1, r'. injection C as C1 C2 C3 C4. rewrite D0, D1, D2. auto 10.
Qed.

(** A constant of motion declared by the user is not the one used: the
    Hamiltonian is. *)
Definition declared : rprob := mkR (r_p line) [] [("momentum", Var "_lam_x")] None [].
Theorem C79_declared_refuted : exists r r', map fst (r_coms r) = ["momentum"] /\
  make_reduced ex_opt true r = Ok (map RBase [FMomentum; FDual "diffyg"; FDiff "diffyg"; FNorm] ++ repeat RMF 1 ++ map RBase [FSquash]) /\
  run_rtfs lu_geom (fun _ _ => []) integ_poly solve_lin (map RBase [FMomentum; FDual "diffyg"; FDiff "diffyg"; FNorm] ++ repeat RMF 1) r = Ok r' /\
  map rd_com (r_reds r') = ["hamiltonian"] /\ In "momentum" (map fst (r_coms r')) /\ In "hamiltonian" (p_params (r_p r')).
Proof.
  exists declared. eexists. split; [reflexivity|]. split; [reflexivity|]. split; [vm_compute; reflexivity|]. split; [reflexivity|]. cbn. tauto.
Qed.
Print Assumptions C79_declared_refuted.

(** After AlgebraicControlLaw a reduction never succeeds, unless it is skipped. *)
Theorem C79_algebraic_rejected : forall lu ctl integ solve r om, p_law (r_p r) <> [] -> r_omega r = Some om -> symplectic (Some om) = true ->
  exists e, apply_rtf lu ctl integ solve RMF r = Raise e.
Proof.
  intros lu ctl integ solve r om NL E SY. cbn [apply_rtf]. unfold mf_step. rewrite E, SY. cbn [negb].
  destruct (nth_error (r_coms r) 1) as [[cn ce]|]; [|eauto]. destruct (solve _ _) as [|sp [|? ?]]; eauto.
  destruct (noether_com _ _ _ _) as [g|]; cbn [bind]; [|eauto]. destruct (nth_error (syms _) _) as [pn|]; [|eauto]. destruct (nth_error (syms _) _) as [xn|]; [|eauto].
  destruct (solve _ _) as [|sq ?]; [eauto|]. destruct (p_law (r_p r)); [contradiction|eauto].
Qed.
Print Assumptions C79_algebraic_rejected.
Example C79_algebraic_ex : exists r, run_rtfs lu_geom (fun g us => [[Opp (Div (Var "_lam_x") (Cst 2))]]) integ_poly solve_lin (map RBase [FMomentum; FDual "diffyg"; FAlg]) line = Ok r /\
  p_law (r_p r) <> [] /\ symplectic (r_omega r) = true /\
  apply_rtf lu_geom (fun _ _ => []) integ_poly solve_lin RMF r = Raise AttributeError.
Proof. eexists. split; [vm_compute; reflexivity|]. split; [discriminate|]. split; vm_compute; reflexivity. Qed.
