(** Several reductions in a row, each by a costate. *)
From Coq Require Import Reals Lra DecimalString DecimalNat.
From Coquelicot Require Import Coquelicot.
From Verif Require Import Base Base_Facts Sym_Expr Sym_Facts Sym_Model Sym_Traj Geo_Model Geo_Properties Red_Model Red_Facts Red_Step Red_Reduce.
Open Scope string_scope.
Open Scope list_scope.
Open Scope nat_scope.

(** ** [simp] commutes with renaming to a fresh name *)
Lemma subst_inj v w a : forall b, ~ In w (vars a) -> ~ In w (vars b) ->
  subst v (Var w) a = subst v (Var w) b -> a = b.
Proof.
  induction a; intros b Ha Hb E; destruct b; cbn [subst vars] in *; try discriminate E;
    repeat match type of E with
    | context [String.eqb v ?y] => destruct (String.eqb_spec v y); cbn in Ha, Hb
    end; try discriminate E; rewrite ?in_app_iff in *;
    try (injection E; clear E; intros; subst; cbn in *; try tauto;
         repeat match goal with
         | IH : forall b, _ -> _ -> subst v (Var w) ?a = _ -> ?a = b, H : subst v (Var w) ?a = subst v (Var w) ?b |- _ =>
             apply IH in H; [subst|tauto|tauto]
         end; reflexivity); try (subst; congruence).
Qed.
Lemma expr_eqb_subst v w a b : ~ In w (vars a) -> ~ In w (vars b) ->
  expr_eqb (subst v (Var w) a) (subst v (Var w) b) = expr_eqb a b.
Proof.
  intros Ha Hb. destruct (expr_eqb a b) eqn:E.
  - apply expr_eqb_eq in E. subst. now apply expr_eqb_eq.
  - destruct (expr_eqb (subst v (Var w) a) (subst v (Var w) b)) eqn:F; [|reflexivity]. apply expr_eqb_eq in F.
    apply subst_inj in F; auto. subst. rewrite (proj2 (expr_eqb_eq b b) eq_refl) in E. discriminate.
Qed.
Lemma sadd_subst v w a b : subst v (Var w) (sadd a b) = sadd (subst v (Var w) a) (subst v (Var w) b).
Proof.
  destruct a as [[| |]| | | | | | | | | |], b as [[| |]| | | | | | | | | |]; cbn; try reflexivity;
    repeat match goal with |- context [String.eqb v ?y] => destruct (String.eqb v y) end; reflexivity.
Qed.
Definition is_cst (a : expr) : option Z := match a with Cst z => Some z | _ => None end.
Lemma smul_shape a b : a <> Cst 0 -> a <> Cst 1 ->
  smul a b = match b with
             | Cst y => match is_cst a with
                        | Some x => Cst (x * y)
                        | None => if Z.eqb y 0 then Cst 0 else if Z.eqb y 1 then a else Mul a b
                        end
             | Inv c => if expr_eqb a c then Cst 1 else Mul a b
             | _ => Mul a b
             end.
Proof.
  intros N0 N1. destruct a as [[|[]|[]]| | | | | | | | | |]; try congruence; destruct b as [[|[]|[]]| | | | | | | | | |]; reflexivity.
Qed.
Lemma subst_Cst v w a z : subst v (Var w) a = Cst z -> a = Cst z.
Proof. destruct a; cbn; try discriminate; auto. destruct (String.eqb v x); discriminate. Qed.
Lemma is_cst_subst v w a : is_cst (subst v (Var w) a) = is_cst a.
Proof. destruct a; cbn; try reflexivity. destruct (String.eqb v x); reflexivity. Qed.
Lemma smul_subst v w a b : ~ In w (vars a) -> ~ In w (vars b) ->
  subst v (Var w) (smul a b) = smul (subst v (Var w) a) (subst v (Var w) b).
Proof.
  intros Ha Hb. destruct (expr_eqb a (Cst 0)) eqn:E0.
  { apply expr_eqb_eq in E0. subst a. cbn [subst]. now rewrite !smul_0_l. }
  destruct (expr_eqb a (Cst 1)) eqn:E1.
  { apply expr_eqb_eq in E1. subst a. cbn [subst]. assert (S1 : forall b, smul (Cst 1) b = b).
    { intros [[| |]| | | | | | | | | |]; reflexivity. }
    now rewrite !S1. }
  assert (N0 : a <> Cst 0) by (intros ->; discriminate). assert (N1 : a <> Cst 1) by (intros ->; discriminate).
  rewrite (smul_shape a b) by assumption.
  rewrite (smul_shape (subst v (Var w) a)) by (intros E; apply subst_Cst in E; contradiction).
  destruct b; cbn [subst vars] in *; try reflexivity.
  - rewrite is_cst_subst. destruct (is_cst a); [reflexivity|]. destruct (Z.eqb z 0); [reflexivity|]. destruct (Z.eqb z 1); reflexivity.
  - destruct (String.eqb v x); reflexivity.
  - rewrite expr_eqb_subst by assumption. destruct (expr_eqb a b); reflexivity.
Qed.
Lemma sopp_subst v w a : subst v (Var w) (sopp a) = sopp (subst v (Var w) a).
Proof. destruct a as [[| |]| | | | | | | | | |]; cbn; try reflexivity. destruct (String.eqb v x); reflexivity. Qed.
Lemma sinv_subst v w a : subst v (Var w) (sinv a) = sinv (subst v (Var w) a).
Proof. destruct a as [[|[]|[]]| | | | | | | | | |]; cbn; try reflexivity. destruct (String.eqb v x); reflexivity. Qed.
Lemma simp_subst v w e : ~ In w (vars e) -> simp (subst v (Var w) e) = subst v (Var w) (simp e).
Proof.
  induction e; cbn [subst simp vars]; rewrite ?in_app_iff; intros N; try reflexivity; try (now rewrite IHe).
  - destruct (String.eqb v x); reflexivity.
  - rewrite IHe1, IHe2, sadd_subst by tauto. reflexivity.
  - rewrite IHe1, IHe2, smul_subst; auto; intros I; apply simp_vars in I; tauto.
  - rewrite IHe, sopp_subst by tauto. reflexivity.
  - rewrite IHe, sinv_subst by tauto. reflexivity.
Qed.
Lemma simp_ren c l q x e : ~ In c (vars e) -> ~ In q (vars e) -> q <> c ->
  simp (ren c l q x e) = ren c l q x (simp e).
Proof.
  intros N1 N2 N3. unfold ren. rewrite !simp_subst; auto. rewrite vars_subst_iff. cbn. intuition congruence.
Qed.
Lemma vars_ren c l q x e y : x <> c -> In y (vars (ren c l q x e)) -> (y = q /\ In x (vars e)) \/ (y = c /\ In l (vars e)) \/ (In y (vars e) /\ y <> x /\ y <> l).
Proof.
  intros XC. unfold ren. rewrite !vars_subst_iff. cbn.
  intros [[[[A [B|[]]]|[A B]] [C|[]]]|[[[A [B|[]]]|[A B]] C]]; try congruence; auto.
Qed.

(** ** Omega without a pair of rows and columns *)
Definition up (k i : nat) : nat := if Nat.ltb i k then i else S i.
Lemma nth_remove_at {A} (d : A) l : forall k i, nth i (remove_at k l) d = nth (up k i) l d.
Proof.
  unfold up. induction l as [|a l IH]; intros k i; cbn [remove_at].
  - destruct k; destruct (Nat.ltb i _); destruct i; reflexivity.
  - destruct k as [|k]; [reflexivity|]. destruct i as [|i]; [reflexivity|]. cbn [remove_at nth]. rewrite IH.
    replace (Nat.ltb (S i) (S k)) with (Nat.ltb i k) by reflexivity. destruct (Nat.ltb i k); reflexivity.
Qed.
Lemma nth_error_remove {A} (l : list A) : forall k i, nth_error (remove_at k l) i = nth_error l (up k i).
Proof.
  unfold up. induction l as [|a l IH]; intros k i; cbn [remove_at].
  - destruct k; destruct (Nat.ltb i _); destruct i; reflexivity.
  - destruct k as [|k]; [reflexivity|]. destruct i as [|i]; [reflexivity|]. cbn [remove_at nth_error]. rewrite IH.
    replace (Nat.ltb (S i) (S k)) with (Nat.ltb i k) by reflexivity. destruct (Nat.ltb i k); reflexivity.
Qed.
Lemma remove_at_length {A} (l : list A) : forall k, k < length l -> length (remove_at k l) = length l - 1.
Proof. induction l as [|a l IH]; intros [|k] H; cbn in *; try lia. rewrite IH; lia. Qed.
Lemma entry_drop k m i j : entry (drop_cross k m) i j = entry m (up k i) (up k j).
Proof.
  unfold entry, drop_cross.
  change (nth i (map (remove_at k) (remove_at k m)) []) with (nth i (map (remove_at k) (remove_at k m)) []).
  assert (E : nth i (map (remove_at k) (remove_at k m)) [] = remove_at k (nth i (remove_at k m) [])).
  { replace (@nil expr) with (remove_at k (@nil expr)) at 1 by (destruct k; reflexivity). apply map_nth. }
  rewrite E, !nth_remove_at. reflexivity.
Qed.

Definition skew (n : nat) (m : list (list expr)) : Prop :=
  length m = n /\ Forall (fun row => length row = n) m /\
  forall i j, i < n -> j < n ->
    if Nat.eqb i j then simp (entry m i j) = Cst 0 else simp (entry m i j) = simp (Opp (entry m j i)).
Lemma skew_symplectic n m : skew (2 * n) m -> symplectic (Some m) = true.
Proof.
  intros (L & R & S). unfold symplectic, is_symplectic.
  assert (E : length m = match m with [] => 0 | row :: _ => length row end).
  { destruct m; [reflexivity|]. inversion R; subst. congruence. }
  rewrite <- E, L. assert (O : Nat.odd (2 * n) = false) by (rewrite Nat.odd_mul; reflexivity). rewrite O, Nat.eqb_refl. cbn [negb orb].
  apply symp_loop. split; [reflexivity|]. intros i j I. rewrite in_prod_iff, !in_seq in I. specialize (S i j ltac:(lia) ltac:(lia)).
  destruct (Nat.eqb i j); apply expr_eqb_eq; exact S.
Qed.
Lemma skew_drop n k m : k <= n -> skew (S n) m -> skew n (drop_cross k m).
Proof.
  intros K (L & R & S). assert (UP : forall i, i < n -> up k i < Datatypes.S n) by (intros i Hi; unfold up; destruct (Nat.ltb i k); lia).
  split; [|split].
  - unfold drop_cross. rewrite map_length, remove_at_length; lia.
  - unfold drop_cross. apply Forall_forall. intros row I. apply in_map_iff in I. destruct I as (row' & <- & I). apply remove_at_In in I.
    rewrite Forall_forall in R. specialize (R _ I). rewrite remove_at_length; lia.
  - intros i j Hi Hj. rewrite !entry_drop. specialize (S (up k i) (up k j) (UP i Hi) (UP j Hj)).
    destruct (Nat.eqb_spec i j) as [->|NE]; [now rewrite Nat.eqb_refl in S|].
    destruct (Nat.eqb_spec (up k i) (up k j)) as [E|_]; [|exact S]. exfalso. apply NE. unfold up in E.
    destruct (Nat.ltb_spec i k), (Nat.ltb_spec j k); lia.
Qed.

(** ** Names of the new quadratures *)
Definition qn (i : nat) : string := ("_q_" ++ of_nat i)%string.
Lemma of_nat_inj i j : of_nat i = of_nat j -> i = j.
Proof.
  unfold of_nat. intros H. apply (f_equal NilEmpty.uint_of_string) in H. rewrite !NilEmpty.usu in H. injection H as H.
  now apply Unsigned.to_uint_inj in H.
Qed.
Lemma qn_inj i j : qn i = qn j -> i = j.
Proof. unfold qn. cbn. intros H. injection H as H. now apply of_nat_inj. Qed.

(** ** The chain *)
(** [L] lists the constants of motion left, as (name, state, costate): each is
    the costate of a state that no new quadrature's equation needs and whose
    own rate is zero. *)
Record reducible (L : list (string * string * string)) (r : rprob) : Prop := mkReducible {
  rc_law : p_law (r_p r) = [];
  rc_len : length (p_costates (r_p r)) = length (p_states (r_p r));
  rc_nodup : NoDup (syms (p_states (r_p r) ++ p_costates (r_p r)));
  rc_coms : exists h rest, r_coms r = h :: map (fun t => (fst (fst t), Var (snd t))) L ++ rest;
  rc_cs : NoDup (map (fun t => fst (fst t)) L);
  rc_xs : NoDup (map (fun t => snd (fst t)) L);
  rc_omega : exists om, r_omega r = Some om /\ skew (2 * length (p_states (r_p r))) om /\
    forall c x l, In (c, x, l) L -> exists k ex el,
      nth_error (p_states (r_p r)) k = Some (x, ex) /\ nth_error (p_costates (r_p r)) k = Some (l, el) /\
      (forall i, i < 2 * length (p_states (r_p r)) ->
         simp (entry om i (length (p_states (r_p r)) + k)) = if Nat.eqb i k then Cst 1 else Cst 0) /\
      (forall fn rho, eval fn rho el = 0%R) /\
      (forall c' x' l', In (c', x', l') L -> ~ In x' (vars (simp ex)) /\ ~ In l' (vars (simp ex)));
  rc_rest : forall c x l, In (c, x, l) L ->
    ~ In x (dyn_used (p_coparams (r_p r) ++ p_quads (r_p r)) ++ fixed_names (r_p r)) /\
    ~ In l (dyn_used (p_coparams (r_p r) ++ p_quads (r_p r)) ++ fixed_names (r_p r));
  rc_fresh_c : forall c x l, In (c, x, l) L -> ~ In c (used (r_p r)) /\ forall i, c <> qn i;
  rc_fresh_q : forall i, length (p_quads (r_p r)) <= i -> ~ In (qn i) (used (r_p r)) }.

Lemma dyn_used_ren c l q x ll y : x <> c -> In y (dyn_used (map (ren_dyn c l q x) ll)) -> y = q \/ y = c \/ In y (dyn_used ll).
Proof.
  intros XC I. unfold dyn_used in *. rewrite in_flat_map in *. destruct I as (s & I & J). apply in_map_iff in I. destruct I as (s' & <- & I).
  unfold ren_dyn in J. cbn [fst snd] in J. destruct J as [<-|J].
  - right. right. exists s'. cbn. auto.
  - apply vars_ren in J; auto. destruct J as [[-> _]|[[-> _]|[J _]]]; auto. right. right. exists s'. cbn. auto.
Qed.
Lemma constr_used_ren c l q x ll y : x <> c -> In y (constr_used (map (ren_constr c l q x) ll)) -> y = q \/ y = c \/ In y (constr_used ll).
Proof.
  intros XC I. unfold constr_used in *. rewrite in_flat_map in *. destruct I as (s & I & J). apply in_map_iff in I. destruct I as (s' & <- & I).
  unfold ren_constr in J. cbn [c_expr] in J. apply vars_ren in J; auto. destruct J as [[-> _]|[[-> _]|[J _]]]; auto. right. right. exists s'. auto.
Qed.
Lemma used_remove l0 j : incl (dyn_used (remove_at j l0)) (dyn_used l0).
Proof.
  intros y I. unfold dyn_used in *. rewrite in_flat_map in *. destruct I as (s & I & J). exists s. split; auto. now apply remove_at_In in I.
Qed.
Lemma dyn_used_app a b : dyn_used (a ++ b) = dyn_used a ++ dyn_used b.
Proof. unfold dyn_used. apply flat_map_app. Qed.
Lemma used_reduced k c x l ex el p y : nth_error (p_states p) k = Some (x, ex) -> nth_error (p_costates p) k = Some (l, el) -> x <> c ->
  In y (used (reduced k c x l ex p)) -> y = new_quad p \/ y = c \/ In y (used p).
Proof.
  intros HX HL XC I. unfold used, reduced in I. cbn [p_states p_costates p_coparams p_quads p_ci p_ct set_ct set_ci set_costates set_states set_quads set_params] in I.
  unfold fixed_names in I. cbn [p_params p_consts p_cpars p_cadj set_ct set_ci set_costates set_states set_quads set_params] in I.
  unfold used. rewrite !dyn_used_app in I. unfold fixed_names. rewrite !dyn_used_app. rewrite !in_app_iff in *. 
  assert (EX : In y (vars ex) -> In y (dyn_used (p_states p))) by (intros J; apply nth_error_In in HX; apply (proj2 (used_dyn _ _ _ HX)); assumption).
  destruct I as [I|[I|[I|[I|[I|I]]]]].
  - apply dyn_used_ren in I; auto. destruct I as [I|[I|I]]; auto. apply used_remove in I. tauto.
  - apply dyn_used_ren in I; auto. destruct I as [I|[I|I]]; auto. apply used_remove in I. tauto.
  - destruct I as [I|[I|I]]; try tauto. cbn in I. destruct I as [<-|I]; auto. rewrite app_nil_r in I. apply simp_vars in I. auto.
  - cbn in I. intuition.
  - apply constr_used_ren in I; auto. tauto.
  - apply constr_used_ren in I; auto. tauto.
Qed.

Lemma dyn_used_ren_gone c l q x ll y : y <> c -> y <> q -> y = x \/ y = l -> x <> c -> ~ In y (map fst ll) -> ~ In y (dyn_used (map (ren_dyn c l q x) ll)).
Proof.
  intros NC NQ YE XC NF I. unfold dyn_used in I. rewrite in_flat_map in I. destruct I as (s & I & J). apply in_map_iff in I. destruct I as (s' & <- & I).
  unfold ren_dyn in J. cbn [fst snd] in J. destruct J as [<-|J]; [apply NF; now apply in_map|].
  apply vars_ren in J; auto. tauto.
Qed.
Lemma constr_used_ren_gone c l q x ll y : y <> c -> y <> q -> y = x \/ y = l -> x <> c -> ~ In y (constr_used (map (ren_constr c l q x) ll)).
Proof.
  intros NC NQ YE XC I. unfold constr_used in I. rewrite in_flat_map in I. destruct I as (s & I & J). apply in_map_iff in I. destruct I as (s' & <- & I).
  unfold ren_constr in J. cbn [c_expr] in J. apply vars_ren in J; auto. tauto.
Qed.
Lemma gone k c x l ex el p y : nth_error (p_states p) k = Some (x, ex) -> nth_error (p_costates p) k = Some (l, el) ->
  NoDup (syms (p_states p ++ p_costates p)) -> ~ In c (used p) -> ~ In (new_quad p) (used p) -> y = x \/ y = l ->
  ~ In y (dyn_used (p_coparams p ++ p_quads p) ++ fixed_names p) -> ~ In y (vars (simp ex)) ->
  ~ In y (used (reduced k c x l ex p)).
Proof.
  intros HX HL ND CF QF YE YR YS.
  assert (XU : In x (used p)) by (unfold used; rewrite !in_app_iff; left; apply nth_error_In in HX; apply (proj1 (used_dyn _ _ _ HX))).
  assert (LU : In l (used p)) by (unfold used; rewrite !in_app_iff; right; left; apply nth_error_In in HL; apply (proj1 (used_dyn _ _ _ HL))).
  assert (YU : In y (used p)) by (destruct YE; subst; assumption).
  assert (YC : y <> c) by (intros ->; contradiction). assert (YQ : y <> new_quad p) by (intros ->; contradiction).
  assert (XC : x <> c) by (intros ->; contradiction).
  unfold syms in ND. rewrite map_app in ND. apply NoDup_app_disj in ND. destruct ND as (D1 & D2 & D3).
  assert (XI : In x (map fst (p_states p))) by (apply nth_error_In in HX; apply (in_map fst) in HX; assumption).
  assert (LI : In l (map fst (p_costates p))) by (apply nth_error_In in HL; apply (in_map fst) in HL; assumption).
  assert (F1 : ~ In y (map fst (remove_at k (p_states p)))).
  { destruct YE as [->|E]; [now apply (remove_at_nodup _ k x ex)|]. rewrite <- remove_at_map. intros I. apply remove_at_In in I. apply (D3 y I). now rewrite E. }
  assert (F2 : ~ In y (map fst (remove_at k (p_costates p)))).
  { destruct YE as [E| ->]; [|now apply (remove_at_nodup _ k l el)]. rewrite <- remove_at_map. intros I. apply remove_at_In in I. apply (D3 y); auto. now rewrite E. }
  intros I. unfold used, reduced in I.
  cbn [p_states p_costates p_coparams p_quads p_ci p_ct set_ct set_ci set_costates set_states set_quads set_params] in I.
  unfold fixed_names in I, YR. cbn [p_params p_consts p_cpars p_cadj set_ct set_ci set_costates set_states set_quads set_params] in I.
  rewrite !dyn_used_app in I. rewrite !dyn_used_app in YR. rewrite !in_app_iff in I. rewrite !in_app_iff in YR.
  destruct I as [I|[I|[I|[I|[I|I]]]]].
  - now apply dyn_used_ren_gone in I.
  - now apply dyn_used_ren_gone in I.
  - destruct I as [I|[I|I]]; try tauto. apply in_app_iff in I. destruct I as [[I|I]|[]]; [cbn [fst] in I; now apply YQ|contradiction].
  - cbn in I. intuition.
  - now apply constr_used_ren_gone in I.
  - now apply constr_used_ren_gone in I.
Qed.

(** Back and forth between curves: a state removed is the value of its new
    quadrature, a costate removed that of the new parameter; conversely. *)
Fixpoint lift (i : nat) (L : list (string * string * string)) (cv : R -> string -> R) : R -> string -> R :=
  match L with
  | [] => cv
  | (c, x, l) :: L' => lift1 c x l (qn i) (lift (S i) L' cv)
  end.
Fixpoint push (a : R) (i : nat) (L : list (string * string * string)) (cv : R -> string -> R) : R -> string -> R :=
  match L with
  | [] => cv
  | (c, x, l) :: L' => push a (S i) L' (push1 a c x l (qn i) cv)
  end.
(** The equations of motion of the states to be removed are defined along a curve. *)
Definition rates_defined (fn : string -> nat -> R -> R) (p : prob) (a b : R) (L : list (string * string * string))
    (cv : R -> string -> R) : Prop :=
  forall c x l ex, In (c, x, l) L -> In (x, ex) (p_states p) -> forall t, (a <= t <= b)%R -> wd fn (cv t) ex.
Definition red_of (i : nat) (t : string * string * string) : red :=
  mkRed (fst (fst t)) (Var (snd t)) (snd t) (Var (fst (fst t))) (snd (fst t)) (qn i) (Var (snd (fst t))) (Var (qn i)).
Fixpoint reds_of (i : nat) (L : list (string * string * string)) : list red :=
  match L with [] => [] | t :: L' => red_of i t :: reds_of (S i) L' end.

Section Chain.
  Variable integ : expr -> string -> expr.
  Variable solve : expr -> list string -> list (string * expr).
  Hypothesis INT : int_const integ.
  Hypothesis SOL : solve_var solve.

  Lemma syms_map c l q x ll : syms (map (ren_dyn c l q x) ll) = syms ll.
  Proof. unfold syms. rewrite map_map. apply map_ext. reflexivity. Qed.
  Lemma nodup_remove {A} (l : list A) : forall k, NoDup l -> NoDup (remove_at k l).
  Proof.
    induction l as [|a l IH]; intros [|k] N; cbn; auto; inversion N; subst; auto. constructor; auto. intros I. apply remove_at_In in I. contradiction.
  Qed.
  Lemma nodup_app' {A} (l m : list A) : NoDup l -> NoDup m -> (forall x, In x l -> ~ In x m) -> NoDup (l ++ m).
  Proof.
    induction l as [|a l IH]; intros N1 N2 D; [exact N2|]. cbn. inversion N1; subst. constructor.
    - rewrite in_app_iff. intros [I|I]; [contradiction|]. apply (D a); cbn; auto.
    - apply IH; auto. intros x I. apply D. now right.
  Qed.

  Lemma reducible_step c x l L r : reducible ((c, x, l) :: L) r ->
    exists k ex el r1,
      mf_step integ solve 1 r = Ok r1 /\ r_p r1 = reduced k c x l ex (r_p r) /\
      nth_error (p_states (r_p r)) k = Some (x, ex) /\ nth_error (p_costates (r_p r)) k = Some (l, el) /\
      (forall fn rho, eval fn rho el = 0%R) /\
      ~ In x (vars (simp ex)) /\ ~ In l (vars (simp ex)) /\
      r_reds r1 = r_reds r ++ [mkRed c (Var l) l (Var c) x (qn (length (p_quads (r_p r)))) (Var x) (Var (qn (length (p_quads (r_p r)))))] /\
      reducible L r1.
  Proof.
    intros H. set (p := r_p r) in *. set (ns := length (p_states p)) in *. set (q := new_quad p).
    destruct (rc_coms _ _ H) as (h & rest & HC). destruct (rc_omega _ _ H) as (om & HO & SK & PAIR). fold p in SK, PAIR. fold ns in SK, PAIR.
    destruct (PAIR c x l (or_introl eq_refl)) as (k & ex & el & HX & HLl & COL & ZERO & IND).
    assert (KN : k < ns) by (apply nth_error_Some; rewrite HX; discriminate).
    destruct (rc_fresh_c _ _ H c x l (or_introl eq_refl)) as [CF CQ].
    assert (QF := rc_fresh_q _ _ H (length (p_quads p)) (le_n _)). fold q in QF.
    destruct (rc_rest _ _ H c x l (or_introl eq_refl)) as [XR LR].
    assert (XU : In x (used p)) by (unfold used; rewrite !in_app_iff; left; apply nth_error_In in HX; apply (proj1 (used_dyn _ _ _ HX))).
    assert (LU : In l (used p)) by (unfold used; rewrite !in_app_iff; right; left; apply nth_error_In in HLl; apply (proj1 (used_dyn _ _ _ HLl))).
    assert (XC : x <> c) by (intros ->; contradiction). assert (XQ : x <> q) by (intros E; rewrite E in XU; contradiction).
    assert (LC : l <> c) by (intros ->; contradiction). assert (LQ : l <> q) by (intros E; rewrite E in LU; contradiction).
    assert (ND := rc_nodup _ _ H). fold p in ND.
    assert (NDs := ND). unfold syms in NDs. rewrite map_app in NDs. apply NoDup_app_disj in NDs. destruct NDs as (D1 & D2 & D3).
    assert (ST := mf_step_coord integ solve INT SOL 1 r om k c x l ex el). cbv zeta in ST. fold p ns q in ST.
    rewrite ST; auto; clear ST.
    2: { apply (skew_symplectic ns). exact SK. }
    2: { apply (rc_len _ _ H). }
    2: { apply (rc_law _ _ H). }
    2: { rewrite HC. reflexivity. }
    2: { intros I. apply LR. rewrite in_app_iff. right. unfold fixed_names. rewrite in_app_iff in I. rewrite !in_app_iff. tauto. }
    exists k, ex, el. eexists. split; [reflexivity|]. cbn [r_p r_reds].
    destruct (IND c x l (or_introl eq_refl)) as [IX IL].
    do 7 (split; [auto; reflexivity|]).
    assert (LEN : length (p_costates p) = ns) by apply (rc_len _ _ H).
    assert (XS := rc_xs _ _ H). cbn in XS. inversion XS as [|? ? XN XS']; subst.
    assert (CS := rc_cs _ _ H). cbn in CS. inversion CS as [|? ? CN CS']; subst.
    constructor; cbn [r_p r_coms r_omega r_reds].
    - cbn. apply (rc_law _ _ H).
    - cbn. rewrite !map_length, !remove_at_length; fold p; fold ns; lia.
    - cbn. unfold syms. rewrite map_app. fold (syms (map (ren_dyn c l q x) (remove_at k (p_states p)))).
      fold (syms (map (ren_dyn c l q x) (remove_at k (p_costates p)))). rewrite !syms_map. unfold syms. rewrite <- !remove_at_map.
      apply nodup_app'; [now apply nodup_remove|now apply nodup_remove|]. intros y I J. apply remove_at_In in I, J. now apply (D3 y).
    - exists (ren_dyn c l q x h), (map (ren_dyn c l q x) rest). rewrite HC. cbn [map app remove_at fst snd]. f_equal. rewrite map_app, map_map. f_equal. apply map_ext_in. intros [[c' x'] l'] I.
      unfold ren_dyn. cbn [fst snd]. f_equal. unfold ren.
      destruct (PAIR c' x' l' (or_intror I)) as (k' & ex' & el' & HX' & HL' & _).
      assert (NL : l <> l').
      { intros <-. apply XN. apply in_map_iff. exists (c', x', l). split; [|exact I]. cbn.
        assert (k' = k).
        { assert (E1 : nth_error (map fst (p_costates p)) k' = Some l) by (rewrite nth_error_map, HL'; reflexivity).
          assert (E2 : nth_error (map fst (p_costates p)) k = Some l) by (rewrite nth_error_map, HLl; reflexivity).
          apply (proj1 (NoDup_nth_error _) D2); [rewrite map_length; apply nth_error_Some; rewrite HL'; discriminate|congruence]. }
        subst k'. congruence. }
      assert (NX : x <> l').
      { intros E. apply (D3 x); [apply nth_error_In in HX; apply (in_map fst) in HX; exact HX|].
        rewrite E. apply nth_error_In in HL'. apply (in_map fst) in HL'. exact HL'. }
      cbn. rewrite (proj2 (String.eqb_neq l l') NL). cbn. now rewrite (proj2 (String.eqb_neq x l') NX).
    - exact CS'.
    - exact XS'.
    - exists (drop_cross k (drop_cross (ns + k) om)). split; [reflexivity|].
      assert (NS' : length (p_states (reduced k c x l ex p)) = ns - 1) by (cbn; rewrite map_length, remove_at_length; fold ns; lia).
      rewrite NS'. split.
      { replace (2 * (ns - 1)) with (2 * ns - 2) by lia. apply skew_drop; [lia|]. replace (S (2 * ns - 2)) with (2 * ns - 1) by lia.
        apply skew_drop; [lia|]. replace (S (2 * ns - 1)) with (2 * ns) by lia. exact SK. }
      intros c' x' l' I. destruct (PAIR c' x' l' (or_intror I)) as (k' & ex' & el' & HX' & HL' & COL' & ZERO' & IND').
      assert (KN' : k' < ns) by (apply nth_error_Some; rewrite HX'; discriminate).
      assert (NK : k' <> k).
      { intros ->. rewrite HX in HX'. injection HX' as <- _. apply XN. apply in_map_iff. exists (c', x, l'). auto. }
      set (j := if Nat.ltb k' k then k' else k' - 1). 
      assert (UJ : up k j = k').
      { unfold up, j. destruct (Nat.ltb_spec k' k) as [A|A]; [destruct (Nat.ltb_spec k' k)|destruct (Nat.ltb_spec (k' - 1) k)]; lia. }
      destruct (rc_fresh_c _ _ H c' x' l' (or_intror I)) as [CF' CQ'].
      exists j, (ren c l q x ex'), (ren c l q x el'). split; [|split; [|split; [|split]]].
      + cbn. rewrite nth_error_map, nth_error_remove, UJ. rewrite HX'. reflexivity.
      + cbn. rewrite nth_error_map, nth_error_remove, UJ. rewrite HL'. reflexivity.
      + intros i Hi. rewrite !entry_drop.
        assert (U1 : up (ns + k) (up k (ns - 1 + j)) = ns + k').
        { rewrite <- UJ. unfold up. repeat match goal with |- context [Nat.ltb ?u ?v] => destruct (Nat.ltb_spec u v) end; lia. }
        assert (U2 : up (ns + k) (up k i) < 2 * ns).
        { unfold up. repeat match goal with |- context [Nat.ltb ?u ?v] => destruct (Nat.ltb_spec u v) end; lia. }
        rewrite U1, COL' by assumption.
        assert (U3 : up (ns + k) (up k i) = k' <-> i = j).
        { rewrite <- UJ. assert (j < ns - 1) by (unfold j; destruct (Nat.ltb_spec k' k); lia).
          unfold up. repeat match goal with |- context [Nat.ltb ?u ?v] => destruct (Nat.ltb_spec u v) end; lia. }
        destruct (Nat.eqb_spec (up (ns + k) (up k i)) k'), (Nat.eqb_spec i j); tauto.
      + intros fn rho. unfold ren. rewrite !eval_subst. apply ZERO'.
      + intros c2 x2 l2 I2. 
        assert (UE : forall v, In v (vars ex') -> In v (used p)).
        { intros v J. unfold used. rewrite in_app_iff. left. apply nth_error_In in HX'. apply (proj2 (used_dyn _ _ _ HX')). exact J. }
        rewrite simp_ren; [|intros J; apply UE in J; contradiction|intros J; apply UE in J; contradiction|intros E; apply (CQ (length (p_quads p))); now rewrite <- E].
        destruct (IND' c2 x2 l2 (or_intror I2)) as [J1 J2].
        destruct (PAIR c2 x2 l2 (or_intror I2)) as (k2 & ex2 & el2 & HX2 & HL2 & _).
        assert (XU2 : In x2 (used p)) by (unfold used; rewrite !in_app_iff; left; apply nth_error_In in HX2; apply (proj1 (used_dyn _ _ _ HX2))).
        assert (LU2 : In l2 (used p)) by (unfold used; rewrite !in_app_iff; right; left; apply nth_error_In in HL2; apply (proj1 (used_dyn _ _ _ HL2))).
        split; intros J; apply vars_ren in J; auto; destruct J as [[E _]|[[E _]|[J _]]]; try contradiction.
        * rewrite E in XU2. contradiction.
        * rewrite E in XU2. contradiction.
        * rewrite E in LU2. contradiction.
        * rewrite E in LU2. contradiction.
    - intros c2 x2 l2 I2. destruct (rc_rest _ _ H c2 x2 l2 (or_intror I2)) as [R1 R2]. fold p in R1, R2.
      destruct (IND c2 x2 l2 (or_intror I2)) as [J1 J2].
      destruct (PAIR c2 x2 l2 (or_intror I2)) as (k2 & ex2 & el2 & HX2 & HL2 & _).
      assert (XU2 : In x2 (used p)) by (unfold used; rewrite !in_app_iff; left; apply nth_error_In in HX2; apply (proj1 (used_dyn _ _ _ HX2))).
      assert (LU2 : In l2 (used p)) by (unfold used; rewrite !in_app_iff; right; left; apply nth_error_In in HL2; apply (proj1 (used_dyn _ _ _ HL2))).
      assert (G : forall z, In z (used p) -> ~ In z (vars (simp ex)) -> ~ In z (dyn_used (p_coparams p ++ p_quads p) ++ fixed_names p) ->
                  ~ In z (dyn_used (p_coparams (reduced k c x l ex p) ++ p_quads (reduced k c x l ex p)) ++ fixed_names (reduced k c x l ex p))).
      { intros z ZU ZE ZR I. apply ZR. unfold fixed_names in *.
        cbn [reduced p_params p_consts p_cpars p_cadj p_coparams p_quads set_ct set_ci set_costates set_states set_quads set_params] in I.
        rewrite !dyn_used_app in I. rewrite !dyn_used_app. rewrite !in_app_iff in *. cbn in I. fold q in I. rewrite app_nil_r in I.
        destruct I as [[I|[I|[I|I]]]|[[I|[I|[]]]|I]]; try tauto; rewrite <- I in ZU; contradiction. }
      split; apply G; auto.
    - intros c2 x2 l2 I2. destruct (rc_fresh_c _ _ H c2 x2 l2 (or_intror I2)) as [CF2 CQ2]. split; [|exact CQ2].
      intros J. apply (used_reduced k c x l ex el) in J; auto. destruct J as [J|[J|J]]; [now apply (CQ2 (length (p_quads p)))| |contradiction].
      apply CN. apply in_map_iff. exists (c2, x2, l2). auto.
    - intros i Hi. cbn in Hi. rewrite app_length in Hi. cbn in Hi. intros J. apply (used_reduced k c x l ex el) in J; auto.
      destruct J as [J|[J|J]].
      + unfold new_quad in J. fold (qn (length (p_quads p))) in J. apply qn_inj in J. fold p in Hi. lia.
      + apply (CQ i). now symmetry.
      + revert J. apply (rc_fresh_q _ _ H). fold p. fold p in Hi. lia.
  Qed.

  Variable lu : list (list expr) -> list expr -> res (list expr).
  Variable ctl : list expr -> list string -> list (list expr).
  Lemma chain L : forall r, reducible L r -> exists r',
    run_rtfs lu ctl integ solve (repeat RMF (length L)) r = Ok r' /\
    (forall y, In y (used (r_p r')) -> In y (used (r_p r)) \/ In y (map (fun t => fst (fst t)) L) \/
       exists i, length (p_quads (r_p r)) <= i /\ y = qn i) /\
    (forall c x l, In (c, x, l) L -> ~ In x (used (r_p r')) /\ ~ In l (used (r_p r'))) /\
    p_params (r_p r') = p_params (r_p r) ++ map (fun t => fst (fst t)) L /\
    syms (p_quads (r_p r')) = syms (p_quads (r_p r)) ++ map qn (seq (length (p_quads (r_p r))) (length L)) /\
    r_reds r' = r_reds r ++ reds_of (length (p_quads (r_p r))) L /\
    length (p_states (r_p r')) + length L = length (p_states (r_p r)) /\
    length (p_costates (r_p r')) + length L = length (p_costates (r_p r)) /\
    forall fn a b, (a <= b)%R -> 
      (forall cv, solves fn (r_p r) a b cv -> rates_defined fn (r_p r) a b L cv ->
         solves fn (r_p r') a b (push a (length (p_quads (r_p r))) L cv)) /\
      (forall cv, solves fn (r_p r') a b cv -> rates_defined fn (r_p r) a b L (lift (length (p_quads (r_p r))) L cv) ->
         solves fn (r_p r) a b (lift (length (p_quads (r_p r))) L cv)).
  Proof.
    induction L as [|[[c x] l] L IH]; intros r H.
    - exists r. cbn. rewrite !app_nil_r, !Nat.add_0_r.
      split; [reflexivity|]. split; [now left|]. split; [contradiction|]. do 5 (split; [reflexivity|]). intros fn a b AB. split; intros cv SV _; exact SV.
    - destruct (reducible_step c x l L r H) as (k & ex & el & r1 & ST & EP & HX & HLl & ZERO & IX & IL & RD & H1).
      destruct (IH r1 H1) as (r' & RUN & US & GO & PA & QU & RE & LS & LC & SO).
      assert (CS := rc_cs _ _ H). cbn in CS. inversion CS as [|? ? CN CS']; subst.
      assert (XS := rc_xs _ _ H). cbn in XS. inversion XS as [|? ? XN XS']; subst.
      destruct (rc_fresh_c _ _ H c x l (or_introl eq_refl)) as [CF CQ].
      assert (QF : ~ In (new_quad (r_p r)) (used (r_p r))) by (apply (rc_fresh_q _ _ H); lia).
      destruct (rc_rest _ _ H c x l (or_introl eq_refl)) as [XR LR].
      assert (ND := rc_nodup _ _ H).
      assert (XU : In x (used (r_p r))) by (unfold used; rewrite !in_app_iff; left; apply nth_error_In in HX; apply (proj1 (used_dyn _ _ _ HX))).
      assert (LU : In l (used (r_p r))) by (unfold used; rewrite !in_app_iff; right; left; apply nth_error_In in HLl; apply (proj1 (used_dyn _ _ _ HLl))).
      assert (XC : x <> c) by (intros ->; contradiction).
      assert (KN : k < length (p_states (r_p r))) by (apply nth_error_Some; rewrite HX; discriminate).
      assert (KN2 : k < length (p_costates (r_p r))) by (apply nth_error_Some; rewrite HLl; discriminate).
      assert (LQ : length (p_quads (r_p r1)) = S (length (p_quads (r_p r)))) by (rewrite EP; cbn; rewrite app_length; cbn; lia).
      assert (UNIQ : forall e, In (x, e) (p_states (r_p r)) -> e = ex).
      { intros e I. apply In_nth_error in I. destruct I as (k2 & I). unfold syms in ND. rewrite map_app in ND. apply NoDup_app_disj in ND. destruct ND as (D1 & _ & _).
        assert (k2 = k).
        { apply (proj1 (NoDup_nth_error _) D1).
          - rewrite map_length. apply nth_error_Some. rewrite I. discriminate.
          - now rewrite !nth_error_map, I, HX. }
        subst k2. congruence. }
      exists r'. cbn [length repeat run_rtfs apply_rtf]. rewrite ST. cbn [bind].
      split; [exact RUN|]. split; [|split; [|split; [|split; [|split; [|split; [|split]]]]]].
      + intros y I. destruct (US y I) as [J|[J|(i & Hi & ->)]].
        * rewrite EP in J. apply (used_reduced k c x l ex el) in J; auto. destruct J as [->|[->|J]]; auto.
          { right. right. exists (length (p_quads (r_p r))). split; [lia|reflexivity]. }
          { right. left. now left. }
        * right. left. now right.
        * right. right. exists i. split; [lia|reflexivity].
      + intros c' x' l' [E|I]; [|now apply (GO c')]. injection E as <- <- <-.
        assert (G : forall y, y = x \/ y = l -> ~ In y (dyn_used (p_coparams (r_p r) ++ p_quads (r_p r)) ++ fixed_names (r_p r)) ->
                    ~ In y (vars (simp ex)) -> In y (used (r_p r)) -> ~ In y (used (r_p r'))).
        { intros y YE YR YS YU J. destruct (US y J) as [J'|[J'|(i & Hi & ->)]].
          - rewrite EP in J'. revert J'. now apply (gone k c x l ex el).
          - apply in_map_iff in J'. destruct J' as ([[c' x'] l'] & E & I). cbn in E. subst c'.
            apply (proj1 (rc_fresh_c _ _ H y x' l' (or_intror I))). exact YU.
          - revert YU. apply (rc_fresh_q _ _ H). lia. }
        split; apply G; auto.
      + rewrite PA, EP. cbn. now rewrite <- app_assoc.
      + rewrite QU, LQ, EP. cbn. unfold syms. rewrite map_app. cbn. now rewrite <- app_assoc.
      + rewrite RE, RD, LQ. cbn [reds_of]. rewrite <- app_assoc. reflexivity.
      + assert (E : length (p_states (r_p r1)) = length (p_states (r_p r)) - 1) by (rewrite EP; cbn; rewrite map_length, remove_at_length; lia). lia.
      + assert (E : length (p_costates (r_p r1)) = length (p_costates (r_p r)) - 1) by (rewrite EP; cbn; rewrite map_length, remove_at_length; lia). lia.
      + intros fn a b AB. destruct (SO fn a b AB) as [SC SS]. rewrite LQ in SC, SS. rewrite EP in SC, SS.
        assert (INV : forall c' x' l' e1, In (c', x', l') L -> In (x', e1) (p_states (reduced k c x l ex (r_p r))) ->
                  exists e0, In (x', e0) (p_states (r_p r)) /\ e1 = ren c l (new_quad (r_p r)) x e0).
        { intros c' x' l' e1 I J. cbn in J. apply in_map_iff in J. destruct J as ([y e0] & E & J). unfold ren_dyn in E. cbn [fst snd] in E.
          injection E as -> <-. exists e0. split; [now apply remove_at_In in J|reflexivity]. }
        split.
        * intros cv SV RDf. cbn [push]. apply SC.
          { apply (step_complete fn (r_p r) k c x l ex el); auto; try (apply (CQ (length (p_quads (r_p r))))).
            intros t Ht. apply (RDf c x l ex); auto; [now left|now apply nth_error_In in HX]. }
          intros c' x' l' e1 I J t Ht. destruct (INV c' x' l' e1 I J) as (e0 & J0 & ->).
          assert (UE : forall v, In v (vars e0) -> In v (used (r_p r))).
          { intros v V. unfold used. rewrite in_app_iff. left. apply (proj2 (used_dyn _ _ _ J0)). exact V. }
          apply (comp_wd fn (r_p r) k c x l ex el) with (b := b); auto; try (apply (CQ (length (p_quads (r_p r))))).
          apply (RDf c' x' l' e0); auto. now right.
        * intros cv SV RDf. cbn [lift] in *. 
          apply (step_sound fn (r_p r) k c x l ex el); auto; try (apply (CQ (length (p_quads (r_p r))))).
          { apply SS; [exact SV|]. intros c' x' l' e1 I J t Ht. destruct (INV c' x' l' e1 I J) as (e0 & J0 & ->).
            apply (wd_ren fn (r_p r) k c x l ex el); auto. apply (RDf c' x' l' e0); auto. now right. }
          intros t Ht. apply (RDf c x l ex); auto; [now left|now apply nth_error_In in HX].
  Qed.
End Chain.
