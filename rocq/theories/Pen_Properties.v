(** C27-C29: the penalty, the trigonometric control and the relaxed switch,
    mapping_functions.py lines 186-301, components_structures.py lines 260-288. *)
From Coq Require Import Reals Lra.
From Coquelicot Require Import Coquelicot.
From Verif Require Import Base Sym_Expr Sym_Facts Sym_Model Sym_Spec Sym_RecSub Sym_Quant Sym_Eps Pen_Proofs Sym_Switch.
Open Scope R_scope.

(** C27.  [r1], [r2]: two situations with the same bounds and activator. *)
Theorem C27_zero_exactly_in_the_middle : forall fn rho act e lo up,
  let A := eval fn rho act in let L := eval fn rho lo in let U := eval fn rho up in
  let x := eval fn rho e in
  0 < A -> L < x < U ->
  0 <= eval fn rho (utm_penalty act e lo up) /\
  (eval fn rho (utm_penalty act e lo up) = 0 <-> x = (L + U) / 2).
Proof.
  intros fn rho act e lo up A L U x HA HX. rewrite utm_eval. fold A L U x.
  destruct (Req_dec x ((L + U) / 2)) as [E|N].
  - rewrite E, utm_middle by lra. split; [lra|tauto].
  - pose proof (utm_positive A L U x HA HX N). split; [lra|]. split; [lra|contradiction].
Qed.

Theorem C27_increases_with_distance : forall fn r1 r2 act e lo up A L U,
  eval fn r1 act = A -> eval fn r2 act = A -> eval fn r1 lo = L -> eval fn r2 lo = L ->
  eval fn r1 up = U -> eval fn r2 up = U ->
  let x1 := eval fn r1 e in let x2 := eval fn r2 e in
  0 < A -> L < x1 < U -> L < x2 < U ->
  (Rabs (x1 - (L + U) / 2) < Rabs (x2 - (L + U) / 2) ->
   eval fn r1 (utm_penalty act e lo up) < eval fn r2 (utm_penalty act e lo up)) /\
  (x1 + x2 = L + U ->
   eval fn r1 (utm_penalty act e lo up) = eval fn r2 (utm_penalty act e lo up)).
Proof.
  intros fn r1 r2 act e lo up A L U E1 E2 E3 E4 E5 E6 x1 x2 HA H1 H2.
  rewrite !utm_eval, E1, E2, E3, E4, E5, E6. fold x1 x2. split; intros H.
  - now apply utm_monotone.
  - apply utm_symmetric; lra.
Qed.

Theorem C27_unbounded_at_the_limits : forall fn act e lo up A L U M, 0 < A -> L < U ->
  exists d, 0 < d /\ forall rho,
    eval fn rho act = A -> eval fn rho lo = L -> eval fn rho up = U ->
    let x := eval fn rho e in
    L < x < U -> (x < L + d \/ U - d < x) -> M < eval fn rho (utm_penalty act e lo up).
Proof.
  intros fn act e lo up A L U M HA HL. destruct (utm_blowup A L U M HA HL) as (d & Hd & H).
  exists d. split; auto. intros rho E1 E2 E3 x H1 H2. rewrite utm_eval, E1, E2, E3. now apply H.
Qed.

Example C27_ex : let rho (s : string) := if String.eqb s "x" then 1 else if String.eqb s "u" then 4 else 2 in
  let fn (_ : string) (_ : nat) (y : R) := y in
  0 < eval fn rho (Var "a") /\ eval fn rho (Cst 0) < eval fn rho (Var "x") < eval fn rho (Var "u").
Proof. simpl. lra. Qed.

(** C28: the values taken by the substituted expression when the angle varies
    are exactly the interval of the bounds. *)
Theorem C28_exactly_the_admissible_controls : forall fn rho lo up angle u,
  ~ In angle (vars lo) -> ~ In angle (vars up) -> eval fn rho lo <= eval fn rho up ->
  (eval fn rho lo <= u <= eval fn rho up <->
   exists x, eval fn (upd rho angle x) (eps_expr lo up angle) = u).
Proof.
  intros fn rho lo up angle u H1 H2 HL.
  assert (E : forall x, eval fn (upd rho angle x) (eps_expr lo up angle) =
                        bounded_control (eval fn rho lo) (eval fn rho up) x).
  { intros x. rewrite eps_expr_value, !upd_other by auto. unfold upd. now rewrite String.eqb_refl. }
  split.
  - intros H. destruct (bounded_control_onto _ _ u H) as (x & Hx). exists x. now rewrite E.
  - intros (x & <-). rewrite E. now apply bounded_control_range.
Qed.
Example C28_ex : let rho (_ : string) := 3 in let fn (_ : string) (_ : nat) (y : R) := y in
  ~ In "a"%string (vars (Opp (Var "m"))) /\ eval fn rho (Opp (Var "m")) <= eval fn rho (Var "m").
Proof. simpl. split; [intuition discriminate|lra]. Qed.

(** C29.  The weight of an alternative tends to the NUMBER of its conditions that
    hold (are negative), and the relaxed function to the weighted sum. *)
Definition number_holding (fn : string -> nat -> R -> R) (rho : string -> R) (conds : list expr) : R :=
  INR (length (filter (fun c => if Rlt_dec (eval fn rho c) 0 then true else false) conds)).

Lemma number_holding_rsum fn rho conds :
  rsum (map (fun c => holds (eval fn rho c)) conds) = number_holding fn rho conds.
Proof.
  unfold number_holding, rsum, holds. induction conds as [|c l IH]; cbn [map fold_right filter]; auto.
  rewrite IH. destruct (Rlt_dec (eval fn rho c) 0); cbn [length]; rewrite ?S_INR; lra.
Qed.

Theorem C29_weight_limit : forall fn rho tol conds,
  (forall c, In c conds -> ~ In tol (vars c) /\ eval fn rho c <> 0) ->
  filterlim (fun h => eval fn (upd rho tol h) (rashs_weight (Var tol) conds)) (at_right 0)
            (locally (number_holding fn rho conds)).
Proof. intros. rewrite <- number_holding_rsum. now apply weight_lim. Qed.

Theorem C29_switch_limit : forall fn rho tol s, sw_tol s = Var tol ->
  (forall f, In f (sw_funs s) -> ~ In tol (vars f)) ->
  (forall cs c, In cs (sw_conds s) -> In c cs -> ~ In tol (vars c) /\ eval fn rho c <> 0) ->
  filterlim (fun h => eval fn (upd rho tol h) (rashs_func s)) (at_right 0)
    (locally (rsum (map (fun fc => number_holding fn rho (snd fc) * eval fn rho (fst fc))
                        (combine (sw_funs s) (sw_conds s))))).
Proof.
  intros fn rho tol s H1 H2 H3.
  replace (map (fun fc => number_holding fn rho (snd fc) * eval fn rho (fst fc)) (combine (sw_funs s) (sw_conds s)))
    with (map (fun fc => rsum (map (fun c => holds (eval fn rho c)) (snd fc)) * eval fn rho (fst fc))
              (combine (sw_funs s) (sw_conds s))).
  - now apply func_lim.
  - apply map_ext. intros fc. now rewrite number_holding_rsum.
Qed.

(** With one condition per alternative the weight is between 0 and 1 and
    selects. *)
Theorem C29_single_condition : forall fn rho tol c, ~ In tol (vars c) ->
  (forall h, 0 < eval fn (upd rho tol h) (rashs_weight (Var tol) [c]) < 1) /\
  (eval fn rho c < 0 ->
   filterlim (fun h => eval fn (upd rho tol h) (rashs_weight (Var tol) [c])) (at_right 0) (locally 1)) /\
  (0 < eval fn rho c ->
   filterlim (fun h => eval fn (upd rho tol h) (rashs_weight (Var tol) [c])) (at_right 0) (locally 0)).
Proof.
  intros fn rho tol c H. split; [|split].
  - intros h. rewrite weight_eval. unfold rsum. simpl. rewrite Rplus_0_r. apply sigmoid_bounds.
  - intros L. replace 1 with (number_holding fn rho [c]).
    + apply C29_weight_limit. intros d [<-|[]]. split; auto. lra.
    + unfold number_holding. simpl. destruct (Rlt_dec _ _); [reflexivity|lra].
  - intros L. assert (E : number_holding fn rho [c] = 0).
    { unfold number_holding. simpl. destruct (Rlt_dec _ _); [lra|reflexivity]. }
    pose proof (C29_weight_limit fn rho tol [c]) as W. rewrite E in W. apply W.
    intros d [<-|[]]. split; auto. lra.
Qed.

(** Refutation with two conditions: both hold and the weight tends to 2; one
    holds and the other fails and the weight tends to 1 instead of 0. *)
Theorem C29_two_conditions_refuted : exists fn rho rho' tol c1 c2,
  (eval fn rho c1 < 0 /\ eval fn rho c2 < 0 /\
   filterlim (fun h => eval fn (upd rho tol h) (rashs_weight (Var tol) [c1; c2])) (at_right 0) (locally 2)) /\
  (eval fn rho' c1 < 0 /\ 0 < eval fn rho' c2 /\
   filterlim (fun h => eval fn (upd rho' tol h) (rashs_weight (Var tol) [c1; c2])) (at_right 0) (locally 1)).
Proof.
  exists (fun _ _ y => y), (fun _ => -1), (fun s => if String.eqb s "b" then 1 else -1), "tol"%string,
    (Var "a"), (Var "b").
  split.
  - split; [simpl; lra|]. split; [simpl; lra|].
    assert (E : number_holding (fun _ _ y => y) (fun _ => -1) [Var "a"; Var "b"] = 2).
    { unfold number_holding. simpl. destruct (Rlt_dec (-1) 0); simpl; lra. }
    rewrite <- E. apply C29_weight_limit. intros d [<-|[<-|[]]]; simpl; (split; [intuition discriminate|lra]).
  - split; [simpl; lra|]. split; [simpl; lra|].
    match goal with |- filterlim (fun h => eval ?f (upd ?r _ _) _) _ _ =>
      assert (E : number_holding f r [Var "a"; Var "b"] = 1);
      [|pose proof (C29_weight_limit f r "tol" [Var "a"; Var "b"]) as W; rewrite E in W; apply W] end.
    + unfold number_holding. simpl. destruct (Rlt_dec (-1) 0); [|lra]. destruct (Rlt_dec 1 0); [lra|]. reflexivity.
    + intros d [<-|[<-|[]]]; simpl; (split; [intuition discriminate|lra]).
Qed.

(** RASHS replaces every switch by its relaxed function, everywhere. *)
Theorem C29_switches_eliminated : forall fn p, p_symp p = true -> acyclic (switch_map p) ->
  NoDup (map sw_name (p_switches p)) -> Forall (fun s => sw_sym s <> None) (p_switches p) ->
  exists p', rashs p = Ok p' /\
  forall rho0, exists rho, consistent fn (switch_map p) rho /\
    (forall x, ~ In x (map sw_name (p_switches p)) -> rho x = rho0 x) /\
    related (fun e e' => eval fn rho0 e' = eval fn rho e /\
                         forall s, In s (p_switches p) -> ~ In (sw_name s) (vars e')) p p'.
Proof. exact rashs_values. Qed.

(** Two switches, the first used by the second. *)
Definition ex_sw : prob :=
  match sympify (mkProb "t" [("x", Add (Var "s1") (Var "s2"))] [] [] [] ["u"] [] [] [] [] [] []
    (Cst 0) (Var "s2") (Cst 0) ["tol"] []
    [mkSwitch "s2" [Var "s1"; Var "u"] [[Var "x"]; [Opp (Var "x")]] (Var "tol") None;
     mkSwitch "s1" [Cst 1; Cst 2] [[Sub (Var "x") (Cst 1)]; [Sub (Cst 1) (Var "x")]] (Var "tol") None]
    [] None [] false false)%string with
  | Ok p => p | Raise _ => mkProb "t" [] [] [] [] [] [] [] [] [] [] [] (Cst 0) (Cst 0) (Cst 0) [] [] [] [] None [] true false end.
Example C29_ex :
  p_symp ex_sw = true /\ acyclic (switch_map ex_sw) /\ NoDup (map sw_name (p_switches ex_sw)) /\
  Forall (fun s => sw_sym s <> None) (p_switches ex_sw) /\
  (exists s, nth_error (p_switches ex_sw) 1 = Some s /\ sw_tol s = Var "tol" /\
    (forall f, In f (sw_funs s) -> ~ In "tol"%string (vars f)) /\
    (forall cs c, In cs (sw_conds s) -> In c cs -> ~ In "tol"%string (vars c) /\
       eval (fun _ _ y => y) (fun _ => 3) c <> 0)).
Proof.
  split; [reflexivity|]. split; [|split; [|split]].
  - exists (fun s => if String.eqb s "s2" then 1%nat else 0%nat).
    intros k v [E|[E|[]]]; injection E as <- <-; simpl; intros y Hy Hk;
      repeat (destruct Hy as [<-|Hy]; [simpl in *; destruct Hk as [E|[E|[]]]; try discriminate; try lia|]); try tauto.
  - simpl. repeat constructor; simpl; intuition discriminate.
  - simpl. repeat constructor; discriminate.
  - eexists. split; [reflexivity|]. split; [reflexivity|]. simpl. split.
    + intros f [<-|[<-|[]]]; simpl; tauto.
    + intros cs c [<-|[<-|[]]] [<-|[]]; simpl; (split; [intuition discriminate|lra]).
Qed.

Print Assumptions C27_zero_exactly_in_the_middle.
Print Assumptions C27_increases_with_distance.
Print Assumptions C27_unbounded_at_the_limits.
Print Assumptions C28_exactly_the_admissible_controls.
Print Assumptions C29_weight_limit.
Print Assumptions C29_switch_limit.
Print Assumptions C29_single_condition.
Print Assumptions C29_two_conditions_refuted.
Print Assumptions C29_switches_eliminated.
