(** An instance of LUsolve with the contracts of Red_Ocp.v: the solution is
    written down for the two symplectic forms, elimination elsewhere. *)
From Coq Require Import Reals Lra.
From Coquelicot Require Import Coquelicot.
From Verif Require Import Base Base_Facts Sym_Expr Sym_Facts Sym_Model Sym_Lu Sym_Dual Geo_Model Red_Model Red_Facts Red_Oracle Red_Step Red_Chain Red_Ocp.
From Verif Require Sym_DiffCtl.
Open Scope string_scope.
Open Scope list_scope.
Open Scope nat_scope.

Definition udot_of (n m : nat) (A : list (list expr)) : list expr :=
  map (fun j => entry A (2 * n - m + j) (n - m - 1)) (seq 0 m).
Definition is_geo (n : nat) (A : list (list expr)) (m : nat) : bool :=
  rows_eqb A (omega_new n m (n - m - 1) (udot_of n m A)).
Definition geo_sol (n m : nat) (udot b : list expr) : list expr :=
  let B i := nth i b (Cst 0) in
  map (fun i => if Nat.ltb i (n - m) then Opp (B (n + i))
                else if Nat.ltb i n then Sub (Mul (nth (i - (n - m)) udot (Cst 0)) (Opp (B (n + (n - m - 1))))) (B (n + i))
                else if Nat.eqb i (n + (n - m - 1)) then Sum (B (n - m - 1)) (map (fun j => Mul (nth j udot (Cst 0)) (B (n - m + j))) (seq 0 m))
                else B (i - n)) (seq 0 (2 * n)).
Definition lu_geom (A : list (list expr)) (b : list expr) : res (list expr) :=
  let n := Nat.div2 (length b) in
  match (if Nat.even (length b) then find (is_geo n A) (seq 0 n) else None) with
  | Some m => Ok (geo_sol n m (udot_of n m A) b)
  | None => lu_gauss A b
  end.

Lemma udot_of_length n m A : length (udot_of n m A) = m.
Proof. unfold udot_of. now rewrite map_length, seq_length. Qed.
Lemma udot_of_omega n m udot : length udot = m -> m < n -> udot_of n m (omega_new n m (n - m - 1) udot) = udot.
Proof.
  intros L H. destruct (Sym_DiffCtl.omega_entries (2 * n) n m (n - m - 1) udot eq_refl ltac:(lia) ltac:(lia)) as [_ EQ].
  apply (nth_ext _ _ (Cst 0) (Cst 0)); [now rewrite udot_of_length|]. intros j Hj. rewrite udot_of_length in Hj. unfold udot_of.
  rewrite (nth_indep _ (Cst 0) (entry (omega_new n m (n - m - 1) udot) (2 * n - m + 0) (n - m - 1))) by (rewrite map_length, seq_length; lia).
  rewrite (map_nth (fun j => entry (omega_new n m (n - m - 1) udot) (2 * n - m + j) (n - m - 1))), seq_nth by lia. rewrite Nat.add_0_l.
  change (entry (omega_new n m (n - m - 1) udot) (2 * n - m + j) (n - m - 1)) with (Sym_DiffCtl.entry (omega_new n m (n - m - 1) udot) (2 * n - m + j) (n - m - 1)).
  rewrite EQ by lia. replace (2 * n - m + j - (2 * n - m)) with j by lia. rewrite Nat.eqb_refl.
  destruct (Nat.eqb_spec (2 * n - m + j) (n - m - 1)); [lia|]. cbn [andb].
  destruct (Nat.leb_spec (2 * n - m) (2 * n - m + j)); [|lia]. destruct (Nat.ltb_spec j (length udot)); [|lia]. reflexivity.
Qed.
Lemma std_entry n i j : i < 2 * n -> j < 2 * n ->
  Sym_DiffCtl.entry (std_form n) i j = if Nat.eqb j (i + n) then Cst 1 else if Nat.eqb i (j + n) then Cst (-1) else Cst 0.
Proof.
  intros Hi Hj. unfold Sym_DiffCtl.entry, std_form.
  rewrite (nth_indep _ [] (map (fun j => if Nat.eqb j (0 + n) then Cst 1 else if Nat.eqb 0 (j + n) then Cst (-1) else Cst 0) (seq 0 (2 * n))))
    by (now rewrite map_length, seq_length).
  rewrite (map_nth (fun i => map (fun j => if Nat.eqb j (i + n) then Cst 1 else if Nat.eqb i (j + n) then Cst (-1) else Cst 0) (seq 0 (2 * n)))).
  rewrite seq_nth by assumption. cbn [plus].
  rewrite (nth_indep _ (Cst 0) ((fun j => if Nat.eqb j (i + n) then Cst 1 else if Nat.eqb i (j + n) then Cst (-1) else Cst 0) 0)) by (now rewrite map_length, seq_length).
  rewrite (map_nth (fun j => if Nat.eqb j (i + n) then Cst 1 else if Nat.eqb i (j + n) then Cst (-1) else Cst 0)).
  rewrite seq_nth by assumption. reflexivity.
Qed.
(** The number of controls can be read off the form. *)
Lemma omega_m n m udot m' udot' : length udot = m -> m < n -> length udot' = m' -> m' < n ->
  omega_new n m (n - m - 1) udot = omega_new n m' (n - m' - 1) udot' -> m <= m'.
Proof.
  intros L H L' H' E. destruct m as [|m]; [lia|]. destruct (Nat.le_gt_cases (S m) m') as [|GT]; [assumption|exfalso].
  destruct (Sym_DiffCtl.omega_entries (2 * n) n (S m) (n - S m - 1) udot eq_refl ltac:(lia) ltac:(lia)) as [_ EQ].
  destruct (Sym_DiffCtl.omega_entries (2 * n) n m' (n - m' - 1) udot' eq_refl ltac:(lia) ltac:(lia)) as [_ EQ'].
  specialize (EQ (n - S m - 1) (2 * n - 1) ltac:(lia) ltac:(lia)). specialize (EQ' (n - S m - 1) (2 * n - 1) ltac:(lia) ltac:(lia)).
  rewrite E, EQ' in EQ. clear EQ'. rewrite Nat.eqb_refl in EQ.
  destruct (Nat.eqb_spec (n - S m - 1) (n - m' - 1)); [lia|]. destruct (Nat.eqb_spec (2 * n - 1) (n - m' - 1)); [lia|]. cbn [andb] in EQ.
  destruct (Nat.leb_spec (2 * n - S m) (2 * n - 1)); [|lia]. destruct (Nat.ltb_spec (2 * n - 1 - (2 * n - S m)) (length udot)); [|lia]. cbn [andb] in EQ.
  rewrite std_entry in EQ by lia. destruct (Nat.eqb_spec (2 * n - 1) (n - S m - 1 + n)); [lia|].
  destruct (Nat.eqb_spec (n - S m - 1) (2 * n - 1 + n)); [lia|]. discriminate.
Qed.
Lemma find_geo n m udot : length udot = m -> m < n -> find (is_geo n (omega_new n m (n - m - 1) udot)) (seq 0 n) = Some m.
Proof.
  intros L H. set (A := omega_new n m (n - m - 1) udot).
  assert (G : is_geo n A m = true) by (unfold is_geo, A; rewrite udot_of_omega by assumption; apply rows_eqb_refl).
  destruct (find (is_geo n A) (seq 0 n)) as [m'|] eqn:F.
  - apply find_some in F. destruct F as [I F]. apply in_seq in I. unfold is_geo in F. apply rows_eqb_eq in F.
    f_equal. apply Nat.le_antisymm.
    + apply (omega_m n m' (udot_of n m' A) m udot); [apply udot_of_length|lia|exact L|exact H|]. symmetry. exact F.
    + apply (omega_m n m udot m' (udot_of n m' A)); [exact L|exact H|apply udot_of_length|lia|exact F].
  - exfalso. assert (N := find_none _ _ F m ltac:(apply in_seq; lia)). congruence.
Qed.

Lemma geo_sol_length n m udot b : length (geo_sol n m udot b) = 2 * n.
Proof. unfold geo_sol. now rewrite map_length, seq_length. Qed.
Lemma geo_sol_nth n m udot b i : i < 2 * n -> nth_error (geo_sol n m udot b) i = Some
  (let B i := nth i b (Cst 0) in
   if Nat.ltb i (n - m) then Opp (B (n + i))
   else if Nat.ltb i n then Sub (Mul (nth (i - (n - m)) udot (Cst 0)) (Opp (B (n + (n - m - 1))))) (B (n + i))
   else if Nat.eqb i (n + (n - m - 1)) then Sum (B (n - m - 1)) (map (fun j => Mul (nth j udot (Cst 0)) (B (n - m + j))) (seq 0 m))
   else B (i - n)).
Proof. intros H. unfold geo_sol. cbv zeta. rewrite nth_error_map, nth_error_seq' by assumption. reflexivity. Qed.

Lemma lu_geom_geo : lu_geo lu_geom.
Proof.
  intros n m udot b x L H LB E. unfold lu_geom in E. rewrite LB in E.
  replace (Nat.even (2 * n)) with true in E by (symmetry; apply Nat.even_spec; now exists n).
  rewrite Nat.div2_double, (find_geo n m udot L H), udot_of_omega in E by assumption. apply Ok_inj in E. subst x.
  split; [apply geo_sol_length|]. split.
  - intros i Hi. rewrite geo_sol_nth by lia. cbv zeta. destruct (Nat.ltb_spec i (n - m)); [reflexivity|lia].
  - intros i Hi Ne. rewrite geo_sol_nth by lia. cbv zeta. destruct (Nat.ltb_spec (n + i) (n - m)); [lia|].
    destruct (Nat.ltb_spec (n + i) n); [lia|]. destruct (Nat.eqb_spec (n + i) (n + (n - m - 1))); [lia|]. now replace (n + i - n) with i by lia.
Qed.
Lemma lu_geom_std : lu_std lu_geom.
Proof.
  intros n b LB. unfold lu_geom. rewrite LB. replace (Nat.even (2 * n)) with true by (symmetry; apply Nat.even_spec; now exists n).
  rewrite Nat.div2_double. destruct n as [|n].
  { destruct b; [|discriminate]. reflexivity. }
  change (std_form (S n)) with (omega_new (S n) 0 (S n - 0 - 1) []). rewrite (find_geo (S n) 0 [] eq_refl ltac:(lia)).
  rewrite udot_of_omega by (auto; lia). f_equal.
  apply nth_error_ext. intros i. destruct (Nat.lt_ge_cases i (2 * S n)) as [Hi|Hi].
  - rewrite geo_sol_nth by assumption. cbv zeta. rewrite Nat.sub_0_r. destruct (Nat.ltb_spec i (S n)) as [H|H].
    + rewrite nth_error_app1 by (rewrite map_length, skipn_length; lia). rewrite nth_error_map, nth_error_skipn'.
      rewrite (nth_error_nth' b (Cst 0)) by lia. reflexivity.
    + rewrite nth_error_app2 by (rewrite map_length, skipn_length; lia). rewrite map_length, skipn_length, nth_error_firstn by lia.
      rewrite (nth_error_nth' b (Cst 0)) by lia. cbn [seq map Sum]. replace (i - (length b - S n)) with (i - S n) by lia.
      destruct (Nat.eqb_spec i (S n + (S n - 1))); [|reflexivity]. do 2 f_equal. lia.
  - rewrite (proj2 (nth_error_None _ _)) by (rewrite geo_sol_length; lia). symmetry. apply nth_error_None.
    rewrite app_length, map_length, skipn_length, firstn_length. lia.
Qed.
Lemma lu_geom_ok : lu_ok lu_geom.
Proof.
  intros A b x HA HF H. unfold lu_geom in H. set (n := Nat.div2 (length b)) in *.
  destruct (Nat.even (length b)) eqn:EV; [|now apply lu_gauss_ok].
  destruct (find (is_geo n A) (seq 0 n)) as [m|] eqn:F; [|now apply lu_gauss_ok].
  assert (LB : length b = 2 * n).
  { apply Nat.even_spec in EV. destruct EV as [k E]. unfold n. rewrite E, Nat.div2_double. reflexivity. }
  apply find_some in F. destruct F as [I F]. apply in_seq in I. unfold is_geo in F. apply rows_eqb_eq in F.
  assert (LUD := udot_of_length n m A). revert F LUD H. generalize (udot_of n m A). intros udot F LUD H.
  apply Ok_inj in H. subst x A. rewrite geo_sol_length, LB. split; [reflexivity|]. intros fn rho _.
  set (x := geo_sol n m udot b).
  assert (G : forall (A : list (list expr)) (c : list expr), length A = length c ->
    (forall i, i < length A -> rdot (map (eval fn rho) (nth i A [])) (map (eval fn rho) x) = eval fn rho (nth i c (Cst 0))) ->
    Forall2 (fun row bi => rdot (map (eval fn rho) row) (map (eval fn rho) x) = eval fn rho bi) A c).
  { induction A as [|r A IH]; intros [|u c] L V; try discriminate; constructor.
    - apply (V 0). cbn. lia.
    - apply IH; [cbn in L; lia|]. intros i Hi. apply (V (S i)). cbn. lia. }
  apply G; [exact HA|]. intros i Hi. rewrite HA, LB in Hi.
  rewrite Sym_DiffCtl.omega_dot by (rewrite ?map_length; auto; unfold x; rewrite ?geo_sol_length; lia).
  assert (NX : forall k, nth k (map (eval fn rho) x) 0%R = eval fn rho (nth k x (Cst 0))).
  { intros k. rewrite <- (map_nth (eval fn rho)). reflexivity. }
  assert (X : forall k e, nth_error x k = Some e -> nth k x (Cst 0) = e) by (intros k e; apply nth_error_nth).
  assert (XN : forall k, k < n -> k <> n - m - 1 -> nth (n + k) x (Cst 0) = nth k b (Cst 0)).
  { intros k Hk Ne. apply X. unfold x. rewrite geo_sol_nth by lia. cbv zeta. destruct (Nat.ltb_spec (n + k) (n - m)); [lia|].
    destruct (Nat.ltb_spec (n + k) n); [lia|]. destruct (Nat.eqb_spec (n + k) (n + (n - m - 1))); [lia|]. now replace (n + k - n) with k by lia. }
  assert (XI : eval fn rho (nth (n + (n - m - 1)) x (Cst 0)) =
     (eval fn rho (nth (n - m - 1) b (Cst 0)) + rsum (map (fun j => eval fn rho (nth j udot (Cst 0)) * eval fn rho (nth (n - m + j) b (Cst 0))) (seq 0 m)))%R).
  { erewrite X; [|unfold x; rewrite geo_sol_nth by lia; reflexivity]. cbv zeta. destruct (Nat.ltb_spec (n + (n - m - 1)) (n - m)); [lia|].
    destruct (Nat.ltb_spec (n + (n - m - 1)) n); [lia|]. rewrite Nat.eqb_refl, eval_Sum, map_map. reflexivity. }
  assert (XL : forall k, k < n - m -> nth k x (Cst 0) = Opp (nth (n + k) b (Cst 0))).
  { intros k Hk. apply X. unfold x. rewrite geo_sol_nth by lia. cbv zeta. destruct (Nat.ltb_spec k (n - m)); [reflexivity|lia]. }
  rewrite !NX. destruct (Nat.ltb_spec i n) as [Hn|Hn].
  - destruct (Nat.eqb_spec i (n - m - 1)) as [->|Ne].
    + replace (n - m - 1 + n) with (n + (n - m - 1)) by lia. rewrite XI.
      assert (RS : map (fun k => (eval fn rho (nth k udot (Cst 0)) * nth (2 * n - m + k) (map (eval fn rho) x) 0)%R) (seq 0 m) =
                   map (fun j => (eval fn rho (nth j udot (Cst 0)) * eval fn rho (nth (n - m + j) b (Cst 0)))%R) (seq 0 m)).
      { apply map_ext_in. intros k Hk. apply in_seq in Hk. rewrite NX. replace (2 * n - m + k) with (n + (n - m + k)) by lia. rewrite XN by lia. reflexivity. }
      rewrite RS. lra.
    + replace (i + n) with (n + i) by lia. rewrite XN by assumption. destruct (Nat.leb_spec (2 * n - m) i); [lia|]. lra.
  - destruct (Nat.eqb_spec i (n - m - 1)); [lia|]. destruct (Nat.leb_spec (2 * n - m) i).
    + erewrite X; [|unfold x; rewrite geo_sol_nth by lia; reflexivity]. cbv zeta. destruct (Nat.ltb_spec (i - n) (n - m)); [lia|].
      destruct (Nat.ltb_spec (i - n) n); [|lia]. rewrite XL by lia. unfold Sub. cbn [eval].
      replace (i - n - (n - m)) with (i - (2 * n - m)) by lia. replace (n + (i - n)) with i by lia. lra.
    + rewrite XL by lia. cbn [eval]. replace (n + (i - n)) with i by lia. lra.
Qed.

(** ** Symbols *)
Lemma gauss_vars n : forall rows x e y, gauss n rows = Ok x -> In e x -> In y (vars e) ->
  exists row, In row rows /\ ((exists d, In d (fst row) /\ In y (vars d)) \/ In y (vars (snd row))).
Proof.
  induction n as [|n IH]; intros rows x e y H I J; cbn [gauss] in H.
  { destruct rows; [|discriminate]. apply Ok_inj in H. subst x. destruct I. }
  destruct (pick rows) as [[[row b] others]|] eqn:E; [|discriminate]. destruct row as [|a r]; [discriminate|].
  destruct (gauss n (map (eliminate a r b) others)) as [xs|] eqn:EG; cbn [bind] in H; [|discriminate].
  apply Ok_inj in H. subst x.
  assert (PI : forall w, w = (a :: r, b) \/ In w others -> In w rows).
  { assert (P := proj2 (pick_spec _ _ _ E (fun w => In w rows)) ltac:(apply Forall_forall; auto)). destruct P as [P1 P2].
    rewrite Forall_forall in P2. intros w [ ->|W]; auto. }
  assert (ROW : (exists d, In d (a :: r) /\ In y (vars d)) \/ In y (vars b) ->
    exists row, In row rows /\ ((exists d, In d (fst row) /\ In y (vars d)) \/ In y (vars (snd row)))).
  { intros R. exists (a :: r, b). split; [apply PI; now left|]. exact R. }
  assert (XS : forall e, In e xs -> In y (vars e) -> exists row, In row rows /\ ((exists d, In d (fst row) /\ In y (vars d)) \/ In y (vars (snd row)))).
  { intros e' I' J'. destruct (IH _ _ _ _ EG I' J') as (w & W & K). apply in_map_iff in W. destruct W as ([l c] & <- & W).
    assert (OTH : (exists d, In d l /\ In y (vars d)) \/ In y (vars c) -> exists row, In row rows /\ ((exists d, In d (fst row) /\ In y (vars d)) \/ In y (vars (snd row)))).
    { intros R. exists (l, c). split; [apply PI; now right|]. exact R. }
    unfold eliminate in K. cbn [fst snd] in K. destruct l as [|a' r']; cbn [fst snd] in K.
    - destruct K as [(d & [] & _)|K]; auto.
    - destruct (is_zero a'); cbn [fst snd] in K.
      + apply OTH. destruct K as [(d & K1 & K2)|K]; [left; exists d; split; [now right|exact K2]|now right].
      + destruct K as [(d & K1 & K2)|K].
        * apply in_map_iff in K1. destruct K1 as ([u v] & <- & K1). cbn [fst snd] in K2. unfold sub_mul in K2. destruct (is_zero v).
          -- apply OTH. left. exists u. split; [right; eapply in_combine_l, K1|exact K2].
          -- unfold Sub, Div in K2. cbn [vars] in K2. rewrite !in_app_iff in K2. destruct K2 as [K2|[[K2|K2]|K2]].
             ++ apply OTH. left. exists u. split; [right; eapply in_combine_l, K1|exact K2].
             ++ apply OTH. left. exists a'. split; [now left|exact K2].
             ++ apply ROW. left. exists a. split; [now left|exact K2].
             ++ apply ROW. left. exists v. split; [right; eapply in_combine_r, K1|exact K2].
        * unfold Sub, Div in K. cbn [vars] in K. rewrite !in_app_iff in K. destruct K as [K|[[K|K]|K]].
          -- apply OTH. now right.
          -- apply OTH. left. exists a'. split; [now left|exact K].
          -- apply ROW. left. exists a. split; [now left|exact K].
          -- apply ROW. now right. }
  destruct I as [<-|I]; [|now apply (XS e)]. unfold Div, Sub in J. cbn [vars] in J. rewrite !in_app_iff, vars_Sum in J.
  destruct J as [[J|[[]|(d & J1 & J2)]]|J].
  - apply ROW. now right.
  - apply in_map_iff in J1. destruct J1 as ([u v] & <- & J1). cbn [fst snd vars] in J2. apply in_app_or in J2. destruct J2 as [J2|J2].
    + apply ROW. left. exists u. split; [right; eapply in_combine_l, J1|exact J2].
    + apply (XS v); [eapply in_combine_r, J1|exact J2].
  - apply ROW. left. exists a. split; [now left|exact J].
Qed.
Lemma lu_gauss_vars : lu_vars lu_gauss.
Proof.
  intros A b x e y H I J. destruct (gauss_vars _ _ _ _ _ H I J) as ([row c] & R & [(d & K1 & K2)|K]); cbn [fst snd] in *.
  - left. exists row, d. split; [eapply in_combine_l, R|auto].
  - right. exists c. split; [eapply in_combine_r, R|exact K].
Qed.
Lemma nth_vars (l : list expr) i y : In y (vars (nth i l (Cst 0))) -> In (nth i l (Cst 0)) l.
Proof. intros H. destruct (nth_in_or_default i l (Cst 0)) as [I|E]; [exact I|]. rewrite E in H. destruct H. Qed.
Lemma lu_geom_vars : lu_vars lu_geom.
Proof.
  intros A b x e y H I J. unfold lu_geom in H. set (n := Nat.div2 (length b)) in *.
  destruct (if Nat.even (length b) then find (is_geo n A) (seq 0 n) else None) as [m|]; [|now apply lu_gauss_vars with x e].
  apply Ok_inj in H. subst x.
  assert (U : forall k, In y (vars (nth k (udot_of n m A) (Cst 0))) -> exists row d, In row A /\ In d row /\ In y (vars d)).
  { intros k K. assert (IU := nth_vars _ _ _ K). unfold udot_of in IU. apply in_map_iff in IU. destruct IU as (j & EJ & _).
    fold (udot_of n m A) in EJ. rewrite <- EJ in K. unfold entry in *. destruct (nth_in_or_default (2 * n - m + j) A []) as [IR|ER].
    - exists (nth (2 * n - m + j) A []), (nth (n - m - 1) (nth (2 * n - m + j) A []) (Cst 0)). split; [exact IR|]. split; [eapply nth_vars, K|exact K].
    - rewrite ER in K. destruct (n - m - 1); destruct K. }
  assert (BB : forall k, In y (vars (nth k b (Cst 0))) -> exists d, In d b /\ In y (vars d)).
  { intros k K. eexists. split; [eapply nth_vars, K|exact K]. }
  unfold geo_sol in I. cbv zeta in I. apply in_map_iff in I. destruct I as (i & <- & _).
  destruct (Nat.ltb i (n - m)); [right; eapply BB, J|]. destruct (Nat.ltb i n).
  { unfold Sub in J. cbn [vars] in J. rewrite !in_app_iff in J. destruct J as [[J|J]|J]; [left; eapply U, J|right; eapply BB, J|right; eapply BB, J]. }
  destruct (Nat.eqb _ _); [|right; eapply BB, J].
  rewrite vars_Sum in J. destruct J as [J|(d & J1 & J2)]; [right; eapply BB, J|]. apply in_map_iff in J1. destruct J1 as (j & <- & _).
  cbn [vars] in J2. apply in_app_or in J2. destruct J2 as [J2|J2]; [left; eapply U, J2|right; eapply BB, J2].
Qed.
