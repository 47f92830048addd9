(** C58, C70, C71: analytical Jacobians. *)
From Coq Require Import Reals Lra.
From Coquelicot Require Import Coquelicot.
From Verif Require Import Base Base_Facts Sym_Expr Sym_Facts Sym_Model Jac_Model Jac_Proofs.
Open Scope string_scope.
Open Scope list_scope.
Open Scope nat_scope.

(** Entry [k] of a returned array, row [k] and column [i] of a matrix. *)
Definition entry (k : nat) (r : res (list R)) : R := match r with Ok l => nth k l 0%R | Raise _ => 0%R end.
Definition cell (J : list (list R)) (k i : nat) : R := nth i (nth k J []) 0%R.
(** Column [col] of [J] holds the derivatives of all [n] entries of [f] at [x]. *)
Definition is_partial (n : nat) (f : R -> res (list R)) (x : R) (J : list (list R)) (col : nat) : Prop :=
  forall k, k < n -> is_derive (fun s => entry k (f s)) x (cell J k col).
Definition symbols (p : prob) : list string := states p ++ quads p ++ p_params p ++ p_cpars p ++ p_consts p.
Definition dyn_symbols (p : prob) : list string := states p ++ p_params p ++ p_consts p.

Lemma groups_symbols p : concat (bc_groups p false) = symbols p.
Proof.
  unfold bc_groups, symbols, with_quads. destruct (Nat.ltb_spec 0 (length (quads p))) as [C|C]; cbn; rewrite ?app_nil_r; [reflexivity|].
  now destruct (quads p); [|cbn in C; lia].
Qed.
Section Flat.
  Variables (p : prob) (y q pp pc k : list R).
  Hypotheses (Ly : length y = length (states p)) (Lq : length q = length (quads p)) (Lp : length pp = length (p_params p))
    (Lc : length pc = length (p_cpars p)) (Lk : length k = length (p_consts p)).
  Lemma vals_flat : concat (bc_vals p y q None pp pc k) = y ++ q ++ pp ++ pc ++ k.
  Proof.
    unfold bc_vals, with_quads. destruct (Nat.ltb_spec 0 (length (quads p))) as [C|C]; cbn; rewrite ?app_nil_r; [reflexivity|].
    destruct q; [reflexivity|cbn in *; lia].
  Qed.
  Lemma vals_length : length (y ++ q ++ pp ++ pc ++ k) = length (symbols p).
  Proof. unfold symbols. rewrite !app_length. lia. Qed.
  Lemma vals_fit : fits (bc_groups p false) (bc_vals p y q None pp pc k) = true.
  Proof.
    unfold fits, bc_groups, bc_vals. destruct (with_quads p); cbn; rewrite Ly, ?Lq, Lp, Lc, Lk, !Nat.eqb_refl; reflexivity.
  Qed.
End Flat.

Definition bc_known (p : prob) : Prop := Forall (fun c => incl (vars (c_expr c)) (symbols p)) (p_ci p ++ p_ct p).
Lemma known_split p : bc_known p -> Forall (fun e => incl (vars e) (symbols p)) (bc_exprs (p_ci p)) /\ Forall (fun e => incl (vars e) (symbols p)) (bc_exprs (p_ct p)).
Proof.
  unfold bc_known, bc_exprs. rewrite Forall_app. intros [A B]. rewrite !Forall_forall in *.
  split; intros e H; apply in_map_iff in H as (c & <- & H); auto.
Qed.

Lemma bc_func_flat fn p y0 q0 yf qf pp pc k : bc_known p ->
  length y0 = length (states p) -> length yf = length (states p) -> length q0 = length (quads p) -> length qf = length (quads p) ->
  length pp = length (p_params p) -> length pc = length (p_cpars p) -> length k = length (p_consts p) ->
  bc_func fn p None y0 q0 yf qf pp pc k
  = Ok (map (eval fn (env (symbols p) (y0 ++ q0 ++ pp ++ pc ++ k))) (bc_exprs (p_ci p))
        ++ map (eval fn (env (symbols p) (yf ++ qf ++ pp ++ pc ++ k))) (bc_exprs (p_ct p))).
Proof.
  intros V Y0 YF Q0 QF P C K. apply known_split in V as [VI VT]. unfold bc_func. rewrite <- groups_symbols in VI, VT.
  rewrite (call_ok fn _ _ _ (vals_fit p y0 q0 pp pc k Y0 Q0 P C K) VI), (call_ok fn _ _ _ (vals_fit p yf qf pp pc k YF QF P C K) VT).
  cbn [bind]. rewrite groups_symbols, !vals_flat by assumption. reflexivity.
Qed.

Lemma jacs_inv p j : compute_jacobians p = Ok j -> p_params p ++ p_cpars p <> [] ->
  p_states p <> [] /\ p_ci p <> [] /\ p_ct p <> [] /\ p_params p <> [] /\
  j_fy j = jacobian (eoms (p_states p)) (states p) /\ j_fp j = Some (jacobian (eoms (p_states p)) (p_params p)) /\
  j_iy j = jacobian (bc_exprs (p_ci p)) (states p) /\ j_ty j = jacobian (bc_exprs (p_ct p)) (states p) /\
  j_ip j = Some (jacobian (bc_exprs (p_ci p)) (p_params p ++ p_cpars p)) /\ j_tp j = Some (jacobian (bc_exprs (p_ct p)) (p_params p ++ p_cpars p)) /\
  (with_quads p = true -> j_iq j = Some (jacobian (bc_exprs (p_ci p)) (quads p)) /\ j_tq j = Some (jacobian (bc_exprs (p_ct p)) (quads p))).
Proof.
  intros H NE. unfold compute_jacobians in H. cbv zeta in H.
  destruct (sym_jacobian (eoms (p_states p)) (syms (p_states p))) as [fy|] eqn:E1; [|discriminate].
  destruct (sym_jacobian (bc_exprs (p_ci p)) (syms (p_states p))) as [iy|] eqn:E2; [|discriminate].
  destruct (sym_jacobian (bc_exprs (p_ct p)) (syms (p_states p))) as [ty|] eqn:E3; [|discriminate]. cbn [bind] in H.
  destruct (Nat.ltb_spec 0 (length (p_params p ++ p_cpars p))) as [C|C]; [|destruct (p_params p ++ p_cpars p); [easy|cbn in C; lia]].
  destruct (sym_jacobian (eoms (p_states p)) (p_params p)) as [fp|] eqn:E4; [|discriminate].
  destruct (sym_jacobian (bc_exprs (p_ci p)) (p_params p ++ p_cpars p)) as [ip|] eqn:E5; [|discriminate].
  destruct (sym_jacobian (bc_exprs (p_ct p)) (p_params p ++ p_cpars p)) as [tp|] eqn:E6; [|discriminate]. cbn [bind] in H.
  apply sym_jacobian_ok in E1 as (A1 & B1 & ->), E2 as (A2 & B2 & ->), E3 as (A3 & B3 & ->), E4 as (A4 & B4 & ->), E5 as (A5 & B5 & ->), E6 as (A6 & B6 & ->).
  assert (X1 : p_states p <> []) by (intros E; rewrite E in *; now apply B1).
  assert (X2 : p_ci p <> []) by (intros E; rewrite E in *; now apply A2).
  assert (X3 : p_ct p <> []) by (intros E; rewrite E in *; now apply A3).
  unfold with_quads, quads. destruct (Nat.ltb_spec 0 (length (syms (p_quads p)))) as [D|D].
  - destruct (sym_jacobian (bc_exprs (p_ci p)) (syms (p_quads p))) as [iq|] eqn:E7; [|discriminate].
    destruct (sym_jacobian (bc_exprs (p_ct p)) (syms (p_quads p))) as [tq|] eqn:E8; [|discriminate]. cbn [bind] in H.
    apply sym_jacobian_ok in E7 as (_ & _ & ->), E8 as (_ & _ & ->). injection H as <-. cbn. now repeat split.
  - cbn [bind] in H. injection H as <-. cbn. repeat split; auto; discriminate.
Qed.

(** The value of [bc_jac]. *)
Lemma bc_jac_flat fn p j y0 q0 yf qf pp pc k : compute_jacobians p = Ok j -> p_params p ++ p_cpars p <> [] -> bc_known p ->
  length y0 = length (states p) -> length yf = length (states p) -> length q0 = length (quads p) -> length qf = length (quads p) ->
  length pp = length (p_params p) -> length pc = length (p_cpars p) -> length k = length (p_consts p) ->
  let D := fun e x => eval fn (env (symbols p) (y0 ++ q0 ++ pp ++ pc ++ k)) (diff x e) in
  let E := fun e x => eval fn (env (symbols p) (yf ++ qf ++ pp ++ pc ++ k)) (diff x e) in
  let g := bc_exprs (p_ci p) in let h := bc_exprs (p_ct p) in
  bc_jac fn p j y0 q0 yf qf pp pc k = Ok (mkBlocks
    (map (fun e => map (D e) (states p)) g ++ zeros (length h) (length (states p)))
    (zeros (length g) (length (states p)) ++ map (fun e => map (E e) (states p)) h)
    (map (fun e => map (D e) (p_params p ++ p_cpars p)) g ++ map (fun e => map (E e) (p_params p ++ p_cpars p)) h)
    (if with_quads p then Some (map (fun e => map (D e) (quads p)) g ++ zeros (length h) (length (quads p)),
                                zeros (length g) (length (quads p)) ++ map (fun e => map (E e) (quads p)) h) else None)).
Proof.
  intros H NE V Y0 YF Q0 QF P C K D E g h. destruct (jacs_inv p j H NE) as (_ & NI & NT & _ & _ & _ & JI & JT & JIP & JTP & JQ).
  apply known_split in V as [VI VT]. rewrite <- groups_symbols in VI, VT. unfold bc_jac. rewrite JIP, JTP, JI, JT.
  assert (G : g <> []). { unfold g, bc_exprs. destruct (p_ci p); [easy|discriminate]. }
  assert (G' : h <> []). { unfold h, bc_exprs. destruct (p_ct p); [easy|discriminate]. }
  rewrite !jacobian_shape by assumption. cbv zeta.
  pose proof (vals_fit p y0 q0 pp pc k Y0 Q0 P C K) as F0. pose proof (vals_fit p yf qf pp pc k YF QF P C K) as FF.
  rewrite !(fun xs => call_rows_ok fn _ g xs _ F0 VI), !(fun xs => call_rows_ok fn _ h xs _ FF VT). cbn [bind].
  rewrite !groups_symbols, !vals_flat by assumption. fold D E.
  change (fun e : expr => map (fun x : string => eval fn (env (symbols p) (y0 ++ q0 ++ pp ++ pc ++ k)) (diff x e)) (states p)) with (fun e => map (D e) (states p)).
  rewrite (vstack_ok _ _ (length (states p)) (rows_width _ _ _) (zeros_width _ _)). cbn [bind].
  rewrite (vstack_ok _ _ (length (states p)) (zeros_width _ _) (rows_width _ _ _)). cbn [bind].
  rewrite (vstack_ok _ _ (length (p_params p ++ p_cpars p)) (rows_width _ _ _) (rows_width _ _ _)). cbn [bind].
  destruct (with_quads p) eqn:W; [|reflexivity]. destruct (JQ eq_refl) as [-> ->]. rewrite jacobian_shape by assumption.
  rewrite (call_rows_ok fn _ g _ _ F0 VI), (call_rows_ok fn _ h _ _ FF VT). cbn [bind]. rewrite !groups_symbols, !vals_flat by assumption.
  rewrite (vstack_ok _ _ (length (quads p)) (rows_width _ _ _) (zeros_width _ _)). cbn [bind].
  rewrite (vstack_ok _ _ (length (quads p)) (zeros_width _ _) (rows_width _ _ _)). reflexivity.
Qed.

(** ** C58 *)
(** Without a control law: row [k] of every block is the gradient of entry [k]
    of the boundary function, initial conditions first. *)
Theorem C58_jacobian : forall fn p j y0 q0 yf qf pp pc k,
  (forall f n x, is_derive (fn f n) x (fn f (S n) x)) ->
  compute_jacobians p = Ok j -> p_params p ++ p_cpars p <> [] -> NoDup (symbols p) -> bc_known p ->
  length y0 = length (states p) -> length yf = length (states p) -> length q0 = length (quads p) -> length qf = length (quads p) ->
  length pp = length (p_params p) -> length pc = length (p_cpars p) -> length k = length (p_consts p) ->
  Forall (fun c => wd fn (env (symbols p) (y0 ++ q0 ++ pp ++ pc ++ k)) (c_expr c)) (p_ci p) ->
  Forall (fun c => wd fn (env (symbols p) (yf ++ qf ++ pp ++ pc ++ k)) (c_expr c)) (p_ct p) ->
  exists v B, bc_func fn p None y0 q0 yf qf pp pc k = Ok v /\ bc_jac fn p j y0 q0 yf qf pp pc k = Ok B /\
  length v = length (p_ci p) + length (p_ct p) /\
  length (b_y0 B) = length v /\ length (b_yf B) = length v /\ length (b_p B) = length v /\
  (forall i, i < length y0 -> is_partial (length v) (fun s => bc_func fn p None (setn i s y0) q0 yf qf pp pc k) (nth i y0 0%R) (b_y0 B) i) /\
  (forall i, i < length yf -> is_partial (length v) (fun s => bc_func fn p None y0 q0 (setn i s yf) qf pp pc k) (nth i yf 0%R) (b_yf B) i) /\
  (forall i, i < length pp -> is_partial (length v) (fun s => bc_func fn p None y0 q0 yf qf (setn i s pp) pc k) (nth i pp 0%R) (b_p B) i) /\
  (forall i, i < length pc -> is_partial (length v) (fun s => bc_func fn p None y0 q0 yf qf pp (setn i s pc) k) (nth i pc 0%R) (b_p B) (length pp + i)) /\
  match b_q B with
  | Some (dq0, dqf) =>
      (forall i, i < length q0 -> is_partial (length v) (fun s => bc_func fn p None y0 (setn i s q0) yf qf pp pc k) (nth i q0 0%R) dq0 i) /\
      (forall i, i < length qf -> is_partial (length v) (fun s => bc_func fn p None y0 q0 yf (setn i s qf) pp pc k) (nth i qf 0%R) dqf i)
  | None => quads p = []
  end.
Proof.
  intros fn p j y0 q0 yf qf pp pc k Sm H NE ND V Y0 YF Q0 QF P C K W0 WF.
  pose proof (bc_func_flat fn p y0 q0 yf qf pp pc k V Y0 YF Q0 QF P C K) as FV.
  pose proof (bc_jac_flat fn p j y0 q0 yf qf pp pc k H NE V Y0 YF Q0 QF P C K) as FJ. cbv zeta in FJ.
  set (N := symbols p) in *. set (g := bc_exprs (p_ci p)) in *. set (h := bc_exprs (p_ct p)) in *.
  set (A := y0 ++ q0 ++ pp ++ pc ++ k) in *. set (B := yf ++ qf ++ pp ++ pc ++ k) in *.
  assert (LA : length A = length N) by now apply vals_length. assert (LB : length B = length N) by now apply vals_length.
  assert (WG : forall e, In e g -> wd fn (env N A) e).
  { intros e He. unfold g, bc_exprs in He. apply in_map_iff in He as (c & <- & Hc). rewrite Forall_forall in W0. auto. }
  assert (WH : forall e, In e h -> wd fn (env N B) e).
  { intros e He. unfold h, bc_exprs in He. apply in_map_iff in He as (c & <- & Hc). rewrite Forall_forall in WF. auto. }
  assert (Lg : length g = length (p_ci p)) by apply map_length. assert (Lh : length h = length (p_ct p)) by apply map_length.
  assert (LN : length N = length (states p) + (length (quads p) + (length (p_params p) + (length (p_cpars p) + length (p_consts p))))).
  { unfold N, symbols. now rewrite !app_length. }
  (* positions of the symbols in the flat list *)
  assert (Ny : forall i, i < length (states p) -> nth i N EmptyString = nth i (states p) EmptyString).
  { intros i Hi. unfold N, symbols. now rewrite app_nth1. }
  assert (Nq : forall i, i < length (quads p) -> nth (length (states p) + i) N EmptyString = nth i (quads p) EmptyString).
  { intros i Hi. unfold N, symbols. rewrite app_nth2 by lia. replace (length (states p) + i - length (states p)) with i by lia. now rewrite app_nth1. }
  assert (Np : forall i, i < length (p_params p ++ p_cpars p) ->
     nth (length (states p) + (length (quads p) + i)) N EmptyString = nth i (p_params p ++ p_cpars p) EmptyString).
  { intros i Hi. unfold N, symbols. rewrite app_nth2 by lia. replace (length (states p) + (length (quads p) + i) - length (states p)) with (length (quads p) + i) by lia.
    rewrite app_nth2 by lia. replace (length (quads p) + i - length (quads p)) with i by lia. rewrite app_assoc. now rewrite app_nth1. }
  assert (const : forall M a e, is_derive (fun s : R => eval fn (env N M) e) a 0%R).
  { intros M a e. apply (is_derive_const (eval fn (env N M) e : R) a). }
  eexists. eexists. split; [exact FV|]. split; [exact FJ|]. cbn [b_y0 b_yf b_p b_q].
  assert (LV : length (map (eval fn (env N A)) g ++ map (eval fn (env N B)) h) = length g + length h) by (rewrite app_length, !map_length; reflexivity).
  rewrite LV.
  split; [lia|]. split; [rewrite app_length, map_length; unfold zeros; now rewrite repeat_length|].
  split; [rewrite app_length, map_length; unfold zeros; now rewrite repeat_length|]. split; [now rewrite app_length, !map_length|].
  split; [|split; [|split; [|split]]].
  - intros i Hi k0 Hk. unfold cell. rewrite (col_top (fun x e => eval fn (env N A) (diff x e)) (states p) g h) by (auto; lia).
    eapply is_derive_ext; [intros s; symmetry; rewrite bc_func_flat by (rewrite ?setn_length; auto); cbn [entry]; reflexivity|].
    apply (stack_derive N fn (fun s => setn i s y0 ++ q0 ++ pp ++ pc ++ k) (fun _ => B)); [| |exact Hk].
    + intros e He. eapply is_derive_ext; [intros s; rewrite setn_app_l by exact Hi; reflexivity|]. fold A.
      replace (nth i y0 0%R) with (nth i A 0%R) by (unfold A; now rewrite app_nth1). rewrite <- (Ny i) by lia.
      apply flat_derive; auto; lia.
    + intros e _. apply const.
  - intros i Hi k0 Hk. unfold cell. rewrite (col_bottom (fun x e => eval fn (env N B) (diff x e)) (states p) g h) by (auto; lia).
    eapply is_derive_ext; [intros s; symmetry; rewrite bc_func_flat by (rewrite ?setn_length; auto); cbn [entry]; reflexivity|].
    apply (stack_derive N fn (fun _ => A) (fun s => setn i s yf ++ qf ++ pp ++ pc ++ k)); [| |exact Hk].
    + intros e _. apply const.
    + intros e He. eapply is_derive_ext; [intros s; rewrite setn_app_l by exact Hi; reflexivity|]. fold B.
      replace (nth i yf 0%R) with (nth i B 0%R) by (unfold B; now rewrite app_nth1). rewrite <- (Ny i) by lia.
      apply flat_derive; auto; lia.
  - intros i Hi k0 Hk. unfold cell.
    rewrite (col_both (fun x e => eval fn (env N A) (diff x e)) (fun x e => eval fn (env N B) (diff x e)) (p_params p ++ p_cpars p) g h) by (rewrite ?app_length; auto; lia).
    eapply is_derive_ext; [intros s; symmetry; rewrite bc_func_flat by (rewrite ?setn_length; auto); cbn [entry]; reflexivity|].
    rewrite <- (Np i) by (rewrite app_length; lia).
    apply (stack_derive N fn (fun s => y0 ++ q0 ++ setn i s pp ++ pc ++ k) (fun s => yf ++ qf ++ setn i s pp ++ pc ++ k)); [| |exact Hk].
    + intros e He. eapply is_derive_ext; [intros s; rewrite (setn_app_l i s pp) by exact Hi; rewrite !setn_app_r; reflexivity|]. fold A. rewrite Y0, Q0.
      replace (nth i pp 0%R) with (nth (length (states p) + (length (quads p) + i)) A 0%R).
      * apply flat_derive; auto; lia.
      * unfold A. rewrite <- Y0, <- Q0. rewrite app_nth2_plus, app_nth2_plus. now rewrite app_nth1.
    + intros e He. eapply is_derive_ext; [intros s; rewrite (setn_app_l i s pp) by exact Hi; rewrite !setn_app_r; reflexivity|]. fold B. rewrite YF, QF.
      replace (nth i pp 0%R) with (nth (length (states p) + (length (quads p) + i)) B 0%R).
      * apply flat_derive; auto; lia.
      * unfold B. rewrite <- YF, <- QF. rewrite app_nth2_plus, app_nth2_plus. now rewrite app_nth1.
  - intros i Hi k0 Hk. unfold cell.
    rewrite (col_both (fun x e => eval fn (env N A) (diff x e)) (fun x e => eval fn (env N B) (diff x e)) (p_params p ++ p_cpars p) g h) by (rewrite ?app_length; auto; lia).
    eapply is_derive_ext; [intros s; symmetry; rewrite bc_func_flat by (rewrite ?setn_length; auto); cbn [entry]; reflexivity|].
    rewrite <- (Np (length pp + i)) by (rewrite app_length; lia).
    apply (stack_derive N fn (fun s => y0 ++ q0 ++ pp ++ setn i s pc ++ k) (fun s => yf ++ qf ++ pp ++ setn i s pc ++ k)); [| |exact Hk].
    + intros e He. eapply is_derive_ext; [intros s; rewrite (setn_app_l i s pc) by exact Hi; rewrite !setn_app_r; reflexivity|]. fold A. rewrite Y0, Q0.
      replace (nth i pc 0%R) with (nth (length (states p) + (length (quads p) + (length pp + i))) A 0%R).
      * apply flat_derive; auto; lia.
      * unfold A. rewrite <- Y0, <- Q0. rewrite !app_nth2_plus. now rewrite app_nth1.
    + intros e He. eapply is_derive_ext; [intros s; rewrite (setn_app_l i s pc) by exact Hi; rewrite !setn_app_r; reflexivity|]. fold B. rewrite YF, QF.
      replace (nth i pc 0%R) with (nth (length (states p) + (length (quads p) + (length pp + i))) B 0%R).
      * apply flat_derive; auto; lia.
      * unfold B. rewrite <- YF, <- QF. rewrite !app_nth2_plus. now rewrite app_nth1.
  - unfold with_quads. destruct (Nat.ltb_spec 0 (length (quads p))) as [Hq|Hq]; [split|destruct (quads p); [reflexivity|cbn in Hq; lia]].
    + intros i Hi k0 Hk. unfold cell. rewrite (col_top (fun x e => eval fn (env N A) (diff x e)) (quads p) g h) by (auto; lia).
      eapply is_derive_ext; [intros s; symmetry; rewrite bc_func_flat by (rewrite ?setn_length; auto); cbn [entry]; reflexivity|].
      apply (stack_derive N fn (fun s => y0 ++ setn i s q0 ++ pp ++ pc ++ k) (fun _ => B)); [| |exact Hk].
      * intros e He. eapply is_derive_ext; [intros s; rewrite (setn_app_l i s q0) by exact Hi; rewrite !setn_app_r; reflexivity|]. fold A. rewrite Y0.
        replace (nth i q0 0%R) with (nth (length (states p) + i) A 0%R) by (unfold A; rewrite <- Y0, app_nth2_plus; now rewrite app_nth1).
        rewrite <- (Nq i) by lia. apply flat_derive; auto; lia.
      * intros e _. apply const.
    + intros i Hi k0 Hk. unfold cell. rewrite (col_bottom (fun x e => eval fn (env N B) (diff x e)) (quads p) g h) by (auto; lia).
      eapply is_derive_ext; [intros s; symmetry; rewrite bc_func_flat by (rewrite ?setn_length; auto); cbn [entry]; reflexivity|].
      apply (stack_derive N fn (fun _ => A) (fun s => yf ++ setn i s qf ++ pp ++ pc ++ k)); [| |exact Hk].
      * intros e _. apply const.
      * intros e He. eapply is_derive_ext; [intros s; rewrite (setn_app_l i s qf) by exact Hi; rewrite !setn_app_r; reflexivity|]. fold B. rewrite YF.
        replace (nth i qf 0%R) with (nth (length (states p) + i) B 0%R) by (unfold B; rewrite <- YF, app_nth2_plus; now rewrite app_nth1).
        rewrite <- (Nq i) by lia. apply flat_derive; auto; lia.
Qed.

(** A control law changes nothing when no boundary condition mentions a control. *)
Lemma env_cons a N v V x : env (a :: N) (v :: V) x = if String.eqb x a then v else env N V x.
Proof. unfold env. cbn [index_of]. destruct (String.eqb x a); [reflexivity|]. now destruct (index_of x N). Qed.
Lemma env_skip C c N V x : length c = length C -> ~ In x C -> env (C ++ N) (c ++ V) x = env N V x.
Proof.
  revert c. induction C as [|a C IH]; intros [|v c] L NI; try discriminate; [reflexivity|]. cbn [app]. rewrite env_cons.
  destruct (String.eqb_spec x a) as [->|]; [exfalso; apply NI; now left|]. apply IH; [now injection L|]. intros I. apply NI. now right.
Qed.
Lemma env_insert A a C c N V x : length a = length A -> length c = length C -> ~ In x C ->
  env (A ++ C ++ N) (a ++ c ++ V) x = env (A ++ N) (a ++ V) x.
Proof.
  intros LA LC NI. revert a LA. induction A as [|z A IH]; intros [|v a] L; try discriminate; [cbn [app]; now apply env_skip|]. cbn [app]. rewrite !env_cons.
  destruct (String.eqb x z); [reflexivity|]. apply IH. now injection L.
Qed.
Lemma groups_controls p : concat (bc_groups p true) = (states p ++ quads p) ++ p_controls p ++ (p_params p ++ p_cpars p ++ p_consts p).
Proof.
  unfold bc_groups, with_quads. destruct (Nat.ltb_spec 0 (length (quads p))) as [C|C]; cbn; rewrite ?app_nil_r; [now rewrite <- app_assoc|].
  destruct (quads p); [now rewrite app_nil_r|cbn in C; lia].
Qed.
Lemma vals_controls p y q u pp pc k : length q = length (quads p) ->
  concat (bc_vals p y q (Some u) pp pc k) = (y ++ q) ++ u ++ (pp ++ pc ++ k).
Proof.
  intros Lq. unfold bc_vals, with_quads. destruct (Nat.ltb_spec 0 (length (quads p))) as [C|C]; cbn; rewrite ?app_nil_r; [now rewrite <- app_assoc|].
  destruct q; [now rewrite app_nil_r|cbn in *; lia].
Qed.
Theorem C58_control_law : forall fn p f y0 q0 yf qf pp pc k,
  bc_known p -> (forall x, In x (symbols p) -> ~ In x (p_controls p)) ->
  (forall y pp k, length (f y pp k) = length (p_controls p)) ->
  length y0 = length (states p) -> length yf = length (states p) -> length q0 = length (quads p) -> length qf = length (quads p) ->
  length pp = length (p_params p) -> length pc = length (p_cpars p) -> length k = length (p_consts p) ->
  bc_func fn p (Some f) y0 q0 yf qf pp pc k = bc_func fn p None y0 q0 yf qf pp pc k.
Proof.
  intros fn p f y0 q0 yf qf pp pc k V DJ LF Y0 YF Q0 QF P C K. rewrite (bc_func_flat fn p) by assumption.
  apply known_split in V as [VI VT]. unfold bc_func.
  assert (IN : incl (symbols p) (concat (bc_groups p true))).
  { intros x. rewrite groups_controls. unfold symbols. rewrite !in_app_iff. tauto. }
  assert (one : forall y q es, length y = length (states p) -> length q = length (quads p) -> Forall (fun e => incl (vars e) (symbols p)) es ->
    call fn (bc_groups p true) es (bc_vals p y q (Some (f y pp k)) pp pc k) = Ok (map (eval fn (env (symbols p) (y ++ q ++ pp ++ pc ++ k))) es)).
  { intros y q es Ly Lq VE. rewrite call_ok.
    - f_equal. apply map_ext_in. intros e He. rewrite Forall_forall in VE. apply eval_ext. intros x Hx.
      rewrite groups_controls, vals_controls by exact Lq. rewrite env_insert by (rewrite ?app_length; auto; apply DJ; now apply (VE e He)).
      unfold symbols. now rewrite <- !app_assoc.
    - unfold fits, bc_groups, bc_vals. destruct (with_quads p); cbn; rewrite Ly, ?Lq, (LF y pp k), P, C, K, !Nat.eqb_refl; reflexivity.
    - rewrite Forall_forall in *. intros e He x Hx. apply IN. now apply (VE e He). }
  rewrite (one y0 q0) by assumption. rewrite (one yf qf) by assumption. reflexivity.
Qed.

(** When the Jacobians exist at all. *)
Theorem C58_exists : forall p,
  (exists j, compute_jacobians p = Ok j) <->
  p_states p <> [] /\ p_ci p <> [] /\ p_ct p <> [] /\ (p_params p <> [] \/ p_cpars p = []).
Proof.
  intros p. unfold compute_jacobians, bc_exprs, eoms, syms. cbv zeta.
  destruct (p_states p) as [|s ss]; [split; [intros (j & H); discriminate|tauto]|].
  destruct (p_ci p) as [|ci cis]; [split; [intros (j & H); discriminate|tauto]|].
  destruct (p_ct p) as [|ct cts]; [split; [intros (j & H); discriminate|tauto]|].
  destruct (p_params p) as [|t ts]; [destruct (p_cpars p) as [|a ats]|].
  - destruct (p_quads p); (split; [intros _; repeat split; try discriminate; now right|intros _; eexists; reflexivity]).
  - split; [intros (j & H); discriminate|]. intros (_ & _ & _ & [H|H]); [now elim H|discriminate].
  - destruct (p_quads p); (split; [intros _; repeat split; try discriminate; left; discriminate|intros _; eexists; reflexivity]).
Qed.

(** *** Example: a double integrator with a parameter, one condition at each end mixing states and parameters. *)
Definition vx : expr := Var "x". Definition vv : expr := Var "v".
Definition prob_of (st qd : list (string * expr)) (params cpars controls consts : list string) (ci ct : list expr) : prob :=
  mkProb "tau" st [] params [] controls [] (map plain ci) [] (map plain ct) cpars [] (Cst 0) (Cst 0) (Cst 0) consts [] [] qd None [] false false.
Definition p58 : prob :=
  prob_of [("x", Mul vv (Var "T")); ("v", Opp (Var "T"))] [("q", vx)] ["T"] ["nu"] ["u"] ["k"]
    [Add vx (Opp (Var "k")); Mul vv (Var "nu")] [Add (Mul vx (Var "T")) (Var "q")].
Definition fn58 : string -> nat -> R -> R := fun _ _ _ => 0%R.
Example C58_jacobian_nonvacuous : exists j,
  (forall f n x, is_derive (fn58 f n) x (fn58 f (S n) x)) /\
  compute_jacobians p58 = Ok j /\ p_params p58 ++ p_cpars p58 <> [] /\ NoDup (symbols p58) /\ bc_known p58 /\
  Forall (fun c => wd fn58 (env (symbols p58) ([1; 2] ++ [3] ++ [4] ++ [5] ++ [6])%R) (c_expr c)) (p_ci p58) /\
  Forall (fun c => wd fn58 (env (symbols p58) ([7; 8] ++ [9] ++ [4] ++ [5] ++ [6])%R) (c_expr c)) (p_ct p58) /\
  exists B, bc_jac fn58 p58 j [1; 2]%R [3]%R [7; 8]%R [9]%R [4]%R [5]%R [6]%R = Ok B /\
    (cell (b_y0 B) 0 0 = 1 /\ cell (b_y0 B) 1 1 = 5 /\ cell (b_yf B) 2 0 = 4 /\ cell (b_p B) 2 0 = 7 /\ cell (b_p B) 1 1 = 2 /\ cell (b_y0 B) 2 0 = 0)%R.
Proof.
  destruct (proj2 (C58_exists p58)) as (j & Hj); [repeat split; try discriminate; left; discriminate|]. exists j.
  split; [intros f n x; apply (is_derive_const (0%R : R) x)|]. split; [exact Hj|]. split; [discriminate|].
  split. { unfold symbols. cbn. repeat (constructor; [cbn; intuition discriminate|]). constructor. }
  assert (V : bc_known p58). { unfold bc_known, symbols. cbn. repeat (apply Forall_cons; [intros z; cbn; intuition|]). apply Forall_nil. }
  split; [exact V|]. split; [cbn; repeat constructor|]. split; [cbn; repeat constructor|].
  eexists. split. { apply bc_jac_flat; auto. discriminate. }
  cbn. unfold cell, env. cbn. repeat split; lra.
Qed.

(** *** What fails *)
Theorem C58_one_sided_refuted : 
  (forall p, p_states p <> [] -> p_ci p = [] \/ p_ct p = [] -> compute_jacobians p = Raise TypeError) /\
  exists p, p_ct p = [] /\ p_states p <> [] /\ bc_func fn58 p None [1]%R [] [2]%R [] [3]%R [] [] = Ok [1; 3]%R.
Proof.
  split.
  - intros p NE H. unfold compute_jacobians, bc_exprs, eoms, syms. cbv zeta. destruct (p_states p); [easy|]. destruct H as [-> | ->]; [reflexivity|].
    now destruct (p_ci p).
  - exists (prob_of [("x", Var "T")] [] ["T"] [] [] [] [vx; Var "T"] []). repeat split; try discriminate. 
Qed.
Theorem C58_no_parameters_refuted :
  (forall fn p cu j y0 q0 yf qf pp pc k, compute_jacobians p = Ok j -> p_params p = [] ->
     bc_jac fn p j y0 q0 yf qf pp pc k = Raise AttributeError /\ deriv_jac fn p cu j y0 pp k = Raise TypeError) /\
  (forall p, p_params p = [] -> p_cpars p <> [] -> p_states p <> [] -> compute_jacobians p = Raise TypeError) /\
  exists p j, p_params p = [] /\ compute_jacobians p = Ok j /\ bc_func fn58 p None [1]%R [] [2]%R [] [] [] [] = Ok [1; 2]%R.
Proof.
  split; [|split].
  - intros fn p cu j y0 q0 yf qf pp pc k H E. unfold compute_jacobians in H. cbv zeta in H.
    destruct (sym_jacobian (eoms (p_states p)) (syms (p_states p))) as [fy|]; [|discriminate].
    destruct (sym_jacobian (bc_exprs (p_ci p)) (syms (p_states p))) as [iy|]; [|discriminate].
    destruct (sym_jacobian (bc_exprs (p_ct p)) (syms (p_states p))) as [ty|]; [|discriminate]. cbn [bind] in H. rewrite E in H. cbn [app] in H.
    destruct (Nat.ltb 0 (length (p_cpars p))).
    + unfold sym_jacobian at 1 in H. destruct (eoms (p_states p)); discriminate.
    + destruct (Nat.ltb 0 (length (syms (p_quads p)))).
      * destruct (sym_jacobian (bc_exprs (p_ci p)) (syms (p_quads p))); [|discriminate].
        destruct (sym_jacobian (bc_exprs (p_ct p)) (syms (p_quads p))); [|discriminate]. cbn [bind] in H. injection H as <-.
        unfold bc_jac, deriv_jac. cbn [j_iy j_ip j_tp j_fp]. now destruct (shape iy).
      * cbn [bind] in H. injection H as <-. unfold bc_jac, deriv_jac. cbn [j_iy j_ip j_tp j_fp]. now destruct (shape iy).
  - intros p E NC NS. unfold compute_jacobians. cbv zeta. rewrite E. destruct (p_states p) as [|s ss]; [easy|]. cbn [app eoms syms map].
    destruct (bc_exprs (p_ci p)); [reflexivity|]. destruct (bc_exprs (p_ct p)); [reflexivity|]. destruct (p_cpars p); [easy|]. reflexivity.
  - exists (prob_of [("x", Cst 0)] [] [] [] [] [] [vx] [vx]). eexists. repeat split.
Qed.
(** A boundary condition on the control: the boundary function is given the
    control law, its Jacobian is not.  The Jacobian is silently wrong when the
    control disappears from the derivative, and cannot be evaluated otherwise. *)
Definition law58 (y pp k : list R) : list R := [(- nth 0 y 0)%R].
Theorem C58_control_refuted :
  (exists p j B, compute_jacobians p = Ok j /\ p_params p <> [] /\
     (forall s, bc_func fn58 p (Some law58) [1]%R [] [s]%R [] [3]%R [] [] = Ok [1; - s]%R) /\
     bc_jac fn58 p j [1]%R [] [2]%R [] [3]%R [] [] = Ok B /\ cell (b_yf B) 1 0 = 0%R) /\
  (exists p j v, compute_jacobians p = Ok j /\ p_params p <> [] /\
     bc_func fn58 p (Some law58) [1]%R [] [2]%R [] [3]%R [] [] = Ok v /\
     bc_jac fn58 p j [1]%R [] [2]%R [] [3]%R [] [] = Raise KeyError).
Proof.
  split.
  - exists (prob_of [("x", Var "T")] [] ["T"] [] ["u"] [] [vx] [Var "u"]). eexists. eexists.
    split; [reflexivity|]. split; [discriminate|]. split; [reflexivity|]. split; [reflexivity|]. unfold cell. cbn. lra.
  - exists (prob_of [("x", Var "T")] [] ["T"] [] ["u"] [] [vx] [Mul vx (Var "u")]). eexists. eexists.
    split; [reflexivity|]. split; [discriminate|]. split; reflexivity.
Qed.

(** ** C70 *)
Definition dyn_known (p : prob) : Prop := Forall (fun s => incl (vars (snd s)) (dyn_symbols p)) (p_states p).
Lemma eoms_known p : dyn_known p -> Forall (fun e => incl (vars e) (concat (dyn_groups p false))) (eoms (p_states p)).
Proof.
  unfold dyn_known, eoms. intros V. rewrite Forall_forall in *. intros e He. apply in_map_iff in He as (s & <- & Hs).
  intros x Hx. apply (V s Hs) in Hx. unfold dyn_groups, dyn_symbols in *. cbn. now rewrite app_nil_r.
Qed.
Lemma dyn_flat p : concat (dyn_groups p false) = dyn_symbols p.
Proof. unfold dyn_groups, dyn_symbols. cbn. now rewrite app_nil_r. Qed.
Lemma dyn_fit p y pp k : length y = length (states p) -> length pp = length (p_params p) -> length k = length (p_consts p) ->
  fits (dyn_groups p false) (dyn_vals y None pp k) = true.
Proof. intros Y P K. unfold fits, dyn_groups, dyn_vals. cbn. rewrite Y, P, K, !Nat.eqb_refl. reflexivity. Qed.
Lemma deriv_flat fn p y pp k : dyn_known p -> length y = length (states p) -> length pp = length (p_params p) -> length k = length (p_consts p) ->
  deriv_func fn p None y None pp k = Ok (map (eval fn (env (dyn_symbols p) (y ++ pp ++ k))) (eoms (p_states p))).
Proof.
  intros V Y P K. unfold deriv_func, control_of. cbn [is_some]. rewrite (call_ok fn _ _ _ (dyn_fit p y pp k Y P K) (eoms_known p V)).
  rewrite dyn_flat. unfold dyn_vals. cbn. now rewrite app_nil_r.
Qed.
Lemma deriv_jac_flat fn p j y pp k : dyn_known p -> compute_jacobians p = Ok j -> p_params p ++ p_cpars p <> [] ->
  length y = length (states p) -> length pp = length (p_params p) -> length k = length (p_consts p) ->
  let D := fun e x => eval fn (env (dyn_symbols p) (y ++ pp ++ k)) (diff x e) in
  deriv_jac fn p None j y pp k = Ok (map (fun e => map (D e) (states p)) (eoms (p_states p)), map (fun e => map (D e) (p_params p)) (eoms (p_states p))).
Proof.
  intros V H NE Y P K D. destruct (jacs_inv p j H NE) as (_ & _ & _ & _ & FY & FP & _). unfold deriv_jac. rewrite FY, FP. unfold control_of. cbn [is_some].
  rewrite !(fun xs => call_rows_ok fn _ _ xs _ (dyn_fit p y pp k Y P K) (eoms_known p V)). cbn [bind]. rewrite dyn_flat.
  unfold dyn_vals. cbn [concat app]. rewrite app_nil_r. reflexivity.
Qed.

(** Without a control law both blocks of [deriv_func_jac] are the derivatives of [deriv_func]. *)
Theorem C70_jacobian : forall fn p j y pp k,
  (forall f n x, is_derive (fn f n) x (fn f (S n) x)) ->
  compute_jacobians p = Ok j -> p_params p ++ p_cpars p <> [] -> NoDup (dyn_symbols p) -> dyn_known p ->
  length y = length (states p) -> length pp = length (p_params p) -> length k = length (p_consts p) ->
  Forall (fun s => wd fn (env (dyn_symbols p) (y ++ pp ++ k)) (snd s)) (p_states p) ->
  exists v dy dp, deriv_func fn p None y None pp k = Ok v /\ deriv_jac fn p None j y pp k = Ok (dy, dp) /\
  length v = length y /\ length dy = length y /\ length dp = length y /\
  Forall (fun r => length r = length y) dy /\ Forall (fun r => length r = length pp) dp /\
  (forall i, i < length y -> is_partial (length v) (fun s => deriv_func fn p None (setn i s y) None pp k) (nth i y 0%R) dy i) /\
  (forall i, i < length pp -> is_partial (length v) (fun s => deriv_func fn p None y None (setn i s pp) k) (nth i pp 0%R) dp i).
Proof.
  intros fn p j y pp k Sm H NE ND V Y P K W.
  pose proof (deriv_flat fn p y pp k V Y P K) as FV. pose proof (deriv_jac_flat fn p j y pp k V H NE Y P K) as FJ. cbv zeta in FJ.
  set (N := dyn_symbols p) in *. set (g := eoms (p_states p)) in *. set (A := y ++ pp ++ k) in *.
  assert (LN : length N = length (states p) + (length (p_params p) + length (p_consts p))) by (unfold N, dyn_symbols; now rewrite !app_length).
  assert (LA : length A = length N) by (unfold A; rewrite !app_length; lia).
  assert (Lg : length g = length y). { unfold g, eoms. rewrite map_length, Y. unfold states, syms. now rewrite map_length. }
  assert (WG : forall e, In e g -> wd fn (env N A) e).
  { intros e He. unfold g, eoms in He. apply in_map_iff in He as (c & <- & Hc). rewrite Forall_forall in W. auto. }
  assert (Ny : forall i, i < length (states p) -> nth i N EmptyString = nth i (states p) EmptyString).
  { intros i Hi. unfold N, dyn_symbols. now rewrite app_nth1. }
  assert (Np : forall i, i < length (p_params p) -> nth (length (states p) + i) N EmptyString = nth i (p_params p) EmptyString).
  { intros i Hi. unfold N, dyn_symbols. rewrite app_nth2_plus. now rewrite app_nth1. }
  eexists. eexists. eexists. split; [exact FV|]. split; [exact FJ|]. rewrite !map_length, Lg.
  split; [reflexivity|]. split; [reflexivity|]. split; [reflexivity|]. split; [rewrite Y; apply rows_width|]. split; [rewrite P; apply rows_width|]. split.
  - intros i Hi k0 Hk. unfold cell. rewrite (column_of (fun x e => eval fn (env N A) (diff x e)) (states p) g) by lia.
    eapply is_derive_ext; [intros s; symmetry; rewrite deriv_flat by (rewrite ?setn_length; auto); cbn [entry]; reflexivity|].
    rewrite <- (app_nil_r (map _ g)).
    eapply is_derive_ext; [intros s; rewrite <- (app_nil_r (map _ _)); reflexivity|].
    apply (stack_derive N fn (fun s => setn i s y ++ pp ++ k) (fun _ => A) _ _ (fun _ => 0%R) g []); [|intros e []|cbn; lia].
    intros e He. eapply is_derive_ext; [intros s; rewrite setn_app_l by exact Hi; reflexivity|]. fold A.
    replace (nth i y 0%R) with (nth i A 0%R) by (unfold A; now rewrite app_nth1). rewrite <- (Ny i) by lia. apply flat_derive; auto; lia.
  - intros i Hi k0 Hk. unfold cell. rewrite (column_of (fun x e => eval fn (env N A) (diff x e)) (p_params p) g) by lia.
    eapply is_derive_ext; [intros s; symmetry; rewrite deriv_flat by (rewrite ?setn_length; auto); cbn [entry]; reflexivity|].
    rewrite <- (app_nil_r (map _ g)).
    eapply is_derive_ext; [intros s; rewrite <- (app_nil_r (map _ _)); reflexivity|].
    apply (stack_derive N fn (fun s => y ++ setn i s pp ++ k) (fun _ => A) _ _ (fun _ => 0%R) g []); [|intros e []|cbn; lia].
    intros e He. eapply is_derive_ext; [intros s; rewrite (setn_app_l i s pp) by exact Hi; rewrite setn_app_r; reflexivity|]. fold A. rewrite Y.
    replace (nth i pp 0%R) with (nth (length (states p) + i) A 0%R) by (unfold A; rewrite <- Y, app_nth2_plus; now rewrite app_nth1).
    rewrite <- (Np i) by lia. apply flat_derive; auto; lia.
Qed.

(** *** Example and failures *)
Example C70_jacobian_nonvacuous : exists j,
  compute_jacobians p58 = Ok j /\ p_params p58 ++ p_cpars p58 <> [] /\ NoDup (dyn_symbols p58) /\ dyn_known p58 /\
  Forall (fun s => wd fn58 (env (dyn_symbols p58) ([1; 2] ++ [4] ++ [6])%R) (snd s)) (p_states p58) /\
  exists dy dp, deriv_jac fn58 p58 None j [1; 2]%R [4]%R [6]%R = Ok (dy, dp) /\ (cell dy 0 1 = 4 /\ cell dy 1 1 = 0 /\ cell dp 0 0 = 2 /\ cell dp 1 0 = -1)%R.
Proof.
  destruct (proj2 (C58_exists p58)) as (j & Hj); [repeat split; try discriminate; left; discriminate|]. exists j.
  split; [exact Hj|]. split; [discriminate|].
  split. { unfold dyn_symbols. cbn. repeat (constructor; [cbn; intuition discriminate|]). constructor. }
  assert (V : dyn_known p58). { unfold dyn_known, dyn_symbols. cbn. repeat (apply Forall_cons; [intros z; cbn; intuition|]). apply Forall_nil. }
  split; [exact V|]. split; [cbn; repeat constructor|].
  eexists. eexists. split. { apply deriv_jac_flat; auto. discriminate. }
  cbn. unfold cell, env. cbn. repeat split; lra.
Qed.
(** With a control law the Jacobian is taken at a fixed control: x' = u, u = -x gives 0 instead of -1. *)
Theorem C70_control_law_refuted : exists p j,
  compute_jacobians p = Ok j /\ dyn_symbols p <> [] /\
  (forall s, deriv_func fn58 p (Some law58) [s]%R None [3]%R [] = Ok [- s]%R) /\
  is_derive (fun s => entry 0 (deriv_func fn58 p (Some law58) [s]%R None [3]%R [])) 2%R (-1)%R /\
  exists dy dp, deriv_jac fn58 p (Some law58) j [2]%R [3]%R [] = Ok (dy, dp) /\ cell dy 0 0 = 0%R.
Proof.
  exists (prob_of [("x", Var "u")] [] ["T"] [] ["u"] [] [vx] [vx]). eexists. split; [reflexivity|]. split; [discriminate|]. split; [reflexivity|]. split.
  - apply (is_derive_ext (fun s => (- s)%R)); [reflexivity|]. auto_derive; [exact I|lra].
  - eexists. eexists. split; [reflexivity|]. unfold cell. cbn. lra.
Qed.
(** It is reached through the spelling of an option: 'Algebraic' selects the
    algebraic control law and keeps the analytical Jacobians. *)
Theorem C70_spelling_refuted : exists o o' tfs tfs',
  lower (o_control o) = lower (o_control o') /\ o_jac o = o_jac o' /\ o_method o = o_method o' /\ o_shift o = o_shift o' /\ o_norm o = o_norm o' /\
  make_indirect o p58 = Ok tfs /\ make_indirect o' p58 = Ok tfs' /\ In FAlg tfs /\ In FJac tfs /\ In FAlg tfs' /\ ~ In FJac tfs'.
Proof.
  exists (mkOpt true "Algebraic" "traditional" false false), (mkOpt true "algebraic" "traditional" false false). eexists. eexists.
  repeat (split; [reflexivity|]). cbn. intuition discriminate.
Qed.
(** The direct method: the derivative function takes the control as an argument, its Jacobian does not. *)
Theorem C70_direct_refuted : exists p j v,
  compute_jacobians p = Ok j /\ deriv_func fn58 p None [2]%R (Some [5]%R) [3]%R [] = Ok v /\ deriv_jac fn58 p None j [2]%R [3]%R [] = Raise KeyError.
Proof.
  exists (prob_of [("x", Mul vx (Var "u"))] [] ["T"] [] ["u"] [] [vx] [vx]). eexists. eexists. repeat split.
Qed.

(** ** C71 *)
Lemma no_quads p : quads p = [] -> with_quads p = false.
Proof. intros E. unfold with_quads. now rewrite E. Qed.
Lemma firstn_len {A} (a b : list A) n : length a = n -> firstn n (a ++ b) = a.
Proof. intros <-. rewrite firstn_app, Nat.sub_diag, firstn_all. cbn. apply app_nil_r. Qed.
Lemma skipn_len {A} (a b : list A) n : length a = n -> skipn n (a ++ b) = b.
Proof. intros <-. rewrite skipn_app, Nat.sub_diag, skipn_all. reflexivity. Qed.
Lemma firstn_same {A} (a : list A) n : length a = n -> firstn n a = a.
Proof. intros <-. apply firstn_all. Qed.
Lemma sp_fun_flat fn p ndyn k y pp pc : quads p = [] -> length y = length (states p) -> length pp = ndyn ->
  sp_fun fn p None ndyn k y (pp ++ pc) = deriv_func fn p None y None pp k.
Proof.
  intros Q Y P. unfold sp_fun. rewrite (no_quads p Q), (firstn_len pp pc ndyn P), (firstn_same y _ Y). now destruct (deriv_func fn p None y None pp k).
Qed.
Lemma sp_bc_flat fn p ndyn nnon k ya yb pp pc : quads p = [] -> length pp = ndyn -> length pc = nnon ->
  sp_bc fn p None ndyn nnon k ya yb (pp ++ pc) = bc_func fn p None ya [] yb [] pp pc k.
Proof. intros Q P C. unfold sp_bc. now rewrite (no_quads p Q), (firstn_len pp pc ndyn P), (skipn_len pp pc ndyn P), (firstn_same pc _ C). Qed.

(** Without quadratures the Jacobian of the right-hand side handed to the
    collocation solver belongs to the function handed to it, for the packed
    parameter vector. *)
Theorem C71_fun_jacobian : forall fn p j k y pp pc,
  (forall f n x, is_derive (fn f n) x (fn f (S n) x)) -> quads p = [] ->
  compute_jacobians p = Ok j -> p_params p ++ p_cpars p <> [] -> NoDup (dyn_symbols p) -> dyn_known p ->
  length y = length (states p) -> length pp = length (p_params p) -> length pc = length (p_cpars p) -> length k = length (p_consts p) ->
  Forall (fun s => wd fn (env (dyn_symbols p) (y ++ pp ++ k)) (snd s)) (p_states p) ->
  exists v dy dp, sp_fun fn p None (length pp) k y (pp ++ pc) = Ok v /\
  sp_fun_jac fn p None (length pp) (length pc) j k y (pp ++ pc) = Ok (dy, dp) /\
  length dy = length y /\ length dp = length y /\ Forall (fun r => length r = length (pp ++ pc)) dp /\
  (forall i, i < length y -> is_partial (length v) (fun s => sp_fun fn p None (length pp) k (setn i s y) (pp ++ pc)) (nth i y 0%R) dy i) /\
  (forall i, i < length (pp ++ pc) -> is_partial (length v) (fun s => sp_fun fn p None (length pp) k y (setn i s (pp ++ pc))) (nth i (pp ++ pc) 0%R) dp i).
Proof.
  intros fn p j k y pp pc Sm Q H NE ND V Y P C K W.
  destruct (C70_jacobian fn p j y pp k Sm H NE ND V Y P K W) as (v & dy & dp & FV & FJ & Lv & Ly & Lp & Wy & Wp & DY & DP).
  exists v, dy, (map (fun row => row ++ repeat 0%R (length pc)) dp). split; [rewrite sp_fun_flat; auto|].
  split. { unfold sp_fun_jac. rewrite (firstn_len pp pc (length pp) eq_refl), FJ. cbn [bind]. rewrite Ly, Lp, Y, !Nat.eqb_refl. reflexivity. }
  split; [exact Ly|]. split; [now rewrite map_length|].
  split. { rewrite Forall_forall in *. intros r Hr. apply in_map_iff in Hr as (r' & <- & Hr). rewrite !app_length, repeat_length. f_equal. now apply Wp. }
  assert (CE : forall n i, n < length dp -> cell (map (fun row => row ++ repeat 0%R (length pc)) dp) n i = nth i (nth n dp [] ++ repeat 0%R (length pc)) 0%R).
  { intros n i Hn. unfold cell. rewrite nth_indep with (d' := (fun row => row ++ repeat 0%R (length pc)) []) by now rewrite map_length.
    now rewrite (map_nth (fun row => row ++ repeat 0%R (length pc))). }
  assert (RW : forall n, n < length dp -> length (nth n dp []) = length pp). { intros n Hn. rewrite Forall_forall in Wp. apply Wp. now apply nth_In. }
  split.
  - intros i Hi n Hn. eapply is_derive_ext; [intros s; symmetry; rewrite sp_fun_flat by (rewrite ?setn_length; auto); reflexivity|]. now apply DY.
  - intros i Hi n Hn. rewrite app_length in Hi. rewrite CE by lia. destruct (Nat.lt_ge_cases i (length pp)) as [B|B].
    + rewrite app_nth1 by exact B. rewrite app_nth1 by (rewrite RW; lia).
      eapply is_derive_ext; [intros s; symmetry; rewrite <- setn_app_l by exact B; rewrite sp_fun_flat by (rewrite ?setn_length; auto); reflexivity|]. now apply DP.
    + rewrite app_nth2 by exact B. rewrite app_nth2 by (rewrite RW; lia). rewrite nth_repeat.
      apply (is_derive_ext (fun _ : R => entry n (deriv_func fn p None y None pp k))); [|apply (is_derive_const (entry n (deriv_func fn p None y None pp k) : R))].
      intros s. replace i with (length pp + (i - length pp)) by lia. rewrite <- setn_app_r, sp_fun_flat by auto. reflexivity.
Qed.
Theorem C71_bc_jacobian : forall fn p j k ya yb pp pc,
  (forall f n x, is_derive (fn f n) x (fn f (S n) x)) -> quads p = [] ->
  compute_jacobians p = Ok j -> p_params p ++ p_cpars p <> [] -> NoDup (symbols p) -> bc_known p ->
  length ya = length (states p) -> length yb = length (states p) ->
  length pp = length (p_params p) -> length pc = length (p_cpars p) -> length k = length (p_consts p) ->
  Forall (fun c => wd fn (env (symbols p) (ya ++ pp ++ pc ++ k)) (c_expr c)) (p_ci p) ->
  Forall (fun c => wd fn (env (symbols p) (yb ++ pp ++ pc ++ k)) (c_expr c)) (p_ct p) ->
  exists v da db dp, sp_bc fn p None (length pp) (length pc) k ya yb (pp ++ pc) = Ok v /\
  sp_bc_jac fn p (length pp) (length pc) j k ya yb (pp ++ pc) = Ok (da, db, dp) /\
  length da = length v /\ length db = length v /\ length dp = length v /\
  (forall i, i < length ya -> is_partial (length v) (fun s => sp_bc fn p None (length pp) (length pc) k (setn i s ya) yb (pp ++ pc)) (nth i ya 0%R) da i) /\
  (forall i, i < length yb -> is_partial (length v) (fun s => sp_bc fn p None (length pp) (length pc) k ya (setn i s yb) (pp ++ pc)) (nth i yb 0%R) db i) /\
  (forall i, i < length (pp ++ pc) -> is_partial (length v) (fun s => sp_bc fn p None (length pp) (length pc) k ya yb (setn i s (pp ++ pc))) (nth i (pp ++ pc) 0%R) dp i).
Proof.
  intros fn p j k ya yb pp pc Sm Q H NE ND V YA YB P C K WA WB.
  assert (L0 : length (@nil R) = length (quads p)) by now rewrite Q.
  destruct (C58_jacobian fn p j ya [] yb [] pp pc k Sm H NE ND V YA YB L0 L0 P C K WA WB) as (v & B & FV & FJ & Lv & LA & LB & LP & DA & DB & DP & DC & DQ).
  assert (BQ : b_q B = None).
  { pose proof (bc_jac_flat fn p j ya [] yb [] pp pc k H NE V YA YB L0 L0 P C K) as G. cbv zeta in G. rewrite FJ in G. injection G as ->.
    cbn [b_q]. now rewrite (no_quads p Q). }
  exists v, (b_y0 B), (b_yf B), (b_p B). split; [rewrite sp_bc_flat; auto|].
  split. { unfold sp_bc_jac. rewrite (no_quads p Q), (firstn_len pp pc (length pp) eq_refl), (skipn_len pp pc (length pp) eq_refl), (firstn_same pc _ eq_refl), FJ. cbn [bind]. now rewrite BQ. }
  split; [exact LA|]. split; [exact LB|]. split; [exact LP|].
  split; [|split].
  - intros i Hi n Hn. eapply is_derive_ext; [intros s; symmetry; rewrite sp_bc_flat by auto; reflexivity|]. now apply DA.
  - intros i Hi n Hn. eapply is_derive_ext; [intros s; symmetry; rewrite sp_bc_flat by auto; reflexivity|]. now apply DB.
  - intros i Hi n Hn. rewrite app_length in Hi. destruct (Nat.lt_ge_cases i (length pp)) as [G|G].
    + rewrite app_nth1 by exact G.
      eapply is_derive_ext; [intros s; symmetry; rewrite <- setn_app_l by exact G; rewrite sp_bc_flat by (rewrite ?setn_length; auto); reflexivity|]. now apply DP.
    + rewrite app_nth2 by exact G. assert (Gi : i - length pp < length pc) by lia. pose proof (DC (i - length pp) Gi n Hn) as X.
      replace (length pp + (i - length pp)) with i in X by lia.
      eapply is_derive_ext; [|exact X]. intros s. cbv beta. replace i with (length pp + (i - length pp)) at 2 by lia.
      rewrite <- setn_app_r, sp_bc_flat by (rewrite ?setn_length; auto). reflexivity.
Qed.
(** With a quadrature both functions work and both Jacobians fail. *)
Theorem C71_quadrature_refuted :
  exists p j v w, compute_jacobians p = Ok j /\ quads p <> [] /\ p_params p <> [] /\
  sp_fun fn58 p None 1 [] [1; 2]%R [3]%R = Ok v /\ length v = 2 /\ sp_bc fn58 p None 1 0 [] [1; 2]%R [4; 5]%R [3]%R = Ok w /\ length w = 3 /\
  sp_fun_jac fn58 p None 1 0 j [] [1; 2]%R [3]%R = Raise ValueError /\
  sp_bc_jac fn58 p 1 0 j [] [1; 2]%R [4; 5]%R [3]%R = Raise ValueError.
Proof.
  exists (prob_of [("x", Var "T")] [("q", vx)] ["T"] [] [] [] [vx; Var "q"] [vx]). eexists. eexists. eexists.
  split; [reflexivity|]. split; [discriminate|]. split; [discriminate|]. repeat split.
Qed.
(** For every problem with quadratures the collocation solver has no usable Jacobian. *)
Theorem C71_quadrature_always : forall fn p j k y ya yb pp pc,
  compute_jacobians p = Ok j -> p_params p ++ p_cpars p <> [] -> bc_known p -> quads p <> [] ->
  length y = length (states p) + length (quads p) -> length ya = length (states p) + length (quads p) -> length yb = length (states p) + length (quads p) ->
  length pp = length (p_params p) -> length pc = length (p_cpars p) -> length k = length (p_consts p) ->
  sp_fun_jac fn p None (length pp) (length pc) j k y (pp ++ pc) = Raise ValueError /\
  sp_bc_jac fn p (length pp) (length pc) j k ya yb (pp ++ pc) = Raise ValueError.
Proof.
  intros fn p j k y ya yb pp pc H NE V Q Y YA YB P C K. destruct (jacs_inv p j H NE) as (NS & _ & _ & _ & FY & FP & _).
  assert (LQ : length (quads p) > 0) by (destruct (quads p); [easy|cbn; lia]). split.
  - unfold sp_fun_jac, deriv_jac. rewrite FP, FY. unfold control_of. cbn [is_some]. rewrite (firstn_len pp pc (length pp) eq_refl).
    replace (call_rows fn (dyn_groups p false) (jacobian (eoms (p_states p)) (states p)) (dyn_vals y None pp k)) with (Raise (A := list (list R)) ValueError); [reflexivity|].
    unfold call_rows, jacobian, eoms. destruct (p_states p) as [|s ss] eqn:ES; [easy|]. cbn [map mapM]. unfold call.
    replace (fits (dyn_groups p false) (dyn_vals y None pp k)) with false; [reflexivity|]. symmetry. unfold fits, dyn_groups, dyn_vals. cbn.
    replace (Nat.eqb (length (states p)) (length y)) with false; [reflexivity|]. symmetry. apply Nat.eqb_neq. lia.
  - unfold sp_bc_jac. rewrite (firstn_len pp pc (length pp) eq_refl), (skipn_len pp pc (length pp) eq_refl), (firstn_same pc _ eq_refl).
    assert (WQ : with_quads p = true) by (unfold with_quads; apply Nat.ltb_lt; lia). rewrite WQ.
    rewrite bc_jac_flat; auto; try (rewrite firstn_length_le; rewrite ?skipn_length; lia). cbn [bind b_q]. now rewrite WQ.
Qed.
Example C71_nonvacuous : exists p j, compute_jacobians p = Ok j /\ quads p = [] /\ p_params p ++ p_cpars p <> [] /\ NoDup (symbols p) /\ bc_known p /\ dyn_known p /\
  sp_bc fn58 p None 1 1 [6]%R [1; 2]%R [7; 8]%R [4; 5]%R = Ok [1 + - 6; 2 * 5; 7 * 4]%R.
Proof.
  exists (prob_of [("x", Mul vv (Var "T")); ("v", Opp (Var "T"))] [] ["T"] ["nu"] ["u"] ["k"] [Add vx (Opp (Var "k")); Mul vv (Var "nu")] [Mul vx (Var "T")]).
  eexists. split; [reflexivity|]. split; [reflexivity|]. split; [discriminate|].
  split. { unfold symbols. cbn. repeat (constructor; [cbn; intuition discriminate|]). constructor. }
  split. { unfold bc_known, symbols. cbn. repeat (apply Forall_cons; [intros z; cbn; intuition|]). apply Forall_nil. }
  split. { unfold dyn_known, dyn_symbols. cbn. repeat (apply Forall_cons; [intros z; cbn; intuition|]). apply Forall_nil. }
  reflexivity.
Qed.

Print Assumptions C58_jacobian.
Print Assumptions C58_control_law.
Print Assumptions C58_exists.
Print Assumptions C58_one_sided_refuted.
Print Assumptions C58_no_parameters_refuted.
Print Assumptions C58_control_refuted.
Print Assumptions C70_jacobian.
Print Assumptions C70_control_law_refuted.
Print Assumptions C70_spelling_refuted.
Print Assumptions C70_direct_refuted.
Print Assumptions C71_fun_jacobian.
Print Assumptions C71_bc_jacobian.
Print Assumptions C71_quadrature_refuted.
Print Assumptions C71_quadrature_always.
