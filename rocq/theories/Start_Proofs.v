(** What the mappers make of a guess. *)
From Coq Require Import Reals Lra Lia.
From Verif Require Import Base Base_Facts Map_More Sym_Expr Sym_Facts Sym_Model Sym_Lu Sym_Dual Sym_DiffCtl Jac_Model Jac_Proofs Unit_Model Unit_Spec Unit_Properties Whole_Proofs Whole_Steps Whole_Geo Whole_Properties Chain_Model Chain_Facts Map_Model Map_Proofs Map_Chain Chain_Back Chain_Proofs Bound_Proofs.
Open Scope string_scope.
Open Scope list_scope.
Open Scope nat_scope.

Section Rows.
  Context {A : Type}.
  Implicit Types pts : list A.

  (** A trajectory with one row per point. *)
  Definition lay pts (t : A -> R) (dt : list R) n (x : A -> list R) l (d : A -> list R) (q u du : arr R) (p nu k : list R) (c : R) : sol R :=
    mkSol (map t pts) dt (Mat n (map x pts)) (Mat l (map d pts)) q u du p nu k c.

  Lemma insert_mid n (g : A -> R) (f h : A -> list R) pts : (forall a, In a pts -> length (f a) = n) ->
    insert_rows n (map g pts) (map (fun a => f a ++ h a) pts) = map (fun a => f a ++ g a :: h a) pts.
  Proof.
    induction pts as [|a pts IH]; intros L; [reflexivity|]. cbn [map insert_rows]. f_equal; [|apply IH; intros b I; apply L; now right].
    unfold insert_row. rewrite <- (L a (or_introl eq_refl)). rewrite firstn_app, firstn_all, Nat.sub_diag, firstn_O, app_nil_r, skipn_app, skipn_all, Nat.sub_diag. reflexivity.
  Qed.
  Lemma insert_end n (g : A -> R) (f : A -> list R) pts : (forall a, In a pts -> length (f a) = n) ->
    insert_rows n (map g pts) (map f pts) = map (fun a => f a ++ [g a]) pts.
  Proof. intros L. rewrite <- (insert_mid n g f (fun _ => []) pts L). f_equal. apply map_ext. intros a. now rewrite app_nil_r. Qed.
  Lemma insert_col_end n (g : A -> R) (f : A -> list R) pts : (forall a, In a pts -> length (f a) = n) ->
    insert_col (Mat n (map f pts)) n (map g pts) = Ok (Mat (S n) (map (fun a => f a ++ [g a]) pts)).
  Proof. intros L. unfold insert_col. rewrite Nat.leb_refl, !map_length, Nat.eqb_refl, (insert_end n g f pts L). reflexivity. Qed.

  (** Momentum shift: [e] is the costate of time that the trajectory brings, or 0. *)
  Lemma ms_fwd pts t dt e n x d q u du p nu k c : (forall a, In a pts -> length (x a) = n /\ length (d a) = n) ->
    (dt = [] /\ forall a, e a = 0%R) \/ (dt = map e pts /\ pts <> []) ->
    apply_map ROps (MMomentumShift (Some n)) (lay pts t dt n x n d q u du p nu k c) =
    Ok (MMomentumShift (Some n), lay pts t (map e pts) (S n) (fun a => x a ++ [t a]) (S n) (fun a => d a ++ [e a]) q u du p nu k c).
  Proof.
    intros L E. cbn [apply_map]. unfold ms_map, lay. cbn [bind s_dual_t s_t].
    assert (ED : (if length dt =? 0 then map (fun _ : R => n0 ROps) (map t pts) else dt) = map e pts).
    { destruct E as [[ -> Z]|[ -> NE]]; [cbn [length Nat.eqb]; rewrite map_map; apply map_ext; intros a; symmetry; apply Z|].
      rewrite map_length. destruct pts; [contradiction|reflexivity]. }
    assert (ES : forall s : sol R, s_dual_t s = dt -> s_t s = map t pts -> (if length dt =? 0 then set_dual_t (map (fun _ : R => n0 ROps) (map t pts)) s else s) = set_dual_t (map e pts) s).
    { intros s E1 E2. rewrite <- ED. destruct (length dt =? 0); [reflexivity|]. rewrite <- E1. now destruct s. }
    rewrite ES by reflexivity. unfold Map_Model.set_dual_t, Map_Model.set_y, Map_Model.set_dual. cbn [s_t s_dual_t s_y s_dual s_q s_u s_dual_u s_p s_nu s_k s_cost]. rewrite insert_col_end by (intros a I; apply L; exact I). cbn [bind].
    rewrite insert_col_end by (intros a I; apply L; exact I). reflexivity.
  Qed.

  (** EpsTrig changes one control of every row. *)
  Lemma trig_rows f ci m p k (u : A -> list R) (t : A -> R) (x : A -> list R) pts : (forall a, In a pts -> length (u a) = m) -> ci < m ->
    trig_loop f ci p k (map u pts) (map (fun a => (t a, x a)) pts) = Ok (map (fun a => firstn ci (u a) ++ f (nth ci (u a) 0%R) (t a) (x a) p k :: skipn (S ci) (u a)) pts).
  Proof.
    intros L C. induction pts as [|a pts IH]; [reflexivity|]. cbn [map trig_loop]. assert (La := L a (or_introl eq_refl)).
    unfold get. rewrite (nth_error_nth' (u a) 0%R) by lia. cbn [bind]. unfold set_nth. rewrite (proj2 (Nat.ltb_lt ci (length (u a)))) by lia. cbn [bind].
    rewrite IH by (intros b I; apply L; now right). reflexivity.
  Qed.
  Lemma combine_maps (f : A -> R) (g : A -> list R) pts : combine (map f pts) (map g pts) = map (fun a => (f a, g a)) pts.
  Proof. induction pts as [|a pts IH]; [reflexivity|]. cbn. now rewrite IH. Qed.
  Lemma trig_fwd f g ci m pts t dt n x l d q (u : A -> list R) du p nu k c : (forall a, In a pts -> length (u a) = m) -> ci < m ->
    exists u', (forall a, In a pts -> length (u' a) = m) /\
    apply_map ROps (MEpsTrig ci f g) (lay pts t dt n x l d q (Mat m (map u pts)) du p nu k c) = Ok (MEpsTrig ci f g, lay pts t dt n x l d q (Mat m (map u' pts)) du p nu k c).
  Proof.
    intros L C. exists (fun a => firstn ci (u a) ++ f (nth ci (u a) 0%R) (t a) (x a) p k :: skipn (S ci) (u a)). split.
    - intros a I. specialize (L a I). rewrite app_length, firstn_length. cbn [length]. rewrite skipn_length. lia.
    - cbn [apply_map]. unfold with_mapper, trig_apply, lay. cbn [s_t s_y arows s_u s_p s_k]. rewrite combine_maps. destruct pts as [|a pts]; [reflexivity|].
      change (map (fun a0 => (t a0, x a0)) (a :: pts)) with ((t a, x a) :: map (fun a0 => (t a0, x a0)) pts) at 1. cbv iota.
      change ((t a, x a) :: map (fun a0 => (t a0, x a0)) pts) with (map (fun a0 => (t a0, x a0)) (a :: pts)).
      rewrite (trig_rows f ci m p k u t x (a :: pts) L C). reflexivity.
  Qed.

  (** Differential control moves the controls behind the states. *)
  Lemma mapM_map_ok {B C : Type} (f : B -> res C) (g : B -> C) l : (forall b, In b l -> f b = Ok (g b)) -> mapM f l = Ok (map g l).
  Proof. induction l as [|b l IH]; intros H; [reflexivity|]. cbn. rewrite (H b (or_introl eq_refl)). cbn [bind]. rewrite IH by (intros; apply H; now right). reflexivity. Qed.
  Lemma columns_of m (u : A -> list R) pts : (forall a, In a pts -> length (u a) = m) ->
    acolumns (Mat m (map u pts)) = Ok (map (fun j => map (fun a => nth j (u a) 0%R) pts) (seq 0 m)).
  Proof.
    intros L. cbn [acolumns]. apply mapM_map_ok. intros j I. apply in_seq in I.
    rewrite (mapM_map_ok _ (fun r => nth j r 0%R)); [now rewrite map_map|].
    intros r IR. apply in_map_iff in IR. destruct IR as (a & <- & IA). unfold get. rewrite (nth_error_nth' (u a) 0%R); [reflexivity|]. rewrite (L a IA). lia.
  Qed.
  Lemma sort_seq n : forall (cols : list (list R)), sort_cols (combine (seq n (length cols)) cols) = Ok (combine (seq n (length cols)) cols).
  Proof.
    intros cols. revert n. induction cols as [|c cols IH]; intros n; [reflexivity|]. cbn [length seq combine sort_cols]. rewrite IH. cbn [bind].
    destruct cols as [|c' cols]; [reflexivity|]. cbn [length seq combine ins_sorted fst]. rewrite (proj2 (Nat.ltb_lt n (S n))) by lia. reflexivity.
  Qed.
  Lemma insert_all_end (u x : A -> list R) pts m : (forall a, In a pts -> length (u a) = m) -> forall j n, j <= m -> (forall a, In a pts -> length (x a) = n) ->
    insert_all (Mat (n + (m - j)) (map (fun a => x a ++ firstn (m - j) (u a)) pts)) (combine (seq (n + (m - j)) j) (map (fun i => map (fun a => nth i (u a) 0%R) pts) (seq (m - j) j)))
      = Ok (Mat (n + m) (map (fun a => x a ++ u a) pts)).
  Proof.
    intros L. induction j as [|j IH]; intros n J X.
    - cbn. rewrite Nat.sub_0_r. f_equal. f_equal. apply map_ext_in. intros a I. now rewrite <- (L a I), firstn_all.
    - cbn [seq map combine insert_all].
      rewrite (insert_col_end _ (fun a => nth (m - S j) (u a) 0%R)) by (intros a I; rewrite app_length, firstn_length, (X a I), (L a I); lia). cbn [bind].
      replace (S (n + (m - S j))) with (n + (m - j)) by lia. replace (S (m - S j)) with (m - j) by lia.
      rewrite <- (IH n ltac:(lia) X). f_equal. f_equal. apply map_ext_in. intros a I. rewrite <- app_assoc. f_equal.
      assert (H : forall (w : list R) i, i < length w -> firstn i w ++ [nth i w 0%R] = firstn (S i) w).
      { clear. induction w as [|v w IH]; intros i H; [cbn in H; lia|]. destruct i; [reflexivity|]. cbn [firstn nth app]. f_equal. apply IH. cbn in H. lia. }
      rewrite H by (rewrite (L a I); lia). now replace (S (m - S j)) with (m - j) by lia.
  Qed.
  Lemma del_all js : forall (r : list R) i, (forall j, i <= j < i + length r -> In j js) -> del_row js i r = [].
  Proof.
    induction r as [|v r IH]; intros i H; [reflexivity|]. cbn [del_row]. replace (existsb (Nat.eqb i) js) with true.
    - apply IH. intros j J. apply H. cbn. lia.
    - symmetry. apply existsb_exists. exists i. split; [apply H; cbn; lia|apply Nat.eqb_refl].
  Qed.
  Lemma delete_all m (u : A -> list R) pts : (forall a, In a pts -> length (u a) = m) -> delete_cols ROps (Mat m (map u pts)) (seq 0 m) = Ok (Mat 0 (map (fun _ => []) pts)).
  Proof.
    intros L. cbn [delete_cols]. replace (forallb _ _) with true.
    - rewrite del_all by (intros j J; rewrite repeat_length in J; apply in_seq; lia). cbn [length]. f_equal. f_equal. rewrite map_map. apply map_ext_in.
      intros a I. apply del_all. intros j J. rewrite (L a I) in J. apply in_seq. lia.
    - symmetry. apply forallb_forall. intros j J. apply in_seq in J. apply Nat.ltb_lt. lia.
  Qed.
  Lemma dc_fwd m pts t dt n x l d q (u : A -> list R) du p nu k c : (forall a, In a pts -> length (x a) = n /\ length (u a) = m) ->
    apply_map ROps (MDifferential (seq n m)) (lay pts t dt n x l d q (Mat m (map u pts)) du p nu k c) =
    Ok (MDifferential (seq n m), lay pts t dt (n + m) (fun a => x a ++ u a) l d q (Mat 0 (map (fun _ => []) pts)) du p nu k c).
  Proof.
    intros L. cbn [apply_map]. unfold dc_map, lay. cbn [s_u]. rewrite columns_of by (intros a I; apply L; exact I). cbn [bind].
    set (cols := map (fun j => map (fun a => nth j (u a) 0%R) pts) (seq 0 m)). assert (LC : length cols = m) by (unfold cols; now rewrite map_length, seq_length).
    assert (SC := sort_seq n cols). rewrite LC in SC. rewrite SC. cbn [bind s_y].
    assert (IA := insert_all_end u x pts m (fun a I => proj2 (L a I)) m n (Nat.le_refl m) (fun a I => proj1 (L a I))). rewrite Nat.sub_diag, Nat.add_0_r in IA. fold cols in IA.
    replace (map (fun a => x a ++ firstn 0 (u a)) pts) with (map x pts) in IA by (apply map_ext; intros a; cbn [firstn]; now rewrite app_nil_r).
    rewrite IA. cbn [bind]. unfold Map_Model.set_y, Map_Model.set_u. cbn [s_t s_dual_t s_y s_dual s_q s_u s_dual_u s_p s_nu s_k s_cost].
    rewrite combine_length, seq_length, LC, Nat.min_id, delete_all by (intros a I; apply L; exact I). reflexivity.
  Qed.

  (** The geometric variant, with one control: the costate of the control is put
      before the last costate. *)
  Lemma dg_fwd pts t dt n x l d q (u : A -> list R) p nu k c : (forall a, In a pts -> length (x a) = n /\ length (u a) = 1 /\ length (d a) = S l) ->
    apply_map ROps (MDiffyG (seq n 1)) (lay pts t dt n x (S l) d q (Mat 1 (map u pts)) E1 p nu k c) =
    Ok (MDiffyG (seq n 1), lay pts t dt (S n) (fun a => x a ++ u a) (S (S l)) (fun a => firstn l (d a) ++ 0%R :: skipn l (d a)) q (Mat 0 (map (fun _ => []) pts))
          (Mat (length pts) [map (fun _ => 0%R) pts]) p nu k c).
  Proof.
    intros L. cbn [apply_map]. unfold dg_map, lay. cbn [s_u]. rewrite columns_of by (intros a I; apply L; exact I). cbn [bind seq map combine sort_cols ins_sorted dg_loop s_y s_t].
    rewrite insert_col_end by (intros a I; apply L; exact I). cbn [bind]. unfold Map_Model.set_y, Map_Model.set_u, Map_Model.set_dual, Map_Model.set_dual_u. cbn [s_t s_dual_t s_y s_dual s_q s_u s_dual_u s_p s_nu s_k s_cost].
    rewrite map_map. cbn [insert_col_m1]. unfold insert_col. rewrite (proj2 (Nat.leb_le l (S l))) by lia. rewrite !map_length, Nat.eqb_refl. cbn [bind].
    unfold ins_dual_u. cbn [alen Nat.eqb bind s_u]. rewrite map_length. cbn [length].
    rewrite (delete_all 1 u pts) by (intros a I; apply L; exact I). cbn [bind with_mapper].
    assert (Z : map (fun _ : A => nmul ROps (n0 ROps) (nofZ ROps 1)) pts = map (fun _ => 0%R) pts) by (apply map_ext; intros _; unfold n0; cbn; lra).
    rewrite Z. cbn [s_t s_dual_t s_y s_dual s_q s_u s_dual_u s_p s_nu s_k s_cost]. unfold lay. f_equal. f_equal. f_equal; f_equal.
    - apply map_ext_in. intros a I. f_equal. destruct (L a I) as (_ & LU & _). destruct (u a) as [|v [|]]; cbn in LU; try discriminate. reflexivity.
    - clear - L. induction pts as [|a pts IH]; [reflexivity|]. cbn [map insert_rows]. f_equal. apply IH. intros b I. apply L. now right.
  Qed.

  (** Dualize, time and SquashToBVP. *)
  Lemma dual_fwd na cost pts t dt n x l d q u du p nu k c : apply_map ROps (MDualize na cost) (lay pts t dt n x l d q u du p nu k c) =
    Ok (MDualize na cost, lay pts t dt n x l d q u du p (if length nu =? 0 then repeat 1%R na else nu) k c).
  Proof. cbn [apply_map]. unfold dual_map, lay. cbn [s_nu]. now destruct (length nu =? 0). Qed.
  Lemma last_nth (l : list R) : nth (length l - 1) l 0%R = last l 0%R.
  Proof. induction l as [|v l IH]; [reflexivity|]. destruct l as [|w l]; [reflexivity|]. cbn [length last] in *. rewrite <- IH. cbn [Nat.sub]. rewrite Nat.sub_0_r. reflexivity. Qed.
  Lemma nt_fwd pts t dt n x l d q u du nu k c : pts <> [] -> let a := hd 0%R (map t pts) in let b := last (map t pts) 0%R in
    apply_map ROps (MNormalizeTime (Some 0)) (lay pts t dt n x l d q u du [] nu k c) =
    Ok (MNormalizeTime (Some 0), lay pts (fun i => (t i - a) / (b - a))%R dt n x l d q u du [b - a]%R nu k c).
  Proof.
    intros NE a b. cbn [apply_map]. unfold nt_map, lay. cbn [s_t s_p].
    assert (G0 : get (map t pts) 0 = Ok a) by (unfold a; destruct pts; [contradiction|reflexivity]).
    assert (G1 : get (map t pts) (length (map t pts) - 1) = Ok b).
    { unfold get. rewrite (nth_error_nth' _ 0%R) by (rewrite map_length; destruct pts; [contradiction|cbn; lia]). now rewrite last_nth. }
    rewrite G0, G1. cbn [bind np_insert fst snd]. unfold np_insert. cbn. rewrite map_map. reflexivity.
  Qed.
  Lemma sq_fwd h1 h2 h3 h4 pts t dt n x l d q u du p nu k c : pts <> [] ->
    apply_map ROps (MSquash h1 h2 h3 h4) (lay pts t dt n x l d q u du p nu k c) =
    Ok (MSquash h1 h2 h3 h4, lay pts t dt (n + l) (fun a => x a ++ d a) l d q u du p nu k c).
  Proof.
    intros NE. cbn [apply_map]. unfold sq_map, lay. cbn [s_dual alen s_y]. rewrite map_length. replace (0 <? length pts) with true by (destruct pts; [contradiction|reflexivity]).
    unfold concat_cols. rewrite !map_length, Nat.eqb_refl. cbn [bind with_mapper]. unfold with_mapper, Map_Model.set_y. cbn [s_t s_dual_t s_y s_dual s_q s_u s_dual_u s_p s_nu s_k s_cost bind].
    replace (app_rows (map x pts) (map d pts)) with (map (fun a => x a ++ d a) pts); [reflexivity|]. clear. induction pts as [|a pts IH]; [reflexivity|]. cbn. now rewrite IH.
  Qed.
End Rows.

(** The trajectory has a matrix of controls, one row of length [m] per point. *)
Definition rowed {A} (m : nat) (pts : list A) (U : arr R) : Prop := exists u : A -> list R, (forall a, In a pts -> length (u a) = m) /\ U = Mat m (map u pts).

(** The stage that removes the bounds. *)
Lemma subs_all_kept u e p : p_cpars (subs_all u e p) = p_cpars p /\ p_cadj (subs_all u e p) = p_cadj p /\ p_maps (subs_all u e p) = p_maps p.
Proof. destruct p; cbn; repeat split. Qed.
Lemma eps_kept p q d u lo up act l1 l2 u1 u2 : eps_to p q d u lo up act l1 l2 u1 u2 ->
  length (p_controls q) = length (p_controls p) /\ length u1 < length (p_controls p) /\ p_cpars q = p_cpars p /\ p_cadj q = p_cadj p /\ p_maps q = p_maps p ++ [TEpsTrig (length u1) lo up].
Proof.
  intros E. assert (C := et_controls _ _ _ _ _ _ _ _ _ _ _ E). rewrite (et_q _ _ _ _ _ _ _ _ _ _ _ E), C. destruct p; cbn in *. rewrite !app_length. cbn. repeat split; lia.
Qed.
Lemma utm_kept p q d a lo up l1 l2 : utm_to p q d a lo up l1 l2 -> p_controls q = p_controls p /\ p_cpars q = p_cpars p /\ p_cadj q = p_cadj p /\ p_maps q = p_maps p ++ [TIdentity].
Proof. intros [E ->|E ->|E ->]; destruct p; cbn; repeat split. Qed.

Lemma stage_fwd {A} lu solve fn sm fs : Forall (fun f => f = FEps \/ f = FUtm) fs -> forall p q ms, run_chain fn sm lu solve fs p = Ok (q, ms) ->
  length (p_controls q) = length (p_controls p) /\ p_cpars q = p_cpars p /\ p_cadj q = p_cadj p /\
  forall (pts : list A) t dt n x l d qq U du pp nu k c, rowed (length (p_controls p)) pts U \/ ~ In FEps fs ->
  exists U', passes (apply_map ROps) ms (lay pts t dt n x l d qq U du pp nu k c) (lay pts t dt n x l d qq U' du pp nu k c) /\
    (rowed (length (p_controls p)) pts U -> rowed (length (p_controls p)) pts U') /\ (~ In FEps fs -> U' = U).
Proof.
  induction 1 as [|f fs IS _ IH]; intros p q ms RC.
  - cbn in RC. injection RC as <- <-. repeat split. intros. exists U. split; [apply passes_nil|]. split; [auto|reflexivity].
  - cbn [run_chain] in RC. destruct (apply_tf lu solve f p) as [p1|] eqn:AT; [|discriminate]. cbn [bind] in RC. destruct (run_chain fn sm lu solve fs p1) as [[q' m2]|] eqn:RS; [|discriminate]. cbn [bind fst snd] in RC. apply Ok_inj in RC. injection RC as <- <-.
    destruct (IH p1 q' m2 RS) as (L & CP & CA & FW). destruct IS as [ ->| ->]; cbn [apply_tf] in AT.
    + destruct (eps_full p p1 AT) as (d & u & lo & up & act & l1 & l2 & u1 & u2 & ET). destruct (eps_kept _ _ _ _ _ _ _ _ _ _ _ ET) as (E1 & E2 & E3 & E4 & E5).
      split; [congruence|]. split; [congruence|]. split; [congruence|]. intros pts t dt n x l d0 qq U du pp nu k c [(v & LV & ->)|NI]; [|elim NI; now left].
      rewrite E5, skipn_len. cbn [map app build].
      match goal with |- context [MEpsTrig (length u1) ?f ?g] => destruct (trig_fwd f g (length u1) (length (p_controls p)) pts t dt n x l d0 qq v du pp nu k c LV E2) as (v' & LV' & AP) end.
      destruct (FW pts t dt n x l d0 qq (Mat (length (p_controls p)) (map v' pts)) du pp nu k c) as (U' & PS & RW & _); [left; exists v'; rewrite E1; now split|].
      exists U'. split; [exact (passes_cons _ _ _ _ _ _ AP PS)|]. rewrite E1 in RW. split; [intros _; apply RW; now exists v'|]. intros NI. elim NI. now left.
    + destruct (utm_full p p1 AT) as (d & a & lo & up & l1 & l2 & UT & _). destruct (utm_kept _ _ _ _ _ _ _ _ UT) as (E1 & E2 & E3 & E4).
      split; [congruence|]. split; [congruence|]. split; [congruence|]. intros pts t dt n x l d0 qq U du pp nu k c HU.
      rewrite E4, skipn_len. cbn [map app build]. rewrite E1 in FW.
      destruct (FW pts t dt n x l d0 qq U du pp nu k c) as (U' & PS & RW & EQ); [destruct HU as [HU|NI]; [now left|right; intros I; apply NI; now right]|].
      exists U'. split; [eapply passes_cons; [reflexivity|exact PS]|]. split; [exact RW|]. intros NI. apply EQ. intros I. apply NI. now right.
Qed.

(** The tail of the chain. *)
Section Tail.
  Variables (lu : list (list expr) -> list expr -> res (list expr)) (LU : lu_ok lu) (solve : list expr -> list string -> list (list expr)) (fn : string -> nat -> R -> R) (sm : list R -> list R -> res R).
  Variables (o : options) (p p1 p' : prob) (fs pre post : list tf) (ms : list (mapper R)).
  Hypothesis MK : make_indirect o p = Ok fs.
  Hypothesis EF : fs = pre ++ FDual (o_method o) :: post.
  Hypothesis R1 : run_tfs lu solve pre p = Ok p1.
  Hypothesis RC : run_chain fn sm lu solve fs p = Ok (p', ms).
  Hypothesis ON : o_norm o = true.
  Hypothesis MT : lower (o_method o) = "traditional" \/ lower (o_method o) = "diffyg".
  Hypothesis FR : p_costates p1 = [] /\ p_coparams p1 = [] /\ p_params p1 = [] /\ p_quads p1 = [].

  Definition differential : bool := negb (String.eqb (lower (o_control o)) "algebraic").
  Definition geometric : bool := differential && negb (String.eqb (lower (o_method o)) "traditional").
  (** Costates of the differential controls. *)
  Definition extra : nat := if geometric then length (p_controls p1) else 0.

  Lemma tail_fwd {A} (pts : list A) : pts <> [] -> (geometric = true -> length (p_controls p1) = 1 /\ p_states p1 <> []) ->
    exists m1 m2 na, run_chain fn sm lu solve pre p = Ok (p1, m1) /\ ms = m1 ++ m2 /\
      length (p_states p') = length (p_states p1) + (if differential then length (p_controls p1) else 0) + length (p_states p1) + extra /\
      p_quads p' = [] /\ length (p_params p') = 1 /\ p_consts p' = p_consts p1 /\ length (p_cpars p') = length (p_cpars p1) + na /\
      (if differential then p_controls p' = [] else p_controls p' = p_controls p1) /\
      forall t dt x d q U nu k c, (forall a, In a pts -> length (x a) = length (p_states p1) /\ length (d a) = length (p_states p1)) ->
      (differential = true -> rowed (length (p_controls p1)) pts U) ->
      let a := hd 0%R (map t pts) in let b := last (map t pts) 0%R in
      exists (u d' : A -> list R) U' du', (forall i, In i pts -> length (u i) = (if differential then length (p_controls p1) else 0) /\ length (d' i) = length (p_states p1) + extra) /\
        (differential = true -> U = Mat (length (p_controls p1)) (map u pts) /\ U' = Mat 0 (map (fun _ => []) pts)) /\ (differential = false -> U' = U) /\
        (geometric = false -> forall i, d' i = d i) /\
        (geometric = true -> forall i, d' i = firstn (length (p_states p1) - 1) (d i) ++ 0%R :: skipn (length (p_states p1) - 1) (d i)) /\
        passes (apply_map ROps) m2 (lay pts t dt (length (p_states p1)) x (length (p_states p1)) d q U E1 [] nu k c)
          (lay pts (fun i => (t i - a) / (b - a))%R dt (length (p_states p')) (fun i => (x i ++ u i) ++ d' i) (length (p_states p1) + extra) d' q U' du' [b - a]%R (if length nu =? 0 then repeat 1%R na else nu) k c).
  Proof.
    intros NE G1. destruct FR as (F1 & F2 & F3 & F4).
    destruct (chain_tail fn sm lu solve o p fs pre post p1 p' ms MK EF R1 RC ON MT) as (pD & p2 & p3 & m1 & na & b0 & lo & hi & HD & HC & HN & HS & CC & RP & EM & EB).
    assert (NA : na = length (p_cadj pD)).
    { rewrite EF in RC. apply run_chain_app in RC. destruct RC as (q1 & n1 & n2 & C1 & C2 & EM2). rewrite RP in C1. injection C1 as <- <-. rewrite EM in EM2. apply app_inv_head in EM2.
      destruct (dualize_maps lu _ _ _ HD) as [D1 _]. apply (run_chain_step _ _ lu solve (FDual (o_method o)) _ _ pD _ _ _ HD D1) in C2. destruct C2 as (m3 & _ & ->). cbn in EM2. now injection EM2. }
    destruct (norm_squash p2 p3 p' HN HS) as (S1 & S2 & S3 & S4 & S5 & S6 & S7 & S8 & S9 & S10).
    destruct (control_rest lu solve o pD p2 HC) as (K1 & K2 & K3 & K4 & K5 & K6 & K7).
    assert (DO := dual_of_exists lu LU _ p1 pD HD MT F1 F2).
    assert (CP : p_coparams pD = []) by (apply syms_nil; rewrite (d_colams _ _ _ DO), F3; reflexivity).
    assert (P2 : p_params p2 = []) by (rewrite K1, (d_params _ _ _ DO); exact F3).
    assert (SD := d_states _ _ _ DO). assert (UD := d_controls _ _ _ DO). assert (LD := d_lams _ _ _ DO).
    assert (LL : length (p_costates pD) = length (p_states p1)) by (rewrite <- (map_length fst (p_costates pD)); fold (syms (p_costates pD)); rewrite LD; unfold syms; now rewrite !map_length).
    assert (LP : length (p_states p') = length (p_states p2) + length (p_costates p2)) by (rewrite S1; unfold slow; now rewrite map_length, app_length).
    assert (SH : length (p_states p2) = length (p_states p1) + (if differential then length (p_controls p1) else 0) /\ length (p_costates p2) = length (p_states p1) + extra /\
      (if differential then p_controls p2 = [] else p_controls p2 = p_controls p1)).
    { unfold extra, geometric, differential. unfold control_tf in HC. destruct (String.eqb (lower (o_control o)) "algebraic") eqn:EA; cbn [negb andb apply_tf] in *.
      - unfold algebraic_control in HC. rewrite (d_dual _ _ _ DO), (d_ham _ _ _ DO), UD in HC. apply Ok_inj in HC. subst p2. clear - SD UD LL. destruct pD; cbn in *. subst. repeat split; lia.
      - destruct MT as [M|M]; rewrite M; cbn [String.eqb Ascii.eqb Bool.eqb negb].
        + destruct (diffctl_traditional lu _ pD p2 HC M) as (h' & udot & H1 & H2 & H3 & H4 & H5 & _).
          destruct (udot_values lu LU h' (p_controls pD) (p_states pD ++ p_costates pD) udot H2) as [LUD _].
          rewrite H3, H4, app_length, combine_length, LUD, SD, UD, LL. repeat split; [lia|lia|exact H5].
        + destruct (diffctl_diffyg lu _ pD p2 HC M) as (h' & udot & chi & H1 & H2 & H3 & H5 & _).
          destruct (udot_values lu LU h' (p_controls pD) (p_states pD ++ p_costates pD) udot H2) as [LUD _]. specialize (H3 LUD). cbv zeta in H3. destruct H3 as (HF & H3 & H4).
          rewrite SD, UD, LD in *. set (X := syms (p_states p1)) in *. set (UU := p_controls p1) in *.
          assert (LX : length X = length (p_states p1)) by (unfold X, syms; apply map_length).
          assert (LC : length chi = 2 * (length (p_states p1) + length UU)).
          { assert (P0 : 0 < length (p_states p1)).
            { destruct (G1 ltac:(unfold geometric, differential; rewrite EA, M; reflexivity)) as [_ NS]. destruct (p_states p1); [contradiction|cbn; lia]. }
            assert (LQ : length (X ++ UU) = length (p_states p1) + length UU) by (rewrite app_length, LX; reflexivity).
            rewrite <- LQ in HF. destruct (ham_field_extended lu LU h' (X ++ UU) (map lam X ++ map lam UU) (length UU) (length (p_states p1) - 1) udot chi) as [L _].
            - rewrite !app_length, !map_length. reflexivity.
            - lia.
            - exact LUD.
            - exact HF.
            - rewrite L. lia. }
          rewrite H3, H4, !combine_length, firstn_length, skipn_length, !app_length, !map_length, LC, LX. repeat split; [lia|lia|exact H5]. }
    destruct SH as (Z1 & Z2 & Z3).
    exists m1, [MDualize na (compute_cost fn sm p1); control_mapper fn o pD p2; MNormalizeTime (Some (length (p_params p2))); MSquash (length (p_states p2)) b0 lo hi], na.
    split; [exact RP|]. split; [exact EM|]. split; [rewrite LP, Z1, Z2; lia|]. split; [rewrite S4, K2, K3, (d_quads _ _ _ DO), F4, CP; reflexivity|]. split; [rewrite S2, P2; reflexivity|].
    split; [exact CC|]. split; [rewrite S3, K4, K5, app_length, NA, (d_cpars _ _ _ DO); reflexivity|]. split; [rewrite S6; exact Z3|].
    intros t dt x d q U nu k c LR HU a b. rewrite P2. cbn [length].
    set (nu' := if length nu =? 0 then repeat 1%R na else nu).
    assert (CT : exists (u d' : A -> list R) U' du', (forall i, In i pts -> length (u i) = (if differential then length (p_controls p1) else 0) /\ length (d' i) = length (p_states p1) + extra) /\
        (differential = true -> U = Mat (length (p_controls p1)) (map u pts) /\ U' = Mat 0 (map (fun _ => []) pts)) /\ (differential = false -> U' = U) /\
        (geometric = false -> forall i, d' i = d i) /\
        (geometric = true -> forall i, d' i = firstn (length (p_states p1) - 1) (d i) ++ 0%R :: skipn (length (p_states p1) - 1) (d i)) /\
        apply_map ROps (control_mapper fn o pD p2) (lay pts t dt (length (p_states p1)) x (length (p_states p1)) d q U E1 [] nu' k c) =
          Ok (control_mapper fn o pD p2, lay pts t dt (length (p_states p2)) (fun i => x i ++ u i) (length (p_costates p2)) d' q U' du' [] nu' k c)).
    { rewrite Z1, Z2. revert HU. clear Z1 Z2 Z3. unfold control_mapper. rewrite SD, UD. unfold extra, geometric, differential in *. destruct (String.eqb (lower (o_control o)) "algebraic") eqn:EA; cbn [negb andb] in *; intros HU.
      - exists (fun _ => []), d, U, E1. split; [intros i I; split; [reflexivity|]; rewrite Nat.add_0_r; apply (LR i I)|]. split; [discriminate|]. split; [reflexivity|]. split; [reflexivity|]. split; [discriminate|].
        cbn [apply_map]. rewrite !Nat.add_0_r. unfold lay. do 3 f_equal. f_equal. apply map_ext. intros i. now rewrite app_nil_r.
      - destruct (HU eq_refl) as (u & LU' & EU). destruct (String.eqb (lower (o_method o)) "traditional") eqn:EM2; cbn [negb] in *.
        + exists u, d, (Mat 0 (map (fun _ => []) pts)), E1. split; [intros i I; split; [exact (LU' i I)|]; rewrite Nat.add_0_r; apply (LR i I)|]. split; [now split|]. split; [discriminate|]. split; [reflexivity|]. split; [discriminate|].
          rewrite EU, Nat.add_0_r. apply dc_fwd. intros i I. split; [apply (LR i I)|exact (LU' i I)].
        + destruct (G1 eq_refl) as [M1 NS]. rewrite M1 in *. destruct (length (p_states p1)) as [|l] eqn:EL; [destruct (p_states p1); [contradiction|discriminate]|].
          exists u, (fun i => firstn l (d i) ++ 0%R :: skipn l (d i)), (Mat 0 (map (fun _ => []) pts)), (Mat (length pts) [map (fun _ => 0%R) pts]).
          split; [intros i I; split; [exact (LU' i I)|]; rewrite app_length, firstn_length; cbn [length]; rewrite skipn_length; destruct (LR i I); lia|].
          split; [now split|]. split; [discriminate|]. split; [discriminate|]. split; [intros _ i; cbn [Nat.sub]; now rewrite Nat.sub_0_r|].
          rewrite EU. rewrite (dg_fwd pts t dt (S l) x l d q u [] nu' k c) by (intros i I; split; [apply (LR i I)|split; [exact (LU' i I)|apply (LR i I)]]).
          now rewrite !Nat.add_1_r. }
    destruct CT as (u & d' & U' & du' & L' & E1' & E2' & E3' & E4' & AP). exists u, d', U', du'. split; [exact L'|]. split; [exact E1'|]. split; [exact E2'|]. split; [exact E3'|]. split; [exact E4'|].
    eapply passes_cons; [apply dual_fwd|]. fold nu'. eapply passes_cons; [exact AP|]. eapply passes_cons; [apply (nt_fwd pts); exact NE|]. fold a b. eapply passes_cons; [|apply passes_nil].
    rewrite LP, <- Z2. apply (sq_fwd _ _ _ _ pts). exact NE.
  Qed.
End Tail.
