(** Compiled functions at scaled arguments. *)
From Coq Require Import Reals Ascii Lra.
From Coquelicot Require Import Coquelicot.
From Verif Require Import Base Sym_Expr Sym_Model Map_Model Map_More Scale_Model Jac_Model Unit_Model Unit_Spec Unit_Proofs Unit_Steps.
Open Scope string_scope. Open Scope list_scope. Open Scope nat_scope.

Definition over (l f : list R) : list R := map2 Rdiv l f.
Definition res_over (r : res (list R)) (f : list R) : res (list R) :=
  match r with Ok v => Ok (over v f) | Raise e => Raise e end.

Lemma over_length l f : length l = length f -> length (over l f) = length l.
Proof. revert f; induction l as [|a l IH]; intros [|b f] H; cbn in *; try discriminate; [reflexivity|]. f_equal; apply IH; lia. Qed.
Lemma over_app a b f g : length a = length f -> over (a ++ b) (f ++ g) = over a f ++ over b g.
Proof. revert f; induction a as [|x a IH]; intros [|y f] H; cbn in *; try discriminate; [reflexivity|]. f_equal; apply IH; lia. Qed.
Lemma over_nth i l f : length l = length f -> nth i (over l f) 0%R = (nth i l 0 / nth i f 1)%R.
Proof.
  revert f i; induction l as [|a l IH]; intros [|b f] i H; cbn in *; try discriminate.
  - destruct i; unfold Rdiv; ring.
  - destruct i; [reflexivity|]. apply IH; lia.
Qed.

Lemma over_map (f g h : expr -> R) es us :
  Forall2 (fun e u => f e = (g e / h u)%R) es us -> map f es = over (map g es) (map h us).
Proof. induction 1; cbn; [reflexivity|]. f_equal; assumption. Qed.

Lemma index_of_ok x l i : index_of x l = Ok i -> nth_error l i = Some x.
Proof.
  revert i; induction l as [|y l IH]; cbn; intros i H; [discriminate|].
  destruct (String.eqb x y) eqn:E.
  - apply String.eqb_eq in E; subst. injection H as <-. reflexivity.
  - destruct (index_of x l) as [j|]; cbn in H; [|discriminate]. injection H as <-. cbn. apply IH; reflexivity.
Qed.

Section S.
  Variables (fac : string -> R) (G : uenv).
  Hypothesis (P : positive fac).
  Local Notation uv := (unit_value fac).

  Lemma env_scaled names us vals x v :
    Forall2 (has G) names us -> length vals = length names -> G x = Some v ->
    env names (over vals (map uv us)) x = (env names vals x / uv v)%R.
  Proof.
    intros F L Hx. unfold env. destruct (index_of x names) as [i|] eqn:E; [|unfold Rdiv; ring].
    apply index_of_ok in E.
    rewrite over_nth by (rewrite map_length, L; apply (Forall2_length' _ _ _ F)).
    destruct (Forall2_nth_error _ _ _ F _ _ E) as (w & Hw & Hh). unfold has in Hh.
    assert (w = v) as -> by congruence.
    f_equal. apply nth_error_nth. rewrite nth_error_map, Hw. reflexivity.
  Qed.

  Fixpoint overs (vals : list (list R)) (uss : list (list expr)) : list (list R) :=
    match vals, uss with
    | v :: vals', us :: uss' => over v (map uv us) :: overs vals' uss'
    | _, _ => []
    end.
  Definition fitting (groups : list (list string)) (vals : list (list R)) : Prop :=
    Forall2 (fun g v => length v = length g) groups vals.
  Lemma fitting_fits groups vals : fitting groups vals -> fits groups vals = true.
  Proof.
    unfold fits. induction 1; cbn in *; [reflexivity|].
    apply andb_prop in IHForall2. destruct IHForall2 as [A B]. apply Nat.eqb_eq in A.
    rewrite B, A, Nat.eqb_refl. cbn. rewrite H, Nat.eqb_refl. reflexivity.
  Qed.
  Lemma overs_fitting groups vals uss : fitting groups vals -> Forall2 (Forall2 (has G)) groups uss -> fitting groups (overs vals uss).
  Proof.
    intros F; revert uss; induction F; intros [|us uss] H1; inversion H1; subst; cbn; constructor; auto; [|now apply IHF].
    rewrite over_length; [assumption|]. rewrite map_length, H. now apply (Forall2_length' _ _ _ H4).
  Qed.
  Lemma overs_concat groups vals uss : fitting groups vals -> Forall2 (Forall2 (has G)) groups uss ->
    concat (overs vals uss) = over (concat vals) (map uv (concat uss)).
  Proof.
    intros F; revert uss; induction F; intros [|us uss] H1; inversion H1; subst; cbn; auto.
    rewrite map_app, over_app; [|rewrite map_length, H; now apply (Forall2_length' _ _ _ H4)].
    f_equal. now apply IHF.
  Qed.
  Lemma fitting_concat groups vals : fitting groups vals -> length (concat vals) = length (concat groups).
  Proof. induction 1; cbn; auto. rewrite !app_length. congruence. Qed.
  Lemma Forall2_concat {A B} (Q : A -> B -> Prop) a b : Forall2 (Forall2 Q) a b -> Forall2 Q (concat a) (concat b).
  Proof. induction 1; cbn; auto. apply Forall2_app; assumption. Qed.

  Lemma call_scaled fn groups uss es ues vals :
    Forall2 (Forall2 (has G)) groups uss -> fitting groups vals -> Forall2 (dim G) es ues ->
    call fn groups es (overs vals uss) = res_over (call fn groups es vals) (map uv ues).
  Proof.
    intros H F D. unfold call. rewrite (fitting_fits _ _ F), (fitting_fits _ _ (overs_fitting _ _ _ F H)).
    destruct (forallb _ es); [|reflexivity]. cbn. f_equal.
    rewrite (overs_concat _ _ _ F H). apply over_map.
    refine (Forall2_imp _ _ _ _ _ D). intros e u De. apply (dim_value fn G fac); [exact P| |exact De].
    intros x v _ Hx. apply env_scaled; [now apply Forall2_concat|now apply fitting_concat|exact Hx].
  Qed.
  Lemma eval_scaled fn groups uss e u vals :
    Forall2 (Forall2 (has G)) groups uss -> fitting groups vals -> dim G e u ->
    eval fn (env (concat groups) (concat (overs vals uss))) e = (eval fn (env (concat groups) (concat vals)) e / uv u)%R.
  Proof.
    intros H F D. rewrite (overs_concat _ _ _ F H). apply (dim_value fn G fac); [exact P| |exact D].
    intros x v _ Hx. apply env_scaled; [now apply Forall2_concat|now apply fitting_concat|exact Hx].
  Qed.
End S.

(** The candidate with the least Hamiltonian stays the one with the least
    Hamiltonian. *)
Lemma pick_loop_scaled (ham ham' : list R -> R) (g : list R -> list R) w us u :
  (0 < w)%R -> (forall c, In c us -> ham' (g c) = (ham c / w)%R) ->
  forall h, pick_loop ROps ham' (g u) (h / w)%R (map g us) = g (pick_loop ROps ham u h us).
Proof.
  intros W. revert u. induction us as [|c us IH]; intros u H h; cbn [map pick_loop]; [reflexivity|].
  rewrite (H c (or_introl eq_refl)). cbn zeta.
  assert (nltb ROps (ham c / w)%R (h / w)%R = nltb ROps (ham c) h) as ->.
  { cbn. destruct (Rlt_dec (ham c / w) (h / w)) as [A|A], (Rlt_dec (ham c) h) as [B|B]; try reflexivity; exfalso.
    - apply B. apply (Rmult_lt_compat_r w) in A; [|exact W]. unfold Rdiv in A. rewrite !Rmult_assoc, Rinv_l, !Rmult_1_r in A; lra.
    - apply A. apply Rmult_lt_compat_r; [now apply Rinv_0_lt_compat|exact B]. }
  destruct (nltb ROps (ham c) h); apply IH; intros d Hd; apply H; now right.
Qed.
Lemma pick_scaled (ham ham' : list R -> R) (g : list R -> list R) w us :
  (0 < w)%R -> (forall c, In c us -> ham' (g c) = (ham c / w)%R) ->
  pick_control ROps ham' (map g us) = match pick_control ROps ham us with Ok c => Ok (g c) | Raise e => Raise e end.
Proof.
  intros W H. destruct us as [|u [|c us]]; cbn [map pick_control]; try reflexivity. f_equal.
  rewrite (H u (or_introl eq_refl)). change (g c :: map g us) with (map g (c :: us)).
  apply pick_loop_scaled; [exact W|]. intros d Hd. apply H. now right.
Qed.

Section Functions.
  Variables (fn : string -> nat -> R -> R) (fac : string -> R) (G : uenv) (p : prob) (u : units).
  Hypotheses (P : positive fac) (K : consistent G p u).
  Local Notation uv := (unit_value fac).
  Local Notation cu := (law_control fn p).
  Let fu := map uv (u_controls u).
  Let fy := map uv (u_states u).
  Let fq := map uv (u_quads u).
  Let fp := map uv (u_params u).
  Let fnu := map uv (u_cpars u).
  Let fk := map uv (u_consts u).

  Lemma state_has : Forall2 (has G) (states p) (u_states u).
  Proof. unfold states, syms. generalize (k_states _ _ _ K). induction 1; cbn; constructor; auto. apply H. Qed.
  Lemma quad_has : Forall2 (has G) (quads p) (u_quads u).
  Proof. unfold quads, syms. generalize (k_quads _ _ _ K). induction 1; cbn; constructor; auto. apply H. Qed.
  Lemma state_dim : Forall2 (dim G) (eoms (p_states p)) (map (fun v => Div v (u_ind u)) (u_states u)).
  Proof. unfold eoms. generalize (k_states _ _ _ K). induction 1; cbn; constructor; auto. apply H. Qed.
  Lemma quad_dim : Forall2 (dim G) (eoms (p_quads p)) (map (fun v => Div v (u_ind u)) (u_quads u)).
  Proof. unfold eoms. generalize (k_quads _ _ _ K). induction 1; cbn; constructor; auto. apply H. Qed.

  Definition dyn_us (c : bool) : list (list expr) := [u_states u] ++ (if c then [u_controls u] else []) ++ [u_params u; u_consts u].
  Definition bc_us (c : bool) : list (list expr) :=
    [u_states u] ++ (if with_quads p then [u_quads u] else []) ++ (if c then [u_controls u] else []) ++ [u_params u; u_cpars u; u_consts u].
  Lemma dyn_has c : Forall2 (Forall2 (has G)) (dyn_groups p c) (dyn_us c).
  Proof.
    unfold dyn_groups, dyn_us. apply Forall2_app; [repeat constructor; exact state_has|].
    apply Forall2_app; [destruct c; repeat constructor; exact (k_controls _ _ _ K)|].
    constructor; [exact (k_params _ _ _ K)|constructor; [exact (k_consts _ _ _ K)|constructor]].
  Qed.
  Lemma bc_has c : Forall2 (Forall2 (has G)) (bc_groups p c) (bc_us c).
  Proof.
    unfold bc_groups, bc_us. apply Forall2_app; [repeat constructor; exact state_has|].
    apply Forall2_app; [destruct (with_quads p); repeat constructor; exact quad_has|].
    apply Forall2_app; [destruct c; repeat constructor; exact (k_controls _ _ _ K)|].
    constructor; [exact (k_params _ _ _ K)|constructor; [exact (k_cpars _ _ _ K)|constructor; [exact (k_consts _ _ _ K)|constructor]]].
  Qed.

  Definition control_fits (uo : option (list R)) : Prop := forall w, uo = Some w -> length w = length (p_controls p).
  Definition over_opt (uo : option (list R)) : option (list R) := match uo with Some w => Some (over w fu) | None => None end.

  Lemma law_control_at f : cu = Some f -> p_law p <> [] /\ forall y pp k, f y pp k =
    match pick_control ROps (fun c => match p_ham p with
        | Some h => eval fn (env (concat (dyn_groups p true)) (y ++ c ++ pp ++ k)) h | None => 0%R end)
      (map (map (eval fn (env (concat (dyn_groups p false)) (y ++ pp ++ k)))) (p_law p))
    with Ok c => c | Raise _ => [] end.
  Proof.
    unfold law_control. destruct (p_law p) as [|o l] eqn:E; [discriminate|]. intros H. split; [discriminate|].
    intros y pp k. apply (f_equal (fun o => match o with Some g => g y pp k | None => [] end)) in H.
    cbn beta iota zeta in H. symmetry. exact H.
  Qed.

  Section Args.
  Variables (y pp k : list R).
  Hypotheses (Ly : length y = length (p_states p)) (Lp : length pp = length (p_params p)) (Lk : length k = length (p_consts p)).
  Lemma Ly' : length y = length (states p). Proof. unfold states, syms. now rewrite map_length. Qed.
  Lemma dyn_fitting uo : control_fits uo -> fitting (dyn_groups p (is_some uo)) (dyn_vals y uo pp k).
  Proof.
    intros C. unfold fitting, dyn_groups, dyn_vals. apply Forall2_app; [constructor; [exact Ly'|constructor]|].
    apply Forall2_app; [destruct uo; cbn; repeat constructor; now apply C|]. repeat constructor; assumption.
  Qed.
  Lemma dyn_overs uo : dyn_vals (over y fy) (over_opt uo) (over pp fp) (over k fk) = overs fac (dyn_vals y uo pp k) (dyn_us (is_some uo)).
  Proof. destruct uo; reflexivity. Qed.
  Lemma over_opt_some uo : is_some (over_opt uo) = is_some uo.
  Proof. destruct uo; reflexivity. Qed.

  Lemma law_fits f : cu = Some f -> length (f y pp k) = length (p_controls p).
  Proof.
    intros Hf. destruct (law_control_at f Hf) as [N0 A]. rewrite A. clear A.
    destruct (p_law p) as [|o l] eqn:E; [congruence|]. clear N0.
    match goal with |- context [pick_control ROps ?h _] => set (ham := h) end. clearbody ham.
    generalize (k_law _ _ _ K); rewrite E; intros F.
    assert (N : forall c, In c (map (map (eval fn (env (concat (dyn_groups p false)) (y ++ pp ++ k)))) (o :: l)) -> length c = length (p_controls p)).
    { intros c Hc. apply in_map_iff in Hc. destruct Hc as (es & <- & Hes). rewrite map_length.
      rewrite Forall_forall in F. rewrite (Forall2_length' _ _ _ (F es Hes)). symmetry. exact (Forall2_length' _ _ _ (k_controls _ _ _ K)). }
    edestruct (pick_control_spec ham (map (map (eval fn (env (concat (dyn_groups p false)) (y ++ pp ++ k)))) (o :: l))) as (v & j & E1 & E2 & _);
      [discriminate|]. rewrite E1. apply N. exact (nth_error_In _ _ E2).
  Qed.
  Lemma law_scaled f : cu = Some f -> f (over y fy) (over pp fp) (over k fk) = over (f y pp k) fu.
  Proof.
    intros Hf. destruct (law_control_at f Hf) as [N A]. rewrite !A. clear A Hf.
    destruct (p_law p) as [|o l] eqn:E; [congruence|]. clear N.
    generalize (k_law _ _ _ K); rewrite E; intros F.
    assert (N0 : control_fits None) by (intros w; discriminate).
    set (cands := map (map (eval fn (env (concat (dyn_groups p false)) (y ++ pp ++ k)))) (o :: l)).
    assert (C : map (map (eval fn (env (concat (dyn_groups p false)) (over y fy ++ over pp fp ++ over k fk)))) (o :: l) = map (fun c => over c fu) cands).
    { unfold cands. rewrite map_map. apply map_ext_in. intros es Hes. rewrite Forall_forall in F. specialize (F es Hes).
      apply over_map. refine (Forall2_imp _ _ _ _ _ F). intros e v De.
      assert (A := eval_scaled fac G P fn (dyn_groups p false) (dyn_us false) e v (dyn_vals y None pp k) (dyn_has false) (dyn_fitting None N0) De).
      cbn [dyn_vals dyn_us overs concat app] in A. rewrite !app_nil_r in A. exact A. }
    rewrite C.
    assert (NC : forall c, In c cands -> length c = length (p_controls p)).
    { intros c Hc. unfold cands in Hc. apply in_map_iff in Hc. destruct Hc as (es & <- & Hes). rewrite map_length.
      rewrite Forall_forall in F. rewrite (Forall2_length' _ _ _ (F es Hes)). symmetry. exact (Forall2_length' _ _ _ (k_controls _ _ _ K)). }
    clearbody cands.
    destruct (p_ham p) as [h|] eqn:Eh.
    - destruct (k_ham _ _ _ K h Eh) as [Hp Hd].
      rewrite (pick_scaled (fun c => eval fn (env (concat (dyn_groups p true)) (y ++ c ++ pp ++ k)) h) _ (fun c => over c fu) (uv (u_ham u))).
      + destruct (pick_control ROps _ cands); reflexivity.
      + apply Hp. exact P.
      + intros c Hc.
        assert (N1 : control_fits (Some c)) by (intros w [= <-]; now apply NC).
        assert (A := eval_scaled fac G P fn (dyn_groups p true) (dyn_us true) h _ (dyn_vals y (Some c) pp k) (dyn_has true) (dyn_fitting (Some c) N1) Hd).
        cbn [dyn_vals dyn_us overs concat app] in A. rewrite !app_nil_r in A. exact A.
    - rewrite (pick_scaled (fun c => 0%R) _ (fun c => over c fu) 1%R).
      + destruct (pick_control ROps _ cands); reflexivity.
      + lra.
      + intros; lra.
  Qed.
  Lemma control_scaled uo : control_of cu (over y fy) (over_opt uo) (over pp fp) (over k fk) = over_opt (control_of cu y uo pp k).
  Proof. unfold control_of. destruct cu as [f|] eqn:E; [|reflexivity]. cbn. f_equal. now apply law_scaled. Qed.
  Lemma control_of_fits uo : control_fits uo -> control_fits (control_of cu y uo pp k).
  Proof. unfold control_of. destruct cu as [f|] eqn:E; [|auto]. intros _ w [= <-]. now apply law_fits. Qed.

  Lemma dyn_call_scaled es ues uo : Forall2 (dim G) es ues -> control_fits uo ->
    call fn (dyn_groups p (is_some (control_of cu (over y fy) (over_opt uo) (over pp fp) (over k fk)))) es
      (dyn_vals (over y fy) (control_of cu (over y fy) (over_opt uo) (over pp fp) (over k fk)) (over pp fp) (over k fk))
    = res_over (call fn (dyn_groups p (is_some (control_of cu y uo pp k))) es (dyn_vals y (control_of cu y uo pp k) pp k)) (map uv ues).
  Proof.
    intros D C. rewrite control_scaled, over_opt_some, dyn_overs.
    apply (call_scaled fac G P); [apply dyn_has|apply dyn_fitting; now apply control_of_fits|exact D].
  Qed.
  End Args.

  Section BC.
  Variables (y q pp pc k : list R).
  Hypotheses (Ly : length y = length (p_states p)) (Lq : length q = length (p_quads p)) (Lp : length pp = length (p_params p))
    (Lpc : length pc = length (p_cpars p)) (Lk : length k = length (p_consts p)).
  Lemma bc_fitting uo : control_fits uo -> fitting (bc_groups p (is_some uo)) (bc_vals p y q uo pp pc k).
  Proof.
    intros C. unfold fitting, bc_groups, bc_vals. apply Forall2_app; [constructor; [now apply Ly'|constructor]|].
    apply Forall2_app; [destruct (with_quads p); constructor; [|constructor]; unfold quads, syms; now rewrite map_length|].
    apply Forall2_app; [destruct uo; cbn; repeat constructor; now apply C|]. repeat constructor; assumption.
  Qed.
  Lemma bc_overs uo : bc_vals p (over y fy) (over q fq) (over_opt uo) (over pp fp) (over pc fnu) (over k fk) = overs fac (bc_vals p y q uo pp pc k) (bc_us (is_some uo)).
  Proof. unfold bc_vals, bc_us. destruct uo, (with_quads p); reflexivity. Qed.
  Lemma bc_call_scaled es ues uo : Forall2 (dim G) es ues -> control_fits uo ->
    call fn (bc_groups p (is_some uo)) es (bc_vals p (over y fy) (over q fq) (over_opt uo) (over pp fp) (over pc fnu) (over k fk))
    = res_over (call fn (bc_groups p (is_some uo)) es (bc_vals p y q uo pp pc k)) (map uv ues).
  Proof. intros D C. rewrite bc_overs. apply (call_scaled fac G P); [apply bc_has|now apply bc_fitting|exact D]. Qed.
  End BC.

  Lemma constr_dim cs us : Forall2 (constr_ok G) cs us -> Forall2 (dim G) (bc_exprs cs) us.
  Proof. unfold bc_exprs. induction 1 as [|c v cs us H]; cbn; constructor; auto. destruct H as (_ & H & _). exact H. Qed.

  Lemma call_length groups es vals v : call fn groups es vals = Ok v -> length v = length es.
  Proof. unfold call. destruct (fits _ _); [|discriminate]. destruct (forallb _ _); [|discriminate]. intros [= <-]. apply map_length. Qed.

  Lemma bc_scaled y0 q0 yf qf pp pc k :
    length y0 = length (p_states p) -> length q0 = length (p_quads p) ->
    length yf = length (p_states p) -> length qf = length (p_quads p) ->
    length pp = length (p_params p) -> length pc = length (p_cpars p) -> length k = length (p_consts p) ->
    bc_func fn p cu (over y0 fy) (over q0 fq) (over yf fy) (over qf fq) (over pp fp) (over pc fnu) (over k fk)
    = res_over (bc_func fn p cu y0 q0 yf qf pp pc k) (map uv (u_ci u ++ u_ct u)).
  Proof.
    intros L1 L2 L3 L4 L5 L6 L7.
    assert (E : forall y q, length y = length (p_states p) -> length q = length (p_quads p) -> forall es ues, Forall2 (dim G) es ues ->
      call fn (bc_groups p (match cu with Some _ => true | None => false end)) es
        (bc_vals p (over y fy) (over q fq) (match cu with Some f => Some (f (over y fy) (over pp fp) (over k fk)) | None => None end) (over pp fp) (over pc fnu) (over k fk))
      = res_over (call fn (bc_groups p (match cu with Some _ => true | None => false end)) es
        (bc_vals p y q (match cu with Some f => Some (f y pp k) | None => None end) pp pc k)) (map uv ues)).
    { intros y q Ly Lq es ues D. destruct cu as [f|] eqn:Ef.
      - rewrite (law_scaled y pp k Ly L5 L7 f Ef).
        apply (bc_call_scaled y q pp pc k Ly Lq L5 L6 L7 es ues (Some (f y pp k)) D).
        intros w [= <-]. now apply law_fits.
      - apply (bc_call_scaled y q pp pc k Ly Lq L5 L6 L7 es ues None D). intros w; discriminate. }
    unfold bc_func.
    rewrite (E y0 q0 L1 L2 _ _ (constr_dim _ _ (k_ci _ _ _ K))), (E yf qf L3 L4 _ _ (constr_dim _ _ (k_ct _ _ _ K))).
    destruct (call fn _ (bc_exprs (p_ci p)) _) as [b0|e0] eqn:E0; [|reflexivity]. cbn.
    destruct (call fn _ (bc_exprs (p_ct p)) _) as [bf|ef]; [|reflexivity]. cbn. f_equal.
    apply call_length in E0.
    rewrite map_app, over_app; [reflexivity|].
    rewrite map_length, E0. exact (Forall2_length' _ _ _ (constr_dim _ _ (k_ci _ _ _ K))).
  Qed.
End Functions.
