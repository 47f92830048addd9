(** Bisection: real schedule, and (non-)termination. *)
From Verif Require Import Base Base_Facts Cont_Model Cont_Spec Cont_Proofs Cont_Bisection Cont_Bisection2.
From Coq Require Import Reals Lra.

(** ** C05 over the reals *)

Lemma bisection_grid {P} (slv : solver R P) fuel k s guess cn n s' lst calls :
  keeps_const slv -> well_named cn (t_const guess) -> NoDup (map v_name (s_vars s)) ->
  s_kind s = Bisection -> s_spacing s = Linear -> s_num s = Some n -> 2 <= n -> 1 <= s_ndiv s ->
  run_step ROps fuel slv k s guess cn = Finished s' lst calls ->
  exists grid : list (list R),
    length grid = Z.to_nat n /\
    (forall i c, nth_error grid i = Some c -> at_grid cn (targets (s_vars s)) n i (t_const guess) c) /\
    Subseq grid (map t_const (converged_sols calls)).
Proof.
  intros Hkeep Hwn Hnd Hk Hsp Hn H2 Hdiv Ho.
  destruct (bisection_schedule ROps slv fuel k s guess cn n s' lst calls Hkeep Hwn Hnd Hk
              ltac:(rewrite Hsp; discriminate) Hn ltac:(lia) Hdiv Ho)
    as (vs & grid & HF & Hlg & Hgrid & Hsub & _).
  exists grid. split; [exact Hlg|]. split; [|exact Hsub].
  intros i c Hi. destruct (Hgrid i c Hi) as [Hl Hpl]. split; [exact Hl|].
  assert (i < length grid)%nat as Hlt by (apply nth_error_Some; congruence).
  intros j name Hj. rewrite (Hpl j name Hj). destruct Hwn as [Hcn _]. rewrite Hsp in HF.
  destruct (find_var name vs) as [v|] eqn:Ef.
  - destruct (inited_schedule _ _ _ _ _ _ _ Hcn HF j name v Hj Ef) as (x0 & T & Hx & HT & _ & Hst').
    simpl in Hst'. rewrite HT, Hx. simpl. rewrite (linspace_nth_R _ _ _ _ _ Hst') by lia. reflexivity.
  - destruct (manual_init_names _ _ _ _ _ _ _ HF) as [Hnames _].
    apply find_var_None in Ef. rewrite Hnames in Ef. apply find_var_None in Ef.
    rewrite assoc_targets, Ef; reflexivity.
Qed.

(** Steps of one variable move monotonically from its start to its target. *)
Definition mono_var (v : cvar R) : Prop :=
  exists x0, v_value v = Some x0 /\
  forall i a b, nth_error (v_steps v) i = Some a -> nth_error (v_steps v) (S i) = Some b ->
    toward x0 (v_target v) a b.

Lemma toward_lerp x0 T a b (i : nat) (d : Z) :
  (0 < d)%Z -> toward x0 T a b ->
  toward x0 T (a + INR i * (b - a) / IZR d) (a + INR (S i) * (b - a) / IZR d).
Proof.
  intros Hd [H1 H2]. assert (0 < IZR d)%R as Hd' by (apply IZR_lt; exact Hd).
  assert (0 < / IZR d)%R as Hi by (apply Rinv_0_lt_compat; exact Hd').
  rewrite S_INR. unfold Rdiv. set (w := (/ IZR d)%R) in *.
  split; intros H; [specialize (H1 H)|specialize (H2 H)]; nra.
Qed.

Lemma divide_mono ndiv v v' ctr :
  1 <= ndiv -> (2 <= ctr <= length (v_steps v))%nat ->
  divide_var ROps Linear ndiv ctr v = Ok v' -> mono_var v -> mono_var v'.
Proof.
  intros Hnd Hctr H (x0 & Hx0 & Hm). unfold divide_var in H.
  destruct (get (v_steps v) (ctr - 2)) as [a|] eqn:Ea; simpl in H; [|discriminate].
  destruct (get (v_steps v) (ctr - 1)) as [b|] eqn:Eb; simpl in H; [|discriminate].
  destruct (linspace ROps a b (ndiv + 1)) as [new|] eqn:En; simpl in H; [|discriminate].
  unfold np_insert in H. destruct (Nat.leb_spec (ctr - 1) (length (v_steps v))); simpl in H; [|discriminate].
  apply get_ok in Ea, Eb. injection H as <-. exists x0. split; [exact Hx0|]. cbn [v_steps v_target].
  set (p := (ctr - 1)%nat) in *. replace (ctr - 2)%nat with (p - 1)%nat in Ea by lia.
  assert (Hp : (1 <= p < length (v_steps v))%nat) by lia.
  set (d := Z.to_nat (ndiv - 1)).
  assert (Hnl : length new = Z.to_nat (ndiv + 1)) by (apply linspace_length in En; apply En).
  assert (Hil : length (inner new) = d) by (rewrite inner_length; lia).
  assert (Htow : toward x0 (v_target v) a b).
  { apply (Hm (p - 1)%nat); [exact Ea|]. replace (S (p - 1)) with p by lia. exact Eb. }
  (* values of the new list *)
  assert (Hlo : forall i, (i < p)%nat ->
            nth_error (firstn p (v_steps v) ++ inner new ++ skipn p (v_steps v)) i = nth_error (v_steps v) i).
  { intros i Hi. rewrite nth_error_app1 by (rewrite firstn_length_le; lia).
    rewrite <- (firstn_skipn p (v_steps v)) at 2.
    rewrite nth_error_app1 by (rewrite firstn_length_le; lia); reflexivity. }
  assert (Hhi : forall i, (p + d <= i)%nat ->
            nth_error (firstn p (v_steps v) ++ inner new ++ skipn p (v_steps v)) i = nth_error (v_steps v) (i - d)).
  { intros i Hi. rewrite nth_error_app2; rewrite firstn_length_le by lia; [|lia].
    rewrite nth_error_app2 by lia.
    rewrite <- (firstn_skipn p (v_steps v)) at 2.
    rewrite nth_error_app2; rewrite firstn_length_le by lia; [|lia].
    f_equal; lia. }
  assert (Hin : forall i, (p - 1 <= i <= p + d)%nat ->
            nth_error (firstn p (v_steps v) ++ inner new ++ skipn p (v_steps v)) i =
            Some (a + INR (i + 1 - p) * (b - a) / IZR ndiv)%R).
  { intros i Hi. destruct (Nat.eq_dec i (p - 1)) as [->|H1].
    - rewrite Hlo by lia. rewrite Ea. replace (p - 1 + 1 - p)%nat with 0%nat by lia. simpl. f_equal.
      field. apply IZR_neq; lia.
    - destruct (Nat.eq_dec i (p + d)) as [->|H3].
      + rewrite Hhi by lia. replace (p + d - d)%nat with p by lia. rewrite Eb. f_equal.
        rewrite INR_IZR_INZ. replace (Z.of_nat (p + d + 1 - p)) with ndiv by lia.
        field. apply IZR_neq; lia.
      + rewrite nth_error_app2; rewrite firstn_length_le by lia; [|lia].
        rewrite nth_error_app1 by lia. unfold inner.
        rewrite nth_error_removelast by (destruct new; simpl in *; lia).
        assert (nth_error (tl new) (i - p) = nth_error new (S (i - p))) as ->
          by (destruct new; simpl; [destruct (i - p)%nat|]; reflexivity).
        rewrite (linspace_nth_R _ _ _ _ _ En) by lia. f_equal.
        replace (ndiv + 1 - 1) with ndiv by lia. replace (i + 1 - p)%nat with (S (i - p)) by lia. reflexivity. }
  intros i y z Hy Hz.
  destruct (Nat.lt_ge_cases (S i) p) as [H1|H1].
  - rewrite Hlo in Hy, Hz by lia. eapply Hm; eassumption.
  - destruct (Nat.lt_ge_cases i (p + d)) as [H3|H3].
    + rewrite (Hin i) in Hy by lia. rewrite (Hin (S i)) in Hz by lia.
      apply (f_equal (fun o => match o with Some r => r | None => 0%R end)) in Hy, Hz. cbv beta iota in Hy, Hz.
      rewrite <- Hy, <- Hz. clear Hy Hz.
      replace (S i + 1 - p)%nat with (S (i + 1 - p)) by lia. apply toward_lerp; [lia|exact Htow].
    + rewrite Hhi in Hy, Hz by lia. replace (S i - d)%nat with (S (i - d)) in Hz by lia. eapply Hm; eassumption.
Qed.

Lemma init_mono n cn c0 (v v' : cvar R) :
  2 <= n -> manual_init_var ROps Linear n cn c0 v = Ok v' -> mono_var v'.
Proof.
  intros H2 H. unfold manual_init_var in H.
  destruct (index_of (v_name v) cn) as [jj|]; simpl in H; [|discriminate].
  destruct (get c0 jj) as [x|]; simpl in H; [|discriminate].
  destruct (linspace ROps x (v_target v) n) as [l|] eqn:El; simpl in H; [|discriminate].
  injection H as <-. exists x. split; [reflexivity|]. cbn [v_steps v_target].
  assert (length l = Z.to_nat n) as Hl by (apply linspace_length in El; apply El).
  intros i a b Ha Hb.
  assert (S i < length l)%nat as Hi by (apply nth_error_Some; congruence).
  rewrite (linspace_nth_R _ _ _ _ i El) in Ha by lia.
  rewrite (linspace_nth_R _ _ _ _ (S i) El) in Hb by lia.
  apply (f_equal (fun o => match o with Some r => r | None => 0%R end)) in Ha, Hb. cbv beta iota in Ha, Hb.
  rewrite <- Ha, <- Hb. clear Ha Hb. apply toward_lerp; [lia|]. split; intros; assumption.
Qed.

(** Between consecutive converged cases every continued constant moves towards
    its target. *)
Lemma bisection_monotone {P} (slv : solver R P) fuel k s guess cn n s' lst calls :
  keeps_const slv -> well_named cn (t_const guess) -> NoDup (map v_name (s_vars s)) ->
  s_kind s = Bisection -> s_spacing s = Linear -> s_num s = Some n -> 2 <= n -> 1 <= s_ndiv s ->
  run_step ROps fuel slv k s guess cn = Finished s' lst calls ->
  forall i sol1 sol2, nth_error (converged_sols calls) i = Some sol1 ->
    nth_error (converged_sols calls) (S i) = Some sol2 ->
  forall j name x0 T a b, nth_error cn j = Some name -> nth_error (t_const guess) j = Some x0 ->
    assoc name (targets (s_vars s)) = Some T ->
    nth_error (t_const sol1) j = Some a -> nth_error (t_const sol2) j = Some b -> toward x0 T a b.
Proof.
  intros Hkeep [Hcn Hlen] Hnd Hk Hsp Hn H2 Hdiv Ho i sol1 sol2 H1 H3 j name x0 T a b Hj Hx HT Ha Hb.
  unfold run_step in Ho.
  destruct (init ROps (reset s) guess cn) as [s1 [u|e]] eqn:Ei; [|discriminate].
  destruct (bis_init Hk Hn ltac:(lia) ltac:(rewrite Hsp; discriminate) Ei) as (vs & HF & Hvs & Hsp' & HI & HC).
  pose proof (bis_run ROps _ _ _ _ _ _ _ Hdiv slv Hkeep Hcn Hnd fuel k s1 guess [] _ HI HC) as HR.
  rewrite Ho in HR. destruct HR as (m' & _ & _ & _ & _ & _ & Hnm & [_ HC2]).
  rewrite Hsp in HF.
  set (Q := fun v => mono_var v /\ exists j, nth_error cn j = Some (v_name v) /\ nth_error (t_const guess) j = v_value v).
  pose proof (bis_run_pred ROps guess cn (map v_name (s_vars s)) (s_ndiv s) (s_maxdiv s) vs (Z.to_nat n) Hdiv Linear Q) as HP.
  assert (HQ : Forall Q (s_vars s')).
  { assert (HX : match iterate ROps fuel slv k s1 guess [] with
           | Finished s' lst calls' => Forall Q (s_vars s') | _ => True end); [|rewrite Ho in HX; exact HX].
    eapply HP; [|exact HI|congruence|].
    - intros v v' ctr Hc Hd [Hm Hv]. split; [eapply divide_mono; eassumption|].
      unfold divide_var in Hd.
      destruct (get (v_steps v) (ctr - 2)); simpl in Hd; [|discriminate].
      destruct (get (v_steps v) (ctr - 1)); simpl in Hd; [|discriminate].
      destruct (linspace _ _ _ _); simpl in Hd; [|discriminate].
      destruct (np_insert _ _ _); simpl in Hd; [|discriminate].
      injection Hd as <-. exact Hv.
    - rewrite Hvs. clear - HF H2. induction HF as [|v v' vs0 vs Hv _ IH]; constructor; [|exact IH].
      split; [eapply init_mono; eassumption|]. unfold manual_init_var in Hv.
      destruct (index_of (v_name v) cn) as [jj|] eqn:Ejj; simpl in Hv; [|discriminate].
      destruct (get (t_const guess) jj) as [x|] eqn:Ex; simpl in Hv; [|discriminate].
      destruct (linspace _ _ _ _); simpl in Hv; [|discriminate]. injection Hv as <-.
      exists jj. simpl. split; [apply index_of_nth; exact Ejj|apply get_ok; exact Ex]. }
  destruct (HC2 _ _ H1) as [_ P1]. destruct (HC2 _ _ H3) as [_ P2].
  rewrite (P1 j name Hj) in Ha. rewrite (P2 j name Hj) in Hb.
  assert (Htg : targets (s_vars s') = targets (s_vars s)).
  { destruct (manual_init_names _ _ _ _ _ _ _ HF) as [_ Ht].
    assert (HX : match iterate ROps fuel slv k s1 guess [] with
           | Finished s' lst calls' => targets (s_vars s') = targets vs | _ => True end);
      [|rewrite Ho in HX; rewrite HX; exact Ht].
    apply (iterate_inv ROps slv (fun t g0 calls0 => exists m,
       BInv guess cn (map v_name (s_vars s)) (s_ndiv s) (s_maxdiv s) vs (Z.to_nat n) t g0 calls0 m /\
       targets (s_vars t) = targets vs)
       (fun o => match o with Finished s' lst calls' => targets (s_vars s') = targets vs | _ => True end)).
    - intros t g0 calls0 t' (m & HI' & Ht') Hnx. destruct (bis_stop Hdiv HI' Hnx) as (_ & _ & _ & ->). exact Ht'.
    - intros; exact I.
    - intros; exact I.
    - intros t g0 calls0 t' g k0 sol (m & HI' & Ht') Hnx Hs.
      destruct (bis_step Hdiv sol HI' Hnx) as [m2 HI2]. exists m2; split; [exact HI2|].
      destruct (bis_next_ok Hdiv HI' Hnx) as (m3 & c & HN).
      destruct (N_cases HN) as [[_ Hv]|(_ & _ & _ & w & Hd)]; simpl; [rewrite Hv; exact Ht'|].
      apply divide_vars_ok in Hd; [|exact Hdiv]. apply divided_names in Hd. destruct Hd as [_ ->]. exact Ht'.
    - exact I.
    - exists (Z.to_nat n); split; [exact HI|rewrite Hvs; reflexivity]. }
  rewrite <- Htg, assoc_targets in HT.
  destruct (find_var name (s_vars s')) as [v|] eqn:Ef; [|discriminate]. simpl in HT. injection HT as <-.
  apply find_var_Some in Ef. destruct Ef as [Hin <-].
  rewrite Forall_forall in HQ. destruct (HQ _ Hin) as [(y0 & Hy0 & Hm) (j' & Hj' & Hv')].
  assert (j' = j) as ->.
  { apply (index_of_NoDup _ _ _ Hcn) in Hj. apply (index_of_NoDup _ _ _ Hcn) in Hj'. congruence. }
  assert (y0 = x0) as -> by congruence. eapply Hm; eassumption.
Qed.

(** ** C07: a bisection step need not end *)

Section Zeno.
  Context {F : Type} (O : NumOps F) {P : Type} (body : P) (x T : F).

  (** Every other call converges. *)
  Definition alternating : solver F P := fun k g =>
    Ok (mkTraj (t_const g) (if Nat.even k then FTrue else FFalse) body).

  Definition zeno_strat : strat F P := set_const (new_bisection 2 10 2) "a" T.
  Definition zeno_guess : traj F P := mkTraj [x] FFalse body.

  Definition ZInv (s : strat F P) (c : nat) : Prop :=
    (1 <= c)%nat /\ s_kind s = Bisection /\ s_ctr s = c /\ s_num s = Some (Z.of_nat c + 1) /\
    s_spacing s = Linear /\ s_cnames s = ["a"%string] /\ s_ndiv s = 2 /\ s_maxdiv s = 10 /\
    (exists v, s_vars s = [v] /\ v_name v = "a"%string /\ length (v_steps v) = S c) /\
    (exists lg, last_gamma s = Some lg /\ truthy (t_conv lg) = true /\ length (t_const lg) = 1%nat).

  Lemma next_base_intro (s : strat F P) ig lg num :
    last_gamma s = Some lg -> (ig = true \/ truthy (t_conv lg) = true) ->
    s_num s = Some num -> Z.of_nat (s_ctr s) < num ->
    NoDup (s_cnames s) -> length (s_cnames s) = length (t_const lg) -> NoDup (map v_name (s_vars s)) ->
    Forall (fun v => In (v_name v) (s_cnames s) /\ exists y, nth_error (v_steps v) (s_ctr s) = Some y) (s_vars s) ->
    exists g, next_base O s ig = (upd_ctr s (S (s_ctr s)), Ok g) /\ length (t_const g) = length (t_const lg).
  Proof.
    intros Hl Hok Hn Hc Hcn Hlen Hnd Hall. unfold next_base. rewrite Hl.
    assert (negb ig && negb (length (s_gammas s) =? 1)%nat && negb (truthy (t_conv lg)) = false) as ->.
    { destruct Hok as [->| ->]; [reflexivity|]. rewrite andb_false_r; reflexivity. }
    rewrite Hn. destruct (Z.leb_spec num (Z.of_nat (s_ctr s))); [lia|].
    destruct (put_vars_exists _ _ _ (t_const lg) Hcn Hlen Hall) as [c Hput]. rewrite Hput.
    destruct (put_vars_ok _ _ _ _ _ Hput Hcn Hnd) as [[Hlc _] _].
    assert (Hne : s_gammas s <> []).
    { destruct (last_gamma_spec _ _ Hl) as [gs ->]; destruct gs; discriminate. }
    destruct (closest_ok O (s_gammas s) c Hne) as [i [gi [Hi Hgi]]]. rewrite Hi, Hgi.
    eexists; split; [reflexivity|exact Hlc].
  Qed.

  Lemma last_gamma_add (s : strat F P) g : last_gamma (add_gamma s g) = Some g.
  Proof. eapply last_gamma_app; reflexivity. Qed.

  Lemma a_NoDup : NoDup ["a"%string].
  Proof. constructor; [intros []|constructor]. Qed.

  Lemma zeno_loop fuel : forall s c k guess calls,
    ZInv s c -> Nat.even k = false -> iterate O fuel alternating k s guess calls = OutOfFuel.
  Proof.
    induction fuel as [fuel IH] using lt_wf_ind. intros s c k guess calls
      (Hc & Hk & Hctr & Hnum & Hsp & Hcn & Hnd & Hmd & (v & Hv & Hvn & Hvl) & (lg & Hlg & Hlc & Hll)) Hev.
    destruct fuel as [|fuel]; [reflexivity|]. cbn [iterate].
    destruct (next_base_intro (upd_divctr s 0) false lg (Z.of_nat c + 1)) as (g1 & Hnx1 & Hlg1).
    { exact Hlg. } { right; exact Hlc. } { exact Hnum. } { simpl; lia. }
    { simpl; rewrite Hcn; apply a_NoDup. } { simpl; rewrite Hcn; simpl; lia. }
    { simpl; rewrite Hv; simpl; rewrite Hvn; apply a_NoDup. }
    { simpl; rewrite Hv; constructor; [|constructor]. rewrite Hcn, Hvn, Hctr. split; [left; reflexivity|].
      destruct (nth_error (v_steps v) c) eqn:E; [eauto|]. apply nth_error_None in E; lia. }
    assert (Hnext1 : next O s = (upd_ctr (upd_divctr s 0) (S c), Ok g1)).
    { unfold next; rewrite Hk. unfold next_bisection. destruct (Nat.eqb_spec (s_ctr s) 0); [lia|].
      unfold last_conv; rewrite Hlg, Hlc. rewrite Hnx1. simpl. rewrite Hctr; reflexivity. }
    rewrite Hnext1. unfold alternating at 1. rewrite Hev.
    set (sol1 := mkTraj (t_const g1) FFalse body).
    set (s1 := add_gamma (upd_ctr (upd_divctr s 0) (S c)) sol1).
    destruct fuel as [|fuel]; [reflexivity|]. cbn [iterate].
    (* division *)
    assert (Hdiv : exists v', divide_vars O Linear 2 (S c) [v] = ([v'], Ok tt) /\
                     v_name v' = "a"%string /\ length (v_steps v') = S (S c)).
    { simpl. destruct (divide_var O Linear 2 (S c) v) as [v'|e] eqn:Ed.
      - exists v'. split; [reflexivity|].
        assert (Hd : divided 2 (S c - 1) v v') by (eapply divide_var_ok; [lia|exact Ed]).
        destruct (divided_nth 2 (S c - 1) v v' 0 (S c) ltac:(lia) Hd Hvl ltac:(lia)) as (Hl' & _).
        destruct Hd as (Hn' & _). split; [congruence|]. rewrite Hl'. simpl. lia.
      - exfalso. unfold divide_var in Ed. unfold get in Ed.
        destruct (nth_error (v_steps v) (S c - 2)) as [y1|] eqn:E1; cbn [bind] in Ed; [|apply nth_error_None in E1; lia].
        destruct (nth_error (v_steps v) (S c - 1)) as [y2|] eqn:E2; cbn [bind] in Ed; [|apply nth_error_None in E2; lia].
        destruct (linspace_ok O true y1 y2 (2 + 1) ltac:(lia)) as [nl Hnl]. unfold linspace in Ed.
        rewrite Hnl in Ed. cbn [bind] in Ed. unfold np_insert in Ed.
        destruct (Nat.leb_spec (S c - 1) (length (v_steps v))); [discriminate|lia]. }
    destruct Hdiv as (v' & Hdv & Hvn' & Hvl').
    set (s2 := upd_divctr (upd_num (upd_ctr (upd_vars s1 [v']) c) (Some (Z.of_nat c + 2))) 1).
    destruct (next_base_intro s2 true sol1 (Z.of_nat c + 2)) as (g2 & Hnx2 & Hlg2).
    { unfold s2, s1. change (last_gamma (add_gamma (upd_ctr (upd_divctr s 0) (S c)) sol1) = Some sol1).
      apply last_gamma_add. }
    { left; reflexivity. } { reflexivity. } { simpl; lia. }
    { simpl; rewrite Hcn; apply a_NoDup. } { simpl; rewrite Hcn; simpl; lia. }
    { simpl; rewrite Hvn'; apply a_NoDup. }
    { simpl; constructor; [|constructor]. rewrite Hcn, Hvn'. split; [left; reflexivity|].
      destruct (nth_error (v_steps v') c) eqn:E; [eauto|]. apply nth_error_None in E; lia. }
    assert (Hnext2 : next O s1 = (upd_ctr s2 (S c), Ok g2)).
    { unfold next. replace (s_kind s1) with Bisection by (symmetry; exact Hk). unfold next_bisection.
      unfold last_conv. replace (last_gamma s1) with (Some sol1) by (symmetry; apply last_gamma_add).
      cbn [truthy t_conv sol1].
      replace (s_ctr s1) with (S c) by reflexivity. cbn [Nat.eqb].
      destruct (Nat.eqb_spec c 0) as [?|_]; [lia|].
      replace (s_maxdiv s1) with 10 by (symmetry; exact Hmd). replace (s_divctr s1) with 0 by reflexivity.
      cbn [Z.ltb Z.compare]. replace (s_spacing s1) with Linear by (symmetry; exact Hsp).
      replace (s_ndiv s1) with 2 by (symmetry; exact Hnd). replace (s_vars s1) with [v] by (symmetry; exact Hv).
      rewrite Hdv. replace (s_num s1) with (Some (Z.of_nat c + 1)) by (symmetry; exact Hnum).
      replace (Z.of_nat c + 1 + 2 - 1) with (Z.of_nat c + 2) by lia.
      replace (S c - 1)%nat with c by lia. exact Hnx2. }
    rewrite Hnext2. unfold alternating at 1.
    assert (Nat.even (S k) = true) as -> by (rewrite Nat.even_succ, <- Nat.negb_even, Hev; reflexivity).
    apply (IH fuel ltac:(lia) _ (S c)).
    - split; [lia|]. repeat split.
      + exact Hk.
      + simpl. f_equal. lia.
      + exact Hsp.
      + exact Hcn.
      + exact Hnd.
      + exact Hmd.
      + exists v'. repeat split; assumption.
      + eexists. split; [apply last_gamma_add|]. split; [reflexivity|]. simpl.
        simpl in Hlg2. rewrite Hlg2. simpl in Hlg1. rewrite Hlg1. exact Hll.
    - exact Hev.
  Qed.

  Lemma zeno_never_ends fuel :
    run_step O fuel alternating 0 zeno_strat zeno_guess ["a"%string] = OutOfFuel.
  Proof.
    unfold run_step.
    assert (exists l s1, init O (reset zeno_strat) zeno_guess ["a"%string] = (s1, Ok tt) /\
       linspace O x T 2 = Ok l /\
       s1 = upd_vars (init_base (reset zeno_strat) zeno_guess ["a"%string]) [mkVar "a" T (Some x) l]) as
      (l & s1 & Hi & Hl & Hs1).
    { destruct (linspace_ok O true x T 2 ltac:(lia)) as [l Hl]. exists l. eexists. split; [|split; [exact Hl|reflexivity]].
      change (linspace O x T 2 = Ok l) in Hl.
      cbn -[linspace]. rewrite Hl. reflexivity. }
    rewrite Hi. pose proof (linspace_length O true x T 2 l Hl) as [Hll _].
    destruct fuel as [|fuel]; [reflexivity|]. cbn [iterate].
    assert (exists g, next O s1 = (upd_ctr (upd_divctr s1 0) 1, Ok g) /\ length (t_const g) = 1%nat) as (g & Hn & Hlg).
    { subst s1. unfold next, next_bisection. simpl s_kind. cbn iota.
      set (s := upd_vars _ _). change (s_ctr s) with 0%nat. cbn [Nat.eqb].
      unfold next_base. simpl. destruct l as [|y [|z [|w l]]]; try discriminate. simpl.
      set (q := mkTraj [x] FFalse body). eexists; split; [reflexivity|reflexivity]. }
    rewrite Hn. unfold alternating at 1. cbn [Nat.even].
    apply (zeno_loop fuel _ 1%nat); [|reflexivity].
    subst s1. split; [lia|]. repeat split.
    - eexists. split; [reflexivity|]. split; [reflexivity|]. exact Hll.
    - eexists. split; [apply last_gamma_add|]. split; [reflexivity|]. exact Hlg.
  Qed.
End Zeno.

(** ** If every call converges from some point on, the step ends. *)

Section Ends.
  Context {F : Type} (O : NumOps F) {P : Type}.
  Notation traj := (traj F P). Notation call := (call F P).

  Definition nfail (calls : list call) : nat := (length calls - length (conv_sols calls))%nat.

  Lemma conv_sols_le (calls : list call) : (length (conv_sols calls) <= length calls)%nat.
  Proof.
    unfold conv_sols. induction calls as [|c l IH]; simpl; [lia|]. destruct (truthy _); simpl; lia.
  Qed.

  Lemma nfail_snoc (calls : list call) g sol :
    nfail (calls ++ [(g, sol)]) = if truthy (t_conv sol) then nfail calls else S (nfail calls).
  Proof.
    pose proof (conv_sols_snoc calls g sol) as Hs. pose proof (conv_sols_le calls) as Hle.
    unfold nfail, Cont_Model.call in *. rewrite Hs, app_length. simpl.
    destruct (truthy (t_conv sol)); [rewrite app_length; simpl; lia|]. lia.
  Qed.

  Definition pend (calls : list call) (g0 : traj) : nat :=
    match calls with [] => 0%nat | _ => if last_is_conv calls g0 then 0%nat else 1%nat end.

  Lemma pend_snoc (calls : list call) g sol g0 :
    pend (calls ++ [(g, sol)]) g0 = if truthy (t_conv sol) then 0%nat else 1%nat.
  Proof.
    unfold pend. destruct (calls ++ [(g, sol)]) eqn:E; [destruct calls; discriminate|].
    rewrite <- E. unfold last_is_conv. rewrite map_app; cbn [map snd]; rewrite last_last. reflexivity.
  Qed.

  Lemma bis_ends (slv : solver F P) K guess0 cn names ndiv maxdiv vs0 m0 :
    1 <= ndiv ->
    (forall k g sol, (K <= k)%nat -> slv k g = Ok sol -> converged sol) ->
    forall fuel k s guess calls m,
      BInv guess0 cn names ndiv maxdiv vs0 m0 s guess calls m ->
      (nfail calls <= K)%nat -> (nfail calls <= k)%nat ->
      (Z.of_nat m <= Z.of_nat m0 + (ndiv - 1) * (Z.of_nat (nfail calls) - Z.of_nat (pend calls (init_gamma guess0)))) ->
      (pend calls (init_gamma guess0) <= nfail calls)%nat ->
      Z.of_nat m0 + ndiv * Z.of_nat K < Z.of_nat fuel + Z.of_nat (length calls) ->
      iterate O fuel slv k s guess calls <> OutOfFuel.
  Proof.
    intros Hnd HK. induction fuel as [|fuel IH]; intros k s guess calls m HI HfK Hfk Hm Hp Hfuel.
    - exfalso. pose proof (B_done HI) as Hd. pose proof (B_ctr HI) as Hc.
      pose proof (conv_sols_le calls) as Hle. unfold nfail in *.
      assert (length (conv_sols calls) <= m)%nat by (destruct (last_is_conv _ _); lia).
      nia.
    - cbn [iterate]. destruct (next O s) as [s' [g|e]] eqn:En; [|destruct e; discriminate].
      destruct (slv k g) as [sol|e] eqn:Es; [|discriminate].
      destruct (bis_next_ok Hnd HI En) as (m' & c & HN).
      destruct (bis_step Hnd sol HI En) as (m2 & HI2).
      assert (m2 = m') as ->.
      { pose proof (B_num HI2) as H1. pose proof (N_num HN) as H2. simpl in H1. rewrite H1 in H2.
        injection H2 as H2. lia. }
      eapply IH; [exact HI2| | | | |].
      + rewrite nfail_snoc. destruct (truthy (t_conv sol)) eqn:Et; [exact HfK|].
        destruct (Nat.le_gt_cases K k) as [Hk|Hk]; [|lia].
        exfalso. pose proof (HK k g sol Hk Es) as Hc. unfold converged in Hc; congruence.
      + rewrite nfail_snoc. destruct (truthy (t_conv sol)); lia.
      + rewrite nfail_snoc, pend_snoc.
        assert (Z.of_nat m' <= Z.of_nat m0 + (ndiv - 1) * Z.of_nat (nfail calls)) as Hm'.
        { destruct (N_div HN) as [(Hc & _ & ->)|(Hne & Hlc & _ & _ & ->)]; [nia|].
          unfold pend in Hm, Hp. destruct calls as [|c0 calls]; [congruence|]. rewrite Hlc in Hm, Hp. nia. }
        destruct (truthy (t_conv sol)); nia.
      + rewrite nfail_snoc, pend_snoc. destruct (truthy (t_conv sol)); lia.
      + rewrite app_length; simpl. lia.
  Qed.

  Lemma bisection_ends slv fuel k (s : strat F P) guess cn n K :
    s_kind s = Bisection -> s_spacing s <> OtherSpacing -> s_num s = Some n -> 0 <= n -> 1 <= s_ndiv s ->
    (forall k g sol, (K <= k)%nat -> slv k g = Ok sol -> converged sol) ->
    n + s_ndiv s * Z.of_nat K < Z.of_nat fuel ->
    run_step O fuel slv k s guess cn <> OutOfFuel.
  Proof.
    intros Hk Hsp Hn H0 Hdiv HK Hfuel. unfold run_step.
    destruct (init O (reset s) guess cn) as [s1 [u|e]] eqn:Ei; [|discriminate].
    destruct (bis_init Hk Hn H0 Hsp Ei) as (vs & HF & Hvs & Hsp' & HI & HC).
    eapply bis_ends; [exact Hdiv|exact HK|exact HI| | | | |]; cbn; lia.
  Qed.
End Ends.
