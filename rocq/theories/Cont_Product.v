(** Product and sparse product strategies (C09, C10, C12). *)
From Coq Require Import Reals Lra.
From Verif Require Import Base Base_Facts Cont_Model Cont_Spec Cont_Proofs Cont_Warm.

Lemma mapM_Forall2 {A B} (f : A -> res B) l r : mapM f l = Ok r -> Forall2 (fun a b => f a = Ok b) l r.
Proof.
  revert r; induction l as [|a l IH]; intros r H; simpl in H; [injection H as <-; constructor|].
  destruct (f a) as [b|] eqn:E; simpl in H; [|discriminate].
  destruct (mapM f l) as [bs|]; simpl in H; [|discriminate]. injection H as <-. constructor; [exact E|].
  apply IH; reflexivity.
Qed.

Lemma Forall2_nth {A B} (R : A -> B -> Prop) l r i a :
  Forall2 R l r -> nth_error l i = Some a -> exists b, nth_error r i = Some b /\ R a b.
Proof.
  intros H; revert i; induction H as [|x y l r Hxy _ IH]; intros [|i] E; try discriminate; simpl in *.
  - injection E as <-. eauto.
  - apply IH; exact E.
Qed.

Lemma Forall2_nth_r {A B} (R : A -> B -> Prop) l r i b :
  Forall2 R l r -> nth_error r i = Some b -> exists a, nth_error l i = Some a /\ R a b.
Proof.
  intros H; revert i; induction H as [|x y l r Hxy _ IH]; intros [|i] E; try discriminate; simpl in *.
  - injection E as <-. eauto.
  - apply IH; exact E.
Qed.

Lemma Forall2_len {A B} (R : A -> B -> Prop) l r : Forall2 R l r -> length l = length r.
Proof. induction 1; simpl; lia. Qed.

(** ** Runs over a fixed schedule *)
Section Sched.
  Context {F : Type} (O : NumOps F) {P : Type}.
  Notation traj := (traj F P). Notation strat := (strat F P). Notation call := (call F P).
  Notation cvar := (cvar F).
  Variables (cn : list string) (vs : list cvar) (guess0 : traj) (n : Z).
  Hypothesis Hcn : NoDup cn.
  Hypothesis Hnd : NoDup (map v_name vs).

  Record PInv (s : strat) (guess : traj) (calls : list call) : Prop := {
    P_kind : s_kind s = Product \/ s_kind s = Sparse;
    P_gam : s_gammas s = init_gamma guess0 :: map snd calls;
    P_num : s_num s = Some n;
    P_ctr : s_ctr s = length calls;
    P_le : Z.of_nat (length calls) <= Z.max 0 n;
    P_vars : s_vars s = vs;
    P_cn : s_cnames s = cn;
    P_guess : guess = last (map snd calls) guess0;
    P_first : forall c d r, calls = c :: d :: r -> converged (snd c);
    P_at : forall i c, nth_error calls i = Some c ->
      t_const (snd c) = t_const (fst c) /\ placed cn vs i (t_const guess0) (t_const (snd c))
  }.

  Lemma product_next s guess calls s' r :
    PInv s guess calls -> next O s = (s', r) ->
    (exists t ig, next_base O t ig = (s', r) /\ PInv t guess calls /\
       (ig = true \/ converged (last (map snd calls) (init_gamma guess0)) \/ calls = []) /\
       (calls <> [] -> forall c, calls = [c] -> converged (snd c))) \/
    (r = Raise RuntimeError /\ exists c, calls = [c] /\ ~ converged (snd c)).
  Proof.
    intros HI Hn. pose proof (P_gam _ _ _ HI) as Hg. pose proof (P_ctr _ _ _ HI) as Hc.
    assert (Hn' : next_product O s = (s', r)).
    { unfold next in Hn. destruct (P_kind _ _ _ HI) as [E|E]; rewrite E in Hn; exact Hn. }
    clear Hn. unfold next_product in Hn'.
    assert (HI' : PInv (upd_divctr s 0) guess calls) by (destruct HI; constructor; assumption).
    destruct (Nat.eqb_spec (s_ctr s) 0) as [E0|E0].
    - left. exists (upd_divctr s 0), false. split; [exact Hn'|]. split; [exact HI'|].
      assert (calls = []) as -> by (destruct calls; [reflexivity|simpl in Hc; lia]).
      split; [right; right; reflexivity|]. intros H; congruence.
    - unfold last_conv in Hn'. rewrite (calls_last calls (init_gamma guess0) s Hg) in Hn'.
      destruct (truthy (t_conv (last (map snd calls) (init_gamma guess0)))) eqn:Et.
      + left. exists (upd_divctr s 0), false. split; [exact Hn'|]. split; [exact HI'|].
        split; [right; left; exact Et|]. intros _ c ->. exact Et.
      + destruct (Nat.eqb_spec (s_ctr s) 1) as [E1|E1].
        * right. injection Hn' as <- <-. split; [reflexivity|].
          destruct calls as [|c [|d r']]; simpl in Hc; try lia. exists c. split; [reflexivity|].
          unfold converged. simpl in Et. rewrite Et. discriminate.
        * left. exists s, true. split; [exact Hn'|]. split; [exact HI|]. split; [left; reflexivity|].
          intros _ c ->. simpl in Hc. lia.
  Qed.

  Lemma product_step slv s guess calls s' g k sol :
    keeps_const slv -> PInv s guess calls -> next O s = (s', Ok g) -> slv k g = Ok sol ->
    PInv (add_gamma s' sol) sol (calls ++ [(g, sol)]).
  Proof.
    intros Hkeep HI Hn Hs. destruct (product_next _ _ _ _ _ HI Hn) as [(t & ig & Hb & HI' & Hig & Hone)|[E _]]; [|discriminate].
    clear HI Hn. destruct HI' as [Hk Hg Hnum Hctr Hle Hvs Hcns Hguess Hfirst Hat].
    apply next_base_cases in Hb. simpl in Hb.
    destruct Hb as (lg & num & c & i & gi & Hlg & Hnum' & Hlt & Hput & _ & _ & _ & -> & ->).
    assert (num = n) as -> by congruence. rewrite Hctr in *. rewrite Hvs, Hcns in Hput.
    pose proof (put_vars_ok _ _ _ _ _ Hput Hcn Hnd) as [Hpl _].
    rewrite (calls_last calls (init_gamma guess0) t Hg) in Hlg. injection Hlg as <-.
    pose proof (Hkeep _ _ _ Hs) as Hsol. simpl in Hsol.
    unfold Cont_Model.call in *.
    constructor; simpl; try assumption.
    - rewrite Hg, map_app; reflexivity.
    - rewrite app_length; simpl; lia.
    - rewrite app_length; simpl; lia.
    - rewrite map_app; simpl; rewrite last_last; reflexivity.
    - intros c1 c2 r E. destruct calls as [|d [|e calls]]; [discriminate| |].
      + simpl in E. injection E as <- _ _. apply Hone; [discriminate|reflexivity].
      + simpl in E. injection E as <- _ _. eapply Hfirst; reflexivity.
    - intros j d Hd. destruct (Nat.lt_ge_cases j (length calls)) as [Hj|Hj].
      + rewrite nth_error_app1 in Hd by exact Hj. apply Hat; exact Hd.
      + rewrite nth_error_app2 in Hd by exact Hj.
        destruct (j - length calls)%nat as [|q] eqn:Eq; [|destruct q; discriminate].
        simpl in Hd. injection Hd as <-. assert (j = length calls) as -> by lia. simpl.
        split; [exact Hsol|]. rewrite Hsol.
        destruct calls as [|d calls] using rev_ind; [exact Hpl|].
        rewrite map_app in Hpl; simpl in Hpl; rewrite last_last in Hpl.
        eapply placed_trans; [reflexivity| |exact Hpl].
        apply (Hat (length calls)). rewrite nth_error_app2 by lia. rewrite Nat.sub_diag. reflexivity.
  Qed.

  Definition p_post (o : outcome F P) : Prop :=
    (forall i c, nth_error (log_of o) i = Some c ->
      t_const (snd c) = t_const (fst c) /\ placed cn vs i (t_const guess0) (t_const (snd c))) /\
    (forall s' lst calls, o = Finished s' lst calls ->
       Z.of_nat (length calls) = Z.max 0 n /\ lst = last (map snd calls) guess0).

  Lemma put_not_stop (us : list cvar) i c : put_vars cn us i c <> Raise StopIteration.
  Proof.
    revert c; induction us as [|v us IH]; intros c; simpl; [discriminate|].
    destruct (in_dec String.string_dec (v_name v) cn) as [Hi|Hi].
    - destruct (index_of_In _ _ Hi) as [jj ->]; simpl.
      unfold get; destruct (nth_error (v_steps v) i); simpl; [|discriminate].
      unfold set_nth; destruct (Nat.ltb _ _); simpl; [apply IH|discriminate].
    - rewrite (index_of_notIn _ _ Hi); discriminate.
  Qed.

  Lemma product_run slv fuel k s guess calls :
    keeps_const slv -> PInv s guess calls -> p_post (iterate O fuel slv k s guess calls).
  Proof.
    intros Hkeep HI. revert fuel k s guess calls HI.
    assert (forall fuel k s guess calls, PInv s guess calls -> p_post (iterate O fuel slv k s guess calls)) as HX;
      [|intros; apply HX; assumption].
    intros fuel k s guess calls HI.
    apply (iterate_inv O slv PInv p_post).
    - clear - Hcn. intros s guess calls s' HI Hn. split; [exact (P_at _ _ _ HI)|].
      intros s2 lst calls2 E. injection E as <- <- <-.
      destruct (product_next _ _ _ _ _ HI Hn) as [(t & ig & Hb & HI' & _)|[E _]]; [|discriminate].
      split; [|exact (P_guess _ _ _ HI)]. pose proof (P_le _ _ _ HI) as Hle.
      unfold next_base in Hb. rewrite (calls_last calls (init_gamma guess0) t (P_gam _ _ _ HI')) in Hb.
      destruct (_ && _ && _); [discriminate|]. rewrite (P_num _ _ _ HI') in Hb.
      rewrite (P_ctr _ _ _ HI') in Hb. destruct (Z.leb_spec n (Z.of_nat (length calls))) as [Hle'|]; [lia|].
      exfalso. rewrite (P_cn _ _ _ HI') in Hb.
      destruct (put_vars cn (s_vars t) (length calls) _) as [c|e] eqn:Ep.
      + assert (Hne : s_gammas t <> []) by (rewrite (P_gam _ _ _ HI'); discriminate).
        destruct (closest_ok O (s_gammas t) c Hne) as [i [gi [Hi Hgi]]]. rewrite Hi, Hgi in Hb. discriminate.
      + injection Hb as _ ->. eapply put_not_stop; exact Ep.
    - intros s0 g0 calls0 s' e HI0 _ _. split; [exact (P_at _ _ _ HI0)|]. intros ? ? ? E; discriminate.
    - intros s0 g0 calls0 s' g k0 e HI0 _ _. split; [exact (P_at _ _ _ HI0)|]. intros ? ? ? E; discriminate.
    - intros s0 g0 calls0 s' g k0 sol HI0 Hn Hs. eapply product_step; eassumption.
    - split; [intros [|i] c E; discriminate|]. intros ? ? ? E; discriminate.
    - exact HI.
  Qed.

  (** A run only raises when the first case failed, provided the solver does
      not raise and the schedule is complete. *)
  Lemma product_raise slv fuel k s guess calls :
    keeps_const slv -> total_solver slv -> length cn = length (t_const guess0) ->
    Forall (fun v => In (v_name v) cn /\ length (v_steps v) = Z.to_nat n) vs ->
    PInv s guess calls ->
    match iterate O fuel slv k s guess calls with
    | Raised e _ calls' => e = RuntimeError /\ exists c, calls' = [c] /\ ~ converged (snd c)
    | _ => True
    end.
  Proof.
    intros Hkeep Htot Hlen Hall HI.
    apply (iterate_inv O slv PInv (fun o => match o with
      | Raised e _ calls' => e = RuntimeError /\ exists c, calls' = [c] /\ ~ converged (snd c)
      | _ => True end)).
    - intros; exact I.
    - clear HI. intros t g0 calls0 t' e HI Hn Hne.
      destruct (product_next _ _ _ _ _ HI Hn) as [(t1 & ig & Hb & HI' & Hig & _)|[E Hc]].
      + exfalso. unfold next_base in Hb.
        rewrite (calls_last calls0 (init_gamma guess0) t1 (P_gam _ _ _ HI')) in Hb.
        assert (negb ig && negb (length (s_gammas t1) =? 1)%nat &&
                negb (truthy (t_conv (last (map snd calls0) (init_gamma guess0)))) = false) as E.
        { destruct Hig as [->|[Hig| ->]]; [reflexivity| |].
          - unfold converged in Hig; rewrite Hig. apply andb_false_r.
          - rewrite (P_gam _ _ _ HI'). simpl. rewrite andb_false_r; reflexivity. }
        rewrite E in Hb. rewrite (P_num _ _ _ HI'), (P_ctr _ _ _ HI'), (P_vars _ _ _ HI'), (P_cn _ _ _ HI') in Hb.
        destruct (Z.leb_spec n (Z.of_nat (length calls0))) as [Hle|Hlt]; [injection Hb as _ <-; congruence|].
        assert (exists c, put_vars cn vs (length calls0) (t_const (last (map snd calls0) (init_gamma guess0))) = Ok c) as [c Hc].
        { apply put_vars_exists; [exact Hcn| |].
          - destruct calls0 as [|d calls0] using rev_ind; [exact Hlen|].
            rewrite map_app; simpl; rewrite last_last.
            destruct (P_at _ _ _ HI' (length calls0) d) as [_ [Hl _]]; [|rewrite Hl; exact Hlen].
            rewrite nth_error_app2 by lia. rewrite Nat.sub_diag. reflexivity.
          - clear - Hall Hlt. induction Hall as [|v us [H1 H2] _ IH]; constructor; [|exact IH].
            split; [exact H1|]. destruct (nth_error (v_steps v) (length calls0)) eqn:E; [eauto|].
            apply nth_error_None in E. lia. }
        rewrite Hc in Hb.
        assert (Hne' : s_gammas t1 <> []) by (rewrite (P_gam _ _ _ HI'); discriminate).
        destruct (closest_ok O (s_gammas t1) c Hne') as [i [gi [Hi Hgi]]]. rewrite Hi, Hgi in Hb. discriminate.
      + split; [congruence|exact Hc].
    - intros t g0 calls0 t' g k0 e _ _ Hs. exfalso. destruct (Htot k0 g) as [sol E]. congruence.
    - intros s0 g0 calls0 s' g k0 sol HI0 Hn Hs. eapply product_step; eassumption.
    - exact I.
    - exact HI.
  Qed.

  Lemma product_fuel slv (Hkeep : keeps_const slv) : forall fuel k s guess calls,
    PInv s guess calls -> (Z.to_nat n < fuel + length calls)%nat ->
    iterate O fuel slv k s guess calls <> OutOfFuel.
  Proof.
    induction fuel as [|fuel IH]; intros k s guess calls HI Hf.
    - pose proof (P_le _ _ _ HI). lia.
    - cbn [iterate]. destruct (next O s) as [s' [g|e]] eqn:En; [|destruct e; discriminate].
      destruct (slv k g) as [sol|e] eqn:Es; [|discriminate].
      apply IH; [eapply product_step; eassumption|]. unfold Cont_Model.call in *. rewrite app_length; simpl; lia.
  Qed.
End Sched.

(** ** Initialisation of product and sparse strategies *)
Section Init.
  Context {F : Type} (O : NumOps F) {P : Type}.
  Notation traj := (traj F P). Notation strat := (strat F P). Notation call := (call F P).
  Notation cvar := (cvar F).

  Definition read_rel (cn : list string) (c0 : list F) (v v' : cvar) : Prop :=
    v_name v' = v_name v /\ v_target v' = v_target v /\ v_steps v' = v_steps v /\
    exists x, v_value v' = Some x /\ const_is cn c0 (v_name v) x.

  Lemma read_values_ok cn c0 vs vs' :
    read_values cn c0 vs = Ok vs' -> Forall2 (read_rel cn c0) vs vs'.
  Proof.
    revert vs'; induction vs as [|v vs IH]; intros vs' H; simpl in H; [injection H as <-; constructor|].
    destruct (index_of (v_name v) cn) as [jj|] eqn:Ej; simpl in H; [|discriminate].
    destruct (get c0 jj) as [x|] eqn:Ex; simpl in H; [|discriminate].
    destruct (read_values cn c0 vs) as [r|]; simpl in H; [|discriminate]. injection H as <-.
    constructor; [|apply IH; reflexivity]. repeat split. exists x. split; [reflexivity|].
    exists jj. split; [apply index_of_nth; exact Ej|apply get_ok; exact Ex].
  Qed.

  Lemma append_points_nth pts vs n0' m v :
    nth_error vs m = Some v ->
    nth_error (append_points O n0' pts vs) m =
      Some (mkVar (v_name v) (v_target v) (v_value v) (v_steps v ++ map (fun p => nth (n0' + m) p (n0 O)) pts)).
  Proof.
    revert n0' m; induction vs as [|w vs IH]; intros n0' [|m] H; try discriminate; simpl in *.
    - injection H as ->. rewrite Nat.add_0_r. reflexivity.
    - rewrite (IH (S n0') m H). replace (S n0' + m)%nat with (n0' + S m)%nat by lia. reflexivity.
  Qed.

  Lemma append_points_names pts vs k :
    map v_name (append_points O k pts vs) = map v_name vs /\ length (append_points O k pts vs) = length vs.
  Proof.
    revert k; induction vs as [|w vs IH]; intros k; simpl; [split; reflexivity|].
    destruct (IH (S k)) as [-> ->]. split; reflexivity.
  Qed.

  (** Both strategies: after [init] the state satisfies the invariant for the
      points computed. *)
  Lemma points_init (s s' : strat) g cn u :
    s_kind s = Product \/ s_kind s = Sparse -> init O (reset s) g cn = (s', Ok u) ->
    exists rs pts n,
      Forall2 (read_rel cn (t_const g)) (s_vars s) rs /\
      PInv cn (append_points O 0 pts rs) g n s' g [] /\
      match s_kind s with
      | Product => n = s_nsub s ^ Z.of_nat (length (s_vars s)) /\
          exists ls, mapM (fun v => linspace O (var_value O v) (v_target v) (s_nsub s)) rs = Ok ls /\ pts = cart ls
      | _ => n = Z.of_nat (length pts) /\
          sparse_points O (map (var_value O) rs) (map v_target rs) (fst (s_sub s)) (snd (s_sub s)) = Ok pts
      end.
  Proof.
    intros Hk. unfold init. destruct Hk as [Hk|Hk]; simpl; rewrite Hk.
    - unfold init_product, set_num_product. simpl.
      destruct (read_values cn (t_const g) (s_vars s)) as [rs|] eqn:Er; [|discriminate].
      destruct (mapM _ rs) as [ls|] eqn:El; [|discriminate]. intros H; injection H as <- _.
      exists rs, (cart ls), (s_nsub s ^ Z.of_nat (length (s_vars s))).
      split; [apply read_values_ok; exact Er|]. split; [|split; [reflexivity|exists ls; split; [exact El|reflexivity]]].
      constructor; simpl; try reflexivity; try (left; exact Hk); try lia; try discriminate.
      intros [|i] c E; discriminate.
    - unfold init_sparse. simpl.
      destruct (read_values cn (t_const g) (s_vars s)) as [rs|] eqn:Er; [|discriminate].
      destruct (sparse_points O _ _ _ _) as [pts|] eqn:Es; [|discriminate].
      unfold set_num_product; simpl. intros H; injection H as <- _.
      exists rs, pts, (Z.of_nat (length pts)).
      split; [apply read_values_ok; exact Er|]. split; [|split; [reflexivity|exact Es]].
      constructor; simpl; try reflexivity; try (right; exact Hk); try lia; try discriminate.
      intros [|i] c E; discriminate.
  Qed.

  Lemma find_var_nth (vs : list cvar) m v :
    NoDup (map v_name vs) -> nth_error vs m = Some v -> find_var (v_name v) vs = Some v.
  Proof.
    revert m; induction vs as [|w vs IH]; intros [|m] Hnd E; try discriminate; simpl in E;
      rewrite find_var_cons; simpl in Hnd; inversion Hnd as [|? ? Hni Hnd']; subst.
    - injection E as ->. rewrite String.eqb_refl. reflexivity.
    - destruct (String.eqb_spec (v_name w) (v_name v)) as [E'|_]; [|apply (IH m Hnd' E)].
      exfalso. apply Hni. rewrite E'. apply in_map. eapply nth_error_In; exact E.
  Qed.

  Lemma read_names cn c0 (vs rs : list cvar) :
    Forall2 (read_rel cn c0) vs rs -> map v_name rs = map v_name vs /\ targets rs = targets vs.
  Proof.
    induction 1 as [|v v' vs rs (H1 & H2 & _) _ [IH1 IH2]]; [split; reflexivity|].
    unfold targets in *; simpl. rewrite H1, H2, IH1, IH2. split; reflexivity.
  Qed.

  (** Value of constant [m] in a case placed at point [i]. *)
  Lemma placed_point cn c0 c pts (vs rs : list cvar) i p :
    NoDup cn -> NoDup (map v_name vs) ->
    Forall2 (read_rel cn c0) vs rs -> Forall (fun v => v_steps v = []) vs ->
    nth_error pts i = Some p -> length p = length vs ->
    placed cn (append_points O 0 pts rs) i c0 c ->
    rest_unchanged cn (map v_name vs) c0 c /\
    forall m v x, nth_error vs m = Some v -> nth_error p m = Some x -> const_is cn c (v_name v) x.
  Proof.
    intros Hcn Hnd HF Hfresh Hp Hlp [Hl Hpl].
    destruct (read_names _ _ _ _ HF) as [Hnames _].
    destruct (append_points_names pts rs 0) as [Hn' _]. split; [split; [exact Hl|]|].
    - intros j name Hj Hni. rewrite (Hpl j name Hj).
      destruct (find_var name (append_points O 0 pts rs)) as [v|] eqn:E; [|reflexivity].
      exfalso. apply find_var_Some in E. destruct E as [E <-]. apply Hni. rewrite <- Hnames, <- Hn'.
      apply in_map. exact E.
    - intros m v x Hm Hx. destruct (Forall2_nth _ _ _ _ _ HF Hm) as (r & Hr & (Hrn & _ & Hst & x0 & _ & j & Hj & Hc0)).
      exists j. split; [exact Hj|]. rewrite (Hpl j _ Hj).
      pose proof (append_points_nth pts rs 0 m r Hr) as Ha.
      assert (NoDup (map v_name (append_points O 0 pts rs))) as Hnd' by (rewrite Hn', Hnames; exact Hnd).
      pose proof (find_var_nth _ _ _ Hnd' Ha) as Hf. simpl in Hf. rewrite Hrn in Hf. rewrite Hf. simpl.
      rewrite Hst. rewrite Forall_forall in Hfresh. rewrite (Hfresh v) by (eapply nth_error_In; exact Hm).
      simpl. rewrite nth_error_map, Hp. simpl. f_equal. apply nth_error_nth. exact Hx.
  Qed.
End Init.

(** ** Cartesian product *)
Lemma flat_map_nth {A B} (f : A -> list B) k : (0 < k)%nat -> forall l i,
  (forall x, In x l -> length (f x) = k) ->
  nth_error (flat_map f l) i =
    match nth_error l (i / k) with Some x => nth_error (f x) (i mod k) | None => None end.
Proof.
  intros Hk. induction l as [|a l IH]; intros i Hf; simpl.
  - destruct (i / k)%nat; simpl; destruct i; reflexivity.
  - pose proof (Hf a (or_introl eq_refl)) as Ha.
    destruct (Nat.lt_ge_cases i k) as [Hi|Hi].
    + rewrite nth_error_app1 by lia. rewrite Nat.div_small, Nat.mod_small by lia. reflexivity.
    + rewrite nth_error_app2 by lia. rewrite IH by (intros x Hx; apply Hf; right; exact Hx). rewrite Ha.
      assert (i = (i - k) + 1 * k)%nat as E by lia.
      assert (i / k = S ((i - k) / k))%nat as ->.
      { rewrite E at 1. rewrite Nat.div_add by lia. lia. }
      assert (i mod k = (i - k) mod k)%nat as ->.
      { rewrite E at 1. rewrite Nat.mod_add by lia. reflexivity. }
      reflexivity.
Qed.

Lemma flat_map_len {A B} (f : A -> list B) k l :
  (forall x, In x l -> length (f x) = k) -> length (flat_map f l) = (length l * k)%nat.
Proof.
  induction l as [|a l IH]; intros H; simpl; [reflexivity|].
  rewrite app_length, IH by (intros x Hx; apply H; right; exact Hx).
  rewrite (H a) by (left; reflexivity). lia.
Qed.

Lemma mod_div_pow n v i : (0 < n)%nat -> (i mod n ^ S v / n ^ v = i / n ^ v mod n)%nat.
Proof.
  intros Hn. assert (n ^ v <> 0)%nat by (apply Nat.pow_nonzero; lia).
  rewrite Nat.pow_succ_r', (Nat.mul_comm n). rewrite Nat.mod_mul_r by lia.
  rewrite Nat.mul_comm, Nat.div_add by lia. rewrite Nat.div_small by (apply Nat.mod_upper_bound; lia). lia.
Qed.

Lemma digits_mod n v : (0 < n)%nat -> forall i, digits n v (i mod n ^ v) = digits n v i.
Proof.
  intros Hn; induction v as [|v IH]; intros i; [reflexivity|]. cbn [digits].
  assert (n ^ v <> 0)%nat by (apply Nat.pow_nonzero; lia).
  rewrite mod_div_pow by exact Hn. rewrite Nat.mod_mod by lia. f_equal.
  rewrite <- (IH (i mod n ^ S v)%nat), <- (IH i). f_equal.
  rewrite Nat.pow_succ_r', (Nat.mul_comm n), Nat.mod_mul_r by lia.
  rewrite Nat.mul_comm, Nat.mod_add by lia. apply Nat.mod_mod; lia.
Qed.

Lemma digits_length n v i : length (digits n v i) = v.
Proof. induction v; simpl; lia. Qed.

Lemma digits_range n v i : (0 < n)%nat -> Forall (fun d => (d < n)%nat) (digits n v i).
Proof.
  intros Hn; induction v as [|v IH]; simpl; constructor; [|exact IH]. apply Nat.mod_upper_bound; lia.
Qed.

Lemma digits_exist n ds : (0 < n)%nat -> Forall (fun d => (d < n)%nat) ds ->
  exists i, (i < n ^ length ds)%nat /\ digits n (length ds) i = ds.
Proof.
  intros Hn H; induction H as [|d ds Hd _ (i & Hi & E)]; [exists 0%nat; split; [simpl; lia|reflexivity]|].
  cbn [length]. set (v := length ds) in *. assert (0 < n ^ v)%nat by (apply Nat.neq_0_lt_0, Nat.pow_nonzero; lia).
  exists (d * n ^ v + i)%nat. split; [rewrite Nat.pow_succ_r'; nia|]. cbn [digits]. f_equal.
  - rewrite Nat.add_comm, Nat.div_add, Nat.div_small by lia. apply Nat.mod_small; lia.
  - transitivity (digits n v i); [|exact E].
    rewrite <- (digits_mod n v Hn (d * n ^ v + i)%nat), <- (digits_mod n v Hn i). f_equal.
    rewrite Nat.add_comm, Nat.mod_add by lia. reflexivity.
Qed.

Lemma digits_inj n v i j : (0 < n)%nat -> (i < n ^ v)%nat -> (j < n ^ v)%nat -> digits n v i = digits n v j -> i = j.
Proof.
  intros Hn; revert i j; induction v as [|v IH]; intros i j Hi Hj E; [simpl in *; lia|].
  cbn [digits] in E. injection E as E1 E2. set (k := (n ^ v)%nat) in *.
  assert (k <> 0)%nat by (apply Nat.pow_nonzero; lia). rewrite Nat.pow_succ_r' in Hi, Hj. fold k in Hi, Hj.
  assert (i / k < n)%nat by (apply Nat.div_lt_upper_bound; lia).
  assert (j / k < n)%nat by (apply Nat.div_lt_upper_bound; lia).
  rewrite !Nat.mod_small in E1 by lia.
  rewrite <- (digits_mod n v Hn i), <- (digits_mod n v Hn j) in E2. fold k in E2.
  apply IH in E2; [|apply Nat.mod_upper_bound; lia|apply Nat.mod_upper_bound; lia].
  rewrite (Nat.div_mod i k), (Nat.div_mod j k) by lia. congruence.
Qed.

Lemma cart_nth {F} (ls : list (list F)) n :
  (0 < n)%nat -> Forall (fun l => length l = n) ls ->
  length (cart ls) = (n ^ length ls)%nat /\
  forall i, (i < n ^ length ls)%nat -> exists p, nth_error (cart ls) i = Some p /\ length p = length ls /\
    forall m d l, nth_error (digits n (length ls) i) m = Some d -> nth_error ls m = Some l ->
      nth_error p m = nth_error l d.
Proof.
  intros Hn H; induction H as [|l ls Hl Hls [IHl IH]].
  - split; [reflexivity|]. intros [|i] Hi; simpl in Hi; [|lia]. exists []. repeat split. intros [|m] d l E; discriminate.
  - cbn [cart length]. set (k := (n ^ length ls)%nat) in *.
    assert (0 < k)%nat by (apply Nat.neq_0_lt_0, Nat.pow_nonzero; lia).
    assert (Hbl : forall x, In x l -> length (map (cons x) (cart ls)) = k) by (intros; rewrite map_length; exact IHl).
    split; [rewrite (flat_map_len _ k) by exact Hbl; rewrite Hl, Nat.pow_succ_r'; reflexivity|].
    intros i Hi. rewrite Nat.pow_succ_r' in Hi. fold k in Hi.
    rewrite (flat_map_nth _ k) by assumption.
    assert (i / k < n)%nat by (apply Nat.div_lt_upper_bound; lia).
    destruct (nth_error l (i / k)) as [x|] eqn:Ex; [|apply nth_error_None in Ex; lia].
    destruct (IH (i mod k)%nat) as (p & Hp & Hlp & Hd); [apply Nat.mod_upper_bound; lia|].
    rewrite nth_error_map, Hp. exists (x :: p). split; [reflexivity|]. split; [simpl; lia|].
    intros [|m] d l' Ed El'; cbn [digits nth_error] in *.
    + injection Ed as <-. injection El' as <-. fold k. rewrite Nat.mod_small by lia. symmetry; exact Ex.
    + apply Hd; [|exact El']. unfold k. rewrite digits_mod by exact Hn. exact Ed.
Qed.
