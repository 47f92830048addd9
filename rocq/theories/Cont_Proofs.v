(** Proofs about the continuation model. *)
From Verif Require Import Base Base_Facts Cont_Model Cont_Spec.
From Coq Require Import Reals Lra.

Section Generic.
  Context {F : Type} (O : NumOps F) {P : Type}.
  Notation traj := (traj F P). Notation cvar := (cvar F). Notation strat := (strat F P).
  Notation call := (call F P). Notation outcome := (outcome F P). Notation solver := (solver F P).

  (** ** One step of the schedule: replaced constants *)

  Definition find_var (name : string) (vs : list cvar) : option cvar :=
    assoc name (map (fun v => (v_name v, v)) vs).

  Lemma find_var_cons name v vs :
    find_var name (v :: vs) = if String.eqb (v_name v) name then Some v else find_var name vs.
  Proof. reflexivity. Qed.

  Lemma find_var_Some name vs v : find_var name vs = Some v -> In v vs /\ v_name v = name.
  Proof.
    induction vs as [|w vs IH]; [discriminate|]. rewrite find_var_cons.
    destruct (String.eqb_spec (v_name w) name) as [E|E]; intros H.
    - injection H as ->; split; [left; reflexivity|exact E].
    - destruct (IH H); split; [right|]; assumption.
  Qed.

  Lemma find_var_None name vs : find_var name vs = None <-> ~ In name (map v_name vs).
  Proof.
    induction vs as [|w vs IH]; [split; [intros _ []|reflexivity]|].
    rewrite find_var_cons; simpl.
    destruct (String.eqb_spec (v_name w) name) as [E|E].
    - split; [discriminate|]. intros H; exfalso; apply H; left; exact E.
    - rewrite IH; split; intros H.
      + intros [H'|H']; [apply E; exact H'|apply H; exact H'].
      + intros H'; apply H; right; exact H'.
  Qed.

  Definition placed (cn : list string) (vs : list cvar) (i : nat) (c0 c' : list F) : Prop :=
    length c' = length c0 /\
    forall j name, nth_error cn j = Some name ->
      nth_error c' j = match find_var name vs with
                       | Some v => nth_error (v_steps v) i
                       | None => nth_error c0 j
                       end.

  Lemma put_vars_ok cn vs i c c' :
    put_vars cn vs i c = Ok c' -> NoDup cn -> NoDup (map v_name vs) ->
    placed cn vs i c c' /\
    Forall (fun v => In (v_name v) cn /\ exists x, nth_error (v_steps v) i = Some x) vs.
  Proof.
    intros H Hcn; revert c H; induction vs as [|v vs IH]; intros c H Hnd; simpl in H.
    - injection H as <-; split; [split; [reflexivity|intros; reflexivity]|constructor].
    - destruct (index_of (v_name v) cn) as [jj|e] eqn:Ej; simpl in H; [|discriminate].
      destruct (get (v_steps v) i) as [x|e] eqn:Ex; simpl in H; [|discriminate].
      destruct (set_nth c jj x) as [c1|e] eqn:E1; simpl in H; [|discriminate].
      inversion Hnd as [|? ? Hv Hnd']; subst.
      destruct (IH c1 H Hnd') as [[Hl Hp] Hall].
      apply get_ok in Ex. pose proof (index_of_nth _ _ _ Ej) as Hj.
      destruct (set_nth_ok _ _ _ _ E1) as [Hl1 [Hlt Hn1]].
      split.
      + split; [congruence|]. intros j name Hname. rewrite (Hp j name Hname), find_var_cons.
        destruct (String.eqb_spec (v_name v) name) as [E|E].
        * subst name. rewrite (proj2 (find_var_None _ _) Hv), Hn1.
          assert (j = jj) as -> by (pose proof (index_of_NoDup _ _ _ Hcn Hname); congruence).
          rewrite Nat.eqb_refl; congruence.
        * destruct (find_var name vs); [reflexivity|]. rewrite Hn1.
          destruct (Nat.eqb_spec j jj) as [->|]; [congruence|reflexivity].
      + constructor; [|exact Hall]. split; [eapply nth_error_In; exact Hj|eauto].
  Qed.

  Lemma put_vars_exists cn (vs : list cvar) i c :
    NoDup cn -> length cn = length c ->
    Forall (fun v => In (v_name v) cn /\ exists x, nth_error (v_steps v) i = Some x) vs ->
    exists c', put_vars cn vs i c = Ok c'.
  Proof.
    intros Hcn; revert c; induction vs as [|v vs IH]; intros c Hl Hall; simpl; [eauto|].
    inversion Hall as [|? ? [Hin [x Hx]] Hall']; subst.
    destruct (index_of_In _ _ Hin) as [jj Hj]; rewrite Hj; simpl.
    rewrite (get_some _ _ _ Hx); simpl.
    destruct (set_nth_exists c jj x) as [c1 H1]; [apply index_of_lt in Hj; lia|].
    rewrite H1; simpl. apply IH; [|exact Hall'].
    destruct (set_nth_ok _ _ _ _ H1); congruence.
  Qed.

  Lemma placed_trans cn vs vs' i k c0 c1 c2 :
    map v_name vs' = map v_name vs ->
    placed cn vs i c0 c1 -> placed cn vs' k c1 c2 -> placed cn vs' k c0 c2.
  Proof.
    intros Hn [Hl1 H1] [Hl2 H2]; split; [congruence|]. intros j name Hj.
    rewrite (H2 j name Hj). destruct (find_var name vs') eqn:E; [reflexivity|].
    rewrite (H1 j name Hj). apply find_var_None in E. rewrite Hn in E.
    apply find_var_None in E; rewrite E; reflexivity.
  Qed.

  (** ** argmin and the chosen guess *)

  Lemma argmin_from_bound i best bv l :
    (best < i)%nat -> (argmin_from O i best bv l < i + length l)%nat.
  Proof.
    revert i best bv; induction l as [|x l IH]; intros i best bv H; simpl; [lia|].
    destruct (_ && _); [specialize (IH (S i) i x)|specialize (IH (S i) best bv)]; lia.
  Qed.

  Lemma argmin_bound l i : argmin O l = Ok i -> (i < length l)%nat.
  Proof.
    destruct l as [|x l]; simpl; [discriminate|]. intros H; injection H as <-.
    pose proof (argmin_from_bound 1 0 x l); lia.
  Qed.

  Lemma closest_ok (gs : list traj) c : gs <> [] -> exists i g, closest_gamma O gs c = Ok i /\ nth_error gs i = Some g.
  Proof.
    intros Hne. unfold closest_gamma.
    destruct (argmin O (map (norm_entry O c) gs)) as [i|e] eqn:E.
    - pose proof (argmin_bound _ _ E) as Hb; rewrite map_length in Hb.
      destruct (nth_error gs i) as [g|] eqn:Eg; [eauto|].
      apply nth_error_None in Eg; lia.
    - destruct gs; [congruence|discriminate].
  Qed.

  (** ** next_base *)

  Lemma last_gamma_app (s : strat) gs g : s_gammas s = gs ++ [g] -> last_gamma s = Some g.
  Proof. unfold last_gamma; intros ->; rewrite rev_app_distr; reflexivity. Qed.

  Lemma last_gamma_spec (s : strat) lg :
    last_gamma s = Some lg -> exists gs, s_gammas s = gs ++ [lg].
  Proof.
    unfold last_gamma; destruct (rev (s_gammas s)) as [|g gs] eqn:E; simpl; [discriminate|].
    intros H; injection H as ->. exists (rev gs).
    rewrite <- (rev_involutive (s_gammas s)), E; reflexivity.
  Qed.

  Lemma next_base_cases (s s' : strat) ig r :
    next_base O s ig = (s', r) ->
    match r with
    | Ok g =>
        exists lg num c i gi,
          last_gamma s = Some lg /\ s_num s = Some num /\ Z.of_nat (s_ctr s) < num /\
          put_vars (s_cnames s) (s_vars s) (s_ctr s) (t_const lg) = Ok c /\
          closest_gamma O (s_gammas s) c = Ok i /\ nth_error (s_gammas s) i = Some gi /\
          (ig = true \/ length (s_gammas s) = 1%nat \/ truthy (t_conv lg) = true) /\
          s' = upd_ctr s (S (s_ctr s)) /\ g = mkTraj c (t_conv gi) (t_body gi)
    | Raise e =>
        s' = s /\
        ((last_gamma s = None /\ e = ValueError) \/
         exists lg, last_gamma s = Some lg /\
           ((e = RuntimeError /\ ig = false /\ length (s_gammas s) <> 1%nat /\ truthy (t_conv lg) = false) \/
            ((ig = true \/ length (s_gammas s) = 1%nat \/ truthy (t_conv lg) = true) /\
             ((s_num s = None /\ e = TypeError) \/
              exists num, s_num s = Some num /\
               ((e = StopIteration /\ num <= Z.of_nat (s_ctr s)) \/
                (Z.of_nat (s_ctr s) < num /\
                 put_vars (s_cnames s) (s_vars s) (s_ctr s) (t_const lg) = Raise e))))))
    end.
  Proof.
    unfold next_base. destruct (last_gamma s) as [lg|] eqn:El.
    2:{ intros H; injection H as <- <-; split; [reflexivity|left; split; reflexivity]. }
    assert (Hne : s_gammas s <> []).
    { destruct (last_gamma_spec _ _ El) as [gs ->]; destruct gs; discriminate. }
    destruct (negb ig && negb (length (s_gammas s) =? 1)%nat && negb (truthy (t_conv lg))) eqn:Eb.
    - intros H; injection H as <- <-. split; [reflexivity|right; exists lg; split; [reflexivity|left]].
      apply andb_prop in Eb; destruct Eb as [Eb1 Eb2]; apply andb_prop in Eb1; destruct Eb1 as [Eb1 Eb3].
      apply negb_true_iff in Eb1, Eb2, Eb3. apply Nat.eqb_neq in Eb3. repeat split; assumption.
    - assert (Hok : ig = true \/ length (s_gammas s) = 1%nat \/ truthy (t_conv lg) = true).
      { destruct ig; [left; reflexivity|]. destruct (Nat.eqb_spec (length (s_gammas s)) 1) as [E1|E1];
          [right; left; exact E1|]. simpl in Eb. apply negb_false_iff in Eb; right; right; exact Eb. }
      destruct (s_num s) as [num|] eqn:En.
      2:{ intros H; injection H as <- <-; split; [reflexivity|right; exists lg; split; [reflexivity|right]].
          split; [exact Hok|left; split; reflexivity]. }
      destruct (Z.leb_spec num (Z.of_nat (s_ctr s))) as [Hc|Hc].
      { intros H; injection H as <- <-; split; [reflexivity|right; exists lg; split; [reflexivity|right]].
        split; [exact Hok|right; exists num; split; [reflexivity|left; split; [reflexivity|exact Hc]]]. }
      destruct (put_vars (s_cnames s) (s_vars s) (s_ctr s) (t_const lg)) as [c|e] eqn:Ep.
      2:{ intros H; injection H as <- <-; split; [reflexivity|right; exists lg; split; [reflexivity|right]].
          split; [exact Hok|right; exists num; split; [reflexivity|right; split; [exact Hc|exact Ep]]]. }
      destruct (closest_ok (s_gammas s) c Hne) as [i [gi [Hi Hgi]]]. rewrite Hi, Hgi.
      intros H; injection H as <- <-.
      exists lg, num, c, i, gi. repeat split; try assumption; reflexivity.
  Qed.

  (** ** Induction principle for the iterate loop *)

  Lemma iterate_inv (slv : solver) (Inv : strat -> traj -> list call -> Prop) (Post : outcome -> Prop) :
    (forall s guess calls s', Inv s guess calls -> next O s = (s', Raise StopIteration) ->
        Post (Finished s' guess calls)) ->
    (forall s guess calls s' e, Inv s guess calls -> next O s = (s', Raise e) -> e <> StopIteration ->
        Post (Raised e s' calls)) ->
    (forall s guess calls s' g k e, Inv s guess calls -> next O s = (s', Ok g) -> slv k g = Raise e ->
        Post (Raised e s' calls)) ->
    (forall s guess calls s' g k sol, Inv s guess calls -> next O s = (s', Ok g) -> slv k g = Ok sol ->
        Inv (add_gamma s' sol) sol (calls ++ [(g, sol)])) ->
    Post OutOfFuel ->
    forall fuel k s guess calls, Inv s guess calls -> Post (iterate O fuel slv k s guess calls).
  Proof.
    intros Hstop Hraise Hslv Hstep Hfuel fuel; induction fuel as [|fuel IH]; intros k s guess calls HI.
    - exact Hfuel.
    - cbn [iterate]. destruct (next O s) as [s' [g|e]] eqn:En.
      + destruct (slv k g) as [sol|e] eqn:Es.
        * apply IH. eapply Hstep; eassumption.
        * eapply Hslv; eassumption.
      + destruct e; try (eapply Hraise; [eassumption|exact En|discriminate]).
        eapply Hstop; eassumption.
  Qed.

  Lemma last_snoc {A} (l : list A) x d : last (l ++ [x]) d = x.
  Proof. apply last_last. Qed.

  (** ** Manual: order of cases and divergence (C03) *)

  Definition init_gamma (g : traj) : traj := mkTraj (t_const g) FFalse (t_body g).

  Definition ManInv (n : Z) (guess0 : traj) (s : strat) (guess : traj) (calls : list call) : Prop :=
    s_kind s = Manual /\ s_gammas s = init_gamma guess0 :: map snd calls /\ s_num s = Some n /\
    s_ctr s = length calls /\ Z.of_nat (length calls) <= Z.max 0 n /\
    Forall converged (removelast (map snd calls)) /\
    guess = last (map snd calls) guess0.

  Lemma calls_last (calls : list call) (g0 : traj) s :
    s_gammas s = g0 :: map snd calls ->
    last_gamma s = Some (last (map snd calls) g0).
  Proof.
    intros H. destruct calls as [|c calls] using rev_ind.
    - apply (last_gamma_app s []); exact H.
    - rewrite map_app in H |- *; simpl; rewrite last_last.
      apply (last_gamma_app s (g0 :: map snd calls)); exact H.
  Qed.

  Lemma removelast_snoc {A} (l : list A) x : removelast (l ++ [x]) = l.
  Proof. apply removelast_last. Qed.

  Lemma Forall_removelast_last {A} (Q : A -> Prop) (l : list A) d :
    Forall Q (removelast l) -> l <> [] -> Q (last l d) -> Forall Q l.
  Proof.
    intros H Hne Hl. rewrite (app_removelast_last d Hne).
    apply Forall_app; split; [exact H|constructor; [exact Hl|constructor]].
  Qed.

  (** Outcome of a manual run, by induction over the loop. *)
  Definition man_post (n : Z) (guess0 : traj) (o : outcome) : Prop :=
    match o with
    | Finished s' lst calls =>
        Z.of_nat (length calls) = Z.max 0 n /\ Forall converged (map snd calls) /\
        lst = last (map snd calls) guess0
    | Raised e s' calls =>
        Forall converged (map snd calls) \/
        (Forall converged (removelast (map snd calls)) /\ e = RuntimeError)
    | OutOfFuel => True
    end.

  Lemma manual_next (s s' : strat) n guess0 guess calls r :
    ManInv n guess0 s guess calls -> next O s = (s', r) -> next_base O s false = (s', r).
  Proof. intros (Hk & _) H; unfold next in H; rewrite Hk in H; exact H. Qed.

  Lemma manual_all_conv (calls : list call) g0 :
    Forall converged (removelast (map snd calls)) ->
    (false = true \/ length (g0 :: map snd calls) = 1%nat \/
     truthy (t_conv (last (map snd calls) g0)) = true) ->
    Forall converged (map snd calls).
  Proof.
    intros Hr [H|[H|H]]; [discriminate| |].
    - simpl in H; rewrite map_length in H. destruct calls; [constructor|discriminate].
    - destruct calls as [|c calls]; [constructor|].
      eapply Forall_removelast_last; [exact Hr|discriminate|exact H].
  Qed.

  Lemma manual_iterate slv fuel k s n guess0 guess calls :
    ManInv n guess0 s guess calls ->
    man_post n guess0 (iterate O fuel slv k s guess calls).
  Proof.
    revert fuel k s guess calls.
    apply (iterate_inv slv (ManInv n guess0) (man_post n guess0)).
    - intros s guess calls s' HI Hn. pose proof (manual_next _ _ _ _ _ _ _ HI Hn) as Hb.
      destruct HI as (Hk & Hg & Hnum & Hctr & Hle & Hconv & Hguess).
      apply next_base_cases in Hb; simpl in Hb. destruct Hb as [-> Hb].
      pose proof (calls_last _ _ _ Hg) as Hlast. rewrite Hlast, Hg in Hb.
      destruct Hb as [[? ?]|[lg [Hlg Hb]]]; [discriminate|].
      injection Hlg as <-.
      destruct Hb as [[? _]|[Hok Hb]]; [discriminate|].
      destruct Hb as [[Hx _]|[num [Hx Hb]]]; [congruence|]. rewrite Hnum in Hx; injection Hx as <-.
      destruct Hb as [[_ Hb]|[Hb Hp]].
      + simpl. repeat split; [lia| |exact Hguess]. eapply manual_all_conv; eassumption.
      + exfalso. clear -Hp. revert Hp. generalize (t_const (last (map snd calls) (init_gamma guess0))).
        induction (s_vars s) as [|v vs IH]; intros c; simpl; [discriminate|].
        destruct (index_of (v_name v) (s_cnames s)) eqn:E1; simpl.
        * unfold get; destruct (nth_error (v_steps v) (s_ctr s)); simpl; [|discriminate].
          unfold set_nth; destruct (Nat.ltb _ _); simpl; [apply IH|discriminate].
        * intros H; injection H as ->. clear -E1. induction (s_cnames s) as [|y l IH]; simpl in E1; [discriminate|].
          destruct (String.eqb _ _); [discriminate|]. destruct (index_of (v_name v) l); simpl in E1; [discriminate|auto].
    - intros s guess calls s' e HI Hn Hne. pose proof (manual_next _ _ _ _ _ _ _ HI Hn) as Hb.
      destruct HI as (Hk & Hg & Hnum & Hctr & Hle & Hconv & Hguess).
      apply next_base_cases in Hb; simpl in Hb. destruct Hb as [-> Hb].
      pose proof (calls_last _ _ _ Hg) as Hlast. rewrite Hlast, Hg in Hb.
      destruct Hb as [[? ?]|[lg [Hlg Hb]]]; [discriminate|].
      injection Hlg as <-. simpl.
      destruct Hb as [(-> & _)|[Hok _]]; [right; split; [exact Hconv|reflexivity]|].
      left; eapply manual_all_conv; eassumption.
    - intros s guess calls s' g k e HI Hn Hs. pose proof (manual_next _ _ _ _ _ _ _ HI Hn) as Hb.
      destruct HI as (Hk & Hg & Hnum & Hctr & Hle & Hconv & Hguess).
      apply next_base_cases in Hb; simpl in Hb.
      destruct Hb as (lg & num & c & i & gi & Hlg & _ & _ & _ & _ & _ & Hok & _).
      rewrite (calls_last _ _ _ Hg) in Hlg; injection Hlg as <-. rewrite Hg in Hok.
      simpl; left; eapply manual_all_conv; eassumption.
    - intros s guess calls s' g k sol HI Hn Hs. pose proof (manual_next _ _ _ _ _ _ _ HI Hn) as Hb.
      destruct HI as (Hk & Hg & Hnum & Hctr & Hle & Hconv & Hguess).
      apply next_base_cases in Hb; simpl in Hb.
      destruct Hb as (lg & num & c & i & gi & Hlg & Hx & Hlt & _ & _ & _ & Hok & -> & _).
      rewrite (calls_last _ _ _ Hg) in Hlg; injection Hlg as <-. rewrite Hg in Hok.
      rewrite Hnum in Hx; injection Hx as <-.
      pose proof (manual_all_conv _ _ Hconv Hok) as Hall.
      repeat split; simpl.
      + exact Hk.
      + rewrite Hg, map_app; reflexivity.
      + exact Hnum.
      + rewrite app_length, Hctr; simpl; lia.
      + rewrite app_length; simpl; lia.
      + rewrite map_app; cbn [map snd]; rewrite removelast_snoc; exact Hall.
      + rewrite map_app; simpl; rewrite last_last; reflexivity.
    - exact I.
  Qed.

  (** ** Initialisation of manual and bisection steps *)

  Lemma manual_init_vars_ok sp n cn c vs vs' u :
    manual_init_vars O sp n cn c vs = (vs', Ok u) ->
    Forall2 (fun v v' => manual_init_var O sp n cn c v = Ok v') vs vs'.
  Proof.
    revert vs'; induction vs as [|v vs IH]; intros vs' H; simpl in H.
    - injection H as <- _; constructor.
    - destruct (manual_init_var O sp n cn c v) as [v1|e] eqn:E1; [|discriminate].
      destruct (manual_init_vars O sp n cn c vs) as [vs1 r] eqn:E2.
      injection H as <- ->. constructor; [exact E1|]. apply IH; reflexivity.
  Qed.

  (** Result of initialising one variable: same name and target, schedule from
      the current value. *)
  Lemma manual_init_var_ok sp n cn c v v' :
    manual_init_var O sp n cn c v = Ok v' ->
    v_name v' = v_name v /\ v_target v' = v_target v /\
    exists jj x, nth_error cn jj = Some (v_name v) /\ nth_error c jj = Some x /\
      match sp with
      | Linear => linspace O x (v_target v) n = Ok (v_steps v')
      | Log => logspace O x (v_target v) n = Ok (v_steps v')
      | OtherSpacing => v_steps v' = v_steps v
      end.
  Proof.
    unfold manual_init_var. destruct (index_of (v_name v) cn) as [jj|e] eqn:Ej; simpl; [|discriminate].
    destruct (get c jj) as [x|e] eqn:Ex; simpl; [|discriminate].
    apply get_ok in Ex. apply index_of_nth in Ej.
    destruct sp; [destruct (linspace O x (v_target v) n) eqn:El
                 |destruct (logspace O x (v_target v) n) eqn:El|]; simpl; try discriminate;
      intros H; injection H as <-; simpl; repeat split; exists jj, x; auto.
  Qed.

  Lemma manual_init_names sp n cn c vs vs' :
    Forall2 (fun v v' => manual_init_var O sp n cn c v = Ok v') vs vs' ->
    map v_name vs' = map v_name vs /\ targets vs' = targets vs.
  Proof.
    induction 1 as [|v v' vs vs' Hv _ [IH1 IH2]]; [split; reflexivity|].
    apply manual_init_var_ok in Hv. destruct Hv as (Hn & Ht & _).
    unfold targets in *; simpl; rewrite Hn, Ht, IH1, IH2; split; reflexivity.
  Qed.

  Lemma init_manual_ok (s s' : strat) g cn u :
    init_manual O s g cn = (s', Ok u) ->
    exists n vs, s_num s = Some n /\
      Forall2 (fun v v' => manual_init_var O (s_spacing s) n cn (t_const g) v = Ok v') (s_vars s) vs /\
      s' = upd_vars (init_base s g cn) vs.
  Proof.
    unfold init_manual; simpl. destruct (s_num s) as [n|]; [|discriminate].
    destruct (manual_init_vars O (s_spacing s) n cn (t_const g) (s_vars s)) as [vs r] eqn:E.
    intros H; injection H as <- ->. exists n, vs. split; [reflexivity|].
    split; [|reflexivity]. eapply manual_init_vars_ok; exact E.
  Qed.

  Lemma init_kind (s : strat) g cn :
    s_kind s = Manual \/ s_kind s = Bisection -> init O s g cn = init_manual O s g cn.
  Proof. unfold init; intros [->| ->]; reflexivity. Qed.

  Lemma manual_init_inv (s s' : strat) g cn u n :
    s_kind s = Manual -> s_num s = Some n -> init O (reset s) g cn = (s', Ok u) ->
    ManInv n g s' g [].
  Proof.
    intros Hk Hn H. rewrite init_kind in H by (left; exact Hk).
    apply init_manual_ok in H. destruct H as (n' & vs & Hn' & _ & ->). simpl in Hn'.
    assert (n' = n) as -> by congruence.
    repeat split; simpl; try assumption; try reflexivity; [lia|constructor].
  Qed.

  (** C03 *)
  Lemma manual_stops slv fuel k (s : strat) guess cn o :
    s_kind s = Manual -> run_step O fuel slv k s guess cn = o ->
    (forall i c, nth_error (log_of o) i = Some c -> ~ converged (snd c) ->
       length (log_of o) = S i /\ exists s', o = Raised RuntimeError s' (log_of o)) /\
    (forall s' lst calls n, o = Finished s' lst calls -> s_num s = Some n ->
       Forall converged (map snd calls) /\ Z.of_nat (length calls) = Z.max 0 n).
  Proof.
    intros Hk Ho. unfold run_step in Ho.
    destruct (init O (reset s) guess cn) as [s1 [u|e]] eqn:Ei.
    2:{ subst o; split; [intros [|i] c; discriminate|discriminate]. }
    destruct (s_num s) as [n|] eqn:En.
    2:{ exfalso. rewrite init_kind in Ei by (left; exact Hk).
        apply init_manual_ok in Ei; destruct Ei as (n & ? & Hx & _); simpl in Hx; congruence. }
    pose proof (manual_init_inv _ _ _ _ _ _ Hk En Ei) as HI.
    pose proof (manual_iterate slv fuel k _ _ _ _ _ HI) as HP. rewrite Ho in HP. clear Ho.
    destruct o as [s' lst calls|e s' calls|]; simpl in *.
    - destruct HP as (Hl & Hall & _). split.
      + intros i c Hi Hc; exfalso; apply Hc. rewrite Forall_forall in Hall. apply Hall.
        apply in_map. eapply nth_error_In; exact Hi.
      + intros s2 lst2 calls2 n2 H Hn2; injection H as <- <- <-. injection Hn2 as <-. split; assumption.
    - split; [|discriminate]. intros i c Hi Hc.
      destruct HP as [Hall|[Hall ->]].
      + exfalso; apply Hc. rewrite Forall_forall in Hall. apply Hall.
        apply in_map. eapply nth_error_In; exact Hi.
      + split; [|eauto].
        assert (i < length calls)%nat as Hlt by (apply nth_error_Some; congruence).
        destruct (Nat.eq_dec (length calls) (S i)) as [E|E]; [exact E|]. exfalso; apply Hc.
        rewrite Forall_forall in Hall; apply Hall.
        apply nth_error_In with (n := i). rewrite nth_error_removelast by (rewrite map_length; unfold Cont_Model.call in *; lia).
        apply map_nth_error; exact Hi.
    - split; [intros [|i] c; discriminate|discriminate].
  Qed.

  (** A manual step makes at most num_cases calls, so it always ends. *)
  Lemma manual_iterate_fuel slv n guess0 :
    forall fuel k s guess calls, ManInv n guess0 s guess calls ->
    (Z.to_nat n < fuel + length calls)%nat -> iterate O fuel slv k s guess calls <> OutOfFuel.
  Proof.
    induction fuel as [|fuel IH]; intros k s guess calls HI Hf.
    - destruct HI as (_ & _ & _ & _ & Hle & _). lia.
    - cbn [iterate]. destruct (next O s) as [s' [g|e]] eqn:En; [|destruct e; discriminate].
      destruct (slv k g) as [sol|e] eqn:Es; [|discriminate].
      apply IH; [|rewrite app_length; simpl; lia].
      pose proof (manual_next _ _ _ _ _ _ _ HI En) as Hb.
      destruct HI as (Hk & Hg & Hnum & Hctr & Hle & Hconv & Hguess).
      apply next_base_cases in Hb; simpl in Hb.
      destruct Hb as (lg & num & c & i & gi & Hlg & Hx & Hlt & _ & _ & _ & Hok & -> & _).
      rewrite (calls_last _ _ _ Hg) in Hlg; injection Hlg as <-. rewrite Hg in Hok.
      rewrite Hnum in Hx; injection Hx as <-.
      pose proof (manual_all_conv _ _ Hconv Hok) as Hall.
      repeat split; simpl.
      + exact Hk.
      + rewrite Hg, map_app; reflexivity.
      + exact Hnum.
      + rewrite app_length, Hctr; simpl; lia.
      + rewrite app_length; simpl; lia.
      + rewrite map_app; cbn [map snd]; rewrite removelast_snoc; exact Hall.
      + rewrite map_app; simpl; rewrite last_last; reflexivity.
  Qed.

  Lemma manual_terminates slv fuel k (s : strat) guess cn n :
    s_kind s = Manual -> s_num s = Some n -> (Z.to_nat n < fuel)%nat ->
    run_step O fuel slv k s guess cn <> OutOfFuel.
  Proof.
    intros Hk En Hf. unfold run_step.
    destruct (init O (reset s) guess cn) as [s1 [u|e]] eqn:Ei; [|discriminate].
    eapply manual_iterate_fuel; [eapply manual_init_inv; eassumption|simpl; lia].
  Qed.

  (** ** Manual: the constants visited (C01) *)

  Definition ManConst (cn : list string) (vs : list cvar) (c0 : list F) (s : strat) (calls : list call) : Prop :=
    s_cnames s = cn /\ s_vars s = vs /\
    forall i c, nth_error calls i = Some c ->
      t_const (snd c) = t_const (fst c) /\ placed cn vs i c0 (t_const (snd c)).

  Lemma placed_last cn (vs : list cvar) c0 (calls : list call) (g0 : traj) :
    (forall i c, nth_error calls i = Some c ->
      t_const (snd c) = t_const (fst c) /\ placed cn vs i c0 (t_const (snd c))) ->
    t_const g0 = c0 ->
    t_const (last (map snd calls) g0) = c0 \/
    exists i, placed cn vs i c0 (t_const (last (map snd calls) g0)).
  Proof.
    intros H H0. destruct calls as [|c calls] using rev_ind; [left; exact H0|].
    right. rewrite map_app; simpl; rewrite last_last. exists (length calls).
    apply H. rewrite nth_error_app2, Nat.sub_diag by lia; reflexivity.
  Qed.

  Lemma manual_const slv cn vs c0 n guess0 :
    keeps_const slv -> NoDup cn -> NoDup (map v_name vs) -> t_const guess0 = c0 ->
    forall fuel k s guess calls,
      ManInv n guess0 s guess calls /\ ManConst cn vs c0 s calls ->
      match iterate O fuel slv k s guess calls with
      | Finished s' _ calls' | Raised _ s' calls' => ManConst cn vs c0 s' calls'
      | OutOfFuel => True
      end.
  Proof.
    intros Hkeep Hcn Hnd Hg0.
    apply (iterate_inv slv (fun s guess calls => ManInv n guess0 s guess calls /\ ManConst cn vs c0 s calls)
             (fun o => match o with
                       | Finished s' _ calls' | Raised _ s' calls' => ManConst cn vs c0 s' calls'
                       | OutOfFuel => True end)).
    - intros s guess calls s' [HI HC] Hn. pose proof (manual_next _ _ _ _ _ _ _ HI Hn) as Hb.
      apply next_base_cases in Hb; simpl in Hb; destruct Hb as [-> _]; exact HC.
    - intros s guess calls s' e [HI HC] Hn _. pose proof (manual_next _ _ _ _ _ _ _ HI Hn) as Hb.
      apply next_base_cases in Hb; simpl in Hb; destruct Hb as [-> _]; exact HC.
    - intros s guess calls s' g k e [HI HC] Hn _. pose proof (manual_next _ _ _ _ _ _ _ HI Hn) as Hb.
      apply next_base_cases in Hb; simpl in Hb.
      destruct Hb as (? & ? & ? & ? & ? & _ & _ & _ & _ & _ & _ & _ & -> & _). exact HC.
    - intros s guess calls s' g k sol [HI HC] Hn Hs. pose proof (manual_next _ _ _ _ _ _ _ HI Hn) as Hb.
      destruct HI as (Hk & Hg & Hnum & Hctr & Hle & Hconv & Hguess).
      destruct HC as (HCn & HV & HP).
      apply next_base_cases in Hb; simpl in Hb.
      destruct Hb as (lg & num & c & i & gi & Hlg & Hx & Hlt & Hp & _ & _ & Hok & -> & ->).
      rewrite (calls_last _ _ _ Hg) in Hlg; injection Hlg as <-. rewrite Hg in Hok.
      rewrite Hnum in Hx; injection Hx as <-.
      pose proof (manual_all_conv _ _ Hconv Hok) as Hall.
      split.
      { repeat split; simpl.
        + exact Hk.
        + rewrite Hg, map_app; reflexivity.
        + exact Hnum.
        + rewrite app_length, Hctr; simpl; lia.
        + rewrite app_length; simpl; lia.
        + rewrite map_app; cbn [map snd]; rewrite removelast_snoc; exact Hall.
        + rewrite map_app; simpl; rewrite last_last; reflexivity. }
      split; [exact HCn|split; [exact HV|]].
      intros j d Hj. destruct (Nat.lt_ge_cases j (length calls)) as [Hlj|Hlj].
      + rewrite nth_error_app1 in Hj by exact Hlj. apply HP; exact Hj.
      + rewrite nth_error_app2 in Hj by exact Hlj.
        destruct (j - length calls)%nat as [|m] eqn:Em; simpl in Hj; [|destruct m; discriminate].
        injection Hj as <-. cbn [fst snd t_const]. assert (j = length calls) as -> by lia.
        rewrite (Hkeep _ _ _ Hs); simpl. split; [reflexivity|].
        rewrite HCn, HV, Hctr in Hp.
        destruct (put_vars_ok _ _ _ _ _ Hp Hcn Hnd) as [Hpl _].
        assert (Hi0 : t_const (init_gamma guess0) = c0) by (simpl; exact Hg0).
        destruct (placed_last cn vs c0 calls (init_gamma guess0) HP Hi0) as [E|[i' Hi']].
        * rewrite E in Hpl; exact Hpl.
        * eapply placed_trans; [reflexivity|exact Hi'|exact Hpl].
    - exact I.
  Qed.

  Lemma assoc_targets name (vs : list cvar) : assoc name (targets vs) = option_map v_target (find_var name vs).
  Proof.
    induction vs as [|v vs IH]; [reflexivity|].
    rewrite find_var_cons; simpl. destruct (String.eqb (v_name v) name); [reflexivity|exact IH].
  Qed.

  (** Schedule of every variable after initialisation, in terms of the start
      value found at the position of its name. *)
  Lemma inited_schedule sp n cn c0 (vs vs' : list cvar) :
    NoDup cn ->
    Forall2 (fun v v' => manual_init_var O sp n cn c0 v = Ok v') vs vs' ->
    forall j name v', nth_error cn j = Some name -> find_var name vs' = Some v' ->
    exists x0 T, nth_error c0 j = Some x0 /\ assoc name (targets vs) = Some T /\ v_target v' = T /\
      match sp with
      | Linear => linspace O x0 T n = Ok (v_steps v')
      | Log => logspace O x0 T n = Ok (v_steps v')
      | OtherSpacing => True
      end.
  Proof.
    intros Hcn H j name v' Hj. induction H as [|v w vs vs' Hv HF IH]; [discriminate|].
    rewrite find_var_cons. apply manual_init_var_ok in Hv.
    destruct Hv as (Hn & Ht & jj & x & Hjj & Hx & Hs).
    simpl. rewrite Hn. destruct (String.eqb_spec (v_name v) name) as [E|E]; [|exact IH].
    intros Hw; injection Hw as <-. exists x, (v_target v).
    assert (j = jj) as ->.
    { rewrite <- E in Hj. apply index_of_NoDup in Hj; [|exact Hcn].
      apply index_of_NoDup in Hjj; [|exact Hcn]. congruence. }
    repeat split; [exact Hx|exact Ht|]. destruct sp; [exact Hs|exact Hs|exact I].
  Qed.

  Lemma manual_run_const slv fuel k (s : strat) guess cn n o :
    keeps_const slv -> NoDup cn -> NoDup (map v_name (s_vars s)) ->
    s_kind s = Manual -> s_num s = Some n ->
    run_step O fuel slv k s guess cn = o ->
    exists vs,
      (log_of o = [] \/
       Forall2 (fun v v' => manual_init_var O (s_spacing s) n cn (t_const guess) v = Ok v') (s_vars s) vs) /\
      forall i c, nth_error (log_of o) i = Some c ->
      t_const (snd c) = t_const (fst c) /\ placed cn vs i (t_const guess) (t_const (snd c)).
  Proof.
    intros Hkeep Hcn Hnd Hk Hn Ho. unfold run_step in Ho.
    destruct (init O (reset s) guess cn) as [s1 [u|e]] eqn:Ei.
    2:{ subst o; exists []; split; [left; reflexivity|intros [|i] c; discriminate]. }
    pose proof (manual_init_inv _ _ _ _ _ _ Hk Hn Ei) as HI.
    pose proof Ei as Ei'. rewrite init_kind in Ei' by (left; exact Hk).
    apply init_manual_ok in Ei'. simpl in Ei'. destruct Ei' as (n' & vs & Hn' & HF & Hs1).
    assert (n' = n) as -> by congruence.
    exists vs. split; [right; exact HF|].
    destruct (manual_init_names _ _ _ _ _ _ HF) as [Hnames _].
    pose proof (manual_const slv cn vs (t_const guess) n guess Hkeep Hcn
                  ltac:(rewrite Hnames; exact Hnd) eq_refl fuel k s1 guess []) as HM.
    rewrite Ho in HM.
    assert (ManConst cn vs (t_const guess) s1 []) as HC.
    { rewrite Hs1; repeat split; simpl; destruct i; discriminate. }
    specialize (HM (conj HI HC)).
    destruct o as [s' lst calls|e s' calls|]; simpl.
    - apply HM.
    - apply HM.
    - intros [|i] c; discriminate.
  Qed.

  (** C01 for any arithmetic: number of cases, last case at the targets. *)
  Lemma manual_targets slv fuel k (s : strat) guess cn n s' lst calls :
    keeps_const slv -> well_named cn (t_const guess) -> NoDup (map v_name (s_vars s)) ->
    s_kind s = Manual -> s_spacing s = Linear -> s_num s = Some n -> 2 <= n ->
    run_step O fuel slv k s guess cn = Finished s' lst calls ->
    Z.of_nat (length calls) = n /\
    (exists g, last calls (g, guess) = (g, lst) /\ In (g, lst) calls) /\
    at_targets cn (targets (s_vars s)) (t_const guess) (t_const lst).
  Proof.
    intros Hkeep [Hcn Hlen] Hnd Hk Hsp Hn H2 Ho.
    destruct (manual_stops slv fuel k s guess cn _ Hk Ho) as [_ Hst].
    destruct (Hst s' lst calls n eq_refl Hn) as [_ Hcount].
    assert (Z.of_nat (length calls) = n) as Hc by lia. split; [exact Hc|].
    destruct (manual_run_const slv fuel k s guess cn n _ Hkeep Hcn Hnd Hk Hn Ho) as [vs [HF HP]].
    simpl in HF, HP. destruct calls as [|c calls] using rev_ind; [simpl in Hc; lia|]. clear IHcalls.
    assert (lst = snd c) as ->.
    { unfold run_step in Ho. destruct (init O (reset s) guess cn) as [s1 [u|e]] eqn:Ei; [|discriminate].
      pose proof (manual_iterate slv fuel k _ _ _ _ _ (manual_init_inv _ _ _ _ _ _ Hk Hn Ei)) as HM.
      rewrite Ho in HM. simpl in HM. destruct HM as (_ & _ & ->).
      rewrite map_app; simpl; apply last_last. }
    split.
    { exists (fst c). rewrite last_last. split; [destruct c; reflexivity|].
      apply in_or_app; right; left; destruct c; reflexivity. }
    destruct HF as [HF|HF]; [destruct calls; discriminate|].
    assert (nth_error (calls ++ [c]) (length calls) = Some c) as Hlast
      by (rewrite nth_error_app2, Nat.sub_diag by lia; reflexivity).
    destruct (HP _ _ Hlast) as [_ [Hl Hpl]].
    split; [exact Hl|]. intros j name Hj. rewrite (Hpl j name Hj).
    rewrite app_length in Hc; simpl in Hc.
    destruct (find_var name vs) as [v|] eqn:Ef.
    - destruct (inited_schedule _ _ _ _ _ _ Hcn HF j name v Hj Ef) as (x0 & T & Hx & HT & _ & Hst').
      rewrite Hsp in Hst'. rewrite HT, Hx. simpl.
      rewrite (linspace_nth O _ _ _ _ _ Hst') by lia.
      destruct (Z.ltb_spec 1 n); [|lia]. replace (length calls) with (Z.to_nat n - 1)%nat by lia.
      rewrite Nat.eqb_refl; reflexivity.
    - destruct (manual_init_names _ _ _ _ _ _ HF) as [Hnames _].
      apply find_var_None in Ef. rewrite Hnames in Ef. apply find_var_None in Ef.
      rewrite assoc_targets, Ef; reflexivity.
  Qed.

  (** An unknown constant is rejected before the solver is called. *)
  Lemma manual_unknown slv fuel k (s : strat) guess cn n v :
    s_kind s = Manual \/ s_kind s = Bisection -> s_num s = Some n -> 0 <= n -> length cn = length (t_const guess) ->
    In v (s_vars s) -> ~ In (v_name v) cn ->
    exists s', run_step O fuel slv k s guess cn = Raised ValueError s' [].
  Proof.
    intros Hk Hn H0 Hlen Hin Hnot. unfold run_step. rewrite init_kind by exact Hk.
    unfold init_manual; simpl. rewrite Hn.
    assert (forall vs, In v vs ->
      exists vs', manual_init_vars O (s_spacing s) n cn (t_const guess) vs = (vs', Raise ValueError)) as HX.
    { induction vs as [|w vs IH]; intros Hw; [destruct Hw|]. simpl.
      destruct (manual_init_var O (s_spacing s) n cn (t_const guess) w) as [w'|e] eqn:Ew.
      - destruct Hw as [->|Hw].
        + exfalso. apply manual_init_var_ok in Ew. destruct Ew as (_ & _ & jj & x & Hjj & _).
          apply Hnot; eapply nth_error_In; exact Hjj.
        + destruct (IH Hw) as [vs' ->]; eauto.
      - assert (e = ValueError) as ->; [|eauto].
        unfold manual_init_var in Ew. destruct (index_of (v_name w) cn) as [jj|e'] eqn:Ej; simpl in Ew.
        + destruct (nth_error (t_const guess) jj) as [x|] eqn:Ex.
          2:{ apply nth_error_None in Ex. apply index_of_lt in Ej. lia. }
          rewrite (get_some _ _ _ Ex) in Ew; simpl in Ew.
          destruct (s_spacing s); [|unfold logspace in Ew|]; simpl in Ew; try discriminate.
          * destruct (linspace_ok O true x (v_target w) n H0) as [l Hl]; unfold linspace in Ew; rewrite Hl in Ew; discriminate.
          * destruct (linspace_ok O true (nlog10 O x) (nlog10 O (v_target w)) n H0) as [l Hl];
              unfold linspace in Ew; rewrite Hl in Ew; discriminate.
        + destruct (in_dec String.string_dec (v_name w) cn) as [Hi|Hi].
          * destruct (index_of_In _ _ Hi) as [jj Hjj]; congruence.
          * rewrite (index_of_notIn _ _ Hi) in Ej; congruence. }
    destruct (HX _ Hin) as [vs' Hvs]. rewrite Hvs. eauto.
  Qed.

  (** The declaration API never yields two variables of one name. *)
  Lemma set_var_names (vs : list cvar) name T :
    map v_name (set_var vs name T) =
      if in_dec String.string_dec name (map v_name vs) then map v_name vs else map v_name vs ++ [name].
  Proof.
    induction vs as [|v vs IH]; simpl; [reflexivity|].
    destruct (String.eqb_spec (v_name v) name) as [E|E]; simpl.
    - destruct (String.string_dec (v_name v) name) as [E'|E']; [subst; reflexivity|congruence].
    - rewrite IH. destruct (String.string_dec (v_name v) name) as [E'|E']; [congruence|].
      destruct (in_dec String.string_dec name (map v_name vs)); reflexivity.
  Qed.

  Lemma set_var_NoDup (vs : list cvar) name T :
    NoDup (map v_name vs) -> NoDup (map v_name (set_var vs name T)).
  Proof.
    intros H. rewrite set_var_names. destruct (in_dec _ _ _) as [Hi|Hi]; [exact H|].
    clear T. revert H Hi. generalize (map v_name vs). clear vs. intros l H Hi.
    apply NoDup_rev in H. rewrite <- (rev_involutive (l ++ [name])). apply NoDup_rev.
    rewrite rev_app_distr; simpl. constructor; [|exact H]. rewrite <- in_rev; exact Hi.
  Qed.
End Generic.

(** C01 over the reals: the cases are the evenly spaced grid. *)
Lemma manual_grid {P} (slv : solver R P) fuel k s guess cn n s' lst calls :
  keeps_const slv -> well_named cn (t_const guess) -> NoDup (map v_name (s_vars s)) ->
  s_kind s = Manual -> s_spacing s = Linear -> s_num s = Some n -> 2 <= n ->
  run_step ROps fuel slv k s guess cn = Finished s' lst calls ->
  forall i g sol, nth_error calls i = Some (g, sol) ->
    t_const g = t_const sol /\
    at_grid cn (targets (s_vars s)) n i (t_const guess) (t_const sol).
Proof.
  intros Hkeep [Hcn Hlen] Hnd Hk Hsp Hn H2 Ho i g sol Hi.
  destruct (manual_stops ROps slv fuel k s guess cn _ Hk Ho) as [_ Hst].
  destruct (Hst s' lst calls n eq_refl Hn) as [_ Hcount].
  destruct (manual_run_const ROps slv fuel k s guess cn n _ Hkeep Hcn Hnd Hk Hn Ho) as [vs [HF HP]].
  simpl in HF, HP. destruct HF as [->|HF]; [destruct i; discriminate|].
  destruct (HP _ _ Hi) as [Hgs [Hl Hpl]]; simpl in Hgs, Hl, Hpl. split; [congruence|].
  split; [exact Hl|]. intros j name Hj. rewrite (Hpl j name Hj).
  assert (i < length calls)%nat as Hlt by (apply nth_error_Some; congruence).
  destruct (find_var name vs) as [v|] eqn:Ef.
  - destruct (inited_schedule _ _ _ _ _ _ _ Hcn HF j name v Hj Ef) as (x0 & T & Hx & HT & _ & Hst').
    rewrite Hsp in Hst'. rewrite HT, Hx. simpl.
    rewrite (linspace_nth_R _ _ _ _ _ Hst') by lia. reflexivity.
  - destruct (manual_init_names _ _ _ _ _ _ _ HF) as [Hnames _].
    apply find_var_None in Ef. rewrite Hnames in Ef. apply find_var_None in Ef.
    rewrite assoc_targets, Ef; reflexivity.
Qed.
