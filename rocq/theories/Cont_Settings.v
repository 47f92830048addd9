(** Settings of a strategy object (C63). *)
From Verif Require Import Base Base_Facts Cont_Model Cont_Spec Cont_Proofs.

Section S.
  Context {F P : Type} (O : NumOps F).

  (** The declared names, each at the place of its first declaration. *)
  Definition first_seen (names : list string) : list string := rev (nodup String.string_dec (rev names)).

  Definition declare (s : strat F P) (cs : list (string * F)) : strat F P :=
    fold_left (fun s c => set_const s (fst c) (snd c)) cs s.

  Lemma set_var_spec (vs : list (cvar F)) name T :
    map v_name (set_var vs name T) = (if in_dec String.string_dec name (map v_name vs)
                                      then map v_name vs else map v_name vs ++ [name]) /\
    (NoDup (map v_name vs) -> forall v, In v (set_var vs name T) ->
       (v_name v = name /\ v_target v = T /\ v_steps v = [] /\ v_value v = None) \/ (v_name v <> name /\ In v vs)).
  Proof.
    induction vs as [|v vs IH]; simpl.
    - split; auto. intros _ v [<-|[]]. left. simpl. auto.
    - destruct IH as [IH1 IH2]. destruct (String.eqb (v_name v) name) eqn:E.
      + apply String.eqb_eq in E. subst name. simpl. split.
        * destruct (String.string_dec (v_name v) (v_name v)); [|congruence].
          destruct (in_dec _ _ _); reflexivity.
        * intros ND w [<-|Hw]; [left; auto|]. right. split; auto. inversion ND; subst.
          intros C. apply H1. rewrite <- C. apply in_map. exact Hw.
      + apply String.eqb_neq in E. simpl. split.
        * rewrite IH1. destruct (String.string_dec (v_name v) name); [congruence|].
          destruct (in_dec String.string_dec name (map v_name vs)); reflexivity.
        * intros ND w [<-|Hw]; [right; auto|]. inversion ND; subst.
          destruct (IH2 H2 w Hw) as [H|[H H']]; [left; auto|right; auto].
  Qed.

  Lemma declare_vars (s : strat F P) cs : s_vars s = [] ->
    map v_name (s_vars (declare s cs)) = first_seen (map fst cs) /\
    (forall v, In v (s_vars (declare s cs)) ->
       find (fun c => String.eqb (fst c) (v_name v)) (rev cs) = Some (v_name v, v_target v) /\
       v_steps v = [] /\ v_value v = None).
  Proof.
    intros E0. induction cs as [|c cs IH] using rev_ind.
    - simpl. rewrite E0. split; [reflexivity|]. intros v [].
    - unfold declare in *. rewrite fold_left_app. simpl.
      set (s1 := fold_left (fun s0 c0 => set_const s0 (fst c0) (snd c0)) cs s) in *.
      destruct IH as [IH1 IH2]. destruct (set_var_spec (s_vars s1) (fst c) (snd c)) as [A B].
      assert (ND : NoDup (map v_name (s_vars s1))).
      { rewrite IH1. unfold first_seen. apply NoDup_rev. apply NoDup_nodup. }
      split.
      + rewrite A, IH1. unfold first_seen. rewrite map_app, rev_app_distr. simpl.
        destruct (in_dec String.string_dec (fst c) (rev (nodup String.string_dec (rev (map fst cs))))) as [I|I];
          destruct (in_dec String.string_dec (fst c) (rev (map fst cs))) as [J|J]; auto.
        * exfalso. apply J. apply in_rev in I. apply nodup_In in I. exact I.
        * exfalso. apply I. apply -> in_rev. apply nodup_In. exact J.
      + intros v Hv. rewrite rev_app_distr. simpl.
        destruct (B ND v Hv) as [(H1 & H2 & H3 & H4)|[H1 H2]].
        * rewrite H1, String.eqb_refl, H2. destruct c; simpl. auto.
        * destruct (String.eqb (fst c) (v_name v)) eqn:E; [apply String.eqb_eq in E; congruence|].
          apply IH2. exact H2.
  Qed.

  Lemma next_base_ctr (s s' : strat F P) b g : next_base O s b = (s', Ok g) -> s_ctr s' = S (s_ctr s).
  Proof.
    unfold next_base. intros H.
    destruct (last_gamma s); [|discriminate].
    destruct (negb b && negb (Nat.eqb (length (s_gammas s)) 1) && negb (truthy (t_conv t))); [discriminate|].
    destruct (s_num s); [|discriminate]. destruct (z <=? Z.of_nat (s_ctr s)); [discriminate|].
    destruct (put_vars _ _ _ _); [|discriminate]. destruct (closest_gamma _ _ _); [|discriminate].
    destruct (nth_error _ _); [|discriminate]. injection H as <- _. reflexivity.
  Qed.

  Lemma next_running (s s' : strat F P) g : next O s = (s', Ok g) -> (0 < s_ctr s')%nat.
  Proof.
    unfold next. intros H.
    assert (G : forall s b, next_base O s b = (s', Ok g) -> (0 < s_ctr s')%nat).
    { intros s0 b E. apply next_base_ctr in E. lia. }
    destruct (s_kind s); eauto.
    - unfold next_bisection in H. destruct (if Nat.eqb (s_ctr s) 0 then _ else _) as [[|]|]; eauto; try discriminate.
      destruct (Nat.eqb (s_ctr s) 1); [discriminate|]. destruct (s_maxdiv s <? s_divctr s); [discriminate|].
      destruct (divide_vars _ _ _ _ _) as [vs [?|?]]; [|discriminate]. eauto.
    - unfold next_product in H. destruct (if Nat.eqb (s_ctr s) 0 then _ else _) as [[|]|]; eauto; try discriminate.
      destruct (Nat.eqb (s_ctr s) 1); [discriminate|]. eauto.
    - unfold next_product in H. destruct (if Nat.eqb (s_ctr s) 0 then _ else _) as [[|]|]; eauto; try discriminate.
      destruct (Nat.eqb (s_ctr s) 1); [discriminate|]. eauto.
  Qed.

  Lemma num_cases_locked (s s' : strat F P) g num sp : next O s = (s', Ok g) ->
    set_num_cases s' num sp = (s', Raise RuntimeError).
  Proof.
    intros H. apply next_running in H. unfold set_num_cases.
    destruct (Nat.ltb_spec 0 (s_ctr s')); [reflexivity|lia].
  Qed.

  Lemma num_cases_unlocked (s : strat F P) num sp :
    exists s', set_num_cases (reset s) num sp = (s', Ok tt) /\ s_num s' = Some num /\ s_spacing s' = sp /\
      s_vars s' = s_vars s.
  Proof. eexists. split; [reflexivity|]. destruct s; auto. Qed.
End S.
