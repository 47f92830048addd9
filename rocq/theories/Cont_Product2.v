(** Points of the sparse product, and the run theorems (C09, C10, C12). *)
From Coq Require Import Reals Lra.
From Verif Require Import Base Base_Facts Cont_Model Cont_Spec Cont_Proofs Cont_Warm Cont_Product.

Section Sparse.
  Context {F : Type} (O : NumOps F).

  Definition same_but (n : nat) (p q : list F) : Prop :=
    length p = length q /\ forall m, m <> n -> nth_error p m = nth_error q m.

  Lemma same_but_trans n p q r : same_but n p q -> same_but n q r -> same_but n p r.
  Proof. intros [H1 H2] [H3 H4]; split; [congruence|]. intros m Hm. rewrite H2, H4 by exact Hm. reflexivity. Qed.

  Lemma set_nth_same_but n x p q : set_nth p n x = Ok q -> same_but n p q.
  Proof.
    intros H. apply set_nth_ok in H. destruct H as (Hl & _ & Hn). split; [congruence|].
    intros m Hm. rewrite Hn. destruct (Nat.eqb_spec m n); [contradiction|reflexivity].
  Qed.

  Lemma line_steps_ok n minor (line : list (list F)) st :
    0 <= minor -> line_steps O n minor line = Ok st ->
    (forall q, In q st -> exists p, In p line /\ same_but n p q) /\
    (forall q, In q (tl line) -> In q st) /\
    length st = ((length line - 1) * Z.to_nat (minor + 1))%nat.
  Proof.
    intros Hm. revert st; induction line as [|p0 line IH]; intros st H.
    - simpl in H. injection H as <-. split; [intros q []|]. split; [intros q []|reflexivity].
    - destruct line as [|p1 line].
      + simpl in H. injection H as <-. split; [intros q []|]. split; [intros q []|reflexivity].
      + remember (line_steps O n minor (p1 :: line)) as E eqn:HE.
        assert (H' : bind (get p0 n) (fun a => bind (get p1 n) (fun b =>
                  bind (linspace_gen O false a b (minor + 1)) (fun ms =>
                  bind (mapM (fun x => set_nth p0 n x) (tl ms)) (fun mins =>
                  bind E (fun rest => Ok (mins ++ p1 :: rest)))))) = Ok st) by (rewrite HE; exact H).
        clear H; rename H' into H.
        destruct (get p0 n) as [a|]; simpl in H; [|discriminate].
        destruct (get p1 n) as [b|]; simpl in H; [|discriminate].
        destruct (linspace_gen O false a b (minor + 1)) as [ms|] eqn:Ems; simpl in H; [|discriminate].
        destruct (mapM _ (tl ms)) as [mins|] eqn:Emins; simpl in H; [|discriminate].
        destruct E as [rest|]; simpl in H; [|discriminate].
        injection H as <-. destruct (IH rest eq_refl) as (H1 & H2 & H3).
        apply mapM_Forall2 in Emins. apply linspace_length in Ems. destruct Ems as [Ems _].
        split; [|split].
        * intros q Hq. apply in_app_or in Hq. destruct Hq as [Hq|[<-|Hq]].
          -- apply In_nth_error in Hq. destruct Hq as [k Hk].
             destruct (Forall2_nth_r _ _ _ _ _ Emins Hk) as (x & _ & Hx).
             exists p0. split; [left; reflexivity|]. eapply set_nth_same_but; exact Hx.
          -- exists p1. split; [right; left; reflexivity|]. split; reflexivity.
          -- destruct (H1 q Hq) as (p & Hp & Hs). exists p. split; [right; exact Hp|exact Hs].
        * intros q Hq. cbn [tl] in Hq. apply in_or_app; right. destruct Hq as [<-|Hq]; [left; reflexivity|].
          right. apply H2. exact Hq.
        * rewrite app_length. cbn [length]. rewrite H3. apply Forall2_len in Emins.
          cbn [length]. destruct ms as [|m0 ms]; simpl in Ems, Emins; [lia|]. simpl. nia.
  Qed.

  Lemma sweep_ok n (series : list F) minor cloud st cl :
    0 <= minor -> sweep O n series minor cloud = Ok (st, cl) ->
    (forall q, In q st -> exists p, In p cloud /\ same_but n p q) /\
    (forall q, In q cl -> In q st) /\
    (forall p k x, In p cloud -> nth_error series (S k) = Some x ->
       exists q, In q cl /\ set_nth p n x = Ok q) /\
    (forall q, In q cl -> exists p, In p cloud /\ same_but n p q) /\
    length st = (length cloud * ((length series - 1) * Z.to_nat (minor + 1)))%nat /\
    length cl = (length cloud * (length series - 1))%nat.
  Proof.
    intros Hm. revert st cl; induction cloud as [|p cloud IH]; intros st cl H; simpl in H.
    - injection H as <- <-. split; [intros q []|]. split; [intros q []|]. split; [intros p k x []|].
      split; [intros q []|]. split; reflexivity.
    - destruct (major_line n p series) as [line|] eqn:El; simpl in H; [|discriminate].
      destruct (line_steps O n minor line) as [st1|] eqn:Es; simpl in H; [|discriminate].
      destruct (sweep O n series minor cloud) as [[st2 cl2]|]; simpl in H; [|discriminate].
      injection H as <- <-. destruct (IH st2 cl2 eq_refl) as (H1 & H2 & H3 & H3' & H4 & H5).
      destruct (line_steps_ok _ _ _ _ Hm Es) as (L1 & L2 & L3).
      unfold major_line in El. apply mapM_Forall2 in El.
      assert (Hline : forall q, In q line -> same_but n p q).
      { intros q Hq. apply In_nth_error in Hq. destruct Hq as [k Hk].
        destruct (Forall2_nth_r _ _ _ _ _ El Hk) as (x & _ & Hx). eapply set_nth_same_but; exact Hx. }
      pose proof (Forall2_len _ _ _ El) as Hlen.
      split; [|split; [|split; [|split; [|split]]]].
      + intros q Hq. apply in_app_or in Hq. destruct Hq as [Hq|Hq].
        * destruct (L1 q Hq) as (p' & Hp' & Hs). exists p. split; [left; reflexivity|].
          eapply same_but_trans; [apply Hline; exact Hp'|exact Hs].
        * destruct (H1 q Hq) as (p' & Hp' & Hs). exists p'. split; [right; exact Hp'|exact Hs].
      + intros q Hq. apply in_app_or in Hq. apply in_or_app.
        destruct Hq as [Hq|Hq]; [left; apply L2; exact Hq|right; apply H2; exact Hq].
      + intros p' k x [<-|Hp'] Hx.
        * destruct (Forall2_nth _ _ _ _ _ El Hx) as (q & Hq & Hs). exists q. split; [|exact Hs].
          apply in_or_app; left. destruct line; [discriminate|]. simpl in Hq |- *. eapply nth_error_In; exact Hq.
        * destruct (H3 p' k x Hp' Hx) as (q & Hq & Hs). exists q. split; [apply in_or_app; right; exact Hq|exact Hs].
      + intros q Hq. apply in_app_or in Hq. destruct Hq as [Hq|Hq].
        * exists p. split; [left; reflexivity|]. apply Hline. destruct line; [destruct Hq|right; exact Hq].
        * destruct (H3' q Hq) as (p' & Hp' & Hs). exists p'. split; [right; exact Hp'|exact Hs].
      + rewrite app_length, L3, H4, Hlen. simpl. lia.
      + rewrite app_length, H5. destruct line; simpl in *; lia.
  Qed.

  (** Coordinate [k] of the major grid at digit [d]. *)
  Definition major_value (lower upper : list F) (majors : list Z) (k d : nat) : option F :=
    match d with
    | 0%nat => nth_error lower k
    | _ => match nth_error lower k, nth_error upper k, nth_error majors k with
           | Some a, Some b, Some mj =>
               match linspace O a b mj with Ok l => nth_error l d | Raise _ => None end
           | _, _, _ => None
           end
    end.

  Definition one_step (pts : list (list F)) : Prop :=
    forall i q, nth_error pts (S i) = Some q ->
      exists i' p n, (i' <= i)%nat /\ nth_error pts i' = Some p /\ same_but n p q.

  Lemma one_step_app pts new :
    pts <> [] -> one_step pts -> (forall q, In q new -> exists p n, In p pts /\ same_but n p q) -> one_step (pts ++ new).
  Proof.
    intros Hne H Hnew i q E. destruct (Nat.lt_ge_cases (S i) (length pts)) as [Hi|Hi].
    - rewrite nth_error_app1 in E by exact Hi. destruct (H i q E) as (i' & p & n & Hle & Hp & Hs).
      exists i', p, n. split; [exact Hle|]. split; [rewrite nth_error_app1 by lia; exact Hp|exact Hs].
    - rewrite nth_error_app2 in E by exact Hi. apply nth_error_In in E.
      destruct (Hnew q E) as (p & n & Hp & Hs). apply In_nth_error in Hp. destruct Hp as [i' Hp].
      assert (i' < length pts)%nat by (apply nth_error_Some; congruence).
      exists i', p, n. split; [lia|]. split; [rewrite nth_error_app1 by lia; exact Hp|exact Hs].
  Qed.

  Definition covers (lower upper : list F) (majors : list Z) (n : nat) (cloud : list (list F)) : Prop :=
    forall ds, length ds = n -> (forall k d mj, nth_error ds k = Some d -> nth_error majors k = Some mj -> Z.of_nat d < mj) ->
    exists p, In p cloud /\ length p = length lower /\
      (forall k d, nth_error ds k = Some d -> nth_error p k = major_value lower upper majors k d) /\
      (forall k, (n <= k)%nat -> nth_error p k = nth_error lower k).

  Lemma skipn_nth {A} (l : list A) n x : nth_error l n = Some x -> skipn n l = x :: skipn (S n) l.
  Proof.
    revert l; induction n as [|n IH]; intros [|y l] H; try discriminate; simpl in *; [congruence|]. apply IH; exact H.
  Qed.

  Lemma sparse_loop_ok lower upper majors minors :
    length upper = length lower -> length majors = length lower -> length minors = length lower ->
    Forall (fun m => 1 <= m) majors -> Forall (fun m => 0 <= m) minors ->
    forall todo n steps cloud pts,
      (n + todo)%nat = length lower -> steps <> [] ->
      one_step steps -> (forall p, In p cloud -> In p steps) ->
      covers lower upper majors n cloud -> (forall p, In p steps -> length p = length lower) ->
      sparse_loop O todo n lower upper majors minors steps cloud = Ok pts ->
      (exists more, pts = steps ++ more) /\ one_step pts /\
      covers lower upper majors (length lower) pts /\ (forall p, In p pts -> length p = length lower) /\
      Z.of_nat (length pts) =
        Z.of_nat (length steps) + sparse_count (Z.of_nat (length cloud)) (skipn n majors) (skipn n minors).
  Proof.
    intros Hlu Hlm Hln HM Hm. induction todo as [|todo IH]; intros n steps cloud pts Hn Hne Hone Hsub Hcov Hlen H;
      cbn [sparse_loop] in H.
    - injection H as <-. assert (n = length lower) as -> by lia.
      split; [exists []; rewrite app_nil_r; reflexivity|]. split; [exact Hone|]. split.
      + intros ds Hd Hr. destruct (Hcov ds Hd Hr) as (p & Hp & Hrest). exists p. split; [apply Hsub; exact Hp|exact Hrest].
      + split; [exact Hlen|]. rewrite !skipn_all2 by lia. simpl. lia.
    - destruct (get lower n) as [a|] eqn:Ea; simpl in H; [|discriminate].
      destruct (get upper n) as [b|] eqn:Eb; simpl in H; [|discriminate].
      destruct (get majors n) as [mj|] eqn:Emj; simpl in H; [|discriminate].
      destruct (linspace O a b mj) as [series|] eqn:Es; simpl in H; [|discriminate].
      apply get_ok in Ea, Eb, Emj.
      assert (Hmj : 1 <= mj) by (rewrite Forall_forall in HM; apply HM; eapply nth_error_In; exact Emj).
      destruct (nth_error minors n) as [mn|] eqn:Emn; [|apply nth_error_None in Emn; lia].
      assert (Hmn : 0 <= mn) by (rewrite Forall_forall in Hm; apply Hm; eapply nth_error_In; exact Emn).
      pose proof (linspace_length O _ _ _ _ _ Es) as [Hls _].
      set (mm := if Nat.ltb (length series) 2 then Ok 0 else get minors n) in H.
      assert (exists m', mm = Ok m' /\ 0 <= m' /\ ((2 <= length series)%nat -> m' = mn)) as (m' & Emm & Hm' & Hmeq).
      { unfold mm. destruct (Nat.ltb_spec (length series) 2).
        - exists 0. split; [reflexivity|]. split; [lia|]. intros; lia.
        - exists mn. split; [apply get_some; exact Emn|]. split; [exact Hmn|reflexivity]. }
      rewrite Emm in H. simpl in H.
      destruct (sweep O n series m' cloud) as [[st cl]|] eqn:Esw; simpl in H; [|discriminate].
      destruct (sweep_ok _ _ _ _ _ _ Hm' Esw) as (S1 & S2 & S3 & S3' & S4 & S5).
      apply IH in H; [|lia|destruct steps; [congruence|discriminate]| | | |].
      + destruct H as ((more & ->) & H2 & H3 & H4 & H5).
        split; [exists (st ++ more); rewrite app_assoc; reflexivity|]. split; [exact H2|]. split; [exact H3|].
        split; [exact H4|]. rewrite H5. rewrite (skipn_nth _ _ _ Emj), (skipn_nth minors _ _ Emn).
        cbn [sparse_count]. rewrite app_length, S4.
        assert (Z.of_nat (length (cloud ++ cl)) = Z.of_nat (length cloud) * mj) as ->.
        { rewrite app_length, S5, Hls. nia. }
        assert (Z.of_nat (length cloud * ((length series - 1) * Z.to_nat (m' + 1))) =
                Z.of_nat (length cloud) * (mj - 1) * (mn + 1)) as Hst; [|lia].
        rewrite Hls. destruct (Z.eq_dec mj 1) as [->|Hmj1].
        * simpl. lia.
        * rewrite Hmeq by lia. rewrite !Nat2Z.inj_mul, Nat2Z.inj_sub by lia. rewrite !Z2Nat.id by lia. lia.
      + apply one_step_app; [exact Hne|exact Hone|]. intros q Hq. destruct (S1 q Hq) as (p & Hp & Hs).
        exists p, n. split; [apply Hsub; exact Hp|exact Hs].
      + intros p Hp. apply in_app_or in Hp. apply in_or_app.
        destruct Hp as [Hp|Hp]; [left; apply Hsub; exact Hp|right; apply S2; exact Hp].
      + (* coverage *)
        intros ds Hd Hr.
        destruct (exists_last (l := ds)) as (ds0 & d & ->); [intros ->; simpl in Hd; lia|].
        rewrite app_length in Hd; simpl in Hd. assert (length ds0 = n) as Hd0 by lia.
        destruct (Hcov ds0 Hd0) as (p & Hp & Hlp & Hin & Hout).
        { intros k d' mj' E1 E2. apply (Hr k d' mj'); [|exact E2].
          rewrite nth_error_app1; [exact E1|]. apply nth_error_Some; congruence. }
        assert (Hdn : nth_error (ds0 ++ [d]) n = Some d).
        { rewrite nth_error_app2 by lia. rewrite Hd0, Nat.sub_diag. reflexivity. }
        pose proof (Hr n d mj Hdn Emj) as Hdm.
        destruct d as [|d].
        * exists p. split; [apply in_or_app; left; exact Hp|]. split; [exact Hlp|]. split.
          -- intros k d' E. destruct (Nat.lt_ge_cases k n) as [Hk|Hk].
             ++ rewrite nth_error_app1 in E by lia. apply Hin; exact E.
             ++ assert (k = n) as ->.
                { assert (k < length (ds0 ++ [0%nat]))%nat by (apply nth_error_Some; congruence).
                  rewrite app_length in *; simpl in *; lia. }
                rewrite Hdn in E. injection E as <-. simpl. apply Hout. lia.
          -- intros k Hk. apply Hout. lia.
        * destruct (nth_error series (S d)) as [x|] eqn:Ex; [|apply nth_error_None in Ex; lia].
          destruct (S3 p d x Hp Ex) as (q & Hq & Hset).
          destruct (set_nth_ok _ _ _ _ Hset) as (Hlq & _ & Hnq).
          exists q. split; [apply in_or_app; right; exact Hq|]. split; [congruence|]. split.
          -- intros k d' E. rewrite Hnq. destruct (Nat.eqb_spec k n) as [->|Hkn].
             ++ rewrite Hdn in E. injection E as <-. cbn [major_value]. rewrite Ea, Eb, Emj, Es, Ex. reflexivity.
             ++ destruct (Nat.lt_ge_cases k n) as [Hk|Hk].
                ** rewrite nth_error_app1 in E by lia. apply Hin; exact E.
                ** exfalso. assert (k < length (ds0 ++ [S d]))%nat by (apply nth_error_Some; congruence).
                   rewrite app_length in *; simpl in *; lia.
          -- intros k Hk. rewrite Hnq. destruct (Nat.eqb_spec k n); [lia|]. apply Hout; lia.
      + intros p Hp. apply in_app_or in Hp. destruct Hp as [Hp|Hp]; [apply Hlen; exact Hp|].
        destruct (S1 p Hp) as (p' & Hp' & [Hl _]). rewrite <- Hl. apply Hlen, Hsub; exact Hp'.
  Qed.

  Lemma sparse_points_ok lower upper majors minors pts :
    length upper = length lower -> length majors = length lower -> length minors = length lower ->
    Forall (fun m => 1 <= m) majors -> Forall (fun m => 0 <= m) minors ->
    sparse_points O lower upper majors minors = Ok pts ->
    nth_error pts 0 = Some lower /\ one_step pts /\ covers lower upper majors (length lower) pts /\
    (forall p, In p pts -> length p = length lower) /\
    Z.of_nat (length pts) = 1 + sparse_count 1 majors minors.
  Proof.
    intros Hlu Hlm Hln HM Hm H.
    destruct (sparse_loop_ok lower upper majors minors Hlu Hlm Hln HM Hm (length lower) 0 [lower] [lower] pts)
      as ((more & ->) & H2 & H3 & H4 & H5); try exact H.
    - lia.
    - discriminate.
    - intros i q E. destruct i; discriminate.
    - intros p Hp; exact Hp.
    - intros ds Hd _. exists lower. split; [left; reflexivity|]. split; [reflexivity|]. split; [|intros; reflexivity].
      destruct ds; [|discriminate]. intros [|k] d E; discriminate.
    - intros p [<-|[]]; reflexivity.
    - split; [reflexivity|]. split; [exact H2|]. split; [exact H3|]. split; [exact H4|]. exact H5.
  Qed.
End Sparse.

(** ** Runs over the reals *)
Section Real.
  Context {P : Type}.
  Notation traj := (traj R P). Notation strat := (strat R P). Notation call := (call R P).

  Lemma targets_nth (vs : list (cvar R)) m name T :
    nth_error (targets vs) m = Some (name, T) -> exists v, nth_error vs m = Some v /\ v_name v = name /\ v_target v = T.
  Proof.
    unfold targets. rewrite nth_error_map. destruct (nth_error vs m) as [v|]; [|discriminate].
    intros H; injection H as <- <-. exists v. repeat split.
  Qed.

  Lemma targets_fst (vs : list (cvar R)) : map fst (targets vs) = map v_name vs.
  Proof. unfold targets. rewrite map_map. reflexivity. Qed.

  Lemma const_is_fun cn (c : list R) name x y : NoDup cn -> const_is cn c name x -> const_is cn c name y -> x = y.
  Proof.
    intros Hcn (j & Hj & Hx) (j' & Hj' & Hy).
    apply (index_of_NoDup _ _ _ Hcn) in Hj. apply (index_of_NoDup _ _ _ Hcn) in Hj'.
    assert (j' = j) as -> by congruence. congruence.
  Qed.

  Lemma linspace_grid a b n l d :
    linspace ROps a b n = Ok l -> 1 <= n -> Z.of_nat d < n -> nth_error l d = Some (grid_value a b n d).
  Proof.
    intros H Hn Hd. unfold grid_value. destruct (Z.eq_dec n 1) as [->|Hn1].
    - assert (d = 0%nat) as -> by lia. rewrite (linspace_nth _ _ _ _ _ _ H) by lia. simpl.
      unfold linspace_elem. simpl. f_equal. unfold Rdiv. ring.
    - apply linspace_nth_R; [exact H|lia|lia].
  Qed.

  (** *** C09 *)
  Lemma product_grid (slv : solver R P) fuel k (s : strat) guess cn n s' lst calls :
    keeps_const slv -> well_named cn (t_const guess) -> NoDup (map v_name (s_vars s)) ->
    s_kind s = Product -> Forall (fun v => v_steps v = []) (s_vars s) -> s_nsub s = n -> 1 <= n ->
    run_step ROps fuel slv k s guess cn = Finished s' lst calls ->
    let v := length (s_vars s) in
    Z.of_nat (length calls) = n ^ Z.of_nat v /\
    lst = last (map snd calls) guess /\
    (forall i g sol, nth_error calls i = Some (g, sol) -> t_const g = t_const sol /\
       at_point cn (targets (s_vars s)) (repeat n v) (digits (Z.to_nat n) v i) (t_const guess) (t_const sol)).
  Proof.
    intros Hkeep [Hcn Hlen] Hnd Hk Hfresh Hnsub Hn Ho v.
    unfold run_step in Ho. destruct (init ROps (reset s) guess cn) as [s1 [u|e]] eqn:Ei; [|discriminate].
    destruct (points_init ROps s s1 guess cn u (or_introl Hk) Ei) as (rs & pts & N & HF & HI & HP).
    rewrite Hk in HP. destruct HP as (HN & ls & Hls & ->). rewrite Hnsub in HN, Hls.
    destruct (read_names _ _ _ _ HF) as [Hrn Hrt].
    destruct (append_points_names ROps (cart ls) rs 0) as [Hn' _].
    assert (Hnd' : NoDup (map v_name (append_points ROps 0 (cart ls) rs))) by (rewrite Hn', Hrn; exact Hnd).
    pose proof (product_run ROps cn _ guess N Hcn Hnd' slv fuel k s1 guess [] Hkeep HI) as [Hat Hfin].
    rewrite Ho in Hat, Hfin. destruct (Hfin _ _ _ eq_refl) as [Hcount Hlast].
    assert (HNpos : 0 <= N) by (rewrite HN; apply Z.pow_nonneg; lia).
    split; [rewrite Hcount, Z.max_r by exact HNpos; exact HN|]. split; [exact Hlast|].
    intros i g sol Hi. destruct (Hat i (g, sol) Hi) as [Hc Hpl]. simpl in Hc, Hpl. split; [symmetry; exact Hc|].
    apply mapM_Forall2 in Hls. pose proof (Forall2_len _ _ _ Hls) as Hl1. pose proof (Forall2_len _ _ _ HF) as Hl2.
    assert (HL : Forall (fun l => length l = Z.to_nat n) ls).
    { apply Forall_forall. intros l Hin. apply In_nth_error in Hin. destruct Hin as [m Hm].
      destruct (Forall2_nth_r _ _ _ _ _ Hls Hm) as (r & _ & Hr). apply linspace_length in Hr. apply Hr. }
    destruct (cart_nth ls (Z.to_nat n) ltac:(lia) HL) as [Hcl Hcn'].
    assert (Hlsv : length ls = v) by (unfold v; lia). rewrite Hlsv in *.
    assert (Hiv : (i < Z.to_nat n ^ v)%nat).
    { assert (i < length calls)%nat by (apply nth_error_Some; congruence).
      assert (Z.of_nat (length calls) = Z.of_nat (Z.to_nat n ^ v)) as E.
      { rewrite Hcount, Z.max_r by exact HNpos. rewrite HN. unfold v.
        rewrite Nat2Z.inj_pow, Z2Nat.id by lia. reflexivity. }
      lia. }
    destruct (Hcn' i Hiv) as (p & Hp & Hlp & Hdig).
    destruct (placed_point ROps cn (t_const guess) (t_const sol) (cart ls) (s_vars s) rs i p Hcn Hnd HF Hfresh Hp
                ltac:(unfold v in *; lia) Hpl) as [Hrest Hval].
    split; [rewrite targets_fst; exact Hrest|].
    intros m name T d n' x0 Hm Hd Hn0 Hx0. apply targets_nth in Hm. destruct Hm as (w & Hw & <- & <-).
    assert (n' = n) as -> by (apply nth_error_In, repeat_spec in Hn0; exact Hn0).
    destruct (Forall2_nth _ _ _ _ _ HF Hw) as (r & Hr & (_ & Hrt' & _ & y & Hy & Hy')).
    destruct (Forall2_nth _ _ _ _ _ Hls Hr) as (l & Hl & Hlin).
    apply (Hval m w _ Hw). rewrite (Hdig m d l Hd Hl).
    assert (y = x0) as -> by (exact (const_is_fun _ _ _ _ _ Hcn Hy' Hx0)).
    unfold var_value in Hlin. rewrite Hy, Hrt' in Hlin. apply linspace_grid; [exact Hlin|exact Hn|].
    pose proof (digits_range (Z.to_nat n) v i ltac:(lia)) as Hrange. rewrite Forall_forall in Hrange.
    assert (d < Z.to_nat n)%nat by (apply Hrange; eapply nth_error_In; exact Hd). lia.
  Qed.

  Lemma digits_last n v : (0 < n)%nat -> digits n v (n ^ v - 1) = repeat (n - 1)%nat v.
  Proof.
    intros Hn. induction v as [|v IH]; [reflexivity|]. cbn [digits repeat].
    assert (0 < n ^ v)%nat by (apply Nat.neq_0_lt_0, Nat.pow_nonzero; lia). f_equal.
    - assert (n ^ S v - 1 = (n ^ v - 1) + (n - 1) * n ^ v)%nat as -> by (rewrite Nat.pow_succ_r'; nia).
      rewrite Nat.div_add by lia. rewrite Nat.div_small by lia. apply Nat.mod_small; lia.
    - rewrite <- IH, <- (digits_mod n v Hn), <- (digits_mod n v Hn (n ^ v - 1)). f_equal.
      assert (n ^ S v - 1 = (n ^ v - 1) + (n - 1) * n ^ v)%nat as -> by (rewrite Nat.pow_succ_r'; nia).
      apply Nat.mod_add; lia.
  Qed.

  Lemma digits_zero n v : digits n v 0 = repeat 0%nat v.
  Proof.
    induction v as [|v IH]; [reflexivity|]. cbn [digits repeat]. rewrite IH.
    destruct n as [|n]; [destruct v; reflexivity|].
    rewrite Nat.div_0_l by (apply Nat.pow_nonzero; lia). rewrite Nat.mod_0_l by lia. reflexivity.
  Qed.

  Lemma at_point_start cn tg ns (c0 c : list R) :
    well_named cn c0 -> length ns = length tg ->
    at_point cn tg ns (repeat 0%nat (length tg)) c0 c -> c = c0.
  Proof.
    intros [Hcn Hl] Hns [[Hlc Hrest] Hval]. apply nth_error_ext_len; [exact Hlc|].
    intros j Hj. destruct (nth_error cn j) as [name|] eqn:Ej; [|apply nth_error_None in Ej; lia].
    destruct (in_dec String.string_dec name (map fst tg)) as [Hin|Hin]; [|apply (Hrest j name Ej Hin)].
    apply In_nth_error in Hin. destruct Hin as [m Hm]. rewrite nth_error_map in Hm.
    destruct (nth_error tg m) as [[nm T]|] eqn:Em; [|discriminate]. simpl in Hm. injection Hm as ->.
    destruct (nth_error c0 j) as [x0|] eqn:Ex; [|apply nth_error_None in Ex; lia].
    assert (m < length tg)%nat by (apply nth_error_Some; congruence).
    destruct (nth_error ns m) as [n|] eqn:En; [|apply nth_error_None in En; lia].
    destruct (Hval m name T 0%nat n x0 Em) as (j' & Hj' & Hc).
    - rewrite (nth_error_nth' _ 0%nat) by (rewrite repeat_length; lia). f_equal. apply nth_repeat.
    - exact En.
    - exists j. split; assumption.
    - apply (index_of_NoDup _ _ _ Hcn) in Hj'. apply (index_of_NoDup _ _ _ Hcn) in Ej.
      assert (j' = j) as -> by congruence. rewrite Hc. f_equal. unfold grid_value. simpl. unfold Rdiv. ring.
  Qed.

  Lemma assoc_nth {A} (tg : list (string * A)) name :
    match assoc name tg with
    | Some T => exists m, nth_error tg m = Some (name, T)
    | None => ~ In name (map fst tg)
    end.
  Proof.
    induction tg as [|[nm T] tg IH]; simpl; [intros []|].
    destruct (String.eqb_spec nm name) as [->|Hne]; [exists 0%nat; reflexivity|].
    destruct (assoc name tg) as [T'|].
    - destruct IH as [m Hm]. exists (S m). exact Hm.
    - intros [E|Hin]; [congruence|apply IH; exact Hin].
  Qed.

  Lemma at_point_end cn tg n (c0 c : list R) :
    well_named cn c0 -> 2 <= n ->
    at_point cn tg (repeat n (length tg)) (repeat (Z.to_nat n - 1)%nat (length tg)) c0 c -> at_targets cn tg c0 c.
  Proof.
    intros [Hcn Hl] Hn [[Hlc Hrest] Hval]. split; [exact Hlc|]. intros j name Ej.
    pose proof (assoc_nth tg name) as Ha. destruct (assoc name tg) as [T|]; [|apply (Hrest j name Ej Ha)].
    destruct Ha as [m Em]. assert (j < length cn)%nat by (apply nth_error_Some; congruence).
    destruct (nth_error c0 j) as [x0|] eqn:Ex; [|apply nth_error_None in Ex; lia].
    assert (m < length tg)%nat by (apply nth_error_Some; congruence).
    destruct (Hval m name T (Z.to_nat n - 1)%nat n x0 Em) as (j' & Hj' & Hc).
    - rewrite (nth_error_nth' _ 0%nat) by (rewrite repeat_length; lia). f_equal.
      clear - H0. revert m H0; induction (length tg) as [|q IH]; intros m Hm; [lia|]. destruct m; [reflexivity|]. simpl. apply IH; lia.
    - rewrite (nth_error_nth' _ n) by (rewrite repeat_length; lia). f_equal. apply nth_repeat.
    - exists j. split; assumption.
    - apply (index_of_NoDup _ _ _ Hcn) in Hj'. apply (index_of_NoDup _ _ _ Hcn) in Ej.
      assert (j' = j) as -> by congruence. rewrite Hc. simpl. f_equal. unfold grid_value.
      rewrite INR_IZR_INZ. replace (Z.of_nat (Z.to_nat n - 1)) with (n - 1) by lia.
      field. apply IZR_neq; lia.
  Qed.

  Lemma product_ends (slv : solver R P) fuel k (s : strat) guess cn n s' lst calls :
    keeps_const slv -> well_named cn (t_const guess) -> NoDup (map v_name (s_vars s)) ->
    s_kind s = Product -> Forall (fun v => v_steps v = []) (s_vars s) -> s_nsub s = n -> 2 <= n ->
    run_step ROps fuel slv k s guess cn = Finished s' lst calls ->
    (exists g sol, nth_error calls 0 = Some (g, sol) /\ t_const sol = t_const guess) /\
    at_targets cn (targets (s_vars s)) (t_const guess) (t_const lst).
  Proof.
    intros Hkeep Hwn Hnd Hk Hfresh Hnsub Hn Ho.
    destruct (product_grid slv fuel k s guess cn n s' lst calls Hkeep Hwn Hnd Hk Hfresh Hnsub ltac:(lia) Ho)
      as (Hcount & Hlast & Hpt).
    set (v := length (s_vars s)) in *.
    assert (Hl : length calls = (Z.to_nat n ^ v)%nat).
    { apply Nat2Z.inj. rewrite Hcount, Nat2Z.inj_pow, Z2Nat.id by lia. reflexivity. }
    assert (0 < Z.to_nat n ^ v)%nat by (apply Nat.neq_0_lt_0, Nat.pow_nonzero; lia).
    assert (Htv : length (targets (s_vars s)) = v) by (unfold targets; rewrite map_length; reflexivity).
    split.
    - destruct (nth_error calls 0) as [[g sol]|] eqn:E; [|apply nth_error_None in E; lia].
      exists g, sol. split; [reflexivity|]. destruct (Hpt 0%nat g sol E) as [_ Hp].
      rewrite digits_zero in Hp. rewrite <- Htv in Hp.
      eapply at_point_start; [exact Hwn| |exact Hp]. apply repeat_length.
    - destruct calls as [|c calls'] using rev_ind; [simpl in Hl; lia|]. clear IHcalls'.
      rewrite map_app in Hlast; simpl in Hlast; rewrite last_last in Hlast. destruct c as [g sol]. simpl in Hlast. subst lst.
      rewrite app_length in Hl; simpl in Hl.
      destruct (Hpt (length calls') g sol) as [_ Hp]; [rewrite nth_error_app2, Nat.sub_diag by lia; reflexivity|].
      replace (length calls') with (Z.to_nat n ^ v - 1)%nat in Hp by lia.
      rewrite digits_last in Hp by lia. rewrite <- Htv in Hp. eapply at_point_end; eassumption.
  Qed.

  (** *** C10 *)
  Lemma sparse_run (slv : solver R P) fuel k (s : strat) guess cn M m s' lst calls :
    keeps_const slv -> well_named cn (t_const guess) -> NoDup (map v_name (s_vars s)) ->
    s_kind s = Sparse -> Forall (fun v => v_steps v = []) (s_vars s) -> s_sub s = (M, m) ->
    length M = length (s_vars s) -> length m = length (s_vars s) ->
    Forall (fun x => 1 <= x) M -> Forall (fun x => 0 <= x) m ->
    run_step ROps fuel slv k s guess cn = Finished s' lst calls ->
    Z.of_nat (length calls) = 1 + sparse_count 1 M m /\
    (exists g sol, nth_error calls 0 = Some (g, sol) /\ t_const sol = t_const guess) /\
    (forall i g sol, nth_error calls (S i) = Some (g, sol) ->
       exists i' g' sol', (i' <= i)%nat /\ nth_error calls i' = Some (g', sol') /\
         differ_in_one (t_const sol') (t_const sol)) /\
    (forall ds, length ds = length (s_vars s) ->
       (forall k d mj, nth_error ds k = Some d -> nth_error M k = Some mj -> Z.of_nat d < mj) ->
       exists i g sol, nth_error calls i = Some (g, sol) /\
         at_point cn (targets (s_vars s)) M ds (t_const guess) (t_const sol)).
  Proof.
    intros Hkeep [Hcn Hlen] Hnd Hk Hfresh Hsub HlM Hlm HM Hm Ho.
    unfold run_step in Ho. destruct (init ROps (reset s) guess cn) as [s1 [u|e]] eqn:Ei; [|discriminate].
    destruct (points_init ROps s s1 guess cn u (or_intror Hk) Ei) as (rs & pts & N & HF & HI & HP).
    rewrite Hk, Hsub in HP. destruct HP as (HN & Hpts). simpl in Hpts.
    destruct (read_names _ _ _ _ HF) as [Hrn Hrt].
    destruct (append_points_names ROps pts rs 0) as [Hn' _].
    assert (Hnd' : NoDup (map v_name (append_points ROps 0 pts rs))) by (rewrite Hn', Hrn; exact Hnd).
    pose proof (product_run ROps cn _ guess N Hcn Hnd' slv fuel k s1 guess [] Hkeep HI) as [Hat Hfin].
    rewrite Ho in Hat, Hfin. destruct (Hfin _ _ _ eq_refl) as [Hcount Hlast].
    pose proof (Forall2_len _ _ _ HF) as Hl2.
    destruct (sparse_points_ok ROps (map (var_value ROps) rs) (map v_target rs) M m pts) as (H0 & H1 & H2 & H3 & H4);
      try exact Hpts; try assumption; try (rewrite !map_length; congruence); try (rewrite map_length; congruence).
    assert (Hcl : length calls = length pts) by lia.
    assert (Hpoint : forall i p g sol, nth_error pts i = Some p -> nth_error calls i = Some (g, sol) ->
      rest_unchanged cn (map v_name (s_vars s)) (t_const guess) (t_const sol) /\
      forall m v x, nth_error (s_vars s) m = Some v -> nth_error p m = Some x -> const_is cn (t_const sol) (v_name v) x).
    { intros i p g sol Hp Hc. destruct (Hat i (g, sol) Hc) as [_ Hpl]. simpl in Hpl.
      eapply placed_point; try eassumption. rewrite (H3 p) by (eapply nth_error_In; exact Hp).
      rewrite map_length; congruence. }
    assert (Hcall : forall i p, nth_error pts i = Some p -> exists g sol, nth_error calls i = Some (g, sol)).
    { intros i p Hp. destruct (nth_error calls i) as [[g sol]|] eqn:E; [eauto|].
      apply nth_error_None in E. assert (i < length pts)%nat by (apply nth_error_Some; congruence). lia. }
    assert (Hpt : forall i g sol, nth_error calls i = Some (g, sol) -> exists p, nth_error pts i = Some p).
    { intros i g sol Hc. destruct (nth_error pts i) as [p|] eqn:E; [eauto|].
      apply nth_error_None in E. assert (i < length calls)%nat by (apply nth_error_Some; congruence). lia. }
    (* start values *)
    assert (Hstart : forall q v, nth_error (s_vars s) q = Some v -> exists x0,
              nth_error (map (var_value ROps) rs) q = Some x0 /\ const_is cn (t_const guess) (v_name v) x0).
    { intros q v Hq. destruct (Forall2_nth _ _ _ _ _ HF Hq) as (r & Hr & (_ & _ & _ & y & Hy & Hy')).
      exists y. split; [|exact Hy']. rewrite nth_error_map, Hr. simpl. unfold var_value. rewrite Hy. reflexivity. }
    split; [lia|]. split; [|split].
    - destruct (Hcall 0%nat _ H0) as (g & sol & Hc). exists g, sol. split; [exact Hc|].
      destruct (Hpoint 0%nat _ g sol H0 Hc) as [[Hl Hrest] Hval].
      apply nth_error_ext_len; [exact Hl|]. intros j Hj.
      destruct (nth_error cn j) as [name|] eqn:Ej; [|apply nth_error_None in Ej; lia].
      destruct (in_dec String.string_dec name (map v_name (s_vars s))) as [Hin|Hin]; [|apply (Hrest j name Ej Hin)].
      apply In_nth_error in Hin. destruct Hin as [q Hq]. rewrite nth_error_map in Hq.
      destruct (nth_error (s_vars s) q) as [v|] eqn:Ev; [|discriminate]. simpl in Hq. injection Hq as Hq.
      destruct (Hstart q v Ev) as (x0 & Hx0 & j0 & Hj0 & Hc0).
      destruct (Hval q v x0 Ev Hx0) as (j1 & Hj1 & Hc1). rewrite Hq in Hj0, Hj1.
      apply (index_of_NoDup _ _ _ Hcn) in Hj0, Hj1, Ej.
      assert (j0 = j) as -> by congruence. assert (j1 = j) as -> by congruence. congruence.
    - intros i g sol Hc. destruct (Hpt _ _ _ Hc) as [q Hq].
      destruct (H1 i q Hq) as (i' & p & n & Hle & Hp & Hsame).
      destruct (Hcall _ _ Hp) as (g' & sol' & Hc'). exists i', g', sol'. split; [exact Hle|]. split; [exact Hc'|].
      destruct (Hpoint _ _ _ _ Hq Hc) as [[Hl Hrest] Hval]. destruct (Hpoint _ _ _ _ Hp Hc') as [[Hl' Hrest'] Hval'].
      split; [congruence|].
      (* the constant that may differ *)
      assert (Hj0 : exists j0, forall j name, nth_error cn j = Some name -> j <> j0 ->
                ~ In name (map v_name (s_vars s)) \/
                exists q' v, nth_error (s_vars s) q' = Some v /\ v_name v = name /\ q' <> n).
      { destruct (nth_error (s_vars s) n) as [vn|] eqn:Evn.
        - destruct (index_of (v_name vn) cn) as [j0|] eqn:Ej0.
          + exists j0. intros j name Hj Hne.
            destruct (in_dec String.string_dec name (map v_name (s_vars s))) as [Hin|Hin]; [right|left; exact Hin].
            apply In_nth_error in Hin. destruct Hin as [q' Hq']. rewrite nth_error_map in Hq'.
            destruct (nth_error (s_vars s) q') as [v|] eqn:Ev; [|discriminate]. simpl in Hq'. injection Hq' as Hq'.
            exists q', v. split; [exact Ev|]. split; [exact Hq'|]. intros ->.
            assert (v = vn) as -> by congruence. apply (index_of_NoDup _ _ _ Hcn) in Hj. congruence.
          + exists 0%nat. exfalso. destruct (Hstart n vn Evn) as (x0 & _ & j0 & Hj0 & _).
            apply (index_of_NoDup _ _ _ Hcn) in Hj0. congruence.
        - exists 0%nat. intros j name Hj _.
          destruct (in_dec String.string_dec name (map v_name (s_vars s))) as [Hin|Hin]; [right|left; exact Hin].
          apply In_nth_error in Hin. destruct Hin as [q' Hq']. rewrite nth_error_map in Hq'.
          destruct (nth_error (s_vars s) q') as [v|] eqn:Ev; [|discriminate]. simpl in Hq'. injection Hq' as Hq'.
          exists q', v. split; [exact Ev|]. split; [exact Hq'|]. intros ->. congruence. }
      destruct Hj0 as [j0 Hj0]. exists j0. intros j Hne.
      destruct (nth_error cn j) as [name|] eqn:Ej.
      + destruct (Hj0 j name Ej Hne) as [Hni|(q' & v & Ev & Hname & Hqn)].
        * rewrite (Hrest j name Ej Hni), (Hrest' j name Ej Hni). reflexivity.
        * assert (q' < length q)%nat as Hlq.
          { rewrite (H3 q) by (eapply nth_error_In; exact Hq). rewrite map_length, <- Hl2. apply nth_error_Some; congruence. }
          destruct (nth_error q q') as [x|] eqn:Ex; [|apply nth_error_None in Ex; lia].
          destruct Hsame as [_ Hsame]. pose proof (Hsame q' Hqn) as Hpq. rewrite Ex in Hpq.
          destruct (Hval q' v x Ev Ex) as (j1 & Hj1 & Hc1). destruct (Hval' q' v x Ev Hpq) as (j2 & Hj2 & Hc2).
          rewrite Hname in Hj1, Hj2. apply (index_of_NoDup _ _ _ Hcn) in Hj1, Hj2, Ej.
          assert (j1 = j) as -> by congruence. assert (j2 = j) as -> by congruence. congruence.
      + apply nth_error_None in Ej. rewrite !(proj2 (nth_error_None _ _)) by lia. reflexivity.
    - intros ds Hd Hr. destruct (H2 ds) as (p & Hp & Hlp & Hin & _); [rewrite map_length; lia|exact Hr|].
      apply In_nth_error in Hp. destruct Hp as [i Hp]. destruct (Hcall _ _ Hp) as (g & sol & Hc).
      exists i, g, sol. split; [exact Hc|]. destruct (Hpoint _ _ _ _ Hp Hc) as [Hrest Hval].
      split; [rewrite targets_fst; exact Hrest|].
      intros q name T d n x0 Hq Hdq Hnq Hx0. apply targets_nth in Hq. destruct Hq as (v & Ev & <- & <-).
      apply (Hval q v _ Ev). rewrite (Hin q d Hdq).
      destruct (Hstart q v Ev) as (y & Hy & Hy').
      assert (y = x0) as -> by (exact (const_is_fun _ _ _ _ _ Hcn Hy' Hx0)).
      pose proof (Hr q d n Hdq Hnq) as Hdn.
      unfold major_value. destruct d as [|d].
      + rewrite Hy. f_equal. unfold grid_value. simpl. unfold Rdiv. ring.
      + destruct (Forall2_nth _ _ _ _ _ HF Ev) as (r & Hr' & (_ & Hrt' & _)).
        rewrite Hy, nth_error_map, Hr'. simpl. rewrite Hnq, Hrt'.
        destruct (linspace_ok ROps true x0 (v_target v) n ltac:(lia)) as [l Hl]. unfold linspace. rewrite Hl.
        exact (linspace_grid x0 (v_target v) n l (S d) Hl ltac:(lia) Hdn).
  Qed.
End Real.

(** *** Raising, for every number type *)
Section Raise.
  Context {F : Type} (O : NumOps F) {P : Type}.

  Lemma product_only_first (slv : solver F P) fuel k (s : strat F P) guess cn n e s' calls :
    keeps_const slv -> total_solver slv -> well_named cn (t_const guess) -> NoDup (map v_name (s_vars s)) ->
    s_kind s = Product -> Forall (fun v => v_steps v = []) (s_vars s) -> s_nsub s = n -> 1 <= n ->
    Forall (fun v => In (v_name v) cn) (s_vars s) ->
    run_step O fuel slv k s guess cn = Raised e s' calls ->
    e = RuntimeError /\ exists c, calls = [c] /\ ~ converged (snd c).
  Proof.
    intros Hkeep Htot [Hcn Hlen] Hnd Hk Hfresh Hnsub Hn Hin Ho.
    unfold run_step in Ho. destruct (init O (reset s) guess cn) as [s1 [u|e0]] eqn:Ei.
    - destruct (points_init O s s1 guess cn u (or_introl Hk) Ei) as (rs & pts & N & HF & HI & HP).
      rewrite Hk in HP. destruct HP as (HN & ls & Hls & ->). rewrite Hnsub in HN, Hls.
      destruct (read_names _ _ _ _ HF) as [Hrn Hrt].
      destruct (append_points_names O (cart ls) rs 0) as [Hn' _].
      assert (Hnd' : NoDup (map v_name (append_points O 0 (cart ls) rs))) by (rewrite Hn', Hrn; exact Hnd).
      apply mapM_Forall2 in Hls. pose proof (Forall2_len _ _ _ Hls) as Hl1. pose proof (Forall2_len _ _ _ HF) as Hl2.
      assert (HL : Forall (fun l => length l = Z.to_nat n) ls).
      { apply Forall_forall. intros l Hin'. apply In_nth_error in Hin'. destruct Hin' as [m Hm].
        destruct (Forall2_nth_r _ _ _ _ _ Hls Hm) as (r & _ & Hr). apply linspace_length in Hr. apply Hr. }
      destruct (cart_nth ls (Z.to_nat n) ltac:(lia) HL) as [Hcl _].
      assert (HNl : Z.to_nat N = length (cart ls)).
      { rewrite Hcl, HN, <- Hl1, <- Hl2. rewrite <- (Nat2Z.id (Z.to_nat n ^ length (s_vars s))).
        f_equal. rewrite Nat2Z.inj_pow, Z2Nat.id by lia. reflexivity. }
      pose proof (product_raise O cn _ guess N Hcn Hnd' slv fuel k s1 guess [] Hkeep Htot Hlen) as HR.
      rewrite Ho in HR. apply HR; [|exact HI]. apply Forall_forall. intros w Hw.
      assert (Hw' := Hw). apply In_nth_error in Hw'. destruct Hw' as [m Hm].
      assert (m < length rs)%nat as Hmr.
      { destruct (append_points_names O (cart ls) rs 0) as [_ <-]. apply nth_error_Some; congruence. }
      destruct (nth_error rs m) as [r|] eqn:Er; [|apply nth_error_None in Er; lia].
      rewrite (append_points_nth O (cart ls) rs 0 m r Er) in Hm. injection Hm as <-. simpl.
      destruct (Forall2_nth_r _ _ _ _ _ HF Er) as (v & Ev & (Hrn' & _ & Hst & _)).
      rewrite Forall_forall in Hin, Hfresh. apply nth_error_In in Ev. split; [rewrite Hrn'; apply Hin; exact Ev|].
      rewrite Hst, (Hfresh v Ev). simpl. rewrite map_length. symmetry; exact HNl.
    - exfalso. unfold init in Ei; simpl in Ei; rewrite Hk in Ei. unfold init_product, set_num_product in Ei; simpl in Ei.
      assert (exists rs, read_values cn (t_const guess) (s_vars s) = Ok rs) as [rs Hrs].
      { clear - Hin Hlen. induction Hin as [|v vs Hv _ IH]; [simpl; eauto|]. simpl.
        destruct (index_of_In _ _ Hv) as [j Hj]. rewrite Hj. simpl. pose proof (index_of_lt _ _ _ Hj) as Hlt.
        unfold get. destruct (nth_error (t_const guess) j) eqn:E; [|apply nth_error_None in E; lia]. simpl.
        destruct IH as [r ->]. simpl. eauto. }
      rewrite Hrs in Ei. rewrite Hnsub in Ei.
      assert (exists ls, mapM (fun v => linspace O (var_value O v) (v_target v) n) rs = Ok ls) as [ls Hls].
      { clear - Hn. induction rs as [|r rs [ls IH]]; [simpl; eauto|]. simpl.
        destruct (linspace_ok O true (var_value O r) (v_target r) n ltac:(lia)) as [l Hl]. unfold linspace at 1.
        rewrite Hl. simpl. rewrite IH. simpl. eauto. }
      rewrite Hls in Ei. discriminate.
  Qed.

  Lemma product_finishes (slv : solver F P) fuel k (s : strat F P) guess cn n :
    keeps_const slv -> NoDup cn -> NoDup (map v_name (s_vars s)) ->
    s_kind s = Product -> s_nsub s = n ->
    (Z.to_nat (n ^ Z.of_nat (length (s_vars s))) < fuel)%nat ->
    run_step O fuel slv k s guess cn <> OutOfFuel.
  Proof.
    intros Hkeep Hcn Hnd Hk Hnsub Hf. unfold run_step.
    destruct (init O (reset s) guess cn) as [s1 [u|e0]] eqn:Ei; [|discriminate].
    destruct (points_init O s s1 guess cn u (or_introl Hk) Ei) as (rs & pts & N & HF & HI & HP).
    rewrite Hk in HP. destruct HP as (HN & ls & Hls & ->).
    destruct (read_names _ _ _ _ HF) as [Hrn Hrt].
    destruct (append_points_names O (cart ls) rs 0) as [Hn' _].
    assert (Hnd' : NoDup (map v_name (append_points O 0 (cart ls) rs))) by (rewrite Hn', Hrn; exact Hnd).
    eapply (product_fuel O cn _ guess N Hcn Hnd' slv Hkeep); [exact HI|]. rewrite HN, Hnsub. simpl. lia.
  Qed.
End Raise.
