(** Noether's theorem for the constants of motion that Dualize records (C77). *)
From Coq Require Import Reals Lra.
From Coquelicot Require Import Coquelicot.
From Verif Require Import Base Base_Facts Sym_Expr Sym_Facts Sym_Model Sym_Lu Sym_Dual Sym_Traj Sym_Var
  Geo_Model Red_Model Red_Facts.
Open Scope string_scope.
Open Scope list_scope.
Open Scope R_scope.

Lemma combine_app_same {A B} (l1 l2 : list A) (r1 r2 : list B) : length l1 = length r1 ->
  combine (l1 ++ l2) (r1 ++ r2) = combine l1 r1 ++ combine l2 r2.
Proof. revert r1. induction l1 as [|a l1 IH]; intros [|b r1] H; cbn in *; auto; try discriminate. now rewrite IH by lia. Qed.
Lemma nodup_app {A} (l r : list A) : NoDup (l ++ r) -> NoDup l /\ NoDup r /\ forall x, In x l -> ~ In x r.
Proof.
  induction l as [|a l IH]; cbn; intros H; [repeat split; auto; constructor|].
  inversion H as [|? ? N D]; subst. destruct (IH D) as (D1 & D2 & D3). rewrite in_app_iff in N.
  split; [constructor; tauto|]. split; [exact D2|]. intros x [<-|Hx]; [tauto|now apply D3].
Qed.
Lemma rsum_cons a l : rsum (a :: l) = a + rsum l.
Proof. reflexivity. Qed.
Lemma simp_zero_opp l : Forall (fun e => e = Cst 0) l -> Forall (fun e => simp (Opp e) = Cst 0) l.
Proof. apply Forall_impl. intros e ->. reflexivity. Qed.

Section Noether.
  Variable lu : list (list expr) -> list expr -> res (list expr).
  Variable integ : expr -> string -> expr.
  Hypothesis LS : lu_std lu.
  Hypothesis IC : int_const integ.

  Lemma noether_value xs X e :
    noether_field lu integ (std_form (length xs)) (xs ++ map lam xs) (X ++ zeros (length xs)) = Ok e ->
    (forall a v, In a X -> In v (vars a) -> ~ In v (map lam xs)) ->
    length X = length xs /\
    forall fn rho, Forall (wd fn rho) X ->
      wd fn rho e /\
      eval fn rho e = rsum (map (fun xa => rho (lam (fst xa)) * eval fn rho (snd xa)) (combine xs X)).
  Proof.
    intros H NL. unfold noether_field in H. destruct (symplectic _); [|discriminate].
    rewrite app_length, std_form_length in H. unfold zeros in H. rewrite repeat_length in H.
    destruct (Nat.eqb_spec (length X + length xs) (2 * length xs)) as [E|]; [|discriminate].
    assert (LX : length X = length xs) by lia. split; [exact LX|]. intros fn rho W.
    rewrite (LS (length xs)) in H by (rewrite app_length, repeat_length; lia). cbn [bind] in H. apply Ok_inj in H. subst e.
    rewrite skipn_app, firstn_app, LX, Nat.sub_diag in *. cbn [skipn firstn] in *.
    rewrite skipn_all2 by lia. rewrite firstn_all2 by lia. rewrite app_nil_r. cbn [app].
    rewrite combine_app_same by (rewrite map_length, repeat_length; reflexivity).
    rewrite map_app.
    assert (Z : map (fun xv : expr * string => integ (simp (fst xv)) (snd xv)) (combine (map Opp (repeat (Cst 0) (length xs))) xs)
                = repeat (Cst 0) (length xs)).
    { generalize xs. clear - IC. induction xs as [|x xs IH]; cbn; [reflexivity|]. rewrite IH, IC by (cbn; tauto). reflexivity. }
    rewrite Z.
    assert (V : map (fun xv : expr * string => integ (simp (fst xv)) (snd xv)) (combine X (map lam xs))
                = map (fun xa => simp (Mul (simp (snd xa)) (Var (lam (fst xa))))) (combine xs X)).
    { assert (NL' : forall a x, In (x, a) (combine xs X) -> ~ In (lam x) (vars a)).
      { intros a x Hin Hv. apply (NL a (lam x)); [eapply in_combine_r; eauto|exact Hv|]. apply in_map. eapply in_combine_l; eauto. }
      clear - IC NL' LX. revert X LX NL'. induction xs as [|x xs IH]; intros [|a X] LX NL'; cbn; auto; try discriminate.
      f_equal.
      - apply IC. intros Hv. apply simp_vars in Hv. apply (NL' a x); [now left|exact Hv].
      - apply IH; [cbn in LX; lia|]. intros b y Hb. apply NL'. now right. }
    rewrite V. clear Z V.
    assert (WS : wd fn rho (Sum (Cst 0) (repeat (Cst 0) (length xs) ++
                map (fun xa => simp (Mul (simp (snd xa)) (Var (lam (fst xa))))) (combine xs X)))).
    { apply wd_Sum. split; [exact I|]. apply Forall_app. split.
      - apply Forall_forall. intros e He. apply repeat_spec in He. subst e. exact I.
      - apply Forall_forall. intros e He. apply in_map_iff in He. destruct He as ([x a] & <- & Hin).
        rewrite Forall_forall in W. assert (Wa : wd fn rho a) by (apply W; eapply in_combine_r; eauto).
        apply simp_ok. cbn [fst snd wd]. split; [apply simp_ok; exact Wa|exact I]. }
    destruct (simp_ok fn rho _ WS) as [W1 W2]. split; [exact W1|]. rewrite W2. clear W1 W2 WS.
    rewrite eval_Sum, map_app, rsum_app, map_map.
    assert (Z : rsum (map (eval fn rho) (repeat (Cst 0) (length xs))) = 0).
    { apply (rsum_zero (eval fn rho)). intros e He. apply repeat_spec in He. subst e. reflexivity. }
    rewrite Z. cbn [eval]. rewrite !Rplus_0_l. apply rsum_ext. intros [x a] Hin. cbn [fst snd].
    rewrite Forall_forall in W. assert (Wa : wd fn rho a) by (apply W; eapply in_combine_r; eauto).
    destruct (simp_ok fn rho a Wa) as [Wa' Va].
    destruct (simp_ok fn rho (Mul (simp a) (Var (lam x)))) as [_ VV]; [cbn; auto|]. rewrite VV. cbn [eval]. rewrite Va. ring.
  Qed.
End Noether.

(** The field of an infinitesimal symmetry of dynamics x' = f and integrand L:
    L does not change along it and it commutes with f. *)
Definition invariant (fn : string -> nat -> R -> R) (rho : string -> R) (states : list (string * expr))
    (L : expr) (X : list expr) : Prop :=
  rsum (map (fun xa => eval fn rho (snd xa) * eval fn rho (diff (fst xa) L)) (combine (syms states) X)) = 0 /\
  forall x f a, In ((x, f), a) (combine states X) ->
    rsum (map (fun yb => eval fn rho (snd yb) * eval fn rho (diff (fst yb) f)) (combine (syms states) X)) =
    rsum (map (fun yg => eval fn rho (snd yg) * eval fn rho (diff (fst yg) a)) states).

Section Conserve.
  Variable fn : string -> nat -> R -> R.
  Hypothesis Sm : smooth fn.

  Lemma ham_diff (p : prob) x rho : (forall y, In y (syms (p_states p)) -> x <> lam y) ->
    eval fn rho (diff x (dual_ham p)) =
    eval fn rho (diff x (p_cost_p p)) +
    rsum (map (fun s => rho (lam (fst s)) * eval fn rho (diff x (snd s))) (p_states p)).
  Proof.
    intros H. unfold dual_ham. rewrite diff_Sum, eval_Sum. f_equal. rewrite !map_map. apply rsum_ext.
    intros [y f] Hin. cbn [fst snd diff eval]. destruct (String.eqb_spec x (lam y)) as [->|].
    - exfalso. apply (H y); [|reflexivity]. apply (in_map fst) in Hin. exact Hin.
    - cbn [eval]. lra.
  Qed.

  Lemma conserved_rate (p : prob) X (c : R -> string -> R) t :
    let xs := syms (p_states p) in
    NoDup (xs ++ map lam xs) -> length X = length xs ->
    (forall a v, In a X -> In v (vars a) -> ~ In v (map lam xs)) ->
    wd fn (c t) (dual_ham p) -> Forall (wd fn (c t)) X ->
    follows fn c t (p_states p) ->
    (forall x, In x xs -> is_derive (fun s => c s (lam x)) t (- eval fn (c t) (diff x (dual_ham p)))) ->
    (forall a, In a X -> others_fixed c t xs a) ->
    invariant fn (c t) (p_states p) (p_cost_p p) X ->
    is_derive (fun s => rsum (map (fun xa => c s (lam (fst xa)) * eval fn (c s) (snd xa)) (combine xs X))) t 0.
  Proof.
    intros xs ND LX NL W WX FS FC OF [I1 I2].
    set (S := p_states p) in *.
    assert (NDx : NoDup xs) by (apply (nodup_app _ _ ND)).
    assert (NXL : forall x y, In x xs -> In y xs -> x <> lam y).
    { intros x y Hx Hy E. apply (proj2 (proj2 (nodup_app _ _ ND)) x Hx). rewrite E. now apply in_map. }
    set (dl := fun xa : string * expr =>
      - eval fn (c t) (diff (fst xa) (dual_ham p)) * eval fn (c t) (snd xa) +
      c t (lam (fst xa)) * rsum (map (fun yg => eval fn (c t) (diff (fst yg) (snd xa)) * eval fn (c t) (snd yg)) S)).
    assert (D : is_derive (fun s => rsum (map (fun xa => c s (lam (fst xa)) * eval fn (c s) (snd xa)) (combine xs X))) t
                  (rsum (map dl (combine xs X)))).
    { apply is_derive_rsum with (f := fun xa s => c s (lam (fst xa)) * eval fn (c s) (snd xa)). intros [x a] Hin.
      assert (Hx : In x xs) by (eapply in_combine_l; eauto). assert (Ha : In a X) by (eapply in_combine_r; eauto).
      unfold dl. cbn [fst snd].
      apply (is_derive_mult (K := R_AbsRing) (fun s => c s (lam x)) (fun s => eval fn (c s) a) t
               (- eval fn (c t) (diff x (dual_ham p)))
               (rsum (map (fun yg => eval fn (c t) (diff (fst yg) a) * eval fn (c t) (snd yg)) S))).
      - now apply FC.
      - pose proof (chain_speeds fn Sm c (map (fun yg => (fst yg, eval fn (c t) (snd yg))) S) t a) as G.
        rewrite !map_map in G. cbn [fst snd] in G. apply G.
        + exact NDx.
        + intros y v Hy. apply in_map_iff in Hy. destruct Hy as ([y' g] & E & Hy). injection E as <- <-. now apply FS.
        + apply OF. exact Ha.
        + rewrite Forall_forall in WX. now apply WX.
      - intros m n. apply Rmult_comm. }
    assert (E : rsum (map dl (combine xs X)) = 0); [|rewrite E in D; exact D].
    unfold dl. rewrite rsum_plus.
    assert (A : rsum (map (fun xa : string * expr => - eval fn (c t) (diff (fst xa) (dual_ham p)) * eval fn (c t) (snd xa)) (combine xs X)) =
      - rsum (map (fun xa => rsum (map (fun s => c t (lam (fst s)) * (eval fn (c t) (snd xa) * eval fn (c t) (diff (fst xa) (snd s)))) S)) (combine xs X))).
    { rewrite <- rsum_opp.
      transitivity (rsum (map (fun xa => - (eval fn (c t) (snd xa) * eval fn (c t) (diff (fst xa) (p_cost_p p))) +
        - rsum (map (fun s => c t (lam (fst s)) * (eval fn (c t) (snd xa) * eval fn (c t) (diff (fst xa) (snd s)))) S)) (combine xs X))).
      - apply rsum_ext. intros [x a] Hin. cbn [fst snd]. rewrite ham_diff.
        + fold S. 
          assert (Q : rsum (map (fun s => c t (lam (fst s)) * (eval fn (c t) a * eval fn (c t) (diff x (snd s)))) S) =
                      eval fn (c t) a * rsum (map (fun s => c t (lam (fst s)) * eval fn (c t) (diff x (snd s))) S)).
          { rewrite <- rsum_scal. apply rsum_ext. intros; ring. }
          rewrite Q. ring.
        + intros y Hy. apply NXL; [eapply in_combine_l; eauto|exact Hy].
      - fold xs in I1. rewrite rsum_plus, rsum_opp. rewrite I1. ring. }
    rewrite A. rewrite rsum_exchange.
    assert (B : rsum (map (fun xa : string * expr => c t (lam (fst xa)) *
        rsum (map (fun yg => eval fn (c t) (diff (fst yg) (snd xa)) * eval fn (c t) (snd yg)) S)) (combine xs X)) =
      rsum (map (fun s => rsum (map (fun xa : string * expr => c t (lam (fst s)) * (eval fn (c t) (snd xa) * eval fn (c t) (diff (fst xa) (snd s)))) (combine xs X))) S)).
    { assert (P : forall T Y, length Y = length T ->
        (forall x f a, In ((x, f), a) (combine T Y) ->
          rsum (map (fun yb => eval fn (c t) (snd yb) * eval fn (c t) (diff (fst yb) f)) (combine xs X)) =
          rsum (map (fun yg => eval fn (c t) (snd yg) * eval fn (c t) (diff (fst yg) a)) S)) ->
        rsum (map (fun xa : string * expr => c t (lam (fst xa)) *
          rsum (map (fun yg => eval fn (c t) (diff (fst yg) (snd xa)) * eval fn (c t) (snd yg)) S)) (combine (syms T) Y)) =
        rsum (map (fun s => rsum (map (fun xa : string * expr => c t (lam (fst s)) * (eval fn (c t) (snd xa) * eval fn (c t) (diff (fst xa) (snd s)))) (combine xs X))) T)).
      { induction T as [|[x f] T IH]; intros [|a Y] LY HY; cbn [syms map combine] in *; try discriminate; [reflexivity|].
        rewrite !rsum_cons. cbn [fst snd]. f_equal.
        - rewrite rsum_scal. f_equal. rewrite (HY x f a) by (now left). apply rsum_ext. intros; ring.
        - apply IH; [cbn in LY; lia|]. intros x0 f0 a0 H0. apply (HY x0 f0 a0). now right. }
      apply P; [unfold xs, syms in LX; rewrite map_length in LX; exact LX|exact I2]. }
    rewrite B. ring.
  Qed.
End Conserve.
