(** Solutions of a problem before and after one reduction by a costate. *)
From Coq Require Import Reals Lra DecimalString DecimalNat.
From Coquelicot Require Import Coquelicot.
From Verif Require Import Base Base_Facts Sym_Expr Sym_Facts Sym_Model Sym_Traj Red_Model Red_Facts Red_Step.
Open Scope string_scope.
Open Scope list_scope.
Open Scope nat_scope.

Definition fixed_names (p : prob) : list string := p_params p ++ p_consts p ++ p_cpars p ++ p_cadj p.
(** A curve [c] of values for all symbols solves the boundary value problem of
    [p] on [a, b]: states, costates, adjoined parameters and quadratures follow
    their equations, parameters and constants stay, constraints hold at the ends. *)
Record solves (fn : string -> nat -> R -> R) (p : prob) (a b : R) (c : R -> string -> R) : Prop := mkSolves {
  sv_states : forall t, (a <= t <= b)%R -> follows fn c t (p_states p);
  sv_costates : forall t, (a <= t <= b)%R -> follows fn c t (p_costates p);
  sv_rest : forall t, (a <= t <= b)%R -> follows fn c t (p_coparams p ++ p_quads p);
  sv_fixed : forall t y, In y (fixed_names p) -> c t y = c a y;
  sv_init : forall k, In k (p_ci p) -> eval fn (c a) (c_expr k) = 0%R;
  sv_term : forall k, In k (p_ct p) -> eval fn (c b) (c_expr k) = 0%R }.

(** Every symbol of the parts of [p] that [solves] looks at. *)
Definition dyn_used (l : list (string * expr)) : list string := flat_map (fun s => fst s :: vars (snd s)) l.
Definition constr_used (l : list constr) : list string := flat_map (fun k => vars (c_expr k)) l.
Definition used (p : prob) : list string :=
  dyn_used (p_states p) ++ dyn_used (p_costates p) ++ dyn_used (p_coparams p ++ p_quads p) ++ fixed_names p
  ++ constr_used (p_ci p) ++ constr_used (p_ct p).

Definition lift1 (c x l q : string) (cv : R -> string -> R) (s : R) (y : string) : R :=
  if String.eqb y x then cv s q else if String.eqb y l then cv s c else cv s y.
Definition push1 (a : R) (c x l q : string) (cv : R -> string -> R) (s : R) (y : string) : R :=
  if String.eqb y q then cv s x else if String.eqb y c then cv a l else cv s y.

Lemma remove_at_In {A} (l : list A) : forall k a, In a (remove_at k l) -> In a l.
Proof. induction l as [|b l IH]; intros [|k] a I; cbn in *; auto. destruct I as [->|I]; eauto. Qed.
Lemma remove_at_split {A} (l : list A) : forall k a, nth_error l k = Some a -> forall b, In b l -> b = a \/ In b (remove_at k l).
Proof.
  induction l as [|d l IH]; intros [|k] a H b I; cbn in *; try discriminate.
  - injection H as ->. destruct I as [->|I]; auto.
  - destruct I as [->|I]; [now right; left|]. destruct (IH k a H b I); auto.
Qed.
Lemma remove_at_nodup l : forall k (x : string) (e : expr), NoDup (map fst l) -> nth_error l k = Some (x, e) -> ~ In x (map fst (remove_at k l)).
Proof.
  induction l as [|[y d] l IH]; intros [|k] x e N H; cbn in *; try discriminate; inversion N; subst.
  - injection H as -> ->. assumption.
  - intros [->|I]; [|now apply (IH k x e)]. apply nth_error_In in H. apply (in_map fst) in H. contradiction.
Qed.

Lemma used_dyn l y e : In (y, e) l -> In y (dyn_used l) /\ forall v, In v (vars e) -> In v (dyn_used l).
Proof.
  intros I. unfold dyn_used. split; [|intros v V]; rewrite in_flat_map; exists (y, e); split; auto; cbn; auto.
Qed.
Lemma used_constr l k v : In k l -> In v (vars (c_expr k)) -> In v (constr_used l).
Proof. intros I V. unfold constr_used. rewrite in_flat_map. eauto. Qed.

Section OneStep.
  Variable fn : string -> nat -> R -> R.
  Variable p : prob.
  Variables (k : nat) (c x l : string) (ex el : expr).
  Let q := new_quad p.
  Hypothesis ND : NoDup (syms (p_states p ++ p_costates p)).
  Hypothesis HX : nth_error (p_states p) k = Some (x, ex).
  Hypothesis HLl : nth_error (p_costates p) k = Some (l, el).
  Hypothesis ZERO : forall rho, eval fn rho el = 0%R.
  Hypothesis XF : ~ In x (dyn_used (p_coparams p ++ p_quads p) ++ fixed_names p).
  Hypothesis LF : ~ In l (dyn_used (p_coparams p ++ p_quads p) ++ fixed_names p).
  Hypothesis XE : ~ In x (vars (simp ex)).
  Hypothesis LE : ~ In l (vars (simp ex)).
  Hypothesis CF : ~ In c (used p).
  Hypothesis QF : ~ In q (used p).
  Hypothesis CQ : c <> q.

  Lemma x_used : In x (used p).
  Proof. unfold used. rewrite in_app_iff. left. apply nth_error_In in HX. apply (proj1 (used_dyn _ _ _ HX)). Qed.
  Lemma l_used : In l (used p).
  Proof. unfold used. rewrite !in_app_iff. right. left. apply nth_error_In in HLl. apply (proj1 (used_dyn _ _ _ HLl)). Qed.
  Lemma x_l : x <> l.
  Proof.
    intros E. unfold syms in ND. rewrite map_app in ND. apply NoDup_app_disj in ND. destruct ND as (_ & _ & D).
    apply (D x); [apply nth_error_In in HX; apply (in_map fst) in HX; assumption|].
    apply nth_error_In in HLl. apply (in_map fst) in HLl. now rewrite E.
  Qed.
  Lemma neqs : x <> c /\ x <> q /\ l <> c /\ l <> q.
  Proof. assert (A := x_used). assert (B := l_used). repeat split; intros ->; contradiction. Qed.

  Lemma eval_ren rho e :
    eval fn rho (ren c l q x e) = eval fn (fun y => if String.eqb y x then rho q else if String.eqb y l then rho c else rho y) e.
  Proof.
    destruct neqs as (N1 & N2 & N3 & N4). assert (N5 := x_l). unfold ren. rewrite !eval_subst. apply eval_ext. intros y _. unfold upd. cbn [eval].
    rewrite (String.eqb_sym y x), (String.eqb_sym y l).
    destruct (String.eqb_spec l y) as [<-|].
    - rewrite (proj2 (String.eqb_neq x l) N5). rewrite (proj2 (String.eqb_neq x c) N1). reflexivity.
    - destruct (String.eqb x y); reflexivity.
  Qed.

  Lemma wd_ren rho e :
    wd fn (fun y => if String.eqb y x then rho q else if String.eqb y l then rho c else rho y) e -> wd fn rho (ren c l q x e).
  Proof.
    intros W. destruct neqs as (N1 & N2 & N3 & N4). assert (N5 := x_l). unfold ren.
    apply wd_subst; [exact I|]. apply wd_subst; [exact I|]. revert W. apply wd_ext. intros y _. unfold upd. cbn [eval].
    rewrite (String.eqb_sym y x), (String.eqb_sym y l).
    destruct (String.eqb_spec l y) as [<-|].
    - rewrite (proj2 (String.eqb_neq x l) N5). rewrite (proj2 (String.eqb_neq x c) N1). reflexivity.
    - destruct (String.eqb x y); reflexivity.
  Qed.

  Variables (a b : R).
  Hypothesis AB : (a <= b)%R.

  Section Sound.
    Variable cv : R -> string -> R.
    Hypothesis SV : solves fn (reduced k c x l ex p) a b cv.
    Let c0 := lift1 c x l q cv.
    Hypothesis WD : forall t, (a <= t <= b)%R -> wd fn (c0 t) ex.

    Lemma sound_eval t e : eval fn (cv t) (ren c l q x e) = eval fn (c0 t) e.
    Proof. rewrite eval_ren. reflexivity. Qed.
    Lemma sound_other y : y <> x -> y <> l -> forall s, c0 s y = cv s y.
    Proof. intros N1 N2 s. unfold c0, lift1. now rewrite (proj2 (String.eqb_neq _ _) N1), (proj2 (String.eqb_neq _ _) N2). Qed.
    Lemma sound_eval_fresh t e : ~ In x (vars e) -> ~ In l (vars e) -> eval fn (c0 t) e = eval fn (cv t) e.
    Proof. intros N1 N2. apply eval_ext. intros y Hy. apply sound_other; intros ->; contradiction. Qed.
    Lemma sound_moving l0 l1 : (forall s, In s l0 -> In s l1) ->
      (forall y e, In (y, e) l0 -> y <> x /\ y <> l) ->
      (forall t, (a <= t <= b)%R -> follows fn cv t (map (ren_dyn c l q x) l1)) ->
      forall t, (a <= t <= b)%R -> follows fn c0 t l0.
    Proof.
      intros SUB NE F t Ht y e I. destruct (NE y e I) as [N1 N2].
      apply (is_derive_ext (fun s => cv s y)); [intros s; symmetry; now apply sound_other|].
      rewrite <- sound_eval. apply (F t Ht). apply (in_map (ren_dyn c l q x) _ (y, e)). auto.
    Qed.

    Lemma step_sound : solves fn p a b c0.
    Proof.
      destruct neqs as (N1 & N2 & N3 & N4). assert (N5 := x_l).
      assert (NDs := ND). unfold syms in NDs. rewrite map_app in NDs. apply NoDup_app_disj in NDs. destruct NDs as (D1 & D2 & D3).
      assert (XI : In x (map fst (p_states p))) by (apply nth_error_In in HX; apply (in_map fst) in HX; assumption).
      assert (LI : In l (map fst (p_costates p))) by (apply nth_error_In in HLl; apply (in_map fst) in HLl; assumption).
      constructor.
      - intros t Ht y e I. destruct (remove_at_split _ _ _ HX _ I) as [E|J].
        + injection E as -> ->. apply (is_derive_ext (fun s => cv s q)).
          { intros s. unfold c0, lift1. now rewrite String.eqb_refl. }
          replace (eval fn (c0 t) ex) with (eval fn (cv t) (simp ex)).
          * apply (sv_rest _ _ _ _ _ SV t Ht q (simp ex)). unfold reduced. cbn. rewrite !in_app_iff. right. right. left. reflexivity.
          * rewrite <- sound_eval_fresh by assumption. apply simp_ok. now apply WD.
        + apply (sound_moving (remove_at k (p_states p)) (remove_at k (p_states p))) with (t := t) in J; auto.
          * intros z d I'. split.
            { intros ->. apply (remove_at_nodup _ k x ex D1 HX). apply (in_map fst) in I'. exact I'. }
            { intros ->. apply remove_at_In in I'. apply (in_map fst) in I'. now apply (D3 l). }
          * exact (sv_states _ _ _ _ _ SV).
      - intros t Ht y e I. destruct (remove_at_split _ _ _ HLl _ I) as [E|J].
        + injection E as -> ->. rewrite ZERO. apply (is_derive_ext (fun _ => cv a c)).
          { intros s. unfold c0, lift1. rewrite (proj2 (String.eqb_neq l x)) by congruence. rewrite String.eqb_refl. symmetry.
            apply (sv_fixed _ _ _ _ _ SV). unfold reduced, fixed_names. cbn. rewrite !in_app_iff. cbn. tauto. }
          apply (is_derive_const (K := R_AbsRing) (V := R_NormedModule)).
        + apply (sound_moving (remove_at k (p_costates p)) (remove_at k (p_costates p))) with (t := t) in J; auto.
          * intros z d I'. split.
            { intros ->. apply remove_at_In in I'. apply (in_map fst) in I'. now apply (D3 x). }
            { intros ->. apply (remove_at_nodup _ k l el D2 HLl). apply (in_map fst) in I'. exact I'. }
          * exact (sv_costates _ _ _ _ _ SV).
      - intros t Ht y e I. destruct (used_dyn _ _ _ I) as [U V]. rewrite !in_app_iff in XF, LF.
        apply (is_derive_ext (fun s => cv s y)); [intros s; symmetry; apply sound_other; intros ->; tauto|].
        rewrite sound_eval_fresh; [|intros J; apply V in J; tauto|intros J; apply V in J; tauto].
        apply (sv_rest _ _ _ _ _ SV t Ht). unfold reduced. cbn. rewrite app_assoc. apply in_app_iff. now left.
      - intros t y I. rewrite !in_app_iff in XF, LF. rewrite !sound_other by (intros ->; tauto).
        apply (sv_fixed _ _ _ _ _ SV t y). unfold reduced, fixed_names in *. cbn. rewrite !in_app_iff in *. tauto.
      - intros z I. rewrite <- sound_eval. apply (sv_init _ _ _ _ _ SV (ren_constr c l q x z)).
        unfold reduced. cbn. now apply in_map.
      - intros z I. rewrite <- sound_eval. apply (sv_term _ _ _ _ _ SV (ren_constr c l q x z)).
        unfold reduced. cbn. now apply in_map.
    Qed.
  End Sound.

  Section Complete.
    Variable cv : R -> string -> R.
    Hypothesis SV : solves fn p a b cv.
    Hypothesis WD : forall t, (a <= t <= b)%R -> wd fn (cv t) ex.
    Let c1 := push1 a c x l q cv.

    Lemma costate_const t : (a <= t <= b)%R -> cv t l = cv a l.
    Proof.
      intros Ht. destruct (Rle_lt_or_eq_dec a t (proj1 Ht)) as [L|<-]; [|reflexivity]. symmetry.
      apply (eq_is_derive (fun s => cv s l) a t); [|exact L]. intros s Hs.
      apply nth_error_In in HLl. assert (D := sv_costates _ _ _ _ _ SV s ltac:(lra) l el HLl). rewrite ZERO in D. exact D.
    Qed.
    Lemma comp_other y : y <> q -> y <> c -> forall s, c1 s y = cv s y.
    Proof. intros N1 N2 s. unfold c1, push1. now rewrite (proj2 (String.eqb_neq _ _) N1), (proj2 (String.eqb_neq _ _) N2). Qed.
    Lemma comp_eval_fresh t e : ~ In q (vars e) -> ~ In c (vars e) -> eval fn (c1 t) e = eval fn (cv t) e.
    Proof. intros N1 N2. apply eval_ext. intros y Hy. apply comp_other; intros ->; contradiction. Qed.
    Lemma comp_eval t e : (a <= t <= b)%R -> ~ In q (vars e) -> ~ In c (vars e) ->
      eval fn (c1 t) (ren c l q x e) = eval fn (cv t) e.
    Proof.
      intros Ht M1 M2. rewrite eval_ren. apply eval_ext. intros y Hy.
      destruct (String.eqb_spec y x) as [->|]; [unfold c1, push1; now rewrite String.eqb_refl|].
      destruct (String.eqb_spec y l) as [->|].
      - unfold c1, push1. rewrite (proj2 (String.eqb_neq c q) CQ), String.eqb_refl. symmetry. now apply costate_const.
      - apply comp_other; intros ->; contradiction.
    Qed.
    Lemma comp_wd t e : (a <= t <= b)%R -> ~ In q (vars e) -> ~ In c (vars e) ->
      wd fn (cv t) e -> wd fn (c1 t) (ren c l q x e).
    Proof.
      intros Ht M1 M2 W. apply wd_ren. revert W. apply wd_ext. intros y Hy.
      destruct (String.eqb_spec y x) as [->|]; [unfold c1, push1; now rewrite String.eqb_refl|].
      destruct (String.eqb_spec y l) as [->|].
      - unfold c1, push1. rewrite (proj2 (String.eqb_neq c q) CQ), String.eqb_refl. now apply costate_const.
      - symmetry. apply comp_other; intros ->; contradiction.
    Qed.
    Lemma comp_moving l0 : incl (dyn_used l0) (used p) ->
      (forall t, (a <= t <= b)%R -> follows fn cv t l0) ->
      forall t, (a <= t <= b)%R -> follows fn c1 t (map (ren_dyn c l q x) l0).
    Proof.
      intros INC F t Ht y e I. apply in_map_iff in I. destruct I as ([y' e'] & E & I). unfold ren_dyn in E. cbn [fst snd] in E. injection E as E1 E2. subst y e.
      destruct (used_dyn _ _ _ I) as [U V].
      apply (is_derive_ext (fun s => cv s y')); [intros s; symmetry; apply comp_other; intros EE; rewrite EE in U; apply INC in U; contradiction|].
      rewrite comp_eval; [|assumption|intros J; apply V, INC in J; contradiction|intros J; apply V, INC in J; contradiction].
      now apply (F t Ht).
    Qed.
    Lemma used_remove l0 j : incl (dyn_used (remove_at j l0)) (dyn_used l0).
    Proof.
      intros y I. unfold dyn_used in *. rewrite in_flat_map in *. destruct I as (s & I & J). exists s. split; auto. now apply remove_at_In in I.
    Qed.

    Lemma step_complete : solves fn (reduced k c x l ex p) a b c1.
    Proof.
      destruct neqs as (N1 & N2 & N3 & N4). assert (N5 := x_l).
      constructor.
      - intros t Ht. unfold reduced. cbn. apply comp_moving; auto.
        + intros y I. apply used_remove in I. unfold used. rewrite in_app_iff. now left.
        + intros s Hs y e I. apply remove_at_In in I. now apply (sv_states _ _ _ _ _ SV s Hs).
      - intros t Ht. unfold reduced. cbn. apply comp_moving; auto.
        + intros y I. apply used_remove in I. unfold used. rewrite !in_app_iff. tauto.
        + intros s Hs y e I. apply remove_at_In in I. now apply (sv_costates _ _ _ _ _ SV s Hs).
      - intros t Ht y e I. unfold reduced in I. cbn in I. rewrite app_assoc in I. apply in_app_iff in I. destruct I as [I|[I|[]]].
        + destruct (used_dyn _ _ _ I) as [U V].
          assert (INC : incl (dyn_used (p_coparams p ++ p_quads p)) (used p)) by (intros z J; unfold used; rewrite !in_app_iff; tauto).
          apply (is_derive_ext (fun s => cv s y)); [intros s; symmetry; apply comp_other; intros ->; apply INC in U; contradiction|].
          rewrite comp_eval_fresh; [|intros J; apply V, INC in J; contradiction|intros J; apply V, INC in J; contradiction].
          now apply (sv_rest _ _ _ _ _ SV t Ht).
        + fold q in I. injection I as <- <-. apply (is_derive_ext (fun s => cv s x)).
          { intros s. unfold c1, push1. now rewrite String.eqb_refl. }
          assert (I := nth_error_In _ _ HX). destruct (used_dyn _ _ _ I) as [U V].
          assert (INC : forall v, In v (vars (simp ex)) -> In v (used p)).
          { intros v J. apply simp_vars in J. apply V in J. unfold used. rewrite in_app_iff. now left. }
          rewrite comp_eval_fresh; [|intros J; apply INC in J; contradiction|intros J; apply INC in J; contradiction].
          rewrite (proj2 (simp_ok fn (cv t) ex (WD t Ht))). now apply (sv_states _ _ _ _ _ SV t Ht).
      - intros t y I. unfold reduced, fixed_names in I. cbn in I.
        assert (INC : incl (fixed_names p) (used p)) by (intros z J; unfold used; rewrite !in_app_iff; tauto).
        destruct (String.eqb_spec y c) as [->|NE].
        + unfold c1, push1. rewrite (proj2 (String.eqb_neq c q) CQ), String.eqb_refl. reflexivity.
        + assert (J : In y (fixed_names p)).
          { unfold fixed_names. rewrite !in_app_iff in *. cbn in I. destruct I as [[I|[I|[]]]|I]; auto; congruence. }
          rewrite !comp_other by (intros ->; apply INC in J; contradiction). now apply (sv_fixed _ _ _ _ _ SV).
      - intros z I. unfold reduced in I. cbn in I. apply in_map_iff in I. destruct I as (z' & <- & I). unfold ren_constr. cbn [c_expr].
        assert (INC : forall v, In v (vars (c_expr z')) -> In v (used p)).
        { intros v J. unfold used. rewrite !in_app_iff. do 4 right. left. now apply (used_constr _ z'). }
        rewrite comp_eval; [now apply (sv_init _ _ _ _ _ SV)|lra|intros J; apply INC in J; contradiction|intros J; apply INC in J; contradiction].
      - intros z I. unfold reduced in I. cbn in I. apply in_map_iff in I. destruct I as (z' & <- & I). unfold ren_constr. cbn [c_expr].
        assert (INC : forall v, In v (vars (c_expr z')) -> In v (used p)).
        { intros v J. unfold used. rewrite !in_app_iff. do 5 right. now apply (used_constr _ z'). }
        rewrite comp_eval; [now apply (sv_term _ _ _ _ _ SV)|lra|intros J; apply INC in J; contradiction|intros J; apply INC in J; contradiction].
    Qed.
  End Complete.
End OneStep.
