(** Properties of the generated finite differences. *)
From Coq Require Import Reals Lra QArith FinFun.
From Coquelicot Require Import Coquelicot.
From Verif Require Import Base Base_Facts Fd_Model Fd_Proofs.
Open Scope R_scope.

Definition lsum (l : list R) : R := fold_right Rplus 0 l.
Lemma lsum_app a b : lsum (a ++ b) = lsum a + lsum b.
Proof. induction a as [|x a IH]; simpl; [ring|]. rewrite IH. ring. Qed.
Lemma lsum_rsum f n : lsum (map f (seq 0 n)) = rsum f n.
Proof.
  induction n as [|n IH]; [reflexivity|]. rewrite seq_S, map_app, lsum_app, IH. simpl. ring.
Qed.

Lemma lsum_ext {A} (f g : A -> R) l : (forall a, In a l -> f a = g a) -> lsum (map f l) = lsum (map g l).
Proof. intro H. f_equal. now apply map_ext_in. Qed.

(** ** C53: weights *)
(** Any distinct grid, any order below the number of points, any polynomial of
    degree below the number of points. *)
Theorem C53_weights (order : nat) (grid : list R) :
  NoDup grid -> (order < length grid)%nat ->
  exists w, weights ROps order grid = Ok w /\ length w = length grid /\
    forall p, degree_below (length grid) p ->
      lsum (map (fun cx => fst cx * peval p (snd cx)) (combine w grid)) = Derive_n (peval p) order 0.
Proof.
  intros ND L. unfold weights. rewrite (proj2 (Nat.leb_gt _ _) L).
  set (xs := fun i => nth i grid (n0 ROps)). eexists. split; [reflexivity|]. split; [now rewrite map_length, seq_length|].
  intros p D. destruct (length grid) as [|top] eqn:Lg; [lia|].
  replace (S top - 1)%nat with top by lia. fold (delta order xs top).
  assert (E : grid = map xs (seq 0 (S top))).
  { apply nth_error_ext_len; [now rewrite map_length, seq_length|]. intros i Hi. rewrite Lg in Hi.
    rewrite nth_error_map, (nth_error_nth' (seq 0 (S top)) 0%nat) by (rewrite seq_length; lia).
    rewrite seq_nth by lia. simpl. unfold xs. apply nth_error_nth'. lia. }
  rewrite E at 1.
  assert (C : forall l, map (fun cx => fst cx * peval p (snd cx)) (combine (map (delta order xs top order) l) (map xs l))
                        = map (fun nu => delta order xs top order nu * peval p (xs nu)) l).
  { induction l as [|i l IH]; [reflexivity|]. simpl. now rewrite IH. }
  rewrite C, lsum_rsum. rewrite Derive_n_at_0.
  apply (weights_exact order xs top) with (n := top); auto.
  intros i j Hi Hj Eij. unfold xs in Eij. apply (proj1 (NoDup_nth grid (n0 ROps)) ND); auto; lia.
Qed.
Print Assumptions C53_weights.
Example C53_weights_ex : weights QOps 2 [-1; 0; 1; 5]%Q = Ok [1; -2; 1; 0]%Q /\ weights QOps 1 [0; 1; 3]%Q = Ok [-4 # 3; 3 # 2; -1 # 6]%Q.
Proof. split; vm_compute; reflexivity. Qed.

(** The grids: consecutive integers starting at 0, ending at 0, or symmetric around 0. *)
Theorem C53_grid (num : nat) (i : nat) :
  (exists g, grid_of Forward num = Ok g /\ length g = num /\ ((i < num)%nat -> nth i g 0%Z = Z.of_nat i)) /\
  (exists g, grid_of Backward num = Ok g /\ length g = num /\ ((i < num)%nat -> nth (num - 1 - i) g 0%Z = (- Z.of_nat i)%Z)) /\
  (exists g m, grid_of Central num = Ok g /\ length g = (2 * m + 1)%nat /\ (num <= length g <= S num)%nat /\
     ((i <= m)%nat -> nth (m + i) g 0%Z = Z.of_nat i /\ nth (m - i) g 0%Z = (- Z.of_nat i)%Z)).
Proof.
  assert (nm : forall (f : nat -> Z) n k, (k < n)%nat -> nth k (map f (seq 0 n)) 0%Z = f k).
  { intros f n k Hk. rewrite nth_indep with (d' := f 0%nat) by (rewrite map_length, seq_length; exact Hk). rewrite map_nth, seq_nth by exact Hk. reflexivity. }
  split; [|split].
  - eexists. split; [reflexivity|]. rewrite map_length, seq_length. split; [reflexivity|]. intros Hi. now rewrite nm.
  - eexists. split; [reflexivity|]. rewrite map_length, seq_length. split; [reflexivity|]. intros Hi. rewrite nm by lia. lia.
  - assert (odd : exists m, (if Nat.even num then S num else num) = (2 * m + 1)%nat).
    { destruct (Nat.even num) eqn:E.
      - apply Nat.even_spec in E as (m & ->). exists m. lia.
      - assert (O : Nat.odd num = true) by (unfold Nat.odd; now rewrite E). apply Nat.odd_spec in O as (m & ->). now exists m. }
    destruct odd as (m & Em). exists (map (fun k => (Z.of_nat k - (Z.of_nat (2 * m + 1) - 1) / 2)%Z) (seq 0 (2 * m + 1))), m.
    split; [unfold grid_of; now rewrite Em|]. rewrite map_length, seq_length. split; [reflexivity|]. split; [destruct (Nat.even num); lia|].
    assert (Hm : ((Z.of_nat (2 * m + 1) - 1) / 2 = Z.of_nat m)%Z).
    { replace (Z.of_nat (2 * m + 1) - 1)%Z with (Z.of_nat m * 2)%Z by lia. now rewrite Z.div_mul. }
    intros Hi. rewrite !nm, Hm by lia. lia.
Qed.
Print Assumptions C53_grid.
Theorem C53_rejected {F} (K : NumOps F) (order : nat) (grid : list F) :
  (length grid <= order)%nat -> weights K order grid = Raise RuntimeWarning.
Proof. intro H. unfold weights. now rewrite (proj2 (Nat.leb_le _ _) H). Qed.
Print Assumptions C53_rejected.
Example C53_rejected_ex : weights QOps 2 [0; 1]%Q = Raise RuntimeWarning.
Proof. reflexivity. Qed.

(** ** Stencils *)
Lemma grid_distinct meth num g : grid_of meth num = Ok g -> NoDup (map IZR g) /\ (num <= length g)%nat.
Proof.
  assert (G : forall (f : nat -> Z) n, (forall i j, f i = f j -> i = j) -> NoDup (map IZR (map f (seq 0 n)))).
  { intros f n I. rewrite map_map. apply Injective_map_NoDup; [|apply seq_NoDup].
    intros i j E. apply eq_IZR in E. auto. }
  destruct meth; simpl; intro H; try discriminate; injection H as <-.
  - split; [apply G; intros; lia | now rewrite map_length, seq_length].
  - split; [apply G; intros; lia | now rewrite map_length, seq_length].
  - split; [apply G; intros; lia|]. rewrite map_length, seq_length. destruct (Nat.even num); lia.
Qed.

Definition known (meth : fd_method) : Prop := meth <> OtherMethod.
Lemma stencil_exact meth acc h order :
  known meth -> (1 <= acc)%nat ->
  exists st, stencil ROps meth acc h order = Ok st /\
    forall p x, degree_below (order + acc) p ->
      lsum (map (fun cs => fst cs * peval p (x + snd cs)) st) = h ^ order * Derive_n (peval p) order x.
Proof.
  intros Hm Ha. unfold stencil.
  assert (exists g, grid_of meth (order + acc) = Ok g) as (g & Eg) by (destruct meth; simpl; eauto; exfalso; now apply Hm).
  rewrite Eg. cbn [bind]. destruct (grid_distinct _ _ _ Eg) as [ND Lg].
  change (nofZ ROps) with IZR.
  assert (Lg' : (order + acc <= length (map IZR g))%nat) by now rewrite map_length.
  destruct (C53_weights order (map IZR g) ND) as (w & Ew & Lw & Hw); [lia|].
  rewrite Ew. cbn [bind]. eexists. split; [reflexivity|]. intros p x D.
  assert (Fz : forall l, lsum (map (fun cs => fst cs * peval p (x + snd cs)) (filter (fun cs => negb (neqb ROps (fst cs) (n0 ROps))) l))
                         = lsum (map (fun cs => fst cs * peval p (x + snd cs)) l)).
  { induction l as [|[c s] l IH]; [reflexivity|]. cbn [filter fst]. cbn [neqb n0 ROps] in *.
    destruct (Req_EM_T c 0) as [->|]; cbn [negb].
    - rewrite IH. unfold lsum. simpl. ring.
    - unfold lsum in *. simpl. rewrite IH. reflexivity. }
  rewrite Fz.
  assert (Dq : degree_below (length (map IZR g)) (subst_affine x h p)).
  { apply subst_affine_degree. intros k Hk. apply D. lia. }
  specialize (Hw _ Dq). rewrite Derive_n_at_0, derive_scaled in Hw. rewrite <- Hw. f_equal.
  clear - Lw. rewrite map_length in Lw. revert w Lw. induction g as [|z g IH]; intros [|c w] L; simpl in *; try discriminate; [reflexivity|].
  rewrite IH by congruence. f_equal. now rewrite subst_affine_eval.
Qed.

(** ** C53: generated functions of one argument *)
Lemma wsum_single (f : list R -> R) x st : forall d,
  wsum ROps f [x] (map (fun cs => (fst cs, [snd cs])) st) d = Ok (d + lsum (map (fun cs => fst cs * f [x + snd cs]) st)).
Proof.
  induction st as [|[c s] st IH]; intro d; simpl; [f_equal; ring|].
  unfold shift. simpl. rewrite IH. f_equal. unfold lsum. ring.
Qed.
Lemma npow_R h k : npow ROps h k = h ^ k.
Proof. induction k as [|k IH]; [reflexivity|]. simpl. now rewrite IH. Qed.

Theorem C53_one (meth : fd_method) (acc order : nat) (h x : R) (p : list R) :
  known meth -> (1 <= acc)%nat -> h <> 0 -> degree_below (order + acc) p ->
  fin_diff ROps meth acc h (Some [order]) (fun l => peval p (hd 0 l)) [x] = Ok (Derive_n (peval p) order x).
Proof.
  intros Hm Ha Hh D. destruct (stencil_exact meth acc h order Hm Ha) as (st & Es & Hs).
  unfold fin_diff. cbn [length Nat.ltb Nat.leb mapM]. rewrite Es. cbn [bind Nat.eqb get nth_error].
  rewrite (wsum_single (fun l => peval p (hd 0 l))). cbn [bind hd]. rewrite (Hs p x D). f_equal.
  replace (list_sum [order]) with order by (unfold list_sum; simpl; lia). replace (npow ROps h order) with (h ^ order) by (symmetry; apply npow_R). cbn [ndiv n0 ROps]. field. now apply pow_nonzero.
Qed.
Print Assumptions C53_one.
Example C53_one_ex : (* third derivative of 2 x^3 at 7, forward, step 1/10 *)
  fin_diff QOps Forward 1 (1 # 10) (Some [3%nat]) (fun l => let x := hd 0%Q l in (2 * x * x * x)%Q) [7%Q] = Ok 12%Q.
Proof. vm_compute. reflexivity. Qed.

(** ** C53: several arguments *)
(** A finite sum of products of one polynomial per argument. *)
Fixpoint prod_eval (ps : list (list R)) (xs : list R) : R :=
  match ps, xs with p :: ps', x :: xs' => peval p x * prod_eval ps' xs' | _, _ => 1 end.
Definition sum_eval (terms : list (list (list R))) (xs : list R) : R := lsum (map (fun ps => prod_eval ps xs) terms).
(** The mixed partial derivative: differentiate in the last argument first. *)
Fixpoint mixed (orders : list nat) (F : list R -> R) (xs : list R) : R :=
  match orders, xs with
  | k :: orders', x :: xs' => Derive_n (fun z => mixed orders' (fun ys => F (z :: ys)) xs') k x
  | _, _ => F []
  end.
(** For products every factor is differentiated in its own argument. *)
Fixpoint prod_derive (orders : list nat) (ps : list (list R)) (xs : list R) : R :=
  match orders, ps, xs with
  | k :: orders', p :: ps', x :: xs' => Derive_n (peval p) k x * prod_derive orders' ps' xs'
  | _, _, _ => 1
  end.
Definition sum_derive (orders : list nat) (terms : list (list (list R))) (xs : list R) : R :=
  lsum (map (fun ps => prod_derive orders ps xs) terms).

Lemma mixed_ext orders : forall F G xs, (forall ys, F ys = G ys) -> mixed orders F xs = mixed orders G xs.
Proof.
  induction orders as [|k orders IH]; intros F G [|x xs] H; simpl; auto.
  apply Derive_n_ext. intro z. apply IH. intro ys. apply H.
Qed.
Lemma Derive_n_combination k x (l : list (R * list R)) :
  Derive_n (fun z => lsum (map (fun cp => fst cp * peval (snd cp) z) l)) k x
  = lsum (map (fun cp => fst cp * Derive_n (peval (snd cp)) k x) l).
Proof.
  set (q := fold_right (fun cp r => padd (pscale (fst cp) (snd cp)) r) [] l).
  assert (E : forall z, lsum (map (fun cp => fst cp * peval (snd cp) z) l) = peval q z).
  { intro z. subst q. induction l as [|cp l IH]; [reflexivity|]. unfold lsum in *. cbn [map fold_right]. rewrite IH, peval_add, peval_scale. reflexivity. }
  rewrite (Derive_n_ext _ (peval q) _ _ E). clear E. subst q. induction l as [|cp l IH].
  - cbn [fold_right map]. rewrite Derive_n_peval. assert (Z : Nat.iter k pder [] = []) by (induction k as [|k IHk]; simpl; [reflexivity | now rewrite IHk]).
    now rewrite Z.
  - cbn [fold_right map]. set (r := fold_right _ _ _) in *.
    rewrite (Derive_n_ext _ (fun z => (fun z => fst cp * peval (snd cp) z) z + peval r z)) by (intro z; now rewrite peval_add, peval_scale).
    rewrite (Derive_n_plus (fun z => fst cp * peval (snd cp) z)).
    + rewrite Derive_n_scal_l, IH. reflexivity.
    + apply filter_forall. intros y j _. apply ex_derive_n_scal_l, ex_derive_n_peval.
    + apply filter_forall. intros y j _. apply ex_derive_n_peval.
Qed.
Lemma mixed_combination orders : forall (cs : list (R * list (list R))) xs,
  length xs = length orders -> Forall (fun c => length (snd c) = length orders) cs ->
  mixed orders (fun ys => lsum (map (fun c => fst c * prod_eval (snd c) ys) cs)) xs
  = lsum (map (fun c => fst c * prod_derive orders (snd c) xs) cs).
Proof.
  induction orders as [|k orders IH]; intros cs xs Lx F.
  - simpl. apply lsum_ext. intros c I. rewrite Forall_forall in F. specialize (F _ I). now destruct (snd c).
  - destruct xs as [|x xs]; [discriminate|]. injection Lx as Lx. cbn [mixed].
    rewrite (Derive_n_ext _ (fun z => lsum (map (fun cp => fst cp * peval (snd cp) z)
      (map (fun c => (fst c * prod_derive orders (tl (snd c)) xs, hd [] (snd c))) cs)))).
    + rewrite Derive_n_combination, map_map. apply lsum_ext. intros c I. rewrite Forall_forall in F. specialize (F _ I).
      destruct (snd c) as [|p ps]; [discriminate|]. cbn [hd tl prod_derive fst snd]. ring.
    + intro z. rewrite (mixed_ext orders _ (fun ys => lsum (map (fun c => fst c * prod_eval (snd c) ys)
        (map (fun c => (fst c * peval (hd [] (snd c)) z, tl (snd c))) cs)))).
      * rewrite IH; auto.
        -- rewrite !map_map. apply lsum_ext. intros c _. cbn [fst snd]. ring.
        -- apply Forall_map. eapply Forall_impl; [|exact F]. cbv beta. intros c H. cbn [snd]. destruct (snd c); [discriminate|]. now injection H.
      * intro ys. rewrite map_map. apply lsum_ext. intros c I. rewrite Forall_forall in F. specialize (F _ I).
        destruct (snd c) as [|p ps]; [discriminate|]. cbn [hd tl prod_eval fst snd]. ring.
Qed.
Lemma mixed_sum orders terms xs :
  length xs = length orders -> Forall (fun ps => length ps = length orders) terms ->
  mixed orders (sum_eval terms) xs = sum_derive orders terms xs.
Proof.
  intros Lx F. rewrite (mixed_ext orders _ (fun ys => lsum (map (fun c => fst c * prod_eval (snd c) ys) (map (fun ps => (1, ps)) terms)))).
  - rewrite mixed_combination; auto.
    + rewrite map_map. unfold sum_derive. apply lsum_ext. intros ps _. cbn [fst snd]. ring.
    + apply Forall_map. exact F.
  - intro ys. rewrite map_map. unfold sum_eval. apply lsum_ext. intros ps _. cbn [fst snd]. ring.
Qed.

Definition moved (xs step : list R) : list R := map (fun p => fst p + snd p) (combine xs step).
Lemma wsum_multi f xs l : forall d,
  Forall (fun r => length (snd r) = length xs) l ->
  wsum ROps f xs l d = Ok (d + lsum (map (fun r => fst r * f (moved xs (snd r))) l)).
Proof.
  induction l as [|[c s] l IH]; intros d F; simpl; [f_equal; ring|].
  inversion F as [|? ? F1 F2]; subst. simpl in F1. unfold shift. rewrite F1, Nat.eqb_refl. cbn [bind].
  rewrite IH by assumption. f_equal. unfold moved. cbn [nadd nmul ROps]. unfold lsum. ring.
Qed.
Lemma tensor_length sts : Forall (fun r => length (snd r) = length sts) (tensor ROps sts).
Proof.
  induction sts as [|st sts IH]; [repeat constructor|]. simpl. apply Forall_concat, Forall_map, Forall_forall.
  intros cs _. apply Forall_map. eapply Forall_impl; [|exact IH]. intros r H. simpl. now rewrite H.
Qed.
Lemma lsum_scale c l : lsum (map (Rmult c) l) = c * lsum l.
Proof. induction l as [|x l IH]; simpl; [ring|]. unfold lsum in *. rewrite IH. ring. Qed.
Lemma tensor_sum_cons (G : R * list R -> R) st sts :
  lsum (map G (tensor ROps (st :: sts)))
  = lsum (map (fun cs => lsum (map (fun r => G (fst cs * fst r, snd cs :: snd r)) (tensor ROps sts))) st).
Proof.
  cbn [tensor]. induction st as [|cs st IH]; [reflexivity|]. cbn [map concat]. rewrite map_app, lsum_app, IH, map_map. reflexivity.
Qed.

Lemma tensor_exact meth acc h orders : known meth -> (1 <= acc)%nat -> forall sts,
  mapM (stencil ROps meth acc h) orders = Ok sts ->
  forall ps xs, length ps = length orders -> length xs = length orders ->
  Forall2 (fun k p => degree_below (k + acc) p) orders ps ->
  lsum (map (fun r => fst r * prod_eval ps (moved xs (snd r))) (tensor ROps sts))
  = h ^ (list_sum orders) * prod_derive orders ps xs.
Proof.
  intros Hm Ha. induction orders as [|k orders IH]; intros sts Es ps xs Lp Lx D.
  - injection Es as <-. destruct ps; [|discriminate]. simpl. ring.
  - destruct ps as [|p ps]; [discriminate|]. destruct xs as [|x xs]; [discriminate|].
    cbn [mapM] in Es. destruct (stencil_exact meth acc h k Hm Ha) as (st & E1 & Hs). rewrite E1 in Es. cbn [bind] in Es.
    destruct (mapM (stencil ROps meth acc h) orders) as [sts'|] eqn:E2; [|discriminate]. injection Es as <-.
    inversion D as [|? ? ? ? D1 D2]; subst. injection Lp as Lp. injection Lx as Lx.
    rewrite tensor_sum_cons.
    rewrite (lsum_ext _ (fun cs => (fst cs * peval p (x + snd cs)) * (h ^ list_sum orders * prod_derive orders ps xs))).
    + set (W := h ^ list_sum orders * prod_derive orders ps xs).
      rewrite (lsum_ext _ (fun cs => W * (fst cs * peval p (x + snd cs)))) by (intros; ring).
      rewrite <- (map_map (fun cs => fst cs * peval p (x + snd cs)) (Rmult W)), lsum_scale, (Hs p x D1).
      unfold W. cbn [prod_derive]. unfold list_sum. cbn [fold_right]. rewrite pow_add. ring.
    + intros cs _. rewrite <- (IH sts' eq_refl ps xs Lp Lx D2), <- lsum_scale, map_map. apply lsum_ext. intros r _.
      cbn [fst snd]. unfold moved. cbn [combine map prod_eval fst snd]. fold (moved xs (snd r)). ring.
Qed.
Lemma stencils_ok meth acc h orders : known meth -> (1 <= acc)%nat ->
  exists sts, mapM (stencil ROps meth acc h) orders = Ok sts /\ length sts = length orders.
Proof.
  intros Hm Ha. induction orders as [|k orders (sts & E & L)]; [exists []; auto|].
  destruct (stencil_exact meth acc h k Hm Ha) as (st & E1 & _). exists (st :: sts). simpl. rewrite E1, E. simpl. auto.
Qed.

(** Every mixed partial derivative of every polynomial in several variables whose
    degree in each variable is below order + accuracy. *)
Theorem C53_several (meth : fd_method) (acc : nat) (h : R) (orders : list nat) (terms : list (list (list R))) (xs : list R) :
  known meth -> (1 <= acc)%nat -> h <> 0 -> length xs <> 1%nat -> length xs = length orders ->
  Forall (fun ps => Forall2 (fun k p => degree_below (k + acc) p) orders ps) terms ->
  fin_diff ROps meth acc h (Some orders) (sum_eval terms) xs = Ok (mixed orders (sum_eval terms) xs).
Proof.
  intros Hm Ha Hh L1 Lx D. unfold fin_diff. rewrite (proj2 (Nat.ltb_ge _ _)) by lia.
  destruct (stencils_ok meth acc h orders Hm Ha) as (sts & Es & Ls). rewrite Es. cbn [bind].
  rewrite (proj2 (Nat.eqb_neq _ _) L1).
  rewrite wsum_multi by (pose proof (tensor_length sts) as T; eapply Forall_impl; [|exact T]; cbv beta; intros; congruence).
  replace (npow ROps h (list_sum orders)) with (h ^ list_sum orders) by (symmetry; apply npow_R). cbn [bind ndiv]. f_equal. change (n0 ROps) with 0. rewrite Rplus_0_l.
  assert (T : lsum (map (fun r => fst r * sum_eval terms (moved xs (snd r))) (tensor ROps sts)) = h ^ list_sum orders * sum_derive orders terms xs).
  { unfold sum_eval, sum_derive. induction D as [|ps terms D1 D2 IH].
    - cbn [map lsum fold_right]. rewrite Rmult_0_r. rewrite (lsum_ext _ (fun _ => 0)) by (intros; ring).
      clear. generalize (tensor ROps sts). intro l. induction l as [|a l IH]; [reflexivity|].
      change (0 + lsum (map (fun _ : R * list R => 0) l) = 0). rewrite IH. ring.
    - cbn [map].
      rewrite (lsum_ext _ (fun r => fst r * prod_eval ps (moved xs (snd r)) + fst r * lsum (map (fun ps => prod_eval ps (moved xs (snd r))) terms))).
      2:{ intros r _. cbn [lsum fold_right map]. unfold lsum. ring. }
      assert (P : forall (f g : R * list R -> R) l, lsum (map (fun r => f r + g r) l) = lsum (map f l) + lsum (map g l)).
      { clear. intros f g l. induction l as [|a l IH]; simpl; [ring|]. unfold lsum in *. rewrite IH. ring. }
      rewrite (P (fun r => fst r * prod_eval ps (moved xs (snd r)))), IH.
      rewrite (tensor_exact meth acc h orders Hm Ha sts Es ps xs); auto.
      + unfold lsum. cbn [fold_right]. ring.
      + clear - D1. induction D1; simpl; congruence. }
  rewrite T, (mixed_sum orders terms xs Lx).
  - cbn [ndiv ROps]. field. now apply pow_nonzero.
  - eapply Forall_impl; [|exact D]. cbv beta. intros ps Hps. clear - Hps. induction Hps; simpl; congruence.
Qed.
Print Assumptions C53_several.
Example C53_several_ex : (* d2/dxdy of x^2 y at (3,5) *)
  fin_diff QOps Central 1 (1 # 10) (Some [1%nat; 1%nat]) (fun l => (nth 0 l 0 * nth 0 l 0 * nth 1 l 0)%Q) [3%Q; 5%Q] = Ok 6%Q.
Proof. vm_compute. reflexivity. Qed.

(** The public entry point with steps scaled by the order. *)
Theorem C53_num_diff (meth : fd_method) (h : R) (orders : list nat) (terms : list (list (list R))) (xs : list R) :
  known meth -> h <> 0 -> (2 <= length xs)%nat -> length xs = length orders ->
  Forall (fun ps => Forall2 (fun k p => degree_below (k + 1) p) orders ps) terms ->
  num_diff ROps meth h orders (sum_eval terms) xs = Ok (mixed orders (sum_eval terms) xs).
Proof.
  intros Hm Hh L2 Lx D. unfold num_diff. destruct orders as [|k orders]; [simpl in Lx; lia|].
  destruct (Nat.eqb_spec (list_max (k :: orders)) 0) as [E|Ne].
  - f_equal. rewrite mixed_sum; [|assumption|eapply Forall_impl; [|exact D]; cbv beta; intros ps Hps; clear - Hps; induction Hps; simpl; congruence].
    unfold sum_eval, sum_derive. apply lsum_ext. intros ps I. rewrite Forall_forall in D. specialize (D _ I). clear I.
    assert (Z : Forall (fun j => j <= 0)%nat (k :: orders)) by (apply list_max_le; lia).
    clear - D Z Lx. revert ps xs D Lx Z. generalize (k :: orders) as os. induction os as [|o os IH]; intros ps xs D Lx Z.
    + inversion D; subst. reflexivity.
    + inversion D as [|? p ? ps' D1 D2]; subst. destruct xs as [|x xs]; [discriminate|]. inversion Z as [|? ? Z1 Z2]; subst.
      assert (o = 0)%nat by lia. subst o. cbn [prod_eval prod_derive Derive_n]. f_equal. apply IH; auto.
  - apply C53_several; auto; [|lia]. match goal with |- context [npow ROps ?a ?b] => replace (npow ROps a b) with (a ^ b) by (symmetry; apply npow_R) end. cbn [nmul nofZ ROps]. apply Rmult_integral_contrapositive. split; [assumption|].
    apply pow_nonzero. lra.
Qed.
Print Assumptions C53_num_diff.

(** A shorter list of orders is accepted for a function of several arguments when
    it has one entry; every argument is then shifted. *)
Theorem C53_short_orders_refuted :
  exists (f : list Q -> Q) x y,
    fin_diff QOps Central 1 (1 # 10) (Some [1%nat]) f [x; y] = Ok 5%Q
    /\ fin_diff QOps Central 1 (1 # 10) (Some [1%nat; 0%nat]) f [x; y] = Ok 2%Q
    /\ (forall a b, f [a; b] == 2 * a + 3 * b)%Q.
Proof.
  exists (fun l => (2 * nth 0 l 0 + 3 * nth 1 l 0)%Q), 7%Q, 11%Q. split; [vm_compute; reflexivity|].
  split; [vm_compute; reflexivity|]. intros a b. simpl. reflexivity.
Qed.
Print Assumptions C53_short_orders_refuted.

(** ** C69: complex-step derivatives *)
(** A real polynomial at a complex point. *)
Fixpoint cpeval (p : list R) (z : R * R) : R * R :=
  match p with
  | [] => (0, 0)
  | a :: p' => let w := cpeval p' z in (a + (fst z * fst w - snd z * snd w), fst z * snd w + snd z * fst w)
  end.
Lemma cpeval_real p x : cpeval p (x, 0) = (peval p x, 0).
Proof. induction p as [|a p IH]; [reflexivity|]. simpl. rewrite IH. simpl. f_equal; ring. Qed.

(** First order: the error is at most proportional to the square of the step. *)
Theorem C69_first_order (p : list R) (x : R) :
  exists C, 0 <= C /\ forall h, h <> 0 -> Rabs h <= 1 ->
    Rabs (csd_first ROps (cpeval p) h x - Derive (peval p) x) <= C * h ^ 2.
Proof.
  assert (G : forall p, exists A B, 0 <= A /\ 0 <= B /\ forall h, Rabs h <= 1 -> exists i,
      snd (cpeval p (x, h)) = h * i /\ Rabs (i - peval (pder p) x) <= A * h ^ 2 /\ Rabs (fst (cpeval p (x, h)) - peval p x) <= B * h ^ 2).
  { clear p. induction p as [|a p (A & B & HA & HB & IH)].
    - exists 0, 0. repeat split; try lra. intros h _. exists 0. simpl. repeat split; try ring; rewrite Rminus_0_r, Rabs_R0; lra.
    - exists (Rabs x * A + B), (Rabs x * B + A + Rabs (peval (pder p) x)).
      pose proof (Rabs_pos x). pose proof (Rabs_pos (peval (pder p) x)).
      assert (0 <= Rabs x * A) by now apply Rmult_le_pos. assert (0 <= Rabs x * B) by now apply Rmult_le_pos.
      split; [lra|]. split; [lra|]. intros h Hh. destruct (IH h Hh) as (i & E & E1 & E2).
      cbn [cpeval]. destruct (cpeval p (x, h)) as [re im]. cbn [fst snd] in *. exists (x * i + re).
      split; [rewrite E; ring|]. cbn [pder peval]. rewrite peval_add. cbn [peval].
      assert (Hsq : 0 <= h ^ 2) by apply pow2_ge_0.
      assert (Hsq1 : h ^ 2 <= 1). { rewrite <- (pow1 2), <- pow2_abs. apply pow_incr. split; [apply Rabs_pos | assumption]. }
      split.
      + replace (x * i + re - (peval p x + (0 + x * peval (pder p) x))) with (x * (i - peval (pder p) x) + (re - peval p x)) by ring.
        eapply Rle_trans; [apply Rabs_triang|]. rewrite Rabs_mult.
        assert (Rabs x * Rabs (i - peval (pder p) x) <= Rabs x * (A * h ^ 2)) by (apply Rmult_le_compat_l; assumption). lra.
      + replace (a + (x * re - h * im) - (a + x * peval p x)) with (x * (re - peval p x) + - (h ^ 2 * ((i - peval (pder p) x) + peval (pder p) x))) by (rewrite E; ring).
        eapply Rle_trans; [apply Rabs_triang|]. rewrite Rabs_Ropp, !Rabs_mult, (Rabs_pos_eq (h ^ 2)) by assumption.
        assert (Rabs x * Rabs (re - peval p x) <= Rabs x * (B * h ^ 2)) by (apply Rmult_le_compat_l; assumption).
        assert (Rabs (i - peval (pder p) x + peval (pder p) x) <= A + Rabs (peval (pder p) x)).
        { eapply Rle_trans; [apply Rabs_triang|]. assert (A * h ^ 2 <= A * 1) by (apply Rmult_le_compat_l; lra). lra. }
        assert (h ^ 2 * Rabs (i - peval (pder p) x + peval (pder p) x) <= h ^ 2 * (A + Rabs (peval (pder p) x))) by (apply Rmult_le_compat_l; assumption).
        lra. }
  destruct (G p) as (A & B & HA & _ & H). exists A. split; [exact HA|]. intros h Hh H1.
  destruct (H h H1) as (i & E & E1 & _). unfold csd_first. cbn [ndiv ROps]. rewrite E.
  rewrite (is_derive_unique _ _ _ (is_derive_peval p x)). replace (h * i / h) with i by (field; assumption). exact E1.
Qed.
Print Assumptions C69_first_order.
(** Exact up to degree two, for every step. *)
Theorem C69_first_exact (a b c x h : R) : h <> 0 ->
  csd_first ROps (cpeval [a; b; c]) h x = Derive (peval [a; b; c]) x.
Proof.
  intro Hh. rewrite (is_derive_unique _ _ _ (is_derive_peval [a; b; c] x)). unfold csd_first. simpl. field. exact Hh.
Qed.
Print Assumptions C69_first_exact.
Example C69_first_ex : csd_first ROps (cpeval [1; 2; 3]) (/ 2) 5 = 32.
Proof. unfold csd_first. simpl. field. Qed.

(** Second order: exact up to degree two; the error for x^3 is 6 times the step,
    whatever the imaginary step. *)
Theorem C69_second_exact (a b c x s i : R) : i <> 0 ->
  csd_second ROps (peval [a; b; c]) (cpeval [a; b; c]) s i x = Derive_n (peval [a; b; c]) 2 x.
Proof.
  intro Hi. rewrite Derive_n_peval. unfold csd_second. simpl. field. exact Hi.
Qed.
Print Assumptions C69_second_exact.
Theorem C69_second_refuted :
  exists p x, ~ exists C, forall s, 0 < s <= 1 ->
    Rabs (csd_second ROps (peval p) (cpeval p) s (sqrt (3 + 2 * sqrt 2) * s) x - Derive_n (peval p) 2 x) <= C * s ^ 2.
Proof.
  exists [0; 0; 0; 1], 0. intros (C & H).
  assert (Sq : sqrt (3 + 2 * sqrt 2) <> 0).
  { apply Rgt_not_eq, sqrt_lt_R0. pose proof (sqrt_pos 2). lra. }
  assert (E : forall s, 0 < s -> csd_second ROps (peval [0; 0; 0; 1]) (cpeval [0; 0; 0; 1]) s (sqrt (3 + 2 * sqrt 2) * s) 0 - Derive_n (peval [0; 0; 0; 1]) 2 0 = 6 * s).
  { intros s Hs. rewrite Derive_n_peval. unfold csd_second. set (m := sqrt (3 + 2 * sqrt 2)) in *. clearbody m. simpl. field. split; lra. }
  assert (C0 : 0 < C).
  { specialize (H 1 ltac:(lra)). rewrite E, Rabs_pos_eq in H by lra. simpl in H. lra. }
  set (s := Rmin 1 (/ C)).
  assert (I : 0 < / C) by now apply Rinv_0_lt_compat.
  assert (Hs : 0 < s <= 1) by (unfold s; split; [apply Rmin_glb_lt; lra | apply Rmin_l]).
  specialize (H s Hs). rewrite E, Rabs_pos_eq in H by lra.
  assert (C * s <= 1).
  { assert (s <= / C) by apply Rmin_r. replace 1 with (C * / C) by (field; lra). apply Rmult_le_compat_l; lra. }
  assert (C * s ^ 2 <= 1 * s) by (replace (C * s ^ 2) with ((C * s) * s) by ring; apply Rmult_le_compat_r; lra).
  lra.
Qed.
Print Assumptions C69_second_refuted.

(** With two or more arguments the first-order version never works. *)
Theorem C69_several_fails {F} (K : NumOps F) func idx step (xs : list F) :
  (2 <= length xs)%nat -> csd_first_several K func idx step xs = Raise TypeError.
Proof.
  intro H. unfold csd_first_several. cbn [py_tuple bind]. unfold call_numbers. cbn [length].
  destruct (Nat.eqb_spec 1 (length xs)); [lia | reflexivity].
Qed.
Print Assumptions C69_several_fails.
Theorem C69_several_refuted :
  exists (func : list (Q * Q) -> Q * Q) idx step xs, (idx < length xs)%nat /\ csd_first_several QOps func idx step xs = Raise TypeError.
Proof. exists (fun l => hd (0, 0)%Q l), 0%nat, (1 # 10)%Q, [1; 2]%Q. split; [simpl; lia | reflexivity]. Qed.
Print Assumptions C69_several_refuted.
