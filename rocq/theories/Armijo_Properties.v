(** C44-C46: the loop of the shooting solver, its convergence flag and its
    message. *)
From Coq Require Import QArith Reals Lra.
From Verif Require Import Base Sym_Model Shoot_Model.
Open Scope nat_scope.

(** ** C44 *)
Section Loop.
  Context {V F J : Type}.
  Variables (residual : V -> res (list F)) (jac : V -> res J).
  Variables (lin_solve : J -> list F -> option V) (lstsq : J -> list F -> res V).
  Variables (vadd : V -> V -> V) (vscale : Q -> V -> V).
  Variables (norm : list F -> F) (isnan : F -> bool) (le lt : F -> F -> bool).
  Variables (bound : Q -> F -> F) (inf mone : F).
  Variables (tolerance max_error : F) (max_iterations : Z).
  Notation TRIALS := (trials residual vadd vscale norm le lt bound tolerance).
  Notation PASS := (pass residual jac lin_solve lstsq vadd vscale norm isnan le lt bound inf tolerance).
  Notation ARMIJO := (armijo residual jac lin_solve lstsq vadd vscale norm isnan le lt bound inf tolerance max_error max_iterations).
  Notation START := (armijo_start mone).

  (** The damping factor of the k-th trial. *)
  Definition damping (k : nat) : Q := nth k [1; 1 # 2; 1 # 4; 1 # 8; 1 # 16; 1 # 32]%Q 0%Q.
  (** A trial residual that ends the trials after [k] of them, when the residual
      before the step was [e]: below the bound, or within tolerance, or NaN. *)
  Definition good (k : nat) (e rt : F) : Prop := le (bound (damping k) e) rt = false \/ lt tolerance rt = false.

  (** One damped Newton step from [x] to [x'], after [k + 1] trials. *)
  Definition damped_newton (x x' : V) (k : nat) : Prop :=
    exists r j dy r', residual x = Ok r /\ existsb isnan r = false /\ jac x = Ok j /\
      (lin_solve j r = Some dy \/ lin_solve j r = None /\ lstsq j r = Ok dy) /\
      k < 5 /\ x' = vadd x (vscale (damping k) dy) /\ residual x' = Ok r' /\
      (good (S k) (norm r) (norm r') \/ k = 4) /\
      (forall i, i < k -> exists ri, residual (vadd x (vscale (damping i) dy)) = Ok ri /\ ~ good (S i) (norm r) (norm ri)).

  (** Iterates from [x] to [x'], with the number of residual evaluations. *)
  Inductive iterates : V -> V -> nat -> nat -> Prop :=
  | it_none x : iterates x x 0 0
  | it_step x y z n ev k : iterates x y n ev -> damped_newton y z k -> iterates x z (S n) (ev + S (S k)).

  Definition guard (k : nat) (e rt : F) : bool := le (bound (damping k) e) rt && lt tolerance rt && negb (Qle_bool (damping k) (1 # 20)).
  Lemma guard_good k e rt : guard k e rt = false -> good k e rt \/ 5 <= k.
  Proof.
    unfold guard, good. intros H. destruct (le _ rt) eqn:A; [|auto]. destruct (lt _ rt) eqn:B; [|auto].
    right. do 5 (destruct k as [|k]; [discriminate H|]). lia.
  Qed.
  Lemma guard_not k e rt : guard k e rt = true -> ~ good k e rt.
  Proof.
    unfold guard, good. intros H. apply andb_true_iff in H. destruct H as [H _]. apply andb_true_iff in H. destruct H as [-> ->].
    intros [A|A]; discriminate.
  Qed.

  Lemma trials_S n x dy e k rt st ev : TRIALS (S n) x dy e (damping k) rt st ev =
    if guard k e rt then
      match residual (vadd x (vscale (damping k) dy)) with
      | Raise er => Some (Raise er)
      | Ok r => TRIALS n x dy e (Qred (damping k * (1 # 2))) (norm r) (Some (vscale (damping k) dy)) (S ev)
      end
    else Some (Ok (rt, st, ev)).
  Proof. reflexivity. Qed.
  Lemma trials_from x dy e n : forall k rt st ev, k + n = 5 ->
    match TRIALS (S n) x dy e (damping k) rt st ev with
    | None => False
    | Some (Raise err) => exists j, k <= j < 5 /\ residual (vadd x (vscale (damping j) dy)) = Raise err
    | Some (Ok (rt', st', ev')) =>
        (rt' = rt /\ st' = st /\ ev' = ev /\ guard k e rt = false) \/
        (guard k e rt = true /\ exists j r, k <= j < 5 /\ ev' = ev + (S j - k) /\ st' = Some (vscale (damping j) dy) /\
           residual (vadd x (vscale (damping j) dy)) = Ok r /\ rt' = norm r /\ (good (S j) e rt' \/ j = 4) /\
           forall i, k <= i < j -> exists ri, residual (vadd x (vscale (damping i) dy)) = Ok ri /\ ~ good (S i) e (norm ri))
    end.
  Proof.
    induction n as [|n IH]; intros k rt st ev K.
    - replace k with 5 by lia. cbn [trials]. replace (le (bound (damping 5) e) rt && lt tolerance rt && negb (Qle_bool (damping 5) (1 # 20))) with false
        by (change (Qle_bool (damping 5) (1 # 20)) with true; simpl; now rewrite andb_false_r).
      left. repeat split. unfold guard. change (Qle_bool (damping 5) (1 # 20)) with true. simpl. now rewrite andb_false_r.
    - rewrite trials_S. destruct (guard k e rt) eqn:G; [|left; auto].
      destruct (residual (vadd x (vscale (damping k) dy))) as [r|err] eqn:R; [|exists k; split; [lia|exact R]].
      replace (Qred (damping k * (1 # 2))) with (damping (S k)) by (do 5 (destruct k as [|k]; [reflexivity|]); lia).
      specialize (IH (S k) (norm r) (Some (vscale (damping k) dy)) (S ev) ltac:(lia)).
      destruct (TRIALS (S n) x dy e (damping (S k)) (norm r) (Some (vscale (damping k) dy)) (S ev)) as [[[[rt' st'] ev']|err]|]; [| |exact IH].
      + right. split; [reflexivity|]. destruct IH as [(-> & -> & -> & G')|(G' & j & r1 & J1 & J2 & J3 & J4 & J5 & J6 & J7)].
        * exists k, r. split; [lia|]. split; [lia|]. split; [reflexivity|]. split; [exact R|]. split; [reflexivity|].
          split; [|intros; lia]. apply guard_good in G'. destruct G' as [G'|G']; [now left|right; lia].
        * exists j, r1. split; [lia|]. split; [lia|]. split; [exact J3|]. split; [exact J4|]. split; [exact J5|]. split; [exact J6|].
          intros i I. destruct (Nat.eq_dec i k) as [->|N]; [|apply J7; lia]. exists r. split; [exact R|now apply guard_not].
      + destruct IH as (j & J1 & J2). exists j. split; [lia|exact J2].
  Qed.

  (** One pass of the loop: a damped Newton step, or an exception. *)
  Lemma pass_spec s :
    match PASS s with
    | None => False
    | Some (Raise e) => True
    | Some (Ok s') => exists k r', damped_newton (as_x s) (as_x s') k /\ residual (as_x s') = Ok r' /\ as_err s' = norm r' /\
        as_iter s' = (as_iter s + 1)%Z /\ as_conv s' = (as_conv s || le (norm r') tolerance) /\ as_evals s' = as_evals s + S (S k)
    end.
  Proof.
    unfold pass. destruct (residual (as_x s)) as [r|e] eqn:R; [|exact I]. destruct (existsb isnan r) eqn:N; [exact I|].
    destruct (jac (as_x s)) as [j|e] eqn:JJ; [|exact I].
    destruct (match lin_solve j r with Some d => Ok d | None => lstsq j r end) as [dy|e] eqn:D; [|exact I].
    assert (D' : lin_solve j r = Some dy \/ lin_solve j r = None /\ lstsq j r = Ok dy).
    { destruct (lin_solve j r) as [d|]; [left; congruence|right; auto]. }
    pose proof (trials_from (as_x s) dy (norm r) 5 0 inf None (S (as_evals s)) eq_refl) as T. change (damping 0) with 1%Q in T.
    destruct (TRIALS 6 (as_x s) dy (norm r) 1%Q inf None (S (as_evals s))) as [[[[rt [st|]] ev]|e]|]; try exact I; [|exact T].
    destruct T as [(_ & T & _)|(_ & k & r' & K1 & K2 & K3 & K4 & -> & K6 & K7)]; [discriminate T|]. injection K3 as ->.
    exists k, r'. cbn [as_x as_err as_iter as_conv as_evals]. split; [|split; [exact K4|split; [reflexivity|split; [reflexivity|split; [reflexivity|lia]]]]].
    exists r, j, dy, r'. split; [exact R|]. split; [exact N|]. split; [exact JJ|]. split; [exact D'|]. split; [lia|]. split; [reflexivity|]. split; [exact K4|].
    split; [exact K6|]. intros i I. apply K7. lia.
  Qed.

  (** State of the loop reached from [x]. *)
  Definition inv (x : V) (s : astate) : Prop :=
    exists n, as_iter s = Z.of_nat n /\ (Z.of_nat n <= Z.max 0 (max_iterations + 1))%Z /\ iterates x (as_x s) n (as_evals s) /\
      ((n = 0 /\ as_conv s = false /\ as_err s = mone) \/ exists r, residual (as_x s) = Ok r /\ as_err s = norm r /\ as_conv s = le (norm r) tolerance).
  Lemma armijo_inv x fuel : forall s, inv x s -> (max_iterations + 1 - as_iter s <= Z.of_nat fuel)%Z ->
    match ARMIJO fuel s with
    | None => False
    | Some (Raise e) => True
    | Some (Ok s') => inv x s' /\ (as_conv s' = true \/ (max_iterations < as_iter s')%Z \/ lt (as_err s') max_error = false)
    end.
  Proof.
    induction fuel as [|fuel IH]; intros s I B; cbn [armijo].
    - destruct (negb (as_conv s) && Z.leb (as_iter s) max_iterations && lt (as_err s) max_error) eqn:G.
      + apply andb_true_iff in G. destruct G as [G _]. apply andb_true_iff in G. destruct G as [_ G]. apply Z.leb_le in G. lia.
      + split; [exact I|]. destruct (as_conv s); [auto|]. right. simpl in G. apply andb_false_iff in G. destruct G as [G|G]; [left|auto].
        now apply Z.leb_gt in G.
    - destruct (negb (as_conv s) && Z.leb (as_iter s) max_iterations && lt (as_err s) max_error) eqn:G.
      + pose proof (pass_spec s) as P. destruct (PASS s) as [[s'|e]|]; [|exact I0 || exact Logic.I|exact P].
        destruct P as (k & r' & P1 & P2 & P3 & P4 & P5 & P6).
        apply andb_true_iff in G. destruct G as [G _]. apply andb_true_iff in G. destruct G as [G1 G2]. apply Z.leb_le in G2.
        apply IH; [|lia]. destruct I as (n & I1 & I2 & I3 & I4). exists (S n). split; [lia|]. split; [lia|].
        split; [rewrite P6; econstructor; eassumption|]. right. exists r'. split; [exact P2|]. split; [exact P3|].
        rewrite P5. destruct (as_conv s); [discriminate G1|reflexivity].
      + split; [exact I|]. destruct (as_conv s); [auto|]. right. simpl in G. apply andb_false_iff in G. destruct G as [G|G]; [left|auto].
        now apply Z.leb_gt in G.
  Qed.
  Lemma inv_start x : inv x (START x).
  Proof. exists 0. simpl. split; [reflexivity|]. split; [lia|]. split; [constructor|]. left. auto. Qed.
  Lemma iterates_evals x z n ev : iterates x z n ev -> ev <= 6 * n.
  Proof. induction 1 as [|x y z n ev k H IH D]; [lia|]. destruct D as (r & j & dy & r' & _ & _ & _ & _ & K & _). lia. Qed.
End Loop.

(** The loop ends whatever the residual, Jacobian, linear algebra and even the
    comparisons do: [max_iterations + 1] passes are enough, each with one
    evaluation of the residual at the iterate and at most five at trial points.
    It never exceeds the limit. *)
Theorem C44_stops : forall (V F J : Type) residual (jac : V -> res J) lin_solve lstsq vadd vscale norm isnan le lt bound (inf mone tolerance max_error : F) max_iterations x,
  match armijo residual jac lin_solve lstsq vadd vscale norm isnan le lt bound inf tolerance max_error max_iterations
          (Z.to_nat (max_iterations + 1)) (armijo_start mone x) with
  | None => False
  | Some (Raise _) => True
  | Some (Ok s) => (0 <= as_iter s <= Z.max 0 (max_iterations + 1))%Z /\ (Z.of_nat (as_evals s) <= 6 * as_iter s)%Z /\
      (as_conv s = true \/ (max_iterations < as_iter s)%Z \/ lt (as_err s) max_error = false)
  end.
Proof.
  intros. pose proof (armijo_inv residual jac lin_solve lstsq vadd vscale norm isnan le lt bound inf mone tolerance max_error max_iterations x
    (Z.to_nat (max_iterations + 1)) (armijo_start mone x) (inv_start _ _ _ _ _ _ _ _ _ _ _ _ _ _ x)) as A.
  specialize (A ltac:(simpl; lia)).
  destruct (armijo residual jac lin_solve lstsq vadd vscale norm isnan le lt bound inf tolerance max_error max_iterations (Z.to_nat (max_iterations + 1)) (armijo_start mone x)) as [[s|e]|]; [|exact I|exact A].
  destruct A as [(n & I1 & I2 & I3 & I4) O]. apply iterates_evals in I3. split; [lia|]. split; [lia|exact O].
Qed.
Print Assumptions C44_stops.

(** What is returned: the unknowns are reached by damped Newton steps, the error
    reported is the norm of the residual there, and the flag says whether it is
    within the tolerance. *)
Theorem C44_converged_means_small : forall (V F J : Type) residual (jac : V -> res J) lin_solve lstsq vadd vscale norm isnan le lt bound (inf mone tolerance max_error : F) max_iterations x fuel s,
  armijo residual jac lin_solve lstsq vadd vscale norm isnan le lt bound inf tolerance max_error max_iterations fuel (armijo_start mone x) = Some (Ok s) ->
  (exists n, as_iter s = Z.of_nat n /\ iterates residual jac lin_solve lstsq vadd vscale norm isnan le lt bound tolerance x (as_x s) n (as_evals s)) /\
  ((as_iter s = 0%Z /\ as_x s = x /\ as_conv s = false) \/
   exists r, residual (as_x s) = Ok r /\ as_err s = norm r /\ as_conv s = le (norm r) tolerance).
Proof.
  intros V F J residual jac lin_solve lstsq vadd vscale norm isnan le lt bound inf mone tolerance max_error max_iterations x fuel s H.
  assert (X : forall fuel s0, inv residual jac lin_solve lstsq vadd vscale norm isnan le lt bound mone tolerance max_iterations x s0 ->
    armijo residual jac lin_solve lstsq vadd vscale norm isnan le lt bound inf tolerance max_error max_iterations fuel s0 = Some (Ok s) ->
    inv residual jac lin_solve lstsq vadd vscale norm isnan le lt bound mone tolerance max_iterations x s).
  { clear. intros fuel. induction fuel as [|fuel IH]; intros s0 I; cbn [armijo].
    - destruct (_ && _ && _); [discriminate|]. now intros [= <-].
    - destruct (negb (as_conv s0) && Z.leb (as_iter s0) max_iterations && lt (as_err s0) max_error) eqn:G; [|now intros [= <-]].
      pose proof (pass_spec residual jac lin_solve lstsq vadd vscale norm isnan le lt bound inf tolerance s0) as P.
      destruct (pass _ _ _ _ _ _ _ _ _ _ _ _ _ s0) as [[s'|e]|]; [|discriminate|discriminate].
      destruct P as (k & r' & P1 & P2 & P3 & P4 & P5 & P6).
      apply andb_true_iff in G. destruct G as [G _]. apply andb_true_iff in G. destruct G as [G1 G2]. apply Z.leb_le in G2.
      apply IH. destruct I as (n & I1 & I2 & I3 & I4). exists (S n). split; [lia|]. split; [lia|].
      split; [rewrite P6; econstructor; eassumption|]. right. exists r'. split; [exact P2|]. split; [exact P3|].
      rewrite P5. destruct (as_conv s0); [discriminate G1|reflexivity]. }
  apply (X fuel (armijo_start mone x) (inv_start _ _ _ _ _ _ _ _ _ _ _ _ _ _ x)) in H. destruct H as (n & I1 & I2 & I3 & I4).
  split; [exists n; auto|]. destruct I4 as [(-> & C & E)|I4]; [|right; exact I4]. left. inversion I3. subst. auto.
Qed.
Print Assumptions C44_converged_means_small.

(** With ordinary comparisons (infinity at least every number that is not NaN,
    the bound of such a number again one, and the tolerance finite) the step is
    always defined: TypeError does not come from the loop itself. *)
Theorem C44_step_defined : forall (V F J : Type) residual (jac : V -> res J) lin_solve lstsq vadd vscale norm isnan le lt bound (inf tolerance : F) s,
  lt tolerance inf = true -> (forall r : list F, existsb isnan r = false -> le (bound 1%Q (norm r)) inf = true) ->
  pass residual jac lin_solve lstsq vadd vscale norm isnan le lt bound inf tolerance s = Some (Raise TypeError) ->
  (exists x : V, residual x = Raise TypeError) \/ (exists x, jac x = Raise TypeError) \/ exists j r, lstsq j r = Raise TypeError.
Proof.
  intros V F J residual jac lin_solve lstsq vadd vscale norm isnan le lt bound inf tolerance s T B. unfold pass.
  destruct (residual (as_x s)) as [r|e] eqn:R; [|intros [= ->]; eauto]. destruct (existsb isnan r) eqn:N; [discriminate|].
  destruct (jac (as_x s)) as [j|e] eqn:JJ; [|intros [= ->]; eauto].
  destruct (match lin_solve j r with Some d => Ok d | None => lstsq j r end) as [dy|e] eqn:D.
  2: { destruct (lin_solve j r); [discriminate|]. intros [= ->]. right. right. eauto. }
  pose proof (trials_from residual vadd vscale norm le lt bound tolerance (as_x s) dy (norm r) 5 0 inf None (S (as_evals s)) eq_refl) as X.
  change (damping 0) with 1%Q in X.
  destruct (trials _ _ _ _ _ _ _ _ 6 (as_x s) dy (norm r) 1%Q inf None (S (as_evals s))) as [[[[rt st] ev]|e]|]; [| |discriminate].
  - destruct X as [(_ & _ & _ & G)|(_ & k & r' & _ & _ & -> & _)]; [|discriminate]. exfalso. unfold guard in G. change (damping 0) with 1%Q in G.
    rewrite (B r N), T in G. discriminate G.
  - intros [= ->]. destruct X as (k & _ & X). left. eauto.
Qed.
Print Assumptions C44_step_defined.

(** Floating point numbers with infinity and NaN, for examples. *)
Inductive xnum : Type := Fin (q : Q) | PInf | NaN.
Definition xle (a b : xnum) : bool :=
  match a, b with Fin p, Fin q => Qle_bool p q | Fin _, PInf | PInf, PInf => true | _, _ => false end.
Definition xlt (a b : xnum) : bool :=
  match a, b with Fin p, Fin q => negb (Qle_bool q p) | Fin _, PInf => true | _, _ => false end.
Definition xisnan (a : xnum) : bool := match a with NaN => true | _ => false end.
(** The maximum norm. *)
Definition xmax (a s : xnum) : xnum :=
  match a, s with
  | NaN, _ | _, NaN => NaN
  | PInf, _ | _, PInf => PInf
  | Fin p, Fin q => Fin (Qred (if Qle_bool q (Qabs.Qabs p) then Qabs.Qabs p else q))
  end.
Definition xnorm (r : list xnum) : xnum := fold_right xmax (Fin 0) r.
Definition xbound (ll : Q) (e : xnum) : xnum := match e with Fin q => Fin (Qred ((1 - (1 # 10000) * ll) * q)) | e => e end.
Definition xsolve1 (j : Q) (r : list xnum) : option Q :=
  match r with [Fin q] => if Qeq_bool j 0 then None else Some (Qred (- q / j)) | _ => None end.
Definition xrun (f : Q -> xnum) (f' : Q -> Q) (tolerance : xnum) (max_iterations : Z) (x : Q) :=
  armijo (fun x => Ok [f x]) (fun x => Ok (f' x)) xsolve1 (fun _ _ => Raise ValueError) (fun a b => Qred (a + b)) (fun k a => Qred (k * a))
    xnorm xisnan xle xlt xbound PInf tolerance (Fin 1000) max_iterations (Z.to_nat (max_iterations + 1)) (armijo_start (Fin (-1 # 1)) x).
(** Square root of two: converges in three steps. *)
Example C44_ex : xrun (fun x => Fin (x * x - 2)) (fun x => 2 * x)%Q (Fin (1 # 1000)) 10 1
  = Some (Ok (mkA (577 # 408)%Q (Fin (1 # 166464)) 3 true 6)).
Proof. vm_compute. reflexivity. Qed.
(** The residual is NaN past the solution: the loop stops and does not report
    convergence. *)
Example C44_nan_ex : xrun (fun x => if Qle_bool x 1 then Fin (x * x - 2) else NaN) (fun x => 2 * x)%Q (Fin (1 # 1000)) 10 1
  = Some (Ok (mkA (3 # 2)%Q NaN 1 false 2)).
Proof. vm_compute. reflexivity. Qed.
(** The last trial is taken although every trial made the residual larger. *)
Example C44_growth_ex : xrun (fun x => if Qeq_bool x 0 then Fin 1 else Fin 2) (fun _ => 1)%Q (Fin (1 # 1000)) 0 0
  = Some (Ok (mkA (- (1 # 16))%Q (Fin 2) 1 false 6)).
Proof. vm_compute. reflexivity. Qed.
(** An infinite tolerance makes the step undefined. *)
Example C44_no_step_ex : xrun (fun x => Fin (x * x - 2)) (fun x => 2 * x)%Q PInf 10 1 = Some (Raise TypeError).
Proof. vm_compute. reflexivity. Qed.
Example C44_step_defined_ex : xlt (Fin (1 # 1000)) PInf = true /\
  forall r : list xnum, existsb xisnan r = false -> xle (xbound 1%Q (xnorm r)) PInf = true.
Proof.
  split; [reflexivity|]. assert (X : forall r, existsb xisnan r = false -> xnorm r <> NaN).
  { induction r as [|a r IH]; simpl; [discriminate|]. intros H. apply orb_false_iff in H. destruct H as [A H]. specialize (IH H).
    destruct a; [| |discriminate]; destruct (xnorm r); simpl; congruence. }
  intros r H. specialize (X r H). destruct (xnorm r); [reflexivity|reflexivity|congruence].
Qed.

(** ** C45 *)
Open Scope R_scope.
Lemma Rleb_true a b : Rleb a b = true <-> a <= b.
Proof. unfold Rleb. destruct (Rle_dec a b); split; intros; try easy. Qed.
Lemma Rltb_true a b : Rltb a b = true <-> a < b.
Proof. unfold Rltb. destruct (Rlt_dec a b); split; intros; try easy. Qed.
Lemma norm2_pos r : 0 <= norm2 r. Proof. apply sqrt_pos. Qed.
Lemma norm2_one x : norm2 [x] = Rabs x.
Proof. unfold norm2. simpl. rewrite Rplus_0_r. apply sqrt_Rsqr_abs. Qed.
Lemma isclose0_true e tol : 0 <= tol -> isclose0 e tol = true <-> Rabs e <= tol.
Proof.
  intros T. unfold isclose0. rewrite Rleb_true. pose proof (Rabs_pos e). unfold Rmax.
  destruct (Rle_dec (/ 1000000000 * Rabs e) tol); split; intros; lra.
Qed.

(** Unconstrained minimisation: only the square of the norm is compared with the
    tolerance. *)
Theorem C45_minimize_bound : forall residual tol o,
  0 <= tol -> o_fun o = (norm2 (residual (o_x o))) ^ 2 -> u_conv (run_minimize tol o) = true ->
  norm2 (residual (u_x (run_minimize tol o))) <= sqrt tol.
Proof.
  intros residual tol o T O C. simpl in *. apply andb_true_iff in C. destruct C as [_ C]. apply isclose0_true in C; [|exact T].
  rewrite O in C. rewrite Rabs_pos_eq in C by (apply pow2_ge_0).
  apply Rsqr_incr_0_var; [|apply sqrt_pos]. rewrite Rsqr_sqrt by exact T. unfold Rsqr. simpl in C. lra.
Qed.
Print Assumptions C45_minimize_bound.

(** So the norm itself may be larger than the tolerance.  The solver's answer
    here is a legitimate one: a point where the objective is below the
    tolerance. *)
Theorem C45_minimize_refuted : exists residual tol o,
  0 < tol /\ o_success o = true /\ o_fun o = objective residual false (o_x o) /\ 0 <= o_fun o <= tol /\
  u_conv (run_minimize tol o) = true /\ tol < norm2 (residual (u_x (run_minimize tol o))).
Proof.
  exists (fun x => x), (/ 10000), (mkOpt [/ 100] (/ 10000) 5 true). simpl. rewrite norm2_one. rewrite Rabs_pos_eq by lra.
  split; [lra|]. split; [reflexivity|]. split; [lra|]. split; [lra|]. split; [|lra].
  apply isclose0_true; [lra|]. rewrite Rabs_pos_eq; lra.
Qed.
Print Assumptions C45_minimize_refuted.

(** Constrained minimisation: the objective is zero everywhere, the flag is the
    solver's own. *)
Theorem C45_constrained_flag : forall residual tol o,
  0 <= tol -> o_fun o = objective residual true (o_x o) -> u_conv (run_minimize tol o) = o_success o.
Proof.
  intros residual tol o T O. simpl in *. rewrite O. assert (I : isclose0 0 tol = true) by (apply isclose0_true; [exact T|rewrite Rabs_R0; exact T]).
  rewrite I. now rewrite andb_true_r.
Qed.
Print Assumptions C45_constrained_flag.
(** Hence the property holds when the solver's success means that the
    constraints hold to the tolerance. *)
Theorem C45_constrained : forall residual tol o,
  0 <= tol -> o_fun o = objective residual true (o_x o) -> (o_success o = true -> norm2 (residual (o_x o)) <= tol) ->
  u_conv (run_minimize tol o) = true -> norm2 (residual (u_x (run_minimize tol o))) <= tol.
Proof. intros residual tol o T O S C. rewrite (C45_constrained_flag residual tol o T O) in C. simpl. now apply S. Qed.
Print Assumptions C45_constrained.
Example C45_constrained_ex : let o := mkOpt [0] 0 3 true in
  o_fun o = objective (fun x => x) true (o_x o) /\ (o_success o = true -> norm2 ((fun x => x) (o_x o)) <= / 10) /\ u_conv (run_minimize (/ 10) o) = true.
Proof.
  simpl. rewrite norm2_one, Rabs_R0. split; [reflexivity|]. split; [intros; lra|]. apply isclose0_true; [lra|rewrite Rabs_R0; lra].
Qed.

(** [fsolve]: the error is computed at the guess, so the flag does not depend on
    what was found. *)
Theorem C45_fsolve_flag : forall residual tol guess x,
  0 <= tol -> u_conv (run_fsolve residual tol guess x) = true <-> norm2 (residual guess) <= sqrt tol.
Proof.
  intros residual tol guess x T. unfold run_fsolve. cbn [u_conv]. rewrite isclose0_true by exact T. pose proof (norm2_pos (residual guess)) as N.
  rewrite Rabs_pos_eq by apply pow2_ge_0. split; intros H.
  - apply Rsqr_incr_0_var; [|apply sqrt_pos]. rewrite Rsqr_sqrt by exact T. unfold Rsqr. simpl in H. lra.
  - apply Rsqr_incr_1 in H; [|exact N|apply sqrt_pos]. rewrite Rsqr_sqrt in H by exact T. unfold Rsqr in H. simpl. lra.
Qed.
Print Assumptions C45_fsolve_flag.
(** An exact solution is reported as not converged, *)
Theorem C45_fsolve_solution_rejected_refuted : exists residual tol guess x,
  0 < tol /\ norm2 (residual x) = 0 /\ u_x (run_fsolve residual tol guess x) = x /\ u_conv (run_fsolve residual tol guess x) = false.
Proof.
  exists (fun x => x), (/ 10), [1], [0]. split; [lra|]. split; [rewrite norm2_one; apply Rabs_R0|]. split; [reflexivity|].
  destruct (u_conv _) eqn:E; [|reflexivity]. apply C45_fsolve_flag in E; [|lra]. rewrite norm2_one, Rabs_R1 in E.
  apply (Rsqr_incr_1 1) in E; [|lra|apply sqrt_pos]. rewrite Rsqr_sqrt in E by lra. unfold Rsqr in E. lra.
Qed.
Print Assumptions C45_fsolve_solution_rejected_refuted.
(** and a point that is not one as converged, even if [fsolve] returns a point no
    worse than the guess. *)
Theorem C45_fsolve_refuted : exists residual tol guess x,
  0 < tol /\ norm2 (residual x) <= norm2 (residual guess) /\ u_conv (run_fsolve residual tol guess x) = true /\
  tol < norm2 (residual (u_x (run_fsolve residual tol guess x))).
Proof.
  exists (fun x => x), (/ 10000), [/ 100], [/ 100]. split; [lra|]. split; [lra|]. rewrite C45_fsolve_flag by lra. simpl.
  rewrite !norm2_one, !Rabs_pos_eq by lra. split; [|lra]. rewrite <- (sqrt_Rsqr (/ 100)) by lra. apply sqrt_le_1_alt. unfold Rsqr. lra.
Qed.
Print Assumptions C45_fsolve_refuted.

(** [scipy.optimize.root]: with two or more unknowns the comparison of the
    residual vector with the tolerance raises; no trajectory is returned. *)
Theorem C45_root_raises : forall residual tol max_error max_iterations o,
  (2 <= length (residual (o_x o)))%nat -> finish tol max_error max_iterations (run_root residual o) = Raise ValueError.
Proof.
  intros residual tol max_error max_iterations o L. unfold finish, message_of, run_root. cbn [u_err u_iter u_conv u_x].
  destruct (residual (o_x o)) as [|a [|b r]]; simpl in L; try lia. reflexivity.
Qed.
Print Assumptions C45_root_raises.
Example C45_root_ex : finish (/ 10) 1000 10 (run_root (fun x => x) (mkOpt [0; 0] 0 1 true)) = Raise ValueError.
Proof. apply C45_root_raises. simpl. lia. Qed.
(** With one unknown the flag is the solver's own, which speaks about the
    unknown, not about the residual. *)
Theorem C45_root_refuted : exists residual tol o z,
  0 < tol /\ norm2 (residual z) = 0 /\ o_success o = true /\ Rabs (nth 0 (o_x o) 0 - nth 0 z 0) <= tol * Rabs (nth 0 z 0) /\
  exists m, finish tol 1000 10 (run_root residual o) = Ok (o_x o, true, m) /\ tol < norm2 (residual (o_x o)).
Proof.
  exists (fun x => [10 * (nth 0 x 0 - 1)]), (/ 1000), (mkOpt [1 + / 1000] 0 1 true), [1]. split; [lra|]. split; [rewrite norm2_one; simpl; rewrite Rminus_diag_eq, Rmult_0_r by reflexivity; apply Rabs_R0|].
  split; [reflexivity|]. split; [simpl; rewrite !Rabs_pos_eq; lra|]. eexists. split; [reflexivity|]. rewrite norm2_one. cbn [o_x nth]. rewrite Rabs_pos_eq; lra.
Qed.
Print Assumptions C45_root_refuted.

(** The default algorithm satisfies the property. *)
Theorem C45_armijo : forall (residual : list R -> list R) jac lin_solve lstsq vadd vscale isnan bound inf tol max_error max_iterations x fuel s,
  armijo (J := unit) (fun x => Ok (residual x)) jac lin_solve lstsq vadd vscale norm2 isnan Rleb Rltb bound inf tol max_error max_iterations fuel (armijo_start (-1) x) = Some (Ok s) ->
  as_conv s = true -> norm2 (residual (as_x s)) <= tol.
Proof.
  intros until s. intros H C. apply C44_converged_means_small in H. destruct H as [_ [(_ & _ & H)|(r & [= <-] & _ & H)]]; [congruence|].
  rewrite C in H. symmetry in H. now apply Rleb_true in H.
Qed.
Print Assumptions C45_armijo.

(** Which names select which algorithm. *)
Theorem C45_choose : forall name a, choose name = Ok a ->
  match a with
  | AMinimize c => In name minimize_algorithms /\ (c = true <-> In name ["COBYLA"; "SLSQP"; "trust-constr"]%string)
  | ARoot => In name root_algorithms
  | AFsolve => lower name = "fsolve"%string
  | AArmijo => lower name = "armijo"%string
  end.
Proof.
  intros name a. unfold choose.
  assert (X : forall s l, is_in s l = true <-> In s l).
  { intros s l. unfold is_in. rewrite existsb_exists. split; [intros (y & Y & E); apply String.eqb_eq in E; now subst|intros I; exists s; split; [exact I|apply String.eqb_refl]]. }
  destruct (is_in name minimize_algorithms) eqn:M; [intros [= <-]; split; [now apply X|exact (X name constrained_algorithms)]|].
  destruct (is_in name root_algorithms) eqn:R; [intros [= <-]; now apply X|].
  destruct (String.eqb (lower name) "fsolve") eqn:F; [intros [= <-]; now apply String.eqb_eq|].
  destruct (String.eqb (lower name) "armijo") eqn:A; [intros [= <-]; now apply String.eqb_eq|discriminate].
Qed.
Print Assumptions C45_choose.
Example C45_choose_ex : choose "SLSQP" = Ok (AMinimize true) /\ choose "BFGS" = Ok (AMinimize false) /\ choose "slsqp" = Raise NotImplementedError /\
  choose "FSolve" = Ok AFsolve /\ choose "Armijo" = Ok AArmijo.
Proof. repeat split; vm_compute; reflexivity. Qed.

(** ** C46 *)
Definition says_converged (m : message) : bool := match m with ConvergedUnknown | ConvergedIn _ => true | _ => false end.
(** The message is right in one direction always, in the other whenever the flag
    means an error below the tolerance. *)
Theorem C46_message : forall tol max_error max_iterations e n_iter conv m,
  message_of tol max_error max_iterations (Scalar e) n_iter conv = Ok m ->
  (says_converged m = true -> conv = true /\ e < tol) /\
  (conv = true -> e < tol -> says_converged m = true) /\
  (m = MaxIterations -> (max_iterations < n_iter)%Z) /\ (m = ErrorExceeded -> max_error < e).
Proof.
  intros tol max_error max_iterations e n_iter conv m. unfold message_of, scalar_of, bind. intros H. injection H as <-.
  destruct (Rltb e tol) eqn:E; destruct conv; simpl; try (apply Rltb_true in E).
  1: { split; [auto|]. split; [destruct (Z.eqb n_iter (-1)); reflexivity|]. destruct (Z.eqb n_iter (-1)); split; discriminate. }
  all: (split; [destruct (Z.ltb max_iterations n_iter), (Rltb max_error e); discriminate|]).
  all: (split; [intros; try discriminate; try (exfalso; rewrite (proj2 (Rltb_true e tol)) in E by assumption; discriminate)|]).
  all: destruct (Z.ltb max_iterations n_iter) eqn:A; [apply Z.ltb_lt in A|]; destruct (Rltb max_error e) eqn:B; try apply Rltb_true in B; split; intros X; try discriminate; assumption.
Qed.
Print Assumptions C46_message.
Example C46_ex : message_of (/ 10) 1000 10 (Scalar 0) 4 true = Ok (ConvergedIn 4).
Proof. unfold message_of, scalar_of, bind. now rewrite (proj2 (Rltb_true 0 (/ 10)) ltac:(lra)). Qed.

(** A residual exactly at the tolerance is converged for the loop ([<=]) and not
    for the message ([<]). *)
Theorem C46_boundary_refuted : exists (residual : list R -> list R) jac lin_solve lstsq vadd vscale isnan bound inf tol x s m,
  armijo (J := unit) (fun x => Ok (residual x)) jac lin_solve lstsq vadd vscale norm2 isnan Rleb Rltb bound inf tol 1000 10 11 (armijo_start (-1) x) = Some (Ok s) /\
  0 < tol /\ as_conv s = true /\ message_of tol 1000 10 (Scalar (as_err s)) (as_iter s) (as_conv s) = Ok m /\ says_converged m = false.
Proof.
  exists (fun _ => [1]), (fun _ => Ok tt), (fun _ _ => Some [0]), (fun _ _ => Raise ValueError), (fun a _ => a), (fun _ a => a), (fun _ => false), (fun _ e => 9 / 10 * e), 2, 1, [0].
  exists (mkA [0] 1 1 true 2), Unspecified.
  assert (N : norm2 [1] = 1) by (rewrite norm2_one; apply Rabs_R1).
  assert (A : Rltb (-1) 1000 = true) by (apply Rltb_true; lra).
  assert (B : Rleb (9 / 10 * 1) 2 = true) by (apply Rleb_true; lra).
  assert (C : Rltb 1 2 = true) by (apply Rltb_true; lra).
  assert (D : Rltb 1 1 = false) by (destruct (Rltb 1 1) eqn:E; [apply Rltb_true in E; lra|reflexivity]).
  assert (L : Rleb 1 1 = true) by (apply Rleb_true; lra).
  assert (K : Rltb 1000 1 = false) by (destruct (Rltb 1000 1) eqn:E; [apply Rltb_true in E; lra|reflexivity]).
  split; [|split; [lra|split; [reflexivity|split; [|reflexivity]]]].
  - unfold armijo_start. cbn [armijo as_conv as_iter as_err negb andb]. rewrite A. change (Z.leb 0 10) with true. cbn [andb].
    unfold pass. cbn [as_x existsb orb]. rewrite N. cbn [trials as_evals]. rewrite B, C. change (negb (Qle_bool 1 (1 # 20))) with true. cbn [andb].
    rewrite N, D, andb_false_r. cbn [andb as_conv orb as_iter]. rewrite L. reflexivity.
  - unfold message_of, scalar_of, bind. cbn [as_err as_iter as_conv]. rewrite D, K. reflexivity.
Qed.
Print Assumptions C46_boundary_refuted.
