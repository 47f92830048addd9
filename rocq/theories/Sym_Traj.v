(** Trajectories of the derived equations (C31, C65). *)
From Coq Require Import Reals Lra.
From Coquelicot Require Import Coquelicot.
From Verif Require Import Base Base_Facts Sym_Expr Sym_Facts Sym_Model Sym_Lu Sym_Dual.
Open Scope R_scope.

(** A curve assigns a value to every symbol at every time; [follows] says that
    at time [t] it obeys the differential equations listed. *)
Definition follows (fn : string -> nat -> R -> R) (c : R -> string -> R) (t : R) (eqs : list (string * expr)) : Prop :=
  forall x e, In (x, e) eqs -> is_derive (fun s => c s x) t (eval fn (c t) e).

(** The symbols of an expression outside a list do not move at time [t]. *)
Definition others_fixed (c : R -> string -> R) (t : R) (moving : list string) (e : expr) : Prop :=
  forall x, In x (vars e) -> ~ In x moving -> is_derive (fun s => c s x) t 0.

Section Traj.
  Variable fn : string -> nat -> R -> R.
  Hypothesis Sm : smooth fn.

  Lemma chain_moving (c : R -> string -> R) (d : string -> R) t e L : NoDup L ->
    (forall x, In x (vars e) -> is_derive (fun s => c s x) t (d x)) ->
    (forall x, In x (vars e) -> In x L \/ d x = 0) ->
    wd fn (c t) e ->
    is_derive (fun s => eval fn (c s) e) t (rsum (map (fun v => eval fn (c t) (diff v e) * d v) L)).
  Proof. intros ND H1 H2 W. rewrite <- dir_moving by assumption. now apply chain_dir. Qed.
  Lemma rsum_swap_lam h rho (l : list string) :
    rsum (map (fun v => eval fn rho (diff v h) * eval fn rho (diff (lam v) h)) l) +
    rsum (map (fun v => eval fn rho (diff (lam v) h) * - eval fn rho (diff v h)) l) = 0.
  Proof.
    rewrite <- rsum_plus. apply rsum_zero. intros; lra.
  Qed.

  Fixpoint speed (l : list (string * R)) (y : string) : R :=
    match l with [] => 0 | (x, v) :: l' => if String.eqb y x then v else speed l' y end.
  Lemma speed_in l x v : NoDup (map fst l) -> In (x, v) l -> speed l x = v.
  Proof.
    induction l as [|[y w] l IH]; simpl; [tauto|]. intros ND [E|H]; inversion ND as [|? ? NI ND']; subst.
    - injection E as -> ->. now rewrite String.eqb_refl.
    - destruct (String.eqb_spec x y) as [->|]; [|now apply IH]. exfalso. apply NI. apply (in_map fst) in H. exact H.
  Qed.
  Lemma speed_out l x : ~ In x (map fst l) -> speed l x = 0.
  Proof.
    induction l as [|[y w] l IH]; simpl; auto. intros H. destruct (String.eqb_spec x y) as [->|]; [tauto|]. apply IH. tauto.
  Qed.

  (** Chain rule with a table of speeds. *)
  Lemma chain_speeds (c : R -> string -> R) (l : list (string * R)) t e : NoDup (map fst l) ->
    (forall x v, In (x, v) l -> is_derive (fun s => c s x) t v) ->
    others_fixed c t (map fst l) e -> wd fn (c t) e ->
    is_derive (fun s => eval fn (c s) e) t (rsum (map (fun xv => eval fn (c t) (diff (fst xv) e) * snd xv) l)).
  Proof.
    intros ND H1 H2 W.
    assert (E : rsum (map (fun xv => eval fn (c t) (diff (fst xv) e) * snd xv) l) =
                rsum (map (fun v => eval fn (c t) (diff v e) * speed l v) (map fst l))).
    { rewrite map_map. apply rsum_ext. intros [x v] Hx. simpl. now rewrite (speed_in l x v). }
    rewrite E. apply chain_moving; auto.
    - intros x Hx. destruct (in_dec String.string_dec x (map fst l)) as [I|N].
      + apply in_map_iff in I. destruct I as ([y v] & Ey & I). simpl in Ey. subst y. rewrite (speed_in l x v) by assumption. now apply H1.
      + rewrite speed_out by assumption. now apply H2.
    - intros x Hx. destruct (in_dec String.string_dec x (map fst l)) as [I|N]; [now left|right; now apply speed_out].
  Qed.

  (** Hamilton's equations at one time imply the energy balance. *)
  Lemma energy_balance h (X U : list string) ind (c : R -> string -> R) (w : string -> R) t :
    NoDup (X ++ map lam X ++ U ++ [ind]) -> wd fn (c t) h ->
    (forall x, In x X -> is_derive (fun s => c s x) t (eval fn (c t) (diff (lam x) h))) ->
    (forall x, In x X -> is_derive (fun s => c s (lam x)) t (- eval fn (c t) (diff x h))) ->
    (forall u, In u U -> is_derive (fun s => c s u) t (w u)) ->
    is_derive (fun s => c s ind) t 1 ->
    others_fixed c t (X ++ map lam X ++ U ++ [ind]) h ->
    is_derive (fun s => eval fn (c s) h) t
      (rsum (map (fun u => eval fn (c t) (diff u h) * w u) U) + eval fn (c t) (diff ind h)).
  Proof.
    intros ND W HX HL HU HI HO.
    set (l := map (fun x => (x, eval fn (c t) (diff (lam x) h))) X ++
              map (fun x => (lam x, - eval fn (c t) (diff x h))) X ++
              map (fun u => (u, w u)) U ++ [(ind, 1)]).
    assert (E : map fst l = X ++ map lam X ++ U ++ [ind]).
    { unfold l. rewrite !map_app, !map_map. cbn [fst map]. rewrite !map_id. reflexivity. }
    rewrite <- E in ND, HO.
    pose proof (chain_speeds c l t h ND) as G.
    assert (V : rsum (map (fun xv => eval fn (c t) (diff (fst xv) h) * snd xv) l) =
                rsum (map (fun u => eval fn (c t) (diff u h) * w u) U) + eval fn (c t) (diff ind h)).
    { unfold l. rewrite !map_app, !rsum_app, !map_map. cbn [fst snd map].
      pose proof (rsum_swap_lam h (c t) X) as Z. unfold rsum at 4. cbn [fold_right]. lra. }
    rewrite V in G. apply G; auto.
    intros x v Hx. unfold l in Hx. rewrite !in_app_iff, !in_map_iff in Hx.
    destruct Hx as [(y & Ey & Hy)|[(y & Ey & Hy)|[(y & Ey & Hy)|[Ey|[]]]]]; injection Ey as <- <-; auto.
  Qed.
End Traj.
