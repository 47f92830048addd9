(** Bounds on the way from the user's problem to Dualize and back. *)
From Coq Require Import Reals Lra Lia Permutation.
From Coquelicot Require Import Coquelicot.
From Verif Require Import Base Base_Facts Sym_Expr Sym_Facts Sym_Model Sym_Spec Sym_Constr Sym_Eps Pen_Proofs Sym_Dual Jac_Model Unit_Model Chain_Model Map_Model Map_Proofs Map_Chain Chain_Back.
Open Scope string_scope.
Open Scope list_scope.
Open Scope nat_scope.

Definition angle (u : string) : string := "_" ++ u ++ "_trig".
Lemma app_inj_tail a b s : (a ++ s = b ++ s)%string -> a = b.
Proof.
  assert (L : forall x y, String.length (x ++ y) = String.length x + String.length y) by (clear; induction x; simpl; congruence).
  revert b. induction a as [|c a IH]; intros [|d b] H; cbn in H.
  - reflexivity.
  - exfalso. apply (f_equal String.length) in H. cbn in H. rewrite L in H. lia.
  - exfalso. apply (f_equal String.length) in H. cbn in H. rewrite L in H. lia.
  - injection H as -> H. f_equal. now apply IH.
Qed.
Lemma angle_inj u v : angle u = angle v -> u = v.
Proof. unfold angle. cbn. intros H. injection H as H. now apply app_inj_tail in H. Qed.

(** One EpsTrig step, field by field. *)
Record eps_to (p q : prob) (d : constr) (u : string) (lo up act : expr) (l1 l2 : list constr) (u1 u2 : list string) : Prop := mkEpsTo {
  et_cp : p_cp p = l1 ++ d :: l2;
  et_method : is_method "epstrig" d = true;
  et_expr : c_expr d = Var u;
  et_lower : c_lower d = Some lo;
  et_upper : c_upper d = Some up;
  et_act : c_act d = Some act;
  et_controls : p_controls p = u1 ++ u :: u2;
  et_first : ~ In u u1;
  et_q : q = set_maps (subs_all u (eps_expr lo up (angle u)) (set_cost_p (set_controls (set_cp p (l1 ++ l2)) (u1 ++ angle u :: u2)) (Add (p_cost_p p) (Mul (Opp act) (Cos (Var (angle u)))))))
       (p_maps p ++ [TEpsTrig (length u1) lo up]) }.
Lemma index_split u l i : index_of u l = Ok i -> exists a b, l = a ++ u :: b /\ length a = i /\ ~ In u a.
Proof.
  revert i. induction l as [|v l IH]; cbn [index_of]; intros i H; [discriminate|]. destruct (String.eqb_spec u v) as [ ->|N].
  - injection H as <-. exists [], l. repeat split. auto.
  - destruct (index_of u l) as [j|]; [|discriminate]. cbn [bind] in H. injection H as <-. destruct (IH j eq_refl) as (a & b & -> & L & NI). exists (v :: a), b. cbn. repeat split; [congruence|]. intros [E|I]; [congruence|contradiction].
Qed.
Lemma eps_full p q : eps_trig p = Ok q -> exists d u lo up act l1 l2 u1 u2, eps_to p q d u lo up act l1 l2 u1 u2.
Proof.
  unfold eps_trig. destruct (p_symp p); [|discriminate]. destruct (find_at (is_method "epstrig") (p_cp p)) as [[k d]|] eqn:E; [|discriminate].
  destruct (find_at_spec _ _ _ _ E) as (M & l1 & l2 & EL & _ & ER & _). rewrite ER. destruct (c_expr d) as [| |u| | | | | | | |] eqn:EC; try discriminate.
  change (p_controls (set_cp p (l1 ++ l2))) with (p_controls p). destruct (index_of u (p_controls p)) as [i|] eqn:EI; [|discriminate].
  destruct (index_split _ _ _ EI) as (u1 & u2 & EU & LI & NI). unfold set_nth. rewrite EU. rewrite app_length. cbn [length]. rewrite (proj2 (Nat.ltb_lt i (length u1 + S (length u2)))) by lia. cbn [bind].
  destruct (c_act d) as [act|] eqn:EA; [|discriminate]. destruct (c_lower d) as [lo|] eqn:E1; [|discriminate]. destruct (c_upper d) as [up|] eqn:E2; [|discriminate].
  intros H. apply Ok_inj in H. subst q. exists d, u, lo, up, act, l1, l2, u1, u2. constructor; auto.
  subst i. rewrite firstn_app, firstn_all, Nat.sub_diag, firstn_O, app_nil_r. rewrite skipn_app. replace (S (length u1) - length u1) with 1 by lia. rewrite (skipn_all2 u1) by lia. reflexivity.
Qed.

(** One UTM step. *)
Inductive utm_to (p q : prob) (d : constr) (a : string) (lo up : expr) (l1 l2 : list constr) : Prop :=
| UtI : p_ci p = l1 ++ d :: l2 -> q = set_ci (set_maps (set_cost_i p (Add (p_cost_i p) (utm_penalty (Var a) (c_expr d) lo up))) (p_maps p ++ [TIdentity])) (l1 ++ l2) -> utm_to p q d a lo up l1 l2
| UtP : p_cp p = l1 ++ d :: l2 -> q = set_cp (set_maps (set_cost_p p (Add (p_cost_p p) (utm_penalty (Var a) (c_expr d) lo up))) (p_maps p ++ [TIdentity])) (l1 ++ l2) -> utm_to p q d a lo up l1 l2
| UtT : p_ct p = l1 ++ d :: l2 -> q = set_ct (set_maps (set_cost_t p (Add (p_cost_t p) (utm_penalty (Var a) (c_expr d) lo up))) (p_maps p ++ [TIdentity])) (l1 ++ l2) -> utm_to p q d a lo up l1 l2.
Lemma utm_full p q : utm p = Ok q -> exists d a lo up l1 l2, utm_to p q d a lo up l1 l2 /\ utm_sel d = true /\ c_act d = Some (Var a) /\ In a (p_consts p) /\ c_lower d = Some lo /\ c_upper d = Some up.
Proof.
  unfold utm. destruct (p_symp p); [|discriminate]. destruct (find_at utm_sel (p_ci p)) as [[k d]|] eqn:E1; [|destruct (find_at utm_sel (p_cp p)) as [[k d]|] eqn:E2; [|destruct (find_at utm_sel (p_ct p)) as [[k d]|] eqn:E3; [|discriminate]]].
  all: destruct (utm_term p d) as [e|] eqn:ET; [|discriminate]; cbn [bind]; intros H; apply Ok_inj in H; destruct (utm_term_ok _ _ _ ET) as (a & lo & up & A1 & A2 & A3 & A4 & ->).
  - destruct (find_at_spec _ _ _ _ E1) as (M & l1 & l2 & EL & _ & ER & _). exists d, a, lo, up, l1, l2. split; [apply UtI; [exact EL|]|now repeat split]. rewrite <- H, <- ER. reflexivity.
  - destruct (find_at_spec _ _ _ _ E2) as (M & l1 & l2 & EL & _ & ER & _). exists d, a, lo, up, l1, l2. split; [apply UtP; [exact EL|]|now repeat split]. rewrite <- H, <- ER. reflexivity.
  - destruct (find_at_spec _ _ _ _ E3) as (M & l1 & l2 & EL & _ & ER & _). exists d, a, lo, up, l1, l2. split; [apply UtT; [exact EL|]|now repeat split]. rewrite <- H, <- ER. reflexivity.
Qed.

(** What the regularised cost charges for a two-sided constraint. *)
Definition barrier (A L U x : R) : R := (A * (1 / cos (PI / 2 * (2 * x - U - L) / (U - L)) - 1))%R.
Definition charge (fn : string -> nat -> R -> R) (rho : string -> R) (d : constr) : R :=
  match c_act d, c_lower d, c_upper d with
  | Some a, Some lo, Some up =>
      if is_method "epstrig" d
      then match c_expr d with Var u => (- eval fn rho a * cos (rho (angle u)))%R | _ => 0%R end
      else barrier (eval fn rho a) (eval fn rho lo) (eval fn rho up) (eval fn rho (c_expr d))
  | _, _, _ => 0%R
  end.
(** A two-sided condition at an end can only be a UTM barrier. *)
Definition fence (fn : string -> nat -> R -> R) (rho : string -> R) (d : constr) : R :=
  match c_act d, c_lower d, c_upper d with
  | Some a, Some lo, Some up => barrier (eval fn rho a) (eval fn rho lo) (eval fn rho up) (eval fn rho (c_expr d))
  | _, _, _ => 0%R
  end.
Definition sums (f : constr -> R) (l : list constr) : R := rsum (map f (filter two_sided l)).

(** The symbols that bounds and activators may mention. *)
Definition known (p : prob) : list string := p_ind p :: syms (p_states p) ++ p_consts p.
(** [d] bounds a control with EpsTrig. *)
Definition trig (p : prob) (d : constr) : Prop := In d (p_cp p) /\ two_sided d = true /\ is_method "epstrig" d = true.
Record tame (p : prob) : Prop := mkTame {
  tm_controls : NoDup (p_controls p);
  tm_apart : forall x, In x (p_controls p) -> ~ In x (known p);
  tm_bounded : forall d, trig p d -> exists u, c_expr d = Var u /\ In u (p_controls p) /\ ~ In (angle u) (known p ++ p_controls p);
  tm_single : NoDup (map c_expr (filter (fun d => two_sided d && is_method "epstrig" d) (p_cp p)));
  tm_acts : forall d a, In d (p_ci p ++ p_cp p ++ p_ct p) -> two_sided d = true -> c_act d = Some a -> incl (vars a) (known p);
  tm_bounds : forall d e, trig p d -> c_lower d = Some e \/ c_upper d = Some e -> incl (vars e) (known p) }.

Lemma wd_subst_inv fn x n e rho : wd fn rho (subst x n e) -> wd fn (upd rho x (eval fn rho n)) e.
Proof.
  induction e; cbn [subst wd]; try tauto. rewrite eval_subst. tauto.
Qed.
Lemma eval_known fn rho r' e l : incl (vars e) l -> (forall x, In x l -> r' x = rho x) -> eval fn r' e = eval fn rho e.
Proof. intros I H. apply eval_ext. intros x J. apply H, I, J. Qed.
Lemma sums_cons f d l1 l2 : two_sided d = true -> sums f (l1 ++ d :: l2) = (f d + sums f (l1 ++ l2))%R.
Proof. intros T. unfold sums. rewrite !filter_app. cbn [filter]. rewrite T, !map_app, !rsum_app. cbn [map]. unfold rsum at 2. cbn [fold_right]. fold (rsum (map f (filter two_sided l2))). ring. Qed.
Lemma sums_subs f g u n l : (forall d, In d l -> two_sided d = true -> f (subs_constr u n d) = g d) -> sums f (map (subs_constr u n) l) = sums g l.
Proof.
  intros H. unfold sums. rewrite filter_subs by (intros; apply two_sided_subs). rewrite map_map. apply rsum_ext. intros d I. apply filter_In in I. now apply H.
Qed.

Definition same_frame (p q : prob) : Prop :=
  p_ind q = p_ind p /\ syms (p_states q) = syms (p_states p) /\ p_consts q = p_consts p /\ p_params q = p_params p /\
  (p_costates p = [] -> p_costates q = []) /\ (p_coparams p = [] -> p_coparams q = []) /\ (p_quads p = [] -> p_quads q = []).

Lemma known_frame p q : same_frame p q -> known q = known p.
Proof. intros (A & B & C & _). unfold known. now rewrite A, B, C. Qed.

(** The control lies between its bounds. *)
Definition within (fn : string -> nat -> R -> R) (rho : string -> R) (d : constr) : Prop :=
  exists u lo up, c_expr d = Var u /\ c_lower d = Some lo /\ c_upper d = Some up /\
    (eval fn rho lo <= eval fn rho up -> eval fn rho lo <= rho u <= eval fn rho up)%R.
(** The barrier of [d] is defined at [rho] and has no pole there. *)
Definition clear (fn : string -> nat -> R -> R) (rho : string -> R) (d : constr) : Prop :=
  exists lo up, c_lower d = Some lo /\ c_upper d = Some up /\ (eval fn rho up - eval fn rho lo <> 0)%R /\
    cos (PI / 2 * (2 * eval fn rho (c_expr d) - eval fn rho up - eval fn rho lo) / (eval fn rho up - eval fn rho lo)) <> 0%R /\
    wd fn rho (c_expr d) /\ wd fn rho lo /\ wd fn rho up.

(** [back] turns values of the later problem [q] into values of [p]; the mappers
    [ms] do it for the samples. *)
Record undoes (fn : string -> nat -> R -> R) (p q : prob) (back : (string -> R) -> string -> R) (ms : list (mapper R)) : Prop := mkUndo {
  un_frame : same_frame p q;
  un_tame : tame p -> tame q;
  un_src : tame p -> forall d', trig q d' -> exists d, trig p d /\ c_expr d = c_expr d' /\ c_lower d = c_lower d' /\ c_upper d = c_upper d';
  un_out : tame p -> forall rho x, (forall d, trig p d -> c_expr d <> Var x) -> back rho x = rho x;
  un_states : forall rho, Forall2 (fun s s' => fst s' = fst s /\ eval fn rho (snd s') = eval fn (back rho) (snd s)) (p_states p) (p_states q);
  un_last : forall l x, p_states p = l ++ [(x, Cst 1)] -> exists l', p_states q = l' ++ [(x, Cst 1)];
  un_ci : forall d, In d (p_ci p) -> two_sided d = false -> exists d', In d' (p_ci q) /\ two_sided d' = false /\ forall rho, eval fn rho (c_expr d') = eval fn (back rho) (c_expr d);
  un_ct : forall d, In d (p_ct p) -> two_sided d = false -> exists d', In d' (p_ct q) /\ two_sided d' = false /\ forall rho, eval fn rho (c_expr d') = eval fn (back rho) (c_expr d);
  un_cost_i : tame p -> forall rho, (eval fn rho (p_cost_i q) + sums (fence fn rho) (p_ci q) = eval fn (back rho) (p_cost_i p) + sums (fence fn (back rho)) (p_ci p))%R;
  un_cost_p : tame p -> forall rho, (eval fn rho (p_cost_p q) + sums (charge fn rho) (p_cp q) = eval fn (back rho) (p_cost_p p) + sums (charge fn (back rho)) (p_cp p))%R;
  un_cost_t : tame p -> forall rho, (eval fn rho (p_cost_t q) + sums (fence fn rho) (p_ct q) = eval fn (back rho) (p_cost_t p) + sums (fence fn (back rho)) (p_ct p))%R;
  un_trig : tame p -> forall d, trig p d -> (forall rho, within fn (back rho) d) \/ exists d', trig q d' /\ forall rho, within fn rho d' -> within fn (back rho) d;
  un_wd : forall rho, wd fn rho (p_cost_p q) -> wd fn (back rho) (p_cost_p p);
  un_utm : forall d, In d (p_cp p) -> utm_sel d = true ->
    (forall rho, wd fn rho (p_cost_p q) -> clear fn (back rho) d) \/ exists d', In d' (p_cp q) /\ utm_sel d' = true /\ forall rho, clear fn rho d' -> clear fn (back rho) d;
  un_map : tame p -> forall (c : R -> string -> R) (tm : R -> R) ts (s : sol R), ts <> [] -> s_t s = map tm ts -> s_y s = grid c (syms (p_states p)) ts -> s_u s = grid c (p_controls q) ts ->
    s_p s = [] -> p_params p = [] -> (forall t, In t ts -> map (c t) (p_consts p) = s_k s) ->
    (forall d e, trig p d -> c_lower d = Some e \/ c_upper d = Some e -> In (p_ind p) (vars e) -> forall t, In t ts -> tm t = c t (p_ind p)) ->
    passes (apply_inv ROps) (rev ms) s (set_u (grid (fun t => back (c t)) (p_controls p) ts) s) }.

Lemma frame_trans p q r : same_frame p q -> same_frame q r -> same_frame p r.
Proof. intros (A1 & A2 & A3 & A4 & A5 & A6 & A7) (B1 & B2 & B3 & B4 & B5 & B6 & B7). repeat split; try congruence; auto. Qed.
Lemma grid_ext (c d : R -> string -> R) l ts : (forall t x, In x l -> c t x = d t x) -> grid c l ts = grid d l ts.
Proof. intros H. unfold grid. f_equal. apply map_ext. intros t. apply map_ext_in. intros x I. now apply H. Qed.
Lemma tame_known p d x : tame p -> trig p d -> In x (known p) -> c_expr d <> Var x.
Proof. intros T D K E. destruct (tm_bounded p T d D) as (u & EU & I & _). assert (x = u) by congruence. subst u. exact (tm_apart p T x I K). Qed.

Lemma undo_nil fn p : undoes fn p p (fun rho => rho) [].
Proof.
  constructor.
  - repeat split; auto.
  - auto.
  - intros _ d I. exists d. split; [exact I|auto].
  - reflexivity.
  - intros rho. induction (p_states p); constructor; auto.
  - intros l x E. now exists l.
  - intros d I T. now exists d.
  - intros d I T. now exists d.
  - reflexivity.
  - reflexivity.
  - reflexivity.
  - intros _ d I. right. now exists d.
  - auto.
  - intros d I U. right. now exists d.
  - intros _ c tm ts s NE ET EY EU _ _ _ _. cbn [rev]. assert (E : set_u (grid (fun t => c t) (p_controls p) ts) s = s) by (destruct s; cbn in EU; subst; reflexivity). rewrite E. apply passes_nil.
Qed.

Lemma undo_comp fn p q r b1 b2 m1 m2 : undoes fn p q b1 m1 -> undoes fn q r b2 m2 -> undoes fn p r (fun rho => b1 (b2 rho)) (m1 ++ m2).
Proof.
  intros A B. constructor.
  - exact (frame_trans _ _ _ (un_frame _ _ _ _ _ A) (un_frame _ _ _ _ _ B)).
  - intros T. exact (un_tame _ _ _ _ _ B (un_tame _ _ _ _ _ A T)).
  - intros T d I. destruct (un_src _ _ _ _ _ B (un_tame _ _ _ _ _ A T) d I) as (d1 & I1 & E1 & L1 & U1). destruct (un_src _ _ _ _ _ A T d1 I1) as (d0 & I0 & E0 & L0 & U0). exists d0. repeat split; try congruence; apply I0.
  - intros T rho x H. rewrite (un_out _ _ _ _ _ A T); [|exact H]. apply (un_out _ _ _ _ _ B (un_tame _ _ _ _ _ A T)). intros d I E. destruct (un_src _ _ _ _ _ A T d I) as (d0 & I0 & E0 & _). apply (H d0 I0). now rewrite E0.
  - intros rho. assert (F1 := un_states _ _ _ _ _ A (b2 rho)). assert (F2 := un_states _ _ _ _ _ B rho). revert F2. generalize (p_states r). induction F1 as [|s s' l l' [N E] F1 IH]; intros l2 F2; inversion F2 as [|? s2 ? l3 [N2 E2] F3]; subst; constructor; [split; congruence|now apply IH].
  - intros l x E. destruct (un_last _ _ _ _ _ A l x E) as (l' & E'). exact (un_last _ _ _ _ _ B l' x E').
  - intros d I T. destruct (un_ci _ _ _ _ _ A d I T) as (d1 & I1 & T1 & E1). destruct (un_ci _ _ _ _ _ B d1 I1 T1) as (d2 & I2 & T2 & E2). exists d2. split; [exact I2|]. split; [exact T2|]. intros rho. now rewrite E2, E1.
  - intros d I T. destruct (un_ct _ _ _ _ _ A d I T) as (d1 & I1 & T1 & E1). destruct (un_ct _ _ _ _ _ B d1 I1 T1) as (d2 & I2 & T2 & E2). exists d2. split; [exact I2|]. split; [exact T2|]. intros rho. now rewrite E2, E1.
  - intros T rho. rewrite (un_cost_i _ _ _ _ _ B (un_tame _ _ _ _ _ A T)). apply (un_cost_i _ _ _ _ _ A T).
  - intros T rho. rewrite (un_cost_p _ _ _ _ _ B (un_tame _ _ _ _ _ A T)). apply (un_cost_p _ _ _ _ _ A T).
  - intros T rho. rewrite (un_cost_t _ _ _ _ _ B (un_tame _ _ _ _ _ A T)). apply (un_cost_t _ _ _ _ _ A T).
  - intros T d I. destruct (un_trig _ _ _ _ _ A T d I) as [W|(d1 & I1 & W1)]; [left; intros rho; apply W|]. destruct (un_trig _ _ _ _ _ B (un_tame _ _ _ _ _ A T) d1 I1) as [W|(d2 & I2 & W2)]; [left; intros rho; apply W1, W|]. right. exists d2. split; [exact I2|]. intros rho H. now apply W1, W2.
  - intros rho W. exact (un_wd _ _ _ _ _ A _ (un_wd _ _ _ _ _ B _ W)).
  - intros d I U. destruct (un_utm _ _ _ _ _ A d I U) as [W|(d1 & I1 & U1 & W1)]; [left; intros rho H; apply W; exact (un_wd _ _ _ _ _ B _ H)|]. destruct (un_utm _ _ _ _ _ B d1 I1 U1) as [W|(d2 & I2 & U2 & W2)]; [left; intros rho H; apply W1, W, H|]. right. exists d2. split; [exact I2|]. split; [exact U2|]. intros rho H. now apply W1, W2.
  - intros T c tm ts s NE ET EY EU EP PP EK IN. assert (TQ := un_tame _ _ _ _ _ A T). destruct (un_frame _ _ _ _ _ A) as (F1 & F2 & F3 & F4 & F5 & F6 & F7). assert (KN : known q = known p) by (apply known_frame; exact (un_frame _ _ _ _ _ A)).
    assert (OUT : forall rho x, In x (known p) -> b2 rho x = rho x) by (intros rho x I; apply (un_out _ _ _ _ _ B TQ); intros d D; apply (tame_known q d x TQ D); now rewrite KN).
    rewrite rev_app_distr. eapply passes_app.
    + apply (un_map _ _ _ _ _ B TQ c tm ts s NE ET); try assumption; try congruence.
      * intros t I. rewrite F3. now apply EK.
      * intros d e D LU. rewrite F1. destruct (un_src _ _ _ _ _ A T d D) as (d0 & D0 & _ & L0 & U0). rewrite <- L0, <- U0 in LU. exact (IN d0 e D0 LU).
    + change (set_u (grid (fun t => b1 (b2 (c t))) (p_controls p) ts) s) with (set_u (grid (fun t => b1 ((fun t => b2 (c t)) t)) (p_controls p) ts) (set_u (grid (fun t => b2 (c t)) (p_controls q) ts) s)).
      apply (un_map _ _ _ _ _ A T (fun t => b2 (c t)) tm ts); try assumption; try reflexivity.
      * cbn [set_u s_y]. rewrite EY. apply grid_ext. intros t x I. symmetry. apply OUT. unfold known. right. apply in_or_app. now left.
      * intros t I. cbn [set_u s_k]. rewrite <- (EK t I). apply map_ext_in. intros x J. apply OUT. unfold known. right. apply in_or_app. now right.
      * intros d e D LU V t I. rewrite OUT by (unfold known; now left). exact (IN d e D LU V t I).
Qed.

Section EpsStep.
  Variable fn : string -> nat -> R -> R.
  Variables (p q : prob) (d : constr) (u : string) (lo up act : expr) (l1 l2 : list constr) (u1 u2 : list string).
  Hypothesis ET : eps_to p q d u lo up act l1 l2 u1 u2.
  Let n := eps_expr lo up (angle u).
  Let back (rho : string -> R) : string -> R := upd rho u (eval fn rho n).

  Lemma es_trig : trig p d.
  Proof. split; [rewrite (et_cp _ _ _ _ _ _ _ _ _ _ _ ET); apply in_or_app; right; now left|]. split; [unfold two_sided; now rewrite (et_lower _ _ _ _ _ _ _ _ _ _ _ ET), (et_upper _ _ _ _ _ _ _ _ _ _ _ ET)|exact (et_method _ _ _ _ _ _ _ _ _ _ _ ET)]. Qed.
  Lemma es_control : In u (p_controls p).
  Proof. rewrite (et_controls _ _ _ _ _ _ _ _ _ _ _ ET). apply in_or_app. right. now left. Qed.
  Lemma es_cp : p_cp q = map (subs_constr u n) (l1 ++ l2).
  Proof. rewrite (et_q _ _ _ _ _ _ _ _ _ _ _ ET). reflexivity. Qed.
  Lemma es_rest d0 : In d0 (l1 ++ l2) -> In d0 (p_cp p).
  Proof. rewrite (et_cp _ _ _ _ _ _ _ _ _ _ _ ET). rewrite !in_app_iff. cbn. tauto. Qed.
  Lemma es_frame : same_frame p q.
  Proof.
    rewrite (et_q _ _ _ _ _ _ _ _ _ _ _ ET). unfold same_frame. cbn. repeat split; try reflexivity.
    - unfold syms. rewrite map_map. now apply map_ext.
    - intros H; rewrite H; reflexivity.
    - intros H; rewrite H; reflexivity.
    - intros H; rewrite H; reflexivity.
  Qed.
  Lemma es_out rho x : x <> u -> back rho x = rho x.
  Proof. intros N. unfold back, upd. destruct (String.eqb_spec u x); congruence. Qed.
  Hypothesis T : tame p.
  Lemma es_known rho x : In x (known p) -> back rho x = rho x.
  Proof. intros K. apply es_out. intros ->. exact (tm_apart p T u es_control K). Qed.
  Lemma es_eval rho e : incl (vars e) (known p) -> eval fn (back rho) e = eval fn rho e.
  Proof. intros I. apply (eval_known fn rho (back rho) e (known p) I). intros x. apply es_known. Qed.
  Lemma es_fresh e : incl (vars e) (known p) -> subst u n e = e.
  Proof. intros I. apply subst_fresh. intros J. exact (tm_apart p T u es_control (I u J)). Qed.
  (** The other bounded controls keep their names. *)
  Lemma es_other d0 : In d0 (l1 ++ l2) -> two_sided d0 = true -> is_method "epstrig" d0 = true -> exists w, c_expr d0 = Var w /\ w <> u.
  Proof.
    intros I T0 M0. destruct (tm_bounded p T d0 (conj (es_rest d0 I) (conj T0 M0))) as (w & E & _). exists w. split; [exact E|]. intros ->.
    assert (S := tm_single p T). rewrite (et_cp _ _ _ _ _ _ _ _ _ _ _ ET), filter_app in S. cbn [filter] in S. destruct es_trig as (_ & TD & MD). rewrite TD, MD in S. cbn [andb] in S. rewrite map_app in S. cbn [map] in S.
    apply NoDup_remove_2 in S. apply S. rewrite <- map_app, <- filter_app. rewrite (et_expr _ _ _ _ _ _ _ _ _ _ _ ET), <- E. apply in_map. apply filter_In. split; [exact I|]. now rewrite T0, M0.
  Qed.
  Lemma es_same d0 : In d0 (l1 ++ l2) -> two_sided d0 = true -> is_method "epstrig" d0 = true -> c_expr (subs_constr u n d0) = c_expr d0 /\ c_lower (subs_constr u n d0) = c_lower d0 /\ c_upper (subs_constr u n d0) = c_upper d0.
  Proof.
    intros I T0 M0. assert (D0 : trig p d0) by (split; [now apply es_rest|now split]). destruct (es_other d0 I T0 M0) as (w & E & N). cbn [subs_constr c_expr c_lower c_upper]. split; [|split].
    - rewrite E. cbn. destruct (String.eqb_spec u w); congruence.
    - destruct (c_lower d0) as [e|] eqn:L; [|reflexivity]. cbn. f_equal. apply es_fresh. apply (tm_bounds p T d0); auto.
    - destruct (c_upper d0) as [e|] eqn:L; [|reflexivity]. cbn. f_equal. apply es_fresh. apply (tm_bounds p T d0); auto.
  Qed.
  Lemma es_src d' : trig q d' -> exists d0, d' = subs_constr u n d0 /\ In d0 (l1 ++ l2) /\ trig p d0 /\ c_expr d0 = c_expr d' /\ c_lower d0 = c_lower d' /\ c_upper d0 = c_upper d'.
  Proof.
    intros (I & T0 & M0). rewrite es_cp in I. apply in_map_iff in I as (d0 & <- & I). rewrite two_sided_subs in T0. assert (M1 : is_method "epstrig" d0 = true) by exact M0. exists d0. split; [reflexivity|]. split; [exact I|]. split; [split; [now apply es_rest|now split]|]. destruct (es_same d0 I T0 M1) as (A & B & C). now rewrite A, B, C.
  Qed.
  Lemma es_tame : tame q.
  Proof.
    assert (KN := known_frame _ _ es_frame). assert (EC : p_controls q = u1 ++ angle u :: u2) by (rewrite (et_q _ _ _ _ _ _ _ _ _ _ _ ET); reflexivity).
    assert (PC := et_controls _ _ _ _ _ _ _ _ _ _ _ ET). assert (EU : c_expr d = Var u) by exact (et_expr _ _ _ _ _ _ _ _ _ _ _ ET).
    assert (NA : ~ In (angle u) (known p ++ p_controls p)) by (destruct (tm_bounded p T d es_trig) as (w & E & _ & N); assert (w = u) by congruence; now subst w).
    rewrite in_app_iff, PC in NA. constructor.
    - rewrite EC. assert (C := tm_controls p T). rewrite PC in C. apply NoDup_remove in C as [C1 C2]. apply (Permutation_NoDup (Permutation_middle u1 u2 (angle u))). constructor; [|exact C1]. intros I. apply NA. right. rewrite in_app_iff in *. cbn. tauto.
    - intros x I. rewrite KN. rewrite EC, in_app_iff in I. cbn in I. destruct I as [I|[<-|I]].
      + apply (tm_apart p T). rewrite PC, in_app_iff. tauto.
      + tauto.
      + apply (tm_apart p T). rewrite PC, in_app_iff. cbn. tauto.
    - intros d' D'. destruct (es_src d' D') as (d0 & -> & I0 & D0 & E0 & _). destruct D0 as (A0 & B0 & C0). destruct (es_other d0 I0 B0 C0) as (w & EW & NW). destruct (tm_bounded p T d0 (conj A0 (conj B0 C0))) as (w' & E' & IW & NW'). assert (w' = w) by congruence. subst w'. exists w. split; [congruence|]. rewrite EC, KN. rewrite PC in IW. rewrite PC in NW'. split.
      + rewrite in_app_iff in *. cbn in *. destruct IW as [|[|]]; [tauto|congruence|tauto].
      + rewrite !in_app_iff in *. cbn in *. intros [H|[H|[H|H]]]; try tauto. apply angle_inj in H. congruence.
    - rewrite es_cp, filter_subs by (intros c; now rewrite two_sided_subs). rewrite map_map. erewrite map_ext_in.
      + assert (S := tm_single p T). rewrite (et_cp _ _ _ _ _ _ _ _ _ _ _ ET), filter_app in S. cbn [filter] in S. destruct es_trig as (_ & TD & MD). rewrite TD, MD in S. cbn [andb] in S. rewrite map_app in S. cbn [map] in S. apply NoDup_remove_1 in S. rewrite <- map_app, <- filter_app in S. exact S.
      + intros d0 I. apply filter_In in I as [I B]. apply andb_prop in B as [B1 B2]. now apply es_same.
    - intros d' a I TD. rewrite KN. assert (exists d0, d' = subs_constr u n d0 /\ In d0 (p_ci p ++ p_cp p ++ p_ct p)) as (d0 & -> & I0).
      { rewrite es_cp in I. rewrite (et_q _ _ _ _ _ _ _ _ _ _ _ ET) in I. change (p_ci (set_maps _ _)) with (map (subs_constr u n) (p_ci p)) in I. change (p_ct (set_maps _ _)) with (map (subs_constr u n) (p_ct p)) in I. rewrite <- !map_app in I. apply in_map_iff in I as (d0 & <- & I). exists d0. split; [reflexivity|]. rewrite in_app_iff in I. rewrite !in_app_iff. destruct I as [I|I]; [tauto|]. rewrite in_app_iff in I. destruct I as [I|I]; [|tauto]. right. left. now apply es_rest. }
      rewrite two_sided_subs in TD. intros EA. exact (tm_acts p T d0 a I0 TD EA).
    - intros d' e D' LU. rewrite KN. destruct (es_src d' D') as (d0 & -> & _ & D0 & _ & L0 & U0). rewrite <- L0, <- U0 in LU. exact (tm_bounds p T d0 e D0 LU).
  Qed.

  Lemma es_fence rho d0 : In d0 (p_ci p ++ p_ct p) -> two_sided d0 = true -> fence fn rho (subs_constr u n d0) = fence fn (back rho) d0.
  Proof.
    intros I T0. unfold fence. cbn [subs_constr c_expr c_lower c_upper c_act]. destruct (c_act d0) as [a|] eqn:EA; [|reflexivity]. destruct (c_lower d0); [|reflexivity]. destruct (c_upper d0); [|reflexivity]. cbn [option_map]. rewrite !eval_subst. fold (back rho). rewrite (es_eval rho a); [reflexivity|]. apply (tm_acts p T d0 a); auto. rewrite !in_app_iff in *. tauto.
  Qed.
  Lemma es_charge rho d0 : In d0 (l1 ++ l2) -> two_sided d0 = true -> charge fn rho (subs_constr u n d0) = charge fn (back rho) d0.
  Proof.
    intros I T0. unfold charge. change (is_method "epstrig" (subs_constr u n d0)) with (is_method "epstrig" d0). change (c_act (subs_constr u n d0)) with (c_act d0). destruct (c_act d0) as [a|] eqn:EA; [|reflexivity].
    assert (AE : eval fn (back rho) a = eval fn rho a). { apply es_eval. apply (tm_acts p T d0 a); auto. rewrite !in_app_iff. right. left. now apply es_rest. } rewrite AE.
    destruct (is_method "epstrig" d0) eqn:M0.
    - destruct (es_same d0 I T0 M0) as (-> & -> & ->). destruct (c_lower d0); [|reflexivity]. destruct (c_upper d0); [|reflexivity]. destruct (es_other d0 I T0 M0) as (w & EW & N). destruct (tm_bounded p T d0 (conj (es_rest d0 I) (conj T0 M0))) as (w' & E' & _ & NW). rewrite EW. assert (E : w' = w) by congruence.
      rewrite es_out; [reflexivity|]. intros A. apply NW. apply in_or_app. right. rewrite E. rewrite A. apply es_control.
    - cbn [subs_constr c_expr c_lower c_upper]. destruct (c_lower d0); [|reflexivity]. destruct (c_upper d0); [|reflexivity]. cbn [option_map]. now rewrite !eval_subst.
  Qed.
End EpsStep.

Lemma trig_loop_grid (f : R -> R -> list R -> list R -> list R -> R) (c c' : R -> string -> R) (tm : R -> R) u1 u2 a u X pp k ts :
  (forall t x, In x u1 \/ In x u2 -> c' t x = c t x) -> (forall t, In t ts -> f (c t a) (tm t) (map (c t) X) pp k = c' t u) ->
  trig_loop f (length u1) pp k (map (fun t => map (c t) (u1 ++ a :: u2)) ts) (combine (map tm ts) (map (fun t => map (c t) X) ts)) = Ok (map (fun t => map (c' t) (u1 ++ u :: u2)) ts).
Proof.
  intros H. induction ts as [|t ts IH]; intros HF; [reflexivity|]. cbn [map combine trig_loop]. unfold get, set_nth. rewrite !map_app. cbn [map].
  rewrite nth_error_app2 by (rewrite map_length; lia). rewrite map_length, Nat.sub_diag. cbn [nth_error bind]. rewrite app_length, map_length. cbn [length]. rewrite (proj2 (Nat.ltb_lt (length u1) (length u1 + S (length (map (c t) u2))))) by lia. cbn [bind].
  rewrite IH by (intros; apply HF; now right). cbn [bind]. f_equal. f_equal. rewrite (HF t (or_introl eq_refl)).
  rewrite <- (map_length (c t) u1) at 1. rewrite firstn_len. f_equal.
  - apply map_ext_in. intros x I. symmetry. apply H. now left.
  - f_equal. rewrite skipn_app. rewrite skipn_all2 by (rewrite map_length; lia). rewrite map_length. replace (S (length u1) - length u1) with 1 by lia. cbn [app skipn]. apply map_ext_in. intros x I. symmetry. apply H. now right.
Qed.

Lemma env_cons1 a N v V x : env (a :: N) (v :: V) x = if String.eqb x a then v else env N V x.
Proof. unfold env. cbn [index_of]. destruct (String.eqb x a); [reflexivity|]. now destruct (index_of x N). Qed.

Lemma eps_undo fn p q d u lo up act l1 l2 u1 u2 : eps_to p q d u lo up act l1 l2 u1 u2 -> forall cc,
  undoes fn p q (fun rho => upd rho u (eval fn rho (eps_expr lo up (angle u)))) (map (build fn cc p q) (skipn (length (p_maps p)) (p_maps q))).
Proof.
  intros ET cc. set (n := eps_expr lo up (angle u)). assert (EQ := et_q _ _ _ _ _ _ _ _ _ _ _ ET). fold n in EQ. assert (TG := es_trig _ _ _ _ _ _ _ _ _ _ _ ET). assert (EU := et_expr _ _ _ _ _ _ _ _ _ _ _ ET).
  assert (CP := et_cp _ _ _ _ _ _ _ _ _ _ _ ET). assert (EL := et_lower _ _ _ _ _ _ _ _ _ _ _ ET). assert (EP := et_upper _ _ _ _ _ _ _ _ _ _ _ ET).
  constructor.
  - exact (es_frame _ _ _ _ _ _ _ _ _ _ _ ET).
  - intros T. exact (es_tame _ _ _ _ _ _ _ _ _ _ _ ET T).
  - intros T d' D'. destruct (es_src _ _ _ _ _ _ _ _ _ _ _ ET T d' D') as (d0 & _ & _ & D0 & A). exists d0. auto.
  - intros _ rho x H. unfold upd. destruct (String.eqb_spec u x) as [E|]; [|reflexivity]. subst x. now destruct (H d TG).
  - intros rho. rewrite EQ. cbn [set_maps subs_all p_states set_quads set_ham set_switches set_quants set_cost_t set_cost_p set_cost_i set_ct set_cp set_ci set_coparams set_costates set_states set_controls]. induction (p_states p) as [|s l IH]; [constructor|]. constructor; [|exact IH]. split; [reflexivity|]. apply eval_subst.
  - intros l x E. exists (map (subs_dyn u n) l). rewrite EQ. change (p_states (set_maps _ _)) with (map (subs_dyn u n) (p_states p)). rewrite E, map_app. reflexivity.
  - intros d0 I T0. exists (subs_constr u n d0). split; [rewrite EQ; apply (in_map (subs_constr u n) (p_ci p) d0 I)|]. split; [now rewrite two_sided_subs|]. intros rho. apply eval_subst.
  - intros d0 I T0. exists (subs_constr u n d0). split; [rewrite EQ; apply (in_map (subs_constr u n) (p_ct p) d0 I)|]. split; [now rewrite two_sided_subs|]. intros rho. apply eval_subst.
  - intros T rho. f_equal; [rewrite EQ; apply eval_subst|]. rewrite EQ. change (p_ci (set_maps _ _)) with (map (subs_constr u n) (p_ci p)). apply sums_subs. intros d0 I T0. apply (es_fence fn _ _ _ _ _ _ _ _ _ _ _ ET T); [apply in_or_app; now left|exact T0].
  - intros T rho. rewrite (es_cp _ _ _ _ _ _ _ _ _ _ _ ET). fold n. rewrite CP, sums_cons by apply TG. rewrite (sums_subs (charge fn rho) (charge fn (upd rho u (eval fn rho n)))) by (intros d0 I T0; exact (es_charge fn _ _ _ _ _ _ _ _ _ _ _ ET T rho d0 I T0)).
    assert (C1 : eval fn rho (p_cost_p q) = (eval fn (upd rho u (eval fn rho n)) (p_cost_p p) + charge fn (upd rho u (eval fn rho n)) d)%R).
    { rewrite EQ. change (p_cost_p (set_maps _ _)) with (subst u n (Add (p_cost_p p) (Mul (Opp act) (Cos (Var (angle u)))))). rewrite eval_subst. unfold charge. rewrite EU, EL, EP, (et_act _ _ _ _ _ _ _ _ _ _ _ ET), (et_method _ _ _ _ _ _ _ _ _ _ _ ET). reflexivity. }
    rewrite C1. ring.
  - intros T rho. f_equal; [rewrite EQ; apply eval_subst|]. rewrite EQ. change (p_ct (set_maps _ _)) with (map (subs_constr u n) (p_ct p)). apply sums_subs. intros d0 I T0. apply (es_fence fn _ _ _ _ _ _ _ _ _ _ _ ET T); [apply in_or_app; now right|exact T0].
  - intros T d0 D0. assert (I0 := proj1 D0). rewrite CP in I0. assert (I1 : d0 = d \/ In d0 (l1 ++ l2)) by (rewrite in_app_iff in *; cbn in I0; intuition congruence). destruct I1 as [->|I1].
    + left. intros rho. exists u, lo, up. split; [exact EU|]. split; [exact EL|]. split; [exact EP|].
      assert (X1 := es_eval fn _ _ _ _ _ _ _ _ _ _ _ ET T rho lo (tm_bounds p T d lo TG (or_introl EL))). assert (X2 := es_eval fn _ _ _ _ _ _ _ _ _ _ _ ET T rho up (tm_bounds p T d up TG (or_intror EP))). fold n in X1, X2. rewrite X1, X2.
      unfold upd. rewrite String.eqb_refl. unfold n. rewrite eps_expr_value. apply bounded_control_range.
    + right. destruct D0 as (A0 & B0 & C0). destruct (es_same _ _ _ _ _ _ _ _ _ _ _ ET T d0 I1 B0 C0) as (E1 & E2 & E3). exists (subs_constr u n d0). split.
      * split; [rewrite (es_cp _ _ _ _ _ _ _ _ _ _ _ ET); now apply in_map|]. split; [now rewrite two_sided_subs|exact C0].
      * intros rho (w & lo' & up' & F1 & F2 & F3 & W). fold n in E1, E2, E3. rewrite E1 in F1. rewrite E2 in F2. rewrite E3 in F3. exists w, lo', up'. split; [exact F1|]. split; [exact F2|]. split; [exact F3|]. assert (D0 : trig p d0) by now split.
        assert (X1 := es_eval fn _ _ _ _ _ _ _ _ _ _ _ ET T rho lo' (tm_bounds p T d0 lo' D0 (or_introl F2))). assert (X2 := es_eval fn _ _ _ _ _ _ _ _ _ _ _ ET T rho up' (tm_bounds p T d0 up' D0 (or_intror F3))). fold n in X1, X2. rewrite X1, X2.
        destruct (es_other _ _ _ _ _ _ _ _ _ _ _ ET T d0 I1 B0 C0) as (w2 & E4 & N4). assert (X3 : upd rho u (eval fn rho n) w = rho w) by (apply (es_out fn u lo up rho w); congruence). now rewrite X3.
  - intros rho W. rewrite EQ in W. change (p_cost_p (set_maps _ _)) with (subst u n (Add (p_cost_p p) (Mul (Opp act) (Cos (Var (angle u)))))) in W. apply wd_subst_inv in W. exact (proj1 W).
  - intros d0 I0 US. right. exists (subs_constr u n d0). rewrite CP in I0. assert (I1 : In d0 (l1 ++ l2)).
    { assert (N : d0 <> d) by (intros ->; apply andb_prop in US as [US _]; destruct TG as (_ & _ & M); unfold is_method in *; apply String.eqb_eq in US, M; congruence). rewrite in_app_iff in *. cbn in I0. intuition congruence. }
    split; [rewrite (es_cp _ _ _ _ _ _ _ _ _ _ _ ET); now apply in_map|]. split; [unfold utm_sel; rewrite two_sided_subs; exact US|].
    intros rho (lo' & up' & F1 & F2 & W1 & W2 & W3 & W4 & W5). cbn [subs_constr c_lower c_upper c_expr] in *. destruct (c_lower d0) as [lo0|] eqn:F3; [|discriminate]. destruct (c_upper d0) as [up0|] eqn:F4; [|discriminate]. cbn in F1, F2. injection F1 as <-. injection F2 as <-. repeat rewrite eval_subst in W1. repeat rewrite eval_subst in W2. exists lo0, up0. split; [exact F3|]. split; [exact F4|]. split; [exact W1|]. split; [exact W2|]. split; [|split]; now apply wd_subst_inv.
  - intros T c tm ts s NE EST ESY ESU ESP PP EK IN.
    assert (EC : p_controls q = u1 ++ angle u :: u2) by (rewrite EQ; reflexivity). assert (PC := et_controls _ _ _ _ _ _ _ _ _ _ _ ET). assert (ND := tm_controls p T). rewrite PC in ND.
    assert (EM : p_maps q = p_maps p ++ [TEpsTrig (length u1) lo up]) by (rewrite EQ; reflexivity). rewrite EM, skipn_len. cbn [map rev app build]. eapply passes_cons; [|apply passes_nil]. cbn [apply_inv]. unfold trig_apply, with_mapper.
    rewrite EST, ESY, ESU, ESP. unfold grid. cbn [arows].
    assert (LP := trig_loop_grid (eps_bwd fn q lo up) c (fun t => upd (c t) u (eval fn (c t) n)) tm u1 u2 (angle u) u (syms (p_states p)) [] (s_k s) ts).
    assert (H1 : forall t x, In x u1 \/ In x u2 -> upd (c t) u (eval fn (c t) n) x = c t x).
    { intros t x I. unfold upd. destruct (String.eqb_spec u x) as [<-|]; [|reflexivity]. exfalso. apply NoDup_remove_2 in ND. apply ND. apply in_or_app. exact I. }
    assert (H2 : forall t, In t ts -> eps_bwd fn q lo up (c t (angle u)) (tm t) (map (c t) (syms (p_states p))) [] (s_k s) = upd (c t) u (eval fn (c t) n) u).
    { intros t I. unfold upd. rewrite String.eqb_refl. unfold n. rewrite eps_expr_value. unfold eps_bwd, bounded_control.
      assert (AT : forall e, c_lower d = Some e \/ c_upper d = Some e -> eps_at fn q e (tm t) (map (c t) (syms (p_states p))) [] (s_k s) = eval fn (c t) e).
      { intros e LU. assert (IV := tm_bounds p T d e TG LU). unfold eps_at, eps_args. destruct (es_frame _ _ _ _ _ _ _ _ _ _ _ ET) as (F1 & F2 & F3 & F4 & _). rewrite F1, F2, F3, F4, PP. cbn [app]. apply eval_ext. intros x J. rewrite env_cons1. destruct (String.eqb_spec x (p_ind p)) as [ ->|N].
        - exact (IN d e TG LU J t I).
        - rewrite <- (EK t I), <- map_app. apply env_map. destruct (IV x J) as [E|K]; [congruence|exact K]. }
      rewrite !AT by auto. reflexivity. }
    specialize (LP H1 H2). rewrite EC, PC. destruct ts as [|t ts]; [now destruct NE|]. cbn [map combine] in LP |- *. rewrite LP. cbn [bind]. rewrite !app_length. reflexivity.
Qed.

Lemma penalty_barrier fn rho a e lo up : eval fn rho (utm_penalty a e lo up) = barrier (eval fn rho a) (eval fn rho lo) (eval fn rho up) (eval fn rho e).
Proof. unfold utm_penalty, barrier, Sub, Div. cbn [eval]. unfold Rdiv, Rminus. reflexivity. Qed.
Lemma penalty_clear fn rho a e lo up : wd fn rho (utm_penalty a e lo up) -> (eval fn rho up - eval fn rho lo <> 0)%R /\ cos (PI / 2 * (2 * eval fn rho e - eval fn rho up - eval fn rho lo) / (eval fn rho up - eval fn rho lo)) <> 0%R /\ wd fn rho e /\ wd fn rho lo /\ wd fn rho up.
Proof. unfold utm_penalty, Sub, Div. cbn [wd eval]. unfold Rdiv, Rminus. tauto. Qed.
Lemma utm_not_eps d : utm_sel d = true -> two_sided d = true /\ is_method "epstrig" d = false.
Proof. intros H. apply andb_prop in H as [M T]. split; [exact T|]. unfold is_method in *. apply String.eqb_eq in M. rewrite M. reflexivity. Qed.

(** Removing a UTM constraint changes nothing that EpsTrig looks at. *)
Lemma ut_trig p q d a lo up l1 l2 : utm_to p q d a lo up l1 l2 -> utm_sel d = true -> forall d0, trig q d0 <-> trig p d0.
Proof.
  intros U S d0. destruct (utm_not_eps d S) as [TS ME]. unfold trig. destruct U as [E ->|E ->|E ->]; try reflexivity. change (p_cp (set_cp _ _)) with (l1 ++ l2). rewrite E, !in_app_iff. cbn. split; [tauto|]. intros (I & T & M). split; [|tauto]. destruct I as [I|[I|I]]; [tauto| |tauto]. subst d0. congruence.
Qed.
Lemma ut_sub p q d a lo up l1 l2 : utm_to p q d a lo up l1 l2 -> forall d0, In d0 (p_ci q ++ p_cp q ++ p_ct q) -> In d0 (p_ci p ++ p_cp p ++ p_ct p).
Proof. intros U d0. destruct U as [E ->|E ->|E ->]; cbn; rewrite E, !in_app_iff; cbn; tauto. Qed.
Lemma ut_frame p q d a lo up l1 l2 : utm_to p q d a lo up l1 l2 -> same_frame p q /\ p_controls q = p_controls p /\ p_states q = p_states p.
Proof. intros U. destruct U as [E ->|E ->|E ->]; split; try (split; reflexivity); unfold same_frame; cbn; auto 10. Qed.
Lemma ut_tame p q d a lo up l1 l2 : utm_to p q d a lo up l1 l2 -> utm_sel d = true -> tame p -> tame q.
Proof.
  intros U S T. destruct (ut_frame _ _ _ _ _ _ _ _ U) as (F & EC & _). assert (KN := known_frame _ _ F). assert (TR := ut_trig _ _ _ _ _ _ _ _ U S). constructor.
  - rewrite EC. apply T.
  - rewrite EC, KN. apply T.
  - intros d0 D0. rewrite EC, KN. apply (tm_bounded p T). now apply TR.
  - assert (TS := tm_single p T). destruct (utm_not_eps d S) as [TD ME]. destruct U as [E ->|E ->|E ->]; try exact TS. change (p_cp (set_cp _ _)) with (l1 ++ l2). rewrite E, filter_app in TS. cbn [filter] in TS. rewrite TD, ME in TS. rewrite filter_app. exact TS.
  - intros d0 e I. rewrite KN. apply (tm_acts p T d0). exact (ut_sub _ _ _ _ _ _ _ _ U d0 I).
  - intros d0 e D0. rewrite KN. apply (tm_bounds p T d0). now apply TR.
Qed.
Lemma two_rest {A} (d0 d : A) l1 l2 : In d0 (l1 ++ d :: l2) -> d0 = d \/ In d0 (l1 ++ l2).
Proof. rewrite !in_app_iff. cbn. intuition congruence. Qed.
Lemma utm_undo fn p q d a lo up l1 l2 : utm_to p q d a lo up l1 l2 -> utm_sel d = true -> c_act d = Some (Var a) -> c_lower d = Some lo -> c_upper d = Some up -> forall cc,
  undoes fn p q (fun rho => rho) (map (build fn cc p q) (skipn (length (p_maps p)) (p_maps q))).
Proof.
  intros U S EA EL EP cc. destruct (ut_frame _ _ _ _ _ _ _ _ U) as (F & EC & ES). assert (TR := ut_trig _ _ _ _ _ _ _ _ U S). destruct (utm_not_eps d S) as [TD ME].
  assert (FE : forall rho, fence fn rho d = eval fn rho (utm_penalty (Var a) (c_expr d) lo up)) by (intros rho; rewrite penalty_barrier; unfold fence; rewrite EA, EL, EP; reflexivity).
  assert (CE : forall rho, charge fn rho d = eval fn rho (utm_penalty (Var a) (c_expr d) lo up)) by (intros rho; rewrite penalty_barrier; unfold charge; rewrite EA, EL, EP, ME; reflexivity).
  constructor.
  - exact F.
  - exact (ut_tame _ _ _ _ _ _ _ _ U S).
  - intros T d' D'. exists d'. split; [now apply TR|auto].
  - reflexivity.
  - intros rho. rewrite ES. clear. induction (p_states p); constructor; auto.
  - intros l x E. exists l. now rewrite ES.
  - intros d0 I T0. exists d0. split; [|split; [exact T0|reflexivity]]. destruct U as [E ->|E ->|E ->]; try exact I. change (p_ci (set_ci _ _)) with (l1 ++ l2). rewrite E in I. destruct (two_rest _ _ _ _ I) as [ ->|]; [congruence|assumption].
  - intros d0 I T0. exists d0. split; [|split; [exact T0|reflexivity]]. destruct U as [E ->|E ->|E ->]; try exact I. change (p_ct (set_ct _ _)) with (l1 ++ l2). rewrite E in I. destruct (two_rest _ _ _ _ I) as [ ->|]; [congruence|assumption].
  - intros _ rho. destruct U as [E ->|E ->|E ->]; try reflexivity. cbn [p_cost_i p_ci set_ci set_maps set_cost_i]. rewrite E, sums_cons by exact TD. rewrite FE. cbn [eval]. ring.
  - intros _ rho. destruct U as [E ->|E ->|E ->]; try reflexivity. cbn [p_cost_p p_cp set_cp set_maps set_cost_p]. rewrite E, sums_cons by exact TD. rewrite CE. cbn [eval]. ring.
  - intros _ rho. destruct U as [E ->|E ->|E ->]; try reflexivity. cbn [p_cost_t p_ct set_ct set_maps set_cost_t]. rewrite E, sums_cons by exact TD. rewrite FE. cbn [eval]. ring.
  - intros _ d0 D0. right. exists d0. split; [now apply TR|auto].
  - intros rho W. destruct U as [E ->|E ->|E ->]; try exact W. exact (proj1 W).
  - intros d0 I US. destruct U as [E ->|E ->|E ->]; try (right; exists d0; now auto). change (p_cp (set_cp _ _)) with (l1 ++ l2). rewrite E in I. destruct (two_rest _ _ _ _ I) as [ ->|J]; [left|right; exists d0; now auto].
    intros rho W. exists lo, up. split; [exact EL|]. split; [exact EP|]. exact (penalty_clear fn rho (Var a) (c_expr d) lo up (proj2 W)).
  - intros T c tm ts s NE EST ESY ESU ESP PP EK IN. rewrite EC in ESU. assert (E : set_u (grid (fun t => c t) (p_controls p) ts) s = s) by (destruct s; cbn in ESU; subst; reflexivity). rewrite E.
    assert (EM : p_maps q = p_maps p ++ [TIdentity]) by (destruct U as [_ ->|_ ->|_ ->]; reflexivity). rewrite EM, skipn_len. cbn [map rev app build]. eapply passes_cons; [reflexivity|apply passes_nil].
Qed.

(** The whole stage. *)
Lemma stage_undo lu solve fn sm fs : Forall (fun f => f = FEps \/ f = FUtm) fs -> forall p q ms, run_chain fn sm lu solve fs p = Ok (q, ms) -> exists back, undoes fn p q back ms.
Proof.
  induction 1 as [|f fs IS _ IH]; intros p q ms RC.
  - cbn in RC. apply Ok_inj in RC. injection RC as <- <-. eexists. apply undo_nil.
  - cbn [run_chain] in RC. destruct (apply_tf lu solve f p) as [p1|] eqn:AT; [|discriminate]. cbn [bind] in RC. destruct (run_chain fn sm lu solve fs p1) as [[q' m2]|] eqn:RS; [|discriminate]. cbn [bind fst snd] in RC. apply Ok_inj in RC. injection RC as <- <-.
    destruct (IH p1 q' m2 RS) as (b2 & B2). destruct IS as [ ->| ->]; cbn [apply_tf] in AT.
    + destruct (eps_full p p1 AT) as (d & u & lo & up & act & l1 & l2 & u1 & u2 & ET). eexists. exact (undo_comp fn _ _ _ _ _ _ _ (eps_undo fn _ _ _ _ _ _ _ _ _ _ _ ET sm) B2).
    + destruct (utm_full p p1 AT) as (d & a & lo & up & l1 & l2 & U & S & EA & _ & EL & EP). eexists. exact (undo_comp fn _ _ _ _ _ _ _ (utm_undo fn _ _ _ _ _ _ _ _ U S EA EL EP sm) B2).
Qed.
