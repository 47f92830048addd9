(** Switches put in by hand: the problem in which every switch is replaced by its
    smoothed function, and the functors on it (C95). *)
From Coq Require Import Reals Lra Lia.
From Verif Require Import Base Base_Facts Sym_Expr Sym_Facts Sym_Model Sym_Spec Sym_RecSub Sym_Quant Sym_Switch Sym_Dual Sym_Constr.
From Verif Require Import Map_Model Chain_Model.
From Verif Require Import Sym_Model.
Open Scope nat_scope.

Definition plug_dyn (l : list (string * expr)) (s : string * expr) : string * expr := (fst s, subst_seq l (snd s)).
Definition plug_constr (l : list (string * expr)) (c : constr) : constr :=
  mkConstr (subst_seq l (c_expr c)) (option_map (subst_seq l) (c_lower c)) (option_map (subst_seq l) (c_upper c)) (c_act c) (c_method c).
Definition plug (l : list (string * expr)) (p : prob) : prob :=
  mkProb (p_ind p) (map (plug_dyn l) (p_states p)) (map (plug_dyn l) (p_costates p)) (p_params p) (map (plug_dyn l) (p_coparams p)) (p_controls p) (p_law p)
    (map (plug_constr l) (p_ci p)) (map (plug_constr l) (p_cp p)) (map (plug_constr l) (p_ct p)) (p_cpars p) (p_cadj p)
    (subst_seq l (p_cost_i p)) (subst_seq l (p_cost_p p)) (subst_seq l (p_cost_t p)) (p_consts p) [] [] (map (plug_dyn l) (p_quads p)) (option_map (subst_seq l) (p_ham p))
    (p_maps p) (p_symp p) (p_dual p).
(** The problem without its switches and quantities. *)
Definition bare (p : prob) : prob := set_quants (set_switches p []) [].

(** The replacements the loop of RASHS makes. *)
Fixpoint swaps (n k : nat) (sws : list switch) : list (string * expr) :=
  match n with
  | O => []
  | S n' =>
      match nth_error sws k with
      | Some s => match sw_sym s with
                  | Some f => (sw_name s, f) :: swaps n' (S k) (map (subs_switch (sw_name s) f) sws)
                  | None => swaps n' (S k) sws
                  end
      | None => swaps n' (S k) sws
      end
  end.
Definition unswitched (p : prob) : prob := plug (swaps (length (p_switches p)) 0 (p_switches p)) p.

Lemma plug_nil p : plug [] p = bare p.
Proof.
  assert (D : forall l : list (string * expr), map (plug_dyn []) l = l) by (intros l; rewrite (map_ext _ (fun s => s)); [apply map_id|intros []; reflexivity]).
  assert (C : forall l : list constr, map (plug_constr []) l = l).
  { intros l. rewrite (map_ext _ (fun s => s)); [apply map_id|]. intros [e lo up a m]. unfold plug_constr. cbn. destruct lo, up; reflexivity. }
  unfold plug, bare. destruct p. cbn -[plug_dyn plug_constr]. rewrite !D, !C. destruct p_ham; reflexivity.
Qed.
Lemma plug_subs x n l p : plug l (subs_all x n p) = plug ((x, n) :: l) p.
Proof.
  assert (D : forall a : list (string * expr), map (plug_dyn l) (map (subs_dyn x n) a) = map (plug_dyn ((x, n) :: l)) a) by (intros a; rewrite map_map; reflexivity).
  assert (C : forall a : list constr, map (plug_constr l) (map (subs_constr x n) a) = map (plug_constr ((x, n) :: l)) a).
  { intros a. rewrite map_map. apply map_ext. intros [e lo up c m]. unfold plug_constr, subs_constr. cbn. destruct lo, up; reflexivity. }
  unfold plug, subs_all. destruct p. cbn -[plug_dyn plug_constr subs_dyn subs_constr]. rewrite !D, !C. destruct p_ham; reflexivity.
Qed.
Lemma plug_loop : forall n k p, bare (fold_left rashs_at (seq k n) p) = plug (swaps n k (p_switches p)) p.
Proof.
  induction n as [|n IH]; intros k p; cbn [seq fold_left swaps]; [now rewrite plug_nil|]. unfold rashs_at at 2.
  destruct (nth_error (p_switches p) k) as [s|]; [|apply IH]. destruct (sw_sym s) as [f|]; [|apply IH].
  rewrite IH, plug_subs. reflexivity.
Qed.
Lemma unsw_rashs p q : rashs p = Ok q -> bare q = unswitched p.
Proof. unfold rashs. destruct (p_symp p); [|discriminate]. intros H. apply Ok_inj in H. subst q. apply plug_loop. Qed.

(** ** Functors do not look at switches and quantities *)
Definition over_bare (r : res prob) : res prob := match r with Ok q => Ok (bare q) | Raise e => Raise e end.
Lemma bare_momentum_shift  p : momentum_shift None (bare p) = over_bare (momentum_shift None p).
Proof.
  unfold momentum_shift. change (p_symp (bare p)) with (p_symp p). destruct (p_symp p); reflexivity.
Qed.
Lemma bare_eps_trig  p : eps_trig (bare p) = over_bare (eps_trig p).
Proof.
  unfold eps_trig. change (p_symp (bare p)) with (p_symp p). destruct (p_symp p); [|reflexivity].
    change (p_cp (bare p)) with (p_cp p). destruct (find_at _ _) as [[k c]|]; [|reflexivity]. destruct (c_expr c); try reflexivity.
    change (p_controls (set_cp (bare p) (remove_at k (p_cp p)))) with (p_controls (set_cp p (remove_at k (p_cp p)))).
    destruct (index_of _ _); [|reflexivity]. destruct (set_nth _ _ _); [|reflexivity]. cbn [bind].
    destruct (c_act c), (c_lower c), (c_upper c); reflexivity.
Qed.
Lemma bare_utm  p : utm (bare p) = over_bare (utm p).
Proof.
  unfold utm. change (p_symp (bare p)) with (p_symp p). destruct (p_symp p); [|reflexivity].
    change (p_ci (bare p)) with (p_ci p). change (p_cp (bare p)) with (p_cp p). change (p_ct (bare p)) with (p_ct p).
    destruct (find_at _ _) as [[k c]|].
    { change (utm_term (bare p) c) with (utm_term p c). destruct (utm_term p c); reflexivity. }
    destruct (find_at utm_sel (p_cp p)) as [[k c]|].
    { change (utm_term (bare p) c) with (utm_term p c). destruct (utm_term p c); reflexivity. }
    destruct (find_at utm_sel (p_ct p)) as [[k c]|]; [|reflexivity].
    change (utm_term (bare p) c) with (utm_term p c). destruct (utm_term p c); reflexivity.
Qed.
Lemma bare_start p : dual_start (bare p) = bare (dual_start p).
Proof. destruct p. reflexivity. Qed.
Lemma bare_traditional h p : costates_traditional h (bare p) = bare (costates_traditional h p).
Proof. destruct p. reflexivity. Qed.
Lemma bare_diffyg lu h p : costates_diffyg lu h (bare p) = over_bare (costates_diffyg lu h p).
Proof.
  unfold costates_diffyg. change (Sym_Model.p_states (bare p)) with (Sym_Model.p_states p). change (p_params (bare p)) with (p_params p). change (p_costates (bare p)) with (p_costates p). change (p_coparams (bare p)) with (p_coparams p).
  destruct (negb _); [reflexivity|]. destruct (ham_field _ _ _ _); reflexivity. Qed.
Lemma bare_finish h p : dual_finish h (bare p) = bare (dual_finish h p).
Proof. destruct p. reflexivity. Qed.
Lemma bare_dualize lu (method : string) p : dualize lu method (bare p) = over_bare (dualize lu method p).
Proof.
  unfold dualize. change (p_symp (bare p)) with (p_symp p). change (dual_ham (bare p)) with (dual_ham p). rewrite bare_start, bare_traditional, bare_diffyg.
  generalize (dual_ham p) as h. generalize (dual_start p) as q. intros q h. destruct (p_symp p); [|reflexivity].
  destruct (String.eqb (lower method) "traditional"); [cbn [bind over_bare]; now rewrite bare_finish|].
  destruct (String.eqb (lower method) "diffyg"); [|cbn [bind over_bare]; now rewrite bare_finish].
  destruct (costates_diffyg lu h q); cbn [bind over_bare]; [now rewrite bare_finish|reflexivity].
Qed.
Lemma bare_algebraic_control solve p : algebraic_control solve (bare p) = over_bare (algebraic_control solve p).
Proof.
  unfold algebraic_control. change (p_dual (bare p)) with (p_dual p). change (p_ham (bare p)) with (p_ham p). destruct (p_dual p); [|reflexivity]. destruct (p_ham p); reflexivity.
Qed.
Lemma bare_differential_control lu (method : string) p : differential_control lu method (bare p) = over_bare (differential_control lu method p).
Proof.
  unfold differential_control. change (p_dual (bare p)) with (p_dual p). change (p_ham (bare p)) with (p_ham p). destruct (p_dual p); [|reflexivity]. destruct (p_ham p) as [h|]; [|reflexivity].
    change (p_states (bare p)) with (p_states p). change (p_costates (bare p)) with (p_costates p). change (p_controls (bare p)) with (p_controls p).
    destruct (lu _ _) as [ud|]; [|reflexivity]. cbn [bind]. destruct (String.eqb (lower method) "traditional"); [reflexivity|]. destruct (String.eqb (lower method) "diffyg"); [|reflexivity].
    match goal with |- (if ?b then _ else _) = over_bare (if ?c then _ else _) => change b with c; destruct c end; [reflexivity|].
    match goal with |- bind ?b _ = over_bare (bind ?c _) => change b with c; destruct c end; reflexivity.
Qed.
Lemma bare_normalize_time  p : normalize_time None (bare p) = over_bare (normalize_time None p).
Proof.
  unfold normalize_time. change (p_symp (bare p)) with (p_symp p). destruct (p_symp p); reflexivity.
Qed.
Lemma bare_step lu solve f p : f <> FRashs -> apply_tf lu solve f (bare p) = over_bare (apply_tf lu solve f p).
Proof.
  intros NR. destruct f; cbn [apply_tf]; [apply bare_momentum_shift|apply bare_eps_trig|apply bare_utm|contradiction|apply bare_dualize|apply bare_algebraic_control|apply bare_differential_control|apply bare_normalize_time|reflexivity|reflexivity].
Qed.

(** ** Replacements commute *)
Lemma subst_swap x f u n e : x <> u -> ~ In x (vars n) -> subst x (subst u n f) (subst u n e) = subst u n (subst x f e).
Proof.
  intros XU XN. induction e as [z| |y|a IHa b IHb|a IHa b IHb|a IHa|a IHa|a IHa|a IHa|a IHa|g k a IHa]; cbn [subst]; try congruence.
  destruct (String.eqb_spec u y) as [ ->|UY].
  - destruct (String.eqb_spec x y) as [E|_]; [contradiction|]. cbn [subst]. rewrite String.eqb_refl. now apply subst_fresh.
  - cbn [subst]. destruct (String.eqb_spec x y) as [_|XY]; [reflexivity|]. cbn [subst]. destruct (String.eqb_spec u y); [contradiction|reflexivity].
Qed.
Definition turned (u : string) (n : expr) (l : list (string * expr)) : list (string * expr) := map (fun xf => (fst xf, subst u n (snd xf))) l.
Lemma seq_swap u n : forall l e, (forall x, In x (map fst l) -> x <> u /\ ~ In x (vars n)) -> subst_seq (turned u n l) (subst u n e) = subst u n (subst_seq l e).
Proof.
  unfold subst_seq. induction l as [|[x f] l IH]; intros e H; [reflexivity|]. cbn [turned map fold_left fst snd].
  destruct (H x (or_introl eq_refl)) as (A & B). rewrite subst_swap by assumption. apply IH. intros y I. apply H. now right.
Qed.
Lemma swaps_turned u n : forall m k sws, Forall (fun s => sw_sym s <> None) sws -> (forall x, In x (map sw_name sws) -> x <> u /\ ~ In x (vars n)) ->
  swaps m k (map (subs_switch u n) sws) = turned u n (swaps m k sws).
Proof.
  induction m as [|m IH]; intros k sws SY H; [reflexivity|]. cbn [swaps]. rewrite nth_error_map.
  destruct (nth_error sws k) as [s|] eqn:E; cbn [option_map]; [|now apply IH].
  assert (IS := nth_error_In _ _ E). assert (SS := SY). rewrite Forall_forall in SS. assert (NN := SS s IS).
  rewrite sw_name_subs. unfold subs_switch at 1. destruct (sw_sym s) as [f|] eqn:ES; [|contradiction]. cbn [sw_sym]. rewrite ES. cbn [option_map turned map fst snd]. f_equal.
  match goal with |- ?a = map _ ?X => change (a = turned u n X) end.
  destruct (H (sw_name s)) as (A & B); [now apply in_map|].
  rewrite <- IH.
  - f_equal. rewrite !map_map. apply map_ext_in. intros a IA. assert (NA := SS a IA). unfold subs_switch. destruct (sw_sym a) as [g|] eqn:EA; [|contradiction].
    cbn. rewrite ?EA. cbn. now rewrite subst_swap.
  - apply Forall_forall. intros a IA. apply in_map_iff in IA as (b & <- & IB). unfold subs_switch. destruct (sw_sym b) eqn:EB; [|now apply SS in IB]. cbn. rewrite EB. cbn. discriminate.
  - intros x I. apply H. rewrite map_map in I. rewrite (map_ext _ sw_name) in I; [exact I|]. intros a. apply sw_name_subs.
Qed.
Lemma swaps_names : forall m k sws x, In x (map fst (swaps m k sws)) -> In x (map sw_name sws).
Proof.
  induction m as [|m IH]; intros k sws x I; [contradiction|]. cbn [swaps] in I. destruct (nth_error sws k) as [s|] eqn:E; [|now apply IH in I].
  destruct (sw_sym s) as [f|]; [|now apply IH in I]. destruct I as [I|I]; [cbn [fst] in I; subst x; apply in_map; now apply nth_error_In in E|].
  apply IH in I. rewrite map_map in I. rewrite (map_ext _ sw_name) in I; [exact I|]. intros a. apply sw_name_subs.
Qed.

Lemma seq_cst l z : subst_seq l (Cst z) = Cst z.
Proof. unfold subst_seq. induction l; [reflexivity|assumption]. Qed.
Lemma seq_pi l : subst_seq l Pi = Pi.
Proof. unfold subst_seq. induction l; [reflexivity|assumption]. Qed.
Lemma seq_add l : forall a b, subst_seq l (Add a b) = Add (subst_seq l a) (subst_seq l b).
Proof. unfold subst_seq. induction l as [|y l IH]; intros a b; [reflexivity|apply IH]. Qed.
Lemma seq_mul l : forall a b, subst_seq l (Mul a b) = Mul (subst_seq l a) (subst_seq l b).
Proof. unfold subst_seq. induction l as [|y l IH]; intros a b; [reflexivity|apply IH]. Qed.
Lemma seq_opp l : forall a, subst_seq l (Opp a) = Opp (subst_seq l a).
Proof. unfold subst_seq. induction l as [|y l IH]; intros a; [reflexivity|apply IH]. Qed.
Lemma seq_inv l : forall a, subst_seq l (Inv a) = Inv (subst_seq l a).
Proof. unfold subst_seq. induction l as [|y l IH]; intros a; [reflexivity|apply IH]. Qed.
Lemma seq_cos l : forall a, subst_seq l (Cos a) = Cos (subst_seq l a).
Proof. unfold subst_seq. induction l as [|y l IH]; intros a; [reflexivity|apply IH]. Qed.
Lemma seq_fresh l : forall e, (forall x, In x (map fst l) -> ~ In x (vars e)) -> subst_seq l e = e.
Proof. unfold subst_seq. induction l as [|[y f] l IH]; intros e H; [reflexivity|]. cbn [fold_left fst snd]. rewrite subst_fresh; [|apply H; now left]. apply IH. intros x I. apply H. now right. Qed.

Lemma plug_turned u n l p : (forall x, In x (map fst l) -> x <> u /\ ~ In x (vars n)) -> plug (turned u n l) (subs_all u n p) = subs_all u n (plug l p).
Proof.
  intros H. assert (E : forall e, subst_seq (turned u n l) (subst u n e) = subst u n (subst_seq l e)) by (intros e; now apply seq_swap).
  assert (D : forall a : list (string * expr), map (plug_dyn (turned u n l)) (map (subs_dyn u n) a) = map (subs_dyn u n) (map (plug_dyn l) a)).
  { intros a. rewrite !map_map. apply map_ext. intros [x e]. unfold plug_dyn, subs_dyn. cbn [fst snd]. now rewrite E. }
  assert (C : forall a : list constr, map (plug_constr (turned u n l)) (map (subs_constr u n) a) = map (subs_constr u n) (map (plug_constr l) a)).
  { intros a. rewrite !map_map. apply map_ext. intros [e lo up c m]. unfold plug_constr, subs_constr. cbn [c_expr c_lower c_upper c_act c_method]. f_equal; [apply E| |]; [destruct lo|destruct up]; cbn [option_map]; now rewrite ?E. }
  unfold plug, subs_all. destruct p. cbn -[plug_dyn plug_constr subs_dyn subs_constr subst_seq]. rewrite !D, !C, !E. destruct p_ham; cbn [option_map]; now rewrite ?E.
Qed.

(** ** Lists of constraints *)
Lemma find_map {A B} (g : A -> B) (f : B -> bool) (h : A -> bool) l : (forall a, f (g a) = h a) ->
  find_at f (map g l) = match find_at h l with Some (k, a) => Some (k, g a) | None => None end.
Proof.
  intros H. induction l as [|a l IH]; [reflexivity|]. cbn [map find_at]. rewrite H. destruct (h a); [reflexivity|]. rewrite IH. destruct (find_at h l) as [[k b]|]; reflexivity.
Qed.
Lemma remove_map {A B} (g : A -> B) : forall l k, remove_at k (map g l) = map g (remove_at k l).
Proof. induction l as [|a l IH]; intros [|k]; try reflexivity. cbn [map remove_at]. now rewrite IH. Qed.
Lemma plug_method m l c : is_method m (plug_constr l c) = is_method m c.
Proof. reflexivity. Qed.
Lemma plug_sides l c : two_sided (plug_constr l c) = two_sided c.
Proof. unfold two_sided. destruct c as [e [lo|] [up|] a m]; reflexivity. Qed.
Lemma plug_sel l c : utm_sel (plug_constr l c) = utm_sel c.
Proof. unfold utm_sel. now rewrite plug_method, plug_sides. Qed.
Lemma find_in {A} (f : A -> bool) : forall l k a, find_at f l = Some (k, a) -> In a l /\ f a = true.
Proof.
  induction l as [|b l IH]; intros k a E; [discriminate|]. cbn in E. destruct (f b) eqn:EB; [injection E as _ <-; split; [now left|exact EB]|].
  destruct (find_at f l) as [[j c]|]; [|discriminate]. injection E as _ <-. destruct (IH j c eq_refl). split; [now right|assumption].
Qed.
Lemma remove_in {A} : forall (l : list A) k a, In a (remove_at k l) -> In a l.
Proof. induction l as [|b l IH]; intros [|k] a I; cbn in I; try contradiction; [now right|]. destruct I as [ <-|I]; [now left|right; eauto]. Qed.

(** ** Names of switches *)
(** Switches have their own names; bounds and activators do not mention them. *)
Record settled (p : prob) : Prop := mkSettled {
  st_sym : Forall (fun s => sw_sym s <> None) (p_switches p);
  st_controls : forall x, In x (map sw_name (p_switches p)) -> ~ In x (p_controls p);
  st_consts : forall x, In x (map sw_name (p_switches p)) -> ~ In x (p_consts p);
  st_plain : forall x s, In x (map sw_name (p_switches p)) -> x <> ("_" ++ s)%string;
  st_bounds : forall d, In d (p_cp p) -> is_method "epstrig" d = true -> forall e x, c_lower d = Some e \/ c_upper d = Some e \/ c_act d = Some e -> In x (map sw_name (p_switches p)) -> ~ In x (vars e) }.

Lemma unsw_momentum p q : settled p -> momentum_shift None p = Ok q -> settled q /\ momentum_shift None (unswitched p) = Ok (unswitched q).
Proof.
  intros [A B C D E] H. unfold momentum_shift in *. change (p_symp (unswitched p)) with (p_symp p). destruct (p_symp p); [|discriminate]. apply Ok_inj in H. subst q.
  split; [constructor; assumption|]. f_equal. unfold unswitched. set (l := swaps _ _ _). change (swaps _ _ _) with l.
  assert (E1 : map (plug_dyn l) (p_states p ++ [(p_ind p, Cst 1)]) = map (plug_dyn l) (p_states p) ++ [(p_ind p, Cst 1)]) by (rewrite map_app; cbn [map]; unfold plug_dyn at 2; cbn [fst snd]; now rewrite seq_cst).
  unfold plug. cbn -[plug_dyn plug_constr swaps app length]. rewrite E1. rewrite !app_length, map_length. reflexivity.
Qed.

Lemma unsw_utm p q : settled p -> utm p = Ok q -> settled q /\ utm (unswitched p) = Ok (unswitched q).
Proof.
  intros [A B C D E] H. unfold unswitched. set (l := swaps _ _ _).
  assert (NL : forall x, In x (map fst l) -> In x (map sw_name (p_switches p))) by (intros x; apply swaps_names).
  assert (TM : forall c t, utm_term p c = Ok t -> utm_term (plug l p) (plug_constr l c) = Ok (subst_seq l t)).
  { intros c t. unfold utm_term. change (c_act (plug_constr l c)) with (c_act c). change (p_consts (plug l p)) with (p_consts p). destruct (c_act c) as [[| |a| | | | | | | |]|]; try discriminate.
    destruct (mem a (p_consts p)) eqn:MA; [|discriminate]. unfold plug_constr. cbn [c_lower c_upper c_expr]. destruct (c_lower c) as [lo|]; [|discriminate]. destruct (c_upper c) as [up|]; [|discriminate].
    intros Q. apply Ok_inj in Q. subst t. cbn [option_map]. f_equal. unfold utm_penalty, Div, Sub.
    rewrite ?seq_mul, ?seq_add, ?seq_opp, ?seq_mul, ?seq_inv, ?seq_cos, ?seq_mul, ?seq_add, ?seq_opp, ?seq_inv, ?seq_mul, ?seq_add, ?seq_opp, ?seq_mul, ?seq_inv, ?seq_cst, ?seq_pi.
    rewrite (seq_fresh l (Var a)); [reflexivity|]. intros x I [ <-|[]]. apply (C a (NL a I)). apply existsb_exists in MA as (b & IB & EB). apply String.eqb_eq in EB. now subst b. }
  unfold utm in *. change (p_symp (plug l p)) with (p_symp p). destruct (p_symp p); [|discriminate].
  change (p_ci (plug l p)) with (map (plug_constr l) (p_ci p)). change (p_cp (plug l p)) with (map (plug_constr l) (p_cp p)). change (p_ct (plug l p)) with (map (plug_constr l) (p_ct p)).
  rewrite !(find_map (plug_constr l) utm_sel utm_sel) by (intros; apply plug_sel).
  destruct (find_at utm_sel (p_ci p)) as [[k c]|].
  { destruct (utm_term p c) as [t|] eqn:ET; [|discriminate]. cbn [bind] in *. apply Ok_inj in H. subst q. rewrite (TM c t ET). cbn [bind].
    split; [constructor; assumption|]. f_equal. change (p_switches _) with (p_switches p). change (swaps _ _ _) with l. unfold plug. cbn -[plug_dyn plug_constr swaps app length subst_seq]. now rewrite remove_map, seq_add. }
  destruct (find_at utm_sel (p_cp p)) as [[k c]|].
  { destruct (utm_term p c) as [t|] eqn:ET; [|discriminate]. cbn [bind] in *. apply Ok_inj in H. subst q. rewrite (TM c t ET). cbn [bind].
    split; [constructor; try assumption; intros d I; apply E; exact (remove_in _ _ _ I)|]. f_equal. change (p_switches _) with (p_switches p). change (swaps _ _ _) with l. unfold plug. cbn -[plug_dyn plug_constr swaps app length subst_seq]. now rewrite remove_map, seq_add. }
  destruct (find_at utm_sel (p_ct p)) as [[k c]|]; [|discriminate].
  destruct (utm_term p c) as [t|] eqn:ET; [|discriminate]. cbn [bind] in *. apply Ok_inj in H. subst q. rewrite (TM c t ET). cbn [bind].
  split; [constructor; assumption|]. f_equal. change (p_switches _) with (p_switches p). change (swaps _ _ _) with l. unfold plug. cbn -[plug_dyn plug_constr swaps app length subst_seq]. now rewrite remove_map, seq_add.
Qed.

Lemma set_nth_in {A} : forall (l : list A) i v l', set_nth l i v = Ok l' -> forall x, In x l' -> x = v \/ In x l.
Proof.
  intros l i v l' H x I. unfold set_nth in H. destruct (Nat.ltb i (length l)); [|discriminate]. apply Ok_inj in H. subst l'. apply in_app_iff in I as [I|[ <-|I]]; [right|now left|right].
  - rewrite <- (firstn_skipn i l). apply in_app_iff. now left.
  - rewrite <- (firstn_skipn (S i) l). apply in_app_iff. now right.
Qed.
Lemma subs_switch_names u n sws : map sw_name (map (subs_switch u n) sws) = map sw_name sws.
Proof. rewrite map_map. apply map_ext. intros a. apply sw_name_subs. Qed.

Lemma unsw_eps p q : settled p -> eps_trig p = Ok q -> settled q /\ eps_trig (unswitched p) = Ok (unswitched q) /\
  exists i lo up, p_maps q = p_maps p ++ [TEpsTrig i lo up].
Proof.
  intros [A B C D E] H. unfold unswitched. set (l := swaps _ _ _).
  assert (NL : forall x, In x (map fst l) -> In x (map sw_name (p_switches p))) by (intros x; apply swaps_names).
  unfold eps_trig in *. change (p_symp (plug l p)) with (p_symp p). destruct (p_symp p); [|discriminate].
  change (p_cp (plug l p)) with (map (plug_constr l) (p_cp p)). rewrite (find_map (plug_constr l) (is_method "epstrig") (is_method "epstrig")) by reflexivity.
  destruct (find_at (is_method "epstrig") (p_cp p)) as [[k c]|] eqn:EF; [|discriminate]. destruct (find_in _ _ _ _ EF) as (IC & MC).
  cbv zeta in H |- *. unfold plug_constr at 1. cbn [c_expr]. destruct (c_expr c) as [| |u| | | | | | | |]; try discriminate.
  destruct (index_of u (p_controls (set_cp p (remove_at k (p_cp p))))) as [i|] eqn:EI; [|discriminate].
  assert (IU : In u (p_controls p)) by (apply index_of_nth in EI; exact (nth_error_In _ _ EI)).
  rewrite (seq_fresh l (Var u)); [|intros x I [ <-|[]]; exact (B u (NL u I) IU)].
  change (p_controls (set_cp (plug l p) (remove_at k (map (plug_constr l) (p_cp p))))) with (p_controls (set_cp p (remove_at k (p_cp p)))). rewrite EI.
  destruct (set_nth _ i _) as [cs|] eqn:ES; [|discriminate]. cbn [bind] in *. unfold plug_constr at 1 2 3. cbn [c_act c_lower c_upper].
  destruct (c_act c) as [act|] eqn:EA; [|discriminate]. destruct (c_lower c) as [lo|] eqn:EL; [|discriminate]. destruct (c_upper c) as [up|] eqn:EU; [|discriminate]. cbn [option_map].
  rewrite (seq_fresh l lo) by (intros x I; apply (E c IC MC lo x); [now left|now apply NL]). rewrite (seq_fresh l up) by (intros x I; apply (E c IC MC up x); [right; now left|now apply NL]).
  set (nu := ("_" ++ u ++ "_trig")%string) in *. set (n := eps_expr lo up nu) in *. apply Ok_inj in H.
  assert (NN : forall x, In x (map sw_name (p_switches p)) -> ~ In x (vars n)).
  { intros x I J. unfold n, eps_expr, Div, Sub in J. cbn in J. rewrite !in_app_iff in J. cbn in J.
    assert (~ In x (vars lo)) by (apply (E c IC MC lo x); [now left|assumption]). assert (~ In x (vars up)) by (apply (E c IC MC up x); [right; now left|assumption]).
    assert (nu <> x) by (intros Q; symmetry in Q; revert Q; apply D; assumption). fold nu in J. tauto. }
  assert (NU : forall x, In x (map fst l) -> x <> u /\ ~ In x (vars n)) by (intros x I; apply NL in I; split; [intros ->; exact (B u I IU)|now apply NN]).
  assert (SW : p_switches q = map (subs_switch u n) (p_switches p)) by (subst q; reflexivity).
  split; [|split].
  - constructor.
    + rewrite SW. apply Forall_forall. intros a IA. apply in_map_iff in IA as (b & <- & IB). rewrite Forall_forall in A. unfold subs_switch. destruct (sw_sym b) eqn:EB; [|now apply A in IB]. cbn. rewrite EB. cbn. discriminate.
    + rewrite SW, subs_switch_names. subst q. intros x I J. change (In x cs) in J. destruct (set_nth_in _ _ _ _ ES x J) as [ ->|J']; [now apply (D nu (u ++ "_trig")%string) in I|]. exact (B x I J').
    + rewrite SW, subs_switch_names. subst q. exact C.
    + rewrite SW, subs_switch_names. exact D.
    + rewrite SW, subs_switch_names. subst q. intros d I M e x H J. change (In d (map (subs_constr u n) (remove_at k (p_cp p)))) in I. apply in_map_iff in I as (d0 & <- & I). apply remove_in in I.
      change (is_method "epstrig" d0 = true) in M. cbn [c_lower c_upper c_act subs_constr] in H.
      assert (V : forall e0, ~ In x (vars e0) -> ~ In x (vars (subst u n e0))) by (intros e0 Q1 Q2; apply vars_subst_iff in Q2; assert (Q3 := NN x J); tauto).
      destruct H as [H|[H|H]].
      * destruct (c_lower d0) as [e0|] eqn:E0; [|discriminate]. injection H as <-. apply V. apply (E d0 I M e0 x); [left; exact E0|exact J].
      * destruct (c_upper d0) as [e0|] eqn:E0; [|discriminate]. injection H as <-. apply V. apply (E d0 I M e0 x); [right; left; exact E0|exact J].
      * apply (E d0 I M e x); [right; right; exact H|exact J].
  - f_equal. rewrite SW, map_length. rewrite swaps_turned; [|exact A|intros x I; split; [intros ->; exact (B u I IU)|now apply NN]]. fold l. subst q.
    set (p2 := set_cost_p _ _). 
    assert (P2 : plug l (set_cost_p (set_controls (set_cp p (remove_at k (p_cp p))) cs) (Add (p_cost_p (set_cp p (remove_at k (p_cp p)))) (Mul (Opp act) (Cos (Var nu))))) = p2).
    { assert (FT : subst_seq l (Mul (Opp act) (Cos (Var nu))) = Mul (Opp act) (Cos (Var nu))).
      { rewrite seq_mul, seq_opp, seq_cos. rewrite (seq_fresh l act) by (intros x I; apply (E c IC MC act x); [right; right; assumption|now apply NL]).
        rewrite (seq_fresh l (Var nu)); [reflexivity|]. intros x I [ <-|[]]. now apply (D nu (u ++ "_trig")%string (NL nu I)). }
      unfold p2. rewrite <- FT at 2. generalize (Mul (Opp act) (Cos (Var nu))). intros t. unfold plug. cbn -[plug_dyn plug_constr swaps app length subst_seq]. now rewrite remove_map, seq_add. }
    rewrite <- P2, <- (plug_turned u n l) by exact NU. reflexivity.
  - exists i, lo, up. subst q. reflexivity.
Qed.

(** ** The chain *)
Lemma unsw_names p : syms (p_states (unswitched p)) = syms (p_states p).
Proof. unfold unswitched, plug, syms. cbn [Sym_Model.p_states]. rewrite map_map. now apply map_ext. Qed.
Definition early (f : tf) : Prop := f = FMomentum \/ f = FEps \/ f = FUtm.
Lemma unsw_step fn sm lu solve f p q : early f -> settled p -> apply_tf lu solve f p = Ok q ->
  settled q /\ apply_tf lu solve f (unswitched p) = Ok (unswitched q) /\
  map (build fn sm (unswitched p) (unswitched q)) (skipn (length (p_maps p)) (p_maps q)) = map (build fn sm p q) (skipn (length (p_maps p)) (p_maps q)).
Proof.
  intros [ ->|[ ->| ->]] S H; cbn [apply_tf] in *.
  - destruct (unsw_momentum p q S H) as (A & B). split; [exact A|]. split; [exact B|]. unfold momentum_shift in H. destruct (p_symp p); [|discriminate]. apply Ok_inj in H. subst q.
    cbn [p_maps set_maps set_ind set_states]. rewrite skipn_app, skipn_all, Nat.sub_diag. reflexivity.
  - destruct (unsw_eps p q S H) as (A & B & i & lo & up & EM). split; [exact A|]. split; [exact B|]. rewrite EM, skipn_app, skipn_all, Nat.sub_diag. cbn [skipn app map build].
    assert (EA : eps_args (unswitched q) = eps_args q) by (unfold eps_args; rewrite unsw_names; reflexivity). unfold eps_fwd, eps_bwd, eps_at. rewrite EA. reflexivity.
  - destruct (unsw_utm p q S H) as (A & B). split; [exact A|]. split; [exact B|].
    assert (EM : p_maps q = p_maps p ++ [TIdentity]).
    { unfold utm in H. destruct (p_symp p); [|discriminate]. destruct (find_at _ _) as [[k c]|]; [destruct (utm_term p c); [|discriminate]; apply Ok_inj in H; now subst q|].
      destruct (find_at _ (p_cp p)) as [[k c]|]; [destruct (utm_term p c); [|discriminate]; apply Ok_inj in H; now subst q|].
      destruct (find_at _ (p_ct p)) as [[k c]|]; [destruct (utm_term p c); [|discriminate]; apply Ok_inj in H; now subst q|discriminate]. }
    rewrite EM, skipn_app, skipn_all, Nat.sub_diag. reflexivity.
Qed.
Lemma unsw_early fn sm lu solve : forall fs rest p p' ms, Forall early fs -> settled p -> run_chain fn sm lu solve (fs ++ rest) p = Ok (p', ms) ->
  exists q ms1 ms2, run_chain fn sm lu solve fs p = Ok (q, ms1) /\ run_chain fn sm lu solve fs (unswitched p) = Ok (unswitched q, ms1) /\ settled q /\
    run_chain fn sm lu solve rest q = Ok (p', ms2) /\ ms = ms1 ++ ms2.
Proof.
  induction fs as [|f fs IH]; intros rest p p' ms F S H; cbn [app run_chain] in *.
  - exists p, [], ms. split; [reflexivity|]. split; [reflexivity|]. split; [exact S|]. split; [exact H|reflexivity].
  - assert (EF : early f) by (inversion F; assumption). assert (FF : Forall early fs) by (inversion F; assumption).
    destruct (apply_tf lu solve f p) as [q|] eqn:E; [|discriminate]. cbn [bind] in *. destruct (run_chain fn sm lu solve (fs ++ rest) q) as [[a m]|] eqn:ER; [|discriminate]. cbn [bind fst snd] in H. apply Ok_inj in H.
    destruct (unsw_step fn sm lu solve f p q EF S E) as (SQ & ES & EB). destruct (IH rest q a m FF SQ ER) as (r & m1 & m2 & R1 & R2 & SR & R3 & ->).
    exists r, (map (build fn sm p q) (skipn (length (p_maps p)) (p_maps q)) ++ m1), m2. rewrite R1, ES. cbn [bind fst snd]. rewrite R2. cbn [bind fst snd].
    change (p_maps (unswitched p)) with (p_maps p). change (p_maps (unswitched q)) with (p_maps q). rewrite EB. injection H as <- <-. rewrite <- app_assoc. split; [reflexivity|]. split; [reflexivity|]. split; [exact SR|]. split; [exact R3|reflexivity].
Qed.
Lemma bare_build fn sm p q t : build fn sm (bare p) (bare q) t = build fn sm p q t.
Proof. destruct t; reflexivity. Qed.
Lemma bare_run fn sm lu solve : forall fs p p' ms, ~ In FRashs fs -> run_chain fn sm lu solve fs p = Ok (p', ms) -> run_chain fn sm lu solve fs (bare p) = Ok (bare p', ms).
Proof.
  induction fs as [|f fs IH]; intros p p' ms NR H; cbn [run_chain] in *; [apply Ok_inj in H; now injection H as <- <-|].
  rewrite bare_step by (intros ->; apply NR; now left). destruct (apply_tf lu solve f p) as [q|]; [|discriminate]. cbn [bind over_bare] in *.
  destruct (run_chain fn sm lu solve fs q) as [[a m]|] eqn:ER; [|discriminate]. cbn [bind fst snd] in H. apply Ok_inj in H. injection H as <- <-.
  rewrite (IH q a m) by (assumption || (intros I; apply NR; now right)). cbn [bind fst snd]. change (p_maps (bare p)) with (p_maps p). change (p_maps (bare q)) with (p_maps q).
  rewrite (map_ext _ _ (bare_build fn sm p q)). reflexivity.
Qed.
Lemma unsw_constraints l : forall cs, constraint_tfs (map (plug_constr l) cs) = constraint_tfs cs.
Proof. induction cs as [|c cs IH]; [reflexivity|]. cbn [map constraint_tfs]. rewrite plug_sides, !plug_method, IH. reflexivity. Qed.
Lemma constraint_early : forall cs l, constraint_tfs cs = Ok l -> Forall early l.
Proof.
  induction cs as [|c cs IH]; intros l H; cbn [constraint_tfs] in H; [apply Ok_inj in H; subst; constructor|].
  destruct (two_sided c); [|auto]. destruct (is_method "epstrig" c).
  - destruct (constraint_tfs cs) as [r|]; [|discriminate]. apply Ok_inj in H. subst l. constructor; [right; now left|auto].
  - destruct (is_method "utm" c); [|discriminate]. destruct (constraint_tfs cs) as [r|]; [|discriminate]. apply Ok_inj in H. subst l. constructor; [right; now right|auto].
Qed.
