(** Which names the expressions of a problem mention, step by step (C99). *)
From Coq Require Import Reals Lia.
From Verif Require Import Base Base_Facts Sym_Expr Sym_Facts Sym_Model Sym_Dual Swi_Proofs.
From Verif Require Import Sym_Model.
Open Scope string_scope.
Open Scope list_scope.
Open Scope nat_scope.

(** [e] mentions only names in [A]. *)
Definition only (A : string -> Prop) (e : expr) : Prop := forall x, In x (vars e) -> A x.
Definition only_constr (A : string -> Prop) (c : constr) : Prop :=
  only A (c_expr c) /\ forall e, c_lower c = Some e \/ c_upper c = Some e -> only A e.
(** Equations of motion and path cost, constraints and switches mention only names in [D]; end costs and end conditions only names in [B]. *)
Record lines (D B : string -> Prop) (p : prob) : Prop := mkLines {
  ln_dyn : forall s, In s (p_states p ++ p_costates p ++ p_coparams p ++ p_quads p) -> only D (snd s);
  ln_cost_p : only D (p_cost_p p);
  ln_cost_i : only B (p_cost_i p);
  ln_cost_t : only B (p_cost_t p);
  ln_cp : forall c, In c (p_cp p) -> only_constr D c;
  ln_ends : forall c, In c (p_ci p ++ p_ct p) -> only_constr B c;
  ln_act : forall c a, In c (p_ci p ++ p_cp p ++ p_ct p) -> c_act c = Some a -> only (fun x => In x (p_consts p)) a;
  ln_sw : forall s f, In s (p_switches p) -> sw_sym s = Some f -> only D f;
  ln_sym : forall s, In s (p_switches p) -> sw_sym s <> None;
  ln_ham : forall h, p_ham p = Some h -> only D h }.

(** Arguments of the functions evaluated along the trajectory, and at its ends. *)
Definition along (p : prob) (x : string) : Prop :=
  In x (syms (p_states p)) \/ In x (syms (p_costates p)) \/ In x (p_controls p) \/ In x (p_params p) \/ In x (p_consts p).
Definition at_ends (p : prob) (x : string) : Prop :=
  along p x \/ In x (syms (p_quads p)) \/ In x (syms (p_coparams p)) \/ In x (p_cpars p) \/ In x (p_cadj p).

Lemma only_mono (A B : string -> Prop) e : only A e -> (forall x, A x -> B x) -> only B e.
Proof. intros H K x I. apply K, H, I. Qed.
Lemma only_subst (A B : string -> Prop) x n e : only A e -> (forall y, A y -> y <> x -> B y) -> only B n -> only B (subst x n e).
Proof. intros H K N y I. apply vars_subst_iff in I as [(_ & I)|(I & E)]; [now apply N|apply K; [now apply H|exact E]]. Qed.
Lemma only_diff A x e : only A e -> only A (diff x e).
Proof. intros H y I. apply H. now apply (vars_diff x e). Qed.
Lemma only_add A a b : only A a -> only A b -> only A (Add a b).
Proof. intros H K y I. cbn in I. apply in_app_iff in I as [I|I]; auto. Qed.
Lemma only_mul A a b : only A a -> only A b -> only A (Mul a b).
Proof. intros H K y I. cbn in I. apply in_app_iff in I as [I|I]; auto. Qed.
Lemma only_opp A a : only A a -> only A (Opp a).
Proof. intros H y I. exact (H y I). Qed.
Lemma only_inv A a : only A a -> only A (Inv a).
Proof. intros H y I. exact (H y I). Qed.
Lemma only_cos A a : only A a -> only A (Cos a).
Proof. intros H y I. exact (H y I). Qed.
Lemma only_sin A a : only A a -> only A (Sin a).
Proof. intros H y I. exact (H y I). Qed.
Lemma only_var (A : string -> Prop) x : A x -> only A (Var x).
Proof. intros H y [ <-|[]]. exact H. Qed.
Lemma only_cst A z : only A (Cst z).
Proof. intros y []. Qed.
Lemma only_pi A : only A Pi.
Proof. intros y []. Qed.
Lemma only_sum A c l : only A c -> (forall e, In e l -> only A e) -> only A (Sum c l).
Proof. intros H K y I. apply vars_Sum in I as [I|(e & J & I)]; [now apply H|exact (K e J y I)]. Qed.
Global Hint Resolve only_diff only_add only_mul only_opp only_inv only_cos only_sin only_cst only_pi : names.
Lemma only_sub A a b : only A a -> only A b -> only A (Sub a b).
Proof. unfold Sub. auto with names. Qed.
Lemma only_div A a b : only A a -> only A b -> only A (Div a b).
Proof. unfold Div. auto with names. Qed.
Global Hint Resolve only_sub only_div : names.
Lemma only_constr_mono (A B : string -> Prop) c : only_constr A c -> (forall x, A x -> B x) -> only_constr B c.
Proof. intros (H & K) M. split; [now apply (only_mono A)|]. intros e E. apply (only_mono A); [now apply K|exact M]. Qed.
Lemma only_plain A e : only A e -> only_constr A (plain e).
Proof. intros H. split; [exact H|]. intros a [E|E]; discriminate E. Qed.

Lemma lines_mono (D B D' B' : string -> Prop) p : lines D B p -> (forall x, D x -> D' x) -> (forall x, B x -> B' x) -> lines D' B' p.
Proof.
  intros [A1 A2 A3 A4 A5 A6 A7 A8 A9 A10] HD HB. constructor; try assumption.
  - intros s I. apply (only_mono D); auto.
  - apply (only_mono D); auto.
  - apply (only_mono B); auto.
  - apply (only_mono B); auto.
  - intros c I. apply (only_constr_mono D); auto.
  - intros c I. apply (only_constr_mono B); auto.
  - intros s f I E. apply (only_mono D); [exact (A8 s f I E)|auto].
  - intros h E. apply (only_mono D); [exact (A10 h E)|auto].
Qed.
Lemma only_subs_constr (A B : string -> Prop) x n c : only_constr A c -> (forall y, A y -> y <> x -> B y) -> only B n -> only_constr B (subs_constr x n c).
Proof.
  intros (H & K) M N. split; [now apply (only_subst A)|]. intros e E. unfold subs_constr in E. cbn [c_lower c_upper] in E.
  destruct E as [E|E]; [destruct (c_lower c) as [a|] eqn:F|destruct (c_upper c) as [a|] eqn:F]; try discriminate E; cbn in E; injection E as <-; apply (only_subst A); auto.
Qed.
Lemma lines_subs (D B D' B' : string -> Prop) x n p : lines D B p -> (forall y, D y -> y <> x -> D' y) -> (forall y, B y -> y <> x -> B' y) -> (forall y, D' y -> B' y) -> only D' n ->
  lines D' B' (subs_all x n p).
Proof.
  intros [A1 A2 A3 A4 A5 A6 A7 A8 A9 A10] HD HB DB N. assert (NB : only B' n) by (now apply (only_mono D')). constructor;
    unfold subs_all; cbn [set_states set_costates set_coparams set_ci set_cp set_ct set_cost_i set_cost_p set_cost_t set_quants set_switches set_ham set_quads
      Sym_Model.p_states p_costates p_coparams p_quads p_cost_p p_cost_i p_cost_t p_cp p_ci p_ct p_switches p_ham p_consts].
  - rewrite <- !map_app. intros s I. apply in_map_iff in I as (b & <- & I). apply (only_subst D); [exact (A1 b I)|exact HD|exact N].
  - now apply (only_subst D).
  - now apply (only_subst B).
  - now apply (only_subst B).
  - intros c I. apply in_map_iff in I as (b & <- & I). now apply (only_subs_constr D); [apply A5| |].
  - rewrite <- map_app. intros c I. apply in_map_iff in I as (b & <- & I). now apply (only_subs_constr B); [apply A6| |].
  - rewrite <- !map_app. intros c a I E. apply in_map_iff in I as (b & <- & I). exact (A7 b a I E).
  - intros s f I E. apply in_map_iff in I as (b & <- & I). assert (NN := A9 b I). unfold subs_switch in E. destruct (sw_sym b) as [g|] eqn:EG; [|now elim NN]. cbn [sw_sym] in E. rewrite EG in E. cbn in E. injection E as <-.
    apply (only_subst D); [exact (A8 b g I EG)|exact HD|exact N].
  - intros s I. apply in_map_iff in I as (b & <- & I). assert (NN := A9 b I). unfold subs_switch. destruct (sw_sym b) as [g|] eqn:EG; [|now elim NN]. cbn [sw_sym]. rewrite EG. discriminate.
  - intros h E. destruct (p_ham p) as [g|] eqn:EG; [|discriminate E]. cbn in E. injection E as <-. apply (only_subst D); [exact (A10 g eq_refl)|exact HD|exact N].
Qed.

(** ** Before Dualize *)
(** Names the user may write: arguments, switches and [A]. *)
Definition declared_along (A : string -> Prop) (p : prob) (x : string) : Prop := along p x \/ A x.
Definition declared_ends (A : string -> Prop) (p : prob) (x : string) : Prop := at_ends p x \/ A x.
(** Bounds of trigonometric constraints mention neither controls nor switches nor
    generated names. *)
Definition still (p : prob) : Prop := forall c e x, In c (p_cp p) -> is_method "epstrig" c = true -> c_lower c = Some e \/ c_upper c = Some e -> In x (vars e) ->
  ~ In x (p_controls p) /\ ~ In x (map sw_name (p_switches p)) /\ forall s, x <> ("_" ++ s)%string.
(** Switches are defined through switches of lower rank only; their names are not
    generated ones. *)
Record ranked (rank : string -> nat) (p : prob) : Prop := mkRanked {
  rk_less : forall s f y, In s (p_switches p) -> sw_sym s = Some f -> In y (vars f) -> In y (map sw_name (p_switches p)) -> rank y < rank (sw_name s);
  rk_plain : forall y s, In y (map sw_name (p_switches p)) -> y <> ("_" ++ s)%string }.
Record ready (rank : string -> nat) (A : string -> Prop) (p : prob) : Prop := mkReady {
  rd_lines : lines (declared_along A p) (declared_ends A p) p; rd_still : still p; rd_ranked : ranked rank p;
  rd_fresh : p_costates p = [] /\ p_coparams p = [] /\ p_cadj p = [] }.

Lemma ready_momentum rank (A A' : string -> Prop) p q : ready rank A p -> (forall x, A x -> A' x \/ x = p_ind p) -> momentum_shift None p = Ok q -> ready rank A' q.
Proof.
  intros [[A1 A2 A3 A4 A5 A6 A7 A8 A9 A10] ST [R1 R2] FR] HA H. unfold momentum_shift in H. destruct (p_symp p); [|discriminate]. apply Ok_inj in H. subst q.
  set (q := set_maps _ _).
  assert (HD : forall x, declared_along A p x -> declared_along A' q x).
  { intros x [H|H].
    - left. unfold along in *. cbn. unfold syms. rewrite map_app, in_app_iff. tauto.
    - destruct (HA x H) as [K|K]; [now right|]. left. left. cbn. unfold syms. rewrite map_app, in_app_iff. right. now left. }
  assert (HB : forall x, declared_ends A p x -> declared_ends A' q x).
  { intros x [[H|H]|H].
    - destruct (HD x (or_introl H)) as [K|K]; [left; now left|now right].
    - left. right. exact H.
    - destruct (HD x (or_intror H)) as [K|K]; [left; now left|now right]. }
  constructor; [|exact ST|now constructor|exact FR].
  apply (lines_mono (declared_along A p) (declared_ends A p)); [|exact HD|exact HB]. constructor; try assumption.
  cbn. intros s I. rewrite <- app_assoc in I. apply in_app_iff in I as [I|I]; [apply A1; apply in_app_iff; now left|]. cbn [app] in I. destruct I as [ <-|I]; [apply only_cst|]. apply A1. apply in_app_iff. now right.
Qed.

Lemma in_remove {A} (l : list A) k a : In a (remove_at k l) -> In a l.
Proof. apply remove_in. Qed.
Lemma only_penalty A a e lo up : only A a -> only A e -> only A lo -> only A up -> only A (utm_penalty a e lo up).
Proof. intros. unfold utm_penalty. auto 12 with names. Qed.
Lemma utm_term_only A p c t : utm_term p c = Ok t -> only_constr A c -> (forall x, In x (p_consts p) -> A x) -> only A t.
Proof.
  unfold utm_term. intros H (E & K) C. destruct (c_act c) as [[]|]; try discriminate H. destruct (mem x (p_consts p)) eqn:M; [|discriminate]. destruct (c_lower c) as [lo|] eqn:EL; [|discriminate]. destruct (c_upper c) as [up|] eqn:EU; [|discriminate].
  apply Ok_inj in H. subst t. apply only_penalty; [apply only_var, C; now apply mem_In|exact E|apply K; now left|apply K; now right].
Qed.
Lemma ready_utm rank A p q : ready rank A p -> utm p = Ok q -> ready rank A q.
Proof.
  intros [[A1 A2 A3 A4 A5 A6 A7 A8 A9 A10] ST [R1 R2] FR] H. unfold utm in H. destruct (p_symp p); [|discriminate].
  assert (CD : forall x, In x (p_consts p) -> declared_along A p x) by (intros x I; left; unfold along; tauto).
  assert (CB : forall x, In x (p_consts p) -> declared_ends A p x) by (intros x I; left; left; unfold along; tauto).
  destruct (find_at utm_sel (p_ci p)) as [(k, c)|] eqn:F1; [|destruct (find_at utm_sel (p_cp p)) as [(k, c)|] eqn:F2; [|destruct (find_at utm_sel (p_ct p)) as [(k, c)|] eqn:F3; [|discriminate]]];
    destruct (utm_term p c) as [t|] eqn:T; try discriminate; cbn [bind] in H; apply Ok_inj in H; subst q.
  - apply find_in in F1 as (I & _). assert (OT := utm_term_only _ p c t T (A6 c (in_or_app _ _ _ (or_introl I))) CB).
    constructor; [|exact ST|now constructor|exact FR]. apply (lines_mono (declared_along A p) (declared_ends A p)); [|auto|auto]. constructor; try assumption; cbn.
    + auto with names.
    + intros d J. apply A6. rewrite in_app_iff in *. destruct J as [J|J]; [left; now apply in_remove in J|now right].
    + intros d a J. apply A7. rewrite in_app_iff in *. destruct J as [J|J]; [left; now apply in_remove in J|now right].
  - apply find_in in F2 as (I & _). assert (OT := utm_term_only _ p c t T (A5 c I) CD).
    constructor; [|intros d e x J; exact (ST d e x (in_remove _ _ _ J))|now constructor|exact FR]. apply (lines_mono (declared_along A p) (declared_ends A p)); [|auto|auto]. constructor; try assumption; cbn.
    + auto with names.
    + intros d J. apply A5. now apply in_remove in J.
    + intros d a J. apply A7. rewrite !in_app_iff in *. destruct J as [J|[J|J]]; [now left|right; left; now apply in_remove in J|now do 2 right].
  - apply find_in in F3 as (I & _). assert (OT := utm_term_only _ p c t T (A6 c (in_or_app _ _ _ (or_intror I))) CB).
    constructor; [|exact ST|now constructor|exact FR]. apply (lines_mono (declared_along A p) (declared_ends A p)); [|auto|auto]. constructor; try assumption; cbn.
    + auto with names.
    + intros d J. apply A6. rewrite in_app_iff in *. destruct J as [J|J]; [now left|right; now apply in_remove in J].
    + intros d a J. apply A7. rewrite !in_app_iff in *. destruct J as [J|[J|J]]; [now left|right; now left|do 2 right; now apply in_remove in J].
Qed.

Lemma nth_first {A} (l : list A) : forall i j, j < i -> nth_error (firstn i l) j = nth_error l j.
Proof. induction l as [|a l IH]; intros [|i] [|j] H; cbn; try reflexivity; try lia. apply IH. lia. Qed.
Lemma nth_skip {A} (l : list A) : forall i j, nth_error (skipn i l) j = nth_error l (i + j).
Proof. induction l as [|a l IH]; intros [|i] j; cbn; try reflexivity; [now destruct j|apply IH]. Qed.
Lemma set_nth_keeps (l l' : list string) i u v : index_of u l = Ok i -> set_nth l i v = Ok l' -> In v l' /\ forall y, In y l -> y <> u -> In y l'.
Proof.
  intros HI H. apply index_of_nth in HI. unfold set_nth in H. destruct (Nat.ltb i (length l)) eqn:LT; [|discriminate]. apply Ok_inj in H. subst l'. split.
  - apply in_app_iff. right. now left.
  - intros y I N. apply In_nth_error in I as (j & J). apply in_app_iff. destruct (Nat.lt_trichotomy j i) as [L|[E|L]].
    + left. apply (nth_error_In _ j). now rewrite nth_first.
    + subst j. congruence.
    + right. right. apply (nth_error_In _ (j - S i)). rewrite nth_skip. replace (S i + (j - S i)) with j by lia. exact J.
Qed.

Lemma lines_maps D B p m : lines D B p -> lines D B (set_maps p m).
Proof. intros [A1 A2 A3 A4 A5 A6 A7 A8 A9 A10]. now constructor. Qed.
Lemma nu_generated u : exists s, ("_" ++ u ++ "_trig")%string = ("_" ++ s)%string.
Proof. now exists (u ++ "_trig")%string. Qed.
Lemma ready_eps rank A p q : ready rank A p -> eps_trig p = Ok q -> ready rank A q.
Proof.
  intros [LN ST [R1 R2] FR] H. unfold eps_trig in H. destruct (p_symp p); [|discriminate]. destruct (find_at (is_method "epstrig") (p_cp p)) as [(k, c)|] eqn:F; [|discriminate]. cbv zeta in H.
  destruct (c_expr c) as [| |u| | | | | | | | ] eqn:EX; try discriminate H. cbn [p_controls set_cp] in H. destruct (index_of u (p_controls p)) as [i|] eqn:IX; [|discriminate]. destruct (set_nth (p_controls p) i _) as [cs|] eqn:SN; [|discriminate].
  cbn [bind] in H. destruct (c_act c) as [act|] eqn:EA; [|discriminate]. destruct (c_lower c) as [lo|] eqn:EL; [|discriminate]. destruct (c_upper c) as [up|] eqn:EU; [|discriminate]. apply Ok_inj in H.
  set (nu := ("_" ++ u ++ "_trig")%string) in *. apply find_in in F as (IC & MC).
  destruct (set_nth_keeps _ _ _ _ _ IX SN) as (INU & KEEP). assert (IU : In u (p_controls p)) by (eapply nth_error_In, index_of_nth; exact IX).
  assert (STB : forall e x, e = lo \/ e = up -> In x (vars e) -> ~ In x (p_controls p) /\ ~ In x (map sw_name (p_switches p)) /\ forall s, x <> ("_" ++ s)%string).
  { intros e x [ ->| ->] I; [apply (ST c lo x IC MC)|apply (ST c up x IC MC)]; auto. }
  set (p2 := set_cost_p _ _) in H. set (n := eps_expr lo up nu) in H.
  assert (VN : forall x, In x (vars n) -> (exists e, (e = lo \/ e = up) /\ In x (vars e)) \/ x = nu).
  { intros x I. unfold n, eps_expr, Sub, Div in I. cbn [vars] in I. rewrite ?in_app_iff in I. cbn [In] in I.
    destruct I as [[[[I|I]|[]]|[I|[]]]|[[I|I]|[]]]; try (left; eauto; fail). right. now symmetry. }
  assert (D' : forall y, declared_along A p y -> y <> u -> declared_along A q y).
  { intros y [K|K] N; [left|now right]. subst q. unfold along in *. cbn. unfold syms in *. rewrite !map_map. cbn. destruct K as [K|[K|[K|K]]]; auto. }
  assert (B' : forall y, declared_ends A p y -> y <> u -> declared_ends A q y).
  { intros y [[K|K]|K] N; [|left; right|now right].
    - destruct (D' y (or_introl K) N) as [J|J]; [left; now left|now right].
    - subst q. cbn. unfold syms in *. rewrite !map_map. cbn. exact K. }
  destruct LN as [A1 A2 A3 A4 A5 A6 A7 A8 A9 A10].
  assert (NUQ : declared_along A q nu) by (left; right; right; left; subst q; exact INU).
  assert (ON : only (declared_along A q) n).
  { intros x I. apply VN in I as [(e & E & I)| ->]; [|exact NUQ]. destruct (STB e x E I) as (N1 & _). apply D'; [|intros ->; contradiction].
    apply (proj2 (A5 c IC) e); [|exact I]. destruct E as [ ->| ->]; auto. }
  assert (OA : only (fun x => In x (p_consts p)) act) by (apply (A7 c act); [rewrite !in_app_iff; auto|exact EA]).
  assert (CQ : forall x, In x (p_consts p) -> declared_along A q x) by (intros x I; left; do 4 right; subst q; exact I).
  assert (L2 : lines (fun x => declared_along A p x \/ x = nu \/ In x (p_consts p)) (fun x => declared_ends A p x \/ x = nu \/ In x (p_consts p)) p2).
  { apply (lines_mono (fun x => declared_along A p x \/ x = nu \/ In x (p_consts p)) (declared_ends A p)); [|auto|auto]. constructor; try assumption; cbn.
    - intros s I. apply (only_mono _ _ _ (A1 s I)). auto.
    - apply only_add; [apply (only_mono _ _ _ A2); auto|]. apply only_mul; [apply only_opp, (only_mono _ _ _ OA); auto|apply only_cos, only_var; auto].
    - intros d I. apply (only_constr_mono _ _ _ (A5 d (in_remove _ _ _ I))). auto.
    - intros d a I. apply A7. rewrite !in_app_iff in *. destruct I as [I|[I|I]]; [now left|right; left; now apply in_remove in I|now do 2 right].
    - intros s f I E. apply (only_mono _ _ _ (A8 s f I E)). auto.
    - intros h E. apply (only_mono _ _ _ (A10 h E)). auto. }
  assert (LQ : lines (declared_along A q) (declared_ends A q) (subs_all u n p2)).
  { apply (lines_subs _ _ _ _ u n p2 L2); [| | |exact ON].
    - intros y [K|[ ->|K]] N; auto.
    - intros y [K|[ ->|K]] N; auto; [destruct NUQ as [J|J]|destruct (CQ y K) as [J|J]]; try (now right); left; now left.
    - intros y [K|K]; [left; now left|now right]. }
  constructor.
  - revert LQ. generalize (declared_along A q), (declared_ends A q). intros D1 B1 LQ. subst q. apply lines_maps. exact LQ.
  - intros d e x I M E J. subst q. cbn in I. apply in_map_iff in I as (b & <- & I). apply in_remove in I. cbn in E.
    assert (SB : forall a, c_lower b = Some a \/ c_upper b = Some a -> subst u n a = a).
    { intros a K. apply subst_fresh. intros V. apply (proj1 (ST b a u I M K V)). exact IU. }
    assert (EB : c_lower b = Some e \/ c_upper b = Some e).
    { destruct E as [E|E]; [left; destruct (c_lower b) as [a|]|right; destruct (c_upper b) as [a|]]; try discriminate E; cbn in E; injection E as <-; f_equal; symmetry; apply SB; auto. }
    destruct (ST b e x I M EB J) as (N1 & N2 & N3). cbn. split; [|split].
    + intros K. destruct (set_nth_in _ _ _ _ SN _ K) as [ ->|K']; [exact (N3 _ eq_refl)|contradiction].
    + rewrite map_map. intros K. apply N2. erewrite map_ext; [exact K|]. intros s. unfold subs_switch. now destruct (sw_sym s).
    + exact N3.
  - assert (SWN : map sw_name (p_switches q) = map sw_name (p_switches p)).
    { subst q. cbn. rewrite map_map. apply map_ext. intros s. unfold subs_switch. now destruct (sw_sym s). }
    constructor; rewrite SWN; [|exact R2]. intros s f y I E V W. subst q. cbn in I. apply in_map_iff in I as (b & <- & I). assert (NN := A9 b I).
    unfold subs_switch in *. destruct (sw_sym b) as [g|] eqn:EG; [|now elim NN]. cbn in E |- *. rewrite EG in E. cbn in E. injection E as <-. apply vars_subst_iff in V as [(_ & V)|(V & _)]; [|exact (R1 b g y I EG V W)].
    apply VN in V as [(e & E & V)| ->]; [destruct (STB e y E V) as (_ & N2 & _); contradiction|]. elim (R2 nu _ W eq_refl).
  - subst q. cbn. destruct FR as (-> & -> & ->). auto.
Qed.

(** ** RASHS *)
Definition names_from (i : nat) (p : prob) (x : string) : Prop := In x (skipn i (map sw_name (p_switches p))).
Lemma names_subs x n p : map sw_name (p_switches (subs_all x n p)) = map sw_name (p_switches p).
Proof. cbn. rewrite map_map. apply map_ext. intros s. unfold subs_switch. now destruct (sw_sym s). Qed.
Record smooth (rank : string -> nat) (i : nat) (p : prob) : Prop := mkSmooth {
  sm_lines : lines (declared_along (names_from i p) p) (declared_ends (names_from i p) p) p;
  sm_ranked : ranked rank p; sm_fresh : p_costates p = [] /\ p_coparams p = [] /\ p_cadj p = [] }.
Lemma skipn_S_in {A} (l : list A) i a x : nth_error l i = Some a -> In x (skipn i l) -> x = a \/ In x (skipn (S i) l).
Proof. revert i. induction l as [|b l IH]; intros [|i] E I; cbn in *; try discriminate E; [injection E as ->; destruct I as [ <-|I]; auto|]. now apply IH. Qed.
Lemma smooth_step rank i p : smooth rank i p -> i < length (p_switches p) -> smooth rank (S i) (rashs_at p i).
Proof.
  intros [LN [R1 R2] FR] L. unfold rashs_at. destruct (nth_error (p_switches p) i) as [s|] eqn:NT; [|apply nth_error_None in NT; lia]. assert (IS := nth_error_In _ _ NT).
  destruct (sw_sym s) as [f|] eqn:EF; [|now elim (ln_sym _ _ _ LN s IS)]. set (x := sw_name s). set (q := subs_all x f p).
  assert (NX : nth_error (map sw_name (p_switches p)) i = Some x) by (rewrite nth_error_map, NT; reflexivity).
  assert (SN := names_subs x f p). fold q in SN.
  assert (NS : forall y, names_from i p y -> y <> x -> names_from (S i) q y).
  { intros y K N. unfold names_from in *. rewrite SN. destruct (skipn_S_in _ _ _ _ NX K); [contradiction|assumption]. }
  assert (AL : forall y, along p y -> along q y) by (intros y K; unfold along, q, syms in *; cbn; rewrite !map_map; cbn; exact K).
  assert (AE : forall y, at_ends p y -> at_ends q y) by (intros y [K|K]; [left; now apply AL|right; unfold q, syms in *; cbn; rewrite !map_map; cbn; exact K]).
  constructor.
  - apply (lines_subs _ _ _ _ x f p LN).
    + intros y [K|K] N; [left; now apply AL|right; now apply NS].
    + intros y [K|K] N; [left; now apply AE|right; now apply NS].
    + intros y [K|K]; [left; now left|now right].
    + intros y V. destruct (ln_sw _ _ _ LN s f IS EF y V) as [K|K]; [left; now apply AL|]. right. apply NS; [exact K|]. intros ->.
      assert (rank x < rank (sw_name s)) by (apply (R1 s f x IS EF V); now apply in_map). unfold x in *. lia.
  - constructor; fold q; rewrite SN; [|exact R2]. intros b g y I E V W. unfold q in I. cbn in I. apply in_map_iff in I as (c & <- & I). assert (NN := ln_sym _ _ _ LN c I).
    unfold subs_switch in *. destruct (sw_sym c) as [h|] eqn:EH; [|now elim NN]. cbn in E |- *. rewrite EH in E. cbn in E. injection E as <-. apply vars_subst_iff in V as [(V1 & V2)|(V & _)]; [|exact (R1 c h y I EH V W)].
    assert (rank y < rank (sw_name s)) by (now apply (R1 s f y IS EF)). assert (rank x < rank (sw_name c)) by (apply (R1 c h x I EH V1); now apply in_map). unfold x in *. lia.
  - unfold q. cbn. destruct FR as (-> & -> & ->). auto.
Qed.
Lemma rashs_at_length p i : length (p_switches (rashs_at p i)) = length (p_switches p).
Proof. unfold rashs_at. destruct (nth_error (p_switches p) i) as [s|]; [|reflexivity]. destruct (sw_sym s); [|reflexivity]. cbn. apply map_length. Qed.
Lemma smooth_fold rank : forall k i p, smooth rank i p -> i + k = length (p_switches p) -> smooth rank (i + k) (fold_left rashs_at (seq i k) p).
Proof.
  induction k as [|k IH]; intros i p H L; cbn; [now rewrite Nat.add_0_r|]. rewrite <- Nat.add_succ_comm. apply IH; [apply smooth_step; [exact H|lia]|]. rewrite rashs_at_length. lia.
Qed.

Definition whole (p : prob) : Prop := lines (along p) (at_ends p) p.
Definition fresh (p : prob) : Prop := p_costates p = [] /\ p_coparams p = [] /\ p_cadj p = [].
Lemma ready_rashs rank p q : ready rank (fun x => In x (map sw_name (p_switches p))) p -> rashs p = Ok q -> whole q /\ fresh q.
Proof.
  intros [LN ST RK FR] H. unfold rashs in H. destruct (p_symp p); [|discriminate]. apply Ok_inj in H.
  assert (S0 : smooth rank 0 p) by (constructor; assumption). apply (smooth_fold rank (length (p_switches p)) 0 p) in S0; [|reflexivity]. cbn [Nat.add] in S0. rewrite H in S0. destruct S0 as [L1 _ F1]. split; [|exact F1].
  assert (NO : forall x, ~ names_from (length (p_switches p)) q x).
  { intros x. unfold names_from. rewrite skipn_all2; [intros []|]. rewrite map_length.
    assert (E : length (p_switches q) = length (p_switches p)); [|lia]. rewrite <- H. clear. generalize (seq 0 (length (p_switches p))) as l. intros l. revert p. induction l as [|a l IH]; intros p; cbn; [reflexivity|]. now rewrite IH, rashs_at_length. }
  apply (lines_mono _ _ _ _ q L1).
  - intros x [K|K]; [exact K|now elim (NO x)].
  - intros x [K|K]; [exact K|now elim (NO x)].
Qed.

(** ** Dualize and the control laws *)
(** The linear solver returns one expression per equation and invents no symbol. *)
Definition lu_closed (lu : list (list expr) -> list expr -> res (list expr)) : Prop :=
  forall A b x, lu A b = Ok x -> length x = length b /\
    forall e y, In e x -> In y (vars e) -> (exists row a, In row A /\ In a row /\ In y (vars a)) \/ exists c, In c b /\ In y (vars c).
Lemma lu_only lu (A : string -> Prop) m b x : lu_closed lu -> lu m b = Ok x -> (forall row a, In row m -> In a row -> only A a) -> (forall c, In c b -> only A c) ->
  length x = length b /\ forall e, In e x -> only A e.
Proof.
  intros LC H HM HB. destruct (LC m b x H) as (L & K). split; [exact L|]. intros e I y V. destruct (K e y I V) as [(row & a & R & J & W)|(c & J & W)]; [exact (HM row a R J y W)|exact (HB c J y W)].
Qed.
Lemma std_only A n row a : In row (std_form n) -> In a row -> only A a.
Proof.
  unfold std_form. intros R I. apply in_map_iff in R as (i & <- & _). apply in_map_iff in I as (j & <- & _). destruct (Nat.eqb j (i + n)); [apply only_cst|]. destruct (Nat.eqb i (j + n)); apply only_cst.
Qed.
Lemma ham_only lu (A : string -> Prop) h om basis chi : lu_closed lu -> ham_field lu h om basis = Ok chi -> only A h -> (forall row a, In row om -> In a row -> only A a) ->
  length chi = length basis /\ forall e, In e chi -> only A e.
Proof.
  intros LC H OH OM. unfold ham_field in H. destruct (Nat.odd (length om)); [discriminate|]. destruct (lu om _) as [x|] eqn:E; [|discriminate]. cbn [bind] in H. apply Ok_inj in H. subst chi.
  destruct (lu_only lu A _ _ _ LC E OM) as (L & K).
  - intros c I. apply in_map_iff in I as (b & <- & _). now apply only_diff.
  - rewrite map_length, L, map_length. split; [reflexivity|]. intros e I. apply in_map_iff in I as (a & <- & I). apply only_opp. now apply K.
Qed.
Lemma rates_syms l r : syms (give_rates l r) = syms l.
Proof.
  unfold give_rates, syms. rewrite map_map. apply nth_error_ext. intros k. rewrite !nth_error_map. destruct (Nat.lt_ge_cases k (length l)) as [L|L].
  - rewrite nth_error_nth' with (d := 0) by (now rewrite seq_length). rewrite seq_nth by exact L. cbn. destruct (nth_error l k) as [s|] eqn:E; [|apply nth_error_None in E; lia]. now destruct (nth_error r k).
  - rewrite (proj2 (nth_error_None l k)) by exact L. now rewrite (proj2 (nth_error_None (seq 0 (length l)) k)) by (rewrite seq_length; exact L).
Qed.
Lemma rates_only A l r s : In s (give_rates l r) -> (forall x, In x l -> only A (snd x)) -> (forall e, In e r -> only A e) -> only A (snd s).
Proof.
  intros I HL HR. unfold give_rates in I. apply in_map_iff in I as (k & <- & _). destruct (nth_error l k) as [x|] eqn:E; [|apply only_cst]. apply nth_error_In in E. destruct (nth_error r k) as [e|] eqn:F; [|now apply HL]. apply nth_error_In in F. now apply HR.
Qed.
Lemma in_comb {A B} (l : list A) (r : list B) x y : In (x, y) (combine l r) -> In x l /\ In y r.
Proof. intros I. split; [now apply in_combine_l in I|now apply in_combine_r in I]. Qed.
Lemma adjoin_only A c nus cs : only A c -> (forall x, In x nus -> A x) -> (forall k, In k cs -> only A (c_expr k)) -> only A (adjoin c nus cs).
Proof.
  intros H N K. unfold adjoin. apply only_sum; [exact H|]. intros e I. apply in_map_iff in I as ((x, k) & <- & I). apply in_comb in I as (I1 & I2). apply only_mul; [apply only_var; auto|now apply K].
Qed.

Lemma given_syms (l : list (string * expr)) : forall r : list expr, syms (map (fun ce => (fst (fst ce), snd ce)) (combine l r) ++ skipn (length r) l) = syms l.
Proof.
  unfold syms. induction l as [|a l IH]; intros [|b r]; try reflexivity. cbn. f_equal. apply IH.
Qed.
Lemma keep_coparams p c : set_costates p c = set_coparams (set_costates p c) (p_coparams p).
Proof. reflexivity. Qed.
Lemma whole_dual lu m p q : lu_closed lu -> whole p -> fresh p -> dualize lu m p = Ok q -> whole q.
Proof.
  intros LC [A1 A2 A3 A4 A5 A6 A7 A8 A9 A10] (F1 & F2 & F3) H. unfold dualize in H. destruct (p_symp p); [|discriminate]. cbv zeta in H.
  set (h := dual_ham p) in *. set (p0 := dual_start p) in *.
  destruct (if String.eqb (lower m) "traditional" then _ else _) as [p1|] eqn:E; [|discriminate]. cbn [bind] in H. apply Ok_inj in H.
  assert (LM : forall s, In s (p_states p) -> along p0 (lam (fst s))).
  { intros s I. right. left. unfold p0. cbn. rewrite F1. cbn. unfold syms. rewrite map_map. cbn. apply in_map_iff. now exists s. }
  assert (AL : forall x, along p x -> along p0 x).
  { intros x K. unfold along, p0 in *. cbn. unfold syms in *. rewrite map_app, in_app_iff. tauto. }
  assert (AE : forall x, at_ends p x -> at_ends p0 x).
  { intros x [K|K]; [left; now apply AL|]. right. unfold p0. cbn. unfold syms in *. rewrite map_app, !in_app_iff. tauto. }
  assert (OH : only (along p0) h).
  { unfold h, dual_ham. apply only_sum; [now apply (only_mono (along p))|]. intros e I. apply in_map_iff in I as (s & <- & I). apply only_mul; [apply only_var; now apply LM|]. apply (only_mono (along p)); [|exact AL]. apply A1. rewrite !in_app_iff. auto. }
  assert (R : exists c1 c2, p1 = set_coparams (set_costates p0 c1) c2 /\ syms c1 = syms (p_costates p0) /\ syms c2 = syms (p_coparams p0) /\ forall s, In s (c1 ++ c2) -> only (along p0) (snd s)).
  { assert (Z1 : forall s, In s (p_costates p0) -> only (along p0) (snd s)).
    { intros s I. unfold p0 in I. cbn in I. rewrite F1 in I. cbn in I. apply in_map_iff in I as (b & <- & _). apply only_cst. }
    assert (Z2 : forall s, In s (p_coparams p0) -> only (along p0) (snd s)).
    { intros s I. unfold p0 in I. cbn in I. rewrite F2 in I. cbn in I. apply in_map_iff in I as (b & <- & _). apply only_cst. }
    destruct (String.eqb (lower m) "traditional").
    - apply Ok_inj in E. unfold costates_traditional in E. cbv zeta in E. eexists _, _. split; [symmetry; exact E|]. split; [apply rates_syms|]. split; [apply rates_syms|].
      assert (RO : forall e, In e (map (fun x => Opp (diff x h)) (syms (p_states p0) ++ p_params p0)) -> only (along p0) e).
      { intros e I. apply in_map_iff in I as (x & <- & _). auto with names. }
      intros s I. apply in_app_iff in I as [I|I]; apply (rates_only _ _ _ s I); auto. intros e J. apply RO. rewrite <- (firstn_skipn (length (p_costates p0))). apply in_app_iff. now right.
    - destruct (String.eqb (lower m) "diffyg").
      + unfold costates_diffyg in E. destruct (negb _) eqn:EN; [discriminate|]. destruct (ham_field lu h _ _) as [chi|] eqn:EC; [|discriminate]. cbn [bind] in E. apply Ok_inj in E.
        destruct (ham_only lu (along p0) _ _ _ _ LC EC OH (std_only _ _)) as (_ & OC).
        eexists _, (p_coparams p0). split; [rewrite <- E; apply keep_coparams|]. set (r := last_k _ chi).
        assert (OR : forall e, In e r -> only (along p0) e).
        { intros e I. apply OC. unfold r, last_k in I. destruct (Nat.eqb _ 0); [exact I|]. set (k := length chi - length (p_states p0)) in I. rewrite <- (firstn_skipn k chi). apply in_app_iff. now right. }
        split; [|split; [reflexivity|]].
        * apply given_syms.
        * intros s I. rewrite !in_app_iff in I. destruct I as [[I|I]|I]; [|apply Z1; rewrite <- (firstn_skipn (length r)); apply in_app_iff; now right|now apply Z2].
          apply in_map_iff in I as ((a, e) & <- & I). apply in_comb in I as (_ & I). cbn. now apply OR.
      + apply Ok_inj in E. exists (p_costates p0), (p_coparams p0). split; [rewrite <- E; now destruct p0|]. split; [reflexivity|]. split; [reflexivity|]. intros s I. apply in_app_iff in I as [I|I]; auto. }
  destruct R as (c1 & c2 & -> & S1 & S2 & OC). clear E.
  assert (AQ : forall x, along p0 x -> along q x) by (intros x K; subst q; unfold along in *; cbn [dual_finish set_dual set_maps set_ct set_ci set_coparams set_costates p_states p_costates p_controls p_params p_consts]; rewrite S1; exact K).
  assert (EQ : forall x, at_ends p0 x -> at_ends q x) by (intros x [K|K]; [left; now apply AQ|right; subst q; cbn [dual_finish set_dual set_maps set_ct set_ci set_coparams set_costates p_quads p_coparams p_cpars p_cadj]; rewrite S2; exact K]).
  assert (NU : forall x, In x (nu_names "_nu_0_" (p_ci p) ++ nu_names "_nu_f_" (p_ct p)) -> at_ends p0 x).
  { intros x I. do 4 right. unfold p0. cbn. rewrite F3. exact I. }
  assert (CI : only (at_ends p0) (p_cost_i p0)).
  { apply adjoin_only; [now apply (only_mono (at_ends p))|intros x I; apply NU, in_app_iff; now left|]. intros k I. apply (only_mono (at_ends p)); [|exact AE]. exact (proj1 (A6 k (in_or_app _ _ _ (or_introl I)))). }
  assert (CT : only (at_ends p0) (p_cost_t p0)).
  { apply adjoin_only; [now apply (only_mono (at_ends p))|intros x I; apply NU, in_app_iff; now right|]. intros k I. apply (only_mono (at_ends p)); [|exact AE]. exact (proj1 (A6 k (in_or_app _ _ _ (or_intror I)))). }
  assert (PR : forall x l, In (x, l) (combine (syms (p_states p0) ++ p_params p0) (syms c1 ++ syms c2)) -> at_ends p0 l).
  { intros x l I. apply in_comb in I as (_ & I). rewrite S1, S2 in I. apply in_app_iff in I as [I|I]; [left; right; now left|right; right; now left]. }
  assert (OHE : only (at_ends p0) h) by (apply (only_mono (along p0)); [exact OH|now left]).
  unfold whole. apply (lines_mono (along p0) (at_ends p0)); [|exact AQ|exact EQ]. subst q. constructor;
    cbn [dual_finish set_dual set_maps set_ct set_ci set_coparams set_costates p_states p_costates p_coparams p_quads p_cost_p p_cost_i p_cost_t p_cp p_ci p_ct p_switches p_ham p_consts p_ind].
  - intros s I. rewrite !in_app_iff in I. destruct I as [I|[I|[I|I]]].
    + apply (only_mono (along p)); [|exact AL]. apply A1. rewrite !in_app_iff. auto.
    + apply OC, in_app_iff. now left.
    + apply OC, in_app_iff. now right.
    + apply (only_mono (along p)); [|exact AL]. apply A1. rewrite !in_app_iff. auto.
  - now apply (only_mono (along p)).
  - exact CI.
  - exact CT.
  - intros c I. apply (only_constr_mono (along p)); [|exact AL]. now apply A5.
  - intros c I. rewrite !in_app_iff in I. destruct I as [[I|I]|[I|[I|[I|[]]]]].
    + apply (only_constr_mono (at_ends p)); [|exact AE]. apply A6, in_app_iff. now left.
    + apply in_map_iff in I as ((x, l) & <- & I). apply only_plain. cbn [fst snd]. apply only_add; [apply only_var; exact (PR x l I)|now apply only_diff].
    + apply (only_constr_mono (at_ends p)); [|exact AE]. apply A6, in_app_iff. now right.
    + apply in_map_iff in I as ((x, l) & <- & I). apply only_plain. cbn [fst snd]. apply only_sub; [apply only_var; exact (PR x l I)|now apply only_diff].
    + subst c. apply only_plain. apply only_add; [now apply only_diff|exact OHE].
  - intros c a I E. rewrite !in_app_iff in I. destruct I as [[I|I]|[I|[I|[I|[I|[]]]]]].
    + apply (A7 c a); [rewrite !in_app_iff; auto|exact E].
    + apply in_map_iff in I as (xl & <- & _). discriminate E.
    + apply (A7 c a); [rewrite !in_app_iff; auto|exact E].
    + apply (A7 c a); [rewrite !in_app_iff; auto|exact E].
    + apply in_map_iff in I as (xl & <- & _). discriminate E.
    + subst c. discriminate E.
  - intros s f I E. apply (only_mono (along p)); [exact (A8 s f I E)|exact AL].
  - exact A9.
  - intros g E. unfold p0 in E. cbn in E. injection E as <-. exact OH.
Qed.
