(** Which names the expressions mention after the control law, the time
    normalisation and the squashing; whole runs (C99). *)
From Coq Require Import Reals Lia.
From Verif Require Import Base Base_Facts Sym_Expr Sym_Facts Sym_Model Sym_Lu Sym_Dual Swi_Proofs Args_Proofs.
From Verif Require Import Sym_Model.
Open Scope string_scope.
Open Scope list_scope.
Open Scope nat_scope.

Lemma syms_app a b : syms (a ++ b) = syms a ++ syms b.
Proof. apply map_app. Qed.
Lemma combine_syms (l : list string) : forall r : list expr, length r = length l -> syms (combine l r) = l.
Proof. induction l as [|a l IH]; intros [|b r] E; cbn in *; try reflexivity; try discriminate E. now rewrite IH by lia. Qed.
Lemma combine_eoms A (l : list string) (r : list expr) s : (forall e, In e r -> only A e) -> In s (combine l r) -> only A (snd s).
Proof. intros H I. destruct s as (x, e). apply in_comb in I as (_ & I). now apply H. Qed.
Lemma whole_alg solve p q : whole p -> algebraic_control solve p = Ok q -> whole q.
Proof.
  intros H E. unfold algebraic_control in E. destruct (p_dual p); [|discriminate]. destruct (p_ham p); [|discriminate]. apply Ok_inj in E. subst q. destruct H as [A1 A2 A3 A4 A5 A6 A7 A8 A9 A10]. now constructor.
Qed.
Lemma in_update {A} (P : A -> Prop) f : forall (l : list A) k a, (forall b, P b -> P (f b)) -> Forall P l -> In a (update_at k f l) -> P a.
Proof.
  induction l as [|b l IH]; intros [|k] a HF FA I; cbn in I; try contradiction; apply Forall_cons_iff in FA as (F1 & F2).
  - destruct I as [ <-|I]; [now apply HF|]. rewrite Forall_forall in F2. now apply F2.
  - destruct I as [ <-|I]; [exact F1|]. now apply (IH k a).
Qed.
Lemma omega_only (A : string -> Prop) n m k udot : (forall e, In e udot -> only A e) -> forall row a, In row (omega_new n m k udot) -> In a row -> only A a.
Proof.
  intros HU. unfold omega_new. assert (G : forall l om, (forall iu, In iu l -> only A (snd iu)) -> Forall (Forall (only A)) om -> Forall (Forall (only A)) (fold_left (omega_step n m k) l om)).
  { assert (SE : forall i j e om, only A e -> Forall (Forall (only A)) om -> Forall (Forall (only A)) (set_entry i j e om)).
    { intros i j e om HE FA. apply Forall_forall. intros row I. unfold set_entry in I. refine (in_update (Forall (only A)) _ om i row _ FA I). intros b FB. apply Forall_forall. intros a J.
      exact (in_update (only A) _ b j a (fun _ _ => HE) FB J). }
    induction l as [|(i, u) l IH]; intros om HL FA; [exact FA|]. cbn [fold_left]. apply IH; [intros iu I; apply HL; now right|]. assert (HU' : only A u) by (apply (HL (i, u)); now left).
    unfold omega_step. repeat apply SE; auto with names. }
  intros row a R I. assert (F : Forall (Forall (only A)) (fold_left (omega_step n m k) (combine (seq 0 (length udot)) udot) (std_form n))).
  { apply G.
    - intros (i, u) J. apply in_comb in J as (_ & J). now apply HU.
    - apply Forall_forall. intros r J. apply Forall_forall. intros b K. exact (std_only A n r b J K). }
  rewrite Forall_forall in F. specialize (F row R). rewrite Forall_forall in F. now apply F.
Qed.
Lemma in_first {A} (l : list A) n a : In a (firstn n l) -> In a l.
Proof. intros I. rewrite <- (firstn_skipn n l). apply in_app_iff. now left. Qed.
Lemma in_skip {A} (l : list A) n a : In a (skipn n l) -> In a l.
Proof. intros I. rewrite <- (firstn_skipn n l). apply in_app_iff. now right. Qed.

(** Other equations, controls as states, more end conditions. *)
Lemma whole_grow p st co ci ct m : whole p -> (forall x, along p x -> In x (syms st) \/ In x (syms co) \/ In x (p_params p) \/ In x (p_consts p)) ->
  let D := fun x => In x (syms st) \/ In x (syms co) \/ In x (p_params p) \/ In x (p_consts p) in
  (forall s, In s (st ++ co) -> only D (snd s)) ->
  (forall c, In c (ci ++ ct) -> In c (p_ci p ++ p_ct p) \/ exists e, c = plain e /\ only D e) ->
  whole (set_maps (set_controls (set_ci (set_ct (set_costates (set_states p st) co) ct) ci) []) m).
Proof.
  intros [A1 A2 A3 A4 A5 A6 A7 A8 A9 A10] AL D OS OC. set (q := set_maps _ _).
  assert (AQ : forall x, D x -> along q x) by (intros x K; unfold D, along, q in *; cbn; tauto).
  assert (EQ : forall x, at_ends p x -> at_ends q x) by (intros x [K|K]; [left; apply AQ, AL, K|right; exact K]).
  assert (PQ : forall x, along p x -> along q x) by (intros x K; apply AQ, AL, K).
  constructor; cbn [q set_maps set_controls set_ci set_ct set_costates set_states p_states p_costates p_coparams p_quads p_cost_p p_cost_i p_cost_t p_cp p_ci p_ct p_switches p_ham p_consts].
  - intros s I. rewrite app_assoc in I. apply in_app_iff in I as [I|I]; [apply (only_mono D); [now apply OS|exact AQ]|]. apply (only_mono (along p)); [|exact PQ]. apply A1. rewrite app_assoc. apply in_app_iff. now right.
  - now apply (only_mono (along p)).
  - now apply (only_mono (at_ends p)).
  - now apply (only_mono (at_ends p)).
  - intros c I. apply (only_constr_mono (along p)); [now apply A5|exact PQ].
  - intros c I. destruct (OC c I) as [J|(e & -> & J)]; [apply (only_constr_mono (at_ends p)); [now apply A6|exact EQ]|]. apply only_plain. apply (only_mono D); [exact J|]. intros x K. left. now apply AQ.
  - intros c a I E. assert (J : In c (p_cp p) \/ In c (ci ++ ct)) by (rewrite !in_app_iff in I; rewrite in_app_iff; tauto). destruct J as [J|J]; [apply (A7 c a); [rewrite !in_app_iff; auto|exact E]|].
    destruct (OC c J) as [K|(e & -> & K)]; [|discriminate E]. apply (A7 c a); [|exact E]. rewrite !in_app_iff in *. tauto.
  - intros s f I E. apply (only_mono (along p)); [exact (A8 s f I E)|exact PQ].
  - exact A9.
  - intros h E. apply (only_mono (along p)); [exact (A10 h E)|exact PQ].
Qed.

Lemma whole_diff lu m p q : lu_closed lu -> whole p -> differential_control lu m p = Ok q -> whole q.
Proof.
  intros LC W E. unfold differential_control in E. destruct (p_dual p); [|discriminate]. destruct (p_ham p) as [h|] eqn:EH; [|discriminate]. cbv zeta in E.
  assert (OH : only (along p) h) by (exact (ln_ham _ _ _ W h EH)).
  assert (OG : forall g, In g (map (fun u => diff u h) (p_controls p)) -> only (along p) g) by (intros g I; apply in_map_iff in I as (u & <- & _); now apply only_diff).
  destruct (lu _ _) as [udot|] eqn:EU; [|discriminate]. cbn [bind] in E.
  destruct (lu_only lu (along p) _ _ _ LC EU) as (LU & OU).
  { intros row a R I. unfold jacobian in R. apply in_map_iff in R as (g & <- & R). apply in_map_iff in I as (x & <- & _). now apply only_diff, OG. }
  { intros c I. apply in_map_iff in I as (row & <- & I). unfold jacobian in I. apply in_map_iff in I as (g & <- & I). unfold dot. apply only_sum; [apply only_cst|]. intros e J. apply in_map_iff in J as ((a, b) & <- & J). apply in_comb in J as (J1 & J2). cbn [fst snd].
    apply only_mul.
    - apply in_map_iff in J1 as (a' & <- & J1). apply in_map_iff in J1 as (x & <- & _). now apply only_opp, only_diff, OG.
    - unfold eoms in J2. apply in_map_iff in J2 as (s & <- & J2). apply (ln_dyn _ _ _ W). rewrite !in_app_iff in *. tauto. }
  assert (LU' : length udot = length (p_controls p)) by (rewrite LU, map_length; unfold jacobian; now rewrite !map_length).
  assert (SU := combine_syms (p_controls p) udot LU').
  destruct (String.eqb (lower m) "traditional").
  - apply Ok_inj in E. set (st := p_states p ++ combine (p_controls p) udot) in *.
    assert (ALL : forall x, along p x -> In x (syms st) \/ In x (syms (p_costates p)) \/ In x (p_params p) \/ In x (p_consts p)).
    { intros x K. unfold along in K. unfold st. rewrite syms_app, in_app_iff, SU. tauto. }
    assert (Q : q = set_maps (set_controls (set_ci (set_ct (set_costates (set_states p st) (p_costates p)) (p_ct p ++ map plain (map (fun u => diff u h) (p_controls p)))) (p_ci p)) []) (p_maps q)) by (rewrite <- E; reflexivity).
    rewrite Q. apply whole_grow; [exact W|exact ALL| |].
    + intros s I. apply (only_mono (along p)); [|exact ALL]. unfold st in I. rewrite !in_app_iff in I. destruct I as [[I|I]|I]; [| |]; try (apply (ln_dyn _ _ _ W); rewrite !in_app_iff; tauto). apply (combine_eoms _ _ _ s OU I).
    + intros c I. rewrite !in_app_iff in I. destruct I as [I|[I|I]]; [left; apply in_app_iff; now left|left; apply in_app_iff; now right|]. right. apply in_map_iff in I as (g & <- & I). exists g. split; [reflexivity|]. apply (only_mono (along p)); [now apply OG|exact ALL].
  - destruct (String.eqb (lower m) "diffyg"); [|discriminate].
    cbn [set_costates set_states set_ct p_states p_costates p_controls] in E.
    set (st := p_states p ++ combine (p_controls p) udot) in *. set (co := p_costates p ++ map (fun u => (lam u, Cst 0)) (p_controls p)) in *.
    destruct (negb (Nat.eqb (length st) (length co))) eqn:EN; [discriminate|]. apply Bool.negb_false_iff, Nat.eqb_eq in EN.
    destruct (ham_field lu h _ _) as [chi|] eqn:EC; [|discriminate]. cbn [bind] in E. apply Ok_inj in E.
    assert (ALL0 : forall x, along p x -> In x (syms st) \/ In x (syms co) \/ In x (p_params p) \/ In x (p_consts p)).
    { intros x K. unfold along in K. unfold st, co. rewrite !syms_app, !in_app_iff, SU. tauto. }
    destruct (ham_only lu (along p) _ _ _ _ LC EC OH) as (LCH & OCH); [apply omega_only; exact OU|].
    assert (LS : length (syms st) = length st) by apply map_length. assert (LO : length (syms co) = length co) by apply map_length. rewrite app_length, LS, LO in LCH.
    assert (S1 : syms (combine (syms st) (firstn (length st) chi)) = syms st) by (apply combine_syms; rewrite firstn_length, LS; lia).
    assert (S2 : syms (combine (syms co) (skipn (length st) chi)) = syms co) by (apply combine_syms; rewrite skipn_length, LO; lia).
    set (st' := combine (syms st) (firstn (length st) chi)) in *. set (co' := combine (syms co) (skipn (length st) chi)) in *.
    assert (ALL : forall x, along p x -> In x (syms st') \/ In x (syms co') \/ In x (p_params p) \/ In x (p_consts p)) by (rewrite S1, S2; exact ALL0).
    assert (Q : q = set_maps (set_controls (set_ci (set_ct (set_costates (set_states p st') co') (p_ct p ++ map plain (map (fun u => diff u h) (p_controls p)))) (p_ci p ++ map (fun u => plain (Var (lam u))) (p_controls p))) []) (p_maps q)) by (rewrite <- E; reflexivity).
    rewrite Q. apply whole_grow; [exact W|exact ALL| |].
    + intros s I. apply (only_mono (along p)); [|exact ALL]. apply in_app_iff in I as [I|I]; refine (combine_eoms _ _ _ s _ I); intros e J; apply OCH; [now apply in_first in J|now apply in_skip in J].
    + intros c I. rewrite !in_app_iff in I. destruct I as [[I|I]|[I|I]].
      * left. apply in_app_iff. now left.
      * right. apply in_map_iff in I as (u & <- & I). exists (Var (lam u)). split; [reflexivity|]. apply only_var. right. left. rewrite S2. unfold co, syms. rewrite map_app, in_app_iff, map_map. right. apply in_map_iff. now exists u.
      * left. apply in_app_iff. now right.
      * right. apply in_map_iff in I as (g & <- & I). exists g. split; [reflexivity|]. apply (only_mono (along p)); [now apply OG|exact ALL].
Qed.

Lemma scaled_syms x l : syms (map (fun s : string * expr => (fst s, Mul (snd s) (Var x))) l) = syms l.
Proof. unfold syms. rewrite map_map. reflexivity. Qed.
Lemma whole_norm p q : whole p -> normalize_time None p = Ok q -> whole q.
Proof.
  intros [A1 A2 A3 A4 A5 A6 A7 A8 A9 A10] E. unfold normalize_time in E. destruct (p_symp p); [|discriminate]. cbv zeta in E. apply Ok_inj in E. set (dt := ("_delta" ++ p_ind p)%string) in *.
  assert (AL : forall x, along p x \/ x = dt -> along q x).
  { intros x K. subst q. unfold along in *. cbn [set_maps set_ind set_cost_p set_costates set_states set_params p_states p_costates p_controls p_params p_consts]. rewrite !scaled_syms, in_app_iff. cbn [In]. destruct K as [K|K]; [tauto|]. right. right. right. left. right. left. now symmetry. }
  assert (AE : forall x, at_ends p x -> at_ends q x) by (intros x [K|K]; [left; apply AL; now left|right; subst q; exact K]).
  unfold whole. apply (lines_mono (fun x => along p x \/ x = dt) (at_ends p)); [|exact AL|exact AE].
  assert (SC : forall e, only (along p) e -> only (fun x => along p x \/ x = dt) (Mul e (Var dt))) by (intros e K; apply only_mul; [apply (only_mono (along p)); auto|apply only_var; now right]).
  assert (M : forall e, only (along p) e -> only (fun x => along p x \/ x = dt) e) by (intros e K; apply (only_mono (along p)); auto).
  subst q. constructor; cbn [set_maps set_ind set_cost_p set_costates set_states set_params p_states p_costates p_coparams p_quads p_cost_p p_cost_i p_cost_t p_cp p_ci p_ct p_switches p_ham p_consts]; auto.
  - intros s I. rewrite !in_app_iff in I. destruct I as [I|[I|I]].
    + apply in_map_iff in I as (b & <- & I). apply SC. apply A1. rewrite !in_app_iff. auto.
    + apply in_map_iff in I as (b & <- & I). apply SC. apply A1. rewrite !in_app_iff. auto.
    + apply M, A1. rewrite !in_app_iff. auto.
  - intros c I. apply (only_constr_mono (along p)); auto.
  - intros s f I E. apply M. exact (A8 s f I E).
Qed.
Lemma whole_squash p q : whole p -> squash p = Ok q -> whole q /\ p_costates q = [] /\ p_coparams q = [] /\ p_cadj q = [].
Proof.
  intros [A1 A2 A3 A4 A5 A6 A7 A8 A9 A10] E. unfold squash in E. cbv zeta in E. apply Ok_inj in E.
  assert (AL : forall x, along p x -> along q x) by (intros x K; subst q; unfold along in *; cbn; unfold syms in *; rewrite map_app, in_app_iff; tauto).
  assert (AE : forall x, at_ends p x -> at_ends q x) by (intros x [K|K]; [left; now apply AL|right; subst q; cbn; unfold syms in *; rewrite map_app, !in_app_iff; tauto]).
  split; [|subst q; cbn; auto]. unfold whole. apply (lines_mono (along p) (at_ends p)); [|exact AL|exact AE]. subst q. constructor; try assumption.
  cbn. intros s I. apply A1. rewrite !in_app_iff in *. tauto.
Qed.

(** ** Gaussian elimination *)
Lemma gauss_closed (A : string -> Prop) : forall n rows x, gauss n rows = Ok x -> (forall row, In row rows -> only A (snd row) /\ forall a, In a (fst row) -> only A a) -> length x = n /\ forall e, In e x -> only A e.
Proof.
  induction n as [|n IH]; intros rows x H HR; cbn [gauss] in H.
  - destruct rows; [|discriminate]. apply Ok_inj in H. subst x. split; [reflexivity|intros e []].
  - destruct (pick rows) as [((row, b), others)|] eqn:EP; [|discriminate]. destruct row as [|a r]; [discriminate|]. destruct (gauss n _) as [xs|] eqn:EG; [|discriminate]. cbn [bind] in H. apply Ok_inj in H. subst x.
    assert (PS := proj2 (pick_spec _ _ _ EP (fun row => only A (snd row) /\ forall a, In a (fst row) -> only A a)) (proj2 (Forall_forall _ _) HR)). destruct PS as ((OB & OR) & OO). rewrite Forall_forall in OO. cbn [fst snd] in *.
    assert (OA : only A a) by (apply OR; now left).
    destruct (IH _ _ EG) as (L & K).
    + intros row' I. apply in_map_iff in I as (ro & <- & I). destruct (OO ro I) as (P1 & P2). unfold eliminate. destruct (fst ro) as [|a' r'] eqn:EF; [split; [exact P1|intros c []]|].
      destruct (is_zero a'); [split; [exact P1|intros c J; apply P2; now right]|]. cbn [fst snd]. assert (OA' : only A a') by (apply P2; now left). split; [auto with names|].
      intros c J. apply in_map_iff in J as ((u, v) & <- & J). apply in_comb in J as (J1 & J2). unfold sub_mul. cbn [fst snd]. assert (OU : only A u) by (apply P2; now right). assert (OV : only A v) by (apply OR; now right). destruct (is_zero v); auto with names.
    + split; [cbn; now rewrite L|]. intros e [ <-|I]; [|now apply K]. apply only_div; [|exact OA]. apply only_sub; [exact OB|]. apply only_sum; [apply only_cst|]. intros c J. apply in_map_iff in J as ((u, v) & <- & J). apply in_comb in J as (J1 & J2). cbn [fst snd].
      apply only_mul; [apply OR; now right|now apply K].
Qed.
Theorem lu_gauss_closed : lu_closed lu_gauss.
Proof.
  intros m b x H. unfold lu_gauss in H.
  apply (gauss_closed (fun y => (exists row a, In row m /\ In a row /\ In y (vars a)) \/ exists c, In c b /\ In y (vars c))) in H as (L & K).
  - split; [exact L|]. intros e y I V. exact (K e I y V).
  - intros (row, c) I. apply in_comb in I as (I1 & I2). cbn. split; [intros y V; right; eauto|]. intros a J y V. left. eauto.
Qed.
