(** C56, C57: guess generator settings and boundary constants. *)
From Coq Require Import QArith.
From Verif Require Import Base Base_Facts Map_Model Guess_Model.
Open Scope nat_scope.
Open Scope string_scope.
Open Scope list_scope.

(** ** C56 *)
Section Settings.
  Context {F : Type} (K : NumOps F) {S : Type}.
  Definition is_guess_mode (m : string) : Prop := m = "auto" \/ m = "ones".
  Definition ok_direction (d : string) : Prop := d = "forward" \/ d = "reverse".

  Lemma guess_mode_cases m : is_guess_mode m ->
    (String.eqb m "auto" || String.eqb m "ones")%bool = true /\ String.eqb m "static" = false.
  Proof. now intros [-> | ->]. Qed.
  Lemma direction_cases d : ok_direction d <-> (String.eqb d "forward" || String.eqb d "reverse")%bool = true.
  Proof.
    unfold ok_direction. destruct (String.eqb_spec d "forward"), (String.eqb_spec d "reverse"); cbn; intuition congruence.
  Qed.
End Settings.

(** The guess that the documented keywords describe. *)
Definition wanted_costates {F} (K : NumOps F) (c : gval (F := F)) (n : nat) : list F :=
  match c with GFloat x | GInt x => repeat (nmul K x (nofZ K 1)) n | GArr l => l end.

(** Settings given to [guess_generator], or to [setup] on any generator with
    any history, are the ones used: end points in time, states, costates and
    quadratures. *)
Theorem C56_settings_used : forall (F S : Type) (K : NumOps F) mode (k : guess_kw (F := F)) x0 n_p n_nu (g : gen (F := F) (S := S)),
  is_guess_mode mode -> ok_direction (dflt "forward" (k_direction k)) ->
  neqb K (dflt (nofZ K 1) (k_time k)) (n0 K) = false -> k_start k = Some x0 ->
  exists g', setup K mode (KwGuess k) g = (g', None) /\
  exists d, generate K g' None n_p n_nu = Ok (FromSettings d) /\
  let T := nabs K (dflt (nofZ K 1) (k_time k)) in
  let tf := if String.eqb (dflt "forward" (k_direction k)) "reverse" then nsub K (n0 K) T else T in
  let n := if String.eqb mode "auto" then 2 else 4 in
  (mode = "auto" -> d_t d = [n0 K; tf]) /\
  (mode = "ones" -> linspace K (n0 K) tf 4 = Ok (d_t d)) /\
  d_y d = repeat x0 n /\
  d_dual d = repeat (wanted_costates K (dflt (GFloat (ndiv K (nofZ K 1) (nofZ K 10))) (k_costate k)) (length x0)) n /\
  d_q d = repeat (dflt [] (k_quad k)) n /\
  d_p d = repeat (nofZ K 1) n_p /\ d_nu d = repeat (nofZ K 1) n_nu.
Proof.
  intros F S K mode k x0 n_p n_nu g M D T X. destruct (guess_mode_cases mode M) as [M1 _]. apply direction_cases in D.
  unfold setup. rewrite M1. unfold setup_guess. cbv zeta. rewrite D, T. eexists. split; [reflexivity|].
  destruct (linspace_ok K true (n0 K) (if String.eqb (dflt "forward" (k_direction k)) "reverse"
       then nsub K (n0 K) (nabs K (dflt (nofZ K 1) (k_time k))) else nabs K (dflt (nofZ K 1) (k_time k))) 4 ltac:(lia)) as [l L].
  change (linspace_gen K true) with (linspace K) in L.
  destruct M as [-> | ->]; unfold generate; cbn [g_mode set_mode String.eqb Ascii.eqb Bool.eqb]; unfold data, tspan_end;
    cbn [g_start g_costate g_direction g_time set_mode g_quad g_control]; rewrite X; unfold params; cbn [bind].
  - eexists. split; [reflexivity|]. cbn. repeat split; try easy; destruct (k_costate k) as [[ | | ]|]; reflexivity.
  - rewrite L. cbn [bind]. eexists. split; [reflexivity|]. cbn [d_t d_y d_dual d_q d_p d_nu]. repeat split; try easy;
    destruct (k_costate k) as [[ | | ]|]; reflexivity.
Qed.

(** Created through [guess_generator] the result is that of [setup]; it
    exists exactly when [setup] raises nothing. *)
Theorem C56_created : forall (F S : Type) (K : NumOps F) mode (kw : kwargs (F := F) (S := S)),
  neqb K (nofZ K 1) (n0 K) = false ->
  guess_generator K mode kw = match setup K mode kw (defaults K) with (g, None) => Ok g | (_, Some e) => Raise e end.
Proof.
  intros F S K mode kw N. unfold guess_generator, new_generator, setup at 1. cbn [String.eqb Ascii.eqb Bool.eqb orb].
  unfold setup_guess, no_kw. cbn. now rewrite N.
Qed.

(** Earlier settings never show through: after a [setup] that raises nothing
    the generated guess is the same whatever happened to the generator
    before. *)
Theorem C56_no_history : forall (F S : Type) (K : NumOps F) mode (kw : kwargs (F := F) (S := S)) g1 g2 g1' p n_p n_nu,
  g_dae g1 = g_dae g2 -> setup K mode kw g1 = (g1', None) ->
  exists g2', setup K mode kw g2 = (g2', None) /\ generate K g1' p n_p n_nu = generate K g2' p n_p n_nu.
Proof.
  intros F S K mode kw g1 g2 g1' p n_p n_nu E. unfold setup.
  destruct (String.eqb mode "auto" || String.eqb mode "ones")%bool eqn:M.
  - assert (A : forall k, setup_guess K k (set_mode mode g1) = (g1', None) ->
      exists g2', setup_guess K k (set_mode mode g2) = (g2', None) /\ generate K g1' p n_p n_nu = generate K g2' p n_p n_nu).
    { intros k. unfold setup_guess. cbv zeta. destruct (String.eqb (dflt "forward" (k_direction k)) "forward" || _)%bool; [|discriminate]. destruct (neqb _ _ _); [discriminate|].
      intros H. apply (f_equal fst) in H. cbn [fst] in H. subst g1'. eexists. split; [reflexivity|].
      unfold generate, data, tspan_end. cbn. rewrite E.
      destruct (String.eqb_spec mode "auto"), (String.eqb_spec mode "ones"); cbn in M; try discriminate; reflexivity. }
    destruct kw; [apply A|discriminate|apply A].
  - destruct (String.eqb_spec mode "static") as [->|]; [|discriminate].
    destruct kw as [|s|k]; [| |discriminate]; intros [= <-]; (eexists; split; [reflexivity|reflexivity]).
Qed.

(** What is rejected, and with which exception. *)
Theorem C56_rejected : forall (F S : Type) (K : NumOps F) mode (kw : kwargs (F := F) (S := S)) (g : gen),
  let k := match kw with KwGuess k => k | _ => no_kw end in
  match snd (setup K mode kw g) with
  | None => (is_guess_mode mode /\ (forall s, kw <> KwSolinit s) /\ ok_direction (dflt "forward" (k_direction k)) /\
             neqb K (dflt (nofZ K 1) (k_time k)) (n0 K) = false) \/ (mode = "static" /\ forall k, kw <> KwGuess k)
  | Some ValueError => (~ is_guess_mode mode /\ mode <> "static") \/
             (is_guess_mode mode /\ (~ ok_direction (dflt "forward" (k_direction k)) \/ neqb K (dflt (nofZ K 1) (k_time k)) (n0 K) = true))
  | Some TypeError => (is_guess_mode mode /\ exists s, kw = KwSolinit s) \/ (mode = "static" /\ exists k, kw = KwGuess k)
  | Some _ => False
  end.
Proof.
  intros F S K mode kw g k. subst k. unfold setup.
  destruct (String.eqb mode "auto" || String.eqb mode "ones")%bool eqn:M.
  - assert (G : is_guess_mode mode).
    { unfold is_guess_mode. apply orb_prop in M as [E|E]; apply String.eqb_eq in E; auto. }
    assert (A : forall k, match snd (setup_guess K k (set_mode mode g)) with
      | None => ok_direction (dflt "forward" (k_direction k)) /\ neqb K (dflt (nofZ K 1) (k_time k)) (n0 K) = false
      | Some ValueError => ~ ok_direction (dflt "forward" (k_direction k)) \/ neqb K (dflt (nofZ K 1) (k_time k)) (n0 K) = true
      | Some _ => False end).
    { intros k. pose proof (direction_cases (dflt "forward" (k_direction k))) as D. unfold setup_guess. cbv zeta.
      destruct (String.eqb (dflt "forward" (k_direction k)) "forward" || _)%bool; [|cbn; left; intuition discriminate].
      destruct (neqb K (dflt (nofZ K 1) (k_time k)) (n0 K)); cbn; intuition. }
    destruct kw as [|s|k]; cbn [snd]; [specialize (A no_kw)|now left; split; [exact G|exists s]|specialize (A k)].
    + destruct (snd _) as [[]|]; try contradiction; [right; auto|left]. repeat split; try tauto. intros s. discriminate.
    + destruct (snd _) as [[]|]; try contradiction; [right; auto|left]. repeat split; try tauto. intros s. discriminate.
  - assert (G : ~ is_guess_mode mode). { intros X. apply guess_mode_cases in X as [X _]. congruence. }
    destruct (String.eqb_spec mode "static") as [E|E].
    + destruct kw as [|s|k]; cbn; right; split; auto; try (intros; discriminate). now exists k.
    + cbn. left. auto.
Qed.

Definition kw_ex : guess_kw (F := Q) :=
  mkKw (Some [1; 2]%Q) (Some "reverse") (Some (-3)%Q) None (Some (GInt 2%Q)) None None (Some [7%Q]).
Example C56_settings_ex :
  (g <- guess_generator QOps "auto" (KwGuess (S := unit) kw_ex) ; generate QOps g None 1 0) =
  Ok (FromSettings (mkStart [0; -3]%Q [[1; 2]; [1; 2]]%Q [[2; 2]; [2; 2]]%Q [[]; []] [Some (GArr []); Some (GArr [])] [1%Q] [])).
Proof. vm_compute. reflexivity. Qed.
Example C56_ones_ex :
  (g <- guess_generator QOps "ones" (KwGuess (S := unit) kw_ex) ; generate QOps g None 0 0) =
  Ok (FromSettings (mkStart [0; -1; -2; -3]%Q (repeat [1; 2]%Q 4) (repeat [2; 2]%Q 4) (repeat [] 4) (repeat (Some (GArr [])) 4) [] [])).
Proof. vm_compute. reflexivity. Qed.

(** Given to the constructor, every setting is lost. *)
Theorem C56_constructor_ignores : forall (F S : Type) (K : NumOps F) mode (kw : kwargs (F := F) (S := S)) g,
  new_generator K mode kw = Ok g -> g = defaults K /\ forall n_p n_nu, generate K g None n_p n_nu = Ok NoStates.
Proof.
  intros F S K mode kw g. unfold new_generator. destruct (setup K mode kw (defaults K)) as [g' [e|]]; [discriminate|].
  intros [= <-]. split; [reflexivity|]. reflexivity.
Qed.
Theorem C56_constructor_refuted : exists (kw : kwargs (F := Q) (S := unit)) g g',
  new_generator QOps "ones" kw = Ok g /\ guess_generator QOps "ones" kw = Ok g' /\
  g_mode g <> "ones" /\ g_mode g' = "ones" /\ g_start g = None /\ g_start g' = Some [1; 2]%Q /\
  generate_in_solve QOps g <> generate_in_solve QOps g'.
Proof.
  exists (KwGuess kw_ex). eexists. eexists. split; [vm_compute; reflexivity|]. split; [vm_compute; reflexivity|].
  repeat split; try discriminate. 
Qed.

(** The parameter guess, the control guess of a scalar, and the flag for
    control guesses have no effect at all. *)
Theorem C56_param_ignored : forall (F S : Type) (K : NumOps F) (g : gen (F := F) (S := S)) pg use n_p n_nu p,
  generate K (mkGen (g_mode g) (g_solinit g) (g_direction g) (g_time g) (g_start g) (g_quad g) (g_costate g) pg (g_control g) use (g_dae g)) p n_p n_nu
  = generate K g p n_p n_nu.
Proof. reflexivity. Qed.
Theorem C56_solve_no_parameters : forall (F S : Type) (K : NumOps F) (g : gen (F := F) (S := S)) d,
  generate_in_solve K g = Ok (FromSettings d) -> d_p d = [] /\ d_nu d = [].
Proof.
  intros F S K g d. unfold generate_in_solve, generate.
  assert (A : forall n t, data K n t g None 0 0 = Ok (FromSettings d) -> d_p d = [] /\ d_nu d = []).
  { intros n t. unfold data. destruct (g_start g); [|destruct (g_costate g) as [[]|]; discriminate].
    cbn. destruct t; [|discriminate]. cbn. now intros [= <-]. }
  destruct (String.eqb _ "auto"); [apply A|]. destruct (String.eqb _ "ones"); [apply A|]. destruct (String.eqb _ "static"); discriminate.
Qed.
Theorem C56_control_empty : forall (F S : Type) (K : NumOps F) mode k x0 c (g g' : gen (F := F) (S := S)) d,
  is_guess_mode mode -> k_start k = Some x0 -> k_control k = Some (GFloat c) -> g_dae g = 0 ->
  setup K mode (KwGuess k) g = (g', None) -> generate_in_solve K g' = Ok (FromSettings d) ->
  forall u, In u (d_u d) -> u = Some (GArr []).
Proof.
  intros F S K mode k x0 c g g' d M X C E. destruct (guess_mode_cases mode M) as [M1 _]. unfold setup. rewrite M1.
  unfold setup_guess. cbv zeta. destruct (String.eqb (dflt "forward" (k_direction k)) "forward" || _)%bool; [|discriminate]. destruct (neqb _ _ _); [discriminate|]. intros [= <-].
  unfold generate_in_solve, generate, data. cbn. rewrite X, C, E. cbn.
  destruct M as [-> | ->]; cbn; intros [= <-] u; cbn; intuition.
Qed.

(** Witness: the parameter guess [7] and the default control guess 0.1 both vanish. *)
Theorem C56_param_refuted : exists (g : gen (F := Q) (S := unit)) d,
  guess_generator QOps "auto" (KwGuess kw_ex) = Ok g /\ k_param kw_ex = Some [7%Q] /\
  generate_in_solve QOps g = Ok (FromSettings d) /\ d_p d = [] /\ d_u d = [Some (GArr []); Some (GArr [])].
Proof. do 2 eexists. repeat split; vm_compute; reflexivity. Qed.

(** A rejected [setup] has already changed the generator. *)
Theorem C56_failed_setup_refuted : exists (g g' : gen (F := Q) (S := unit)) d d',
  guess_generator QOps "auto" (KwGuess (mkKw (Some [1; 2]%Q) None (Some 3%Q) None None None None None)) = Ok g /\
  setup QOps "auto" (KwGuess (mkKw None (Some "reverse") (Some 0%Q) None None None None None)) g = (g', Some ValueError) /\
  generate_in_solve QOps g = Ok (FromSettings d) /\ generate_in_solve QOps g' = Ok (FromSettings d') /\
  d_t d = [0; 3]%Q /\ d_t d' = [0; 0]%Q.
Proof. do 4 eexists. repeat split; vm_compute; reflexivity. Qed.
(** An unknown mode stays in the generator. *)
Theorem C56_failed_mode_kept : forall (F S : Type) (K : NumOps F) mode kw (g g' : gen (F := F) (S := S)),
  ~ is_guess_mode mode -> mode <> "static" -> setup K mode kw g = (g', Some ValueError) ->
  forall p n_p n_nu, generate K g' p n_p n_nu = Raise ValueError.
Proof.
  intros F S K mode kw g g' M N. unfold setup, is_guess_mode in *.
  destruct (String.eqb_spec mode "auto"), (String.eqb_spec mode "ones"), (String.eqb_spec mode "static"); cbn; try tauto.
  intros [= <-] p n_p n_nu. unfold generate. cbn.
  destruct (String.eqb_spec mode "auto"), (String.eqb_spec mode "ones"), (String.eqb_spec mode "static"); tauto.
Qed.

(** Static mode.  If mapping leaves the user's trajectory as it was, every
    guess is that trajectory mapped once, however often it is generated. *)
Lemma apply_map_again : forall {F} (K : NumOps F) m s m' s', apply_map K m s = Ok (m', s') -> apply_map K m' s = Ok (m', s').
Proof.
  intros F K m s m' s'. destruct m; cbn [apply_map]; try (intros H; pose proof H as H1; revert H; unfold with_mapper;
    match goal with |- bind ?r _ = _ -> _ => destruct r as [x|e] eqn:E end; cbn [bind]; [|discriminate];
    intros [= <- <-]; cbn [apply_map]; unfold with_mapper; now rewrite E).
  - intros [= <- <-]. reflexivity.
  - unfold ms_map. destruct i as [j|].
    + cbn [bind]. cbv zeta. destruct (insert_col (s_y _) j _) as [y|e] eqn:E1; [|discriminate]. cbn [bind].
      destruct (insert_col (s_dual _) j _) as [d|e] eqn:E2; [|discriminate]. cbn [bind fst snd]. intros [= <- <-]. cbn [apply_map].
      unfold ms_map. cbn [bind]. cbv zeta. rewrite E1. cbn [bind]. rewrite E2. reflexivity.
    + destruct (acols (s_y s)) as [j|e] eqn:E0; [|discriminate]. cbn [bind]. cbv zeta.
      destruct (insert_col (s_y _) j _) as [y|e] eqn:E1; [|discriminate]. cbn [bind].
      destruct (insert_col (s_dual _) j _) as [d|e] eqn:E2; [|discriminate]. cbn [bind fst snd]. intros [= <- <-]. cbn [apply_map].
      unfold ms_map. cbn [bind]. cbv zeta. rewrite E1. cbn [bind]. rewrite E2. reflexivity.
  - unfold nt_map. cbv zeta. destruct (get (s_t s) 0) as [t0|e] eqn:E0; [|discriminate]. cbn [bind].
    destruct (get (s_t s) (length (s_t s) - 1)) as [tf|e] eqn:E1; [|discriminate]. cbn [bind].
    destruct (np_insert (s_p s) _ _) as [q|e] eqn:E2; [|discriminate]. cbn [bind fst snd]. intros [= <- <-]. cbn [apply_map].
    unfold nt_map. cbv zeta. rewrite E0. cbn [bind]. rewrite E1. cbn [bind]. rewrite E2. reflexivity.
  - intros [= <- <-]. reflexivity.
Qed.
Lemma copies_kept : forall {F} (K : NumOps F) m s m' s', apply_map K m s = Ok (m', s') -> copies m' = copies m.
Proof.
  intros F K m s m' s'. destruct m; cbn [apply_map]; unfold with_mapper;
    try (match goal with |- bind ?r _ = _ -> _ => destruct r as [x|e] end; cbn [bind]; [|discriminate]); now intros [= <- <-].
Qed.
Lemma run_again : forall {F} (K : NumOps F) ms ps ms' ps', run_pass (apply_map K) ms ps = Ok (ms', ps') -> run_pass (apply_map K) ms' ps = Ok (ms', ps').
Proof.
  intros F K ms. induction ms as [|m ms IH]; intros ps ms' ps'; cbn [run_pass]; [now intros [= <- <-]|]. unfold step_pass.
  destruct (apply_map K m (cur ps)) as [[m1 s1]|e] eqn:A; [|discriminate]. cbn [bind fst snd].
  destruct (run_pass (apply_map K) ms _) as [[ms1 ps1]|e] eqn:R; [|discriminate]. cbn [bind fst snd]. intros [= <- <-].
  cbn [run_pass]. unfold step_pass. rewrite (apply_map_again _ _ _ _ _ A). cbn [bind fst snd]. rewrite (copies_kept _ _ _ _ _ A).
  rewrite (IH _ _ _ R). reflexivity.
Qed.
Theorem C56_static : forall (F : Type) (K : NumOps F) chain chain' user r n,
  map_sol K chain user = Ok (chain', r, user) -> static_runs K n chain user = Ok (repeat r n).
Proof.
  intros F K chain chain' user r n H.
  assert (A : map_sol K chain' user = Ok (chain', r, user)).
  { unfold map_sol in *. destruct (run_pass _ chain _) as [[ms ps]|e] eqn:R; [|discriminate]. cbn [bind fst snd] in H.
    injection H as H1 H2 H3. subst chain'. rewrite (run_again _ _ _ _ _ R). cbn. now rewrite H2, H3. }
  assert (B : forall n, static_runs K n chain' user = Ok (repeat r n)).
  { clear - A. induction n as [|n IH]; [reflexivity|]. cbn [static_runs]. rewrite A. cbn [bind]. now rewrite IH. }
  destruct n as [|n]; [reflexivity|]. cbn [static_runs]. rewrite H. cbn [bind]. now rewrite B.
Qed.
(** A chain that starts with time normalisation qualifies. *)
Lemma run_other : forall {F} (app : mapper F -> sol F -> res (mapper F * sol F)) ms ps ms' ps',
  same ps = false -> run_pass app ms ps = Ok (ms', ps') -> arg ps' = arg ps.
Proof.
  intros F app ms. induction ms as [|m ms IH]; intros ps ms' ps' S; cbn [run_pass]; [now intros [= <- <-]|]. unfold step_pass.
  destruct (app m (cur ps)) as [[m1 s1]|e]; [|discriminate]. cbn [bind fst snd].
  rewrite S. cbn [andb]. destruct (run_pass app ms _) as [[ms1 ps1]|e] eqn:R; [|discriminate]. cbn [bind fst snd]. intros [= <- <-].
  apply IH in R; [exact R|reflexivity].
Qed.
Theorem C56_static_normalised : forall (F : Type) (K : NumOps F) i chain chain' user user' r n,
  map_sol K (MNormalizeTime i :: chain) user = Ok (chain', r, user') -> static_runs K n (MNormalizeTime i :: chain) user = Ok (repeat r n).
Proof.
  intros F K i chain chain' user user' r n H. assert (E : user' = user).
  { unfold map_sol in H. cbn [run_pass] in H. unfold step_pass in H.
    destruct (apply_map K (MNormalizeTime i) (cur (mkPass user user true))) as [[m1 s1]|e]; [|discriminate].
    cbn [bind fst snd copies negb andb same arg] in H.
    destruct (run_pass (apply_map K) chain _) as [[ms1 ps1]|e] eqn:R; [|discriminate]. cbn [bind fst snd] in H.
    injection H as _ _ H. apply run_other in R; [|reflexivity]. cbn in R. congruence. }
  subst user'. eapply C56_static, H.
Qed.
(** With a time-dependent problem the first mapper adds the time to the
    user's trajectory itself, so the second guess has it twice. *)
Theorem C56_static_refuted : exists (chain : list (mapper Q)) user a b,
  chain = [MMomentumShift None; MNormalizeTime None] /\ static_runs QOps 2 chain user = Ok [a; b] /\
  s_y user = Mat 1 [[5]; [6]]%Q /\ s_y a = Mat 2 [[5; 0]; [6; 2]]%Q /\ s_y b = Mat 3 [[5; 0; 0]; [6; 2; 2]]%Q.
Proof.
  exists [MMomentumShift None; MNormalizeTime None],
    (mkSol [0; 2]%Q [] (Mat 1 [[5]; [6]]%Q) (Mat 1 [[7]; [8]]%Q) (Mat 0 [[]; []]) (Mat 0 [[]; []]) (Mat 0 [[]; []]) [] [] [] 0%Q).
  do 2 eexists. split; [reflexivity|]. split; [vm_compute; reflexivity|]. repeat split.
Qed.
Example C56_static_ex : exists a, static_runs QOps 2 [MNormalizeTime None; MMomentumShift None]
  (mkSol [0; 2]%Q [] (Mat 1 [[5]; [6]]%Q) (Mat 1 [[7]; [8]]%Q) (Mat 0 [[]; []]) (Mat 0 [[]; []]) (Mat 0 [[]; []]) [] [] [] 0%Q) = Ok [a; a].
Proof. eexists. vm_compute. reflexivity. Qed.

(** ** C57 *)
Lemma append_inj_r : forall a b suf, (a ++ suf)%string = (b ++ suf)%string -> a = b.
Proof.
  assert (L : forall a b, String.length (a ++ b) = String.length a + String.length b).
  { induction a; cbn; congruence. }
  induction a as [|x a IH]; intros [|y b] suf H; cbn in *; auto.
  - exfalso. apply (f_equal String.length) in H. cbn in H. rewrite L in H. lia.
  - exfalso. apply (f_equal String.length) in H. cbn in H. rewrite L in H. lia.
  - injection H as -> H. f_equal. eauto.
Qed.
Lemma suffix_differs : forall a b, (a ++ "_0")%string <> (b ++ "_f")%string.
Proof.
  assert (L : forall a b, String.length (a ++ b) = String.length a + String.length b).
  { induction a; cbn; congruence. }
  induction a as [|x a IH]; intros [|y b] H; cbn in *.
  - discriminate.
  - apply (f_equal String.length) in H. cbn in H. rewrite L in H. cbn in H. lia.
  - apply (f_equal String.length) in H. cbn in H. rewrite L in H. cbn in H. lia.
  - injection H as -> H. exact (IH b H).
Qed.
Lemma put_new : forall {F} n (v : F) d, ~ In n (map fst d) -> put n v d = d ++ [(n, v)].
Proof.
  intros F n v d. induction d as [|[m w] d IH]; cbn; [reflexivity|]. intros H.
  destruct (String.eqb_spec n m); [subst; tauto|]. f_equal. tauto.
Qed.
Lemma dict_of_nodup : forall {F} (l : list (string * F)), NoDup (map fst l) -> dict_of l = l.
Proof.
  intros F l N. unfold dict_of.
  assert (A : forall l d : list (string * F), NoDup (map fst (d ++ l)) -> fold_left (fun d p => put (fst p) (snd p) d) l d = d ++ l).
  { clear. induction l as [|[n v] l IH]; intros d N; cbn [fold_left fst snd]; [now rewrite app_nil_r|].
    rewrite put_new.
    - rewrite IH; [now rewrite <- app_assoc|]. rewrite <- app_assoc. exact N.
    - rewrite map_app in N. cbn in N. apply NoDup_remove_2 in N. intros I. apply N, in_or_app. now left. }
  exact (A l [] N).
Qed.
Lemma assign_spec : forall {F} suf constants (bcs : list (string * F)) k,
  NoDup constants -> NoDup (map fst bcs) -> length k = length constants ->
  exists k', assign suf constants bcs k = Ok k' /\ length k' = length k /\
  forall j c, nth_error constants j = Some c ->
    (exists s v, In (s, v) bcs /\ c = (s ++ suf)%string /\ nth_error k' j = Some v) \/
    ((forall s v, In (s, v) bcs -> c <> (s ++ suf)%string) /\ nth_error k' j = nth_error k j).
Proof.
  intros F suf constants bcs. induction bcs as [|[s v] bcs IH]; intros k NC NB L; cbn [assign].
  { exists k. split; [reflexivity|]. split; [reflexivity|]. intros j c _. right. now split. }
  cbn in NB. inversion_clear NB as [|? ? NI NB']. destruct (index_of (s ++ suf) constants) as [i|e] eqn:I.
  - pose proof (index_of_lt _ _ _ I) as LT. destruct (set_nth_exists k i v) as [k1 K1]; [lia|]. rewrite K1. cbn [bind].
    destruct (set_nth_ok _ _ _ _ K1) as (L1 & _ & S1).
    destruct (IH k1 NC NB' ltac:(lia)) as (k' & A & L' & P). exists k'. split; [exact A|]. split; [lia|].
    intros j c J. destruct (P j c J) as [(s' & v' & Hin & E & V)|[Hno V]].
    + left. exists s', v'. cbn. auto.
    + destruct (Nat.eq_dec j i) as [->|NE].
      * left. exists s, v. apply index_of_nth in I. rewrite I in J. injection J as <-. repeat split; [now left|].
        rewrite V, S1. now rewrite Nat.eqb_refl.
      * right. split.
        -- intros s' v' [[= <- <-]|Hin]; [|eauto]. intros ->. apply NE. apply (index_of_NoDup _ _ _ NC) in J. congruence.
        -- rewrite V, S1. now destruct (Nat.eqb_spec j i).
  - destruct (IH k NC NB' L) as (k' & A & L' & P). exists k'. split; [exact A|]. split; [exact L'|].
    intros j c J. destruct (P j c J) as [(s' & v' & Hin & E & V)|[Hno V]].
    + left. exists s', v'. cbn. auto.
    + right. split; [|exact V]. intros s' v' [[= <- <-]|Hin]; [|eauto]. intros ->.
      apply nth_error_In, index_of_In in J as [j' J]. congruence.
Qed.

Lemma combine_names : forall {F} (states : list string) ind (row : list F) t, length row = length states ->
  map fst (combine (states ++ [ind]) (row ++ [t])) = states ++ [ind].
Proof.
  intros F states ind row t. revert row. induction states as [|s states IH]; intros [|r row] H; cbn in *; try discriminate; [reflexivity|].
  f_equal. apply IH. lia.
Qed.
Lemma combine_values : forall {F} (states : list string) ind (row : list F) t s v, length row = length states ->
  In (s, v) (combine (states ++ [ind]) (row ++ [t])) ->
  (exists i, nth_error states i = Some s /\ nth_error row i = Some v) \/ (s = ind /\ v = t).
Proof.
  intros F states ind row t s v. revert row. induction states as [|a states IH]; intros [|r row] H; cbn in *; try discriminate.
  - intros [[= -> ->]|[]]. now right.
  - intros [[= -> ->]|Hin]; [left; now exists 0|]. destruct (IH row ltac:(lia) Hin) as [(i & A & B)|E]; [left; now exists (Datatypes.S i)|now right].
Qed.
Lemma combine_has : forall {F} (states : list string) ind (row : list F) t s, length row = length states ->
  In s (states ++ [ind]) -> exists v, In (s, v) (combine (states ++ [ind]) (row ++ [t])).
Proof.
  intros F states ind row t s H I. rewrite <- (combine_names states ind row t H) in I. apply in_map_iff in I as [[s' v] [E I]].
  cbn in E. subst. eauto.
Qed.

(** Every constant named after a state (or the independent variable) with
    the suffix [_0] gets its first value, with [_f] its last value; every
    other constant keeps its value. *)
Theorem C57_matched : forall (F : Type) states ind constants (t : list F) y k y0 yf t0 tf,
  NoDup (states ++ [ind]) -> NoDup constants -> length k = length constants ->
  nth_error y 0 = Some y0 -> nth_error y (length y - 1) = Some yf -> nth_error t 0 = Some t0 -> nth_error t (length t - 1) = Some tf ->
  length y0 = length states -> length yf = length states ->
  exists k', match_constants states ind constants t y k = Ok k' /\ length k' = length k /\
  forall j c, nth_error constants j = Some c ->
    (forall i s, nth_error states i = Some s -> c = (s ++ "_0")%string -> nth_error k' j = nth_error y0 i) /\
    (forall i s, nth_error states i = Some s -> c = (s ++ "_f")%string -> nth_error k' j = nth_error yf i) /\
    (c = (ind ++ "_0")%string -> nth_error k' j = Some t0) /\
    (c = (ind ++ "_f")%string -> nth_error k' j = Some tf) /\
    ((forall s, In s (states ++ [ind]) -> c <> (s ++ "_0")%string /\ c <> (s ++ "_f")%string) -> nth_error k' j = nth_error k j).
Proof.
  intros F states ind constants t y k y0 yf t0 tf NS NC L Y0 YF T0 TF W0 WF. unfold match_constants.
  rewrite (get_some _ _ _ Y0), (get_some _ _ _ YF), (get_some _ _ _ T0), (get_some _ _ _ TF). cbn [bind]. cbv zeta.
  rewrite !dict_of_nodup by (rewrite combine_names by assumption; exact NS).
  destruct (assign_spec "_0" constants (combine (states ++ [ind]) (y0 ++ [t0])) k NC) as (k1 & A1 & L1 & P1);
    [rewrite combine_names by assumption; exact NS|exact L|].
  rewrite A1. cbn [bind].
  destruct (assign_spec "_f" constants (combine (states ++ [ind]) (yf ++ [tf])) k1 NC) as (k' & A2 & L2 & P2);
    [rewrite combine_names by assumption; exact NS|lia|].
  rewrite A2. exists k'. split; [reflexivity|]. split; [lia|]. intros j c J.
  assert (ND : NoDup states). { pose proof (NoDup_remove_1 states [] ind NS) as X. now rewrite app_nil_r in X. }
  assert (U : forall i i' s, nth_error states i = Some s -> nth_error states i' = Some s -> i = i').
  { intros i i' s I1 I2. apply (proj1 (NoDup_nth_error states) ND i i').
    - apply nth_error_Some. congruence.
    - congruence. }
  assert (NI : forall i, nth_error states i <> Some ind).
  { intros i I. apply NoDup_remove_2 in NS. rewrite app_nil_r in NS. apply NS. eapply nth_error_In, I. }
  assert (Q0 : forall s v, In (s, v) (combine (states ++ [ind]) (y0 ++ [t0])) -> c = (s ++ "_0")%string -> nth_error k' j = Some v ->
     (forall i s', nth_error states i = Some s' -> c = (s' ++ "_0")%string -> nth_error k' j = nth_error y0 i) /\
     (c = (ind ++ "_0")%string -> nth_error k' j = Some t0)).
  { intros s v Hin -> V. apply (combine_values _ _ _ _ _ _ W0) in Hin. split.
    - intros i s' I E. apply append_inj_r in E. subst s'. destruct Hin as [(i' & I' & R)|[-> _]]; [|now destruct (NI i)].
      rewrite (U i i' s I I'). congruence.
    - intros E. apply append_inj_r in E. subst s. destruct Hin as [(i' & I' & R)|[_ ->]]; [now destruct (NI i')|exact V]. }
  assert (QF : forall s v, In (s, v) (combine (states ++ [ind]) (yf ++ [tf])) -> c = (s ++ "_f")%string -> nth_error k' j = Some v ->
     (forall i s', nth_error states i = Some s' -> c = (s' ++ "_f")%string -> nth_error k' j = nth_error yf i) /\
     (c = (ind ++ "_f")%string -> nth_error k' j = Some tf)).
  { intros s v Hin -> V. apply (combine_values _ _ _ _ _ _ WF) in Hin. split.
    - intros i s' I E. apply append_inj_r in E. subst s'. destruct Hin as [(i' & I' & R)|[-> _]]; [|now destruct (NI i)].
      rewrite (U i i' s I I'). congruence.
    - intros E. apply append_inj_r in E. subst s. destruct Hin as [(i' & I' & R)|[_ ->]]; [now destruct (NI i')|exact V]. }
  assert (IS : forall i s, nth_error states i = Some s -> In s (states ++ [ind])).
  { intros i s I. apply in_or_app. left. eapply nth_error_In, I. }
  assert (II : In ind (states ++ [ind])). { apply in_or_app. right. now left. }
  destruct (P2 j c J) as [(s & v & Hin & E & V)|[N2 V2]].
  - destruct (QF s v Hin E V) as [B1 B2]. repeat split; auto.
    + intros i s' _ E'. subst c. now destruct (suffix_differs s' s).
    + intros E'. subst c. now destruct (suffix_differs ind s).
    + intros H. exfalso. assert (IN : In s (states ++ [ind])).
      { rewrite <- (combine_names states ind yf tf WF). apply in_map_iff. exists (s, v). auto. }
      destruct (H s IN) as [_ X]. auto.
  - assert (NF : forall s, In s (states ++ [ind]) -> c <> (s ++ "_f")%string).
    { intros s I. destruct (combine_has _ _ _ tf _ WF I) as [v Hin]. eauto. }
    destruct (P1 j c J) as [(s & v & Hin & E & V)|[N1 V1]].
    + rewrite <- V2 in V. destruct (Q0 s v Hin E V) as [B1 B2]. repeat split; auto.
      * intros i s' I E'. destruct (NF s' (IS i s' I) E').
      * intros E'. destruct (NF ind II E').
      * intros H. exfalso. assert (IN : In s (states ++ [ind])).
        { rewrite <- (combine_names states ind y0 t0 W0). apply in_map_iff. exists (s, v). auto. }
        destruct (H s IN) as [X _]. auto.
    + assert (N0 : forall s, In s (states ++ [ind]) -> c <> (s ++ "_0")%string).
      { intros s I. destruct (combine_has _ _ _ t0 _ W0 I) as [v Hin]. eauto. }
      repeat split.
      * intros i s I E. destruct (N0 s (IS i s I) E).
      * intros i s I E. destruct (NF s (IS i s I) E).
      * intros E. destruct (N0 ind II E).
      * intros E. destruct (NF ind II E).
      * congruence.
Qed.

Example C57_ex :
  match_constants ["x"; "v"] "t" ["g"; "v_f"; "x_0"; "t_f"; "x_1"] [0; 1; 2]%Q [[3; 4]; [5; 6]; [7; 8]]%Q [9; 9; 9; 9; 9]%Q
  = Ok [9; 8; 3; 2; 9]%Q.
Proof. reflexivity. Qed.

(** Without one column per state the values move on to the wrong names: here
    the first value of [v] is taken from the time. *)
Theorem C57_short_rows_refuted : exists k,
  match_constants ["x"; "v"] "t" ["v_0"; "t_0"] [1; 2]%Q [[3]; [5]]%Q [9; 9]%Q = Ok k /\ k = [1; 9]%Q.
Proof. eexists. split; reflexivity. Qed.

Print Assumptions C56_settings_used.
Print Assumptions C56_created.
Print Assumptions C56_no_history.
Print Assumptions C56_rejected.
Print Assumptions C56_constructor_ignores.
Print Assumptions C56_constructor_refuted.
Print Assumptions C56_param_ignored.
Print Assumptions C56_solve_no_parameters.
Print Assumptions C56_control_empty.
Print Assumptions C56_param_refuted.
Print Assumptions C56_failed_setup_refuted.
Print Assumptions C56_failed_mode_kept.
Print Assumptions C56_static.
Print Assumptions C56_static_normalised.
Print Assumptions C56_static_refuted.
Print Assumptions C57_matched.
Print Assumptions C57_short_rows_refuted.
