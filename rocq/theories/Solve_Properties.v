(** C59, C60, C72, C73: storage and the top-level driver. *)
From Verif Require Import Base Base_Facts Sym_Model Solve_Model.
Open Scope string_scope.
Open Scope list_scope.
Open Scope nat_scope.

(** ** C59 *)
(** A serialiser: what it writes can be read back, and a file cut short cannot
    be read (a pickle ends with its only STOP opcode). *)
Definition pickler {V} (dump : list (string * V) -> list nat * option exn) (parse : list nat -> res (list (string * V))) : Prop :=
  (forall d bs, dump d = (bs, None) -> parse bs = Ok d) /\
  (forall d k, k < length (fst (dump d)) -> exists e, parse (firstn k (fst (dump d))) = Raise e) /\
  (forall d bs e, dump d = (bs, Some e) -> exists e', parse bs = Raise e').

Section C59.
  Variable V : Type.
  Variable open_err : string -> option exn.
  Variable dump : list (string * V) -> list nat * option exn.
  Variable parse : list nat -> res (list (string * V)).
  Hypothesis Hp : pickler dump parse.

  (** A completed save is read back exactly; other files are untouched. *)
  Theorem C59_round_trip : forall s s' sol ocp bvp name, save V open_err dump s sol ocp bvp name = (s', Ok tt) ->
    (exists d, load V parse s' name = Ok d /\ lookup V d "solutions" = sol /\ lookup V d "ocp" = ocp /\ lookup V d "bvp" = bvp /\
       (forall key, key <> "solutions" -> key <> "ocp" -> key <> "bvp" -> lookup V d key = None)) /\
    (forall n, n <> name -> s' n = s n).
  Proof.
    intros s s' sol ocp bvp name H. unfold save in H. destruct (open_err name); [discriminate|]. destruct (dump (save_dict V sol ocp bvp)) as [bs [e|]] eqn:E; [discriminate|].
    apply (f_equal fst) in H. cbn in H. subst s'. split.
    - exists (save_dict V sol ocp bvp). split; [unfold load, put; rewrite String.eqb_refl; now apply (proj1 Hp)|].
      destruct sol, ocp, bvp; cbn; repeat split; intros key K1 K2 K3;
        rewrite ?(proj2 (String.eqb_neq _ _) K1), ?(proj2 (String.eqb_neq _ _) K2), ?(proj2 (String.eqb_neq _ _) K3); reflexivity.
    - intros n N. unfold put. now rewrite (proj2 (String.eqb_neq _ _) N).
  Qed.
  (** A file that cannot be opened is left alone. *)
  Theorem C59_not_opened : forall s sol ocp bvp name e, open_err name = Some e -> save V open_err dump s sol ocp bvp name = (s, Raise e).
  Proof. intros s sol ocp bvp name e H. unfold save. now rewrite H. Qed.

  (** The crash points: old contents before the file is opened, new contents
      after the last byte, and no readable contents anywhere in between. *)
  Theorem C59_crash_points : forall k s sol ocp bvp name,
    open_err name = None -> snd (dump (save_dict V sol ocp bvp)) = None ->
    let len := length (fst (dump (save_dict V sol ocp bvp))) in
    (k = 0 -> load V parse (crash_save V open_err dump k s sol ocp bvp name) name = load V parse s name) /\
    (len < k -> load V parse (crash_save V open_err dump k s sol ocp bvp name) name = Ok (save_dict V sol ocp bvp)) /\
    (0 < k <= len -> exists e, load V parse (crash_save V open_err dump k s sol ocp bvp name) name = Raise e) /\
    (forall n, n <> name -> crash_save V open_err dump k s sol ocp bvp name n = s n).
  Proof.
    intros k s sol ocp bvp name O D len. unfold len, load, crash_save. rewrite O. split; [now intros ->|]. destruct k as [|k].
    - split; [lia|]. split; [lia|]. reflexivity.
    - unfold put. rewrite String.eqb_refl. split; [|split].
      + intros L. rewrite firstn_all2 by lia. apply (proj1 Hp). destruct (dump (save_dict V sol ocp bvp)) as [bs o]. cbn in *. now subst.
      + intros L. apply (proj1 (proj2 Hp)). lia.
      + intros n N. now rewrite (proj2 (String.eqb_neq _ _) N).
  Qed.
  (** So every interrupted save loses what was stored before, and a value that
      cannot be serialised does the same without any crash. *)
  Theorem C59_crash_refuted : forall s sol ocp bvp name d,
    open_err name = None -> load V parse s name = Ok d -> snd (dump (save_dict V sol ocp bvp)) = None -> fst (dump (save_dict V sol ocp bvp)) <> [] ->
    exists k e, load V parse (crash_save V open_err dump k s sol ocp bvp name) name = Raise e.
  Proof.
    intros s sol ocp bvp name d O L D NE. destruct (C59_crash_points 1 s sol ocp bvp name O D) as (_ & _ & H & _).
    destruct H as (e & H). { destruct (fst (dump (save_dict V sol ocp bvp))); [easy|cbn; lia]. }
    now exists 1, e.
  Qed.
  Theorem C59_unserialisable_refuted : forall s sol ocp bvp name e d,
    open_err name = None -> load V parse s name = Ok d -> snd (dump (save_dict V sol ocp bvp)) = Some e ->
    exists s' e', save V open_err dump s sol ocp bvp name = (s', Raise e) /\ load V parse s' name = Raise e'.
  Proof.
    intros s sol ocp bvp name e d O L D. unfold save. rewrite O. destruct (dump (save_dict V sol ocp bvp)) as [bs o] eqn:E. cbn in D. subst o.
    destruct (proj2 (proj2 Hp) _ _ _ E) as (e' & H). exists (put s name bs), e'. split; [reflexivity|]. unfold load, put. now rewrite String.eqb_refl.
  Qed.
End C59.
Print Assumptions C59_round_trip.
Print Assumptions C59_not_opened.
Print Assumptions C59_crash_points.
Print Assumptions C59_crash_refuted.
Print Assumptions C59_unserialisable_refuted.

(** *** Example: a serialiser with a STOP byte; the value 7 cannot be serialised. *)
Fixpoint str_bytes (s : string) : list nat := match s with EmptyString => [] | String c s' => S (Ascii.nat_of_ascii c) :: str_bytes s' end.
Fixpoint dump_ex (d : list (string * nat)) : list nat * option exn :=
  match d with
  | [] => ([0], None)
  | (k, v) :: d' => if Nat.eqb v 7 then ([length (str_bytes k) + 1], Some TypeError)
                    else let '(bs, e) := dump_ex d' in ((length (str_bytes k) + 1) :: str_bytes k ++ v :: bs, e)
  end.
Fixpoint bytes_str (l : list nat) : string := match l with [] => EmptyString | n :: l' => String (Ascii.ascii_of_nat (n - 1)) (bytes_str l') end.
Fixpoint parse_fuel (fuel : nat) (bs : list nat) : res (list (string * nat)) :=
  match fuel, bs with
  | O, _ | _, [] => Raise ValueError
  | S f, 0 :: _ => Ok []
  | S f, S n :: bs' =>
      match skipn n bs' with
      | [] => Raise ValueError
      | v :: rest => d <- parse_fuel f rest ; Ok ((bytes_str (firstn n bs'), v) :: d)
      end
  end.
Definition parse_ex (bs : list nat) : res (list (string * nat)) := parse_fuel (S (length bs)) bs.
Lemma bytes_str_bytes s : bytes_str (str_bytes s) = s.
Proof. induction s as [|c s IH]; [reflexivity|]. cbn. now rewrite Nat.sub_0_r, Ascii.ascii_nat_embedding, IH. Qed.
Lemma parse_more f bs g d : parse_fuel f bs = Ok d -> f <= g -> parse_fuel g bs = Ok d.
Proof.
  revert bs g d. induction f as [|f IH]; intros bs g d H L; [discriminate|]. destruct g as [|g]; [lia|]. destruct bs as [|[|n] bs]; try exact H.
  cbn in *. destruct (skipn n bs) as [|v rest]; [discriminate|]. destruct (parse_fuel f rest) as [d'|] eqn:E; [|discriminate].
  rewrite (IH rest g d' E) by lia. exact H.
Qed.
Lemma skip_str k v bs : skipn (length (str_bytes k)) (str_bytes k ++ v :: bs) = v :: bs.
Proof. rewrite skipn_app, skipn_all, Nat.sub_diag. reflexivity. Qed.
Lemma first_str k (bs : list nat) : firstn (length (str_bytes k)) (str_bytes k ++ bs) = str_bytes k.
Proof. rewrite firstn_app, firstn_all, Nat.sub_diag. cbn. apply app_nil_r. Qed.
Lemma parse_step f k v bs : parse_fuel (S f) (S (length (str_bytes k)) :: str_bytes k ++ v :: bs) = (d <- parse_fuel f bs ; Ok ((k, v) :: d)).
Proof. cbn [parse_fuel]. rewrite skip_str, first_str, bytes_str_bytes. reflexivity. Qed.
Lemma dump_parse d bs : dump_ex d = (bs, None) -> parse_fuel (S (length bs)) bs = Ok d.
Proof.
  revert bs. induction d as [|[k v] d IH]; intros bs H; cbn in H; [injection H as <-; reflexivity|].
  destruct (Nat.eqb v 7); [discriminate|]. destruct (dump_ex d) as [bs' e] eqn:E. injection H as <- ->. rewrite Nat.add_1_r.
  rewrite parse_step. rewrite (parse_more _ _ _ _ (IH bs' eq_refl)); [reflexivity|].
  cbn [length]. rewrite app_length. cbn. lia.
Qed.
Lemma dump_cut d k f : k < length (fst (dump_ex d)) -> exists e, parse_fuel f (firstn k (fst (dump_ex d))) = Raise e.
Proof.
  revert k f. induction d as [|[key v] d IH]; intros k f L; cbn in L |- *.
  - assert (k = 0) by lia. subst. destruct f; eexists; reflexivity.
  - destruct (Nat.eqb v 7); [cbn in L; assert (k = 0) by lia; subst; destruct f; eexists; reflexivity|].
    destruct (dump_ex d) as [bs e]. cbn [fst] in *. destruct k as [|k]; [destruct f; eexists; reflexivity|]. rewrite Nat.add_1_r in *. cbn [firstn].
    destruct f as [|f]; [eexists; reflexivity|]. cbn [parse_fuel]. cbn in L. rewrite app_length in L. cbn in L.
    destruct (Nat.lt_ge_cases (length (str_bytes key)) k) as [C|C].
    + rewrite skipn_firstn_comm, skip_str. destruct (k - length (str_bytes key)) as [|m] eqn:Em; [lia|]. cbn [firstn].
      destruct (IH m f) as (e' & ->); [lia|]. eexists. reflexivity.
    + rewrite (skipn_all2 (n := length (str_bytes key))) by (rewrite firstn_length; lia). eexists. reflexivity.
Qed.
Lemma dump_error d bs e f : dump_ex d = (bs, Some e) -> exists e', parse_fuel f bs = Raise e'.
Proof.
  revert bs f. induction d as [|[k v] d IH]; intros bs f H; cbn in H; [discriminate|]. destruct (Nat.eqb v 7).
  - injection H as <- <-. rewrite Nat.add_1_r. destruct f as [|f]; [eexists; reflexivity|]. cbn. destruct (str_bytes k); eexists; reflexivity.
  - destruct (dump_ex d) as [bs' e'] eqn:E. injection H as <- ->. rewrite Nat.add_1_r. destruct f as [|f]; [eexists; reflexivity|].
    cbn [parse_fuel]. rewrite skip_str. destruct (IH bs' f eq_refl) as (e'' & ->). eexists. reflexivity.
Qed.
Example C59_pickler_ex : pickler dump_ex parse_ex.
Proof.
  split; [|split].
  - intros d bs H. now apply dump_parse.
  - intros d k L. now apply dump_cut.
  - intros d bs e H. now apply (dump_error d bs e).
Qed.
Example C59_crash_ex :
  let s := fst (save nat (fun _ => None) dump_ex (fun _ => None) (Some 3) (Some 1) None "data.beluga") in
  load nat parse_ex s "data.beluga" = Ok [("solutions", 3); ("ocp", 1)] /\
  load nat parse_ex (crash_save nat (fun _ => None) dump_ex 6 s (Some 4) (Some 1) None "data.beluga") "data.beluga" = Raise ValueError /\
  load nat parse_ex (fst (save nat (fun _ => None) dump_ex s (Some 7) (Some 1) None "data.beluga")) "data.beluga" = Raise ValueError.
Proof. repeat split; vm_compute; reflexivity. Qed.

(** ** C60 *)
Definition is_save (c : call) : Prop := exists name, c = SaveOut name.
Section C60.
  Variable fails : call -> option exn.
  Local Notation "m ;; f" := (andthen m (fun _ => f)) (at level 61, right associativity).
  Definition quiet (m : eff unit) : Prop := ~ In PoolClose (fst m) /\ ~ In PoolCreate (fst m).
  (** How a computation that has the pool ends. *)
  Definition ends (m : eff unit) : Prop :=
    match m with
    | (t, Ok _) => exists t1 t2, t = t1 ++ PoolClose :: t2 /\ In RunContinuations t1 /\ ~ In PoolClose (t1 ++ t2) /\ ~ In PoolCreate (t1 ++ t2) /\ Forall is_save t2
    | (t, Raise e) => (~ In PoolClose t \/ exists c, In c t /\ fails c = Some e /\ (c = PoolClose \/ is_save c)) /\ ~ In PoolCreate t
    end.
  Lemma seq_ends m (f : eff unit) : quiet m -> ends f -> ends (m ;; f).
  Proof.
    intros [Q1 Q2] E. destruct m as [t [[]|e]]; cbn in *; [|now split; [left|]]. destruct f as [t' [[]|e']]; cbn in *.
    - destruct E as (t1 & t2 & -> & R & N1 & N2 & S). exists (t ++ t1), t2. rewrite <- !app_assoc, !in_app_iff in *. repeat split; auto; tauto.
    - destruct E as ([E|(c & I & Fc & D)] & N); rewrite !in_app_iff; (split; [|tauto]); [left; tauto|right; exists c; rewrite in_app_iff; tauto].
  Qed.
  Lemma seq_quiet m f : quiet m -> quiet f -> quiet (m ;; f).
  Proof. intros [A B] [C D]. destruct m as [t [[]|e]]; destruct f as [t' r]; cbn in *; [|now split]. split; cbn; rewrite in_app_iff; tauto. Qed.
  Lemma do_quiet c : c <> PoolClose -> c <> PoolCreate -> quiet (do fails c).
  Proof. intros A B. split; cbn; intros [E|[]]; auto. Qed.
  Lemma raise_quiet e : quiet (raise e).
  Proof. split; cbn; auto. Qed.
  Lemma ret_quiet : quiet (ret tt).
  Proof. split; cbn; auto. Qed.
  Lemma when_quiet b m : quiet m -> quiet (when b m).
  Proof. intros Q. destruct b; [exact Q|apply ret_quiet]. Qed.
  Hint Resolve do_quiet raise_quiet ret_quiet when_quiet seq_quiet : quiet.
  Hint Extern 1 (_ <> _) => discriminate : quiet.
  Lemma transcribe_quiet i : quiet (transcribe fails i).
  Proof. unfold transcribe. destruct (negb (i_bvp i)); [|destruct (i_maps i); auto with quiet]. apply seq_quiet; [auto with quiet|]. cbv zeta. apply seq_quiet; [|auto with quiet].
    destruct (existsb _ _); [auto with quiet|]. destruct (String.eqb _ _); auto with quiet. Qed.

  Lemma tail_ends i : ends (do fails RunContinuations ;; do fails AlgorithmClose ;; do fails Postprocess_out ;; do fails PoolClose ;; save_out fails i).
  Proof.
    unfold do, save_out. cbn. destruct (fails RunContinuations); cbn; [split; [left|]; intuition discriminate|].
    destruct (fails AlgorithmClose); cbn; [split; [left|]; intuition discriminate|]. destruct (fails Postprocess_out); cbn; [split; [left|]; intuition discriminate|].
    destruct (fails PoolClose) as [e|] eqn:E; cbn. { split; [right; exists PoolClose; cbn; intuition|intuition discriminate]. }
    destruct (i_save i) as [[]|name]; cbn.
    - destruct (fails (SaveOut "data.beluga")) as [e|] eqn:ES; cbn.
      + split; [right; exists (SaveOut "data.beluga"); cbn; unfold is_save; intuition eauto|intuition discriminate].
      + exists [RunContinuations; AlgorithmClose; Postprocess_out], [SaveOut "data.beluga"]. cbn. repeat split; try (intuition discriminate). repeat constructor. now eexists.
    - exists [RunContinuations; AlgorithmClose; Postprocess_out], []. cbn. repeat split; try (intuition discriminate). constructor.
    - destruct (fails (SaveOut name)) as [e|] eqn:ES; cbn.
      + split; [right; exists (SaveOut name); cbn; unfold is_save; intuition eauto|intuition discriminate].
      + exists [RunContinuations; AlgorithmClose; Postprocess_out], [SaveOut name]. cbn. repeat split; try (intuition discriminate). repeat constructor. now eexists.
  Qed.
  Lemma solve_parallel i : (1 < i_cpus i)%Z -> exists m, ends m /\ solve fails i = (do fails PoolCreate ;; m).
  Proof.
    intros C. unfold solve, acquire. assert (B1 : (i_cpus i <? 1)%Z = false) by (apply Z.ltb_ge; lia). assert (B2 : (1 <? i_cpus i)%Z = true) by (apply Z.ltb_lt; lia).
    rewrite B1, B2. eexists. split; [|reflexivity].
    apply seq_ends; [destruct (i_ocp i); auto with quiet|]. apply seq_ends; [apply transcribe_quiet|].
    apply seq_ends; [auto with quiet|]. apply seq_ends; [auto with quiet|]. apply seq_ends; [auto with quiet|]. apply tail_ends.
  Qed.
  Lemma solve_serial i : (i_cpus i <= 1)%Z -> quiet (solve fails i).
  Proof.
    intros C. unfold solve, acquire. destruct (i_cpus i <? 1)%Z; [split; cbn; auto|]. assert (B2 : (1 <? i_cpus i)%Z = false) by (apply Z.ltb_ge; lia). rewrite B2.
    repeat apply seq_quiet; auto with quiet; try (destruct (i_ocp i); auto with quiet; fail); try apply transcribe_quiet. unfold save_out. destruct (i_save i) as [[]|]; auto with quiet.
  Qed.

  (** A run that returns has created and closed the pool exactly once, and does not use it afterwards. *)
  Theorem C60_normal : forall i t, (1 < i_cpus i)%Z -> solve fails i = (t, Ok tt) ->
    exists t1 t2, t = PoolCreate :: t1 ++ PoolClose :: t2 /\ In RunContinuations t1 /\ ~ In PoolClose (t1 ++ t2) /\ ~ In PoolCreate (t1 ++ t2) /\ Forall is_save t2.
  Proof.
    intros i t C H. destruct (solve_parallel i C) as (m & E & S). rewrite S in H. unfold do in H. cbn in H. destruct (fails PoolCreate); [discriminate|].
    destruct m as [t' r]. cbn in H. injection H as <- ->. cbn in E. destruct E as (t1 & t2 & -> & E). now exists t1, t2.
  Qed.
  (** One process: no pool. *)
  Theorem C60_sequential : forall i, (i_cpus i <= 1)%Z -> ~ In PoolCreate (fst (solve fails i)) /\ ~ In PoolClose (fst (solve fails i)).
  Proof. intros i C. destruct (solve_serial i C). now split. Qed.
  Theorem C60_bad_cpus : forall i, (i_cpus i < 1)%Z -> solve fails i = ([], Raise ValueError).
  Proof. intros i C. unfold solve, acquire. now rewrite (proj2 (Z.ltb_lt _ _) C). Qed.
  (** Every other failure leaves the pool open. *)
  Theorem C60_every_failure_leaks : forall i t e, (1 < i_cpus i)%Z ->
    fails PoolCreate = None -> fails PoolClose = None -> (forall name, fails (SaveOut name) = None) ->
    solve fails i = (t, Raise e) -> In PoolCreate t /\ ~ In PoolClose t.
  Proof.
    intros i t e C F1 F2 F3 H. destruct (solve_parallel i C) as (m & E & S). rewrite S in H. unfold do in H. cbn in H. rewrite F1 in H.
    destruct m as [t' r]. cbn in H. injection H as <- ->. cbn in E. split; [now left|]. intros [X|X]; [discriminate|].
    destruct E as ([E|(c & _ & Fc & [->|(n & ->)])] & _); [now elim E|congruence|rewrite F3 in Fc; discriminate].
  Qed.
End C60.
Print Assumptions C60_normal.
Print Assumptions C60_sequential.
Print Assumptions C60_bad_cpus.
Print Assumptions C60_every_failure_leaks.

Definition ok_input (n : Z) (m : string) (s : save_arg) : input := mkInput n true false false m false false s.
Definition none (c : call) : option exn := None.
Example C60_normal_ex : solve none (ok_input 4 "indirect" (SaveFlag true))
  = ([PoolCreate; Preprocess; MakeIndirect "traditional"; ApplyMethod; Postprocess_bvp; Generate; RunContinuations; AlgorithmClose; Postprocess_out; PoolClose; SaveOut "data.beluga"], Ok tt).
Proof. reflexivity. Qed.
(** An exception of the continuation (also an interrupt) leaves the pool open. *)
Theorem C60_exception_refuted : exists fails i t e, fails PoolCreate = None /\ fails PoolClose = None /\
  solve fails i = (t, Raise e) /\ In PoolCreate t /\ In RunContinuations t /\ ~ In PoolClose t.
Proof.
  exists (fun c => match c with RunContinuations => Some RuntimeError | _ => None end), (ok_input 4 "traditional" (SaveFlag false)). eexists. eexists.
  split; [reflexivity|]. split; [reflexivity|]. split; [reflexivity|]. cbn. intuition discriminate.
Qed.
(** Inputs rejected only after the pool has been created. *)
Theorem C60_inputs_refuted :
  (forall i, (1 < i_cpus i)%Z -> i_ocp i = false -> solve none i = ([PoolCreate], Raise NotImplementedError)) /\
  (forall i, (1 < i_cpus i)%Z -> i_ocp i = true -> i_bvp i = true -> i_maps i = false -> solve none i = ([PoolCreate], Raise ValueError)) /\
  solve none (ok_input 2 "collocation" (SaveFlag false)) = ([PoolCreate; Preprocess], Raise NotImplementedError).
Proof.
  split; [|split; [|reflexivity]].
  - intros i C O. unfold solve, acquire. assert (B1 : (i_cpus i <? 1)%Z = false) by (apply Z.ltb_ge; lia). assert (B2 : (1 <? i_cpus i)%Z = true) by (apply Z.ltb_lt; lia).
    rewrite B1, B2, O. reflexivity.
  - intros i C O Bv M. unfold solve, acquire, transcribe. assert (B1 : (i_cpus i <? 1)%Z = false) by (apply Z.ltb_ge; lia). assert (B2 : (1 <? i_cpus i)%Z = true) by (apply Z.ltb_lt; lia).
    rewrite B1, B2, O, Bv, M. reflexivity.
Qed.
Print Assumptions C60_exception_refuted.
Print Assumptions C60_inputs_refuted.

(** ** C72 *)
Section C72.
  Variable i : input.
  Hypotheses (Hn : (1 <= i_cpus i)%Z) (Ho : i_ocp i = true) (Hb : i_bvp i = false).
  (** The indirect methods: any spelling selects the same method. *)
  Lemma transcribed c d : transcribe none i = ([Preprocess; c; d; Postprocess_bvp], Ok tt) -> In c (fst (solve none i)).
  Proof.
    intros T. unfold solve. rewrite Ho, T. unfold acquire. replace (i_cpus i <? 1)%Z with false by (symmetry; apply Z.ltb_ge; lia).
    destruct (1 <? i_cpus i)%Z, (i_helper i), (i_control i), (i_save i) as [[]|] eqn:ES; unfold save_out; rewrite ES; cbn; tauto.
  Qed.
  Theorem C72_indirect : In (lower (i_method i)) ["indirect"; "traditional"; "brysonho"] -> In (MakeIndirect "traditional") (fst (solve none i)).
  Proof.
    intros L. apply transcribed with (d := ApplyMethod). unfold transcribe. rewrite Hb. cbn [negb].
    replace (existsb (String.eqb (lower (i_method i))) ["indirect"; "traditional"; "brysonho"]) with true; [reflexivity|].
    symmetry. apply existsb_exists. exists (lower (i_method i)). now rewrite String.eqb_refl.
  Qed.
  Theorem C72_diffyg : lower (i_method i) = "diffyg" -> In (MakeIndirect (i_method i)) (fst (solve none i)).
  Proof.
    intros L. apply transcribed with (d := ApplyMethod). unfold transcribe. rewrite Hb. cbn [negb]. rewrite L.
    replace (existsb (String.eqb "diffyg") ["indirect"; "traditional"; "brysonho"]) with false by reflexivity. cbv zeta. rewrite L. reflexivity.
  Qed.
  Theorem C72_direct : i_method i = "direct" -> In MakeDirect (fst (solve none i)).
  Proof. intros L. apply transcribed with (d := ApplyMethod). unfold transcribe. rewrite Hb. cbn [negb]. rewrite L. reflexivity. Qed.
  (** Everything else is rejected before any transformation is built. *)
  Theorem C72_rejected : ~ In (lower (i_method i)) ["indirect"; "traditional"; "brysonho"; "diffyg"] -> i_method i <> "direct" ->
    snd (solve none i) = Raise NotImplementedError /\ ~ In MakeDirect (fst (solve none i)) /\ forall m, ~ In (MakeIndirect m) (fst (solve none i)).
  Proof.
    intros L ND. unfold solve, transcribe. rewrite Ho, Hb. cbn [negb].
    assert (N : forall x, In x ["indirect"; "traditional"; "brysonho"; "diffyg"] -> String.eqb (lower (i_method i)) x = false).
    { intros x Hx. apply String.eqb_neq. intros E. apply L. now rewrite E. }
    cbn [existsb]. rewrite (N "indirect"), (N "traditional"), (N "brysonho") by (cbn; tauto). cbn [orb existsb].
    rewrite (N "traditional"), (N "diffyg") by (cbn; tauto). cbn [orb]. rewrite (proj2 (String.eqb_neq _ _) ND).
    unfold acquire. replace (i_cpus i <? 1)%Z with false by (symmetry; apply Z.ltb_ge; lia).
    destruct (1 <? i_cpus i)%Z; cbn; intuition discriminate.
  Qed.
End C72.
(** 'Direct' is rejected although 'direct' is accepted. *)
Theorem C72_direct_case_refuted : exists m, lower m = "direct" /\
  snd (solve none (ok_input 1 m (SaveFlag false))) = Raise NotImplementedError /\ snd (solve none (ok_input 1 "direct" (SaveFlag false))) = Ok tt.
Proof. exists "Direct". repeat split. Qed.

(** The spelling handed on makes no difference to the transformed problem. *)
Definition same_tf (f g : tf) : Prop :=
  match f, g with FDual m, FDual m' => lower m = lower m' | FDiff m, FDiff m' => lower m = lower m' | _, _ => f = g end.
Lemma same_apply lu sol f g p : same_tf f g -> apply_tf lu sol f p = apply_tf lu sol g p.
Proof.
  destruct f as [| | | |m| |m| | |], g as [| | | |m'| |m'| | |]; cbn; try discriminate; try reflexivity; intros E.
  - unfold dualize. now rewrite E.
  - unfold differential_control. now rewrite E.
Qed.
Lemma same_run lu sol fs gs p : Forall2 same_tf fs gs -> run_tfs lu sol fs p = run_tfs lu sol gs p.
Proof.
  intros H. revert p. induction H as [|f g fs gs E _ IH]; intros p; [reflexivity|]. cbn. rewrite (same_apply lu sol f g p E).
  destruct (apply_tf lu sol g p); [apply IH|reflexivity].
Qed.
Lemma same_refl f : same_tf f f.
Proof. now destruct f. Qed.
Lemma same_list fs : Forall2 same_tf fs fs.
Proof. induction fs; constructor; auto using same_refl. Qed.
Theorem C72_same_problem : forall jac ctl sh nm m m' p, lower m = lower m' ->
  match make_indirect (mkOpt jac ctl m sh nm) p, make_indirect (mkOpt jac ctl m' sh nm) p with
  | Ok fs, Ok gs => forall lu sol q, run_tfs lu sol fs q = run_tfs lu sol gs q
  | Raise e, Raise e' => e = e'
  | _, _ => False
  end.
Proof.
  intros jac ctl sh nm m m' p E. unfold make_indirect. cbn [o_control o_method o_shift o_norm o_jac].
  destruct (constraint_tfs (all_constraints p)) as [cs|]; [|reflexivity]. cbn [bind].
  destruct (String.eqb (lower ctl) "algebraic"); [|destruct (String.eqb (lower ctl) "differential")]; cbn [bind]; [| |reflexivity];
    intros lu sol q; apply same_run; repeat apply Forall2_app; try apply same_list; repeat constructor; exact E.
Qed.
Print Assumptions C72_indirect.
Print Assumptions C72_diffyg.
Print Assumptions C72_direct.
Print Assumptions C72_rejected.
Print Assumptions C72_direct_case_refuted.
Print Assumptions C72_same_problem.
Example C72_ex : solve none (ok_input 1 "BrysonHo" (SaveFlag false))
  = ([Preprocess; MakeIndirect "traditional"; ApplyMethod; Postprocess_bvp; Generate; RunContinuations; AlgorithmClose; Postprocess_out], Ok tt).
Proof. reflexivity. Qed.

(** ** C73 *)
Lemma andthen_raise {A B} (m : eff A) (f : A -> eff B) t e : andthen m f = (t, Raise e) ->
  m = (t, Raise e) \/ exists t1 a t2, m = (t1, Ok a) /\ f a = (t2, Raise e) /\ t = t1 ++ t2.
Proof.
  unfold andthen. destruct m as [t1 [a|e1]]; [|intros H; left; now injection H as -> ->]. destruct (f a) as [t2 r] eqn:E. intros H. injection H as <- ->. right. now exists t1, a, t2.
Qed.
(** With every call succeeding and valid inputs, solve returns. *)
Theorem C73_returns : forall i, (1 <= i_cpus i)%Z -> i_ocp i = true ->
  (i_bvp i = true -> i_maps i = true) ->
  (i_bvp i = false -> In (lower (i_method i)) ["indirect"; "traditional"; "brysonho"; "diffyg"] \/ i_method i = "direct") ->
  snd (solve none i) = Ok tt /\ In Postprocess_out (fst (solve none i)).
Proof.
  intros i Hn Ho Hm Hb. unfold solve, acquire. replace (i_cpus i <? 1)%Z with false by (symmetry; apply Z.ltb_ge; lia). rewrite Ho.
  assert (T : exists t, transcribe none i = (t, Ok tt)).
  { unfold transcribe. destruct (i_bvp i); cbn [negb]; [rewrite Hm by reflexivity; now eexists|]. cbv zeta.
    destruct (existsb (String.eqb (lower (i_method i))) ["indirect"; "traditional"; "brysonho"]) eqn:E; [eexists; reflexivity|].
    destruct (Hb eq_refl) as [H|H]; [|rewrite H; eexists; reflexivity].
    assert (L : lower (i_method i) = "diffyg"). { cbn in H, E. destruct H as [H|[H|[H|[H|[]]]]]; rewrite <- H in E |- *; try discriminate; reflexivity. }
    rewrite L. eexists. reflexivity. }
  destruct T as (t & ->). destruct (1 <? i_cpus i)%Z, (i_helper i), (i_control i), (i_save i) as [[]|] eqn:ES; unfold save_out; rewrite ES; cbn; rewrite ?in_app_iff; cbn; tauto.
Qed.
(** A file that cannot be written throws away the finished computation. *)
Theorem C73_save_failure_refuted : forall name e, exists fails i t,
  (forall c, ~ is_save c -> fails c = None) /\ i_save i = SaveName name /\
  solve fails i = (t, Raise e) /\ In RunContinuations t /\ In Postprocess_out t.
Proof.
  intros name e. exists (fun c => match c with SaveOut n => Some e | _ => None end), (ok_input 1 "traditional" (SaveName name)),
    [Preprocess; MakeIndirect "traditional"; ApplyMethod; Postprocess_bvp; Generate; RunContinuations; AlgorithmClose; Postprocess_out; SaveOut name].
  split; [|split; [reflexivity|split; [reflexivity|cbn; tauto]]].
  intros c N. destruct c; try reflexivity. elim N. now eexists.
Qed.
(** Without saving, an exception means that the computation was not finished. *)
Theorem C73_without_saving : forall fails i t e, i_save i = SaveFlag false -> fails PoolClose = None -> fails Postprocess_out = None ->
  solve fails i = (t, Raise e) -> ~ In Postprocess_out t.
Proof.
  intros fails i t e S FP FO H. unfold solve in H.
  assert (Q : forall c, c <> Postprocess_out -> ~ In Postprocess_out (fst (do fails c))) by (intros c N [X|[]]; congruence).
  assert (step : forall (m : eff unit) (f : unit -> eff unit), ~ In Postprocess_out (fst m) ->
    (forall t', f tt = (t', Raise e) -> ~ In Postprocess_out t') -> forall t, andthen m f = (t, Raise e) -> ~ In Postprocess_out t).
  { intros m f N K u Hu. apply andthen_raise in Hu as [->|(t1 & [] & t2 & -> & Hf & ->)]; [exact N|]. cbn in N. rewrite in_app_iff. intros [X|X]; [now elim N|now apply (K t2)]. }
  assert (W : forall b c, c <> Postprocess_out -> ~ In Postprocess_out (fst (when b (do fails c)))) by (intros [] c N; [now apply Q|auto]).
  revert t H. apply step. { unfold acquire. destruct (i_cpus i <? 1)%Z; [auto|]. now apply W. }
  apply step. { destruct (i_ocp i); auto. }
  apply step.
  { unfold transcribe. destruct (negb (i_bvp i)); [|destruct (i_maps i); auto]. cbv zeta.
    assert (A : forall (x y : eff unit), ~ In Postprocess_out (fst x) -> ~ In Postprocess_out (fst y) -> ~ In Postprocess_out (fst (andthen x (fun _ => y)))).
    { intros [tx [[]|ex]] [ty ry] X Y; cbn in *; [|exact X]. rewrite in_app_iff. tauto. }
    apply A; [now apply Q|]. apply A; [|now apply Q]. destruct (existsb _ _); [apply A; now apply Q|]. destruct (String.eqb _ "direct"); [apply A; now apply Q|auto]. }
  apply step; [now apply Q|]. apply step; [now apply W|]. apply step; [now apply W|]. apply step; [now apply Q|]. apply step; [now apply Q|].
  intros t H. exfalso. unfold do, save_out in H. rewrite S, FO, FP in H. cbn in H. destruct (1 <? i_cpus i)%Z; discriminate.
Qed.
Print Assumptions C73_returns.
Print Assumptions C73_save_failure_refuted.
Print Assumptions C73_without_saving.
(** A run that returns has saved exactly what was asked for, as its last action. *)
Definition asked (i : input) : list call :=
  match i_save i with SaveFlag false => [] | SaveFlag true => [SaveOut "data.beluga"] | SaveName s => [SaveOut s] end.
Theorem C73_saved : forall fails i t, solve fails i = (t, Ok tt) ->
  exists t', t = t' ++ asked i /\ forall name, ~ In (SaveOut name) t'.
Proof.
  intros fails i t H. unfold solve in H.
  set (ns := fun t : list call => forall name, ~ In (SaveOut name) t).
  assert (Q : forall c, (forall name, c <> SaveOut name) -> ns (fst (do fails c))) by (intros c N name [X|[]]; now elim (N name)).
  assert (W : forall b c, (forall name, c <> SaveOut name) -> ns (fst (when b (do fails c)))) by (intros [] c N; [now apply Q|now intros name []]).
  assert (step : forall (m : eff unit) (f : unit -> eff unit), ns (fst m) ->
    (forall t, f tt = (t, Ok tt) -> exists t', t = t' ++ asked i /\ ns t') ->
    forall t, andthen m f = (t, Ok tt) -> exists t', t = t' ++ asked i /\ ns t').
  { intros [t1 [[]|e]] f N K u Hu; cbn in Hu; [|discriminate]. destruct (f tt) as [t2 r] eqn:E. injection Hu as <- ->.
    destruct (K t2 eq_refl) as (t' & -> & N'). exists (t1 ++ t'). split; [apply app_assoc|]. intros name. rewrite in_app_iff. intros [X|X]; [exact (N name X)|exact (N' name X)]. }
  revert t H. apply step. { unfold acquire. destruct (i_cpus i <? 1)%Z; [now intros name []|]. now apply W. }
  apply step. { destruct (i_ocp i); now intros name []. }
  apply step.
  { unfold transcribe. destruct (negb (i_bvp i)); [|destruct (i_maps i); now intros name []]. cbv zeta.
    assert (A : forall (x y : eff unit), ns (fst x) -> ns (fst y) -> ns (fst (andthen x (fun _ => y)))).
    { intros [tx [[]|ex]] [ty ry] X Y; cbn in *; [|exact X]. intros name. rewrite in_app_iff. intros [Z|Z]; [exact (X name Z)|exact (Y name Z)]. }
    apply A; [now apply Q|]. apply A; [|now apply Q].
    destruct (existsb _ ["traditional"; "diffyg"]); [apply A; now apply Q|]. destruct (String.eqb _ "direct"); [apply A; now apply Q|now intros name []]. }
  apply step; [now apply Q|]. apply step; [now apply W|]. apply step; [now apply W|]. apply step; [now apply Q|]. apply step; [now apply Q|].
  apply step; [now apply Q|]. apply step; [now apply W|].
  intros t H. unfold save_out, asked in *. destruct (i_save i) as [[]|s]; cbn in H.
  - unfold do in H. destruct (fails (SaveOut "data.beluga")); injection H as <-; try discriminate. exists []. split; [reflexivity|now intros name []].
  - injection H as <-. exists []. split; [reflexivity|now intros name []].
  - unfold do in H. destruct (fails (SaveOut s)); injection H as <-; try discriminate. exists []. split; [reflexivity|now intros name []].
Qed.
Print Assumptions C73_saved.
Example C73_saved_ex : exists t, solve none (ok_input 1 "traditional" (SaveFlag true)) = (t, Ok tt) /\ asked (ok_input 1 "traditional" (SaveFlag true)) = [SaveOut "data.beluga"].
Proof. eexists. now split. Qed.
