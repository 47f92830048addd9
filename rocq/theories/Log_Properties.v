(** Messages reach the places the user asked for (C97). *)
From Coq Require Import Ascii.
From Verif Require Import Base Log_Model.
Open Scope Z_scope.
Open Scope list_scope.

Definition dest_eqb (a b : dest) : bool := match a, b with Stdout, Stdout => true | LogFile x, LogFile y => String.eqb x y | _, _ => false end.
(** How often a message of level [m] arrives at [d]. *)
Definition arrivals (root : Z) (above : list handler) (l : logger) (m : Z) (d : dest) : nat := length (filter (dest_eqb d) (log root above l m)).
Definition once (b : bool) : nat := if b then 1%nat else 0%nat.

(** With a log file, whatever was set up before: displayed once exactly from the
    display level on, written once exactly from the file level on. *)
Theorem C97_levels : forall root above l display file filename m, 0 < display -> 0 < file ->
  arrivals root above (init_logging display file filename l) m Stdout = once (display <=? m) /\
  arrivals root above (init_logging display file filename l) m (LogFile filename) = once (file <=? m) /\
  forall other, other <> filename -> arrivals root above (init_logging display file filename l) m (LogFile other) = 0%nat.
Proof.
  intros root above l display file filename m D F. unfold arrivals, log, effective, init_logging. replace (NOTSET <? file) with true by (symmetry; apply Z.ltb_lt; exact F).
  cbn [l_level l_propagate l_display l_handlers app]. replace (Z.min display file =? 0) with false by (symmetry; apply Z.eqb_neq; lia).
  destruct (Z.min display file <=? m) eqn:E.
  - cbn [filter h_level map h_dest app]. destruct (display <=? m), (file <=? m); cbn; rewrite ?String.eqb_refl; repeat split; intros o N; apply String.eqb_neq in N; cbn; rewrite ?N; reflexivity.
  - apply Z.leb_gt in E. assert (E1 : display <=? m = false) by (apply Z.leb_gt; lia). assert (E2 : file <=? m = false) by (apply Z.leb_gt; lia). rewrite E1, E2. now repeat split.
Qed.
Print Assumptions C97_levels.

(** Without a log file the level of the root logger counts as well. *)
Theorem C97_no_file : forall root above l display filename m, 0 <= display ->
  arrivals root above (init_logging display NOTSET filename l) m Stdout = once ((display <=? m) && (root <=? m)) /\
  forall name, arrivals root above (init_logging display NOTSET filename l) m (LogFile name) = 0%nat.
Proof.
  intros root above l display filename m D. unfold arrivals, log, effective, init_logging. cbn [NOTSET Z.ltb Z.compare l_level l_propagate l_display l_handlers app].
  unfold NOTSET. replace (Z.min display 0) with 0 by lia. cbn [Z.eqb]. replace (0 <? 0) with false by reflexivity. cbn [l_level l_handlers l_propagate app].
  destruct (root <=? m); [|rewrite andb_false_r; now split]. rewrite andb_true_r. cbn [filter h_level]. destruct (display <=? m); cbn; now split.
Qed.
Print Assumptions C97_no_file.

(** As imported, and after add_logger without a file: a message of the display level
    is not displayed, although the progress bar is. *)
Theorem C97_default_refuted : exists m, INFO <= m /\ forall above l,
  log WARN above (imported l) m = [] /\ log WARN above (add_logger (Some INFO) (Some NOTSET) l) m = [] /\ progress_shown WARN (imported l) = true.
Proof. exists INFO. split; [lia|]. intros above l. now repeat split. Qed.
Print Assumptions C97_default_refuted.

(** The progress bar is shown exactly when the display level is INFO or between INFO
    and WARN, whatever the file level; so it is never mixed with debug messages. *)
Theorem C97_progress : forall root above l display file filename,
  (progress_shown root (init_logging display file filename l) = true <-> INFO <= display < WARN) /\
  (progress_shown root (init_logging display file filename l) = true -> forall m, m < INFO -> arrivals root above (init_logging display file filename l) m Stdout = 0%nat).
Proof.
  intros root above l display file filename. assert (E : l_display (init_logging display file filename l) = Some display) by (unfold init_logging; destruct (NOTSET <? file); reflexivity).
  assert (P : progress_shown root (init_logging display file filename l) = true <-> INFO <= display < WARN).
  { unfold progress_shown. rewrite E, negb_involutive, andb_true_iff, Z.leb_le, Z.ltb_lt. reflexivity. }
  split; [exact P|]. intros S m M. apply P in S. unfold arrivals, log. destruct (_ <=? m); [|reflexivity]. unfold init_logging.
  destruct (NOTSET <? file); cbn [l_handlers l_propagate app filter h_level]; replace (display <=? m) with false by (symmetry; apply Z.leb_gt; unfold INFO in *; lia); [|reflexivity]. destruct (file <=? m); reflexivity.
Qed.
Print Assumptions C97_progress.

(** The label of the progress bar is 30 characters wide: the name of the step
    surrounded by spaces, or its first 27 characters and three dots. *)
Theorem C97_label : forall s, exists r, label s = Ok r /\ length r = 30%nat /\
  ((length s <= 30)%nat -> exists a b, r = repeat " "%char a ++ s ++ repeat " "%char b /\ (b <= a + 1 /\ a <= b + 1)%nat) /\
  ((30 < length s)%nat -> r = firstn 27 s ++ ["."; "."; "."]%char).
Proof.
  intros s. unfold label, fit_string. destruct (Nat.ltb 30 (length s)) eqn:E.
  - apply Nat.ltb_lt in E. eexists. split; [reflexivity|]. unfold upto. cbn [Z.of_nat Pos.of_succ_nat]. change (Z.to_nat (if _ <? 0 then _ else _)) with 27%nat. split; [rewrite app_length, firstn_length; cbn [repeat length]; lia|]. split; [lia|reflexivity].
  - apply Nat.ltb_ge in E. cbn [String.eqb Ascii.eqb Bool.eqb]. eexists. split; [reflexivity|]. unfold center, spaces. replace (Nat.odd 30) with false by reflexivity. rewrite andb_false_r, Nat.add_0_r.
    set (pad := (30 - length s)%nat). assert (H : (pad / 2 <= pad)%nat) by (apply Nat.div_le_upper_bound; lia). split; [rewrite !app_length, !repeat_length; lia|]. split; [|lia].
    intros _. exists (pad / 2)%nat, (pad - pad / 2)%nat. split; [reflexivity|]. assert (Q := Nat.div_mod pad 2 ltac:(lia)). assert (B := Nat.mod_upper_bound pad 2 ltac:(lia)). lia.
Qed.
Print Assumptions C97_label.

(** ** Examples *)
(** add_logger() with its defaults: INFO on the screen, DEBUG in the file. *)
Example C97_ex l : let g := add_logger None None (imported l) in
  log WARN [] g INFO = [Stdout; LogFile "beluga.log"] /\ log WARN [] g DEBUG = [LogFile "beluga.log"] /\ progress_shown WARN g = true.
Proof. now repeat split. Qed.
Example C97_ex_label : label (list_ascii_of_string "ManualStrategy over x_f") = Ok (list_ascii_of_string "   ManualStrategy over x_f    ").
Proof. vm_compute. reflexivity. Qed.
(** Narrower than the dots the text grows instead; the library never asks for it. *)
Example C97_ex_narrow : fit_string (list_ascii_of_string "abcd") 2 "left" = Ok (list_ascii_of_string "abc...").
Proof. vm_compute. reflexivity. Qed.
