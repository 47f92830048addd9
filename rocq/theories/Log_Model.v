(** Messages of the library: utils/logging.py and its use by beluga.py and
    continuation.py. *)
From Coq Require Import Ascii.
From Verif Require Import Base.
Open Scope Z_scope.
Open Scope list_scope.

(** Levels of Python's logging module: NOTSET 0, DEBUG 10, INFO 20, WARN 30. *)
Definition NOTSET : Z := 0.
Definition DEBUG : Z := 10.
Definition INFO : Z := 20.
Definition WARN : Z := 30.

Inductive dest : Type := Stdout | LogFile (name : string).
Record handler : Type := mkHandler { h_dest : dest; h_level : Z }.
(** logging.getLogger('beluga'), with the attribute [display_level_] that
    init_logging adds. *)
Record logger : Type := mkLogger { l_level : Z; l_propagate : bool; l_display : option Z; l_handlers : list handler }.
(** A logger as getLogger creates it. *)
Definition new_logger : logger := mkLogger NOTSET true None [].

(** init_logging, utils/logging.py lines 11-36.  Simplification: formats and the
    opening of the file are left out. *)
Definition init_logging (display file : Z) (filename : string) (l : logger) : logger :=
  let level := Z.min display file in
  let l := mkLogger level false (Some display) [] in
  let l := mkLogger (l_level l) (l_propagate l) (l_display l) (l_handlers l ++ [mkHandler Stdout display]) in
  if NOTSET <? file then mkLogger (l_level l) (l_propagate l) (l_display l) (l_handlers l ++ [mkHandler (LogFile filename) file]) else l.

(** The defaults: of init_logging at import (line 52), of add_logger (beluga.py
    lines 18-37). *)
Definition imported (l : logger) : logger := init_logging INFO NOTSET "beluga.log" l.
Definition add_logger (display file : option Z) (l : logger) : logger :=
  init_logging (match display with Some d => d | None => INFO end) (match file with Some f => f | None => DEBUG end) "beluga.log" l.

(** Python's logging: Logger.getEffectiveLevel, isEnabledFor and callHandlers.
    [root] is the level of the root logger (WARNING unless the program changed it),
    [above] its handlers.  Simplification: logging.disable is not used. *)
Definition effective (root : Z) (l : logger) : Z := if l_level l =? 0 then root else l_level l.
Definition log (root : Z) (above : list handler) (l : logger) (level : Z) : list dest :=
  if effective root l <=? level then
    map h_dest (filter (fun h => h_level h <=? level) (l_handlers l ++ (if l_propagate l then above else [])))
  else [].

(** The progress bar of run_continuation_set, continuation.py lines 558-566:
    shown unless disabled. *)
Definition progress_shown (root : Z) (l : logger) : bool :=
  let level := match l_display l with Some d => d | None => effective root l end in
  negb (negb ((INFO <=? level) && (level <? WARN))).

(** str.ljust, str.rjust and str.center (CPython: left = pad / 2 + (pad & width & 1)). *)
Definition spaces (n : nat) : list ascii := repeat " "%char n.
Definition center (s : list ascii) (w : nat) : list ascii :=
  let pad := (w - length s)%nat in
  let left := (pad / 2 + (if Nat.odd pad && Nat.odd w then 1 else 0))%nat in
  spaces left ++ s ++ spaces (pad - left).
(** [s[:k]] with the negative [k] of Python. *)
Definition upto (s : list ascii) (k : Z) : list ascii :=
  firstn (Z.to_nat (if k <? 0 then Z.of_nat (length s) + k else k)) s.
(** fit_string, utils/logging.py lines 39-49, for a non-negative width. *)
Definition fit_string (s : list ascii) (w : nat) (justification : string) : res (list ascii) :=
  if Nat.ltb w (length s) then Ok (upto s (Z.of_nat w - 3) ++ repeat "."%char 3)
  else if String.eqb justification "left" then Ok (s ++ spaces (w - length s))
  else if String.eqb justification "center" then Ok (center s w)
  else if String.eqb justification "right" then Ok (spaces (w - length s) ++ s)
  else Raise ValueError.
(** The label of the progress bar, continuation.py line 566. *)
Definition label (s : list ascii) : res (list ascii) := fit_string s 30 "center".
