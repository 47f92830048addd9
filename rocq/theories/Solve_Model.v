(** Storage (beluga/utils/storage.py, lines 1-27) and the top-level driver
    (beluga/beluga.py, solve lines 40-202) as sequences of effects. *)
From Verif Require Import Base Sym_Model.
Open Scope string_scope.
Open Scope list_scope.

(** * Storage *)
Section Storage.
  Variable V : Type.
  (** Files as byte strings.  [open_err] is the outcome of opening for writing.
      [dump] is cloudpickle.dump: the bytes it writes and, for a value it cannot
      serialise, the exception raised after them.  [parse] is pickle.load. *)
  Definition files : Type := string -> option (list nat).
  Variable open_err : string -> option exn.
  Variable dump : list (string * V) -> list nat * option exn.
  Variable parse : list nat -> res (list (string * V)).
  Definition put (s : files) (name : string) (bs : list nat) : files :=
    fun n => if String.eqb n name then Some bs else s n.

  (** save, lines 4-19. *)
  Definition entry_of (key : string) (v : option V) : list (string * V) :=
    match v with Some v => [(key, v)] | None => [] end.
  Definition save_dict (sol ocp bvp : option V) : list (string * V) :=
    entry_of "solutions" sol ++ entry_of "ocp" ocp ++ entry_of "bvp" bvp.
  Definition save (s : files) (sol ocp bvp : option V) (name : string) : files * res unit :=
    match open_err name with
    | Some e => (s, Raise e)
    | None => let '(bs, err) := dump (save_dict sol ocp bvp) in
              (put s name bs, match err with Some e => Raise e | None => Ok tt end)
    end.
  (** The file system when the process stops inside [save]: before the file is
      opened (0), or when [k] bytes have reached the file (S k). *)
  Definition crash_save (k : nat) (s : files) (sol ocp bvp : option V) (name : string) : files :=
    match k with
    | O => s
    | S k => match open_err name with
             | Some _ => s
             | None => put s name (firstn k (fst (dump (save_dict sol ocp bvp))))
             end
    end.
  (** load, lines 22-26. *)
  Definition load (s : files) (name : string) : res (list (string * V)) :=
    match s name with Some bs => parse bs | None => Raise OSError end.
  Fixpoint lookup (d : list (string * V)) (key : string) : option V :=
    match d with [] => None | (k, v) :: d' => if String.eqb key k then Some v else lookup d' key end.
End Storage.

(** * solve *)
(** The calls of [solve] whose order matters, in the order of the source. *)
Inductive call : Type :=
| PoolCreate | Preprocess | MakeIndirect (method : string) | MakeDirect | ApplyMethod | Postprocess_bvp
| Generate | Helper | ComputeControls | RunContinuations | AlgorithmClose | Postprocess_out | PoolClose
| SaveOut (name : string).

Inductive save_arg : Type := SaveFlag (b : bool) | SaveName (s : string).
Record input : Type := mkInput {
  i_cpus : Z; i_ocp : bool; i_bvp : bool; i_maps : bool; i_method : string; i_helper : bool; i_control : bool;
  i_save : save_arg }.

Section Solve.
  (** Whether a call raises. *)
  Variable fails : call -> option exn.

  (** A computation leaves the calls made so far and an outcome. *)
  Definition eff (A : Type) : Type := list call * res A.
  Definition ret {A} (a : A) : eff A := ([], Ok a).
  Definition raise {A} (e : exn) : eff A := ([], Raise e).
  Definition do (c : call) : eff unit := ([c], match fails c with Some e => Raise e | None => Ok tt end).
  Definition andthen {A B} (m : eff A) (f : A -> eff B) : eff B :=
    match m with
    | (t, Ok a) => let '(t', r) := f a in (t ++ t', r)
    | (t, Raise e) => (t, Raise e)
    end.
  Notation "m ;; f" := (andthen m (fun _ => f)) (at level 61, right associativity).
  Definition when (b : bool) (m : eff unit) : eff unit := if b then m else ret tt.

  (** Lines 113-117. *)
  Definition acquire (i : input) : eff unit :=
    if (i_cpus i <? 1)%Z then raise ValueError
    else when (1 <? i_cpus i)%Z (do PoolCreate).
  (** Lines 131-159. *)
  Definition transcribe (i : input) : eff unit :=
    if negb (i_bvp i) then
      do Preprocess ;;
      let m := if existsb (String.eqb (lower (i_method i))) ["indirect"; "traditional"; "brysonho"]%list then "traditional" else i_method i in
      (if existsb (String.eqb (lower m)) ["traditional"; "diffyg"]%list then do (MakeIndirect m) ;; do ApplyMethod
       else if String.eqb m "direct" then do MakeDirect ;; do ApplyMethod
       else raise NotImplementedError) ;;
      do Postprocess_bvp
    else if i_maps i then ret tt else raise ValueError.
  (** Lines 161-200. *)
  Definition save_out (i : input) : eff unit :=
    match i_save i with
    | SaveFlag false => ret tt
    | SaveFlag true => do (SaveOut "data.beluga")
    | SaveName s => do (SaveOut s)
    end.
  Definition solve (i : input) : eff unit :=
    acquire i ;;
    (if i_ocp i then ret tt else raise NotImplementedError) ;;
    transcribe i ;;
    do Generate ;;
    when (i_helper i) (do Helper) ;;
    when (i_control i) (do ComputeControls) ;;
    do RunContinuations ;;
    do AlgorithmClose ;;
    do Postprocess_out ;;
    when (1 <? i_cpus i)%Z (do PoolClose) ;;
    save_out i.
End Solve.
