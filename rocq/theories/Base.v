(** Shared vocabulary of the models: Python exceptions as values, a record of
    arithmetic operations without laws, and list versions of the numpy helpers
    used by the code. *)
From Coq Require Export String ZArith Lia Bool List.
From Coq Require Import QArith Qabs Reals.
Export ListNotations.
Open Scope Z_scope.
Open Scope list_scope.

(** The exceptions that the modelled code raises. *)
Inductive exn : Type :=
| ValueError | RuntimeError | RuntimeWarning | IndexError | TypeError | KeyError
| AttributeError | NotImplementedError | StopIteration | SyntaxError | OSError.

Inductive res (A : Type) : Type :=
| Ok (a : A)
| Raise (e : exn).
Arguments Ok {A} a.
Arguments Raise {A} e.

Definition bind {A B} (r : res A) (f : A -> res B) : res B :=
  match r with Ok a => f a | Raise e => Raise e end.

Declare Scope res_scope.
Notation "x <- e ; f" := (bind e (fun x => f))
  (at level 61, e at next level, right associativity) : res_scope.
Open Scope res_scope.

(** Arithmetic operations of the number type.  No law is assumed, so a theorem
    quantified over [NumOps F] also holds for IEEE doubles. *)
Record NumOps (F : Type) : Type := mkNumOps {
  n0 : F;
  nadd : F -> F -> F;
  nsub : F -> F -> F;
  nmul : F -> F -> F;
  ndiv : F -> F -> F;
  nabs : F -> F;
  neqb : F -> F -> bool;
  nltb : F -> F -> bool;
  nofZ : Z -> F;
  nlog10 : F -> F;
  npow10 : F -> F
}.
Arguments n0 {F}. Arguments nadd {F}. Arguments nsub {F}. Arguments nmul {F}.
Arguments ndiv {F}. Arguments nabs {F}. Arguments neqb {F}. Arguments nltb {F}.
Arguments nofZ {F}. Arguments nlog10 {F}. Arguments npow10 {F}.

(** Executable instance used by the examples.  [nlog10]/[npow10] have no
    rational counterpart and are not used by any example (linear spacing only). *)
Definition QOps : NumOps Q := {|
  n0 := 0%Q; nadd := fun a b => Qred (a + b); nsub := fun a b => Qred (a - b);
  nmul := fun a b => Qred (a * b); ndiv := fun a b => Qred (a / b);
  nabs := Qabs.Qabs; neqb := Qeq_bool;
  nltb := fun a b => negb (Qle_bool b a);
  nofZ := inject_Z; nlog10 := fun x => x; npow10 := fun x => x |}.

(** Real-number instance: exact arithmetic, no rounding, no infinities. *)
Definition ROps : NumOps R := {|
  n0 := 0%R; nadd := Rplus; nsub := Rminus; nmul := Rmult; ndiv := Rdiv;
  nabs := Rabs;
  neqb := fun a b => if Req_EM_T a b then true else false;
  nltb := fun a b => if Rlt_dec a b then true else false;
  nofZ := IZR;
  nlog10 := fun x => (ln x / ln 10)%R;
  npow10 := fun x => exp (x * ln 10)%R |}.

(** [list.index(x)]: position of the first occurrence, ValueError if absent. *)
Fixpoint index_of (x : string) (l : list string) : res nat :=
  match l with
  | [] => Raise ValueError
  | y :: l' => if String.eqb x y then Ok O else (j <- index_of x l' ; Ok (S j))
  end.

(** [l[i]] for a non-negative index, IndexError when out of range. *)
Definition get {A} (l : list A) (i : nat) : res A :=
  match nth_error l i with Some a => Ok a | None => Raise IndexError end.

(** [l[i] = v] for a non-negative index, IndexError when out of range. *)
Definition set_nth {A} (l : list A) (i : nat) (v : A) : res (list A) :=
  if Nat.ltb i (length l) then Ok (firstn i l ++ v :: skipn (S i) l)
  else Raise IndexError.

(** [np.insert(l, i, vals)] for a 1-D array and a scalar non-negative index:
    all values before position [i]; IndexError if [i] exceeds the length. *)
Definition np_insert {A} (l : list A) (i : nat) (vals : list A) : res (list A) :=
  if Nat.leb i (length l) then Ok (firstn i l ++ vals ++ skipn i l)
  else Raise IndexError.

(** [l[1:-1]] *)
Definition inner {A} (l : list A) : list A := removelast (tl l).

Fixpoint mapM {A B} (f : A -> res B) (l : list A) : res (list B) :=
  match l with
  | [] => Ok []
  | a :: l' => b <- f a ; bs <- mapM f l' ; Ok (b :: bs)
  end.

Section Linspace.
  Context {F : Type} (O : NumOps F).

  (** numpy.linspace(start, stop, num, endpoint): [div = num-1] or [num];
      [step = (stop-start)/div]; elements [i*step + start], computed as
      [(i/div)*delta + start] when the step is zero; with [endpoint] and
      [num > 1] the last element is overwritten by [stop]; negative [num]
      raises ValueError.  (numpy/core/function_base.py; used throughout
      beluga/continuation/continuation.py.) *)
  Definition linspace_elem (div : Z) (start stop : F) (i : nat) : F :=
    let delta := nsub O stop start in
    let y := nofZ O (Z.of_nat i) in
    if 0 <? div then
      let step := ndiv O delta (nofZ O div) in
      if neqb O step (n0 O)
      then nadd O (nmul O (ndiv O y (nofZ O div)) delta) start
      else nadd O (nmul O y step) start
    else nadd O (nmul O y delta) start.

  Definition linspace_gen (endpoint : bool) (start stop : F) (num : Z) : res (list F) :=
    if num <? 0 then Raise ValueError
    else
      let div := if endpoint then num - 1 else num in
      let y := map (linspace_elem div start stop) (seq 0 (Z.to_nat num)) in
      Ok (if endpoint && (1 <? num) then removelast y ++ [stop] else y).

  Definition linspace := linspace_gen true.

  (** numpy.logspace(log10 a, log10 b, num) = 10 ** linspace(...). *)
  Definition logspace (a b : F) (num : Z) : res (list F) :=
    l <- linspace (nlog10 O a) (nlog10 O b) num ; Ok (map (npow10 O) l).
End Linspace.
