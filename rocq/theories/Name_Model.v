(** Names of the derivatives of user functions and tables:
    beluga/symbolic/special_functions/custom_functions.py lines 66-125,
    tables.py lines 38-69, LocalCompiler.add_function_local.

    A sympy argument is represented by its printed form.  The evaluated
    function of an object is represented by its derivative orders: it is the
    numerical derivative of [base_func] with these orders (C53). *)
From Coq Require Import Ascii Decimal DecimalString DecimalNat.
From Verif Require Import Base.
Open Scope string_scope.

(** [str(n)] *)
Definition str_nat (n : nat) : string := NilEmpty.string_of_uint (Nat.to_uint n).

(** CustomFunction.construct_name, lines 104-125 *)
Fixpoint post_of (args : list string) (order : list nat) : string :=
  match args, order with
  | a :: args', k :: order' =>
      match k with
      | 0%nat => post_of args' order'
      | 1%nat => "d" ++ a ++ post_of args' order'
      | _ => "d" ++ a ++ str_nat k ++ post_of args' order'
      end
  | _, _ => ""
  end.
Definition construct_name (func : string) (args : list string) (order : list nat) : string :=
  match fold_right Nat.add 0%nat order with
  | 0%nat => func
  | 1%nat => "d" ++ func ++ "_" ++ post_of args order
  | t => "d" ++ str_nat t ++ func ++ "_" ++ post_of args order
  end.

(** SymTable.construct_name, lines 58-69 *)
Definition table_name (table arg : string) (order : nat) : string :=
  match order with
  | 0%nat => table
  | 1%nat => "d" ++ table ++ "_d" ++ arg
  | _ => "d" ++ str_nat order ++ table ++ "_d" ++ arg ++ str_nat order
  end.

(** An object: CustomFunctionMeta.__new__ receives the constructed name as
    [base_name] (line 85). *)
Record custom : Type := mkCustom { c_base_name : string; c_args : list string; c_order : list nat }.
(** [func_locals], newest first. *)
Definition locals := list (string * list nat).
Fixpoint lookup (n : string) (l : locals) : option (list nat) :=
  match l with [] => None | (m, o) :: l' => if String.eqb n m then Some o else lookup n l' end.

(** CustomFunction.__new__, lines 77-94; [arity] is the number of parameters of [base_func]. *)
Definition custom_new (arity : nat) (base_name : string) (args : list string) (order : list nat) (l : locals) : res (custom * locals) :=
  if Nat.eqb (length args) arity then
    let name := construct_name base_name args order in
    Ok (mkCustom name args order, (name, order) :: l)
  else Raise SyntaxError.
(** CustomFunctionGenerator.__call__, lines 38-40, default order. *)
Definition custom_call (arity : nat) (name : string) (args : list string) (l : locals) : res (custom * locals) :=
  custom_new arity name args (repeat 0%nat arity) l.
(** fdiff, lines 66-73; [i] counts from one.  ArgumentIndexError is an
    IndexError here; [i = 0] would write position -1 and does not occur. *)
Definition bump (i : nat) (o : list nat) : list nat := firstn (i - 1) o ++ (S (nth (i - 1) o 0%nat)) :: skipn i o.
Definition fdiff (arity : nat) (c : custom) (i : nat) (l : locals) : res (custom * locals) :=
  if Nat.leb i (length (c_args c)) then custom_new arity (c_base_name c) (c_args c) (bump i (c_order c)) l
  else Raise IndexError.

(** An object and its derivatives along a list of argument positions. *)
Fixpoint fdiffs (arity : nat) (c : custom) (path : list nat) (l : locals) : res (custom * locals) :=
  match path with
  | [] => Ok (c, l)
  | i :: path' => r <- fdiff arity c i l ; fdiffs arity (fst r) path' (snd r)
  end.
Definition derive_along (arity : nat) (name : string) (args : list string) (path : list nat) (l : locals) : res (custom * locals) :=
  r <- custom_call arity name args l ; fdiffs arity (fst r) path (snd r).
(** A history of derivations in one compiler. *)
Fixpoint history (arity : nat) (name : string) (h : list (list string * list nat)) (l : locals) : res (list custom * locals) :=
  match h with
  | [] => Ok ([], l)
  | (args, path) :: h' =>
      r <- derive_along arity name args path l ;
      r' <- history arity name h' (snd r) ; Ok (fst r :: fst r', snd r')
  end.
