(** Symbolic expressions: the part of sympy that the transformations use.
    sympy's automatic rewriting (flattening, cancellation, ordering) is not
    modelled; the theorems only speak about values ([eval]) and about the
    symbols that occur ([vars]), and rewriting keeps values and never adds
    symbols. *)
From Coq Require Import Reals Ascii.
From Verif Require Import Base.

(** [App f k e]: k-th derivative of the user function or table [f] of one
    argument, applied to [e] (special_functions/custom_functions.py,
    special_functions/tables.py).  Functions of several arguments are left out. *)
Inductive expr : Type :=
| Cst (z : Z)
| Pi
| Var (x : string)
| Add (a b : expr)
| Mul (a b : expr)
| Opp (a : expr)
| Inv (a : expr)
| Sin (a : expr)
| Cos (a : expr)
| Exp (a : expr)
| App (f : string) (k : nat) (a : expr).

Definition Sub (a b : expr) : expr := Add a (Opp b).
Definition Div (a b : expr) : expr := Mul a (Inv b).

(** sum of a list, starting from the first term as in [total += term]. *)
Fixpoint Sum (acc : expr) (l : list expr) : expr :=
  match l with [] => acc | e :: l' => Sum (Add acc e) l' end.

(** [expr.free_symbols] (as a list, with repetitions). *)
Fixpoint vars (e : expr) : list string :=
  match e with
  | Cst _ | Pi => []
  | Var x => [x]
  | Add a b | Mul a b => vars a ++ vars b
  | Opp a | Inv a | Sin a | Cos a | Exp a | App _ _ a => vars a
  end.

Definition mem (x : string) (l : list string) : bool := existsb (String.eqb x) l.

(** [expr.subs(x, n)]. *)
Fixpoint subst (x : string) (n : expr) (e : expr) : expr :=
  match e with
  | Cst _ | Pi => e
  | Var y => if String.eqb x y then n else e
  | Add a b => Add (subst x n a) (subst x n b)
  | Mul a b => Mul (subst x n a) (subst x n b)
  | Opp a => Opp (subst x n a)
  | Inv a => Inv (subst x n a)
  | Sin a => Sin (subst x n a)
  | Cos a => Cos (subst x n a)
  | Exp a => Exp (subst x n a)
  | App f k a => App f k (subst x n a)
  end.

(** [expr.subs(dict)]: the pairs are substituted one after the other (sympy
    sorts the pairs; the list given here is the sorted one). *)
Definition subst_seq (m : list (string * expr)) (e : expr) : expr :=
  fold_left (fun e p => subst (fst p) (snd p) e) m e.

(** [expr.diff(x)]. *)
Fixpoint diff (x : string) (e : expr) : expr :=
  match e with
  | Cst _ | Pi => Cst 0
  | Var y => if String.eqb x y then Cst 1 else Cst 0
  | Add a b => Add (diff x a) (diff x b)
  | Mul a b => Add (Mul (diff x a) b) (Mul a (diff x b))
  | Opp a => Opp (diff x a)
  | Inv a => Opp (Mul (diff x a) (Mul (Inv a) (Inv a)))
  | Sin a => Mul (diff x a) (Cos a)
  | Cos a => Opp (Mul (diff x a) (Sin a))
  | Exp a => Mul (diff x a) (Exp a)
  | App f k a => Mul (diff x a) (App f (S k) a)
  end.

(** Structural equality, [==] on sympy expressions. *)
Fixpoint expr_eqb (a b : expr) : bool :=
  match a, b with
  | Cst x, Cst y => Z.eqb x y
  | Pi, Pi => true
  | Var x, Var y => String.eqb x y
  | Add a1 a2, Add b1 b2 => expr_eqb a1 b1 && expr_eqb a2 b2
  | Mul a1 a2, Mul b1 b2 => expr_eqb a1 b1 && expr_eqb a2 b2
  | Opp a1, Opp b1 => expr_eqb a1 b1
  | Inv a1, Inv b1 => expr_eqb a1 b1
  | Sin a1, Sin b1 => expr_eqb a1 b1
  | Cos a1, Cos b1 => expr_eqb a1 b1
  | Exp a1, Exp b1 => expr_eqb a1 b1
  | App f k a1, App g l b1 => String.eqb f g && Nat.eqb k l && expr_eqb a1 b1
  | _, _ => false
  end.

(** Values.  [fn f k] interprets the k-th derivative of the user function [f],
    [rho] the symbols.  Division is Coq's total one; statements about division
    ask for [wd]: no divisor vanishes. *)
Section Eval.
  Variable fn : string -> nat -> R -> R.
  Variable rho : string -> R.
  Fixpoint eval (e : expr) : R :=
    match e with
    | Cst z => IZR z
    | Pi => PI
    | Var x => rho x
    | Add a b => eval a + eval b
    | Mul a b => eval a * eval b
    | Opp a => - eval a
    | Inv a => / eval a
    | Sin a => sin (eval a)
    | Cos a => cos (eval a)
    | Exp a => exp (eval a)
    | App f k a => fn f k (eval a)
    end%R.
  Fixpoint wd (e : expr) : Prop :=
    match e with
    | Cst _ | Pi | Var _ => True
    | Add a b | Mul a b => wd a /\ wd b
    | Inv a => wd a /\ eval a <> 0%R
    | Opp a | Sin a | Cos a | Exp a | App _ _ a => wd a
    end.
End Eval.

(** recursive_sub, beluga/utils/helper_functions.py lines 27-35. *)
Fixpoint rec_sub_loop (n : nat) (m : list (string * expr)) (e : expr) : expr * bool :=
  match n with
  | O => (e, false)
  | S n' => let e' := subst_seq m e in
            if expr_eqb e' e then (e', true) else rec_sub_loop n' m e'
  end.
Definition recursive_sub (e : expr) (m : list (string * expr)) : expr * bool :=
  rec_sub_loop (length m + 1) m e.
