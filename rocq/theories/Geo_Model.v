(** Model of beluga/symbolic/differential_geometry/differential_geometry.py:
    exterior_derivative, make_standard_symplectic_form and is_symplectic. *)
From Verif Require Import Base Sym_Expr.

(** A two-dimensional sympy array: shape and entries (used only inside the shape). *)
Definition set2 {F} (m : nat -> nat -> F) (i j : nat) (v : F) : nat -> nat -> F :=
  fun a b => if Nat.eqb a i && Nat.eqb b j then v else m a b.

(** The argument [f] of exterior_derivative: an expression, an array with one
    index, or an array with two or more (a sympy Matrix always has two). *)
Inductive arr : Type := Scalar (e : expr) | Vec (l : list expr) | Higher.
Inductive dform : Type := D1 (l : list expr) | D2 (rows cols : nat) (m : nat -> nat -> expr).

(** One pass of the double loop, lines 33-42; [basis[jj]] is the only subscript
    that can be out of range. *)
Definition ext_step (f : list expr) (basis : list string) (df : nat -> nat -> expr) (ij : nat * nat)
  : res (nat -> nat -> expr) :=
  let '(i, j) := ij in
  let df := if Nat.eqb i j then set2 df i j (Cst 0) else df in
  if Nat.ltb i j then
    match nth_error basis i, nth_error basis j with
    | Some bi, Some bj =>
        let fi := nth i f (Cst 0) in
        let fj := nth j f (Cst 0) in
        let df := set2 df i j (Add (df i j) (diff bi fj)) in
        let df := set2 df i j (Add (df i j) (Opp (diff bj fi))) in
        let df := set2 df j i (Add (df j i) (Opp (diff bi fj))) in
        let df := set2 df j i (Add (df j i) (diff bj fi)) in
        Ok df
    | _, _ => Raise IndexError
    end
  else Ok df.
Fixpoint ext_loop (f : list expr) (basis : list string) (ps : list (nat * nat)) (df : nat -> nat -> expr)
  : res (nat -> nat -> expr) :=
  match ps with
  | [] => Ok df
  | p :: ps' => df <- ext_step f basis df p ; ext_loop f basis ps' df
  end.
(** exterior_derivative, lines 11-50. *)
Definition exterior_derivative (f : arr) (basis : list string) : res dform :=
  match f with
  | Scalar e => Ok (D1 (map (fun b => diff b e) basis))
  | Vec l =>
      let n := length basis in
      let m := length l in
      df <- ext_loop l basis (list_prod (seq 0 n) (seq 0 m)) (fun _ _ => Cst 0) ;
      Ok (D2 n m df)
  | Higher => Raise NotImplementedError
  end.

(** make_standard_symplectic_form, lines 74-95, as an integer matrix; the two
    [if]s of the loop cannot both hold unless n = 0. *)
Definition standard_form (ns nl : nat) : res (nat * (nat -> nat -> Z)) :=
  if Nat.eqb ns nl then
    Ok ((2 * ns)%nat, fun i j => if Nat.eqb i (j + ns) then (-1)%Z else if Nat.eqb j (i + ns) then 1%Z else 0%Z)
  else Raise ValueError.

(** is_symplectic, lines 117-146.  [eqb], [opp] and [zero] stand for sympy's
    comparison, negation and 0 on the entries. *)
Inductive form (F : Type) : Type := NoForm | Form (shape : list nat) (m : nat -> nat -> F).
Arguments NoForm {F}.
Arguments Form {F} shape m.
Section Symplectic.
  Context {F : Type}.
  Variables (eqb : F -> F -> bool) (opp : F -> F) (zero : F).
  Definition symp_step (m : nat -> nat -> F) (out : bool) (ij : nat * nat) : bool :=
    let '(i, j) := ij in
    let out := if Nat.eqb i j then (if negb (eqb (m i j) zero) then false else out) else out in
    if negb (Nat.eqb i j) then (if negb (eqb (m i j) (opp (m j i))) then false else out) else out.
  Definition is_symplectic (f : form F) : bool :=
    match f with
    | NoForm => false
    | Form [r; c] m =>
        if Nat.odd r || negb (Nat.eqb r c) then false
        else fold_left (symp_step m) (list_prod (seq 0 r) (seq 0 c)) true
    | Form _ _ => false
    end.
End Symplectic.
