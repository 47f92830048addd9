(** Executable numbers with a NaN: [None] stands for NaN (and for the
    infinities, which no example distinguishes from it).  Operations propagate
    it, division by zero yields it, comparisons with it are false, as in IEEE
    arithmetic. *)
From Coq Require Import QArith Qabs.
From Verif Require Import Base.

Definition x1 (f : Q -> Q) (a : option Q) : option Q := option_map f a.
Definition x2 (f : Q -> Q -> Q) (a b : option Q) : option Q :=
  match a, b with Some x, Some y => Some (f x y) | _, _ => None end.
Definition xc (f : Q -> Q -> bool) (a b : option Q) : bool :=
  match a, b with Some x, Some y => f x y | _, _ => false end.

Definition XOps : NumOps (option Q) := {|
  n0 := Some 0%Q;
  nadd := x2 (nadd QOps); nsub := x2 (nsub QOps); nmul := x2 (nmul QOps);
  ndiv := fun a b => match a, b with
                     | Some x, Some y => if Qeq_bool y 0 then None else Some (ndiv QOps x y)
                     | _, _ => None
                     end;
  nabs := x1 Qabs; neqb := xc (neqb QOps); nltb := xc (nltb QOps);
  nofZ := fun z => Some (inject_Z z);
  nlog10 := fun x => x; npow10 := fun x => x |}.
