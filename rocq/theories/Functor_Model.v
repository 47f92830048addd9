(** GenericFunctor, beluga/symbolic/data_classes/mapping_functions.py lines
    26-107, on a heap, so that sharing between composed functors is visible.
    An object holds its transformation and its [_right] pointer; [data], [kwargs]
    and the printed name are left out ([GenericFunctor(f)] copies the bound
    method, so the copy still reads the data of the original object). *)
From Verif Require Import Base.

Section Functor.
  Context {P : Type}.
  Definition op : Type := P -> res P.
  Record obj : Type := mkObj { o_op : op; o_right : option nat }.
  Definition heap : Type := list obj.

  (** GenericFunctor() or a subclass instance, lines 38-47. *)
  Definition alloc (h : heap) (o : obj) : heap * nat := (h ++ [o], length h).
  Definition identity : op := fun p => Ok p.

  (** __mul__, lines 61-72: copy [self] (lines 30-36), then point the copy's
      right end at [other]; recursion over the chain of [self], with fuel. *)
  Fixpoint mul (fuel : nat) (h : heap) (a b : nat) : option (heap * nat) :=
    match fuel with
    | O => None
    | S fuel' =>
        match nth_error h a with
        | None => None
        | Some o =>
            let '(h1, c) := alloc h (mkObj (o_op o) (o_right o)) in
            match o_right o with
            | None => Some (firstn c h1 ++ [mkObj (o_op o) (Some b)], c)
            | Some r =>
                match mul fuel' h1 r b with
                | None => None
                | Some (h2, d) =>
                    Some (firstn c h2 ++ mkObj (o_op o) (Some d) :: skipn (S c) h2, c)
                end
            end
        end
    end.

  (** __lshift__ lines 55-59 and __rshift__ lines 89-93. *)
  Definition lshift (fuel : nat) (h : heap) (a b : nat) := mul fuel h a b.
  Definition rshift (fuel : nat) (h : heap) (a b : nat) := mul fuel h b a.

  (** __pow__, lines 74-87, for an int argument. *)
  Fixpoint pow_loop (fuel k : nat) (h : heap) (acc a : nat) : option (heap * nat) :=
    match k with
    | O => Some (h, acc)
    | S k' => match mul fuel h acc a with
              | None => None
              | Some (h', c) => pow_loop fuel k' h' c a
              end
    end.
  Inductive pow_result : Type := PowRaise (e : exn) | PowFuel | PowOk (h : heap) (a : nat).
  Definition pow (fuel : nat) (h : heap) (a : nat) (n : Z) : pow_result :=
    if n <? 0 then PowRaise ValueError
    else
      let '(h1, i) := alloc h (mkObj identity None) in
      match pow_loop fuel (Z.to_nat n) h1 i a with
      | None => PowFuel
      | Some (h', c) => PowOk h' c
      end.

  (** __call__, lines 103-107. *)
  Fixpoint call (fuel : nat) (h : heap) (a : nat) (p : P) : option (res P) :=
    match fuel with
    | O => None
    | S fuel' =>
        match nth_error h a with
        | None => None
        | Some o =>
            match o_right o with
            | None => Some (o_op o p)
            | Some r =>
                match call fuel' h r p with
                | None => None
                | Some (Raise e) => Some (Raise e)
                | Some (Ok p') => Some (o_op o p')
                end
            end
        end
    end.
End Functor.
Arguments obj : clear implicits.
Arguments heap : clear implicits.
Arguments op : clear implicits.
