(** Vocabulary for the trajectory-mapper properties, independent of how the
    mappers are written: shapes of arrays and positions of entries. *)
From Verif Require Import Base Map_Model.
Open Scope nat_scope.

(** A two-dimensional array with [N] rows of [c] entries each. *)
Definition shape {F} (N c : nat) (a : arr F) : Prop :=
  exists rows, a = Mat c rows /\ length rows = N /\ Forall (fun r => length r = c) rows.

(** Entry in row [k], column [j]. *)
Definition entry {F} (a : arr F) (k j : nat) : option F :=
  match a with
  | E1 => None
  | Mat _ rows => match nth_error rows k with Some r => nth_error r j | None => None end
  end.

(** [a'] is [a] with the column [col] placed before column [i]. *)
Definition column_inserted {F} (i : nat) (col : list F) (a a' : arr F) : Prop :=
  (forall k, k < alen a -> entry a' k i = nth_error col k) /\
  (forall k j, j < i -> entry a' k j = entry a k j) /\
  (forall k j, i <= j -> entry a' k (S j) = entry a k j).

(** The control column [ui] of [u] sits in column [yi] of the states. *)
Definition column_placed {F} (u : arr F) (ui : nat) (y : arr F) (yi : nat) : Prop :=
  forall k, k < alen u -> entry y k yi = entry u k ui.

(** The mapper chains that the functors append, as functions of the problem
    dimensions: [n] states, [m] controls, [np] parameters, [ncp] user
    constraint parameters, [nadj] adjoined boundary conditions
    (mapping_functions.py: MomentumShift lines 178-180, UTM line 286, Dualize
    line 392, AlgebraicControlLaw line 415, DifferentialControlLaw lines
    448-455, NormalizeTime lines 716-718, SquashToBVP lines 665-681; order of
    make_indirect_method lines 863-937). *)
Definition squash_mapper {F} (ncp nadj n_states n_costates : nat) : mapper F :=
  MSquash n_states (n_states + n_costates) (ncp + nadj) (ncp + nadj + nadj).

Definition shift_part {F} (shift : bool) (n : nat) : list (mapper F) :=
  if shift then [MMomentumShift (Some n)] else [].

Definition norm_part {F} (norm : bool) (np : nat) : list (mapper F) :=
  if norm then [MNormalizeTime (Some np)] else [].

Definition n_shifted (shift : bool) (n : nat) : nat := if shift then S n else n.

(** Traditional method, differential control, [nutm] UTM constraints. *)
Definition chain_differential {F} (shift norm : bool) (n m np ncp nadj nutm : nat) cost
    : list (mapper F) :=
  let n' := n_shifted shift n in
  shift_part shift n ++ repeat MIdentity nutm ++
  [MDualize nadj cost; MDifferential (seq n' m)] ++ norm_part norm np ++
  [squash_mapper ncp nadj (n' + m) n'].

(** Traditional method, algebraic control. *)
Definition chain_algebraic {F} (shift norm : bool) (n m np ncp nadj nutm : nat) cost options ham
    : list (mapper F) :=
  let n' := n_shifted shift n in
  shift_part shift n ++ repeat MIdentity nutm ++
  [MDualize nadj cost; MAlgebraic m options ham] ++ norm_part norm np ++
  [squash_mapper ncp nadj n' n'].
