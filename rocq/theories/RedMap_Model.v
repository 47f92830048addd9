(** The trajectory mapper that MishchenkoFomenko appends to the chain of the
    problem: beluga/symbolic/data_classes/mapping_functions.py lines 521, 568,
    607-622 and 643-655.  The mapper itself is MMF of Map_Model.v.

    Simplifications: [prob.lambdify] gives the value of an expression at the
    values of the named arguments; a symbol that is no argument has the value 0
    (the code would raise NameError). *)
From Coq Require Import Reals.
From Verif Require Import Base Sym_Expr Sym_Model Map_Model Red_Model.
Open Scope string_scope.
Open Scope list_scope.
Open Scope nat_scope.

Fixpoint value_of (l : list (string * R)) (x : string) : R :=
  match l with [] => 0%R | (y, v) :: l' => if String.eqb x y then v else value_of l' x end.
(** lambdify([states, costates, parameters, constants], e) *)
Definition lambda4 (fn : string -> nat -> R -> R) (ss ls ps ks : list string) (e : expr) (y d p k : list R) : R :=
  eval fn (value_of (combine ss y ++ combine ls d ++ combine ps p ++ combine ks k)) e.
(** lambdify([states, costates, quads, parameters, constants], e) *)
Definition lambda5 (fn : string -> nat -> R -> R) (ss ls qs ps ks : list string) (e : expr) (y d q p k : list R) : R :=
  eval fn (value_of (combine ss y ++ combine ls d ++ combine qs q ++ combine ps p ++ combine ks k)) e.

(** Location and index of a removed struct, lines 607-622. *)
Definition place_of (x : string) (ss ls : list string) : option place :=
  match index_of x ss with
  | Some i => Some (mkPlace true i)
  | None => match index_of x ls with Some i => Some (mkPlace false i) | None => None end
  end.
Definition without (pl : place) (ss ls : list string) : list string * list string :=
  if loc_states pl then (remove_at (loc_idx pl) ss, ls) else (ss, remove_at (loc_idx pl) ls).

(** The mapper of one reduction [rd] from problem [p] to [p']. *)
Definition mf_mapper (fn : string -> nat -> R -> R) (p p' : prob) (rd : red) : option (mapper R) :=
  let ss := syms (p_states p) in let ls := syms (p_costates p) in
  match place_of (rd_p rd) ss ls with
  | None => None
  | Some pp =>
      let rest := without pp ss ls in
      match place_of (rd_q rd) (fst rest) (snd rest) with
      | None => None
      | Some ps =>
          let ss' := syms (p_states p') in let ls' := syms (p_costates p') in
          Some (MMF pp ps
            (lambda4 fn ss ls (p_params p) (p_consts p) (rd_com_expr rd))
            (lambda4 fn ss ls (p_params p') (p_consts p) (rd_q_fwd rd))
            (lambda4 fn ss' ls' (p_params p') (p_consts p') (rd_p_expr rd))
            (lambda5 fn ss' ls' (syms (p_quads p')) (p_params p') (p_consts p') (rd_q_expr rd)))
      end
  end.

(** The mappers that [n] reductions append; a reduction that is skipped appends none. *)
Definition step_mapper (fn : string -> nat -> R -> R) (r r1 : rprob) : option (list (mapper R)) :=
  match skipn (length (r_reds r)) (r_reds r1) with
  | [] => Some []
  | rd :: _ => match mf_mapper fn (r_p r) (r_p r1) rd with Some m => Some [m] | None => None end
  end.
Fixpoint reduce_mappers (integ : expr -> string -> expr) (solve : expr -> list string -> list (string * expr))
    (fn : string -> nat -> R -> R) (n : nat) (r : rprob) : option (rprob * list (mapper R)) :=
  match n with
  | 0 => Some (r, [])
  | S n' =>
      match mf_step integ solve 1 r with
      | Raise _ => None
      | Ok r1 =>
          match step_mapper fn r r1, reduce_mappers integ solve fn n' r1 with
          | Some ms, Some (r2, ms') => Some (r2, ms ++ ms')
          | _, _ => None
          end
      end
  end.
