(** Model of the declaration functions of
    beluga/symbolic/data_classes/symbolic_problem.py (lines 88-209, 319-321), of
    the shared name table (beluga/numeric/compilation/LocalCompiler.py) and of
    the unit check of the cost (components_structures.py lines 181-196).

    Only names are kept: what a declaration stores besides its name has no
    influence on the check.  [table] is [local_compiler.sym_locals] (its keys).
    Keyword arguments of [scale] have distinct names, as Python enforces. *)
From Coq Require Import Ascii.
From Verif Require Import Base Sym_Expr Sym_Model.

Inductive kind : Type :=
| KState | KCostate | KParameter | KCoparameter | KControl | KConstant | KQuantity | KFunction | KTable
| KSwitch | KQuad | KConstantOfMotion | KUnit | KConstraintParameter.

(** How the constructor behaves once the name has been accepted: it succeeds, it
    raises before it registers the name (custom functions that do not compile,
    unknown table kinds), or after (a constant whose value [float] rejects:
    Constant.__init__ lines 78-81 registers the name first). *)
Inductive outcome : Type := Works | FailsBefore (e : exn) | FailsAfter (e : exn).

Inductive call : Type :=
| Independent (name : string)
| Declare (k : kind) (name : string) (o : outcome)
| ConstraintParameter (name : string)
| Scale (names : list string)
| Unnamed.                       (* constraints, costs, symmetries *)

Record decls : Type := mkDecls { d_ind : string; d_items : list (kind * string) }.

(** Problem.__init__: the default independent variable is registered. *)
Definition new_problem : list string * decls := (["_t"%string], mkDecls "_t" []).

(** A dictionary assignment keeps one entry per key. *)
Definition register (table : list string) (n : string) : list string :=
  if mem n table then table else table ++ [n].

(** One declaration with the check of lines 319-321. *)
Definition declare (k : kind) (n : string) (o : outcome) (s : list string * decls) : (list string * decls) * option exn :=
  let '(table, d) := s in
  if mem n table then (s, Some RuntimeWarning)
  else match o with
       | Works => ((register table n, mkDecls (d_ind d) (d_items d ++ [(k, n)])), None)
       | FailsBefore e => (s, Some e)
       | FailsAfter e => ((register table n, d), Some e)
       end.
Fixpoint scale_loop (names : list string) (s : list string * decls) : (list string * decls) * option exn :=
  match names with
  | [] => (s, None)
  | n :: names' =>
      match declare KUnit n Works s with
      | (s', None) => scale_loop names' s'
      | r => r
      end
  end.
Definition step (c : call) (s : list string * decls) : (list string * decls) * option exn :=
  let '(table, d) := s in
  match c with
  | Independent n =>
      if mem n table then (s, Some RuntimeWarning)
      else ((register table n, mkDecls n (d_items d)), None)
  | Declare k n o => declare k n o s
  | ConstraintParameter n =>       (* no check, lines 135-137 *)
      ((register table n, mkDecls (d_ind d) (d_items d ++ [(KConstraintParameter, n)])), None)
  | Scale names => scale_loop names s
  | Unnamed => (s, None)
  end.
Fixpoint steps (cs : list call) (s : list string * decls) : list string * decls :=
  match cs with [] => s | c :: cs' => steps cs' (fst (step c s)) end.

(** Entities of a problem: its independent variable and what was declared. *)
Definition entities (d : decls) : list string := d_ind d :: map snd (d_items d).

(** ** Sharing of the table (LocalCompiler.__deepcopy__ returns [self]) *)

(** [copy.deepcopy(problem)] copies the declarations and shares the table; every
    structure built afterwards on the copy registers its name there
    (NamedStruct.__init__, lines 44-49).  Names registered by a transformation,
    mapping_functions.py. *)
Section Names.
  Definition eps_names (p : prob) : list string :=
    match find_at (is_method "epstrig") (p_cp p) with
    | Some (_, c) => match c_expr c with Var u => [("_" ++ u ++ "_trig")%string] | _ => [] end
    | None => []
    end.
  Definition tf_names (f : tf) (p : prob) : list string :=
    match f with
    | FMomentum => [p_ind p; String "_"%char (p_ind p)]                        (* lines 153-163 *)
    | FEps => eps_names p                                                     (* line 206 *)
    | FDual _ => nu_names "_nu_0_" (p_ci p) ++ nu_names "_nu_f_" (p_ct p)
                 ++ map lam (syms (p_states p)) ++ ["hamiltonian"%string]     (* lines 316-353 *)
    | FDiff m => p_controls p ++ (if String.eqb (lower m) "diffyg" then map lam (p_controls p) else [])
    | FNorm => [("_delta" ++ p_ind p)%string; "_tau"%string]                  (* lines 696-714 *)
    | FUtm | FRashs | FAlg | FSquash | FJac => []
    end.
  Variable lu : list (list expr) -> list expr -> res (list expr).
  Variable solve : list expr -> list string -> list (list expr).
  (** The table after running transformations on a copy, also when one raises
      (then some of the names counted here may not have been reached). *)
  Fixpoint names_after (fs : list tf) (p : prob) (table : list string) : list string :=
    match fs with
    | [] => table
    | f :: fs' =>
        let table := fold_left register (tf_names f p) table in
        match apply_tf lu solve f p with
        | Ok p' => names_after fs' p' table
        | Raise _ => table
        end
    end.
End Names.

(** ** Unit check of the cost *)
Section Units.
  Context {U : Type}.
  Variables (mul div : U -> U -> U) (eqb : U -> U -> bool).
  Record cost_units : Type := mkCU { cu_units : option U; cu_path : option U }.
  (** CostStruct.check_path_units, lines 181-196. *)
  Definition check_path_units (ind : U) (c : cost_units) : cost_units * option exn :=
    match cu_units c, cu_path c with
    | None, None => (c, None)
    | None, Some p => (mkCU (Some (mul p ind)) (Some p), None)
    | Some u, None => (mkCU (Some u) (Some (div u ind)), None)
    | Some u, Some p =>
        if negb (eqb u (mul p ind)) then (mkCU (Some u) (Some (div u ind)), Some RuntimeWarning)
        else (c, None)
    end.
  (** Checks in a row on the same object, with their outcomes. *)
  Fixpoint checks (n : nat) (ind : U) (c : cost_units) : list (option exn) :=
    match n with
    | O => []
    | S n' => let '(c', r) := check_path_units ind c in r :: checks n' ind c'
    end.
  (** [solve] checks a deep copy each time (beluga.py line 134). *)
  Fixpoint checks_on_copies (n : nat) (ind : U) (c : cost_units) : list (option exn) :=
    match n with
    | O => []
    | S n' => snd (check_path_units ind c) :: checks_on_copies n' ind c
    end.
End Units.
