(** From the declared problem to the problem the method is applied to. *)
From Verif Require Import Base Sym_Expr Sym_Model.

(** make_preprocessor (symbolic/data_classes/mapping_functions.py lines 791-797)
    as called by solve (beluga.py lines 132-134): ApplyQuantities after Sympify.
    Simplification: as in [Sym_Model.sympify], expressions are parsed already. *)
Definition preprocess (u : prob) : res prob := q <- sympify u ; apply_quantities q.
