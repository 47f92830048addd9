(** One solve of the continuation loop: beluga/continuation/continuation.py
    lines 532-545 and 566-580 with the collocation solver of Spbvp_Model.v, and
    the functions that are loaded into the solver (lines 523-528). *)
From Coq Require Import Reals.
From Verif Require Import Base Sym_Model Map_Model Scale_Model Jac_Model Unit_Model Spbvp_Model.
Open Scope list_scope.
Open Scope nat_scope.

Section Pipe.
  Context {F : Type} (O : NumOps F).
  (** The factors are computed from the guess; the flag [converged] is an
      attribute that scaling copies. *)
  Definition loop_solve (autoscale : bool) (compute_factors : sol F -> factors F) (solve_bvp : handed (F := F) -> res (opt (F := F)))
      (al : spalg (F := F)) (guess : sol F) : res (spalg (F := F) * spresult (F := F)) :=
    let f := compute_factors guess in
    g <- (if autoscale then scale_sol O guess f false else Ok guess) ;
    r <- sp_solve O solve_bvp al g ;
    s <- (if autoscale then scale_sol O (sr_sol (snd r)) f true else Ok (sr_sol (snd r))) ;
    Ok (fst r, mkSpresult s (sr_converged (snd r)) (sr_success (snd r)) (sr_message (snd r)) (sr_niter (snd r))).
End Pipe.

(** Lines 523-528: the compiled functions of problem [p].  The boundary function
    has arguments for the quadratures exactly if there are quadratures
    (NumericProblem.py lines 156-230). *)
Definition loaded (fn : string -> nat -> R -> R) (p : prob) (al : spalg (F := R)) : Prop :=
  let cu := law_control fn p in
  a_deriv al = (fun y pp k => deriv_func fn p cu y None pp k) /\
  a_quad al = (fun y pp k => quad_func fn p cu y None pp k) /\
  a_bc al = (if length (p_quads p) =? 0 then bc5 (fun y0 yf pp pc k => bc_func fn p cu y0 [] yf [] pp pc k)
             else bc7 (fun y0 q0 yf qf pp pc k => bc_func fn p cu y0 q0 yf qf pp pc k)).
