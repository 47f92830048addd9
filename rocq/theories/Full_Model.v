(** beluga.solve from the first guess to the trajectories handed to the caller:
    beluga/beluga.py lines 181-224 (run_continuation_set and
    postprocess_continuations), with the continuation loop of Cont_Model.v, the
    solve of one case of Pipe_Model.v and the mappers of Map_Model.v.

    A trajectory of the loop is a pair of its constants and everything else; the
    constants inside the body are not used. *)
From Coq Require Import Reals.
From Verif Require Import Base Cont_Model Sym_Model Map_Model Scale_Model Jac_Model Unit_Model Spbvp_Model Pipe_Model Chain_Model.
Open Scope list_scope.
Open Scope nat_scope.

Definition traj : Type := Cont_Model.traj R (sol R).
Definition to_sol (g : traj) : sol R := set_k (t_const g) (t_body g).
(** [converged] is the [success] of solve_bvp, a bool (SPBVP.py line 122). *)
Definition of_result (r : spresult (F := R)) : traj :=
  mkTraj (s_k (sr_sol r)) (if sr_converged r then FTrue else FFalse) (sr_sol r).

(** continuation.py lines 581-596: the boundary function at the ends of the
    unscaled trajectory.  The residuals are only logged. *)
Definition residuals (al : spalg (F := R)) (s : sol R) : res (list R) :=
  ya <- first_row (s_y s) ;
  yb <- last_row (s_y s) ;
  if 0 <? nquads_of (s_q s)
  then qa <- first_row (s_q s) ; qb <- last_row (s_q s) ; a_bc al [ya; qa; yb; qb; s_p s; s_nu s; s_k s]
  else a_bc al [ya; yb; s_p s; s_nu s; s_k s].

Section Full.
  Variables (autoscale : bool) (compute_factors : sol R -> factors R).

  (** Lines 569-612; [max] of no residuals (line 610) is a ValueError.  [log]
      is false for the single solve of lines 531-551, which has no log entry. *)
  Definition solve_case (log : bool) (solve_bvp : handed (F := R) -> res (opt (F := R))) (al : spalg (F := R)) (g : traj) : res (spalg (F := R) * traj) :=
    r <- loop_solve ROps autoscale compute_factors solve_bvp al (to_sol g) ;
    _ <- (if log then rs <- residuals (fst r) (sr_sol (snd r)) ; match rs with [] => Raise ValueError | _ => Ok tt end else Ok tt) ;
    Ok (fst r, of_result (snd r)).

  (** postprocess_continuations, beluga.py lines 205-224; every call of the
      inverse map leaves the mappers for the next one. *)
  Fixpoint post_set (ms : list (mapper R)) (l : list traj) : res (list (mapper R) * list (sol R)) :=
    match l with
    | [] => Ok (ms, [])
    | g :: l' =>
        r <- inv_map_sol ROps ms (to_sol g) ;
        r' <- post_set (fst (fst r)) l' ;
        Ok (fst r', snd (fst r) :: snd r')
    end.
  Fixpoint post (ms : list (mapper R)) (out : list (list traj)) : res (list (list (sol R))) :=
    match out with
    | [] => Ok []
    | l :: out' =>
        r <- post_set ms l ;
        r' <- post (fst r) out' ;
        Ok (snd r :: r')
    end.
End Full.
