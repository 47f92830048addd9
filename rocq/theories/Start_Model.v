(** beluga.solve from the settings of the guess generator to the trajectories
    handed to the caller: beluga/beluga.py lines 161-189, with the generator of
    Guess_Model.v, the mappers of Map_Model.v, the compiled functions of
    Unit_Model.v, the continuation loop of Cont_Model.v and the postprocessing of
    Full_Model.v.

    [p] is the problem of the user, [p'] the boundary value problem, [ms] its
    mappers.  [nan] stands for the cost of a trajectory that has none. *)
From Coq Require Import Reals.
From Verif Require Import Base Cont_Model Sym_Model Map_Model Jac_Model Unit_Model Guess_Model Chain_Model Full_Model.
Open Scope string_scope.
Open Scope list_scope.
Open Scope nat_scope.

Section Start.
  Variables (fn : string -> nat -> R -> R) (p p' : prob) (ms : list (mapper R)) (nan : R).

  (** guess_generators.py lines 133-139 and 211-217: one row per point.  A control
      guess that is a number or None makes a one-dimensional array, written [E1]:
      the mappers treat it like an empty one (indexing with two indices and
      deleting along axis 1 fail). *)
  Definition width (rows : list (list R)) : nat := match rows with [] => 0 | r :: _ => length r end.
  Definition control_rows (us : list (option (gval (F := R)))) : arr R :=
    match us with
    | Some (GArr l) :: _ => Mat (length l) (map (fun _ => l) us)
    | _ => E1
    end.
  Definition start_sol (k : list R) (d : start_data (F := R)) : sol R :=
    mkSol (d_t d) [] (Mat (width (d_y d)) (d_y d)) (Mat (width (d_dual d)) (d_dual d)) (Mat (width (d_q d)) (d_q d))
      (control_rows (d_u d)) E1 (d_p d) (d_nu d) k nan.

  (** Propagation, guess_generators.py lines 140-146 with ivpsol.py lines 80-104:
      [ivp] is scipy's solve_ivp (nodes and one row per node), [recon] the
      reconstruction of the quadratures. *)
  Variable ivp : (R -> list R -> res (list R)) -> R -> R -> list R -> res (list R * list (list R)).
  Variable recon : (list R -> res (list R)) -> list R -> list (list R) -> list R -> res (list (list R)).
  Definition propagate (s : sol R) : res (sol R) :=
    y0 <- first_row (s_y s) ;
    q0 <- first_row (s_q s) ;
    t0 <- get (s_t s) 0 ;
    tf <- get (s_t s) (length (s_t s) - 1) ;
    r <- ivp (fun _ y => deriv_func fn p' (law_control fn p') y None (s_p s) (s_k s)) t0 tf y0 ;
    q <- (if (length (p_quads p') =? 0) || (length q0 =? 0) then Ok E1
          else rows <- recon (fun y => quad_func fn p' (law_control fn p') y None (s_p s) (s_k s)) (fst r) (snd r) q0 ; Ok (Mat (length q0) rows)) ;
    Ok (mkSol (fst r) [] (Mat (length y0) (snd r)) E1 q E1 E1 (s_p s) (s_nu s) (s_k s) nan).

  (** Lines 161-163 of beluga.py.  Without states the array of the states is
      one-dimensional and SquashToBVP cannot join it to the costates (ValueError);
      a static guess of None has no attributes. *)
  Definition generate_sol (g : gen (F := R) (S := sol R)) (k : list R) : res (sol R) :=
    h <- generate_in_solve ROps g ;
    match h with
    | FromSettings d =>
        r <- map_sol ROps ms (start_sol k d) ;
        if String.eqb (g_mode g) "auto" then propagate (snd (fst r)) else Ok (snd (fst r))
    | NoStates => Raise ValueError
    | FromUser (Some s) => r <- map_sol ROps ms s ; Ok (snd (fst r))
    | FromUser None => Raise AttributeError
    end.

  (** Lines 165-168, initial_helper: the constants named after initial and final
      states take their values from the guess. *)
  Definition helped (helper : bool) (s : sol R) : res (sol R) :=
    if helper then
      r <- inv_map_sol ROps ms s ;
      let o := snd (fst r) in
      k <- match_constants (syms (p_states p)) (p_ind p) (p_consts p) (s_t o) (arows (s_y o)) (s_k o) ;
      Ok (set_k k s)
    else Ok s.

  (** Lines 170-175: the control at every node. *)
  Definition with_controls (s : sol R) : res (sol R) :=
    match law_control fn p' with
    | None => Ok s
    | Some cu =>
        us <- mapM (fun i => y <- get (arows (s_y s)) i ; Ok (cu y (s_p s) (s_k s))) (seq 0 (Nat.max 1 (length (s_t s)))) ;
        Ok (set_u (Mat (length (p_controls p')) us) s)
    end.

  Definition first_guess (g : gen (F := R) (S := sol R)) (k : list R) (helper : bool) : res (sol R) :=
    s <- generate_sol g k ; s <- helped helper s ; with_controls s.

  (** Lines 181-189; [c0] is the attribute [converged] of the guess, [NoFuel] the
      bound on the iterations of the model. *)
  Definition begin_with (c0 : flag) (s : sol R) : traj := mkTraj (s_k s) c0 s.
  Inductive finish : Type := Finished (out : list (list traj)) (res : list (list (sol R))) | Failed (e : exn) | NoFuel.
  Definition solve_run (fuel : nat) (slv : Cont_Model.solver R (sol R)) (steps : option (list (strat R (sol R))))
      (g : gen (F := R) (S := sol R)) (k : list R) (helper : bool) (c0 : flag) : finish :=
    match first_guess g k helper with
    | Raise e => Failed e
    | Ok s =>
        match run_set ROps fuel slv steps (begin_with c0 s) (p_consts p') with
        | SetDone out => match post ms out with Ok res => Finished out res | Raise e => Failed e end
        | SetRaised e => Failed e
        | SetFuel => NoFuel
        end
    end.
End Start.
