(** SPBVP.solve: beluga/numeric/bvp_solvers/SPBVP.py lines 26-128.

    Arrays handed to scipy.integrate.solve_bvp are kept as the list of their
    columns (one per node).  A Python call with the wrong number of arguments is
    a TypeError ([bc5], [bc7]).  solve_bvp is a parameter: a function of
    everything it is handed.  The branch that turns a one-dimensional derivative
    by the parameters into a column (lines 75-76) is not modelled: blocks are
    always two-dimensional. *)
From Verif Require Import Base Map_Model.
Open Scope list_scope.
Open Scope nat_scope.

Section Spbvp.
  Context {F : Type} (O : NumOps F).

  (** What the setters of BaseAlgorithm stored in the object (BaseAlgorithm.py
      lines 35-52) and the option max_nodes (SPBVP.py line 24). *)
  Record spalg : Type := mkSpalg {
    a_deriv : list F -> list F -> list F -> res (list F);
    a_quad : list F -> list F -> list F -> res (list F);
    a_bc : list (list F) -> res (list F);
    a_fjac : option (list F -> list F -> list F -> res (list (list F) * list (list F)));
    a_bjac : option (list (list F) -> res (list (list (list F))));
    a_nodes : nat }.
  (** A function of five or seven arguments (NumericProblem.py lines 168, 180 and
      202, 215). *)
  Definition bc5 {A} (f : list F -> list F -> list F -> list F -> list F -> res A) (args : list (list F)) : res A :=
    match args with [y0; yf; p; nu; k] => f y0 yf p nu k | _ => Raise TypeError end.
  Definition bc7 {A} (f : list F -> list F -> list F -> list F -> list F -> list F -> list F -> res A) (args : list (list F)) : res A :=
    match args with [y0; q0; yf; qf; p; nu; k] => f y0 q0 yf qf p nu k | _ => Raise TypeError end.

  (** The arguments of the call of solve_bvp, lines 104-111. *)
  Record handed : Type := mkHanded {
    h_fun : list (list F) -> list F -> res (list (list F));
    h_bc : list F -> list F -> list F -> res (list F);
    h_fun_jac : option (list (list F) -> list F -> res (list (list (list (list F)))));   (* arrays returned, each a matrix per node *)
    h_bc_jac : option (list F -> list F -> list F -> res (list (list (list F))));          (* matrices returned *)
    h_t : list F; h_y : list (list F); h_p : list F; h_nodes : nat }.
  (** The fields of its result that are used. *)
  Record opt : Type := mkOpt { o_x : list F; o_y : list (list F); o_p : option (list F); o_success : bool; o_message : string; o_niter : nat }.

  (** [np.vstack] of one-dimensional arrays: none, or different sizes, ValueError. *)
  Definition vstack1 (rows : list (list F)) : res (list (list F)) :=
    match rows with
    | [] => Raise ValueError
    | r :: rs => if forallb (fun s => length s =? length r) rs then Ok rows else Raise ValueError
    end.
  (** [np.hstack] of two matrices. *)
  Definition hstack2 (a b : list (list F)) : res (list (list F)) :=
    if length a =? length b then Ok (map (fun x => fst x ++ snd x) (combine a b)) else Raise ValueError.
  Definition return_nil (_ _ _ : list F) : res (list F) := Ok [].

  (** [solinit.q.size > 0], then [solinit.q.shape[1]]; lines 36-40. *)
  Definition nquads_of (a : arr F) : nat :=
    match a with E1 => 0 | Mat c rows => match rows with [] => 0 | _ => c end end.

  Definition sp_handed (al : spalg) (g : sol F) : res (spalg * nat * nat * handed) :=
    nstates <- acols (s_y g) ;
    let nquads := nquads_of (s_q g) in
    let al' := if nquads =? 0 then mkSpalg (a_deriv al) return_nil (a_bc al) (a_fjac al) (a_bjac al) (a_nodes al) else al in
    let ndyn := length (s_p g) in
    let nnondyn := length (s_nu g) in
    let k := s_k g in
    let dyn params := firstn ndyn params in
    let non params := firstn nnondyn (skipn ndyn params) in
    let qpart y := firstn nquads (skipn nstates y) in
    let fn := fun ys params =>
      o1 <- mapM (fun yi => a_deriv al' (firstn nstates yi) (dyn params) k) ys ;
      o1 <- vstack1 o1 ;
      if nquads =? 0 then Ok o1
      else o2 <- mapM (fun yi => a_quad al' (firstn nstates yi) (dyn params) k) ys ;
           o2 <- vstack1 o2 ;
           hstack2 o1 o2 in
    let args := fun ya yb params =>
      if nquads =? 0 then [ya; yb; dyn params; non params; k]
      else [firstn nstates ya; qpart ya; firstn nstates yb; qpart yb; dyn params; non params; k] in
    let bc := fun ya yb params => a_bc al' (args ya yb params) in
    let fjac := match a_fjac al' with
      | None => None
      | Some j => Some (fun ys params =>
          match ys with
          | [] => Raise IndexError
          | y0 :: _ =>
              bs <- mapM (fun yi =>
                b <- j yi (dyn params) k ;
                if (length (fst b) =? length y0) && (length (snd b) =? nstates)
                then Ok (fst b, map (fun row => row ++ repeat (n0 O) nnondyn) (snd b)) else Raise ValueError) ys ;
              Ok (if ndyn + nnondyn =? 0 then [map fst bs] else [map fst bs; map snd bs])
          end)
      end in
    let bjac := match a_bjac al' with
      | None => None
      | Some j => Some (fun ya yb params =>
          bs <- j (args ya yb params) ;
          match bs with [a; b; c] => Ok [a; b; c] | _ => Raise ValueError end)
      end in
    ys <- (if nquads =? 0 then Ok (arows (s_y g)) else hstack2 (arows (s_y g)) (arows (s_q g))) ;
    Ok (al', nstates, nquads, mkHanded fn bc fjac bjac (s_t g) ys (s_p g ++ s_nu g) (a_nodes al')).

  (** Lines 113-128: the trajectory, its flag [converged] and the remaining
      entries of the result. *)
  Record spresult : Type := mkSpresult { sr_sol : sol F; sr_converged : bool; sr_success : bool; sr_message : string; sr_niter : nat }.
  Definition sp_result (g : sol F) (nstates nquads : nat) (o : opt) : spresult :=
    let ndyn := length (s_p g) in
    let nnondyn := length (s_nu g) in
    let s := set_t (o_x o) g in
    let s := set_y (Mat nstates (map (firstn nstates) (o_y o))) s in
    let s := set_q (Mat nquads (map (fun c => firstn nquads (skipn nstates c)) (o_y o))) s in
    let s := set_dual (Mat nstates (map (fun _ => repeat (n0 O) nstates) (o_y o))) s in
    let s := match o_p o with
      | Some p => set_nu (firstn nnondyn (skipn ndyn p)) (set_p (firstn ndyn p) s)
      | None => set_nu [] (set_p [] s)
      end in
    mkSpresult s (o_success o) (o_success o) (o_message o) (o_niter o).

  Definition sp_solve (solve_bvp : handed -> res opt) (al : spalg) (g : sol F) : res (spalg * spresult) :=
    h <- sp_handed al g ;
    let '(al', nstates, nquads, h) := h in
    o <- solve_bvp h ;
    Ok (al', sp_result g nstates nquads o).
End Spbvp.
