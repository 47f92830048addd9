(** Model of the trajectory mappers:
    beluga/numeric/data_classes/Trajectory.py lines 15-58,
    beluga/numeric/data_classes/trajectory_mappers.py lines 13-366,
    beluga/symbolic/data_classes/symbolic_problem.py lines 308-331 (map_sol,
    inv_map_sol). *)
From Verif Require Import Base.
Open Scope nat_scope.

Section Mappers.
  Context {F : Type} (O : NumOps F).

  (** A trajectory array is either the empty one-dimensional [np.array([])]
      that [Trajectory.__new__] installs (Trajectory.py lines 29-38) or a
      two-dimensional array, kept as its number of columns and its rows. *)
  Inductive arr : Type :=
  | E1
  | Mat (c : nat) (rows : list (list F)).

  (** Trajectory.py lines 29-40.  Left out: [converged], [interpolation_type]
      and [interpolate], which no mapper reads or writes. *)
  Record sol : Type := mkSol {
    s_t : list F; s_dual_t : list F;
    s_y : arr; s_dual : arr; s_q : arr; s_u : arr; s_dual_u : arr;
    s_p : list F; s_nu : list F; s_k : list F;
    s_cost : F }.

  Definition set_t v s := mkSol v (s_dual_t s) (s_y s) (s_dual s) (s_q s) (s_u s) (s_dual_u s) (s_p s) (s_nu s) (s_k s) (s_cost s).
  Definition set_dual_t v s := mkSol (s_t s) v (s_y s) (s_dual s) (s_q s) (s_u s) (s_dual_u s) (s_p s) (s_nu s) (s_k s) (s_cost s).
  Definition set_y v s := mkSol (s_t s) (s_dual_t s) v (s_dual s) (s_q s) (s_u s) (s_dual_u s) (s_p s) (s_nu s) (s_k s) (s_cost s).
  Definition set_dual v s := mkSol (s_t s) (s_dual_t s) (s_y s) v (s_q s) (s_u s) (s_dual_u s) (s_p s) (s_nu s) (s_k s) (s_cost s).
  Definition set_q v s := mkSol (s_t s) (s_dual_t s) (s_y s) (s_dual s) v (s_u s) (s_dual_u s) (s_p s) (s_nu s) (s_k s) (s_cost s).
  Definition set_u v s := mkSol (s_t s) (s_dual_t s) (s_y s) (s_dual s) (s_q s) v (s_dual_u s) (s_p s) (s_nu s) (s_k s) (s_cost s).
  Definition set_dual_u v s := mkSol (s_t s) (s_dual_t s) (s_y s) (s_dual s) (s_q s) (s_u s) v (s_p s) (s_nu s) (s_k s) (s_cost s).
  Definition set_p v s := mkSol (s_t s) (s_dual_t s) (s_y s) (s_dual s) (s_q s) (s_u s) (s_dual_u s) v (s_nu s) (s_k s) (s_cost s).
  Definition set_nu v s := mkSol (s_t s) (s_dual_t s) (s_y s) (s_dual s) (s_q s) (s_u s) (s_dual_u s) (s_p s) v (s_k s) (s_cost s).
  Definition set_k v s := mkSol (s_t s) (s_dual_t s) (s_y s) (s_dual s) (s_q s) (s_u s) (s_dual_u s) (s_p s) (s_nu s) v (s_cost s).
  Definition set_cost v s := mkSol (s_t s) (s_dual_t s) (s_y s) (s_dual s) (s_q s) (s_u s) (s_dual_u s) (s_p s) (s_nu s) (s_k s) v.

  (** [len(a)]. *)
  Definition alen (a : arr) : nat :=
    match a with E1 => 0 | Mat _ rows => length rows end.

  (** [np.shape(a)[1]]. *)
  Definition acols (a : arr) : res nat :=
    match a with E1 => Raise IndexError | Mat c _ => Ok c end.

  (** The rows that iterating over the array yields. *)
  Definition arows (a : arr) : list (list F) :=
    match a with E1 => [] | Mat _ rows => rows end.

  (** The rows of [a.T], that is the columns of [a]. *)
  Definition acolumns (a : arr) : res (list (list F)) :=
    match a with
    | E1 => Ok []
    | Mat c rows => mapM (fun j => mapM (fun r => get r j) rows) (seq 0 c)
    end.

  Definition insert_row (i : nat) (x : F) (r : list F) : list F :=
    firstn i r ++ x :: skipn i r.

  Fixpoint insert_rows (i : nat) (col : list F) (rows : list (list F)) : list (list F) :=
    match col, rows with
    | x :: col', r :: rows' => insert_row i x r :: insert_rows i col' rows'
    | _, _ => []
    end.

  (** [np.insert(a, i, col, axis=1)] with a scalar non-negative index and a
      one-dimensional [col]: AxisError (a ValueError) on a one-dimensional
      array, IndexError when [i] exceeds the number of columns; [col] must
      have one value per row, or a single value, which is broadcast. *)
  Definition insert_col (a : arr) (i : nat) (col : list F) : res arr :=
    match a with
    | E1 => Raise ValueError
    | Mat c rows =>
        if i <=? c then
          if length col =? length rows then Ok (Mat (S c) (insert_rows i col rows))
          else match col with
               | [x] => Ok (Mat (S c) (map (insert_row i x) rows))
               | _ => Raise ValueError
               end
        else Raise IndexError
    end.

  (** [np.insert(a, -1, col, axis=1)]: before the last column. *)
  Definition insert_col_m1 (a : arr) (col : list F) : res arr :=
    match a with
    | E1 => Raise ValueError
    | Mat 0 _ => Raise IndexError
    | Mat (S c) _ => insert_col a c col
    end.

  (** The entries of a row whose position (counted from [i]) is not listed. *)
  Fixpoint del_row (js : list nat) (i : nat) (r : list F) : list F :=
    match r with
    | [] => []
    | x :: r' => if existsb (Nat.eqb i) js then del_row js (S i) r'
                 else x :: del_row js (S i) r'
    end.

  (** [np.delete(a, js, axis=1)] with a list of non-negative indices. *)
  Definition delete_cols (a : arr) (js : list nat) : res arr :=
    match a with
    | E1 => Raise ValueError
    | Mat c rows =>
        if forallb (fun j => j <? c) js
        then Ok (Mat (length (del_row js 0 (repeat (n0 O) c))) (map (del_row js 0) rows))
        else Raise IndexError
    end.

  (** [a[:, js]] with a list of non-negative indices. *)
  Definition select_cols (a : arr) (js : list nat) : res arr :=
    match a with
    | E1 => Raise IndexError
    | Mat c rows =>
        if forallb (fun j => j <? c) js
        then rs <- mapM (fun r => mapM (get r) js) rows ; Ok (Mat (length js) rs)
        else Raise IndexError
    end.

  (** [a[:, j]]. *)
  Definition column (a : arr) (j : nat) : res (list F) :=
    match a with
    | E1 => Raise IndexError
    | Mat c rows => if j <? c then mapM (fun r => get r j) rows else Raise IndexError
    end.

  (** Python slice [lo:hi] of a list, clamped to its length. *)
  Definition slice {A} (lo hi : nat) (l : list A) : list A := firstn (hi - lo) (skipn lo l).
  (** What [np.delete] leaves when given that slice. *)
  Definition unslice {A} (lo hi : nat) (l : list A) : list A :=
    if hi <=? lo then l else firstn lo l ++ skipn hi l.

  (** [a[:, lo:hi]]. *)
  Definition select_slice (a : arr) (lo hi : nat) : res arr :=
    match a with
    | E1 => Raise IndexError
    | Mat c rows => Ok (Mat (Nat.min hi c - Nat.min lo c) (map (slice lo hi) rows))
    end.

  (** [np.delete(a, slice(lo, hi), axis=1)]. *)
  Definition delete_slice (a : arr) (lo hi : nat) : res arr :=
    match a with
    | E1 => Raise ValueError
    | Mat c rows => Ok (Mat (c - (Nat.min hi c - Nat.min lo c)) (map (unslice lo hi) rows))
    end.

  Fixpoint app_rows (r1 r2 : list (list F)) : list (list F) :=
    match r1, r2 with
    | a :: r1', b :: r2' => (a ++ b) :: app_rows r1' r2'
    | _, _ => []
    end.

  (** [np.concatenate((a, b), axis=1)]: ValueError when the numbers of
      dimensions or of rows differ. *)
  Definition concat_cols (a b : arr) : res arr :=
    match a, b with
    | Mat c1 r1, Mat c2 r2 =>
        if length r1 =? length r2 then Ok (Mat (c1 + c2) (app_rows r1 r2)) else Raise ValueError
    | _, _ => Raise ValueError
    end.

  (** [np.delete(l, i)] for a one-dimensional array. *)
  Definition np_delete (l : list F) (i : nat) : res (list F) :=
    if i <? length l then Ok (firstn i l ++ skipn (S i) l) else Raise IndexError.

  (** trajectory_mappers.py lines 36-62, MomentumShiftMapper.  The optional
      index is the mapper's own attribute, so both directions return it. *)
  Definition ms_map (i : option nat) (s : sol) : res (option nat * sol) :=
    i' <- match i with Some j => Ok j | None => acols (s_y s) end ;
    let s1 := if length (s_dual_t s) =? 0
              then set_dual_t (map (fun _ => n0 O) (s_t s)) s else s in
    y <- insert_col (s_y s1) i' (s_t s1) ;
    let s2 := set_y y s1 in
    d <- insert_col (s_dual s2) i' (s_dual_t s2) ;
    Ok (Some i', set_dual d s2).

  Definition ms_inv (i : option nat) (s : sol) : res (option nat * sol) :=
    i' <- match i with
          | Some j => Ok j
          | None => c <- acols (s_y s) ;
                    match c with 0 => Raise IndexError | S c' => Ok c' end
          end ;
    t <- column (s_y s) i' ;
    let s1 := set_t t s in
    y <- delete_cols (s_y s1) [i'] ;
    let s2 := set_y y s1 in
    dt <- column (s_dual s2) i' ;
    let s3 := set_dual_t dt s2 in
    d <- delete_cols (s_dual s3) [i'] ;
    Ok (Some i', set_dual d s3).

  (** trajectory_mappers.py lines 97-109, EpsTrigMapper.map and .inv_map: the
      same loop with two different compiled functions [f] of the old value, the
      time, the state row, the parameters and the constants. *)
  Fixpoint trig_loop (f : F -> F -> list F -> list F -> list F -> F) (ci : nat)
      (p k : list F) (rows : list (list F)) (pts : list (F * list F))
      {struct pts} : res (list (list F)) :=
    match pts with
    | [] => Ok rows
    | (t, y) :: pts' =>
        match rows with
        | [] => Raise IndexError
        | r :: rows' =>
            x <- get r ci ;
            r' <- set_nth r ci (f x t y p k) ;
            rest <- trig_loop f ci p k rows' pts' ;
            Ok (r' :: rest)
        end
    end.

  Definition trig_apply (f : F -> F -> list F -> list F -> list F -> F) (ci : nat)
      (s : sol) : res sol :=
    match combine (s_t s) (arows (s_y s)) with
    | [] => Ok s
    | pts =>
        match s_u s with
        | E1 => Raise IndexError
        | Mat c rows => rs <- trig_loop f ci (s_p s) (s_k s) rows pts ; Ok (set_u (Mat c rs) s)
        end
    end.

  (** trajectory_mappers.py lines 130-147, DualizeMapper with [retain_dual =
      True] (the only way map_sol calls it).  [cost] stands for the compiled
      [compute_cost(t, y, q, u, p, k)], which can raise (Chain_Model.v). *)
  Definition dual_map (nu_len : nat) (s : sol) : res sol :=
    Ok (if length (s_nu s) =? 0 then set_nu (repeat (nofZ O 1) nu_len) s else s).

  Definition dual_inv
      (cost : list F -> arr -> arr -> arr -> list F -> list F -> res F) (s : sol) : res sol :=
    let s1 := set_nu [] s in
    c <- cost (s_t s1) (s_y s1) (s_q s1) (s_u s1) (s_p s1) (s_k s1) ;
    Ok (set_cost c s1).

  (** trajectory_mappers.py lines 154-176, NormalizeTimeMapper.  The deep copy
      is accounted for in [map_chain] below. *)
  Definition nt_map (i : option nat) (s : sol) : res (option nat * sol) :=
    let i' := match i with Some j => j | None => length (s_p s) end in
    t0 <- get (s_t s) 0 ;
    tf <- get (s_t s) (length (s_t s) - 1) ;
    let delta := nsub O tf t0 in
    p <- np_insert (s_p s) i' [delta] ;
    Ok (Some i', set_t (map (fun t => ndiv O (nsub O t t0) delta) (s_t s)) (set_p p s)).

  Definition nt_inv (i : option nat) (s : sol) : res (option nat * sol) :=
    i' <- match i with
          | Some j => Ok j
          | None => match length (s_p s) with 0 => Raise IndexError | S n => Ok n end
          end ;
    d <- get (s_p s) i' ;
    let s1 := set_t (map (fun t => nmul O t d) (s_t s)) s in
    p <- np_delete (s_p s1) i' ;
    Ok (Some i', set_p p s1).

  (** trajectory_mappers.py lines 194-216 and component_compilation.py lines
      8-37 (the two copies of the candidate loop are the same code):
      [cands] are the evaluated control-law options, [ham] the Hamiltonian at
      the current point as a function of the control.  With one option the
      Hamiltonian is not evaluated; with none construction raises. *)
  Fixpoint pick_loop (ham : list F -> F) (u : list F) (h : F) (rest : list (list F)) : list F :=
    match rest with
    | [] => u
    | c :: rest' =>
        let hi := ham c in
        if nltb O hi h then pick_loop ham c hi rest' else pick_loop ham u h rest'
    end.

  Definition pick_control (ham : list F -> F) (cands : list (list F)) : res (list F) :=
    match cands with
    | [] => Raise RuntimeError
    | [u] => Ok u
    | u :: rest => Ok (pick_loop ham u (ham u) rest)
    end.

  (** trajectory_mappers.py lines 221-227, AlgebraicControlMapper.inv_map.
      [options] returns the candidates at a point, [ham] the Hamiltonian.
      [np.array] of no rows is the empty one-dimensional array. *)
  Fixpoint alg_loop (options : F -> list F -> list F -> list F -> list F -> list (list F))
      (ham : F -> list F -> list F -> list F -> list F -> list F -> F) (p k : list F)
      (ts : list F) (ys ds : list (list F)) : res (list (list F)) :=
    match ts, ys, ds with
    | t :: ts', y :: ys', d :: ds' =>
        u <- pick_control (fun c => ham t y d c p k) (options t y d p k) ;
        rest <- alg_loop options ham p k ts' ys' ds' ;
        Ok (u :: rest)
    | _, _, _ => Ok []
    end.

  Definition alg_inv (m : nat)
      (options : F -> list F -> list F -> list F -> list F -> list (list F))
      (ham : F -> list F -> list F -> list F -> list F -> list F -> F) (s : sol) : res sol :=
    rows <- alg_loop options ham (s_p s) (s_k s) (s_t s) (arows (s_y s)) (arows (s_dual s)) ;
    Ok (set_u (match rows with [] => E1 | _ => Mat m rows end) s).

  (** [sorted(zip(idxs, columns))]: sorted by index.  Equal indices make Python
      compare two arrays, whose truth value is ambiguous: ValueError (with a
      single trajectory point numpy would accept it; left out). *)
  Fixpoint ins_sorted (x : nat * list F) (l : list (nat * list F)) : res (list (nat * list F)) :=
    match l with
    | [] => Ok [x]
    | y :: l' =>
        if fst x <? fst y then Ok (x :: l)
        else if fst y <? fst x then (r <- ins_sorted x l' ; Ok (y :: r))
        else Raise ValueError
    end.

  Fixpoint sort_cols (l : list (nat * list F)) : res (list (nat * list F)) :=
    match l with
    | [] => Ok []
    | x :: l' => r <- sort_cols l' ; ins_sorted x r
    end.

  Fixpoint insert_all (a : arr) (l : list (nat * list F)) : res arr :=
    match l with
    | [] => Ok a
    | (i, col) :: l' => a' <- insert_col a i col ; insert_all a' l'
    end.

  (** trajectory_mappers.py lines 234-245, DifferentialControlMapper. *)
  Definition dc_map (idxs : list nat) (s : sol) : res sol :=
    cols <- acolumns (s_u s) ;
    l <- sort_cols (combine idxs cols) ;
    y <- insert_all (s_y s) l ;
    let s1 := set_y y s in
    u <- delete_cols (s_u s1) (seq 0 (length l)) ;
    Ok (set_u u s1).

  Definition dc_inv (idxs : list nat) (s : sol) : res sol :=
    u <- select_cols (s_y s) idxs ;
    let s1 := set_u u s in
    y <- delete_cols (s_y s1) idxs ;
    Ok (set_y y s1).

  (** trajectory_mappers.py lines 248-280, DifferentialControlMapperDiffyG with
      a scalar control costate [cc] (map_sol uses the default 0).
      [np.array([costate_insert])] is one row with one entry per time point. *)
  Definition ins_dual_u (a : arr) (ci : list F) : res arr :=
    if alen a =? 0 then Ok (Mat (length ci) [ci]) else insert_col_m1 a ci.

  Fixpoint dg_loop (ci : list F) (l : list (nat * list F)) (s : sol) : res sol :=
    match l with
    | [] => Ok s
    | (i, col) :: l' =>
        y <- insert_col (s_y s) i col ;
        let s1 := set_y y s in
        d <- insert_col_m1 (s_dual s1) ci ;
        let s2 := set_dual d s1 in
        du <- ins_dual_u (s_dual_u s2) ci ;
        dg_loop ci l' (set_dual_u du s2)
    end.

  Definition dg_map (cc : F) (idxs : list nat) (s : sol) : res sol :=
    cols <- acolumns (s_u s) ;
    l <- sort_cols (combine idxs cols) ;
    s1 <- dg_loop (map (fun _ => nmul O cc (nofZ O 1)) (s_t s)) l s ;
    u <- delete_cols (s_u s1) (seq 0 (length l)) ;
    Ok (set_u u s1).

  Definition dg_inv (idxs : list nat) (s : sol) : res sol :=
    u <- select_cols (s_y s) idxs ;
    let s1 := set_u u s in
    y <- delete_cols (s_y s1) idxs ;
    let s2 := set_y y s1 in
    d <- delete_cols (s_dual s2) idxs ;
    Ok (set_dual d s2).

  (** trajectory_mappers.py lines 283-346, MF.  [loc_states = true] stands for
      location 'states', [false] for 'costates' (a location [None], which the
      functor produces only if the column is in neither list, is left out).
      [np.column_stack] with a 1-D column appends it as last column; the empty
      1-D [sol.q] makes it raise ValueError unless it has as many entries as
      rows, so [sol.q] must be two-dimensional (possibly with zero columns). *)
  Record place : Type := mkPlace { loc_states : bool; loc_idx : nat }.

  Definition get_loc (pl : place) (s : sol) : arr := if loc_states pl then s_y s else s_dual s.
  Definition set_loc (pl : place) (a : arr) (s : sol) : sol :=
    if loc_states pl then set_y a s else set_dual a s.

  Definition point_fn := list F -> list F -> list F -> list F -> F.

  Fixpoint eval_rows (f : list F -> list F -> res F) (n : nat) (ys ds : list (list F))
      : res (list F) :=
    match n with
    | 0 => Ok []
    | S n' =>
        match ys, ds with
        | y :: ys', d :: ds' => v <- f y d ; r <- eval_rows f n' ys' ds' ; Ok (v :: r)
        | _, _ => Raise IndexError
        end
    end.

  Fixpoint eval_rows_q (f : list F -> list F -> list F -> F) (n : nat)
      (ys ds qs : list (list F)) : res (list F) :=
    match n with
    | 0 => Ok []
    | S n' =>
        match ys, ds, qs with
        | y :: ys', d :: ds', q :: qs' =>
            r <- eval_rows_q f n' ys' ds' qs' ; Ok (f y d q :: r)
        | _, _, _ => Raise IndexError
        end
    end.

  Definition append_col (a : arr) (col : list F) : res arr :=
    match a with
    | E1 => Raise ValueError
    | Mat c rows => if length col =? length rows then Ok (Mat (S c) (insert_rows c col rows))
                    else Raise ValueError
    end.

  (** [np.column_stack((a[:, :i], col, a[:, i:]))]: an index beyond the last
      column is clamped by the slices. *)
  Definition stack_col (a : arr) (i : nat) (col : list F) : res arr :=
    match a with
    | E1 => Raise IndexError
    | Mat c rows => if length col =? length rows
                    then Ok (Mat (S c) (insert_rows (Nat.min i c) col rows)) else Raise ValueError
    end.

  Definition mf_map (pp ps : place) (fn_p fn_q : point_fn) (s : sol) : res sol :=
    y0 <- get (arows (s_y s)) 0 ;
    d0 <- get (arows (s_dual s)) 0 ;
    let s1 := set_p (s_p s ++ [fn_p y0 d0 (s_p s) (s_k s)]) s in
    qv <- eval_rows (fun y d => Ok (fn_q y d (s_p s1) (s_k s1))) (length (s_t s1))
            (arows (s_y s1)) (arows (s_dual s1)) ;
    a <- delete_cols (get_loc pp s1) [loc_idx pp] ;
    let s2 := set_loc pp a s1 in
    b <- delete_cols (get_loc ps s2) [loc_idx ps] ;
    let s3 := set_loc ps b s2 in
    q <- append_col (s_q s3) qv ;
    Ok (set_q q s3).

  Definition mf_inv (pp ps : place) (fn_p_inv : point_fn)
      (fn_q_inv : list F -> list F -> list F -> list F -> list F -> F) (s : sol) : res sol :=
    qv <- eval_rows_q (fun y d q => fn_q_inv y d q (s_p s) (s_k s)) (length (s_t s))
            (arows (s_y s)) (arows (s_dual s)) (arows (s_q s)) ;
    pv <- eval_rows (fun y d => Ok (fn_p_inv y d (s_p s) (s_k s))) (length (s_t s))
            (arows (s_y s)) (arows (s_dual s)) ;
    a <- stack_col (get_loc pp s) (loc_idx pp) pv ;
    let s1 := set_loc pp a s in
    b <- stack_col (get_loc ps s1) (loc_idx ps) qv ;
    let s2 := set_loc ps b s1 in
    q <- match s_q s2 with
         | Mat (S c) _ => delete_cols (s_q s2) [c]
         | Mat 0 _ => Raise IndexError
         | E1 => Raise ValueError
         end ;
    Ok (set_p (removelast (s_p s2)) (set_q q s2)).

  (** trajectory_mappers.py lines 349-366, SquashToBVPMapper, with the two
      slices it is given ([costate_idxs] and [constraint_adjoints_idxs]). *)
  Definition sq_map (s : sol) : res sol :=
    if 0 <? alen (s_dual s)
    then y <- concat_cols (s_y s) (s_dual s) ; Ok (set_y y s)
    else Ok s.

  Definition sq_inv (c_lo c_hi a_lo a_hi : nat) (s : sol) : res sol :=
    d <- select_slice (s_y s) c_lo c_hi ;
    let s1 := set_dual d s in
    y <- delete_slice (s_y s1) c_lo c_hi ;
    let s2 := set_y y s1 in
    Ok (set_nu (unslice a_lo a_hi (s_nu s2)) s2).

  Inductive mapper : Type :=
  | MIdentity                                  (* lines 28-33; also UTM's mapper *)
  | MMomentumShift (i : option nat)
  | MEpsTrig (ci : nat) (f g : F -> F -> list F -> list F -> list F -> F)
  | MDualize (nu_len : nat) (cost : list F -> arr -> arr -> arr -> list F -> list F -> res F)
  | MNormalizeTime (i : option nat)
  | MAlgebraic (m : nat)
      (options : F -> list F -> list F -> list F -> list F -> list (list F))
      (ham : F -> list F -> list F -> list F -> list F -> list F -> F)
  | MDifferential (idxs : list nat)
  | MDiffyG (idxs : list nat)
  | MMF (pp ps : place) (fn_p fn_q fn_p_inv : point_fn)
      (fn_q_inv : list F -> list F -> list F -> list F -> list F -> F)
  | MSquash (c_lo c_hi a_lo a_hi : nat).

  Definition with_mapper (m : mapper) (r : res sol) : res (mapper * sol) :=
    s <- r ; Ok (m, s).

  Definition apply_map (m : mapper) (s : sol) : res (mapper * sol) :=
    match m with
    | MIdentity => Ok (m, s)
    | MMomentumShift i => r <- ms_map i s ; Ok (MMomentumShift (fst r), snd r)
    | MEpsTrig ci f g => with_mapper m (trig_apply f ci s)
    | MDualize n c => with_mapper m (dual_map n s)
    | MNormalizeTime i => r <- nt_map i s ; Ok (MNormalizeTime (fst r), snd r)
    | MAlgebraic _ _ _ => Ok (m, s)
    | MDifferential idxs => with_mapper m (dc_map idxs s)
    | MDiffyG idxs => with_mapper m (dg_map (n0 O) idxs s)
    | MMF pp ps fp fq _ _ => with_mapper m (mf_map pp ps fp fq s)
    | MSquash _ _ _ _ => with_mapper m (sq_map s)
    end.

  Definition apply_inv (m : mapper) (s : sol) : res (mapper * sol) :=
    match m with
    | MIdentity => Ok (m, s)
    | MMomentumShift i => r <- ms_inv i s ; Ok (MMomentumShift (fst r), snd r)
    | MEpsTrig ci f g => with_mapper m (trig_apply g ci s)
    | MDualize n c => with_mapper m (dual_inv c s)
    | MNormalizeTime i => r <- nt_inv i s ; Ok (MNormalizeTime (fst r), snd r)
    | MAlgebraic n o h => with_mapper m (alg_inv n o h s)
    | MDifferential idxs => with_mapper m (dc_inv idxs s)
    | MDiffyG idxs => with_mapper m (dg_inv idxs s)
    | MMF pp ps _ _ fpi fqi => with_mapper m (mf_inv pp ps fpi fqi s)
    | MSquash a b c d => with_mapper m (sq_inv a b c d s)
    end.

  (** Whether the mapper works on a deep copy of its argument
      (trajectory_mappers.py lines 155 and 169) or on the object itself. *)
  Definition copies (m : mapper) : bool :=
    match m with MNormalizeTime _ => true | _ => false end.

  (** The state of a pass through a chain: the object handed in by the caller,
      the current trajectory, and whether the two are the same Python object.
      Arrays are never shared between two trajectories that are both still
      observable here: every mapper except EpsTrig installs fresh arrays, and
      EpsTrig writes into the array of the current object. *)
  Record pass : Type := mkPass { arg : sol; cur : sol; same : bool }.

  Definition step_pass (app : mapper -> sol -> res (mapper * sol)) (m : mapper) (ps : pass)
      : res (mapper * pass) :=
    r <- app m (cur ps) ;
    let same' := same ps && negb (copies m) in
    Ok (fst r, mkPass (if same' then snd r else arg ps) (snd r) same').

  Fixpoint run_pass (app : mapper -> sol -> res (mapper * sol)) (ms : list mapper) (ps : pass)
      : res (list mapper * pass) :=
    match ms with
    | [] => Ok ([], ps)
    | m :: ms' =>
        r <- step_pass app m ps ;
        r' <- run_pass app ms' (snd r) ;
        Ok (fst r :: fst r', snd r')
    end.

  (** symbolic_problem.py lines 323-331, Problem.map_sol: the chain in order, or
      in reverse order with the inverse maps.  Returned: the mappers as they
      are left (chain order), the resulting trajectory, and the content of the
      caller's argument afterwards. *)
  Definition map_sol (chain : list mapper) (s : sol) : res (list mapper * sol * sol) :=
    r <- run_pass apply_map chain (mkPass s s true) ;
    Ok (fst r, cur (snd r), arg (snd r)).

  Definition inv_map_sol (chain : list mapper) (s : sol) : res (list mapper * sol * sol) :=
    r <- run_pass apply_inv (rev chain) (mkPass s s true) ;
    Ok (rev (fst r), cur (snd r), arg (snd r)).
End Mappers.

Arguments arr F : clear implicits.
Arguments sol F : clear implicits.
Arguments mapper F : clear implicits.
Arguments pass F : clear implicits.
