(** Model of beluga/numeric/ivp_solvers/ivpsol.py and of the evaluation of a
    trajectory (beluga/numeric/data_classes/Trajectory.py).  Numbers are
    rationals; [rnd] is the rounding applied after every operation (identity for
    exact arithmetic, [rnd53] for doubles). *)
From Coq Require Import QArith Qround.
From Verif Require Import Base Shoot_Model.

(** Rounding to 53 significant bits, ties to even (no overflow, no
    subnormals). *)
Definition rnd_even (n d : Z) : Z :=
  let q := Z.div n d in let r := (2 * Z.modulo n d)%Z in
  if Z.ltb r d then q else if Z.ltb d r then (q + 1)%Z else if Z.even q then q else (q + 1)%Z.
Definition rnd53 (x : Q) : Q :=
  if Z.eqb (Qnum x) 0 then 0%Q else
  let n := Z.abs (Qnum x) in let d := Zpos (Qden x) in
  let s0 := (53 + Z.log2 d - Z.log2 n)%Z in
  let scaled := fun s : Z => if Z.leb 0 s then (n * 2 ^ s, d)%Z else (n, d * 2 ^ (- s))%Z in
  let s := if Z.leb (2 ^ 53) (Z.div (fst (scaled s0)) (snd (scaled s0))) then (s0 - 1)%Z else s0 in
  let m := (Z.sgn (Qnum x) * rnd_even (fst (scaled s)) (snd (scaled s)))%Z in
  Qred (if Z.leb 0 s then m # Z.to_pos (2 ^ s) else inject_Z (m * 2 ^ (- s))).

Definition Qltb (a b : Q) : bool := negb (Qle_bool b a).

Section Arith.
  Variable rnd : Q -> Q.
  Definition radd (a b : Q) : Q := rnd (a + b).
  Definition rsub (a b : Q) : Q := rnd (a - b).
  Definition rmul (a b : Q) : Q := rnd (a * b).
  Definition rdiv (a b : Q) : Q := rnd (a / b).

  (** numpy.arange(start, stop, step) for doubles: length
      ceil((stop-start)/step), element i = start + i*delta with
      delta = (start+step) - start; a zero step is an error
      (ZeroDivisionError, here ValueError). *)
  Definition arange (start stop step : Q) : res (list Q) :=
    if Qeq_bool step 0 then Raise ValueError
    else
      let n := Z.to_nat (Qceiling (rdiv (rsub stop start) step)) in
      let delta := rsub (radd start step) start in
      Ok (map (fun i => match i with
                        | O => start
                        | 1%nat => radd start step
                        | _ => radd start (rmul (inject_Z (Z.of_nat i)) delta)
                        end) (seq 0 n)).

  (** Propagator.__call__, lines 88-90: times at which the fixed-step
      propagation reports the solution ([t_eval]). *)
  Definition fixed_grid (t0 tf step : Q) : res (list Q) :=
    l <- arange t0 tf step ;
    z <- last_of l ;
    Ok (if Qeq_bool z tf then l else l ++ [tf]).
  (** The checks scipy.integrate.solve_ivp makes on [t_eval]: inside the span
      and sorted in its direction, else ValueError. *)
  Fixpoint steps_ok (good : Q -> Q -> bool) (l : list Q) : bool :=
    match l with
    | [] => true
    | a :: l' => match l' with [] => true | b :: _ => good a b && steps_ok good l' end
    end.
  Definition t_eval_check (t0 tf : Q) (l : list Q) : res (list Q) :=
    let lo := if Qle_bool t0 tf then t0 else tf in
    let hi := if Qle_bool t0 tf then tf else t0 in
    if existsb (fun t => Qltb t lo || Qltb hi t) l then Raise ValueError
    else if (Qltb t0 tf && negb (steps_ok Qltb l)) || (Qltb tf t0 && negb (steps_ok (fun a b => Qltb b a) l))
    then Raise ValueError else Ok l.
  (** Times of the fixed-step result, lines 87-92. *)
  Definition fixed_times (t0 tf step : Q) : res (list Q) := l <- fixed_grid t0 tf step ; t_eval_check t0 tf l.

  (** numpy.interp(x, xp, fp).  Limits are tested first, then the last sample not
      after x is taken (for increasing samples this is what the binary search
      finds; samples hit exactly are returned unchanged). *)
  Fixpoint interp_from (x : Q) (p : Q * Q) (rest : list (Q * Q)) : Q :=
    match rest with
    | [] => snd p
    | p' :: rest' =>
        if Qle_bool (fst p') x then interp_from x p' rest'
        else if Qeq_bool (fst p) x then snd p
        else radd (rmul (rdiv (rsub (snd p') (snd p)) (rsub (fst p') (fst p))) (rsub x (fst p))) (snd p)
    end.
  Definition np_interp (x : Q) (pts : list (Q * Q)) : res Q :=
    match pts, rev pts with
    | p :: rest, z :: _ =>
        Ok (if Qltb (fst z) x then snd z else if Qltb x (fst p) then snd p else interp_from x p rest)
    | _, _ => Raise ValueError
    end.

  (** [l[i]] with Python's negative indices. *)
  Definition py_get {A} (l : list A) (i : Z) : res A :=
    if Z.leb 0 i then get l (Z.to_nat i)
    else if Z.leb (- Z.of_nat (length l)) i then get l (Z.to_nat (Z.of_nat (length l) + i)) else Raise IndexError.

  (** integrate_quads, lines 157-180: the integration nodes.  The bare
      [Exception] is represented by RuntimeError. *)
  Definition node_index (x : Q) (ts : list Q) : res Z :=
    v <- np_interp x (combine ts (map (fun i => inject_Z (Z.of_nat i)) (seq 0 (length ts)))) ; Ok (Qceiling v).
  Definition quad_nodes (t0 tf : Q) (ts : list Q) : res (list Q) :=
    first <- get ts 0 ;
    if Qltb t0 first then Raise RuntimeError else
    final <- last_of ts ;
    if Qltb final tf then Raise RuntimeError else
    ind0 <- node_index t0 ts ;
    indf <- node_index tf ts ;
    g0 <- py_get ts ind0 ;
    let head := if Qeq_bool t0 g0 then [] else [t0] in
    let body := head ++ slice (Z.to_nat ind0) (Z.to_nat indf) ts in
    gf <- py_get ts (indf - 1) ;
    Ok (if Qeq_bool tf gf then body else body ++ [tf]).

  (** *** Trajectory.__call__, lines 64-156, linear interpolation.
      scipy.interpolate.interp1d sorts the samples by time and rejects times
      outside them (ValueError).  One-dimensional [y], [q], [u] are columns. *)
  Fixpoint insert_pt (p : Q * Q) (l : list (Q * Q)) : list (Q * Q) :=
    match l with
    | [] => [p]
    | p' :: l' => if Qltb (fst p') (fst p) then p' :: insert_pt p l' else p :: l
    end.
  Fixpoint sort_pts (l : list (Q * Q)) : list (Q * Q) :=
    match l with [] => [] | p :: l' => insert_pt p (sort_pts l') end.
  Definition interp1d (ts vs : list Q) (x : Q) : res Q :=
    if negb (Nat.eqb (length ts) (length vs)) then Raise ValueError
    else
      let pts := sort_pts (combine ts vs) in
      match pts, rev pts with
      | p :: _, z :: _ => if Qltb x (fst p) || Qltb (fst z) x then Raise ValueError else np_interp x pts
      | _, _ => Raise ValueError
      end.
  (** [self.y.T[ii]] for every column [ii]; rows of one length. *)
  Definition column (ii : nat) (rows : list (list Q)) : list Q := map (fun r => nth ii r 0%Q) rows.
  Definition interp_rows (ts : list Q) (rows : list (list Q)) (x : Q) : res (list Q) :=
    match rows with
    | [] => Ok []
    | r :: _ => mapM (fun ii => interp1d ts (column ii rows) x) (seq 0 (length r))
    end.
  (** Without [y] the interpolation of an empty array against [t] is a
      ValueError. *)
  Definition traj_call (g : arc Q) (x : Q) : res (list Q * list Q * list Q) :=
    match a_t g with
    | [] => Ok ([], [], [])
    | ts =>
        y <- (match a_y g with [] => Raise ValueError | rows => interp_rows ts rows x end) ;
        q <- interp_rows ts (a_q g) x ; u <- interp_rows ts (a_u g) x ; Ok (y, q, u)
    end.
End Arith.

(** *** Quadratures: reconstruct lines 107-138, integrate_quads lines 179-192 and
    the two branches of Propagator.__call__ lines 97-102.  [rule] is
    scipy.integrate.simpson on times and integrand rows; [V] packs the arguments
    of the quadrature function. *)
Section Quads.
  Context {V : Type}.
  Variable rule : list Q -> list (list Q) -> res (list Q).
  Variable of_value : V -> list Q.            (* value of the integrand *)
  Variables (time_value : Q -> V) (row_value : list Q -> V).
  Definition row_plus (a b : list Q) : list Q := map (fun xy => (fst xy + snd xy)%Q) (combine a b).

  (** [quadfun(gamma(time)[0], *args)] at every time, Simpson on every prefix. *)
  Definition reconstruct (quadfun : pyfun (V := V)) (args : list V) (at_ : Q -> res (list Q)) (ts : list Q) (q0 : list Q) : res (list (list Q)) :=
    dq <- mapM (fun t => y <- at_ t ; v <- call quadfun (row_value y :: args) ; Ok (of_value v)) ts ;
    rows <- mapM (fun ii => rule (firstn (ii + 2) ts) (firstn (ii + 2) dq)) (seq 0 (length ts - 1)) ;
    Ok (map (fun r => row_plus r q0) (map (fun _ => 0%Q) q0 :: rows)).
  (** [quadfun(time, gamma(time)[0], *args)] at every node, plus the quadratures
      [gamma] has at the first node. *)
  Definition integrate_quads (quadfun : pyfun (V := V)) (args : list V) (at_ : Q -> res (list Q * list Q)) (nodes : list Q) : res (list Q) :=
    t0 <- get nodes 0 ;
    yq <- at_ t0 ;
    dq <- mapM (fun t => y <- at_ t ; v <- call quadfun (time_value t :: row_value (fst y) :: args) ; Ok (of_value v)) nodes ;
    qf <- rule nodes dq ;
    Ok (match snd yq with [] => qf | q => row_plus qf q end).
  (** quick_reconstruct, lines 99-100: the propagated arc has no quadratures yet;
      first row, zeros, last row. *)
  Definition quick (quadfun : pyfun (V := V)) (args : list V) (at_ : Q -> res (list Q)) (ts nodes q0 : list Q) : res (list (list Q)) :=
    qf <- integrate_quads quadfun args (fun t => y <- at_ t ; Ok (y, [])) nodes ;
    if Nat.ltb (length ts) 2 then Raise ValueError
    else Ok (q0 :: repeat (map (fun _ => 0%Q) q0) (length ts - 2) ++ [row_plus qf q0]).
End Quads.
