(** beluga/symbolic/special_functions/tables.py, TableSpline1D lines 72-147.
    Abscissas are assumed sorted where [searchsorted] is used (it is a binary
    search); broadcasting of tables of length one is not modelled.  The numba
    version of [interp] does not check indices: where the model raises
    IndexError, the compiled function reads memory outside the array. *)
From Verif Require Import Base.

Section Spline.
  Context {F : Type} (K : NumOps F).
  (** [np.linalg.solve] *)
  Variable solve : list (list F) -> list F -> res (list F).

  (** [l[1:] - l[:-1]], lines 79-82 *)
  Definition zip_with (f : F -> F -> F) (a b : list F) : list F := map (fun p => f (fst p) (snd p)) (combine a b).
  Definition diffs (l : list F) : list F := zip_with (nsub K) (tl l) (removelast l).
  Definition steps (xs : list F) : list F := diffs xs.
  Definition slopes (xs ys : list F) : list F := zip_with (ndiv K) (diffs ys) (steps xs).
  Definition diagonal (xs : list F) : list F :=
    let h := steps xs in map (nmul K (nofZ K 2)) (zip_with (nadd K) (removelast h) (tl h)).
  Definition rhs (xs ys : list F) : list F := map (nmul K (nofZ K 6)) (diffs (slopes xs ys)).

  (** [np.diag(v) + np.diag(h[1:-1], k=1) + np.diag(h[1:-1], k=-1)], line 84.
      (With two points the last two are 1x1 and broadcast with the 0x0 first.) *)
  Definition entry (v off : list F) (i j : nat) : F :=
    nadd K (nadd K (if Nat.eqb j i then nth i v (n0 K) else n0 K)
                   (if Nat.eqb j (S i) then nth i off (n0 K) else n0 K))
           (if Nat.eqb i (S j) then nth j off (n0 K) else n0 K).
  Definition mat_coeff (xs : list F) : list (list F) :=
    let v := diagonal xs in
    let n := length v in
    map (fun i => map (entry v (inner (steps xs)) i) (seq 0 n)) (seq 0 n).

  (** __init__, lines 73-93: the coefficient rows. *)
  Definition coeff_row (h ys z : list F) (i : nat) : res (F * F * F * F) :=
    hi <- get h i ; z1 <- get z (S i) ; z0 <- get z i ; y1 <- get ys (S i) ; y0 <- get ys i ;
    let six := nofZ K 6 in
    Ok (ndiv K z1 (nmul K six hi), ndiv K z0 (nmul K six hi),
        nsub K (ndiv K y1 hi) (ndiv K (nmul K z1 hi) six), nsub K (ndiv K y0 hi) (ndiv K (nmul K z0 hi) six)).
  Definition spline (ys xs : list F) : res (list (F * F * F * F)) :=
    if Nat.eqb (length xs) (length ys) then
      z' <- solve (mat_coeff xs) (rhs xs ys) ;
      let z := n0 K :: z' ++ [n0 K] in
      mapM (coeff_row (steps xs) ys z) (seq 0 (length z - 1))
    else Raise ValueError.

  (** [np.searchsorted(data_x, x, side='right')] on sorted data. *)
  Definition searchsorted (xs : list F) (x : F) : nat := length (filter (fun a => negb (nltb K x a)) xs).
  (** [l[i - 1]]: position -1 is the last one. *)
  Definition get_pred {A} (l : list A) (i : nat) : res A :=
    match i with S i' => get l i' | O => get l (length l - 1) end.

  (** form_eval_function, lines 104-138. *)
  Definition cube (a : F) : F := nmul K a (nmul K a a).
  Definition square (a : F) : F := nmul K a a.
  Definition eval_spline (order : nat) (xs : list F) (coeff : list (F * F * F * F)) (x : F) : res F :=
    let i := searchsorted xs x in
    match order with
    | 0%nat =>
        c <- get_pred coeff i ; t0 <- get_pred xs i ; t1 <- get xs i ;
        let '(c0, c1, c2, c3) := c in
        Ok (nadd K (nadd K (nadd K (nmul K c0 (cube (nsub K x t0))) (nmul K c1 (cube (nsub K t1 x))))
                           (nmul K c2 (nsub K x t0))) (nmul K c3 (nsub K t1 x)))
    | 1%nat =>
        c <- get_pred coeff i ; t0 <- get_pred xs i ; t1 <- get xs i ;
        let '(c0, c1, c2, c3) := c in
        Ok (nsub K (nadd K (nmul K (nofZ K 3) (nsub K (nmul K c0 (square (nsub K x t0))) (nmul K c1 (square (nsub K t1 x))))) c2) c3)
    | 2%nat =>
        c <- get_pred coeff i ; t0 <- get_pred xs i ; t1 <- get xs i ;
        let '(c0, c1, c2, c3) := c in
        Ok (nmul K (nofZ K 6) (nadd K (nmul K c0 (nsub K x t0)) (nmul K c1 (nsub K t1 x))))
    | 3%nat =>
        c <- get_pred coeff i ;
        let '(c0, c1, c2, c3) := c in Ok (nmul K (nofZ K 6) (nsub K c0 c1))
    | _ => Ok (n0 K)
    end.
End Spline.

(** An executable [np.linalg.solve] in exact arithmetic: elimination with a
    search for a non-zero pivot; [None] when the matrix is singular. *)
Section Gauss.
  Context {F : Type} (K : NumOps F).
  Definition dot (r w : list F) : F := fold_right (nadd K) (n0 K) (zip_with (nmul K) r w).
  Fixpoint find_pivot (E : list (list F * F)) : option (F * list F * F * list (list F * F)) :=
    match E with
    | [] => None
    | ([], c) :: E' => None
    | (a :: r, c) :: E' =>
        if neqb K a (n0 K)
        then match find_pivot E' with Some (p, rest) => Some (p, (a :: r, c) :: rest) | None => None end
        else Some (a, r, c, E')
    end.
  Definition eliminate (a : F) (r : list F) (c : F) (e : list F * F) : list F * F :=
    match e with
    | (b :: s, d) => let m := ndiv K b a in (zip_with (fun x y => nsub K x (nmul K m y)) s r, nsub K d (nmul K m c))
    | e => e
    end.
  Fixpoint gauss (n : nat) (E : list (list F * F)) : option (list F) :=
    match n with
    | 0%nat => Some []
    | S n' =>
        match find_pivot E with
        | None => None
        | Some (a, r, c, rest) =>
            match gauss n' (map (eliminate a r c) rest) with
            | Some w => Some (ndiv K (nsub K c (dot r w)) a :: w)
            | None => None
            end
        end
    end.
  (** LinAlgError is represented by ValueError. *)
  Definition gauss_solve (A : list (list F)) (b : list F) : res (list F) :=
    match gauss (length A) (combine A b) with Some w => Ok w | None => Raise ValueError end.
End Gauss.
