(** Model of beluga/numeric/numerical_derivatives (finite_diff.py, __init__.py).
    numba compilation is transparent: it changes speed, not results. *)
From Coq Require Import Reals.
From Verif Require Import Base.

Section Weights.
  Context {F : Type} (K : NumOps F).

  (** gen_fin_diff_coeff, lines 105-129.  [coef_array[m, n, nu]] is read only at
      [n - 1] and every entry is written once, so a level is kept as a function of
      [m] and [nu]; entries that the loops do not reach stay 0.  [m - 1] is
      Python's index -1 (the last one) for [m = 0]. *)
  Definition prev (order m : nat) : nat := match m with O => order | S m' => m' end.
  Definition start_level : nat -> nat -> F := fun m nu => match m, nu with O, O => nofZ K 1 | _, _ => n0 K end.
  (** [c2] after the loop over [nu]. *)
  Definition c2_of (xs : nat -> F) (n : nat) : F :=
    fold_left (fun c nu => nmul K c (nsub K (xs n) (xs nu))) (seq 0 n) (nofZ K 1).
  Definition next_level (order : nat) (xs : nat -> F) (n : nat) (c1 c2 : F) (lev : nat -> nat -> F) : nat -> nat -> F :=
    fun m nu =>
      if Nat.ltb (Nat.min n order) m then n0 K
      else if Nat.ltb nu n then
        ndiv K (nsub K (nmul K (xs n) (lev m nu)) (nmul K (nofZ K (Z.of_nat m)) (lev (prev order m) nu))) (nsub K (xs n) (xs nu))
      else if Nat.eqb nu n then
        nmul K (ndiv K c1 c2)
             (nsub K (nmul K (nofZ K (Z.of_nat m)) (lev (prev order m) (n - 1)%nat)) (nmul K (xs (n - 1)%nat) (lev m (n - 1)%nat)))
      else n0 K.
  (** Level [n] and [c1] for the next one. *)
  Fixpoint level (order : nat) (xs : nat -> F) (n : nat) : (nat -> nat -> F) * F :=
    match n with
    | O => (start_level, nofZ K 1)
    | S n' =>
        let '(lev, c1) := level order xs n' in
        let c2 := c2_of xs n in
        (next_level order xs n c1 c2 lev, c2)
    end.
  Definition weights (order : nat) (grid : list F) : res (list F) :=
    if Nat.leb (length grid) order then Raise RuntimeWarning
    else
      let lev := fst (level order (fun i => nth i grid (n0 K)) (length grid - 1)) in
      Ok (map (lev order) (seq 0 (length grid))).
End Weights.

Section Generate.
  Context {F : Type} (K : NumOps F).

  (** The grids, lines 40-52. *)
  Inductive fd_method : Type := Forward | Backward | Central | OtherMethod.
  Definition grid_of (meth : fd_method) (num : nat) : res (list Z) :=
    match meth with
    | Forward => Ok (map Z.of_nat (seq 0 num))
    | Backward => Ok (map (fun i => Z.of_nat i - (Z.of_nat num - 1)) (seq 0 num))
    | Central =>
        let num := if Nat.even num then S num else num in
        Ok (map (fun i => Z.of_nat i - (Z.of_nat num - 1) / 2) (seq 0 num))
    | OtherMethod => Raise NotImplementedError
    end.

  (** One argument: pairs of weight and step, without the zero weights. *)
  Definition stencil (meth : fd_method) (acc : nat) (h : F) (order : nat) : res (list (F * F)) :=
    g <- grid_of meth (order + acc) ;
    w <- weights K order (map (nofZ K) g) ;
    Ok (filter (fun cs => negb (neqb K (fst cs) (n0 K))) (combine w (map (fun z => nmul K h (nofZ K z)) g))).

  (** [itertools.product] of the stencils with the products of the weights
      (associated to the right here). *)
  Fixpoint tensor (sts : list (list (F * F))) : list (F * list F) :=
    match sts with
    | [] => [(nofZ K 1, [])]
    | st :: sts' => concat (map (fun cs => map (fun r => (nmul K (fst cs) (fst r), snd cs :: snd r)) (tensor sts')) st)
    end.
  Fixpoint npow (h : F) (k : nat) : F := match k with O => nofZ K 1 | S k' => nmul K h (npow h k') end.

  (** numpy addition of the arguments and a step: equal lengths, or one step for
      all arguments (broadcasting), otherwise ValueError. *)
  Definition shift (args step : list F) : res (list F) :=
    if Nat.eqb (length args) (length step) then Ok (map (fun p => nadd K (fst p) (snd p)) (combine args step))
    else match step with
         | [s] => Ok (map (fun a => nadd K a s) args)
         | _ => Raise ValueError
         end.
  Fixpoint wsum (f : list F -> F) (args : list F) (l : list (F * list F)) (diff : F) : res F :=
    match l with
    | [] => Ok diff
    | (c, s) :: l' => x <- shift args s ; wsum f args l' (nadd K diff (nmul K c (f x)))
    end.

  (** gen_fin_diff, lines 9-102, applied to [args] ([arg_len] of them). *)
  Definition fin_diff (meth : fd_method) (acc : nat) (h : F) (deriv_order : option (list nat)) (f : list F -> F) (args : list F) : res F :=
    let arg_len := length args in
    let orders := match deriv_order with Some o => o | None => 1%nat :: repeat O (arg_len - 1) end in
    if Nat.ltb arg_len (length orders) then Raise SyntaxError
    else
      sts <- mapM (stencil meth acc h) orders ;
      total <- (if Nat.eqb arg_len 1
                then (st <- get sts 0 ; wsum f args (map (fun cs => (fst cs, [snd cs])) st) (n0 K))
                else wsum f args (tensor sts) (n0 K)) ;
      Ok (ndiv K total (npow h (list_sum orders))).

  (** gen_num_diff, __init__.py lines 5-22, finite-difference methods. *)
  Definition num_diff (meth : fd_method) (h : F) (orders : list nat) (f : list F -> F) (args : list F) : res F :=
    match orders with
    | [] => Raise ValueError                                   (* max of an empty tuple *)
    | _ => if Nat.eqb (list_max orders) 0 then Ok (f args)
           else fin_diff meth 1 (nmul K h (npow (nofZ K 10) (list_sum orders))) (Some orders) f args
    end.
End Generate.

(** ** complex_step.py, gen_csd lines 10-119 *)
Section ComplexStep.
  Context {F : Type} (K : NumOps F).
  (** Complex numbers as pairs; [func] on complex arguments is given beside
      [func] on real ones. *)
  (** One argument, first order, lines 52-55 ([step] is 1e-50 there). *)
  Definition csd_first (func_im : F * F -> F * F) (step x : F) : F := ndiv K (snd (func_im (x, step))) step.
  (** One argument, second order, lines 58-63; [b] is [im_step_size]. *)
  Definition csd_second (func_re : F -> F) (func_im : F * F -> F * F) (s b x : F) : F :=
    ndiv K (nmul K (nofZ K 2) (nsub K (func_re (nadd K x s)) (fst (func_im (nadd K x s, nsub K (n0 K) b))))) (nmul K b b).

  (** Several arguments.  Values are numbers or tuples of numbers. *)
  Inductive pyval : Type := Num (z : F * F) | Tup (l : list (F * F)) | Int (n : nat).
  (** A compiled function of [n] numbers. *)
  Definition call_numbers (n : nat) (f : list (F * F) -> F * F) (args : list pyval) : res (F * F) :=
    if Nat.eqb (length args) n
    then (l <- mapM (fun v => match v with Num z => Ok z | _ => Raise TypeError end) args ; Ok (f l))
    else Raise TypeError.
  (** The builtin [tuple]: at most one argument. *)
  Definition py_tuple (args : list pyval) : res pyval :=
    match args with [] => Ok (Tup []) | [Tup l] => Ok (Tup l) | _ => Raise TypeError end.
  (** First order, lines 79-83: numba rejects [func_im(args_k)] while compiling
      exactly when it is a TypeError; then the version of lines 100-105 is used:
      [tuple(..., arg_len)], complex result not reduced to its imaginary part. *)
  Definition perturbed (idx : nat) (step : F) (xs : list F) : list (F * F) :=
    map (fun ix => (snd ix, if Nat.eqb (fst ix) idx then step else n0 K)) (combine (seq 0 (length xs)) xs).
  Definition csd_first_several (func_im : list (F * F) -> F * F) (idx : nat) (step : F) (xs : list F) : res F :=
    let n := length xs in
    match (t <- py_tuple [Tup (perturbed idx step xs)] ; call_numbers n func_im [t]) with
    | Ok z => Ok (ndiv K (snd z) step)
    | Raise _ =>
        t <- py_tuple [Tup (perturbed idx step xs); Int n] ;
        z <- call_numbers n func_im [t] ;
        Ok (ndiv K (fst z) step)
    end.
End ComplexStep.
