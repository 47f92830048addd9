(** Model of solution scaling: NumericProblem.compile_scaling
    (beluga/numeric/data_classes/NumericProblem.py lines 366-422) and max_mag
    (beluga/utils/helper_functions.py lines 13-24). *)
From Verif Require Import Base Map_Model.
Open Scope nat_scope.

Section Scale.
  Context {F : Type} (O : NumOps F).

  (** The seven scale factors in the order of [scalable_components_list]
      (lines 376-383): a scalar for the independent variable, one factor per
      component otherwise. *)
  Record factors : Type := mkFactors {
    f_t : F; f_y : list F; f_q : list F; f_u : list F;
    f_p : list F; f_nu : list F; f_k : list F }.

  Fixpoint map2 (op : F -> F -> F) (l f : list F) : list F :=
    match l, f with
    | a :: l', b :: f' => op a b :: map2 op l' f'
    | _, _ => []
    end.

  (** [op(l, f)] for one-dimensional arrays with numpy broadcasting. *)
  Definition bcast (op : F -> F -> F) (l f : list F) : res (list F) :=
    if length l =? length f then Ok (map2 op l f)
    else match f, l with
         | [b], _ => Ok (map (fun a => op a b) l)
         | _, [a] => Ok (map (fun b => op a b) f)
         | _, _ => Raise ValueError
         end.

  (** [op(a, f)] with one factor per column.  (Broadcasting a single column
      against several factors is left out: it raises here.) *)
  Definition scale_arr (op : F -> F -> F) (a : arr F) (f : list F) : res (arr F) :=
    match a with
    | E1 => match f with [] | [_] => Ok E1 | _ => Raise ValueError end
    | Mat c rows =>
        if c =? length f then Ok (Mat c (map (fun r => map2 op r f) rows))
        else match f with
             | [b] => Ok (Mat c (map (map (fun x => op x b)) rows))
             | _ => Raise ValueError
             end
    end.

  (** [a.size > 0] *)
  Definition nonempty (a : arr F) : bool :=
    match a with E1 => false | Mat c rows => (0 <? c) && (0 <? length rows) end.

  (** Lines 399-417.  The deep copy makes the result a new trajectory. *)
  Definition scale_sol (s : sol F) (f : factors) (inv : bool) : res (sol F) :=
    let op := if inv then nmul O else ndiv O in
    let s1 := set_t (map (fun x => op x (f_t f)) (s_t s)) s in
    y <- scale_arr op (s_y s1) (f_y f) ;
    let s2 := set_y y s1 in
    q <- scale_arr op (s_q s2) (f_q f) ;
    let s3 := set_q q s2 in
    u <- (if nonempty (s_u s3) then scale_arr op (s_u s3) (f_u f) else Ok (s_u s3)) ;
    let s4 := set_u u s3 in
    p <- bcast op (s_p s4) (f_p f) ;
    let s5 := set_p p s4 in
    nu <- bcast op (s_nu s5) (f_nu f) ;
    let s6 := set_nu nu s5 in
    k <- bcast op (s_k s6) (f_k f) ;
    Ok (set_k k s6).

  (** helper_functions.py lines 13-24 for arrays: column-wise maximum of the
      absolute values ([np.max] of a column with a NaN is NaN; not modelled:
      here a NaN is skipped). *)
  Definition nmax (a b : F) : F := if nltb O a b then b else a.
  Definition max_mag1 (l : list F) : list F :=
    match l with [] => [] | a :: l' => [fold_left (fun m x => nmax m (nabs O x)) l' (nabs O a)] end.
  Definition max_mag2 (a : arr F) : list F :=
    match a with
    | E1 => []
    | Mat c [] => []
    | Mat c (r :: rows) => fold_left (fun m r' => map2 nmax m (map (nabs O) r')) rows (map (nabs O) r)
    end.

  (** Lines 389-397: reference values, unit factors, component factors.
      [unit_fun] is the compiled list of unit expressions, [factor_fun] the
      compiled unit of every component as a function of the unit factors. *)
  Definition compute_scale_factors
      (unit_fun : list F -> list F -> list F -> list F -> list F -> list F -> list F)
      (factor_fun : list F -> factors) (s : sol F) : factors :=
    factor_fun (unit_fun (max_mag1 (s_t s)) (max_mag2 (s_y s)) (max_mag2 (s_q s))
                  (map (nabs O) (s_p s)) (map (nabs O) (s_nu s)) (map (nabs O) (s_k s))).
End Scale.

Arguments factors F : clear implicits.
