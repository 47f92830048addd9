(** beluga/continuation/guess_generators.py.

    Numbers are an arbitrary [NumOps F]; a costate or control guess is a
    Python float, a Python int or an array, or None.  [start=None] is followed
    to [len(None)] (a scalar costate guess); otherwise the trajectory has no
    proper state rows, [NoStates].  A keyword given as None counts as not
    given.  [generate] is modelled up to the trajectory handed
    to [guess_map]; what follows (mapping, propagation) is in [Map_*] and
    [Ivp_*].  The wall clock and the log are left out. *)
From Verif Require Import Base Map_Model.
Open Scope string_scope.

Section Guess.
  Context {F : Type} (K : NumOps F).
  Context {S : Type}.                (* a user-supplied trajectory *)

  Inductive gval : Type := GFloat (x : F) | GInt (x : F) | GArr (l : list F).

  Record gen : Type := mkGen {
    g_mode : string; g_solinit : option S; g_direction : string; g_time : F; g_start : option (list F);
    g_quad : option (list F); g_costate : option gval; g_param : option (list F); g_control : option gval; g_use_control : bool; g_dae : nat }.

  (** Keyword arguments: [None] when not given. *)
  Record guess_kw : Type := mkKw {
    k_start : option (list F); k_direction : option string; k_time : option F; k_quad : option (list F);
    k_costate : option gval; k_control : option gval; k_use_control : option bool; k_param : option (list F) }.
  Inductive kwargs : Type := KwNone | KwSolinit (s : S) | KwGuess (k : guess_kw).
  Definition no_kw : guess_kw := mkKw None None None None None None None None.
  Definition tenth : F := ndiv K (nofZ K 1) (nofZ K 10).
  Definition dflt {A} (d : A) (o : option A) : A := match o with Some a => a | None => d end.

  (** setup_auto, lines 74-93, and setup_ones, lines 154-173 (the same text).
      The object keeps what was assigned before the exception. *)
  Definition setup_guess (k : guess_kw) (g : gen) : gen * option exn :=
    let dir := dflt "forward" (k_direction k) in
    if (String.eqb dir "forward" || String.eqb dir "reverse")%bool then
      let time := dflt (nofZ K 1) (k_time k) in
      let g1 := mkGen (g_mode g) (g_solinit g) dir (nabs K time) (g_start g) (g_quad g) (g_costate g) (g_param g) (g_control g) (g_use_control g) (g_dae g) in
      if neqb K time (n0 K) then (g1, Some ValueError)
      else (mkGen (g_mode g) (g_solinit g) dir (nabs K time) (k_start k) (Some (dflt [] (k_quad k))) (Some (dflt (GFloat tenth) (k_costate k)))
                  (k_param k) (Some (dflt (GFloat tenth) (k_control k))) (dflt false (k_use_control k)) (g_dae g), None)
    else (g, Some ValueError).

  Definition set_mode (m : string) (g : gen) : gen :=
    mkGen m (g_solinit g) (g_direction g) (g_time g) (g_start g) (g_quad g) (g_costate g) (g_param g) (g_control g) (g_use_control g) (g_dae g).
  Definition set_solinit (s : option S) (g : gen) : gen :=
    mkGen (g_mode g) s (g_direction g) (g_time g) (g_start g) (g_quad g) (g_costate g) (g_param g) (g_control g) (g_use_control g) (g_dae g).
  (** setup, lines 50-58; setup_static, lines 67-68.  A keyword that the
      chosen function does not have is a TypeError. *)
  Definition setup (mode : string) (kw : kwargs) (g : gen) : gen * option exn :=
    let g := set_mode mode g in
    if (String.eqb mode "auto" || String.eqb mode "ones")%bool then
      match kw with
      | KwNone => setup_guess no_kw g
      | KwGuess k => setup_guess k g
      | KwSolinit _ => (g, Some TypeError)
      end
    else if String.eqb mode "static" then
      match kw with
      | KwNone => (set_solinit None g, None)
      | KwSolinit s => (set_solinit (Some s) g, None)
      | KwGuess _ => (g, Some TypeError)
      end
    else (g, Some ValueError).

  (** __init__, lines 31-48: setup first, the defaults afterwards.  The
      fields that exist before [setup] runs are never read by it. *)
  Definition defaults : gen := mkGen "auto" None "forward" tenth None None None None None false 0.
  Definition new_generator (mode : string) (kw : kwargs) : res gen :=
    match setup mode kw defaults with
    | (_, None) => Ok defaults
    | (_, Some e) => Raise e
    end.
  (** guess_generator, lines 14-24. *)
  Definition guess_generator (mode : string) (kw : kwargs) : res gen :=
    g <- new_generator "auto" KwNone ;
    match setup mode kw g with (g', None) => Ok g' | (_, Some e) => Raise e end.

  (** What [generate] hands to [guess_map]. *)
  Record start_data : Type := mkStart {
    d_t : list F; d_y : list (list F); d_dual : list (list F); d_q : list (list F);
    d_u : list (option gval); d_p : list F; d_nu : list F }.
  Inductive handed : Type := FromSettings (d : start_data) | NoStates | FromUser (s : option S).

  (** auto lines 98-137, ones lines 177-214.  [n_p], [n_nu]: numbers of
      parameters of the trajectory passed in; [param_guess]: the argument of
      [generate], a list; [+=] with an array extends it. *)
  Definition tspan_end (g : gen) : F := if String.eqb (g_direction g) "reverse" then nsub K (n0 K) (g_time g) else g_time g.
  Definition params (param_guess : option (list F)) (n_p : nat) : res (list F) :=
    match param_guess with
    | None => Ok (repeat (nofZ K 1) n_p)
    | Some p =>
        if Nat.ltb (length p) n_p then Ok (p ++ repeat (nofZ K 1) (n_p - length p))%list
        else if Nat.ltb n_p (length p) then Raise AttributeError   (* solinit.aux does not exist *)
        else Ok p
    end.
  Definition data (points : nat) (times : res (list F)) (g : gen) (param_guess : option (list F)) (n_p n_nu : nat) : res handed :=
    match g_start g, g_costate g with
    | None, Some (GFloat _) | None, Some (GInt _) => Raise TypeError
    | None, _ => Ok NoStates
    | Some x0, costate =>
        let d0 := match costate with
                  | Some (GFloat c) | Some (GInt c) => repeat (nmul K c (nofZ K 1)) (length x0)
                  | Some (GArr l) => l
                  | None => []
                  end in
        let u0 := match g_control g with Some (GFloat c) => Some (GArr (repeat (nmul K c (nofZ K 1)) (g_dae g))) | v => v end in
        p <- params param_guess n_p ;
        t <- times ;
        Ok (FromSettings (mkStart t (repeat x0 points) (repeat d0 points) (repeat (dflt [] (g_quad g)) points) (repeat u0 points)
                                  p (repeat (nofZ K 1) n_nu)))
    end.
  Definition generate (g : gen) (param_guess : option (list F)) (n_p n_nu : nat) : res handed :=
    if String.eqb (g_mode g) "auto" then data 2 (Ok [n0 K; tspan_end g]) g param_guess n_p n_nu
    else if String.eqb (g_mode g) "ones" then data 4 (linspace K (n0 K) (tspan_end g) 4) g param_guess n_p n_nu
    else if String.eqb (g_mode g) "static" then
      match param_guess with None => Ok (FromUser (g_solinit g)) | Some _ => Raise TypeError end
    else Raise ValueError.

  (** beluga.solve lines 161-163: an empty trajectory, no parameter argument. *)
  Definition generate_in_solve (g : gen) : res handed := generate g None 0 0.

End Guess.

(** static, lines 70-72, called [n] times on the same generator and problem:
    the mappers keep their attributes, and mappers working in place change the
    user's trajectory ([Map_Model.map_sol]). *)
Fixpoint static_runs {F} (K : NumOps F) (n : nat) (chain : list (mapper F)) (user : sol F) : res (list (sol F)) :=
  match n with
  | O => Ok []
  | Datatypes.S n' =>
      r <- map_sol K chain user ;
      let '(chain', result, user') := r in
      rest <- static_runs K n' chain' user' ;
      Ok (result :: rest)
  end.

(** match_constants_to_states, lines 229-249.  [dict(zip(names, values))]:
    one entry per name, in order of first occurrence, with the last value. *)
Section Match.
  Context {F : Type}.
  Fixpoint put (n : string) (v : F) (d : list (string * F)) : list (string * F) :=
    match d with
    | [] => [(n, v)]
    | (m, w) :: d' => if String.eqb n m then (m, v) :: d' else (m, w) :: put n v d'
    end.
  Definition dict_of (l : list (string * F)) : list (string * F) := fold_left (fun d p => put (fst p) (snd p) d) l [].
  Fixpoint assign (suffix : string) (names : list string) (bcs : list (string * F)) (k : list F) : res (list F) :=
    match bcs with
    | [] => Ok k
    | (s, v) :: bcs' =>
        match index_of (s ++ suffix) names with
        | Ok j => k' <- set_nth k j v ; assign suffix names bcs' k'
        | Raise _ => assign suffix names bcs' k
        end
    end.
  Definition match_constants (states : list string) (ind : string) (constants : list string)
             (t : list F) (y : list (list F)) (k : list F) : res (list F) :=
    y0 <- get y 0 ; yf <- get y (length y - 1) ; t0 <- get t 0 ; tf <- get t (length t - 1) ;
    let names := (states ++ [ind])%list in
    k' <- assign "_0" constants (dict_of (combine names (y0 ++ [t0])%list)) k ;
    assign "_f" constants (dict_of (combine names (yf ++ [tf])%list)) k'.
End Match.
