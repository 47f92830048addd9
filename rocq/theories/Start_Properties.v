(** C91: the guess that solve makes of the generator's settings or of the user's
    trajectory fits the boundary value problem; with C89 and C90, what solve
    returns. *)
From Coq Require Import Reals Ranalysis5 Lra Lia.
From Coquelicot Require Import Coquelicot.
From Verif Require Import Base Base_Facts Cont_Model Cont_Spec Cont_Proofs Cont_Warm Cont_Live Cont_Properties.
From Verif Require Import Map_More Sym_Expr Sym_Facts Sym_Model Sym_Constr Sym_Eps Sym_Lu Sym_Dual Sym_Traj Sym_Var Sym_DiffCtl Scale_Model Jac_Model Jac_Proofs Unit_Model Unit_Spec Unit_Proofs Unit_Scale Unit_Properties.
From Verif Require Import Dual_Properties Ctl_Properties Shift_Properties Spbvp_Model Spbvp_Properties Pipe_Model Pipe_Properties.
From Verif Require Import Whole_Proofs Whole_Steps Whole_Geo Whole_Properties Chain_Model Chain_Facts Map_Model Map_Proofs Map_Chain Chain_Back Chain_Proofs Chain_Simpson Chain_Properties.
From Verif Require Import Full_Model Full_Proofs Full_Properties Bound_Proofs.
From Verif Require Import Sym_Constr Guess_Model Guess_Properties Bound_Properties Start_Model Start_Proofs.
Open Scope string_scope.
Open Scope list_scope.
Open Scope nat_scope.

(** A table with one row of length [n] per node. *)
Definition table (n nodes : nat) (a : arr R) : Prop := exists rows, a = Mat n rows /\ length rows = nodes /\ Forall (fun r => length r = n) rows.
(** A trajectory of the user's problem: times that do not end where they began,
    states and costates at every node, no unknown parameters, one value per
    constant.  The controls are needed where the chain moves or transforms them. *)
Record guess_of (o : options) (pre : list tf) (p : prob) (s : sol R) : Prop := mkGuessOf {
  ug_t : s_t s <> [];
  ug_span : hd 0%R (s_t s) <> last (s_t s) 0%R;
  ug_y : table (length (p_states p)) (length (s_t s)) (s_y s);
  ug_dual : table (length (p_states p)) (length (s_t s)) (s_dual s);
  ug_dual_t : s_dual_t s = [] \/ length (s_dual_t s) = length (s_t s);
  ug_q : s_q s = E1 \/ exists rows, s_q s = Mat 0 rows;
  ug_u : (differential o = false /\ ~ In FEps pre) \/ table (length (p_controls p)) (length (s_t s)) (s_u s);
  ug_du : s_dual_u s = E1;
  ug_p : s_p s = [];
  ug_nu : s_nu s = [];
  ug_k : length (s_k s) = length (p_consts p) }.

Lemma table_rows {n nodes a} : table n nodes a -> exists rows, a = Mat n (map (fun i => nth i rows []) (seq 0 nodes)) /\ forall i, In i (seq 0 nodes) -> length (nth i rows []) = n.
Proof.
  intros (rows & -> & L & F). exists rows. split.
  - f_equal. subst nodes. clear. induction rows as [|r rows IH]; [reflexivity|]. cbn [length seq map nth]. f_equal. rewrite <- seq_shift, map_map. exact IH.
  - intros i I. apply in_seq in I. rewrite Forall_forall in F. apply F. apply nth_In. lia.
Qed.
Lemma map_nth_seq (l : list R) n : length l = n -> map (fun i => nth i l 0%R) (seq 0 n) = l.
Proof. intros <-. induction l as [|r l IH]; [reflexivity|]. cbn [length seq map nth]. f_equal. rewrite <- seq_shift, map_map. exact IH. Qed.
Lemma nth_map_seq {B} (f : nat -> B) n i : i < n -> nth_error (map f (seq 0 n)) i = Some (f i).
Proof. intros H. rewrite nth_error_map. assert (E : nth_error (seq 0 n) i = Some i). { rewrite (nth_error_nth' _ 0) by (rewrite seq_length; exact H). now rewrite seq_nth. } now rewrite E. Qed.

(** What the mapped guess looks like at node [i]: the user's states, the time if
    it became a state, the controls if they became states, the costates. *)
Definition entry (o : options) (pre : list tf) (s : sol R) (i : nat) (row : list R) : Prop :=
  exists x us ds, row = (x ++ (if o_shift o then [nth i (s_t s) 0%R] else []) ++ us) ++ ds /\ nth_error (arows (s_y s)) i = Some x /\
    (differential o = false -> us = []) /\ (differential o = true -> ~ In FEps pre -> nth_error (arows (s_u s)) i = Some us) /\
    (geometric o = false -> exists d, nth_error (arows (s_dual s)) i = Some d /\ ds = d ++ if o_shift o then [nth i (s_dual_t s) 0%R] else []).

Section Mapped.
  Variables (lu : list (list expr) -> list expr -> res (list expr)) (LU : lu_ok lu) (solve : list expr -> list string -> list (list expr)) (fn : string -> nat -> R -> R) (sm : list R -> list R -> res R).
  Variables (o : options) (p p1 p' : prob) (fs pre post : list tf) (ms : list (mapper R)).
  Hypothesis MK : make_indirect o p = Ok fs.
  Hypothesis EF : fs = pre ++ FDual (o_method o) :: post.
  Hypothesis R1 : run_tfs lu solve pre p = Ok p1.
  Hypothesis RC : run_chain fn sm lu solve fs p = Ok (p', ms).
  Hypothesis ON : o_norm o = true.
  Hypothesis MT : lower (o_method o) = "traditional" \/ lower (o_method o) = "diffyg".
  Hypothesis NSW : p_switches p = [].
  Hypothesis FR : p_costates p = [] /\ p_coparams p = [] /\ p_params p = [] /\ p_quads p = [].
  Hypothesis CPN : p_cpars p = [].
  Hypothesis GEO : geometric o = true -> length (p_controls p) = 1 /\ (p_states p <> [] \/ o_shift o = true).

  Lemma start_mapped s : guess_of o pre p s ->
    exists s' a, map_sol ROps ms s = Ok (ms, s', a) /\ spans p' 0 1 (Map_Model.set_u E1 s') /\ s_p s' = [last (s_t s) 0 - hd 0 (s_t s)]%R /\ s_k s' = s_k s /\ s_q s' = s_q s /\
      (differential o = true -> p_controls p' = [] /\ exists rows, s_u s' = Mat 0 rows) /\
      length (s_t s') = length (s_t s) /\ length (arows (s_y s')) = length (s_t s) /\
      forall i, i < length (s_t s) -> nth_error (s_t s') i = Some ((nth i (s_t s) 0 - hd 0 (s_t s)) / (last (s_t s) 0 - hd 0 (s_t s)))%R /\
        exists row, nth_error (arows (s_y s')) i = Some row /\ length row = length (p_states p') /\ entry o pre s i row.
  Proof.
    intros [GT GS GY GD GDT GQ GU GDU GP GN GK].
    set (N := length (s_t s)) in *. set (pts := seq 0 N).
    assert (NE : pts <> []) by (unfold pts, N; destruct (s_t s); [contradiction|discriminate]).
    destruct (table_rows GY) as (xs & EY & LY). destruct (table_rows GD) as (ds & ED & LD). fold pts in EY, LY, ED, LD.
    set (t := fun i => nth i (s_t s) 0%R). set (x := fun i => nth i xs []) in *. set (d := fun i => nth i ds []) in *.
    assert (ET : s_t s = map t pts) by (symmetry; apply map_nth_seq; reflexivity).
    assert (LS : s = lay pts t (s_dual_t s) (length (p_states p)) x (length (p_states p)) d (s_q s) (s_u s) E1 [] [] (s_k s) (s_cost s)).
    { unfold lay. rewrite <- ET, <- EY, <- ED. clear - GDU GP GN. destruct s; cbn in *. now subst. }
    (* before Dualize *)
    destruct (bound_pre o p fs pre post MK EF NSW) as (st & EC & EP).
    destruct (constraint_tfs_spec _ _ EC) as (IS & _).
    destruct (run_chain_total fn sm lu solve pre p p1 R1) as (mp & RCP). assert (RC' := RCP). rewrite EP in RC'. apply run_chain_app in RC' as (p0 & m0 & m1 & RA & RB & EM0).
    set (e := fun i => match s_dual_t s with [] => 0%R | _ => nth i (s_dual_t s) 0%R end).
    set (x0 := fun i => x i ++ if o_shift o then [t i] else []). set (d0 := fun i => d i ++ if o_shift o then [e i] else []).
    assert (SH : p_controls p0 = p_controls p /\ p_cpars p0 = [] /\ p_consts p0 = p_consts p /\ p_costates p0 = [] /\ p_coparams p0 = [] /\ p_params p0 = [] /\ p_quads p0 = [] /\
      length (p_states p0) = length (p_states p) + (if o_shift o then 1 else 0) /\
      exists dt0, passes (apply_map ROps) m0 (lay pts t (s_dual_t s) (length (p_states p)) x (length (p_states p)) d (s_q s) (s_u s) E1 [] [] (s_k s) (s_cost s))
        (lay pts t dt0 (length (p_states p0)) x0 (length (p_states p0)) d0 (s_q s) (s_u s) E1 [] [] (s_k s) (s_cost s))).
    { destruct FR as (F1 & F2 & F3 & F4). unfold x0, d0. destruct (o_shift o).
      - cbn [run_chain apply_tf] in RA. destruct (momentum_shift None p) as [q|] eqn:HM; [|discriminate]. cbn [bind fst snd] in RA. rewrite (momentum_maps p q HM), skipn_len in RA. cbn in RA. injection RA as <- <-.
        destruct (momentum_ok None p q HM) as (A1 & A2 & A3 & A4 & A5 & A6 & A7 & A8 & A9 & A10 & A11 & A12 & A13). assert (A14 := momentum_consts p q HM).
        assert (A15 : p_cpars q = p_cpars p) by (unfold momentum_shift in HM; destruct (p_symp p); [|discriminate]; apply Ok_inj in HM; subst q; clear; destruct p; reflexivity).
        split; [exact A6|]. split; [congruence|]. split; [exact A14|]. split; [congruence|]. split; [congruence|]. split; [congruence|]. split; [congruence|]. split; [rewrite A1, app_length; reflexivity|].
        exists (map e pts). rewrite A1, app_length. cbn [length]. rewrite Nat.add_1_r. eapply passes_cons; [|apply passes_nil]. apply ms_fwd; [intros i I; split; [exact (LY i I)|exact (LD i I)]|].
        unfold e. destruct GDT as [ ->|E]; [left; split; [reflexivity|intros; reflexivity]|right; split; [|exact NE]].
        rewrite <- (map_nth_seq (s_dual_t s) N E) at 1. apply map_ext. intros i. destruct (s_dual_t s) as [|v l] eqn:EV; [now destruct i|reflexivity].
      - cbn in RA. injection RA as <- <-. repeat (split; [assumption || reflexivity || lia|]). exists (s_dual_t s).
        replace (lay pts t (s_dual_t s) _ (fun i => x i ++ []) _ _ _ _ _ _ _ _ _) with (lay pts t (s_dual_t s) (length (p_states p)) x (length (p_states p)) d (s_q s) (s_u s) E1 [] [] (s_k s) (s_cost s)); [apply passes_nil|].
        unfold lay. f_equal; f_equal; apply map_ext; intros i; now rewrite app_nil_r. }
    destruct SH as (K1 & K2 & K3 & K4 & K5 & K6 & K7 & K8 & dt0 & P0).
    assert (HU : rowed (length (p_controls p)) pts (s_u s) \/ (differential o = false /\ ~ In FEps st)).
    { destruct GU as [[A B]|T]; [right; split; [exact A|]; intros I; apply B; rewrite EP; apply in_or_app; now right|left]. destruct (table_rows T) as (us & EU & LU'). exists (fun i => nth i us []). split; [exact LU'|exact EU]. }
    destruct (stage_fwd (A := nat) lu solve fn sm st IS p0 p1 m1 RB) as (J1 & J2 & J3 & FW). destruct (stage_undo lu solve fn sm st IS p0 p1 m1 RB) as (back & UN).
    destruct (un_frame _ _ _ _ _ UN) as (_ & U2 & U3 & U4 & U5 & U6 & U7).
    assert (LSS : length (p_states p1) = length (p_states p0)) by (rewrite <- (map_length fst (p_states p1)), <- (map_length fst (p_states p0)); exact (f_equal (@length string) U2)).
    rewrite K1 in J1, FW.
    destruct (FW pts t dt0 (length (p_states p0)) x0 (length (p_states p0)) d0 (s_q s) (s_u s) E1 [] [] (s_k s) (s_cost s)) as (U1 & P1 & RW & EU1); [destruct HU as [HU|[_ HU]]; [now left|now right]|].
    (* the tail *)
    destruct (tail_fwd lu LU solve fn sm o p p1 p' fs pre post ms MK EF R1 RC ON MT (conj (U5 K4) (conj (U6 K5) (conj (eq_trans U4 K6) (U7 K7)))) pts NE) as (n1 & m2 & na & C1 & EM & L1 & L2 & L3 & L4 & L5 & L6 & TL).
    { intros G. destruct (GEO G) as [G1 G2]. rewrite J1. split; [exact G1|]. intros Z. rewrite Z in LSS. cbn in LSS. destruct G2 as [G2|G2]; [destruct (p_states p); [contradiction|cbn in K8; lia]|rewrite G2 in K8; lia]. }
    rewrite RCP in C1. injection C1 as <-.
    destruct (TL t dt0 x0 d0 (s_q s) U1 [] (s_k s) (s_cost s)) as (u & d' & U' & du' & LR & EU & EU' & ED1 & ED2 & P2).
    { intros i I. rewrite LSS, K8. unfold x0, d0. rewrite !app_length. assert (Q1 := LY i I). assert (Q2 := LD i I). fold (x i) in Q1. fold (d i) in Q2. rewrite Q1, Q2. destruct (o_shift o); cbn; lia. }
    { intros G. rewrite J1. apply RW. destruct HU as [HU|[HU _]]; [exact HU|rewrite HU in G; discriminate]. }
    rewrite <- ET in P2. rewrite LSS in P2. cbn [length Nat.eqb] in P2.
    set (a := hd 0%R (s_t s)) in *. set (b := last (s_t s) 0%R) in *.
    match type of P2 with passes _ _ _ ?r => set (s' := r) in * end.
    assert (PS : passes (apply_map ROps) ms s s').
    { rewrite EM, EM0, LS. eapply passes_app; [eapply passes_app; [exact P0|exact P1]|exact P2]. }
    destruct (passes_map ROps ms s s' PS) as (arg' & MS). exists s', arg'. split; [exact MS|].
    assert (NZ : (b - a <> 0)%R) by (intros Z; apply GS; lra).
    assert (TT : map (fun i => (t i - a) / (b - a))%R pts = map (fun v => (v - a) / (b - a))%R (s_t s)) by (rewrite ET, map_map; reflexivity).
    split.
    { unfold spans, guess_for, s', lay. cbn [Map_Model.set_u s_t s_y s_q s_u s_p s_nu s_k]. rewrite TT. split.
      - split; [|split; [now left|]].
        + exists (map (fun i => (x0 i ++ u i) ++ d' i) pts). split; [reflexivity|]. split; [intros Z; apply NE; now apply map_eq_nil in Z|]. rewrite L2. cbn [length Nat.eqb]. exact GQ.
        + split; [now rewrite L3|]. split; [rewrite L5, J2, K2, repeat_length; reflexivity|]. rewrite L4, U3, K3. exact GK.
      - split; [|split].
        + unfold a, b. clear. destruct (s_t s) as [|v l]; [reflexivity|]. cbn [map hd]. unfold Rdiv. replace (v - v)%R with 0%R by ring. now rewrite Rmult_0_l.
        + rewrite (last_map (fun v => (v - a) / (b - a))%R) by exact GT. fold b. field. exact NZ.
        + intros Z. apply GT. now apply map_eq_nil in Z. }
    split; [reflexivity|]. split; [reflexivity|]. split; [reflexivity|]. split; [intros G; rewrite G in L6; split; [exact L6|]; destruct (EU G) as [_ Z]; exists (map (fun _ => []) pts); exact Z|].
    split; [unfold s', lay; cbn [s_t]; unfold pts; now rewrite map_length, seq_length|]. split; [unfold s', lay; cbn [s_y arows]; unfold pts; now rewrite map_length, seq_length|].
    intros i I. split; [unfold s', lay; cbn [s_t]; unfold pts; rewrite nth_map_seq by exact I; reflexivity|].
    exists ((x0 i ++ u i) ++ d' i). split; [unfold s', lay; cbn [s_y arows]; unfold pts; rewrite nth_map_seq by exact I; reflexivity|].
    assert (IP : In i pts) by (apply in_seq; lia). split.
    { destruct (LR i IP) as [Z1 Z2]. rewrite !app_length, Z1, Z2, L1, LSS, K8. assert (Q1 := LY i IP). fold (x i) in Q1. unfold x0. rewrite app_length, Q1. destruct (o_shift o); cbn; lia. }
    exists (x i), (u i), (d' i). split; [unfold x0, t; now rewrite !app_assoc|]. split; [rewrite EY; cbn [arows]; unfold pts; now rewrite nth_map_seq by exact I|].
    split; [intros G; destruct (LR i IP) as [Z _]; rewrite G in Z; now apply length_zero_iff_nil in Z|]. split.
    - intros G NF. destruct (EU G) as [Z _]. rewrite <- (EU1 ltac:(intros Q; apply NF; rewrite EP; apply in_or_app; now right)), Z. cbn [arows]. unfold pts. now rewrite nth_map_seq by exact I.
    - intros G. exists (d i). split; [rewrite ED; cbn [arows]; unfold pts; now rewrite nth_map_seq by exact I|]. rewrite (ED1 G). unfold d0, e. destruct (o_shift o); [|reflexivity].
      destruct (s_dual_t s); [now destruct i|reflexivity].
  Qed.
End Mapped.

(** What the two setups have in common. *)
Record prepared (lu : list (list expr) -> list expr -> res (list expr)) (solve : list expr -> list string -> list (list expr)) (fn : string -> nat -> R -> R)
    (sm : list R -> list R -> res R) (o : options) (p : prob) (fs pre post : list tf) (p1 p' : prob) (ms : list (mapper R)) : Prop := mkPrepared {
  pr_make : make_indirect o p = Ok fs;
  pr_split : fs = pre ++ FDual (o_method o) :: post;
  pr_pre : run_tfs lu solve pre p = Ok p1;
  pr_chain : run_chain fn sm lu solve fs p = Ok (p', ms);
  pr_norm : o_norm o = true;
  pr_method : lower (o_method o) = "traditional" \/ lower (o_method o) = "diffyg";
  pr_control : control_known o p1 p';
  pr_switches : p_switches p = [];
  pr_fresh : p_costates p = [] /\ p_coparams p = [] /\ p_params p = [] /\ p_quads p = [] /\ p_cpars p = [];
  pr_geo : lower (o_control o) = "differential" -> lower (o_method o) = "diffyg" -> length (p_controls p) = 1 /\ (p_states p <> [] \/ o_shift o = true) }.
Lemma prepared_user lu solve fn sm o p fs pre post p1 p' ms : user_setup lu solve fn sm o p fs pre post p1 p' ms -> p_cpars p = [] ->
  (lower (o_control o) = "differential" -> lower (o_method o) = "diffyg" -> length (p_controls p) = 1 /\ (p_states p <> [] \/ o_shift o = true)) -> prepared lu solve fn sm o p fs pre post p1 p' ms.
Proof. intros [A1 A2 A3 A4 A5 A6 A7 A8 A9 (B1 & B2 & B3 & B4) _ _ _] C G. constructor; auto. Qed.
Lemma prepared_bound lu solve fn sm o p p0 fs pre post p1 p' ms : bound_setup lu solve fn sm o p p0 fs pre post p1 p' ms -> p_cpars p = [] ->
  (lower (o_control o) = "differential" -> lower (o_method o) = "diffyg" -> length (p_controls p) = 1 /\ (p_states p <> [] \/ o_shift o = true)) -> prepared lu solve fn sm o p fs pre post p1 p' ms.
Proof. intros [A1 A2 A3 A4 A5 A6 A7 A8 (B1 & B2 & B3 & B4) _ _ _ _ _ _] C G. constructor; auto. Qed.

(** ** C91 *)

(** A trajectory of the user's problem becomes a trajectory of the boundary value
    problem: the mappers do not raise, the times run from 0 to 1, the duration is
    the parameter, the rows begin with the states that were given. *)
Theorem C91_mapped : forall lu, lu_ok lu -> forall solve fn sm o p fs pre post p1 p' ms s,
  prepared lu solve fn sm o p fs pre post p1 p' ms -> guess_of o pre p s ->
  exists s' a, map_sol ROps ms s = Ok (ms, s', a) /\ spans p' 0 1 (Map_Model.set_u E1 s') /\ s_p s' = [last (s_t s) 0 - hd 0 (s_t s)]%R /\ s_k s' = s_k s /\ s_q s' = s_q s /\
    (differential o = true -> p_controls p' = [] /\ exists rows, s_u s' = Mat 0 rows) /\
    length (s_t s') = length (s_t s) /\ length (arows (s_y s')) = length (s_t s) /\
    forall i, i < length (s_t s) -> nth_error (s_t s') i = Some ((nth i (s_t s) 0 - hd 0 (s_t s)) / (last (s_t s) 0 - hd 0 (s_t s)))%R /\
      exists row, nth_error (arows (s_y s')) i = Some row /\ length row = length (p_states p') /\ entry o pre s i row.
Proof.
  intros lu LU solve fn sm o p fs pre post p1 p' ms s [A1 A2 A3 A4 A5 A6 CK A7 (B1 & B2 & B3 & B4 & B5) G] GO.
  apply (start_mapped lu LU solve fn sm o p p1 p' fs pre post ms A1 A2 A3 A4 A5 A6 A7 (conj B1 (conj B2 (conj B3 B4))) B5); [|exact GO].
  unfold geometric, differential. intros E. apply andb_true_iff in E. destruct E as [E1 E2]. destruct CK as [(OC & _)|(OC & _)]; [rewrite OC in E1; discriminate|].
  destruct A6 as [M|M]; [rewrite M in E2; discriminate|]. exact (G OC M).
Qed.
Print Assumptions C91_mapped.

(** The settings of a generator in mode auto or ones that suit the problem. *)
Record settings_ok (o : options) (pre : list tf) (p : prob) (g : gen (F := R) (S := sol R)) (x0 : list R) : Prop := mkSettings {
  so_mode : g_mode g = "auto" \/ g_mode g = "ones";
  so_start : g_start g = Some x0 /\ length x0 = length (p_states p);
  so_costate : match g_costate g with None => False | Some (GArr l) => length l = length (p_states p) | Some _ => True end;
  so_quad : dflt [] (g_quad g) = [];
  so_control : (differential o = false /\ ~ In FEps pre) \/ exists l, g_control g = Some (GArr l) /\ length l = length (p_controls p);
  so_time : g_time g <> 0%R }.

Lemma repeat_table n nodes (r : list R) : length r = n -> 0 < nodes -> table n nodes (Mat (width (repeat r nodes)) (repeat r nodes)).
Proof.
  intros L N. exists (repeat r nodes). split; [|split; [apply repeat_length|]].
  - destruct nodes; [lia|]. cbn [repeat width]. now rewrite L.
  - apply Forall_forall. intros v I. apply repeat_spec in I. now subst v.
Qed.
Lemma four_points T : linspace ROps 0%R T 4 = Ok [0 + 0; linspace_elem ROps 3 0 T 1; linspace_elem ROps 3 0 T 2; T]%R.
Proof.
  change (linspace ROps 0%R T 4) with (Ok [linspace_elem ROps 3 0%R T 0; linspace_elem ROps 3 0%R T 1; linspace_elem ROps 3 0%R T 2; T]). do 2 f_equal.
  unfold linspace_elem. cbn. match goal with |- context [if ?b then _ else _] => destruct b end; cbn; lra.
Qed.
Lemma settings_start nan o pre p g x0 k : settings_ok o pre p g x0 -> length k = length (p_consts p) ->
  exists d, generate_in_solve ROps g = Ok (FromSettings d) /\ guess_of o pre p (start_sol nan k d) /\ s_k (start_sol nan k d) = k /\
    nth_error (arows (s_y (start_sol nan k d))) 0 = Some x0 /\ hd 0%R (d_t d) = 0%R /\ last (d_t d) 0%R = tspan_end ROps g /\ first_row (s_q (start_sol nan k d)) = Ok [].
Proof.
  intros [MO (ES & LS) CO QU CT TI] LK.
  assert (TE : tspan_end ROps g <> 0%R) by (unfold tspan_end; destruct (String.eqb (g_direction g) "reverse"); cbn; unfold n0; cbn; lra).
  set (d0 := match g_costate g with Some (GFloat c) | Some (GInt c) => repeat (nmul ROps c (nofZ ROps 1)) (length x0) | Some (GArr l) => l | None => [] end).
  assert (LD : length d0 = length (p_states p)) by (unfold d0; destruct (g_costate g) as [[c|c|l]|]; [now rewrite repeat_length|now rewrite repeat_length|exact CO|contradiction]).
  set (u0 := match g_control g with Some (GFloat c) => Some (GArr (repeat (nmul ROps c (nofZ ROps 1)) (g_dae g))) | v => v end).
  assert (GEN : forall nodes ts, length ts = nodes -> 0 < nodes -> hd 0%R ts = 0%R -> last ts 0%R = tspan_end ROps g -> forall d, d = mkStart ts (repeat x0 nodes) (repeat d0 nodes) (repeat (dflt [] (g_quad g)) nodes) (repeat u0 nodes) [] [] ->
    guess_of o pre p (start_sol nan k d) /\ s_k (start_sol nan k d) = k /\ nth_error (arows (s_y (start_sol nan k d))) 0 = Some x0 /\ hd 0%R (d_t d) = 0%R /\ last (d_t d) 0%R = tspan_end ROps g /\ first_row (s_q (start_sol nan k d)) = Ok []).
  { intros nodes ts LT NP H0 HL d ->. cbn [d_t]. split; [|split; [reflexivity|split; [destruct nodes; [lia|reflexivity]|split; [exact H0|split; [exact HL|cbn [start_sol s_q d_q first_row]; rewrite QU; destruct nodes; [lia|reflexivity]]]]]].
    constructor; unfold start_sol; cbn [s_t s_y s_dual s_dual_t s_q s_u s_dual_u s_p s_nu s_k d_t d_y d_dual d_q d_u d_p d_nu]; rewrite ?LT.
    - intros Z. subst ts. cbn in LT. lia.
    - rewrite H0, HL. auto.
    - now apply repeat_table.
    - now apply repeat_table.
    - now left.
    - right. rewrite QU. exists (repeat [] nodes). destruct nodes; [lia|reflexivity].
    - destruct CT as [CT|(l & EC & LL)]; [now left|right]. unfold u0. rewrite EC. unfold control_rows. destruct nodes as [|nodes]; [lia|]. cbn [repeat]. rewrite LL. exists (l :: map (fun _ => l) (repeat (Some (GArr l)) nodes)).
      split; [reflexivity|]. split; [cbn; now rewrite map_length, repeat_length|]. constructor; [exact LL|]. apply Forall_forall. intros v I. apply in_map_iff in I. destruct I as (_ & <- & _). exact LL.
    - reflexivity.
    - reflexivity.
    - reflexivity.
    - exact LK. }
  unfold generate_in_solve, generate. destruct MO as [M|M]; rewrite M; cbn [String.eqb Ascii.eqb Bool.eqb]; unfold data; rewrite ES.
  - exists (mkStart [0%R; tspan_end ROps g] (repeat x0 2) (repeat d0 2) (repeat (dflt [] (g_quad g)) 2) (repeat u0 2) [] []). split.
    + cbn [params bind repeat]. reflexivity.
    + apply (GEN 2 [0%R; tspan_end ROps g]); try reflexivity. lia.
  - eexists. split.
    + cbn [params bind repeat]. unfold n0. change (nofZ ROps 0) with 0%R. rewrite four_points. cbn [bind]. reflexivity.
    + eapply (GEN 4); [| | | |reflexivity]; try reflexivity; [lia|]. cbn. lra.
Qed.

(** solve_ivp reached the end: nodes from [t0] to [tf], one row each, the first is
    the initial state. *)
Definition ivp_ok (ivp : (R -> list R -> res (list R)) -> R -> R -> list R -> res (list R * list (list R))) : Prop :=
  forall f t0 tf y0 ts rows, ivp f t0 tf y0 = Ok (ts, rows) -> ts <> [] /\ hd 0%R ts = t0 /\ last ts 0%R = tf /\ length rows = length ts /\ nth_error rows 0 = Some y0.

Lemma set_nth_len {A} (l l' : list A) j v : set_nth l j v = Ok l' -> length l' = length l.
Proof. unfold set_nth. destruct (j <? length l) eqn:E; [|discriminate]. intros H. apply Ok_inj in H. subst l'. apply Nat.ltb_lt in E. rewrite app_length, firstn_length. change (length (v :: skipn (S j) l)) with (S (length (skipn (S j) l))). rewrite skipn_length. lia. Qed.
Lemma assign_len suf names bcs : forall (k k' : list R), assign suf names bcs k = Ok k' -> length k' = length k.
Proof.
  induction bcs as [|[s v] bcs IH]; intros k k' H; cbn [assign] in H; [now injection H as <-|]. destruct (index_of _ _) as [j|]; [|now apply IH].
  destruct (set_nth k j v) as [k1|] eqn:E; [|discriminate]. cbn [bind] in H. rewrite (IH _ _ H). exact (set_nth_len _ _ _ _ E).
Qed.
Lemma match_len st ind names t y (k k' : list R) : match_constants st ind names t y k = Ok k' -> length k' = length k.
Proof.
  unfold match_constants. destruct (get y 0); [|discriminate]. cbn [bind]. destruct (get y _); [|discriminate]. cbn [bind]. destruct (get t 0); [|discriminate]. cbn [bind]. destruct (get t _); [|discriminate]. cbn [bind].
  intros H. destruct (assign "_0" _ _ k) as [k1|] eqn:E; [|discriminate]. cbn [bind] in H. rewrite (assign_len _ _ _ _ _ H). exact (assign_len _ _ _ _ _ E).
Qed.

(** The way back leaves the constants alone. *)
Ltac kinv H :=
  lazymatch type of H with
  | bind ?r _ = Ok _ => let x := fresh "x" in let E := fresh "E" in destruct r as [x|] eqn:E; [cbn beta iota zeta delta [bind] in H; kinv H|discriminate H]
  | Ok _ = Ok _ => apply Ok_inj in H; subst; reflexivity
  | (match ?x with _ => _ end) = Ok _ => destruct x; try discriminate H; kinv H
  end.
Lemma ms_inv_k i (s : sol R) r : ms_inv ROps i s = Ok r -> s_k (snd r) = s_k s.
Proof. unfold ms_inv. intros H. kinv H. Qed.
Lemma trig_k f ci (s s' : sol R) : trig_apply (F := R) f ci s = Ok s' -> s_k s' = s_k s.
Proof. unfold trig_apply. intros H. kinv H. Qed.
Lemma nt_inv_k i (s : sol R) r : nt_inv ROps i s = Ok r -> s_k (snd r) = s_k s.
Proof. unfold nt_inv. intros H. kinv H. Qed.
Lemma set_loc_k pl a (s : sol R) : s_k (set_loc pl a s) = s_k s.
Proof. unfold set_loc. now destruct (loc_states pl). Qed.
Lemma mf_inv_k pp ps f g (s s' : sol R) : mf_inv ROps pp ps f g s = Ok s' -> s_k s' = s_k s.
Proof.
  unfold mf_inv. intros H. destruct (eval_rows_q _ _ _ _ _) as [qv|]; [|discriminate]. cbn [bind] in H. destruct (eval_rows _ _ _ _) as [pv|]; [|discriminate]. cbn [bind] in H.
  destruct (stack_col _ _ pv) as [a|]; [|discriminate]. cbn [bind] in H. destruct (stack_col _ _ qv) as [b|]; [|discriminate]. cbn [bind] in H.
  match type of H with bind ?r _ = _ => destruct r as [q|]; [|discriminate] end. cbn [bind] in H. apply Ok_inj in H. subst s'. cbn [Map_Model.set_p Map_Model.set_q s_k]. now rewrite !set_loc_k.
Qed.
Lemma apply_inv_k (m m' : mapper R) (s s' : sol R) : apply_inv ROps m s = Ok (m', s') -> s_k s' = s_k s.
Proof.
  assert (W : forall m m' (r : res (sol R)) (s s' : sol R), with_mapper m r = Ok (m', s') -> (forall s1, r = Ok s1 -> s_k s1 = s_k s) -> s_k s' = s_k s).
  { intros x x' r s0 s1 H F. unfold with_mapper in H. destruct r as [z|]; [|discriminate]. cbn [bind] in H. injection H as _ <-. now apply F. }
  destruct m; cbn [apply_inv]; intros H.
  - now injection H as _ <-.
  - destruct (ms_inv ROps i s) as [r|] eqn:E; [|discriminate]. cbn [bind] in H. injection H as _ <-. exact (ms_inv_k _ _ _ E).
  - apply (W _ _ _ s s') in H; [exact H|]. intros s1 E. exact (trig_k _ _ _ _ E).
  - apply (W _ _ _ s s') in H; [exact H|]. intros s1 E. unfold dual_inv in E. kinv E.
  - destruct (nt_inv ROps i s) as [r|] eqn:E; [|discriminate]. cbn [bind] in H. injection H as _ <-. exact (nt_inv_k _ _ _ E).
  - apply (W _ _ _ s s') in H; [exact H|]. intros s1 E. unfold alg_inv in E. kinv E.
  - apply (W _ _ _ s s') in H; [exact H|]. intros s1 E. unfold dc_inv in E. kinv E.
  - apply (W _ _ _ s s') in H; [exact H|]. intros s1 E. unfold dg_inv in E. kinv E.
  - apply (W _ _ _ s s') in H; [exact H|]. intros s1 E. exact (mf_inv_k _ _ _ _ _ _ E).
  - apply (W _ _ _ s s') in H; [exact H|]. intros s1 E. unfold sq_inv in E. kinv E.
Qed.
Lemma run_inv_k l : forall (ps : pass R) l' ps', run_pass (apply_inv ROps) l ps = Ok (l', ps') -> s_k (cur ps') = s_k (cur ps).
Proof.
  induction l as [|m l IH]; intros ps l' ps' H; cbn [run_pass] in H; [now injection H as _ <-|].
  unfold step_pass in H. destruct (apply_inv ROps m (cur ps)) as [[m1 s1]|] eqn:E; [|discriminate]. cbn [bind fst snd] in H.
  destruct (run_pass _ l _) as [[l2 ps2]|] eqn:E2; [|discriminate]. cbn [bind fst snd] in H. injection H as _ <-. rewrite (IH _ _ _ E2). cbn [cur]. exact (apply_inv_k _ _ _ _ E).
Qed.
Lemma inv_keeps_k ms (s r : sol R) ms' a : inv_map_sol ROps ms s = Ok (ms', r, a) -> s_k r = s_k s.
Proof.
  unfold inv_map_sol. destruct (run_pass _ _ _) as [[l ps]|] eqn:E; [|discriminate]. cbn [bind fst snd]. intros H. injection H as _ <- _. exact (run_inv_k _ _ _ _ E).
Qed.

(** A guess that fits up to the controls, which are computed last. *)
Definition nearly (o : options) (p' : prob) (x0 : list R) (s : sol R) : Prop :=
  spans p' 0 1 (Map_Model.set_u E1 s) /\ length (arows (s_y s)) = length (s_t s) /\ (differential o = true -> p_controls p' = [] /\ (s_u s = E1 \/ exists rows, s_u s = Mat 0 rows)) /\
  exists rest, nth_error (arows (s_y s)) 0 = Some (x0 ++ rest) /\ length (x0 ++ rest) = length (p_states p').

Section First.
  Variables (lu : list (list expr) -> list expr -> res (list expr)) (LU : lu_ok lu) (solve : list expr -> list string -> list (list expr)) (fn : string -> nat -> R -> R) (sm : list R -> list R -> res R).
  Variables (o : options) (p p1 p' : prob) (fs pre post : list tf) (ms : list (mapper R)) (nan : R).
  Variables (ivp : (R -> list R -> res (list R)) -> R -> R -> list R -> res (list R * list (list R))) (recon : (list R -> res (list R)) -> list R -> list (list R) -> list R -> res (list (list R))).
  Hypothesis PR : prepared lu solve fn sm o p fs pre post p1 p' ms.
  Hypothesis IV : ivp_ok ivp.

  Lemma no_quads : p_quads p' = [].
  Proof.
    destruct PR as [A1 A2 A3 A4 A5 A6 CK A7 (B1 & B2 & B3 & B4 & B5) G].
    destruct (bound_pre o p fs pre post A1 A2 A7) as (st & EC & EP). destruct (constraint_tfs_spec _ _ EC) as (IS & _).
    destruct (run_chain_total fn sm lu solve pre p p1 A3) as (mp & RCP). rewrite EP in RCP. apply run_chain_app in RCP as (p0 & m0 & m1 & RA & RB & _).
    destruct (stage_undo lu solve fn sm st IS p0 p1 m1 RB) as (back & UN). destruct (un_frame _ _ _ _ _ UN) as (_ & _ & _ & U4 & U5 & U6 & U7).
    assert (K : p_costates p0 = [] /\ p_coparams p0 = [] /\ p_params p0 = [] /\ p_quads p0 = []).
    { destruct (o_shift o).
      - cbn [run_chain apply_tf] in RA. destruct (momentum_shift None p) as [q|] eqn:HM; [|discriminate]. cbn [bind fst snd] in RA. injection RA as <- _.
        destruct (momentum_ok None p q HM) as (M1 & M2 & M3 & M4 & M5 & M6 & M7 & M8 & M9 & M10 & M11 & M12 & M13). repeat split; congruence.
      - cbn in RA. injection RA as <- _. repeat split; assumption. }
    destruct K as (K1 & K2 & K3 & K4).
    destruct (chain_tail fn sm lu solve o p fs pre post p1 p' ms A1 A2 A3 A4 A5 A6) as (pD & p2 & p3 & n1 & na & b0 & lo & hi & HD & HC & HN & HS & _).
    destruct (norm_squash p2 p3 p' HN HS) as (_ & _ & _ & S4 & _). destruct (control_rest lu solve o pD p2 HC) as (_ & Q2 & Q3 & _).
    assert (DO := dual_of_exists lu LU _ p1 pD HD A6 (U5 K1) (U6 K2)).
    assert (CP : p_coparams pD = []) by (apply syms_nil; rewrite (d_colams _ _ _ DO), U4, K3; reflexivity).
    rewrite S4, Q2, Q3, (d_quads _ _ _ DO), (U7 K4), CP. reflexivity.
  Qed.

  Lemma mapped_nearly s x0 : guess_of o pre p s -> nth_error (arows (s_y s)) 0 = Some x0 ->
    exists s' a, map_sol ROps ms s = Ok (ms, s', a) /\ nearly o p' x0 s' /\ s_p s' = [last (s_t s) 0 - hd 0 (s_t s)]%R /\ s_k s' = s_k s /\ s_q s' = s_q s.
  Proof.
    intros GO FX. destruct (C91_mapped lu LU solve fn sm o p fs pre post p1 p' ms s PR GO) as (s' & a & MS & SP & EP & EK & EQ & DU & LT & LY & RO).
    exists s', a. split; [exact MS|]. split; [|now repeat split]. split; [exact SP|]. split; [congruence|]. split; [intros D; destruct (DU D) as [D1 D2]; split; [exact D1|right; exact D2]|].
    assert (Z : 0 < length (s_t s)) by (assert (Q := ug_t _ _ _ _ GO); destruct (s_t s); [contradiction|cbn; lia]).
    destruct (RO 0 Z) as (_ & row & E1 & EL & (x & us & ds & -> & E2 & _)). rewrite FX in E2. injection E2 as <-. rewrite <- !app_assoc in E1, EL. eexists. split; [exact E1|exact EL].
  Qed.

  Lemma propagate_nearly s x0 s' : nearly o p' x0 s -> propagate fn p' nan ivp recon s = Ok s' -> nearly o p' x0 s' /\ s_p s' = s_p s /\ s_k s' = s_k s.
  Proof.
    intros (SP & LY & DU & (rest & FR & LR0)) H. assert (NQ := no_quads). destruct SP as (((rows & EY & NE & QQ) & _ & SH) & H0 & H1 & NT). cbn [Map_Model.set_u s_y s_q s_t s_p s_nu s_k] in *.
    unfold propagate in H. rewrite EY in H, FR. cbn [arows] in FR. destruct rows as [|r0 rows]; [contradiction|]. cbn in FR. injection FR as ->. change (first_row (Mat (length (p_states p')) ((x0 ++ rest) :: rows))) with (Ok (x0 ++ rest)) in H. cbn [bind] in H.
    destruct (first_row (s_q s)) as [q0|] eqn:EQ; [|discriminate]. cbn [bind] in H.
    assert (G0 : get (s_t s) 0 = Ok 0%R) by (destruct (s_t s); [contradiction|cbn in H0; subst; reflexivity]).
    assert (G1 : get (s_t s) (length (s_t s) - 1) = Ok 1%R).
    { unfold get. rewrite (nth_error_nth' _ 0%R) by (destruct (s_t s); [contradiction|cbn; lia]). now rewrite last_nth, H1. }
    rewrite G0, G1 in H. cbn [bind] in H. match type of H with bind ?r _ = _ => destruct r as [[ts rs]|] eqn:EI; [|discriminate] end. cbn [bind fst snd] in H. rewrite NQ in H. cbn [length Nat.eqb orb bind] in H. injection H as <-.
    destruct (IV _ _ _ _ _ _ EI) as (I1 & I2 & I3 & I4 & I5). split; [|now split].
    split; [|split; [exact I4|split; [intros D; destruct (DU D) as [D1 _]; split; [exact D1|now left]|]]].
    - split; [|now repeat split]. split; [|split; [now left|exact SH]]. exists rs. cbn [Map_Model.set_u s_y s_q]. split; [now rewrite LR0|]. split; [destruct rs; [discriminate I5|discriminate]|]. rewrite NQ. now left.
    - exists rest. split; [exact I5|exact LR0].
  Qed.
  Lemma helped_nearly helper s x0 s' : nearly o p' x0 s -> helped p ms helper s = Ok s' -> nearly o p' x0 s' /\ s_p s' = s_p s /\ (helper = false -> s_k s' = s_k s).
  Proof.
    intros NN H. unfold helped in H. destruct helper; [|apply Ok_inj in H; subst s'; split; [exact NN|split; reflexivity]].
    destruct (inv_map_sol ROps ms s) as [[[ms' r] a]|] eqn:EI; [|discriminate]. cbn [bind fst snd] in H.
    destruct (match_constants _ _ _ _ _ _) as [k|] eqn:EM; [|discriminate]. cbn [bind] in H. apply Ok_inj in H. subst s'.
    assert (LK : length k = length (s_k s)) by (rewrite (match_len _ _ _ _ _ _ _ EM); f_equal; exact (inv_keeps_k _ _ _ _ _ EI)).
    destruct NN as (SP & LY & DU & RR). destruct SP as (((rows & EY & NE & QQ) & UU & (S1 & S2 & S3)) & H0 & H1 & NT).
    unfold Map_Model.set_k. cbn [s_p]. split; [|split; [reflexivity|discriminate]].
    split; [|split; [exact LY|split; [exact DU|exact RR]]]. split; [|split; [exact H0|split; [exact H1|exact NT]]]. split; [exists rows; split; [exact EY|split; [exact NE|exact QQ]]|]. split; [now left|]. split; [exact S1|]. split; [exact S2|]. cbn [Map_Model.set_u s_k] in *. congruence.
  Qed.
  Lemma controls_span s x0 s' : nearly o p' x0 s -> with_controls fn p' s = Ok s' -> spans p' 0 1 s' /\ s_p s' = s_p s /\ s_k s' = s_k s /\ s_t s' = s_t s /\ s_y s' = s_y s.
  Proof.
    intros (SP & LY & DU & _) H. destruct SP as (((rows & EY & NE & QQ) & _ & SH) & TT). unfold with_controls in H.
    assert (EASY : forall u, u = E1 \/ (exists rows, u = Mat (length (p_controls p')) rows) -> spans p' 0 1 (Map_Model.set_u u s)).
    { intros u HU. split; [|exact TT]. split; [exists rows; split; [exact EY|split; [exact NE|exact QQ]]|]. split; [exact HU|exact SH]. }
    destruct (law_control fn p') as [cu|] eqn:EL.
    - destruct (mapM _ _) as [us|]; [|discriminate]. cbn [bind] in H. apply Ok_inj in H. subst s'. split; [apply EASY; right; now exists us|now repeat split].
    - apply Ok_inj in H. subst s'. split; [|now repeat split]. assert (E : s = Map_Model.set_u (s_u s) s) by (destruct s; reflexivity). rewrite E. apply EASY.
      destruct (pr_control _ _ _ _ _ _ _ _ _ _ _ _ PR) as [(_ & LN & _)|(OD & _)]; [rewrite (law_some fn p' LN) in EL; discriminate|].
      assert (DF : differential o = true) by (unfold differential; rewrite OD; reflexivity). destruct (DU DF) as [CN [Z|[rs Z]]]; [now left|right]. exists rs. rewrite Z. now rewrite CN.
  Qed.
  Lemma mapped_total s x0 : nearly o p' x0 s -> exists s', with_controls fn p' s = Ok s'.
  Proof.
    intros (SP & LY & _). destruct SP as (_ & _ & _ & NT). cbn [Map_Model.set_u s_t] in NT. unfold with_controls. destruct (law_control fn p') as [cu|]; [|eexists; reflexivity].
    assert (Q : exists us, mapM (fun i => y <- get (arows (s_y s)) i; Ok (cu y (s_p s) (s_k s))) (seq 0 (Nat.max 1 (length (s_t s)))) = Ok us).
    { replace (Nat.max 1 (length (s_t s))) with (length (arows (s_y s))) by (rewrite LY; destruct (s_t s); [contradiction|cbn; lia]). clear. set (rows := arows (s_y s)).
      assert (G : forall l, (forall i, In i l -> i < length rows) -> exists us, mapM (fun i => y <- get rows i; Ok (cu y (s_p s) (s_k s))) l = Ok us).
      { induction l as [|i l IH]; intros B; [eexists; reflexivity|]. destruct IH as (us & E); [intros j J; apply B; now right|].
        assert (L := B i (or_introl eq_refl)). apply nth_error_Some in L. destruct (nth_error rows i) as [r|] eqn:ER; [|contradiction].
        cbn [mapM]. unfold get at 1. rewrite ER. cbn [bind]. rewrite E. cbn [bind]. eexists; reflexivity. }
      apply G. intros i I. apply in_seq in I. lia. }
    destruct Q as (us & ->). cbn [bind]. eexists; reflexivity.
  Qed.
End First.

(** Where the guess comes from: settings that suit the problem, or a trajectory
    of the user; its initial state, its duration and its constants. *)
Inductive guess_from (o : options) (pre : list tf) (p : prob) (g : gen (F := R) (S := sol R)) (k : list R) : list R -> R -> list R -> Prop :=
| from_settings x0 : settings_ok o pre p g x0 -> length k = length (p_consts p) -> guess_from o pre p g k x0 (tspan_end ROps g) k
| from_user s x0 : g_mode g = "static" -> g_solinit g = Some s -> guess_of o pre p s -> nth_error (arows (s_y s)) 0 = Some x0 ->
    guess_from o pre p g k x0 (last (s_t s) 0 - hd 0 (s_t s))%R (s_k s).

Lemma generated_nearly lu (LU : lu_ok lu) solve fn sm o p fs pre post p1 p' ms nan ivp recon g k x0 T kk :
  prepared lu solve fn sm o p fs pre post p1 p' ms -> ivp_ok ivp -> guess_from o pre p g k x0 T kk ->
  exists s, nearly o p' x0 s /\ s_p s = [T] /\ s_k s = kk /\ (g_mode g = "auto" -> first_row (s_q s) = Ok []) /\ (g_mode g = "auto" -> generate_sol fn p' ms nan ivp recon g k = propagate fn p' nan ivp recon s) /\ (g_mode g <> "auto" -> generate_sol fn p' ms nan ivp recon g k = Ok s).
Proof.
  intros PR IV [x1 SO LK|s x1 GM GI GO FX].
  - destruct (settings_start nan o pre p g x1 k SO LK) as (d & GD & GO & EK & FX & H0 & HL & Q0).
    destruct (mapped_nearly lu LU solve fn sm o p p1 p' fs pre post ms PR _ x1 GO FX) as (s' & a & MS & NN & EP & EK' & EQ).
    exists s'. split; [exact NN|]. split; [rewrite EP; change (s_t (start_sol nan k d)) with (d_t d); rewrite H0, HL; f_equal; ring|]. split; [congruence|]. split; [intros _; rewrite EQ; exact Q0|].
    unfold generate_sol. rewrite GD. cbn [bind]. rewrite MS. cbn [bind fst snd]. split; intros A; [now rewrite A|]. apply String.eqb_neq in A. now rewrite A.
  - destruct (mapped_nearly lu LU solve fn sm o p p1 p' fs pre post ms PR s x1 GO FX) as (s' & a & MS & NN & EP & EK' & EQ).
    exists s'. split; [exact NN|]. split; [exact EP|]. split; [exact EK'|]. split; [intros A; rewrite GM in A; discriminate|]. split; [intros A; rewrite GM in A; discriminate|intros _].
    unfold generate_sol, generate_in_solve, generate. rewrite GM. cbn [String.eqb Ascii.eqb Bool.eqb bind]. rewrite GI. cbn [bind]. rewrite MS. reflexivity.
Qed.

(** The guess that reaches the continuation loop fits the boundary value problem:
    it runs from 0 to 1, its parameter is the duration, its first row begins with
    the initial state, its constants are the given ones unless the helper is on. *)
Theorem C91_first : forall lu, lu_ok lu -> forall solve fn sm o p fs pre post p1 p' ms nan ivp recon g k helper x0 T kk s,
  prepared lu solve fn sm o p fs pre post p1 p' ms -> ivp_ok ivp -> guess_from o pre p g k x0 T kk ->
  first_guess fn p p' ms nan ivp recon g k helper = Ok s ->
  spans p' 0 1 s /\ s_p s = [T] /\ (helper = false -> s_k s = kk) /\ exists rest, nth_error (arows (s_y s)) 0 = Some (x0 ++ rest).
Proof.
  intros lu LU solve fn sm o p fs pre post p1 p' ms nan ivp recon g k helper x0 T kk s PR IV GF H.
  destruct (generated_nearly lu LU solve fn sm o p fs pre post p1 p' ms nan ivp recon g k x0 T kk PR IV GF) as (s0 & N0 & P0 & K0 & GQ & GA & GN).
  unfold first_guess in H. destruct (generate_sol fn p' ms nan ivp recon g k) as [s1|] eqn:E1; [|discriminate]. cbn [bind] in H.
  destruct (helped p ms helper s1) as [s2|] eqn:E2; [|discriminate]. cbn [bind] in H.
  assert (N1 : nearly o p' x0 s1 /\ s_p s1 = s_p s0 /\ s_k s1 = s_k s0).
  { destruct (string_dec (g_mode g) "auto") as [A|A].
    - symmetry in GA. exact (propagate_nearly lu LU solve fn sm o p p1 p' fs pre post ms nan ivp recon PR IV _ _ _ N0 (GA A)).
    - assert (Q := GN A). apply Ok_inj in Q. subst s1. now split. }
  destruct N1 as (N1 & P1 & K1). destruct (helped_nearly o p p' ms helper s1 x0 s2 N1 E2) as (N2 & P2 & K2).
  destruct (controls_span lu solve fn sm o p p1 p' fs pre post ms PR s2 x0 s N2 H) as (SP & P3 & K3 & T3 & Y3).
  split; [exact SP|]. split; [congruence|]. split; [intros A; rewrite K3, (K2 A), K1; exact K0|]. rewrite Y3. destruct N2 as (_ & _ & _ & rest & F & _). now exists rest.
Qed.
Print Assumptions C91_first.

(** Without the helper the guess is always made; in mode auto as long as the
    integrator answers. *)
Theorem C91_first_total : forall lu, lu_ok lu -> forall solve fn sm o p fs pre post p1 p' ms nan ivp recon g k x0 T kk,
  prepared lu solve fn sm o p fs pre post p1 p' ms -> ivp_ok ivp -> guess_from o pre p g k x0 T kk ->
  (g_mode g = "auto" -> forall f t0 tf y0, exists r, ivp f t0 tf y0 = Ok r) ->
  exists s, first_guess fn p p' ms nan ivp recon g k false = Ok s.
Proof.
  intros lu LU solve fn sm o p fs pre post p1 p' ms nan ivp recon g k x0 T kk PR IV GF TO.
  destruct (generated_nearly lu LU solve fn sm o p fs pre post p1 p' ms nan ivp recon g k x0 T kk PR IV GF) as (s0 & N0 & P0 & K0 & GQ & GA & GN).
  assert (Q : exists s1, generate_sol fn p' ms nan ivp recon g k = Ok s1 /\ nearly o p' x0 s1).
  { destruct (string_dec (g_mode g) "auto") as [A|A]; [|exists s0; split; [exact (GN A)|exact N0]]. rewrite (GA A).
    assert (PT : exists s1, propagate fn p' nan ivp recon s0 = Ok s1).
    { destruct N0 as ((((rows & EY & NE & QQ) & _) & _ & _ & NT) & LY & _ & (rest & FR & _)). cbn [Map_Model.set_u s_t s_y s_q] in *. assert (NQ := no_quads lu LU solve fn sm o p p1 p' fs pre post ms PR).
      unfold propagate. rewrite EY. destruct rows as [|r rows]; [contradiction|]. change (first_row (Mat (length (p_states p')) (r :: rows))) with (Ok r). cbn [bind]. rewrite (GQ A). cbn [bind].
      assert (G0 : exists t, get (s_t s0) 0 = Ok t) by (destruct (s_t s0) as [|t l]; [contradiction|now exists t]). destruct G0 as (t0 & ->). cbn [bind].
      assert (G1 : exists t, get (s_t s0) (length (s_t s0) - 1) = Ok t) by (eexists; unfold get; rewrite (nth_error_nth' _ 0%R) by (destruct (s_t s0); [contradiction|cbn; lia]); reflexivity). destruct G1 as (t1 & ->). cbn [bind].
      match goal with |- context [ivp ?f ?a ?b ?y] => destruct (TO A f a b y) as (w & ->) end. cbn [bind]. rewrite NQ. cbn [length Nat.eqb orb bind]. eexists; reflexivity. }
    destruct PT as (s1 & PT). exists s1. split; [exact PT|]. exact (proj1 (propagate_nearly lu LU solve fn sm o p p1 p' fs pre post ms nan ivp recon PR IV _ _ _ N0 PT)). }
  destruct Q as (s1 & E1 & N1). destruct (mapped_total fn o p' s1 x0 N1) as (s2 & E2). exists s2. unfold first_guess, helped. rewrite E1. cbn [bind]. exact E2.
Qed.
Print Assumptions C91_first_total.

(** Settings from keyword arguments: what guess_generator accepts suits the
    problem when the sizes are right. *)
Theorem C91_settings : forall o pre p mode kw g x0,
  guess_generator ROps (S := sol R) mode (KwGuess kw) = Ok g -> k_start kw = Some x0 -> length x0 = length (p_states p) -> mode = "auto" \/ mode = "ones" ->
  match k_costate kw with Some (GArr l) => length l = length (p_states p) | _ => True end -> dflt [] (k_quad kw) = [] ->
  (differential o = false /\ ~ In FEps pre) \/ (exists l, k_control kw = Some (GArr l) /\ length l = length (p_controls p)) ->
  settings_ok o pre p g x0 /\ tspan_end ROps g = (if String.eqb (dflt "forward" (k_direction kw)) "reverse" then - Rabs (dflt 1 (k_time kw)) else Rabs (dflt 1 (k_time kw)))%R.
Proof.
  intros o pre p mode kw g x0 GG KS LX MO CO QU CT. unfold guess_generator, new_generator in GG. cbn [setup set_mode String.eqb Ascii.eqb Bool.eqb orb] in GG.
  destruct (setup_guess ROps no_kw _) as [g0 e0] eqn:E0. destruct e0; [discriminate|]. cbn [bind] in GG. unfold setup in GG.
  assert (MB : (String.eqb mode "auto" || String.eqb mode "ones")%bool = true) by (destruct MO as [ ->| ->]; reflexivity). rewrite MB in GG.
  destruct (setup_guess ROps kw _) as [g1 e1] eqn:E1. destruct e1; [discriminate|]. apply Ok_inj in GG. subst g1. unfold setup_guess in E1.
  destruct (String.eqb (dflt "forward" (k_direction kw)) "forward" || String.eqb (dflt "forward" (k_direction kw)) "reverse")%bool; [|discriminate].
  change (neqb ROps (dflt (nofZ ROps 1) (k_time kw)) (n0 ROps)) with (if Req_EM_T (dflt 1%R (k_time kw)) 0%R then true else false) in E1.
  destruct (Req_EM_T (dflt 1%R (k_time kw)) 0%R) as [Z|NZ]; [discriminate|]. injection E1 as <-. split.
  - constructor; cbn [g_mode g_start g_costate g_quad g_control g_time set_mode].
    + exact MO.
    + now split.
    + destruct (k_costate kw) as [[c|c|l]|]; cbn [dflt]; exact I || exact CO.
    + exact QU.
    + destruct CT as [CT|(l & EC & LC)]; [now left|right]. exists l. rewrite EC. now split.
    + change (Rabs (dflt 1%R (k_time kw)) <> 0%R). now apply Rabs_no_R0.
  - unfold tspan_end. cbn [g_direction g_time]. change (nabs ROps (dflt (nofZ ROps 1) (k_time kw))) with (Rabs (dflt 1%R (k_time kw))). destruct (String.eqb _ "reverse"); [|reflexivity]. cbn. unfold n0. cbn. ring.
Qed.
Print Assumptions C91_settings.

Lemma to_sol_begin c0 s : to_sol (begin_with c0 s) = s.
Proof. unfold to_sol, begin_with. now destruct s. Qed.
Lemma solve_parts fn p p' ms nan ivp recon fuel slv steps g k helper c0 out res :
  solve_run fn p p' ms nan ivp recon fuel slv steps g k helper c0 = Finished out res ->
  exists s, first_guess fn p p' ms nan ivp recon g k helper = Ok s /\ run_set ROps fuel slv steps (begin_with c0 s) (p_consts p') = SetDone out /\ Full_Model.post ms out = Ok res.
Proof.
  unfold solve_run. destruct (first_guess _ _ _ _ _ _ _ _ _ _) as [s|]; [|discriminate]. destruct (run_set _ _ _ _ _ _) as [o|e|] eqn:E; try discriminate.
  destruct (Full_Model.post ms o) as [r|] eqn:P; [|discriminate]. intros H. injection H as <- <-. now exists s.
Qed.

(** From the settings of the generator to what solve returns: every trajectory of
    a converged case is a sampled stationary point of the user's problem. *)
Theorem C91_solve : forall lu, lu_ok lu -> forall solve fn sm o p p1 p' fs pre post ms h nan ivp recon auto compute slv fuel steps g k helper c0 x0 T kk out res,
  user_setup lu solve fn sm o p fs pre post p1 p' ms -> p_cpars p = [] ->
  (lower (o_control o) = "differential" -> lower (o_method o) = "diffyg" -> length (p_controls p) = 1 /\ (p_states p <> [] \/ o_shift o = true)) ->
  supported solve fn o p1 -> p_ham p' = Some h -> (forall ys ts, length ys = length ts -> ts <> [] -> exists v, sm ys ts = Ok v) ->
  scaling_ok auto p' compute -> runs fn p' auto compute slv -> ivp_ok ivp -> guess_from o pre p g k x0 T kk ->
  solve_run fn p p' ms nan ivp recon fuel slv steps g k helper c0 = Finished out res ->
  Forall2 (Forall2 (fun g r => converged g -> (0 < duration g)%R -> tidy lu fn o p p1 p' h g -> optimal_samples fn p (t_const g) (duration g) r)) out res.
Proof.
  intros lu LU solve fn sm o p p1 p' fs pre post ms h nan ivp recon auto compute slv fuel steps g k helper c0 x0 T kk out res US CP GE SU HH SMT SC RU IV GF SR.
  destruct (solve_parts _ _ _ _ _ _ _ _ _ _ _ _ _ _ _ _ SR) as (s & FG & RS & PO).
  destruct (C91_first lu LU solve fn sm o p fs pre post p1 p' ms nan ivp recon g k helper x0 T kk s (prepared_user _ _ _ _ _ _ _ _ _ _ _ _ US CP GE) IV GF FG) as (SP & _).
  refine (C89_returned lu LU solve fn sm o p p1 p' fs pre post ms h auto compute slv fuel steps (begin_with c0 s) (p_consts p') out res US SU HH SMT SC RU _ RS PO). rewrite to_sol_begin. exact SP.
Qed.
Print Assumptions C91_solve.

(** With control bounds (EpsTrig) and path constraints (UTM). *)
Theorem C91_solve_bounded : forall lu, lu_ok lu -> forall solve fn sm o p p0 p1 p' fs pre post ms h nan ivp recon auto compute slv fuel steps g k helper c0 x0 T kk out res,
  bound_setup lu solve fn sm o p p0 fs pre post p1 p' ms -> p_cpars p = [] ->
  (lower (o_control o) = "differential" -> lower (o_method o) = "diffyg" -> length (p_controls p) = 1 /\ (p_states p <> [] \/ o_shift o = true)) ->
  supported solve fn o p1 -> p_ham p' = Some h -> (forall ys ts, length ys = length ts -> ts <> [] -> exists v, sm ys ts = Ok v) ->
  scaling_ok auto p' compute -> runs fn p' auto compute slv -> ivp_ok ivp -> guess_from o pre p g k x0 T kk ->
  solve_run fn p p' ms nan ivp recon fuel slv steps g k helper c0 = Finished out res ->
  Forall2 (Forall2 (fun g r => converged g -> (0 < duration g)%R -> tidy lu fn o p p1 p' h g -> bounded_samples fn p p1 (t_const g) (duration g) r)) out res.
Proof.
  intros lu LU solve fn sm o p p0 p1 p' fs pre post ms h nan ivp recon auto compute slv fuel steps g k helper c0 x0 T kk out res BS CP GE SU HH SMT SC RU IV GF SR.
  destruct (solve_parts _ _ _ _ _ _ _ _ _ _ _ _ _ _ _ _ SR) as (s & FG & RS & PO).
  destruct (C91_first lu LU solve fn sm o p fs pre post p1 p' ms nan ivp recon g k helper x0 T kk s (prepared_bound _ _ _ _ _ _ _ _ _ _ _ _ _ BS CP GE) IV GF FG) as (SP & _).
  refine (C90_returned lu LU solve fn sm o p p0 p1 p' fs pre post ms h auto compute slv fuel steps (begin_with c0 s) (p_consts p') out res BS SU HH SMT SC RU _ RS PO). rewrite to_sol_begin. exact SP.
Qed.
Print Assumptions C91_solve_bounded.

(** ** Findings *)

(** What guess_generator makes of a start alone: the costates and the controls
    get the default 0.1. *)
Definition plain_gen (mode : string) (x0 : list R) : gen (F := R) (S := sol R) :=
  mkGen mode None "forward" (Rabs 1) (Some x0) (Some []) (Some (GFloat (tenth ROps))) None (Some (GFloat (tenth ROps))) false 0.
Definition just_start (x0 : list R) : guess_kw (F := R) := mkKw (Some x0) None None None None None None None.
Lemma plain_gen_ok mode x0 : mode = "auto" \/ mode = "ones" -> guess_generator ROps mode (KwGuess (just_start x0)) = Ok (plain_gen mode x0).
Proof.
  intros M. unfold guess_generator, new_generator, setup. cbn [String.eqb Ascii.eqb Bool.eqb orb]. unfold setup_guess, just_start, no_kw.
  cbn [k_start k_direction k_time k_quad k_costate k_control k_use_control k_param dflt String.eqb Ascii.eqb Bool.eqb orb].
  change (neqb ROps (nofZ ROps 1) (n0 ROps)) with (if Req_EM_T 1%R 0%R then true else false). destruct (Req_EM_T 1%R 0%R) as [Z|NZ]; [lra|]. cbn [bind].
  destruct M as [ ->| ->]; reflexivity.
Qed.

(** With the default control guess and a control that becomes a state, the guess
    has too few columns: the number is spread over [dae_num_states] entries, which
    is never set and stays 0.  The boundary value problem has three states (x,
    its costate and u), the guess two columns. *)
Theorem C91_scalar_control_refuted : exists o p fs pre post p1 p' ms g,
  prepared lu_gauss (solve_linear lu_gauss) ex_fn scipy_simpson o p fs pre post p1 p' ms /\ guess_generator ROps "ones" (KwGuess (just_start [0]%R)) = Ok g /\
  length (p_states p') = 3 /\ forall nan ivp recon, exists s, first_guess ex_fn p p' ms nan ivp recon g [] false = Ok s /\ acols (s_y s) = Ok 2 /\ Forall (fun r => length r = 2) (arows (s_y s)).
Proof.
  exists go_diff, go_x, (go_tfs go_diff go_x), [], [FDiff "traditional"; FNorm; FSquash], go_x, go_pd, (go_ms go_diff go_x), (plain_gen "ones" [0]%R).
  split; [apply prepared_user; [exact go_dsetup|reflexivity|discriminate]|]. split; [apply plain_gen_ok; now right|]. split; [reflexivity|]. intros nan ivp recon.
  unfold first_guess, generate_sol, generate_in_solve, generate, data. cbn [plain_gen g_mode g_start g_costate g_control String.eqb Ascii.eqb Bool.eqb params bind repeat g_dae length g_quad dflt].
  unfold n0. change (nofZ ROps 0) with 0%R. rewrite four_points. cbn [bind]. unfold start_sol. cbn [d_t d_y d_dual d_q d_u d_p d_nu width length].
  eexists. split; [lazy -[Rplus Rmult Rminus Rdiv Ropp Rinv IZR linspace_elem Rabs]; reflexivity|]. split; [reflexivity|]. repeat (constructor; [reflexivity|]). constructor.
Qed.
Print Assumptions C91_scalar_control_refuted.

(** The same default with a bounded control (EpsTrig) is an IndexError. *)
Theorem C91_bounded_control_refuted : exists o p fs pre post p1 p' ms g k,
  prepared lu_gauss (solve_linear lu_gauss) ex_fn scipy_simpson o p fs pre post p1 p' ms /\ length k = length (p_consts p) /\ guess_generator ROps "ones" (KwGuess (just_start [0]%R)) = Ok g /\
  length (p_states p) = 1 /\ forall nan ivp recon, first_guess ex_fn p p' ms nan ivp recon g k false = Raise IndexError.
Proof.
  exists go_diff, bd_p, (go_tfs go_diff bd_p), [FEps], [FDiff "traditional"; FNorm; FSquash], bd_p1, bd_b, (go_ms go_diff bd_p), (plain_gen "ones" [0]%R), [3 / 5]%R.
  split; [apply (prepared_bound _ _ _ _ _ _ _ _ _ _ _ _ _ bd_setup); [reflexivity|discriminate]|]. split; [reflexivity|]. split; [apply plain_gen_ok; now right|]. split; [reflexivity|]. intros nan ivp recon.
  unfold first_guess, generate_sol, generate_in_solve, generate, data. cbn [plain_gen g_mode g_start g_costate g_control String.eqb Ascii.eqb Bool.eqb params bind repeat g_dae length g_quad dflt].
  unfold n0. change (nofZ ROps 0) with 0%R. rewrite four_points. cbn [bind]. unfold start_sol. cbn [d_t d_y d_dual d_q d_u d_p d_nu width length].
  lazy -[Rplus Rmult Rminus Rdiv Ropp Rinv IZR linspace_elem Rabs]. reflexivity.
Qed.
Print Assumptions C91_bounded_control_refuted.

(** The propagator does not look at the status of solve_ivp: when the integration
    stops half way, the guess ends at 1/2 instead of 1 and is used all the same. *)
Theorem C91_stopped_refuted : exists o p fs pre post p1 p' ms g k ivp,
  prepared lu_gauss (solve_linear lu_gauss) ex_fn scipy_simpson o p fs pre post p1 p' ms /\ settings_ok o pre p g [0]%R /\ g_mode g = "auto" /\ length k = length (p_consts p) /\
  (forall f t0 tf y0, ivp f t0 tf y0 = Ok ([t0; (t0 + tf) / 2], [y0; y0]))%R /\
  forall nan recon, exists s, first_guess ex_fn p p' ms nan ivp recon g k false = Ok s /\ s_t s = [0; 1 / 2]%R.
Proof.
  exists go_alg, go_k, (go_tfs go_alg go_k), [], [FAlg; FNorm; FSquash], go_k, go_pk, (go_ms go_alg go_k), (plain_gen "auto" [0]%R), [0]%R, (fun _ t0 tf y0 => Ok ([t0; (t0 + tf) / 2], [y0; y0]))%R.
  split; [apply (prepared_user _ _ _ _ _ _ _ _ _ _ _ _ go_ksetup); [reflexivity|discriminate]|]. split.
  { apply (C91_settings go_alg [] go_k "auto" (just_start [0]%R) (plain_gen "auto" [0]%R) [0]%R); [apply plain_gen_ok; now left|reflexivity|reflexivity|now left|exact I|reflexivity|left; split; [reflexivity|tauto]]. }
  split; [reflexivity|]. split; [reflexivity|]. split; [reflexivity|]. intros nan recon.
  eexists. split; [lazy -[Rplus Rmult Rminus Rdiv Ropp Rinv IZR Rabs]; reflexivity|]. cbn [s_t]. rewrite Rabs_R1. f_equal; [field|]. f_equal. field.
Qed.
Print Assumptions C91_stopped_refuted.

(** ** Cases that meet the hypotheses *)

(** One Euler step is an integrator that reaches the end. *)
Definition euler (f : R -> list R -> res (list R)) (t0 tf : R) (y0 : list R) : res (list R * list (list R)) :=
  d <- f t0 y0 ; Ok ([t0; tf], [y0; map2 (fun y v => y + (tf - t0) * v)%R y0 d]).
Lemma euler_ok : ivp_ok euler.
Proof.
  intros f t0 tf y0 ts rows H. unfold euler in H. destruct (f t0 y0) as [d|]; [|discriminate]. cbn [bind] in H. injection H as <- <-. repeat split. discriminate.
Qed.
(** Mode auto with one Euler step: the guess runs from 0 to 1 and begins at x = 3. *)
Example C91_ex_propagated nan recon : exists s, first_guess ex_fn go_k go_pk (go_ms go_alg go_k) nan euler recon (plain_gen "auto" [3]%R) [3]%R false = Ok s /\
  s_t s = [0; 1]%R /\ s_p s = [1]%R /\ s_k s = [3]%R /\ s_y s = Mat 2 [[3; 1 / 10]; [3 - 1 / 20; 1 / 10]]%R.
Proof.
  eexists. split; [lazy -[Rplus Rmult Rminus Rdiv Ropp Rinv IZR Rabs]; reflexivity|]. cbn [s_t s_p s_k s_y]. rewrite Rabs_R1.
  split; [f_equal; [field|f_equal; field]|]. split; [f_equal; ring|]. split; [reflexivity|].
  f_equal. f_equal; [f_equal; f_equal; field|]. f_equal. f_equal; [field|]. f_equal. field.
Qed.

(** A start and nothing else: solve returns a sampled stationary point, whichever
    integrator reaches the end. *)
Example C91_ex sb mode ivp : honest 2 sb -> finds 2 sb -> mode = "auto" \/ mode = "ones" -> ivp_ok ivp -> (forall f t0 tf y0, exists r, ivp f t0 tf y0 = Ok r) ->
  exists gen, guess_generator ROps mode (KwGuess (just_start [3]%R)) = Ok gen /\ forall nan recon, exists g r,
  solve_run ex_fn go_k go_pk (go_ms go_alg go_k) nan ivp recon 10 (go_kslv sb) None gen [3]%R false FTrue = Finished [[g]] [[r]] /\
  converged g /\ (0 < duration g)%R /\ t_const g = [3]%R /\ optimal_samples ex_fn go_k [3]%R (duration g) r.
Proof.
  intros HO FI M IV TO. exists (plain_gen mode [3]%R). split; [now apply plain_gen_ok|]. intros nan recon.
  assert (PR : prepared lu_gauss (solve_linear lu_gauss) ex_fn scipy_simpson go_alg go_k (go_tfs go_alg go_k) [] [FAlg; FNorm; FSquash] go_k go_pk (go_ms go_alg go_k)) by (apply (prepared_user _ _ _ _ _ _ _ _ _ _ _ _ go_ksetup); [reflexivity|discriminate]).
  assert (GF : guess_from go_alg [] go_k (plain_gen mode [3]%R) [3]%R [3]%R (tspan_end ROps (plain_gen mode [3]%R)) [3]%R).
  { apply from_settings; [|reflexivity]. apply (C91_settings go_alg [] go_k mode (just_start [3]%R) (plain_gen mode [3]%R) [3]%R); [now apply plain_gen_ok|reflexivity|reflexivity|exact M|exact I|reflexivity|left; split; [reflexivity|tauto]]. }
  destruct (C91_first_total lu_gauss lu_gauss_ok (solve_linear lu_gauss) ex_fn scipy_simpson go_alg go_k (go_tfs go_alg go_k) [] [FAlg; FNorm; FSquash] go_k go_pk (go_ms go_alg go_k) nan ivp recon _ _ _ _ _ PR IV GF (fun _ => TO)) as (s & FG).
  destruct (C91_first lu_gauss lu_gauss_ok (solve_linear lu_gauss) ex_fn scipy_simpson go_alg go_k (go_tfs go_alg go_k) [] [FAlg; FNorm; FSquash] go_k go_pk (go_ms go_alg go_k) nan ivp recon _ _ false _ _ _ s PR IV GF FG) as (SP & _ & KK & _). specialize (KK eq_refl).
  assert (SB : spans go_pk 0 1 (to_sol (begin_with FTrue s))) by (rewrite to_sol_begin; exact SP).
  destruct (go_kconverges sb HO FI 0 (begin_with FTrue s) SB) as (g & SV & C & D0).
  assert (RU := go_kruns sb HO). assert (SC : scaling_ok false go_pk (fun _ => mkFactors 1%R [] [] [] [] [] [])) by discriminate.
  destruct (call_sound ex_fn go_pk false _ (go_kslv sb) 0 1 0 _ g SC RU SB SV) as (_ & KG & _).
  assert (RS : run_set ROps 10 (go_kslv sb) None (begin_with FTrue s) (p_consts go_pk) = SetDone [[g]]) by (unfold run_set; rewrite SV; reflexivity).
  destruct (C89_maps_back lu_gauss lu_gauss_ok (solve_linear lu_gauss) ex_fn scipy_simpson go_alg go_k go_k go_pk (go_tfs go_alg go_k) [] [FAlg; FNorm; FSquash] (go_ms go_alg go_k) _ false _ (go_kslv sb) 10 None (begin_with FTrue s) (p_consts go_pk) [[g]]
    go_ksetup (or_introl (conj eq_refl (C67_linear_solver_sound _ lu_gauss_ok))) eq_refl simpson_total SC RU SB RS) as (res & PO).
  { constructor; [|constructor]. constructor; [|constructor]. split; [exact C|]. split; [exact D0|apply go_kdefined]. }
  assert (SR : solve_run ex_fn go_k go_pk (go_ms go_alg go_k) nan ivp recon 10 (go_kslv sb) None (plain_gen mode [3]%R) [3]%R false FTrue = Finished [[g]] res) by (unfold solve_run; rewrite FG, RS, PO; reflexivity).
  assert (RT := C91_solve lu_gauss lu_gauss_ok (solve_linear lu_gauss) ex_fn scipy_simpson go_alg go_k go_k go_pk (go_tfs go_alg go_k) [] [FAlg; FNorm; FSquash] (go_ms go_alg go_k) _ nan ivp recon false _ (go_kslv sb) 10 None _ _ false FTrue _ _ _ [[g]] res
    go_ksetup eq_refl ltac:(discriminate) (or_introl (conj eq_refl (C67_linear_solver_sound _ lu_gauss_ok))) eq_refl simpson_total SC RU IV GF SR).
  inversion RT as [|? rs ? ? F2 F3]; subst. inversion F3; subst. inversion F2 as [|? r ? ? F4 F5]; subst. inversion F5; subst.
  exists g, r. split; [exact SR|]. split; [exact C|]. split; [exact D0|]. assert (KS : t_const g = [3]%R) by (rewrite KG; exact KK). split; [exact KS|]. rewrite <- KS. apply F4; [exact C|exact D0|apply go_kdefined].
Qed.

(** A trajectory of the user with a control, for the geometric method with the
    time as a state. *)
Definition go_user : sol R := mkSol [1; 2; 4]%R [] (Mat 1 [[0]; [1]; [5]]%R) (Mat 1 [[7]; [8]; [9]]%R) E1 (Mat 1 [[2]; [3]; [4]]%R) E1 [] [] [] 0%R.
Example C91_ex_mapped : guess_of go_geo [FMomentum] go_xt go_user /\ exists s' a, map_sol ROps (go_ms go_geo go_xt) go_user = Ok (go_ms go_geo go_xt, s', a) /\ spans go_pg 0 1 (Map_Model.set_u E1 s') /\ s_p s' = [3]%R /\
  nth_error (s_t s') 1 = Some (1 / 3)%R /\ exists row, nth_error (arows (s_y s')) 1 = Some row /\ firstn 3 row = [1; 2; 3]%R /\ length row = length (p_states go_pg).
Proof.
  assert (GO : guess_of go_geo [FMomentum] go_xt go_user).
  { constructor; cbn [go_user s_t s_y s_dual s_dual_t s_q s_u s_dual_u s_p s_nu s_k hd last]; try reflexivity.
    - discriminate.
    - lra.
    - eexists. split; [reflexivity|]. split; [reflexivity|]. repeat constructor.
    - eexists. split; [reflexivity|]. split; [reflexivity|]. repeat constructor.
    - now left.
    - now left.
    - right. eexists. split; [reflexivity|]. split; [reflexivity|]. repeat constructor. }
  split; [exact GO|].
  assert (PR : prepared lu_gauss (solve_linear lu_gauss) ex_fn scipy_simpson go_geo go_xt (go_tfs go_geo go_xt) [FMomentum] [FDiff "diffyg"; FNorm; FSquash] go_shift go_pg (go_ms go_geo go_xt)) by (apply (prepared_user _ _ _ _ _ _ _ _ _ _ _ _ go_gsetup); [reflexivity|intros _ _; split; [reflexivity|left; discriminate]]).
  destruct (C91_mapped lu_gauss lu_gauss_ok (solve_linear lu_gauss) ex_fn scipy_simpson go_geo go_xt (go_tfs go_geo go_xt) [FMomentum] [FDiff "diffyg"; FNorm; FSquash] go_shift go_pg (go_ms go_geo go_xt) go_user PR GO) as (s' & a & MS & SP & EP & EK & EQ & DU & LT & LY & RO).
  exists s', a. split; [exact MS|]. split; [exact SP|]. split; [rewrite EP; cbn; f_equal; ring|]. destruct (RO 1) as (T1 & row & R1 & LR & (x & us & ds & -> & X1 & _ & U1 & _)); [cbn; lia|].
  split; [rewrite T1; cbn; f_equal; field|]. eexists. split; [exact R1|]. split; [|exact LR]. cbn in X1. injection X1 as <-. assert (U2 := U1 eq_refl ltac:(intros [Z|[]]; discriminate)). cbn in U2. injection U2 as <-. reflexivity.
Qed.

(** A bounded control with an array as control guess. *)
Definition bd_gen : gen (F := R) (S := sol R) := mkGen "ones" None "forward" (Rabs 2) (Some [0]%R) (Some []) (Some (GFloat (tenth ROps))) None (Some (GArr [1 / 2]%R)) false 0.
Example C91_ex_bounded ivp nan recon : ivp_ok ivp -> settings_ok go_diff [FEps] bd_p bd_gen [0]%R /\ exists s, first_guess ex_fn bd_p bd_b (go_ms go_diff bd_p) nan ivp recon bd_gen [3 / 5]%R false = Ok s /\
  spans bd_b 0 1 s /\ s_p s = [2]%R /\ s_k s = [3 / 5]%R.
Proof.
  intros IV. assert (SO : settings_ok go_diff [FEps] bd_p bd_gen [0]%R).
  { constructor; [now right|now split|exact I|reflexivity|right; now exists [1 / 2]%R|]. cbn. apply Rabs_no_R0. lra. }
  split; [exact SO|].
  assert (PR : prepared lu_gauss (solve_linear lu_gauss) ex_fn scipy_simpson go_diff bd_p (go_tfs go_diff bd_p) [FEps] [FDiff "traditional"; FNorm; FSquash] bd_p1 bd_b (go_ms go_diff bd_p)) by (apply (prepared_bound _ _ _ _ _ _ _ _ _ _ _ _ _ bd_setup); [reflexivity|discriminate]).
  assert (GF := from_settings go_diff [FEps] bd_p bd_gen [3 / 5]%R [0]%R SO eq_refl).
  destruct (C91_first_total lu_gauss lu_gauss_ok (solve_linear lu_gauss) ex_fn scipy_simpson go_diff bd_p (go_tfs go_diff bd_p) [FEps] [FDiff "traditional"; FNorm; FSquash] bd_p1 bd_b (go_ms go_diff bd_p) nan ivp recon _ _ _ _ _ PR IV GF ltac:(discriminate)) as (s & FG).
  destruct (C91_first lu_gauss lu_gauss_ok (solve_linear lu_gauss) ex_fn scipy_simpson go_diff bd_p (go_tfs go_diff bd_p) [FEps] [FDiff "traditional"; FNorm; FSquash] bd_p1 bd_b (go_ms go_diff bd_p) nan ivp recon _ _ false _ _ _ s PR IV GF FG) as (SP & EP & KK & _).
  exists s. split; [exact FG|]. split; [exact SP|]. split; [|exact (KK eq_refl)]. rewrite EP. f_equal. cbn. unfold Rabs. destruct (Rcase_abs 2); lra.
Qed.
