(** Where the inverse mappers leave times and states. *)
From Coq Require Import Reals Ranalysis5 Lra Lia.
From Coquelicot Require Import Coquelicot.
From Verif Require Import Base Base_Facts Cont_Model Cont_Spec Cont_Proofs Cont_Warm Cont_Live Cont_Properties.
From Verif Require Import Map_More Sym_Expr Sym_Facts Sym_Model Sym_Constr Sym_Eps Sym_Lu Sym_Dual Sym_Traj Sym_Var Sym_DiffCtl Scale_Model Jac_Model Jac_Proofs Unit_Model Unit_Spec Unit_Proofs Unit_Scale Unit_Properties.
From Verif Require Import Dual_Properties Ctl_Properties Shift_Properties Spbvp_Model Spbvp_Properties Pipe_Model Pipe_Properties.
From Verif Require Import Whole_Proofs Whole_Steps Whole_Geo Whole_Properties Chain_Model Chain_Facts Map_Model Map_Proofs Map_Chain Chain_Back Chain_Proofs Chain_Simpson Chain_Properties.
From Verif Require Import Full_Model Full_Proofs Full_Properties Bound_Proofs.
From Verif Require Import Sym_Constr Bound_Properties Start_Proofs.
Open Scope string_scope.
Open Scope list_scope.
Open Scope nat_scope.

(** Every row of [s] is the beginning of a row of [rows]. *)
Definition tops (rows : list (list R)) (ts : list R) (n : nat) (s : sol R) : Prop := s_t s = ts /\ s_y s = Mat n (map (firstn n) rows).

Lemma del_block n m : forall (r : list R) i, del_row (seq n m) i r = if n <=? i then skipn (n + m - i) r else firstn (n - i) r ++ skipn (n - i + m) r.
Proof.
  induction r as [|v r IH]; intros i; [cbn [del_row]; destruct (n <=? i); rewrite ?skipn_nil, ?firstn_nil; reflexivity|]. cbn [del_row].
  rewrite IH. clear IH. destruct (existsb (Nat.eqb i) (seq n m)) eqn:EX.
  - apply existsb_exists in EX as (j & J & EJ). apply Nat.eqb_eq in EJ. subst j. apply in_seq in J. rewrite (proj2 (Nat.leb_le n (S i))), (proj2 (Nat.leb_le n i)) by lia.
    replace (n + m - i) with (S (n + m - S i)) by lia. reflexivity.
  - assert (NI : i < n \/ n + m <= i).
    { destruct (le_lt_dec n i) as [A|A]; [right|now left]. destruct (le_lt_dec (n + m) i) as [B|B]; [exact B|]. exfalso.
      assert (existsb (Nat.eqb i) (seq n m) = true); [|congruence]. apply existsb_exists. exists i. split; [apply in_seq; lia|apply Nat.eqb_refl]. }
    destruct NI as [A|A].
    + rewrite (proj2 (Nat.leb_gt n i)) by lia. replace (n - i) with (S (n - S i)) by lia. cbn [firstn app skipn Nat.add]. f_equal.
      destruct (n <=? S i) eqn:L; [|reflexivity]. apply Nat.leb_le in L. replace (n - S i) with 0 by lia. cbn [firstn app Nat.add]. f_equal. lia.
    + rewrite (proj2 (Nat.leb_le n i)), (proj2 (Nat.leb_le n (S i))) by lia. replace (n + m - i) with 0 by lia. replace (n + m - S i) with 0 by lia. reflexivity.
Qed.
Lemma del_block_end n m (r : list R) : length r = n + m -> del_row (seq n m) 0 r = firstn n r.
Proof.
  intros L. rewrite del_block. destruct (n <=? 0) eqn:Z.
  - apply Nat.leb_le in Z. assert (n = 0) by lia. subst n. rewrite Nat.sub_0_r. cbn [firstn]. apply skipn_all2. lia.
  - rewrite Nat.sub_0_r. rewrite (skipn_all2 r) by lia. apply app_nil_r.
Qed.
Lemma first_first (rows : list (list R)) n m : n <= m -> map (firstn n) (map (firstn m) rows) = map (firstn n) rows.
Proof. intros L. rewrite map_map. apply map_ext. intros r. rewrite firstn_firstn. f_equal. lia. Qed.

Lemma del_tops rows n m : Forall (fun r => n + m <= length r) rows -> forall y, delete_cols ROps (Mat (n + m) (map (firstn (n + m)) rows)) (seq n m) = Ok y -> y = Mat n (map (firstn n) rows).
Proof.
  intros L y H. cbn [delete_cols] in H. destruct (forallb _ _); [|discriminate]. apply Ok_inj in H. subst y.
  rewrite del_block_end by apply repeat_length. rewrite firstn_length, repeat_length. rewrite Nat.min_l by lia. f_equal.
  rewrite map_map. apply map_ext_in. intros r I. rewrite Forall_forall in L. specialize (L r I). rewrite del_block_end by (rewrite firstn_length; lia). rewrite firstn_firstn. f_equal. lia.
Qed.

Lemma sq_inv_top rows ts n b c d (s s' : sol R) : Forall (fun r => length r = b) rows -> n <= b -> s_t s = ts -> s_y s = Mat b rows ->
  sq_inv n b c d s = Ok s' -> tops rows ts n s' /\ s_p s' = s_p s.
Proof.
  intros L LE ET EY H. unfold sq_inv in H. rewrite EY in H. cbn [select_slice bind] in H.
  cbn [s_y Map_Model.set_dual] in H. rewrite EY in H. cbn [delete_slice bind] in H. apply Ok_inj in H. subst s'.
  unfold tops, Map_Model.set_nu, Map_Model.set_y, Map_Model.set_dual. cbn [s_t s_y s_p]. split; [|reflexivity]. split; [exact ET|]. f_equal; [lia|].
  apply map_ext_in. intros r I. rewrite Forall_forall in L. specialize (L r I). unfold unslice. destruct (b <=? n) eqn:Z; [apply Nat.leb_le in Z; symmetry; apply firstn_all2; lia|].
  rewrite (skipn_all2 r) by lia. apply app_nil_r.
Qed.
Lemma nt_inv_top rows ts n D (s s' : sol R) i : tops rows ts n s -> s_p s = [D] -> nt_inv ROps (Some 0) s = Ok (i, s') -> tops rows (map (fun t => t * D)%R ts) n s' /\ s_p s' = [].
Proof. intros [ET EY] EP H. rewrite (nt_back D s EP) in H. injection H as <- <-. unfold tops. destruct s. cbn in *. subst. repeat split; reflexivity. Qed.
Lemma trig_top rows ts n f ci (s s' : sol R) : tops rows ts n s -> trig_apply f ci s = Ok s' -> tops rows ts n s'.
Proof.
  intros TP H. unfold trig_apply in H. destruct (combine _ _); [apply Ok_inj in H; now subst|]. destruct (s_u s); [discriminate|].
  destruct (trig_loop _ _ _ _ _ _); [|discriminate]. cbn [bind] in H. apply Ok_inj in H. subst s'. unfold tops in *. now destruct s.
Qed.
Lemma ms_inv_top rows ts n (s s' : sol R) i : Forall (fun r => n + 1 <= length r) rows -> tops rows ts (n + 1) s -> ms_inv ROps (Some n) s = Ok (i, s') ->
  tops rows (map (fun r => nth n r 0%R) rows) n s'.
Proof.
  intros L [ET EY] H. unfold ms_inv in H. rewrite EY in H. cbn [bind] in H. destruct (column _ n) as [tc|] eqn:EC; [|discriminate]. cbn [bind] in H.
  cbn [s_y Map_Model.set_t] in H. rewrite EY in H. destruct (delete_cols ROps _ [n]) as [y|] eqn:ED; [|discriminate]. cbn [bind] in H. apply (del_tops rows n 1 L) in ED. subst y.
  destruct (column (s_dual _) n); [|discriminate]. cbn [bind] in H. destruct (delete_cols ROps (s_dual _) [n]); [|discriminate]. cbn [bind] in H. injection H as <- <-.
  unfold tops. cbn [s_t s_y Map_Model.set_dual Map_Model.set_dual_t Map_Model.set_y Map_Model.set_t]. split; [|reflexivity].
  cbn [column] in EC. rewrite (proj2 (Nat.ltb_lt n (n + 1))) in EC by lia.
  assert (Q : mapM (fun r => get r n) (map (firstn (n + 1)) rows) = Ok (map (fun r => nth n r 0%R) rows)).
  { clear - L. induction L as [|r rows LR L IH]; [reflexivity|]. cbn [map mapM]. unfold get at 1. rewrite (nth_error_nth' _ 0%R) by (rewrite firstn_length; lia). cbn [bind]. rewrite IH. cbn [bind]. f_equal. f_equal.
    rewrite <- (firstn_skipn (n + 1) r) at 2. rewrite app_nth1; [reflexivity|rewrite firstn_length; lia]. }
  rewrite Q in EC. now injection EC as <-.
Qed.
Lemma control_top fn o pD p2 rows ts (s s' : sol R) m : Forall (fun r => length (p_states p2) <= length r) rows ->
  length (p_states p2) = length (p_states pD) + (if differential o then length (p_controls pD) else 0) ->
  tops rows ts (length (p_states p2)) s -> apply_inv ROps (control_mapper fn o pD p2) s = Ok (m, s') -> tops rows ts (length (p_states pD)) s'.
Proof.
  intros L LP TP H. unfold control_mapper in H. unfold differential in LP. destruct (String.eqb (lower (o_control o)) "algebraic"); cbn [negb] in LP.
  - rewrite Nat.add_0_r in LP. rewrite LP in TP. cbn [apply_inv] in H. unfold with_mapper, alg_inv in H. destruct (alg_loop _ _ _ _ _ _ _ _); [|discriminate]. cbn [bind] in H. injection H as <- <-. unfold tops in *. now destruct s.
  - rewrite LP in TP, L. destruct TP as [ET EY]. destruct (String.eqb (lower (o_method o)) "traditional"); cbn [apply_inv] in H; unfold with_mapper, dc_inv, dg_inv in H;
      rewrite EY in H; destruct (select_cols _ _); [|discriminate| |discriminate]; cbn [bind] in H; cbn [s_y Map_Model.set_u] in H; rewrite EY in H;
      destruct (delete_cols ROps (Mat _ _) _) as [y|] eqn:ED; [|discriminate| |discriminate]; cbn [bind] in H; apply (del_tops rows _ _ L) in ED; subst y.
    + injection H as <- <-. unfold tops. now destruct s.
    + destruct (delete_cols ROps (s_dual _) _); [|discriminate]. cbn [bind] in H. injection H as <- <-. unfold tops. now destruct s.
Qed.

(** A pass through the chain, one mapper at a time. *)
Lemma run_inv_one m l (ps : pass R) l' ps' : run_pass (apply_inv ROps) (m :: l) ps = Ok (l', ps') ->
  exists m' s ps1 l1, apply_inv ROps m (cur ps) = Ok (m', s) /\ cur ps1 = s /\ run_pass (apply_inv ROps) l ps1 = Ok (l1, ps').
Proof.
  cbn [run_pass]. unfold step_pass. destruct (apply_inv ROps m (cur ps)) as [[m' s]|] eqn:E; [|discriminate]. cbn [bind fst snd]. intros H.
  match type of H with context [run_pass _ l ?q] => set (ps1 := q) in *; destruct (run_pass (apply_inv ROps) l ps1) as [[l1 ps2]|] eqn:E2; [|discriminate] end. cbn [bind fst snd] in H. injection H as _ <-.
  exists m', s, ps1, l1. split; [reflexivity|]. split; [reflexivity|exact E2].
Qed.
Definition bland (m : mapper R) : Prop := m = MIdentity \/ exists ci f g, m = MEpsTrig ci f g.
Lemma bland_top rows ts n l : Forall bland l -> forall ps l' ps' rest, tops rows ts n (cur ps) -> run_pass (apply_inv ROps) (l ++ rest) ps = Ok (l', ps') ->
  exists ps1 l1, tops rows ts n (cur ps1) /\ run_pass (apply_inv ROps) rest ps1 = Ok (l1, ps').
Proof.
  induction 1 as [|m l B _ IH]; intros ps l' ps' rest TP H; [now exists ps, l'|]. cbn [app] in H. apply run_inv_one in H as (m' & s & ps1 & l1 & E & EC & H).
  apply (IH ps1 l1 ps' rest); [|exact H]. rewrite EC. destruct B as [ ->|(ci & f & g & ->)]; cbn [apply_inv] in E.
  - injection E as <- <-. exact TP.
  - unfold with_mapper in E. destruct (trig_apply g ci (cur ps)) as [s1|] eqn:ET; [|discriminate]. cbn [bind] in E. injection E as <- <-. exact (trig_top _ _ _ _ _ _ _ TP ET).
Qed.
Lemma stage_bland lu solve fn sm fs : Forall (fun f => f = FEps \/ f = FUtm) fs -> forall p q ms, run_chain fn sm lu solve fs p = Ok (q, ms) -> Forall bland ms.
Proof.
  induction 1 as [|f fs IS _ IH]; intros p q ms RC.
  - cbn in RC. injection RC as <- <-. constructor.
  - cbn [run_chain] in RC. destruct (apply_tf lu solve f p) as [p1|] eqn:AT; [|discriminate]. cbn [bind] in RC. destruct (run_chain fn sm lu solve fs p1) as [[q' m2]|] eqn:RS; [|discriminate]. cbn [bind fst snd] in RC. apply Ok_inj in RC. injection RC as <- <-.
    apply Forall_app. split; [|exact (IH p1 q' m2 RS)]. destruct IS as [ ->| ->]; cbn [apply_tf] in AT.
    + destruct (eps_full p p1 AT) as (d & u & lo & up & act & l1 & l2 & u1 & u2 & ET). destruct (eps_kept _ _ _ _ _ _ _ _ _ _ _ ET) as (E1 & E2 & E3 & E4 & E5).
      rewrite E5, skipn_len. cbn [map build]. constructor; [right; eexists _, _, _; reflexivity|constructor].
    + destruct (utm_full p p1 AT) as (d & a & lo & up & l1 & l2 & UT & _). destruct (utm_kept _ _ _ _ _ _ _ _ UT) as (E1 & E2 & E3 & E4).
      rewrite E4, skipn_len. cbn [map build]. constructor; [now left|constructor].
Qed.

Section Back.
  Variables (lu : list (list expr) -> list expr -> res (list expr)) (LU : lu_ok lu) (solve : list expr -> list string -> list (list expr)) (fn : string -> nat -> R -> R) (sm : list R -> list R -> res R).
  Variables (o : options) (p p1 p' : prob) (fs pre post : list tf) (ms : list (mapper R)).
  Hypothesis MK : make_indirect o p = Ok fs.
  Hypothesis EF : fs = pre ++ FDual (o_method o) :: post.
  Hypothesis R1 : run_tfs lu solve pre p = Ok p1.
  Hypothesis RC : run_chain fn sm lu solve fs p = Ok (p', ms).
  Hypothesis ON : o_norm o = true.
  Hypothesis MT : lower (o_method o) = "traditional" \/ lower (o_method o) = "diffyg".
  Hypothesis NSW : p_switches p = [].
  Hypothesis FR : p_costates p = [] /\ p_coparams p = [] /\ p_params p = [] /\ p_quads p = [].
  Hypothesis GEO : geometric o = true -> length (p_controls p) = 1 /\ (p_states p <> [] \/ o_shift o = true).

  (** The states of the user's trajectory are the first entries of every row; its
      times come from the state that the momentum shift made of time, or are those
      of the row times the duration. *)
  Lemma inverse_tops (s r : sol R) ms' a D rows : s_y s = Mat (length (p_states p')) rows -> Forall (fun r => length r = length (p_states p')) rows -> s_p s = [D] ->
    inv_map_sol ROps ms s = Ok (ms', r, a) ->
    p_consts p' = p_consts p /\ length (p_states p) + (if o_shift o then 1 else 0) <= length (p_states p') /\
    (exists rest, syms (p_states p') = syms (p_states p) ++ (if o_shift o then [p_ind p] else []) ++ rest) /\
    tops rows (if o_shift o then map (fun r => nth (length (p_states p)) r 0%R) rows else map (fun t => t * D)%R (s_t s)) (length (p_states p)) r.
  Proof.
    intros EY LY EP H.
    destruct (bound_pre o p fs pre post MK EF NSW) as (st & EC & EPR). destruct (constraint_tfs_spec _ _ EC) as (IS & _).
    destruct (run_chain_total fn sm lu solve pre p p1 R1) as (mp & RCP). assert (RC' := RCP). rewrite EPR in RC'. apply run_chain_app in RC' as (p0 & m0 & m1 & RA & RB & EM0).
    assert (BL := stage_bland lu solve fn sm st IS p0 p1 m1 RB).
    destruct (stage_fwd (A := nat) lu solve fn sm st IS p0 p1 m1 RB) as (J1 & J2 & J3 & _). destruct (stage_undo lu solve fn sm st IS p0 p1 m1 RB) as (back & UN).
    destruct (un_frame _ _ _ _ _ UN) as (_ & U2 & U3 & U4 & U5 & U6 & U7).
    assert (LSS : length (p_states p1) = length (p_states p0)) by (rewrite <- (map_length fst (p_states p1)), <- (map_length fst (p_states p0)); exact (f_equal (@length string) U2)).
    assert (K : p_controls p0 = p_controls p /\ p_consts p0 = p_consts p /\ p_costates p0 = [] /\ p_coparams p0 = [] /\ p_params p0 = [] /\ p_quads p0 = [] /\
      length (p_states p0) = length (p_states p) + (if o_shift o then 1 else 0) /\ syms (p_states p0) = syms (p_states p) ++ (if o_shift o then [p_ind p] else []) /\ m0 = if o_shift o then [MMomentumShift (Some (length (p_states p)))] else []).
    { destruct FR as (F1 & F2 & F3 & F4). destruct (o_shift o).
      - cbn [run_chain apply_tf] in RA. destruct (momentum_shift None p) as [q|] eqn:HM; [|discriminate]. cbn [bind fst snd] in RA. rewrite (momentum_maps p q HM), skipn_len in RA. cbn in RA. injection RA as <- <-.
        destruct (momentum_ok None p q HM) as (A1 & A2 & A3 & A4 & A5 & A6 & A7 & A8 & A9 & A10 & A11 & A12 & A13). assert (A14 := momentum_consts p q HM).
        repeat (split; [congruence|]). split; [rewrite A1, app_length; reflexivity|]. split; [rewrite A1; apply map_app|reflexivity].
      - cbn in RA. injection RA as <- <-. repeat (split; [assumption || reflexivity || lia|]). split; [now rewrite app_nil_r|reflexivity]. }
    destruct K as (K1 & K3 & K4 & K5 & K6 & K7 & K8 & KS & K9).
    destruct (chain_tail fn sm lu solve o p fs pre post p1 p' ms MK EF R1 RC ON MT) as (pD & p2 & p3 & n1 & na & b0 & lo & hi & HD & HC & HN & HS & CC & RP & EM & EB).
    rewrite RCP in RP. injection RP as <-.
    destruct (norm_squash p2 p3 p' HN HS) as (S1 & S2 & S3 & S4 & S5 & S6 & S7 & S8 & S9 & S10).
    destruct (control_rest lu solve o pD p2 HC) as (T1 & T2 & T3 & T4 & T5 & T6 & T7).
    assert (F1 : p_costates p1 = []) by (apply U5; exact K4). assert (F2 : p_coparams p1 = []) by (apply U6; exact K5).
    assert (DO := dual_of_exists lu LU _ p1 pD HD MT F1 F2).
    assert (P2 : p_params p2 = []) by (rewrite T1, (d_params _ _ _ DO), U4; exact K6).
    assert (SD := d_states _ _ _ DO). assert (UD := d_controls _ _ _ DO). assert (LD := d_lams _ _ _ DO).
    assert (LP : length (p_states p') = length (p_states p2) + length (p_costates p2)) by (rewrite S1; unfold slow; now rewrite map_length, app_length).
    assert (SH : length (p_states p2) = length (p_states pD) + (if differential o then length (p_controls pD) else 0) /\ exists rest, syms (p_states p2) = syms (p_states pD) ++ rest).
    { unfold differential. unfold control_tf in HC. destruct (String.eqb (lower (o_control o)) "algebraic") eqn:EA; cbn [negb andb apply_tf] in *.
      - unfold algebraic_control in HC. rewrite (d_dual _ _ _ DO), (d_ham _ _ _ DO) in HC. apply Ok_inj in HC. subst p2. clear. split; [destruct pD; cbn; lia|]. exists []. rewrite app_nil_r. destruct pD; reflexivity.
      - destruct MT as [M|M].
        + destruct (diffctl_traditional lu _ pD p2 HC M) as (h' & udot & H1 & H2 & H3 & H4 & H5 & _).
          destruct (udot_values lu LU h' (p_controls pD) (p_states pD ++ p_costates pD) udot H2) as [LUD _].
          split; [rewrite H3, app_length, combine_length, LUD; lia|]. rewrite H3. unfold syms at 1. rewrite map_app. eexists; reflexivity.
        + destruct (diffctl_diffyg lu _ pD p2 HC M) as (h' & udot & chi & H1 & H2 & H3 & H5 & _).
          destruct (udot_values lu LU h' (p_controls pD) (p_states pD ++ p_costates pD) udot H2) as [LUD _]. specialize (H3 LUD). cbv zeta in H3. destruct H3 as (HF & H3 & H4).
          rewrite SD, UD, LD in *. set (X := syms (p_states p1)) in *. set (UU := p_controls p1) in *.
          assert (LX : length X = length (p_states p1)) by (unfold X, syms; apply map_length).
          assert (LC : length chi = 2 * (length (p_states p1) + length UU)).
          { assert (P0 : 0 < length (p_states p1)).
            { destruct (GEO ltac:(unfold geometric, differential; rewrite EA, M; reflexivity)) as [_ NS]. rewrite LSS, K8. destruct NS as [NS|NS]; [destruct (p_states p); [contradiction|cbn; lia]|rewrite NS; lia]. }
            assert (LQ : length (X ++ UU) = length (p_states p1) + length UU) by (rewrite app_length, LX; reflexivity).
            rewrite <- LQ in HF. destruct (ham_field_extended lu LU h' (X ++ UU) (map lam X ++ map lam UU) (length UU) (length (p_states p1) - 1) udot chi) as [L _].
            - rewrite !app_length, !map_length. reflexivity.
            - lia.
            - exact LUD.
            - exact HF.
            - rewrite L. lia. }
          split; [rewrite H3, combine_length, firstn_length, app_length, LC, LX; lia|]. exists UU. rewrite H3. unfold syms. rewrite (map_fst_combine (A:=string)); [reflexivity|]. rewrite firstn_length, app_length, LC, LX. lia. }
    destruct SH as [SH [rest2 SN]].
    split; [rewrite CC, U3; exact K3|]. assert (NS : length (p_states pD) = length (p_states p) + (if o_shift o then 1 else 0)) by (rewrite SD, LSS; exact K8).
    split; [lia|]. split; [exists (rest2 ++ syms (p_costates p2)); rewrite S1, syms_slow; unfold syms at 1; rewrite map_app; fold (syms (p_states p2)) (syms (p_costates p2)); rewrite SN, SD, U2, KS, <- !app_assoc; reflexivity|]. unfold inv_map_sol in H. rewrite EM, EM0, K9, P2, !rev_app_distr in H. cbn [rev app length] in H. 
    match type of H with bind ?q _ = _ => destruct q as [[l' ps']|] eqn:RU; [|discriminate] end. cbn [bind fst snd] in H. injection H as _ <- _.
    (* SquashToBVP, time, controls, costates *)
    apply run_inv_one in RU as (w1 & s1 & ps1 & l1 & E1 & C1 & RU). cbn [cur apply_inv] in E1. unfold with_mapper in E1. destruct (sq_inv _ _ _ _ s) as [s1'|] eqn:Q1; [|discriminate]. cbn [bind] in E1. injection E1 as _ <-.
    rewrite EB, <- LP in Q1. apply (sq_inv_top rows (s_t s)) in Q1; [|exact LY|lia|reflexivity|exact EY]. destruct Q1 as [TP1 PP1].
    apply run_inv_one in RU as (w2 & s2 & ps2 & l2 & E2 & C2 & RU). rewrite C1 in E2. cbn [apply_inv] in E2. destruct (nt_inv ROps (Some 0) s1') as [[i2 s2']|] eqn:Q2; [|discriminate]. cbn [bind fst snd] in E2. injection E2 as _ <-.
    apply (nt_inv_top rows (s_t s) (length (p_states p2)) D) in Q2; [|exact TP1|congruence]. destruct Q2 as [TP2 _].
    apply run_inv_one in RU as (w3 & s3 & ps3 & l3 & E3 & C3 & RU). rewrite C2 in E3. apply (control_top fn o pD p2 rows (map (fun t => t * D)%R (s_t s))) in E3; [|rewrite Forall_forall in *; intros r0 I0; specialize (LY r0 I0); lia|exact SH|exact TP2].
    apply run_inv_one in RU as (w4 & s4 & ps4 & l4 & E4 & C4 & RU). rewrite C3 in E4. cbn [apply_inv] in E4. unfold with_mapper, dual_inv in E4. destruct (compute_cost _ _ _ _ _ _ _ _ _) as [cc|]; [|discriminate]. cbn [bind] in E4. injection E4 as _ <-.
    assert (TP4 : tops rows (map (fun t => t * D)%R (s_t s)) (length (p_states pD)) (cur ps4)) by (rewrite C4; clear - E3; destruct s3; exact E3).
    rewrite NS in TP4. assert (BL' : Forall bland (rev m1)) by (rewrite Forall_forall in *; intros m I; apply BL; now apply in_rev).
    destruct (bland_top rows (map (fun t => t * D)%R (s_t s)) (length (p_states p) + (if o_shift o then 1 else 0)) (rev m1) BL' ps4 l4 ps' _ TP4 RU) as (ps5 & l5 & TP5 & RU5).
    destruct (o_shift o).
    - cbn [rev app] in RU5. apply run_inv_one in RU5 as (w6 & s6 & ps6 & l6 & E6 & C6 & RU6). cbn [run_pass] in RU6. injection RU6 as _ <-. rewrite C6.
      cbn [apply_inv] in E6. destruct (ms_inv ROps _ (cur ps5)) as [[i6 s6']|] eqn:Q6; [|discriminate]. cbn [bind fst snd] in E6. injection E6 as _ <-.
      refine (ms_inv_top rows (map (fun t => t * D)%R (s_t s)) (length (p_states p)) (cur ps5) s6' i6 _ TP5 Q6). rewrite Forall_forall in *. intros r0 I0. specialize (LY r0 I0). lia.
    - cbn [rev app run_pass] in RU5. injection RU5 as _ <-. rewrite Nat.add_0_r in TP5. exact TP5.
  Qed.
End Back.
