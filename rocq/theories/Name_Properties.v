(** C55: names of the derivatives of user functions. *)
From Coq Require Import Ascii Decimal DecimalString DecimalNat.
From Verif Require Import Base Base_Facts Name_Model.
Open Scope string_scope.

(** ** Statement vocabulary *)
Notation chars := list_ascii_of_string.
Definition digits : list ascii := chars "0123456789".
Definition letters : list ascii := chars "abcdefghijklmnopqrstuvwxyzABCDEFGHIJKLMNOPQRSTUVWXYZ_".
(** No underscore, no digit, no letter d. *)
Definition plain (s : string) : Prop := forall c, In c (chars s) -> ~ In c ("d"%char :: "_"%char :: digits).
Definition no_underscore (s : string) : Prop := ~ In "_"%char (chars s).
(** A Python identifier (ASCII). *)
Definition identifier (s : string) : Prop :=
  match chars s with [] => False | c :: l => In c letters /\ Forall (fun c => In c letters \/ In c digits) l end.
(** No argument occurs at two different positions. *)
Definition fixed_positions (args args' : list string) : Prop :=
  forall i j s, nth_error args i = Some s -> nth_error args' j = Some s -> i = j.
(** [o] counts how often each position occurs in the path. *)
Definition counts (arity : nat) (path o : list nat) : Prop :=
  length o = arity /\ forall j, (j < arity)%nat -> nth j o 0%nat = count_occ Nat.eq_dec path (S j).

(** ** Characters *)
Lemma chars_app a b : chars (a ++ b) = (chars a ++ chars b)%list.
Proof. induction a as [|c a IH]; [reflexivity|]. cbn. now rewrite IH. Qed.
Lemma chars_inj a b : chars a = chars b -> a = b.
Proof. intro H. rewrite <- (string_of_list_ascii_of_string a), <- (string_of_list_ascii_of_string b). now f_equal. Qed.
Lemma str_digits n c : In c (chars (str_nat n)) -> In c digits.
Proof.
  unfold str_nat. generalize (Nat.to_uint n). induction u; simpl; intros H; [contradiction|..]; (destruct H as [<-|H]; [simpl; tauto | now apply IHu]).
Qed.
Lemma str_inj n m : str_nat n = str_nat m -> n = m.
Proof.
  unfold str_nat. intro H. apply DecimalNat.Unsigned.to_uint_inj.
  assert (E : Some (Nat.to_uint n) = Some (Nat.to_uint m)) by (rewrite <- !NilEmpty.usu; now rewrite H). now injection E.
Qed.
Lemma str_nonempty n : chars (str_nat n) <> [].
Proof.
  unfold str_nat. intro H. assert (E : Nat.to_uint n = Nil) by (destruct (Nat.to_uint n); [reflexivity|..]; discriminate H).
  pose proof (DecimalNat.Unsigned.of_to n) as T. rewrite E in T. cbn in T. subst n. discriminate E.
Qed.

(** Splitting at the end of the longest prefix of characters in a class. *)
Section Span.
  Variable P : ascii -> Prop.
  Definition starts_outside (l : list ascii) : Prop := match l with [] => True | c :: _ => ~ P c end.
  Lemma span_unique a b r r' : Forall P a -> Forall P b -> starts_outside r -> starts_outside r' ->
    (a ++ r)%list = (b ++ r')%list -> a = b /\ r = r'.
  Proof.
    revert b. induction a as [|c a IH]; intros [|c' b] Ha Hb Hr Hr' E; cbn in E.
    - now split.
    - subst r. inversion Hb; subst. contradiction.
    - subst r'. inversion Ha; subst. contradiction.
    - injection E as <- E. inversion Ha; inversion Hb; subst. destruct (IH b) as [-> ->]; auto.
  Qed.
End Span.
Lemma split_last c (a b s t : list ascii) : ~ In c s -> ~ In c t -> (a ++ c :: s)%list = (b ++ c :: t)%list -> s = t.
Proof.
  intros Hs Ht. revert b. induction a as [|x a IH]; intros [|y b] E; cbn in E.
  - now injection E.
  - injection E as -> E. exfalso. apply Hs. rewrite E. apply in_or_app. right. now left.
  - injection E as <- E. exfalso. apply Ht. rewrite <- E. apply in_or_app. right. now left.
  - injection E as -> E. eauto.
Qed.

(** ** The suffix determines the orders *)
Definition digit_part (k : nat) : list ascii := match k with 0%nat | 1%nat => [] | _ => chars (str_nat k) end.
Lemma digit_part_digits k : Forall (fun c => In c digits) (digit_part k).
Proof. destruct k as [|[|k]]; cbn [digit_part]; [constructor | constructor | apply Forall_forall; intros c; apply str_digits]. Qed.
Lemma digit_part_inj k k' : digit_part (S k) = digit_part (S k') -> k = k'.
Proof.
  destruct k as [|k], k' as [|k']; cbn [digit_part]; intro H; [reflexivity | | |].
  - symmetry in H. now apply str_nonempty in H.
  - now apply str_nonempty in H.
  - apply chars_inj, str_inj in H. now injection H as ->.
Qed.
Lemma post_cons a args k order :
  chars (post_of (a :: args) (k :: order)) =
    match k with 0%nat => chars (post_of args order) | _ => "d"%char :: (chars a ++ (digit_part k ++ chars (post_of args order)))%list end.
Proof.
  destruct k as [|[|k]]; [reflexivity | |]; cbn [post_of digit_part]; rewrite ?chars_app; cbn [chars app]; rewrite ?chars_app; reflexivity.
Qed.
Lemma post_shape args order : chars (post_of args order) = [] \/ exists l, chars (post_of args order) = "d"%char :: l.
Proof.
  revert order. induction args as [|a args IH]; intros [|k order]; try (now left). rewrite post_cons.
  destruct k as [|k]; [apply IH | right; eexists; reflexivity].
Qed.
Lemma d_not_digit : ~ In "d"%char digits.
Proof. cbn. intuition discriminate. Qed.
Lemma plain_span s : plain s -> Forall (fun c => ~ In c ("d"%char :: digits)) (chars s).
Proof. intro H. apply Forall_forall. intros c Hc [E|Hd]; apply (H c Hc); [now left | right; now right]. Qed.
(** A non-zero block is a prefix that can be read back. *)
Lemma read_block args order : Forall plain args -> length args = length order -> forall l, chars (post_of args order) = "d"%char :: l ->
  exists j a k, nth_error args j = Some a /\ nth_error order j = Some (S k) /\ exists r, l = (chars a ++ (digit_part (S k) ++ r))%list /\
    (forall c, In c (match (digit_part (S k) ++ r)%list with [] => [] | c :: _ => [c] end) -> In c ("d"%char :: digits)).
Proof.
  revert order. induction args as [|a args IH]; intros [|k order] Hp L l E; try discriminate. rewrite post_cons in E. destruct k as [|k].
  - inversion Hp; subst. destruct (IH order H2 ltac:(now injection L) l E) as (j & b & k & H3 & H4 & H5). exists (S j), b, k. now split.
  - injection E as <-. exists 0%nat, a, k. split; [reflexivity|]. split; [reflexivity|]. eexists. split; [reflexivity|].
    intros c Hc. pose proof (digit_part_digits (S k)) as Hd. destruct (digit_part (S k)) as [|c' dg].
    + cbn [app] in Hc. destruct (post_shape args order) as [Ep | [l' Ep]]; rewrite Ep in Hc; [contradiction|]. destruct Hc as [<-|[]]. now left.
    + cbn [app] in Hc. destruct Hc as [<-|[]]. inversion Hd; subst. now right.
Qed.
Lemma post_inj : forall args args' o o', Forall plain args -> Forall plain args' -> length args = length o -> length args' = length o' ->
  length o = length o' -> fixed_positions args args' -> post_of args o = post_of args' o' -> o = o'.
Proof.
  induction args as [|a args IH]; intros [|a' args'] [|k o] [|k' o'] Hp Hp' L L' Lo Fx E; try discriminate; [reflexivity|].
  inversion Hp as [|? ? Pa Pargs]; inversion Hp' as [|? ? Pa' Pargs']; subst.
  assert (Fx' : fixed_positions args args') by (intros i j s Hi Hj; specialize (Fx (S i) (S j) s Hi Hj); now injection Fx).
  assert (Lo' : length o = length o') by now injection Lo. assert (La : length args = length o) by now injection L. assert (La' : length args' = length o') by now injection L'.
  pose proof (f_equal chars E) as C. rewrite !post_cons in C.
  assert (NSx : forall x y r r', plain x -> plain y ->
      (forall c, In c (match r with [] => [] | c :: _ => [c] end) -> In c ("d"%char :: digits)) ->
      (forall c, In c (match r' with [] => [] | c :: _ => [c] end) -> In c ("d"%char :: digits)) ->
      (chars x ++ r = chars y ++ r')%list -> x = y /\ r = r').
  { intros x y r r' Px Py Hr Hr' Q.
    destruct (span_unique (fun c => ~ In c ("d"%char :: digits)) (chars x) (chars y) r r') as [Q1 Q2]; auto using plain_span.
    - destruct r as [|c r]; [exact I|]. intro N. apply N, Hr. left. reflexivity.
    - destruct r' as [|c r']; [exact I|]. intro N. apply N, Hr'. left. reflexivity.
    - split; [now apply chars_inj | exact Q2]. }
  assert (Hd : forall kk ar or, forall c, In c (match (digit_part (S kk) ++ chars (post_of ar or))%list with [] => [] | c :: _ => [c] end) -> In c ("d"%char :: digits)).
  { intros kk ar or c Hc. pose proof (digit_part_digits (S kk)) as Hd. destruct (digit_part (S kk)) as [|c' dg].
    - cbn [app] in Hc. destruct (post_shape ar or) as [Ep | [l' Ep]]; rewrite Ep in Hc; [contradiction|]. destruct Hc as [<-|[]]. now left.
    - cbn [app] in Hc. destruct Hc as [<-|[]]. inversion Hd; subst. now right. }
  destruct k as [|k], k' as [|k'].
  - f_equal. apply (IH args'); auto.
  - exfalso. destruct (read_block args o Pargs La _ C) as (j & b & kk & Hb & _ & r & Er & Hr).
    destruct (NSx a' b _ _ Pa' ltac:(rewrite Forall_forall in Pargs; eapply Pargs, nth_error_In, Hb) (Hd k' args' o') Hr Er) as [-> _].
    specialize (Fx (S j) 0%nat b Hb eq_refl). discriminate.
  - exfalso. symmetry in C. destruct (read_block args' o' Pargs' La' _ C) as (j & b & kk & Hb & _ & r & Er & Hr).
    destruct (NSx a b _ _ Pa ltac:(rewrite Forall_forall in Pargs'; eapply Pargs', nth_error_In, Hb) (Hd k args o) Hr Er) as [-> _].
    specialize (Fx 0%nat (S j) b eq_refl Hb). discriminate.
  - injection C as C. destruct (NSx a a' _ _ Pa Pa' (Hd k args o) (Hd k' args' o') C) as [-> C2].
    destruct (span_unique (fun c => In c digits) (digit_part (S k)) (digit_part (S k')) (chars (post_of args o)) (chars (post_of args' o'))) as [D1 D2];
      auto using digit_part_digits.
    + destruct (post_shape args o) as [-> | [l ->]]; [exact I | exact d_not_digit].
    + destruct (post_shape args' o') as [-> | [l ->]]; [exact I | exact d_not_digit].
    + apply digit_part_inj in D1 as ->. f_equal. apply (IH args'); auto. now apply chars_inj.
Qed.
Lemma post_no_underscore args o : Forall plain args -> ~ In "_"%char (chars (post_of args o)).
Proof.
  revert o. induction args as [|a args IH]; intros [|k o] Hp; try (cbn; tauto). inversion Hp as [|? ? Pa Pargs]; subst.
  rewrite post_cons. destruct k as [|k]; [now apply IH|]. intros [E|H]; [discriminate|].
  apply in_app_or in H as [H|H]; [apply (Pa _ H); right; now left|]. apply in_app_or in H as [H|H]; [|now apply IH in H].
  pose proof (digit_part_digits (S k)) as Hd. rewrite Forall_forall in Hd. apply Hd in H. cbn in H. intuition discriminate.
Qed.

(** ** Histories *)
Notation total o := (fold_right Nat.add 0%nat o).
Lemma construct_zero f args o : total o = 0%nat -> construct_name f args o = f.
Proof. unfold construct_name. intros ->. reflexivity. Qed.
Lemma construct_pos f args o : total o <> 0%nat -> exists x, construct_name f args o = "d" ++ x ++ f ++ "_" ++ post_of args o /\ (forall c, In c (chars x) -> In c digits).
Proof.
  unfold construct_name. intro H. destruct (total o) as [|[|t]]; [contradiction | |].
  - exists "". split; [reflexivity | intros c []].
  - exists (str_nat (S (S t))). split; [reflexivity | intros c; apply str_digits].
Qed.
Lemma nth_skipn_lem (o : list nat) i j d : nth j (skipn i o) d = nth (i + j) o d.
Proof. revert o. induction i as [|i IH]; intros [|x o]; try reflexivity; [now destruct j | apply IH]. Qed.
Lemma bump_spec i o : (1 <= i <= length o)%nat ->
  length (bump i o) = length o /\ forall j, nth j (bump i o) 0%nat = (nth j o 0 + if Nat.eqb (S j) i then 1 else 0)%nat.
Proof.
  intros H. destruct i as [|i]; [lia|]. unfold bump. replace (S i - 1)%nat with i by lia.
  assert (Li : length (firstn i o) = i) by (rewrite firstn_length; lia).
  split.
  - rewrite app_length. cbn [length]. rewrite firstn_length, skipn_length. lia.
  - intro j. destruct (Nat.eqb_spec (S j) (S i)) as [E|N].
    + injection E as ->. rewrite app_nth2 by lia. rewrite Li, Nat.sub_diag. cbn [nth]. lia.
    + destruct (Nat.lt_ge_cases j i).
      * rewrite app_nth1 by lia. rewrite Nat.add_0_r. revert i H Li N H0. revert j. induction o as [|x o IH]; intros j i H Li N Hj; [destruct i, j; reflexivity|].
        destruct i as [|i]; [lia|]. destruct j as [|j]; [reflexivity|]. cbn [firstn nth]. apply IH; cbn [firstn length] in *; lia.
      * rewrite app_nth2 by lia. rewrite Li. destruct (j - i)%nat as [|q] eqn:Q; [lia|]. cbn [nth]. rewrite nth_skipn_lem, Nat.add_0_r. f_equal. lia.
Qed.

Section Hist.
  Variables (arity : nat) (name : string) (lists : list (list string)).
  Hypothesis Hname : no_underscore name.
  Hypothesis Hplain : Forall (Forall plain) lists.
  Hypothesis Hlen : Forall (fun args => length args = arity) lists.
  Hypothesis Hfix : forall args args', In args lists -> In args' lists -> fixed_positions args args'.

  (** What a registered pair, and an object, looks like. *)
  Definition made (n : string) (o : list nat) : Prop :=
    length o = arity /\ ((n = name /\ o = repeat 0%nat arity) \/
      exists args x, In args lists /\ n = x ++ "_" ++ post_of args o).
  Lemma made_inj n o o' : made n o -> made n o' -> o = o'.
  Proof.
    intros [L [[-> ->]|(args & x & I1 & ->)]] [L' [[E ->]|(args' & x' & I2 & E)]].
    - reflexivity.
    - exfalso. apply Hname. rewrite E, !chars_app. apply in_or_app. right. left. reflexivity.
    - exfalso. apply Hname. rewrite <- E, !chars_app. apply in_or_app. right. left. reflexivity.
    - rewrite Forall_forall in Hplain, Hlen. pose proof (Hplain _ I1). pose proof (Hplain _ I2). pose proof (Hlen _ I1). pose proof (Hlen _ I2).
      apply (post_inj args args'); try assumption; try congruence; [now apply Hfix|].
      apply chars_inj. apply (f_equal chars) in E. rewrite !chars_app in E. cbn [chars app] in E.
      apply split_last in E; [exact E | now apply post_no_underscore | now apply post_no_underscore].
  Qed.
  Definition all_made (l : locals) : Prop := Forall (fun p => made (fst p) (snd p)) l.
  Lemma lookup_made l n o : all_made l -> made n o -> In (n, o) l -> lookup n l = Some o.
  Proof.
    intros A M. induction l as [|[n' o'] l IH]; intro H; [destruct H|]. inversion A; subst. cbn [fst snd] in *. cbn [lookup].
    destruct (String.eqb_spec n n') as [<-|N].
    - f_equal. now apply (made_inj n).
    - apply IH; [assumption|]. destruct H as [E|H]; [injection E as -> ->; contradiction | exact H].
  Qed.

  Lemma fdiffs_spec path : forall c l c' l' seen, Forall (fun i => (1 <= i <= arity)%nat) path ->
    In (c_args c) lists -> made (c_base_name c) (c_order c) -> counts arity seen (c_order c) -> all_made l -> In (c_base_name c, c_order c) l ->
    fdiffs arity c path l = Ok (c', l') ->
    made (c_base_name c') (c_order c') /\ counts arity (seen ++ path)%list (c_order c') /\ all_made l' /\ In (c_base_name c', c_order c') l' /\ incl l l'.
  Proof.
    induction path as [|i path IH]; intros c l c' l' seen Hp Hin M C A I E.
    - injection E as <- <-. rewrite app_nil_r. repeat split; try assumption; [apply M | apply M | apply C | apply C | apply incl_refl].
    - inversion Hp as [|? ? Hi Hp']; subst. cbn [fdiffs] in E. unfold fdiff in E.
      pose proof (proj1 (Forall_forall _ _) Hlen _ Hin) as La. cbv beta in La.
      destruct (Nat.leb_spec i (length (c_args c))); [|lia]. unfold custom_new in E. rewrite La, Nat.eqb_refl in E. cbn [bind fst snd] in E.
      set (c1 := mkCustom (construct_name (c_base_name c) (c_args c) (bump i (c_order c))) (c_args c) (bump i (c_order c))) in E.
      destruct C as [Lo Ho]. destruct (bump_spec i (c_order c) ltac:(lia)) as [Lb Hb].
      assert (T : fold_right Nat.add 0%nat (bump i (c_order c)) <> 0%nat).
      { unfold bump. rewrite fold_right_app. cbn [fold_right]. intro Z.
        assert (G : forall l z, (z <= fold_right Nat.add z l)%nat) by (clear; induction l as [|x l IHl]; intro z; cbn [fold_right]; [lia | specialize (IHl z); lia]).
        pose proof (G (firstn (i - 1) (c_order c)) (S (nth (i - 1) (c_order c) 0%nat) + fold_right Nat.add 0 (skipn i (c_order c)))%nat). lia. }
      assert (M1 : made (c_base_name c1) (c_order c1)).
      { cbn [c_base_name c_order c1]. split; [lia|]. right. destruct (construct_pos (c_base_name c) (c_args c) _ T) as (x & -> & _).
        exists (c_args c), ("d" ++ x ++ c_base_name c). split; [exact Hin|]. apply chars_inj. rewrite ?chars_app. cbn [chars app]. rewrite ?chars_app, <- ?app_assoc. reflexivity. }
      assert (C1 : counts arity (seen ++ [i])%list (c_order c1)).
      { split; [cbn [c_order c1]; lia|]. intros j Hj. cbn [c_order c1]. rewrite Hb, Ho by exact Hj. rewrite count_occ_app. cbn [count_occ].
        destruct (Nat.eqb_spec (S j) i) as [<-|N]; [destruct (Nat.eq_dec (S j) (S j)); [reflexivity | contradiction]|].
        destruct (Nat.eq_dec i (S j)); [congruence | reflexivity]. }
      destruct (IH c1 _ c' l' (seen ++ [i])%list Hp' Hin M1 C1 (Forall_cons (_, _) M1 A) (or_introl eq_refl) E) as (R1 & R2 & R3 & R4 & R5).
      split; [exact R1|]. split; [now rewrite <- app_assoc in R2|]. split; [exact R3|]. split; [exact R4|].
      intros y Hy. apply R5. right. exact Hy.
  Qed.

  Lemma derive_along_spec args path l c l' : Forall (fun i => (1 <= i <= arity)%nat) path -> In args lists -> all_made l ->
    derive_along arity name args path l = Ok (c, l') ->
    made (c_base_name c) (c_order c) /\ counts arity path (c_order c) /\ all_made l' /\ In (c_base_name c, c_order c) l' /\ incl l l'.
  Proof.
    intros Hp Hin A E. pose proof (proj1 (Forall_forall _ _) Hlen _ Hin) as La. cbv beta in La.
    unfold derive_along, custom_call, custom_new in E. rewrite La, Nat.eqb_refl in E. cbn [bind fst snd] in E.
    assert (T : fold_right Nat.add 0%nat (repeat 0%nat arity) = 0%nat) by (clear; induction arity; simpl; auto).
    rewrite construct_zero in E by exact T.
    assert (M : made name (repeat 0%nat arity)) by (split; [apply repeat_length | now left]).
    assert (C : counts arity [] (repeat 0%nat arity)).
    { split; [apply repeat_length|]. intros j Hj. cbn [count_occ]. clear -Hj. revert j Hj. induction arity as [|k IH]; intros [|j] Hj; try reflexivity; try lia. apply IH. lia. }
    destruct (fdiffs_spec path (mkCustom name args (repeat 0%nat arity)) _ c l' [] Hp Hin M C (Forall_cons (name, repeat 0%nat arity) M A) (or_introl eq_refl) E) as (R1 & R2 & R3 & R4 & R5).
    repeat split; try assumption; try apply R1; try apply R2. intros y Hy. apply R5. right. exact Hy.
  Qed.

  Lemma history_spec h : forall l cs l', Forall (fun p => In (fst p) lists /\ Forall (fun i => (1 <= i <= arity)%nat) (snd p)) h -> all_made l ->
    history arity name h l = Ok (cs, l') ->
    all_made l' /\ incl l l' /\ Forall2 (fun p c => made (c_base_name c) (c_order c) /\ counts arity (snd p) (c_order c) /\ In (c_base_name c, c_order c) l') h cs.
  Proof.
    induction h as [|[args path] h IH]; intros l cs l' H A E.
    - injection E as <- <-. split; [exact A|]. split; [apply incl_refl | constructor].
    - inversion H as [|? ? [H1 H2] H3]; subst. cbn [fst snd] in *. cbn [history] in E.
      destruct (derive_along arity name args path l) as [[c l1]|] eqn:E1; [|discriminate]. cbn [bind fst snd] in E.
      destruct (history arity name h l1) as [[cs' l2]|] eqn:E2; [|discriminate]. cbn [bind fst snd] in E. injection E as <- <-.
      destruct (derive_along_spec _ _ _ _ _ H2 H1 A E1) as (R1 & R2 & R3 & R4 & R5).
      destruct (IH _ _ _ H3 R3 E2) as (S1 & S2 & S3). split; [exact S1|]. split; [eapply incl_tran; eassumption|].
      constructor; [|exact S3]. cbn [fst snd]. repeat split; try apply R1; try apply R2. apply S2, R4.
  Qed.
End Hist.

(** After any history of derivations of one function, the name of every object
    stands for the derivative that was asked for, provided that no argument
    is used at two positions and names are plain. *)
Theorem C55_names arity name h cs l :
  no_underscore name -> Forall (fun p => Forall plain (fst p) /\ length (fst p) = arity /\ Forall (fun i => (1 <= i <= arity)%nat) (snd p)) h ->
  (forall p q, In p h -> In q h -> fixed_positions (fst p) (fst q)) ->
  history arity name h [] = Ok (cs, l) ->
  Forall2 (fun p c => exists o, lookup (c_base_name c) l = Some o /\ counts arity (snd p) o) h cs.
Proof.
  intros Hn Hh Hf E. rewrite Forall_forall in Hh. set (lists := map fst h).
  assert (G1 : Forall (Forall plain) lists) by (apply Forall_map, Forall_forall; intros p Hp; now apply Hh).
  assert (G2 : Forall (fun args => length args = arity) lists) by (apply Forall_map, Forall_forall; intros p Hp; now apply Hh).
  assert (G3 : forall a b, In a lists -> In b lists -> fixed_positions a b).
  { intros a b Ha Hb. apply in_map_iff in Ha as (p & <- & Hp). apply in_map_iff in Hb as (q & <- & Hq). now apply Hf. }
  destruct (history_spec arity name lists G2 h [] cs l) as (A & _ & F); try assumption; [|constructor|].
  - apply Forall_forall. intros p Hp. split; [now apply in_map | now apply Hh].
  - clearbody lists. clear -A F Hn G1 G2 G3. induction F as [|p c h' cs' (M & C & I) F IH]; constructor; [|exact IH].
    exists (c_order c). split; [|exact C]. now apply (lookup_made arity name lists).
Qed.
Print Assumptions C55_names.
(** Such a history never fails. *)
Theorem C55_total arity name h l :
  Forall (fun p => length (fst p) = arity /\ Forall (fun i => (i <= arity)%nat) (snd p)) h -> exists r, history arity name h l = Ok r.
Proof.
  revert l. induction h as [|[args path] h IH]; intros l H; [eexists; reflexivity|]. inversion H as [|? ? [H1 H2] H3]; subst. cbn [fst snd] in *.
  cbn [history]. unfold derive_along, custom_call, custom_new at 1. rewrite Nat.eqb_refl. cbn [bind fst snd].
  assert (G : forall path c l, Forall (fun i => (i <= length args)%nat) path -> length (c_args c) = length args -> exists r, fdiffs (length args) c path l = Ok r).
  { clear. induction path as [|i path IHp]; intros c l H L; [eexists; reflexivity|]. inversion H; subst. cbn [fdiffs]. unfold fdiff.
    destruct (Nat.leb_spec i (length (c_args c))); [|lia]. unfold custom_new. rewrite L, Nat.eqb_refl. cbn [bind fst snd]. apply IHp; assumption. }
  destruct (G path (mkCustom (construct_name name args (repeat 0%nat (length args))) args (repeat 0%nat (length args))) ((construct_name name args (repeat 0%nat (length args)), repeat 0%nat (length args)) :: l) H2 eq_refl) as [r ->]. cbn [bind].
  destruct (IH (snd r) H3) as [r' ->]. cbn [bind]. eexists. reflexivity.
Qed.
Print Assumptions C55_total.
Theorem C55_wrong_number arity name args path l : length args <> arity -> derive_along arity name args path l = Raise SyntaxError.
Proof. intro H. unfold derive_along, custom_call, custom_new. destruct (Nat.eqb_spec (length args) arity); [contradiction | reflexivity]. Qed.
Print Assumptions C55_wrong_number.
Example C55_names_ex :
  no_underscore "f" /\ Forall plain ["x"; "alpha"] /\ Forall plain ["x"; "theta"] /\ fixed_positions ["x"; "alpha"] ["x"; "theta"] /\
  history 2 "f" [(["x"; "alpha"], [1; 1; 2]%nat); (["x"; "theta"], [2]%nat)] [] =
  Ok ([mkCustom "d3d2df_dx_dx2_dx2dalpha" ["x"; "alpha"] [2; 1]%nat; mkCustom "df_dtheta" ["x"; "theta"] [0; 1]%nat],
      [("df_dtheta", [0; 1]%nat); ("f", [0; 0]%nat); ("d3d2df_dx_dx2_dx2dalpha", [2; 1]%nat); ("d2df_dx_dx2", [2; 0]%nat); ("df_dx", [1; 0]%nat); ("f", [0; 0]%nat)]).
Proof.
  split; [unfold no_underscore; cbn; intuition discriminate|].
  assert (P : forall s, forallb (fun c => negb (existsb (Ascii.eqb c) ("d"%char :: "_"%char :: digits))) (chars s) = true -> plain s).
  { intros s H c Hc Hd. rewrite forallb_forall in H. specialize (H c Hc). apply negb_true_iff in H.
    assert (existsb (Ascii.eqb c) ("d"%char :: "_"%char :: digits) = true) by (apply existsb_exists; exists c; split; [exact Hd | apply Ascii.eqb_refl]). congruence. }
  split; [repeat constructor; apply P; reflexivity|]. split; [repeat constructor; apply P; reflexivity|]. split; [|reflexivity].
  intros [|[|[|i]]] [|[|[|j]]] s Hi Hj; cbn in Hi, Hj; try discriminate; try reflexivity; congruence.
Qed.

(** The two uses f(x, y) and f(y, x) collide: the derivative of the first with
    respect to x then evaluates the derivative of f in its other argument. *)
Theorem C55_swapped_refuted : exists name h cs l p c o,
  no_underscore name /\ history 2 name h [] = Ok (cs, l) /\ nth_error h 0 = Some p /\ nth_error cs 0 = Some c /\
  lookup (c_base_name c) l = Some o /\ ~ counts 2 (snd p) o.
Proof.
  exists "f", [(["x"; "y"], [1]%nat); (["y"; "x"], [2]%nat)]. do 5 eexists.
  split; [unfold no_underscore; cbn; intuition discriminate|]. split; [reflexivity|]. split; [reflexivity|]. split; [reflexivity|]. split; [reflexivity|].
  intros [_ H]. specialize (H 0%nat ltac:(lia)). discriminate H.
Qed.
Print Assumptions C55_swapped_refuted.
(** f(x, x): sympy's chain rule adds fdiff(1) and fdiff(2); both names are df_dx. *)
Theorem C55_repeated_refuted : exists name args cs l, no_underscore name /\
  history 2 name [(args, [1]%nat); (args, [2]%nat)] [] = Ok (cs, l) /\
  exists c1 c2, cs = [c1; c2] /\ c_base_name c1 = c_base_name c2 /\ lookup (c_base_name c1) l = Some [0; 1]%nat.
Proof.
  exists "f", ["x"; "x"]. do 2 eexists. split; [unfold no_underscore; cbn; intuition discriminate|]. split; [reflexivity|]. do 2 eexists. repeat split.
Qed.
Print Assumptions C55_repeated_refuted.
(** Two user functions: one of them called like a derivative of the other. *)
Theorem C55_function_name_refuted : exists args c1 l1 c2 l2,
  derive_along 1 "f" args [1]%nat [] = Ok (c1, l1) /\ derive_along 1 "df_dx" args [] l1 = Ok (c2, l2) /\
  lookup (c_base_name c1) l2 <> Some (c_order c1).
Proof. exists ["x"]. do 4 eexists. split; [reflexivity|]. split; [reflexivity|]. discriminate. Qed.
Print Assumptions C55_function_name_refuted.

(** ** Names are identifiers *)
Lemma ident_chars s : identifier s -> Forall (fun c => In c letters \/ In c digits) (chars s).
Proof. unfold identifier. destruct (chars s); [contradiction|]. intros [H1 H2]. constructor; [now left | exact H2]. Qed.
Lemma post_ident args o : Forall identifier args -> Forall (fun c => In c letters \/ In c digits) (chars (post_of args o)).
Proof.
  revert o. induction args as [|a args IH]; intros [|k o] H; try constructor. inversion H; subst. rewrite post_cons. destruct k as [|k]; [now apply IH|].
  constructor; [left; cbn; tauto|]. apply Forall_app. split; [now apply ident_chars|]. apply Forall_app. split; [|now apply IH].
  eapply Forall_impl; [|apply digit_part_digits]. intros c Hc. now right.
Qed.
Theorem C55_identifier name args order : identifier name -> Forall identifier args -> identifier (construct_name name args order).
Proof.
  intros Hn Ha. destruct (Nat.eq_dec (fold_right Nat.add 0%nat order) 0) as [Z|N]; [now rewrite construct_zero|].
  destruct (construct_pos name args order N) as (x & -> & Hx). unfold identifier. rewrite !chars_app. cbn [chars app].
  split; [cbn; tauto|]. apply Forall_app. split; [apply Forall_forall; intros c Hc; right; now apply Hx|].
  apply Forall_app. split; [now apply ident_chars|]. cbn [chars app]. constructor; [left; cbn; tauto | now apply post_ident].
Qed.
Print Assumptions C55_identifier.
Definition ident_b (s : string) : bool :=
  match chars s with [] => false | c :: l => existsb (Ascii.eqb c) letters && forallb (fun c => existsb (Ascii.eqb c) (letters ++ digits)%list) l end.
Lemma ident_b_ok s : ident_b s = true -> identifier s.
Proof.
  unfold ident_b, identifier. destruct (chars s) as [|c l]; [discriminate|]. intro H. apply andb_true_iff in H as [H1 H2].
  apply existsb_exists in H1 as (x & H1 & E). apply Ascii.eqb_eq in E. subst x. split; [exact H1|].
  apply Forall_forall. intros y Hy. rewrite forallb_forall in H2. specialize (H2 y Hy). apply existsb_exists in H2 as (x & H2 & E).
  apply Ascii.eqb_eq in E. subst x. now apply in_app_or in H2.
Qed.
Example C55_identifier_ex : identifier "f" /\ Forall identifier ["x1"; "theta_d"] /\ construct_name "f" ["x1"; "theta_d"] [2; 1]%nat = "d3f_dx12dtheta_d".
Proof. split; [now apply ident_b_ok|]. split; [|reflexivity]. apply Forall_cons; [now apply ident_b_ok|]. apply Forall_cons; [now apply ident_b_ok | apply Forall_nil]. Qed.
(** An expression as argument gives a name that is not one. *)
Theorem C55_expression_refuted : exists c l, derive_along 1 "f" ["x + 1"] [1]%nat [] = Ok (c, l) /\ identifier "f" /\ ~ identifier (c_base_name c).
Proof.
  do 2 eexists. split; [reflexivity|]. split; [now apply ident_b_ok|]. cbn [c_base_name].
  intros [_ H]. rewrite Forall_forall in H. specialize (H " "%char ltac:(cbn; tauto)). cbn in H. intuition discriminate.
Qed.
Print Assumptions C55_expression_refuted.

(** ** Tables: never ambiguous *)
Theorem C55_tables table a a' k k' : (forall c, In c (match chars table with [] => [] | c :: _ => [c] end) -> ~ In c digits) ->
  table_name table a k = table_name table a' k' -> k = k'.
Proof.
  intros Hs E.
  assert (W : forall b j, exists r, chars (table_name table b (S j)) = "d"%char :: (digit_part (S j) ++ (chars table ++ "_"%char :: r))%list).
  { intros b j. destruct j as [|j]; cbn [table_name digit_part].
    - exists ("d"%char :: chars b)%list. repeat (rewrite ?chars_app; cbn [chars app]). reflexivity.
    - exists ("d"%char :: chars b ++ chars (str_nat (S (S j))))%list. repeat (rewrite ?chars_app; cbn [chars app]). reflexivity. }
  assert (O : forall r, starts_outside (fun c => In c digits) (chars table ++ "_"%char :: r)%list).
  { intro r. destruct (chars table) as [|c t]; cbn [app starts_outside]; [cbn; intuition discriminate | apply Hs; now left]. }
  assert (Z : forall b j, table <> table_name table b (S j)).
  { intros b j Q. destruct (W b j) as [r Hr]. apply (f_equal chars) in Q. rewrite Hr in Q. apply (f_equal (@length ascii)) in Q.
    cbn [length] in Q. rewrite !app_length in Q. cbn [length] in Q. lia. }
  destruct k as [|k], k' as [|k']; [reflexivity | now apply Z in E | symmetry in E; now apply Z in E |].
  destruct (W a k) as [r Hr]. destruct (W a' k') as [r' Hr']. rewrite E, Hr' in Hr. injection Hr as Hr.
  destruct (span_unique (fun c => In c digits) _ _ _ _ (digit_part_digits (S k')) (digit_part_digits (S k)) (O r') (O r) Hr) as [D _].
  apply digit_part_inj in D. now subst.
Qed.
Print Assumptions C55_tables.
Example C55_tables_ex : table_name "CL" "alpha" 2 = "d2CL_dalpha2" /\ table_name "CL" "x2" 1 = "dCL_dx2" /\
  (forall c, In c (match chars "CL" with [] => [] | c :: _ => [c] end) -> ~ In c digits).
Proof. repeat split. intros c [<-|[]]. cbn. intuition discriminate. Qed.
