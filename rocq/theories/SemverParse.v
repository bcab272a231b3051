(** Lemmas about the version and requirement parsers. *)
From Verif Require Import Base BaseProofs CommonModel SemverModel SemverSpec SemverOrder.
Ltac Zify.zify_post_hook ::= Z.div_mod_to_equations.

(** ** Heads of suffixes *)

Definition is_ident_char (b : N) : bool := is_ident_nondigit b || is_digit b.
Definition no_ident (r : bytes) : Prop :=
  match r with [] => True | b :: _ => is_ident_char b = false end.
Definition no_ident_dot (r : bytes) : Prop :=
  match r with [] => True | b :: _ => is_ident_char b = false /\ b <> 46 end.

Lemma span_digits r : exists ds r', r = ds ++ r' /\ digits ds /\ no_digit r'.
Proof.
  induction r as [|b r (ds & r' & E & D & N)].
  - exists [], []. repeat constructor.
  - destruct (is_digit b) eqn:B.
    + exists (b :: ds), r'. split; [cbn; congruence|]. split; [constructor; assumption|assumption].
    + exists [], (b :: r). repeat split; [constructor|exact B].
Qed.

(** ** Whitespace *)

Lemma eat_ws_spaces st idx n r : (forall r', r <> 32 :: r') ->
  eat_ws_aux st idx (spaces n ++ r) = mkci st (idx + N.of_nat n) r.
Proof.
  intros H. revert idx; induction n as [|n IH]; intros idx.
  - cbn [spaces repeat app]. replace (idx + N.of_nat 0) with idx by lia.
    destruct r as [|b r]; [reflexivity|]. cbn [eat_ws_aux].
    destruct (N.eq_dec b 32) as [->|NE]; [exfalso; eapply H; reflexivity|].
    destruct b as [|p]; [reflexivity|].
    repeat (destruct p as [p|p|]; try reflexivity; try congruence).
  - cbn [spaces repeat app eat_ws_aux]. rewrite IH. f_equal. lia.
Qed.

Lemma eat_ws_inv st idx s : exists n r, s = spaces n ++ r /\ (forall r', r <> 32 :: r') /\
  eat_ws_aux st idx s = mkci st (idx + N.of_nat n) r.
Proof.
  assert (exists n r, s = spaces n ++ r /\ (forall r', r <> 32 :: r')) as (n & r & E & H).
  { induction s as [|b s (n & r & E & H)].
    - exists O, []. split; [reflexivity|]. intros r'; congruence.
    - destruct (N.eq_dec b 32) as [->|NE].
      + exists (S n), r. split; [cbn [spaces repeat app]; unfold spaces in E; congruence|assumption].
      + exists O, (b :: s). split; [reflexivity|]. intros r'; congruence. }
  exists n, r. split; [assumption|]. split; [assumption|]. subst. apply eat_ws_spaces. assumption.
Qed.

Lemma eat_whitespace_spaces st idx n r : (forall r', r <> 32 :: r') ->
  eat_whitespace (mkci st idx (spaces n ++ r)) = mkci st (idx + N.of_nat n) r.
Proof. apply eat_ws_spaces. Qed.

Lemma eat_whitespace_inv st idx s : exists n r, s = spaces n ++ r /\ (forall r', r <> 32 :: r') /\
  eat_whitespace (mkci st idx s) = mkci st (idx + N.of_nat n) r.
Proof. apply eat_ws_inv. Qed.

(** ** Numbers *)

Fixpoint int_fold {E} (prof : profile) (st : option N) (ds : bytes) : res E (option N) :=
  match ds with
  | [] => Ok st
  | d :: r => let? st' := int_step prof st (digit_val d) in int_fold prof st' r
  end.

Lemma int_loop_fold {E} prof st idx ds r : digits ds -> no_digit r ->
  @int_loop E prof st idx (ds ++ r) =
  (let? st' := int_fold prof st ds in Ok (st', idx + blen ds, r)).
Proof.
  intros D N. revert st idx; induction D as [|d ds Hd D IH]; intros st idx.
  - cbn [app int_fold bind]. rewrite blen_nil, N.add_0_r.
    destruct r as [|b r]; [reflexivity|]. cbn [int_loop]. cbn in N. rewrite N. reflexivity.
  - cbn [app int_loop int_fold]. rewrite Hd.
    destruct (int_step prof st (digit_val d)) as [st'|e|] eqn:S; cbn [bind]; [|reflexivity|reflexivity].
    rewrite IH, blen_cons. destruct (int_fold prof st' ds); cbn [bind]; [|reflexivity|reflexivity].
    do 3 f_equal. lia.
Qed.

Lemma int_fold_none {E} prof ds : @int_fold E prof None ds = Ok None.
Proof. induction ds as [|d ds IH]; [reflexivity|]. cbn [int_fold int_step bind]. exact IH. Qed.

Lemma int_fold_ok {E} prof a ds : digits ds -> val_acc a ds <= u32_max ->
  @int_fold E prof (Some a) ds = Ok (Some (val_acc a ds)).
Proof.
  intros D. revert a; induction D as [|d ds Hd D IH]; intros a L; [reflexivity|].
  unfold val_acc in *. cbn [fold_left] in *. fold (val_acc (10 * a + digit_val d) ds) in *.
  pose proof (val_acc_ge (10 * a + digit_val d) ds).
  cbn [int_fold]. unfold int_step.
  replace (a * 10 <=? u32_max) with true by lia.
  replace (a * 10 + digit_val d <=? u32_max) with true by lia. cbn [bind].
  replace (a * 10 + digit_val d) with (10 * a + digit_val d) by lia. apply IH. assumption.
Qed.

Lemma int_fold_debug {E} a ds st : digits ds -> a <= u32_max ->
  @int_fold E Debug (Some a) ds = Ok st ->
  match st with Some v => v = val_acc a ds /\ v <= u32_max | None => u32_max < val_acc a ds end.
Proof.
  intros D. revert a; induction D as [|d ds Hd D IH]; intros a L H.
  - cbn in H. injection H as <-. split; [reflexivity|assumption].
  - unfold val_acc. cbn [fold_left int_fold] in *. fold (val_acc (10 * a + digit_val d) ds).
    unfold int_step in H. destruct (a * 10 <=? u32_max) eqn:M.
    + destruct (a * 10 + digit_val d <=? u32_max) eqn:A; [|discriminate]. cbn [bind] in H.
      replace (a * 10 + digit_val d) with (10 * a + digit_val d) in * by lia.
      apply IH; [lia|assumption].
    + cbn [bind] in H. rewrite int_fold_none in H. injection H as <-.
      pose proof (val_acc_ge (10 * a + digit_val d) ds). lia.
Qed.

(** Values whose decimal text starts with 4294967296 .. 4294967299: the only
    ones for which the unchecked addition overflows. *)
Definition bad_prefix (a : N) (ds : bytes) : Prop :=
  exists d1 d2, ds = d1 ++ d2 /\ 4294967296 <= val_acc a d1 <= 4294967299.

Lemma val_acc_cons a d ds : val_acc a (d :: ds) = val_acc (10 * a + digit_val d) ds.
Proof. reflexivity. Qed.

Lemma int_fold_over {E} prof a ds : digits ds -> a <= u32_max -> u32_max < val_acc a ds ->
  ~ bad_prefix a ds -> @int_fold E prof (Some a) ds = Ok None.
Proof.
  intros D. revert a; induction D as [|d ds Hd D IH]; intros a L V B.
  - cbn in V. lia.
  - rewrite val_acc_cons in V. cbn [int_fold]. unfold int_step.
    destruct (a * 10 <=? u32_max) eqn:M; [|cbn [bind]; apply int_fold_none].
    destruct (a * 10 + digit_val d <=? u32_max) eqn:A.
    + cbn [bind]. replace (a * 10 + digit_val d) with (10 * a + digit_val d) in * by lia.
      apply IH; [lia|assumption|]. intros (d1 & d2 & E1 & R). apply B.
      exists (d :: d1), d2. split; [cbn; congruence|]. rewrite val_acc_cons. assumption.
    + exfalso. apply B. exists [d], ds. split; [reflexivity|].
      unfold val_acc. cbn [fold_left]. unfold is_digit, digit_val, u32_max in *. lia.
Qed.

Lemma int_fold_bad {E} a ds : digits ds -> a <= u32_max -> bad_prefix a ds ->
  @int_fold E Debug (Some a) ds = Panic.
Proof.
  intros D. revert a; induction D as [|d ds Hd D IH]; intros a L (d1 & d2 & E1 & R).
  - destruct d1; [|discriminate]. cbn in R. unfold u32_max in L. lia.
  - destruct d1 as [|x d1]; [cbn in R; unfold u32_max in L; lia|].
    cbn [app] in E1. injection E1 as <- E1. rewrite val_acc_cons in R.
    cbn [int_fold]. unfold int_step.
    destruct (a * 10 <=? u32_max) eqn:M.
    2:{ pose proof (val_acc_ge (10 * a + digit_val d) d1). unfold u32_max in *. lia. }
    destruct (a * 10 + digit_val d <=? u32_max) eqn:A.
    + cbn [bind]. replace (a * 10 + digit_val d) with (10 * a + digit_val d) in * by lia.
      apply IH; [lia|]. exists d1, d2. auto.
    + reflexivity.
Qed.

Lemma dec_cons n : 10 <= n -> exists d r, dec n = d :: r /\ 49 <= d <= 57 /\ digits r /\
  n = val_acc (digit_val d) r.
Proof.
  intros H. destruct (dec_head n) as (d & r & E & B); [lia|].
  exists d, r. split; [assumption|]. split; [assumption|].
  pose proof (dec_digits n) as D. rewrite E in D. inversion D; subst. split; [assumption|].
  rewrite <- (dec_val_dec n) at 1. rewrite E. unfold dec_val. rewrite val_acc_cons. f_equal; lia.
Qed.

Lemma dec_cons_any n : 0 < n -> exists d r, dec n = d :: r /\ 49 <= d <= 57 /\ digits r /\
  n = val_acc (digit_val d) r.
Proof.
  intros H. destruct (dec_head n) as (d & r & E & B); [lia|].
  exists d, r. split; [assumption|]. split; [assumption|].
  pose proof (dec_digits n) as D. rewrite E in D. inversion D; subst. split; [assumption|].
  rewrite <- (dec_val_dec n) at 1. rewrite E. unfold dec_val. rewrite val_acc_cons. f_equal; lia.
Qed.

Lemma parse_int_dec prof st idx n r f : n <= u32_max -> no_digit r ->
  parse_int prof (mkci st idx (dec n ++ r)) f = Ok (n, mkci st (idx + blen (dec n)) r).
Proof.
  intros L N. destruct (N.eq_dec n 0) as [->|NZ].
  - change (dec 0) with [48]. cbn [app]. unfold parse_int, peek_byte, next_byte. cbn [ci_rest].
    replace (48 =? 48) with true by reflexivity. cbn [ci_rest ci_start ci_idx].
    rewrite blen_cons, blen_nil. replace (idx + (1 + 0)) with (idx + 1) by lia.
    destruct r as [|b r]; [reflexivity|]. cbn in N. rewrite N. reflexivity.
  - destruct (dec_cons_any n) as (d & ds & E & B & D & V); [lia|].
    rewrite E. cbn [app]. unfold parse_int, peek_byte, next_byte. cbn [ci_rest ci_start ci_idx].
    replace (d =? 48) with false by lia.
    replace ((49 <=? d) && (d <=? 57)) with true by lia. cbn [ci_rest ci_start ci_idx].
    rewrite int_loop_fold by assumption. rewrite int_fold_ok; [|assumption|rewrite <- V; assumption].
    cbn [bind]. rewrite <- V, blen_cons. do 3 f_equal. lia.
Qed.

(** Case analysis of a failed or successful number. *)
Lemma parse_int_debug_ok st idx s f n c : parse_int Debug (mkci st idx s) f = Ok (n, c) ->
  exists r, s = dec n ++ r /\ no_digit r /\ n <= u32_max /\ c = mkci st (idx + blen (dec n)) r.
Proof.
  unfold parse_int, peek_byte, next_byte. cbn [ci_rest ci_start ci_idx].
  destruct s as [|b s]; [discriminate|]. destruct (b =? 48) eqn:B.
  - apply N.eqb_eq in B. subst b. cbn [ci_rest ci_start ci_idx]. intros H.
    exists s. change (dec 0) with [48].
    destruct s as [|d s].
    + injection H as <- <-. change (dec 0) with [48]. rewrite blen_cons, blen_nil.
      split; [reflexivity|]. split; [exact I|]. split; [unfold u32_max; lia|]. f_equal.
    + destruct (is_digit d) eqn:Dd.
      * destruct (pos_minus _ 1); discriminate.
      * injection H as <- <-. change (dec 0) with [48]. rewrite blen_cons, blen_nil.
        split; [reflexivity|]. split; [exact Dd|]. split; [unfold u32_max; lia|]. f_equal.
  - destruct ((49 <=? b) && (b <=? 57)) eqn:R.
    2:{ destruct (peek_char_unwrap _); discriminate. }
    cbn [ci_rest ci_start ci_idx].
    destruct (span_digits s) as (ds & r & -> & D & ND). rewrite int_loop_fold by assumption.
    destruct (@int_fold error Debug (Some (digit_val b)) ds) as [o|e|] eqn:F; cbn [bind]; try discriminate.
    apply int_fold_debug in F; [|assumption|unfold digit_val, u32_max; lia].
    destruct o as [v|]; [|discriminate]. intros H. injection H as <- <-.
    destruct F as (V & L). exists r.
    assert (E : dec v = b :: ds).
    { rewrite V, dec_val_acc by (assumption || (unfold digit_val; lia)).
      rewrite dec_small by (unfold digit_val; lia). cbn [app]. f_equal. unfold digit_val. lia. }
    rewrite E. split; [reflexivity|]. split; [assumption|]. split; [assumption|].
    rewrite blen_cons. f_equal. lia.
Qed.


Lemma overflow_bug_prefix n d r : dec n = d :: r -> 49 <= d <= 57 -> digits r ->
  (overflow_bug n <-> bad_prefix (digit_val d) r).
Proof.
  intros E B D.
  assert (V1 : forall x, digits x -> dec (val_acc (digit_val d) x) = d :: x).
  { intros x Dx. rewrite dec_val_acc by (assumption || (unfold digit_val; lia)).
    rewrite dec_small by (unfold digit_val; lia). cbn [app]. f_equal. unfold digit_val. lia. }
  split.
  - intros (k & ds & R & H). destruct (dec_cons_any k) as (d' & r' & E' & B' & D' & V'); [lia|].
    rewrite E, E' in H. cbn [app] in H. injection H as <- ->.
    exists r', ds. split; [reflexivity|]. rewrite <- V'. assumption.
  - intros (d1 & d2 & -> & R). apply Forall_app in D as [D1 D2].
    exists (val_acc (digit_val d) d1), d2. split; [assumption|]. rewrite V1 by assumption.
    assumption.
Qed.

Lemma parse_int_overflow prof st idx n r f : u32_max < n -> ~ overflow_bug n -> no_digit r ->
  parse_int prof (mkci st idx (dec n ++ r)) f
  = Err (IntOverflow f (pos_plus st idx) (blen (dec n))).
Proof.
  intros L B N. destruct (dec_cons_any n) as (d & ds & E & R & D & V); [unfold u32_max in L; lia|].
  rewrite overflow_bug_prefix in B by eassumption.
  rewrite E. cbn [app]. unfold parse_int, peek_byte, next_byte. cbn [ci_rest ci_start ci_idx].
  replace (d =? 48) with false by lia.
  replace ((49 <=? d) && (d <=? 57)) with true by lia. cbn [ci_rest ci_start ci_idx].
  rewrite int_loop_fold by assumption. rewrite int_fold_over; try assumption.
  - cbn [bind]. rewrite blen_cons. do 2 f_equal. lia.
  - unfold digit_val, u32_max. lia.
  - rewrite <- V. assumption.
Qed.

Lemma parse_int_overflow_bug st idx n r f : overflow_bug n -> no_digit r ->
  parse_int Debug (mkci st idx (dec n ++ r)) f = Panic.
Proof.
  intros B N.
  assert (NZ : 0 < n).
  { destruct B as (k & ds & R & E). destruct (N.eq_dec n 0) as [->|H]; [|lia].
    destruct (dec_cons k) as (d & x & E2 & R2 & _ & _); [lia|]. rewrite E2 in E.
    change (dec 0) with [48] in E. cbn in E. injection E as <-. lia. }
  destruct (dec_cons_any n) as (d & ds & E & R & D & V); [assumption|].
  rewrite overflow_bug_prefix in B by eassumption.
  rewrite E. cbn [app]. unfold parse_int, peek_byte, next_byte. cbn [ci_rest ci_start ci_idx].
  replace (d =? 48) with false by lia.
  replace ((49 <=? d) && (d <=? 57)) with true by lia. cbn [ci_rest ci_start ci_idx].
  rewrite int_loop_fold by assumption. rewrite int_fold_bad; try assumption; [reflexivity|].
  unfold digit_val, u32_max. lia.
Qed.

(** ** Identifiers *)

Definition ident_chars (w : bytes) : Prop := Forall (fun b => is_ident_char b = true) w.
Definition has_nondigit (w : bytes) : bool := existsb (fun b => negb (is_digit b)) w.
Definition word_ok (f : ident_field) (w : bytes) : Prop :=
  w <> [] /\ ident_chars w /\
  (f = FPrerelease -> forall r, w = 48 :: r -> r <> [] -> has_nondigit w = true).
Definition ident_grammar (f : ident_field) (s : bytes) : Prop :=
  exists ws, ws <> [] /\ Forall (word_ok f) ws /\ s = join 46 ws.

Lemma nondigit_char b : is_ident_nondigit b = true -> is_digit b = false.
Proof. unfold is_ident_nondigit, is_digit. lia. Qed.

Lemma ident_loop_word pstart f start start_rest seg seg_rest nd idx w r : ident_chars w ->
  ident_loop pstart f start start_rest seg seg_rest nd idx (w ++ r)
  = ident_loop pstart f start start_rest seg seg_rest (nd || has_nondigit w) (idx + blen w) r.
Proof.
  intros H. revert nd idx; induction H as [|b w Hb H IH]; intros nd idx.
  - cbn [app has_nondigit existsb]. rewrite orb_false_r, blen_nil, N.add_0_r. reflexivity.
  - cbn [app]. cbn [ident_loop]. unfold is_ident_char in Hb.
    cbn [has_nondigit existsb]. fold (has_nondigit w). rewrite blen_cons.
    replace (idx + (1 + blen w)) with (idx + 1 + blen w) by lia.
    destruct (is_ident_nondigit b) eqn:B.
    + rewrite IH. rewrite (nondigit_char b B). cbn [negb orb]. rewrite !orb_true_r. reflexivity.
    + cbn [orb] in Hb. rewrite Hb. rewrite IH. cbn [negb orb]. reflexivity.
Qed.

(** At the end of a segment [w]: the boundary checks. *)
Definition seg_fine (f : ident_field) (w : bytes) : bool :=
  negb (is_empty w) &&
  negb ((match f with FPrerelease => true | FBuildMetadata => false end)
        && (1 <? blen w) && negb (has_nondigit w)
        && (match w with 48 :: _ => true | _ => false end)).

Lemma seg_fine_word f w : ident_chars w -> (seg_fine f w = true <-> word_ok f w).
Proof.
  intros C. unfold seg_fine, word_ok. destruct w as [|b w].
  - cbn [is_empty negb andb]. split; [discriminate|]. intros (H & _). congruence.
  - cbn [is_empty negb andb]. destruct f.
    + rewrite andb_true_l. rewrite blen_cons.
      destruct (N.eq_dec b 48) as [->|NE].
      * rewrite andb_true_r. split.
        -- intros H. split; [discriminate|]. split; [assumption|]. intros _ r E NR.
           injection E as <-. destruct w; [congruence|]. rewrite blen_cons in H.
           destruct (has_nondigit (48 :: n :: w)); [reflexivity|]. exfalso.
           replace (1 <? 1 + (1 + blen w)) with true in H by lia. discriminate.
        -- intros (_ & _ & H). specialize (H eq_refl w eq_refl).
           destruct w as [|c w]; [reflexivity|].
           rewrite H by discriminate. rewrite andb_false_r. reflexivity.
      * assert (E : match b with 48 => true | _ => false end = false).
        { destruct b as [|p]; [reflexivity|].
          repeat (destruct p as [p|p|]; try reflexivity; try congruence). }
        split.
        -- intros _. split; [discriminate|]. split; [assumption|]. intros _ r X. congruence.
        -- intros _. rewrite E, andb_false_r. reflexivity.
    + cbn [andb negb]. split; [|reflexivity]. intros _. split; [discriminate|].
      split; [assumption|]. discriminate.
Qed.

(** One boundary step, in terms of the segment. *)
Lemma ident_loop_boundary pstart f start start_rest seg w idx r :
  ident_chars w -> no_ident r -> idx = seg + blen w -> start <= seg ->
  ident_loop pstart f start start_rest seg (w ++ r) (has_nondigit w) idx r
  = if seg_fine f w then
      match r with
      | 46 :: r' => ident_loop pstart f start start_rest (idx + 1) r' false (idx + 1) r'
      | _ => Ok (firstn (N.to_nat (idx - start)) start_rest, mkci pstart idx r)
      end
    else ident_loop pstart f start start_rest seg (w ++ r) (has_nondigit w) idx r.
Proof.
  intros C NI -> LE. destruct (seg_fine f w) eqn:SF; [|reflexivity].
  unfold seg_fine in SF. apply andb_true_iff in SF as [S1 S2].
  destruct w as [|b w]; [discriminate|]. clear S1.
  assert (SEG : (seg =? seg + blen (b :: w)) = false) by (rewrite blen_cons; lia).
  assert (COND : (match f with FPrerelease => true | FBuildMetadata => false end
            && (1 <? seg + blen (b :: w) - seg) && negb (has_nondigit (b :: w))
            && match (b :: w) ++ r with 48 :: _ => true | _ => false end) = false).
  { cbn [app]. replace (seg + blen (b :: w) - seg) with (blen (b :: w)) by lia.
    apply negb_true_iff in S2. exact S2. }
  destruct r as [|c r].
  - cbn [ident_loop]. rewrite SEG, COND. reflexivity.
  - cbn in NI. unfold is_ident_char in NI. apply orb_false_iff in NI as [N1 N2].
    cbn [ident_loop]. rewrite N1, N2, SEG, COND.
    destruct c as [|p]; [reflexivity|].
    repeat (destruct p as [p|p|]; try reflexivity).
Qed.

Lemma no_ident_dot_weaken r : no_ident_dot r -> no_ident r.
Proof. destruct r; [auto|]. intros (H & _). exact H. Qed.

Lemma not_dot_match {A} (r : bytes) (x : bytes -> A) (y : A) : no_ident_dot r ->
  match r with 46 :: r' => x r' | _ => y end = y.
Proof.
  destruct r as [|c r]; [reflexivity|]. intros (_ & H).
  destruct c as [|p]; [reflexivity|]. repeat (destruct p as [p|p|]; try reflexivity; try congruence).
Qed.

Lemma ident_loop_complete pstart f start start_rest ws : ws <> [] -> Forall (word_ok f) ws ->
  forall seg r, start <= seg -> no_ident_dot r ->
  ident_loop pstart f start start_rest seg (join 46 ws ++ r) false seg (join 46 ws ++ r)
  = Ok (firstn (N.to_nat (seg + blen (join 46 ws) - start)) start_rest,
        mkci pstart (seg + blen (join 46 ws)) r).
Proof.
  intros NE F. induction F as [|w ws W F IH]; [congruence|]. intros seg r LE NI.
  destruct W as (W1 & W2 & W3).
  assert (SF : seg_fine f w = true) by (apply seg_fine_word; [assumption|repeat split; assumption]).
  destruct ws as [|w2 ws].
  - cbn [join]. rewrite ident_loop_word by assumption. cbn [orb].
    rewrite ident_loop_boundary by (auto using no_ident_dot_weaken; lia).
    rewrite SF, not_dot_match by assumption. reflexivity.
  - rewrite join_cons, <- app_assoc. cbn [app]. rewrite ident_loop_word by assumption. cbn [orb].
    rewrite ident_loop_boundary; [|assumption|reflexivity|reflexivity|lia].
    rewrite SF. rewrite IH by (discriminate || lia || assumption).
    rewrite blen_app, blen_cons. set (j := blen (join 46 (w2 :: ws))).
    replace (seg + blen w + 1 + j) with (seg + (blen w + (1 + j))) by lia. reflexivity.
Qed.

Lemma span_ident r : exists w r', r = w ++ r' /\ ident_chars w /\ no_ident r'.
Proof.
  induction r as [|b r (w & r' & E & C & NI)].
  - exists [], []. repeat constructor.
  - destruct (is_ident_char b) eqn:B.
    + exists (b :: w), r'. split; [cbn; congruence|]. split; [constructor; assumption|assumption].
    + exists [], (b :: r). repeat split; [constructor|exact B].
Qed.

(** A boundary with a bad segment is an error. *)
Lemma ident_loop_bad pstart f start start_rest seg w idx r s c :
  ident_chars w -> no_ident r -> idx = seg + blen w -> seg_fine f w = false ->
  ident_loop pstart f start start_rest seg (w ++ r) (has_nondigit w) idx r <> Ok (s, c).
Proof.
  intros C NI -> SF.
  assert (X : forall b : option N, exists e : error,
    (if seg =? seg + blen w then
      if (start =? seg + blen w) && negb (match b with Some 46 => true | _ => false end)
      then Some (Err (EmptyIdentifier f (pos_plus pstart (seg + blen w))))
      else Some (Err (EmptyIdentifierSegment f (pos_plus pstart (seg + blen w))))
    else if (match f with FPrerelease => true | FBuildMetadata => false end)
            && (1 <? seg + blen w - seg) && negb (has_nondigit w)
            && (match w ++ r with 48 :: _ => true | _ => false end)
    then Some (Err (LeadingZeroSegment f (pos_plus pstart seg)))
    else match b with
         | Some 46 => None
         | _ => Some (Ok (firstn (N.to_nat (seg + blen w - start)) start_rest, mkci pstart (seg + blen w) r))
         end) = Some (Err e : res error (bytes * citer))).
  { intros b. destruct w as [|x w].
    - rewrite blen_nil. replace (seg =? seg + 0) with true by lia.
      destruct (_ && _); eauto.
    - rewrite blen_cons. replace (seg =? seg + (1 + blen w)) with false by lia.
      unfold seg_fine in SF. cbn [is_empty negb andb] in SF. apply negb_false_iff in SF.
      replace (seg + (1 + blen w) - seg) with (blen (x :: w)) by (rewrite blen_cons; lia).
      cbn [app]. rewrite SF. eauto. }
  destruct r as [|b r].
  - destruct (X None) as (e & E). cbn [ident_loop]. rewrite E. discriminate.
  - cbn in NI. unfold is_ident_char in NI. apply orb_false_iff in NI as [N1 N2].
    destruct (X (Some b)) as (e & E). cbn [ident_loop]. rewrite N1, N2, E. discriminate.
Qed.

Lemma ident_loop_sound pstart f start start_rest s c n : forall r seg,
  (length r <= n)%nat -> start <= seg ->
  ident_loop pstart f start start_rest seg r false seg r = Ok (s, c) ->
  exists ws r', ws <> [] /\ Forall (word_ok f) ws /\ r = join 46 ws ++ r' /\ no_ident_dot r' /\
    c = mkci pstart (seg + blen (join 46 ws)) r' /\
    s = firstn (N.to_nat (seg + blen (join 46 ws) - start)) start_rest.
Proof.
  induction n as [|n IH]; intros r seg L LE H.
  - destruct r; [|cbn in L; lia]. exfalso.
    apply (ident_loop_bad pstart f start start_rest seg [] seg [] s c) in H; auto.
    + constructor.
    + exact I.
    + rewrite blen_nil. lia.
  - destruct (span_ident r) as (w & r' & -> & C & NI).
    rewrite ident_loop_word in H by assumption. cbn [orb] in H.
    destruct (seg_fine f w) eqn:SF.
    2:{ exfalso. eapply ident_loop_bad in H; eauto. }
    assert (W : word_ok f w) by (apply seg_fine_word; assumption).
    rewrite ident_loop_boundary in H by (assumption || reflexivity). rewrite SF in H.
    assert (D : (exists q, r' = 46 :: q) \/ no_ident_dot r').
    { destruct r' as [|b q]; [right; exact I|]. destruct (N.eq_dec b 46) as [->|NE].
      - left. eauto.
      - right. split; [exact NI|assumption]. }
    destruct D as [(q & ->)|D].
    + apply IH in H; [|rewrite app_length in L; cbn [length] in L; lia|lia].
      destruct H as (ws & r' & NE & F & E & ND & Ec & Es).
      exists (w :: ws), r'. split; [discriminate|]. split; [constructor; assumption|].
      destruct ws as [|w2 ws]; [congruence|]. rewrite join_cons, <- app_assoc. cbn [app].
      rewrite E. split; [reflexivity|]. split; [assumption|].
      rewrite Ec, Es, blen_app, blen_cons.
      split; [f_equal; lia|]. f_equal. lia.
    + rewrite not_dot_match in H by assumption. injection H as <- <-.
      exists [w], r'. cbn [join]. split; [discriminate|]. split; [repeat constructor; apply W|].
      auto.
Qed.

Lemma parse_ident_complete st idx f s r : ident_grammar f s -> no_ident_dot r ->
  parse_ident (mkci st idx (s ++ r)) f = Ok (s, mkci st (idx + blen s) r).
Proof.
  intros (ws & NE & F & ->) NI. unfold parse_ident. cbn [ci_start ci_idx ci_rest].
  rewrite ident_loop_complete by (assumption || lia).
  replace (N.to_nat (idx + blen (join 46 ws) - idx)) with (length (join 46 ws)) by (unfold blen; lia).
  rewrite firstn_app, Nat.sub_diag, firstn_all, firstn_O, app_nil_r. reflexivity.
Qed.

Lemma parse_ident_sound st idx f rest s c : parse_ident (mkci st idx rest) f = Ok (s, c) ->
  exists r, rest = s ++ r /\ ident_grammar f s /\ no_ident_dot r /\ c = mkci st (idx + blen s) r.
Proof.
  unfold parse_ident. cbn [ci_start ci_idx ci_rest]. intros H.
  eapply ident_loop_sound in H; [|reflexivity|lia].
  destruct H as (ws & r & NE & F & -> & ND & -> & ->). exists r.
  replace (N.to_nat (idx + blen (join 46 ws) - idx)) with (length (join 46 ws)) by (unfold blen; lia).
  rewrite firstn_app, Nat.sub_diag, firstn_all, firstn_O, app_nil_r.
  split; [reflexivity|]. split; [exists ws; auto|]. auto.
Qed.

(** The two identifier grammars are the specified ones. *)
Lemma ident_char_spec b : is_ident_char b = true <-> ident_char b.
Proof. unfold is_ident_char, is_ident_nondigit, is_digit, ident_char. lia. Qed.

Lemma ident_chars_spec w : ident_chars w <-> Forall ident_char w.
Proof. unfold ident_chars. split; apply Forall_impl; intros a; apply ident_char_spec. Qed.

Lemma meta_grammar_iff s : ident_grammar FBuildMetadata s <-> meta_grammar s.
Proof.
  split; intros (ws & NE & F & E); exists ws; (split; [assumption|split; [|assumption]]).
  - eapply Forall_impl; [|exact F]. cbv beta. intros w (A & B & _). split; [assumption|].
    apply ident_chars_spec. assumption.
  - eapply Forall_impl; [|exact F]. cbv beta. intros w (A & B). split; [assumption|].
    split; [apply ident_chars_spec; assumption|discriminate].
Qed.

Lemma has_nondigit_false w : has_nondigit w = false <-> digits w.
Proof.
  unfold has_nondigit, digits. rewrite Forall_forall. split.
  - intros H x I. destruct (is_digit x) eqn:D; [reflexivity|]. exfalso.
    assert (existsb (fun b => negb (is_digit b)) w = true) by (apply existsb_exists; exists x; rewrite D; auto).
    congruence.
  - intros H. apply not_true_iff_false. intros X. apply existsb_exists in X as (x & I & D).
    rewrite (H x I) in D. discriminate.
Qed.

Lemma has_nondigit_true w : ident_chars w -> has_nondigit w = true -> is_word w.
Proof.
  intros C H. split; [apply ident_chars_spec; assumption|].
  unfold has_nondigit in H. apply existsb_exists in H as (x & I & D). exists x. split; [assumption|].
  unfold is_digit in D. lia.
Qed.

Lemma word_ident w : word_ok FPrerelease w <-> exists i, ident_wf i /\ ident_text i = w.
Proof.
  split.
  - intros (NE & C & Z). destruct (has_nondigit w) eqn:H.
    + exists (IWord w). split; [apply has_nondigit_true; assumption|reflexivity].
    + exists (INum (dec_val w)). split; [exact I|]. symmetry. apply canonical_dec.
      apply has_nondigit_false in H. split; [assumption|].
      destruct w as [|b w]; [congruence|]. destruct (N.eq_dec b 48) as [->|NB].
      * left. f_equal. destruct w as [|x w]; [reflexivity|].
        assert (T : false = true) by (eapply Z; eauto; discriminate). discriminate.
      * right. eauto.
  - intros ([n|w'] & W & <-); cbn [ident_text ident_wf] in *.
    + destruct (dec_canonical n) as (D & K). split; [apply dec_nonempty|]. split.
      * eapply Forall_impl; [|exact D]. cbv beta. unfold is_ident_char. intros a ->. apply orb_true_r.
      * intros _ r E NR. exfalso. destruct K as [K|(d & q & K & NZ)]; congruence.
    + split; [destruct W as (_ & b & I & _); intros ->; destruct I|].
      split; [apply ident_chars_spec, W|]. intros _ r _ _.
      destruct (has_nondigit w') eqn:H; [reflexivity|exfalso]. apply has_nondigit_false in H.
      destruct W as (_ & b & I & ND). unfold digits in H. rewrite Forall_forall in H.
      specialize (H b I). unfold is_digit in H. lia.
Qed.

Lemma pre_grammar_iff s : ident_grammar FPrerelease s <-> pre_grammar s.
Proof.
  split.
  - intros (ws & NE & F & ->).
    assert (exists ids, Forall ident_wf ids /\ map ident_text ids = ws) as (ids & FI & <-).
    { clear NE. induction F as [|w ws W F (ids & FI & E)]; [exists []; auto|].
      apply word_ident in W as (i & WI & TI). exists (i :: ids). split; [constructor; assumption|].
      cbn [map]. congruence. }
    exists ids. split; [intros ->; apply NE; reflexivity|]. split; [assumption|reflexivity].
  - intros (ids & NE & F & ->). exists (map ident_text ids). split; [destruct ids; [congruence|discriminate]|].
    split; [|reflexivity]. apply Forall_map. eapply Forall_impl; [|exact F]. cbv beta.
    intros i W. apply word_ident. eauto.
Qed.
