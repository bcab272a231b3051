(** Proofs about dates and times (C29, C30). *)
From Verif Require Import Base BaseProofs CommonModel TomlError LitModel LitSpec LitNum LitInt LitWhole.
Ltac Zify.zify_post_hook ::= Z.div_mod_to_equations.

Lemma decimal_val c : decimal c -> exists v, v < 10 /\ c = 48 + v.
Proof. unfold decimal. intros H. exists (c - 48). lia. Qed.

Lemma two_inj c1 c2 : decimal c1 -> decimal c2 -> two (10 * (c1 - 48) + (c2 - 48)) = [c1; c2].
Proof. unfold decimal, two. intros A B. f_equal; [lia|]. f_equal. lia. Qed.
Lemma two_digits n : n < 100 -> decimal (48 + n / 10) /\ decimal (48 + n mod 10).
Proof. unfold decimal. intros. lia. Qed.

Lemma expect_two_iff i s nexts sp f n sp' i' r :
  expect_two_digit_num (i, s) nexts sp f = Ok (n, sp', (i', r)) <->
  n < 100 /\ s = two n ++ r /\ i' = i + 2 /\ sp' = mkspan (pos_plus (s_start sp) i) (pos_plus (pos_plus (s_start sp) i) 2).
Proof.
  split.
  - unfold expect_two_digit_num, cnext. cbn [fst snd]. destruct s as [|c s]; [discriminate|].
    destruct (is_digit c) eqn:D.
    + destruct s as [|c1 s]; [discriminate|]. cbn [fst snd]. destruct (is_digit c1) eqn:D1.
      * intros H. injection H as <- <- <- <-. apply is_digit_iff in D. apply is_digit_iff in D1.
        rewrite two_inj by assumption. unfold decimal in *. cbn [app].
        rewrite !len_utf8_ascii by lia. repeat split; lia.
      * destruct (existsb _ _); discriminate.
    + destruct (existsb _ _); discriminate.
  - intros (L & -> & -> & ->). destruct (two_digits n L) as [A B]. unfold two.
    unfold expect_two_digit_num, cnext. cbn [fst snd app].
    rewrite (proj2 (is_digit_iff _) A). cbn [fst snd]. rewrite (proj2 (is_digit_iff _) B).
    unfold decimal in *. rewrite !len_utf8_ascii by lia.
    replace (10 * (48 + n / 10 - 48) + (48 + n mod 10 - 48)) with n by lia.
    replace (i + 1 + 1) with (i + 2) by lia. reflexivity.
Qed.

Lemma check_range_iff v s lo hi f : check_range v s lo hi f = Ok tt <-> lo <= v <= hi.
Proof.
  unfold check_range. destruct ((lo <=? v) && (v <=? hi)) eqn:E; split; try discriminate; try reflexivity; lia.
Qed.

Lemma expect_char_iff i s sp f e i' r : e < 128 ->
  (expect_char (i, s) sp f e = Ok (i', r) <-> s = e :: r /\ i' = i + 1).
Proof.
  intros L. unfold expect_char, cnext. cbn [fst snd]. destruct s as [|c s].
  - split; [discriminate|intros [H _]; discriminate].
  - destruct (c =? e) eqn:E.
    + apply N.eqb_eq in E. subst c. rewrite len_utf8_ascii by assumption. split.
      * intros H. injection H as <- <-. auto.
      * intros [H ->]. injection H as ->. reflexivity.
    + apply N.eqb_neq in E. split; [discriminate|]. intros [H _]. injection H as -> _. congruence.
Qed.

(** ** Fractions of a second *)

Definition at_offset (r : list N) : Prop := r = [] \/ exists c r', r = c :: r' /\ is_offset_start c = true.

Lemma pow10_split k n : n <= k -> 10 ^ k = 10 ^ n * 10 ^ (k - n).
Proof. intros H. rewrite <- N.pow_add_r. f_equal. lia. Qed.

Lemma val_acc_zeros n a : val_acc a (repeat 48 n) = a * 10 ^ N.of_nat n.
Proof.
  unfold val_acc. revert a. induction n as [|n IH]; intros a; cbn [repeat fold_left].
  - cbn. lia.
  - rewrite IH. rewrite Nat2N.inj_succ, N.pow_succ_r'. unfold digit_val. lia.
Qed.
Lemma val_acc_app a x y : val_acc a (x ++ y) = val_acc (val_acc a x) y.
Proof. unfold val_acc. apply fold_left_app. Qed.

Lemma firstn_repeat (x : N) : forall m n, (m <= n)%nat -> firstn m (repeat x n) = repeat x m.
Proof. induction m; intros n L; [reflexivity|]. destruct n; [lia|]. cbn. f_equal. apply IHm. lia. Qed.

Lemma subsec_iff sp : forall s k v i n i' r, (k <= 9)%nat ->
  subsec_loop sp (N.of_nat k) v i s = Ok (n, (i', r)) <->
  exists ds, Forall decimal ds /\ s = ds ++ r /\ at_offset r /\ i' = i + N.of_nat (length ds) /\
    (k = 0%nat -> ds <> []) /\
    n = val_acc v (firstn (9 - k) (ds ++ repeat 48 9)).
Proof.
  assert (FIN : forall s k v i n i' r, (k <= 9)%nat -> at_offset s ->
     (if N.of_nat k =? 0 then Err (EDateTimeMissingSubsec (s_end sp)) else Ok (v * 10 ^ (9 - N.of_nat k), (i, s))) = Ok (n, (i', r)) <->
     exists ds, Forall decimal ds /\ s = ds ++ r /\ at_offset r /\ i' = i + N.of_nat (length ds) /\
      (k = 0%nat -> ds <> []) /\ n = val_acc v (firstn (9 - k) (ds ++ repeat 48 9))).
  { intros s k v i n i' r K A.
    assert (Z : forall ds r, Forall decimal ds -> s = ds ++ r -> ds = []).
    { intros ds r' F ->. destruct ds as [|d ds]; [reflexivity|]. exfalso. inversion F as [|? ? D _]; subst.
      destruct A as [A|(c & r'' & A & O)]; [discriminate|]. injection A as <- _.
      unfold is_offset_start, decimal in *. lia. }
    destruct (N.of_nat k =? 0) eqn:E.
    - split; [discriminate|]. intros (ds & F & S & _ & _ & NE & _). exfalso. apply NE; [lia|]. eapply Z; eassumption.
    - assert (V : val_acc v (firstn (9 - k) (repeat 48 9)) = v * 10 ^ (9 - N.of_nat k)).
      { rewrite firstn_repeat by lia. rewrite val_acc_zeros. do 2 f_equal. lia. }
      split.
      + intros H. injection H as <- <- <-. exists []. cbn [app length]. rewrite V. repeat split; auto; [lia|lia].
      + intros (ds & F & S & _ & -> & _ & ->). pose proof (Z _ _ F S) as ->. cbn [app length] in *. subst r. rewrite V.
        f_equal. f_equal. f_equal. lia. }
  induction s as [|c s IH]; intros k v i n i' r K; cbn [subsec_loop].
  - apply FIN; [assumption|left; reflexivity].
  - destruct (is_digit c) eqn:D.
    + apply is_digit_iff in D.
      assert (STEP : forall k' v', (k' <= 9)%nat -> (k' <> 0)%nat ->
         (forall ds, val_acc v' (firstn (9 - k') (ds ++ repeat 48 9)) = val_acc v (firstn (9 - k) ((c :: ds) ++ repeat 48 9))) ->
         subsec_loop sp (N.of_nat k') v' (i + 1) s = Ok (n, (i', r)) <->
         exists ds, Forall decimal ds /\ c :: s = ds ++ r /\ at_offset r /\ i' = i + N.of_nat (length ds) /\
           (k = 0%nat -> ds <> []) /\ n = val_acc v (firstn (9 - k) (ds ++ repeat 48 9))).
      { intros k' v' K' NZ V. rewrite IH by assumption. split.
        - intros (ds & F & -> & A & -> & _ & ->). exists (c :: ds). cbn [length].
          split; [constructor; assumption|]. split; [reflexivity|]. split; [assumption|]. split; [lia|].
          split; [discriminate|]. apply V.
        - intros (ds & F & E & A & -> & _ & ->). destruct ds as [|d ds].
          + cbn [app] in E. subst r. exfalso. destruct A as [A|(c' & r' & A & O)]; [discriminate|].
            injection A as <- _. unfold is_offset_start, decimal in *. lia.
          + cbn [app] in E. injection E as <- ->. inversion F; subst. exists ds. cbn [length].
            split; [assumption|]. split; [reflexivity|]. split; [assumption|]. split; [lia|]. split; [lia|].
            symmetry. apply V. }
      destruct (N.of_nat k <? 9) eqn:L.
      * replace (N.of_nat k + 1) with (N.of_nat (S k)) by lia. apply STEP; [lia|lia|].
        intros ds. replace (9 - k)%nat with (S (9 - S k)) by lia. cbn [app firstn]. 
        unfold val_acc at 2. cbn [fold_left]. unfold digit_val at 2. reflexivity.
      * assert (k = 9%nat) as -> by lia. apply STEP; [lia|lia|]. intros ds. reflexivity.
    + assert (ND : ~ decimal c) by (rewrite <- is_digit_iff; congruence).
      destruct (is_offset_start c) eqn:O.
      * apply FIN; [assumption|]. right. eauto.
      * split; [discriminate|]. intros (ds & F & E & A & _). exfalso. destruct ds as [|d ds].
        -- cbn [app] in E. subst r. destruct A as [A|(c' & r' & A & O')]; [discriminate|]. injection A as <- _. congruence.
        -- injection E as <- _. inversion F; subst. contradiction.
Qed.

Lemma cpt_iff i s sp h t i' r :
  continue_parsing_time (i, s) sp h = Ok (t, (i', r)) <->
  exists m sec ft n, m < 60 /\ sec < 60 /\ subsec_text ft n /\ s = two m ++ [58] ++ two sec ++ ft ++ r /\ at_offset r /\
    t = mktime h m sec n /\ i' = i + tlen (two m ++ [58] ++ two sec ++ ft).
Proof.
  assert (T2 : forall n x, n < 100 -> tlen (two n ++ x) = 2 + tlen x).
  { intros n x L. destruct (two_digits n L). unfold two, decimal in *. cbn [app tlen]. rewrite !len_utf8_ascii by lia. lia. }
  assert (TD : forall ds, Forall decimal ds -> tlen ds = N.of_nat (length ds)).
  { induction 1 as [|d ds D F IH]; cbn [tlen length]; [reflexivity|]. unfold decimal in D. rewrite len_utf8_ascii, IH by lia. lia. }
  unfold continue_parsing_time. split.
  - intros H. apply bind_ok in H as (((m & ms) & (i1 & s1)) & E1 & H). apply expect_two_iff in E1 as (L1 & -> & -> & _).
    apply bind_ok in H as ([] & R1 & H). apply check_range_iff in R1.
    apply bind_ok in H as ((i2 & s2) & E2 & H). apply expect_char_iff in E2 as (-> & ->); [|lia].
    apply bind_ok in H as (((sec & ss) & (i3 & s3)) & E3 & H). apply expect_two_iff in E3 as (L3 & -> & -> & _).
    apply bind_ok in H as ([] & R3 & H). apply check_range_iff in R3.
    apply bind_ok in H as ((n & (i4 & s4)) & E4 & H). cbn [snd fst] in *.
    assert (FIN : s4 = r /\ at_offset r /\ t = mktime h m sec n /\ i4 = i').
    { destruct s4 as [|c s4]; [injection H as <- <- <-; repeat split; left; reflexivity|].
      destruct (is_offset_start c) eqn:O; [|discriminate]. injection H as <- <- <-.
      repeat split. right. eauto. }
    destruct FIN as (<- & A & -> & <-). clear H.
    destruct s3 as [|c s3].
    + injection E4 as <- <- <-. exists m, sec, [], 0. split; [lia|]. split; [lia|]. split; [constructor|]. split; [reflexivity|].
      split; [assumption|]. split; [reflexivity|]. rewrite T2 by lia. cbn [app tlen]. rewrite T2 by lia. cbn [tlen].
      change (len_utf8 58) with 1. lia.
    + destruct (N.eq_dec c 46) as [->|N46].
      * apply (subsec_iff sp s3 0 0) in E4; [|lia]. destruct E4 as (ds & F & -> & _ & -> & NE & ->).
        exists m, sec, (46 :: ds), (dec_val (firstn 9 (ds ++ repeat 48 9))).
        split; [lia|]. split; [lia|]. split; [constructor; auto|]. split; [reflexivity|]. split; [assumption|]. split; [reflexivity|].
        rewrite T2 by lia. cbn [app tlen]. rewrite T2 by lia. cbn [tlen]. rewrite TD by assumption.
        change (len_utf8 58) with 1. change (len_utf8 46) with 1. cbn [fst snd] in *. lia.
      * assert (E : Ok (0, (i + 2 + 1 + 2, c :: s3)) = Ok (n, (i4, s4)) :> res terror (N * citer)).
        { etransitivity; [|exact E4]. destruct c as [|q]; [reflexivity|]. repeat (destruct q as [q|q|]; try reflexivity). congruence. }
        injection E as <- <- <-. exists m, sec, [], 0. split; [lia|]. split; [lia|]. split; [constructor|]. split; [reflexivity|].
        split; [assumption|]. split; [reflexivity|]. rewrite T2 by lia. cbn [app tlen]. rewrite T2 by lia. cbn [tlen].
        change (len_utf8 58) with 1. lia.
  - intros (m & sec & ft & n & M & S & F & -> & A & -> & ->).
    rewrite T2 by lia. cbn [app tlen]. rewrite T2 by lia. change (len_utf8 58) with 1.
    apply bind_ok. eexists (m, _, (i + 2, 58 :: two sec ++ ft ++ r)). split; [apply expect_two_iff; repeat split; lia|].
    cbv beta iota. apply bind_ok. exists tt. split; [apply check_range_iff; lia|].
    apply bind_ok. exists (i + 2 + 1, two sec ++ ft ++ r). split; [apply expect_char_iff; [lia|auto]|].
    apply bind_ok. eexists (sec, _, (i + 2 + 1 + 2, ft ++ r)). split; [apply expect_two_iff; repeat split; lia|].
    cbv beta iota. apply bind_ok. exists tt. split; [apply check_range_iff; lia|].
    apply bind_ok. exists (n, (i + (2 + (1 + (2 + tlen ft))), r)). split.
    + cbn [fst snd]. destruct F as [|ds NE F].
      * cbn [app]. replace (i + (2 + (1 + (2 + tlen [])))) with (i + 2 + 1 + 2) by (cbn [tlen]; lia).
        destruct A as [->|(c & r' & -> & O)]; [reflexivity|].
        destruct c as [|q]; [reflexivity|]. repeat (destruct q as [q|q|]; try reflexivity). discriminate.
      * cbn [app]. apply (subsec_iff sp (ds ++ r) 0 0); [lia|]. exists ds. cbn [tlen]. rewrite TD by assumption.
        change (len_utf8 46) with 1. cbn [fst]. repeat split; auto. lia.
    + cbn [fst snd]. destruct A as [->|(c & r' & -> & O)]; [reflexivity|]. rewrite O. reflexivity.
Qed.

(** ** Offsets *)

Lemma at_offset_text ox o g : offset_text ox o -> at_offset (ox ++ g).
Proof.
  right. destruct H as [c [->| ->]|h m _ _|h m _ _].
  - exists 90, g. auto.
  - exists 122, g. auto.
  - exists 43. eexists. split; reflexivity.
  - exists 45. eexists. split; reflexivity.
Qed.

Lemma parse_offset_iff i s sp v :
  (exists it, parse_offset (i, s) sp = Ok (v, it)) <->
  exists h m g, h < 24 /\ m < 60 /\ s = two h ++ [58] ++ two m ++ g /\ v = 60 * h + m.
Proof.
  unfold parse_offset. split.
  - intros (it & H). apply bind_ok in H as (((h & hs) & (i1 & s1)) & E1 & H). apply expect_two_iff in E1 as (L1 & -> & -> & _).
    apply bind_ok in H as ([] & R1 & H). apply check_range_iff in R1.
    apply bind_ok in H as ((i2 & s2) & E2 & H). apply expect_char_iff in E2 as (-> & ->); [|lia].
    apply bind_ok in H as (((m & ss) & (i3 & s3)) & E3 & H). apply expect_two_iff in E3 as (L3 & -> & -> & _).
    apply bind_ok in H as ([] & R3 & H). apply check_range_iff in R3. injection H as <- <-.
    exists h, m, s3. repeat split; lia.
  - intros (h & m & g & Lh & Lm & -> & ->). eexists.
    apply bind_ok. eexists (h, _, (i + 2, 58 :: two m ++ g)). split; [apply expect_two_iff; repeat split; lia|].
    cbv beta iota. apply bind_ok. exists tt. split; [apply check_range_iff; lia|].
    apply bind_ok. exists (i + 2 + 1, two m ++ g). split; [apply expect_char_iff; [lia|auto]|].
    apply bind_ok. eexists (m, _, (i + 2 + 1 + 2, g)). split; [apply expect_two_iff; repeat split; lia|].
    cbv beta iota. apply bind_ok. exists tt. split; [apply check_range_iff; lia|]. reflexivity.
Qed.

Lemma try_offset_iff i s sp o :
  try_to_parse_offset (i, s) sp = Ok o <->
  (s = [] /\ o = None) \/ exists ox g off, offset_text ox off /\ s = ox ++ g /\ o = Some off.
Proof.
  unfold try_to_parse_offset, cnext. cbn [fst snd]. destruct s as [|c s].
  - split.
    + intros H. injection H as <-. auto.
    + intros [(_ & ->)|(ox & g & off & T & E & _)]; [reflexivity|]. destruct T; discriminate.
  - destruct ((c =? 90) || (c =? 122)) eqn:Z.
    + assert (K : c = 90 \/ c = 122) by lia. split.
      * intros H. injection H as <-. right. exists [c], s, OUtc. split; [constructor; assumption|auto].
      * intros [(E & _)|(ox & g & off & T & E & ->)]; [discriminate|]. destruct T as [c' C|h m _ _|h m _ _]; [reflexivity| |];
          injection E as E _; lia.
    + destruct (c =? 43) eqn:P; [|destruct (c =? 45) eqn:M].
      * apply N.eqb_eq in P. subst c. split.
        -- intros H. apply bind_ok in H as ((v & it) & H & E). injection E as <-.
           destruct (proj1 (parse_offset_iff _ _ _ _) (ex_intro _ _ H)) as (h & m & g & A & B & -> & ->).
           right. exists ([43] ++ two h ++ [58] ++ two m), g, (OCustom (Z.of_N (60 * h + m))).
           split; [constructor; assumption|]. split; [|reflexivity]. cbn [app]. rewrite <- !app_assoc. reflexivity.
        -- intros [(E & _)|(ox & g & off & T & E & ->)]; [discriminate|].
           destruct T as [c' C|h m A B|h m A B]; [injection E as E _; lia| |discriminate].
           assert (ES : s = two h ++ 58 :: two m ++ g) by (injection E as E; rewrite E; reflexivity). clear E. subst s.
           destruct (proj2 (parse_offset_iff (i + len_utf8 43) (two h ++ 58 :: two m ++ g) sp (60 * h + m))) as (it' & Q').
           { exists h, m, g. auto. }
           rewrite Q'. reflexivity.
      * apply N.eqb_eq in M. subst c. split.
        -- intros H. apply bind_ok in H as ((v & it) & H & E). injection E as <-.
           destruct (proj1 (parse_offset_iff _ _ _ _) (ex_intro _ _ H)) as (h & m & g & A & B & -> & ->).
           right. exists ([45] ++ two h ++ [58] ++ two m), g, (OCustom (- Z.of_N (60 * h + m))).
           split; [constructor; assumption|]. split; [|reflexivity]. cbn [app]. rewrite <- !app_assoc. reflexivity.
        -- intros [(E & _)|(ox & g & off & T & E & ->)]; [discriminate|].
           destruct T as [c' C|h m A B|h m A B]; [injection E as E _; lia|discriminate|].
           assert (ES : s = two h ++ 58 :: two m ++ g) by (injection E as E; rewrite E; reflexivity). clear E. subst s.
           destruct (proj2 (parse_offset_iff (i + len_utf8 45) (two h ++ 58 :: two m ++ g) sp (60 * h + m))) as (it' & Q').
           { exists h, m, g. auto. }
           rewrite Q'. reflexivity.
      * split; [discriminate|].
        intros [(E & _)|(ox & g & off & T & E & ->)]; [discriminate|]. destruct T as [c' C|h m _ _|h m _ _]; injection E as E _; lia.
Qed.

(** ** Times *)

Lemma local_time_iff i s sp h t :
  continue_parsing_local_time (i, s) sp h = Ok t <->
  h < 24 /\ exists m sec n, min_sec_text (58 :: s) m sec n /\ t = mktime h m sec n.
Proof.
  unfold continue_parsing_local_time. split.
  - intros H. apply bind_ok in H as ([] & R & H). apply check_range_iff in R.
    apply bind_ok in H as ((t' & (i' & r)) & E & H). apply bind_ok in H as ([] & O & H). injection H as <-.
    apply cpt_iff in E as (m & sec & ft & n & M & S & F & -> & A & -> & _).
    assert (r = []) as ->.
    { destruct r as [|c r]; [reflexivity|]. unfold error_on_offset, cnext in O. cbn [fst snd] in O.
      destruct (is_offset_start c); discriminate. }
    split; [lia|]. exists m, sec, n. split; [|reflexivity]. rewrite app_nil_r.
    change (58 :: two m ++ [58] ++ two sec ++ ft) with ([58] ++ two m ++ [58] ++ two sec ++ ft). constructor; assumption.
  - intros (L & m & sec & n & T & ->). remember (58 :: s) as w eqn:W. destruct T as [m sec ft n M S F].
    assert (ES : s = two m ++ [58] ++ two sec ++ ft) by (injection W as W; rewrite <- W; reflexivity). clear W. subst s.
    apply bind_ok. exists tt. split; [apply check_range_iff; lia|].
    apply bind_ok. eexists (_, (_, [])). split.
    + apply cpt_iff. exists m, sec, ft, n. split; [assumption|]. split; [assumption|]. split; [assumption|].
      split; [rewrite app_nil_r; reflexivity|]. split; [left; reflexivity|]. split; reflexivity.
    + reflexivity.
Qed.

Lemma time_and_offset_iff i s sp t o :
  parse_time_and_offset (i, s) sp = Ok (t, o) <->
  (exists tx, time_text tx t /\ s = tx /\ o = None) \/
  (exists tx ox off g, time_text tx t /\ offset_text ox off /\ s = tx ++ ox ++ g /\ o = Some off).
Proof.
  unfold parse_time_and_offset. split.
  - intros H. apply bind_ok in H as (((h & hs) & (i1 & s1)) & E1 & H). apply expect_two_iff in E1 as (L1 & -> & -> & _).
    apply bind_ok in H as ([] & R1 & H). apply check_range_iff in R1.
    apply bind_ok in H as ((i2 & s2) & E2 & H). apply expect_char_iff in E2 as (-> & ->); [|lia].
    apply bind_ok in H as ((t' & (i' & r)) & E & H). apply bind_ok in H as (o' & O & H). injection H as <- <-.
    apply cpt_iff in E as (m & sec & ft & n & M & S & F & -> & A & -> & _).
    assert (TT : time_text (two h ++ [58] ++ two m ++ [58] ++ two sec ++ ft) (mktime h m sec n)).
    { constructor; [lia|]. constructor; assumption. }
    apply try_offset_iff in O as [(-> & ->)|(ox & g & off & T & -> & ->)].
    + left. eexists. split; [exact TT|]. split; [|reflexivity]. rewrite app_nil_r. reflexivity.
    + right. eexists _, ox, off, g. split; [exact TT|]. split; [assumption|]. split; [|reflexivity].
      cbn [app]. repeat (rewrite <- ?app_assoc; cbn [app]). reflexivity.
  - intros H.
    assert (K : exists h m sec ft n r, h < 24 /\ m < 60 /\ sec < 60 /\ subsec_text ft n /\ t = mktime h m sec n /\
                 s = two h ++ 58 :: (two m ++ [58] ++ two sec ++ ft ++ r) /\ at_offset r /\
                 forall j, try_to_parse_offset (j, r) sp = Ok o).
    { destruct H as [(tx & T & -> & ->)|(tx & ox & off & g & T & O & -> & ->)];
        inversion T as [h mt m sec n L MT]; subst; inversion MT as [m' s' ft n' M S F]; subst.
      - exists h, m, sec, ft, n, []. do 5 (split; [auto|]). split; [rewrite app_nil_r; reflexivity|].
        split; [left; reflexivity|]. intros j. apply try_offset_iff. auto.
      - exists h, m, sec, ft, n, (ox ++ g). do 5 (split; [auto|]).
        split; [cbn [app]; repeat (rewrite <- ?app_assoc; cbn [app]); reflexivity|].
        split; [eapply at_offset_text; eassumption|]. intros j. apply try_offset_iff. right. exists ox, g, off. auto. }
    destruct K as (h & m & sec & ft & n & r & L & M & S & F & -> & -> & A & O).
    apply bind_ok. eexists (h, _, (i + 2, 58 :: two m ++ [58] ++ two sec ++ ft ++ r)). split; [apply expect_two_iff; repeat split; lia|].
    cbv beta iota. apply bind_ok. exists tt. split; [apply check_range_iff; lia|].
    apply bind_ok. exists (i + 2 + 1, two m ++ [58] ++ two sec ++ ft ++ r). split; [apply expect_char_iff; [lia|auto]|].
    apply bind_ok. eexists (_, (_, r)). split.
    + apply cpt_iff. exists m, sec, ft, n. do 5 (split; [solve [auto]|]). split; reflexivity.
    + cbv beta iota. rewrite O. reflexivity.
Qed.

(** ** Dates *)

Lemma is_leap_iff y : is_leap_year y = true <-> leap y.
Proof.
  unfold is_leap_year, leap.
  assert (D : forall k, k <> 0 -> (y mod k =? 0) = true <-> N.divide k y).
  { intros k K. rewrite N.eqb_eq. apply N.mod_divide. assumption. }
  rewrite andb_true_iff, orb_true_iff, negb_true_iff, D by lia. rewrite D by lia.
  rewrite <- not_true_iff_false, D by lia. tauto.
Qed.

Lemma max_day_iff y m d : 1 <= m <= 12 -> (d <= max_day y m <-> exists n, month_days y m n /\ d <= n).
Proof.
  intros M. unfold max_day.
  assert (MM : m = 1 \/ m = 2 \/ m = 3 \/ m = 4 \/ m = 5 \/ m = 6 \/ m = 7 \/ m = 8 \/ m = 9 \/ m = 10 \/ m = 11 \/ m = 12) by lia.
  split.
  - intros L. destruct (m =? 2) eqn:E2.
    + apply N.eqb_eq in E2. subst m. destruct (is_leap_year y) eqn:LY.
      * exists 29. split; [constructor; apply is_leap_iff; assumption|assumption].
      * exists 28. split; [constructor; rewrite <- is_leap_iff; congruence|assumption].
    + destruct ((m =? 4) || (m =? 6) || (m =? 9) || (m =? 11)) eqn:E30.
      * exists 30. split; [|assumption]. constructor. cbn [In]. lia.
      * exists 31. split; [|assumption]. constructor. cbn [In]. lia.
  - intros (n & H & L). inversion H as [y' m' I|y' m' I|y' LY|y' LY]; subst.
    + cbn [In] in I. replace (m =? 2) with false by lia. replace ((m =? 4) || (m =? 6) || (m =? 9) || (m =? 11)) with false by lia. assumption.
    + cbn [In] in I. replace (m =? 2) with false by lia. replace ((m =? 4) || (m =? 6) || (m =? 9) || (m =? 11)) with true by lia. assumption.
    + apply is_leap_iff in LY. rewrite LY. assumption.
    + rewrite <- is_leap_iff in LY. apply not_true_iff_false in LY. rewrite LY. assumption.
Qed.

(** The rest of a date or date-time after the year and its dash. *)
Inductive after_year (y : N) : list N -> pval -> Prop :=
| ay_date d : dt_year d = y -> valid_date d ->
    after_year y (two (dt_month d) ++ [45] ++ two (dt_day d)) (PPartialDate d)
| ay_local d sep tx t : dt_year d = y -> valid_date d -> sep = 84 \/ sep = 116 -> time_text tx t ->
    after_year y (two (dt_month d) ++ [45] ++ two (dt_day d) ++ [sep] ++ tx) (PDateTime (LocalDateTime d t))
| ay_offset d sep tx t ox o g : dt_year d = y -> valid_date d -> sep = 84 \/ sep = 116 -> time_text tx t ->
    offset_text ox o ->
    after_year y (two (dt_month d) ++ [45] ++ two (dt_day d) ++ [sep] ++ tx ++ ox ++ g) (PDateTime (OffsetDateTime d t o)).

Lemma month_days_month y m n : month_days y m n -> 1 <= m <= 12 /\ n <= 31.
Proof. destruct 1 as [y m I|y m I|y _|y _]; cbn [In] in *; lia. Qed.

Lemma valid_date_iff y m d : y <= 9999 ->
  (valid_date (mkdate y m d) <-> 1 <= m <= 12 /\ 1 <= d <= max_day y m).
Proof.
  intros Y. unfold valid_date. cbn [dt_year dt_month dt_day]. split.
  - intros (_ & n & H & L1 & L2). pose proof (month_days_month _ _ _ H) as [M _]. split; [assumption|].
    split; [assumption|]. apply max_day_iff; [assumption|]. eauto.
  - intros (M & L1 & L2). split; [assumption|]. apply max_day_iff in L2 as (n & H & L); [|assumption]. eauto.
Qed.
Lemma max_day_le y m : max_day y m <= 31.
Proof. unfold max_day. repeat destruct (_ || _); destruct (m =? 2); try destruct (is_leap_year y); lia. Qed.

Lemma after_year_iff i s sp y v : y <= 9999 ->
  (continue_parsing_date_time_after_year (i, s) sp y = Ok v <-> after_year y s v).
Proof.
  intros Y. unfold continue_parsing_date_time_after_year. split.
  - intros H. apply bind_ok in H as (((mo & hs) & (i1 & s1)) & E1 & H). apply expect_two_iff in E1 as (L1 & -> & -> & _).
    apply bind_ok in H as ([] & R1 & H). apply check_range_iff in R1.
    apply bind_ok in H as ((i2 & s2) & E2 & H). apply expect_char_iff in E2 as (-> & ->); [|lia].
    apply bind_ok in H as (((da & ss) & (i3 & s3)) & E3 & H). apply expect_two_iff in E3 as (L3 & -> & -> & _).
    apply bind_ok in H as ([] & R3 & H). apply check_range_iff in R3. cbv zeta in H. unfold cnext in H. cbn [fst snd] in H.
    assert (V : valid_date (mkdate y mo da)) by (apply valid_date_iff; auto).
    destruct s3 as [|c s3].
    + injection H as <-. change (two mo ++ 45 :: two da ++ []) with (two mo ++ [45] ++ two da ++ []). rewrite app_nil_r.
      exact (ay_date y (mkdate y mo da) eq_refl V).
    + destruct ((c =? 84) || (c =? 116)) eqn:T.
      * apply bind_ok in H as ((t & o) & H & E). injection E as <-.
        apply time_and_offset_iff in H as [(tx & TT & -> & ->)|(tx & ox & off & g & TT & OT & -> & ->)].
        -- apply (ay_local y (mkdate y mo da) c tx t eq_refl V); [lia|assumption].
        -- apply (ay_offset y (mkdate y mo da) c tx t ox off g eq_refl V); [lia|assumption|assumption].
      * destruct (is_digit c); discriminate.
  - intros H.
    assert (K : exists mo da s3, valid_date (mkdate y mo da) /\ s = two mo ++ 45 :: two da ++ s3 /\
       ((s3 = [] /\ v = PPartialDate (mkdate y mo da)) \/
        exists sep s4 t o, (sep = 84 \/ sep = 116) /\ s3 = sep :: s4 /\ v = PDateTime (from_optional_offset (mkdate y mo da) t o) /\
          forall j, parse_time_and_offset (j, s4) sp = Ok (t, o))).
    { destruct H as [d E V|d sep tx t E V S T|d sep tx t ox o g E V S T O]; destruct d as [y' mo da]; cbn [dt_year dt_month dt_day] in *; subst y';
        exists mo, da.
      - exists []. split; [assumption|]. split; [rewrite app_nil_r; reflexivity|auto].
      - exists (sep :: tx). split; [assumption|]. split; [reflexivity|]. right. exists sep, tx, t, None.
        do 3 (split; [solve [auto]|]). intros j. apply time_and_offset_iff. left. eauto.
      - exists (sep :: tx ++ ox ++ g). split; [assumption|]. split; [reflexivity|]. right. exists sep, (tx ++ ox ++ g), t, (Some o).
        do 3 (split; [solve [auto]|]). intros j. apply time_and_offset_iff. right. exists tx, ox, o, g. auto. }
    destruct K as (mo & da & s3 & V & -> & K). apply valid_date_iff in V as (M & D); [|assumption].
    pose proof (max_day_le y mo).
    apply bind_ok. eexists (mo, _, (i + 2, 45 :: two da ++ s3)). split; [apply expect_two_iff; repeat split; lia|].
    cbv beta iota. apply bind_ok. exists tt. split; [apply check_range_iff; lia|].
    apply bind_ok. exists (i + 2 + 1, two da ++ s3). split; [apply expect_char_iff; [lia|auto]|].
    apply bind_ok. eexists (da, _, (i + 2 + 1 + 2, s3)). split; [apply expect_two_iff; repeat split; lia|].
    cbv beta iota. apply bind_ok. exists tt. split; [apply check_range_iff; lia|]. cbv zeta. unfold cnext. cbn [fst snd].
    destruct K as [(-> & ->)|(sep & s4 & t & o & S & -> & -> & K)]; [reflexivity|].
    replace ((sep =? 84) || (sep =? 116)) with true by lia. rewrite K. reflexivity.
Qed.

(** ** Where a date or time starts *)

(** Digits and single underscores, possibly with one at the end. *)
Inductive dtx : bool -> list N -> list N -> Prop :=
| dtx_nil lu : dtx lu [] []
| dtx_digit lu d t ds : decimal d -> dtx false t ds -> dtx lu (d :: t) (d :: ds)
| dtx_score t ds : dtx true t ds -> dtx false (95 :: t) ds.

Lemma dtx_iff t ds : dtx false t ds <-> us_cont decimal t ds \/ exists t', t = t' ++ [95] /\ us_cont decimal t' ds.
Proof.
  assert (F : forall lu t ds, dtx lu t ds ->
    (cont decimal lu t ds \/ (lu = true /\ t = [] /\ ds = [])) \/ exists t', t = t' ++ [95] /\ (cont decimal lu t' ds)).
  { clear. induction 1 as [lu|lu d t ds D H IH|t ds H IH].
    - left. destruct lu; [right; auto|left; constructor].
    - destruct IH as [[IH|(X & _)]|(t' & -> & IH)]; [|discriminate|].
      + left. left. apply cont_digit; [exact dec95|assumption|]. eauto.
      + right. exists (d :: t'). split; [reflexivity|]. apply cont_digit; [exact dec95|assumption|]. eauto.
    - destruct IH as [[IH|(_ & -> & ->)]|(t' & -> & IH)].
      + left. left. apply cont_score; [exact dec95|]. auto.
      + right. exists []. split; [reflexivity|]. constructor.
      + right. exists (95 :: t'). split; [reflexivity|]. apply cont_score; [exact dec95|]. auto. }
  assert (B : forall t ds, us_cont decimal t ds -> dtx false t ds /\ dtx false (t ++ [95]) ds).
  { clear. induction 1 as [|d t ds D H [I1 I2]|d t ds D H [I1 I2]]; cbn [app]; split; repeat (constructor; auto). }
  split.
  - intros H. destruct (F _ _ _ H) as [[C|(X & _)]|(t' & -> & C)]; [left; exact C|discriminate|right; eauto].
  - intros [H|(t' & -> & H)]; apply B; assumption.
Qed.
Lemma dtx_lu t ds lu : dtx true t ds -> dtx lu t ds.
Proof. intros H. inversion H; subst; constructor; assumption. Qed.

Definition dtval (v : pval) : Prop := (exists d, v = PDateTime d) \/ (exists d, v = PPartialDate d).

Ltac notdt V := destruct V as [(? & V)|(? & V)]; subst; discriminate.

Lemma dec_loop_no_dt lit sp sg v : dtval v -> forall rest acc ovf lu i, sg <> None \/ 5 <= i ->
  dec_loop lit sp sg acc ovf lu i rest <> Ok v.
Proof.
  intros V. induction rest as [|c r IH]; intros acc ovf lu i S; cbn [dec_loop].
  - destruct lu; [intros H; apply bind_ok in H as (x & _ & H); discriminate|]. destruct ovf; [discriminate|].
    intros H; injection H as <-. notdt V.
  - pose proof (len_utf8_pos c).
    assert (S' : sg <> None \/ 5 <= i + len_utf8 c) by (destruct S; [left; assumption|right; lia]).
    cbv zeta. destruct (is_digit c).
    { destruct ovf; [apply IH; assumption|]. destruct (_ && _); apply IH; assumption. }
    destruct (c =? 46).
    { destruct lu; intros H'; apply bind_ok in H' as (x & _ & H'); [discriminate|]. injection H' as <-. notdt V. }
    destruct (_ || _).
    { destruct lu; intros H'; apply bind_ok in H' as (x & _ & H'); [discriminate|]. injection H' as <-. notdt V. }
    assert (X : match sg with Some _ => false | None => true end = false \/ (sg = None /\ (i =? 2) = false /\ (i =? 4) = false /\ (i <=? 3) = false)).
    { destruct sg; [auto|]. right. destruct S; [congruence|]. repeat split; lia. }
    destruct X as [X|(-> & X2 & X4 & X3)].
    + rewrite X, !andb_false_r. cbn [andb].
      destruct (c =? 95); [|discriminate]. destruct lu; [intros H'; apply bind_ok in H' as (x & _ & H'); discriminate|].
      apply IH; assumption.
    + rewrite X2, X4, X3, !andb_false_r.
      destruct (_ && _).
      { destruct (nth_error (utf8 lit) 4); [|discriminate]. intros H'; injection H' as <-. notdt V. }
      destruct (c =? 95); [|discriminate]. destruct lu; [intros H'; apply bind_ok in H' as (x & _ & H'); discriminate|].
      apply IH; assumption.
Qed.

Definition dt_rest (v : pval) (i : N) (n : N) (r : list N) : Prop :=
  (i = 2 /\ n < 24 /\ exists m sec ns, min_sec_text r m sec ns /\ v = PDateTime (LocalTime (mktime n m sec ns))) \/
  (i = 4 /\ exists r', r = 45 :: r' /\ after_year n r' v).

Lemma min_sec_colon r m s n : min_sec_text r m s n -> exists r', r = 58 :: r'.
Proof. destruct 1. eexists. reflexivity. Qed.

Lemma dec_loop_dt lit sp v : dtval v -> forall rest n lu i, n < 10 ^ i ->
  (dec_loop lit sp None (Z.of_N n) false lu i rest = Ok v <->
   exists t ds r, dtx lu t ds /\ rest = t ++ r /\ dt_rest v (i + N.of_nat (length t)) (val_acc n ds) r).
Proof.
  intros V. induction rest as [|c r IH]; intros n lu i L.
  - cbn [dec_loop]. split.
    + destruct lu; [intros H; apply bind_ok in H as (x & _ & H); discriminate|].
      intros H; injection H as <-. notdt V.
    + intros (t & ds & r & _ & E & [(_ & _ & m & sec & ns & T & _)|(_ & r' & -> & _)]).
      * apply min_sec_colon in T as (r' & ->). destruct t; discriminate.
      * destruct t; discriminate.
  - destruct (N.le_gt_cases 5 i) as [I5|I5].
    { split; [intros H; exfalso; revert H; apply dec_loop_no_dt; auto|].
      intros (t & ds & r' & _ & _ & [(E & _)|(E & _)]); lia. }
    assert (P : 10 ^ i <= 10000) by (change 10000 with (10 ^ 4); apply N.pow_le_mono_r; lia).
    destruct (is_digit c) eqn:D.
    + assert (Q : dec_loop lit sp None (Z.of_N n) false lu i (c :: r) = dec_loop lit sp None (Z.of_N (10 * n + (c - 48))) false false (i + 1) r).
      { cbn [dec_loop]. rewrite D. cbv zeta iota. apply is_digit_iff in D. unfold decimal in D. rewrite len_utf8_ascii by lia.
        replace (Z.of_N n * 10 + 1 * Z.of_N (c - 48))%Z with (Z.of_N (10 * n + (c - 48))) by lia.
        replace (in_i64 (Z.of_N n * 10) && in_i64 (Z.of_N (10 * n + (c - 48)))) with true; [reflexivity|].
        unfold in_i64, i64_min, i64_max. lia. }
      apply is_digit_iff in D. pose proof D as D'. unfold decimal in D'.
      rewrite Q, IH by (rewrite N.add_1_r, N.pow_succ_r'; lia). clear Q. split.
      * intros (t & ds & r' & H & -> & T). exists (c :: t), (c :: ds), r'. split; [constructor; assumption|]. split; [reflexivity|].
        cbn [length]. replace (i + N.of_nat (S (length t))) with (i + 1 + N.of_nat (length t)) by lia. exact T.
      * intros (t & ds & r' & H & E & T).
        inversion H as [lu'|lu' d t' ds' DD H'|t' ds' H']; subst.
        -- cbn [app] in E. subst r'. exfalso. destruct T as [(_ & _ & m & sec & ns & T & _)|(_ & r' & T & _)].
           ++ apply min_sec_colon in T as (r' & T). injection T as -> _. lia.
           ++ injection T as -> _. lia.
        -- cbn [app] in E. injection E as <- ->. exists t', ds', r'. split; [assumption|]. split; [reflexivity|].
           cbn [length] in T. replace (i + 1 + N.of_nat (length t')) with (i + N.of_nat (S (length t'))) by lia. exact T.
        -- cbn [app] in E. injection E as -> _. lia.
    + assert (ND : ~ decimal c) by (rewrite <- is_digit_iff; congruence).
      assert (TL : c <> 95 -> forall t ds r', dtx lu t ds -> c :: r = t ++ r' -> t = [] /\ ds = [] /\ r' = c :: r).
      { intros U t ds r' H E. inversion H; subst; cbn [app] in E; [auto| |]; injection E as E _; [subst c; contradiction|congruence]. }
      destruct (N.eq_dec c 95) as [->|U].
      * rewrite dec_score.
        assert (TS : forall t ds r', dtx lu t ds -> 95 :: r = t ++ r' -> dt_rest v (i + N.of_nat (length t)) (val_acc n ds) r' ->
                     lu = false /\ exists t', t = 95 :: t' /\ r = t' ++ r' /\ dtx true t' ds).
        { intros t ds r' H E T. inversion H as [lu'|lu' d t' ds' DD H'|t' ds' H']; subst; cbn [app] in E.
          - subst r'. exfalso. destruct T as [(_ & _ & m & sec & ns & T & _)|(_ & r' & T & _)].
            + apply min_sec_colon in T as (r' & T). discriminate.
            + discriminate.
          - injection E as <- _. contradiction.
          - injection E as ->. eauto. }
        destruct lu.
        -- split; [intros H; apply bind_ok in H as (x & _ & H); discriminate|].
           intros (t & ds & r' & H & E & T). destruct (TS _ _ _ H E T) as (X & _). discriminate.
        -- rewrite IH by (rewrite N.add_1_r, N.pow_succ_r'; lia). split.
           ++ intros (t & ds & r' & H & -> & T). exists (95 :: t), ds, r'. split; [constructor; assumption|]. split; [reflexivity|].
              cbn [length]. replace (i + N.of_nat (S (length t))) with (i + 1 + N.of_nat (length t)) by lia. exact T.
           ++ intros (t & ds & r' & H & E & T). destruct (TS _ _ _ H E T) as (_ & t' & -> & E' & H').
              exists t', ds, r'. split; [assumption|]. split; [assumption|].
              cbn [length] in T. replace (i + 1 + N.of_nat (length t')) with (i + N.of_nat (S (length t'))) by lia. exact T.
      * transitivity (dt_rest v i n (c :: r)).
        2:{ split.
            - intros T. exists [], [], (c :: r). split; [constructor|]. split; [reflexivity|].
              cbn [length]. rewrite N.add_0_r. exact T.
            - intros (t & ds & r' & H & E & T). destruct (TL U _ _ _ H E) as (-> & -> & ->).
              cbn [length] in T. rewrite N.add_0_r in T. exact T. }
        clear TL IH. cbn [dec_loop]. rewrite D. cbv zeta.
        assert (NOT : c <> 58 -> c <> 45 -> ~ dt_rest v i n (c :: r)).
        { intros A B [(_ & _ & m & sec & ns & T & _)|(_ & r' & T & _)].
          - apply min_sec_colon in T as (r' & T). injection T as -> _. congruence.
          - injection T as -> _. congruence. }
        destruct (c =? 46) eqn:C46.
        { split; [|intros T; exfalso; revert T; apply NOT; lia].
          destruct lu; intros H'; apply bind_ok in H' as (x & _ & H'); [discriminate|]. injection H' as <-. notdt V. }
        destruct ((c =? 101) || (c =? 69)) eqn:CE.
        { split; [|intros T; exfalso; revert T; apply NOT; lia].
          destruct lu; intros H'; apply bind_ok in H' as (x & _ & H'); [discriminate|]. injection H' as <-. notdt V. }
        cbn [andb]. rewrite !andb_true_r.
        destruct (N.eq_dec c 58) as [->|N58].
        { change (58 =? 58) with true. change (58 =? 45) with false. cbn [andb].
          destruct (i =? 2) eqn:I2.
          - apply N.eqb_eq in I2. subst i.
            replace (Z.to_N (Z.of_N n mod 256)) with n by (change (10 ^ 2) with 100 in L; lia).
            split.
            + intros H. apply bind_ok in H as (t & H & E). injection E as <-. apply local_time_iff in H as (Lh & m & sec & ns & T & ->).
              left. eauto 8.
            + intros [(_ & Lh & m & sec & ns & T & ->)|(E & _)]; [|discriminate]. apply bind_ok. eexists. split; [|reflexivity].
              apply local_time_iff. eauto 6.
          - change (58 =? 95) with false. split.
            + destruct (i <=? 3); discriminate.
            + intros [(E & _)|(_ & r' & T & _)]; [lia|discriminate]. }
        replace (c =? 58) with false by lia. cbn [andb].
        destruct (N.eq_dec c 45) as [->|N45].
        { change (45 =? 45) with true. cbn [andb].
          destruct (i =? 4) eqn:I4.
          - apply N.eqb_eq in I4. subst i. change (10 ^ 4) with 10000 in L.
            replace (Z.to_N (Z.of_N n mod 65536)) with n by lia.
            split.
            + intros H. right. split; [reflexivity|]. exists r. split; [reflexivity|].
              unfold as_invalid_datetime in H. destruct (continue_parsing_date_time_after_year _ _ _) eqn:E; [|injection H as <-; notdt V|discriminate].
              injection H as ->. apply after_year_iff in E; [assumption|lia].
            + intros [(E & _)|(_ & r' & T & A)]; [discriminate|]. injection T as <-.
              rewrite (proj2 (after_year_iff (4 + len_utf8 45) r sp n v ltac:(lia)) A). reflexivity.
          - split.
            + replace (i <=? 6) with true by lia. destruct (i <=? 3); [intros H; injection H as <-; notdt V|].
              destruct (nth_error (utf8 lit) 4); [|discriminate]. intros H'; injection H' as <-. notdt V.
            + intros [(_ & _ & m & sec & ns & T & _)|(E & _)]; [|lia]. apply min_sec_colon in T as (r' & T). discriminate. }
        replace (c =? 45) with false by lia. cbn [andb]. replace (c =? 95) with false by lia.
        split; [discriminate|]. intros T; exfalso; revert T; apply NOT; lia.
Qed.

(** ** Whole literals *)

Definition lyear (t : list N) (y : N) : Prop := (y <= 9999 /\ t = four y) \/ underscored 4 t y.
Definition lhour (t : list N) (h : N) : Prop := (h < 100 /\ t = two h) \/ underscored 2 t h.

Inductive dtlit : list N -> pval -> Prop :=
| dtl_year yt y s v : lyear yt y -> after_year y s v -> dtlit (yt ++ 45 :: s) v
| dtl_time ht h s m sec n : lhour ht h -> h < 24 -> min_sec_text s m sec n ->
    dtlit (ht ++ s) (PDateTime (LocalTime (mktime h m sec n))).

Lemma dtlit_iff lit v : dtlit lit v <-> exists d, lenient_datetime lit d /\ v = as_pval d.
Proof.
  split.
  - destruct 1 as [yt y s v Y A|ht h s m sec n H L M].
    + destruct A as [d <- V|d sep tx t <- V S T|d sep tx t ox o g <- V S T O].
      * exists (LocalDate d). split; [|reflexivity]. apply dw_date; assumption.
      * exists (LocalDateTime d t). split; [|reflexivity]. apply dw_local; assumption.
      * exists (OffsetDateTime d t o). split; [|reflexivity]. apply dw_offset; auto.
    + exists (LocalTime (mktime h m sec n)). split; [|reflexivity]. apply dw_time; assumption.
  - intros (d & H & ->). destruct H as [yt d Y V|yt d sep tx t Y V S T|yt d sep tx t ox o g Y V S T O G|ht h mt m s n H L M].
    + apply (dtl_year yt (dt_year d)); [exact Y|]. apply (ay_date (dt_year d) d); auto.
    + apply (dtl_year yt (dt_year d)); [exact Y|]. apply (ay_local (dt_year d) d); auto.
    + apply (dtl_year yt (dt_year d)); [exact Y|]. apply (ay_offset (dt_year d) d); auto.
    + apply dtl_time; assumption.
Qed.

Lemma lyear_len t y : lyear t y -> length t = 4%nat.
Proof. intros [(_ & ->)|(H & _)]; [reflexivity|exact H]. Qed.
Lemma lhour_len t y : lhour t y -> length t = 2%nat.
Proof. intros [(_ & ->)|(H & _)]; [reflexivity|exact H]. Qed.

Lemma val_acc_lt ds : Forall decimal ds -> forall a, val_acc a ds < (a + 1) * 10 ^ N.of_nat (length ds).
Proof.
  unfold val_acc. induction 1 as [|d ds D F IH]; intros a; cbn [fold_left length].
  - cbn. lia.
  - specialize (IH (10 * a + digit_val d)). rewrite Nat2N.inj_succ, N.pow_succ_r'. unfold digit_val, decimal in *. nia.
Qed.

Lemma four_digits a b c d : decimal a -> decimal b -> decimal c -> decimal d ->
  four (1000 * (a - 48) + 100 * (b - 48) + 10 * (c - 48) + (d - 48)) = [a; b; c; d].
Proof. unfold decimal, four. intros. repeat (f_equal; [lia|]). f_equal. lia. Qed.

(** [d :: t] read as a year or an hour. *)
Lemma dtx_lead d t n len : 49 <= d <= 57 -> length (d :: t) = len ->
  ((exists ds, dtx false t ds /\ n = val_acc (d - 48) ds) <-> underscored len (d :: t) n).
Proof.
  intros D L. unfold underscored. split.
  - intros (ds & H & ->). split; [assumption|]. exists d, t, ds. split; [reflexivity|]. split; [assumption|].
    apply dtx_iff in H. split; [exact H|reflexivity].
  - intros (_ & d' & r & ds & E & _ & H & ->). injection E as <- <-. exists ds. split; [apply dtx_iff; exact H|reflexivity].
Qed.
Lemma four_lead d t y : 49 <= d <= 57 -> y <= 9999 -> d :: t = four y -> underscored 4 (d :: t) y.
Proof.
  intros D Y E. apply dtx_lead; [assumption|rewrite E; reflexivity|]. unfold four in E. injection E as -> ->.
  eexists [_; _; _]. split; [repeat (constructor; [unfold decimal; lia|]); constructor|].
  unfold val_acc, digit_val. cbn [fold_left]. lia.
Qed.
Lemma two_lead d t y : 49 <= d <= 57 -> y < 100 -> d :: t = two y -> underscored 2 (d :: t) y.
Proof.
  intros D Y E. apply dtx_lead; [assumption|rewrite E; reflexivity|]. unfold two in E. injection E as -> ->.
  eexists [_]. split; [repeat (constructor; [unfold decimal; lia|]); constructor|].
  unfold val_acc, digit_val. cbn [fold_left]. lia.
Qed.

Lemma lead_dt d r sp v i : dtval v -> 49 <= d <= 57 -> i = 1 ->
  (parse_decimal_int_float_or_date (i, r) (d :: r) sp (Z.of_N (d - 48)) None = Ok v <-> dtlit (d :: r) v).
Proof.
  intros V D ->. unfold parse_decimal_int_float_or_date. cbn [fst snd].
  replace (Z.of_N (d - 48) * 1)%Z with (Z.of_N (d - 48)) by lia.
  rewrite (dec_loop_dt (d :: r) sp v V r (d - 48) false 1) by (change (10 ^ 1) with 10; lia).
  split.
  - intros (t & ds & r' & H & -> & T). destruct T as [(L & Lh & m & sec & ns & T & ->)|(L & r'' & -> & A)].
    + change (d :: t ++ r') with ((d :: t) ++ r'). constructor; [|assumption|assumption].
      right. apply dtx_lead; [assumption|cbn [length]; lia|eauto].
    + change (d :: t ++ 45 :: r'') with ((d :: t) ++ 45 :: r''). econstructor; [|eassumption].
      right. apply dtx_lead; [assumption|cbn [length]; lia|eauto].
  - intros H. inversion H as [yt y s v' Y A E|ht h s m sec n HT Lh M E]; subst.
    + pose proof (lyear_len _ _ Y) as LL. destruct yt as [|d' t]; [discriminate|]. cbn [app] in E. injection E as -> <-.
      assert (U : underscored 4 (d :: t) y) by (destruct Y as [(Y & E)|Y]; [apply four_lead; assumption|assumption]).
      apply dtx_lead in U as (ds & U & ->); [|assumption|assumption]. cbn [length] in LL.
      exists t, ds, (45 :: s). split; [assumption|]. split; [reflexivity|]. right. split; [lia|]. eauto.
    + pose proof (lhour_len _ _ HT) as LL. destruct ht as [|d' t]; [discriminate|]. cbn [app] in E. injection E as -> <-.
      assert (U : underscored 2 (d :: t) h) by (destruct HT as [(Y & E)|Y]; [apply two_lead; assumption|assumption]).
      apply dtx_lead in U as (ds & U & ->); [|assumption|assumption]. cbn [length] in LL.
      exists t, ds, s. split; [assumption|]. split; [reflexivity|]. left. split; [lia|]. eauto 8.
Qed.

Lemma underscored_nz len t n : underscored len t n -> forall r, t <> 48 :: r.
Proof. intros (_ & d & r' & ds & -> & D & _) r E. injection E as -> _. lia. Qed.

Lemma cpdt_iff i s sp c v : dtval v -> decimal c ->
  (continue_parsing_date_time (i, s) sp (c - 48) = Ok v <-> dtlit (48 :: c :: s) v).
Proof.
  intros V D. pose proof D as D0. unfold decimal in D0. unfold continue_parsing_date_time, cnext. cbn [fst snd].
  assert (BAD : forall (j x : N), bad_year_char sp j x <> Ok v).
  { intros j x. unfold bad_year_char. destruct (_ || _); [discriminate|]. destruct (x =? 45); discriminate. }
  assert (INV : dtlit (48 :: c :: s) v ->
     (exists c1 c2 r, decimal c1 /\ decimal c2 /\ s = c1 :: c2 :: 45 :: r /\
        after_year (100 * (c - 48) + 10 * (c1 - 48) + (c2 - 48)) r v) \/
     (exists r m sec n, s = 58 :: r /\ min_sec_text s m sec n /\ v = PDateTime (LocalTime (mktime (c - 48) m sec n)))).
  { intros H. inversion H as [yt y s' v' Y A E|ht h s' m sec n HT Lh M E]; subst.
    - left. destruct Y as [(Y & ->)|Y].
      + unfold four in E. cbn [app] in E. injection E as E1 E2 E3. 
        exists (48 + y / 10 mod 10), (48 + y mod 10), s'. split; [unfold decimal; lia|]. split; [unfold decimal; lia|].
        split; [symmetry; exact E3|].
        replace (100 * (c - 48) + 10 * (48 + y / 10 mod 10 - 48) + (48 + y mod 10 - 48)) with y by lia. assumption.
      + exfalso. destruct yt as [|x yt]; [destruct Y as (Y & _); discriminate|]. cbn [app] in E. injection E as -> _.
        exact (underscored_nz _ _ _ Y _ eq_refl).
    - right. destruct HT as [(Y & ->)|Y].
      + unfold two in E. cbn [app] in E. injection E as E1 E2 E3.
        assert (h = c - 48) as -> by lia. subst s'. pose proof (min_sec_colon _ _ _ _ M) as (r & R).
        exists r, m, sec, n. auto.
      + exfalso. destruct ht as [|x yt]; [destruct Y as (Y & _); discriminate|]. cbn [app] in E. injection E as -> _.
        exact (underscored_nz _ _ _ Y _ eq_refl). }
  destruct s as [|c1 s].
  - split; [discriminate|]. intros H. exfalso. destruct (INV H) as [(a & b & r & _ & _ & E & _)|(r & m & sec & n & E & _)]; discriminate.
  - destruct (is_digit c1) eqn:D1.
    + apply is_digit_iff in D1. pose proof D1 as D1'. unfold decimal in D1'. cbn [fst snd]. destruct s as [|c2 s].
      * split; [discriminate|]. intros H. exfalso.
        destruct (INV H) as [(a & b & r & _ & _ & E & _)|(r & m & sec & n & E & _)]; [discriminate|]. injection E as -> _. lia.
      * cbn [fst snd]. destruct (is_digit c2) eqn:D2.
        -- apply is_digit_iff in D2. pose proof D2 as D2'. unfold decimal in D2'. split.
           ++ intros H. apply bind_ok in H as ((i' & r) & H & A). apply expect_char_iff in H as (-> & _); [|lia].
              apply after_year_iff in A; [|lia].
              change (48 :: c :: c1 :: c2 :: 45 :: r) with ([48; c; c1; c2] ++ 45 :: r).
              econstructor; [|eassumption]. left. split; [lia|].
              rewrite <- four_digits by (assumption || (unfold decimal; lia)). f_equal; lia.
           ++ intros H. destruct (INV H) as [(a & b & r & _ & _ & E & A)|(r & m & sec & n & E & _)]; [|injection E as -> _; lia].
              injection E as <- <- ->. apply bind_ok. eexists (_, r). split; [apply expect_char_iff; [lia|split; reflexivity]|].
              apply after_year_iff; [lia|assumption].
        -- split; [intros H; exfalso; exact (BAD _ _ H)|]. intros H. exfalso.
           destruct (INV H) as [(a & b & r & _ & DB & E & _)|(r & m & sec & n & E & _)].
           ++ injection E as <- <- _. apply is_digit_iff in DB. congruence.
           ++ injection E as -> _. lia.
    + destruct (c1 =? 58) eqn:E58.
      * apply N.eqb_eq in E58. subst c1. replace ((c - 48) mod 256) with (c - 48) by lia. split.
        -- intros H. apply bind_ok in H as (t & H & E). injection E as <-. apply local_time_iff in H as (Lh & m & sec & n & M & ->).
           change (48 :: c :: 58 :: s) with ([48; c] ++ 58 :: s). constructor; [|assumption|assumption].
           left. split; [lia|]. unfold two. f_equal; [lia|]. f_equal. lia.
        -- intros H. destruct (INV H) as [(a & b & r & DA & DB & E & _)|(r & m & sec & n & E & M & ->)].
           ++ exfalso. injection E as <- _. unfold decimal in DA. lia.
           ++ apply bind_ok. eexists. split; [|reflexivity]. apply local_time_iff. split; [lia|]. eauto.
      * split; [intros H; exfalso; exact (BAD _ _ H)|]. intros H. exfalso.
        destruct (INV H) as [(a & b & r & DA & _ & E & _)|(r & m & sec & n & E & _)].
        -- injection E as <- _. apply is_digit_iff in DA. congruence.
        -- injection E as -> _. lia.
Qed.

Lemma dtlit_starts lit v : dtlit lit v -> exists c r, decimal c /\ lit = c :: r.
Proof.
  assert (U : forall len t n, underscored len t n -> exists c r, decimal c /\ t = c :: r).
  { intros len t n (_ & d & r & ds & -> & D & _). exists d, r. split; [unfold decimal; lia|reflexivity]. }
  destruct 1 as [yt y s v Y _|ht h s m sec n H _ _].
  - destruct Y as [(Y & ->)|Y].
    + unfold four. cbn [app]. eexists _, _. split; [|reflexivity]. unfold decimal. lia.
    + destruct (U _ _ _ Y) as (c & r & D & ->). cbn [app]. eauto.
  - destruct H as [(Y & ->)|Y].
    + unfold two. cbn [app]. eexists _, _. split; [|reflexivity]. unfold decimal. lia.
    + destruct (U _ _ _ Y) as (c & r & D & ->). cbn [app]. eauto.
Qed.

Lemma zero_second v r : dtlit (48 :: r) v -> exists c r', decimal c /\ r = c :: r'.
Proof.
  intros H. inversion H as [yt y s' v' Y A E|ht h s' m sec n HT Lh M E]; subst.
  - destruct Y as [(Y & ->)|Y].
    + unfold four in E. cbn [app] in E. injection E as _ <-. eexists _, _. split; [|reflexivity]. unfold decimal. lia.
    + exfalso. destruct yt as [|x yt]; [destruct Y as (Y & _); discriminate|]. cbn [app] in E. injection E as -> _.
      exact (underscored_nz _ _ _ Y _ eq_refl).
  - destruct HT as [(Y & ->)|Y].
    + unfold two in E. cbn [app] in E. injection E as _ <-. eexists _, _. split; [|reflexivity]. unfold decimal. lia.
    + exfalso. destruct ht as [|x yt]; [destruct Y as (Y & _); discriminate|]. cbn [app] in E. injection E as -> _.
      exact (underscored_nz _ _ _ Y _ eq_refl).
Qed.

Lemma zero_dt sg r lit sp v i : dtval v ->
  (parse_prefixed_int_float_or_date (i, r) lit sp sg = Ok v <-> sg = None /\ dtlit (48 :: r) v).
Proof.
  intros V.
  assert (ZS : forall c r', dtlit (48 :: c :: r') v -> decimal c).
  { intros c r' H. apply zero_second in H as (c' & r'' & D & E). injection E as -> _. assumption. }
  unfold parse_prefixed_int_float_or_date, cnext. cbn [fst snd]. destruct r as [|c r].
  - split; [intros H; injection H as <-; notdt V|]. intros [_ H]. apply zero_second in H as (? & ? & _ & H). discriminate.
  - destruct (radix_of c) as [[pf up]|] eqn:R.
    + split.
      * destruct sg; [discriminate|]. destruct up; [discriminate|]. intros H. apply bind_ok in H as (x & _ & H). injection H as <-. notdt V.
      * intros [_ H]. apply ZS in H. exfalso. unfold decimal in H. unfold radix_of in R.
        repeat match type of R with (if ?b then _ else _) = _ =>
          let E := fresh in destruct b eqn:E; [lia|clear E] end. discriminate.
    + destruct (c =? 46) eqn:C46.
      { split; [intros H; apply bind_ok in H as (x & _ & H); injection H as <-; notdt V|].
        intros [_ H]. apply ZS in H. unfold decimal in H. lia. }
      destruct ((c =? 101) || (c =? 69)) eqn:CE.
      { split; [intros H; apply bind_ok in H as (x & _ & H); injection H as <-; notdt V|].
        intros [_ H]. apply ZS in H. unfold decimal in H. lia. }
      destruct (is_digit c) eqn:D.
      * apply is_digit_iff in D. destruct sg as [s|]; cbn [negb andb orb].
        -- split; [discriminate|]. intros [H _]; discriminate.
        -- rewrite <- (cpdt_iff (i + len_utf8 c) r sp c v V D). unfold as_invalid_datetime.
           destruct (continue_parsing_date_time _ _ _) as [x|e|].
           ++ tauto.
           ++ split; [intros H; injection H as <-; notdt V|intros [_ H]; discriminate].
           ++ split; [discriminate|intros [_ H]; discriminate].
      * cbn [andb orb]. split.
        -- destruct (c =? 95); [discriminate|]. destruct sg; discriminate.
        -- intros [_ H]. apply ZS in H. apply is_digit_iff in H. congruence.
Qed.

Theorem datetime_values lit sp v : dtval v -> (parse_literal lit sp = Ok v <-> dtlit lit v).
Proof.
  intros V. split.
  - intros H. destruct lit as [|c r]; [discriminate|].
    assert (Y : (c = 43 \/ c = 45) \/ (c <> 43 /\ c <> 45)) by lia. destruct Y as [Y|Y].
    + exfalso.
      assert (S : exists t, [c] = fst (sign_opt (Some t))) by (destruct Y; subst; [exists SPos|exists SNeg]; reflexivity).
      destruct S as (t & S). change (c :: r) with ([c] ++ r) in H. rewrite S in H. clear S Y c.
      destruct r as [|c r]; [destruct t; discriminate|].
      rewrite parse_literal_signed in H.
      destruct (c =? 48). { apply zero_dt in H as [H _]; [discriminate|assumption]. }
      destruct (is_digit c). { revert H. apply dec_loop_no_dt; [assumption|left; discriminate]. }
      destruct ((c =? 105) || (c =? 73)). { apply bare_not in H. notdt V. }
      destruct ((c =? 110) || (c =? 78)). { apply bare_not in H. notdt V. }
      destruct (c =? 46); discriminate.
    + cbn [parse_literal cnext snd fst] in H.
      replace ((c =? 43) || (c =? 45)) with false in H by lia.
      destruct (c =? 48) eqn:E.
      { apply N.eqb_eq in E. subst c. apply zero_dt in H as [_ H]; assumption. }
      destruct (is_digit c) eqn:D.
      { apply is_digit_iff in D. unfold decimal in D. rewrite len_utf8_ascii in H by lia. apply lead_dt in H; [assumption|assumption|lia|reflexivity]. }
      destruct ((c =? 102) || (c =? 70)). { apply bare_not in H. notdt V. }
      destruct ((c =? 116) || (c =? 84)). { apply bare_not in H. notdt V. }
      destruct ((c =? 105) || (c =? 73)). { apply bare_not in H. notdt V. }
      destruct ((c =? 110) || (c =? 78)). { apply bare_not in H. notdt V. }
      destruct (c =? 95); discriminate.
  - intros H. destruct (dtlit_starts _ _ H) as (c & r & D & ->).
    pose proof D as D'. unfold decimal in D'. apply is_digit_iff in D.
    cbn [parse_literal cnext snd fst]. replace ((c =? 43) || (c =? 45)) with false by lia.
    destruct (c =? 48) eqn:E.
    + apply N.eqb_eq in E. subst c. apply zero_dt; auto.
    + rewrite D, len_utf8_ascii by lia. apply lead_dt; auto. lia.
Qed.

Theorem datetime_literals lit sp d : parse_literal lit sp = Ok (as_pval d) <-> lenient_datetime lit d.
Proof.
  rewrite datetime_values by (destruct d; [left|left|right|left]; cbn; eauto).
  rewrite dtlit_iff. split.
  - intros (d' & H & E). assert (d = d') as ->; [|assumption].
    destruct d, d'; cbn in E; congruence.
  - eauto.
Qed.

Theorem no_local_date lit sp d : parse_literal lit sp <> Ok (PDateTime (LocalDate d)).
Proof.
  intros H. apply datetime_values in H; [|left; eauto]. apply dtlit_iff in H as (d' & _ & E). destruct d'; discriminate.
Qed.
