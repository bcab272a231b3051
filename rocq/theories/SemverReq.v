(** Soundness and completeness of the requirement parser. *)
From Verif Require Import Base BaseProofs CommonModel SemverModel SemverSpec SemverOrder SemverParse SemverVersion.
Ltac Zify.zify_post_hook ::= Z.div_mod_to_equations.

Definition hd_byte (s : bytes) : N := match s with [] => 0 | b :: _ => b end.

Lemma partial_text_head v t : partial_text v t -> exists d ds, t = d :: ds /\ is_digit d = true.
Proof.
  assert (H : forall a r, exists d ds, dec a ++ r = d :: ds /\ is_digit d = true).
  { intros a r. pose proof (dec_digits a) as D. pose proof (dec_nonempty a) as NE.
    destruct (dec a) as [|d ds]; [congruence|]. inversion D; subst. cbn [app]. eauto. }
  intros T; inversion T; subst; try apply H. rewrite <- (app_nil_r (dec a)). apply H.
Qed.

Lemma digit_not_wl d r : is_digit d = true -> head_not_wl (d :: r).
Proof. unfold is_digit, head_not_wl, head_not. intros H. repeat split; lia. Qed.

(** ** Operators *)

Lemma parse_op_blank d st idx r : is_digit d = true ->
  parse_op d (mkci st idx r) = Some (OpBl, mkci st idx r).
Proof. intros H. unfold parse_op. rewrite H. reflexivity. Qed.

Definition plain_op (o : op) : Prop := o <> OpWl /\ o <> OpBl.

(** Text of the operators that are written. *)
Lemma op_written_plain o v t : op_written o v t -> plain_op o ->
  t <> [] /\ head_not_wl t /\ (forall b, head_not 61 b ->
    forall st idx, parse_op (hd_byte t) (mkci st idx (t ++ b)) = Some (o, mkci st (idx + blen t) b)).
Proof.
  intros W (P1 & P2).
  inversion W; subst; try congruence;
    (split; [discriminate|]; split; [unfold head_not_wl, head_not; cbn; repeat split; discriminate|]);
    intros b H st idx; cbn [bs app hd_byte].
  - reflexivity.
  - change (N_of_ascii "<") with 60. unfold parse_op. cbn. destruct b as [|x b]; [reflexivity|]. cbn in H.
    destruct x as [|q]; [reflexivity|]. repeat (destruct q as [q|q|]; try reflexivity; try congruence).
  - change (N_of_ascii "<") with 60. change (N_of_ascii "=") with 61. unfold parse_op. cbn.
    rewrite !blen_cons, blen_nil. replace (idx + (1 + (1 + 0))) with (idx + 1 + 1) by lia. reflexivity.
  - change (N_of_ascii ">") with 62. unfold parse_op. cbn. destruct b as [|x b]; [reflexivity|]. cbn in H.
    destruct x as [|q]; [reflexivity|]. repeat (destruct q as [q|q|]; try reflexivity; try congruence).
  - change (N_of_ascii ">") with 62. change (N_of_ascii "=") with 61. unfold parse_op. cbn.
    rewrite !blen_cons, blen_nil. replace (idx + (1 + (1 + 0))) with (idx + 1 + 1) by lia. reflexivity.
  - reflexivity.
  - reflexivity.
Qed.

Lemma parse_op_inv b r st idx o c : parse_op b (mkci st idx (b :: r)) = Some (o, c) ->
  (o = OpBl /\ is_digit b = true /\ c = mkci st idx (b :: r)) \/
  (plain_op o /\ exists t r', b :: r = t ++ r' /\ t <> [] /\ (forall v, op_written o v t) /\
     c = mkci st (idx + blen t) r').
Proof.
  unfold parse_op. destruct (is_digit b) eqn:D.
  - intros H; injection H as <- <-. left. auto.
  - intros H. right.
    assert (B : b = 61 \/ b = 60 \/ b = 62 \/ b = 94 \/ b = 126).
    { destruct b as [|q]; [discriminate|].
      do 7 (destruct q as [q|q|]; try discriminate H; auto 10). }
    unfold next_byte in H. cbn [ci_rest ci_start ci_idx] in H.
    destruct B as [->|[->|[->|[->| ->]]]].
    + injection H as <- <-. split; [split; discriminate|].
      exists (bs "="), r. repeat split; try discriminate. intros v; constructor.
    + unfold peek_byte in H. cbn [ci_rest ci_start ci_idx] in H.
      assert (C : (exists r', r = 61 :: r' /\ Some (OpLe, mkci st (idx + 1 + 1) r') = Some (o, c)) \/
                  Some (OpLt, mkci st (idx + 1) r) = Some (o, c)).
      { destruct r as [|x r]; [right; exact H|]. destruct (N.eq_dec x 61) as [->|NE]; [left; eauto|].
        right. rewrite <- H. destruct x as [|q]; [reflexivity|].
        repeat (destruct q as [q|q|]; try reflexivity; try congruence). }
      destruct C as [(r' & -> & X)|X]; injection X as <- <-; (split; [split; discriminate|]).
      * exists (bs "<="), r'. repeat split; try discriminate; [intros v; constructor|].
        f_equal. change (blen (bs "<=")) with 2. lia.
      * exists (bs "<"), r. repeat split; try discriminate. intros v; constructor.
    + unfold peek_byte in H. cbn [ci_rest ci_start ci_idx] in H.
      assert (C : (exists r', r = 61 :: r' /\ Some (OpGe, mkci st (idx + 1 + 1) r') = Some (o, c)) \/
                  Some (OpGt, mkci st (idx + 1) r) = Some (o, c)).
      { destruct r as [|x r]; [right; exact H|]. destruct (N.eq_dec x 61) as [->|NE]; [left; eauto|].
        right. rewrite <- H. destruct x as [|q]; [reflexivity|].
        repeat (destruct q as [q|q|]; try reflexivity; try congruence). }
      destruct C as [(r' & -> & X)|X]; injection X as <- <-; (split; [split; discriminate|]).
      * exists (bs ">="), r'. repeat split; try discriminate; [intros v; constructor|].
        f_equal. change (blen (bs ">=")) with 2. lia.
      * exists (bs ">"), r. repeat split; try discriminate. intros v; constructor.
    + injection H as <- <-. split; [split; discriminate|].
      exists (bs "^"), r. repeat split; try discriminate. intros v; constructor.
    + injection H as <- <-. split; [split; discriminate|].
      exists (bs "~"), r. repeat split; try discriminate. intros v; constructor.
Qed.

Lemma partial_not_cwl v t : partial_text v t -> forall w, v <> CWl w.
Proof. intros T w. inversion T; discriminate. Qed.

Lemma final_op_written o v t : partial_text v t ->
  (o = OpBl -> op_written (final_op o v) v []) /\ (plain_op o -> final_op o v = o).
Proof.
  intros T. split.
  - intros ->. inversion T; subst; cbn [final_op]; try (apply OW_bl; cbn; tauto); apply OW_wl; exact I.
  - intros (H1 & H2). destruct o; try reflexivity. congruence.
Qed.

(** ** One comparator *)

Definition comma_tail (comma : bool) (r : bytes) : Prop := if comma then True else r = [].
Definition tail_text (comma : bool) (r : bytes) : bytes := if comma then 44 :: r else r.

Lemma comp_end_spaces n comma r : comma_tail comma r -> comp_end (spaces n ++ tail_text comma r).
Proof.
  destruct n; cbn [spaces repeat app].
  - destruct comma; cbn [tail_text comma_tail].
    + intros _. right; reflexivity.
    + intros ->. exact I.
  - intros _. left. reflexivity.
Qed.

Lemma not_space_tail comma r : comma_tail comma r -> forall r', tail_text comma r <> 32 :: r'.
Proof. destruct comma; cbn; intros H r'; [discriminate|]. subst. discriminate. Qed.

Lemma expect_comma_tail st idx comma r : comma_tail comma r ->
  expect_comma_or_end (mkci st idx (tail_text comma r))
  = Ok (if comma then Some idx else None, mkci st (if comma then idx + 1 else idx) r).
Proof. destruct comma; cbn [tail_text comma_tail]; [reflexivity|]. intros ->. reflexivity. Qed.

Lemma expect_comma_inv st idx rest o c : expect_comma_or_end (mkci st idx rest) = Ok (o, c) ->
  exists comma r, rest = tail_text comma r /\ comma_tail comma r /\
    o = (if comma then Some idx else None) /\ c = mkci st (if comma then idx + 1 else idx) r.
Proof.
  unfold expect_comma_or_end, peek_byte. cbn [ci_rest]. destruct rest as [|b r].
  - intros H; injection H as <- <-. exists false, []. repeat split.
  - destruct (b =? 44) eqn:B; [|discriminate]. apply N.eqb_eq in B. subst.
    intros H; injection H as <- <-. exists true, r. repeat split.
Qed.

Lemma not_space_digit d r : is_digit d = true -> forall r', d :: r <> 32 :: r'.
Proof. intros H r' E. injection E as -> _. discriminate. Qed.

Lemma parse_comparator_complete prof p first off mid after o v ot vt comma r :
  partial_text v vt -> op_written o v ot -> (ot = [] -> mid = O) -> comma_tail comma r ->
  let rest := ot ++ spaces mid ++ vt ++ spaces after ++ tail_text comma r in
  let ver_off := off + blen ot + N.of_nat mid in
  let end_off := ver_off + blen vt + N.of_nat after in
  parse_comparator prof p first (hd_byte rest) (mkci p off rest)
  = Ok (mkcomp off o ver_off v (if comma then Some end_off else None),
        mkci p (if comma then end_off + 1 else end_off) r).
Proof.
  intros T W M CT rest ver_off end_off.
  destruct (partial_text_head v vt T) as (d & ds & EV & DD).
  unfold parse_comparator.
  assert (K : forall o0, final_op o0 v = o ->
    (let c := eat_whitespace (mkci p (off + blen ot) (spaces mid ++ vt ++ spaces after ++ tail_text comma r)) in
     let version_offset := ci_offset c in
     let? (v0, o1, c) := comp_version prof c o0 in
     let c := eat_whitespace c in
     let? (cm, c) := expect_comma_or_end c in
     Ok (mkcomp off o1 version_offset v0 cm, c))
    = Ok (mkcomp off o ver_off v (if comma then Some end_off else None),
        mkci p (if comma then end_off + 1 else end_off) r)).
  { intros o0 F. cbv zeta.
    rewrite eat_whitespace_spaces by (rewrite EV; cbn [app]; apply not_space_digit; assumption).
    rewrite (comp_version_complete prof p _ v vt) by (first [assumption | apply comp_end_spaces; assumption]).
    cbn [bind]. rewrite F. unfold ci_offset. cbn [ci_idx].
    rewrite eat_whitespace_spaces by (apply not_space_tail; assumption).
    rewrite expect_comma_tail by assumption. cbn [bind]. reflexivity. }
  destruct (final_op_written o v vt T) as (_ & FP).
  assert (O : ot = [] \/ (plain_op o)).
  { inversion W; auto; right; split; discriminate. }
  destruct O as [->|P].
  - specialize (M eq_refl). subst mid. subst rest. cbn [spaces repeat app] in *. rewrite EV in *.
    cbn [app hd_byte]. rewrite eat_wildcard_no by (apply digit_not_wl; assumption).
    rewrite parse_op_blank by assumption.
    replace (off + blen []) with off in K by (rewrite blen_nil; lia).
    unfold ci_offset at 1. cbn [ci_idx]. apply (K OpBl).
    inversion W; subst; try reflexivity.
    + inversion T; subst; cbn in *; try contradiction; reflexivity.
    + inversion T; subst; cbn in *; try tauto; reflexivity.
  - destruct (op_written_plain o v ot W P) as (NE & NW & PO).
    assert (HN : head_not 61 (spaces mid ++ vt ++ spaces after ++ tail_text comma r)).
    { destruct mid; cbn [spaces repeat app head_not]; [|discriminate]. rewrite EV. cbn [app head_not].
      unfold is_digit in DD. lia. }
    assert (HW : eat_wildcard (mkci p off rest) = (None, mkci p off rest)).
    { apply eat_wildcard_no. subst rest. destruct ot; [congruence|]. exact NW. }
    rewrite HW. subst rest.
    replace (hd_byte (ot ++ spaces mid ++ vt ++ spaces after ++ tail_text comma r)) with (hd_byte ot)
      by (destruct ot; [congruence|reflexivity]).
    rewrite PO by assumption. apply (K o). apply FP. assumption.
Qed.

Lemma parse_comparator_sound p first off rest cmp c : rest <> [] ->
  (forall w r, rest <> wl_text w ++ r) ->
  parse_comparator Debug p first (hd_byte rest) (mkci p off rest) = Ok (cmp, c) ->
  exists mid after o v ot vt comma r,
    partial_text v vt /\ op_written o v ot /\ (ot = [] -> mid = O) /\ comma_tail comma r /\
    rest = ot ++ spaces mid ++ vt ++ spaces after ++ tail_text comma r /\
    let ver_off := off + blen ot + N.of_nat mid in
    let end_off := ver_off + blen vt + N.of_nat after in
    cmp = mkcomp off o ver_off v (if comma then Some end_off else None) /\
    c = mkci p (if comma then end_off + 1 else end_off) r.
Proof.
  intros NE NW. unfold parse_comparator.
  destruct (eat_wildcard _) as [w0 c0] eqn:W0.
  apply eat_wildcard_inv in W0 as [(w & r & -> & E & ->)|(-> & _ & ->)]; [exfalso; eapply NW; eassumption|].
  destruct rest as [|b rest]; [congruence|]. cbn [hd_byte].
  destruct (parse_op b _) as [[o0 c1]|] eqn:PO.
  2:{ intros H. exfalso. eapply peek_char_unwrap_not_ok; [|exact H]. discriminate. }
  apply parse_op_inv in PO.
  assert (PO2 : exists ot r1, b :: rest = ot ++ r1 /\ c1 = mkci p (off + blen ot) r1 /\
     ((o0 = OpBl /\ ot = [] /\ is_digit b = true) \/ (plain_op o0 /\ ot <> [] /\ forall v, op_written o0 v ot))).
  { destruct PO as [(-> & D & ->)|(P & t & r' & E & N & W & ->)].
    - exists [], (b :: rest). rewrite blen_nil. split; [reflexivity|]. split; [f_equal; lia|]. left. auto.
    - exists t, r'. split; [assumption|]. split; [reflexivity|]. right. auto. }
  destruct PO2 as (ot & r1 & E & -> & C).
  destruct (eat_whitespace_inv p (off + blen ot) r1) as (mid & r2 & E1 & _ & ->).
  destruct (comp_version Debug _ o0) as [[[v o1] c2]|e|] eqn:CV; cbn [bind]; try discriminate.
  apply comp_version_sound in CV as (vt & r3 & T & E2 & -> & ->).
  destruct (eat_whitespace_inv p (off + blen ot + N.of_nat mid + blen vt) r3) as (after & r4 & E3 & _ & ->).
  destruct (expect_comma_or_end _) as [[cm c3]|e|] eqn:EC; cbn [bind]; try discriminate.
  apply expect_comma_inv in EC as (comma & r & E4 & CT & -> & ->).
  intros H; injection H as <- <-.
  destruct (final_op_written o0 v vt T) as (FB & FP).
  exists mid, after, (final_op o0 v), v, ot, vt, comma, r.
  split; [assumption|]. split.
  { destruct C as [(-> & -> & _)|(P & _ & W)]; [apply FB; reflexivity|]. rewrite FP by assumption. apply W. }
  split.
  { intros ->. destruct C as [(_ & _ & D)|(_ & N & _)]; [|congruence].
    cbn [app] in E. subst r1. destruct mid; [reflexivity|]. exfalso. cbn in E1. injection E1 as -> _. discriminate. }
  split; [assumption|]. split; [congruence|]. split; reflexivity.
Qed.

(** ** The lone wildcard *)

Lemma parse_wildcard_complete prof p w idx after :
  parse_comparator prof p true (hd_byte (wl_text w ++ spaces after)) (mkci p idx (wl_text w ++ spaces after))
  = Ok (mkcomp idx OpWl idx (CWl w) None, mkci p (idx + 1 + N.of_nat after) []).
Proof.
  unfold parse_comparator. rewrite eat_wildcard_yes. unfold parse_wildcard. cbn [negb].
  replace (next_byte (mkci p idx (wl_text w ++ spaces after))) with (mkci p (idx + 1) (spaces after))
    by (destruct w; reflexivity).
  assert (X : eat_whitespace (mkci p (idx + 1) (spaces after)) = mkci p (idx + 1 + N.of_nat after) []).
  { rewrite <- (app_nil_r (spaces after)) at 1. apply eat_whitespace_spaces. discriminate. }
  rewrite X. unfold ci_offset. cbn [ci_idx].
  destruct after as [|n]; cbn [spaces repeat peek_byte ci_rest bind expect_comma_or_end]; reflexivity.
Qed.

Lemma parse_wildcard_sound prof p first w idx r cmp c :
  parse_comparator prof p first (hd_byte (wl_text w ++ r)) (mkci p idx (wl_text w ++ r)) = Ok (cmp, c) ->
  first = true /\ exists after, r = spaces after /\ cmp = mkcomp idx OpWl idx (CWl w) None /\
    c = mkci p (idx + 1 + N.of_nat after) [].
Proof.
  unfold parse_comparator. rewrite eat_wildcard_yes. unfold parse_wildcard.
  destruct first; cbn [negb]; [|discriminate]. split; [reflexivity|].
  replace (next_byte (mkci p idx (wl_text w ++ r))) with (mkci p (idx + 1) r) in *
    by (destruct w; reflexivity).
  destruct (eat_whitespace_inv p (idx + 1) r) as (n & r2 & -> & _ & E). rewrite E in H.
  assert (X : match peek_byte (mkci p (idx + 1 + N.of_nat n) r2) with
      | Some b =>
          if b =? 44 then
            match peek_byte (eat_whitespace (next_byte (mkci p (idx + 1 + N.of_nat n) r2))) with
            | None => Err (TrailingComma (ci_pos (mkci p (idx + 1 + N.of_nat n) r2)))
            | Some _ => Err (WildcardNotTheSoleComparator w (pos_plus p idx))
            end
          else Err (WildcardNotTheSoleComparator w (pos_plus p idx))
      | None =>
          let? (comma, c) := expect_comma_or_end (mkci p (idx + 1 + N.of_nat n) r2) in
          Ok (mkcomp idx OpWl idx (CWl w) comma, c)
      end = Ok (cmp, c)).
  { unfold ci_offset in H. cbn [ci_idx] in H.
    destruct (peek_byte (mkci p (idx + 1) (spaces n ++ r2))) as [b|]; [|exact H].
    destruct ((b =? 44) || (b =? 32)); [exact H|].
    exfalso. eapply peek_char_unwrap_not_ok; [|exact H]. discriminate. }
  clear H. unfold peek_byte at 1 in X. cbn [ci_rest] in X. destruct r2 as [|b r2].
  - cbn in X. injection X as <- <-. exists n. rewrite app_nil_r. auto.
  - destruct (b =? 44); [destruct (peek_byte _)|]; discriminate.
Qed.

(** ** The loop *)

Lemma comp_grammar_len off s b c : comp_grammar off s b c -> (0 < length s)%nat.
Proof.
  intros G. inversion G; subst. destruct (partial_text_head v vt) as (d & ds & -> & _); [assumption|].
  rewrite !app_length. cbn [length]. lia.
Qed.

Lemma req_loop_complete prof p off s cs : comps_grammar off s cs ->
  forall fuel comps lc, (length s < fuel)%nat -> (length comps + length cs <= 32)%nat ->
  req_loop fuel prof p comps lc (mkci p off s) = Some (Ok (comps ++ cs, None)).
Proof.
  assert (STEP : forall fuel comps lc off s comma c r,
    comp_grammar off s comma c -> comma_tail comma r -> (length comps < 32)%nat ->
    req_loop (S fuel) prof p comps lc (mkci p off (s ++ tail_text comma r))
    = req_loop fuel prof p (comps ++ [c]) (c_comma c)
        (mkci p (if comma then off + blen s + 1 else off + blen s) r)).
  { clear. intros fuel comps lc off s comma c r G CT L. inversion G; subst.
    rewrite <- !app_assoc. cbn [req_loop].
    destruct (partial_text_head v vt) as (d & ds & EV & DD); [assumption|].
    assert (O : ot = [] \/ exists b ot', ot = b :: ot' /\ b <> 32).
    { inversion H0; auto; right; eexists; eexists; (split; [reflexivity|discriminate]). }
    set (rest := ot ++ spaces mid ++ vt ++ spaces after ++ tail_text comma r).
    assert (NS : (forall r', rest <> 32 :: r') /\ exists b q, rest = b :: q).
    { subst rest. destruct O as [->|(b & ot' & -> & NB)].
      - rewrite (H1 eq_refl), EV. cbn [spaces repeat app]. split; [apply not_space_digit; assumption|eauto].
      - cbn [app]. split; [congruence|eauto]. }
    destruct NS as (NS & b & q & EB).
    rewrite eat_whitespace_spaces by assumption.
    unfold peek_byte. cbn [ci_rest]. rewrite EB at 1.
    replace (MAX_COMPARATORS <=? N.of_nat (length comps)) with false by (unfold MAX_COMPARATORS; lia).
    replace b with (hd_byte rest) by (rewrite EB; reflexivity).
    subst rest. rewrite (parse_comparator_complete prof p _ _ mid after o v ot vt comma r) by assumption.
    cbn [c_comma]. f_equal. f_equal.
    rewrite !blen_app, !blen_spaces. destruct comma; lia. }
  intros G. induction G as [off s c G|off s c rest cs G GS IH]; intros fuel comps lc F L.
  - cbn [length] in L. pose proof (comp_grammar_len _ _ _ _ G) as LS.
    destruct fuel as [|fuel]; [lia|]. rewrite <- (app_nil_r s). change (s ++ []) with (s ++ tail_text false []).
    rewrite (STEP fuel comps lc off s false c [] G eq_refl) by lia.
    destruct fuel as [|fuel]; [lia|]. cbn [req_loop].
    unfold eat_whitespace. cbn [ci_rest ci_start ci_idx eat_ws_aux peek_byte].
    inversion G; subst. cbn [c_comma]. reflexivity.
  - cbn [length] in L. destruct fuel as [|fuel]; [lia|].
    change (s ++ bs "," ++ rest) with (s ++ tail_text true rest).
    rewrite (STEP fuel comps lc off s true c rest G I) by lia.
    rewrite IH.
    + rewrite <- app_assoc. reflexivity.
    + cbn [bs app] in F. rewrite app_length in F. cbn [length] in F. lia.
    + rewrite app_length. cbn [length]. lia.
Qed.

Lemma wl_or_not (rest : bytes) : (exists w r, rest = wl_text w ++ r) \/ (forall w r, rest <> wl_text w ++ r).
Proof.
  destruct rest as [|b rest]; [right; intros [] r; discriminate|].
  destruct (N.eq_dec b 42) as [->|N1]; [left; exists WStar, rest; reflexivity|].
  destruct (N.eq_dec b 120) as [->|N2]; [left; exists WLowerX, rest; reflexivity|].
  destruct (N.eq_dec b 88) as [->|N3]; [left; exists WUpperX, rest; reflexivity|].
  right. intros [] r H; injection H as H _; [apply N1|apply N2|apply N3]; exact H.
Qed.

(** After a comma only ordinary comparators may follow. *)
Lemma req_loop_sound_more p fuel : forall comps x off s res,
  comps <> [] -> (length comps <= 32)%nat ->
  req_loop fuel Debug p comps (Some x) (mkci p off s) = Some (Ok (res, None)) ->
  exists cs, res = comps ++ cs /\ comps_grammar off s cs /\ (length res <= 32)%nat.
Proof.
  induction fuel as [|fuel IH]; intros comps x off s res NE LC H; [discriminate|].
  cbn [req_loop] in H.
  destruct (eat_whitespace_inv p off s) as (before & rest & E & _ & EW). rewrite EW in H.
  unfold peek_byte in H. cbn [ci_rest] in H. destruct rest as [|b rest']; [discriminate|].
  set (rest := b :: rest') in *.
  destruct (MAX_COMPARATORS <=? N.of_nat (length comps)) eqn:MX; [discriminate|].
  assert (LC' : (length comps < 32)%nat) by (unfold MAX_COMPARATORS in MX; lia).
  replace (match comps with [] => true | _ => false end) with false in H by (destruct comps; [congruence|reflexivity]).
  change b with (hd_byte rest) in H.
  destruct (parse_comparator Debug p false (hd_byte rest) _) as [[cmp c]|e|] eqn:PC; try discriminate.
  destruct (wl_or_not rest) as [(w & r & EW2)|NW].
  { rewrite EW2 in PC. apply parse_wildcard_sound in PC as (X & _). discriminate. }
  apply parse_comparator_sound in PC; [|discriminate|assumption].
  destruct PC as (mid & after & o & v & ot & vt & comma & r & T & W & M & CT & ER & EC & ->).
  set (s1 := spaces before ++ ot ++ spaces mid ++ vt ++ spaces after).
  assert (ES : s = s1 ++ tail_text comma r) by (subst s1; rewrite E, ER, <- !app_assoc; reflexivity).
  assert (G : comp_grammar off s1 comma cmp).
  { subst s1. rewrite EC. apply CG; assumption. }
  set (vo := off + N.of_nat before + blen ot + N.of_nat mid) in *.
  destruct comma; cbn [tail_text comma_tail] in *.
  - rewrite EC in H. cbn [c_comma] in H. rewrite <- EC in H.
    apply IH in H; [|destruct comps; discriminate|rewrite app_length; cbn [length]; lia].
    destruct H as (cs & -> & GS & LR).
    exists (cmp :: cs). rewrite <- app_assoc in *. split; [reflexivity|]. split; [|assumption].
    rewrite ES. change (s1 ++ 44 :: r) with (s1 ++ bs "," ++ r). apply CSG_more; [assumption|].
    replace (off + blen s1 + 1) with (vo + blen vt + N.of_nat after + 1); [assumption|].
    subst s1 vo. rewrite !blen_app, !blen_spaces. lia.
  - subst r. rewrite EC in H. cbn [c_comma] in H. rewrite <- EC in H.
    destruct fuel as [|fuel]; [discriminate|]. cbn [req_loop] in H.
    unfold eat_whitespace in H. cbn [ci_rest ci_start ci_idx eat_ws_aux peek_byte] in H.
    injection H as <-. exists [cmp]. split; [reflexivity|].
    split; [rewrite ES, app_nil_r; constructor; assumption|]. rewrite app_length; cbn [length]; lia.
Qed.

Lemma req_loop_sound p fuel s res :
  req_loop fuel Debug p [] None (mkci p 0 s) = Some (Ok (res, None)) -> res <> [] -> req_grammar s res.
Proof.
  intros H NE. destruct fuel as [|fuel]; [discriminate|]. cbn [req_loop] in H.
  destruct (eat_whitespace_inv p 0 s) as (before & rest & E & _ & EW). rewrite EW in H.
  unfold peek_byte in H. cbn [ci_rest] in H. destruct rest as [|b rest'].
  { injection H as <-. congruence. }
  set (rest := b :: rest') in *.
  change (MAX_COMPARATORS <=? N.of_nat (length (@nil comparator))) with false in H. cbn iota in H.
  change b with (hd_byte rest) in H.
  destruct (parse_comparator Debug p true (hd_byte rest) _) as [[cmp c]|e|] eqn:PC; try discriminate.
  destruct (wl_or_not rest) as [(w & r & EW2)|NW].
  - rewrite EW2 in PC. apply parse_wildcard_sound in PC as (_ & after & -> & -> & ->).
    cbn [c_comma app] in H. destruct fuel as [|fuel]; [discriminate|]. cbn [req_loop] in H.
    unfold eat_whitespace in H. cbn [ci_rest ci_start ci_idx eat_ws_aux peek_byte] in H.
    injection H as <-. rewrite E, EW2. apply RG_wildcard.
  - apply parse_comparator_sound in PC; [|discriminate|assumption].
    destruct PC as (mid & after & o & v & ot & vt & comma & r & T & W & M & CT & ER & EC & ->).
    set (s1 := spaces before ++ ot ++ spaces mid ++ vt ++ spaces after).
    assert (ES : s = s1 ++ tail_text comma r) by (subst s1; rewrite E, ER, <- !app_assoc; reflexivity).
    assert (G : comp_grammar 0 s1 comma cmp).
    { subst s1. rewrite EC. apply CG; assumption. }
    set (vo := 0 + N.of_nat before + blen ot + N.of_nat mid) in *.
    cbn [app] in H. destruct comma; cbn [tail_text comma_tail] in *.
    + rewrite EC in H. cbn [c_comma] in H. rewrite <- EC in H.
      apply req_loop_sound_more in H; [|discriminate|cbn [length]; lia].
      destruct H as (cs & -> & GS & LR). apply RG_list; [|assumption].
      rewrite ES. change (s1 ++ 44 :: r) with (s1 ++ bs "," ++ r). cbn [app]. apply CSG_more; [assumption|].
      replace (0 + blen s1 + 1) with (vo + blen vt + N.of_nat after + 1); [assumption|].
      subst s1 vo. rewrite !blen_app, !blen_spaces. lia.
    + subst r. rewrite EC in H. cbn [c_comma] in H. rewrite <- EC in H.
      destruct fuel as [|fuel]; [discriminate|]. cbn [req_loop] in H.
      unfold eat_whitespace in H. cbn [ci_rest ci_start ci_idx eat_ws_aux peek_byte] in H.
      injection H as <-. apply RG_list; [|cbn [length]; lia].
      rewrite ES, app_nil_r. constructor. assumption.
Qed.

Lemma comps_nonempty off s cs : comps_grammar off s cs -> cs <> [].
Proof. destruct 1; discriminate. Qed.

Lemma parse_requirement_complete prof s p cs : req_grammar s cs ->
  parse_requirement prof s p = Ok (mkreq p (blen s) cs).
Proof.
  intros G. unfold parse_requirement, parse_requirement_fuel, ci_new.
  assert (L : req_loop (S (length s)) prof p [] None (mkci p 0 s) = Some (Ok (cs, None))).
  { inversion G as [before after w|s' cs' GS LE]; subst.
    - set (s := spaces before ++ wl_text w ++ spaces after).
      assert (F : exists f, length s = S f).
      { subst s. rewrite !app_length. replace (length (wl_text w)) with 1%nat by (destruct w; reflexivity).
        exists (length (spaces before) + length (spaces after))%nat. lia. }
      destruct F as (f & ->). subst s. cbn [req_loop].
      rewrite eat_whitespace_spaces by (intros r'; destruct w; discriminate).
      replace (peek_byte (mkci p (0 + N.of_nat before) (wl_text w ++ spaces after)))
        with (Some (hd_byte (wl_text w ++ spaces after))) by (destruct w; reflexivity).
      change (MAX_COMPARATORS <=? N.of_nat (length (@nil comparator))) with false. cbn iota.
      rewrite parse_wildcard_complete. cbn [c_comma app].
      unfold eat_whitespace. cbn [ci_rest ci_start ci_idx eat_ws_aux peek_byte]. reflexivity.
    - rewrite (req_loop_complete prof p 0 s cs GS) by (cbn [length]; lia). reflexivity. }
  rewrite L. cbn [bind]. destruct cs; [|reflexivity].
  exfalso. inversion G as [|? ? GS]; subst. eapply comps_nonempty; eauto.
Qed.

Lemma parse_requirement_sound s p r : parse_requirement Debug s p = Ok r ->
  req_grammar s (r_comparators r) /\ r_pos r = p /\ r_len r = blen s.
Proof.
  unfold parse_requirement, parse_requirement_fuel, ci_new.
  destruct (req_loop _ _ _ _ _ _) as [[[comps lc]|e|]|] eqn:L; cbn [bind]; try discriminate.
  destruct lc as [off|]; [discriminate|]. destruct comps as [|c comps]; [discriminate|].
  intros H; injection H as <-. cbn [r_comparators r_pos r_len].
  apply req_loop_sound in L; [auto|discriminate].
Qed.
