(** Soundness and completeness of the version and comparator-version parsers. *)
From Verif Require Import Base BaseProofs CommonModel SemverModel SemverSpec SemverOrder SemverParse.
Ltac Zify.zify_post_hook ::= Z.div_mod_to_equations.

Definition head_not (b : N) (r : bytes) : Prop := match r with [] => True | x :: _ => x <> b end.

Lemma eat_byte_yes b st idx r : eat_byte b (mkci st idx (b :: r)) = (true, mkci st (idx + 1) r).
Proof. unfold eat_byte, peek_byte, next_byte. cbn [ci_rest]. rewrite N.eqb_refl. reflexivity. Qed.

Lemma eat_byte_no b st idx r : head_not b r -> eat_byte b (mkci st idx r) = (false, mkci st idx r).
Proof.
  unfold eat_byte, peek_byte, head_not. cbn [ci_rest]. destruct r as [|x r]; [reflexivity|].
  intros H. replace (x =? b) with false by lia. reflexivity.
Qed.

Lemma eat_byte_inv b st idx rest x c : eat_byte b (mkci st idx rest) = (x, c) ->
  (x = true /\ exists r, rest = b :: r /\ c = mkci st (idx + 1) r) \/
  (x = false /\ head_not b rest /\ c = mkci st idx rest).
Proof.
  destruct rest as [|y r].
  - intros H. rewrite eat_byte_no in H by exact I. injection H as <- <-. right. repeat split.
  - destruct (N.eq_dec y b) as [->|NE].
    + rewrite eat_byte_yes. intros H; injection H as <- <-. left. eauto.
    + rewrite eat_byte_no by exact NE. intros H; injection H as <- <-. right. repeat split. exact NE.
Qed.

Lemma expect_dot_yes st idx r f : expect_dot (mkci st idx (46 :: r)) f = Ok (mkci st (idx + 1) r).
Proof. reflexivity. Qed.

Lemma peek_char_unwrap_not_ok {E A} c (k : N -> res E A) a :
  (forall x, k x <> Ok a) -> (let? x := peek_char_unwrap c in k x) <> Ok a.
Proof.
  intros H. destruct (@peek_char_unwrap E c) as [x|e|]; cbn [bind]; [apply H|discriminate|discriminate].
Qed.

Lemma expect_dot_inv st idx rest f c : expect_dot (mkci st idx rest) f = Ok c ->
  exists r, rest = 46 :: r /\ c = mkci st (idx + 1) r.
Proof.
  unfold expect_dot, peek_byte. cbn [ci_rest]. destruct rest as [|b r]; [discriminate|].
  destruct (b =? 46) eqn:B.
  - apply N.eqb_eq in B. subst. intros H. injection H as <-. eauto.
  - intros H. exfalso. eapply peek_char_unwrap_not_ok; [|exact H]. intros x X. discriminate.
Qed.

Lemma opt_ident_none b f st idx r : head_not b r ->
  parse_opt_ident (eat_byte b) f (mkci st idx r) = Ok (None, mkci st idx r).
Proof. intros H. unfold parse_opt_ident. rewrite eat_byte_no by assumption. reflexivity. Qed.

Lemma opt_ident_some b f st idx s r : ident_grammar f s -> no_ident_dot r ->
  parse_opt_ident (eat_byte b) f (mkci st idx (b :: s ++ r)) = Ok (Some s, mkci st (idx + 1 + blen s) r).
Proof.
  intros G N. unfold parse_opt_ident. rewrite eat_byte_yes. rewrite parse_ident_complete by assumption.
  reflexivity.
Qed.

Lemma opt_ident_inv b f st idx rest o c : parse_opt_ident (eat_byte b) f (mkci st idx rest) = Ok (o, c) ->
  (o = None /\ head_not b rest /\ c = mkci st idx rest) \/
  (exists s r, o = Some s /\ rest = b :: s ++ r /\ ident_grammar f s /\ no_ident_dot r /\
     c = mkci st (idx + 1 + blen s) r).
Proof.
  unfold parse_opt_ident. destruct (eat_byte b (mkci st idx rest)) as [x c1] eqn:E.
  apply eat_byte_inv in E as [(-> & r & -> & ->)|(-> & H & ->)].
  - destruct (parse_ident _ f) as [[s c2]|e|] eqn:P; cbn [bind]; try discriminate.
    intros H; injection H as <- <-. apply parse_ident_sound in P as (r' & -> & G & N & ->).
    right. exists s, r'. auto.
  - intros X; injection X as <- <-. left. auto.
Qed.

Lemma grammar_nonempty f s : ident_grammar f s -> s <> [].
Proof.
  intros (ws & NE & F & ->). destruct F as [|w ws (W & _) F]; [congruence|].
  destruct ws as [|w2 ws]; cbn [join]; [assumption|]. destruct w; [congruence|discriminate].
Qed.

Lemma grammar_chars f s : ident_grammar f s -> Forall (fun b => is_ident_char b = true \/ b = 46) s.
Proof.
  intros (ws & NE & F & ->). clear NE. induction F as [|w ws (W & C & _) F IH]; [constructor|].
  assert (Forall (fun b => is_ident_char b = true \/ b = 46) w).
  { eapply Forall_impl; [|exact C]. cbv beta. auto. }
  destruct ws as [|w2 ws]; cbn [join]; [assumption|].
  apply Forall_app. split; [assumption|]. constructor; [right; reflexivity|assumption].
Qed.

Lemma spaces_no_ident_dot n : no_ident_dot (spaces n).
Proof. destruct n; cbn; [exact I|]. split; [reflexivity|discriminate]. Qed.
Lemma spaces_no_digit n : no_digit (spaces n).
Proof. destruct n; cbn; [exact I|]. reflexivity. Qed.
Lemma spaces_head_not n b : b <> 32 -> head_not b (spaces n).
Proof. destruct n; cbn; [auto|]. congruence. Qed.

Lemma no_digit_dot r : no_digit (46 :: r).
Proof. reflexivity. Qed.

Lemma not_space_dec n r : forall r', dec n ++ r <> 32 :: r'.
Proof.
  intros r' H. pose proof (dec_digits n) as D. pose proof (dec_nonempty n) as NE.
  destruct (dec n) as [|d ds]; [congruence|]. cbn in H. injection H as -> _.
  inversion D as [|? ? D1 _]; subst. discriminate.
Qed.

Lemma parse_version_complete prof s p v : version_grammar s v -> parse_version prof s p = Ok v.
Proof.
  intros (a & b & dash & plus & U1 & U2 & U3 & D & P & ->).
  destruct v as [major minor patch pre meta]. cbn [v_major v_minor v_patch v_pre v_meta] in *.
  unfold in_u32 in *. unfold parse_version, ci_new.
  rewrite eat_whitespace_spaces by apply not_space_dec.
  rewrite parse_int_dec by (exact U1 || reflexivity). cbn [bind bs app].
  rewrite expect_dot_yes. cbn [bind].
  rewrite parse_int_dec by (exact U2 || reflexivity). cbn [bind app].
  rewrite expect_dot_yes. cbn [bind].
  assert (H1 : no_ident_dot (plus ++ spaces b) /\ no_digit (plus ++ spaces b) /\ head_not 45 (plus ++ spaces b)).
  { destruct P as [(-> & ->)|(_ & ->)]; cbn [app].
    - split; [apply spaces_no_ident_dot|]. split; [apply spaces_no_digit|]. apply spaces_head_not. discriminate.
    - repeat split; discriminate. }
  destruct H1 as (H1 & H2 & H3).
  rewrite parse_int_dec; [|exact U3|].
  2:{ destruct D as [(-> & ->)|(_ & ->)]; cbn [app]; [assumption|reflexivity]. }
  cbn [bind].
  assert (PRE : exists i, parse_opt_ident eat_hyphen FPrerelease
      (mkci p (0 + N.of_nat a + blen (dec major) + 1 + blen (dec minor) + 1 + blen (dec patch))
         (dash ++ plus ++ spaces b))
      = Ok ((if is_empty pre then None else Some pre), mkci p i (plus ++ spaces b))).
  { destruct D as [(-> & ->)|(G & ->)]; cbn [app].
    - eexists. unfold eat_hyphen. rewrite opt_ident_none by assumption. reflexivity.
    - eexists. unfold eat_hyphen. apply pre_grammar_iff in G. rewrite opt_ident_some by assumption.
      apply grammar_nonempty in G. destruct pre; [congruence|reflexivity]. }
  destruct PRE as (i & PRE). rewrite PRE. cbn [bind].
  assert (META : exists j, parse_opt_ident eat_plus FBuildMetadata (mkci p i (plus ++ spaces b))
      = Ok ((if is_empty meta then None else Some meta), mkci p j (spaces b))).
  { destruct P as [(-> & ->)|(G & ->)]; cbn [app].
    - eexists. unfold eat_plus. rewrite opt_ident_none by (apply spaces_head_not; discriminate). reflexivity.
    - eexists. unfold eat_plus. apply meta_grammar_iff in G.
      rewrite opt_ident_some by (assumption || apply spaces_no_ident_dot).
      apply grammar_nonempty in G. destruct meta; [congruence|reflexivity]. }
  destruct META as (j & META). rewrite META. cbn [bind].
  rewrite <- (app_nil_r (spaces b)). rewrite eat_whitespace_spaces by (intros r'; discriminate).
  cbn [peek_byte ci_rest]. destruct pre, meta; reflexivity.
Qed.

Lemma no_sp_nil (r : bytes) (n : nat) : [] = spaces n ++ r -> n = O /\ r = [].
Proof. destruct n; cbn; [auto|discriminate]. Qed.

Lemma parse_version_sound s p v : parse_version Debug s p = Ok v -> version_grammar s v.
Proof.
  unfold parse_version, ci_new.
  destruct (eat_whitespace_inv p 0 s) as (a & r0 & -> & NS & ->).
  destruct (parse_int Debug _ FMajor) as [[major c1]|e|] eqn:I1; cbn [bind]; try discriminate.
  apply parse_int_debug_ok in I1 as (r1 & -> & _ & U1 & ->).
  destruct (expect_dot _ FMajor) as [c2|e|] eqn:D1; cbn [bind]; try discriminate.
  apply expect_dot_inv in D1 as (r2 & -> & ->).
  destruct (parse_int Debug _ FMinor) as [[minor c1]|e|] eqn:I2; cbn [bind]; try discriminate.
  apply parse_int_debug_ok in I2 as (r3 & -> & _ & U2 & ->).
  destruct (expect_dot _ FMinor) as [c2|e|] eqn:D2; cbn [bind]; try discriminate.
  apply expect_dot_inv in D2 as (r4 & -> & ->).
  destruct (parse_int Debug _ FPatch) as [[patch c1]|e|] eqn:I3; cbn [bind]; try discriminate.
  apply parse_int_debug_ok in I3 as (r5 & -> & _ & U3 & ->).
  destruct (parse_opt_ident eat_hyphen _ _) as [[pre c2]|e|] eqn:P1; cbn [bind]; try discriminate.
  destruct (parse_opt_ident eat_plus _ c2) as [[meta c3]|e|] eqn:P2; cbn [bind]; try discriminate.
  assert (H1 : exists dash r6 i, r5 = dash ++ r6 /\ c2 = mkci p i r6 /\ dash_part (opt_bytes pre) dash).
  { unfold eat_hyphen in P1. apply opt_ident_inv in P1 as [(-> & _ & ->)|(x & r & -> & -> & G & _ & ->)].
    - exists [], r5. eexists. split; [reflexivity|]. split; [reflexivity|]. left. auto.
    - exists (45 :: x), r. eexists. split; [reflexivity|]. split; [reflexivity|].
      right. split; [apply pre_grammar_iff; exact G|reflexivity]. }
  destruct H1 as (dash & r6 & i & -> & -> & DP).
  assert (H2 : exists plus r7 j, r6 = plus ++ r7 /\ c3 = mkci p j r7 /\ plus_part (opt_bytes meta) plus).
  { unfold eat_plus in P2. apply opt_ident_inv in P2 as [(-> & _ & ->)|(x & r & -> & -> & G & _ & ->)].
    - exists [], r6. eexists. split; [reflexivity|]. split; [reflexivity|]. left. auto.
    - exists (43 :: x), r. eexists. split; [reflexivity|]. split; [reflexivity|].
      right. split; [apply meta_grammar_iff; exact G|reflexivity]. }
  destruct H2 as (plus & r7 & j & -> & -> & PP).
  destruct (eat_whitespace_inv p j r7) as (b & r8 & -> & _ & ->).
  unfold peek_byte. cbn [ci_rest]. destruct r8 as [|x r8]; [|discriminate].
  rewrite app_nil_r. intros H; injection H as <-.
  exists a, b, dash, plus. cbn [v_major v_minor v_patch v_pre v_meta]. unfold in_u32.
  repeat (split; [assumption|]). cbn [bs app]. reflexivity.
Qed.

(** ** Comparator versions *)

Definition wl_of (w : wl_char) (r : bytes) : bytes := wl_text w ++ r.

Lemma eat_wildcard_yes w st idx r :
  eat_wildcard (mkci st idx (wl_text w ++ r)) = (Some w, mkci st (idx + 1) r).
Proof. destruct w; reflexivity. Qed.

Definition head_not_wl (r : bytes) : Prop := head_not 42 r /\ head_not 120 r /\ head_not 88 r.

Lemma eat_wildcard_no st idx r : head_not_wl r -> eat_wildcard (mkci st idx r) = (None, mkci st idx r).
Proof.
  intros (H1 & H2 & H3). unfold eat_wildcard, peek_byte. cbn [ci_rest].
  destruct r as [|b r]; [reflexivity|]. cbn in H1, H2, H3.
  destruct b as [|p]; [reflexivity|].
  repeat (destruct p as [p|p|]; try reflexivity; try congruence).
Qed.

Lemma eat_wildcard_inv st idx rest o c : eat_wildcard (mkci st idx rest) = (o, c) ->
  (exists w r, o = Some w /\ rest = wl_text w ++ r /\ c = mkci st (idx + 1) r) \/
  (o = None /\ head_not_wl rest /\ c = mkci st idx rest).
Proof.
  destruct rest as [|b r].
  - intros H. rewrite eat_wildcard_no in H by (repeat split). injection H as <- <-. right. repeat split.
  - destruct (N.eq_dec b 42) as [->|N1]; [|destruct (N.eq_dec b 120) as [->|N2]; [|destruct (N.eq_dec b 88) as [->|N3]]].
    + change (42 :: r) with (wl_text WStar ++ r). rewrite eat_wildcard_yes. intros H; injection H as <- <-. left; eauto.
    + change (120 :: r) with (wl_text WLowerX ++ r). rewrite eat_wildcard_yes. intros H; injection H as <- <-. left; eauto.
    + change (88 :: r) with (wl_text WUpperX ++ r). rewrite eat_wildcard_yes. intros H; injection H as <- <-. left; eauto.
    + intros H. rewrite eat_wildcard_no in H by (repeat split; assumption). injection H as <- <-.
      right. repeat split; assumption.
Qed.

Lemma dec_head_not_wl n r : head_not_wl (dec n ++ r).
Proof.
  pose proof (dec_digits n) as D. pose proof (dec_nonempty n) as NE.
  destruct (dec n) as [|d ds]; [congruence|]. inversion D as [|? ? D1 _]; subst.
  unfold is_digit in D1. unfold head_not_wl, head_not. cbn [app]. repeat split; lia.
Qed.

(** End of a comparator: nothing, a space or a comma. *)
Definition comp_end (r : bytes) : Prop := match r with [] => True | b :: _ => b = 32 \/ b = 44 end.

Lemma comp_end_head b r : comp_end r -> b <> 32 -> b <> 44 -> head_not b r.
Proof. destruct r as [|x r]; cbn; [auto|]. intros [->| ->]; congruence. Qed.
Lemma comp_end_no_digit r : comp_end r -> no_digit r.
Proof. destruct r as [|x r]; cbn; [auto|]. intros [->| ->]; reflexivity. Qed.
Lemma comp_end_no_ident_dot r : comp_end r -> no_ident_dot r.
Proof. destruct r as [|x r]; cbn; [auto|]. intros [->| ->]; split; try reflexivity; discriminate. Qed.

(** The operator after the version was read. *)
Definition final_op (o : op) (v : comp_ver) : op :=
  match o with
  | OpBl => match v with
            | CMajor _ (Some _) => OpWl
            | CMinor _ _ (Some _) => OpWl
            | _ => OpBl
            end
  | _ => o
  end.

Lemma wl_len w : blen (wl_text w) = 1.
Proof. destruct w; reflexivity. Qed.

Lemma final_op_major o a w : (if op_is_blank o then OpWl else o) = final_op o (CMajor a (Some w)).
Proof. destruct o; reflexivity. Qed.
Lemma final_op_minor o a b w : (if op_is_blank o then OpWl else o) = final_op o (CMinor a b (Some w)).
Proof. destruct o; reflexivity. Qed.

Ltac norm := repeat first [rewrite <- app_assoc | progress (cbn [bs app])].
Ltac lens := repeat first [rewrite blen_app | rewrite blen_cons | rewrite blen_nil | rewrite wl_len].

Lemma comp_version_complete prof st idx v t r o : partial_text v t -> comp_end r ->
  comp_version prof (mkci st idx (t ++ r)) o = Ok (v, final_op o v, mkci st (idx + blen t) r).
Proof.
  intros T R. unfold comp_version.
  assert (ND := comp_end_no_digit r R). assert (NI := comp_end_no_ident_dot r R).
  assert (H46 : head_not 46 r) by (apply comp_end_head; [assumption|discriminate|discriminate]).
  assert (H45 : head_not 45 r) by (apply comp_end_head; [assumption|discriminate|discriminate]).
  assert (H43 : head_not 43 r) by (apply comp_end_head; [assumption|discriminate|discriminate]).
  assert (FIN : forall (v : comp_ver) i j, i = j -> @Ok error _ (v, o, mkci st i r) = Ok (v, o, mkci st j r)) by congruence.
  inversion T; subst; unfold in_u32 in *.
  - (* major *)
    rewrite parse_int_dec by assumption. cbn [bind]. unfold eat_dot. rewrite eat_byte_no by assumption.
    destruct o; reflexivity.
  - norm. rewrite parse_int_dec by (assumption || reflexivity). cbn [bind].
    unfold eat_dot. rewrite eat_byte_yes, eat_wildcard_yes, eat_byte_no by assumption.
    rewrite (final_op_major o a (w, None)). lens. do 3 f_equal; lia.
  - norm. rewrite parse_int_dec by (assumption || reflexivity). cbn [bind].
    unfold eat_dot. rewrite eat_byte_yes. norm. rewrite eat_wildcard_yes, eat_byte_yes, eat_wildcard_yes.
    rewrite (final_op_major o a (w, Some x)). lens.
    do 3 f_equal; lia.
  - norm. rewrite parse_int_dec by (assumption || reflexivity). cbn [bind].
    unfold eat_dot. rewrite eat_byte_yes. rewrite eat_wildcard_no by apply dec_head_not_wl.
    rewrite parse_int_dec by assumption. cbn [bind]. rewrite eat_byte_no by assumption.
    lens. replace (final_op o _) with o by (destruct o; reflexivity).
    apply FIN. lia.
  - norm. rewrite parse_int_dec by (assumption || reflexivity). cbn [bind].
    unfold eat_dot. rewrite eat_byte_yes. rewrite eat_wildcard_no by apply dec_head_not_wl.
    norm. rewrite parse_int_dec by (assumption || reflexivity). cbn [bind]. rewrite eat_byte_yes, eat_wildcard_yes.
    rewrite (final_op_minor o a b w). lens. do 3 f_equal; lia.
  - norm. rewrite parse_int_dec by (assumption || reflexivity). cbn [bind].
    unfold eat_dot. rewrite eat_byte_yes. rewrite eat_wildcard_no by apply dec_head_not_wl.
    rewrite parse_int_dec by (assumption || reflexivity). cbn [bind]. rewrite eat_byte_yes.
    rewrite eat_wildcard_no by apply dec_head_not_wl. rewrite parse_int_dec by assumption. cbn [bind].
    unfold eat_hyphen, eat_plus. rewrite opt_ident_none by assumption. cbn [bind].
    rewrite opt_ident_none by assumption. cbn [bind].
    replace (final_op o _) with o by (destruct o; reflexivity). apply FIN.
    lens. lia.
  - norm. rewrite parse_int_dec by (assumption || reflexivity). cbn [bind].
    unfold eat_dot. rewrite eat_byte_yes. rewrite eat_wildcard_no by apply dec_head_not_wl.
    rewrite parse_int_dec by (assumption || reflexivity). cbn [bind]. rewrite eat_byte_yes.
    rewrite eat_wildcard_no by apply dec_head_not_wl. rewrite parse_int_dec by (assumption || reflexivity). cbn [bind].
    unfold eat_hyphen, eat_plus. rewrite opt_ident_none by (cbn; discriminate). cbn [bind].
    rewrite opt_ident_some by (assumption || (apply meta_grammar_iff; assumption)). cbn [bind].
    replace (final_op o _) with o by (destruct o; reflexivity). apply FIN.
    lens. lia.
  - norm. rewrite parse_int_dec by (assumption || reflexivity). cbn [bind].
    unfold eat_dot. rewrite eat_byte_yes. rewrite eat_wildcard_no by apply dec_head_not_wl.
    rewrite parse_int_dec by (assumption || reflexivity). cbn [bind]. rewrite eat_byte_yes.
    rewrite eat_wildcard_no by apply dec_head_not_wl. rewrite parse_int_dec by (assumption || reflexivity). cbn [bind].
    unfold eat_hyphen, eat_plus.
    rewrite opt_ident_some by (assumption || (apply pre_grammar_iff; assumption)). cbn [bind].
    rewrite opt_ident_none by assumption. cbn [bind].
    replace (final_op o _) with o by (destruct o; reflexivity). apply FIN.
    lens. lia.
  - norm. rewrite parse_int_dec by (assumption || reflexivity). cbn [bind].
    unfold eat_dot. rewrite eat_byte_yes. rewrite eat_wildcard_no by apply dec_head_not_wl.
    rewrite parse_int_dec by (assumption || reflexivity). cbn [bind]. rewrite eat_byte_yes.
    rewrite eat_wildcard_no by apply dec_head_not_wl. rewrite parse_int_dec by (assumption || reflexivity). cbn [bind].
    unfold eat_hyphen, eat_plus.
    rewrite opt_ident_some; [|apply pre_grammar_iff; assumption|split; [reflexivity|discriminate]]. cbn [bind].
    rewrite opt_ident_some by (assumption || (apply meta_grammar_iff; assumption)). cbn [bind].
    replace (final_op o _) with o by (destruct o; reflexivity). apply FIN.
    lens. lia.
Qed.

Lemma comp_version_sound st idx s o v o' c :
  comp_version Debug (mkci st idx s) o = Ok (v, o', c) ->
  exists t r, partial_text v t /\ s = t ++ r /\ o' = final_op o v /\ c = mkci st (idx + blen t) r.
Proof.
  unfold comp_version.
  destruct (parse_int Debug _ FMajor) as [[major c1]|e|] eqn:I1; cbn [bind]; try discriminate.
  apply parse_int_debug_ok in I1 as (r1 & -> & _ & U1 & ->).
  unfold eat_dot. destruct (eat_byte 46 _) as [b1 c2] eqn:D1.
  apply eat_byte_inv in D1 as [(-> & r2 & -> & ->)|(-> & H & ->)].
  2:{ intros X; injection X as <- <- <-. exists (dec major), r1.
      split; [constructor; assumption|]. split; [reflexivity|]. split; [destruct o; reflexivity|reflexivity]. }
  destruct (eat_wildcard _) as [w1 c3] eqn:W1.
  apply eat_wildcard_inv in W1 as [(w & r3 & -> & -> & ->)|(-> & NW & ->)].
  - destruct (eat_byte 46 _) as [b2 c4] eqn:D2.
    apply eat_byte_inv in D2 as [(-> & r4 & -> & ->)|(-> & H & ->)].
    2:{ intros X; injection X as <- <- <-. exists (dec major ++ bs "." ++ wl_text w), r3.
        split; [constructor; assumption|]. norm. split; [reflexivity|]. split; [apply (final_op_major o major (w, None))|].
        f_equal. lens. lia. }
    destruct (eat_wildcard _) as [w2 c5] eqn:W2.
    apply eat_wildcard_inv in W2 as [(x & r5 & -> & -> & ->)|(-> & NW & ->)].
    + intros X; injection X as <- <- <-. exists (dec major ++ bs "." ++ wl_text w ++ bs "." ++ wl_text x), r5.
      split; [constructor; assumption|]. norm. split; [reflexivity|]. split; [apply (final_op_major o major (w, Some x))|].
      f_equal. lens. lia.
    + destruct (peek_char _) as [[ch|]|e|]; cbn [bind]; discriminate.
  - destruct (parse_int Debug _ FMinor) as [[minor c1]|e|] eqn:I2; cbn [bind]; try discriminate.
    apply parse_int_debug_ok in I2 as (r3 & -> & _ & U2 & ->).
    destruct (eat_byte 46 _) as [b2 c4] eqn:D2.
    apply eat_byte_inv in D2 as [(-> & r4 & -> & ->)|(-> & H & ->)].
    2:{ intros X; injection X as <- <- <-. exists (dec major ++ bs "." ++ dec minor), r3.
        split; [constructor; assumption|]. norm. split; [reflexivity|]. split; [destruct o; reflexivity|].
        f_equal. lens. lia. }
    destruct (eat_wildcard _) as [w2 c5] eqn:W2.
    apply eat_wildcard_inv in W2 as [(x & r5 & -> & -> & ->)|(-> & NW2 & ->)].
    + intros X; injection X as <- <- <-. exists (dec major ++ bs "." ++ dec minor ++ bs "." ++ wl_text x), r5.
      split; [constructor; assumption|]. norm. split; [reflexivity|]. split; [apply (final_op_minor o major minor x)|].
      f_equal. lens. lia.
    + destruct (parse_int Debug _ FPatch) as [[patch c1]|e|] eqn:I3; cbn [bind]; try discriminate.
      apply parse_int_debug_ok in I3 as (r5 & -> & _ & U3 & ->).
      destruct (parse_opt_ident eat_hyphen _ _) as [[pre c2]|e|] eqn:P1; cbn [bind]; try discriminate.
      destruct (parse_opt_ident eat_plus _ c2) as [[meta c3]|e|] eqn:P2; cbn [bind]; try discriminate.
      unfold eat_hyphen in P1. unfold eat_plus in P2.
      apply opt_ident_inv in P1 as [(-> & _ & ->)|(pr & r6 & -> & -> & G & _ & ->)];
      apply opt_ident_inv in P2 as [(-> & _ & ->)|(me & r7 & -> & -> & G2 & _ & ->)];
      intros X; injection X as <- <- <-.
      * exists (dec major ++ bs "." ++ dec minor ++ bs "." ++ dec patch), r5.
        split; [constructor; assumption|]. norm. split; [reflexivity|]. split; [destruct o; reflexivity|].
        f_equal. lens. lia.
      * exists (dec major ++ bs "." ++ dec minor ++ bs "." ++ dec patch ++ bs "+" ++ me), r7.
        split; [constructor; try assumption; apply meta_grammar_iff; assumption|].
        norm. split; [reflexivity|]. split; [destruct o; reflexivity|].
        f_equal. lens. lia.
      * exists (dec major ++ bs "." ++ dec minor ++ bs "." ++ dec patch ++ bs "-" ++ pr), r6.
        split; [constructor; try assumption; apply pre_grammar_iff; assumption|].
        norm. split; [reflexivity|]. split; [destruct o; reflexivity|].
        f_equal. lens. lia.
      * exists (dec major ++ bs "." ++ dec minor ++ bs "." ++ dec patch ++ bs "-" ++ pr ++ bs "+" ++ me), r7.
        split; [constructor; try assumption; [apply pre_grammar_iff|apply meta_grammar_iff]; assumption|].
        norm. split; [reflexivity|]. split; [destruct o; reflexivity|].
        f_equal. lens. lia.
Qed.
