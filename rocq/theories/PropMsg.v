(** C70: what the messages say of the document. *)
From Verif Require Import Base BaseProofs CommonModel CommonSpec CommonProofs TomlError LitModel LitSpec LitErr LexModel LexSpec LexBase ParseModel ParseSpec ParsePlace ParseItems DisplayModel DiagModel MsgSpec PropParse.

(** ** Texts *)
Lemma fmt_str_twice s : fmt_str (fmt_str s) = fmt_str s.
Proof. apply fmt_str_id, fmt_str_no_control. Qed.
Lemma fmt_str_app a b : fmt_str (a ++ b) = fmt_str a ++ fmt_str b.
Proof. apply flat_map_app. Qed.
Lemma code_char x : code [x] = q (fmt_char x).
Proof. unfold code, q, fmt_str. cbn [flat_map]. rewrite app_nil_r. reflexivity. Qed.
Lemma code_text s : code s = q (fmt_str s).
Proof. reflexivity. Qed.
Lemma code_delims k : code (delims k) = q (quote_text k).
Proof. destruct k; reflexivity. Qed.
Lemma code_delim k : code [delim k] = q (quote_text (quote_single k)).
Proof. destruct k; reflexivity. Qed.
Lemma string_kind_text k : string_kind k = quote_kind k.
Proof. destruct k; reflexivity. Qed.
Lemma part_name_text p : part_name p = part_text p.
Proof. destruct p as [| | |[]| | |]; reflexivity. Qed.
Lemma field_name_text f : field_name f = field_text f.
Proof. destruct f; reflexivity. Qed.
Lemma found_name_text t b c : found t b c -> found_name b c (fmt_str t).
Proof.
  intros [(-> & B & C & D)|[(-> & B)|[(-> & B)|[(-> & B & C)|(-> & B & C)]]]].
  - rewrite !fmt_str_app, fmt_str_twice. exact (fn_text b c B C D).
  - exact (fn_curly b c B).
  - exact (fn_comment b c B).
  - exact (fn_newline b c B C).
  - exact (fn_end b c B C).
Qed.

(** Hexadecimal numbers. *)
Lemma hex_aux_text n : forall fuel acc, (N.to_nat (N.log2 n) < fuel)%nat ->
  exists hs, hex_aux fuel n acc = hs ++ acc /\ lower_hex hs n /\ (n = 0 -> length hs = 1%nat) /\ (0 < n -> 16 ^ (N.of_nat (length hs) - 1) <= n) /\ hs <> [].
Proof.
  induction n as [n IH] using (well_founded_induction N.lt_wf_0). intros [|fuel] acc F; [lia|]. cbn [hex_aux].
  assert (D : forall d, d < 16 -> hex_digit_of (hex_digit d) d /\ ~ 65 <= hex_digit d <= 70).
  { intros d L. unfold hex_digit. destruct (N.ltb_spec d 10); [split; [constructor; assumption|lia]|]. split; [apply HX_lower; lia|lia]. }
  pose proof (N.div_mod n 16 ltac:(lia)) as DM. pose proof (N.mod_lt n 16 ltac:(lia)) as ML.
  destruct (D _ ML) as (D1 & D2).
  destruct (N.eqb_spec (n / 16) 0) as [Z|NZ].
  - exists [hex_digit (n mod 16)]. split; [reflexivity|]. split; [|split; [reflexivity|split; [intros G; change (16 ^ (N.of_nat (length [hex_digit (n mod 16)]) - 1)) with 1; lia|discriminate]]].
    split; [|constructor; [exact D2|constructor]]. replace n with (16 * 0 + n mod 16) at 2 by lia. exact (HT_snoc [] 0 _ _ HT_nil D1).
  - assert (L : n / 16 < n) by (apply N.div_lt; lia).
    assert (G : N.log2 n = 4 + N.log2 (n / 16)).
    { change 16 with (2 ^ 4). rewrite <- N.shiftr_div_pow2, N.log2_shiftr. assert (4 <= N.log2 n); [|lia].
      apply N.log2_le_pow2; [lia|]. change (2 ^ 4) with 16. assert (1 <= n / 16) by lia. lia. }
    destruct (IH _ L fuel (hex_digit (n mod 16) :: acc) ltac:(lia)) as (hs & E & (HT & HF) & _ & P & NE).
    exists (hs ++ [hex_digit (n mod 16)]). rewrite <- app_assoc. split; [exact E|]. split; [|split; [|split; [|destruct hs; discriminate]]].
    + split; [|apply Forall_app; split; [exact HF|constructor; [exact D2|constructor]]]. rewrite DM at 2. constructor; assumption.
    + intros Z. exfalso. apply NZ. rewrite Z. reflexivity.
    + intros _. specialize (P ltac:(lia)). rewrite app_length. cbn [length]. destruct hs as [|h hs]; [contradiction|]. cbn [length] in *.
      replace (N.of_nat (S (length hs) + 1) - 1) with (N.succ (N.of_nat (S (length hs)) - 1)) by lia. rewrite N.pow_succ_r'. lia.
Qed.
Lemma hex_zeros k hs v : lower_hex hs v -> lower_hex (repeat 48 k ++ hs) v.
Proof.
  intros (H & F). split; [|apply Forall_app; split; [|exact F]; apply Forall_forall; intros c I; apply repeat_spec in I; lia].
  clear F. induction H as [|ds v c d H IH HD].
  - rewrite app_nil_r. induction k as [|k IH]; [constructor|]. replace (repeat 48 (S k)) with (repeat 48 k ++ [48]) by (symmetry; apply repeat_cons).
    change 0 with (16 * 0 + 0). constructor; [exact IH|]. change 48 with (48 + 0). constructor. lia.
  - rewrite app_assoc. constructor; assumption.
Qed.
Lemma hex_pad_text n v : v < 16 ^ N.of_nat n -> (0 < n)%nat -> lower_hex (hex_pad (N.of_nat n) v) v /\ length (hex_pad (N.of_nat n) v) = n.
Proof.
  intros L P. unfold hex_pad, hex. destruct (hex_aux_text v (S (N.to_nat (N.log2 v))) [] ltac:(lia)) as (hs & E & H & Z & B & NE). rewrite app_nil_r in E. rewrite E.
  split; [apply hex_zeros; exact H|]. rewrite app_length, repeat_length. rewrite Nat2N.id.
  enough (length hs <= n)%nat by lia. destruct (N.eq_dec v 0) as [->|NZ]; [rewrite Z by reflexivity; lia|].
  specialize (B ltac:(lia)). assert (LT : 16 ^ (N.of_nat (length hs) - 1) < 16 ^ N.of_nat n) by lia. apply N.pow_lt_mono_r_iff in LT; lia.
Qed.
Lemma loose_bound ds v : loose_hex ds v -> v < 16 ^ N.of_nat (length ds).
Proof.
  assert (P : forall (ds : list N) c, 16 ^ N.of_nat (length (ds ++ [c])) = 16 * 16 ^ N.of_nat (length ds)).
  { intros l c. rewrite app_length. cbn [length]. rewrite Nat.add_1_r, Nat2N.inj_succ, N.pow_succ_r'. reflexivity. }
  induction 1 as [|ds v c d H IH HD|ds v c H IH HD]; [cbn; lia| |]; rewrite P; [|lia].
  assert (d < 16) by (inversion HD; lia). lia.
Qed.

(** ** Literals *)
Lemma more_text x (p : lit_part) :
  (match p with
   | LPIntOrFloat => if ((97 <=? x) && (x <=? 102)) || ((65 <=? x) && (x <=? 70)) then bs ", hexadecimal integers need to be prefixed by `0x`" else []
   | _ => []
   end) = (if match p with LPIntOrFloat => true | _ => false end && existsb (N.eqb x) (bs "abcdefABCDEF")
           then bs ", hexadecimal integers need to be prefixed by `0x`" else []).
Proof.
  destruct p; try reflexivity. cbn [andb]. match goal with |- (if ?a then _ else _) = (if ?b then _ else _) => assert (G : a = b); [|rewrite G; reflexivity] end.
  assert (E : existsb (N.eqb x) (bs "abcdefABCDEF") = true <-> (97 <= x <= 102 \/ 65 <= x <= 70)).
  { rewrite existsb_exists. split.
    - intros (y & I & Y). apply N.eqb_eq in Y. subst y. cbn in I. intuition lia.
    - intros R. exists x. split; [|apply N.eqb_refl].
      assert (x = 97 \/ x = 98 \/ x = 99 \/ x = 100 \/ x = 101 \/ x = 102 \/ x = 65 \/ x = 66 \/ x = 67 \/ x = 68 \/ x = 69 \/ x = 70) as C by lia.
      cbn. intuition auto. }
  destruct (existsb (N.eqb x) (bs "abcdefABCDEF")).
  - destruct (proj1 E eq_refl) as [H|H].
    + destruct (N.leb_spec 97 x), (N.leb_spec x 102); first [reflexivity|lia].
    + destruct (N.leb_spec 65 x), (N.leb_spec x 70); first [apply orb_true_r|lia].
  - destruct (N.leb_spec 97 x), (N.leb_spec x 102), (N.leb_spec 65 x), (N.leb_spec x 70); try reflexivity; exfalso; assert (false = true) by (apply E; lia); discriminate.
Qed.

Lemma bare_word_clean k : bare_word k -> fmt_str k = k.
Proof. cbn. intros [<-|[<-|[<-|[<-|[]]]]]; reflexivity. Qed.
Lemma word_read_bare k u r : word_read k u r -> bare_word k.
Proof. intros H. inversion H; subst; try assumption; cbn; intuition auto. Qed.
Lemma lit_eq u v w d d' n : literal_message u v w d n -> d = d' -> literal_message u v w d' n.
Proof. intros H <-. exact H. Qed.
Lemma msg_eq input a b c d d' n h : message input a b c d n h -> d = d' -> message input a b c d' n h.
Proof. intros H <-. exact H. Qed.
Lemma literal_says e u v w : (forall c p, e <> EUnexpectedLiteralStart c p) -> lit_says e u v w -> literal_message u v w (toml_description e) (toml_annotation e).
Proof.
  intros NS. destruct e; cbn [lit_says]; intros H; try contradiction H; cbn [toml_description toml_annotation];
    rewrite <- ?part_name_text, <- ?field_name_text, <- ?code_char; try rewrite more_text.
  - destruct (NS _ _ eq_refl).
  - destruct H as (-> & A & B & C). apply l_char; [assumption..|reflexivity].
  - destruct H as (-> & A). apply l_starts_us; assumption.
  - destruct H as (-> & A & B). apply l_ends_us; assumption.
  - destruct H as ((n & ->) & A & p & B). apply (l_consecutive p); assumption.
  - destruct H as (-> & -> & A). destruct g; (apply l_sign; [auto|exact A]).
  - destruct H as (-> & A & B). apply l_zero; assumption.
  - destruct H as (-> & -> & A & B). apply l_radix; assumption.
  - destruct H as (A & -> & B). apply l_signed_zero; assumption.
  - destruct H as (-> & x & r & A & B). rewrite <- (bare_word_clean _ (word_read_bare _ _ _ A)) at 1. eapply l_upper; eassumption.
  - destruct H as (-> & x & r & A & B & C). rewrite <- (bare_word_clean _ (word_read_bare _ _ _ A)) at 1. eapply l_other; eassumption.
  - destruct H as (-> & A & -> & B). rewrite <- (bare_word_clean _ (word_read_bare _ _ _ B)). apply l_trailing; assumption.
  - destruct H as (-> & -> & r & A & B). rewrite <- (bare_word_clean _ (word_read_bare _ _ _ A)) at 1. eapply l_missing; eassumption.
  - destruct H as (-> & A & B). apply l_fraction; assumption.
  - destruct H as (-> & -> & A). apply l_float; assumption.
  - destruct H as (-> & -> & f & ->). apply l_no_digits.
  - destruct H as (-> & A & f & c & r & -> & B). destruct A as [-> | ->]; (eapply l_prefixed_sign; [auto|exact B]).
  - destruct H as (-> & ->). destruct f; exact (l_capital _ w).
  - destruct H as (-> & f & ->). apply l_prefixed_starts.
  - destruct H as (-> & -> & f & A). eapply l_prefixed_ends; eassumption.
  - destruct H as (-> & A & B & C). destruct f; rewrite <- ?code_char; exact (l_digit _ c u w A B C).
  - destruct H as (-> & -> & z & A & B). eapply l_overflow; eassumption.
  - destruct H as (-> & A & B). apply l_date_char; assumption.
  - destruct H as (-> & A & B & C). apply l_date_expected; assumption.
  - destruct H as (-> & A & B & C). apply l_date_missing_char; assumption.
  - destruct H as (-> & [(A & B)|(-> & A & B & C)]); [apply l_date_incomplete|apply l_date_three]; assumption.
  - destruct H as (-> & A & B). apply l_date_missing; assumption.
  - destruct H as (A & B & C & D). eapply lit_eq; [apply (l_date_bounds f v0 lo hi); eassumption|]. unfold q. rewrite <- ?app_assoc. reflexivity.
  - destruct H as (-> & -> & x & n & y & -> & A & B & C). apply l_date_subsec; assumption.
  - destruct H as ((c & -> & A) & t & B). eapply l_local_offset; eassumption.
Qed.

(** ** All messages *)
Lemma span_char (a : list N) (x : N) : x < 128 -> x <> 10 -> span_ascii_char (pos_at a) = mkspan (pos_at a) (pos_at (a ++ [x])).
Proof.
  intros L NL. unfold span_ascii_char. f_equal. apply pos_plus_text; [intros [->|[]]; congruence|]. rewrite tlen_one. unfold len_utf8. destruct (N.ltb_spec x 128); [reflexivity|lia].
Qed.
Lemma opening_text input x p t : x < 128 -> x <> 10 -> char_at input x p -> t = bs "left " ++ code [x] ++ bs " defined here" ->
  opening input x (Some (mkhint (span_ascii_char p) t)).
Proof. intros L NL (a & b & E & ->) ->. rewrite (span_char a x L NL). exact (op_at input x a b E). Qed.

Lemma error_says input e a b c : input = a ++ b ++ c -> parse_says e a b c -> hint_ok input e ->
  message input a b c (toml_description e) (toml_annotation e) (option_map (fun s => mkhint s (toml_hint_text e)) (err_hint e)).
Proof.
  intros IN S0 HO.
  assert (LIT : (forall x p, e <> EUnexpectedLiteralStart x p) -> (exists a' u w c', a = a' ++ u /\ c = w ++ c' /\ whole_literal (u ++ b ++ w) c' /\ lit_says e u b w) -> err_hint e = None ->
     message input a b c (toml_description e) (toml_annotation e) (option_map (fun s => mkhint s (toml_hint_text e)) (err_hint e))).
  { intros NS (a' & u & w & c' & A & C & W & L) ->. apply (m_literal input a b c u w); [|apply literal_says; assumption]. exists a', c'. auto. }
  destruct e; cbn [parse_says err_says] in S0; cbn [hint_ok err_hint] in HO; try (apply LIT; [discriminate|exact S0|reflexivity]); clear LIT;
    cbn [toml_description toml_annotation err_hint option_map toml_hint_text]; rewrite <- ?code_char.
  - destruct S0 as ((t & ->) & ST). rewrite <- string_kind_text, <- code_delims. eapply m_missing_quote; [reflexivity|assumption].
  - destruct S0 as (M & (a' & ->) & (n & ->) & NS). rewrite <- code_delim. eapply m_excess; eauto.
  - destruct S0 as (-> & P). apply m_string_char; auto.
  - destruct S0 as (-> & (x & r & -> & <-) & (a' & ->) & A & B & C & D). eapply m_escape; eauto.
  - destruct S0 as (-> & (x & r & -> & <-) & A & a' & n & ds & s' & -> & B & C). eapply m_unicode_char; eauto.
  - destruct S0 as (ds & -> & A & B & C). pose proof (loose_bound _ _ B) as LB.
    destruct (hex_pad_text (length ds) cp LB) as (H1 & H2); [inversion A; lia|].
    eapply msg_eq; [eapply (m_codepoint input a b c ds cp); eassumption|]. unfold q. rewrite <- ?app_assoc. reflexivity.
  - destruct S0 as (w & -> & A & B & C & D). eapply m_line_ending; eauto.
  - destruct S0 as (A & B). apply m_unfinished; assumption.
  - destruct S0 as (-> & A & (x & r & -> & <-)). eapply m_key_char; eauto.
  - destruct S0 as (t & ->). eapply m_multiline_key; eauto.
  - destruct S0 as (t & ->). eapply m_multiline_key; eauto.
  - apply m_recursion; assumption.
  - apply m_eq_or_dot, found_name_text; assumption.
  - apply m_curly; [apply found_name_text; assumption|]. eapply opening_text; [lia|lia|exact HO|reflexivity].
  - destruct S0 as [F|(-> & ->)].
    + apply m_square; [apply found_name_text; assumption|]. eapply opening_text; [lia|lia|exact HO|reflexivity].
    + apply m_square_end; [reflexivity|]. eapply opening_text; [lia|lia|exact HO|reflexivity].
  - apply m_dot_or_square; [apply found_name_text; assumption|]. eapply opening_text; [lia|lia|exact HO|reflexivity].
  - apply m_key, found_name_text; assumption.
  - apply m_value, found_name_text; assumption.
  - apply m_comma; assumption.
  - destruct S0 as (b1 & r & E & F). eapply m_newline; [exact E|apply found_name_text; assumption].
  - destruct S0 as (-> & A & B). apply m_missing_newline; auto.
  - apply m_trailing_comma; assumption.
  - destruct S0 as (A & x & B & C & D). eapply m_array_pars; eassumption.
  - apply m_literal_start; assumption.
  - destruct S0 as (A & B). apply m_too_far; assumption.
  - discriminate HO.
  - discriminate HO.
  - discriminate HO.
  - discriminate HO.
  - discriminate HO.
  - discriminate HO.
Qed.

(** Every error that lexing and parsing report: the description and the
    annotation are right for the piece of the document that is marked (see
    [message]), as is the hint.  The exception is an illegal character in a
    comment, where the text is right but the place is not (C51). *)
Theorem C70_parse_messages input a es e : lex_and_parse input = Ok (a, es) -> In e es ->
  g_severity (toml_diag e) = SevError /\ g_lines (toml_diag e) = [] /\
  ((exists p b c, input = p ++ b ++ c /\ g_span (toml_diag e) = mkspan (pos_at p) (pos_at (p ++ b)) /\
      message input p b c (g_description (toml_diag e)) (g_annotation (toml_diag e)) (g_hint (toml_diag e))) \/
   (exists p x c r, input = p ++ x :: c :: r /\ x <> 10 /\ c <> 10 /\ ~ plain c /\ s_start (g_span (toml_diag e)) = pos_at p /\
      g_description (toml_diag e) = bs "invalid character " ++ code [c] ++ bs " in comment" /\
      g_annotation (toml_diag e) = bs "invalid character" /\ g_hint (toml_diag e) = None)).
Proof.
  intros E I0. pose proof (proj1 (Forall_forall _ _) (C51_error_spans _ _ _ E) e I0) as [((p & b & c & IN & SP & S0) & HO)|(p & x & c & r & IN & X & C & P & ->)].
  - split; [reflexivity|]. split.
    + cbn [toml_diag g_lines]. destruct e; try reflexivity; discriminate HO.
    + left. exists p, b, c. split; [exact IN|]. split; [exact SP|]. exact (error_says input e p b c IN S0 HO).
  - split; [reflexivity|]. split; [reflexivity|]. right. exists p, x, c, r. rewrite code_char. repeat (split; [first [assumption|reflexivity]|]). reflexivity.
Qed.
Example C70_parse_example : exists a e, lex_and_parse (bs "d = 1979-13-01") = Ok (a, [e]) /\
  g_description (toml_diag e) = bs "date-time month `13` out of range, the valid range is `1..=12`" /\ g_annotation (toml_diag e) = bs "month out of range".
Proof. eexists _, _. split; [vm_compute; reflexivity|]. split; [vm_compute; reflexivity|vm_compute; reflexivity]. Qed.
Print Assumptions C70_parse_messages.
