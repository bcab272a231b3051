(** Escape sequences and the ends of unterminated strings. *)
From Verif Require Import Base BaseProofs CommonModel TomlError LitModel LexModel LexSpec LexBase LexStr LexQuote.

(** ** Columns count bytes *)
Lemma utf8_char_no_lf c : c <> 10 -> ~ In 10 (utf8_char c).
Proof.
  intros H. unfold utf8_char. destruct (c <? 128) eqn:E1; [cbn; lia|].
  destruct (c <? 2048) eqn:E2; [|destruct (c <? 65536) eqn:E3]; cbn [In]; lia.
Qed.
Lemma utf8_char_len c : N.of_nat (length (utf8_char c)) = len_utf8 c.
Proof. unfold utf8_char, len_utf8. repeat destruct (_ <? _); reflexivity. Qed.
Lemma count_app a b : ~ In 10 a -> count_until_lf (a ++ b) = N.of_nat (length a) + count_until_lf b.
Proof.
  induction a as [|x a IH]; intros H; [reflexivity|]. cbn [app count_until_lf length].
  replace (x =? 10) with false by (cbn in H; lia). rewrite IH by (cbn in H; tauto). lia.
Qed.
Lemma count_until_lf_pos s : count_until_lf (rev (utf8 s)) = p_char (pos_at s).
Proof.
  induction s as [|c s IH] using rev_ind; [reflexivity|].
  unfold utf8 in *. rewrite flat_map_app, rev_app_distr. cbn [flat_map]. rewrite app_nil_r.
  rewrite pos_at_snoc. unfold pos_step. destruct (N.eqb_spec c 10) as [->|H].
  - reflexivity.
  - rewrite count_app by (rewrite <- in_rev; apply utf8_char_no_lf; assumption).
    rewrite rev_length, utf8_char_len, IH. cbn [p_char]. lia.
Qed.

Lemma delims_no q c : In c (delims q) -> c = delim q.
Proof. destruct q; cbn; intuition congruence. Qed.
Lemma delims_snoc q : exists r, delims q = r ++ [delim q].
Proof. destruct q; [exists []|exists [34; 34]|exists []|exists [39; 39]]; reflexivity. Qed.
(** A suffix that has no quote does not reach into the opening delimiter. *)
Lemma strip_suffix q (p0 t x y : list N) :
  p0 ++ delims q ++ t = x ++ y -> ~ In (delim q) y -> exists t', x = p0 ++ delims q ++ t' /\ t = t' ++ y.
Proof.
  revert t x. induction y as [|c y IH] using rev_ind; intros t x E H.
  - exists t. rewrite app_nil_r in *. auto.
  - destruct t as [|z t _] using rev_ind.
    + destruct (delims_snoc q) as (r & D). rewrite app_nil_r, D, app_assoc, app_assoc in E.
      apply app_inj_tail in E. destruct E as [_ <-]. exfalso. apply H. apply in_app_iff. right. left. reflexivity.
    + rewrite !app_assoc in E. apply app_inj_tail in E. destruct E as [E <-].
      rewrite <- !app_assoc in E. destruct (IH t x E) as (t' & -> & ->).
      * intros I. apply H. apply in_app_iff. auto.
      * exists t'. rewrite <- !app_assoc. auto.
Qed.

Section Input.
Context (input : list N).
Section Str.
Context (q : quote) (p0 trim : list N).
Context (TR : trim = [] \/ (multi q /\ line_break trim)).
Local Notation op := (op q trim).
Local Notation L0 := (L0 p0).
Local Notation st_inv := (st_inv q p0 trim).
Local Notation final := (final input q p0).
Local Notation d := (delim q).

Lemma op_delims : exists t, op = delims q ++ t.
Proof. exists trim. reflexivity. Qed.

(** The literal: the text [b] and the closing quotes [e]. *)
Lemma lit_shape b e T : Forall (eq d) e -> (e = [] \/ quote_len q <= tlen e) -> (~ multi q -> no_lf b) -> text_from b T ->
  string_shape q (off_of q trim (tlen e)) (op ++ b ++ e) /\ text_from (op ++ b ++ e) T.
Proof.
  intros H1 H2 H3 H4. split; [exists trim, b, e; split; [unfold LexStr.op; assoc|]; auto 6|].
  apply (text_from_incl _ _ _ H4). intros c I. rewrite !in_app_iff. auto.
Qed.
Lemma lit_shape_open b T : (~ multi q -> no_lf b) -> text_from b T ->
  string_shape q (off_of q trim (tlen [])) (op ++ b) /\ text_from (op ++ b) T.
Proof. intros H1 H2. rewrite <- (app_nil_r b). apply lit_shape; auto. Qed.
Lemma lit_shape_single b T : ~ multi q -> no_lf b -> text_from b T ->
  string_shape q (off_of q trim (quote_len q)) (op ++ b ++ delims q) /\ text_from (op ++ b ++ delims q) T.
Proof.
  intros M H HT. replace (quote_len q) with (tlen (delims q)) by (destruct q; reflexivity). apply lit_shape; [rewrite (delims_single q M); auto| |auto|exact HT].
  right. destruct q; vm_compute; discriminate.
Qed.
Lemma lit_shape_multi b m x T : multi q -> x = Nat.min (m - 2) 2 -> (2 <= m)%nat -> text_from b T ->
  string_shape q (off_of q trim (N.of_nat (S m - x))) (op ++ b ++ repeat d (S m)) /\ text_from (op ++ b ++ repeat d (S m)) (T ++ repeat d x).
Proof.
  intros M -> L HT. destruct (delim_not q) as (_ & _ & _ & D2 & _). rewrite <- (tlen_repeat d) by exact D2.
  rewrite (repeat_split d (Nat.min (m - 2) 2) (S m)) by lia. rewrite (app_assoc b). apply lit_shape; [|right|tauto|].
  - apply Forall_forall. intros y I. symmetry. exact (repeat_spec _ _ _ I).
  - rewrite tlen_repeat by exact D2. replace (quote_len q) with 3 by (destruct M as [->| ->]; reflexivity). lia.
  - apply text_from_app; [apply (text_from_incl _ _ _ HT), incl_appl, incl_refl|apply text_from_repeat, delim_scalar].
Qed.

(** A single-line string that meets the end of its line; [s] is a carriage
    return that belongs to the line break. *)
Lemma end_line_final cur b s rest o st T e r0 bp :
  ~ multi q -> input = p0 ++ op ++ b ++ s ++ 10 :: rest -> (s = [] \/ s = [13]) ->
  st_inv b st T -> text_from b T -> no_lf b ->
  pos_in_line (mklex cur L0 (oerr o [e])) (tlen (p0 ++ op ++ b)) = Ok (pos_at (p0 ++ op ++ b)) ->
  errok input e -> (length rest <= length r0)%nat ->
  exists lx,
    end_string input (mklex cur L0 (oerr o [e])) st (tlen (p0 ++ op ++ b)) (tlen (p0 ++ op ++ b)) = Ok (mklex cur L0 lx) /\
    forall P, final o r0
      (mklex (cur_at ((p0 ++ op ++ b ++ s) ++ [10]) rest bp) L0
         (mkout (o_tokens lx ++ [mktok TNewline (pos_at (p0 ++ op ++ b))]) (o_strings lx) (o_literals lx) (o_errors lx))) P.
Proof.
  intros M IN Hs SI TF NB P1 OKe LE.
  pose proof (end_string_eq input q p0 trim TR cur (oerr o [e]) b [] T st (s ++ 10 :: rest)) as E.
  rewrite !app_nil_r in E. cbn [app] in E.
  eexists. split; [apply E; auto|].
  intros P. exists (op ++ b), (s ++ [10]), rest, T, (off_of q trim (tlen [])), bp, [e].
  destruct op_delims as (t & Et).
  split; [rewrite IN; assoc|]. split; [apply lit_shape_open; auto|]. split; [assumption|].
  split; [right; split; [destruct Hs as [->| ->]; [left|right]; reflexivity|assumption]|].
  split; [tauto|]. split.
  - f_equal; [f_equal; assoc|]. unfold str_out, oerr. cbn [o_tokens o_strings o_literals o_errors].
    rewrite <- !app_assoc. destruct Hs as [->| ->]; reflexivity.
  - split; [constructor; [assumption|constructor]|discriminate].
Qed.

Lemma errok_missing b t : input = p0 ++ op ++ b ++ t -> string_stops q t ->
  errok input (EMissingQuote q (mkspan (pos_at p0) (pos_at (p0 ++ op ++ b)))).
Proof. intros IN ST. apply (errok_span input _ p0 (op ++ b) t); [rewrite IN; assoc|reflexivity|].
  destruct op_delims as (u & E). split; [|exact ST]. exists (u ++ b). rewrite E. assoc. Qed.

Lemma recover_newline_final b rest r0 o st T P :
  ~ multi q -> input = p0 ++ op ++ b ++ 10 :: rest -> st_inv b st T -> text_from b T -> no_lf b -> (length rest <= length r0)%nat ->
  exists lx, recover_newline input (mklex (cur_lf (p0 ++ op ++ b) rest) L0 o) st = Ok (FBreak, lx, st) /\
    final o r0 lx P.
Proof.
  intros M IN SI TF NB LE. unfold recover_newline. rewrite lpos_lf. cbn [bind].
  rewrite (st_inv_quote _ _ _ _ _ _ SI), lex_error_eq.
  change (li_start (lx_lit (mklex (cur_lf (p0 ++ op ++ b) rest) L0 o))) with (pos_at p0).
  change (cu_pos (lx_cur (mklex (cur_lf (p0 ++ op ++ b) rest) L0
    (oerr o [EMissingQuote q (mkspan (pos_at p0) (pos_at (p0 ++ op ++ b)))])))) with (tlen (p0 ++ op ++ b)).
  destruct (end_line_final (cur_lf (p0 ++ op ++ b) rest) b [] rest o st T
    (EMissingQuote q (mkspan (pos_at p0) (pos_at (p0 ++ op ++ b)))) r0 (tlen (p0 ++ op ++ b) + 1) M IN) as (lx & E & F); auto.
  { apply lpos_lf. }
  { eapply errok_missing; [exact IN|]. right. exists [10], rest. split; [left; reflexivity|]. split; [reflexivity|tauto]. }
  rewrite E. cbn [bind]. unfold newline_token, char_token, end_literal.
  change (li_in (lx_lit (mklex (cur_lf (p0 ++ op ++ b) rest) L0 lx))) with false. cbn [negb bind].
  rewrite lpos_lf. cbn [bind]. unfold push_token, set_out. cbn [lx_cur lx_lit lx_out].
  rewrite newline_lf. eexists. split; [reflexivity|]. specialize (F P). rewrite app_nil_r in F. exact F.
Qed.

(** The input ends inside the string. *)
Lemma unterminated_final b r0 o st T P :
  input = p0 ++ op ++ b -> st_inv b st T -> text_from b T -> (~ multi q -> no_lf b) ->
  exists lx, unterminated input (mklex (cur_at (p0 ++ op ++ b) [] (tlen (p0 ++ op ++ b))) L0 o) st = Ok lx /\
    final o r0 lx P.
Proof.
  intros IN SI TF NB. unfold unterminated. rewrite lpos_end. cbn [bind].
  assert (G : forall p, (exists a c, input = p0 ++ a ++ c /\ p = pos_at (p0 ++ a) /\ (exists t, a = delims q ++ t) /\ string_stops q c) ->
    exists lx, (let lx := lex_error (mklex (cur_at (p0 ++ op ++ b) [] (tlen (p0 ++ op ++ b))) L0 o)
                  (EMissingQuote (ss_quote st) (mkspan (pos_at p0) p)) in
                end_string input lx st (cu_pos (lx_cur lx)) (cu_pos (lx_cur lx))) = Ok lx /\ final o r0 lx P).
  { intros p (a & c & INa & -> & SA). rewrite lex_error_eq. cbv zeta. cbn [lx_cur cur_at cu_pos].
    rewrite (st_inv_quote _ _ _ _ _ _ SI).
    pose proof (end_string_eq input q p0 trim TR (cur_at (p0 ++ op ++ b) [] (tlen (p0 ++ op ++ b)))
      (oerr o [EMissingQuote q (mkspan (pos_at p0) (pos_at (p0 ++ a)))]) b [] T st []) as E.
    rewrite !app_nil_r in E. cbn [app] in E. rewrite E; [|assumption|auto|assumption|apply pos_in_line_here|apply pos_in_line_here].
    eexists. split; [reflexivity|].
    exists (op ++ b), [], [], T, (off_of q trim (tlen [])), (tlen (p0 ++ op ++ b)), [EMissingQuote q (mkspan (pos_at p0) (pos_at (p0 ++ a)))].
    destruct op_delims as (t & Et). rewrite !app_nil_r.
    split; [assumption|]. split; [apply lit_shape_open; [exact NB|exact TF]|]. split; [cbn; lia|]. split; [auto|].
    split; [intros _ (x & y & H & _); discriminate|]. split.
    - unfold str_out, oerr. cbn [o_tokens o_strings o_literals o_errors]. rewrite !app_nil_r. reflexivity.
    - split; [|discriminate]. constructor; [|constructor]. apply (errok_span input _ p0 a c); [assumption|reflexivity|exact SA]. }
  cbn [lx_lit LexStr.L0 li_start]. fold L0.
  destruct op_delims as (t & Et).
  assert (INd : p0 ++ delims q ++ (t ++ b) = input) by (rewrite IN, Et; assoc).
  destruct (delim_not q) as (D1 & D2 & _).
  assert (WHOLE : exists a c, input = p0 ++ a ++ c /\ pos_at (p0 ++ op ++ b) = pos_at (p0 ++ a) /\ (exists t, a = delims q ++ t) /\ string_stops q c).
  { exists (op ++ b), []. rewrite app_nil_r. split; [assumption|]. split; [reflexivity|]. split; [|left; reflexivity]. exists (t ++ b). rewrite Et. assoc. }
  assert (LF : forall x y, input = x ++ y -> ~ In (delim q) y -> string_stops q y -> exists a c, input = p0 ++ a ++ c /\ pos_at x = pos_at (p0 ++ a) /\ (exists t, a = delims q ++ t) /\ string_stops q c).
  { intros x y E H ST. rewrite <- INd in E. destruct (strip_suffix _ _ _ _ _ E H) as (t' & -> & Et'). exists (delims q ++ t'), y.
    rewrite <- INd, Et'. split; [assoc|]. split; [reflexivity|]. split; [exists t'; reflexivity|exact ST]. }
  destruct (rev input) as [|z r] eqn:ER.
  { apply G. exact WHOLE. }
  assert (INr : input = rev r ++ [z]) by (rewrite <- (rev_involutive input), ER; reflexivity).
  destruct (N.eq_dec z 10) as [->|NZ].
  - set (cr := match r with 13 :: _ => 1 | _ => 0 end).
    assert (CR : exists x y, rev r = x ++ y /\ cr = tlen y /\ no_lf y /\ ~ In (delim q) y /\ (y = [] \/ y = [13])).
    { subst cr. destruct r as [|w r]; [exists [], []; cbn; auto 6|].
      destruct (N.eq_dec w 13) as [->|NW].
      - exists (rev r), [13]. cbn [rev]. split; [reflexivity|]. split; [reflexivity|]. split; [intros [|]; auto; lia|]. split; [intros [|]; auto; lia|auto].
      - exists (rev (w :: r)), []. rewrite app_nil_r. split; [reflexivity|]. split; [|auto].
        destruct w as [|w]; [reflexivity|]. do 4 (destruct w as [w|w|]; try reflexivity). congruence. }
    destruct CR as (x & y & Exy & Ecr & NLy & NDy & YY).
    assert (INx : input = x ++ y ++ [10]) by (rewrite INr, Exy; assoc).
    cbn [N.eqb Pos.eqb].
    assert (TL : tlen input = tlen x + tlen y + 1) by (rewrite INx, !tlen_app, tlen_one; change (len_utf8 10) with 1; lia).
    rewrite usub_ok by lia. cbn [bind].
    rewrite (slice_eq input [] x (y ++ [10])); [|assumption|reflexivity|rewrite app_nil_l; lia].
    cbn [bind sr_text].
    assert (PI : p_line (pos_at (p0 ++ op ++ b)) = p_line (pos_at x) + 1)
      by (rewrite <- IN, INx, app_assoc, pos_at_lf, (pos_at_no_lf x y NLy); reflexivity).
    rewrite PI. rewrite usub_ok by lia. cbn [bind].
    rewrite count_until_lf_pos. replace (p_line (pos_at x) + 1 - 1) with (p_line (pos_at x)) by lia.
    apply G. destruct (LF x (y ++ [10]) INx) as (a & c & E1 & E2 & E3).
    { rewrite in_app_iff. cbn. intuition. }
    { right. exists (y ++ [10]), []. rewrite app_nil_r. split; [destruct YY as [-> | ->]; [left|right]; reflexivity|]. auto. }
    exists a, c. rewrite <- E2. destruct (pos_at x); auto.
  - destruct z as [|z]; [apply G; exact WHOLE|].
    do 4 (destruct z as [z|z|]; try (apply G; exact WHOLE)). congruence.
Qed.

End Str.
End Input.
