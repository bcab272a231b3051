(** Closing quotes and the ends of unterminated strings. *)
From Verif Require Import Base BaseProofs CommonModel TomlError LitModel LexModel LexSpec LexBase LexStr.

Lemma lead (d : N) rest : exists m rest1, rest = repeat d m ++ rest1 /\ ~ starts_with (eq d) rest1.
Proof.
  induction rest as [|c rest (m & r1 & E & H)].
  - exists 0%nat, []. split; [reflexivity|]. intros (c & r & E & _). discriminate.
  - destruct (N.eq_dec c d) as [->|ND].
    + exists (S m), r1. cbn. rewrite <- E. auto.
    + exists 0%nat, (c :: rest). split; [reflexivity|]. intros (x & r & E' & <-). congruence.
Qed.
Lemma repeat_snoc (d : N) n : repeat d (S n) = repeat d n ++ [d].
Proof. cbn [repeat]. apply repeat_cons. Qed.
Lemma tlen_repeat d n : d < 128 -> tlen (repeat d n) = N.of_nat n.
Proof. intros H. induction n; [reflexivity|]. cbn [repeat tlen]. rewrite IHn, len_small by assumption. lia. Qed.
Lemma repeat_split (d : N) a b : (a <= b)%nat -> repeat d b = repeat d a ++ repeat d (b - a).
Proof. intros H. rewrite <- repeat_app. f_equal. lia. Qed.

(** The lexer on the [m]-th (from 0) of several quotes after [P]. *)
Definition qs (d : N) (P : list N) (m : nat) (rest : list N) (l : litstate) (o : outputs) : lexer :=
  mklex (cur_at (P ++ repeat d (S m)) rest (tlen (P ++ repeat d m))) l o.

Section D.
Context (d : N) (D10 : d <> 10) (D128 : d < 128).

Lemma lskip_qs P m rest l o : lskip (qs d P m (d :: rest) l o) = qs d P (S m) rest l o.
Proof.
  unfold lskip, qs. rewrite lnext_char by assumption. cbn [snd]. f_equal.
  rewrite (repeat_snoc d (S m)), app_assoc. reflexivity.
Qed.
Lemma lpos_qs P m rest l o : lpos (qs d P m rest l o) = Ok (pos_at (P ++ repeat d m)).
Proof. unfold qs. rewrite repeat_snoc, app_assoc. apply lpos_char. assumption. Qed.
Lemma peeks_qs_yes P m rest l o : peeks (qs d P m (d :: rest) l o) d = true.
Proof. unfold qs. rewrite peeks_cons. apply N.eqb_refl. Qed.
Lemma peeks_qs_no P m rest l o : ~ starts_with (eq d) rest -> peeks (qs d P m rest l o) d = false.
Proof.
  intros H. unfold qs. destruct rest as [|c r]; [reflexivity|]. rewrite peeks_cons.
  apply N.eqb_neq. intros ->. apply H. exists d, r. auto.
Qed.
Lemma skip_quotes_qs k : forall fuel P m rest l o,
  ~ starts_with (eq d) rest -> (k < fuel)%nat ->
  skip_quotes fuel d (qs d P m (repeat d k ++ rest) l o) = Ok (qs d P (m + k) rest l o).
Proof.
  induction k as [|k IH]; intros fuel P m rest l o H F; (destruct fuel as [|f]; [lia|]); cbn [skip_quotes repeat app].
  - rewrite peeks_qs_no by assumption. rewrite Nat.add_0_r. reflexivity.
  - rewrite peeks_qs_yes, lskip_qs, IH by (assumption || lia). do 2 f_equal. lia.
Qed.
Lemma pos_in_line_qs P m rest l o a :
  (a <= S m)%nat -> pos_in_line (qs d P m rest l o) (tlen (P ++ repeat d a)) = Ok (pos_at (P ++ repeat d a)).
Proof.
  intros H. unfold qs. rewrite (repeat_split d a (S m)), app_assoc by assumption.
  apply pos_in_line_at. apply no_lf_repeat. assumption.
Qed.
End D.

Section Input.
Context (input : list N).
Section Str.
Context (q : quote) (p0 trim : list N).
Context (TR : trim = [] \/ (multi q /\ line_break trim)).
Local Notation op := (op q trim).
Local Notation L0 := (L0 p0).
Local Notation st_inv := (st_inv q p0 trim).
Local Notation final := (final input q p0).
Local Notation d := (delim q).

Lemma st_inv_push b st T cs : st_inv b st T -> st_inv (b ++ cs) (push_chars st cs) (T ++ cs).
Proof.
  intros (ot & -> & H). unfold push_chars. cbn [ss_text ss_text_start ss_text_byte ss_quote].
  exists (option_map (fun t => t ++ cs) ot). split; [reflexivity|]. destruct ot; cbn [option_map]; congruence.
Qed.
Lemma st_inv_quote b st T : st_inv b st T -> ss_quote st = q.
Proof. intros (ot & -> & _). reflexivity. Qed.
Lemma st_inv_repeat b st T k : st_inv (b ++ repeat d k) st (T ++ repeat d k) ->
  st_inv (b ++ repeat d (S k)) (push_char st d) (T ++ repeat d (S k)).
Proof. intros H. rewrite repeat_snoc, !app_assoc. apply st_inv_push. assumption. Qed.

Lemma end_string_qs b st T P m rest o x :
  P = p0 ++ op ++ b -> input = P ++ repeat d (S m) ++ rest -> (x <= S m)%nat ->
  st_inv (b ++ repeat d x) st (T ++ repeat d x) ->
  end_string input (qs d P m rest L0 o) st (tlen P + N.of_nat x) (cu_pos (lx_cur (qs d P m rest L0 o)) + 1) =
  Ok (qs d P m rest L0 (str_out q p0 o (op ++ b ++ repeat d (S m)) [] (T ++ repeat d x)
        (off_of q trim (N.of_nat (S m - x))) [])).
Proof.
  intros EP IN X SI. destruct (delim_not q) as (D1 & _ & _ & D2 & _).
  replace (tlen P + N.of_nat x) with (tlen (p0 ++ op ++ (b ++ repeat d x)))
    by (rewrite EP, !tlen_app, tlen_repeat by assumption; lia).
  replace (cu_pos (lx_cur (qs d P m rest L0 o)) + 1) with (tlen (p0 ++ op ++ (b ++ repeat d x) ++ repeat d (S m - x))).
  2:{ unfold qs. cbn [lx_cur cur_at cu_pos]. rewrite EP, !tlen_app, !tlen_repeat by assumption. lia. }
  unfold qs. rewrite (end_string_eq input q p0 trim TR _ o (b ++ repeat d x) (repeat d (S m - x)) (T ++ repeat d x) st rest).
  - rewrite tlen_repeat by assumption. rewrite (repeat_split d x (S m)) at 3 by assumption.
    rewrite <- app_assoc. reflexivity.
  - rewrite IN, EP, (repeat_split d x (S m)) by assumption. assoc.
  - apply no_lf_repeat. assumption.
  - assumption.
  - replace (p0 ++ op ++ b ++ repeat d x) with (P ++ repeat d x) by (rewrite EP; assoc).
    apply (pos_in_line_qs d D1). assumption.
  - replace (p0 ++ op ++ (b ++ repeat d x) ++ repeat d (S m - x)) with (P ++ repeat d (S m)).
    + apply (pos_in_line_qs d D1). lia.
    + rewrite EP, (repeat_split d x (S m)) by assumption. assoc.
Qed.

(** The single-line case. *)
Lemma closing_single b rest o st T :
  ~ multi q -> input = p0 ++ op ++ b ++ d :: rest -> st_inv b st T ->
  string_closing_quote input (qs d (p0 ++ op ++ b) 0 rest L0 o) st =
  Ok (FBreak, qs d (p0 ++ op ++ b) 0 rest L0
        (str_out q p0 o (op ++ b ++ delims q) [] T (off_of q trim (quote_len q)) []), st).
Proof.
  intros M IN SI. unfold string_closing_quote. rewrite (st_inv_quote _ _ _ SI).
  rewrite (proj2 (is_multiline_false q) M).
  pose proof (end_string_qs b st T (p0 ++ op ++ b) 0 rest o 0 eq_refl) as E.
  cbn [repeat] in E. rewrite !app_nil_r, N.add_0_r in E.
  replace (cu_pos (lx_cur (qs d (p0 ++ op ++ b) 0 rest L0 o))) with (tlen (p0 ++ op ++ b)) in *
    by (unfold qs; cbn [lx_cur cur_at cu_pos repeat]; rewrite app_nil_r; reflexivity).
  rewrite E; [|rewrite IN; assoc|lia|assumption]. cbn [bind].
  rewrite (delims_single q M). replace (quote_len q) with 1; [reflexivity|].
  destruct q; try reflexivity; exfalso; apply M; unfold multi; auto.
Qed.

(** One or two quotes inside a multi-line string. *)
Lemma closing_continue b m rest o st T :
  multi q -> (m <= 1)%nat -> ~ starts_with (eq d) rest -> st_inv b st T ->
  exists st', st_inv (b ++ repeat d (S m)) st' (T ++ repeat d (S m)) /\ (ss_text st <> None -> ss_text st' <> None) /\
  string_closing_quote input (qs d (p0 ++ op ++ b) 0 (repeat d m ++ rest) L0 o) st =
  Ok (FContinue, qs d (p0 ++ op ++ b) m rest L0 o, st').
Proof.
  intros M Hm H SI. destruct (delim_not q) as (D1 & _ & _ & D2 & _).
  unfold string_closing_quote. rewrite (st_inv_quote _ _ _ SI). rewrite (proj2 (is_multiline_spec q) M).
  change quote_char with delim.
  assert (S1 : st_inv (b ++ repeat d 1) (push_char st d) (T ++ repeat d 1)) by (apply st_inv_push; assumption).
  destruct m as [|[|m]]; [| |lia]; cbn [repeat app].
  - exists (push_char st d). split; [exact S1|]. split; [destruct st as [[?|] ? ? ?]; cbn; congruence|]. rewrite peeks_qs_no by assumption. reflexivity.
  - exists (push_char (push_char st d) d). split; [apply (st_inv_repeat _ _ _ 1); assumption|]. split; [destruct st as [[?|] ? ? ?]; cbn; congruence|].
    rewrite peeks_qs_yes, lskip_qs by assumption. cbn [negb]. rewrite peeks_qs_no by assumption. reflexivity.
Qed.

Lemma extra_yes P m rest o st te : ss_quote st = q ->
  extra_quote (qs d P m (d :: rest) L0 o) st te = (qs d P (S m) rest L0 o, push_char st d, te + 1).
Proof.
  intros E. unfold extra_quote. rewrite E. change quote_char with delim.
  destruct (delim_not q) as (D1 & _). rewrite peeks_qs_yes, lskip_qs by assumption. reflexivity.
Qed.
Lemma extra_no P m rest o st te : ss_quote st = q -> ~ starts_with (eq d) rest ->
  extra_quote (qs d P m rest L0 o) st te = (qs d P m rest L0 o, st, te).
Proof. intros E H. unfold extra_quote. rewrite E. change quote_char with delim. rewrite peeks_qs_no by assumption. reflexivity. Qed.

Lemma lex_error_qs P m rest l o e : lex_error (qs d P m rest l o) e = qs d P m rest l (oerr o [e]).
Proof. reflexivity. Qed.

(** At least three quotes. *)
Lemma closing_multi b m rest o st T :
  multi q -> (2 <= m)%nat -> ~ starts_with (eq d) rest -> input = p0 ++ op ++ b ++ repeat d (S m) ++ rest ->
  st_inv b st T ->
  exists st' x es, x = Nat.min (m - 2) 2 /\
  (es = [] <-> (m <= 4)%nat) /\ Forall (errok input) es /\
  string_closing_quote input (qs d (p0 ++ op ++ b) 0 (repeat d m ++ rest) L0 o) st =
  Ok (FBreak, qs d (p0 ++ op ++ b) m rest L0
    (str_out q p0 o (op ++ b ++ repeat d (S m)) [] (T ++ repeat d x) (off_of q trim (N.of_nat (S m - x))) es), st').
Proof.
  intros M Hm H IN SI. destruct (delim_not q) as (D1 & _ & _ & D2 & _).
  unfold string_closing_quote. rewrite (st_inv_quote _ _ _ SI). rewrite (proj2 (is_multiline_spec q) M).
  change quote_char with delim.
  destruct m as [|[|m]]; try lia. cbn [repeat app].
  rewrite peeks_qs_yes, lskip_qs by assumption. cbn [negb].
  rewrite peeks_qs_yes, lskip_qs by assumption. cbn [negb].
  replace (cu_pos (lx_cur (qs d (p0 ++ op ++ b) 0 (d :: d :: repeat d m ++ rest) L0 o))) with (tlen (p0 ++ op ++ b))
    by (unfold qs; cbn [lx_cur cur_at cu_pos repeat]; rewrite app_nil_r; reflexivity).
  assert (S0 : st_inv (b ++ repeat d 0) st (T ++ repeat d 0)) by (cbn [repeat]; rewrite !app_nil_r; assumption).
  pose proof (st_inv_repeat _ _ _ 0 S0) as S1. pose proof (st_inv_repeat _ _ _ 1 S1) as S2.
  assert (Q1 : forall c, ss_quote (push_char st c) = q) by (intros; cbn; apply (st_inv_quote _ _ _ SI)).
  destruct m as [|[|m]].
  - exists st, 0%nat, []. split; [reflexivity|]. split; [split; [lia|auto]|]. split; [constructor|].
    cbn [repeat app]. pose proof (st_inv_quote _ _ _ SI) as Q0. rewrite extra_no, extra_no by assumption. rewrite peeks_qs_no by assumption. cbn [bind].
    pose proof (end_string_qs b st T (p0 ++ op ++ b) 2 rest o 0 eq_refl) as E. rewrite N.add_0_r in E.
    rewrite E; [reflexivity|rewrite IN; assoc|lia|assumption].
  - exists (push_char st d), 1%nat, []. split; [reflexivity|]. split; [split; [lia|auto]|]. split; [constructor|].
    cbn [repeat app]. pose proof (st_inv_quote _ _ _ SI) as Q0. rewrite extra_yes by assumption.
    rewrite extra_no by auto. rewrite peeks_qs_no by assumption. cbn [bind].
    pose proof (end_string_qs b (push_char st d) T (p0 ++ op ++ b) 3 rest o 1 eq_refl) as E.
    change (N.of_nat 1) with 1 in E at 1.
    rewrite E; [reflexivity|rewrite IN; assoc|lia|assumption].
  - cbn [repeat app]. pose proof (st_inv_quote _ _ _ SI) as Q0. rewrite extra_yes by assumption.
    rewrite extra_yes by auto.
    destruct m as [|m].
    + exists (push_char (push_char st d) d), 2%nat, []. split; [reflexivity|]. split; [split; [lia|auto]|]. split; [constructor|].
      cbn [repeat app]. rewrite peeks_qs_no by assumption. cbn [bind].
      pose proof (end_string_qs b (push_char (push_char st d) d) T (p0 ++ op ++ b) 4 rest o 2 eq_refl) as E.
      change (N.of_nat 2) with 2 in E at 1. rewrite <- N.add_assoc. change (1 + 1) with 2.
      rewrite E; [reflexivity|rewrite IN; assoc|lia|assumption].
    + exists (push_char (push_char st d) d), 2%nat,
        [EExcessiveQuotes q (mkspan (pos_at ((p0 ++ op ++ b) ++ repeat d 4)) (pos_at ((p0 ++ op ++ b) ++ repeat d (6 + m))))].
      split; [lia|]. split; [split; [discriminate|lia]|]. split.
      { constructor; [|constructor].
        apply (errok_span input _ ((p0 ++ op ++ b) ++ repeat d 4) (repeat d (2 + m)) rest).
        - rewrite IN. change (S (S (S (S (S (S m)))))) with (4 + (2 + m))%nat. rewrite (repeat_app d 4 (2 + m)). assoc.
        - cbn [err_span]. f_equal. change (6 + m)%nat with (4 + (2 + m))%nat. rewrite (repeat_app d 4 (2 + m)).
          rewrite <- !app_assoc. reflexivity.
        - split; [exact M|]. split; [eexists; reflexivity|]. split; [exists m; reflexivity|exact H]. }
      cbn [repeat app]. rewrite peeks_qs_yes, lpos_qs by assumption. cbn [bind]. rewrite lskip_qs by assumption.
      rewrite (skip_quotes_qs d D1);
        [|assumption|assumption|unfold qs; cbn [lx_cur cur_at cu_rest]; rewrite app_length, repeat_length; lia].
      cbn [bind]. rewrite lpos_qs by assumption. cbn [bind]. cbn [push_char push_chars ss_quote].
      rewrite (st_inv_quote _ _ _ SI).
      rewrite lex_error_qs. set (o' := oerr o _).
      pose proof (end_string_qs b (push_char (push_char st d) d) T (p0 ++ op ++ b) (5 + m) rest o' 2 eq_refl) as E.
      change (N.of_nat 2) with 2 in E at 1. rewrite <- N.add_assoc. change (1 + 1) with 2.
      rewrite E; [|rewrite IN; assoc|lia|assumption]. cbn [bind]. subst o'.
      do 2 f_equal. f_equal. f_equal. unfold str_out, oerr. cbn [o_tokens o_strings o_literals o_errors].
      rewrite app_nil_r. do 3 f_equal.
      f_equal. f_equal. change (S (S (S (S (S m))))) with (5 + m)%nat.
      rewrite (pos_plus_text _ [d] 1); [|auto|rewrite tlen_one, len_small by assumption; reflexivity].
      rewrite <- app_assoc, <- repeat_snoc. reflexivity.
Qed.

End Str.
End Input.
