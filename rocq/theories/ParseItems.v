(** The parser's view of a cut document: cursor, items, comments. *)
From Verif Require Import Base BaseProofs CommonModel TomlError LitModel LexModel LexSpec LexBase LexStr LexSound LexProps ParseModel ParseSpec ParsePlace.

(** ** Source text and items of concatenated lexemes *)
Lemma source_cons x s r : source ((x, s) :: r) = s ++ source r.
Proof. reflexivity. Qed.
Lemma source_app a b : source (a ++ b) = source a ++ source b.
Proof. unfold source. rewrite map_app, concat_app. reflexivity. Qed.
Lemma tile_items_app a : forall pre b, tile_items pre (a ++ b) = tile_items pre a ++ tile_items (pre ++ source a) b.
Proof.
  induction a as [|[x s] a IH]; intros pre b; [cbn; rewrite app_nil_r; reflexivity|].
  cbn [app tile_items]. rewrite source_cons, app_assoc.
  destruct x; rewrite IH; reflexivity.
Qed.
Lemma tile_items_blanks w : forall pre, blanks w -> tile_items pre w = [].
Proof.
  induction w as [|[x s] w IH]; intros pre B; [reflexivity|]. inversion B as [|? ? B1 B2]; subst. cbv [is_blank] in B1. cbn in B1. subst x.
  cbn [tile_items]. apply IH. assumption.
Qed.
Lemma tile_items_cons x s pre r : x <> XBlank ->
  tile_items pre ((x, s) :: r) = mkitem (item_ty pre x s) (pos_at pre) :: tile_items (pre ++ s) r.
Proof. destruct x; [congruence|reflexivity..]. Qed.

(** The next item. *)
Lemma view : forall ts pre,
  (blanks ts /\ tile_items pre ts = []) \/
  (exists w x s r, ts = w ++ (x, s) :: r /\ blanks w /\ x <> XBlank /\
     tile_items pre ts = mkitem (item_ty (pre ++ source w) x s) (pos_at (pre ++ source w)) :: tile_items (pre ++ source w ++ s) r).
Proof.
  induction ts as [|[x s] ts IH]; intros pre; [left; split; [constructor|reflexivity]|].
  destruct x; try (right; exists [], (fst (XNewline, s)), s, ts; fail).
  1: { destruct (IH (pre ++ s)) as [(B & E)|(w & x & s' & r & E & B & NX & EI)].
       - left. split; [constructor; [reflexivity|assumption]|exact E].
       - right. exists ((XBlank, s) :: w), x, s', r. split; [rewrite E; reflexivity|].
         split; [constructor; [reflexivity|assumption]|]. split; [assumption|].
         cbn [tile_items]. rewrite EI, source_cons, <- !app_assoc. reflexivity. }
  all: right; eexists [], _, s, ts; split; [reflexivity|]; split; [constructor|]; split; [discriminate|];
    rewrite tile_items_cons by discriminate; cbn [source map concat app]; rewrite app_nil_r; reflexivity.
Qed.

Lemma all_separated_tail a : forall b, all_separated (a ++ b) -> all_separated b.
Proof. induction a as [|x a IH]; intros b H; [exact H|]. destruct H as [_ H]. apply IH, H. Qed.

(** ** Token ids are valid *)
Lemma resolve_tiles : forall ts pre strs lits toks eof, Forall shape ts ->
  resolve_all (mktokens toks (strs ++ tile_strings pre ts) (lits ++ tile_literals pre ts) eof)
    (tile_tokens pre (N.of_nat (length strs)) (N.of_nat (length lits)) ts) = Ok (tile_items pre ts).
Proof.
  induction ts as [|[x s] ts IH]; intros pre strs lits toks eof SH; [reflexivity|].
  pose proof (Forall_inv SH) as S1. pose proof (Forall_inv_tail SH) as S2.
  destruct x; cbn [tile_tokens tile_strings tile_literals tile_items resolve_all].
  - apply IH. assumption.
  - unfold resolve_token. cbn [t_ty t_start bind]. rewrite IH by assumption. reflexivity.
  - destruct S1 as (c & PC & ->). unfold resolve_token. cbn [t_ty t_start].
    unfold punct in PC. cbn [In] in PC.
    repeat (destruct PC as [PC|PC]; [injection PC as <- <-; cbn [bind]; rewrite IH by assumption; reflexivity|]). destruct PC.
  - unfold resolve_token, lookup. cbn [t_ty t_start tk_literals]. rewrite Nnat.Nat2N.id, nth_len. cbn [bind].
    specialize (IH (pre ++ s) strs (lits ++ [mkref (tlen pre) s]) toks eof S2).
    rewrite app_length, Nnat.Nat2N.inj_add in IH. rewrite <- app_assoc in IH. cbn [app] in IH.
    change (N.of_nat (length [mkref (tlen pre) s])) with 1 in IH. rewrite IH. reflexivity.
  - unfold resolve_token, lookup. cbn [t_ty t_start tk_literals]. rewrite Nnat.Nat2N.id, nth_len. cbn [bind].
    specialize (IH (pre ++ s) strs (lits ++ [mkref (tlen pre + 1) (tl s)]) toks eof S2).
    rewrite app_length, Nnat.Nat2N.inj_add in IH. rewrite <- app_assoc in IH. cbn [app] in IH.
    change (N.of_nat (length [mkref (tlen pre + 1) (tl s)])) with 1 in IH. rewrite IH. reflexivity.
  - unfold resolve_token, lookup. cbn [t_ty t_start tk_strings]. rewrite Nnat.Nat2N.id, nth_len. cbn [bind].
    specialize (IH (pre ++ s) (strs ++ [mkstr q (mkref (tlen pre) s) (pos_at (pre ++ s)) text off]) lits toks eof S2).
    rewrite app_length, Nnat.Nat2N.inj_add in IH. rewrite <- app_assoc in IH. cbn [app] in IH.
    change (N.of_nat (length [mkstr q (mkref (tlen pre) s) (pos_at (pre ++ s)) text off])) with 1 in IH. rewrite IH. reflexivity.
Qed.

Lemma parse_tiles input ts : Forall shape ts -> source ts = input ->
  parse input (tokens_of ts) = parse_items input (mkitem IEOF (pos_at input)) (tile_items [] ts).
Proof.
  intros SH E. unfold parse, tokens_of. cbn [tk_tokens tk_eof].
  pose proof (resolve_tiles ts [] [] [] (tile_tokens [] 0 0 ts) (mktok TEOF (pos_at (source ts))) SH) as R.
  cbn [length app] in R. change (N.of_nat 0) with 0 in R. rewrite R. cbn [bind]. unfold resolve_token. cbn [t_ty t_start bind]. rewrite E. reflexivity.
Qed.

(** ** Comments *)
Definition item_comment (i : item) : list comment :=
  match i_ty i with IComment r => [mk_comment r (i_start i)] | _ => [] end.
Definition comments_of (pre : list N) (ts : list tile) : list comment := flat_map item_comment (tile_items pre ts).
Lemma comments_of_app pre a b : comments_of pre (a ++ b) = comments_of pre a ++ comments_of (pre ++ source a) b.
Proof. unfold comments_of. rewrite tile_items_app, flat_map_app. reflexivity. Qed.
Lemma comments_of_nil pre : comments_of pre [] = [].
Proof. reflexivity. Qed.

Lemma subseq_refl {A} (l : list A) : subseq l l.
Proof. induction l; constructor; assumption. Qed.
Lemma subseq_app {A} (a b c d : list A) : subseq a b -> subseq c d -> subseq (a ++ c) (b ++ d).
Proof.
  intros H G. induction H; cbn [app].
  - induction l; [exact G|]. apply ss_skip. exact IHl.
  - apply ss_keep. exact IHsubseq.
  - apply ss_skip. exact IHsubseq.
Qed.
Lemma subseq_nil_r {A} (a : list A) : subseq a [] -> a = [].
Proof. intros H. inversion H. reflexivity. Qed.

(** ** Positions inside the document *)

Lemma err_ok_at input e a b c : input = a ++ b ++ c -> err_span e = mkspan (pos_at a) (pos_at (a ++ b)) -> parse_says e a b c ->
  err_hint e = None -> err_ok input e.
Proof. intros IN SP SAY H. split; [exists a, b, c; auto|]. destruct e; try exact H; discriminate. Qed.
Lemma err_ok_pos input e p : pos_in input p -> err_span e = span_pos p -> (forall a c, input = a ++ c -> p = pos_at a -> parse_says e a [] c) ->
  err_hint e = None -> err_ok input e.
Proof.
  intros (a & c & IN & ->) SP SAY H. apply (err_ok_at input e a [] c); [exact IN| |apply SAY; [exact IN|reflexivity]|exact H].
  rewrite SP, app_nil_r. reflexivity.
Qed.
(** What a message says about an item is true. *)
Definition stands (input t : list N) (sp : span) : Prop :=
  exists a b c, input = a ++ b ++ c /\ sp = mkspan (pos_at a) (pos_at (a ++ b)) /\ found t b c.
Lemma err_ok_char input e a c r : input = a ++ c :: r -> c <> 10 -> len_utf8 c = 1 -> err_span e = span_ascii_char (pos_at a) -> parse_says e a [c] r ->
  err_hint e = None -> err_ok input e.
Proof.
  intros IN NL L SP SAY H. apply (err_ok_at input e a [c] r); [exact IN| |exact SAY|exact H].
  rewrite SP. unfold span_ascii_char. rewrite (pos_plus_text a [c]); [reflexivity|intros [->|[]]; congruence|rewrite tlen_one; symmetry; exact L].
Qed.
Lemma err_ok_found input e t : stands input t (err_span e) -> (forall a b c, found t b c -> parse_says e a b c) -> hint_ok input e -> err_ok input e.
Proof. intros (a & b & c & IN & SP & F) SAY H. split; [|exact H]. exists a, b, c. auto. Qed.
Lemma pos_in_at input a b : input = a ++ b -> pos_in input (pos_at a).
Proof. intros E. exists a, b. split; [assumption|reflexivity]. Qed.
Lemma pos_le_app a b : pos_le (pos_at a) (pos_at (a ++ b)).
Proof. destruct b; [left; rewrite app_nil_r; reflexivity|right; apply pos_at_lt; discriminate]. Qed.
Lemma pos_le_trans a b c : pos_le a b -> pos_le b c -> pos_le a c.
Proof. intros [->|H] [<-|G]; [left; reflexivity|right; assumption|right; assumption|right; eapply pos_lt_trans; eassumption]. Qed.
Lemma span_in_text input a b c : input = a ++ b ++ c -> span_in input (mkspan (pos_at a) (pos_at (a ++ b))).
Proof.
  intros E. split; [eapply pos_in_at; exact E|]. split; [eapply (pos_in_at _ (a ++ b) c); rewrite E, app_assoc; reflexivity|apply pos_le_app].
Qed.
Lemma span_in_pos input p : pos_in input p -> span_in input (span_pos p).
Proof. intros H. split; [exact H|]. split; [exact H|left; reflexivity]. Qed.
Lemma span_in_char input a c b : input = a ++ c :: b -> c <> 10 -> len_utf8 c = 1 -> span_in input (span_ascii_char (pos_at a)).
Proof.
  intros E NL L. unfold span_ascii_char. replace (pos_plus (pos_at a) 1) with (pos_at (a ++ [c])).
  - apply (span_in_text input a [c] b). exact E.
  - symmetry. apply pos_plus_text; [intros [->|[]]; congruence|]. rewrite tlen_one. symmetry. exact L.
Qed.

(** ** The cursor *)
Definition prev_in (input : list N) (o : option item) : Prop := match o with Some i => pos_in input (i_start i) | None => True end.
Definition at_ (input : list N) (st : pst) (pre : list N) (ts : list tile) : Prop :=
  input = pre ++ source ts /\ Forall shape ts /\ all_separated ts /\ pc_rest (ps_cur st) = tile_items pre ts /\
  prev_in input (pc_prev (ps_cur st)).

(** [goes st pre ts st' a b es cs]: from [ts] on, the parser consumed [a] and
    is left with [b]; it reported [es] and stored the comments [cs]. *)
Definition goes (input : list N) (st : pst) (pre : list N) (ts : list tile) (st' : pst) (a b : list tile)
  (es : list terror) (cs : list comment) : Prop :=
  ts = a ++ b /\ at_ input st' (pre ++ source a) b /\ ps_errs st' = ps_errs st ++ es /\
  map ac_comment (ps_store st') = map ac_comment (ps_store st) ++ cs /\ subseq cs (comments_of pre a) /\
  Forall (err_ok input) es.

Lemma goes_refl input st pre ts : at_ input st pre ts -> goes input st pre ts st [] ts [] [].
Proof.
  intros A. split; [reflexivity|]. split; [cbn; rewrite app_nil_r; exact A|].
  rewrite !app_nil_r. split; [reflexivity|]. split; [reflexivity|]. split; constructor.
Qed.
Lemma goes_trans input st pre ts st1 a b es cs st2 a' b' es' cs' :
  goes input st pre ts st1 a b es cs -> goes input st1 (pre ++ source a) b st2 a' b' es' cs' ->
  goes input st pre ts st2 (a ++ a') b' (es ++ es') (cs ++ cs').
Proof.
  intros (-> & A1 & E1 & S1 & Q1 & K1) (-> & A2 & E2 & S2 & Q2 & K2). split; [rewrite app_assoc; reflexivity|].
  split; [rewrite source_app, app_assoc; exact A2|]. rewrite E2, E1, S2, S1, <- !app_assoc. split; [reflexivity|].
  split; [reflexivity|]. split; [rewrite comments_of_app; apply subseq_app; assumption|apply Forall_app; split; assumption].
Qed.
Lemma goes_at input st pre ts st' a b es cs : goes input st pre ts st' a b es cs -> at_ input st' (pre ++ source a) b.
Proof. intros (_ & A & _). exact A. Qed.
Lemma goes_err input st pre ts st' a b es cs e : goes input st pre ts st' a b es cs -> err_ok input e ->
  goes input st pre ts (perr st' e) a b (es ++ [e]) cs.
Proof.
  intros (-> & A & E & S & Q & K) EO. split; [reflexivity|]. split; [exact A|]. cbn [perr ps_errs ps_store].
  rewrite E, app_assoc. split; [reflexivity|]. split; [exact S|]. split; [exact Q|].
  apply Forall_app. split; [exact K|]. constructor; [exact EO|constructor].
Qed.
Lemma goes_store input st pre ts st' a b es cs s : goes input st pre ts st' a b es cs ->
  map ac_comment s = map ac_comment (ps_store st') -> goes input st pre ts (set_store st' s) a b es cs.
Proof.
  intros (-> & A & E & S & Q & K) M. split; [reflexivity|]. split; [exact A|]. cbn [set_store ps_errs ps_store].
  split; [assumption|]. split; [rewrite M, S; reflexivity|]. split; assumption.
Qed.

Lemma at_split input st pre w r : at_ input st pre (w ++ r) -> Forall shape w /\ Forall shape r /\ all_separated r /\ input = (pre ++ source w) ++ source r.
Proof.
  intros (I & S & Q & _). apply Forall_app in S as [S1 S2]. rewrite I, source_app, app_assoc.
  split; [assumption|]. split; [assumption|]. split; [apply (all_separated_tail w), Q|reflexivity].
Qed.

(** Moving over blanks and one lexeme. *)
Lemma goes_skip input st pre w x s r : at_ input st pre (w ++ (x, s) :: r) -> blanks w -> x <> XBlank ->
  goes input st pre (w ++ (x, s) :: r) (padv st) (w ++ [(x, s)]) r [] [].
Proof.
  intros A B NX. pose proof (at_split _ _ _ _ _ A) as (_ & S2 & Q2 & I).
  split; [rewrite <- app_assoc; reflexivity|]. split; [|rewrite !app_nil_r; split; [reflexivity|split; [reflexivity|split; constructor]]].
  destruct A as (_ & _ & _ & E & _). split; [rewrite I, source_app; cbn; rewrite app_nil_r, <- !app_assoc; reflexivity|].
  split; [exact (Forall_inv_tail S2)|]. split; [exact (proj2 Q2)|].
  unfold padv, set_pcur, cadv. cbn [ps_cur]. rewrite E, tile_items_app, (tile_items_blanks w) by assumption.
  cbn [app]. rewrite tile_items_cons by assumption. cbn [pc_rest pc_prev prev_in i_start].
  split; [rewrite source_app; cbn; rewrite app_nil_r, <- app_assoc; reflexivity|]. eapply pos_in_at. exact I.
Qed.
Lemma goes_padv input st pre w x s r : at_ input st pre (w ++ (x, s) :: r) -> blanks w -> x <> XBlank -> x <> XComment ->
  goes input st pre (w ++ (x, s) :: r) (padv st) (w ++ [(x, s)]) r [] [].
Proof. intros A B NX _. apply goes_skip; assumption. Qed.

Section Peek.
  Context (input : list N).
  Definition eof : item := mkitem IEOF (pos_at input).

  (** What [peek] sees. *)
  Lemma peek_cases st pre ts : at_ input st pre ts ->
    (blanks ts /\ ppeek eof st = eof /\ pc_rest (ps_cur st) = []) \/
    (exists w x s r, ts = w ++ (x, s) :: r /\ blanks w /\ x <> XBlank /\ shape (x, s) /\
       ppeek eof st = mkitem (item_ty (pre ++ source w) x s) (pos_at (pre ++ source w)) /\
       input = (pre ++ source w) ++ s ++ source r).
  Proof.
    intros A. pose proof A as (I & S & Q & E & _). destruct (view ts pre) as [(B & V)|(w & x & s & r & -> & B & NX & V)].
    - left. unfold ppeek. rewrite E, V. auto.
    - right. exists w, x, s, r. pose proof (at_split _ _ _ _ _ A) as (_ & S2 & _ & I'). unfold ppeek. rewrite E, V.
      split; [reflexivity|]. split; [assumption|]. split; [assumption|]. split; [exact (Forall_inv S2)|]. split; [reflexivity|exact I'].
  Qed.
  Lemma peek_tile st pre w x s r : at_ input st pre (w ++ (x, s) :: r) -> blanks w -> x <> XBlank ->
    ppeek eof st = mkitem (item_ty (pre ++ source w) x s) (pos_at (pre ++ source w)).
  Proof.
    intros (_ & _ & _ & E & _) B NX. unfold ppeek. rewrite E, tile_items_app, (tile_items_blanks w), tile_items_cons by assumption. reflexivity.
  Qed.
  Lemma peek_blanks st pre w : at_ input st pre w -> blanks w -> ppeek eof st = eof.
  Proof. intros (_ & _ & _ & E & _) B. unfold ppeek. rewrite E, tile_items_blanks by assumption. reflexivity. Qed.
End Peek.

(** An error about an item points into the document. *)
Lemma punct_char ty s : shape (XPunct ty, s) -> exists c, s = [c] /\ punct ty c /\ c <> 10 /\ len_utf8 c = 1.
Proof.
  intros (c & PC & ->). exists c. split; [reflexivity|]. split; [exact PC|].
  unfold punct in PC. cbn [In] in PC. repeat (destruct PC as [PC|PC]; [injection PC as _ <-; split; [discriminate|reflexivity]|]). destruct PC.
Qed.
Lemma token_span_in input p x s r : input = p ++ s ++ r -> shape (x, s) -> x <> XBlank ->
  span_in input (token_span (mkitem (item_ty p x s) (pos_at p))).
Proof.
  intros IN SH NX. assert (PI := pos_in_at input p (s ++ r) IN).
  assert (NL : no_lf s -> span_in input (span_from_pos_len (pos_at p) (tlen s))).
  { intros H. unfold span_from_pos_len. rewrite (pos_plus_text p s) by auto. eapply span_in_text. exact IN. }
  unfold token_span. destruct x as [| |ty| | |q text off]; cbn [item_ty i_ty i_start].
  - congruence.
  - apply span_in_pos. exact PI.
  - destruct (punct_char ty s SH) as (c & -> & _ & NC & LC).
    assert (CH := span_in_char input p c r IN NC LC).
    destruct ty; cbn [item_ty]; first [exact CH|apply span_in_pos; exact PI].
  - apply NL. intros H. destruct SH as [_ SH]. rewrite Forall_forall in SH. apply (SH 10 H). cbn. tauto.
  - destruct SH as (t & -> & NT). cbn [tl sr_text]. change (1 + tlen t) with (tlen (35 :: t)). apply NL. intros [H|H]; [discriminate|exact (NT H)].
  - eapply span_in_text. exact IN.
Qed.
Lemma token_stands input p x s r : input = p ++ s ++ r -> shape (x, s) -> x <> XBlank ->
  stands input (token_fmt_str (mkitem (item_ty p x s) (pos_at p))) (token_span (mkitem (item_ty p x s) (pos_at p))).
Proof.
  intros IN SH NX.
  assert (NL : no_lf s -> span_from_pos_len (pos_at p) (tlen s) = mkspan (pos_at p) (pos_at (p ++ s))).
  { intros H. unfold span_from_pos_len. rewrite (pos_plus_text p s) by auto. reflexivity. }
  unfold token_span, token_fmt_str. destruct x as [| |ty| | |q text off]; cbn [item_ty i_ty i_start].
  - congruence.
  - exists p, [], (s ++ r). split; [exact IN|]. split; [rewrite app_nil_r; reflexivity|]. right; right; right; left. split; [reflexivity|]. split; [reflexivity|].
    destruct SH as [-> | ->]; [left; exists 10, r; auto|right; exists r; reflexivity].
  - destruct (punct_char ty s SH) as (c & -> & PC & NC & LC).
    assert (SP : span_ascii_char (pos_at p) = mkspan (pos_at p) (pos_at (p ++ [c]))).
    { unfold span_ascii_char. rewrite (pos_plus_text p [c]); [reflexivity|intros [->|[]]; congruence|rewrite tlen_one; symmetry; exact LC]. }
    unfold punct in PC. cbn [In] in PC.
    repeat (destruct PC as [PC|PC]; [injection PC as <- <-; cbn [item_ty]; eexists p, [_], r; split; [exact IN|]; split; [exact SP|];
      first [right; left; split; reflexivity|left; split; [reflexivity|]; split; [discriminate|]; split; [discriminate|]; intros (? & ? & E & H); injection E as <- _; discriminate]|]). destruct PC.
  - destruct SH as [NE SH]. exists p, s, r. split; [exact IN|]. split; [apply NL; intros H; rewrite Forall_forall in SH; apply (SH 10 H); cbn; tauto|].
    left. split; [reflexivity|]. split; [exact NE|]. split; [intros ->; apply Forall_inv in SH; apply SH; cbn; tauto|].
    intros (c & t & -> & <-). apply Forall_inv in SH. apply SH. cbn. tauto.
  - destruct SH as (t & -> & NT). exists p, (35 :: t), r. split; [exact IN|]. split.
    + unfold span_from_pos_len. cbn [sr_text tl]. rewrite (pos_plus_text p (35 :: t)); [reflexivity|intros [H|H]; [discriminate|exact (NT H)]|reflexivity].
    + right; right; left. split; [reflexivity|]. exists 35, t. auto.
  - exists p, s, r. split; [exact IN|]. split; [reflexivity|]. left. split; [reflexivity|].
    destruct SH as [(trim & b & e & -> & _) _].
    destruct q; (split; [discriminate|]; split; [discriminate|]; intros (? & ? & E & H); cbn in E; injection E as <- _; discriminate).
Qed.
Lemma peek_stands input st pre ts : at_ input st pre ts -> stands input (token_fmt_str (ppeek (eof input) st)) (token_span (ppeek (eof input) st)).
Proof.
  intros A. destruct (peek_cases input st pre ts A) as [(B & P & _)|(w & x & s & r & E & B & NX & SH & P & IN)]; rewrite P.
  - exists input, [], []. rewrite !app_nil_r. split; [reflexivity|]. split; [reflexivity|]. right; right; right; right. auto.
  - eapply token_stands; eassumption.
Qed.
Lemma peek_span_in input st pre ts : at_ input st pre ts -> span_in input (token_span (ppeek (eof input) st)).
Proof.
  intros A. destruct (peek_cases input st pre ts A) as [(B & P & _)|(w & x & s & r & E & B & NX & SH & P & IN)]; rewrite P.
  - apply span_in_pos. apply (pos_in_at input input []). rewrite app_nil_r. reflexivity.
  - eapply token_span_in; eassumption.
Qed.

(** Items left. *)
Definition left (st : pst) : nat := length (pc_rest (ps_cur st)).
Definition has_item (ts : list tile) : Prop := ~ blanks ts.
Lemma items_le pre a : (length (tile_items pre a) <= length a)%nat.
Proof.
  revert pre. induction a as [|[x s] a IH]; intros pre; [cbn; lia|]. destruct x; cbn [tile_items length]; specialize (IH (pre ++ s)); lia.
Qed.
Lemma has_item_len pre a : has_item a -> (1 <= length (tile_items pre a))%nat.
Proof.
  intros H. destruct (view a pre) as [(B & _)|(w & x & s & r & _ & _ & _ & ->)]; [contradiction|cbn; lia].
Qed.
Lemma goes_left input st pre ts st' a b es cs : at_ input st pre ts -> goes input st pre ts st' a b es cs ->
  left st = (length (tile_items pre a) + left st')%nat.
Proof.
  intros (_ & _ & _ & E & _) (-> & (_ & _ & _ & E' & _) & _). unfold left. rewrite E, E', tile_items_app, app_length. reflexivity.
Qed.

Lemma goes_less input st pre ts st' a b es cs : at_ input st pre ts -> goes input st pre ts st' a b es cs -> has_item a ->
  (left st' < left st)%nat.
Proof. intros A G H. rewrite (goes_left _ _ _ _ _ _ _ _ _ A G). pose proof (has_item_len pre a H). lia. Qed.
Lemma goes_leq input st pre ts st' a b es cs : at_ input st pre ts -> goes input st pre ts st' a b es cs ->
  (left st' <= left st)%nat.
Proof. intros A G. rewrite (goes_left _ _ _ _ _ _ _ _ _ A G). lia. Qed.

(** ** Lexemes on one line *)
Lemma punct_no_lf ty c : punct ty c -> c <> 10 /\ len_utf8 c = 1.
Proof.
  unfold punct. cbn [In]. intros H. repeat (destruct H as [H|H]; [injection H as _ <-; split; [discriminate|reflexivity]|]). destruct H.
Qed.
Lemma word_no_lf s : Forall word_char s -> no_lf s.
Proof. intros H IN. rewrite Forall_forall in H. apply (H 10 IN). cbn. tauto. Qed.
Lemma blanks_no_lf w : Forall shape w -> blanks w -> no_lf (source w) /\ tlen (source w) = N.of_nat (length w).
Proof.
  induction w as [|[x s] w IH]; intros S B; [split; [intros []|reflexivity]|].
  pose proof (Forall_inv S) as S1. pose proof (Forall_inv B) as B1. unfold is_blank in B1. cbn in B1. subst x.
  destruct (IH (Forall_inv_tail S) (Forall_inv_tail B)) as [I1 I2]. rewrite source_cons.
  cbn in S1. destruct S1 as [->| ->].
  - split; [intros [H|H]; [discriminate|exact (I1 H)]|]. rewrite tlen_app, I2. change (tlen [9]) with 1. cbn [length]. lia.
  - split; [intros [H|H]; [discriminate|exact (I1 H)]|]. rewrite tlen_app, I2. change (tlen [32]) with 1. cbn [length]. lia.
Qed.
Lemma comment_no_lf t : ~ In 10 t -> no_lf (35 :: t).
Proof. intros H [E|E]; [discriminate|exact (H E)]. Qed.
