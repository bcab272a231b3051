(** Consequences of [lex_sound] and [lex_complete]. *)
From Verif Require Import Base BaseProofs CommonModel TomlError LitModel LexModel LexSpec LexBase LexStr LexLoop LexSound LexMain LexTop LexCStr LexCMain.

Ltac Zify.zify_post_hook ::= Z.div_mod_to_equations.

Lemma pos_lt_trans a b c : pos_lt a b -> pos_lt b c -> pos_lt a c.
Proof. unfold pos_lt. lia. Qed.
Lemma pos_step_lt p c : pos_lt p (pos_step p c).
Proof.
  unfold pos_step, pos_lt. destruct (N.eqb_spec c 10); cbn [p_line p_char]; [lia|].
  pose proof (len_pos c). lia.
Qed.
Lemma pos_at_lt a b : b <> [] -> pos_lt (pos_at a) (pos_at (a ++ b)).
Proof.
  induction b as [|c b IH] using rev_ind; [congruence|]. intros _.
  rewrite app_assoc, pos_at_snoc. destruct b as [|x b].
  - rewrite app_nil_r. apply pos_step_lt.
  - eapply pos_lt_trans; [apply IH; discriminate|apply pos_step_lt].
Qed.

Lemma shape_nonempty x s : shape (x, s) -> s <> [].
Proof.
  destruct x; cbn.
  - intros [->| ->]; discriminate.
  - intros [->| ->]; discriminate.
  - intros (c & _ & ->). discriminate.
  - tauto.
  - intros (t & -> & _). discriminate.
  - intros [(? & ? & ? & -> & _) _]. destruct q; discriminate.
Qed.

Lemma nth_len {A} (l : list A) x r : nth_error (l ++ x :: r) (length l) = Some x.
Proof. rewrite nth_error_app2, Nat.sub_diag; [reflexivity|lia]. Qed.

Lemma tiles_stand input eof : forall ts pre strs lits toks0,
  input = pre ++ source ts -> Forall shape ts ->
  Forall (stands_at input (mktokens toks0 (strs ++ tile_strings pre ts) (lits ++ tile_literals pre ts) eof))
    (tile_tokens pre (N.of_nat (length strs)) (N.of_nat (length lits)) ts).
Proof.
  induction ts as [|[x s] ts IH]; intros pre strs lits toks0 IN SH; [constructor|].
  pose proof (Forall_inv SH) as S1. pose proof (Forall_inv_tail SH) as S2. pose proof (shape_nonempty _ _ S1) as NE.
  change (source ((x, s) :: ts)) with (s ++ source ts) in IN.
  assert (IN' : input = (pre ++ s) ++ source ts) by (rewrite IN; assoc).
  assert (HERE : forall ty toks, written toks ty (tlen pre) s (pos_at (pre ++ s)) -> stands_at input toks (mktok ty (pos_at pre))).
  { intros ty toks W. exists pre, s, (source ts). auto. }
  destruct x; cbn [tile_tokens tile_strings tile_literals].
  - apply IH; assumption.
  - constructor; [apply HERE; exact S1|apply IH; assumption].
  - constructor; [|apply IH; assumption].
    destruct S1 as (c & P & ->). apply HERE. unfold punct in P. cbn [In] in P.
    repeat (destruct P as [P|P]; [injection P as <- <-; eexists; split; [|reflexivity]; unfold punct; cbn [In]; tauto|]). destruct P.
  - constructor.
    + apply HERE. cbn [written tk_literals]. rewrite Nnat.Nat2N.id, nth_len. split; [reflexivity|exact S1].
    + specialize (IH (pre ++ s) strs (lits ++ [mkref (tlen pre) s]) toks0 IN' S2).
      rewrite app_length, Nnat.Nat2N.inj_add in IH. rewrite <- app_assoc in IH. exact IH.
  - destruct S1 as (t & -> & NL). constructor.
    + apply HERE. cbn [written tk_literals]. exists t. rewrite Nnat.Nat2N.id, nth_len. auto.
    + specialize (IH (pre ++ 35 :: t) strs (lits ++ [mkref (tlen pre + 1) t]) toks0 IN' S2).
      rewrite app_length, Nnat.Nat2N.inj_add in IH. rewrite <- app_assoc in IH. exact IH.
  - constructor.
    + apply HERE. cbn [written tk_strings]. eexists. rewrite Nnat.Nat2N.id, nth_len. split; [reflexivity|auto].
    + specialize (IH (pre ++ s) (strs ++ [mkstr q (mkref (tlen pre) s) (pos_at (pre ++ s)) text off]) lits toks0 IN' S2).
      rewrite app_length, Nnat.Nat2N.inj_add in IH. rewrite <- app_assoc in IH. exact IH.
Qed.

Lemma pos_at_le_lt a b p : (b = [] \/ b <> []) -> pos_lt (pos_at (a ++ b)) p -> pos_lt (pos_at a) p.
Proof.
  intros [->|H] L; [rewrite app_nil_r in L; assumption|]. eapply pos_lt_trans; [apply pos_at_lt; exact H|exact L].
Qed.
(** The first token at or after [pre]. *)
Definition head_pos (ps : list pos) (p : pos) : Prop :=
  match ps with [] => True | q :: _ => p = q \/ pos_lt p q end.
Lemma tiles_increasing : forall ts pre ns nl, Forall shape ts ->
  increasing (map t_start (tile_tokens pre ns nl ts) ++ [pos_at (pre ++ source ts)]) /\
  head_pos (map t_start (tile_tokens pre ns nl ts) ++ [pos_at (pre ++ source ts)]) (pos_at pre).
Proof.
  induction ts as [|[x s] ts IH]; intros pre ns nl SH.
  { cbn. rewrite app_nil_r. tauto. }
  pose proof (shape_nonempty _ _ (Forall_inv SH)) as NE. pose proof (Forall_inv_tail SH) as S2.
  change (source ((x, s) :: ts)) with (s ++ source ts). rewrite app_assoc.
  pose proof (pos_at_lt pre s NE) as LT.
  assert (ONE : forall ty ns' nl',
     increasing (map t_start (mktok ty (pos_at pre) :: tile_tokens (pre ++ s) ns' nl' ts) ++ [pos_at ((pre ++ s) ++ source ts)]) /\
     head_pos (map t_start (mktok ty (pos_at pre) :: tile_tokens (pre ++ s) ns' nl' ts) ++ [pos_at ((pre ++ s) ++ source ts)]) (pos_at pre)).
  { intros ty ns' nl'. destruct (IH (pre ++ s) ns' nl' S2) as [I1 I2]. cbn [map app t_start increasing head_pos].
    split; [|left; reflexivity]. split; [|assumption].
    destruct (map t_start _ ++ _); [exact I|]. cbn [head_pos] in I2. destruct I2 as [<-|I2]; [assumption|eapply pos_lt_trans; eassumption]. }
  destruct x; cbn [tile_tokens]; try apply ONE.
  destruct (IH (pre ++ s) ns nl S2) as [I1 I2]. split; [assumption|].
  destruct (map t_start _ ++ _); [exact I|]. cbn [head_pos] in *. right. destruct I2 as [<-|I2]; [assumption|eapply pos_lt_trans; eassumption].
Qed.

Lemma tiles_slices input : forall ts pre, input = pre ++ source ts -> Forall shape ts ->
  Forall (slice_of input) (tile_literals pre ts) /\ Forall (fun s => slice_of input (st_lit s)) (tile_strings pre ts).
Proof.
  induction ts as [|[x s] ts IH]; intros pre IN SH; [split; constructor|].
  pose proof (Forall_inv SH) as S1. pose proof (Forall_inv_tail SH) as S2.
  change (source ((x, s) :: ts)) with (s ++ source ts) in IN.
  assert (IN' : input = (pre ++ s) ++ source ts) by (rewrite IN; assoc).
  destruct (IH (pre ++ s) IN' S2) as [I1 I2].
  destruct x; cbn [tile_strings tile_literals]; split; try assumption.
  - constructor; [|assumption]. exists pre, (source ts). auto.
  - destruct S1 as (t & -> & _). constructor; [|assumption]. exists (pre ++ [35]), (source ts).
    cbn [sr_text sr_off tl]. split; [rewrite IN; assoc|]. rewrite tlen_app, tlen_one. reflexivity.
  - constructor; [|assumption]. exists pre, (source ts). auto.
Qed.

(** ** Exactly the lexically valid documents are accepted *)
Lemma lex_accepts input toks :
  lex input = Ok (toks, []) <-> exists ts, lexical ts input /\ toks = tokens_of ts.
Proof.
  split.
  - intros E. destruct (lex_sound input) as (ts & es & S & _ & SEP & R & _ & V).
    rewrite E in R. injection R as -> <-. exists ts. split; [|reflexivity]. split; [assumption|]. auto.
  - intros (ts & (S & V & SEP) & ->). apply lex_complete; assumption.
Qed.

Lemma hex_of_digit n : n < 16 -> hex_digit_of (hex_of n) n.
Proof.
  intros L. unfold hex_of. destruct (N.ltb_spec n 10); [constructor; assumption|apply HX_upper; lia].
Qed.
Lemma body_unwrite c s t n : body QBasic 0 s t -> body QBasic n (write_char c ++ s) (c :: t).
Proof.
  intros B. unfold write_char.
  destruct (N.eqb_spec c 34) as [->|N34].
  { apply (body_escape QBasic n 34 34); [left; reflexivity|unfold escape_letter; cbn; tauto|assumption]. }
  destruct (N.eqb_spec c 92) as [->|N92].
  { apply (body_escape QBasic n 92 92); [left; reflexivity|unfold escape_letter; cbn; tauto|assumption]. }
  destruct (N.eqb_spec c 9) as [->|N9].
  { apply (body_char QBasic n 9); [left; reflexivity|discriminate|discriminate|assumption]. }
  destruct ((c <=? 31) || (c =? 127)) eqn:EC.
  - assert (L : c < 128) by lia.
    apply (body_unicode QBasic n 117 [48; 48; hex_of (c / 16); hex_of (c mod 16)] c); [left; reflexivity|left; auto| | |assumption].
    + replace c with (16 * (16 * (16 * (16 * 0 + 0) + 0) + c / 16) + c mod 16) at 3 by lia.
      assert (H0 : hex_digit_of 48 0) by (apply (HX_dec 0); lia).
      apply (HT_snoc [48; 48; hex_of (c / 16)]); [|apply hex_of_digit; lia].
      apply (HT_snoc [48; 48]); [|apply hex_of_digit; lia].
      apply (HT_snoc [48]); [|assumption]. apply (HT_snoc []); [constructor|assumption].
    + unfold is_scalar. lia.
  - apply (body_char QBasic n c); [right; lia|assumption|auto|assumption].
Qed.
Lemma write_basic_string v : toml_string QBasic (write_basic v) [] v.
Proof.
  exists (flat_map write_char v). split; [reflexivity|]. split.
  - induction v as [|c v IH]; [constructor|]. cbn [flat_map]. apply body_unwrite. exact IH.
  - split; [left; reflexivity|]. intros [H|H]; discriminate.
Qed.
Lemma write_literal_string v : Forall plain v -> ~ In 39 v -> toml_string QLiteral (write_literal v) [] v.
Proof.
  intros P NQ. exists v. split; [reflexivity|]. split.
  - induction v as [|c v IH]; [constructor|]. cbn [In] in NQ.
    apply body_char; [exact (Forall_inv P)| |intros [H|H]; discriminate|apply IH; [exact (Forall_inv_tail P)|tauto]].
    intros ->. apply NQ. left. reflexivity.
  - split; [left; reflexivity|]. intros [H|H]; discriminate.
Qed.

(** A string literal by itself. *)
Definition offsets_of (q : quote) (trim : list N) : text_offset :=
  match trim with [] => mkoff 0 (quote_len q) 0 (quote_len q) | _ => mkoff 1 0 0 (quote_len q) end.
Lemma lex_one_string q src trim text : toml_string q src trim text ->
  lex src = Ok (mktokens [mktok (TString 0) pos_zero] [mkstr q (mkref 0 src) (pos_at src) text (offsets_of q trim)] []
    (mktok TEOF (pos_at src)), []).
Proof.
  intros H. rewrite (lex_complete src [(XString q text (offsets_of q trim), src)]).
  - unfold tokens_of. cbn [tile_tokens tile_strings tile_literals app]. unfold source. cbn [map snd concat]. rewrite app_nil_r. reflexivity.
  - constructor; [|constructor]. exists trim. split; [assumption|]. destruct trim; reflexivity.
  - split; [|exact I]. intros _. apply starts_with_nil.
  - unfold source. cbn [map snd concat]. apply app_nil_r.
Qed.
Lemma toml_string_unique q src t1 x1 t2 x2 :
  toml_string q src t1 x1 -> toml_string q src t2 x2 -> x1 = x2.
Proof.
  intros H1 H2. apply lex_one_string in H1. apply lex_one_string in H2. rewrite H1 in H2. injection H2 as E _. assumption.
Qed.

(** Strings of an accepted document. *)
Lemma tile_strings_valid input : forall ts pre, input = pre ++ source ts -> Forall valid ts ->
  Forall (fun s => exists trim, toml_string (st_quote s) (sr_text (st_lit s)) trim (st_text s) /\
    st_offset s = offsets_of (st_quote s) trim) (tile_strings pre ts).
Proof.
  induction ts as [|[x s] ts IH]; intros pre IN V; [constructor|].
  pose proof (Forall_inv V) as V1. pose proof (Forall_inv_tail V) as V2.
  change (source ((x, s) :: ts)) with (s ++ source ts) in IN.
  assert (IN' : input = (pre ++ s) ++ source ts) by (rewrite IN; assoc).
  specialize (IH (pre ++ s) IN' V2).
  destruct x; cbn [tile_strings]; try assumption.
  constructor; [|assumption]. destruct V1 as (trim & TS & ->). exists trim. cbn [st_quote st_lit st_text st_offset sr_text].
  split; [assumption|]. destruct trim; reflexivity.
Qed.
