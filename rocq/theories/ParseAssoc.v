(** Which comments belong to a statement, interleavings, and positions of
    the next item. *)
From Verif Require Import Base BaseProofs CommonModel TomlError LitModel LitSpec LexModel LexSpec LexBase LexStr LexSound LexProps ParseModel ParseSpec ParsePlace ParseItems ParseKey ParseLit ParseVal ParseValue.
From Verif Require Export CommentSpec.

(** ** [find_associated_comments] *)
(** [cs], last first, on decreasing lines above [line]. *)
Fixpoint below (line : N) (cs : list comment) : Prop :=
  match cs with
  | [] => True
  | c :: r => line_of c < line /\ below (line_of c) r
  end.
Lemma below_le a b l : a <= b -> below a l -> below b l.
Proof. destruct l; [trivial|]. cbn. intros L [H G]. split; [lia|exact G]. Qed.

Lemma block_snoc line cs c : block line (cs ++ [c]) <-> line_of c + 1 = line /\ block (line_of c) cs.
Proof.
  induction cs as [|d cs IH]; [cbn; tauto|]. cbn [app block]. rewrite IH. cbn [length]. rewrite app_length. cbn [length].
  split; [intros (H1 & H2 & H3); repeat split; try assumption; lia|intros (H1 & H2 & H3); repeat split; try assumption; lia].
Qed.

Lemma associated_position_ok : forall l line i, below line l ->
  exists a f, l = a ++ f /\ block line (rev a) /\ (forall c r, f = c :: r -> line_of c + 1 + N.of_nat (length a) <> line) /\
    associated_position l line i = Ok (match f with [] => None | _ => Some (i + N.of_nat (length a)) end).
Proof.
  induction l as [|c l IH]; intros line i B; cbn [associated_position].
  - exists [], []. split; [reflexivity|]. split; [exact I|]. split; [intros; discriminate|reflexivity].
  - destruct B as [B1 B2]. rewrite usub_le by lia. cbn [bind]. fold (line_of c).
    destruct (N.eqb_spec (line_of c + 1) line) as [EQ|NE].
    + destruct (IH (line - 1) (i + 1)) as (a & f & -> & BL & MX & R).
      { replace (line - 1) with (line_of c) by lia. exact B2. }
      rewrite R. exists (c :: a), f. split; [reflexivity|]. split; [cbn [rev]; apply block_snoc; split; [exact EQ|]; replace (line_of c) with (line - 1) by lia; exact BL|].
      split.
      * intros d r E. specialize (MX d r E). cbn [length]. lia.
      * destruct f; [reflexivity|]. f_equal. f_equal. cbn [length]. lia.
    + exists [], (c :: l). split; [reflexivity|]. split; [exact I|]. split.
      * intros d r E. injection E as <- <-. cbn [length]. lia.
      * f_equal. f_equal. cbn. lia.
Qed.

(** The comments are split at the longest block directly above the line. *)
Lemma find_associated_ok cs line : below line (rev cs) ->
  exists free assoc, cs = free ++ assoc /\ find_associated_comments cs line = Ok (N.of_nat (length free)) /\ block line assoc /\
    (forall f c, free = f ++ [c] -> line_of c + 1 + N.of_nat (length assoc) <> line).
Proof.
  intros B. unfold find_associated_comments. destruct (associated_position_ok (rev cs) line 0 B) as (a & f & E & BL & MX & ->). cbn [bind].
  assert (ECS : cs = rev f ++ rev a) by (rewrite <- rev_app_distr, <- E, rev_involutive; reflexivity).
  exists (rev f), (rev a). split; [exact ECS|]. split; [|split; [exact BL|]].
  - destruct f; [reflexivity|]. rewrite usub_le; rewrite ECS, app_length, !rev_length; [f_equal; lia|lia].
  - intros f' c H. rewrite rev_length. apply (MX c (rev f')). rewrite <- (rev_involutive f), H, rev_app_distr. reflexivity.
Qed.

(** ** Two lists in one *)
Lemma interleave_app {A} (a b c a' b' c' : list A) : interleave a b c -> interleave a' b' c' -> interleave (a ++ a') (b ++ b') (c ++ c').
Proof. intros H G. induction H; cbn [app]; [exact G|constructor; assumption..]. Qed.
Lemma interleave_l {A} (a : list A) : interleave a [] a.
Proof. induction a; constructor; assumption. Qed.
Lemma interleave_r {A} (a : list A) : interleave [] a a.
Proof. induction a; constructor; assumption. Qed.
Lemma interleave_in {A} (a b c : list A) x : interleave a b c -> (In x c <-> In x a \/ In x b).
Proof. intros H. induction H; cbn [In]; tauto. Qed.
Lemma interleave_length {A} (a b c : list A) : interleave a b c -> length c = (length a + length b)%nat.
Proof. intros H. induction H; cbn [length]; lia. Qed.
Lemma subseq_in {A} (a b : list A) x : subseq a b -> In x a -> In x b.
Proof. intros H. induction H; cbn [In]; tauto. Qed.
Lemma subseq_trans {A} (a b c : list A) : subseq a b -> subseq b c -> subseq a c.
Proof.
  intros H G. revert a H. induction G as [l|x b c G IH|x b c G IH]; intros a H.
  - apply subseq_nil_r in H as ->. constructor.
  - inversion H; subst; [constructor|apply ss_keep, IH; assumption|apply ss_skip, IH; assumption].
  - apply ss_skip, IH, H.
Qed.

(** ** The next item *)
Lemma blanks_prefix : forall w w' x s r a b, blanks w -> blanks w' -> x <> XBlank -> w ++ (x, s) :: r = a ++ w' ++ b ->
  (forall y t, hd_error b = Some (y, t) -> y <> XBlank) -> b <> [] -> exists m, a ++ w' = w ++ m.
Proof.
  induction w as [|[y t] w IH]; intros w' x s r a b B B' NX E NB NE; [exists (a ++ w'); reflexivity|].
  pose proof (Forall_inv B) as Y. cbv [is_blank] in Y. cbn in Y. subst y. destruct a as [|z a].
  - destruct w' as [|z w'].
    + cbn [app] in E. destruct b as [|[y t'] b]; [congruence|]. injection E as <- <- E. exfalso. apply (NB XBlank t); reflexivity.
    + cbn [app] in E |- *. injection E as <- E. destruct (IH w' x s r [] b (Forall_inv_tail B) (Forall_inv_tail B') NX E NB NE) as [m M].
      exists m. cbn [app] in M. rewrite M. reflexivity.
  - cbn [app] in E |- *. injection E as <- E. destruct (IH w' x s r a b (Forall_inv_tail B) B' NX E NB NE) as [m M]. exists m. rewrite M. reflexivity.
Qed.

Section Next.
  Context (input : list N).
  Notation at_ := (at_ input).
  Notation goes := (goes input).
  Notation eof := (eof input).

  Lemma peek_in st pre ts : at_ st pre ts -> pos_in input (i_start (ppeek eof st)).
  Proof.
    intros A. destruct (peek_cases input st pre ts A) as [(B & -> & _)|(w & x & s & r & E & B & NX & SH & -> & IN)].
    - apply (pos_in_at input input []). rewrite app_nil_r. reflexivity.
    - eapply pos_in_at. exact IN.
  Qed.
  Lemma peek_mono st pre ts st' a b es cs : at_ st pre ts -> goes st pre ts st' a b es cs ->
    pos_le (i_start (ppeek eof st)) (i_start (ppeek eof st')).
  Proof.
    intros A G. pose proof (goes_at _ _ _ _ _ _ _ _ _ G) as A'. destruct G as (E & _).
    destruct (peek_cases input st pre ts A) as [(B & -> & _)|(w & x & s & r & E1 & B & NX & SH & -> & IN)].
    - rewrite (peek_blanks input st' _ b A'); [left; reflexivity|]. rewrite E in B. apply Forall_app in B as [_ B]. exact B.
    - destruct (peek_cases input st' _ b A') as [(B' & -> & _)|(w' & x' & s' & r' & E1' & B' & NX' & SH' & -> & IN')].
      + cbn [i_start eof]. rewrite IN. apply pos_le_app.
      + cbn [i_start]. destruct (blanks_prefix w w' x s r a ((x', s') :: r')) as [m M]; try assumption.
        * transitivity ts; [symmetry; exact E1|]. rewrite E, E1'. reflexivity.
        * intros y t H. injection H as <- _. exact NX'.
        * discriminate.
        * assert (S : source a ++ source w' = source w ++ source m) by (rewrite <- !source_app, M; reflexivity).
          rewrite <- app_assoc, S, app_assoc. apply pos_le_app.
  Qed.
  (** The error for something that should have started on a new line. *)
  Lemma expected_newline_span st pre ts st' a b es cs : at_ st pre ts -> goes st pre ts st' a b es cs ->
    err_ok input (EExpectedNewlineFound (token_fmt_str (ppeek eof st)) (mkspan (i_start (ppeek eof st)) (i_start (ppeek eof st')))).
  Proof.
    intros A G. destruct (peek_stands input st pre ts A) as (x & y & z & IN & SP & F).
    assert (SX : i_start (ppeek eof st) = pos_at x).
    { assert (H := f_equal s_start SP). cbn [s_start] in H. rewrite <- H. unfold token_span. destruct (i_ty (ppeek eof st)); reflexivity. }
    destruct (peek_in st' _ b (goes_at _ _ _ _ _ _ _ _ _ G)) as (x' & z' & IN' & SX').
    pose proof (peek_mono st pre ts st' a b es cs A G) as LE. rewrite SX, SX' in *.
    assert (exists m, x' = x ++ m) as [m ->].
    { destruct (app_eq_app x (y ++ z) x' z') as [m [[E _]|[E _]]]; [rewrite <- IN; exact IN'| |exists m; exact E].
      subst x. destruct m as [|c m]; [exists []; rewrite !app_nil_r; reflexivity|]. exfalso.
      assert (LT : pos_lt (pos_at x') (pos_at (x' ++ c :: m))) by (apply pos_at_lt; discriminate).
      destruct LE as [E|LE]; [rewrite E in LT|]; unfold pos_lt in *; lia. }
    apply (err_ok_at input _ x m z'); [rewrite IN', <- app_assoc; reflexivity|reflexivity| |reflexivity].
    exists y, z. split; [|exact F]. apply (app_inv_head x). rewrite <- IN, IN', <- app_assoc. reflexivity.
  Qed.

  (** Lines do not decrease. *)
  Lemma pos_le_line a b : pos_le a b -> p_line a <= p_line b.
  Proof. intros [->|H]; [lia|]. unfold pos_lt in H. lia. Qed.
  Lemma line_app a b : p_line (pos_at a) <= p_line (pos_at (a ++ b)).
  Proof. apply pos_le_line, pos_le_app. Qed.
End Next.

(** ** The end of a line *)
Definition nl_next (ts : list tile) : Prop := match ts with [] => True | x :: _ => fst x = XNewline end.
Lemma after_comment s ts : Forall shape ts -> all_separated ((XComment, s) :: ts) -> nl_next ts.
Proof.
  intros SH [SEP SEPS]. destruct ts as [|[x t] ts]; [exact I|]. pose proof (Forall_inv SH) as S1. rewrite source_cons in SEP. cbn [nl_next fst].
  assert (H : exists c r, t ++ source ts = c :: r /\ (c = 10 \/ c = 13 /\ exists r', r = 10 :: r')).
  { destruct SEP as [E|[[E _]|[r E]]].
    - destruct x as [| |ty| | |q text off]; cbn in S1; try (destruct S1 as [->| ->]; discriminate E).
      + destruct S1 as (c & _ & ->); discriminate.
      + destruct S1 as [S1 _]. destruct t; [congruence|discriminate].
      + destruct S1 as (u & -> & _); discriminate.
      + destruct S1 as [(? & ? & ? & -> & _) _]. destruct q; discriminate.
    - destruct (t ++ source ts) as [|c r]; [destruct E as (?&?&?&?); discriminate|]. destruct E as (? & ? & E & <-). injection E as -> _. exists 10, r. split; [reflexivity|left; reflexivity].
    - exists 13, (10 :: r). split; [exact E|]. right. split; [reflexivity|]. exists r. reflexivity. }
  destruct H as (c & r & E & C). destruct x as [| |ty| | |q text off]; cbn in S1; try reflexivity; exfalso.
  - destruct S1 as [->| ->]; injection E as <- _; destruct C as [C|[C _]]; discriminate.
  - destruct (punct_char ty t S1) as (d & -> & P & _). injection E as <- _. unfold punct in P. cbn [In] in P.
    repeat (destruct P as [P|P]; [injection P as _ <-; destruct C as [C|[C _]]; discriminate|]). destruct P.
  - destruct S1 as [NE W]. destruct t as [|d t]; [congruence|]. injection E as -> E. pose proof (Forall_inv W) as W1.
    destruct C as [->|[-> [r' ->]]]; [cbn in W1; unfold word_char in W1; cbn in W1; tauto|].
    destruct t as [|e t].
    + cbn [app] in E. destruct SEPS as [SP _]. destruct SP as [[_ SP]|[r0 SP]].
      * apply SP; [exists []; reflexivity|]. unfold starts_with. rewrite E. eexists _, _. split; reflexivity.
      * rewrite SP in E. discriminate.
    + injection E as -> E. pose proof (Forall_inv (Forall_inv_tail W)) as W2. unfold word_char in W2. cbn in W2. tauto.
  - destruct S1 as (u & -> & _). injection E as <- _. destruct C as [C|[C _]]; discriminate.
  - destruct S1 as [(? & ? & ? & -> & _) _]. destruct q; injection E as <- _; destruct C as [C|[C _]]; discriminate.
Qed.
