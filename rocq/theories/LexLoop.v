(** Whole strings. *)
From Verif Require Import Base BaseProofs CommonModel TomlError LitModel LexModel LexSpec LexBase LexStr LexQuote LexEsc LexUni.

Lemma starts_dec (P : N -> Prop) s : (forall c, P c \/ ~ P c) -> starts_with P s \/ ~ starts_with P s.
Proof.
  intros H. destruct s as [|c r]; [right; intros (c & r & E & _); discriminate|].
  destruct (H c); [left; exists c, r; auto|right; intros (c' & r' & E & ?); injection E as <- <-; auto].
Qed.

Lemma simple_escape_spec c v : simple_escape c = Some v <-> escape_letter c v.
Proof.
  unfold simple_escape, escape_letter. cbn [In]. split.
  - repeat (match goal with |- context [c =? ?k] => destruct (N.eqb_spec c k) as [->|?] end;
      [intros [= <-]; tauto|]). discriminate.
  - intros H. repeat (destruct H as [H|H]; [injection H as <- <-; reflexivity|]). destruct H.
Qed.

Lemma eat_escape_ws_eq : forall fuel hn pre rest bp l o, (length rest < fuel)%nat ->
  exists w rest1 bp', rest = w ++ rest1 /\ Forall is_ws w /\ ~ starts_with is_ws rest1 /\
    eat_escape_ws fuel hn (mklex (cur_at pre rest bp) l o) =
    Ok (hn || existsb (N.eqb 10) w, mklex (cur_at (pre ++ w) rest1 bp') l o).
Proof.
  induction fuel as [|fuel IH]; intros hn pre rest bp l o F; [lia|].
  cbn [eat_escape_ws]. unfold lpeek. cbn [lx_cur cur_at cu_rest].
  destruct rest as [|c rest]; cbn [hd_error].
  - exists [], [], bp. rewrite (app_nil_r pre), orb_false_r. split; [reflexivity|]. split; [constructor|].
    split; [apply starts_with_nil|reflexivity].
  - fold (cur_at pre (c :: rest) bp). cbn [length] in F.
    destruct ((c =? 32) || (c =? 9) || (c =? 13)) eqn:EW.
    + unfold lskip. rewrite lnext_char by lia. cbn [snd].
      destruct (IH hn (pre ++ [c]) rest (tlen pre) l o) as (w & r1 & bp' & E & W & ND & R); [lia|].
      exists (c :: w), r1, bp'. split; [rewrite E; reflexivity|]. split; [constructor; [unfold is_ws; lia|assumption]|].
      split; [assumption|]. rewrite R. cbn [existsb]. replace (10 =? c) with false by lia. cbn [orb].
      do 2 f_equal. f_equal. f_equal. assoc.
    + destruct (N.eqb_spec c 10) as [->|N10].
      * unfold lskip. rewrite lnext_lf. cbn [snd]. rewrite newline_lf.
        destruct (IH true (pre ++ [10]) rest (tlen pre + 1) l o) as (w & r1 & bp' & E & W & ND & R); [lia|].
        exists (10 :: w), r1, bp'. split; [rewrite E; reflexivity|]. split; [constructor; [unfold is_ws; lia|assumption]|].
        split; [assumption|]. rewrite R. cbn [existsb]. rewrite orb_true_r.
        do 2 f_equal. f_equal. f_equal. assoc.
      * exists [], (c :: rest), bp. rewrite (app_nil_r pre), orb_false_r. split; [reflexivity|]. split; [constructor|].
        split; [rewrite starts_with_cons; unfold is_ws; lia|reflexivity].
Qed.

Lemma existsb_lf w : existsb (N.eqb 10) w = true <-> In 10 w.
Proof.
  rewrite existsb_exists. split.
  - intros (x & H & E). apply N.eqb_eq in E. subst. assumption.
  - intros H. exists 10. split; [assumption|reflexivity].
Qed.

Lemma ends_with_one c x : ends_with c [x] -> x = c.
Proof. intros (r & E). change [x] with ([] ++ [x]) in E. apply app_inj_tail in E. tauto. Qed.
Lemma ends_with_In c s : ends_with c s -> In c s.
Proof. intros (r & ->). apply in_app_iff. right. left. reflexivity. Qed.

Section Input.
Context (input : list N).
Section Str.
Context (q : quote) (p0 trim : list N).
Context (TR : trim = [] \/ (multi q /\ line_break trim)).
Local Notation op := (op q trim).
Local Notation L0 := (L0 p0).
Local Notation st_inv := (st_inv q p0 trim).
Local Notation final := (final input q p0).
Local Notation d := (delim q).
Local Notation sst := (sst q p0 trim).
Local Notation esc_out := (esc_out input q p0 trim).

Definition esc_good (T : list N) (s rest1 T1 : list N) : Prop :=
  exists v, T1 = T ++ v /\ (ends_with 13 s -> ~ starts_with (eq 10) rest1) /\ s <> [] /\
    forall b' t', (exists y, rest1 = b' ++ y) -> body q 0 b' t' -> body q 0 (92 :: s ++ b') (v ++ t').

Lemma string_escape_sound b1 b rest bp o T :
  escapes q -> b = b1 ++ [92] -> input = p0 ++ op ++ b ++ rest -> (~ multi q -> no_lf b) -> text_from b T ->
  esc_out b rest o
    (string_escape input (pos_at (p0 ++ op ++ b1)) (mklex (cur_at (p0 ++ op ++ b) rest bp) L0 o) (sst T))
    (esc_good T) False.
Proof.
  intros ES Eb IN NB TF. unfold string_escape.
  assert (TFS : forall s, text_from (b ++ s) T) by (intros s; apply (text_from_incl _ _ _ TF), incl_appl, incl_refl).
  assert (INE : input = (p0 ++ op ++ b1) ++ [92] ++ rest) by (rewrite IN, Eb; assoc).
  assert (EX : p0 ++ op ++ b = (p0 ++ op ++ b1) ++ [92]) by (rewrite Eb; assoc).
  destruct rest as [|c rest].
  { rewrite lnext_end, lpos_end. cbn [bind]. rewrite lex_error_eq.
    apply (esc_continue input q p0 trim b [] []); [rewrite app_nil_r; reflexivity|auto|auto| |discriminate].
    constructor; [|constructor]. apply (errok_span input _ (p0 ++ op ++ b1) [92] []); [exact INE| |split; [left; reflexivity|left; reflexivity]].
    cbn [err_span]. rewrite EX. reflexivity. }
  assert (IN' : input = p0 ++ op ++ (b ++ [c]) ++ rest) by (rewrite IN; assoc).
  assert (OKu : is_ws c -> Forall (errok input) [EUnfinishedEscapeSequence (mkspan (pos_at (p0 ++ op ++ b1)) (pos_at (p0 ++ op ++ b)))]).
  { intros WC. constructor; [|constructor]. apply (errok_span input _ (p0 ++ op ++ b1) [92] (c :: rest)); [exact INE| |split; [left; reflexivity|right; apply starts_with_cons; auto]].
    cbn [err_span]. rewrite EX. reflexivity. }
  assert (UNI : (c = 117 \/ c = 85) -> forall n, (n = 4%nat /\ c = 117 \/ n = 8%nat /\ c = 85) -> 
    esc_out b (c :: rest) o
      (escape_unicode input (N.of_nat n) (pos_at (p0 ++ op ++ b1)) n 0
         (mklex (cur_at ((p0 ++ op ++ b) ++ [c]) rest (tlen (p0 ++ op ++ b))) L0 o) (sst T)) (esc_good T) False).
  { intros Hc n Hn.
    pose proof (escape_unicode_sound input q p0 trim TR n (N.of_nat n) (p0 ++ op ++ b1) [92; c] 0 (b ++ [c]) rest
      (tlen (p0 ++ op ++ b)) (oerr o []) T ES ltac:(lia) IN') as H.
    assert (UX : exists m ds V, unicode_start m ds [92; c] /\ (length ds + n = m)%nat /\ N.of_nat n = N.of_nat m /\ loose_hex ds V /\ 0 = V * 16 ^ N.of_nat n).
    { destruct Hn as [(-> & ->)|(-> & ->)]; [exists 4%nat, [], 0|exists 8%nat, [], 0]; (split; [constructor|]); (split; [reflexivity|]); (split; [reflexivity|]); (split; [constructor|reflexivity]). }
    assert (C10 : c <> 10) by lia. assert (NBC : ~ multi q -> no_lf (b ++ [c])) by (intros M; apply no_lf_app; auto).
    change (c :: rest) with ([c] ++ rest).
    replace ((p0 ++ op ++ b) ++ [c]) with (p0 ++ op ++ b ++ [c]) by assoc. rewrite <- (oerr_nil o) at 2.
    assert (EX2 : p0 ++ op ++ b ++ [c] = (p0 ++ op ++ b1) ++ [92; c]) by (rewrite Eb; assoc).
    apply (esc_out_step input q p0 trim b [c] rest o [] _ _ (esc_good T) False False (Forall_nil _) (fun _ => no_lf_one c C10) (H UX EX2 NBC (TFS _))).
    - intros _ s r1 T1 _ (V & L & HT & SC & ->). cbn [N.add] in *. exists [V]. split; [reflexivity|]. split; [|split; [discriminate|]].
      + intros EW. exfalso. apply ends_with_In in EW. cbn [app In] in EW. destruct EW as [->|EW]; [lia|].
        apply hex_text_not in HT. rewrite Forall_forall in HT. specialize (HT _ EW). cbn in HT. lia.
      + intros b' t' _ HB. cbn [app]. apply (body_unicode q 0 c s V b' t'); auto.
        destruct Hn as [(-> & ->)|(-> & ->)]; auto.
    - auto. }
  assert (NEWL : forall es, q <> QBasicMulti -> c = 10 -> 
     Forall (errok input) es -> es <> [] ->
     esc_out b (10 :: rest) o (recover_newline input (mklex (cur_lf (p0 ++ op ++ b) rest) L0 (oerr o es)) (sst T)) (esc_good T) False).
  { intros es NM -> OKe NE. assert (M : ~ multi q).
    { intros [->| ->]; [congruence|]. destruct ES; discriminate. }
    destruct (recover_newline_final input q p0 trim TR b rest (10 :: rest) (oerr o es) (sst T) T (fun _ _ _ => False) M IN (sst_inv q p0 trim b T) TF (NB M))
      as (lx & R & F); [cbn; lia|].
    rewrite R. right. exists lx, (sst T). split; [reflexivity|].
    eapply final_oerr; [exact OKe| | |exact F]; [lia|auto]. }
  assert (FOLD : forall bp' hn, multi q -> is_ws c -> hn = (c =? 10) ->
    esc_out b (c :: rest) o
      (let? (has_newline, lx) := eat_escape_ws (S (length rest)) hn (mklex (cur_at ((p0 ++ op ++ b) ++ [c]) rest bp') L0 o) in
       if negb has_newline then
         let? e := next_pos lx in
         Ok (FContinue, lex_error lx (EInvalidLineEndingEscape (mkspan (pos_at (p0 ++ op ++ b1)) e)), sst T)
       else Ok (FContinue, lx, sst T)) (esc_good T) False).
  { intros bp' hn M WS Ehn.
    destruct (eat_escape_ws_eq (S (length rest)) hn ((p0 ++ op ++ b) ++ [c]) rest bp' L0 o) as (w & r1 & bp2 & Ew & FW & ND & R); [lia|].
    rewrite R. cbn [bind].
    destruct (hn || existsb (N.eqb 10) w) eqn:HN; cbn [negb].
    - rewrite Ew. change (c :: w ++ r1) with ((c :: w) ++ r1).
      apply (esc_continue_nil input q p0 trim b (c :: w) r1); [assoc|tauto|auto|].
      exists []. rewrite app_nil_r. split; [reflexivity|]. split; [|split; [discriminate|]].
      + intros _ (x & r & -> & <-). apply ND. apply starts_with_cons. unfold is_ws. lia.
      + intros b' t' (y & ->) HB. cbn [app]. apply (body_fold q 0 (c :: w) b' t'); [|split| |assumption].
        * destruct M as [->| ->]; [reflexivity|]. destruct ES; discriminate.
        * constructor; assumption.
        * apply orb_true_iff in HN. cbn [In]. destruct HN as [HN|HN]; [left; rewrite Ehn in HN; lia|right; apply existsb_lf; assumption].
        * intros SW. apply ND. apply starts_with_prefix. assumption.
    - rewrite Ew. unfold next_pos, next_byte_pos. cbn [lx_cur cur_at cu_next].
      fold (cur_at (((p0 ++ op ++ b) ++ [c]) ++ w) r1 bp2). rewrite pos_in_line_here. cbn [bind]. rewrite lex_error_eq.
      change (c :: w ++ r1) with ((c :: w) ++ r1).
      apply (esc_continue input q p0 trim b (c :: w) r1); [assoc|tauto|auto| |discriminate].
      constructor; [|constructor]. apply (errok_span input _ (p0 ++ op ++ b1) ([92] ++ c :: w) r1).
      + rewrite INE, Ew. assoc.
      + cbn [err_span]. f_equal. f_equal. rewrite Eb. assoc.
      + apply orb_false_iff in HN as [HN1 HN2]. exists (c :: w). split; [reflexivity|]. split; [discriminate|]. split; [constructor; assumption|]. split; [|exact ND].
        intros [->|X]; [rewrite Ehn in HN1; discriminate|]. apply existsb_lf in X. congruence. }
  assert (WSC : forall lx1 o1, (c <> 10 /\ lx1 = mklex (cur_at ((p0 ++ op ++ b) ++ [c]) rest (tlen (p0 ++ op ++ b))) L0 o1 \/
                 c = 10 /\ lx1 = mklex (cur_lf (p0 ++ op ++ b) rest) L0 o1) -> lpos lx1 = Ok (pos_at (p0 ++ op ++ b))).
  { intros lx1 o1 [(H & ->)|(-> & ->)]; [apply lpos_char; assumption|apply lpos_lf]. }
  destruct (N.eq_dec c 10) as [->|NL].
  - rewrite lnext_lf. cbn [N.eqb Pos.eqb simple_escape orb negb].
    change (ss_quote (sst T)) with q. destruct (is_multiline q) eqn:M; cbn [negb].
    + apply is_multiline_spec in M. rewrite newline_lf. cbn [lx_cur cur_at cu_rest].
      fold (cur_at ((p0 ++ op ++ b) ++ [10]) rest (tlen (p0 ++ op ++ b) + 1)). apply FOLD; [assumption|unfold is_ws; lia|reflexivity].
    + apply is_multiline_false in M. rewrite lpos_lf. cbn [bind]. rewrite lex_error_eq.
      apply NEWL; [|reflexivity|apply OKu; unfold is_ws; auto|discriminate]. intros ->. apply M. left. reflexivity.
  - rewrite lnext_char by assumption.
    destruct (N.eqb_spec c 117) as [->|N117]; [apply (UNI ltac:(auto) 4%nat); auto|].
    destruct (N.eqb_spec c 85) as [->|N85]; [apply (UNI ltac:(auto) 8%nat); auto|].
    destruct (simple_escape c) as [v|] eqn:SE.
    { apply simple_escape_spec in SE.
      change (c :: rest) with ([c] ++ rest).
      apply (esc_continue_nil input q p0 trim b [c] rest _ (T ++ [v])); [assoc|auto| |].
      { apply text_from_app; [auto|apply text_from_scalar]. unfold escape_letter in SE. cbn in SE. intuition (match goal with E : (_, _) = (_, _) |- _ => injection E as <- <- end; reflexivity). }
      exists [v]. split; [reflexivity|]. split; [|split; [discriminate|]].
      - intros EW. apply ends_with_one in EW. subst c. unfold escape_letter in SE. cbn in SE.
        exfalso. intuition congruence.
      - intros b' t' _ HB. apply body_escape; assumption. }
    destruct ((c =? 32) || (c =? 13) || (c =? 10) || (c =? 9)) eqn:EW.
    + replace (c =? 10) with false by lia. change (ss_quote (sst T)) with q.
      destruct (is_multiline q) eqn:M; cbn [negb].
      * apply is_multiline_spec in M. cbn [lx_cur cur_at cu_rest].
        fold (cur_at ((p0 ++ op ++ b) ++ [c]) rest (tlen (p0 ++ op ++ b))).
        apply FOLD; [assumption|unfold is_ws; lia|lia].
      * rewrite lpos_char by assumption. cbn [bind]. rewrite lex_error_eq.
        change (c :: rest) with ([c] ++ rest). apply (esc_continue input q p0 trim b [c] rest); [assoc|auto|auto|apply OKu; unfold is_ws; lia|discriminate].
    + rewrite lpos_char by assumption. cbn [bind]. rewrite lex_error_eq.
      change (c :: rest) with ([c] ++ rest). apply (esc_continue input q p0 trim b [c] rest); [assoc|auto|auto| |discriminate].
      constructor; [|constructor]. apply (errok_span input _ (p0 ++ op ++ b) [] (c :: rest)); [rewrite IN; assoc|rewrite app_nil_r; reflexivity|].
      split; [reflexivity|]. split; [apply starts_with_cons; reflexivity|]. split; [eexists; exact EX|]. split; [exact N117|]. split; [exact N85|]. split; [unfold is_ws; lia|].
      intros v X. apply simple_escape_spec in X. congruence.
Qed.

End Str.
End Input.
