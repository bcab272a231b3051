(** Strings: what the lexer does with the text after an opening quote. *)
From Verif Require Import Base BaseProofs CommonModel TomlError LitModel LexModel LexSpec LexBase.

Definition oerr (o : outputs) (es : list terror) : outputs :=
  mkout (o_tokens o) (o_strings o) (o_literals o) (o_errors o ++ es).
Lemma lex_error_eq c l o e : lex_error (mklex c l o) e = mklex c l (oerr o [e]).
Proof. reflexivity. Qed.
Lemma oerr_oerr o a b : oerr (oerr o a) b = oerr o (a ++ b).
Proof. unfold oerr. cbn. rewrite app_assoc. reflexivity. Qed.
Lemma oerr_nil o : oerr o [] = o.
Proof. unfold oerr. rewrite app_nil_r. destruct o; reflexivity. Qed.

Lemma quote_char_delim q : quote_char q = delim q.
Proof. destruct q; reflexivity. Qed.
Lemma is_multiline_spec q : is_multiline q = true <-> multi q.
Proof. unfold multi. destruct q; cbn; intuition congruence. Qed.
Lemma is_multiline_false q : is_multiline q = false <-> ~ multi q.
Proof. rewrite <- is_multiline_spec. destruct (is_multiline q); intuition congruence. Qed.
Lemma is_basic_spec q : is_basic q = true <-> escapes q.
Proof. unfold escapes. destruct q; cbn; intuition congruence. Qed.
Lemma delim_not q : delim q <> 10 /\ delim q <> 13 /\ delim q <> 92 /\ delim q < 128 /\ delim q <> 9.
Proof. destruct q; cbn; lia. Qed.
Lemma delims_multi q : multi q -> delims q = [delim q; delim q; delim q].
Proof. intros [->| ->]; reflexivity. Qed.
Lemma delims_single q : ~ multi q -> delims q = [delim q].
Proof. unfold multi. destruct q; cbn; intuition congruence. Qed.
Lemma multi_dec q : multi q \/ ~ multi q.
Proof. destruct (is_multiline q) eqn:E; [left; apply is_multiline_spec|right; apply is_multiline_false]; assumption. Qed.

Lemma control_spec c : is_control_char c = true <-> (c <= 31 \/ c = 127).
Proof. unfold is_control_char. lia. Qed.

Lemma no_lf_one c : c <> 10 -> no_lf [c].
Proof. unfold no_lf. cbn. lia. Qed.
Lemma no_lf_nil : no_lf [].
Proof. unfold no_lf. cbn. tauto. Qed.
#[global] Hint Resolve no_lf_nil no_lf_one : core.
Lemma no_lf_repeat c k : c <> 10 -> no_lf (repeat c k).
Proof. intros H I. apply repeat_spec in I. lia. Qed.

Ltac assoc := repeat (progress (repeat rewrite <- app_assoc; cbn [app])); try reflexivity.

(** Where the characters of a text come from. *)
Lemma text_from_incl s s' t : text_from s t -> incl s s' -> text_from s' t.
Proof. intros H I. revert H. apply Forall_impl. intros c [H|H]; auto. Qed.
Lemma text_from_self s : text_from s s.
Proof. apply Forall_forall. auto. Qed.
Lemma text_from_app s t t' : text_from s t -> text_from s t' -> text_from s (t ++ t').
Proof. intros H H'. apply Forall_app. auto. Qed.
Lemma text_from_scalar s c : is_scalar c = true -> text_from s [c].
Proof. intros H. constructor; auto. Qed.
Lemma text_from_repeat s c n : is_scalar c = true -> text_from s (repeat c n).
Proof. intros H. apply Forall_forall. intros x I. rewrite (repeat_spec _ _ _ I). auto. Qed.
Lemma text_from_removelast s t : text_from s t -> text_from s (removelast t).
Proof.
  intros H. destruct t as [|c t _] using rev_ind; [constructor|]. rewrite removelast_last. apply Forall_app in H. apply H.
Qed.
Lemma delim_scalar q : is_scalar (delim q) = true.
Proof. destruct q; reflexivity. Qed.

Section Input.
Context (input : list N).

(** What is claimed about every error of the lexer. *)
Definition errok (e : terror) : Prop :=
  located input e \/ comment_char_error input e.

Lemma errok_span e a b c : input = a ++ b ++ c -> err_span e = mkspan (pos_at a) (pos_at (a ++ b)) -> err_says e a b c -> errok e.
Proof. intros H1 H2 H3. left. exists a, b, c. auto. Qed.

(** The scanning loop. *)
Lemma string_scan_sound : forall fuel q pre rest bp l o,
  input = pre ++ rest -> (length rest < fuel)%nat ->
  exists chunk es,
    Forall errok es /\ no_lf chunk /\ ~ In (delim q) chunk /\ (escapes q -> ~ In 92 chunk) /\
    ((rest = chunk /\ string_scan fuel q (mklex (cur_at pre rest bp) l o) =
        Ok (None, mklex (cur_at (pre ++ chunk) [] (tlen (pre ++ chunk))) l (oerr o es))) \/
     (exists x rest', rest = chunk ++ x :: rest' /\ (x = delim q \/ (escapes q /\ x = 92)) /\
        string_scan fuel q (mklex (cur_at pre rest bp) l o) =
        Ok (Some x, mklex (cur_at (pre ++ chunk ++ [x]) rest' (tlen (pre ++ chunk))) l (oerr o es))) \/
     (exists rest', rest = chunk ++ 10 :: rest' /\
        string_scan fuel q (mklex (cur_at pre rest bp) l o) =
        Ok (Some 10, mklex (cur_lf (pre ++ chunk) rest') l (oerr o es)))) /\
    (es = [] -> Forall plain chunk \/
       (multi q /\ exists c' r', chunk = c' ++ [13] /\ Forall plain c' /\ rest = chunk ++ 10 :: r')).
Proof.
  induction fuel as [|fuel IH]; intros q pre rest bp l o IN F; [lia|].
  destruct rest as [|c rest].
  - exists [], []. cbn [string_scan]. rewrite lnext_end, app_nil_r, oerr_nil.
    repeat split; auto.
  - assert (IN' : input = (pre ++ [c]) ++ rest) by (rewrite IN, <- app_assoc; reflexivity).
    assert (STEP : c <> 10 -> c <> delim q -> (escapes q -> c <> 92) ->
      forall e, Forall errok e -> (e = [] -> plain c \/ (c = 13 /\ multi q /\ starts_with (eq 10) rest)) ->
      exists chunk es,
        Forall errok es /\ no_lf chunk /\ ~ In (delim q) chunk /\ (escapes q -> ~ In 92 chunk) /\
        ((c :: rest = chunk /\ string_scan fuel q (mklex (cur_at (pre ++ [c]) rest (tlen pre)) l (oerr o e)) =
            Ok (None, mklex (cur_at (pre ++ chunk) [] (tlen (pre ++ chunk))) l (oerr o es))) \/
         (exists x rest', c :: rest = chunk ++ x :: rest' /\ (x = delim q \/ (escapes q /\ x = 92)) /\
            string_scan fuel q (mklex (cur_at (pre ++ [c]) rest (tlen pre)) l (oerr o e)) =
            Ok (Some x, mklex (cur_at (pre ++ chunk ++ [x]) rest' (tlen (pre ++ chunk))) l (oerr o es))) \/
         (exists rest', c :: rest = chunk ++ 10 :: rest' /\
            string_scan fuel q (mklex (cur_at (pre ++ [c]) rest (tlen pre)) l (oerr o e)) =
            Ok (Some 10, mklex (cur_lf (pre ++ chunk) rest') l (oerr o es)))) /\
        (es = [] -> Forall plain chunk \/
           (multi q /\ exists c' r', chunk = c' ++ [13] /\ Forall plain c' /\ c :: rest = chunk ++ 10 :: r'))).
    { intros N1 N2 N3 e OKe PL. cbn [length] in F.
      destruct (IH q (pre ++ [c]) rest (tlen pre) l (oerr o e) IN') as (ch & es & A1 & A2 & A3 & A4 & A5 & A6); [lia|].
      exists (c :: ch), (e ++ es).
      split; [apply Forall_app; auto|]. split; [unfold no_lf in *; cbn; intuition|].
      split; [cbn; intuition|]. split; [cbn; intuition|]. split.
      - rewrite oerr_oerr in A5. replace (pre ++ c :: ch) with ((pre ++ [c]) ++ ch) by (rewrite <- app_assoc; reflexivity).
        destruct A5 as [(E & R)|[(x & r' & E & X & R)|(r' & E & R)]].
        + left. rewrite E at 1. rewrite R. auto.
        + right. left. exists x, r'. rewrite E at 1. rewrite R. split; [reflexivity|]. split; [assumption|].
          replace (pre ++ (c :: ch) ++ [x]) with ((pre ++ [c]) ++ ch ++ [x]) by (rewrite <- app_assoc; reflexivity). reflexivity.
        + right. right. exists r'. rewrite E at 1. rewrite R. auto.
      - intros E. apply app_eq_nil in E. destruct E as [-> ->]. specialize (A6 eq_refl).
        destruct (PL eq_refl) as [P|(-> & M & (x & r & -> & <-))].
        + destruct A6 as [A6|(M & c' & r' & -> & P' & ->)]; [left; auto|].
          right. split; [assumption|]. exists (c :: c'), r'. auto.
        + destruct ch as [|y ch]; [right; split; [assumption|]; exists [], r; auto|].
          exfalso. destruct A5 as [(E & _)|[(x & r' & E & _)|(r' & E & _)]]; injection E as <- _;
            apply A2; left; reflexivity. }
    cbn [string_scan]. destruct (N.eq_dec c 10) as [->|NL].
    + rewrite lnext_lf. exists [], []. rewrite app_nil_r, oerr_nil.
      split; [constructor|]. split; [auto|]. split; [auto|]. split; [auto|]. split; [|auto].
      right. right. exists rest. split; [reflexivity|].
      change quote_char with delim. destruct (delim_not q) as (D & _). replace (10 =? delim q) with false by lia. reflexivity.
    + rewrite lnext_char by assumption. change quote_char with delim.
      destruct (N.eqb_spec c (delim q)) as [->|ND].
      { exists [], []. rewrite oerr_nil, app_nil_r. split; [constructor|]. split; [auto|]. split; [auto|]. split; [auto|].
        split; [|auto]. right. left. exists (delim q), rest. auto. }
      replace (c =? 10) with false by lia.
      destruct ((c =? 92) && is_basic q) eqn:EB.
      { apply andb_true_iff in EB. destruct EB as [E1 E2]. apply N.eqb_eq in E1. subst c. apply is_basic_spec in E2.
        exists [], []. rewrite oerr_nil, app_nil_r. split; [constructor|]. split; [auto|]. split; [auto|]. split; [auto|].
        split; [|auto]. right. left. exists 92, rest. auto. }
      assert (NB : escapes q -> c <> 92).
      { intros H ->. apply is_basic_spec in H. rewrite H in EB. discriminate. }
      specialize (STEP NL ND NB). assert (STEP0 := STEP []). rewrite !oerr_nil in STEP0.
      destruct (N.eqb_spec c 9) as [->|N9].
      { apply STEP0; [constructor|]. intros _. left. left. reflexivity. }
      destruct ((c =? 13) && is_multiline q && _) eqn:EC.
      { apply andb_true_iff in EC. destruct EC as [EC E3]. apply andb_true_iff in EC. destruct EC as [E1 E2].
        apply N.eqb_eq in E1. subst c. apply is_multiline_spec in E2.
        apply STEP0; [constructor|]. intros _. right. split; [reflexivity|].
        split; [assumption|]. destruct rest as [|y r]; [discriminate|]. rewrite peeks_cons in E3.
        exists y, r. split; [reflexivity|lia]. }
      destruct (is_control_char c) eqn:EK.
      { rewrite lpos_char by assumption. cbn [bind]. rewrite lex_error_eq. apply STEP; [|discriminate].
        constructor; [|constructor]. apply (errok_span _ pre [c] rest); [rewrite IN; reflexivity| |].
        - cbn [err_span]. unfold span_ascii_char. f_equal. apply pos_plus_text; [auto|].
          apply control_spec in EK. rewrite tlen_one, len_small by lia. reflexivity.
        - split; [reflexivity|]. apply control_spec in EK. unfold plain. lia. }
      { apply STEP0; [constructor|]. intros _. left. right.
        rewrite <- control_spec. congruence. }
Qed.


(** ** One string

    [p0] is the text before the string, [trim] the dropped first line break,
    [R0] what follows the opening delimiter. *)
Section Str.
Context (q : quote) (p0 trim : list N).
Context (TR : trim = [] \/ (multi q /\ line_break trim)).
Definition op : list N := delims q ++ trim.

Definition L0 : litstate := mklit false (pos_at p0) (tlen p0).

(** The offsets when [k] bytes follow the text. *)
Definition off_of (k : N) : text_offset :=
  match trim with
  | [] => mkoff 0 (quote_len q) 0 (as_u8 k)
  | _ => mkoff 1 0 0 (as_u8 k)
  end.

(** The state of the string after [b] was read; [T] is its text so far. *)
Definition st_inv (b : list N) (st : strstate) (T : list N) : Prop :=
  exists ot, st = mkss ot (pos_at (p0 ++ op)) (tlen (p0 ++ op)) q /\
    match ot with None => T = b | Some t => T = t end.

(** The lexer after the string: the string stands in [w], an unterminated
    single-line string may be followed by the line break [nlp]. *)
Definition str_out (o : outputs) (w nlp text : list N) (off : text_offset) (es : list terror) : outputs :=
  mkout (o_tokens o ++ mktok (TString (N.of_nat (length (o_strings o)))) (pos_at p0)
           :: match nlp with [] => [] | _ => [mktok TNewline (pos_at (p0 ++ w))] end)
        (o_strings o ++ [mkstr q (mkref (tlen p0) w) (pos_at (p0 ++ w)) text off])
        (o_literals o) (o_errors o ++ es).
Definition final (o : outputs) (rest : list N) (lx : lexer) (P : list N -> list N -> text_offset -> Prop) : Prop :=
  exists w nlp rest' text off bp es,
    input = p0 ++ w ++ nlp ++ rest' /\ (string_shape q off w /\ text_from w text) /\ (length rest' <= length rest)%nat /\
    (nlp = [] \/ (line_break nlp /\ ~ multi q)) /\
    (multi q -> ~ starts_with (eq (delim q)) rest') /\
    lx = mklex (cur_at (p0 ++ w ++ nlp) rest' bp) L0 (str_out o w nlp text off es) /\
    Forall errok es /\ (es = [] -> nlp = [] /\ P w text off).

Lemma final_oerr o e (rest r2 : list N) lx (P P' : list N -> list N -> text_offset -> Prop) :
  Forall errok e -> (length r2 <= length rest)%nat ->
  (e = [] -> forall w t f r', input = p0 ++ w ++ r' -> P w t f -> P' w t f) ->
  final (oerr o e) r2 lx P -> final o rest lx P'.
Proof.
  intros OKe LE PP (w & nlp & r' & text & off & bp & es & A1 & (A2 & A2') & A3 & A4 & A5 & A6 & A7 & A8).
  exists w, nlp, r', text, off, bp, (e ++ es). repeat split; auto; try lia.
  - rewrite A6. unfold str_out, oerr. cbn [o_tokens o_strings o_literals o_errors]. rewrite <- !app_assoc. reflexivity.
  - apply Forall_app; auto.
  - apply app_eq_nil in H. destruct H as [-> ->]. apply A8. reflexivity.
  - apply app_eq_nil in H. destruct H as [-> ->]. apply (PP eq_refl w text off (nlp ++ r')); [assumption|]. apply A8. reflexivity.
Qed.
Lemma final_weaken o (rest r2 : list N) lx (P P' : list N -> list N -> text_offset -> Prop) :
  (length r2 <= length rest)%nat -> (forall w t f r', input = p0 ++ w ++ r' -> P w t f -> P' w t f) ->
  final o r2 lx P -> final o rest lx P'.
Proof. intros LE PP F. apply (final_oerr o [] rest r2 lx P P'); auto. rewrite oerr_nil. assumption. Qed.

Lemma pos_at_op : pos_at (p0 ++ op) =
  match trim with
  | [] => mkpos (p_line (pos_at p0)) (p_char (pos_at p0) + quote_len q)
  | _ => mkpos (p_line (pos_at p0) + 1) 0
  end.
Proof.
  unfold op.
  assert (D : no_lf (delims q)) by (unfold no_lf; destruct q; cbn; lia).
  assert (DL : tlen (delims q) = quote_len q) by (destruct q; reflexivity).
  destruct TR as [->|(M & [->| ->])].
  - rewrite app_nil_r, pos_at_no_lf, DL by assumption. reflexivity.
  - rewrite app_assoc, pos_at_lf, pos_at_no_lf by assumption. reflexivity.
  - change [13; 10] with ([13] ++ [10]). rewrite !app_assoc, pos_at_lf, <- app_assoc, pos_at_no_lf; [reflexivity|].
    apply no_lf_app. split; [assumption|]. unfold no_lf. cbn. lia.
Qed.

(** Ending the string: the text ends after [b], the literal after [b ++ s]. *)
Lemma end_string_eq cur o b s T st r :
  input = p0 ++ op ++ b ++ s ++ r -> no_lf s -> st_inv b st T ->
  pos_in_line (mklex cur L0 o) (tlen (p0 ++ op ++ b)) = Ok (pos_at (p0 ++ op ++ b)) ->
  pos_in_line (mklex cur L0 o) (tlen (p0 ++ op ++ b ++ s)) = Ok (pos_at (p0 ++ op ++ b ++ s)) ->
  end_string input (mklex cur L0 o) st (tlen (p0 ++ op ++ b)) (tlen (p0 ++ op ++ b ++ s)) =
  Ok (mklex cur L0 (str_out o (op ++ b ++ s) [] T (off_of (tlen s)) [])).
Proof.
  intros IN NL (ot & -> & HT) P1 P2. unfold end_string. cbn [lx_lit li_byte li_start lx_cur L0 ss_text ss_text_byte ss_quote ss_text_start].
  fold L0.
  rewrite (slice_eq input p0 (op ++ b ++ s) r); [|rewrite IN; assoc|reflexivity|assoc].
  cbn [bind].
  assert (TOK : forall lit, new_string_token q lit (mkspan (pos_at p0) (pos_at (p0 ++ op ++ b ++ s))) T
            (mkspan (pos_at (p0 ++ op)) (pos_at (p0 ++ op ++ b))) =
          Ok (mkstr q lit (pos_at (p0 ++ op ++ b ++ s)) T (off_of (tlen s)))).
  { intros lit. unfold new_string_token. cbn [s_start s_end].
    replace (p0 ++ op ++ b ++ s) with ((p0 ++ op ++ b) ++ s) by (rewrite <- !app_assoc; reflexivity).
    rewrite (pos_at_no_lf (p0 ++ op ++ b) s NL). cbn [p_line p_char].
    rewrite pos_at_op. unfold off_of.
    destruct TR as [->|(M & LB)].
    - cbn [p_line p_char]. rewrite !usub_ok by lia. cbn [bind].
      replace (p_line (pos_at p0) - p_line (pos_at p0)) with 0 by lia.
      rewrite N.sub_diag. change (as_u8 0 =? 0) with true. cbn [bind].
      do 2 f_equal. f_equal; try reflexivity; unfold as_u8.
      + replace (p_char (pos_at p0) + quote_len q - p_char (pos_at p0)) with (quote_len q) by lia. destruct q; reflexivity.
      + f_equal. lia.
    - assert (E : match trim with [] => mkoff 0 (quote_len q) 0 (as_u8 (tlen s)) | _ => mkoff 1 0 0 (as_u8 (tlen s)) end
                  = mkoff 1 0 0 (as_u8 (tlen s))) by (destruct LB as [->| ->]; reflexivity).
      rewrite E.
      replace (match trim with [] => _ | _ => _ end) with (mkpos (p_line (pos_at p0) + 1) 0) by (destruct LB as [->| ->]; reflexivity).
      cbn [p_line p_char]. rewrite !usub_ok by lia. cbn [bind].
      replace (p_line (pos_at p0) + 1 - p_line (pos_at p0)) with 1 by lia.
      rewrite N.sub_diag. change (as_u8 0 =? 0) with true. change (as_u8 1 =? 0) with false. cbn [bind].
      rewrite usub_ok by lia. cbn [bind].
      replace (p_char (pos_at (p0 ++ op ++ b)) + tlen s - p_char (pos_at (p0 ++ op ++ b))) with (tlen s) by lia. reflexivity. }
  assert (G : forall U, U = T -> (let? le := pos_in_line (mklex cur L0 o) (tlen (p0 ++ op ++ b ++ s)) in
    let? te := pos_in_line (mklex cur L0 o) (tlen (p0 ++ op ++ b)) in
    let? tok := new_string_token q (mkref (tlen p0) (op ++ b ++ s)) (mkspan (pos_at p0) le) U (mkspan (pos_at (p0 ++ op)) te) in
    let (id, lx) := store_string (mklex cur L0 o) tok in
    let lx := push_token lx (mktok (TString id) (pos_at p0)) in
    Ok (set_lit lx (mklit false (li_start (lx_lit lx)) (li_byte (lx_lit lx))))) =
    Ok (mklex cur L0 (str_out o (op ++ b ++ s) [] T (off_of (tlen s)) [])) :> run lexer).
  { intros U ->. rewrite P2. cbn [bind]. rewrite P1. cbn [bind]. rewrite TOK. cbn [bind].
    unfold store_string, push_token, set_out, set_lit, str_out.
    cbn [lx_cur lx_lit lx_out o_tokens o_strings o_literals o_errors s_start li_start li_byte].
    rewrite app_nil_r. reflexivity. }
  destruct ot as [t|]; subst T.
  - apply G. reflexivity.
  - rewrite (slice_eq input (p0 ++ op) b (s ++ r)); [|rewrite IN; assoc|reflexivity|assoc].
    apply G. reflexivity.
Qed.

End Str.
End Input.
