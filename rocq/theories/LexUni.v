(** Escape sequences. *)
From Verif Require Import Base BaseProofs CommonModel TomlError LitModel LexModel LexSpec LexBase LexStr LexQuote LexEsc.

Lemma hex_value_spec c v : hex_value c = Some v -> hex_digit_of c v.
Proof.
  unfold hex_value. destruct ((48 <=? c) && (c <=? 57)) eqn:E1; [|destruct ((97 <=? c) && (c <=? 102)) eqn:E2;
    [|destruct ((65 <=? c) && (c <=? 70)) eqn:E3; [|discriminate]]]; intros [= <-].
  - replace c with (48 + (c - 48)) at 1 by lia. constructor. lia.
  - replace c with (87 + (c - 97 + 10)) at 1 by lia. apply HX_lower. lia.
  - replace c with (55 + (c - 65 + 10)) at 1 by lia. apply HX_upper. lia.
Qed.
Lemma hex_value_complete c v : hex_digit_of c v -> hex_value c = Some v.
Proof.
  intros [d H|d H|d H]; unfold hex_value.
  - replace (_ && _) with true by lia. f_equal. lia.
  - replace ((48 <=? 87 + d) && _) with false by lia. replace (_ && _) with true by lia. f_equal. lia.
  - replace ((48 <=? 55 + d) && _) with false by lia. replace ((97 <=? 55 + d) && _) with false by lia.
    replace (_ && _) with true by lia. f_equal. lia.
Qed.
Lemma hex_text_cons ds v c x : hex_text ds v -> hex_digit_of c x ->
  hex_text (c :: ds) (x * 16 ^ N.of_nat (length ds) + v).
Proof.
  induction 1 as [|ds v c' x' H IH Hc']; intros Hc.
  - cbn [length]. change (16 ^ N.of_nat 0) with 1. replace (x * 1 + 0) with (16 * 0 + x) by lia.
    apply (HT_snoc [] 0 c x); [constructor|assumption].
  - specialize (IH Hc). rewrite app_length. cbn [length]. rewrite Nat.add_1_r, Nat2N.inj_succ, N.pow_succ_r'.
    replace (x * (16 * 16 ^ N.of_nat (length ds)) + (16 * v + x')) with (16 * (x * 16 ^ N.of_nat (length ds) + v) + x') by lia.
    apply (HT_snoc (c :: ds) _ c' x'); assumption.
Qed.
Lemma hex_text_uncons c ds v : hex_text (c :: ds) v ->
  exists x w, hex_digit_of c x /\ hex_text ds w /\ v = x * 16 ^ N.of_nat (length ds) + w.
Proof.
  revert v. induction ds as [|c' ds IH] using rev_ind; intros v H.
  - inversion H as [|ds v0 c0 d0 H1 H2 E1 E2]. destruct ds as [|z ds]; [|destruct ds; discriminate].
    cbn in E1. injection E1 as ->. inversion H1 as [|? ? ? ? ? ? E]; [|destruct ds; discriminate].
    exists d0, 0. split; [assumption|]. split; [constructor|]. cbn [length]. change (16 ^ N.of_nat 0) with 1. lia.
  - inversion H as [|ds0 v0 c0 d0 H1 H2 E1 E2].
    change (c :: ds ++ [c']) with ((c :: ds) ++ [c']) in E1. apply app_inj_tail in E1. destruct E1 as [-> ->].
    destruct (IH _ H1) as (x & w & A & B & ->). exists x, (16 * w + d0). split; [assumption|]. split; [constructor; assumption|].
    rewrite app_length. cbn [length]. rewrite Nat.add_1_r, Nat2N.inj_succ, N.pow_succ_r'. lia.
Qed.
Lemma shift_pow v n : N.shiftl v (n * 4) = v * 16 ^ n.
Proof. rewrite N.shiftl_mul_pow2. rewrite N.mul_comm with (n := n), N.pow_mul_r. reflexivity. Qed.
Lemma hex_digit_not c v : hex_digit_of c v -> c <> 10 /\ c <> 13 /\ c < 128.
Proof. intros [d H|d H|d H]; lia. Qed.
Lemma hex_text_not ds v : hex_text ds v -> Forall (fun c => c <> 10 /\ c <> 13) ds.
Proof.
  induction 1 as [|ds v c d H IH Hd]; [constructor|]. apply Forall_app. split; [assumption|].
  constructor; [|constructor]. apply hex_digit_not in Hd. tauto.
Qed.

Section Input.
Context (input : list N).
Section Str.
Context (q : quote) (p0 trim : list N).
Context (TR : trim = [] \/ (multi q /\ line_break trim)).
Local Notation op := (op q trim).
Local Notation L0 := (L0 p0).
Local Notation st_inv := (st_inv q p0 trim).
Local Notation final := (final input q p0).
Local Notation d := (delim q).

Definition sst (T : list N) : strstate := mkss (Some T) (pos_at (p0 ++ op)) (tlen (p0 ++ op)) q.
Lemma sst_inv b T : st_inv b (sst T) T.
Proof. exists (Some T). split; reflexivity. Qed.
Lemma sst_of_inv b st T : st_inv b st T -> ss_text st <> None -> st = sst T.
Proof. intros (ot & -> & H) N. cbn in N. destruct ot; [subst; reflexivity|congruence]. Qed.

Definition esc_out (b rest : list N) (o : outputs) (r : run (flow * lexer * strstate))
    (Good : list N -> list N -> list N -> Prop) (Fin : Prop) : Prop :=
  (exists s rest1 bp T1 es, rest = s ++ rest1 /\ ((~ multi q -> no_lf s) /\ text_from (b ++ s) T1) /\
     r = Ok (FContinue, mklex (cur_at (p0 ++ op ++ b ++ s) rest1 bp) L0 (oerr o es), sst T1) /\
     Forall (errok input) es /\ (es = [] -> Good s rest1 T1)) \/
  (exists lx st', r = Ok (FBreak, lx, st') /\ final o rest lx (fun _ _ _ => Fin)).

Lemma esc_out_step b s0 rest0 o e0 r Good0 (Good : list N -> list N -> list N -> Prop) (Fin0 Fin : Prop) :
  Forall (errok input) e0 -> (~ multi q -> no_lf s0) -> esc_out (b ++ s0) rest0 (oerr o e0) r Good0 Fin0 ->
  (e0 = [] -> forall s r1 T1, rest0 = s ++ r1 -> Good0 s r1 T1 -> Good (s0 ++ s) r1 T1) ->
  (e0 = [] -> Fin0 -> Fin) ->
  esc_out b (s0 ++ rest0) o r Good Fin.
Proof.
  intros OK0 N0 [(s & r1 & bp & T1 & es & E & NS & R & OKe & G)|(lx & st' & R & F)] GG FF.
  - left. exists (s0 ++ s), r1, bp, T1, (e0 ++ es). split; [rewrite E; assoc|].
    split; [destruct NS as [NS TF]; split; [intros M; apply no_lf_app; auto|rewrite app_assoc; exact TF]|].
    split; [|split].
    + rewrite R, oerr_oerr. do 3 f_equal. f_equal. f_equal. assoc.
    + apply Forall_app; auto.
    + intros H. apply app_eq_nil in H. destruct H as [-> ->]. auto.
  - right. exists lx, st'. split; [assumption|].
    apply (final_oerr input q p0 o e0 (s0 ++ rest0) rest0 lx (fun _ _ _ => Fin0)); auto.
    rewrite app_length. lia.
Qed.

Lemma esc_continue b s rest1 bp T1 es o (Good : list N -> list N -> list N -> Prop) Fin pre :
  pre = p0 ++ op ++ b ++ s -> (~ multi q -> no_lf s) -> text_from (b ++ s) T1 ->
  Forall (errok input) es -> (es = [] -> Good s rest1 T1) ->
  esc_out b (s ++ rest1) o (Ok (FContinue, mklex (cur_at pre rest1 bp) L0 (oerr o es), sst T1)) Good Fin.
Proof. intros -> H0 HT H1 H2. left. exists s, rest1, bp, T1, es. auto 6. Qed.

Lemma esc_continue_nil b s rest1 bp T1 o (Good : list N -> list N -> list N -> Prop) Fin pre :
  pre = p0 ++ op ++ b ++ s -> (~ multi q -> no_lf s) -> text_from (b ++ s) T1 -> Good s rest1 T1 ->
  esc_out b (s ++ rest1) o (Ok (FContinue, mklex (cur_at pre rest1 bp) L0 o, sst T1)) Good Fin.
Proof. intros -> H0 HT H. left. exists s, rest1, bp, T1, []. rewrite oerr_nil. auto 6. Qed.

(** A closing quote inside an escape sequence. *)
Lemma closing_esc b rest o T :
  input = p0 ++ op ++ b ++ d :: rest -> (~ multi q -> no_lf b) -> text_from b T ->
  esc_out b (d :: rest) o
    (string_closing_quote input (mklex (cur_at ((p0 ++ op ++ b) ++ [d]) rest (tlen (p0 ++ op ++ b))) L0 o) (sst T))
    (fun _ _ _ => True) True.
Proof.
  intros IN NB TF. destruct (lead d rest) as (m & r1 & Em & ND).
  replace (mklex (cur_at ((p0 ++ op ++ b) ++ [d]) rest (tlen (p0 ++ op ++ b))) L0 o) with (qs d (p0 ++ op ++ b) 0 rest L0 o)
    by (unfold qs; cbn [repeat]; rewrite app_nil_r; reflexivity).
  destruct (op_delims q trim) as (t & Et).
  destruct (multi_dec q) as [M|M].
  - destruct (Nat.le_gt_cases m 1) as [Hm|Hm].
    + destruct (closing_continue input q p0 trim b m r1 o (sst T) T M Hm ND (sst_inv b T)) as (st' & SI & SS & R).
      rewrite Em, R. left. exists (repeat d (S m)), r1, (tlen ((p0 ++ op ++ b) ++ repeat d m)), (T ++ repeat d (S m)), [].
      rewrite oerr_nil. split; [assoc|]. split; [split; [tauto|]|].
      { apply text_from_app; [apply (text_from_incl _ _ _ TF), incl_appl, incl_refl|apply text_from_repeat, delim_scalar]. }
      split; [|split; [constructor|auto]].
      unfold qs. rewrite (sst_of_inv _ _ _ SI). 
      * do 3 f_equal. f_equal. f_equal. assoc.
      * apply SS. cbn. congruence.
    + destruct (closing_multi input q p0 trim TR b m r1 o (sst T) T M Hm ND) as (st' & x & es & EX & _ & OKe & R).
      * rewrite IN, Em. assoc.
      * apply sst_inv.
      * rewrite Em, R. right. eexists _, st'. split; [reflexivity|].
        exists (op ++ b ++ repeat d (S m)), [], r1, (T ++ repeat d x), (off_of q trim (N.of_nat (S m - x))),
          (tlen ((p0 ++ op ++ b) ++ repeat d m)), es.
        split; [rewrite IN, Em; assoc|]. split; [apply (lit_shape_multi q trim TR b m x T M EX); [lia|exact TF]|].
        split; [cbn [length]; rewrite app_length; lia|]. split; [auto|]. split; [auto|]. split; [|split; [assumption|auto]].
        unfold qs. do 2 f_equal. rewrite app_nil_r. assoc.
  - rewrite (closing_single input q p0 trim TR b rest o (sst T) T M IN (sst_inv b T)).
    right. eexists _, _. split; [reflexivity|].
    exists (op ++ b ++ delims q), [], rest, T, (off_of q trim (quote_len q)), (tlen (p0 ++ op ++ b)), [].
    pose proof (lit_shape_single q trim TR b T M (NB M) TF) as LS. rewrite (delims_single q M) in *.
    split; [rewrite IN; assoc|]. split; [exact LS|].
    split; [cbn [length]; lia|]. split; [auto|]. split; [tauto|]. split; [|split; [constructor|auto]].
    unfold qs. cbn [repeat]. do 2 f_equal; [assoc|]. rewrite app_nil_r. reflexivity.
Qed.

(** [\uXXXX] and [\UXXXXXXXX] *)
Lemma escape_unicode_sound : forall rem n E x cp b rest bp o T,
  escapes q -> (1 <= rem)%nat -> input = p0 ++ op ++ b ++ rest ->
  (exists m ds V, unicode_start m ds x /\ (length ds + rem = m)%nat /\ n = N.of_nat m /\ loose_hex ds V /\ cp = V * 16 ^ N.of_nat rem) -> p0 ++ op ++ b = E ++ x -> (~ multi q -> no_lf b) -> text_from b T ->
  esc_out b rest o
    (escape_unicode input n (pos_at E) rem cp (mklex (cur_at (p0 ++ op ++ b) rest bp) L0 o) (sst T))
    (fun s _ T1 => exists V, length s = rem /\ hex_text s V /\ is_scalar (cp + V) = true /\ T1 = T ++ [cp + V])
    False.
Proof.
  induction rem as [|rem IH]; intros n E x cp b rest bp o T ES Hr IN SX EX NB TF; [lia|].
  cbn [escape_unicode].
  destruct SX as (m & ds & V0 & UX & LX & NX & HX & CX).
  assert (SX : x = [92] \/ exists n ds, unicode_start n ds x /\ (length ds < n)%nat) by (right; exists m, ds; split; [exact UX|lia]).
  assert (UX' : forall c, unicode_start m (ds ++ [c]) (x ++ [c])) by (intros c; destruct UX; constructor).
  assert (INE : input = E ++ x ++ rest) by (rewrite app_assoc, <- EX, IN; assoc).
  destruct rest as [|c rest].
  { rewrite lnext_end, lpos_end. cbn [bind]. rewrite lex_error_eq.
    apply (esc_continue b [] []); [rewrite app_nil_r; reflexivity|auto|rewrite app_nil_r; exact TF| |discriminate].
    constructor; [|constructor]. apply (errok_span input _ E x []); [exact INE|cbn [err_span]; rewrite <- EX; reflexivity|split; [exact SX|left; reflexivity]]. }
  assert (IN' : input = p0 ++ op ++ (b ++ [c]) ++ rest) by (rewrite IN; assoc).
  assert (CONT : c <> 10 -> forall cp' e T', text_from (b ++ [c]) T' -> Forall (errok input) e ->
    (exists V, loose_hex (ds ++ [c]) V /\ cp' = V * 16 ^ N.of_nat rem) ->
    (e = [] -> T' = T /\ exists v, hex_digit_of c v /\ cp' = cp + v * 16 ^ N.of_nat rem) ->
    esc_out b (c :: rest) o
     (match rem with
      | O =>
          if is_scalar cp' then Ok (FContinue, mklex (cur_at ((p0 ++ op ++ b) ++ [c]) rest (tlen (p0 ++ op ++ b))) L0 (oerr o e), push_char (sst T') cp')
          else
            let? p := lpos (mklex (cur_at ((p0 ++ op ++ b) ++ [c]) rest (tlen (p0 ++ op ++ b))) L0 (oerr o e)) in
            Ok (FContinue,
                lex_error (mklex (cur_at ((p0 ++ op ++ b) ++ [c]) rest (tlen (p0 ++ op ++ b))) L0 (oerr o e))
                  (EInvalidUnicodeCodepoint n cp' (mkspan (pos_at E) (pos_after p c))), sst T')
      | _ => escape_unicode input n (pos_at E) rem cp' (mklex (cur_at ((p0 ++ op ++ b) ++ [c]) rest (tlen (p0 ++ op ++ b))) L0 (oerr o e)) (sst T')
      end)
     (fun s _ T1 => exists V, length s = S rem /\ hex_text s V /\ is_scalar (cp + V) = true /\ T1 = T ++ [cp + V])
    False).
  { intros NL cp' e T' TF' OKe (V' & HX' & CX') HE. destruct rem as [|rem].
    - destruct (is_scalar cp') eqn:SC.
      + apply (esc_continue b [c] rest _ (T' ++ [cp'])); [assoc|auto|apply text_from_app; [exact TF'|apply text_from_scalar; exact SC]|assumption|].
        intros ->. destruct (HE eq_refl) as (-> & v & Hv & ->). change (16 ^ N.of_nat 0) with 1 in *. rewrite N.mul_1_r in *.
        exists v. split; [reflexivity|]. split; [|auto]. replace v with (16 * 0 + v) by lia. apply (HT_snoc [] 0); [constructor|assumption].
      + rewrite lpos_char by assumption. cbn [bind]. rewrite lex_error_eq, oerr_oerr.
        apply (esc_continue b [c] rest); [assoc|auto|exact TF'| |].
        * apply Forall_app. split; [assumption|]. constructor; [|constructor].
          apply (errok_span input _ E (x ++ [c]) rest); [rewrite INE; assoc| |exists (ds ++ [c]); rewrite app_length; cbn [length]; rewrite LX, CX', N.mul_1_r in *; split; [exact NX|]; split; [apply UX'|]; split; [exact HX'|exact SC]].
          cbn [err_span]. f_equal. rewrite (app_assoc E), <- EX. unfold pos_after.
          rewrite (pos_at_no_lf _ [c]), tlen_one by auto. reflexivity.
        * intros H. apply app_eq_nil in H. destruct H; discriminate.
    - change (c :: rest) with ([c] ++ rest).
      apply (esc_out_step b [c] rest o e _ (fun s _ T1 => exists V, length s = S rem /\ hex_text s V /\ is_scalar (cp' + V) = true /\ T1 = T' ++ [cp' + V]) _ False False).
      + assumption.
      + auto.
      + replace ((p0 ++ op ++ b) ++ [c]) with (p0 ++ op ++ b ++ [c]) by assoc.
        apply (IH n E (x ++ [c])); [assumption|lia|assumption|exists m, (ds ++ [c]), V'; rewrite app_length; cbn [length]; split; [apply UX'|]; split; [lia|auto]|rewrite (app_assoc E), <- EX; assoc|intros M; apply no_lf_app; auto|exact TF'].
      + intros -> s r1 T1 _ (V & L & H & SC & ET). destruct (HE eq_refl) as (-> & v & Hv & ->).
        exists (v * 16 ^ N.of_nat (S rem) + V). rewrite <- L. split; [reflexivity|].
        split; [apply hex_text_cons; assumption|]. rewrite L. rewrite N.add_assoc. auto.
      + auto. }
  destruct (N.eq_dec c 10) as [->|NL].
  - rewrite lnext_lf. change (hex_value 10) with (@None N). rewrite lpos_lf. cbn [bind].
    change (10 =? 32) with false. change (10 =? 10) with true. cbv iota.
    assert (OKu : Forall (errok input) [EUnfinishedEscapeSequence (mkspan (pos_at E) (pos_at (p0 ++ op ++ b)))]).
    { constructor; [|constructor]. apply (errok_span input _ E x (10 :: rest)); [exact INE| |split; [exact SX|right; apply starts_with_cons; unfold is_ws; auto]].
      cbn [err_span]. rewrite EX. reflexivity. }
    rewrite lex_error_eq. cbn [sst ss_quote].
    destruct (is_multiline q) eqn:M; cbn [negb].
    + rewrite newline_lf. apply (esc_continue b [10] rest _ (T ++ [10])); [assoc|apply is_multiline_spec in M; tauto|apply text_from_app; [apply (text_from_incl _ _ _ TF), incl_appl, incl_refl|apply text_from_scalar; reflexivity]|assumption|discriminate].
    + apply is_multiline_false in M. fold (sst T).
      destruct (recover_newline_final input q p0 trim TR b rest (10 :: rest)
        (oerr o [EUnfinishedEscapeSequence (mkspan (pos_at E) (pos_at (p0 ++ op ++ b)))]) (sst T) T (fun _ _ _ => False) M IN (sst_inv b T) TF (NB M)) as (lx & R & F);
        [cbn; lia|].
      rewrite R. right. exists lx, (sst T). split; [reflexivity|].
      eapply final_oerr; [exact OKu| | |exact F]; [lia|auto].
  - rewrite lnext_char by assumption.
    destruct (hex_value c) as [v|] eqn:HV.
    + specialize (CONT NL (cp + N.shiftl v (N.of_nat rem * 4)) [] T). rewrite oerr_nil in CONT.
      apply CONT; [apply (text_from_incl _ _ _ TF), incl_appl, incl_refl|constructor| |].
      { exists (16 * V0 + v). split; [apply LH_digit; [exact HX|apply hex_value_spec; exact HV]|]. rewrite shift_pow, CX, Nat2N.inj_succ, N.pow_succ_r'. ring. }
      intros _. split; [reflexivity|]. exists v. rewrite shift_pow. split; [apply hex_value_spec; assumption|reflexivity].
    + rewrite lpos_char by assumption. cbn [bind]. rewrite !lex_error_eq.
      assert (NH : forall d, ~ hex_digit_of c d) by (intros d0 X; apply hex_value_complete in X; congruence).
      assert (LO : exists V, loose_hex (ds ++ [c]) V /\ cp = V * 16 ^ N.of_nat rem).
      { exists (16 * V0). split; [apply LH_other; assumption|]. rewrite CX, Nat2N.inj_succ, N.pow_succ_r'. ring. }
      assert (OKu : is_ws c \/ c = 34 -> Forall (errok input) [EUnfinishedEscapeSequence (mkspan (pos_at E) (pos_at (p0 ++ op ++ b)))]).
      { intros WC. constructor; [|constructor]. apply (errok_span input _ E x (c :: rest)); [exact INE| |split; [exact SX|right; apply starts_with_cons; exact WC]].
        cbn [err_span]. rewrite EX. reflexivity. }
      destruct (N.eqb_spec c 32) as [->|N32].
      { apply (CONT NL cp _ (T ++ [32])); [apply text_from_app; [apply (text_from_incl _ _ _ TF), incl_appl, incl_refl|apply text_from_scalar; reflexivity]|apply OKu; unfold is_ws; auto|exact LO|discriminate]. }
      replace (c =? 10) with false by lia.
      destruct (N.eqb_spec c 34) as [->|N34].
      { assert (D : d = 34) by (destruct ES as [->| ->]; reflexivity).
        pose proof (closing_esc b rest (oerr o [EUnfinishedEscapeSequence (mkspan (pos_at E) (pos_at (p0 ++ op ++ b)))]) T) as CL.
        rewrite D in CL. specialize (CL IN NB TF).
        apply (esc_out_step b [] (34 :: rest) o [EUnfinishedEscapeSequence (mkspan (pos_at E) (pos_at (p0 ++ op ++ b)))] _ (fun _ _ _ => True) _ True);
          [apply OKu; auto|auto| |discriminate|discriminate].
        rewrite app_nil_r. exact CL. }
      apply (CONT NL cp _ T); [apply (text_from_incl _ _ _ TF), incl_appl, incl_refl| |exact LO|discriminate]. constructor; [|constructor].
      apply (errok_span input _ (E ++ x) [] (c :: rest)); [rewrite INE; assoc|rewrite app_nil_r, <- EX; reflexivity|].
      split; [reflexivity|]. split; [apply starts_with_cons; reflexivity|]. split; [exact NH|]. exists E, m, ds, x. split; [reflexivity|]. split; [exact UX|lia].
Qed.

End Str.
End Input.
