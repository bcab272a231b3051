(** Completeness, part 1: a valid string is read without an error. *)
From Verif Require Import Base BaseProofs CommonModel TomlError LitModel LexModel LexSpec LexBase LexStr LexQuote LexEsc LexUni LexLoop LexSound.

(** ** Taking a string body apart *)
Definition stops (q : quote) (s : list N) : Prop :=
  s = [] \/ (escapes q /\ starts_with (eq 92) s) \/ (multi q /\ starts_with (eq 10) s) \/
  (multi q /\ exists r, s = 13 :: 10 :: r) \/ (multi q /\ starts_with (eq (delim q)) s).

Lemma body_split q n s t : body q n s t ->
  exists chunk s' t' m, s = chunk ++ s' /\ t = chunk ++ t' /\ Forall (ordinary q) chunk /\ stops q s' /\ body q m s' t'.
Proof.
  induction 1 as [n|n c s t P D E B IH|n e v s t ES EL B IH|n u ds v s t ES U H SC B IH|n w s t Q F NS B IH|n s t M B IH|n s t M B IH|n s t M L B IH].
  - exists [], [], [], n. repeat split; auto; [left; reflexivity|constructor].
  - destruct IH as (ch & s' & t' & m & -> & -> & O & ST & B'). exists (c :: ch), s', t', m.
    repeat split; auto. constructor; [split; [assumption|split; assumption]|assumption].
  - exists [], (92 :: e :: s), (v :: t), n. repeat split; auto.
    + right. left. split; [assumption|]. apply starts_with_cons. reflexivity.
    + apply body_escape; assumption.
  - exists [], (92 :: u :: ds ++ s), (v :: t), n. repeat split; auto.
    + right. left. split; [assumption|]. apply starts_with_cons. reflexivity.
    + eapply body_unicode; eassumption.
  - exists [], (92 :: w ++ s), t, n. repeat split; auto.
    + right. left. split; [subst; right; reflexivity|apply starts_with_cons; reflexivity].
    + apply body_fold; assumption.
  - exists [], (10 :: s), (10 :: t), n. repeat split; auto.
    + right. right. left. split; [assumption|]. apply starts_with_cons. reflexivity.
    + apply body_lf; assumption.
  - exists [], (13 :: 10 :: s), (10 :: t), n. repeat split; auto.
    + right. right. right. left. split; [assumption|]. exists s. reflexivity.
    + apply body_crlf; assumption.
  - exists [], (delim q :: s), (delim q :: t), n. repeat split; auto.
    + right. right. right. right. split; [assumption|]. apply starts_with_cons. reflexivity.
    + apply body_delim; assumption.
Qed.

(** A run of quotes in a body. *)
Lemma body_quotes q n s t : body q n s t -> multi q ->
  exists k s3 t3, s = repeat (delim q) k ++ s3 /\ t = repeat (delim q) k ++ t3 /\ ~ starts_with (eq (delim q)) s3 /\
    (k = 0 \/ n + k <= 2)%nat /\ body q 0 s3 t3.
Proof.
  intros B M. induction B as [n|n c s t P D E B IH|n e v s t ES EL B IH|n u ds v s t ES U H SC B IH|n w s t Q F NS B IH|n s t _ B IH|n s t _ B IH|n s t _ L B IH];
    pose proof (delim_not q) as (D1 & D2 & D3 & _).
  8:{ destruct IH as (k & s3 & t3 & -> & -> & ND & K & B3). exists (S k), s3, t3. repeat split; auto. lia. }
  all: eexists 0%nat, _, _; cbn [repeat app]; split; [reflexivity|]; split; [reflexivity|]; split; [|split; [auto|]].
  all: try (rewrite starts_with_cons; congruence).
  - apply starts_with_nil.
  - constructor.
  - apply body_char; assumption.
  - apply body_escape; assumption.
  - eapply body_unicode; eassumption.
  - apply body_fold; assumption.
  - apply body_lf; assumption.
  - apply body_crlf; assumption.
Qed.

Lemma ordinary_not q c : ordinary q c -> c <> 10 /\ c <> 13 /\ c <> delim q /\ (escapes q -> c <> 92) /\
  (c =? 9 = true \/ is_control_char c = false).
Proof.
  intros (P & D & E). unfold plain in P. repeat split; auto; try lia.
  destruct P as [->|P]; [left; reflexivity|right]. unfold is_control_char. lia.
Qed.

Lemma string_scan_chunk q chunk : forall fuel pre rest bp l o,
  Forall (ordinary q) chunk -> (length chunk <= fuel)%nat ->
  exists bp', string_scan fuel q (mklex (cur_at pre (chunk ++ rest) bp) l o) =
    string_scan (fuel - length chunk) q (mklex (cur_at (pre ++ chunk) rest bp') l o).
Proof.
  induction chunk as [|c chunk IH]; intros fuel pre rest bp l o O F.
  - exists bp. cbn [app length]. rewrite app_nil_r, Nat.sub_0_r. reflexivity.
  - inversion O as [|? ? O1 O2]; subst. cbn [length] in F. destruct fuel as [|fuel]; [lia|].
    destruct (ordinary_not q c O1) as (N1 & N2 & N3 & N4 & N5).
    destruct (IH fuel (pre ++ [c]) rest (tlen pre) l o O2) as (bp' & R); [lia|].
    exists bp'. cbn [string_scan app length Nat.sub]. rewrite lnext_char by assumption.
    change quote_char with delim. replace (c =? delim q) with false by lia. replace (c =? 10) with false by lia.
    assert (E : (c =? 92) && is_basic q = false).
    { destruct (is_basic q) eqn:EB; [|apply andb_false_r]. apply is_basic_spec in EB. specialize (N4 EB). lia. }
    rewrite E. replace (c =? 13) with false by lia. cbn [andb].
    replace (pre ++ c :: chunk) with ((pre ++ [c]) ++ chunk) by assoc. rewrite <- R.
    destruct (c =? 9); [reflexivity|]. destruct N5 as [N5|N5]; [discriminate|]. rewrite N5. reflexivity.
Qed.
Lemma string_scan_stop q chunk fuel pre rest bp l o x :
  Forall (ordinary q) chunk -> (length chunk < fuel)%nat -> (x = delim q \/ (escapes q /\ x = 92)) ->
  string_scan fuel q (mklex (cur_at pre (chunk ++ x :: rest) bp) l o) =
  Ok (Some x, mklex (cur_at ((pre ++ chunk) ++ [x]) rest (tlen (pre ++ chunk))) l o).
Proof.
  intros O F X. destruct (string_scan_chunk q chunk fuel pre (x :: rest) bp l o O) as (bp' & ->); [lia|].
  destruct (fuel - length chunk)%nat as [|f] eqn:EF; [lia|]. cbn [string_scan].
  pose proof (delim_not q) as (D1 & D2 & D3 & _).
  rewrite lnext_char by (destruct X as [->|(_ & ->)]; [assumption|lia]). change quote_char with delim.
  destruct X as [->|(ES & ->)].
  - rewrite N.eqb_refl. reflexivity.
  - replace (92 =? delim q) with false by lia. change (92 =? 10) with false. cbv iota.
    rewrite (proj2 (is_basic_spec q) ES). reflexivity.
Qed.
Lemma string_scan_lf q chunk fuel pre rest bp l o :
  Forall (ordinary q) chunk -> (length chunk < fuel)%nat ->
  string_scan fuel q (mklex (cur_at pre (chunk ++ 10 :: rest) bp) l o) =
  Ok (Some 10, mklex (cur_lf (pre ++ chunk) rest) l o).
Proof.
  intros O F. destruct (string_scan_chunk q chunk fuel pre (10 :: rest) bp l o O) as (bp' & ->); [lia|].
  destruct (fuel - length chunk)%nat as [|f] eqn:EF; [lia|]. cbn [string_scan].
  pose proof (delim_not q) as (D1 & D2 & D3 & _).
  rewrite lnext_lf. change quote_char with delim. replace (10 =? delim q) with false by lia. reflexivity.
Qed.
Lemma string_scan_crlf q chunk fuel pre rest bp l o :
  multi q -> Forall (ordinary q) chunk -> (length chunk + 1 < fuel)%nat ->
  string_scan fuel q (mklex (cur_at pre (chunk ++ 13 :: 10 :: rest) bp) l o) =
  Ok (Some 10, mklex (cur_lf ((pre ++ chunk) ++ [13]) rest) l o).
Proof.
  intros M O F. destruct (string_scan_chunk q chunk fuel pre (13 :: 10 :: rest) bp l o O) as (bp' & ->); [lia|].
  destruct (fuel - length chunk)%nat as [|[|f]] eqn:EF; [lia|lia|]. cbn [string_scan].
  pose proof (delim_not q) as (D1 & D2 & D3 & _).
  rewrite lnext_char by lia. change quote_char with delim. replace (13 =? delim q) with false by lia.
  change (13 =? 10) with false. change (13 =? 92) with false. change (13 =? 9) with false. cbn [andb]. cbv iota.
  rewrite (proj2 (is_multiline_spec q) M). rewrite peeks_cons. change (13 =? 13) with true. change (10 =? 10) with true. cbn [andb].
  rewrite lnext_lf. replace (10 =? delim q) with false by lia. reflexivity.
Qed.

Lemma eat_escape_ws_all w : forall fuel hn pre rest bp l o,
  Forall is_ws w -> ~ starts_with is_ws rest -> (length w < fuel)%nat ->
  exists bp', eat_escape_ws fuel hn (mklex (cur_at pre (w ++ rest) bp) l o) =
    Ok (hn || existsb (N.eqb 10) w, mklex (cur_at (pre ++ w) rest bp') l o).
Proof.
  induction w as [|c w IH]; intros fuel hn pre rest bp l o W NS F; (destruct fuel as [|fuel]; [cbn in F; lia|]); cbn [eat_escape_ws].
  - exists bp. unfold lpeek. cbn [lx_cur cur_at cu_rest app existsb]. rewrite app_nil_r, orb_false_r.
    destruct rest as [|c r]; [reflexivity|]. cbn [hd_error]. fold (cur_at pre (c :: r) bp).
    rewrite starts_with_cons in NS. unfold is_ws in NS.
    replace ((c =? 32) || (c =? 9) || (c =? 13)) with false by lia. replace (c =? 10) with false by lia. reflexivity.
  - inversion W as [|? ? W1 W2]; subst. cbn [length] in F. unfold lpeek. cbn [lx_cur cur_at cu_rest app hd_error].
    fold (cur_at pre (c :: w ++ rest) bp). unfold is_ws in W1.
    destruct (N.eq_dec c 10) as [->|N10].
    + change ((10 =? 32) || (10 =? 9) || (10 =? 13)) with false. change (10 =? 10) with true. cbv iota.
      unfold lskip. rewrite lnext_lf. cbn [snd]. rewrite newline_lf.
      destruct (IH fuel true (pre ++ [10]) rest (tlen pre + 1) l o W2 NS) as (bp' & R); [lia|].
      exists bp'. rewrite R. cbn [existsb]. change (10 =? 10) with true. cbn [orb]. rewrite orb_true_r.
      replace ((pre ++ [10]) ++ w) with (pre ++ 10 :: w) by assoc. reflexivity.
    + replace ((c =? 32) || (c =? 9) || (c =? 13)) with true by lia.
      unfold lskip. rewrite lnext_char by assumption. cbn [snd].
      destruct (IH fuel hn (pre ++ [c]) rest (tlen pre) l o W2 NS) as (bp' & R); [lia|].
      exists bp'. rewrite R. cbn [existsb]. replace (10 =? c) with false by lia. cbn [orb].
      replace ((pre ++ [c]) ++ w) with (pre ++ c :: w) by assoc. reflexivity.
Qed.

Lemma body_nil_inv q m t : body q m [] t -> t = [].
Proof. intros B. inversion B. reflexivity. Qed.
Lemma body_lf_inv q m s t : body q m (10 :: s) t -> exists t2, t = 10 :: t2 /\ body q 0 s t2.
Proof.
  intros B. inversion B as [|? ? ? ? P ? ? ?| | | |? s2 t2 _ B2| |]; subst; [exfalso; unfold plain in P; lia| |].
  - eauto.
  - destruct (delim_not q) as (D & _). congruence.
Qed.
Lemma body_crlf_inv q m s t : body q m (13 :: 10 :: s) t -> exists t2, t = 10 :: t2 /\ body q 0 s t2.
Proof.
  intros B. inversion B as [|? ? ? ? P ? ? ?| | | | |? s2 t2 _ B2|]; subst; [exfalso; unfold plain in P; lia| |].
  - eauto.
  - destruct (delim_not q) as (_ & D & _). congruence.
Qed.

Section Input.
Context (input : list N).

Lemma escape_unicode_complete ds : forall n E cp V pre rest bp l o st,
  ds <> [] -> hex_text ds V -> is_scalar (cp + V) = true ->
  exists bp', escape_unicode input n E (length ds) cp (mklex (cur_at pre (ds ++ rest) bp) l o) st =
    Ok (FContinue, mklex (cur_at (pre ++ ds) rest bp') l o, push_char st (cp + V)).
Proof.
  induction ds as [|c ds IH]; intros n E cp V pre rest bp l o st NE H SC; [congruence|].
  apply hex_text_uncons in H. destruct H as (x & w & Hx & Hw & ->).
  cbn [length escape_unicode app]. pose proof (hex_digit_not _ _ Hx) as (N10 & _).
  rewrite lnext_char by assumption. rewrite (hex_value_complete _ _ Hx). rewrite shift_pow.
  destruct ds as [|c2 ds].
  - cbn [length] in *. change (16 ^ N.of_nat 0) with 1 in *. inversion Hw as [E0|? ? ? ? ? ? E0]; [|destruct ds; discriminate].
    subst w. rewrite N.add_0_r in SC. rewrite SC. exists (tlen pre). rewrite N.add_0_r. reflexivity.
  - set (k := length (c2 :: ds)) in *.
    destruct (IH n E (cp + x * 16 ^ N.of_nat k) w (pre ++ [c]) rest (tlen pre) l o st) as (bp' & R); [discriminate|assumption|rewrite <- N.add_assoc; assumption|].
    exists bp'. unfold k in *. cbn [length app] in R |- *. rewrite R, N.add_assoc.
    replace ((pre ++ [c]) ++ c2 :: ds) with (pre ++ c :: c2 :: ds) by assoc. reflexivity.
Qed.

(** What may follow a backslash, and what it stands for. *)
Inductive escape (q : quote) : list N -> list N -> list N -> Prop :=
| esc_letter e v r : escape_letter e v -> escape q [e] [v] r
| esc_unicode u ds v r : (u = 117 /\ length ds = 4%nat) \/ (u = 85 /\ length ds = 8%nat) -> hex_text ds v -> is_scalar v = true ->
    escape q (u :: ds) [v] r
| esc_fold w r : multi q -> folded w -> ~ starts_with is_ws r -> escape q w [] r.

Lemma string_escape_complete q E pre e v rest bp l o st :
  ss_quote st = q -> escape q e v rest ->
  exists bp', string_escape input E (mklex (cur_at pre (e ++ rest) bp) l o) st =
    Ok (FContinue, mklex (cur_at (pre ++ e) rest bp') l o, match v with [] => st | c :: _ => push_char st c end).
Proof.
  intros Q H. unfold string_escape. destruct H as [e v r EL|u ds v r U HT SC|w r M F NS].
  - cbn [app]. assert (N : e <> 10 /\ e <> 117 /\ e <> 85) by (unfold escape_letter in EL; cbn in EL; intuition congruence).
    destruct N as (N1 & N2 & N3). rewrite lnext_char by assumption.
    replace (e =? 117) with false by lia. replace (e =? 85) with false by lia.
    apply simple_escape_spec in EL. rewrite EL. exists (tlen pre). reflexivity.
  - cbn [app]. assert (ND : ds <> []) by (intros ->; cbn in U; lia).
    rewrite lnext_char by lia.
    destruct (escape_unicode_complete ds (N.of_nat (length ds)) E 0 v (pre ++ [u]) r (tlen pre) l o st ND HT) as (bp' & R); [assumption|].
    exists bp'. replace (pre ++ u :: ds) with ((pre ++ [u]) ++ ds) by assoc.
    destruct U as [(-> & L)|(-> & L)]; rewrite L in R; exact R.
  - destruct F as [F1 F2]. destruct w as [|c w]; [destruct F2|]. inversion F1 as [|? ? W1 W2]; subst.
    assert (EX : existsb (N.eqb 10) (c :: w) = true) by (apply existsb_lf; assumption).
    cbn [app]. apply is_multiline_spec in M. unfold is_ws in W1.
    destruct (N.eq_dec c 10) as [->|N10].
    + rewrite lnext_lf. cbn [N.eqb Pos.eqb simple_escape orb negb]. rewrite M. cbn [negb]. rewrite newline_lf.
      cbn [lx_cur cur_at cu_rest]. fold (cur_at (pre ++ [10]) (w ++ r) (tlen pre + 1)).
      destruct (eat_escape_ws_all w (S (length (w ++ r))) true (pre ++ [10]) r (tlen pre + 1) l o W2 NS) as (bp' & R);
        [rewrite app_length; lia|].
      bindrw R. cbn [orb bind negb]. exists bp'. replace ((pre ++ [10]) ++ w) with (pre ++ 10 :: w) by assoc. reflexivity.
    + rewrite lnext_char by assumption.
      replace (c =? 117) with false by lia. replace (c =? 85) with false by lia.
      assert (SE : simple_escape c = None).
      { destruct (simple_escape c) eqn:SE; [|reflexivity]. apply simple_escape_spec in SE. unfold escape_letter in SE. cbn in SE.
        exfalso. intuition congruence. }
      rewrite SE. replace ((c =? 32) || (c =? 13) || (c =? 10) || (c =? 9)) with true by lia.
      replace (c =? 10) with false by lia. rewrite M. cbn [negb]. cbn [lx_cur cur_at cu_rest].
      fold (cur_at (pre ++ [c]) (w ++ r) (tlen pre)).
      destruct (eat_escape_ws_all w (S (length (w ++ r))) false (pre ++ [c]) r (tlen pre) l o W2 NS) as (bp' & R);
        [rewrite app_length; lia|].
      bindrw R. cbn [existsb] in EX. replace (10 =? c) with false in EX by lia. cbn [orb] in EX. rewrite EX.
      cbn [orb bind negb]. exists bp'. replace ((pre ++ [c]) ++ w) with (pre ++ c :: w) by assoc. reflexivity.
Qed.

Lemma body_escape_inv q m s t : body q m (92 :: s) t -> escapes q ->
  exists e v s' t', s = e ++ s' /\ t = v ++ t' /\ body q 0 s' t' /\ e <> [] /\ (length v <= 1)%nat /\
    (ends_with 13 e -> ~ starts_with (eq 10) s') /\
    forall r, ~ starts_with is_ws r -> escape q e v (s' ++ r).
Proof.
  intros B ES. inversion B as [|? ? ? ? P D NE B'|? e v s' t' _ EL B'|? u ds v s' t' _ U H SC B'|? w s' t' Q F NS B'| | |? s' t' M L B']; subst.
  - exfalso. apply (NE ES). reflexivity.
  - exists [e], [v], s', t'. repeat split; auto; try discriminate; [|intros r _; apply esc_letter; assumption].
    intros EW. apply ends_with_one in EW. subst. unfold escape_letter in EL. cbn in EL. exfalso. intuition congruence.
  - exists (u :: ds), [v], s', t'. repeat split; auto; try discriminate; [|intros r _; apply esc_unicode; assumption].
    intros EW. exfalso. apply ends_with_In in EW. cbn [In] in EW. destruct EW as [->|EW]; [lia|].
    apply hex_text_not in H. rewrite Forall_forall in H. specialize (H _ EW). cbn in H. lia.
  - exists w, [], s', t. repeat split; auto; try discriminate.
    + destruct F as [_ F]. intros ->. destruct F.
    + intros _ (x & r & -> & <-). apply NS. apply starts_with_cons. unfold is_ws. lia.
    + intros r NR. apply esc_fold; [left; reflexivity|assumption|].
      destruct s' as [|x s']; [assumption|]. cbn [app]. rewrite starts_with_cons in *. assumption.
  - destruct (delim_not q) as (_ & _ & D & _). congruence.
Qed.


Section Str.
Context (q : quote) (p0 trim : list N).
Context (TR : trim = [] \/ (multi q /\ line_break trim)).
Local Notation op := (op q trim).
Local Notation L0 := (L0 p0).
Local Notation st_inv := (st_inv q p0 trim).
Local Notation d := (delim q).
Local Notation sst := (sst q p0 trim).

Lemma ordinary_13 chunk : Forall (ordinary q) chunk -> ~ In 13 chunk.
Proof. intros H I. rewrite Forall_forall in H. destruct (ordinary_not _ _ (H _ I)) as (_ & N & _). congruence. Qed.

Lemma st_inv_escape b st T v : st_inv b st T -> ss_text st <> None -> (length v <= 1)%nat ->
  forall b', st_inv b' match v with [] => st | c :: _ => push_char st c end (T ++ v).
Proof.
  intros SI N LV b'. rewrite (sst_of_inv _ _ _ _ _ _ SI N).
  destruct v as [|c [|z v]]; [rewrite app_nil_r; apply sst_inv| |cbn in LV; lia].
  apply (sst_inv q p0 trim b' (T ++ [c])).
Qed.

Lemma lex_string_complete : forall fuel s t b rest bp o st T,
  body q 0 s t -> (multi q -> ~ starts_with (eq d) rest) ->
  input = p0 ++ op ++ b ++ s ++ delims q ++ rest ->
  (length (s ++ delims q ++ rest) < fuel)%nat -> st_inv b st T -> (ends_with 13 b -> ~ starts_with (eq 10) s) ->
  exists bp', lex_string input fuel (mklex (cur_at (p0 ++ op ++ b) (s ++ delims q ++ rest) bp) L0 o) st =
    Ok (mklex (cur_at (p0 ++ op ++ b ++ s ++ delims q) rest bp') L0
         (str_out q p0 o (op ++ b ++ s ++ delims q) [] (T ++ t) (off_of q trim (quote_len q)) [])).
Proof.
  induction fuel as [|fuel IH]; intros s t b rest bp o st T B NR IN F SI CR; [lia|].
  destruct (delim_not q) as (D1 & D2 & D3 & D4 & D5).
  destruct (body_split q 0 s t B) as (chunk & s' & t' & m & -> & -> & O & ST & B').
  assert (CH13 : ends_with 13 (b ++ chunk) -> chunk = [] /\ ends_with 13 b).
  { intros EW. destruct chunk as [|x ch]; [rewrite app_nil_r in EW; auto|].
    exfalso. apply ends_with_app in EW; [|discriminate]. apply (ordinary_13 _ O). apply ends_with_In. assumption. }
  rewrite <- (app_assoc chunk s' (delims q ++ rest)) in *. rewrite <- (app_assoc chunk s' (delims q)).
  (* a quote at the front of [s' ++ delims q ++ rest] *)
  assert (QUOTE : stops q s' -> (s' = [] \/ multi q /\ starts_with (eq d) s') ->
    exists bp', lex_string input (S fuel) (mklex (cur_at (p0 ++ op ++ b) (chunk ++ s' ++ delims q ++ rest) bp) L0 o) st =
    Ok (mklex (cur_at (p0 ++ op ++ b ++ chunk ++ s' ++ delims q) rest bp') L0
         (str_out q p0 o (op ++ b ++ chunk ++ s' ++ delims q) [] (T ++ chunk ++ t') (off_of q trim (quote_len q)) []))).
  { intros _ HS.
    assert (X : exists r1, s' ++ delims q ++ rest = d :: r1).
    { destruct HS as [->|(M & (x & r & -> & <-))]; [|eexists; reflexivity]. cbn [app].
      destruct (multi_dec q) as [M|M]; [rewrite (delims_multi q M)|rewrite (delims_single q M)]; eexists; reflexivity. }
    destruct X as (r1 & Er1).
    cbn [lex_string]. rewrite (st_inv_quote _ _ _ _ _ _ SI).
    change (next_byte_pos (mklex (cur_at (p0 ++ op ++ b) (chunk ++ s' ++ delims q ++ rest) bp) L0 o)) with (tlen (p0 ++ op ++ b)).
    change (cu_rest (lx_cur (mklex (cur_at (p0 ++ op ++ b) (chunk ++ s' ++ delims q ++ rest) bp) L0 o))) with (chunk ++ s' ++ delims q ++ rest).
    rewrite Er1. rewrite (string_scan_stop q chunk) by (auto; rewrite app_length; cbn; lia). cbn [bind].
    destruct (push_chunk input q p0 trim b chunk st T (d :: r1) (tlen (p0 ++ op ++ b))
      (cu_pos (lx_cur (mklex (cur_at (((p0 ++ op ++ b) ++ chunk) ++ [d]) r1 (tlen ((p0 ++ op ++ b) ++ chunk))) L0 o))))
      as (st1 & SI1 & P1); [rewrite IN, Er1; assoc|reflexivity|reflexivity|assumption|].
    bindrw P1. rewrite (st_inv_quote _ _ _ _ _ _ SI1). change quote_char with delim. rewrite N.eqb_refl.
    replace (mklex (cur_at (((p0 ++ op ++ b) ++ chunk) ++ [d]) r1 (tlen ((p0 ++ op ++ b) ++ chunk))) L0 o)
      with (qs d (p0 ++ op ++ (b ++ chunk)) 0 r1 L0 o).
    2:{ unfold qs. cbn [repeat]. rewrite app_nil_r. f_equal. f_equal; [assoc|f_equal; assoc]. }
    destruct (multi_dec q) as [M|M].
    - destruct (body_quotes q m s' t' B' M) as (k & s3 & t3 & -> & -> & ND & K & B3).
      specialize (NR M).
      destruct s3 as [|x s3].
      + (* the end of the string *)
        pose proof (body_nil_inv _ _ _ B3) as ->. rewrite !app_nil_r in *.
        assert (Em : r1 = repeat d (k + 2) ++ rest).
        { rewrite (delims_multi q M) in Er1. replace (k + 2)%nat with (2 + k)%nat by lia.
          change [d; d; d] with (repeat d 3) in Er1. rewrite app_assoc, <- repeat_app in Er1.
          replace (k + 3)%nat with (S (2 + k)) in Er1 by lia. cbn [repeat app] in Er1. injection Er1 as <-. reflexivity. }
        destruct (closing_multi input q p0 trim TR (b ++ chunk) (k + 2) rest o st1 (T ++ chunk) M) as (st2 & xk & e2 & Ex & He2 & OK2 & R2);
          [lia|assumption|rewrite IN, Er1, Em; cbn [repeat]; assoc|assumption|].
        rewrite Em, R2. cbn [bind].
        assert (E2 : e2 = []) by (apply He2; lia). subst e2.
        assert (Exk : xk = k) by lia. clear Ex. subst xk.
        exists (tlen ((p0 ++ op ++ b ++ chunk) ++ repeat d (k + 2))). unfold qs.
        assert (DD : repeat d (S (k + 2)) = repeat d k ++ delims q).
        { rewrite (delims_multi q M). change [d; d; d] with (repeat d 3). rewrite <- repeat_app. f_equal. lia. }
        rewrite DD. replace (N.of_nat (S (k + 2) - k)) with (quote_len q).
        2:{ destruct M as [-> | ->]; cbn [quote_len]; lia. }
        f_equal. f_equal; [f_equal; assoc|]. f_equal; assoc.
      + (* quotes inside the string *)
        destruct HS as [HS|(_ & HS)].
        { destruct k; [discriminate|]. discriminate. }
        destruct k as [|k]; [exfalso; apply ND; exact HS|].
        assert (Em : r1 = repeat d k ++ (x :: s3) ++ delims q ++ rest).
        { cbn [repeat] in Er1. repeat rewrite <- app_assoc in Er1. cbn [app] in Er1. injection Er1 as <-. assoc. }
        destruct (closing_continue input q p0 trim (b ++ chunk) k ((x :: s3) ++ delims q ++ rest) o st1 (T ++ chunk) M) as (st2 & SI2 & _ & R2);
          [lia| |assumption|].
        { rewrite starts_with_cons in ND. cbn [app]. rewrite starts_with_cons. assumption. }
        rewrite Em, R2. cbn [bind]. unfold qs.
        replace ((p0 ++ op ++ b ++ chunk) ++ repeat d (S k)) with (p0 ++ op ++ ((b ++ chunk) ++ repeat d (S k))) by assoc.
        destruct (IH (x :: s3) t3 ((b ++ chunk) ++ repeat d (S k)) rest (tlen ((p0 ++ op ++ b ++ chunk) ++ repeat d k)) o st2 ((T ++ chunk) ++ repeat d (S k)))
          as (bp' & RL); auto.
        { rewrite IN. assoc. }
        { assert (LR : length (repeat d (S k)) = S k) by apply repeat_length. repeat rewrite app_length in F. repeat rewrite app_length. rewrite LR in F. cbn [length] in F |- *. lia. }
        { intros EW. rewrite repeat_snoc, app_assoc in EW. apply ends_with_snoc in EW. congruence. }
        exists bp'. rewrite RL. f_equal. f_equal; [f_equal; assoc|]. f_equal; assoc.
    - destruct HS as [->|(M' & _)]; [|contradiction]. pose proof (body_nil_inv _ _ _ B') as ->.
      cbn [app] in *. assert (E1 : r1 = rest) by (rewrite (delims_single q M) in Er1; injection Er1 as <-; reflexivity). subst r1.
      rewrite (closing_single input q p0 trim TR (b ++ chunk) rest o st1 (T ++ chunk) M); [|rewrite IN, (delims_single q M); assoc|assumption].
      cbn [bind]. exists (tlen ((p0 ++ op ++ b ++ chunk) ++ repeat d 0)). unfold qs.
      f_equal. f_equal; [f_equal; rewrite (delims_single q M); cbn [repeat]; assoc|].
      rewrite app_nil_r. f_equal; assoc. }
  destruct ST as [Es|[(ES & (x & r & Es & <-))|[(M & (x & r & Es & <-))|[(M & (r & Es))|(M & SW)]]]].
  - exact (QUOTE (or_introl Es) (or_introl Es)).
  - (* an escape sequence *)
    clear QUOTE. subst s'.
    cbn [lex_string]. rewrite (st_inv_quote _ _ _ _ _ _ SI).
    match goal with |- context [next_byte_pos ?l] => change (next_byte_pos l) with (tlen (p0 ++ op ++ b)) end.
    match goal with |- context [cu_rest (lx_cur (mklex (cur_at _ ?x _) _ _))] => change (cu_rest (lx_cur (mklex (cur_at (p0 ++ op ++ b) x bp) L0 o))) with x end.
    cbn [app].
    destruct (body_escape_inv q m r t' B' ES) as (e & v & s2 & t2 & -> & -> & B2 & NE & LV & CRe & ESC).
    rewrite (string_scan_stop q chunk) by (auto; rewrite app_length; cbn; lia). cbn [bind].
    destruct (push_chunk input q p0 trim b chunk st T (92 :: (e ++ s2) ++ delims q ++ rest) (tlen (p0 ++ op ++ b))
      (cu_pos (lx_cur (mklex (cur_at (((p0 ++ op ++ b) ++ chunk) ++ [92]) ((e ++ s2) ++ delims q ++ rest) (tlen ((p0 ++ op ++ b) ++ chunk))) L0 o))))
      as (st1 & SI1 & P1); [rewrite IN; assoc|reflexivity|reflexivity|assumption|].
    bindrw P1. rewrite (st_inv_quote _ _ _ _ _ _ SI1). change quote_char with delim.
    replace (92 =? d) with false by lia. change (92 =? 10) with false. rewrite (proj2 (is_basic_spec q) ES).
    change (true && (92 =? 92)) with true. cbv iota.
    assert (SE : match ss_text st1 with
         | Some _ => Ok st1
         | None => let? s := slice input (ss_text_byte st1) (cu_pos (lx_cur (mklex (cur_at (((p0 ++ op ++ b) ++ chunk) ++ [92]) ((e ++ s2) ++ delims q ++ rest) (tlen ((p0 ++ op ++ b) ++ chunk))) L0 o))) in
                   Ok (set_text st1 (sr_text s))
         end = Ok (sst (T ++ chunk)) :> run strstate).
    { destruct SI1 as (ot & -> & H). cbn [ss_text ss_text_byte]. destruct ot as [tx|]; [rewrite H; reflexivity|].
      rewrite (slice_eq input (p0 ++ op) (b ++ chunk) (92 :: (e ++ s2) ++ delims q ++ rest)); [|rewrite IN; assoc|reflexivity|cbn [lx_cur cur_at cu_pos]; f_equal; assoc].
      cbn [bind sr_text]. rewrite H. reflexivity. }
    bindrw SE. rewrite lpos_char by lia. cbn [bind].
    assert (NWS : ~ starts_with is_ws (delims q ++ rest)).
    { destruct (multi_dec q) as [M|M]; [rewrite (delims_multi q M)|rewrite (delims_single q M)]; cbn [app]; rewrite starts_with_cons; unfold is_ws; destruct q; cbn; lia. }
    destruct (string_escape_complete q (pos_at ((p0 ++ op ++ b) ++ chunk)) (((p0 ++ op ++ b) ++ chunk) ++ [92]) e v (s2 ++ delims q ++ rest) (tlen ((p0 ++ op ++ b) ++ chunk)) L0 o (sst (T ++ chunk)) eq_refl (ESC _ NWS)) as (bp1 & R1).
    rewrite <- (app_assoc e s2). rewrite R1. cbn [bind].
    replace ((((p0 ++ op ++ b) ++ chunk) ++ [92]) ++ e) with (p0 ++ op ++ (b ++ chunk ++ 92 :: e)) by assoc.
    destruct (IH s2 t2 (b ++ chunk ++ 92 :: e) rest bp1 o (match v with [] => sst (T ++ chunk) | c :: _ => push_char (sst (T ++ chunk)) c end) ((T ++ chunk) ++ v))
      as (bp' & RL); auto.
    { rewrite IN. assoc. }
    { cbn [app] in F. repeat (rewrite app_length in F; cbn [length] in F). repeat rewrite app_length. lia. }
    { apply (st_inv_escape b); [apply sst_inv|cbn; congruence|assumption]. }
    { intros EW. apply CRe. replace (b ++ chunk ++ 92 :: e) with ((b ++ chunk ++ [92]) ++ e) in EW by assoc. apply ends_with_app in EW; assumption. }
    exists bp'. rewrite RL. f_equal. f_equal; [f_equal; assoc|]. f_equal; assoc.
  - (* a line feed *)
    clear QUOTE. subst s'.
    cbn [lex_string]. rewrite (st_inv_quote _ _ _ _ _ _ SI).
    match goal with |- context [next_byte_pos ?l] => change (next_byte_pos l) with (tlen (p0 ++ op ++ b)) end.
    match goal with |- context [cu_rest (lx_cur (mklex (cur_at _ ?x _) _ _))] => change (cu_rest (lx_cur (mklex (cur_at (p0 ++ op ++ b) x bp) L0 o))) with x end.
    cbn [app]. destruct (body_lf_inv _ _ _ _ B') as (t2 & -> & B2).
    rewrite string_scan_lf by (auto; rewrite app_length; cbn; lia). cbn [bind].
    destruct (push_chunk input q p0 trim b chunk st T (10 :: r ++ delims q ++ rest) (tlen (p0 ++ op ++ b))
      (cu_pos (lx_cur (mklex (cur_lf ((p0 ++ op ++ b) ++ chunk) (r ++ delims q ++ rest)) L0 o))))
      as (st1 & SI1 & P1); [rewrite IN; assoc|reflexivity|reflexivity|assumption|].
    bindrw P1. rewrite (st_inv_quote _ _ _ _ _ _ SI1). change quote_char with delim.
    replace (10 =? d) with false by lia. change (10 =? 10) with true. cbv iota.
    replace ((p0 ++ op ++ b) ++ chunk) with (p0 ++ op ++ (b ++ chunk)) by assoc.
    rewrite (prev_is_cr_eq input (p0 ++ op ++ (b ++ chunk)) (10 :: r ++ delims q ++ rest)); [|rewrite IN; assoc|reflexivity].
    cbn [bind].
    change (cu_pos (lx_cur (mklex (cur_lf (p0 ++ op ++ b ++ chunk) (r ++ delims q ++ rest)) L0 o))) with (tlen (p0 ++ op ++ b ++ chunk)).
    destruct (ends_with_cr_cases (p0 ++ op ++ (b ++ chunk))) as [(y & Epre & _)|(-> & _)].
    { exfalso. destruct (op_not_13 q p0 trim TR _ _ Epre) as (y' & Ey & _).
      destruct CH13 as [-> EW]; [exists y'; assumption|]. apply (CR EW). apply starts_with_cons. reflexivity. }
    rewrite usub_ok by lia. rewrite N.sub_0_r. cbn [bind]. rewrite (proj2 (is_multiline_spec q) M). cbn [negb bind].
    rewrite newline_lf.
    replace ((p0 ++ op ++ b ++ chunk) ++ [10]) with (p0 ++ op ++ ((b ++ chunk) ++ [10])) by assoc.
    destruct (IH r t2 ((b ++ chunk) ++ [10]) rest (tlen (p0 ++ op ++ b ++ chunk) + 1) o (push_char st1 10) ((T ++ chunk) ++ [10]))
      as (bp' & RL); auto.
    { rewrite IN. assoc. }
    { cbn [app] in F. repeat (rewrite app_length in F; cbn [length] in F). repeat rewrite app_length. lia. }
    { apply st_inv_push. assumption. }
    { intros EW. apply ends_with_snoc in EW. discriminate. }
    exists bp'. rewrite RL. f_equal. f_equal; [f_equal; assoc|]. f_equal; assoc.
  - (* a carriage return and a line feed *)
    clear QUOTE. subst s'.
    cbn [lex_string]. rewrite (st_inv_quote _ _ _ _ _ _ SI).
    match goal with |- context [next_byte_pos ?l] => change (next_byte_pos l) with (tlen (p0 ++ op ++ b)) end.
    match goal with |- context [cu_rest (lx_cur (mklex (cur_at _ ?x _) _ _))] => change (cu_rest (lx_cur (mklex (cur_at (p0 ++ op ++ b) x bp) L0 o))) with x end.
    cbn [app]. destruct (body_crlf_inv _ _ _ _ B') as (t2 & -> & B2).
    rewrite string_scan_crlf by (auto; rewrite app_length; cbn; lia). cbn [bind].
    destruct (push_chunk input q p0 trim b (chunk ++ [13]) st T (10 :: r ++ delims q ++ rest) (tlen (p0 ++ op ++ b))
      (cu_pos (lx_cur (mklex (cur_lf (((p0 ++ op ++ b) ++ chunk) ++ [13]) (r ++ delims q ++ rest)) L0 o))))
      as (st1 & SI1 & P1); [rewrite IN; assoc|reflexivity|cbn [lx_cur cur_lf cu_pos]; f_equal; assoc|assumption|].
    bindrw P1. rewrite (st_inv_quote _ _ _ _ _ _ SI1). change quote_char with delim.
    replace (10 =? d) with false by lia. change (10 =? 10) with true. cbv iota.
    replace (((p0 ++ op ++ b) ++ chunk) ++ [13]) with ((p0 ++ op ++ (b ++ chunk)) ++ [13]) by assoc.
    rewrite (prev_is_cr_eq input ((p0 ++ op ++ (b ++ chunk)) ++ [13]) (10 :: r ++ delims q ++ rest)); [|rewrite IN; assoc|reflexivity].
    rewrite last_char_snoc. change (13 =? 13) with true. cbn [bind].
    change (cu_pos (lx_cur (mklex (cur_lf ((p0 ++ op ++ b ++ chunk) ++ [13]) (r ++ delims q ++ rest)) L0 o))) with (tlen ((p0 ++ op ++ b ++ chunk) ++ [13])).
    assert (TL : tlen ((p0 ++ op ++ b ++ chunk) ++ [13]) - 1 = tlen (p0 ++ op ++ b ++ chunk)).
    { rewrite tlen_app, tlen_one. change (len_utf8 13) with 1. lia. }
    rewrite usub_ok by (rewrite tlen_app, tlen_one; change (len_utf8 13) with 1; lia). rewrite TL. cbn [bind].
    rewrite (proj2 (is_multiline_spec q) M). cbn [negb].
    assert (ST : exists st2, st_inv ((b ++ chunk) ++ [13; 10]) (push_char st2 10) ((T ++ chunk) ++ [10]) /\
          match ss_text st1 with
          | Some _ => Ok (pop_char st1)
          | None => let? s := slice input (ss_text_byte st1) (tlen (p0 ++ op ++ b ++ chunk)) in Ok (set_text st1 (sr_text s))
          end = Ok st2 :> run strstate).
    { destruct SI1 as (ot & -> & H). cbn [ss_text ss_text_byte]. destruct ot as [tx|].
      - eexists. split; [|reflexivity]. exists (Some (removelast tx ++ [10])). split; [reflexivity|].
        rewrite <- H. rewrite app_assoc, removelast_last. reflexivity.
      - rewrite (slice_eq input (p0 ++ op) (b ++ chunk) ([13] ++ 10 :: r ++ delims q ++ rest)); [|rewrite IN; assoc|reflexivity|f_equal; assoc].
        cbn [bind sr_text]. eexists. split; [|reflexivity]. exists (Some ((b ++ chunk) ++ [10])). split; [reflexivity|].
        rewrite !app_assoc in H. apply app_inj_tail in H. destruct H as [-> _]. reflexivity. }
    destruct ST as (st2 & SI2 & RS). bindrw RS. rewrite newline_lf.
    replace (((p0 ++ op ++ b ++ chunk) ++ [13]) ++ [10]) with (p0 ++ op ++ ((b ++ chunk) ++ [13; 10])) by assoc.
    destruct (IH r t2 ((b ++ chunk) ++ [13; 10]) rest (tlen ((p0 ++ op ++ b ++ chunk) ++ [13]) + 1) o (push_char st2 10) ((T ++ chunk) ++ [10]))
      as (bp' & RL); auto.
    { rewrite IN. assoc. }
    { cbn [app] in F. repeat (rewrite app_length in F; cbn [length] in F). repeat rewrite app_length. lia. }
    { intros EW. replace ((b ++ chunk) ++ [13; 10]) with (((b ++ chunk) ++ [13]) ++ [10]) in EW by assoc. apply ends_with_snoc in EW. discriminate. }
    exists bp'. rewrite RL. f_equal. f_equal; [f_equal; assoc|]. f_equal; assoc.
  - exact (QUOTE (or_intror (or_intror (or_intror (or_intror (conj M SW))))) (or_intror (conj M SW))).
Qed.

End Str.
End Input.
