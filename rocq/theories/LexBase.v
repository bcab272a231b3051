(** Cursor, position and slice lemmas for the lexer. *)
From Verif Require Import Base BaseProofs CommonModel TomlError LitModel LitInt LitErr LexModel LexSpec.

Lemma tlen_app a b : tlen (a ++ b) = tlen a + tlen b.
Proof. induction a; cbn [app tlen]; lia. Qed.
Lemma tlen_one c : tlen [c] = len_utf8 c.
Proof. cbn [tlen]. lia. Qed.
Lemma len_pos c : 1 <= len_utf8 c.
Proof. unfold len_utf8. repeat destruct (_ <? _); lia. Qed.
Lemma len_small c : c < 128 -> len_utf8 c = 1.
Proof. intros H. unfold len_utf8. replace (c <? 128) with true by lia. reflexivity. Qed.

(** ** Slices *)
Lemma drop_bytes_app a b : drop_bytes (tlen a) (a ++ b) = Some b.
Proof.
  induction a as [|c a IH]; cbn [tlen app].
  - destruct b; reflexivity.
  - cbn [drop_bytes]. pose proof (len_pos c).
    replace (len_utf8 c + tlen a =? 0) with false by lia.
    replace (len_utf8 c <=? len_utf8 c + tlen a) with true by lia.
    replace (len_utf8 c + tlen a - len_utf8 c) with (tlen a) by lia. exact IH.
Qed.
Lemma take_bytes_app a b : take_bytes (tlen a) (a ++ b) = Some a.
Proof.
  induction a as [|c a IH]; cbn [tlen app].
  - destruct b; reflexivity.
  - cbn [take_bytes]. pose proof (len_pos c).
    replace (len_utf8 c + tlen a =? 0) with false by lia.
    replace (len_utf8 c <=? len_utf8 c + tlen a) with true by lia.
    replace (len_utf8 c + tlen a - len_utf8 c) with (tlen a) by lia. rewrite IH. reflexivity.
Qed.
Lemma slice_app a b c : slice (a ++ b ++ c) (tlen a) (tlen (a ++ b)) = Ok (mkref (tlen a) b).
Proof.
  unfold slice. rewrite tlen_app. replace (_ <=? _) with true by lia.
  rewrite drop_bytes_app. replace (tlen a + tlen b - tlen a) with (tlen b) by lia.
  rewrite take_bytes_app. reflexivity.
Qed.
(** The same with the offsets and the input given by equations. *)
Lemma slice_eq input a b c i j :
  input = a ++ b ++ c -> i = tlen a -> j = tlen (a ++ b) -> slice input i j = Ok (mkref i b).
Proof. intros -> -> ->. apply slice_app. Qed.

Lemma usub_ok a b : b <= a -> usub a b = Ok (a - b).
Proof. intros H. unfold usub. replace (b <=? a) with true by lia. reflexivity. Qed.

(** ** Positions *)
Lemma pos_at_app a b : pos_at (a ++ b) = fold_left pos_step b (pos_at a).
Proof. unfold pos_at. apply fold_left_app. Qed.
Lemma pos_at_snoc a c : pos_at (a ++ [c]) = pos_step (pos_at a) c.
Proof. rewrite pos_at_app. reflexivity. Qed.
Lemma p_char_le s : p_char (pos_at s) <= tlen s.
Proof.
  induction s as [|c s IH] using rev_ind; [cbn; lia|].
  rewrite pos_at_snoc, tlen_app, tlen_one. unfold pos_step.
  pose proof (len_pos c). destruct (c =? 10); cbn [p_char]; lia.
Qed.

(** Offset of the start of the line that [s] ends in. *)
Definition line_off (s : list N) : N := tlen s - p_char (pos_at s).
(** The cursor after reading [pre], with [bp] as [byte_pos]. *)
Definition cur_at (pre rest : list N) (bp : N) : cursor :=
  mkcur rest (tlen pre) (p_line (pos_at pre)) (line_off pre) bp.
(** The cursor after [next] returned a line feed that [newline] has not
    counted yet. *)
Definition cur_lf (pre rest : list N) : cursor :=
  mkcur rest (tlen pre + 1) (p_line (pos_at pre)) (line_off pre) (tlen pre).

Definition no_lf (s : list N) : Prop := ~ In 10 s.
Lemma no_lf_app a b : no_lf (a ++ b) <-> no_lf a /\ no_lf b.
Proof. unfold no_lf. rewrite in_app_iff. tauto. Qed.

Lemma pos_at_no_lf a b : no_lf b ->
  pos_at (a ++ b) = mkpos (p_line (pos_at a)) (p_char (pos_at a) + tlen b).
Proof.
  induction b as [|c b IH] using rev_ind; intros H.
  - rewrite app_nil_r. cbn [tlen]. destruct (pos_at a) as [l c]. cbn. f_equal; lia.
  - apply no_lf_app in H. destruct H as [H1 H2].
    rewrite app_assoc, pos_at_snoc, IH by assumption. unfold pos_step.
    replace (c =? 10) with false by (unfold no_lf in H2; cbn in H2; lia).
    cbn [p_line p_char]. rewrite tlen_app, tlen_one. f_equal; lia.
Qed.
Lemma line_off_no_lf a b : no_lf b -> line_off (a ++ b) = line_off a.
Proof.
  intros H. unfold line_off. rewrite pos_at_no_lf, tlen_app by assumption. cbn [p_char].
  pose proof (p_char_le a). lia.
Qed.
Lemma pos_at_lf a : pos_at (a ++ [10]) = mkpos (p_line (pos_at a) + 1) 0.
Proof. rewrite pos_at_snoc. reflexivity. Qed.
Lemma line_off_lf a : line_off (a ++ [10]) = tlen a + 1.
Proof. unfold line_off. rewrite pos_at_lf, tlen_app, tlen_one. cbn [p_char]. change (len_utf8 10) with 1. lia. Qed.

(** [Pos::plus] and [Pos::after] are text positions. *)
Lemma pos_plus_text a b n : no_lf b -> n = tlen b -> pos_plus (pos_at a) n = pos_at (a ++ b).
Proof. intros H ->. rewrite pos_at_no_lf by assumption. reflexivity. Qed.

(** ** Reading *)
Lemma lnext_char pre c rest bp l o : c <> 10 ->
  lnext (mklex (cur_at pre (c :: rest) bp) l o) =
  (Some c, mklex (cur_at (pre ++ [c]) rest (tlen pre)) l o).
Proof.
  intros H. unfold lnext, set_cur, cur_at. cbn [lx_cur cu_rest cu_next cu_line cu_line_start lx_lit lx_out].
  assert (L : no_lf [c]) by (unfold no_lf; cbn; lia).
  rewrite (pos_at_no_lf _ _ L), (line_off_no_lf _ _ L), tlen_app, tlen_one. reflexivity.
Qed.
Lemma lnext_lf pre rest bp l o :
  lnext (mklex (cur_at pre (10 :: rest) bp) l o) = (Some 10, mklex (cur_lf pre rest) l o).
Proof. reflexivity. Qed.
Lemma lnext_end pre bp l o :
  lnext (mklex (cur_at pre [] bp) l o) = (None, mklex (cur_at pre [] (tlen pre)) l o).
Proof. reflexivity. Qed.
Lemma newline_lf pre rest l o :
  newline (mklex (cur_lf pre rest) l o) = mklex (cur_at (pre ++ [10]) rest (tlen pre + 1)) l o.
Proof.
  unfold newline, set_cur, cur_newline, cur_lf, cur_at. cbn [lx_cur cu_rest cu_next cu_line cu_line_start cu_pos lx_lit lx_out].
  rewrite pos_at_lf, line_off_lf, tlen_app, tlen_one. reflexivity.
Qed.

Lemma pos_in_line_at pre s rest bp l o :
  no_lf s ->
  pos_in_line (mklex (cur_at (pre ++ s) rest bp) l o) (tlen pre) = Ok (pos_at pre).
Proof.
  intros H. unfold pos_in_line, cur_at. cbn [lx_cur cu_line_start cu_line].
  rewrite line_off_no_lf by assumption. unfold line_off. pose proof (p_char_le pre).
  rewrite usub_ok by lia. cbn [bind]. rewrite pos_at_no_lf by assumption. cbn [p_line].
  do 2 f_equal. destruct (pos_at pre) as [a b]. cbn in *. f_equal. lia.
Qed.
Lemma pos_in_line_here pre rest bp l o :
  pos_in_line (mklex (cur_at pre rest bp) l o) (tlen pre) = Ok (pos_at pre).
Proof. rewrite <- (app_nil_r pre) at 1. apply pos_in_line_at. unfold no_lf. cbn. tauto. Qed.
Lemma pos_in_line_lf pre s rest l o : no_lf s ->
  pos_in_line (mklex (cur_lf (pre ++ s) rest) l o) (tlen pre) = Ok (pos_at pre).
Proof. intros H. exact (pos_in_line_at pre s rest 0 l o H). Qed.
Lemma lpos_char pre c rest l o : c <> 10 ->
  lpos (mklex (cur_at (pre ++ [c]) rest (tlen pre)) l o) = Ok (pos_at pre).
Proof. intros H. unfold lpos. cbn [lx_cur cur_at cu_pos]. apply pos_in_line_at. unfold no_lf. cbn. lia. Qed.
Lemma lpos_lf pre rest l o : lpos (mklex (cur_lf pre rest) l o) = Ok (pos_at pre).
Proof.
  unfold lpos. cbn [lx_cur cur_lf cu_pos]. rewrite <- (app_nil_r pre) at 1. apply pos_in_line_lf.
  unfold no_lf. cbn. tauto.
Qed.
Lemma lpos_end pre rest l o : lpos (mklex (cur_at pre rest (tlen pre)) l o) = Ok (pos_at pre).
Proof. unfold lpos. cbn [lx_cur cur_at cu_pos]. apply pos_in_line_here. Qed.

Lemma peeks_cons pre c rest bp l o x : peeks (mklex (cur_at pre (c :: rest) bp) l o) x = (c =? x).
Proof. reflexivity. Qed.
Lemma peeks_nil pre bp l o x : peeks (mklex (cur_at pre [] bp) l o) x = false.
Proof. reflexivity. Qed.

(** ** Reading the previous character *)
Lemma last_char_snoc a c : last_char (a ++ [c]) = Some c.
Proof. unfold last_char. rewrite rev_app_distr. reflexivity. Qed.
Lemma prev_is_cr_eq input pre suf lx :
  input = pre ++ suf -> cu_pos (lx_cur lx) = tlen pre ->
  prev_is_cr input lx = Ok (match last_char pre with Some x => x =? 13 | None => false end).
Proof.
  intros -> H. unfold prev_is_cr, peek_prev. rewrite H.
  rewrite (slice_eq _ [] pre suf) by reflexivity. reflexivity.
Qed.
Lemma ends_with_cr_cases pre :
  (exists r, pre = r ++ [13] /\ match last_char pre with Some x => x =? 13 | None => false end = true) \/
  (match last_char pre with Some x => x =? 13 | None => false end = false /\ ~ ends_with 13 pre).
Proof.
  destruct pre as [|x r _] using rev_ind.
  - right. split; [reflexivity|]. intros (r & E). destruct r; discriminate.
  - rewrite last_char_snoc. destruct (N.eqb_spec x 13) as [->|N].
    + left. exists r. auto.
    + right. split; [reflexivity|]. intros (r' & E). apply app_inj_tail in E. lia.
Qed.

(** [length] and prefixes *)
Lemma app_cons_assoc {A} (a : list A) c r : a ++ c :: r = (a ++ [c]) ++ r.
Proof. rewrite <- app_assoc. reflexivity. Qed.

Lemma covers_nil input a b : input = a ++ b -> covers_text input (mkspan (pos_at a) (pos_at a)).
Proof. intros ->. exists a, [], b. rewrite app_nil_r. auto. Qed.

Lemma starts_with_cons (P : N -> Prop) c r : starts_with P (c :: r) <-> P c.
Proof. split; [intros (c' & r' & E & H); injection E as <- <-; assumption|intros H; exists c, r; auto]. Qed.
Lemma starts_with_nil (P : N -> Prop) : ~ starts_with P [].
Proof. intros (c & r & E & _). discriminate. Qed.
Lemma starts_with_prefix (P : N -> Prop) b' y : starts_with P b' -> starts_with P (b' ++ y).
Proof. intros (c & r & -> & H). exists c, (r ++ y). auto. Qed.
