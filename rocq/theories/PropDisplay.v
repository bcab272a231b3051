(** Property theorems about the display of diagnostics (common/src/diagnostic.rs).
    Specification: DisplaySpec.v. *)
From Verif Require Import Base BaseProofs CommonModel CommonSpec CommonProofs LitModel LexModel LexSpec LexBase
  MapSpec DisplayModel DisplaySpec DisplayProofs.

(** ** C56 *)

(** A diagnostic can be displayed exactly when its span and that of its hint
    are whole characters of the text it is displayed on; otherwise display
    panics.  Context lines never make it panic. *)
Theorem C56_display_panics width d text :
  increasing (g_lines d) ->
  p_line (s_start (g_span d)) <= p_line (s_end (g_span d)) ->
  (forall h, g_hint d = Some h -> p_line (s_start (h_span h)) <= p_line (s_end (h_span h))) ->
  (display width d text <> Panic <->
   span_on_text text (g_span d) /\ (forall h, g_hint d = Some h -> span_on_text text (h_span h))).
Proof.
  intros INC L1 L2. split; [exact (display_inv width d text L1 L2)|]. intros (M & H).
  destruct (display_ok width d text M H INC) as (out & -> & _). discriminate.
Qed.

(** A position of a document is on its lines, except between the two
    characters of a line break CRLF. *)
Theorem C56_positions_on_lines a b : on_text (lines (a ++ b)) (pos_at a) <-> ~ splits_crlf a b.
Proof. apply (on_text_lines (a ++ b)); [apply lines_spec; reflexivity|reflexivity]. Qed.

(** ** C57 *)

(** What is shown: the heading, then the hint and the diagnostic in the order
    they start, with the context lines between them. *)
Theorem C57_display_text width d text :
  span_on_text text (g_span d) -> (forall h, g_hint d = Some h -> span_on_text text (h_span h)) -> increasing (g_lines d) ->
  exists out, display width d text = Ok out /\ displayed width text d out.
Proof. exact (display_ok width d text). Qed.

(** There is only one such text. *)
Lemma block_fun width text sev ann l a e o1 : block width text sev ann l a e o1 -> forall o2, block width text sev ann l a e o2 -> o1 = o2.
Proof.
  assert (SPLIT : forall (x y u v : list N), x ++ y = u ++ v -> tlen x = tlen u -> x = u /\ y = v).
  { intros x y u v E T. apply app_split in E. destruct E as [(z & -> & ->)|(z & -> & ->)]; rewrite tlen_app in T;
      (destruct z as [|c z]; [rewrite app_nil_r; split; reflexivity|cbn [tlen] in T; pose proof (len_pos c); lia]). }
  induction 1 as [l x y z e EL G T|l x y e out LT G B IH]; intros o2 H2.
  - inversion H2 as [l' x' y' z' e' EL' G' T' E1 E2 E3|l' x' y' e' out' LT' G' B' E1 E2 E3]; subst; [|lia].
    rewrite G in G'. injection G' as G'. destruct (SPLIT _ _ _ _ G' (eq_sym E2)) as (-> & G2). rewrite T' in T. rewrite !tlen_app in T.
    destruct (SPLIT _ _ _ _ G2 ltac:(lia)) as (-> & ->). reflexivity.
  - inversion H2 as [l' x' y' z' e' EL' G' T' E1 E2 E3|l' x' y' e' out' LT' G' B' E1 E2 E3]; subst; [lia|].
    rewrite G in G'. injection G' as G'. destruct (SPLIT _ _ _ _ G' (eq_sym E2)) as (-> & ->). rewrite (IH _ B'). reflexivity.
Qed.
Lemma context_fun text lo hi ls o1 : context_rows text lo hi ls o1 -> forall o2, context_rows text lo hi ls o2 -> o1 = o2.
Proof.
  induction 1 as [|n ls line out B G C IH|n ls out B C IH]; intros o2 H2.
  - inversion H2. reflexivity.
  - inversion H2 as [|n' ls' line' out' B' G' C'|n' ls' out' B' C']; subst; [|contradiction].
    rewrite (IH _ C'). congruence.
  - inversion H2 as [|n' ls' line' out' B' G' C'|n' ls' out' B' C']; subst; [contradiction|]. exact (IH _ C').
Qed.
Lemma heading_fun text d o1 o2 : heading text d o1 -> heading text d o2 -> o1 = o2.
Proof.
  intros [a b G T] [a' b' G' T']. rewrite G in G'. injection G' as E. apply app_split in E. rewrite T in T'.
  assert (a = a').
  { destruct E as [(z & -> & _)|(z & -> & _)]; rewrite tlen_app in T'; (destruct z as [|c z]; [rewrite app_nil_r; reflexivity|cbn [tlen] in T'; pose proof (len_pos c); lia]). }
  subst a'. reflexivity.
Qed.
Theorem C57_display_unique width text d o1 o2 : displayed width text d o1 -> displayed width text d o2 -> o1 = o2.
Proof.
  intros [head ctx main E HD C M|h head c1 hb c2 main E LT HD C1 H C2 M|h head c1 main c2 hb E LT HD C1 M C2 H]
    [head' ctx' main' E' HD' C' M'|h' head' c1' hb' c2' main' E' LT' HD' C1' H' C2' M'|h' head' c1' main' c2' hb' E' LT' HD' C1' M' C2' H'];
    try congruence; try (assert (h' = h) by congruence; subst h'); try contradiction;
    repeat match goal with
    | A : heading text d ?x, B : heading text d ?y |- _ => assert (x = y) by exact (heading_fun _ _ _ _ A B); subst x; clear A
    | A : context_rows text ?lo ?hi ?ls ?x, B : context_rows text ?lo ?hi ?ls ?y |- _ => assert (x = y) by exact (context_fun _ _ _ _ _ A _ B); subst x; clear A
    | A : marked _ text ?s ?n ?p ?x, B : marked _ text ?s ?n ?p ?y |- _ => assert (x = y) by exact (block_fun _ _ _ _ _ _ _ _ A _ B); subst x; clear A
    end; reflexivity.
Qed.

(** ** C58 *)

Definition no_esc (s : list N) : Prop := ~ In 27 s.
Lemma unescaped_plain s r : no_esc s -> unescaped (s ++ r) false = s ++ unescaped r false.
Proof.
  induction s as [|c s IH]; intros H; [reflexivity|]. cbn [app unescaped]. destruct (N.eqb_spec c 27) as [->|N27].
  - exfalso. apply H. left. reflexivity.
  - rewrite IH; [reflexivity|]. intros X. apply H. right. exact X.
Qed.
Lemma unescaped_clear r : unescaped (plain_color ++ r) false = unescaped r false. Proof. reflexivity. Qed.
Lemma unescaped_blue r : unescaped (blue ++ r) false = unescaped r false. Proof. reflexivity. Qed.
Lemma unescaped_color s r : unescaped (sev_color s ++ r) false = unescaped r false. Proof. destruct s; reflexivity. Qed.
Lemma no_esc_visible s : no_esc (visible s).
Proof. intros H. apply filter_In in H. destruct H as [_ H]. vm_compute in H. discriminate. Qed.
Lemma no_esc_spaces n : no_esc (spaces n).
Proof. intros H. apply repeat_spec in H. discriminate. Qed.
Lemma no_esc_repeat s n : no_esc (repeat (sev_mark s) n).
Proof. intros H. apply repeat_spec in H. destruct s; discriminate. Qed.
Lemma dec_aux_digits f : forall n acc, Forall (fun d => 48 <= d <= 57) acc -> Forall (fun d => 48 <= d <= 57) (dec_aux f n acc).
Proof.
  induction f as [|f IH]; intros n acc H; cbn [dec_aux]; [exact H|]. cbv zeta.
  assert (Forall (fun d => 48 <= d <= 57) ((48 + n mod 10) :: acc)). { constructor; [|exact H]. pose proof (N.mod_lt n 10). lia. }
  destruct (n / 10 =? 0); [assumption|]. apply IH. assumption.
Qed.
Lemma dec_digits n : Forall (fun d => 48 <= d <= 57) (dec n).
Proof. apply dec_aux_digits. constructor. Qed.
Lemma no_esc_pad4 n : no_esc (pad4 n).
Proof.
  intros H. apply in_app_or in H. destruct H as [H|H]; [exact (no_esc_spaces _ H)|].
  pose proof (proj1 (Forall_forall _ _) (dec_digits n) 27 H). cbv beta in H0. lia.
Qed.
Lemma source_row_seen n line : unescaped (source_row n line) false = pad4 (n + 1) ++ bs " | " ++ visible line ++ [10].
Proof.
  unfold source_row. rewrite unescaped_blue, unescaped_plain by apply no_esc_pad4. f_equal.
  change (bs " |" ++ plain_color ++ bs " " ++ visible line ++ [10]) with (bs " |" ++ plain_color ++ (bs " " ++ visible line ++ [10])).
  rewrite unescaped_plain by (vm_compute; intuition discriminate). rewrite unescaped_clear.
  rewrite unescaped_plain by (vm_compute; intuition discriminate). rewrite unescaped_plain by apply no_esc_visible. reflexivity.
Qed.
Lemma underline_row_seen width sev x y note : no_esc note ->
  unescaped (underline_row width sev x y note) false =
  bs "     | " ++ spaces (N.to_nat (shown_width width x)) ++ repeat (sev_mark sev) (N.to_nat (N.max (width y) 1)) ++ note ++ [10].
Proof.
  intros H. unfold underline_row. rewrite unescaped_plain by (vm_compute; intuition discriminate). rewrite unescaped_blue.
  rewrite unescaped_plain by (vm_compute; intuition discriminate). rewrite unescaped_clear.
  rewrite unescaped_plain by (vm_compute; intuition discriminate). rewrite unescaped_plain by apply no_esc_spaces.
  rewrite unescaped_color. rewrite unescaped_plain by apply no_esc_repeat. rewrite unescaped_plain by exact H. reflexivity.
Qed.

(** The columns a text takes when every character [c] takes [cw c]. *)
Definition columns (cw : N -> N) (s : list N) : N := fold_right N.add 0 (map cw s).
Lemma columns_app cw a b : columns cw (a ++ b) = columns cw a + columns cw b.
Proof. unfold columns. induction a as [|c a IH]; cbn [app map fold_right]; [lia|rewrite IH; lia]. Qed.
Lemma columns_shown cw s : shown_width (columns cw) s = columns cw (visible s).
Proof.
  unfold shown_width. induction s as [|c s IH]; [reflexivity|]. cbn [runs]. unfold visible in *. cbn [filter].
  destruct (hidden c); cbn [negb map fold_right]; [exact IH|].
  destruct (runs s) as [|p ps] eqn:E.
  { destruct s as [|d s]; cbn [runs] in E; [discriminate|]. destruct (hidden d); [discriminate|]. destruct (runs s); discriminate. }
  cbn [map fold_right] in IH |- *. unfold columns in *. cbn [map fold_right]. lia.
Qed.
Lemma columns_ascii cw s : (forall c, 32 <= c < 127 -> cw c = 1) -> Forall (fun c => 32 <= c < 127) s -> columns cw s = N.of_nat (length s).
Proof. intros H. induction 1 as [|c s B F IH]; [reflexivity|]. unfold columns in *. cbn [map fold_right length]. rewrite (H c B). lia. Qed.

Lemma dec_length4 n : n < 10000 -> (length (dec n) <= 4)%nat.
Proof.
  intros H.
  unfold dec. set (f := S (N.to_nat (N.log2 n))).
  assert (B : forall k f n acc, n < 10 ^ N.of_nat (S k) -> (length (dec_aux f n acc) <= S k + length acc)%nat).
  { clear. induction k as [|k IH]; intros f n acc H.
    - destruct f as [|f]; cbn [dec_aux]; [lia|]. cbv zeta. change (10 ^ N.of_nat 1) with 10 in H. rewrite N.div_small by exact H. change (0 =? 0) with true. cbn [length]. lia.
    - destruct f as [|f]; cbn [dec_aux]; [lia|]. cbv zeta. destruct (n / 10 =? 0); [cbn [length]; lia|].
      assert (n / 10 < 10 ^ N.of_nat (S k)). { apply N.div_lt_upper_bound; [discriminate|]. rewrite <- N.pow_succ_r by lia. rewrite <- Nat2N.inj_succ. exact H. }
      specialize (IH f (n / 10) ((48 + n mod 10) :: acc) H0). cbn [length] in IH |- *. lia. }
  specialize (B 3%nat f n [] H). cbn [length] in B. lia.
Qed.

(** The underline stands below the text it marks: on a terminal on which every
    character takes the width [cw] says (a printable ASCII character one
    column), the text before the mark is as wide as what precedes the first
    underline character, and the underline is as wide as the marked text, but
    at least one column.  Lines from number 10000 on have a wider margin, so
    there the underline is too far left. *)
Theorem C58_underline_aligned cw n sev x y z note :
  (forall c, 32 <= c < 127 -> cw c = 1) -> n + 1 < 10000 -> no_esc note ->
  exists margin margin' blanks,
    unescaped (source_row n (x ++ y ++ z)) false = margin ++ visible x ++ visible y ++ visible z ++ [10] /\
    unescaped (underline_row (columns cw) sev x y note) false =
      margin' ++ blanks ++ repeat (sev_mark sev) (N.to_nat (N.max (columns cw y) 1)) ++ note ++ [10] /\
    columns cw (margin ++ visible x) = columns cw (margin' ++ blanks) /\ columns cw margin = 7.
Proof.
  intros CW LN NE. rewrite source_row_seen, (underline_row_seen _ _ _ _ _ NE), columns_shown.
  exists (pad4 (n + 1) ++ bs " | "), (bs "     | "), (spaces (N.to_nat (columns cw (visible x)))).
  assert (M : columns cw (pad4 (n + 1) ++ bs " | ") = 7).
  { rewrite (columns_ascii cw _ CW).
    - rewrite app_length. unfold pad4. rewrite app_length. unfold spaces. rewrite repeat_length.
      pose proof (dec_length4 (n + 1) LN). change (length (bs " | ")) with 3%nat. lia.
    - apply Forall_app. split; [|repeat constructor; vm_compute; intuition discriminate].
      apply Forall_app. split.
      + apply Forall_forall. intros c H. apply repeat_spec in H. lia.
      + eapply Forall_impl; [|apply dec_digits]. intros c H. cbv beta in H. lia. }
  split; [unfold visible; rewrite !filter_app, <- !app_assoc; reflexivity|]. split; [reflexivity|]. split; [|exact M].
  rewrite !columns_app in *. rewrite (columns_ascii cw (bs "     | ") CW) by (repeat constructor; vm_compute; intuition discriminate).
  rewrite (columns_ascii cw (spaces _) CW).
  - unfold spaces. rewrite repeat_length. change (length (bs "     | ")) with 7%nat. lia.
  - apply Forall_forall. intros c H. apply repeat_spec in H. lia.
Qed.

(** No control character of the text reaches the terminal, but the tab. *)
Definition clean (s : list N) : Prop := Forall (fun c => c = 9 \/ c = 10 \/ ~ is_control c) s.
Lemma clean_app a b : clean (a ++ b) <-> clean a /\ clean b. Proof. apply Forall_app. Qed.
Lemma clean_no_esc a : clean a -> no_esc a.
Proof. intros H X. pose proof (proj1 (Forall_forall _ _) H 27 X) as B. cbv beta in B. unfold is_control in B. lia. Qed.
Lemma clean_visible s : clean (visible s).
Proof.
  apply Forall_forall. intros c H. apply filter_In in H. destruct H as [_ H]. unfold hidden in H. unfold is_control. lia.
Qed.
Lemma clean_spaces n : clean (spaces n).
Proof. apply Forall_forall. intros c H. apply repeat_spec in H. unfold is_control. lia. Qed.
Lemma clean_dec n : clean (dec n).
Proof. eapply Forall_impl; [|apply dec_digits]. intros c H. cbv beta in H. unfold is_control. lia. Qed.
Ltac clean_literal := match goal with |- clean ?s => let v := eval vm_compute in s in change (clean v) end;
  repeat (apply Forall_cons; [unfold is_control; lia|]); apply Forall_nil.
Definition seen (s : list N) : Prop := forall r, unescaped (s ++ r) false = unescaped s false ++ unescaped r false.
Lemma seen_plain s : no_esc s -> seen s.
Proof. intros H r. rewrite (unescaped_plain s r H). rewrite <- (app_nil_r s) at 2. rewrite (unescaped_plain s [] H). cbn [unescaped]. rewrite app_nil_r. reflexivity. Qed.
Lemma seen_app a b : seen a -> seen b -> seen (a ++ b).
Proof. intros A B r. rewrite <- app_assoc, A, B, (A b), app_assoc. reflexivity. Qed.
Definition safe (s : list N) : Prop := seen s /\ clean (unescaped s false).
Lemma safe_app a b : safe a -> safe b -> safe (a ++ b).
Proof. intros (A1 & A2) (B1 & B2). split; [apply seen_app; assumption|]. rewrite A1. apply clean_app. split; assumption. Qed.
Lemma safe_clean s : clean s -> safe s.
Proof.
  intros H. pose proof (clean_no_esc _ H) as NE. split; [apply seen_plain; exact NE|].
  rewrite <- (app_nil_r s), (unescaped_plain s [] NE). cbn [unescaped]. rewrite app_nil_r. exact H.
Qed.
Lemma safe_color s : safe (sev_color s). Proof. destruct s; (split; [intros r; reflexivity|constructor]). Qed.
Lemma safe_blue : safe blue. Proof. split; [intros r; reflexivity|constructor]. Qed.
Lemma safe_clear : safe plain_color. Proof. split; [intros r; reflexivity|constructor]. Qed.
Lemma safe_row n line : safe (source_row n line).
Proof.
  unfold source_row, pad4. repeat apply safe_app; try exact safe_blue; try exact safe_clear; apply safe_clean;
    [apply clean_spaces|apply clean_dec|clean_literal|clean_literal|apply clean_visible|clean_literal].
Qed.
Lemma safe_under width sev x y note : clean note -> safe (underline_row width sev x y note).
Proof.
  intros H. unfold underline_row. repeat apply safe_app; try exact safe_blue; try exact safe_clear; try apply safe_color; apply safe_clean;
    try apply clean_spaces; try assumption; try clean_literal.
  apply Forall_forall. intros c X. apply repeat_spec in X. unfold is_control. destruct sev; cbn in X; lia.
Qed.
Lemma safe_block width text sev ann l a e out : clean ann -> block width text sev ann l a e out -> safe out.
Proof.
  intros H. induction 1.
  - apply safe_app; [apply safe_row|]. apply safe_under. apply clean_app. split; [clean_literal|exact H].
  - apply safe_app; [apply safe_row|]. apply safe_app; [apply safe_under; constructor|assumption].
Qed.
Lemma safe_context text lo hi ls out : context_rows text lo hi ls out -> safe out.
Proof. induction 1; [apply safe_clean; constructor|apply safe_app; [apply safe_row|assumption]|assumption]. Qed.
Lemma safe_heading text d out : clean (g_description d) -> heading text d out -> safe out.
Proof.
  intros H [a b G T]. repeat apply safe_app; try exact safe_blue; try exact safe_clear; try apply safe_color; apply safe_clean;
    try apply clean_dec; try assumption; try clean_literal. destruct (g_severity d); clean_literal.
Qed.
Lemma displayed_safe width d text out :
  clean (g_description d) -> clean (g_annotation d) -> (forall h, g_hint d = Some h -> clean (h_annotation h)) ->
  displayed width text d out -> safe out.
Proof.
  intros C1 C2 C3 D.
  destruct D as [head ctx main E HD C M|h head c1 hb c2 main E LT HD CX1 H CX2 M|h head c1 main c2 hb E LT HD CX1 M CX2 H];
    repeat apply safe_app; try (eapply safe_heading; [exact C1|eassumption]); try (eapply safe_context; eassumption);
    try (eapply safe_block; [exact C2|exact M]); (eapply safe_block; [exact (C3 h E)|exact H]).
Qed.
Theorem C58_no_control_characters width d text out :
  clean (g_description d) -> clean (g_annotation d) -> (forall h, g_hint d = Some h -> clean (h_annotation h)) ->
  displayed width text d out -> clean (unescaped out false).
Proof. intros C1 C2 C3 D. exact (proj2 (displayed_safe width d text out C1 C2 C3 D)). Qed.

(** ** Examples *)
Definition example_text : list (list N) := lines (bs "a = 1" ++ [10] ++ [97; 32; 61; 32; 34; 233; 34] ++ [10; 10]).
Definition example_diag : ddiag :=
  mkdiag SevError (mkspan (mkpos 1 4) (mkpos 1 8)) (bs "duplicate key `a`") (bs "duplicate")
    (Some (mkhint (mkspan (mkpos 0 0) (mkpos 0 1)) (bs "first"))) [0].
Definition ascii_width (s : list N) : N := N.of_nat (length s).
(** The hypotheses are met and the text is the expected one. *)
Example C57_example :
  span_on_text example_text (g_span example_diag) /\ span_on_text example_text (mkspan (mkpos 0 0) (mkpos 0 1)) /\
  increasing (g_lines example_diag) /\
  exists out, display ascii_width example_diag example_text = Ok out /\
    unescaped out false =
      bs "error: duplicate key `a`" ++ [10] ++
      bs "    --> 2:4" ++ [10] ++
      bs "     |" ++ [10] ++
      bs "   1 | a = 1" ++ [10] ++
      bs "     | - first" ++ [10] ++
      bs "   2 | a = " ++ [34; 233; 34; 10] ++
      bs "     |     ^^^ duplicate" ++ [10].
Proof.
  split; [split; [|split]|split; [split; [|split]|split; [exact I|]]].
  - eexists. split; [reflexivity|]. exists (bs "a = "), [34; 233; 34]. split; reflexivity.
  - eexists. split; [reflexivity|]. exists (bs "a = " ++ [34; 233; 34]), []. split; reflexivity.
  - intros [H|(_ & H)]; vm_compute in H; discriminate.
  - eexists. split; [reflexivity|]. exists [], (bs "a = 1"). split; reflexivity.
  - eexists. split; [reflexivity|]. exists (bs "a"), (bs " = 1"). split; reflexivity.
  - intros [H|(_ & H)]; vm_compute in H; discriminate.
  - eexists. split; vm_compute; reflexivity.
Qed.
(** A span that ends inside a character panics. *)
Example C56_example : display ascii_width (mkdiag SevError (mkspan (mkpos 1 5) (mkpos 1 6)) [] [] None []) example_text = Panic.
Proof. vm_compute. reflexivity. Qed.
(** So does one that ends between the characters of a CRLF. *)
Example C56_crlf_example : display ascii_width (mkdiag SevError (mkspan (mkpos 0 0) (mkpos 0 2)) [] [] None []) (lines [97; 13; 10]) = Panic.
Proof. vm_compute. reflexivity. Qed.
(** Nothing of a control character is shown. *)
Example C58_example :
  exists out, display ascii_width (mkdiag SevWarning (mkspan (mkpos 0 2) (mkpos 0 3)) [] (bs "x") None []) (lines [97; 27; 98; 9]) = Ok out /\
    unescaped out false = bs "warning: " ++ [10] ++ bs "    --> 1:2" ++ [10] ++ bs "     |" ++ [10] ++
      bs "   1 | ab" ++ [9; 10] ++ bs "     |  ^ x" ++ [10].
Proof. eexists. split; vm_compute; reflexivity. Qed.

Print Assumptions C56_display_panics.
Print Assumptions C56_positions_on_lines.
Print Assumptions C57_display_text.
Print Assumptions C57_display_unique.
Print Assumptions C58_underline_aligned.
Print Assumptions C58_no_control_characters.
