(** Error spans and absence of panics of the semver parsers (C15, C05). *)
From Verif Require Import Base BaseProofs CommonModel SemverModel SemverSpec SemverOrder SemverParse
  SemverVersion SemverReq.
Ltac Zify.zify_post_hook ::= Z.div_mod_to_equations.

(** ** UTF-8 *)
Lemma valid_app a b : valid_utf8 a -> valid_utf8 b -> valid_utf8 (a ++ b).
Proof.
  intros (x & X & ->) (y & Y & ->). exists (x ++ y). split; [apply Forall_app; auto|]. unfold utf8. rewrite flat_map_app. reflexivity.
Qed.
Lemma valid_nil : valid_utf8 []. Proof. apply ascii_valid. constructor. Qed.
Lemma valid_one b : b < 128 -> valid_utf8 [b]. Proof. intros H. apply ascii_valid. repeat constructor. exact H. Qed.
Lemma valid_ascii_rest t r : Forall (fun b => b < 128) t -> valid_utf8 (t ++ r) -> valid_utf8 r.
Proof. induction 1 as [|y t Y A IH]; intros V; [exact V|]. apply IH. eapply valid_utf8_ascii; [exact V|exact Y]. Qed.
Lemma valid_char ch : is_scalar ch = true -> valid_utf8 (utf8_char ch).
Proof. intros H. exists [ch]. split; [repeat constructor; exact H|]. cbn. rewrite app_nil_r. reflexivity. Qed.
(** The first character of a valid text. *)
Lemma valid_cons b r : valid_utf8 (b :: r) ->
  exists ch r', is_scalar ch = true /\ b :: r = utf8_char ch ++ r' /\ valid_utf8 r' /\ utf8_first (b :: r) = Some ch /\
    (forall x, x < 128 -> ch = x <-> b = x).
Proof.
  intros ([|c cs] & F & E); [discriminate|]. pose proof (Forall_inv F) as F1. exists c, (utf8 cs). split; [exact F1|]. split; [exact E|].
  split; [exists cs; split; [exact (Forall_inv_tail F)|reflexivity]|]. rewrite E. split; [apply utf8_first_char; exact F1|].
  intros x X. cbn [utf8 flat_map] in E. unfold utf8_char in E. unfold is_scalar in F1.
  destruct (c <? 128) eqn:E1; [|destruct (c <? 2048) eqn:E2; [|destruct (c <? 65536) eqn:E3]]; cbn [app] in E; injection E as -> _; [tauto|lia..].
Qed.
Lemma valid_snoc s b : valid_utf8 (s ++ [b]) -> b < 128 -> valid_utf8 s.
Proof.
  intros (cs & F & E) H. destruct (rev cs) as [|c cs'] eqn:R.
  - apply (f_equal (@rev N)) in R. rewrite rev_involutive in R. subst cs. destruct s; discriminate.
  - apply (f_equal (@rev N)) in R. rewrite rev_involutive in R. cbn [rev] in R. subst cs. apply Forall_app in F as [F1 F2].
    exists (rev cs'). split; [exact F1|]. unfold utf8 in E. rewrite flat_map_app in E. cbn [flat_map] in E. rewrite app_nil_r in E.
    pose proof (Forall_inv F2) as S. unfold utf8_char in E. unfold is_scalar in S.
    destruct (c <? 128) eqn:E1; [|destruct (c <? 2048) eqn:E2; [|destruct (c <? 65536) eqn:E3]].
    + apply app_inj_tail in E as [E _]. exact E.
    + change [192 + c / 64; 128 + c mod 64] with ([192 + c / 64] ++ [128 + c mod 64]) in E. rewrite app_assoc in E. apply app_inj_tail in E as [_ E]. lia.
    + change [224 + c / 4096; 128 + (c / 64) mod 64; 128 + c mod 64] with ([224 + c / 4096; 128 + (c / 64) mod 64] ++ [128 + c mod 64]) in E.
      rewrite app_assoc in E. apply app_inj_tail in E as [_ E]. lia.
    + change [240 + c / 262144; 128 + (c / 4096) mod 64; 128 + (c / 64) mod 64; 128 + c mod 64]
        with ([240 + c / 262144; 128 + (c / 4096) mod 64; 128 + (c / 64) mod 64] ++ [128 + c mod 64]) in E.
      rewrite app_assoc in E. apply app_inj_tail in E as [_ E]. lia.
Qed.
Lemma valid_before s t : Forall (fun b => b < 128) t -> valid_utf8 (s ++ t) -> valid_utf8 s.
Proof.
  induction t as [|b t IH] using rev_ind; intros A V; [rewrite app_nil_r in V; exact V|]. apply Forall_app in A as [A B].
  apply IH; [exact A|]. rewrite app_assoc in V. eapply valid_snoc; [exact V|exact (Forall_inv B)].
Qed.

(** ** Small facts *)
Lemma not_first_nil (P : N -> Prop) : ~ first_in P []. Proof. intros (b & r & E & _). discriminate. Qed.
Lemma not_first_cons (P : N -> Prop) b r : ~ P b -> ~ first_in P (b :: r).
Proof. intros H (x & y & E & X). injection E as <- _. exact (H X). Qed.
Lemma is_digit_iff b : is_digit b = true <-> digit b. Proof. unfold is_digit, digit. lia. Qed.
Lemma ident_iff b : is_ident_nondigit b = true \/ is_digit b = true <-> ident_char b.
Proof. unfold is_ident_nondigit, is_digit, ident_char. lia. Qed.
Lemma blank_spaces n : blank (spaces n). Proof. apply Forall_forall. intros x H. apply repeat_spec in H. auto. Qed.
Lemma spaces_ascii n : Forall (fun b => b < 128) (spaces n).
Proof. apply Forall_forall. intros x H. apply repeat_spec in H. lia. Qed.
Lemma digits_ascii ds : digits ds -> Forall (fun b => b < 128) ds.
Proof. apply Forall_impl. intros b H. unfold is_digit in H. lia. Qed.
Lemma digits_all ds : digits ds <-> all_digits ds.
Proof. unfold digits, all_digits. split; apply Forall_impl; intros b; apply is_digit_iff. Qed.
Lemma wl_lt w : wl_byte w < 128.
Proof. destruct w; reflexivity. Qed.
Lemma wl_wild w : wildcard (wl_byte w).
Proof. destruct w; cbn; unfold wildcard; cbn; auto. Qed.
Lemma ends_snoc a b : ends_with (a ++ [b]) b. Proof. exists a. reflexivity. Qed.
Lemma ends_snoc_inv a b c : ends_with (a ++ [b]) c -> c = b.
Proof. intros (x & E). apply app_inj_tail in E as [_ E]. auto. Qed.

Lemma ascii_span p n : span_ascii_char (pos_plus p n) = mkspan (pos_plus p n) (pos_plus p (n + 1)).
Proof. unfold span_ascii_char, pos_plus. cbn. f_equal. f_equal. lia. Qed.

(** ** Fields *)
Lemma field_start x : (forall b, ends_with x b -> ~ numeric b) -> in_field FMajor x.
Proof. intros H. exists x, []. rewrite app_nil_r. repeat split; [exact H|constructor]. Qed.
Lemma field_more f a t : in_field f a -> Forall (fun b => digit b \/ wildcard b) t -> in_field f (a ++ t).
Proof.
  intros (x & y & -> & X & Y & C) T. exists x, (y ++ t). rewrite app_assoc. split; [reflexivity|]. split; [exact X|]. split.
  - apply Forall_app. split; [exact Y|]. revert T. apply Forall_impl. unfold numeric. tauto.
  - rewrite count_occ_app, C. enough (H : count_occ N.eq_dec t 46 = 0%nat) by lia. apply count_occ_not_In. intros I.
    rewrite Forall_forall in T. specialize (T _ I). unfold digit, wildcard in T. lia.
Qed.
Lemma field_dot f f' a : in_field f a -> field_index f' = S (field_index f) -> in_field f' (a ++ [46]).
Proof.
  intros (x & y & -> & X & Y & C) S. exists x, (y ++ [46]). rewrite app_assoc. split; [reflexivity|]. split; [exact X|]. split.
  - apply Forall_app. split; [exact Y|]. constructor; [right; right; reflexivity|constructor].
  - rewrite count_occ_app, C, S. cbn. lia.
Qed.
Lemma digits_field ds : all_digits ds -> Forall (fun b => digit b \/ wildcard b) ds.
Proof. apply Forall_impl. unfold digit. tauto. Qed.
Lemma wl_field w : Forall (fun b => digit b \/ wildcard b) [wl_byte w].
Proof. constructor; [right; apply wl_wild|constructor]. Qed.

Section Inv.
Context (prof : profile) (p : pos) (input : bytes).

(** The iterator after [pre]. *)
Definition inv (pre : bytes) (c : citer) : Prop :=
  ci_start c = p /\ ci_idx c = blen pre /\ input = pre ++ ci_rest c /\ valid_utf8 pre /\ valid_utf8 (ci_rest c).

Definition panics : Prop := prof = Debug /\ contains_overflow input.

Definition good {A} (Q : A -> Prop) (r : res error A) : Prop :=
  match r with
  | Ok a => Q a
  | Err e => error_marks p input e
  | Panic => panics
  end.

Lemma good_bind {A B} (Q : A -> Prop) (R : B -> Prop) r f :
  good Q r -> (forall a, Q a -> good R (f a)) -> good R (bind r f).
Proof. destruct r as [a|e|]; cbn [good bind]; auto. Qed.

Lemma inv_pos pre c : inv pre c -> ci_pos c = pos_plus p (blen pre).
Proof. intros (H & L & _). unfold ci_pos. rewrite H, L. reflexivity. Qed.

(** An error at the iterator. *)
Lemma marks_at pre c b r e : inv pre c -> ci_rest c = b ++ r -> valid_utf8 b -> valid_utf8 r ->
  error_span e = mkspan (ci_pos c) (pos_plus (ci_pos c) (blen b)) -> error_says e pre b r -> error_marks p input e.
Proof.
  intros I R VB VR E S. pose proof (inv_pos _ _ I) as P. destruct I as (_ & _ & EI & VP & _). exists pre, b, r. rewrite EI, R.
  repeat (split; [assumption||reflexivity|]). split; [|exact S]. rewrite E, P. f_equal. unfold pos_plus. cbn. f_equal. lia.
Qed.
Lemma marks_here pre c e : inv pre c -> error_span e = span_pos (ci_pos c) -> error_says e pre [] (ci_rest c) -> error_marks p input e.
Proof.
  intros I E S. assert (V : valid_utf8 (ci_rest c)) by apply I. eapply (marks_at pre c []); [exact I|reflexivity|apply valid_nil|exact V| |exact S].
  rewrite E. unfold span_pos. f_equal. unfold pos_plus. destruct (ci_pos c) as [l x]. cbn. f_equal. rewrite blen_nil. lia.
Qed.
Lemma marks_one pre c b r e : inv pre c -> ci_rest c = b :: r -> b < 128 ->
  error_span e = span_ascii_char (ci_pos c) -> error_says e pre [b] r -> error_marks p input e.
Proof.
  intros I R B E S. assert (V : valid_utf8 (ci_rest c)) by apply I. rewrite R in V. eapply (marks_at pre c [b]); [exact I|exact R|apply valid_one; exact B| |exact E|exact S].
  eapply valid_utf8_ascii; eassumption.
Qed.
Lemma marks_char pre c ch r e : inv pre c -> is_scalar ch = true -> ci_rest c = utf8_char ch ++ r -> valid_utf8 r ->
  error_span e = span_from_pos_len (ci_pos c) (len_utf8 ch) -> error_says e pre (utf8_char ch) r -> error_marks p input e.
Proof.
  intros I SC R V E S. eapply (marks_at pre c (utf8_char ch)); [exact I|exact R|apply valid_char; exact SC|exact V| |exact S].
  rewrite E, utf8_char_len. reflexivity.
Qed.

Lemma next_inv pre c b : inv pre c -> peek_byte c = Some b -> b < 128 -> inv (pre ++ [b]) (next_byte c).
Proof.
  destruct c as [st idx [|x r]]; cbn; [discriminate|]. intros (E & L & EI & VP & V) H LT. injection H as ->. cbn in *.
  split; [exact E|]. cbn. rewrite blen_app, blen_cons, blen_nil, <- app_assoc. split; [lia|]. split; [exact EI|].
  split; [apply valid_app; [exact VP|apply valid_one; exact LT]|]. eapply valid_utf8_ascii; eassumption.
Qed.
Lemma next_rest c b : peek_byte c = Some b -> ci_rest c = b :: ci_rest (next_byte c).
Proof. destruct c as [st idx [|x r]]; cbn; [discriminate|]. intros H. injection H as ->. reflexivity. Qed.
Lemma peek_none c : peek_byte c = None -> ci_rest c = [].
Proof. unfold peek_byte. destruct (ci_rest c); [reflexivity|discriminate]. Qed.
Lemma adv_ascii pre c t c' : inv pre c -> ci_rest c = t ++ ci_rest c' -> Forall (fun b => b < 128) t -> ci_start c' = ci_start c ->
  ci_idx c' = ci_idx c + blen t -> inv (pre ++ t) c'.
Proof.
  intros (E & L & EI & VP & V) R A S L'. split; [congruence|]. rewrite blen_app. split; [lia|]. rewrite <- app_assoc, <- R. split; [exact EI|].
  split; [apply valid_app; [exact VP|apply ascii_valid; exact A]|]. rewrite R in V. eapply valid_ascii_rest; eassumption.
Qed.
Lemma eat_ws_inv' pre c : inv pre c -> exists n, inv (pre ++ spaces n) (eat_whitespace c) /\ ci_rest c = spaces n ++ ci_rest (eat_whitespace c) /\
  ~ first_in (eq 32) (ci_rest (eat_whitespace c)).
Proof.
  destruct c as [st idx r]. intros I. destruct (eat_whitespace_inv st idx r) as (n & r' & -> & NS & ->). exists n.
  split; [|split; [reflexivity|intros (b & x & E & <-); cbn in E; exact (NS _ E)]].
  eapply adv_ascii; [exact I|reflexivity|apply spaces_ascii|reflexivity|]. cbn. rewrite blen_spaces. reflexivity.
Qed.

Lemma peek_char_ok {E} pre c b : inv pre c -> peek_byte c = Some b ->
  exists ch r, @peek_char E c = Ok (Some ch) /\ is_scalar ch = true /\ ci_rest c = utf8_char ch ++ r /\ valid_utf8 r /\ (forall x, x < 128 -> ch = x <-> b = x).
Proof.
  intros (_ & _ & _ & _ & V) H. unfold peek_char. unfold peek_byte in H. destruct (ci_rest c) as [|x r]; [discriminate|]. injection H as ->.
  destruct (valid_cons _ _ V) as (ch & r' & S & E1 & V' & F & X). exists ch, r'. rewrite F. repeat (split; [assumption||reflexivity|]). exact X.
Qed.
Lemma peek_unwrap_ok {E} pre c b : inv pre c -> peek_byte c = Some b ->
  exists ch r, @peek_char_unwrap E c = Ok ch /\ is_scalar ch = true /\ ci_rest c = utf8_char ch ++ r /\ valid_utf8 r /\ (forall x, x < 128 -> ch = x <-> b = x).
Proof.
  intros I H. destruct (@peek_char_ok E _ _ _ I H) as (ch & r & P & R). exists ch, r. unfold peek_char_unwrap. rewrite P. split; [reflexivity|exact R].
Qed.
Lemma not_digit_char b ch : (forall x, x < 128 -> ch = x <-> b = x) -> ~ digit b -> ~ digit ch.
Proof. intros X H D. apply H. rewrite (proj1 (X ch ltac:(unfold digit in D; lia)) eq_refl). exact D. Qed.

Lemma eat_byte_inv b pre c x c' : b < 128 -> inv pre c -> eat_byte b c = (x, c') ->
  (x = true /\ inv (pre ++ [b]) c' /\ ci_rest c = b :: ci_rest c') \/ (x = false /\ c' = c /\ ~ first_in (eq b) (ci_rest c)).
Proof.
  intros LT I. unfold eat_byte. destruct (peek_byte c) as [y|] eqn:P.
  - destruct (N.eqb_spec y b) as [->|NE]; intros H; injection H as <- <-.
    + left. split; [reflexivity|]. split; [apply next_inv; assumption|apply next_rest; exact P].
    + right. split; [reflexivity|]. split; [reflexivity|]. rewrite (next_rest _ _ P). apply not_first_cons. congruence.
  - intros H; injection H as <- <-. right. split; [reflexivity|]. split; [reflexivity|]. rewrite (peek_none _ P). apply not_first_nil.
Qed.

Lemma eat_wildcard_inv' pre c o c' : inv pre c -> eat_wildcard c = (o, c') ->
  (exists w, o = Some w /\ inv (pre ++ [wl_byte w]) c' /\ ci_rest c = wl_byte w :: ci_rest c' /\ peek_byte c = Some (wl_byte w)) \/
  (o = None /\ c' = c /\ ~ first_in wildcard (ci_rest c)).
Proof.
  intros I E. destruct c as [st idx r]. apply eat_wildcard_inv in E as [(w & r' & -> & -> & ->)|(-> & H & ->)].
  - left. exists w. assert (PB : peek_byte (mkci st idx (wl_text w ++ r')) = Some (wl_byte w)) by (destruct w; reflexivity).
    assert (NB : next_byte (mkci st idx (wl_text w ++ r')) = mkci st (idx + 1) r') by (destruct w; reflexivity).
    split; [reflexivity|]. rewrite <- NB. split; [apply next_inv; [exact I|exact PB|apply wl_lt]|]. split; [apply next_rest; exact PB|exact PB].
  - right. split; [reflexivity|]. split; [reflexivity|]. cbn. destruct H as (H1 & H2 & H3). intros (b & x & -> & W). cbn in *. unfold wildcard in W. intuition congruence.
Qed.

Lemma expect_dot_good pre c f : inv pre c -> in_field f pre -> good (inv (pre ++ [46])) (expect_dot c f).
Proof.
  intros I F. unfold expect_dot. destruct (peek_byte c) as [b|] eqn:P.
  - destruct (N.eqb_spec b 46) as [->|NE]; [exact (next_inv pre c 46 I P eq_refl)|].
    destruct (@peek_unwrap_ok error _ _ _ I P) as (ch & r & -> & SC & R & V & X). cbn [bind good].
    eapply marks_char; [exact I|exact SC|exact R|exact V|reflexivity|]. split; [split; [exact SC|reflexivity]|]. split; [|exact F].
    intros E. apply NE, X; [reflexivity|exact E].
  - cbn [good]. eapply marks_here; [exact I|reflexivity|]. split; [reflexivity|]. split; [apply peek_none; exact P|exact F].
Qed.

Lemma expect_comma_good pre c : inv pre c -> ~ first_in (eq 32) (ci_rest c) ->
  good (fun x => (fst x = None /\ snd x = c /\ ci_rest c = []) \/ (fst x = Some (blen pre) /\ inv (pre ++ [44]) (snd x) /\ ci_rest c = 44 :: ci_rest (snd x)))
    (expect_comma_or_end c).
Proof.
  intros I NS. unfold expect_comma_or_end. destruct (peek_byte c) as [b|] eqn:P.
  - destruct (N.eqb_spec b 44) as [->|NE].
    + right. cbn [fst snd]. unfold ci_offset. split; [rewrite (proj1 (proj2 I)); reflexivity|]. split; [exact (next_inv pre c 44 I P eq_refl)|apply next_rest; exact P].
    + cbn [good]. eapply marks_here; [exact I|reflexivity|]. split; [reflexivity|]. rewrite (next_rest _ _ P) in *. split; [discriminate|]. split; [|exact NS].
      apply not_first_cons. congruence.
  - left. cbn [fst snd]. split; [reflexivity|]. split; [reflexivity|]. apply peek_none. exact P.
Qed.

(** The digit loop. *)
Lemma int_loop_good st : forall r idx,
  match @int_loop error prof st idx r with
  | Ok (st', idx', r') => exists ds, r = ds ++ r' /\ digits ds /\ idx' = idx + blen ds /\ ~ first_in digit r' /\
      (st' = None -> match st with Some a => forall b, a <= b -> u32_max < val_acc b ds | None => True end)
  | Err _ => False
  | Panic => prof = Debug /\ exists a d1 r', st = Some a /\ r = d1 ++ r' /\ digits d1 /\
               4294967296 <= val_acc a d1 <= 4294967299
  end.
Proof.
  intros r. revert st. induction r as [|b r IH]; intros st idx.
  - cbn [int_loop]. exists []. rewrite blen_nil. repeat split; try constructor; [lia|apply not_first_nil|]. destruct st; [discriminate|auto].
  - cbn [int_loop]. destruct (is_digit b) eqn:D.
    2:{ exists []. rewrite blen_nil. repeat split; try constructor; [lia|apply not_first_cons; rewrite <- is_digit_iff; congruence|]. destruct st; [discriminate|auto]. }
    destruct (@int_step error prof st (digit_val b)) as [st'|e|] eqn:S; cbn [bind].
    + specialize (IH st' (idx + 1)). destruct (int_loop prof st' (idx + 1) r) as [[[s i] r']|e|].
      * destruct IH as (ds & -> & DD & -> & NF & OV). exists (b :: ds). rewrite blen_cons. repeat split; [constructor; assumption|lia|exact NF|].
        intros SN. specialize (OV SN). destruct st as [a0|]; [|exact I]. intros b0 LE. rewrite val_acc_cons. unfold int_step in S.
        destruct (a0 * 10 <=? u32_max) eqn:L1.
        -- destruct (a0 * 10 + digit_val b <=? u32_max) eqn:L2.
           ++ injection S as <-. apply OV. lia.
           ++ destruct prof; [discriminate|]. injection S as <-. pose proof (val_acc_ge (10 * b0 + digit_val b) ds). lia.
        -- pose proof (val_acc_ge (10 * b0 + digit_val b) ds). lia.
      * exact IH.
      * destruct IH as (-> & a & d1 & r' & -> & -> & DD & R). split; [reflexivity|].
        unfold int_step in S. destruct st as [a0|]; [|discriminate].
        exists a0, (b :: d1), r'. split; [reflexivity|]. split; [reflexivity|]. split; [constructor; assumption|].
        destruct (a0 * 10 <=? u32_max); [|discriminate].
        destruct (a0 * 10 + digit_val b <=? u32_max); [|discriminate]. injection S as <-.
        unfold val_acc. cbn [fold_left]. replace (10 * a0 + digit_val b) with (a0 * 10 + digit_val b) by lia. exact R.
    + unfold int_step in S. destruct st as [a0|]; [|discriminate]. destruct (a0 * 10 <=? u32_max); [|discriminate].
      destruct (a0 * 10 + digit_val b <=? u32_max); [discriminate|]. destruct prof; discriminate.
    + unfold int_step in S. destruct st as [a0|]; [|discriminate]. destruct (a0 * 10 <=? u32_max) eqn:L1; [|discriminate].
      destruct (a0 * 10 + digit_val b <=? u32_max) eqn:L2; [discriminate|]. destruct prof; [|discriminate].
      split; [reflexivity|]. exists a0, [b], r. split; [reflexivity|]. split; [reflexivity|].
      split; [repeat constructor; assumption|]. unfold val_acc. cbn [fold_left].
      unfold is_digit, digit_val, u32_max in *. lia.
Qed.

Lemma parse_int_good pre c f : inv pre c -> in_field f pre ->
  good (fun x => exists ds, ds <> [] /\ all_digits ds /\ inv (pre ++ ds) (snd x) /\ in_field f (pre ++ ds) /\ ci_rest c = ds ++ ci_rest (snd x)) (parse_int prof c f).
Proof.
  intros I F. assert (DONE : forall ds v c', ds <> [] -> all_digits ds -> inv (pre ++ ds) c' -> ci_rest c = ds ++ ci_rest c' ->
    good (fun x => exists ds, ds <> [] /\ all_digits ds /\ inv (pre ++ ds) (snd x) /\ in_field f (pre ++ ds) /\ ci_rest c = ds ++ ci_rest (snd x)) (Ok (v, c') : res error (N * citer))).
  { intros ds v c' NE D I' R. exists ds. cbn. repeat (split; [assumption|]). split; [apply field_more; [exact F|apply digits_field; exact D]|exact R]. }
  unfold parse_int. destruct (peek_byte c) as [b|] eqn:P.
  2:{ cbn [good]. eapply marks_here; [exact I|reflexivity|]. split; [reflexivity|]. split; [apply peek_none; exact P|exact F]. }
  pose proof (next_rest _ _ P) as NR.
  destruct (N.eqb_spec b 48) as [->|B0].
  - pose proof (next_inv _ _ _ I P eq_refl) as I1.
    assert (D0 : good (fun x => exists ds, ds <> [] /\ all_digits ds /\ inv (pre ++ ds) (snd x) /\ in_field f (pre ++ ds) /\ ci_rest c = ds ++ ci_rest (snd x)) (Ok (0, next_byte c) : res error (N * citer))).
    { apply (DONE [48]); [discriminate|repeat constructor; lia|exact I1|exact NR]. }
    destruct (peek_byte (next_byte c)) as [d|] eqn:P1; [|exact D0].
    destruct (is_digit d) eqn:DG; [|exact D0].
    rewrite (inv_pos _ _ I1). unfold pos_minus, pos_plus. cbn [p_char p_line]. rewrite blen_app, blen_cons, blen_nil.
    replace (1 <=? p_char p + (blen pre + (1 + 0))) with true by lia. cbn [good].
    eapply marks_one; [exact I|exact NR|reflexivity| |].
    + cbn [error_span]. rewrite (inv_pos _ _ I). unfold pos_plus. f_equal. f_equal. lia.
    + split; [reflexivity|]. split; [|exact F]. rewrite (next_rest _ _ P1). exists d, (ci_rest (next_byte (next_byte c))). split; [reflexivity|apply is_digit_iff; exact DG].
  - destruct ((49 <=? b) && (b <=? 57)) eqn:B1.
    + assert (DB : is_digit b = true) by (unfold is_digit; lia).
      destruct c as [st idx [|x r]]; [discriminate|]. cbn in P. injection P as ->. clear NR.
      cbn [next_byte ci_rest ci_start ci_idx] in *.
      pose proof (int_loop_good (Some (digit_val b)) r (idx + 1)) as L.
      destruct (int_loop prof (Some (digit_val b)) (idx + 1) r) as [[[s i] r']|e|]; cbn [bind].
      * destruct L as (ds & -> & DD & -> & NF & OV). assert (D2 : digits (b :: ds)) by (constructor; assumption).
        destruct s as [v|].
        -- apply (DONE (b :: ds)); [discriminate|apply digits_all; exact D2| |reflexivity].
           eapply adv_ascii; [exact I|reflexivity|apply digits_ascii; exact D2|reflexivity|]. cbn. rewrite blen_cons. lia.
        -- specialize (OV eq_refl (digit_val b) ltac:(lia)). cbn [good].
           eapply (marks_at pre _ (b :: ds) r'); [exact I|reflexivity|apply ascii_valid, digits_ascii; exact D2| | |].
           ++ destruct I as (_ & _ & _ & _ & V). cbn in V. change (b :: ds ++ r') with ((b :: ds) ++ r') in V. eapply valid_ascii_rest; [|exact V]. apply digits_ascii. exact D2.
           ++ cbn [error_span]. unfold span_from_pos_len, ci_pos. cbn [ci_start ci_idx]. f_equal. f_equal. rewrite blen_cons. lia.
           ++ split; [apply digits_all; exact D2|]. split; [|split; [exact NF|exact F]]. unfold dec_val. rewrite val_acc_cons. exact OV.
      * destruct L.
      * destruct L as (PD & a & d1 & r' & EA & -> & DD & R). injection EA as <-.
        split; [assumption|]. destruct I as (_ & _ & EI & _). cbn in EI.
        exists pre, (val_acc (digit_val b) d1), r'. split; [|assumption].
        rewrite dec_val_acc by (assumption || (unfold digit_val; lia)).
        rewrite dec_small by (unfold digit_val; lia).
        replace (48 + digit_val b) with b by (unfold digit_val; lia). rewrite <- app_assoc. exact EI.
    + destruct (@peek_unwrap_ok error _ _ _ I P) as (ch & r & -> & SC & R & V & X). cbn [bind good].
      eapply marks_char; [exact I|exact SC|exact R|exact V|reflexivity|]. split; [split; [exact SC|reflexivity]|]. split; [|exact F].
      apply (not_digit_char b); [exact X|]. unfold digit. lia.
Qed.

Lemma ident_nondigit_ascii b : is_ident_nondigit b = true -> b < 128.
Proof. unfold is_ident_nondigit. lia. Qed.

(** [pre] is before the segment, [w] is what was read of it. *)
Lemma ident_loop_good f start srest : forall r pre w nd,
  inv (pre ++ w) (mkci p (blen (pre ++ w)) r) -> Forall ident_char w -> (nd = false -> all_digits w) ->
  ((start = blen pre /\ ends_with pre (field_sign f)) \/ (start < blen pre /\ ends_with pre 46)) ->
  good (fun x => exists t, inv (pre ++ t) (snd x)) (ident_loop p f start srest (blen pre) (w ++ r) nd (blen (pre ++ w)) r).
Proof.
  induction r as [|b r IH]; intros pre w nd I W ND ST.
  - cbn [ident_loop]. destruct (N.eqb_spec (blen pre) (blen (pre ++ w))) as [SE|SE].
    + assert (w = []) by (destruct w; [reflexivity|rewrite blen_app, blen_cons in SE; lia]). subst w. rewrite app_nil_r in *.
      destruct ST as [(-> & EW)|(LT & EW)].
      * rewrite N.eqb_refl. cbn [andb negb good]. eapply marks_here; [exact I|reflexivity|]. cbn. split; [reflexivity|]. split; [exact EW|]. split; apply not_first_nil.
      * replace (start =? blen pre) with false by lia. cbn [andb good]. eapply marks_here; [exact I|reflexivity|]. cbn. split; [reflexivity|]. split; [apply not_first_nil|].
        left. exact EW.
    + match goal with |- context [if ?x then _ else _] => destruct x eqn:C end; [|exists w; exact I].
      rewrite !andb_true_iff in C. destruct C as (((C1 & C2) & C3) & C4). destruct f; [|discriminate]. cbn [good].
      destruct w as [|x w]; [rewrite app_nil_r in SE; congruence|]. rewrite app_nil_r in *.
      assert (x = 48). { cbn [app] in C4. destruct x as [|q]; [discriminate|]. repeat (destruct q as [q|q|]; try discriminate). reflexivity. } subst x.
      assert (A : all_digits (48 :: w)) by (apply ND; destruct nd; [discriminate|reflexivity]).
      destruct I as (E1 & E2 & E3 & E4 & E5). cbn [ci_rest] in *. rewrite app_nil_r in E3.
      assert (AW : Forall (fun b => b < 128) (48 :: w)) by (apply digits_ascii, digits_all; exact A).
      exists pre, [48], w. split; [exact E3|]. split; [eapply valid_before; [exact AW|exact E4]|]. split; [apply valid_one; reflexivity|].
      split; [apply ascii_valid; exact (Forall_inv_tail AW)|]. split; [apply ascii_span|]. cbn. split; [reflexivity|]. split; [reflexivity|].
      split; [tauto|]. exists w, []. rewrite app_nil_r. split; [reflexivity|]. split.
      * intros ->. rewrite blen_app, blen_cons, blen_nil in C2. lia.
      * split; [exact (Forall_inv_tail A)|apply not_first_nil].
  - cbn [ident_loop].
    assert (NX : b < 128 -> inv ((pre ++ w) ++ [b]) (mkci p (blen (pre ++ w) + 1) r)) by (intros H; exact (next_inv _ _ b I eq_refl H)).
    assert (NXT : forall nd', b < 128 -> ident_char b -> (nd' = false -> all_digits (w ++ [b])) ->
      good (fun x => exists t, inv (pre ++ t) (snd x)) (ident_loop p f start srest (blen pre) (w ++ b :: r) nd' (blen (pre ++ w) + 1) r)).
    { intros nd' H IC D. specialize (NX H). rewrite <- app_assoc in NX. replace (blen (pre ++ w) + 1) with (blen (pre ++ w ++ [b])) in * by (rewrite !blen_app, blen_cons, blen_nil; lia).
      replace (w ++ b :: r) with ((w ++ [b]) ++ r) by (rewrite <- app_assoc; reflexivity). apply IH; [exact NX|apply Forall_app; split; [exact W|constructor; [exact IC|constructor]]|exact D|exact ST]. }
    destruct (is_ident_nondigit b) eqn:NDG.
    { apply NXT; [apply ident_nondigit_ascii; exact NDG|apply ident_iff; auto|discriminate]. }
    destruct (is_digit b) eqn:DG.
    { apply NXT; [unfold is_digit in DG; lia|apply ident_iff; auto|]. intros H. apply Forall_app. split; [exact (ND H)|]. constructor; [apply is_digit_iff; exact DG|constructor]. }
    assert (NI : ~ first_in ident_char (b :: r)) by (apply not_first_cons; rewrite <- ident_iff; intuition congruence).
    destruct (N.eqb_spec (blen pre) (blen (pre ++ w))) as [SE|SE].
    + assert (w = []) by (destruct w; [reflexivity|rewrite blen_app, blen_cons in SE; lia]). subst w. rewrite app_nil_r in *.
      destruct ST as [(-> & EW)|(LT & EW)].
      * rewrite N.eqb_refl. cbn [andb]. destruct (N.eq_dec b 46) as [->|NE].
        -- cbn [negb good]. eapply marks_here; [exact I|reflexivity|]. cbn. split; [reflexivity|]. split; [exact NI|]. right. split; [exact EW|]. exists 46, r. auto.
        -- replace (match b with 46 => true | _ => false end) with false.
           2:{ destruct b as [|q]; [reflexivity|]. repeat (destruct q as [q|q|]; try reflexivity; try congruence). }
           cbn [negb good]. eapply marks_here; [exact I|reflexivity|]. cbn. split; [reflexivity|]. split; [exact EW|]. split; [exact NI|]. apply not_first_cons. congruence.
      * replace (start =? blen pre) with false by lia. cbn [andb good]. eapply marks_here; [exact I|reflexivity|]. cbn. split; [reflexivity|]. split; [exact NI|].
        left. exact EW.
    + match goal with |- context [if ?x then Some (Err _) else _] => destruct x eqn:C end.
      * rewrite !andb_true_iff in C. destruct C as (((C1 & C2) & C3) & C4). destruct f; [|discriminate]. cbn [good].
        destruct w as [|x w]; [rewrite app_nil_r in SE; congruence|].
        assert (x = 48). { cbn [app] in C4. destruct x as [|q]; [discriminate|]. repeat (destruct q as [q|q|]; try discriminate). reflexivity. } subst x.
        assert (A : all_digits (48 :: w)) by (apply ND; destruct nd; [discriminate|reflexivity]).
        destruct I as (E1 & E2 & E3 & E4 & E5). cbn [ci_rest] in *.
        assert (AW : Forall (fun b => b < 128) (48 :: w)) by (apply digits_ascii, digits_all; exact A).
        exists pre, [48], (w ++ b :: r). split; [rewrite E3, <- app_assoc; reflexivity|]. split; [eapply valid_before; [exact AW|exact E4]|]. split; [apply valid_one; reflexivity|].
        split; [apply valid_app; [apply ascii_valid; exact (Forall_inv_tail AW)|exact E5]|]. split; [apply ascii_span|]. cbn [error_says]. split; [reflexivity|]. split; [reflexivity|].
        split; [cbn; tauto|]. exists w, (b :: r). split; [reflexivity|]. split.
        -- intros ->. rewrite blen_app, blen_cons, blen_nil in C2. lia.
        -- split; [exact (Forall_inv_tail A)|exact NI].
      * assert (K : good (fun x => exists t, inv (pre ++ t) (snd x)) (Ok (firstn (N.to_nat (blen (pre ++ w) - start)) srest, mkci p (blen (pre ++ w)) (b :: r)))).
        { exists w. exact I. }
        destruct (N.eq_dec b 46) as [->|NE].
        -- specialize (NX eq_refl). assert (L : blen (pre ++ w) + 1 = blen ((pre ++ w) ++ [46])) by (rewrite (blen_app (pre ++ w)), blen_cons, blen_nil; lia).
           rewrite L in *. pose proof (IH ((pre ++ w) ++ [46]) [] false) as G. rewrite !app_nil_r in G. cbn [app] in G.
           specialize (G NX (Forall_nil _) (fun _ => Forall_nil _)).
           assert (G2 : good (fun x => exists t, inv (((pre ++ w) ++ [46]) ++ t) (snd x)) (ident_loop p f start srest (blen ((pre ++ w) ++ [46])) r false (blen ((pre ++ w) ++ [46])) r)).
           { apply G. right. split; [|apply ends_snoc]. rewrite <- L, blen_app. destruct ST as [(-> & _)|(LT & _)]; lia. }
           revert G2. match goal with |- good _ ?x -> good _ ?y => change y with x; destruct x as [v|e|] end; cbn [good]; [|exact (fun H => H)..].
           intros (t & H). exists (w ++ [46] ++ t). rewrite !app_assoc. exact H.
        -- destruct b as [|q]; [exact K|]. repeat (destruct q as [q|q|]; try exact K; try congruence).
Qed.

Lemma parse_ident_good pre c f : inv pre c -> ends_with pre (field_sign f) -> good (fun x => exists t, inv (pre ++ t) (snd x)) (parse_ident c f).
Proof.
  intros I EW. unfold parse_ident. destruct I as (E1 & E2 & I). rewrite E1, E2.
  pose proof (ident_loop_good f (blen pre) (ci_rest c) (ci_rest c) pre [] false) as G. cbn [app] in G. rewrite !app_nil_r in G. apply G.
  - split; [reflexivity|]. split; [reflexivity|exact I].
  - constructor.
  - constructor.
  - left. auto.
Qed.

Lemma opt_ident_good f pre c : inv pre c -> good (fun x => exists t, inv (pre ++ t) (snd x)) (parse_opt_ident (eat_byte (field_sign f)) f c).
Proof.
  intros I. unfold parse_opt_ident. destruct (eat_byte (field_sign f) c) as [x c1] eqn:E.
  destruct (eat_byte_inv (field_sign f) pre c x c1) as [(-> & I1 & _)|(-> & -> & _)]; [destruct f; reflexivity|exact I|exact E| |].
  - eapply good_bind; [eapply parse_ident_good; [exact I1|apply ends_snoc]|]. intros [s c2] (t & I2). cbn in *. exists ([field_sign f] ++ t). rewrite app_assoc. exact I2.
  - exists []. rewrite app_nil_r. exact I.
Qed.

(** [str::trim_end_matches(' ')] *)
Lemma trim_start_spec s : exists n, s = spaces n ++ trim_start_sp s /\ ~ first_in (eq 32) (trim_start_sp s).
Proof.
  induction s as [|b s (n & E & H)]; [exists O; split; [reflexivity|apply not_first_nil]|].
  destruct (N.eq_dec b 32) as [->|NE].
  - exists (S n). cbn [trim_start_sp spaces repeat app]. split; [f_equal; exact E|exact H].
  - exists O. replace (trim_start_sp (b :: s)) with (b :: s).
    + split; [reflexivity|apply not_first_cons; congruence].
    + destruct b as [|q]; [reflexivity|]. repeat (destruct q as [q|q|]; try reflexivity; try congruence).
Qed.
Lemma rev_spaces n : rev (spaces n) = spaces n.
Proof.
  unfold spaces. induction n as [|n IH]; [reflexivity|]. cbn [repeat rev]. rewrite IH. clear IH. induction n as [|n IH]; [reflexivity|]. cbn. f_equal. exact IH.
Qed.
Lemma trim_end_spec s : exists n, s = trim_end_sp s ++ spaces n /\ ~ ends_with (trim_end_sp s) 32.
Proof.
  destruct (trim_start_spec (rev s)) as (n & E & H). exists n. unfold trim_end_sp. split.
  - rewrite <- (rev_involutive s) at 1. rewrite E at 1. rewrite rev_app_distr, rev_spaces. reflexivity.
  - intros (a & A). apply H. apply (f_equal (@rev N)) in A. rewrite rev_involutive, rev_app_distr in A. exists 32, (rev a). split; [exact A|reflexivity].
Qed.

Lemma inv_start : valid_utf8 input -> inv [] (ci_new p input).
Proof. intros V. split; [reflexivity|]. split; [reflexivity|]. split; [reflexivity|]. split; [apply valid_nil|exact V]. Qed.
Lemma spaces_numeric x n : (forall b, ends_with x b -> ~ numeric b) -> forall b, ends_with (x ++ spaces n) b -> ~ numeric b.
Proof.
  intros H b E. destruct n as [|n]; [cbn in E; rewrite app_nil_r in E; exact (H b E)|].
  assert (S : spaces (S n) = spaces n ++ [32]) by (unfold spaces; rewrite <- repeat_cons; reflexivity). rewrite S, app_assoc in E.
  apply ends_snoc_inv in E. subst b. unfold numeric, digit, wildcard. lia.
Qed.
Lemma nil_numeric b : ends_with [] b -> ~ numeric b.
Proof. intros (a & E). destruct a; discriminate. Qed.

Lemma parse_version_good : valid_utf8 input -> good (fun _ => True) (parse_version prof input p).
Proof.
  intros V. unfold parse_version. destruct (eat_ws_inv' _ _ (inv_start V)) as (n & I1 & _).
  assert (F1 : in_field FMajor ([] ++ spaces n)) by (apply field_start, spaces_numeric, nil_numeric).
  eapply good_bind; [apply parse_int_good; [exact I1|exact F1]|]. intros [a c1] (d1 & _ & D1 & J1 & G1 & _). cbn [snd] in J1.
  eapply good_bind; [apply expect_dot_good; [exact J1|exact G1]|]. intros c2 J2.
  eapply good_bind; [apply parse_int_good; [exact J2|eapply field_dot; [exact G1|reflexivity]]|]. intros [b c3] (d2 & _ & D2 & J3 & G3 & _). cbn [snd] in J3.
  eapply good_bind; [apply expect_dot_good; [exact J3|exact G3]|]. intros c4 J4.
  eapply good_bind; [apply parse_int_good; [exact J4|eapply field_dot; [exact G3|reflexivity]]|]. intros [d c5] (d3 & _ & D3 & J5 & G5 & _). cbn [snd] in J5.
  eapply good_bind; [apply (opt_ident_good FPrerelease); exact J5|]. intros [pr c6] (t6 & J6). cbn [snd] in J6.
  eapply good_bind; [apply (opt_ident_good FBuildMetadata); exact J6|]. intros [meta c7] (t7 & J7). cbn [snd] in J7.
  destruct (eat_ws_inv' _ _ J7) as (m & J8 & _ & NS).
  destruct (peek_byte (eat_whitespace c7)) as [x|] eqn:P; [|exact I].
  cbn [good]. destruct (trim_end_spec (ci_rest (eat_whitespace c7))) as (k & E & H). set (s := trim_end_sp _) in *.
  assert (NE : s <> []).
  { intros S. rewrite S in E. cbn [app] in E. rewrite (next_rest _ _ P) in E, NS. destruct k; [discriminate|]. injection E as -> _. apply NS. eexists _, _. split; reflexivity. }
  eapply (marks_at _ _ s (spaces k)); [exact J8|exact E| |apply ascii_valid, spaces_ascii|reflexivity|].
  - eapply valid_before; [apply (spaces_ascii k)|]. rewrite <- E. apply J8.
  - split; [reflexivity|]. split; [|split; [exact NE|split; [exact H|apply blank_spaces]]].
    intros (b1 & r1 & E1 & <-). apply NS. rewrite E, E1. eexists _, _. split; reflexivity.
Qed.

Lemma comp_version_good pre c o : inv pre c -> in_field FMajor pre ->
  good (fun x => exists d t, digit d /\ inv (pre ++ d :: t) (snd x)) (comp_version prof c o).
Proof.
  intros I F. unfold comp_version.
  eapply good_bind; [apply parse_int_good; [exact I|exact F]|]. intros [a c1] (ds & NE & D & J1 & G1 & _). cbn [snd] in *.
  destruct ds as [|d ds]; [congruence|]. assert (DD : digit d) by exact (Forall_inv D).
  assert (DONE : forall v o c' t, inv (pre ++ (d :: ds) ++ t) c' ->
    good (fun x => exists d t, digit d /\ inv (pre ++ d :: t) (snd x)) (Ok (v, o, c') : res error (comp_ver * op * citer))).
  { intros v o' c' t H. exists d, (ds ++ t). split; [exact DD|exact H]. }
  unfold eat_dot. destruct (eat_byte 46 c1) as [x1 c2] eqn:E1.
  destruct (eat_byte_inv 46 _ _ _ _ eq_refl J1 E1) as [(-> & J2 & _)|(-> & -> & _)]; [|apply (DONE _ _ _ []); rewrite app_nil_r; exact J1].
  assert (G2 : in_field FMinor ((pre ++ d :: ds) ++ [46])) by (eapply field_dot; [exact G1|reflexivity]).
  destruct (eat_wildcard c2) as [o1 c3] eqn:E2. destruct (eat_wildcard_inv' _ _ _ _ J2 E2) as [(w1 & -> & J3 & _)|(-> & -> & NW)].
  - destruct (eat_byte 46 c3) as [x2 c4] eqn:E3.
    destruct (eat_byte_inv 46 _ _ _ _ eq_refl J3 E3) as [(-> & J4 & _)|(-> & -> & _)].
    2:{ apply (DONE _ _ _ ([46] ++ [wl_byte w1])). rewrite !app_assoc. exact J3. }
    assert (G4 : in_field FPatch ((((pre ++ d :: ds) ++ [46]) ++ [wl_byte w1]) ++ [46])).
    { eapply field_dot; [apply field_more; [exact G2|apply wl_field]|reflexivity]. }
    destruct (eat_wildcard c4) as [o2 c5] eqn:E4. destruct (eat_wildcard_inv' _ _ _ _ J4 E4) as [(w2 & -> & J5 & _)|(-> & -> & NW)].
    + apply (DONE _ _ _ ([46] ++ [wl_byte w1] ++ [46] ++ [wl_byte w2])). rewrite !app_assoc. exact J5.
    + destruct (peek_byte c4) as [b|] eqn:P.
      * destruct (@peek_char_ok error _ _ _ J4 P) as (ch & r & -> & SC & R & V & X). cbn [bind good].
        eapply marks_char; [exact J4|exact SC|exact R|exact V|reflexivity|]. split; [split; [exact SC|reflexivity]|]. split; [|split; [exact G4|]].
        -- exists (wl_byte w1), ((pre ++ d :: ds) ++ [46]). split; [apply wl_wild|]. rewrite <- !app_assoc. reflexivity.
        -- intros W. apply NW. rewrite (next_rest _ _ P). exists b, (ci_rest (next_byte c4)). split; [reflexivity|].
           rewrite (proj1 (X ch ltac:(unfold wildcard in W; lia)) eq_refl). exact W.
      * pose proof (peek_none _ P) as R. unfold peek_char. rewrite R. cbn [bind good].
        eapply marks_here; [exact J4|reflexivity|]. split; [reflexivity|]. split; [exact R|exact G4].
  - eapply good_bind; [apply parse_int_good; [exact J2|exact G2]|]. intros [b c4] (ds2 & _ & D4 & J4 & G4 & _). cbn [snd] in *.
    destruct (eat_byte 46 c4) as [x2 c5] eqn:E3.
    destruct (eat_byte_inv 46 _ _ _ _ eq_refl J4 E3) as [(-> & J5 & _)|(-> & -> & _)].
    2:{ apply (DONE _ _ _ ([46] ++ ds2)). rewrite !app_assoc. exact J4. }
    assert (G5 : in_field FPatch ((((pre ++ d :: ds) ++ [46]) ++ ds2) ++ [46])) by (eapply field_dot; [exact G4|reflexivity]).
    destruct (eat_wildcard c5) as [o2 c6] eqn:E4. destruct (eat_wildcard_inv' _ _ _ _ J5 E4) as [(w2 & -> & J6 & _)|(-> & -> & _)].
    + apply (DONE _ _ _ ([46] ++ ds2 ++ [46] ++ [wl_byte w2])). rewrite !app_assoc. exact J6.
    + eapply good_bind; [apply parse_int_good; [exact J5|exact G5]|]. intros [e c7] (ds3 & _ & D7 & J7 & G7 & _). cbn [snd] in *.
      eapply good_bind; [apply (opt_ident_good FPrerelease); exact J7|]. intros [pr c8] (t8 & J8). cbn [snd] in *.
      eapply good_bind; [apply (opt_ident_good FBuildMetadata); exact J8|]. intros [meta c9] (t9 & J9). cbn [snd] in *.
      assert (J : inv (pre ++ (d :: ds) ++ ([46] ++ ds2 ++ [46] ++ ds3 ++ t8 ++ t9)) c9) by (rewrite !app_assoc; exact J9).
      destruct pr; apply (DONE _ _ _ _ J).
Qed.

Lemma parse_op_adv pre b c o c' : inv pre c -> peek_byte c = Some b -> parse_op b c = Some (o, c') -> (forall x, ends_with pre x -> ~ numeric x) ->
  exists t, inv (pre ++ t) c' /\ (forall x, ends_with (pre ++ t) x -> ~ numeric x).
Proof.
  intros I P H NN. destruct c as [st idx [|x r]]; [discriminate|]. cbn in P. injection P as ->.
  apply parse_op_inv in H as [(-> & D & ->)|(PL & t & r' & E & NE & W & ->)]; [exists []; rewrite app_nil_r; auto|].
  exists t. assert (A : Forall (fun x => x < 128 /\ ~ numeric x) t).
  { specialize (W (CWl WStar)). inversion W; repeat constructor; try (intros X; unfold numeric, digit, wildcard in X; cbn in X; lia). }
  split.
  - eapply adv_ascii; [exact I|exact E| |reflexivity|reflexivity]. revert A. apply Forall_impl. tauto.
  - intros x (a & X). destruct (rev t) as [|y t'] eqn:R; [apply (f_equal (@rev N)) in R; rewrite rev_involutive in R; cbn in R; congruence|].
    apply (f_equal (@rev N)) in R. rewrite rev_involutive in R. cbn in R. subst t. rewrite app_assoc in X. apply app_inj_tail in X as [_ ->].
    apply Forall_app in A as [_ A]. exact (proj2 (Forall_inv A)).
Qed.
Lemma parse_op_none b c : parse_op b c = None -> ~ digit b /\ ~ In b (bs "=<>^~").
Proof.
  unfold parse_op. destruct (is_digit b) eqn:D; [discriminate|]. intros H. split; [rewrite <- is_digit_iff; congruence|].
  intros [<-|[<-|[<-|[<-|[<-|[]]]]]]; cbv beta iota zeta in H; try discriminate H;
    (destruct (peek_byte (next_byte c)) as [[|q]|]; [discriminate H|repeat (destruct q as [q|q|]; try discriminate H)|discriminate H]).
Qed.

(** After a comparator comes its comma, or nothing. *)
Definition comp_done (pre : bytes) (cmp : comparator) (c' : citer) : Prop :=
  (c_comma cmp = None /\ ci_rest c' = [] /\ exists t, inv (pre ++ t) c') \/
  (exists t, c_comma cmp = Some (blen (pre ++ t)) /\ inv ((pre ++ t) ++ [44]) c').

Lemma parse_wildcard_good pre first c w : inv pre c -> peek_byte c = Some (wl_byte w) -> (first = false -> ~ blank pre) ->
  good (fun x => comp_done pre (fst x) (snd x)) (parse_wildcard p w first (ci_offset c) c).
Proof.
  intros I P FI. unfold parse_wildcard. pose proof (next_rest _ _ P) as NR.
  assert (WS : ~ (blank pre /\ blank (ci_rest (next_byte c))) -> error_marks p input (WildcardNotTheSoleComparator w (pos_plus p (ci_offset c)))).
  { intros NB. eapply marks_one; [exact I|exact NR|apply wl_lt| |].
    - cbn [error_span]. unfold ci_offset, ci_pos. rewrite (proj1 I). reflexivity.
    - split; [reflexivity|exact NB]. }
  destruct first; cbn [negb]; [|apply WS; intros (B & _); exact (FI eq_refl B)]. clear FI.
  pose proof (next_inv _ _ _ I P (wl_lt w)) as J1. destruct (eat_ws_inv' _ _ J1) as (n & J2 & R2 & NS).
  set (c1 := next_byte c) in *. set (c2 := eat_whitespace c1) in *.
  match goal with |- good _ (match peek_byte c1 with Some b => if _ then ?K else _ | None => _ end) =>
    assert (KG : good (fun x => comp_done pre (fst x) (snd x)) K) end.
  { destruct (peek_byte c2) as [b|] eqn:P2.
    - pose proof (next_rest _ _ P2) as NR2.
      assert (NB : ~ (blank pre /\ blank (ci_rest c1))).
      { intros (_ & B). rewrite R2, NR2 in B. apply Forall_app in B as [_ B]. apply Forall_inv in B. apply NS. rewrite NR2. exists b, (ci_rest (next_byte c2)). auto. }
      destruct (N.eqb_spec b 44) as [->|NE]; [|exact (WS NB)].
      destruct (peek_byte (eat_whitespace (next_byte c2))) eqn:P3; [exact (WS NB)|].
      cbn [good]. pose proof (next_inv _ _ _ J2 P2 eq_refl) as J3. destruct (eat_ws_inv' _ _ J3) as (m & _ & R3 & _).
      eapply marks_one; [exact J2|exact NR2|reflexivity|reflexivity|]. split; [reflexivity|]. rewrite R3, (peek_none _ P3), app_nil_r. apply blank_spaces.
    - eapply good_bind; [apply expect_comma_good; [exact J2|exact NS]|]. intros [cm c3] [(E1 & E2 & E3)|(E1 & E2 & E3)]; cbn [fst snd] in *.
      + left. subst cm c3. split; [reflexivity|]. cbn [snd]. split; [exact E3|]. exists ([wl_byte w] ++ spaces n). rewrite app_assoc. exact J2.
      + rewrite (peek_none _ P2) in E3. discriminate. }
  destruct (peek_byte c1) as [b|] eqn:P1; [|exact KG].
  destruct ((b =? 44) || (b =? 32)) eqn:B; [exact KG|].
  destruct (@peek_unwrap_ok error _ _ _ J1 P1) as (ch & r & -> & SC & R & V & X). cbn [bind good].
  eapply marks_char; [exact J1|exact SC|exact R|exact V|reflexivity|]. split; [split; [exact SC|reflexivity]|]. split.
  - exists (wl_byte w). split; [apply wl_wild|apply ends_snoc].
  - split; intros ->; [pose proof (proj1 (X 44 eq_refl) eq_refl)|pose proof (proj1 (X 32 eq_refl) eq_refl)]; lia.
Qed.

Lemma parse_comparator_good pre first b c : inv pre c -> peek_byte c = Some b -> ~ first_in (eq 32) (ci_rest c) ->
  (forall x, ends_with pre x -> ~ numeric x) -> (first = false -> ~ blank pre) ->
  good (fun x => comp_done pre (fst x) (snd x)) (parse_comparator prof p first b c).
Proof.
  intros I P NS NN FI. unfold parse_comparator.
  destruct (eat_wildcard c) as [o0 c0] eqn:E; destruct (eat_wildcard_inv' _ _ _ _ I E) as [(w & -> & _ & _ & PW)|(-> & _ & NW)].
  - apply parse_wildcard_good; assumption.
  - destruct (parse_op b c) as [[o c1]|] eqn:PO.
    + destruct (parse_op_adv _ _ _ _ _ I P PO NN) as (t & J1 & NN1). destruct (eat_ws_inv' _ _ J1) as (n & J2 & _).
      eapply good_bind; [apply comp_version_good; [exact J2|apply field_start, spaces_numeric; exact NN1]|]. intros [[v o1] c3] (d & t3 & _ & J3). cbn [snd] in *.
      destruct (eat_ws_inv' _ _ J3) as (m & J4 & _ & NS4).
      eapply good_bind; [apply expect_comma_good; [exact J4|exact NS4]|]. intros [cm c5] H. cbn [fst snd] in *.
      assert (A : (((pre ++ t) ++ spaces n) ++ d :: t3) ++ spaces m = pre ++ (t ++ spaces n ++ (d :: t3) ++ spaces m)) by (rewrite <- !app_assoc; reflexivity).
      rewrite A in *. destruct H as [(-> & -> & E3)|(-> & J5 & _)].
      * left. split; [reflexivity|]. split; [exact E3|]. eexists. exact J4.
      * right. eexists. split; [reflexivity|exact J5].
    + destruct (@peek_unwrap_ok error _ _ _ I P) as (ch & r & -> & SC & R & V & X). cbn [bind good].
      eapply marks_char; [exact I|exact SC|exact R|exact V|reflexivity|]. split; [split; [exact SC|reflexivity]|].
      destruct (parse_op_none _ _ PO) as (ND & NO). rewrite (next_rest _ _ P) in NW, NS.
      assert (SAME : ch < 128 -> b = ch) by (intros L; exact (proj1 (X ch L) eq_refl)).
      split; [apply (not_digit_char b); assumption|]. split.
      * intros W. apply NW. exists b, (ci_rest (next_byte c)). split; [reflexivity|]. rewrite SAME; [exact W|unfold wildcard in W; lia].
      * intros W. assert (L : ch < 128) by (cbn in W; intuition (subst; reflexivity)). specialize (SAME L). subst ch. cbn in W. cbn in NO.
        assert (b <> 32) by (intros ->; apply NS; eexists _, _; split; reflexivity). intuition.
Qed.

Lemma req_loop_good fuel : forall pre comps lc c, inv pre c -> (length (ci_rest c) < fuel)%nat ->
  (forall off, lc = Some off -> exists a, pre = a ++ [44] /\ off = blen a) ->
  (ci_rest c = [] \/ ((forall x, ends_with pre x -> ~ numeric x) /\ (length comps <= count_occ N.eq_dec pre 44%N)%nat)) ->
  (comps = [] -> pre = [] /\ lc = None) ->
  exists r, req_loop fuel prof p comps lc c = Some r /\
    good (fun x => (forall off, snd x = Some off -> exists a n, input = a ++ [44] ++ spaces n /\ off = blen a /\ valid_utf8 a) /\
                   (fst x = [] -> snd x = None /\ blank input)) r.
Proof.
  induction fuel as [|fuel IH]; intros pre comps lc c I F LC NN FI; [lia|]. cbn [req_loop].
  destruct (eat_ws_inv' _ _ I) as (n & J & R & NS). set (c1 := eat_whitespace c) in *.
  destruct (peek_byte c1) as [b|] eqn:P.
  2:{ eexists; split; [reflexivity|]. cbn [good fst snd]. pose proof (peek_none _ P) as R0. rewrite R0, app_nil_r in R. split.
      - intros off EO. destruct (LC off EO) as (a & -> & ->). exists a, n. destruct I as (_ & _ & EI & VP & _). rewrite EI, R, <- app_assoc. split; [reflexivity|]. split; [reflexivity|].
        eapply valid_before; [|exact VP]. repeat constructor.
      - intros EC. destruct (FI EC) as (E1 & E2). subst pre lc. split; [reflexivity|]. destruct I as (_ & _ & EI & _). rewrite EI, R. apply blank_spaces. }
  destruct NN as [R0|(NN & CT)].
  { exfalso. rewrite R0, (next_rest _ _ P) in R. destruct n; discriminate. }
  assert (CT' : (length comps <= count_occ N.eq_dec (pre ++ spaces n) 44%N)%nat) by (rewrite count_occ_app; lia).
  destruct (MAX_COMPARATORS <=? N.of_nat (length comps)) eqn:MX.
  { eexists; split; [reflexivity|]. cbn [good]. eapply (marks_at _ _ (ci_rest c1) []); [exact J|rewrite app_nil_r; reflexivity|apply J|apply valid_nil|reflexivity|].
    split; [reflexivity|]. split; [rewrite (next_rest _ _ P); discriminate|]. unfold MAX_COMPARATORS in MX. lia. }
  set (first := match comps with [] => true | _ => false end).
  assert (FB : first = false -> ~ blank (pre ++ spaces n)).
  { intros H B. subst first. destruct comps as [|c0 comps]; [discriminate|]. cbn [length] in CT'.
    assert (IN : In 44 (pre ++ spaces n)) by (apply (count_occ_In N.eq_dec); lia). pose proof (proj1 (Forall_forall _ _) B _ IN). discriminate. }
  pose proof (parse_comparator_good (pre ++ spaces n) first b c1 J P NS (spaces_numeric _ _ NN) FB) as G.
  destruct (parse_comparator prof p first b c1) as [[cmp c2]|e|]; try (eexists; split; [reflexivity|exact G]).
  cbn [good fst snd] in G.
  assert (LEN : (length (ci_rest c2) < fuel)%nat).
  { assert (L : (length (ci_rest c1) <= length (ci_rest c))%nat) by (rewrite R, app_length; lia).
    destruct J as (_ & _ & EI & _). destruct G as [(_ & -> & _)|(t & _ & (_ & _ & EI2 & _))].
    - rewrite R, (next_rest _ _ P), app_length in F. cbn [length] in *. lia.
    - rewrite EI2 in EI. rewrite <- !app_assoc in EI. apply app_inv_head in EI. apply app_inv_head in EI. rewrite <- EI, !app_length in L. cbn [length] in L. lia. }
  destruct G as [(EC & R2 & t & I2)|(t & EC & I2)].
  - apply (IH ((pre ++ spaces n) ++ t)); [exact I2|exact LEN|rewrite EC; discriminate|left; exact R2|intros X; destruct comps; discriminate].
  - apply (IH (((pre ++ spaces n) ++ t) ++ [44])); [exact I2|exact LEN| |right; split|intros X; destruct comps; discriminate].
    + intros off EO. rewrite EC in EO. injection EO as <-. eexists. split; reflexivity.
    + intros x X. apply ends_snoc_inv in X. subst x. unfold numeric, digit, wildcard. lia.
    + rewrite app_length. rewrite !count_occ_app in *. cbn [length]. cbn. lia.
Qed.

Lemma parse_requirement_good : valid_utf8 input ->
  parse_requirement_fuel prof input p <> None /\ good (fun _ => True) (parse_requirement prof input p).
Proof.
  intros V. destruct (req_loop_good (S (length input)) [] [] None (ci_new p input) (inv_start V)) as (r & E & G).
  - cbn. lia.
  - discriminate.
  - right. split; [exact nil_numeric|cbn; lia].
  - auto.
  - unfold parse_requirement, parse_requirement_fuel. rewrite E. split; [discriminate|].
    eapply good_bind; [exact G|]. intros [comps lc] (H1 & H2). cbn [fst snd] in H1, H2.
    destruct lc as [off|].
    + destruct (H1 off eq_refl) as (a & n & EI & -> & VA). cbn [good]. exists a, [44], (spaces n). split; [exact EI|]. split; [exact VA|].
      split; [apply valid_one; reflexivity|]. split; [apply ascii_valid, spaces_ascii|]. split; [|split; [reflexivity|apply blank_spaces]].
      cbn [error_span]. unfold span_ascii_char. f_equal. unfold pos_plus. cbn. f_equal. rewrite blen_cons, blen_nil. lia.
    + destruct comps; [|exact I]. cbn [good]. exists [], [], input. split; [reflexivity|]. split; [apply valid_nil|]. split; [apply valid_nil|]. split; [exact V|].
      split; [|split; [reflexivity|]; split; [reflexivity|]; apply H2; reflexivity].
      cbn [error_span]. rewrite blen_nil. unfold span_pos. f_equal; unfold pos_plus; destruct p as [l x]; cbn; f_equal; lia.
Qed.
End Inv.

Lemma marks_inside p input e : error_marks p input e -> span_inside p (blen input) (error_span e).
Proof.
  intros (a & b & c & -> & _ & _ & _ & -> & _). unfold span_inside, pos_plus. cbn. rewrite !blen_app. lia.
Qed.
