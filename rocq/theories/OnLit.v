(** The errors about a literal mark text on the line of the literal. *)
From Verif Require Import Base CommonModel TomlError LitModel.

Definition onspan (L : N) (s : span) : Prop := p_line (s_start s) = L /\ p_line (s_end s) = L.
Definition eon (L : N) (e : terror) : Prop := onspan L (err_span e) /\ forall h, err_hint e = Some h -> onspan L h.

Section Lit.
  Context (L : N).
  Definition onres {A} (r : res terror A) : Prop := match r with Err e => eon L e | _ => True end.
  Lemma onres_bind {A B} (m : res terror A) (f : A -> res terror B) : onres m -> (forall x, m = Ok x -> onres (f x)) -> onres (bind m f).
  Proof. destruct m as [x|e|]; cbn [bind onres]; auto. Qed.

  Context (sp : span) (LS : p_line (s_start sp) = L) (LE : p_line (s_end sp) = L).

  Ltac here := cbn [onres]; split; [split; cbn; assumption|intros ? HH; discriminate HH].

  Lemma on_minus p n : p_line p = L -> forall A (f : pos -> res terror A), (forall q, p_line q = L -> onres (f q)) -> onres (bind (pos_minus_p p n) f).
  Proof. intros H A f F. unfold pos_minus_p, pos_minus. destruct (_ <=? _); [|exact I]. cbn [bind]. apply F. exact H. Qed.
  Lemma on_pred i A (f : N -> res terror A) : (forall j, onres (f j)) -> onres (bind (pred_p i) f).
  Proof. intros F. unfold pred_p. destruct (_ =? _); [exact I|]. apply F. Qed.

  Lemma on_float lit : onres (parse_float lit sp).
  Proof. unfold parse_float. destruct (f64_from_str _); [exact I|]. here. Qed.
  Lemma on_exp_loop lit : forall r first lu i, onres (float_exp_loop lit sp first lu i r).
  Proof.
    induction r as [|c r IH]; intros first lu i; cbn [float_exp_loop].
    - destruct lu; [|apply on_float]. apply on_minus; [exact LE|]. intros q Q. here.
    - destruct (is_digit c); [apply IH|]. destruct (c =? 95); [|here]. destruct first; [here|]. destruct lu; [|apply IH]. apply on_pred. intros j. here.
  Qed.
  Lemma on_exp lit i r : onres (validate_float_exponent lit sp i r).
  Proof. destruct r as [|c r]; cbn [validate_float_exponent]; [apply on_exp_loop|]. destruct (_ || _); apply on_exp_loop. Qed.
  Lemma on_fract_loop lit start : forall r lu i, onres (float_fract_loop lit sp start lu i r).
  Proof.
    induction r as [|c r IH]; intros lu i; cbn [float_fract_loop].
    - destruct lu; [|apply on_float]. apply on_minus; [exact LE|]. intros q Q. here.
    - destruct (is_digit c); [apply IH|]. destruct (_ || _).
      + destruct (_ =? _); [here|]. destruct lu; [|apply on_exp]. apply on_pred. intros j. here.
      + destruct (c =? 95); [|here]. destruct (_ =? _); [here|]. destruct lu; [|apply IH]. apply on_pred. intros j. here.
  Qed.
  Lemma on_fract lit start i r : onres (validate_float_fractional_part lit sp start i r).
  Proof. destruct r as [|c r]; cbn [validate_float_fractional_part]; [here|apply on_fract_loop]. Qed.

  Lemma on_expect_char it f c : onres (expect_char it sp f c).
  Proof. unfold expect_char. destruct (cnext it) as [[[i x]|] it']; [|here]. destruct (_ =? _); [exact I|here]. Qed.
  Lemma on_two it nexts f : onres (expect_two_digit_num it nexts sp f).
  Proof.
    unfold expect_two_digit_num. destruct (cnext it) as [[[i x]|] it']; [|here]. destruct (is_digit x).
    - destruct (cnext it') as [[[i1 x1]|] it1]; [|here]. destruct (is_digit x1); [exact I|]. destruct (existsb _ _); here.
    - destruct (existsb _ _); here.
  Qed.
  Lemma on_two_ok it nexts f v s it' : expect_two_digit_num it nexts sp f = Ok (v, s, it') -> onspan L s.
  Proof.
    unfold expect_two_digit_num. destruct (cnext it) as [[[i x]|] it0]; [|discriminate]. destruct (is_digit x).
    - destruct (cnext it0) as [[[i1 x1]|] it1]; [|discriminate]. destruct (is_digit x1); [|destruct (existsb _ _); discriminate]. intros E. injection E as _ <- _. split; exact LS.
    - destruct (existsb _ _); discriminate.
  Qed.
  Lemma on_range v s lo hi f : onspan L s -> onres (check_range v s lo hi f).
  Proof. intros H. unfold check_range. destruct (_ && _); [exact I|]. split; [exact H|]. intros h X. discriminate. Qed.
  Lemma on_subsec_loop : forall r d s i, onres (subsec_loop sp d s i r).
  Proof.
    induction r as [|c r IH]; intros d s i; cbn [subsec_loop]; [destruct (d =? 0); [here|exact I]|].
    destruct (is_digit c); [destruct (d <? 9); apply IH|]. destruct (is_offset_start c); [|unfold unexpected_char_error; here]. destruct (d =? 0); [here|exact I].
  Qed.
  Ltac two := apply onres_bind; [apply on_two|]; intros [[? ?] ?] ?TW; apply onres_bind; [apply on_range; eapply on_two_ok; eassumption|]; intros _ _.
  Ltac chr := apply onres_bind; [apply on_expect_char|]; let it9 := fresh "it" in intros it9 _.
  Lemma on_time it h : onres (continue_parsing_time it sp h).
  Proof.
    unfold continue_parsing_time. two. chr. two. apply onres_bind.
    - destruct (snd _) as [|c' r]; [exact I|]. destruct (N.eq_dec c' 46) as [->|NE]; [apply on_subsec_loop|].
      assert (X : forall (A : Type) (a b : A), match c' with 46 => a | _ => b end = b) by (intros; destruct c' as [|p]; [reflexivity|]; repeat (destruct p as [p|p|]; try reflexivity); congruence).
      rewrite X. exact I.
    - intros [nanos it2] _. cbv zeta. destruct (snd it2) as [|c' r]; [exact I|]. destruct (is_offset_start c'); [exact I|]. unfold unexpected_char_error. here.
  Qed.
  Lemma on_local it h : onres (continue_parsing_local_time it sp h).
  Proof.
    unfold continue_parsing_local_time. apply onres_bind; [apply on_range; split; exact LS|]. intros _ _. apply onres_bind; [apply on_time|]. intros [t it1] _.
    apply onres_bind; [|intros; exact I]. unfold error_on_offset. destruct (cnext it1) as [[[i x]|] it']; [|exact I]. destruct (is_offset_start x); here.
  Qed.
  Lemma on_offset it : onres (parse_offset it sp).
  Proof. unfold parse_offset. two. chr. two. exact I. Qed.
  Lemma on_try_offset it : onres (try_to_parse_offset it sp).
  Proof.
    unfold try_to_parse_offset. destruct (cnext it) as [[[i x]|] it']; [|exact I]. destruct (_ || _); [exact I|].
    destruct (_ =? _); [apply onres_bind; [apply on_offset|intros [? ?] _; exact I]|]. destruct (_ =? _); [apply onres_bind; [apply on_offset|intros [? ?] _; exact I]|]. unfold unexpected_char_error. here.
  Qed.
  Lemma on_time_offset it : onres (parse_time_and_offset it sp).
  Proof. unfold parse_time_and_offset. two. chr. apply onres_bind; [apply on_time|]. intros [t it1] _. apply onres_bind; [apply on_try_offset|]. intros; exact I. Qed.
  Lemma on_after_year it y : onres (continue_parsing_date_time_after_year it sp y).
  Proof.
    unfold continue_parsing_date_time_after_year. two. chr. two. cbv zeta. destruct (cnext _) as [[[i x]|] it']; [|exact I].
    destruct (_ || _); [apply onres_bind; [apply on_time_offset|intros [? ?] _; exact I]|]. destruct (is_digit x); here.
  Qed.
  Lemma on_bad_year A i c : onres (@bad_year_char A sp i c).
  Proof. unfold bad_year_char. cbv zeta. destruct (_ || _); [here|]. destruct (_ =? _); here. Qed.
  Lemma on_date_time it n : onres (continue_parsing_date_time it sp n).
  Proof.
    unfold continue_parsing_date_time. destruct (cnext it) as [[[i x]|] it']; [|here]. destruct (is_digit x).
    - destruct (cnext it') as [[[i1 x1]|] it1]; [|here]. destruct (is_digit x1); [|apply on_bad_year]. cbv zeta. chr. apply on_after_year.
    - destruct (_ =? _); [|apply on_bad_year]. apply onres_bind; [apply on_local|intros; exact I].
  Qed.

  (** The error that a partial value carries. *)
  Definition onval (r : res terror pval) : Prop :=
    onres r /\ match r with Ok (PInvalidDateTime e) => eon L e | _ => True end.
  Lemma on_invalid r : onres r -> (forall e, r <> Ok (PInvalidDateTime e)) -> onval (as_invalid_datetime r).
  Proof. intros H N. destruct r as [v|e|]; cbn; [|split; [exact I|exact H]|split; exact I]. split; [exact I|]. destruct v; try exact I. destruct (N e). reflexivity. Qed.
  Ltac nov := let E := fresh in let e := fresh in intros e E; repeat match type of E with
    | bind ?m _ = _ => destruct m; cbn [bind] in E; [|discriminate E|discriminate E]
    | (let (_, _) := ?p in _) = _ => destruct p
    | (match ?x with _ => _ end) = _ => destruct x
    | (if ?x then _ else _) = _ => destruct x
    end; try discriminate E.
  Lemma after_year_not it y e : continue_parsing_date_time_after_year it sp y <> Ok (PInvalidDateTime e).
  Proof. revert e. unfold continue_parsing_date_time_after_year. cbv zeta. nov. Qed.
  Lemma date_time_not it n e : continue_parsing_date_time it sp n <> Ok (PInvalidDateTime e).
  Proof.
    unfold continue_parsing_date_time, bad_year_char. cbv zeta. destruct (cnext it) as [[[i x]|] it']; [|discriminate]. destruct (is_digit x).
    - destruct (cnext it') as [[[i1 x1]|] it1]; [|discriminate]. destruct (is_digit x1).
      + destruct (expect_char _ _ _ _); cbn [bind]; try discriminate. apply after_year_not.
      + destruct (_ || _); [discriminate|]. destruct (_ =? _); discriminate.
    - destruct (_ =? _).
      + destruct (continue_parsing_local_time _ _ _); discriminate.
      + destruct (_ || _); [discriminate|]. destruct (_ =? _); discriminate.
  Qed.
  Lemma onval_of r : onres r -> (forall e, r <> Ok (PInvalidDateTime e)) -> onval r.
  Proof. intros H N. split; [exact H|]. destruct r as [[]|e|]; try exact I. destruct (N e). reflexivity. Qed.
  Lemma onval_bind {A} (m : res terror A) (f : A -> pval) : onres m -> (forall x e, f x <> PInvalidDateTime e) -> onval (bind m (fun x => Ok (f x))).
  Proof. intros H N. apply onval_of; [apply onres_bind; [exact H|intros; exact I]|]. intros e. destruct m; cbn [bind]; [|discriminate|discriminate]. intros E. injection E as E. exact (N _ _ E). Qed.
  Ltac vhere := split; [here|exact I].
  Lemma on_dec lit sg : forall r acc ovf lu i, onval (dec_loop lit sp sg acc ovf lu i r).
  Proof.
    induction r as [|c r IH]; intros acc ovf lu i; cbn [dec_loop]; cbv zeta.
    - destruct lu.
      + apply onval_of; [apply on_minus; [exact LE|intros q Q; here]|]. intros e. unfold pos_minus_p. destruct (pos_minus _ _); discriminate.
      + destruct ovf; [vhere|split; exact I].
    - assert (MI : forall p e0, p_line p = L -> onval (let? q := pos_minus_p p 1 in Err (ELitEndsWithUnderscore e0 q))).
      { intros p e0 H. apply onval_of; [apply on_minus; [exact H|intros q Q; here]|]. intros e. unfold pos_minus_p. destruct (pos_minus _ _); discriminate. }
      assert (HP : forall i0, p_line (pos_plus (s_start sp) i0) = L) by (intros; exact LS).
      destruct (is_digit c); [destruct ovf; [apply IH|]; destruct (_ && _); apply IH|].
      destruct (c =? 46); [destruct lu; [apply MI, HP|]; apply onval_bind; [apply on_fract|discriminate]|].
      destruct (_ || _); [destruct lu; [apply MI, HP|]; apply onval_bind; [apply on_exp|discriminate]|].
      destruct (_ && _); [apply onval_bind; [apply on_local|discriminate]|].
      destruct (_ && _); [apply on_invalid; [apply on_after_year|apply after_year_not]|].
      destruct (_ && _); [vhere|].
      destruct (_ && _).
      { destruct (i <=? 3).
        - split; [exact I|]. split; [split; exact LS|]. intros h X. discriminate.
        - destruct (nth_error _ _); [|split; exact I]. split; [exact I|]. split; [split; exact LS|]. intros h X. discriminate. }
      destruct (c =? 95); [|vhere]. destruct lu; [|apply IH].
      apply onval_of; [apply on_pred; intros j; here|]. intros e. unfold pred_p. destruct (_ =? _); discriminate.
  Qed.
  Lemma on_prefixed pf : forall r first lu acc i, onres (prefixed_loop sp pf first lu acc i r).
  Proof.
    induction r as [|c r IH]; intros first lu acc i; cbn [prefixed_loop]; cbv zeta.
    - destruct first; [here|]. destruct lu; [|exact I]. apply on_minus; [exact LE|intros q Q; here].
    - destruct (hex_val c).
      + destruct (_ <? _); [|here]. destruct (in_i64 _); [apply IH|exact I].
      + destruct (_ && _); [here|]. destruct (c =? 95); [|here]. destruct first; [here|]. destruct lu; [|apply IH]. apply on_pred. intros j. here.
  Qed.
  Lemma on_prefixed_or it lit sg : onval (parse_prefixed_int_float_or_date it lit sp sg).
  Proof.
    unfold parse_prefixed_int_float_or_date. cbv zeta. destruct (cnext it) as [[[i c]|] it1]; [|split; exact I].
    destruct (radix_of c) as [[pf up]|].
    - destruct sg; [vhere|]. destruct up; [vhere|]. apply onval_bind; [apply on_prefixed|discriminate].
    - destruct (c =? 46); [apply onval_bind; [apply on_fract|discriminate]|].
      destruct (_ || _); [apply onval_bind; [apply on_exp|discriminate]|].
      destruct (is_digit c && _); [apply on_invalid; [apply on_date_time|apply date_time_not]|].
      destruct (_ || _); [vhere|]. destruct sg; vhere.
  Qed.
  Lemma on_bare_loop whole : forall r ex i, onres (bare_loop sp whole ex i r).
  Proof.
    induction r as [|c r IH]; intros ex i; destruct ex as [|x ex]; cbn [bare_loop]; cbv zeta; try exact I; try here.
    destruct (c =? x); [apply IH|]. destruct (_ =? _); here.
  Qed.
  Lemma on_bare it i first ex : onres (parse_bare_literal it sp i first ex).
  Proof. unfold parse_bare_literal. destruct (ascii_upper first); [here|apply on_bare_loop]. Qed.
  Theorem on_literal lit : onval (parse_literal lit sp).
  Proof.
    unfold parse_literal. destruct (cnext (0, lit)) as [[[i0 c]|] it1]; [|split; exact I].
    destruct (_ || _).
    - cbv zeta. destruct (cnext it1) as [[[i c2]|] it2]; [|vhere].
      destruct (c2 =? 48); [apply on_prefixed_or|]. destruct (is_digit c2); [apply on_dec|].
      destruct (_ || _); [apply onval_bind; [apply on_bare|discriminate]|]. destruct (_ || _); [apply onval_bind; [apply on_bare|discriminate]|].
      destruct (_ =? _); vhere.
    - destruct (c =? 48); [apply on_prefixed_or|]. destruct (is_digit c); [apply on_dec|].
      do 4 (destruct (_ || _); [apply onval_bind; [apply on_bare|discriminate]|]).
      destruct (_ =? _); vhere.
  Qed.
End Lit.
