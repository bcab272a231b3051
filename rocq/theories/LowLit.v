(** No error about a literal is above the line of the literal. *)
From Verif Require Import Base CommonModel TomlError LitModel.

Definition lowspan (L : N) (s : span) : Prop := L <= p_line (s_start s).
Definition elow (L : N) (e : terror) : Prop := lowspan L (err_span e) /\ forall h, err_hint e = Some h -> lowspan L h.

Section Lit.
  Context (L : N).
  Definition lowres {A} (r : res terror A) : Prop := match r with Err e => elow L e | _ => True end.
  Lemma lowres_bind {A B} (m : res terror A) (f : A -> res terror B) : lowres m -> (forall x, m = Ok x -> lowres (f x)) -> lowres (bind m f).
  Proof. destruct m as [x|e|]; cbn [bind lowres]; auto. Qed.

  Context (sp : span) (LS : L <= p_line (s_start sp)) (LE : L <= p_line (s_end sp)).

  Ltac here := cbn [lowres]; split; [unfold lowspan; cbn; assumption|intros ? HH; discriminate HH].

  Lemma low_minus p n : L <= p_line p -> forall A (f : pos -> res terror A), (forall q, L <= p_line q -> lowres (f q)) -> lowres (bind (pos_minus_p p n) f).
  Proof. intros H A f F. unfold pos_minus_p, pos_minus. destruct (_ <=? _); [|exact I]. cbn [bind]. apply F. exact H. Qed.
  Lemma low_pred i A (f : N -> res terror A) : (forall j, lowres (f j)) -> lowres (bind (pred_p i) f).
  Proof. intros F. unfold pred_p. destruct (_ =? _); [exact I|]. apply F. Qed.

  Lemma low_float lit : lowres (parse_float lit sp).
  Proof. unfold parse_float. destruct (f64_from_str _); [exact I|]. here. Qed.
  Lemma low_exp_loop lit : forall r first lu i, lowres (float_exp_loop lit sp first lu i r).
  Proof.
    induction r as [|c r IH]; intros first lu i; cbn [float_exp_loop].
    - destruct lu; [|apply low_float]. apply low_minus; [exact LE|]. intros q Q. here.
    - destruct (is_digit c); [apply IH|]. destruct (c =? 95); [|here]. destruct first; [here|]. destruct lu; [|apply IH]. apply low_pred. intros j. here.
  Qed.
  Lemma low_exp lit i r : lowres (validate_float_exponent lit sp i r).
  Proof. destruct r as [|c r]; cbn [validate_float_exponent]; [apply low_exp_loop|]. destruct (_ || _); apply low_exp_loop. Qed.
  Lemma low_fract_loop lit start : forall r lu i, lowres (float_fract_loop lit sp start lu i r).
  Proof.
    induction r as [|c r IH]; intros lu i; cbn [float_fract_loop].
    - destruct lu; [|apply low_float]. apply low_minus; [exact LE|]. intros q Q. here.
    - destruct (is_digit c); [apply IH|]. destruct (_ || _).
      + destruct (_ =? _); [here|]. destruct lu; [|apply low_exp]. apply low_pred. intros j. here.
      + destruct (c =? 95); [|here]. destruct (_ =? _); [here|]. destruct lu; [|apply IH]. apply low_pred. intros j. here.
  Qed.
  Lemma low_fract lit start i r : lowres (validate_float_fractional_part lit sp start i r).
  Proof. destruct r as [|c r]; cbn [validate_float_fractional_part]; [here|apply low_fract_loop]. Qed.

  Lemma low_expect_char it f c : lowres (expect_char it sp f c).
  Proof. unfold expect_char. destruct (cnext it) as [[[i x]|] it']; [|here]. destruct (_ =? _); [exact I|here]. Qed.
  Lemma low_two it nexts f : lowres (expect_two_digit_num it nexts sp f).
  Proof.
    unfold expect_two_digit_num. destruct (cnext it) as [[[i x]|] it']; [|here]. destruct (is_digit x).
    - destruct (cnext it') as [[[i1 x1]|] it1]; [|here]. destruct (is_digit x1); [exact I|]. destruct (existsb _ _); here.
    - destruct (existsb _ _); here.
  Qed.
  Lemma low_two_ok it nexts f v s it' : expect_two_digit_num it nexts sp f = Ok (v, s, it') -> lowspan L s.
  Proof.
    unfold expect_two_digit_num. destruct (cnext it) as [[[i x]|] it0]; [|discriminate]. destruct (is_digit x).
    - destruct (cnext it0) as [[[i1 x1]|] it1]; [|discriminate]. destruct (is_digit x1); [|destruct (existsb _ _); discriminate]. intros E. injection E as _ <- _. exact LS.
    - destruct (existsb _ _); discriminate.
  Qed.
  Lemma low_range v s lo hi f : lowspan L s -> lowres (check_range v s lo hi f).
  Proof. intros H. unfold check_range. destruct (_ && _); [exact I|]. split; [exact H|]. intros h X. discriminate. Qed.
  Lemma low_subsec_loop : forall r d s i, lowres (subsec_loop sp d s i r).
  Proof.
    induction r as [|c r IH]; intros d s i; cbn [subsec_loop]; [destruct (d =? 0); [here|exact I]|].
    destruct (is_digit c); [destruct (d <? 9); apply IH|]. destruct (is_offset_start c); [|unfold unexpected_char_error; here]. destruct (d =? 0); [here|exact I].
  Qed.
  Ltac two := apply lowres_bind; [apply low_two|]; intros [[? ?] ?] ?TW; apply lowres_bind; [apply low_range; eapply low_two_ok; eassumption|]; intros _ _.
  Ltac chr := apply lowres_bind; [apply low_expect_char|]; let it9 := fresh "it" in intros it9 _.
  Lemma low_time it h : lowres (continue_parsing_time it sp h).
  Proof.
    unfold continue_parsing_time. two. chr. two. apply lowres_bind.
    - destruct (snd _) as [|c' r]; [exact I|]. destruct (N.eq_dec c' 46) as [->|NE]; [apply low_subsec_loop|].
      assert (X : forall (A : Type) (a b : A), match c' with 46 => a | _ => b end = b) by (intros; destruct c' as [|p]; [reflexivity|]; repeat (destruct p as [p|p|]; try reflexivity); congruence).
      rewrite X. exact I.
    - intros [nanos it2] _. cbv zeta. destruct (snd it2) as [|c' r]; [exact I|]. destruct (is_offset_start c'); [exact I|]. unfold unexpected_char_error. here.
  Qed.
  Lemma low_local it h : lowres (continue_parsing_local_time it sp h).
  Proof.
    unfold continue_parsing_local_time. apply lowres_bind; [apply low_range; exact LS|]. intros _ _. apply lowres_bind; [apply low_time|]. intros [t it1] _.
    apply lowres_bind; [|intros; exact I]. unfold error_on_offset. destruct (cnext it1) as [[[i x]|] it']; [|exact I]. destruct (is_offset_start x); here.
  Qed.
  Lemma low_offset it : lowres (parse_offset it sp).
  Proof. unfold parse_offset. two. chr. two. exact I. Qed.
  Lemma low_try_offset it : lowres (try_to_parse_offset it sp).
  Proof.
    unfold try_to_parse_offset. destruct (cnext it) as [[[i x]|] it']; [|exact I]. destruct (_ || _); [exact I|].
    destruct (_ =? _); [apply lowres_bind; [apply low_offset|intros [? ?] _; exact I]|]. destruct (_ =? _); [apply lowres_bind; [apply low_offset|intros [? ?] _; exact I]|]. unfold unexpected_char_error. here.
  Qed.
  Lemma low_time_offset it : lowres (parse_time_and_offset it sp).
  Proof. unfold parse_time_and_offset. two. chr. apply lowres_bind; [apply low_time|]. intros [t it1] _. apply lowres_bind; [apply low_try_offset|]. intros; exact I. Qed.
  Lemma low_after_year it y : lowres (continue_parsing_date_time_after_year it sp y).
  Proof.
    unfold continue_parsing_date_time_after_year. two. chr. two. cbv zeta. destruct (cnext _) as [[[i x]|] it']; [|exact I].
    destruct (_ || _); [apply lowres_bind; [apply low_time_offset|intros [? ?] _; exact I]|]. destruct (is_digit x); here.
  Qed.
  Lemma low_bad_year A i c : lowres (@bad_year_char A sp i c).
  Proof. unfold bad_year_char. cbv zeta. destruct (_ || _); [here|]. destruct (_ =? _); here. Qed.
  Lemma low_date_time it n : lowres (continue_parsing_date_time it sp n).
  Proof.
    unfold continue_parsing_date_time. destruct (cnext it) as [[[i x]|] it']; [|here]. destruct (is_digit x).
    - destruct (cnext it') as [[[i1 x1]|] it1]; [|here]. destruct (is_digit x1); [|apply low_bad_year]. cbv zeta. chr. apply low_after_year.
    - destruct (_ =? _); [|apply low_bad_year]. apply lowres_bind; [apply low_local|intros; exact I].
  Qed.

  (** The error that a partial value carries. *)
  Definition lowval (r : res terror pval) : Prop :=
    lowres r /\ match r with Ok (PInvalidDateTime e) => elow L e | _ => True end.
  Lemma low_invalid r : lowres r -> (forall e, r <> Ok (PInvalidDateTime e)) -> lowval (as_invalid_datetime r).
  Proof. intros H N. destruct r as [v|e|]; cbn; [|split; [exact I|exact H]|split; exact I]. split; [exact I|]. destruct v; try exact I. destruct (N e). reflexivity. Qed.
  Ltac nov := let E := fresh in let e := fresh in intros e E; repeat match type of E with
    | bind ?m _ = _ => destruct m; cbn [bind] in E; [|discriminate E|discriminate E]
    | (let (_, _) := ?p in _) = _ => destruct p
    | (match ?x with _ => _ end) = _ => destruct x
    | (if ?x then _ else _) = _ => destruct x
    end; try discriminate E.
  Lemma after_year_not it y e : continue_parsing_date_time_after_year it sp y <> Ok (PInvalidDateTime e).
  Proof. revert e. unfold continue_parsing_date_time_after_year. cbv zeta. nov. Qed.
  Lemma date_time_not it n e : continue_parsing_date_time it sp n <> Ok (PInvalidDateTime e).
  Proof.
    unfold continue_parsing_date_time, bad_year_char. cbv zeta. destruct (cnext it) as [[[i x]|] it']; [|discriminate]. destruct (is_digit x).
    - destruct (cnext it') as [[[i1 x1]|] it1]; [|discriminate]. destruct (is_digit x1).
      + destruct (expect_char _ _ _ _); cbn [bind]; try discriminate. apply after_year_not.
      + destruct (_ || _); [discriminate|]. destruct (_ =? _); discriminate.
    - destruct (_ =? _).
      + destruct (continue_parsing_local_time _ _ _); discriminate.
      + destruct (_ || _); [discriminate|]. destruct (_ =? _); discriminate.
  Qed.
  Lemma lowval_of r : lowres r -> (forall e, r <> Ok (PInvalidDateTime e)) -> lowval r.
  Proof. intros H N. split; [exact H|]. destruct r as [[]|e|]; try exact I. destruct (N e). reflexivity. Qed.
  Lemma lowval_bind {A} (m : res terror A) (f : A -> pval) : lowres m -> (forall x e, f x <> PInvalidDateTime e) -> lowval (bind m (fun x => Ok (f x))).
  Proof. intros H N. apply lowval_of; [apply lowres_bind; [exact H|intros; exact I]|]. intros e. destruct m; cbn [bind]; [|discriminate|discriminate]. intros E. injection E as E. exact (N _ _ E). Qed.
  Ltac vhere := split; [here|exact I].
  Lemma low_dec lit sg : forall r acc ovf lu i, lowval (dec_loop lit sp sg acc ovf lu i r).
  Proof.
    induction r as [|c r IH]; intros acc ovf lu i; cbn [dec_loop]; cbv zeta.
    - destruct lu.
      + apply lowval_of; [apply low_minus; [exact LE|intros q Q; here]|]. intros e. unfold pos_minus_p. destruct (pos_minus _ _); discriminate.
      + destruct ovf; [vhere|split; exact I].
    - assert (MI : forall p e0, L <= p_line p -> lowval (let? q := pos_minus_p p 1 in Err (ELitEndsWithUnderscore e0 q))).
      { intros p e0 H. apply lowval_of; [apply low_minus; [exact H|intros q Q; here]|]. intros e. unfold pos_minus_p. destruct (pos_minus _ _); discriminate. }
      assert (HP : forall i0, L <= p_line (pos_plus (s_start sp) i0)) by (intros; exact LS).
      destruct (is_digit c); [destruct ovf; [apply IH|]; destruct (_ && _); apply IH|].
      destruct (c =? 46); [destruct lu; [apply MI, HP|]; apply lowval_bind; [apply low_fract|discriminate]|].
      destruct (_ || _); [destruct lu; [apply MI, HP|]; apply lowval_bind; [apply low_exp|discriminate]|].
      destruct (_ && _); [apply lowval_bind; [apply low_local|discriminate]|].
      destruct (_ && _); [apply low_invalid; [apply low_after_year|apply after_year_not]|].
      destruct (_ && _); [vhere|].
      destruct (_ && _).
      { destruct (i <=? 3).
        - split; [exact I|]. split; [exact LS|]. intros h X. discriminate.
        - destruct (nth_error _ _); [|split; exact I]. split; [exact I|]. split; [exact LS|]. intros h X. discriminate. }
      destruct (c =? 95); [|vhere]. destruct lu; [|apply IH].
      apply lowval_of; [apply low_pred; intros j; here|]. intros e. unfold pred_p. destruct (_ =? _); discriminate.
  Qed.
  Lemma low_prefixed pf : forall r first lu acc i, lowres (prefixed_loop sp pf first lu acc i r).
  Proof.
    induction r as [|c r IH]; intros first lu acc i; cbn [prefixed_loop]; cbv zeta.
    - destruct first; [here|]. destruct lu; [|exact I]. apply low_minus; [exact LE|intros q Q; here].
    - destruct (hex_val c).
      + destruct (_ <? _); [|here]. destruct (in_i64 _); [apply IH|exact I].
      + destruct (_ && _); [here|]. destruct (c =? 95); [|here]. destruct first; [here|]. destruct lu; [|apply IH]. apply low_pred. intros j. here.
  Qed.
  Lemma low_prefixed_or it lit sg : lowval (parse_prefixed_int_float_or_date it lit sp sg).
  Proof.
    unfold parse_prefixed_int_float_or_date. cbv zeta. destruct (cnext it) as [[[i c]|] it1]; [|split; exact I].
    destruct (radix_of c) as [[pf up]|].
    - destruct sg; [vhere|]. destruct up; [vhere|]. apply lowval_bind; [apply low_prefixed|discriminate].
    - destruct (c =? 46); [apply lowval_bind; [apply low_fract|discriminate]|].
      destruct (_ || _); [apply lowval_bind; [apply low_exp|discriminate]|].
      destruct (is_digit c && _); [apply low_invalid; [apply low_date_time|apply date_time_not]|].
      destruct (_ || _); [vhere|]. destruct sg; vhere.
  Qed.
  Lemma low_bare_loop whole : forall r ex i, lowres (bare_loop sp whole ex i r).
  Proof.
    induction r as [|c r IH]; intros ex i; destruct ex as [|x ex]; cbn [bare_loop]; cbv zeta; try exact I; try here.
    destruct (c =? x); [apply IH|]. destruct (_ =? _); here.
  Qed.
  Lemma low_bare it i first ex : lowres (parse_bare_literal it sp i first ex).
  Proof. unfold parse_bare_literal. destruct (ascii_upper first); [here|apply low_bare_loop]. Qed.
  Theorem low_literal lit : lowval (parse_literal lit sp).
  Proof.
    unfold parse_literal. destruct (cnext (0, lit)) as [[[i0 c]|] it1]; [|split; exact I].
    destruct (_ || _).
    - cbv zeta. destruct (cnext it1) as [[[i c2]|] it2]; [|vhere].
      destruct (c2 =? 48); [apply low_prefixed_or|]. destruct (is_digit c2); [apply low_dec|].
      destruct (_ || _); [apply lowval_bind; [apply low_bare|discriminate]|]. destruct (_ || _); [apply lowval_bind; [apply low_bare|discriminate]|].
      destruct (_ =? _); vhere.
    - destruct (c =? 48); [apply low_prefixed_or|]. destruct (is_digit c); [apply low_dec|].
      do 4 (destruct (_ || _); [apply lowval_bind; [apply low_bare|discriminate]|]).
      destruct (_ =? _); vhere.
  Qed.
End Lit.
