(** Theorems about TOML literals that are not strings (C25-C30, C46, C47).
    Specification: LitSpec.v.  [parse_literal text span] is the outcome of
    reading one literal. *)
From Verif Require Import Base BaseProofs CommonModel TomlError LitModel LitSpec LitNum LitInt LitWhole LitDate LitErr LitMore.

(** ** C25 *)

(** Exactly the decimal integers that fit in i64, with their value, and the
    prefixed integers (with the value C26 is about) are read as integers. *)
Theorem C25_integers lit sp z :
  parse_literal lit sp = Ok (PInt z) <->
  (dec_int lit z /\ in_i64 z = true) \/ (exists v, prefixed_int lit v /\ z = wrap_i64 (Z.of_N v)).
Proof. exact (int_literals lit sp z). Qed.
Theorem C25_overflow_reported lit sp z :
  dec_int lit z -> in_i64 z = false -> parse_literal lit sp = Err (EIntLiteralOverflow sp).
Proof. exact (dec_overflow lit sp z). Qed.
Theorem C25_leading_zero_reported p sg neg t ds :
  sign_text sg neg -> us decimal (48 :: t) ds -> t <> [] ->
  rejected (parse_literal (sg ++ 48 :: t) (lit_span p (sg ++ 48 :: t))).
Proof. exact (leading_zero p sg neg t ds). Qed.

Example C25_max : parse_literal (bs "9_223_372_036_854_775_807") (lit_span pos_zero (bs "9_223_372_036_854_775_807")) = Ok (PInt i64_max).
Proof. reflexivity. Qed.
Example C25_min : parse_literal (bs "-9223372036854775808") (lit_span pos_zero (bs "-9223372036854775808")) = Ok (PInt i64_min).
Proof. reflexivity. Qed.
Example C25_over : dec_int (bs "9223372036854775808") 9223372036854775808 /\ in_i64 9223372036854775808 = false.
Proof.
  split; [|reflexivity]. apply (di [] false (bs "9223372036854775808") (bs "9223372036854775808")); [constructor| |right; discriminate].
  constructor; [unfold decimal; vm_compute; split; discriminate|]. cbn [bs]. repeat (constructor; [unfold decimal; vm_compute; split; discriminate|]). constructor.
Qed.
Example C25_zero : us decimal (bs "0_7") (bs "07").
Proof. constructor; [unfold decimal; vm_compute; split; discriminate|]. apply us_score; [unfold decimal; vm_compute; split; discriminate|constructor]. Qed.

(** ** C26 *)

(** Below 2^63 the value is exact.  Missing from the property: at and above
    2^63 nothing is reported, see the refutations. *)
Theorem C26_prefixed_exact_partial lit sp v :
  prefixed_int lit v -> v < 9223372036854775808 -> parse_literal lit sp = Ok (PInt (Z.of_N v)).
Proof.
  intros H L. apply int_literals. right. exists v. split; [assumption|]. symmetry. apply wrap_small. assumption.
Qed.
(** The value of any prefixed integer: two's complement of its low 64 bits. *)
Theorem C26_prefixed_wraps lit sp v :
  prefixed_int lit v -> parse_literal lit sp = Ok (PInt (wrap_i64 (Z.of_N v))).
Proof. intros H. apply int_literals. right. exists v. auto. Qed.
Theorem C26_overflow_reported_refuted :
  exists lit v, prefixed_int lit v /\ in_i64 (Z.of_N v) = false /\
    forall sp, parse_literal lit sp = Ok (PInt 0).
Proof.
  exists (bs "0x10000000000000000"), 18446744073709551616.
  split; [|split; [reflexivity|reflexivity]].
  apply (LitSpec.pi PHex (bs "10000000000000000") (bs "10000000000000000") (1 :: repeat 0 16)).
  - constructor; [exists 1; apply (rd_hex 1); lia|]. cbn [bs].
    repeat (apply us_digit; [exists 0; apply (rd_hex 0); lia|]). constructor.
  - cbn [bs repeat]. constructor; [apply (rd_hex 1); lia|]. repeat (constructor; [apply (rd_hex 0); lia|]). constructor.
Qed.
Example C26_hex : prefixed_int (bs "0xf_F") 255.
Proof.
  apply (LitSpec.pi PHex (bs "f_F") (bs "fF") [15; 15]).
  - constructor; [exists 15; apply (rd_hex_lower 5); lia|]. apply us_score; [exists 15; apply (rd_hex_upper 5); lia|constructor].
  - repeat constructor.
    + apply (rd_hex_lower 5). lia.
    + apply (rd_hex_upper 5). lia.
Qed.

(** ** C27 *)

(** In every accepted integer or float each underscore stands between two
    digits, and dropping all underscores gives the same value. *)
Theorem C27_underscores lit sp v :
  parse_literal lit sp = Ok v -> (exists z, v = PInt z) \/ (exists f, v = PFloat f) ->
  between_digits lit /\ parse_literal (filter (fun c => negb (c =? 95)) lit) sp = Ok v.
Proof. exact (underscores lit sp v). Qed.
(** For times the same is not true: [1_:30:00] is half past one. *)
Theorem C27_datetime_underscores_refuted :
  (forall sp, parse_literal (bs "1_:30:00") sp = Ok (PDateTime (LocalTime (mktime 1 30 0 0)))) /\
  ~ between_digits (bs "1_:30:00").
Proof.
  split; [reflexivity|]. intros [H|(pf & t & H & _)]; [|destruct pf; discriminate].
  destruct (H (bs "1") (bs ":30:00") eq_refl) as (a & x & y & b & _ & E & _ & D). injection E as <- _.
  unfold decimal in D. lia.
Qed.
Example C27_ex : forall sp, parse_literal (bs "1_000.2_5e1_0") sp = Ok (PFloat (FDec false 100025 8)).
Proof. reflexivity. Qed.

(** ** C28 *)

(** Exactly the TOML floats are read as floats, with their exact decimal
    value, besides four texts with a capital letter. *)
Theorem C28_floats lit sp f :
  parse_literal lit sp = Ok (PFloat f) <-> toml_float lit f \/ capital_float lit f.
Proof. exact (float_literals lit sp f). Qed.
Theorem C28_capital_refuted :
  (forall sp, parse_literal (bs "+Inf") sp = Ok (PFloat (FInf false))) /\ ~ toml_float (bs "+Inf") (FInf false).
Proof.
  split; [reflexivity|]. intros H. remember (bs "+Inf") as l eqn:L. remember (FInf false) as f eqn:F.
  destruct H as [| s n S|]; try discriminate. destruct S; discriminate.
Qed.
Example C28_ex : toml_float (bs "-3.14E+02") (FDec true 314 0).
Proof.
  apply (tf_dec [45] true (bs "3") (bs "3") (bs ".14") (bs "14") (bs "E+02") 2); try (left; discriminate).
  - constructor.
  - constructor; [unfold decimal; vm_compute; split; discriminate|constructor].
  - right. discriminate.
  - apply fr_some. constructor; [unfold decimal; vm_compute; split; discriminate|].
    apply us_digit; [unfold decimal; vm_compute; split; discriminate|constructor].
  - apply (ex_some 69 [43] false (bs "02") (bs "02")); [right; reflexivity|constructor|].
    constructor; [unfold decimal; vm_compute; split; discriminate|].
    apply us_digit; [unfold decimal; vm_compute; split; discriminate|constructor].
Qed.

(** ** C29 *)

(** Exactly these texts are read as dates and times, with the value their
    digits give. *)
Theorem C29_datetimes lit sp d : parse_literal lit sp = Ok (as_pval d) <-> lenient_datetime lit d.
Proof. exact (datetime_literals lit sp d). Qed.
Theorem C29_valid_values lit sp d :
  parse_literal lit sp = Ok (PDateTime d) \/ (exists x, d = LocalDate x /\ parse_literal lit sp = Ok (PPartialDate x)) ->
  valid_datetime d.
Proof.
  intros H. apply (lenient_valid lit). apply (datetime_literals lit sp). destruct H as [H|(x & -> & H)].
  - destruct d; try exact H. exfalso. exact (no_local_date _ _ _ H).
  - exact H.
Qed.
Example C29_leap_day : forall sp, parse_literal (bs "2024-02-29T23:59:59.5-07:30") sp =
  Ok (PDateTime (OffsetDateTime (mkdate 2024 2 29) (mktime 23 59 59 500000000) (OCustom (-450)))).
Proof. reflexivity. Qed.
Example C29_no_leap_day : forall sp, rejected (parse_literal (bs "2023-02-29") sp).
Proof. intros sp. right. eexists. reflexivity. Qed.

(** ** C30 *)

(** All date-times of the TOML specification are accepted with their value. *)
Theorem C30_strict_accepted lit sp d : toml_datetime lit d -> parse_literal lit sp = Ok (as_pval d).
Proof. intros H. apply datetime_literals, strict_lenient, H. Qed.
(** An accepted text without underscores is one of those, possibly followed by
    more text after an offset.  Missing from the property: the text after the
    offset and the underscores should be errors; they are not, see below. *)
Theorem C30_accepted_strict_partial lit sp d : parse_literal lit sp = Ok (as_pval d) -> ~ In 95 lit ->
  exists l g, lit = l ++ g /\ toml_datetime l d /\ (g <> [] -> exists x t o, d = OffsetDateTime x t o).
Proof. intros H. apply lenient_strict. apply datetime_literals in H. exact H. Qed.
Theorem C30_trailing_text_refuted :
  forall sp, parse_literal (bs "1979-05-27T07:32:00Zfoo") sp =
    Ok (PDateTime (OffsetDateTime (mkdate 1979 5 27) (mktime 7 32 0 0) OUtc)).
Proof. reflexivity. Qed.
Theorem C30_underscore_year_refuted :
  forall sp, parse_literal (bs "1_23-01-01") sp = Ok (PPartialDate (mkdate 123 1 1)).
Proof. reflexivity. Qed.
Example C30_ex : toml_datetime (bs "07:32:00") (LocalTime (mktime 7 32 0 0)).
Proof.
  apply (dw_time _ _ _ (bs "07") 7 (bs ":32:00") 32 0 0); [split; [lia|reflexivity]|lia|].
  apply (mst 32 0 [] 0); [lia|lia|constructor].
Qed.

(** ** C46 *)

(** Reading a literal never panics, and every error it reports, also one kept
    for a malformed date-time, marks whole characters of the literal, and they
    are what the error says they are. *)
Theorem C46_literal_errors lit p : lit <> [] ->
  match parse_literal lit (lit_span p lit) with
  | Ok (PInvalidDateTime e) | Err e => explained p lit e
  | Ok _ => True
  | Panic => False
  end.
Proof.
  intros H. pose proof (good_literal lit p H) as G. destruct (parse_literal lit (lit_span p lit)) as [[]| |]; try exact I; exact G.
Qed.
Example C46_ex : parse_literal (bs "1__0") (lit_span (mkpos 3 5) (bs "1__0")) =
  Err (EConsecutiveUnderscoresInLiteral (mkspan (mkpos 3 6) (mkpos 3 8))).
Proof. reflexivity. Qed.

(** ** C47 *)
Theorem C47_booleans lit sp b : parse_literal lit sp = Ok (PBool b) <-> toml_bool lit b.
Proof. exact (bool_literals lit sp b). Qed.

Print Assumptions C25_integers.
Print Assumptions C25_overflow_reported.
Print Assumptions C25_leading_zero_reported.
Print Assumptions C26_prefixed_exact_partial.
Print Assumptions C26_prefixed_wraps.
Print Assumptions C26_overflow_reported_refuted.
Print Assumptions C27_underscores.
Print Assumptions C27_datetime_underscores_refuted.
Print Assumptions C28_floats.
Print Assumptions C28_capital_refuted.
Print Assumptions C29_datetimes.
Print Assumptions C29_valid_values.
Print Assumptions C30_strict_accepted.
Print Assumptions C30_accepted_strict_partial.
Print Assumptions C30_trailing_text_refuted.
Print Assumptions C30_underscore_year_refuted.
Print Assumptions C46_literal_errors.
Print Assumptions C47_booleans.
