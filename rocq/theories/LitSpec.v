(** Specification of TOML 1.0 numbers, booleans, dates and times: which texts
    are literals and what they mean.  Written from the TOML specification, not
    from the code. *)
From Verif Require Import Base CommonModel TomlError LitModel.

(** ** Digits with underscores between them

    [us P text digits]: [text] is [digits] (all satisfying [P]) with single
    underscores allowed between two digits. *)
Inductive us_cont (P : N -> Prop) : list N -> list N -> Prop :=
| us_nil : us_cont P [] []
| us_digit d t ds : P d -> us_cont P t ds -> us_cont P (d :: t) (d :: ds)
| us_score d t ds : P d -> us_cont P t ds -> us_cont P (95 :: d :: t) (d :: ds).
Inductive us (P : N -> Prop) : list N -> list N -> Prop :=
| us_start d t ds : P d -> us_cont P t ds -> us P (d :: t) (d :: ds).

Definition decimal (c : N) : Prop := 48 <= c <= 57.

(** Optional sign. *)
Inductive sign_text : list N -> bool -> Prop :=
| sgn_none : sign_text [] false
| sgn_plus : sign_text [43] false
| sgn_minus : sign_text [45] true.
Definition signed (neg : bool) (n : N) : Z := if neg then (- Z.of_N n)%Z else Z.of_N n.

(** No leading zeros: a lone zero, or something starting with another digit. *)
Definition no_leading_zero (text : list N) : Prop := text = [48] \/ hd 0 text <> 48.

(** ** Integers *)

(** [dec_int text z]: a decimal integer literal and its value. *)
Inductive dec_int : list N -> Z -> Prop :=
| di sg neg t ds : sign_text sg neg -> us decimal t ds -> no_leading_zero t ->
    dec_int (sg ++ t) (signed neg (dec_val ds)).

(** Digits of a radix. *)
Inductive radix_digit : int_prefix -> N -> N -> Prop :=
| rd_bin d : d < 2 -> radix_digit PBin (48 + d) d
| rd_oct d : d < 8 -> radix_digit POct (48 + d) d
| rd_hex d : d < 10 -> radix_digit PHex (48 + d) d
| rd_hex_lower d : d < 6 -> radix_digit PHex (97 + d) (10 + d)
| rd_hex_upper d : d < 6 -> radix_digit PHex (65 + d) (10 + d).
Definition radix (p : int_prefix) : N := match p with PBin => 2 | POct => 8 | PHex => 16 end.
Definition radix_letter (p : int_prefix) : N := match p with PBin => 98 | POct => 111 | PHex => 120 end.
(** Value of digits, most significant first. *)
Fixpoint radix_value (p : int_prefix) (acc : N) (vs : list N) : N :=
  match vs with
  | [] => acc
  | v :: r => radix_value p (radix p * acc + v) r
  end.

(** [prefixed_int text n]: [0x..], [0o..] or [0b..] and its value. *)
Inductive prefixed_int : list N -> N -> Prop :=
| pi p t ds vs : us (fun c => exists v, radix_digit p c v) t ds ->
    Forall2 (radix_digit p) ds vs ->
    prefixed_int (48 :: radix_letter p :: t) (radix_value p 0 vs).

(** ** Floats *)

Inductive frac_text : list N -> list N -> Prop :=
| fr_none : frac_text [] []
| fr_some t ds : us decimal t ds -> frac_text (46 :: t) ds.
Inductive exp_text : list N -> Z -> Prop :=
| ex_none : exp_text [] 0
| ex_some e sg neg t ds : e = 101 \/ e = 69 -> sign_text sg neg -> us decimal t ds ->
    exp_text (e :: sg ++ t) (signed neg (dec_val ds)).

(** [toml_float text f]: a float literal and its exact decimal value. *)
Inductive toml_float : list N -> fval -> Prop :=
| tf_dec sg neg it ids ft fds et e :
    sign_text sg neg -> us decimal it ids -> no_leading_zero it ->
    frac_text ft fds -> exp_text et e -> ft <> [] \/ et <> [] ->
    toml_float (sg ++ it ++ ft ++ et)
               (FDec neg (dec_val (ids ++ fds)) (e - Z.of_nat (length fds)))
| tf_inf sg neg : sign_text sg neg -> toml_float (sg ++ bs "inf") (FInf neg)
| tf_nan sg neg : sign_text sg neg -> toml_float (sg ++ bs "nan") (FNan neg).

(** Texts that are not TOML floats but that the parser takes: a signed [Inf]
    or [Nan] with a capital first letter. *)
Inductive capital_float : list N -> fval -> Prop :=
| cf_inf_pos : capital_float (bs "+Inf") (FInf false)
| cf_inf_neg : capital_float (bs "-Inf") (FInf true)
| cf_nan_pos : capital_float (bs "+Nan") (FNan false)
| cf_nan_neg : capital_float (bs "-Nan") (FNan true).

(** ** Dates and times *)

Definition two (n : N) : list N := [48 + n / 10; 48 + n mod 10].
Definition four (n : N) : list N := [48 + n / 1000; 48 + n / 100 mod 10; 48 + n / 10 mod 10; 48 + n mod 10].

(** Gregorian calendar. *)
Definition leap (y : N) : Prop := N.divide 4 y /\ (~ N.divide 100 y \/ N.divide 400 y).
Inductive month_days : N -> N -> N -> Prop :=
| md31 y m : In m [1; 3; 5; 7; 8; 10; 12] -> month_days y m 31
| md30 y m : In m [4; 6; 9; 11] -> month_days y m 30
| md29 y : leap y -> month_days y 2 29
| md28 y : ~ leap y -> month_days y 2 28.
Definition valid_date (d : date) : Prop :=
  dt_year d <= 9999 /\ exists n, month_days (dt_year d) (dt_month d) n /\ 1 <= dt_day d <= n.

Definition date_text (d : date) : list N :=
  four (dt_year d) ++ [45] ++ two (dt_month d) ++ [45] ++ two (dt_day d).

(** Fractional seconds: nine digits count, the rest is cut off. *)
Inductive subsec_text : list N -> N -> Prop :=
| ss_none : subsec_text [] 0
| ss_some ds : ds <> [] -> Forall decimal ds ->
    subsec_text (46 :: ds) (dec_val (firstn 9 (ds ++ repeat 48 9))).

(** Everything of a time after the hour. *)
Inductive min_sec_text : list N -> N -> N -> N -> Prop :=
| mst m s ft n : m < 60 -> s < 60 -> subsec_text ft n ->
    min_sec_text ([58] ++ two m ++ [58] ++ two s ++ ft) m s n.
Inductive time_text : list N -> time -> Prop :=
| tt_intro h mt m s n : h < 24 -> min_sec_text mt m s n -> time_text (two h ++ mt) (mktime h m s n).

Inductive offset_text : list N -> offset -> Prop :=
| ot_utc c : c = 90 \/ c = 122 -> offset_text [c] OUtc
| ot_plus h m : h < 24 -> m < 60 -> offset_text ([43] ++ two h ++ [58] ++ two m) (OCustom (Z.of_N (60 * h + m)))
| ot_minus h m : h < 24 -> m < 60 -> offset_text ([45] ++ two h ++ [58] ++ two m) (OCustom (- Z.of_N (60 * h + m))).

(** [dt_with YT HT garbage text d]: date-time literals, where [YT] and [HT]
    say how a year and the hour of a local time may be written, and [garbage]
    what may follow an offset. *)
Inductive dt_with (YT HT : list N -> N -> Prop) (garbage : list N -> Prop) : list N -> datetime -> Prop :=
| dw_date yt d : YT yt (dt_year d) -> valid_date d ->
    dt_with YT HT garbage (yt ++ [45] ++ two (dt_month d) ++ [45] ++ two (dt_day d)) (LocalDate d)
| dw_local yt d sep tx t : YT yt (dt_year d) -> valid_date d -> sep = 84 \/ sep = 116 -> time_text tx t ->
    dt_with YT HT garbage (yt ++ [45] ++ two (dt_month d) ++ [45] ++ two (dt_day d) ++ [sep] ++ tx) (LocalDateTime d t)
| dw_offset yt d sep tx t ox o g : YT yt (dt_year d) -> valid_date d -> sep = 84 \/ sep = 116 ->
    time_text tx t -> offset_text ox o -> garbage g ->
    dt_with YT HT garbage (yt ++ [45] ++ two (dt_month d) ++ [45] ++ two (dt_day d) ++ [sep] ++ tx ++ ox ++ g)
            (OffsetDateTime d t o)
| dw_time ht h mt m s n : HT ht h -> h < 24 -> min_sec_text mt m s n ->
    dt_with YT HT garbage (ht ++ mt) (LocalTime (mktime h m s n)).

(** RFC 3339 date-times as TOML has them (with [T]; the form with a space is
    two literals). *)
Definition toml_datetime : list N -> datetime -> Prop :=
  dt_with (fun t y => y <= 9999 /\ t = four y) (fun t h => h < 100 /\ t = two h) (fun g => g = []).

(** What the parser takes: besides the above, underscores in a year or hour
    that starts with a digit other than zero, and anything after an offset. *)
Definition underscored (len : nat) (t : list N) (n : N) : Prop :=
  length t = len /\ exists d r ds, t = d :: r /\ 49 <= d <= 57 /\
    (us_cont decimal r ds \/ exists r', r = r' ++ [95] /\ us_cont decimal r' ds) /\
    n = dec_val (d :: ds).
Definition lenient_datetime : list N -> datetime -> Prop :=
  dt_with (fun t y => (y <= 9999 /\ t = four y) \/ underscored 4 t y)
          (fun t h => (h < 100 /\ t = two h) \/ underscored 2 t h) (fun g => True).

(** ** Booleans *)
Inductive toml_bool : list N -> bool -> Prop :=
| tb_true : toml_bool (bs "true") true
| tb_false : toml_bool (bs "false") false.

(** A literal's outcome is an error (a malformed date-time is kept apart so
    that the next token can be joined to it, but it is reported too). *)
Definition rejected (r : res terror pval) : Prop :=
  (exists e, r = Err e) \/ (exists e, r = Ok (PInvalidDateTime e)).

(** The span of a literal in a line. *)
Definition lit_span (p : pos) (lit : list N) : span := span_from_pos_len p (tlen lit).

(** ** Underscores

    In [l] every underscore has a digit directly before and after it. *)
Definition btw (P : N -> Prop) (l : list N) : Prop :=
  forall a b, l = a ++ 95 :: b -> exists a' x y b', a = a' ++ [x] /\ b = y :: b' /\ P x /\ P y.

(** Decimal digits, or the digits of the radix for a prefixed integer. *)
Definition between_digits (lit : list N) : Prop :=
  btw decimal lit \/ exists pf t, lit = 48 :: radix_letter pf :: t /\ btw (fun c => exists v, radix_digit pf c v) lit.

(** ** Validity of dates and times *)
Definition valid_time (t : time) : Prop := tm_hour t < 24 /\ tm_minute t < 60 /\ tm_second t < 60 /\ tm_nanos t < 1000000000.
Definition valid_offset (o : offset) : Prop := match o with OUtc => True | OCustom m => (-1440 < m < 1440)%Z end.
Definition valid_datetime (d : datetime) : Prop :=
  match d with
  | OffsetDateTime x t o => valid_date x /\ valid_time t /\ valid_offset o
  | LocalDateTime x t => valid_date x /\ valid_time t
  | LocalDate x => valid_date x
  | LocalTime t => valid_time t
  end.

(** How the outcome of a literal presents a date-time: a lone date is kept
    apart because a time may follow it after a space. *)
Definition as_pval (d : datetime) : pval := match d with LocalDate x => PPartialDate x | _ => PDateTime d end.

(** [inside p lit s]: the span [s] covers whole characters of the literal
    [lit] that starts at [p]. *)
Definition inside (p : pos) (lit : list N) (s : span) : Prop :=
  exists u v w, lit = u ++ v ++ w /\ s = mkspan (pos_plus p (tlen u)) (pos_plus p (tlen u + tlen v)).

(** ** What errors say

    What is read of a literal before an error. *)

Definition begins (P : N -> Prop) (w : list N) : Prop := exists c r, w = c :: r /\ P c.
(** Digits with single underscores between them and perhaps one at the end. *)
Definition open_digits (P : N -> Prop) (t : list N) : Prop := exists t' ds, us P t' ds /\ (t = t' \/ t = t' ++ [95]).
Definition part_digit (p : lit_part) (c : N) : Prop :=
  match p with LPPrefixedInt f => exists v, radix_digit f c v | _ => decimal c end.
(** [before_part p x]: the digits of the part [p] of a literal come after [x]. *)
Inductive before_part : lit_part -> list N -> Prop :=
| bp_generic : before_part LPGeneric []
| bp_int_or_float sg neg : sign_text sg neg -> before_part LPIntOrFloat sg
| bp_int sg neg : sign_text sg neg -> before_part LPInt sg
| bp_integral sg neg : sign_text sg neg -> before_part LPFloatIntegral sg
| bp_prefixed f : before_part (LPPrefixedInt f) [48; radix_letter f]
| bp_fract sg neg t ds : sign_text sg neg -> us decimal t ds -> no_leading_zero t -> before_part LPFloatFract (sg ++ t ++ [46])
| bp_exp sg neg t ds ft fds e sg' neg' : sign_text sg neg -> us decimal t ds -> no_leading_zero t -> frac_text ft fds ->
    e = 101 \/ e = 69 -> sign_text sg' neg' -> before_part LPFloatExp (sg ++ t ++ ft ++ [e] ++ sg').
(** ... up to somewhere in the part, up to behind a digit of it. *)
Definition in_part (p : lit_part) (u : list N) : Prop := exists x d, u = x ++ d /\ before_part p x /\ (d = [] \/ open_digits (part_digit p) d).
Definition after_digit (p : lit_part) (u : list N) : Prop := exists x d ds, u = x ++ d /\ before_part p x /\ us (part_digit p) d ds.
(** What may follow the digits of a part. *)
Definition part_next (p : lit_part) (w : list N) : Prop :=
  match p with
  | LPFloatIntegral => begins (fun c => c = 46 \/ c = 101 \/ c = 69) w
  | LPFloatFract => w = [] \/ begins (fun c => c = 101 \/ c = 69) w
  | _ => w = []
  end.

(** A keyword [x] is read up to its rest [q]; [inf] and [nan] may have a sign
    and then a capital first letter. *)
Definition bare_word (x : list N) : Prop := In x [bs "true"; bs "false"; bs "inf"; bs "nan"].
Inductive word_read : list N -> list N -> list N -> Prop :=
| wr_plain x p q : bare_word x -> x = p ++ q -> word_read x p q
| wr_signed x sg p q : x = bs "inf" \/ x = bs "nan" -> sg = 43 \/ sg = 45 -> x = p ++ q -> word_read x (sg :: p) q
| wr_capital x sg c p q : x = bs "inf" \/ x = bs "nan" -> sg = 43 \/ sg = 45 -> x = c :: p ++ q -> word_read x (sg :: c - 32 :: p) q.
Definition sign_char (g : tsign) : N := match g with SPos => 43 | SNeg => 45 end.
Definition capital_radix (f : int_prefix) : N := match f with PBin => 66 | POct => 79 | PHex => 88 end.

(** Years and hours as the parser takes them (C30). *)
Definition year_text (t : list N) (y : N) : Prop := (y <= 9999 /\ t = four y) \/ underscored 4 t y.
Definition hour_text (x t : list N) (h : N) : Prop := (h < 100 /\ t = two h) \/ (x = [] /\ underscored 2 t h).
(** [dt_before f x]: [x] is a valid date-time up to its field [f]. *)
Inductive dt_before : dt_field -> list N -> Prop :=
| db_year : dt_before DYear []
| db_month yt y : year_text yt y -> dt_before DMonth (yt ++ [45])
| db_day yt y m : year_text yt y -> 1 <= m <= 12 -> dt_before DDay (yt ++ [45] ++ two m ++ [45])
| db_local_hour : dt_before DHour []
| db_hour x d sep : lenient_datetime x (LocalDate d) -> sep = 84 \/ sep = 116 -> dt_before DHour (x ++ [sep])
| db_minute x t h : dt_before DHour x -> hour_text x t h -> h < 24 -> dt_before DMinute (x ++ t ++ [58])
| db_second x m : dt_before DMinute x -> m < 60 -> dt_before DSecond (x ++ two m ++ [58])
| db_offset_hour x s ft n sg : dt_before DSecond x -> s < 60 -> subsec_text ft n -> sg = 43 \/ sg = 45 ->
    dt_before DOffsetHour (x ++ two s ++ ft ++ [sg])
| db_offset_minute x h : dt_before DOffsetHour x -> h < 24 -> dt_before DOffsetMinute (x ++ two h ++ [58]).
(** The values a field may have after [x]. *)
Inductive dt_range : dt_field -> list N -> N -> N -> Prop :=
| dr_month x : dt_range DMonth x 1 12
| dr_day yt y m n : year_text yt y -> month_days y m n -> dt_range DDay (yt ++ [45] ++ two m ++ [45]) 1 n
| dr_hour x : dt_range DHour x 0 23
| dr_minute x : dt_range DMinute x 0 59
| dr_second x : dt_range DSecond x 0 59
| dr_offset_hour x : dt_range DOffsetHour x 0 23
| dr_offset_minute x : dt_range DOffsetMinute x 0 59.
(** The characters that may follow a field. *)
Definition dt_next (f : dt_field) : list N :=
  match f with
  | DYear | DMonth => [45] | DDay => [84; 116] | DHour | DMinute | DOffsetHour => [58]
  | DSecond => [90; 122; 43; 45] | DOffsetMinute => []
  end.
Definition dt_digits (t : list N) : Prop := Forall (fun c => decimal c \/ c = 95) t.
(** [u] is read up to the end of the field [f]. *)
Definition dt_after (f : dt_field) (u : list N) : Prop :=
  match f with
  | DYear => length u = 4%nat /\ dt_digits u
  | _ => exists x n lo hi, u = x ++ two n /\ dt_before f x /\ dt_range f x lo hi /\ lo <= n <= hi
  end.
(** [u] is read up to within the field [f], but not to its end. *)
Definition dt_within (f : dt_field) (u : list N) : Prop :=
  match f with
  | DYear => u <> [] /\ (length u < 4)%nat /\ dt_digits u
  | _ => exists x d, u = x ++ [d] /\ dt_before f x /\ decimal d
  end.
(** Seconds, and what may be of a fraction. *)
Definition dt_seconds (u : list N) : Prop :=
  exists x s ft, u = x ++ two s ++ ft /\ dt_before DSecond x /\ s < 60 /\ (ft = [] \/ exists ds, ft = 46 :: ds /\ Forall decimal ds).
(** [u] is the start of a date-time. *)
Definition dt_start (u : list N) : Prop :=
  (exists f, dt_before f u) \/ (exists f, dt_within f u) \/ dt_seconds u \/ exists d, lenient_datetime u (LocalDate d).

(** What an error about a literal says of the part [v] of the literal
    [u ++ v ++ w] that it marks. *)
Definition lit_says (e : terror) (u v w : list N) : Prop :=
  match e with
  | EUnexpectedLiteralStart c _ => u = [] /\ v = [c] /\ c <> 95 /\ ~ decimal c
  | EUnexpectedLiteralChar p c _ => v = [c] /\ in_part p u /\ ~ part_digit p c /\ (c = 95 -> u = [43] \/ u = [45])
  | ELitStartsWithUnderscore p _ => v = [95] /\ before_part p u
  | ELitEndsWithUnderscore p _ => v = [95] /\ after_digit p u /\ part_next p w
  | EConsecutiveUnderscoresInLiteral _ => (exists n, v = 95 :: 95 :: repeat 95 n) /\ ~ begins (eq 95) w /\ exists p, after_digit p u
  | EMissingNumDigitsAfterSign g _ => u = [sign_char g] /\ v = [] /\ (w = [] \/ begins (eq 46) w)
  | EInvalidLeadingZero _ => v = [48] /\ (u = [] \/ u = [43] \/ u = [45]) /\ begins (fun c => decimal c \/ c = 95) w
  | EExpectedRadixOrDateTime c _ => u = [48] /\ v = [c] /\ ~ decimal c /\ ~ In c [66; 69; 79; 88; 98; 101; 111; 120; 95; 46]
  | EUnexpectedCharSignedLeadingZeroNum c _ => (u = [43; 48] \/ u = [45; 48]) /\ v = [c] /\ ~ decimal c
  | EUppercaseBareLitChar c x _ => v = [c] /\ exists e q, word_read x u (e :: q) /\ c = e - 32
  | EUnexpectedBareLitChar c x _ => v = [c] /\ exists e q, word_read x u (e :: q) /\ c <> e /\ c <> e - 32
  | EBareLitTrailingChars t x _ => v = t /\ v <> [] /\ w = [] /\ word_read x u []
  | EBareLitMissingChars x _ => v = [] /\ w = [] /\ exists q, word_read x u q /\ q <> []
  | EMissingFloatFractionalPart _ => v = [] /\ before_part LPFloatFract u /\ part_next LPFloatFract w
  (* only a float without digits in its exponent *)
  | EFloatLiteralOverflow _ => u = [] /\ w = [] /\ before_part LPFloatExp v
  | EIntLiteralOverflow _ => u = [] /\ w = [] /\ exists z, dec_int v z /\ ~ (i64_min <= z <= i64_max)%Z
  | EEmptyPrefixedIntValue _ => v = [] /\ w = [] /\ exists f, u = [48; radix_letter f]
  | EPrefixedIntSignNotAllowed _ => u = [] /\ (v = [43] \/ v = [45]) /\ exists f c r, w = 48 :: c :: r /\ (c = radix_letter f \/ c = capital_radix f)
  | EUppercaseIntRadix f _ => u = [48] /\ v = [capital_radix f]
  | EPrefixedIntValueStartsWithUnderscore _ => v = [95] /\ exists f, u = [48; radix_letter f]
  | EPrefixedIntValueEndsWithUnderscore _ => v = [95] /\ w = [] /\ exists f, after_digit (LPPrefixedInt f) u
  | EIntDigitTooBig f c _ => v = [c] /\ in_part (LPPrefixedInt f) u /\ ~ part_digit (LPPrefixedInt f) c /\ (decimal c \/ 97 <= c <= 122 \/ 65 <= c <= 90)
  | EUnexpectedCharInDateTime c _ => v = [c] /\ dt_start u /\ (decimal c -> dt_after DSecond u)
  | EDateTimeExpectedCharFound f x c _ => v = [c] /\ c <> x /\ In x (dt_next f) /\ dt_after f u
  | EDateTimeMissingChar f x _ => v = [] /\ In x (dt_next f) /\ dt_after f u /\ (w = [] \/ begins decimal w)
  (* three digits before a colon are also taken for an hour *)
  | EDateTimeIncomplete f _ =>
      v = [] /\ ((dt_within f u /\ (w = [] \/ begins (fun c => In c (dt_next f)) w)) \/
                 (f = DHour /\ length u = 3%nat /\ dt_digits u /\ begins (eq 58) w))
  | EDateTimeMissing f _ => v = [] /\ dt_before f u /\ (w = [] \/ begins (fun c => In c (dt_next f)) w)
  | EDateTimeOutOfBounds f n lo hi _ =>
      dt_before f u /\ dt_range f u lo hi /\ ~ lo <= n <= hi /\ (v = two n /\ n < 100 \/ f = DHour /\ hour_text u v n)
  | EDateTimeMissingSubsec _ => v = [] /\ w = [] /\ exists x s y, u = x ++ two s ++ [46] ++ y /\ dt_before DSecond x /\ s < 60 /\
      (y = [] \/ begins (fun c => In c (dt_next DSecond)) y)
  | ELocalDateTimeOffset _ => (exists c, v = [c] /\ In c [90; 122; 43; 45]) /\ exists t, lenient_datetime u (LocalTime t)
  | _ => False
  end.
(** The error [e] is about the literal [lit] that starts at [p]. *)
Definition explained (p : pos) (lit : list N) (e : terror) : Prop :=
  exists u v w, lit = u ++ v ++ w /\ err_span e = mkspan (pos_plus p (tlen u)) (pos_plus p (tlen u + tlen v)) /\ lit_says e u v w.
