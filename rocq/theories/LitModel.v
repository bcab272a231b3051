(** Model of crates/toml/src/parse/{lit,num,datetime}.rs: literals that are
    not strings.

    Text is a list of unicode scalar values.  A [CharIter]
    (Peekable<CharIndices>) is the byte offset of the next character together
    with the characters that are left. *)
From Verif Require Import Base CommonModel TomlError.

Definition citer : Type := N * list N.

(** [CharIter::next], [CharIter::peek] *)
Definition cnext (it : citer) : option (N * N) * citer :=
  match snd it with
  | [] => (None, it)
  | c :: r => (Some (fst it, c), (fst it + len_utf8 c, r))
  end.

(** Byte length of a [&str]. *)
Fixpoint tlen (s : list N) : N :=
  match s with
  | [] => 0
  | c :: r => len_utf8 c + tlen r
  end.

(** ** Values *)

(** f64.  The decimal-to-binary conversion is the standard library's; the
    model keeps the exact decimal [mant * 10 ^ exp] that is handed to it. *)
Inductive fval := FDec (neg : bool) (mant : N) (exp : Z) | FInf (neg : bool) | FNan (neg : bool).

(** toml/src/parse/lit.rs:10-23 [PartialValue] *)
Inductive pval :=
| PFloat (f : fval)
| PInt (i : Z)
| PBool (b : bool)
| PDateTime (d : datetime)
| PPartialDate (d : date)
| PInvalidDateTime (e : terror).

(** i64 *)
Definition i64_min : Z := (-9223372036854775808)%Z.
Definition i64_max : Z := 9223372036854775807%Z.
Definition in_i64 (z : Z) : bool := ((i64_min <=? z) && (z <=? i64_max))%Z.
(** Two's complement wrapping to 64 bits. *)
Definition wrap_i64 (z : Z) : Z := ((z + 9223372036854775808) mod 18446744073709551616 - 9223372036854775808)%Z.

(** [Pos::minus], panicking on underflow. *)
Definition pos_minus_p (p : pos) (n : N) : res terror pos :=
  match pos_minus p n with Some q => Ok q | None => Panic end.
(** Unsigned [i - 1], panicking on underflow. *)
Definition pred_p (i : N) : res terror N := if i =? 0 then Panic else Ok (i - 1).

(** ** Decimal text of floats: [str::parse::<f64>]

    Grammar from the standard library's documentation:
    [Number ::= [sign] ( Digit+ | Digit+ '.' Digit* | Digit* '.' Digit+ ) Exp?],
    [Exp ::= 'e' [sign] Digit+] (e or E).  The names inf, infinity and nan are
    left out: the text handed over here always starts with a digit after the
    sign. *)
Fixpoint span_digits (s : list N) : list N * list N :=
  match s with
  | c :: r => if is_digit c then let (d, r') := span_digits r in (c :: d, r') else ([], s)
  | [] => ([], [])
  end.
Definition f64_exp (s : list N) : option Z :=
  match s with
  | [] => Some 0%Z
  | c :: r =>
      if (c =? 101) || (c =? 69) then
        let (neg, r) := match r with
                        | 43 :: r' => (false, r')
                        | 45 :: r' => (true, r')
                        | _ => (false, r)
                        end in
        match span_digits r with
        | (d :: ds, []) =>
            let v := Z.of_N (dec_val (d :: ds)) in
            Some (if neg : bool then (- v)%Z else v)
        | _ => None
        end
      else None
  end.
Definition f64_from_str (s : list N) : option fval :=
  let (neg, s) := match s with
                  | 43 :: r => (false, r)
                  | 45 :: r => (true, r)
                  | _ => (false, s)
                  end in
  let (ip, r) := span_digits s in
  let (fp, r) := match r with
                 | 46 :: r' => span_digits r'
                 | _ => ([], r)
                 end in
  match ip ++ fp with
  | [] => None
  | ds =>
      match f64_exp r with
      | None => None
      | Some e => Some (FDec neg (dec_val ds) (e - Z.of_nat (length fp))%Z)
      end
  end.

(** toml/src/parse/num.rs:413-417 [parse_float] *)
Definition parse_float (lit : list N) (sp : span) : res terror fval :=
  match f64_from_str (filter (fun c => negb (c =? 95)) lit) with
  | Some f => Ok f
  | None => Err (EFloatLiteralOverflow sp)
  end.

(** ** Numbers *)

(** toml/src/parse/num.rs:419-429 [consecutive_underscore_error] *)
Fixpoint count_underscores (s : list N) : N :=
  match s with
  | 95 :: r => 1 + count_underscores r
  | _ => 0
  end.
Definition consecutive_underscore_error {A} (rest : list N) (start : pos) : res terror A :=
  Err (EConsecutiveUnderscoresInLiteral
         (mkspan start (pos_plus (pos_plus start 2) (count_underscores rest)))).

(** toml/src/parse/num.rs:319-356 [validate_float_exponent]; [first] is
    [j == 0]. *)
Fixpoint float_exp_loop (lit : list N) (sp : span) (first : bool) (lu : bool) (i : N) (rest : list N)
  : res terror fval :=
  match rest with
  | [] =>
      if lu then
        let? p := pos_minus_p (s_end sp) 1 in Err (ELitEndsWithUnderscore LPFloatExp p)
      else parse_float lit sp
  | c :: r =>
      if is_digit c then float_exp_loop lit sp false false (i + len_utf8 c) r
      else if c =? 95 then
        if first then Err (ELitStartsWithUnderscore LPFloatExp (pos_plus (s_start sp) i))
        else if lu then
          let? j := pred_p i in consecutive_underscore_error r (pos_plus (s_start sp) j)
        else float_exp_loop lit sp false true (i + len_utf8 c) r
      else Err (EUnexpectedLiteralChar LPFloatExp c (pos_plus (s_start sp) i))
  end.
Definition validate_float_exponent (lit : list N) (sp : span) (i : N) (rest : list N) : res terror fval :=
  match rest with
  | c :: r => if (c =? 45) || (c =? 43) then float_exp_loop lit sp true false (i + 1) r
              else float_exp_loop lit sp true false i rest
  | [] => float_exp_loop lit sp true false i rest
  end.

(** toml/src/parse/num.rs:358-411 [validate_float_fractional_part] *)
Fixpoint float_fract_loop (lit : list N) (sp : span) (start : N) (lu : bool) (i : N) (rest : list N)
  : res terror fval :=
  match rest with
  | [] =>
      if lu then
        let? p := pos_minus_p (s_end sp) 1 in Err (ELitEndsWithUnderscore LPFloatFract p)
      else parse_float lit sp
  | c :: r =>
      if is_digit c then float_fract_loop lit sp start false (i + len_utf8 c) r
      else if (c =? 101) || (c =? 69) then
        if i =? start then Err (EMissingFloatFractionalPart (pos_plus (s_start sp) i))
        else if lu then
          let? j := pred_p i in Err (ELitEndsWithUnderscore LPFloatFract (pos_plus (s_start sp) j))
        else validate_float_exponent lit sp (i + len_utf8 c) r
      else if c =? 95 then
        if i =? start then Err (ELitStartsWithUnderscore LPFloatFract (pos_plus (s_start sp) i))
        else if lu then
          let? j := pred_p i in consecutive_underscore_error r (pos_plus (s_start sp) j)
        else float_fract_loop lit sp start true (i + len_utf8 c) r
      else Err (EUnexpectedLiteralChar LPFloatFract c (pos_plus (s_start sp) i))
  end.
Definition validate_float_fractional_part (lit : list N) (sp : span) (start : N) (i : N) (rest : list N)
  : res terror fval :=
  match rest with
  | [] => Err (EMissingFloatFractionalPart (s_end sp))
  | _ => float_fract_loop lit sp start false i rest
  end.

(** ** Dates and times *)

(** toml/src/parse/datetime.rs:239-242 *)
Definition unexpected_char_error {A} (c : N) (sp : span) (i : N) : res terror A :=
  Err (EUnexpectedCharInDateTime c (pos_plus (s_start sp) i)).

(** toml/src/parse/datetime.rs:244-267 [expect_char] *)
Definition expect_char (it : citer) (sp : span) (after : dt_field) (expected : N) : res terror citer :=
  match cnext it with
  | (Some (i, c), it) =>
      if c =? expected then Ok it
      else Err (EDateTimeExpectedCharFound after expected c (pos_plus (s_start sp) i))
  | (None, _) => Err (EDateTimeMissingChar after expected (s_end sp))
  end.

(** toml/src/parse/datetime.rs:286-329 [expect_two_digit_num] with the field
    name of [ExpectNumError::kind] (276-284) passed in. *)
Definition expect_two_digit_num (it : citer) (nexts : list N) (sp : span) (f : dt_field)
  : res terror (N * span * citer) :=
  match cnext it with
  | (None, _) => Err (EDateTimeMissing f (s_end sp))
  | (Some (o, c), it) =>
      if is_digit c then
        match cnext it with
        | (None, _) => Err (EDateTimeIncomplete f (s_end sp))
        | (Some (i, c1), it) =>
            if is_digit c1 then
              let start := pos_plus (s_start sp) o in
              Ok (10 * (c - 48) + (c1 - 48), mkspan start (pos_plus start 2), it)
            else if existsb (N.eqb c1) nexts then Err (EDateTimeIncomplete f (pos_plus (s_start sp) i))
            else Err (EUnexpectedCharInDateTime c1 (pos_plus (s_start sp) i))
        end
      else if existsb (N.eqb c) nexts then Err (EDateTimeMissing f (pos_plus (s_start sp) o))
      else Err (EUnexpectedCharInDateTime c (pos_plus (s_start sp) o))
  end.

(** toml/src/parse/datetime.rs:331-353 [check_range] *)
Definition check_range (v : N) (s : span) (lo hi : N) (f : dt_field) : res terror unit :=
  if (lo <=? v) && (v <=? hi) then Ok tt else Err (EDateTimeOutOfBounds f v lo hi s).

Definition is_offset_start (c : N) : bool := (c =? 90) || (c =? 122) || (c =? 43) || (c =? 45).

(** toml/src/parse/datetime.rs:168-192 [parse_subsec] *)
Fixpoint subsec_loop (sp : span) (digits subsec : N) (i : N) (rest : list N) : res terror (N * citer) :=
  let finish :=
    if digits =? 0 then Err (EDateTimeMissingSubsec (s_end sp))
    else Ok (subsec * 10 ^ (9 - digits), (i, rest)) in
  match rest with
  | [] => finish
  | c :: r =>
      if is_digit c then
        if digits <? 9 then subsec_loop sp (digits + 1) (10 * subsec + (c - 48)) (i + 1) r
        else subsec_loop sp digits subsec (i + 1) r
      else if is_offset_start c then finish
      else unexpected_char_error c sp i
  end.
Definition parse_subsec (it : citer) (sp : span) : res terror (N * citer) :=
  subsec_loop sp 0 0 (fst it) (snd it).

(** toml/src/parse/datetime.rs:134-166 [continue_parsing_time] *)
Definition continue_parsing_time (it : citer) (sp : span) (hour : N) : res terror (time * citer) :=
  let? (m, ms, it) := expect_two_digit_num it [58] sp DMinute in
  let? _ := check_range m ms 0 59 DMinute in
  let? it := expect_char it sp DMinute 58 in
  let? (s, ss, it) := expect_two_digit_num it [90; 122; 43; 45] sp DSecond in
  let? _ := check_range s ss 0 59 DSecond in
  let? (nanos, it) :=
    match snd it with
    | 46 :: r => parse_subsec (fst it + 1, r) sp
    | _ => Ok (0, it)
    end in
  let t := mktime hour m s nanos in
  match snd it with
  | c :: _ => if is_offset_start c then Ok (t, it) else unexpected_char_error c sp (fst it)
  | [] => Ok (t, it)
  end.

(** toml/src/parse/datetime.rs:226-237 [error_on_offset] *)
Definition error_on_offset (it : citer) (sp : span) : res terror unit :=
  match cnext it with
  | (Some (i, c), _) =>
      if is_offset_start c then Err (ELocalDateTimeOffset (pos_plus (s_start sp) i))
      else Err (EUnexpectedCharInDateTime c (pos_plus (s_start sp) i))
  | (None, _) => Ok tt
  end.

(** toml/src/parse/datetime.rs:97-110 [continue_parsing_local_time] *)
Definition continue_parsing_local_time (it : citer) (sp : span) (hour : N) : res terror time :=
  let? _ := check_range hour (span_from_pos_len (s_start sp) 2) 0 23 DHour in
  let? (t, it) := continue_parsing_time it sp hour in
  let? _ := error_on_offset it sp in
  Ok t.

(** toml/src/parse/datetime.rs:210-224 [parse_offset] *)
Definition parse_offset (it : citer) (sp : span) : res terror (N * citer) :=
  let? (h, hs, it) := expect_two_digit_num it [58] sp DOffsetHour in
  let? _ := check_range h hs 0 23 DOffsetHour in
  let? it := expect_char it sp DOffsetHour 58 in
  let? (m, ms, it) := expect_two_digit_num it [] sp DOffsetMinute in
  let? _ := check_range m ms 0 59 DOffsetMinute in
  Ok (60 * h + m, it).

(** toml/src/parse/datetime.rs:194-208 [try_to_parse_offset]; the iterator is
    not looked at afterwards. *)
Definition try_to_parse_offset (it : citer) (sp : span) : res terror (option offset) :=
  match cnext it with
  | (Some (i, c), it) =>
      if (c =? 90) || (c =? 122) then Ok (Some OUtc)
      else if c =? 43 then let? (m, _) := parse_offset it sp in Ok (Some (OCustom (Z.of_N m)))
      else if c =? 45 then let? (m, _) := parse_offset it sp in Ok (Some (OCustom (- Z.of_N m)%Z))
      else unexpected_char_error c sp i
  | (None, _) => Ok None
  end.

(** toml/src/parse/datetime.rs:112-130 [parse_time_and_offset] *)
Definition parse_time_and_offset (it : citer) (sp : span) : res terror (time * option offset) :=
  let? (h, hs, it) := expect_two_digit_num it [58] sp DHour in
  let? _ := check_range h hs 0 23 DHour in
  let? it := expect_char it sp DHour 58 in
  let? (t, it) := continue_parsing_time it sp h in
  let? o := try_to_parse_offset it sp in
  Ok (t, o).

(** toml/src/parse/datetime.rs:65-71: leap years and days per month *)
Definition is_leap_year (y : N) : bool :=
  (y mod 4 =? 0) && (negb (y mod 100 =? 0) || (y mod 400 =? 0)).
Definition max_day (y m : N) : N :=
  if m =? 2 then (if is_leap_year y then 29 else 28)
  else if (m =? 4) || (m =? 6) || (m =? 9) || (m =? 11) then 30 else 31.

(** toml/src/parse/datetime.rs:53-93 [continue_parsing_date_time_after_year] *)
Definition continue_parsing_date_time_after_year (it : citer) (sp : span) (year : N) : res terror pval :=
  let? (month, ms, it) := expect_two_digit_num it [45] sp DMonth in
  let? _ := check_range month ms 1 12 DMonth in
  let? it := expect_char it sp DMonth 45 in
  let? (day, ds, it) := expect_two_digit_num it [84; 116] sp DDay in
  let? _ := check_range day ds 1 (max_day year month) DDay in
  let d := mkdate year month day in
  match cnext it with
  | (Some (i, c), it) =>
      if (c =? 84) || (c =? 116) then
        let? (t, o) := parse_time_and_offset it sp in
        Ok (PDateTime (from_optional_offset d t o))
      else if is_digit c then Err (EDateTimeMissingChar DDay 84 (pos_plus (s_start sp) i))
      else Err (EUnexpectedCharInDateTime c (pos_plus (s_start sp) i))
  | (None, _) => Ok (PPartialDate d)
  end.

(** toml/src/parse/datetime.rs:10-50 [continue_parsing_date_time] *)
Definition bad_year_char {A} (sp : span) (i c : N) : res terror A :=
  let p := pos_plus (s_start sp) i in
  if (c =? 46) || (c =? 95) then Err (EInvalidLeadingZero (s_start sp))
  else if c =? 45 then Err (EDateTimeIncomplete DYear p)
  else Err (EUnexpectedCharInDateTime c p).
Definition continue_parsing_date_time (it : citer) (sp : span) (two_digits : N) : res terror pval :=
  match cnext it with
  | (None, _) => Err (EDateTimeIncomplete DYear (s_end sp))
  | (Some (i, c), it) =>
      if is_digit c then
        match cnext it with
        | (None, _) => Err (EDateTimeIncomplete DYear (s_end sp))
        | (Some (i1, c1), it) =>
            if is_digit c1 then
              let year := 100 * two_digits + 10 * (c - 48) + (c1 - 48) in
              let? it := expect_char it sp DYear 45 in
              continue_parsing_date_time_after_year it sp year
            else bad_year_char sp i1 c1
        end
      else if c =? 58 then
        let? t := continue_parsing_local_time it sp (two_digits mod 256) in
        Ok (PDateTime (LocalTime t))
      else bad_year_char sp i c
  end.

(** [Err(e) => Ok(PartialValue::InvalidDateTime(e))] *)
Definition as_invalid_datetime (r : res terror pval) : res terror pval :=
  match r with
  | Err e => Ok (PInvalidDateTime e)
  | _ => r
  end.

(** toml/src/parse/num.rs:49-176 [parse_decimal_int_float_or_date].
    [ovf] is the state [OverflowOrFloat].  [as u8] and [as u16] truncate. *)
Fixpoint dec_loop (lit : list N) (sp : span) (sg : option tsign) (acc : Z) (ovf lu : bool)
    (i : N) (rest : list N) : res terror pval :=
  match rest with
  | [] =>
      if lu then
        let? p := pos_minus_p (s_end sp) 1 in Err (ELitEndsWithUnderscore LPInt p)
      else if ovf then Err (EIntLiteralOverflow sp)
      else Ok (PInt acc)
  | c :: r =>
      let i' := i + len_utf8 c in
      let unsigned := match sg with None => true | _ => false end in
      if is_digit c then
        if ovf then dec_loop lit sp sg acc true false i' r
        else
          let sign := match sg with None => 1%Z | Some s => sign_val s end in
          let m := (acc * 10)%Z in
          let v := (m + sign * Z.of_N (c - 48))%Z in
          if in_i64 m && in_i64 v then dec_loop lit sp sg v false false i' r
          else dec_loop lit sp sg acc true false i' r
      else if c =? 46 then
        if lu then
          let? p := pos_minus_p (pos_plus (s_start sp) i) 1 in Err (ELitEndsWithUnderscore LPFloatIntegral p)
        else
          let? f := validate_float_fractional_part lit sp (i + 1) i' r in Ok (PFloat f)
      else if (c =? 101) || (c =? 69) then
        if lu then
          let? p := pos_minus_p (pos_plus (s_start sp) i) 1 in Err (ELitEndsWithUnderscore LPFloatIntegral p)
        else
          let? f := validate_float_exponent lit sp i' r in Ok (PFloat f)
      else if (c =? 58) && unsigned && (i =? 2) then
        let? t := continue_parsing_local_time (i', r) sp (Z.to_N (acc mod 256)) in
        Ok (PDateTime (LocalTime t))
      else if (c =? 45) && unsigned && (i =? 4) then
        as_invalid_datetime
          (continue_parsing_date_time_after_year (i', r) sp (Z.to_N (acc mod 65536)))
      else if (c =? 58) && unsigned && (i <=? 3) then
        Err (EDateTimeIncomplete DHour (pos_plus (s_start sp) i))
      else if (c =? 45) && unsigned && (i <=? 6) then
        if i <=? 3 then Ok (PInvalidDateTime (EDateTimeIncomplete DYear (pos_plus (s_start sp) i)))
        else
          match nth_error (utf8 lit) 4 with
          | Some b => Ok (PInvalidDateTime (EDateTimeExpectedCharFound DYear 45 b (pos_plus (s_start sp) 4)))
          | None => Panic
          end
      else if c =? 95 then
        if lu then
          let? j := pred_p i in consecutive_underscore_error r (pos_plus (s_start sp) j)
        else dec_loop lit sp sg acc ovf true i' r
      else Err (EUnexpectedLiteralChar LPIntOrFloat c (pos_plus (s_start sp) i))
  end.
Definition parse_decimal_int_float_or_date (it : citer) (lit : list N) (sp : span) (acc : Z)
    (sg : option tsign) : res terror pval :=
  let sign := match sg with None => 1%Z | Some s => sign_val s end in
  dec_loop lit sp sg (acc * sign)%Z false false (fst it) (snd it).

(** The digit classes of [parse_prefixed_int_literal] *)
Definition hex_val (c : N) : option N :=
  if is_digit c then Some (c - 48)
  else if (97 <=? c) && (c <=? 102) then Some (10 + c - 97)
  else if (65 <=? c) && (c <=? 70) then Some (10 + (c - 65))
  else None.
Definition is_g_to_z (c : N) : bool := ((103 <=? c) && (c <=? 122)) || ((71 <=? c) && (c <=? 90)).

(** toml/src/parse/num.rs:236-317 [parse_prefixed_int_literal].
    [overflowing_shl] only reports shift amounts of 64 or more, so the shift
    drops the high bits; the addition overflows (panic) only if the model says
    so. *)
Fixpoint prefixed_loop (sp : span) (pf : int_prefix) (first lu : bool) (acc : Z) (i : N) (rest : list N)
  : res terror Z :=
  match rest with
  | [] =>
      if first then Err (EEmptyPrefixedIntValue (s_end sp))
      else if lu then
        let? p := pos_minus_p (s_end sp) 1 in Err (EPrefixedIntValueEndsWithUnderscore p)
      else Ok acc
  | c :: r =>
      let p := pos_plus (s_start sp) i in
      let i' := i + len_utf8 c in
      match hex_val c with
      | Some n =>
          if n <? 2 ^ prefix_bits pf then
            let shifted := wrap_i64 (acc * 2 ^ Z.of_N (prefix_bits pf)) in
            let acc' := (shifted + Z.of_N n)%Z in
            if in_i64 acc' then prefixed_loop sp pf false false acc' i' r else Panic
          else Err (EIntDigitTooBig pf c p)
      | None =>
          if is_g_to_z c && match pf with PHex => true | _ => false end then Err (EIntDigitTooBig pf c p)
          else if c =? 95 then
            if first then Err (EPrefixedIntValueStartsWithUnderscore p)
            else if lu then
              let? j := pred_p i in consecutive_underscore_error r (pos_plus (s_start sp) j)
            else prefixed_loop sp pf false true acc i' r
          else Err (EUnexpectedLiteralChar (LPPrefixedInt pf) c p)
      end
  end.

(** toml/src/parse/num.rs:178-234 [parse_prefixed_int_float_or_date] *)
Definition radix_of (c : N) : option (int_prefix * bool) :=
  if c =? 98 then Some (PBin, false) else if c =? 66 then Some (PBin, true)
  else if c =? 111 then Some (POct, false) else if c =? 79 then Some (POct, true)
  else if c =? 120 then Some (PHex, false) else if c =? 88 then Some (PHex, true)
  else None.
Definition parse_prefixed_int_float_or_date (it : citer) (lit : list N) (sp : span) (sg : option tsign)
  : res terror pval :=
  let signed := match sg with Some _ => true | None => false end in
  match cnext it with
  | (None, _) => Ok (PInt 0)
  | (Some (i, c), it) =>
      match radix_of c with
      | Some (pf, upper) =>
          if signed then Err (EPrefixedIntSignNotAllowed (s_start sp))
          else if upper then Err (EUppercaseIntRadix pf (pos_plus (s_start sp) i))
          else let? v := prefixed_loop sp pf true false 0%Z (fst it) (snd it) in Ok (PInt v)
      | None =>
          if c =? 46 then
            let? f := validate_float_fractional_part lit sp (i + 1) (fst it) (snd it) in Ok (PFloat f)
          else if (c =? 101) || (c =? 69) then
            let? f := validate_float_exponent lit sp (fst it) (snd it) in Ok (PFloat f)
          else if is_digit c && negb signed then
            as_invalid_datetime (continue_parsing_date_time it sp (c - 48))
          else if is_digit c || (c =? 95) then
            Err (EInvalidLeadingZero (pos_plus (s_start sp) (if signed then 1 else 0)))
          else
            let p := pos_plus (s_start sp) i in
            if signed then Err (EUnexpectedCharSignedLeadingZeroNum c p)
            else Err (EExpectedRadixOrDateTime c p)
      end
  end.

(** ** Bare words *)

(** [char::is_uppercase] and [to_ascii_lowercase] for the characters that can
    arrive here: only ASCII letters can change or be upper case. *)
Definition ascii_upper (c : N) : bool := (65 <=? c) && (c <=? 90).
Definition ascii_lower (c : N) : N := if ascii_upper c then c + 32 else c.

(** toml/src/parse/lit.rs:130-167 [parse_bare_literal]; [lit[i..]] is the rest
    of the characters. *)
Fixpoint bare_loop (sp : span) (whole expected : list N) (i : N) (rest : list N) : res terror unit :=
  match rest with
  | [] => match expected with
          | [] => Ok tt
          | _ => Err (EBareLitMissingChars whole (s_end sp))
          end
  | c :: r =>
      match expected with
      | [] => Err (EBareLitTrailingChars rest whole (mkspan (pos_plus (s_start sp) i) (s_end sp)))
      | e :: es =>
          let p := pos_plus (s_start sp) i in
          if c =? e then bare_loop sp whole es (i + len_utf8 c) r
          else if ascii_lower c =? e then Err (EUppercaseBareLitChar c whole p)
          else Err (EUnexpectedBareLitChar c whole p)
      end
  end.
Definition parse_bare_literal (it : citer) (sp : span) (i : N) (first : N) (expected : list N)
  : res terror unit :=
  if ascii_upper first then Err (EUppercaseBareLitChar first expected (pos_plus (s_start sp) i))
  else bare_loop sp expected (tl expected) (fst it) (snd it).

(** toml/src/parse/lit.rs:58-128 [parse_literal] *)
Definition parse_literal (lit : list N) (sp : span) : res terror pval :=
  match cnext (0, lit) with
  | (None, _) => Panic
  | (Some (_, c), it) =>
      if (c =? 43) || (c =? 45) then
        let sg := if c =? 43 then SPos else SNeg in
        match cnext it with
        | (None, _) => Err (EMissingNumDigitsAfterSign sg (s_end sp))
        | (Some (i, c2), it) =>
            if c2 =? 48 then parse_prefixed_int_float_or_date it lit sp (Some sg)
            else if is_digit c2 then
              parse_decimal_int_float_or_date it lit sp (Z.of_N (c2 - 48)) (Some sg)
            else if (c2 =? 105) || (c2 =? 73) then
              let? _ := parse_bare_literal it sp i c (bs "inf") in
              Ok (PFloat (FInf match sg with SNeg => true | SPos => false end))
            else if (c2 =? 110) || (c2 =? 78) then
              let? _ := parse_bare_literal it sp i c (bs "nan") in
              Ok (PFloat (FNan match sg with SNeg => true | SPos => false end))
            else if c2 =? 46 then Err (EMissingNumDigitsAfterSign sg (pos_plus (s_start sp) i))
            else Err (EUnexpectedLiteralChar LPIntOrFloat c2 (pos_plus (s_start sp) i))
        end
      else if c =? 48 then parse_prefixed_int_float_or_date it lit sp None
      else if is_digit c then parse_decimal_int_float_or_date it lit sp (Z.of_N (c - 48)) None
      else if (c =? 102) || (c =? 70) then
        let? _ := parse_bare_literal it sp 0 c (bs "false") in Ok (PBool false)
      else if (c =? 116) || (c =? 84) then
        let? _ := parse_bare_literal it sp 0 c (bs "true") in Ok (PBool true)
      else if (c =? 105) || (c =? 73) then
        let? _ := parse_bare_literal it sp 0 c (bs "inf") in Ok (PFloat (FInf false))
      else if (c =? 110) || (c =? 78) then
        let? _ := parse_bare_literal it sp 0 c (bs "nan") in Ok (PFloat (FNan false))
      else if c =? 95 then Err (ELitStartsWithUnderscore LPGeneric (s_start sp))
      else Err (EUnexpectedLiteralStart c (s_start sp))
  end.
