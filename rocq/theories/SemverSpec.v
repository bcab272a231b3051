(** Independent specification of the semver part: what a SemVer 2.0 version
    text, a Cargo version requirement text, precedence and the accepted
    version ranges are.  Only the data types of the model are used. *)
From Verif Require Import Base CommonModel SemverModel.

(** ** Identifiers *)

(** A pre-release identifier is a number or an alphanumeric word. *)
Inductive ident := INum (n : N) | IWord (w : bytes).

Definition ident_char (b : N) : Prop :=
  48 <= b <= 57 \/ 97 <= b <= 122 \/ 65 <= b <= 90 \/ b = 45.

(** A word has only identifier characters, at least one of them no digit. *)
Definition is_word (w : bytes) : Prop :=
  Forall ident_char w /\ exists b, In b w /\ ~ (48 <= b <= 57).

Definition ident_wf (i : ident) : Prop :=
  match i with INum _ => True | IWord w => is_word w end.

(** How an identifier is written: numbers without leading zeros. *)
Definition ident_text (i : ident) : bytes :=
  match i with INum n => dec n | IWord w => w end.

(** Pre-release text: one or more identifiers separated by dots. *)
Definition pre_text (ids : list ident) : bytes := join 46 (map ident_text ids).
Definition pre_grammar (s : bytes) : Prop :=
  exists ids, ids <> [] /\ Forall ident_wf ids /\ s = pre_text ids.

(** Build metadata text: one or more non-empty words, leading zeros allowed. *)
Definition meta_grammar (s : bytes) : Prop :=
  exists ws, ws <> [] /\ Forall (fun w => w <> [] /\ Forall ident_char w) ws /\ s = join 46 ws.

(** ** Precedence (semver.org item 11) *)

Section Lex.
  Context {A : Type} (lt : A -> A -> Prop).
  (** Compared left to right at the first difference; a proper prefix is smaller. *)
  Inductive lex_lt : list A -> list A -> Prop :=
  | lex_prefix y ys : lex_lt [] (y :: ys)
  | lex_here x y xs ys : lt x y -> lex_lt (x :: xs) (y :: ys)
  | lex_later x xs ys : lex_lt xs ys -> lex_lt (x :: xs) (x :: ys).
End Lex.

Definition ident_lt (a b : ident) : Prop :=
  match a, b with
  | INum m, INum n => m < n
  | INum _, IWord _ => True
  | IWord _, INum _ => False
  | IWord v, IWord w => lex_lt N.lt v w
  end.

(** Precedence of pre-release lists; the empty list stands for "no pre-release". *)
Definition prec_lt (a b : list ident) : Prop :=
  a <> [] /\ (b = [] \/ lex_lt ident_lt a b).

(** Build metadata identifiers: all-digit ones by value, then by length (more
    leading zeros sort later), below all others, which are in ASCII order. *)
Definition all_digits (w : bytes) : Prop := Forall (fun b => 48 <= b <= 57) w.
Definition build_lt (a b : bytes) : Prop :=
  (all_digits a /\ all_digits b /\
     (dec_val a < dec_val b \/ (dec_val a = dec_val b /\ (length a < length b)%nat)))
  \/ (all_digits a /\ ~ all_digits b)
  \/ (~ all_digits a /\ ~ all_digits b /\ lex_lt N.lt a b).

(** ** Version text *)

Definition in_u32 (n : N) : Prop := n <= 4294967295.

(** [+build] and [-pre] parts, absent when the string is empty. *)
Definition dash_part (s part : bytes) : Prop :=
  (s = [] /\ part = []) \/ (pre_grammar s /\ part = 45 :: s).
Definition plus_part (s part : bytes) : Prop :=
  (s = [] /\ part = []) \/ (meta_grammar s /\ part = 43 :: s).

(** [version_grammar s v]: [s] is a way to write version [v]. *)
Definition version_grammar (s : bytes) (v : version) : Prop :=
  exists before after dash plus,
    in_u32 (v_major v) /\ in_u32 (v_minor v) /\ in_u32 (v_patch v) /\
    dash_part (v_pre v) dash /\ plus_part (v_meta v) plus /\
    s = spaces before
        ++ dec (v_major v) ++ bs "." ++ dec (v_minor v) ++ bs "." ++ dec (v_patch v)
        ++ dash ++ plus ++ spaces after.

(** Versions a parser can produce. *)
Definition version_wf (v : version) : Prop :=
  in_u32 (v_major v) /\ in_u32 (v_minor v) /\ in_u32 (v_patch v) /\
  (v_pre v = [] \/ pre_grammar (v_pre v)) /\
  (v_meta v = [] \/ meta_grammar (v_meta v)).

(** Text without surrounding spaces. *)
Definition trimmed (s m : bytes) : Prop :=
  exists a b, s = spaces a ++ m ++ spaces b /\
    (forall r, m <> 32 :: r) /\ (forall r, m <> r ++ [32]).

(** ** Requirement text *)

Definition wl_text (w : wl_char) : bytes :=
  match w with WStar => bs "*" | WLowerX => bs "x" | WUpperX => bs "X" end.

(** [partial_text v t]: [t] is how the (partial) version [v] of a comparator is written. *)
Inductive partial_text : comp_ver -> bytes -> Prop :=
| PT_major a : in_u32 a -> partial_text (CMajor a None) (dec a)
| PT_major_wl a w : in_u32 a ->
    partial_text (CMajor a (Some (w, None))) (dec a ++ bs "." ++ wl_text w)
| PT_major_wl2 a w x : in_u32 a ->
    partial_text (CMajor a (Some (w, Some x))) (dec a ++ bs "." ++ wl_text w ++ bs "." ++ wl_text x)
| PT_minor a b : in_u32 a -> in_u32 b ->
    partial_text (CMinor a b None) (dec a ++ bs "." ++ dec b)
| PT_minor_wl a b w : in_u32 a -> in_u32 b ->
    partial_text (CMinor a b (Some w)) (dec a ++ bs "." ++ dec b ++ bs "." ++ wl_text w)
| PT_patch a b c : in_u32 a -> in_u32 b -> in_u32 c ->
    partial_text (CPatch a b c None) (dec a ++ bs "." ++ dec b ++ bs "." ++ dec c)
| PT_patch_meta a b c m : in_u32 a -> in_u32 b -> in_u32 c -> meta_grammar m ->
    partial_text (CPatch a b c (Some m)) (dec a ++ bs "." ++ dec b ++ bs "." ++ dec c ++ bs "+" ++ m)
| PT_pre a b c p : in_u32 a -> in_u32 b -> in_u32 c -> pre_grammar p ->
    partial_text (CPre a b c p None) (dec a ++ bs "." ++ dec b ++ bs "." ++ dec c ++ bs "-" ++ p)
| PT_pre_meta a b c p m : in_u32 a -> in_u32 b -> in_u32 c -> pre_grammar p -> meta_grammar m ->
    partial_text (CPre a b c p (Some m))
      (dec a ++ bs "." ++ dec b ++ bs "." ++ dec c ++ bs "-" ++ p ++ bs "+" ++ m).

(** A partial version that contains a wildcard. *)
Definition has_wildcard (v : comp_ver) : Prop :=
  match v with
  | CWl _ => True
  | CMajor _ (Some _) => True
  | CMinor _ _ (Some _) => True
  | _ => False
  end.

(** [op_written o v t]: operator [o] in front of version [v] is written [t].
    Without an operator the comparator is a wildcard one if the version has a
    wildcard and a caret-like blank one otherwise. *)
Inductive op_written : op -> comp_ver -> bytes -> Prop :=
| OW_eq v : op_written OpEq v (bs "=")
| OW_lt v : op_written OpLt v (bs "<")
| OW_le v : op_written OpLe v (bs "<=")
| OW_gt v : op_written OpGt v (bs ">")
| OW_ge v : op_written OpGe v (bs ">=")
| OW_cr v : op_written OpCr v (bs "^")
| OW_tl v : op_written OpTl v (bs "~")
| OW_wl v : has_wildcard v -> op_written OpWl v []
| OW_bl v : ~ has_wildcard v -> op_written OpBl v [].

(** [comp_grammar off s c]: the text [s], which starts at byte [off] of the
    requirement and extends up to the next comma or the end, is the
    comparator [c] (whose comma is at the end of [s], if any). *)
Inductive comp_grammar (off : N) : bytes -> bool -> comparator -> Prop :=
| CG before mid after o v ot vt (comma : bool) :
    partial_text v vt -> op_written o v ot -> (ot = [] -> mid = O) ->
    let op_off := off + N.of_nat before in
    let ver_off := op_off + blen ot + N.of_nat mid in
    comp_grammar off (spaces before ++ ot ++ spaces mid ++ vt ++ spaces after) comma
      {| c_op_offset := op_off; c_op := o; c_version_offset := ver_off; c_version := v;
         c_comma := if comma then Some (ver_off + blen vt + N.of_nat after) else None |}.

(** Comma separated list of comparators. *)
Inductive comps_grammar : N -> bytes -> list comparator -> Prop :=
| CSG_last off s c : comp_grammar off s false c -> comps_grammar off s [c]
| CSG_more off s c rest cs :
    comp_grammar off s true c ->
    comps_grammar (off + blen s + 1) rest cs ->
    comps_grammar off (s ++ bs "," ++ rest) (c :: cs).

(** [req_grammar s cs]: [s] is a way to write the comparators [cs]. *)
Inductive req_grammar : bytes -> list comparator -> Prop :=
| RG_wildcard before after w :
    req_grammar (spaces before ++ wl_text w ++ spaces after)
      [{| c_op_offset := N.of_nat before; c_op := OpWl; c_version_offset := N.of_nat before;
          c_version := CWl w; c_comma := None |}]
| RG_list s cs :
    comps_grammar 0 s cs -> (length cs <= 32)%nat -> req_grammar s cs.

(** [t] occurs in [s] at byte offset [off]. *)
Definition at_offset (s : bytes) (off : N) (t : bytes) : Prop :=
  exists a b, s = a ++ t ++ b /\ blen a = off.

(** The recorded offsets of the comparators [cs] are increasing from [lo] on
    and point at the operator, the version and the comma in [s]. *)
Fixpoint located (s : bytes) (lo : N) (cs : list comparator) : Prop :=
  match cs with
  | [] => True
  | c :: rest => exists ot vt,
      op_written (c_op c) (c_version c) ot /\
      (partial_text (c_version c) vt \/ exists w, c_version c = CWl w /\ vt = wl_text w) /\
      lo <= c_op_offset c /\ at_offset s (c_op_offset c) ot /\
      c_op_offset c + blen ot <= c_version_offset c /\ at_offset s (c_version_offset c) vt /\
      match c_comma c with
      | Some k => c_version_offset c + blen vt <= k /\ at_offset s k (bs ",") /\
                  rest <> [] /\ located s (k + 1) rest
      | None => rest = [] /\ c_version_offset c + blen vt <= blen s
      end
  end.

(** ** What comparators accept *)

(** Release part and pre-release, ordered lexicographically. *)
Definition triple := (N * N * N)%type.
Definition triple_le (x y : triple) : Prop :=
  let '(a, b, c) := x in let '(d, e, f) := y in
  a < d \/ (a = d /\ (b < e \/ (b = e /\ c <= f))).
Definition triple_lt (x y : triple) : Prop :=
  let '(a, b, c) := x in let '(d, e, f) := y in
  a < d \/ (a = d /\ (b < e \/ (b = e /\ c < f))).
Definition triple_of (v : version) : triple := (v_major v, v_minor v, v_patch v).

(** The versions a prefix names: the half-open range [lo, hi) of triples. *)
Definition named_range (c : comp_ver) : option (triple * triple) :=
  match c with
  | CWl _ => None
  | CMajor a _ => Some ((a, 0, 0), (a + 1, 0, 0))
  | CMinor a b _ => Some ((a, b, 0), (a, b + 1, 0))
  | CPatch a b c _ => Some ((a, b, c), (a, b, c + 1))
  | CPre a b c _ _ => Some ((a, b, c), (a, b, c + 1))
  end.

(** First triple that is not compatible any more (Cargo book): the left-most
    non-zero component may not change. *)
Definition caret_limit (c : comp_ver) : triple :=
  match c with
  | CWl _ => (0, 0, 0)
  | CMajor a _ => (a + 1, 0, 0)
  | CMinor a b _ => if 0 <? a then (a + 1, 0, 0) else (0, b + 1, 0)
  | CPatch a b c _ | CPre a b c _ _ =>
      if 0 <? a then (a + 1, 0, 0) else if 0 <? b then (0, b + 1, 0) else (0, 0, c + 1)
  end.

(** Tilde: only the patch may grow if a minor is given, else also the minor. *)
Definition tilde_limit (c : comp_ver) : triple :=
  match c with
  | CWl _ => (0, 0, 0)
  | CMajor a _ => (a + 1, 0, 0)
  | CMinor a b _ => (a, b + 1, 0)
  | CPatch a b _ _ | CPre a b _ _ _ => (a, b + 1, 0)
  end.

Definition range_lo (c : comp_ver) : triple :=
  match named_range c with Some (lo, _) => lo | None => (0, 0, 0) end.
Definition range_hi (c : comp_ver) : triple :=
  match named_range c with Some (_, hi) => hi | None => (0, 0, 0) end.

(** Precedence of pre-release texts; "" is a release. *)
Definition pre_before (a b : bytes) : Prop :=
  exists x y, Forall ident_wf x /\ Forall ident_wf y /\
    a = pre_text x /\ b = pre_text y /\ prec_lt x y.

(** Precedence of versions without their build metadata. *)
Definition key := (triple * bytes)%type.
Definition key_lt (x y : key) : Prop :=
  triple_lt (fst x) (fst y) \/ (fst x = fst y /\ pre_before (snd x) (snd y)).
Definition key_le (x y : key) : Prop := key_lt x y \/ x = y.
Definition key_of (v : version) : key := (triple_of v, v_pre v).

(** The version a fully specified comparator names. *)
Definition full_key (c : comp_ver) : option key :=
  match c with
  | CPatch a b c _ => Some ((a, b, c), [])
  | CPre a b c p _ => Some ((a, b, c), p)
  | _ => None
  end.

(** What a comparator accepts on its own, before the pre-release opt-in rule.
    Fully specified versions are compared by precedence.  A prefix ("1",
    "1.2", "1.*") is compared by the range of releases it names; versions
    with a pre-release tag are never inside the named range. *)
Definition accepts (o : op) (c : comp_ver) (v : version) : Prop :=
  let t := triple_of v in
  let release := v_pre v = [] in
  match full_key c with
  | Some k =>
      match o with
      | OpEq | OpWl => key_of v = k
      | OpGt => key_lt k (key_of v)
      | OpGe => key_le k (key_of v)
      | OpLt => key_lt (key_of v) k
      | OpLe => key_le (key_of v) k
      | OpTl => key_le k (key_of v) /\ triple_lt t (tilde_limit c)
      | OpCr | OpBl => key_le k (key_of v) /\ triple_lt t (caret_limit c)
      end
  | None =>
      let inside := release /\ triple_le (range_lo c) t /\ triple_lt t (range_hi c) in
      match o with
      | OpEq => inside
      | OpWl => match c with CWl _ => release | _ => inside end
      | OpGt => triple_le (range_hi c) t
      | OpGe => triple_le (range_hi c) t \/ inside
      | OpLt => triple_lt t (range_lo c)
      | OpLe => triple_lt t (range_lo c) \/ inside
      | OpTl => release /\ triple_le (range_lo c) t /\ triple_lt t (tilde_limit c)
      | OpCr | OpBl => triple_le (range_lo c) t /\ triple_lt t (caret_limit c)
      end
  end.

(** Opt-in: the comparator names the same release triple with a pre-release. *)
Definition opts_in (c : comp_ver) (v : version) : Prop :=
  match c with
  | CPre a b c p _ => p <> [] /\ triple_of v = (a, b, c)
  | _ => False
  end.

(** A requirement accepts a version. *)
Definition req_accepts (cs : list comparator) (v : version) : Prop :=
  Forall (fun c => accepts (c_op c) (c_version c) v) cs /\
  (v_pre v = [] \/ Exists (fun c => opts_in (c_version c) v) cs).

(** Well-formed comparator versions and comparators: what the grammar allows. *)
Definition comp_ver_wf (c : comp_ver) : Prop := (exists t, partial_text c t) \/ (exists w, c = CWl w).
Definition comparator_wf (c : comparator) : Prop :=
  comp_ver_wf (c_version c) /\ (exists t, op_written (c_op c) (c_version c) t) /\
  (forall w, c_version c = CWl w -> c_op c = OpWl).

(** Equal up to build metadata. *)
Inductive same_but_meta : comp_ver -> comp_ver -> Prop :=
| SBM_same v : same_but_meta v v
| SBM_patch a b c m m' : same_but_meta (CPatch a b c m) (CPatch a b c m')
| SBM_pre a b c p m m' : same_but_meta (CPre a b c p m) (CPre a b c p m').
Definition same_version_but_meta (v v' : version) : Prop :=
  v_major v = v_major v' /\ v_minor v = v_minor v' /\ v_patch v = v_patch v' /\ v_pre v = v_pre v'.

(** A span inside a text of [n] bytes that starts at position [p] of a line. *)
Definition span_inside (p : pos) (n : N) (s : span) : Prop :=
  p_line (s_start s) = p_line p /\ p_line (s_end s) = p_line p /\
  p_char p <= p_char (s_start s) /\ p_char (s_start s) <= p_char (s_end s) /\
  p_char (s_end s) <= p_char p + n.

(** ** What errors say *)

Definition digit (b : N) : Prop := 48 <= b <= 57.
Definition first_in (P : N -> Prop) (s : bytes) : Prop := exists b r, s = b :: r /\ P b.
Definition ends_with (a : bytes) (b : N) : Prop := exists a', a = a' ++ [b].
Definition blank (s : bytes) : Prop := Forall (eq 32) s.
Definition wildcard (b : N) : Prop := b = 42 \/ b = 120 \/ b = 88.
(** [b] is the text of the character [ch]. *)
Definition char_text (ch : N) (b : bytes) : Prop := is_scalar ch = true /\ b = utf8_char ch.
(** The sign in front of an identifier. *)
Definition field_sign (f : ident_field) : N := match f with FPrerelease => 45 | FBuildMetadata => 43 end.
(** The text [a] ends in the numeric field [f] of a version, or before it:
    that many dots of the version are in it. *)
Definition field_index (f : num_field) : nat := match f with FMajor => 0 | FMinor => 1 | FPatch => 2 end.
Definition numeric (b : N) : Prop := digit b \/ wildcard b \/ b = 46.
Definition in_field (f : num_field) (a : bytes) : Prop :=
  exists x y, a = x ++ y /\ (forall b, ends_with x b -> ~ numeric b) /\ Forall numeric y /\ count_occ N.eq_dec y 46 = field_index f.

(** What an error says of the text [b] that it marks in [a ++ b ++ c]. *)
Definition error_says (e : error) (a b c : bytes) : Prop :=
  match e with
  | TrailingCharacters s _ _ => b = s /\ ~ first_in (eq 32) s /\ s <> [] /\ ~ ends_with s 32 /\ blank c
  | MissingField f _ => b = [] /\ c = [] /\ in_field f a
  | LeadingZeroNum f _ => b = [48] /\ first_in digit c /\ in_field f a
  | InvalidIntChar ch f _ => char_text ch b /\ ~ digit ch /\ in_field f a
  | IntOverflow f _ _ => all_digits b /\ u32_max < dec_val b /\ ~ first_in digit c /\ in_field f a
  | ExpectedDot ch f _ => char_text ch b /\ ch <> 46 /\ in_field f a
  | MissingDot f _ => b = [] /\ c = [] /\ in_field f a
  | EmptyIdentifier f _ => b = [] /\ ends_with a (field_sign f) /\ ~ first_in ident_char c /\ ~ first_in (eq 46) c
  | EmptyIdentifierSegment f _ =>
      b = [] /\ ~ first_in ident_char c /\ (ends_with a 46 \/ ends_with a (field_sign f) /\ first_in (eq 46) c)
  | LeadingZeroSegment f _ =>
      b = [48] /\ f = FPrerelease /\ (ends_with a 46 \/ ends_with a (field_sign f)) /\
      exists ds r, c = ds ++ r /\ ds <> [] /\ all_digits ds /\ ~ first_in ident_char r
  | InvalidOp ch _ => char_text ch b /\ ~ digit ch /\ ~ wildcard ch /\ ~ In ch (bs "=<>^~ ")
  | MissingComma _ => b = [] /\ c <> [] /\ ~ first_in (eq 44) c /\ ~ first_in (eq 32) c
  | TrailingComma _ => b = [44] /\ blank c
  | WildcardNotTheSoleComparator w _ => b = [wl_byte w] /\ ~ (blank a /\ blank c)
  | ExcessiveComparators _ _ => c = [] /\ b <> [] /\ (32 <= count_occ N.eq_dec a 44%N)%nat
  | EmptyVersionReq _ => a = [] /\ b = [] /\ blank c
  | UnexpectedAfterWildcard ch f _ =>
      char_text ch b /\
      match f with
      | FMajor => (exists w, wildcard w /\ ends_with a w) /\ ch <> 44 /\ ch <> 32
      | _ => (exists w a', wildcard w /\ a = a' ++ [w; 46]) /\ in_field FPatch a /\ ~ wildcard ch
      end
  end.
(** The error marks whole characters of the text that starts at [p], and says
    what they are. *)
Definition error_marks (p : pos) (input : bytes) (e : error) : Prop :=
  exists a b c, input = a ++ b ++ c /\ valid_utf8 a /\ valid_utf8 b /\ valid_utf8 c /\
    error_span e = mkspan (pos_plus p (blen a)) (pos_plus p (blen a + blen b)) /\ error_says e a b c.

(** The input contains one of the numbers 4294967296 to 4294967299. *)
Definition contains_overflow (input : bytes) : Prop :=
  exists a k b, input = a ++ dec k ++ b /\ 4294967296 <= k <= 4294967299.

(** [version_prefix f k s]: [s] is the part of a version text, with [k]
    leading spaces, in front of its numeric field [f]. *)
Inductive version_prefix : num_field -> nat -> bytes -> Prop :=
| VP_major k : version_prefix FMajor k (spaces k)
| VP_minor k a : in_u32 a -> version_prefix FMinor k (spaces k ++ dec a ++ bs ".")
| VP_patch k a b : in_u32 a -> in_u32 b ->
    version_prefix FPatch k (spaces k ++ dec a ++ bs "." ++ dec b ++ bs ".").

(** Numbers that are written with one of 4294967296 to 4294967299 in front. *)
Definition overflow_bug (n : N) : Prop :=
  exists k ds, 4294967296 <= k <= 4294967299 /\ dec n = dec k ++ ds.
(** The text does not go on with a digit. *)
Definition no_digit (r : bytes) : Prop :=
  match r with [] => True | b :: _ => is_digit b = false end.
