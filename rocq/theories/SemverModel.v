(** Model of crates/semver/src: lib.rs, parse.rs, eval.rs, display.rs and the
    spans of error.rs.  Definitions only.  [InlineStr] is modelled in
    InlineModel.v; here a pre-release or build-metadata string is its bytes
    (justified by property C16). *)
From Verif Require Import Base CommonModel.

(** ** lib.rs: types *)

(** semver/src/lib.rs:49-54 *)
Inductive num_field := FMajor | FMinor | FPatch.
(** semver/src/lib.rs:56-60 *)
Inductive ident_field := FPrerelease | FBuildMetadata.
(** semver/src/lib.rs:102-122 *)
Inductive op := OpEq | OpLt | OpLe | OpGt | OpGe | OpCr | OpTl | OpWl | OpBl.
(** semver/src/lib.rs:177-184 *)
Inductive wl_char := WStar | WLowerX | WUpperX.

(** semver/src/lib.rs:124-131.  [Prerelease] and [BuildMetadata] are byte strings. *)
Inductive comp_ver :=
| CWl (w : wl_char)
| CMajor (major : N) (wl : option (wl_char * option wl_char))
| CMinor (major minor : N) (wl : option wl_char)
| CPatch (major minor patch : N) (meta : option bytes)
| CPre (major minor patch : N) (pre : bytes) (meta : option bytes).

(** semver/src/lib.rs:84-93 *)
Record comparator := mkcomp {
  c_op_offset : N;
  c_op : op;
  c_version_offset : N;
  c_version : comp_ver;
  c_comma : option N;
}.

(** semver/src/lib.rs:62-67 *)
Record version_req := mkreq { r_pos : pos; r_len : N; r_comparators : list comparator }.

(** semver/src/lib.rs:197-203 *)
Record version := mkver { v_major : N; v_minor : N; v_patch : N; v_pre : bytes; v_meta : bytes }.

(** semver/src/lib.rs:134-142 *)
Definition cv_major (v : comp_ver) : option N :=
  match v with
  | CWl _ => None
  | CMajor a _ => Some a
  | CMinor a _ _ => Some a
  | CPatch a _ _ _ => Some a
  | CPre a _ _ _ _ => Some a
  end.
(** semver/src/lib.rs:144-152 *)
Definition cv_minor (v : comp_ver) : option N :=
  match v with
  | CWl _ => None
  | CMajor _ _ => None
  | CMinor _ b _ => Some b
  | CPatch _ b _ _ => Some b
  | CPre _ b _ _ _ => Some b
  end.
(** semver/src/lib.rs:154-162 *)
Definition cv_patch (v : comp_ver) : option N :=
  match v with
  | CWl _ => None
  | CMajor _ _ => None
  | CMinor _ _ _ => None
  | CPatch _ _ c _ => Some c
  | CPre _ _ c _ _ => Some c
  end.
(** semver/src/lib.rs:164-172 *)
Definition cv_pre (v : comp_ver) : bytes :=
  match v with
  | CWl _ => []
  | CMajor _ _ => []
  | CMinor _ _ _ => []
  | CPatch _ _ _ _ => []
  | CPre _ _ _ p _ => p
  end.

(** semver/src/lib.rs:187-193 [WlChar::char] *)
Definition wl_byte (w : wl_char) : N :=
  match w with
  | WStar => 42
  | WLowerX => 120
  | WUpperX => 88
  end.

Definition is_empty (s : bytes) : bool := match s with [] => true | _ => false end.

(** [Ordering::then_with] *)
Definition then_cmp (c : comparison) (d : comparison) : comparison :=
  match c with Eq => d | _ => c end.

(** semver/src/lib.rs:253-269: one identifier pair of [Prerelease::cmp]. *)
Definition pre_seg_cmp (l r : bytes) : comparison :=
  match forallb is_digit l, forallb is_digit r with
  | true, true => then_cmp (blen l ?= blen r) (bytes_cmp l r)
  | true, false => Lt
  | false, true => Gt
  | false, false => bytes_cmp l r
  end.

(** semver/src/lib.rs:241-280 / 323-358: the loop over the identifiers of the
    left side, shared shape of both orders. *)
Fixpoint segs_cmp (seg_cmp : bytes -> bytes -> comparison) (l r : list bytes) : comparison :=
  match l with
  | [] => match r with [] => Eq | _ :: _ => Lt end
  | a :: l' =>
      match r with
      | [] => Gt
      | b :: r' =>
          match seg_cmp a b with
          | Eq => segs_cmp seg_cmp l' r'
          | c => c
          end
      end
  end.

(** semver/src/lib.rs:229-281 [Ord for Prerelease] *)
Definition pre_cmp (l r : bytes) : comparison :=
  match is_empty l with
  | true => if is_empty r then Eq else Gt
  | false => if is_empty r then Lt
             else segs_cmp pre_seg_cmp (split_on 46 l) (split_on 46 r)
  end.

(** [str::trim_start_matches('0')] *)
Fixpoint trim_zeros (s : bytes) : bytes :=
  match s with
  | 48 :: r => trim_zeros r
  | _ => s
  end.

(** semver/src/lib.rs:331-347: one identifier pair of [BuildMetadata::cmp]. *)
Definition meta_seg_cmp (l r : bytes) : comparison :=
  match forallb is_digit l, forallb is_digit r with
  | true, true =>
      let lv := trim_zeros l in
      let rv := trim_zeros r in
      then_cmp (then_cmp (blen lv ?= blen rv) (bytes_cmp lv rv)) (blen l ?= blen r)
  | true, false => Lt
  | false, true => Gt
  | false, false => bytes_cmp l r
  end.

(** semver/src/lib.rs:320-359 [Ord for BuildMetadata] *)
Definition meta_cmp (l r : bytes) : comparison :=
  segs_cmp meta_seg_cmp (split_on 46 l) (split_on 46 r).

(** semver/src/lib.rs:196-203 derived [Ord]: fields in declaration order. *)
Definition version_cmp (a b : version) : comparison :=
  then_cmp (v_major a ?= v_major b)
  (then_cmp (v_minor a ?= v_minor b)
  (then_cmp (v_patch a ?= v_patch b)
  (then_cmp (pre_cmp (v_pre a) (v_pre b))
            (meta_cmp (v_meta a) (v_meta b))))).

(** ** error.rs *)

(** semver/src/error.rs:6-25 *)
Inductive error :=
| TrailingCharacters (s : bytes) (f : option ident_field) (p : pos)
| MissingField (f : num_field) (p : pos)
| LeadingZeroNum (f : num_field) (p : pos)
| InvalidIntChar (c : N) (f : num_field) (p : pos)
| IntOverflow (f : num_field) (p : pos) (len : N)
| ExpectedDot (c : N) (f : num_field) (p : pos)
| MissingDot (f : num_field) (p : pos)
| EmptyIdentifier (f : ident_field) (p : pos)
| EmptyIdentifierSegment (f : ident_field) (p : pos)
| LeadingZeroSegment (f : ident_field) (p : pos)
| InvalidOp (c : N) (p : pos)
| MissingComma (p : pos)
| TrailingComma (p : pos)
| WildcardNotTheSoleComparator (w : wl_char) (p : pos)
| ExcessiveComparators (p : pos) (len : N)
| EmptyVersionReq (p : pos)
| UnexpectedAfterWildcard (c : N) (f : num_field) (p : pos).

(** semver/src/error.rs:32-52 [Diagnostic::span] *)
Definition error_span (e : error) : span :=
  match e with
  | TrailingCharacters s _ p => span_from_pos_len p (blen s)
  | MissingField _ p => span_pos p
  | LeadingZeroNum _ p => span_ascii_char p
  | InvalidIntChar c _ p => span_from_pos_len p (len_utf8 c)
  | IntOverflow _ p l => span_from_pos_len p l
  | ExpectedDot c _ p => span_from_pos_len p (len_utf8 c)
  | MissingDot _ p => span_pos p
  | EmptyIdentifier _ p => span_pos p
  | EmptyIdentifierSegment _ p => span_pos p
  | LeadingZeroSegment _ p => span_ascii_char p
  | InvalidOp c p => span_from_pos_len p (len_utf8 c)
  | MissingComma p => span_pos p
  | TrailingComma p => span_ascii_char p
  | WildcardNotTheSoleComparator _ p => span_ascii_char p
  | ExcessiveComparators p l => span_from_pos_len p l
  | EmptyVersionReq p => span_pos p
  | UnexpectedAfterWildcard c _ p => span_from_pos_len p (len_utf8 c)
  end.

(** ** parse.rs *)

(** semver/src/parse.rs:12 *)
Definition MAX_COMPARATORS : N := 32.

(** semver/src/parse.rs:14-23 [CharIter].  [str] and [idx] are represented by
    the index and the remaining bytes [str[idx..]]. *)
Record citer := mkci { ci_start : pos; ci_idx : N; ci_rest : bytes }.

Definition ci_new (start : pos) (s : bytes) : citer := mkci start 0 s.

(** semver/src/parse.rs:25-27 *)
Definition peek_byte (c : citer) : option N :=
  match ci_rest c with [] => None | b :: _ => Some b end.

(** semver/src/parse.rs:29-33 *)
Definition next_byte (c : citer) : citer :=
  match ci_rest c with
  | [] => c
  | _ :: r => mkci (ci_start c) (ci_idx c + 1) r
  end.

(** semver/src/parse.rs:35-37 [peek_char] followed by the [unwrap] every use
    has (or the [match] at 224): [None] inside [Ok] at the end of the input,
    [Panic] when the index is not a character boundary. *)
Definition peek_char {E} (c : citer) : res E (option N) :=
  match ci_rest c with
  | [] => Ok None
  | r => match utf8_first r with
         | Some x => Ok (Some x)
         | None => Panic
         end
  end.
Definition peek_char_unwrap {E} (c : citer) : res E N :=
  let? o := peek_char c in
  match o with Some x => Ok x | None => Panic end.

(** semver/src/parse.rs:43-45, 47-49.  Unbounded: no u32 truncation. *)
Definition ci_offset (c : citer) : N := ci_idx c.
Definition ci_pos (c : citer) : pos := pos_plus (ci_start c) (ci_idx c).

(** semver/src/parse.rs:490-494 [eat_whitespace] *)
Fixpoint eat_ws_aux (start : pos) (idx : N) (r : bytes) : citer :=
  match r with
  | 32 :: r' => eat_ws_aux start (idx + 1) r'
  | _ => mkci start idx r
  end.
Definition eat_whitespace (c : citer) : citer := eat_ws_aux (ci_start c) (ci_idx c) (ci_rest c).

(** semver/src/parse.rs:460-488 [eat_dot], [eat_hyphen], [eat_plus] *)
Definition eat_byte (b : N) (c : citer) : bool * citer :=
  match peek_byte c with
  | Some x => if x =? b then (true, next_byte c) else (false, c)
  | None => (false, c)
  end.
Definition eat_dot := eat_byte 46.
Definition eat_hyphen := eat_byte 45.
Definition eat_plus := eat_byte 43.

(** semver/src/parse.rs:496-505 [eat_wildcard] *)
Definition eat_wildcard (c : citer) : option wl_char * citer :=
  match peek_byte c with
  | Some 42 => (Some WStar, next_byte c)
  | Some 120 => (Some WLowerX, next_byte c)
  | Some 88 => (Some WUpperX, next_byte c)
  | _ => (None, c)
  end.

(** semver/src/parse.rs:426-442 [expect_dot] *)
Definition expect_dot (c : citer) (f : num_field) : res error citer :=
  match peek_byte c with
  | Some b =>
      if b =? 46 then Ok (next_byte c)
      else let? ch := peek_char_unwrap c in Err (ExpectedDot ch f (ci_pos c))
  | None => Err (MissingDot f (ci_pos c))
  end.

(** semver/src/parse.rs:444-458 [expect_comma_or_end] *)
Definition expect_comma_or_end (c : citer) : res error (option N * citer) :=
  match peek_byte c with
  | Some b => if b =? 44 then Ok (Some (ci_offset c), next_byte c)
              else Err (MissingComma (ci_pos c))
  | None => Ok (None, c)
  end.

(** semver/src/parse.rs:345-348: [Some v] is [State::Ok(v)], [None] is
    [State::Overflow].

    semver/src/parse.rs:361-367: one digit.  The multiplication is checked,
    the addition is not: it panics in a debug build and wraps in release. *)
Definition int_step {E} (prof : profile) (st : option N) (digit : N) : res E (option N) :=
  match st with
  | None => Ok None
  | Some a =>
      if a * 10 <=? u32_max then
        let v := a * 10 + digit in
        if v <=? u32_max then Ok (Some v)
        else match prof with
             | Debug => Panic
             | Release => Ok (Some (v mod 4294967296))
             end
      else Ok None
  end.

(** semver/src/parse.rs:352-368: the digit loop. *)
Fixpoint int_loop {E} (prof : profile) (st : option N) (idx : N) (r : bytes)
  : res E (option N * N * bytes) :=
  match r with
  | [] => Ok (st, idx, r)
  | b :: r' =>
      if is_digit b then
        let? st' := int_step prof st (digit_val b) in
        int_loop prof st' (idx + 1) r'
      else Ok (st, idx, r)
  end.

(** semver/src/parse.rs:316-378 [parse_int] *)
Definition parse_int (prof : profile) (c : citer) (f : num_field) : res error (N * citer) :=
  match peek_byte c with
  | None => Err (MissingField f (ci_pos c))
  | Some b =>
      if b =? 48 then
        let c1 := next_byte c in
        match peek_byte c1 with
        | Some d =>
            if is_digit d then
              match pos_minus (ci_pos c1) 1 with
              | Some p => Err (LeadingZeroNum f p)
              | None => Panic
              end
            else Ok (0, c1)
        | None => Ok (0, c1)
        end
      else if (49 <=? b) && (b <=? 57) then
        let c1 := next_byte c in
        let? (st, idx, r) := int_loop prof (Some (digit_val b)) (ci_idx c1) (ci_rest c1) in
        let c2 := mkci (ci_start c) idx r in
        match st with
        | Some v => Ok (v, c2)
        | None => Err (IntOverflow f (pos_plus (ci_start c) (ci_idx c)) (idx - ci_idx c))
        end
      else
        let? ch := peek_char_unwrap c in
        Err (InvalidIntChar ch f (ci_pos c))
  end.

(** semver/src/parse.rs:387: letters and the hyphen. *)
Definition is_ident_nondigit (b : N) : bool :=
  ((97 <=? b) && (b <=? 122)) || ((65 <=? b) && (b <=? 90)) || (b =? 45).

(** semver/src/parse.rs:380-424 [parse_ident].  Arguments of the loop: index
    of the identifier's first byte, of the current segment's first byte, the
    suffixes of the input at those two indices, the flag, the current index
    and suffix.  The returned text is [str[start..end]]. *)
Fixpoint ident_loop (pstart : pos) (f : ident_field) (start : N) (start_rest : bytes)
    (seg : N) (seg_rest : bytes) (nondigit : bool) (idx : N) (r : bytes)
  : res error (bytes * citer) :=
  let boundary (b : option N) : option (res error (bytes * citer)) :=
    let p := pos_plus pstart idx in
    if seg =? idx then
      if (start =? idx) && negb (match b with Some 46 => true | _ => false end)
      then Some (Err (EmptyIdentifier f p))
      else Some (Err (EmptyIdentifierSegment f p))
    else if (match f with FPrerelease => true | FBuildMetadata => false end)
            && (1 <? idx - seg) && negb nondigit
            && (match seg_rest with 48 :: _ => true | _ => false end)
    then Some (Err (LeadingZeroSegment f (pos_plus pstart seg)))
    else match b with
         | Some 46 => None
         | _ => Some (Ok (firstn (N.to_nat (idx - start)) start_rest, mkci pstart idx r))
         end in
  match r with
  | [] => match boundary None with Some x => x | None => Panic (* not reached: None is no dot *) end
  | b :: r' =>
      if is_ident_nondigit b then
        ident_loop pstart f start start_rest seg seg_rest true (idx + 1) r'
      else if is_digit b then
        ident_loop pstart f start start_rest seg seg_rest nondigit (idx + 1) r'
      else match boundary (Some b) with
           | Some x => x
           | None => ident_loop pstart f start start_rest (idx + 1) r' false (idx + 1) r'
           end
  end.
Definition parse_ident (c : citer) (f : ident_field) : res error (bytes * citer) :=
  ident_loop (ci_start c) f (ci_idx c) (ci_rest c) (ci_idx c) (ci_rest c) false
             (ci_idx c) (ci_rest c).

(** semver/src/parse.rs:276-290: optional "-pre" / "+build" part. *)
Definition parse_opt_ident (eat : citer -> bool * citer) (f : ident_field) (c : citer)
  : res error (option bytes * citer) :=
  match eat c with
  | (true, c1) => let? (s, c2) := parse_ident c1 f in Ok (Some s, c2)
  | (false, c1) => Ok (None, c1)
  end.

Definition opt_bytes (o : option bytes) : bytes := match o with Some s => s | None => [] end.

(** [str::trim_end_matches(' ')] *)
Fixpoint trim_start_sp (s : bytes) : bytes :=
  match s with
  | 32 :: r => trim_start_sp r
  | _ => s
  end.
Definition trim_end_sp (s : bytes) : bytes := rev (trim_start_sp (rev s)).

(** semver/src/parse.rs:265-314 [parse_version] *)
Definition parse_version (prof : profile) (input : bytes) (p : pos) : res error version :=
  let c := eat_whitespace (ci_new p input) in
  let? (major, c) := parse_int prof c FMajor in
  let? c := expect_dot c FMajor in
  let? (minor, c) := parse_int prof c FMinor in
  let? c := expect_dot c FMinor in
  let? (patch, c) := parse_int prof c FPatch in
  let? (pre, c) := parse_opt_ident eat_hyphen FPrerelease c in
  let? (meta, c) := parse_opt_ident eat_plus FBuildMetadata c in
  let pre := opt_bytes pre in
  let meta := opt_bytes meta in
  let c := eat_whitespace c in
  match peek_byte c with
  | Some _ =>
      let field := if negb (is_empty meta) then Some FBuildMetadata
                   else if is_empty pre then Some FPrerelease
                   else None in
      Err (TrailingCharacters (trim_end_sp (ci_rest c)) field (ci_pos c))
  | None => Ok (mkver major minor patch pre meta)
  end.

Definition op_is_blank (o : op) : bool := match o with OpBl => true | _ => false end.

(** semver/src/parse.rs:206-263 [comp_version]; the [&mut Op] argument is
    returned. *)
Definition comp_version (prof : profile) (c : citer) (o : op)
  : res error (comp_ver * op * citer) :=
  let? (major, c) := parse_int prof c FMajor in
  match eat_dot c with
  | (false, c) => Ok (CMajor major None, o, c)
  | (true, c) =>
    match eat_wildcard c with
    | (Some wl1, c) =>
        let o := if op_is_blank o then OpWl else o in
        match eat_dot c with
        | (false, c) => Ok (CMajor major (Some (wl1, None)), o, c)
        | (true, c) =>
            match eat_wildcard c with
            | (Some wl2, c) => Ok (CMajor major (Some (wl1, Some wl2)), o, c)
            | (None, c) =>
                let? ch := peek_char c in
                match ch with
                | Some ch => Err (UnexpectedAfterWildcard ch FMinor (ci_pos c))
                | None => Err (MissingField FPatch (ci_pos c))
                end
            end
        end
    | (None, c) =>
        let? (minor, c) := parse_int prof c FMinor in
        match eat_dot c with
        | (false, c) => Ok (CMinor major minor None, o, c)
        | (true, c) =>
            match eat_wildcard c with
            | (Some wl, c) =>
                let o := if op_is_blank o then OpWl else o in
                Ok (CMinor major minor (Some wl), o, c)
            | (None, c) =>
                let? (patch, c) := parse_int prof c FPatch in
                let? (pre, c) := parse_opt_ident eat_hyphen FPrerelease c in
                let? (meta, c) := parse_opt_ident eat_plus FBuildMetadata c in
                match pre with
                | None => Ok (CPatch major minor patch meta, o, c)
                | Some pre => Ok (CPre major minor patch pre meta, o, c)
                end
            end
        end
    end
  end.

(** semver/src/parse.rs:88-132: the wildcard arm of the operator match, after
    the wildcard byte [wl] was peeked.  The caller's [comparators] is known to
    be empty or not by [first]. *)
Definition parse_wildcard (p : pos) (wl : wl_char) (first : bool) (op_offset : N) (c : citer)
  : res error (comparator * citer) :=
  if negb first then Err (WildcardNotTheSoleComparator wl (pos_plus p op_offset))
  else
    let c := next_byte c in
    let cont :=
      let c := eat_whitespace c in
      match peek_byte c with
      | Some b =>
          if b =? 44 then
            let cpos := ci_pos c in
            let c := eat_whitespace (next_byte c) in
            match peek_byte c with
            | None => Err (TrailingComma cpos)
            | Some _ => Err (WildcardNotTheSoleComparator wl (pos_plus p op_offset))
            end
          else Err (WildcardNotTheSoleComparator wl (pos_plus p op_offset))
      | None =>
          let? (comma, c) := expect_comma_or_end c in
          Ok (mkcomp op_offset OpWl op_offset (CWl wl) comma, c)
      end in
    match peek_byte c with
    | Some b =>
        if (b =? 44) || (b =? 32) then cont
        else let? ch := peek_char_unwrap c in Err (UnexpectedAfterWildcard ch FMajor (ci_pos c))
    | None => cont
    end.

(** semver/src/parse.rs:134-163: operators other than the wildcard. *)
Definition parse_op (b : N) (c : citer) : option (op * citer) :=
  if is_digit b then Some (OpBl, c)
  else match b with
  | 61 => Some (OpEq, next_byte c)
  | 60 =>
      let c := next_byte c in
      match peek_byte c with
      | Some 61 => Some (OpLe, next_byte c)
      | _ => Some (OpLt, c)
      end
  | 62 =>
      let c := next_byte c in
      match peek_byte c with
      | Some 61 => Some (OpGe, next_byte c)
      | _ => Some (OpGt, c)
      end
  | 94 => Some (OpCr, next_byte c)
  | 126 => Some (OpTl, next_byte c)
  | _ => None
  end.

(** semver/src/parse.rs:76-185: one iteration of the loop after the
    whitespace and the comparator-count check; [b] is the peeked byte. *)
Definition parse_comparator (prof : profile) (p : pos) (first : bool) (b : N) (c : citer)
  : res error (comparator * citer) :=
  let op_offset := ci_offset c in
  match eat_wildcard c with
  | (Some wl, _) => parse_wildcard p wl first op_offset c
  | (None, _) =>
    match parse_op b c with
    | None => let? ch := peek_char_unwrap c in Err (InvalidOp ch (ci_pos c))
    | Some (o, c) =>
        let c := eat_whitespace c in
        let version_offset := ci_offset c in
        let? (v, o, c) := comp_version prof c o in
        let c := eat_whitespace c in
        let? (comma, c) := expect_comma_or_end c in
        Ok (mkcomp op_offset o version_offset v comma, c)
    end
  end.

(** semver/src/parse.rs:63-186: the loop.  Every iteration that continues
    consumes at least one byte, so the length of the input is enough fuel
    ([req_loop_fuel] in the proofs); running out of fuel is [None]. *)
Fixpoint req_loop (fuel : nat) (prof : profile) (p : pos) (comps : list comparator)
    (last_comma : option N) (c : citer) : option (res error (list comparator * option N)) :=
  match fuel with
  | O => None
  | S fuel =>
    let c := eat_whitespace c in
    match peek_byte c with
    | None => Some (Ok (comps, last_comma))
    | Some b =>
        if MAX_COMPARATORS <=? N.of_nat (length comps)
        then Some (Err (ExcessiveComparators (ci_pos c) (blen (ci_rest c))))
        else
          match parse_comparator prof p (match comps with [] => true | _ => false end) b c with
          | Ok (cmp, c) => req_loop fuel prof p (comps ++ [cmp]) (c_comma cmp) c
          | Err e => Some (Err e)
          | Panic => Some Panic
          end
    end
  end.

(** semver/src/parse.rs:52-204 [parse_requirement].  [None]: out of fuel. *)
Definition parse_requirement_fuel (prof : profile) (input : bytes) (p : pos)
  : option (res error version_req) :=
  match req_loop (S (length input)) prof p [] None (ci_new p input) with
  | None => None
  | Some r => Some (
      let? (comps, last_comma) := r in
      match last_comma with
      | Some off => Err (TrailingComma (pos_plus p off))
      | None =>
          match comps with
          | [] => Err (EmptyVersionReq p)
          | _ => Ok (mkreq p (blen input) comps)
          end
      end)
  end.
Definition parse_requirement (prof : profile) (input : bytes) (p : pos) : res error version_req :=
  match parse_requirement_fuel prof input p with
  | Some r => r
  | None => Panic (* out of fuel: never happens, see parse_requirement_terminates *)
  end.

(** ** eval.rs *)

(** [unreachable!] is [None]. *)
(** semver/src/eval.rs:44-64 *)
Definition matches_exact (c : comp_ver) (v : version) : bool :=
  (match cv_major c with Some x => v_major v =? x | None => true end) &&
  (match cv_minor c with Some x => v_minor v =? x | None => true end) &&
  (match cv_patch c with Some x => v_patch v =? x | None => true end) &&
  bytes_eqb (v_pre v) (cv_pre c).

Definition cmp_gt (c : comparison) : bool := match c with Gt => true | _ => false end.
Definition cmp_lt (c : comparison) : bool := match c with Lt => true | _ => false end.
Definition cmp_ge (c : comparison) : bool := match c with Lt => false | _ => true end.

(** semver/src/eval.rs:66-95 *)
Definition matches_greater (c : comp_ver) (v : version) : option bool :=
  match cv_major c with
  | None => None
  | Some major =>
    Some (
    if negb (v_major v =? major) then major <? v_major v
    else match cv_minor c with
    | None => false
    | Some minor =>
      if negb (v_minor v =? minor) then minor <? v_minor v
      else match cv_patch c with
      | None => false
      | Some patch =>
        if negb (v_patch v =? patch) then patch <? v_patch v
        else cmp_gt (pre_cmp (v_pre v) (cv_pre c))
      end
    end)
  end.

(** semver/src/eval.rs:97-126 *)
Definition matches_less (c : comp_ver) (v : version) : option bool :=
  match cv_major c with
  | None => None
  | Some major =>
    Some (
    if negb (v_major v =? major) then v_major v <? major
    else match cv_minor c with
    | None => false
    | Some minor =>
      if negb (v_minor v =? minor) then v_minor v <? minor
      else match cv_patch c with
      | None => false
      | Some patch =>
        if negb (v_patch v =? patch) then v_patch v <? patch
        else cmp_lt (pre_cmp (v_pre v) (cv_pre c))
      end
    end)
  end.

Definition opt_eqb (o : option N) (n : N) : bool :=
  match o with Some x => n =? x | None => false end.

(** semver/src/eval.rs:128-146 *)
Definition matches_tilde (c : comp_ver) (v : version) : bool :=
  if negb (opt_eqb (cv_major c) (v_major v)) then false
  else if match cv_minor c with Some x => negb (v_minor v =? x) | None => false end then false
  else match cv_patch c with
       | Some patch =>
           if negb (v_patch v =? patch) then patch <? v_patch v
           else cmp_ge (pre_cmp (v_pre v) (cv_pre c))
       | None => cmp_ge (pre_cmp (v_pre v) (cv_pre c))
       end.

(** semver/src/eval.rs:148-186 *)
Definition matches_caret (c : comp_ver) (v : version) : option bool :=
  match cv_major c with
  | None => None
  | Some major =>
    Some (
    if negb (v_major v =? major) then false
    else match cv_minor c with
    | None => true
    | Some minor =>
      match cv_patch c with
      | None => if 0 <? major then minor <=? v_minor v else v_minor v =? minor
      | Some patch =>
        let pre_ge := cmp_ge (pre_cmp (v_pre v) (cv_pre c)) in
        if 0 <? major then
          if negb (v_minor v =? minor) then minor <? v_minor v
          else if negb (v_patch v =? patch) then patch <? v_patch v
          else pre_ge
        else if 0 <? minor then
          if negb (v_minor v =? minor) then false
          else if negb (v_patch v =? patch) then patch <? v_patch v
          else pre_ge
        else if negb (v_minor v =? minor) || negb (v_patch v =? patch) then false
        else pre_ge
      end
    end)
  end.

(** [a || b] where the right operand may hit [unreachable!]. *)
Definition or_else (a : bool) (b : option bool) : option bool :=
  if a then Some true else b.

(** semver/src/eval.rs:32-42 *)
Definition matches_impl (c : comparator) (v : version) : option bool :=
  match c_op c with
  | OpEq | OpWl => Some (matches_exact (c_version c) v)
  | OpGt => matches_greater (c_version c) v
  | OpGe => or_else (matches_exact (c_version c) v) (matches_greater (c_version c) v)
  | OpLt => matches_less (c_version c) v
  | OpLe => or_else (matches_exact (c_version c) v) (matches_less (c_version c) v)
  | OpTl => Some (matches_tilde (c_version c) v)
  | OpCr | OpBl => matches_caret (c_version c) v
  end.

(** semver/src/eval.rs:188-193 *)
Definition pre_is_compatible (c : comparator) (v : version) : bool :=
  opt_eqb (cv_major (c_version c)) (v_major v)
  && opt_eqb (cv_minor (c_version c)) (v_minor v)
  && opt_eqb (cv_patch (c_version c)) (v_patch v)
  && negb (is_empty (cv_pre (c_version c))).

(** semver/src/eval.rs:6-10: stops at the first comparator that fails. *)
Fixpoint all_match (cs : list comparator) (v : version) : option bool :=
  match cs with
  | [] => Some true
  | c :: r => match matches_impl c v with
              | None => None
              | Some false => Some false
              | Some true => all_match r v
              end
  end.

(** semver/src/eval.rs:5-26 [VersionReq::matches] *)
Definition req_matches (r : version_req) (v : version) : option bool :=
  match all_match (r_comparators r) v with
  | None => None
  | Some false => Some false
  | Some true =>
      if is_empty (v_pre v) then Some true
      else Some (existsb (fun c => pre_is_compatible c v) (r_comparators r))
  end.

(** semver/src/eval.rs:28-30 [Comparator::matches] *)
Definition comparator_matches (c : comparator) (v : version) : option bool :=
  match matches_impl c v with
  | None => None
  | Some false => Some false
  | Some true => Some (is_empty (v_pre v) || pre_is_compatible c v)
  end.

(** ** display.rs *)

(** Output text and the [pos] counter of [Wrapper]; [None] is an unsigned
    subtraction underflow in a padding computation.
    semver/src/display.rs:4-20 *)
Definition out := (bytes * N)%type.
Definition write_bytes (s : bytes) (o : out) : out := (fst o ++ s, snd o + blen s).

(** [write!(f, "{:num_spaces$}", "")] with [num_spaces = target - f.pos]. *)
Definition write_pad (target : N) (o : out) : option out :=
  if snd o <=? target then Some (write_bytes (spaces (N.to_nat (target - snd o))) o) else None.

(** semver/src/display.rs:110-136 [fmt_comp_version] *)
Definition comp_ver_text (v : comp_ver) : bytes :=
  match v with
  | CWl w => [wl_byte w]
  | CMajor a None => dec a
  | CMajor a (Some (w1, None)) => dec a ++ [46; wl_byte w1]
  | CMajor a (Some (w1, Some w2)) => dec a ++ [46; wl_byte w1; 46; wl_byte w2]
  | CMinor a b None => dec a ++ [46] ++ dec b
  | CMinor a b (Some w) => dec a ++ [46] ++ dec b ++ [46; wl_byte w]
  | CPatch a b c None => dec a ++ [46] ++ dec b ++ [46] ++ dec c
  | CPatch a b c (Some m) => dec a ++ [46] ++ dec b ++ [46] ++ dec c ++ [43] ++ m
  | CPre a b c p None => dec a ++ [46] ++ dec b ++ [46] ++ dec c ++ [45] ++ p
  | CPre a b c p (Some m) => dec a ++ [46] ++ dec b ++ [46] ++ dec c ++ [45] ++ p ++ [43] ++ m
  end.

(** semver/src/display.rs:86-96 *)
Definition op_text (o : op) : bytes :=
  match o with
  | OpEq => [61]
  | OpLt => [60]
  | OpLe => [60; 61]
  | OpGt => [62]
  | OpGe => [62; 61]
  | OpCr => [94]
  | OpTl => [126]
  | OpWl => []
  | OpBl => []
  end.

(** semver/src/display.rs:75-108 [fmt_comparator]; sets [f.pos] to the
    operator's offset first. *)
Definition fmt_comparator (c : comparator) (o : out) : option out :=
  let o := (fst o, c_op_offset c) in
  let o := write_bytes (op_text (c_op c)) o in
  match write_pad (c_version_offset c) o with
  | None => None
  | Some o =>
      let o := write_bytes (comp_ver_text (c_version c)) o in
      match c_comma c with
      | None => Some o
      | Some off => match write_pad off o with
                    | None => None
                    | Some o => Some (write_bytes [44] o)
                    end
      end
  end.

(** semver/src/display.rs:61-65 *)
Fixpoint fmt_others (cs : list comparator) (o : out) : option out :=
  match cs with
  | [] => Some o
  | c :: r => match write_pad (c_op_offset c) o with
              | None => None
              | Some o => match fmt_comparator c o with
                          | None => None
                          | Some o => fmt_others r o
                          end
              end
  end.

(** semver/src/display.rs:49-73 [fmt_requirement]; [alternate] is the [#]
    flag.  [None] is a panic by underflow. *)
Definition fmt_requirement (alternate : bool) (r : version_req) : option bytes :=
  match r_comparators r with
  | [] => Some []
  | c :: cs =>
      let o : out := if alternate then ([], 0)
                     else write_bytes (spaces (N.to_nat (c_op_offset c))) ([], 0) in
      match fmt_comparator c o with
      | None => None
      | Some o => match fmt_others cs o with
                  | None => None
                  | Some o => if alternate then Some (fst o)
                              else option_map fst (write_pad (r_len r) o)
                  end
      end
  end.

(** semver/src/display.rs:138-156 [Display for Version] *)
Definition version_text (v : version) : bytes :=
  dec (v_major v) ++ [46] ++ dec (v_minor v) ++ [46] ++ dec (v_patch v)
  ++ (if is_empty (v_pre v) then [] else [45] ++ v_pre v)
  ++ (if is_empty (v_meta v) then [] else [43] ++ v_meta v).
