(** The model run on inputs of the crate's own tests
    (crates/toml/src/parse/test.rs).  These are tests, not proofs. *)
From Verif Require Import Base CommonModel TomlError LitModel LexModel ParseModel.

Definition nl : string := String (ascii_of_nat 10) EmptyString.
Definition P := mkpos.
Definition word (off line char : N) (s : string) : ident := mkident (mkref off (bs s)) (P line char) (bs s) 0 0 KPlain.
Definition int_ (off line char : N) (s : string) (z : Z) : value :=
  VInt (mkref off (bs s)) (span_from_pos_len (P line char) (tlen (bs s))) z.
Definition bool_ (line char : N) (b : bool) : value :=
  VBool (span_from_pos_len (P line char) (if b then 4 else 5)) b.
Definition none (level : N) : crange := mkrange 0 0 level.
Definition com (off line char : N) (s : string) : comment :=
  mkcom (span_from_pos_len (P line char) (1 + tlen (bs s))) (mkref off (bs s)).

Example t_dotted_key : lex_and_parse (bs "a.b.c = false") =
  Ok (mkasts [AAssign (mkta (none 0) (mkassign
    (KDotted [mkdi (word 0 0 0 "a") (Some (P 0 1)); mkdi (word 2 0 2 "b") (Some (P 0 3)); mkdi (word 4 0 4 "c") None])
    (P 0 6) (bool_ 0 8 false)))] [], []).
Proof. vm_compute. reflexivity. Qed.

Example t_invalid_int_identifier : lex_and_parse (bs "+99 = false") =
  Ok (mkasts [AAssign (mkta (none 0) (mkassign (KOne (word 0 0 0 "+99")) (P 0 4) (bool_ 0 6 false)))] [],
      [EInvalidCharInIdentifier 43 (P 0 0)]).
Proof. vm_compute. reflexivity. Qed.

Definition errors_of {A} (r : run (A * list terror)) : list terror :=
  match r with Ok (_, es) => es | _ => [] end.
Example t_space_between : errors_of (lex_and_parse (bs "[ [a.b]]")) = [ESpaceBetweenArrayPars (span_from_pos_len (P 0 1) 1)] /\
  errors_of (lex_and_parse (bs "[[a.b] ]")) = [ESpaceBetweenArrayPars (span_from_pos_len (P 0 6) 1)].
Proof. split; vm_compute; reflexivity. Qed.

Example t_multi_ident : lex_and_parse (bs "'''abc''' = false") =
  Ok (mkasts [] [], [EMultilineLiteralStringIdent (span_from_pos_len (P 0 0) 9)]).
Proof. vm_compute. reflexivity. Qed.

Example t_recover_comma : lex_and_parse (bs "array = [0, 1  2]") =
  Ok (mkasts [AAssign (mkta (none 0) (mkassign (KOne (word 0 0 0 "array")) (P 0 6)
        (VArray (none 0) (P 0 8)
          [mkav (none 1) (int_ 9 0 9 "0" 0) (Some (P 0 10));
           mkav (none 1) (int_ 12 0 12 "1" 1) None;
           mkav (none 1) (int_ 15 0 15 "2" 2) None] (EndPar (P 0 16)))))] [],
      [EMissingComma (P 0 13)]).
Proof. vm_compute. reflexivity. Qed.

Example t_recover_invalid : lex_and_parse (bs "array = [0, 1, 2, =]") =
  Ok (mkasts [AAssign (mkta (none 0) (mkassign (KOne (word 0 0 0 "array")) (P 0 6)
        (VArray (none 0) (P 0 8)
          [mkav (none 1) (int_ 9 0 9 "0" 0) (Some (P 0 10));
           mkav (none 1) (int_ 12 0 12 "1" 1) (Some (P 0 13));
           mkav (none 1) (int_ 15 0 15 "2" 2) (Some (P 0 16))] (EndPar (P 0 19)))))] [],
      [EExpectedValueFound (bs "`=`") (span_from_pos_len (P 0 18) 1)]).
Proof. vm_compute. reflexivity. Qed.

Example t_unclosed_array : lex_and_parse (bs ("array = [" ++ nl ++ "  0," ++ nl ++ "  1" ++ nl)%string) =
  Ok (mkasts [AAssign (mkta (none 0) (mkassign (KOne (word 0 0 0 "array")) (P 0 6)
        (VArray (none 0) (P 0 8)
          [mkav (none 1) (int_ 12 1 2 "0" 0) (Some (P 1 3));
           mkav (none 1) (int_ 17 2 2 "1" 1) None] (EndNone (P 2 3)))))] [],
      [EExpectedRightSquareFound (bs "`EOF`") (P 0 8) (span_pos (P 2 3))]).
Proof. vm_compute. reflexivity. Qed.

Example t_table_missing_comma : lex_and_parse (bs "table = { a = 3  b = true }") =
  Ok (mkasts [AAssign (mkta (none 0) (mkassign (KOne (word 0 0 0 "table")) (P 0 6)
        (VTable (P 0 8)
          [mkia (mkassign (KOne (word 10 0 10 "a")) (P 0 12) (int_ 14 0 14 "3" 3)) None;
           mkia (mkassign (KOne (word 17 0 17 "b")) (P 0 19) (bool_ 0 21 true)) None] (EndPar (P 0 26)))))] [],
      [EMissingComma (P 0 15)]).
Proof. vm_compute. reflexivity. Qed.

Example t_table_recover_invalid : lex_and_parse (bs "table = { a = 3, b = true, = }") =
  Ok (mkasts [AAssign (mkta (none 0) (mkassign (KOne (word 0 0 0 "table")) (P 0 6)
        (VTable (P 0 8)
          [mkia (mkassign (KOne (word 10 0 10 "a")) (P 0 12) (int_ 14 0 14 "3" 3)) (Some (P 0 15));
           mkia (mkassign (KOne (word 17 0 17 "b")) (P 0 19) (bool_ 0 21 true)) (Some (P 0 25))] (EndPar (P 0 29)))))] [],
      [EExpectedKeyFound (bs "`=`") (span_from_pos_len (P 0 27) 1)]).
Proof. vm_compute. reflexivity. Qed.

Example t_headers : lex_and_parse (bs ("[[my_array]]" ++ nl ++ "entry = false" ++ nl)%string) =
  Ok (mkasts [AArray (mkae (none 0) (mkah (P 0 0, P 0 1) (Some (KOne (word 2 0 2 "my_array"))) (Some 10, Some 11))
        [mkta (none 1) (mkassign (KOne (word 13 1 0 "entry")) (P 1 6) (bool_ 1 8 false))])] [], []).
Proof. vm_compute. reflexivity. Qed.

Example t_newline_required : lex_and_parse (bs ("[my_table]entry = false" ++ nl)%string) =
  Ok (mkasts [ATable (mktb (none 0) (mkth (P 0 0) (Some (KOne (word 1 0 1 "my_table"))) (Some 9))
        [mkta (none 1) (mkassign (KOne (word 10 0 10 "entry")) (P 0 16) (bool_ 0 18 false))])] [],
      [EMissingNewline (P 0 10)]).
Proof. vm_compute. reflexivity. Qed.

Example t_comment_not_associated :
  lex_and_parse (bs ("# free standing" ++ nl ++ nl ++ "# associated" ++ nl ++ "abc = false")%string) =
  Ok (mkasts [AComment (com 1 0 0 " free standing");
              AAssign (mkta (mkrange 0 1 0) (mkassign (KOne (word 30 3 0 "abc")) (P 3 4) (bool_ 3 6 false)))]
        [mkac Above 0 (com 18 2 0 " associated")], []).
Proof. vm_compute. reflexivity. Qed.

Example t_comment_contained :
  lex_and_parse (bs ("[my_table]" ++ nl ++ nl ++ "# contained comment" ++ nl ++ nl ++ "abc = false")%string) =
  Ok (mkasts [ATable (mktb (mkrange 0 1 0) (mkth (P 0 0) (Some (KOne (word 1 0 1 "my_table"))) (Some 9))
        [mkta (mkrange 1 0 1) (mkassign (KOne (word 33 4 0 "abc")) (P 4 4) (bool_ 4 6 false))])]
        [mkac Contained 0 (com 13 2 0 " contained comment")], []).
Proof. vm_compute. reflexivity. Qed.

Example t_array_comments :
  lex_and_parse (bs ("array = [" ++ nl ++ "# comment 1" ++ nl ++ "# comment 2" ++ nl ++ nl ++ "# above value" ++ nl
    ++ "1 # after value" ++ nl ++ "# contained comment" ++ nl ++ ", # after comma" ++ nl ++ "# comment 3" ++ nl ++ "]")%string) =
  Ok (mkasts [AAssign (mkta (mkrange 0 7 0) (mkassign (KOne (word 0 0 0 "array")) (P 0 6)
        (VArray (mkrange 0 7 0) (P 0 8)
          [mkav (mkrange 2 4 1) (int_ 49 5 0 "1" 1) (Some (P 7 0))] (EndPar (P 9 0)))))]
      [mkac Contained 0 (com 11 1 0 " comment 1"); mkac Contained 0 (com 23 2 0 " comment 2");
       mkac Above 1 (com 36 4 0 " above value"); mkac LineEnd 1 (com 52 5 2 " after value");
       mkac Contained 1 (com 66 6 0 " contained comment"); mkac LineEnd 1 (com 88 7 2 " after comma");
       mkac Contained 0 (com 102 8 0 " comment 3")], []).
Proof. vm_compute. reflexivity. Qed.

Example t_recursion_limit : errors_of (lex_and_parse (bs "a=" ++ repeat 91 101 ++ repeat 93 101)) =
  [ERecursionLimitExceeded (P 0 102)].
Proof. vm_compute. reflexivity. Qed.
Example t_recursion_limit_table :
  errors_of (lex_and_parse (concat (repeat (bs "a={") 101) ++ bs "a=" ++ repeat 125 101)) =
  [ERecursionLimitExceeded (P 0 302)].
Proof. vm_compute. reflexivity. Qed.

Example t_space_separated : lex_and_parse (bs "abc = 2023-12-05 10:11:12.5Z") =
  Ok (mkasts [AAssign (mkta (none 0) (mkassign (KOne (word 0 0 0 "abc")) (P 0 4)
        (VDateTime (mkref 6 (bs "2023-12-05 10:11:12.5Z")) (span_from_pos_len (P 0 6) 22)
          (OffsetDateTime (mkdate 2023 12 5) (mktime 10 11 12 500000000) OUtc))))] [], []).
Proof. vm_compute. reflexivity. Qed.
