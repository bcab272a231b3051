(** The model run on inputs of the crate's own tests
    (crates/toml/src/map/test.rs).  These are tests, not proofs. *)
From Verif Require Import Base CommonModel TomlError LitModel LexModel ParseModel MapModel ParseTests.

(** crates/toml/src/test.rs [SimpleVal], for strings, integers, booleans *)
Inductive sval := SStr (s : list N) | SInt (z : Z) | SBool (b : bool) | STab (l : list (list N * sval)) | SArr (l : list sval) | SOther.
Fixpoint simple (n : node) : sval :=
  match n with
  | NTable t => STab (map (fun x => (fst x, simple (e_node (snd x)))) t)
  | NTop es => SArr (map (fun x => STab (map (fun x => (fst x, simple (e_node (snd x)))) (te_table x))) es)
  | NInline _ _ es => SArr (map (fun x => simple (ie_node x)) es)
  | NScalar (VString _ _ s _ _) => SStr s
  | NScalar (VInt _ _ z) => SInt z
  | NScalar (VBool _ b) => SBool b
  | NScalar _ => SOther
  end.
Definition run_simple (input : string) : run (sval * list terror) :=
  let? (a, _) := lex_and_parse (bs input) in
  let? (m, es) := map_doc (as_asts a) in
  Ok (simple (NTable m), es).
Fixpoint unlines (l : list string) : string := match l with [] => EmptyString | x :: r => append x (append nl (unlines r)) end.
Notation "k ~> v" := (bs k, v) (at level 60).

Example t_table_extends_other : run_simple (unlines ["[a]"; "1 = false"; "[a.b]"; "2 = true"]%string) =
  Ok (STab ["a" ~> STab ["1" ~> SBool false; "b" ~> STab ["2" ~> SBool true]]], []).
Proof. vm_compute. reflexivity. Qed.
Example t_super_table : run_simple (unlines ["[a.b]"; "2 = true"; "[a]"; "1 = false"]%string) =
  Ok (STab ["a" ~> STab ["b" ~> STab ["2" ~> SBool true]; "1" ~> SBool false]], []).
Proof. vm_compute. reflexivity. Qed.
Example t_last_array_entry : run_simple (unlines ["[[a.b]]"; "1 = 'one'"; "[a.b.c]"; "2 = 'two'"; "[[a.b]]"; "1 = 'three'"; "[a.b.c]"; "2 = 'four'"]%string) =
  Ok (STab ["a" ~> STab ["b" ~> SArr [
     STab ["1" ~> SStr (bs "one"); "c" ~> STab ["2" ~> SStr (bs "two")]];
     STab ["1" ~> SStr (bs "three"); "c" ~> STab ["2" ~> SStr (bs "four")]]]]], []).
Proof. vm_compute. reflexivity. Qed.
Example t_array_of_table_of_arrays : run_simple (unlines ["[[a.b]]"; "1 = false"; "[[a.b]]"; "1 = true"; "[[a.b.c]]"; "2 = false"]%string) =
  Ok (STab ["a" ~> STab ["b" ~> SArr [STab ["1" ~> SBool false]; STab ["1" ~> SBool true; "c" ~> SArr [STab ["2" ~> SBool false]]]]]], []).
Proof. vm_compute. reflexivity. Qed.
Example t_dotted_inline : run_simple "a = { b.c.d = 1, b.c.e = 2 }" =
  Ok (STab ["a" ~> STab ["b" ~> STab ["c" ~> STab ["d" ~> SInt 1; "e" ~> SInt 2]]]], []).
Proof. vm_compute. reflexivity. Qed.
Example t_open_parent : run_simple (unlines ["[[parent-table.arr]]"; "[[parent-table.arr]]"; "[parent-table]"; "not-arr = 1"]%string) =
  Ok (STab ["parent-table" ~> STab ["arr" ~> SArr [STab []; STab []]; "not-arr" ~> SInt 1]], []).
Proof. vm_compute. reflexivity. Qed.
Example t_append_array : run_simple (unlines ["[[a.b]]"; ""; "[a]"; "b.y = 2"]%string) =
  Ok (STab ["a" ~> STab ["b" ~> SArr [STab []]]],
      [ECannotExtendArrayWithDottedKey [0; 2] (bs "a.b") (span_from_pos_len (P 0 0) 7) (span_from_pos_len (P 3 0) 1)]).
Proof. vm_compute. reflexivity. Qed.
Example t_append_dotted : run_simple (unlines ["[a.b.c]"; "  z = 9"; ""; "[a]"; "  b.c.t = 'no'"]%string) =
  Ok (STab ["a" ~> STab ["b" ~> STab ["c" ~> STab ["z" ~> SInt 9]]]],
      [ECannotExtendTableWithDottedKey [0; 3] (bs "a.b") (mkspan (P 0 0) (P 1 7)) (span_from_pos_len (P 4 2) 1)]).
Proof. vm_compute. reflexivity. Qed.
Example t_inline_array : run_simple "array = [4, 8, 16]" = Ok (STab ["array" ~> SArr [SInt 4; SInt 8; SInt 16]], []).
Proof. vm_compute. reflexivity. Qed.
Example t_share : run_simple (unlines ["[fruit]"; "apple.color = 1"; "apple.taste.sweet = true"; "[fruit.apple.texture]"; "smooth = true"]%string) =
  Ok (STab ["fruit" ~> STab ["apple" ~> STab ["color" ~> SInt 1; "taste" ~> STab ["sweet" ~> SBool true]; "texture" ~> STab ["smooth" ~> SBool true]]]], []).
Proof. vm_compute. reflexivity. Qed.
Example t_dup : run_simple (unlines ["a = 1"; "a = 2"]%string) =
  Ok (STab ["a" ~> SInt 1], [EDuplicateKey [] (bs "a") (span_from_pos_len (P 0 0) 1) (span_from_pos_len (P 1 0) 1)]).
Proof. vm_compute. reflexivity. Qed.
