(** Shared vocabulary: bytes, unicode scalar values, UTF-8, decimal text and
    the outcome type.  No part of the program is modelled here; these are the
    Rust primitives ([u8], [char], [str], [Result]) the model is written in. *)
From Coq Require Export String Ascii.
From Coq Require Export List NArith ZArith Bool Lia.
From Coq Require Export ZifyBool ZifyNat ZifyN.
Export ListNotations.
Global Open Scope N_scope.
Global Open Scope list_scope.

(** A Rust [&str] seen through [as_bytes()]. *)
Notation bytes := (list N).

(** Text of a Coq string literal, as bytes (used in examples and messages). *)
Fixpoint bs (s : string) : bytes :=
  match s with
  | EmptyString => []
  | String a r => N_of_ascii a :: bs r
  end.

(** Outcome of a Rust call: a value, an error value, or a panic. *)
Inductive res (E A : Type) : Type :=
| Ok (a : A)
| Err (e : E)
| Panic.
Arguments Ok {E A} a.
Arguments Err {E A} e.
Arguments Panic {E A}.

Definition bind {E A B} (r : res E A) (f : A -> res E B) : res E B :=
  match r with
  | Ok a => f a
  | Err e => Err e
  | Panic => Panic
  end.
Notation "'let?' x ':=' r 'in' k" := (bind r (fun x => k))
  (at level 200, x pattern, r at level 100, k at level 200).

(** Build profile: integer overflow panics in a debug build and wraps in a
    release build. *)
Inductive profile := Debug | Release.

Definition u32_max : N := 4294967295.

(** [u8::is_ascii_digit] *)
Definition is_digit (b : N) : bool := (48 <=? b) && (b <=? 57).
Definition digit_val (b : N) : N := b - 48.

(** [str::split(sep)]: always at least one piece. *)
Fixpoint split_on (sep : N) (s : bytes) : list bytes :=
  match s with
  | [] => [[]]
  | b :: r =>
      if b =? sep then [] :: split_on sep r
      else match split_on sep r with
           | [] => [[b]]
           | p :: ps => (b :: p) :: ps
           end
  end.

Fixpoint bytes_eqb (a b : bytes) : bool :=
  match a, b with
  | [], [] => true
  | x :: a', y :: b' => (x =? y) && bytes_eqb a' b'
  | _, _ => false
  end.

(** [Ord for str]: lexicographic on bytes. *)
Fixpoint bytes_cmp (a b : bytes) : comparison :=
  match a, b with
  | [], [] => Eq
  | [], _ :: _ => Lt
  | _ :: _, [] => Gt
  | x :: a', y :: b' =>
      match x ?= y with
      | Eq => bytes_cmp a' b'
      | c => c
      end
  end.

Definition blen (s : bytes) : N := N.of_nat (List.length s).

(** Decimal text of a number, most significant digit first, as printed by
    [Display for u32] (no leading zeros, "0" for zero).  Fuel: one digit per
    bit is always enough, see [dec_fuel_enough] in BaseProofs. *)
Fixpoint dec_aux (fuel : nat) (n : N) (acc : bytes) : bytes :=
  match fuel with
  | O => acc
  | S f =>
      let acc' := (48 + n mod 10) :: acc in
      if n / 10 =? 0 then acc' else dec_aux f (n / 10) acc'
  end.
Definition dec (n : N) : bytes := dec_aux (S (N.to_nat (N.log2 n))) n [].

(** Value of a digit string read most significant digit first. *)
Definition val_acc (a : N) (ds : bytes) : N :=
  fold_left (fun a d => 10 * a + digit_val d) ds a.
Definition dec_val (ds : bytes) : N := val_acc 0 ds.

(** ** UTF-8 *)

(** Unicode scalar values: Rust [char]. *)
Definition is_scalar (c : N) : bool :=
  (c <? 55296) || ((57343 <? c) && (c <? 1114112)).

(** [char::len_utf8] *)
Definition len_utf8 (c : N) : N :=
  if c <? 128 then 1 else if c <? 2048 then 2 else if c <? 65536 then 3 else 4.

(** [char::encode_utf8] *)
Definition utf8_char (c : N) : bytes :=
  if c <? 128 then [c]
  else if c <? 2048 then [192 + c / 64; 128 + c mod 64]
  else if c <? 65536 then [224 + c / 4096; 128 + (c / 64) mod 64; 128 + c mod 64]
  else [240 + c / 262144; 128 + (c / 4096) mod 64; 128 + (c / 64) mod 64; 128 + c mod 64].

Definition utf8 (cs : list N) : bytes := flat_map utf8_char cs.

(** A [&str] is always valid UTF-8. *)
Definition valid_utf8 (s : bytes) : Prop :=
  exists cs, Forall (fun c => is_scalar c = true) cs /\ s = utf8 cs.

(** First character of a string slice that starts at this byte; [None] when
    the slice does not start at a character boundary (Rust panics). *)
Definition utf8_first (s : bytes) : option N :=
  match s with
  | [] => None
  | b0 :: r =>
      if b0 <? 128 then Some b0
      else if b0 <? 192 then None
      else if b0 <? 224 then
        match r with b1 :: _ => Some ((b0 - 192) * 64 + (b1 - 128)) | _ => None end
      else if b0 <? 240 then
        match r with
        | b1 :: b2 :: _ => Some ((b0 - 224) * 4096 + (b1 - 128) * 64 + (b2 - 128))
        | _ => None end
      else
        match r with
        | b1 :: b2 :: b3 :: _ =>
            Some ((b0 - 240) * 262144 + (b1 - 128) * 4096 + (b2 - 128) * 64 + (b3 - 128))
        | _ => None end
  end.

(** [n] spaces. *)
Definition spaces (n : nat) : bytes := repeat 32 n.

(** Pieces separated by [sep]: [Vec<&str>::join]. *)
Fixpoint join (sep : N) (ps : list bytes) : bytes :=
  match ps with
  | [] => []
  | [p] => p
  | p :: r => p ++ sep :: join sep r
  end.

(** Everything an order relation [<=] given by a comparison must satisfy. *)
Definition total_order {A} (cmp : A -> A -> comparison) : Prop :=
  (forall a b, cmp a b = Eq <-> a = b) /\
  (forall a b, cmp a b = Lt <-> cmp b a = Gt) /\
  (forall a b c, cmp a b <> Gt -> cmp b c <> Gt -> cmp a c <> Gt) /\
  (forall a b c, cmp a b = Lt -> cmp b c = Lt -> cmp a c = Lt).
