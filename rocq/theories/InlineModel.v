(** Model of crates/semver/src/inlinestr.rs for a 64-bit little-endian target.

    A machine word is an [N] below 2^64, memory is a list of live heap blocks
    (base address, contents).  Undefined behaviour (access outside a live
    block, free of something that is not a live block or with the wrong
    layout) and [unreachable!] are [Panic]; an allocation failure, which
    aborts the process, is [Err tt]. *)
From Verif Require Import Base.

Definition word_bits : N := 64.
Definition two63 : N := 9223372036854775808.
Definition two64 : N := 18446744073709551616.

(** semver/src/inlinestr.rs:21-24 *)
Definition PTR_SIZE : N := 8.
Definition MIN_ALLOC_STR_LEN : N := PTR_SIZE + 1.
Definition MAX_STR_LEN : N := 9223372036854775807 - PTR_SIZE.
(** [1_usize.rotate_right(1)] *)
Definition EMPTY : N := two63.

(** Little-endian bytes of a word, and back. *)
Fixpoint le_val (l : bytes) : N :=
  match l with
  | [] => 0
  | b :: r => b + 256 * le_val r
  end.
Fixpoint le_bytes (n : nat) (w : N) : bytes :=
  match n with
  | O => []
  | S n => w mod 256 :: le_bytes n (w / 256)
  end.

(** [usize::leading_zeros] *)
Definition leading_zeros (w : N) : N := word_bits - N.size w.

Definition heap := list (N * bytes).
Fixpoint lookup (a : N) (h : heap) : option bytes :=
  match h with
  | [] => None
  | (x, b) :: r => if a =? x then Some b else lookup a r
  end.
Fixpoint remove (a : N) (h : heap) : heap :=
  match h with
  | [] => []
  | (x, b) :: r => if a =? x then r else (x, b) :: remove a r
  end.

(** semver/src/inlinestr.rs:83-85 [is_inline] *)
Definition is_inline (w : N) : bool := N.shiftr w (8 * PTR_SIZE - 1) =? 0.
(** semver/src/inlinestr.rs:87-89 [is_empty] *)
Definition inl_is_empty (w : N) : bool := w =? EMPTY.

(** semver/src/inlinestr.rs:175-182 [repr_to_ptr]; the two wrapping
    operations cancel out. *)
Definition repr_to_ptr (w : N) : N :=
  let original := N.shiftl w 1 mod two64 in
  let diff := (original + two64 - w) mod two64 in
  (w + diff) mod two64.

(** semver/src/inlinestr.rs:184-194 [ptr_to_repr]; [rotate_right(1)]. *)
Definition ptr_to_repr (a : N) : N :=
  let o := N.lor a 1 in
  let rotated := (o / 2) + (o mod 2) * two63 in
  let diff := (rotated + two64 - a) mod two64 in
  (a + diff) mod two64.

(** A program: live variables (name, repr word) and the heap. *)
Record istate := mkis { is_vars : list (nat * N); is_heap : heap }.

Section Alloc.
  (** [std::alloc::alloc]: address for a block of the given size, [None] for a
      null pointer. *)
  Context (alloc : heap -> N -> option N).

  (** [alloc] and the following writes of the whole block. *)
  Definition alloc_block (h : heap) (contents : bytes) : res unit (N * heap) :=
    match alloc h (blen contents) with
    | None => Err tt
    | Some a => Ok (a, (a, contents) :: h)
    end.

  (** semver/src/inlinestr.rs:42-81 [new_unchecked].  Copying [len] bytes to
      the front of the zeroed word is the little-endian value of the bytes. *)
  Definition inl_new (h : heap) (s : bytes) : res unit (N * heap) :=
    let len := blen s in
    if len =? 0 then Ok (EMPTY, h)
    else if len <=? PTR_SIZE then Ok (le_val s, h)
    else if len <=? MAX_STR_LEN then
      let? (a, h) := alloc_block h (le_bytes 8 len ++ s) in
      Ok (ptr_to_repr a, h)
    else Panic.

  (** [std::ptr::read_unaligned(ptr as *const usize)] *)
  Definition read_len (h : heap) (a : N) : res unit N :=
    match lookup a h with
    | Some b => if 8 <=? blen b then Ok (le_val (firstn 8 b)) else Panic
    | None => Panic
    end.

  (** semver/src/inlinestr.rs:196-208 [ptr_as_str]: [from_raw_parts] of [len]
      bytes after the length field. *)
  Definition ptr_as_str (h : heap) (w : N) : res unit bytes :=
    let a := repr_to_ptr w in
    let? len := read_len h a in
    match lookup a h with
    | Some b => if 8 + len <=? blen b then Ok (firstn (N.to_nat len) (skipn 8 b)) else Panic
    | None => Panic
    end.

  (** semver/src/inlinestr.rs:91-110 [as_str].  [bytes[..len]] panics when
      [len] exceeds 8. *)
  Definition as_str (h : heap) (w : N) : res unit bytes :=
    if inl_is_empty w then Ok []
    else if is_inline w then
      let bits := leading_zeros w in
      let len := PTR_SIZE - bits / 8 in
      Ok (firstn (N.to_nat len) (le_bytes 8 w))
    else ptr_as_str h w.

  (** semver/src/inlinestr.rs:113-139 [Clone] *)
  Definition inl_clone (h : heap) (w : N) : res unit (N * heap) :=
    if is_inline w || inl_is_empty w then Ok (w, h)
    else
      let a := repr_to_ptr w in
      let? len := read_len h a in
      let alloc_size := PTR_SIZE + len in
      match lookup a h with
      | None => Panic
      | Some b =>
          if alloc_size <=? blen b then
            let? (c, h) := alloc_block h (firstn (N.to_nat alloc_size) b) in
            Ok (ptr_to_repr c, h)
          else Panic
      end.

  (** semver/src/inlinestr.rs:141-159 [Drop]; [dealloc] needs a live block of
      exactly the given layout. *)
  Definition inl_drop (h : heap) (w : N) : res unit heap :=
    if inl_is_empty w || is_inline w then Ok h
    else
      let a := repr_to_ptr w in
      let? len := read_len h a in
      match lookup a h with
      | Some b => if blen b =? PTR_SIZE + len then Ok (remove a h) else Panic
      | None => Panic
      end.

  (** semver/src/inlinestr.rs:163-173 [PartialEq] *)
  Definition inl_eq (h : heap) (v w : N) : res unit bool :=
    if inl_is_empty v || is_inline v then Ok (v =? w)
    else if inl_is_empty w || is_inline w then Ok false
    else
      let? a := ptr_as_str h v in
      let? b := ptr_as_str h w in
      Ok (bytes_eqb a b).

  (** Operations of a safe program on named variables. *)
  Inductive iop :=
  | INew (x : nat) (s : bytes)
  | IClone (x y : nat)
  | IDrop (x : nat)
  | IRead (x : nat)
  | IIsEmpty (x : nat)
  | IEq (x y : nat).
  Inductive iout := ONone | OStr (s : bytes) | OBool (b : bool).

  Fixpoint get {A} (x : nat) (l : list (nat * A)) : option A :=
    match l with
    | [] => None
    | (y, a) :: r => if Nat.eqb x y then Some a else get x r
    end.
  Fixpoint del {A} (x : nat) (l : list (nat * A)) : list (nat * A) :=
    match l with
    | [] => []
    | (y, a) :: r => if Nat.eqb x y then r else (y, a) :: del x r
    end.

  (** Use of a variable that is not live is rejected by the compiler; here it
      is [Panic] and excluded by the theorem's premise. *)
  Definition var (x : nat) (s : istate) : res unit N :=
    match get x (is_vars s) with Some w => Ok w | None => Panic end.

  Definition istep (s : istate) (o : iop) : res unit (istate * iout) :=
    match o with
    | INew x str =>
        let? (w, h) := inl_new (is_heap s) str in
        Ok (mkis ((x, w) :: is_vars s) h, ONone)
    | IClone x y =>
        let? w := var x s in
        let? (w', h) := inl_clone (is_heap s) w in
        Ok (mkis ((y, w') :: is_vars s) h, ONone)
    | IDrop x =>
        let? w := var x s in
        let? h := inl_drop (is_heap s) w in
        Ok (mkis (del x (is_vars s)) h, ONone)
    | IRead x =>
        let? w := var x s in
        let? str := as_str (is_heap s) w in
        Ok (s, OStr str)
    | IIsEmpty x =>
        let? w := var x s in
        Ok (s, OBool (inl_is_empty w))
    | IEq x y =>
        let? v := var x s in
        let? w := var y s in
        let? b := inl_eq (is_heap s) v w in
        Ok (s, OBool b)
    end.

  Fixpoint irun (s : istate) (os : list iop) : res unit (istate * list iout) :=
    match os with
    | [] => Ok (s, [])
    | o :: os =>
        let? (s, x) := istep s o in
        let? (s, xs) := irun s os in
        Ok (s, x :: xs)
    end.
End Alloc.
