(** Specification of InlineStr: variables simply hold strings. *)
From Verif Require Import Base InlineModel.

Definition sstate := list (nat * bytes).

(** The documented precondition of [new_unchecked]: ASCII without NUL; and a
    length every Rust allocation has. *)
Definition str_ok (s : bytes) : Prop := Forall (fun b => 1 <= b <= 127) s /\ blen s <= 9223372036854775799.

(** One operation on plain strings. *)
Inductive spec_step : sstate -> iop -> sstate -> iout -> Prop :=
| SS_new m x s : get x m = None -> str_ok s -> spec_step m (INew x s) ((x, s) :: m) ONone
| SS_clone m x y s : get x m = Some s -> get y m = None -> spec_step m (IClone x y) ((y, s) :: m) ONone
| SS_drop m x s : get x m = Some s -> spec_step m (IDrop x) (del x m) ONone
| SS_read m x s : get x m = Some s -> spec_step m (IRead x) m (OStr s)
| SS_empty m x s b : get x m = Some s -> (b = true <-> s = []) -> spec_step m (IIsEmpty x) m (OBool b)
| SS_eq m x y s t b : get x m = Some s -> get y m = Some t -> (b = true <-> s = t) ->
    spec_step m (IEq x y) m (OBool b).

Inductive spec_run : sstate -> list iop -> sstate -> list iout -> Prop :=
| SR_nil m : spec_run m [] m []
| SR_cons m o m1 x os m2 xs :
    spec_step m o m1 x -> spec_run m1 os m2 xs -> spec_run m (o :: os) m2 (x :: xs).

(** What the allocator promises: a non-null, 2-aligned block inside the
    address space that is not in use. *)
Definition allocator_ok (alloc : heap -> N -> option N) : Prop :=
  forall h n a, alloc h n = Some a ->
    0 < a /\ a mod 2 = 0 /\ a + n <= two64 /\ ~ In a (map fst h).

(** Number of live strings that need a heap block. *)
Definition long_strings (m : sstate) : nat :=
  length (filter (fun xs => 8 <? blen (snd xs)) m).
