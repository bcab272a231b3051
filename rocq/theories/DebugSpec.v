(** Specification for what the tool writes to its standard output: when two
    values are the same as far as a reader of the output is concerned, and what
    is assumed of the standard library's formatting of floats. *)
From Verif Require Import Base LitModel CliModel.

Section DebugSpec.
  Context (fshow : fval -> list N).

  (** The same value, except that of a float only the text it is printed as
      counts. *)
  Inductive alike : sval -> sval -> Prop :=
  | A_table t t' : Forall2 (fun x y => fst x = fst y /\ alike (snd x) (snd y)) t t' -> alike (STable t) (STable t')
  | A_array l l' : Forall2 alike l l' -> alike (SArray l) (SArray l')
  | A_string s : alike (SString s) (SString s)
  | A_int z : alike (SInt z) (SInt z)
  | A_float f f' : fshow f = fshow f' -> alike (SFloat f) (SFloat f')
  | A_bool b : alike (SBool b) (SBool b)
  | A_datetime d : alike (SDateTime d) (SDateTime d)
  | A_invalid s : alike (SInvalid s) (SInvalid s).

  (** What an [f64] is printed as: it starts with a digit, a minus sign, [inf]
      or [NaN], is made of digits, [. - + e] and the letters of [inf] and
      [NaN], and is no integer. *)
  Definition float_text (s : list N) : Prop :=
    (exists c r, s = c :: r /\ (48 <= c <= 57 \/ c = 45 \/ c = 105 \/ c = 78)) /\
    (forall c, In c s -> 48 <= c <= 57 \/ In c (bs ".-+einfNa")) /\
    (exists c, In c s /\ ~ (48 <= c <= 57) /\ c <> 45).
End DebugSpec.

(** A value without a float in it *)
Inductive floatless : sval -> Prop :=
| F_table t : Forall (fun x => floatless (snd x)) t -> floatless (STable t)
| F_array l : Forall floatless l -> floatless (SArray l)
| F_string s : floatless (SString s)
| F_int z : floatless (SInt z)
| F_bool b : floatless (SBool b)
| F_datetime d : floatless (SDateTime d)
| F_invalid s : floatless (SInvalid s).
