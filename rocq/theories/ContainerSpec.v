(** Specification of containers (C72): what a program may expect of them, in
    terms of the operations it did and what it saw. *)
From Verif Require Import Base CommonModel TomlError LexModel ParseModel MapModel ContainerModel.

(** Operations that create a container of a text. *)
Inductive makes : op -> list N -> Prop :=
| mk_parse t : makes (Parse t) t
| mk_copy t : makes (ParseWithCopy t) t
| mk_program t : makes (ParseWithRef (InProgram t)) t.
(** [parse_with] is used as it is meant: the text is in the arena, or forever. *)
Definition honest (o : op) : Prop := match o with ParseWithRef (InBuffer _) | ParseWithRef (InArena _ _) => False | _ => True end.
(** The value of a text. *)
Definition parsed (t : list N) (tk : tokens) (a : asts) (m : mtable) : Prop :=
  exists es es' es'', lex t = Ok (tk, es) /\ parse t tk = Ok (a, es') /\ map_doc (as_asts a) = Ok (m, es'').
(** Container [c] was made of the text [t] in a history. *)
Definition made_of (os : list op) (es : list event) (c : nat) (t : list N) : Prop :=
  exists n o, nth_error os n = Some o /\ nth_error es n = Some (Created c) /\ makes o t.
Definition dropped (os : list op) (c : nat) : Prop := In (Drop c) os.
(** Live arenas of the memory, and failed attempts. *)
Definition live (m : memory) : nat := length (filter (fun x => match x with Some _ => true | None => false end) (arenas m)).
Definition failures (es : list event) : nat := length (filter (fun e => match e with Failed => true | _ => false end) es).
Definition creations (es : list event) : nat := length (filter (fun e => match e with Created _ => true | _ => false end) es).
Definition drops (os : list op) : nat := length (filter (fun o => match o with Drop _ => true | _ => false end) os).
