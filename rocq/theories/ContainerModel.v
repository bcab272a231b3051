(** Model of crates/toml/src/container.rs: containers and the memory they
    borrow.  Memory is a list of arenas ([Bump]s that were leaked on purpose)
    and of buffers that belong to the caller; memory that is freed is [None]
    and keeps its number.  A reference is the number of what it points into;
    that what it points at in an arena does not move is the allocator's
    promise.  The errors that parsing reports are in C51/C53 and left out
    here. *)
From Verif Require Import Base CommonModel TomlError LexModel ParseModel MapModel.

(** What a [&str] points at: text number [i] of an arena, a buffer of the
    caller, or the program itself. *)
Inductive ref := InArena (r i : nat) | InBuffer (b : nat) | InProgram (t : list N).
(** container.rs:7-12 [Toml]; the tokens, the trees and the map borrow from the
    input and from the arena. *)
Record toml := mktoml { t_input : ref; t_tokens : tokens; t_asts : asts; t_map : mtable }.
(** container.rs:15-18 [Container] *)
Record container := mkcont { c_toml : toml; c_bump : nat }.
Record memory := mkmem { arenas : list (option (list (list N))); buffers : list (option (list N)); containers : list (option container) }.

Definition get {A} (l : list (option A)) (i : nat) : option A := match nth_error l i with Some (Some x) => Some x | _ => None end.
Fixpoint put {A} (l : list (option A)) (i : nat) (x : option A) : list (option A) :=
  match l, i with
  | [], _ => []
  | _ :: r, O => x :: r
  | y :: r, S i => y :: put r i x
  end.
(** The text behind a reference; [None]: it is gone. *)
Definition deref (m : memory) (p : ref) : option (list N) :=
  match p with
  | InArena r i => match get (arenas m) r with Some ts => nth_error ts i | None => None end
  | InBuffer b => get (buffers m) b
  | InProgram t => Some t
  end.

(** What a program can do with containers, without [unsafe] code of its own. *)
Inductive op :=
| NewBuffer (t : list N)
| FreeBuffer (b : nat)
(* [Container::parse] *)
| Parse (t : list N)
(* [Container::parse_with], by what the closure does: it copies a text into
   the arena it gets, or returns a reference that it had before; as the
   lifetime ['b] is the caller's choice, any reference that is valid during
   the call has the right type *)
| ParseWithCopy (t : list N)
| ParseWithRef (p : ref)
(* dropping a container, and looking at it through [Container::toml] *)
| Drop (c : nat)
| Read (c : nat).
Inductive event := Nothing | Created (c : nat) | Failed | Saw (t : list N) (tk : tokens) (a : asts) (m : mtable).
(** An operation that the compiler does not accept (it uses what was moved
    away or is not there), one that touches freed memory, or the memory
    afterwards. *)
Inductive effect := Refused | Fault | Done (m : memory) (e : event).

(** container.rs:76-95 [build_container], with the arena [r] *)
Definition build_container (m : memory) (r : nat) (input : ref) : effect :=
  match deref m input with
  | None => Fault
  | Some text =>
      let built : run toml :=
        let? (tk, es) := lex text in
        let? (a, es') := parse text tk in
        let? (t, es'') := map_doc (as_asts a) in
        Ok (mktoml input tk a t) in
      match built with
      | Ok t => Done (mkmem (arenas m) (buffers m) (containers m ++ [Some (mkcont t r)])) (Created (length (containers m)))
      | _ => Done m Failed (* unwinding does not free the leaked arena *)
      end
  end.
Definition with_arena (m : memory) (ts : list (list N)) : memory := mkmem (arenas m ++ [Some ts]) (buffers m) (containers m).

Definition step_op (m : memory) (o : op) : effect :=
  match o with
  | NewBuffer t => Done (mkmem (arenas m) (buffers m ++ [Some t]) (containers m)) Nothing
  | FreeBuffer b =>
      match get (buffers m) b with
      | Some _ => Done (mkmem (arenas m) (put (buffers m) b None) (containers m)) Nothing
      | None => Refused
      end
  (* container.rs:41-47 [parse] *)
  | Parse t => build_container (with_arena m [t]) (length (arenas m)) (InArena (length (arenas m)) 0)
  (* container.rs:49-63 [parse_with] *)
  | ParseWithCopy t => build_container (with_arena m [t]) (length (arenas m)) (InArena (length (arenas m)) 0)
  | ParseWithRef p =>
      match deref m p with
      | Some _ => build_container (with_arena m []) (length (arenas m)) p
      | None => Refused
      end
  (* container.rs:20-37 [drop] *)
  | Drop c =>
      match get (containers m) c with
      | Some x =>
          match get (arenas m) (c_bump x) with
          | Some _ => Done (mkmem (put (arenas m) (c_bump x) None) (buffers m) (put (containers m) c None)) Nothing
          | None => Fault
          end
      | None => Refused
      end
  (* container.rs:65-68 [toml] *)
  | Read c =>
      match get (containers m) c with
      | Some x =>
          match get (arenas m) (c_bump x), deref m (t_input (c_toml x)) with
          | Some _, Some t => Done m (Saw t (t_tokens (c_toml x)) (t_asts (c_toml x)) (t_map (c_toml x)))
          | _, _ => Fault
          end
      | None => Refused
      end
  end.
(** A program: its operations one after another. *)
Inductive runs : memory -> list op -> list event -> memory -> Prop :=
| runs_nil m : runs m [] [] m
| runs_cons m o e m' os es m'' : step_op m o = Done m' e -> runs m' os es m'' -> runs m (o :: os) (e :: es) m''.
Definition empty : memory := mkmem [] [] [].
