(** C16: InlineStr behaves like an ordinary string. *)
From Verif Require Import Base InlineModel InlineSpec InlineProofs.

(** C16.  Any program that creates (from ASCII text without NUL), clones,
    drops, reads and compares inline strings, run with any allocator that
    keeps its contract: no access outside a live block, no bad free and no
    panic ([Panic] is impossible); unless the allocator gives up ([Err]),
    every read and comparison answers what it answers for plain strings, and
    the heap holds exactly one block per live string longer than a word - so
    nothing is leaked or freed twice. *)
Theorem C16_inline_strings alloc ops m xs :
  allocator_ok alloc ->
  spec_run [] ops m xs ->
  match irun alloc (mkis [] []) ops with
  | Ok (st, xs') => xs' = xs /\ length (is_heap st) = long_strings m
  | Err _ => True
  | Panic => False
  end.
Proof.
  intros A S. pose proof (irun_ok alloc A ops _ _ _ _ inv_init S) as H.
  destruct (irun alloc (mkis [] []) ops) as [[st ys]|e|]; auto.
  destruct H as (-> & I). split; [reflexivity|]. apply inv_blocks; assumption.
Qed.

(** Non-vacuity: a bump allocator keeps the contract, and a program with a
    long, a short and an empty string, clones and drops runs to the end. *)
Definition bump (h : heap) (n : N) : option N :=
  let a := 2 + fold_right (fun x acc => N.max acc (fst x + blen (snd x))) 16 h in
  let a := a + a mod 2 in
  if a + n <=? two64 then Some a else None.

Lemma bump_ok : allocator_ok bump.
Proof.
  intros h n a H. unfold bump in H. cbv zeta in H.
  set (t := fold_right (fun x acc => N.max acc (fst x + blen (snd x))) 16 h) in *.
  assert (B : forall x, In x (map fst h) -> x <= t).
  { subst t. clear H. induction h as [|[x b] h IH]; cbn [map fst fold_right snd]; [intros ? []|].
    intros y [<-|I]; [lia|]. specialize (IH y I). lia. }
  destruct (_ <=? two64) eqn:E in H; [|discriminate]. injection H as <-.
  assert (D := N.div_mod t 2 ltac:(lia)). assert (M := N.mod_upper_bound t 2 ltac:(lia)).
  assert (M2 := N.mod_upper_bound (2 + t) 2 ltac:(lia)).
  assert (EV : (2 + t + (2 + t) mod 2) mod 2 = 0).
  { rewrite <- N.add_mod_idemp_l by lia. destruct ((2 + t) mod 2) as [|[p|p|]] eqn:X; try lia; reflexivity. }
  split; [lia|]. split; [exact EV|]. split; [lia|]. intros I. apply B in I. lia.
Qed.

Definition C16_program : list iop :=
  [INew 0 (bs "alpha-beta.gamma"); INew 1 (bs "rc.1"); INew 2 []; IClone 0 3; IEq 0 3; IEq 0 1; IDrop 0;
   IRead 3; IRead 1; IIsEmpty 2; IDrop 1; IDrop 2; IDrop 3].

Example C16_nonvacuous :
  spec_run [] C16_program [] [ONone; ONone; ONone; ONone; OBool true; OBool false; ONone;
    OStr (bs "alpha-beta.gamma"); OStr (bs "rc.1"); OBool true; ONone; ONone; ONone] /\
  irun bump (mkis [] []) C16_program = Ok (mkis [] [], [ONone; ONone; ONone; ONone; OBool true; OBool false; ONone;
    OStr (bs "alpha-beta.gamma"); OStr (bs "rc.1"); OBool true; ONone; ONone; ONone]).
Proof.
  split; [|vm_compute; reflexivity].
  unfold C16_program.
  assert (OK1 : str_ok (bs "alpha-beta.gamma")).
  { split; [|vm_compute; discriminate]. repeat constructor; vm_compute; discriminate. }
  assert (OK2 : str_ok (bs "rc.1")).
  { split; [|vm_compute; discriminate]. repeat constructor; vm_compute; discriminate. }
  assert (OK3 : str_ok []) by (split; [constructor|vm_compute; discriminate]).
  eapply SR_cons; [apply SS_new; [reflexivity|assumption]|].
  eapply SR_cons; [apply SS_new; [reflexivity|assumption]|].
  eapply SR_cons; [apply SS_new; [reflexivity|assumption]|].
  eapply SR_cons; [eapply SS_clone; reflexivity|].
  eapply SR_cons; [eapply SS_eq; [reflexivity|reflexivity|split; reflexivity]|].
  eapply SR_cons; [eapply SS_eq; [reflexivity|reflexivity|split; discriminate]|].
  eapply SR_cons; [eapply SS_drop; reflexivity|]. cbn [del Nat.eqb].
  eapply SR_cons; [eapply SS_read; reflexivity|].
  eapply SR_cons; [eapply SS_read; reflexivity|].
  eapply SR_cons; [eapply SS_empty; [reflexivity|split; reflexivity]|].
  eapply SR_cons; [eapply SS_drop; reflexivity|]. cbn [del Nat.eqb].
  eapply SR_cons; [eapply SS_drop; reflexivity|]. cbn [del Nat.eqb].
  eapply SR_cons; [eapply SS_drop; reflexivity|]. cbn [del Nat.eqb].
  apply SR_nil.
Qed.
Print Assumptions C16_inline_strings.
