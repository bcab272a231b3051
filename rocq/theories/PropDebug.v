(** C81: the standard output of the tool determines the value. *)
From Verif Require Import Base BaseProofs CommonModel CommonSpec CommonProofs TomlError LitModel DiagModel CliModel DebugModel DebugSpec.
From Coq Require Import Lia.

(** ** Induction over values *)
Lemma sval_nest (P : sval -> Prop) :
  (forall t, Forall (fun kv => P (snd kv)) t -> P (STable t)) ->
  (forall l, Forall P l -> P (SArray l)) ->
  (forall s, P (SString s)) -> (forall z, P (SInt z)) -> (forall f, P (SFloat f)) -> (forall b, P (SBool b)) ->
  (forall d, P (SDateTime d)) -> (forall s, P (SInvalid s)) -> forall v, P v.
Proof.
  intros HT HA HS HI HF HB HD HV.
  fix IH 1. intros [t|l|s|z|f|b|d|s].
  - apply HT. revert t. fix IHt 1. intros [|[k w] r]; constructor; [apply (IH w)|apply IHt].
  - apply HA. revert l. fix IHl 1. intros [|w r]; constructor; [apply (IH w)|apply IHl].
  - apply HS.
  - apply HI.
  - apply HF.
  - apply HB.
  - apply HD.
  - apply HV.
Qed.

(** ** Hexadecimal numbers *)
Lemma hex_aux_app f : forall n acc, hex_aux f n acc = hex_aux f n [] ++ acc.
Proof.
  induction f as [|f IH]; intros n acc; cbn [hex_aux]; [reflexivity|]. cbv zeta.
  destruct (n / 16 =? 0); [reflexivity|]. rewrite (IH _ (_ :: acc)), (IH _ [_]), <- app_assoc. reflexivity.
Qed.

Definition hex_val (c : N) : N := if c <? 58 then c - 48 else c - 87.
Lemma hex_val_digit n : n < 16 -> hex_val (hex_digit n) = n.
Proof. intros H. unfold hex_val, hex_digit. destruct (n <? 10) eqn:E; [destruct (48 + n <? 58) eqn:E2|destruct (_ <? 58) eqn:E2]; lia. Qed.
Definition hex_read (l : list N) : N := fold_left (fun a c => 16 * a + hex_val c) l 0.

Lemma hex_read_aux f : forall n, n < 16 ^ N.of_nat f -> hex_read (hex_aux f n []) = n.
Proof.
  induction f as [|f IH]; intros n H; cbn [hex_aux].
  - cbn in H. replace n with 0 by lia. reflexivity.
  - cbv zeta. destruct (n / 16 =? 0) eqn:E.
    + unfold hex_read. cbn [fold_left]. rewrite hex_val_digit by (apply N.mod_lt; lia).
      apply N.eqb_eq in E. pose proof (N.div_mod n 16 ltac:(lia)). lia.
    + rewrite hex_aux_app. unfold hex_read. rewrite fold_left_app. fold (hex_read (hex_aux f (n / 16) [])).
      rewrite IH.
      * cbn [fold_left]. rewrite hex_val_digit by (apply N.mod_lt; lia). pose proof (N.div_mod n 16 ltac:(lia)). lia.
      * rewrite Nat2N.inj_succ, N.pow_succ_r' in H. apply N.div_lt_upper_bound; lia.
Qed.

Lemma hex_read_hex n : hex_read (hex n) = n.
Proof.
  unfold hex. apply hex_read_aux. rewrite Nat2N.inj_succ, N2Nat.id.
  destruct (N.eq_dec n 0) as [->|Z]; [reflexivity|].
  apply N.lt_le_trans with (2 ^ N.succ (N.log2 n)); [apply N.log2_spec; lia|].
  apply N.pow_le_mono_l. lia.
Qed.

Lemma hex_aux_digits f : forall n, Forall (fun c => c < 125) (hex_aux f n []).
Proof.
  induction f as [|f IH]; intros n; cbn [hex_aux]; [constructor|]. cbv zeta.
  assert (HD : hex_digit (n mod 16) < 125).
  { pose proof (N.mod_lt n 16 ltac:(lia)). unfold hex_digit. destruct (_ <? 10); lia. }
  destruct (n / 16 =? 0); [constructor; [assumption|constructor]|].
  rewrite hex_aux_app. apply Forall_app. split; [apply IH|constructor; [assumption|constructor]].
Qed.

Lemma hex_printable n : Forall (fun c => ~ is_control c) (hex n).
Proof.
  unfold hex. generalize (S (N.to_nat (N.log2 n))). intros f. revert n.
  induction f as [|f IH]; intros n; cbn [hex_aux]; [constructor|]. cbv zeta.
  assert (HD : ~ is_control (hex_digit (n mod 16))) by (apply hex_digit_printable, N.mod_lt; lia).
  destruct (n / 16 =? 0); [constructor; [assumption|constructor]|].
  rewrite hex_aux_app. apply Forall_app. split; [apply IH|constructor; [assumption|constructor]].
Qed.

(** ** Reading up to a delimiter *)
Lemma upto (P : N -> Prop) (a b : list N) (c d : N) (R Q : list N) :
  Forall P a -> Forall P b -> ~ P c -> ~ P d -> a ++ c :: R = b ++ d :: Q -> a = b /\ c :: R = d :: Q.
Proof.
  intros HA. revert b. induction HA as [|x a Hx HA IH]; intros b HB NC ND E.
  - destruct HB as [|y b Hy HB]; cbn [app] in E; [auto|]. injection E as E1 E2. subst. contradiction.
  - destruct HB as [|y b Hy HB]; cbn [app] in E; injection E as E1 E2; [subst; contradiction|].
    destruct (IH b HB NC ND E2) as [-> ->]. subst. auto.
Qed.

(** ** Indentation *)
Definition blanks (k : nat) : list N := repeat 32 k.
(** The text as it looks inside [k] blanks of indentation *)
Definition ind (k : nat) (s : list N) : list N := flat_map (fun c => if c =? 10 then 10 :: blanks k else [c]) s.

Lemma ind_app k a b : ind k (a ++ b) = ind k a ++ ind k b.
Proof. apply flat_map_app. Qed.

Lemma ind_none k s : (forall c, In c s -> c <> 10) -> ind k s = s.
Proof.
  unfold ind. induction s as [|c r IH]; intros H; cbn [flat_map]; [reflexivity|].
  destruct (c =? 10) eqn:E; [apply N.eqb_eq in E; exfalso; apply (H c); [left; reflexivity|exact E]|].
  cbn [app]. rewrite IH; [reflexivity|]. intros d D. apply H. right. exact D.
Qed.

Lemma ind_0 s : ind 0 s = s.
Proof.
  induction s as [|c r IH]; [reflexivity|].
  change (ind 0 (c :: r)) with ((if c =? 10 then 10 :: blanks 0 else [c]) ++ ind 0 r). rewrite IH.
  destruct (c =? 10) eqn:E; [apply N.eqb_eq in E; subst|]; reflexivity.
Qed.

Lemma ind_blanks k j : ind k (blanks j) = blanks j.
Proof. apply ind_none. intros c H. apply repeat_spec in H. lia. Qed.

Lemma ind_ind k j s : ind k (ind j s) = ind (k + j) s.
Proof.
  induction s as [|c r IH]; [reflexivity|].
  change (ind j (c :: r)) with ((if c =? 10 then 10 :: blanks j else [c]) ++ ind j r).
  change (ind (k + j) (c :: r)) with ((if c =? 10 then 10 :: blanks (k + j) else [c]) ++ ind (k + j) r).
  rewrite ind_app, IH. f_equal.
  destruct (c =? 10) eqn:E.
  - change (10 :: blanks j) with ([10] ++ blanks j). rewrite ind_app, ind_blanks.
    unfold ind, blanks. cbn. rewrite repeat_app, app_nil_r. reflexivity.
  - unfold ind. cbn. rewrite E. reflexivity.
Qed.

Lemma pad_ind s : pad true (s ++ [10]) = blanks 4 ++ ind 4 s ++ [10] /\ pad false (s ++ [10]) = ind 4 s ++ [10].
Proof.
  induction s as [|c r [IH1 IH2]]; [split; reflexivity|].
  change (ind 4 (c :: r)) with ((if c =? 10 then 10 :: blanks 4 else [c]) ++ ind 4 r).
  cbn [app pad]. destruct (c =? 10) eqn:E.
  - apply N.eqb_eq in E. subst c. rewrite IH1. split; reflexivity.
  - rewrite IH2. split; reflexivity.
Qed.

Lemma entries_cons e l : entries (e :: l) = blanks 4 ++ ind 4 e ++ [44; 10] ++ entries l.
Proof.
  unfold entries. cbn [flat_map].
  replace (e ++ [44; 10]) with ((e ++ [44]) ++ [10]) by (rewrite <- app_assoc; reflexivity).
  rewrite (proj1 (pad_ind _)), ind_app. cbn [ind flat_map N.eqb Pos.eqb app]. rewrite <- !app_assoc. reflexivity.
Qed.

(** Entries inside [k] blanks *)
Definition ents (k : nat) (l : list (list N)) : list N :=
  flat_map (fun e => blanks 4 ++ ind (k + 4) e ++ 44 :: 10 :: blanks k) l.

Lemma ind_entries k l : ind k (entries l) = ents k l.
Proof.
  induction l as [|e l IH]; [reflexivity|].
  rewrite entries_cons, !ind_app, ind_blanks, ind_ind, IH. unfold ents. cbn [flat_map].
  rewrite <- !app_assoc. f_equal. f_equal. unfold ind. cbn. rewrite app_nil_r. reflexivity.
Qed.

(** ** The text of a value, inside [k] blanks *)
Definition ends (R : list N) : Prop := exists c r, R = c :: r /\ (c = 44 \/ c = 10).

Lemma ends_comma r : ends (44 :: r).
Proof. exists 44, r. auto. Qed.
Lemma ends_newline r : ends (10 :: r).
Proof. exists 10, r. auto. Qed.

(** One text, followed by a comma or the end of the line *)
Definition reads {A} (k : nat) (f : A -> list N) (rel : A -> A -> Prop) (x : A) : Prop :=
  forall y R Q, ends R -> ends Q -> ind k (f x) ++ R = ind k (f y) ++ Q -> rel x y /\ R = Q.

Lemma ents_step {A} k (f : A -> list N) rel x y R Q :
  reads (k + 4) f rel x ->
  (blanks 4 ++ ind (k + 4) (f x) ++ 44 :: 10 :: blanks k) ++ R = (blanks 4 ++ ind (k + 4) (f y) ++ 44 :: 10 :: blanks k) ++ Q ->
  rel x y /\ R = Q.
Proof.
  intros H E. rewrite <- !app_assoc in E. apply app_inv_head in E.
  cbn [app] in E. destruct (H y _ _ (ends_comma _) (ends_comma _) E) as [HR E'].
  injection E' as E'. apply app_inv_head in E'. auto.
Qed.

Lemma ents_reads {A} k (f : A -> list N) rel l : Forall (reads (k + 4) f rel) l ->
  forall l' c R d Q, c <> 32 -> d <> 32 -> ents k (map f l) ++ c :: R = ents k (map f l') ++ d :: Q ->
  Forall2 rel l l' /\ c :: R = d :: Q.
Proof.
  induction 1 as [|x l Hx HL IH]; intros [|y l'] c R d Q NC ND E.
  - auto.
  - exfalso. cbn in E. injection E as E _. contradiction.
  - exfalso. cbn in E. injection E as E _. auto.
  - unfold ents in E. cbn [map flat_map] in E. fold (ents k (map f l)) (ents k (map f l')) in E.
    rewrite <- (app_assoc (blanks 4 ++ ind (k + 4) (f x) ++ 44 :: 10 :: blanks k)) in E.
    rewrite <- (app_assoc (blanks 4 ++ ind (k + 4) (f y) ++ 44 :: 10 :: blanks k)) in E.
    destruct (ents_step _ _ _ _ _ _ _ Hx E) as [HR E'].
    destruct (IH _ _ _ _ _ NC ND E') as [H1 H2]. auto.
Qed.

(** The layout of a list of entries between delimiters *)
Lemma ind_body k h l r : (forall c, In c h -> c <> 10) -> (forall c, In c r -> c <> 10) ->
  ind k (h ++ [10] ++ entries l ++ r) = h ++ 10 :: blanks k ++ ents k l ++ r.
Proof.
  intros H1 H2. rewrite !ind_app, ind_entries.
  rewrite (ind_none k h H1), (ind_none k r H2). unfold ind at 1. cbn. rewrite app_nil_r. reflexivity.
Qed.

Ltac lits := cbn [bs N_of_ascii app]; repeat (apply Forall_cons; [unfold is_control; cbn; lia|]); apply Forall_nil.
Ltac no_newline := let c := fresh "c" in let H := fresh "H" in intros c H; cbn in H; repeat (destruct H as [H|H]; [subst c; discriminate|]); destruct H.

Section Uniqueness.
  Context (shown : N -> bool) (fshow : fval -> list N).

  (** *** Strings *)
  Lemma escape_head c : exists d r, escape_debug shown c = d :: r /\ d <> 34.
  Proof.
    unfold escape_debug.
    destruct (c =? 0); [do 2 eexists; split; [reflexivity|discriminate]|].
    destruct (c =? 9); [do 2 eexists; split; [reflexivity|discriminate]|].
    destruct (c =? 13); [do 2 eexists; split; [reflexivity|discriminate]|].
    destruct (c =? 10); [do 2 eexists; split; [reflexivity|discriminate]|].
    destruct (c =? 92); [do 2 eexists; split; [reflexivity|discriminate]|].
    destruct (c =? 34) eqn:E; [do 2 eexists; split; [reflexivity|discriminate]|].
    destruct (shown c); do 2 eexists; (split; [reflexivity|]); [apply N.eqb_neq; exact E|discriminate].
  Qed.

  Lemma escape_line c : Forall (fun c => c <> 10) (escape_debug shown c).
  Proof.
    unfold escape_debug.
    destruct (c =? 0); [lits|].
    destruct (c =? 9); [lits|].
    destruct (c =? 13); [lits|].
    destruct (c =? 10) eqn:E; [lits|apply N.eqb_neq in E].
    destruct (c =? 92); [lits|].
    destruct (c =? 34); [lits|].
    destruct (shown c); [repeat constructor; exact E|].
    apply Forall_app. split; [lits|]. apply Forall_app. split; [|lits].
    eapply Forall_impl; [|apply hex_printable]. unfold is_control. intros a H Z. apply H. lia.
  Qed.

  Lemma debug_str_line s : Forall (fun c => c <> 10) (debug_str shown s).
  Proof.
    unfold debug_str. apply Forall_app. split; [lits|]. apply Forall_app.
    split; [|lits].
    induction s as [|c s IH]; cbn [flat_map]; [constructor|]. apply Forall_app. split; [apply escape_line|exact IH].
  Qed.

  (** What follows the backslash tells the escapes apart. *)
  Lemma escape_uniq c d X Y : escape_debug shown c ++ X = escape_debug shown d ++ Y -> c = d /\ X = Y.
  Proof.
    assert (HEX : forall a b Z W, hex a ++ 125 :: Z = hex b ++ 125 :: W -> a = b /\ Z = W).
    { intros a b Z W E. destruct (upto (fun x => x < 125) (hex a) (hex b) 125 125 Z W) as [E1 E2]; try lia.
      - apply hex_aux_digits.
      - apply hex_aux_digits.
      - exact E.
      - split; [|congruence]. rewrite <- (hex_read_hex a), <- (hex_read_hex b), E1. reflexivity. }
    unfold escape_debug.
    change (bs "\0") with [92; 48]. change (bs "\t") with [92; 116]. change (bs "\r") with [92; 114]. change (bs "\n") with [92; 110].
    change (bs "\\") with [92; 92]. change (bs "\u{") with [92; 117; 123]. change (bs "}") with [125].
    destruct (c =? 0) eqn:C0; [|destruct (c =? 9) eqn:C9; [|destruct (c =? 13) eqn:C13; [|destruct (c =? 10) eqn:C10; [|destruct (c =? 92) eqn:C92; [|destruct (c =? 34) eqn:C34; [|destruct (shown c) eqn:CS]]]]]];
    (destruct (d =? 0) eqn:D0; [|destruct (d =? 9) eqn:D9; [|destruct (d =? 13) eqn:D13; [|destruct (d =? 10) eqn:D10; [|destruct (d =? 92) eqn:D92; [|destruct (d =? 34) eqn:D34; [|destruct (shown d) eqn:DS]]]]]]);
    repeat match goal with H : (_ =? _) = true |- _ => apply N.eqb_eq in H; subst | H : (_ =? _) = false |- _ => apply N.eqb_neq in H end;
    cbn [app]; intros E; try discriminate E; try (injection E; intros; subst; (congruence || auto; fail)).
    injection E as E. rewrite <- !app_assoc in E. cbn [app] in E. apply HEX. exact E.
  Qed.

  Lemma chars_uniq s : forall s' X Y, flat_map (escape_debug shown) s ++ 34 :: X = flat_map (escape_debug shown) s' ++ 34 :: Y -> s = s' /\ X = Y.
  Proof.
    induction s as [|c s IH]; intros [|d s'] X Y E; cbn [flat_map] in E.
    - injection E as E. auto.
    - exfalso. destruct (escape_head d) as (x & r & H & N). rewrite H in E. injection E as E _. auto.
    - exfalso. destruct (escape_head c) as (x & r & H & N). rewrite H in E. injection E as E _. auto.
    - rewrite <- !app_assoc in E. destruct (escape_uniq _ _ _ _ E) as [-> E']. destruct (IH _ _ _ E') as [-> ->]. auto.
  Qed.

  Lemma debug_str_uniq s s' X Y : debug_str shown s ++ X = debug_str shown s' ++ Y -> s = s' /\ X = Y.
  Proof.
    unfold debug_str. rewrite <- !app_assoc. cbn [app]. intros E. injection E as E. apply chars_uniq in E. exact E.
  Qed.

  Hypothesis SH : forall c, shown c = true -> ~ is_control c.

  Lemma escape_printable c : Forall (fun c => ~ is_control c) (escape_debug shown c).
  Proof.
    unfold escape_debug, is_control in *.
    destruct (c =? 0); [lits|].
    destruct (c =? 9); [lits|].
    destruct (c =? 13); [lits|].
    destruct (c =? 10); [lits|].
    destruct (c =? 92); [lits|].
    destruct (c =? 34); [lits|].
    destruct (shown c) eqn:E; [constructor; [apply SH; exact E|constructor]|].
    apply Forall_app. split; [lits|]. apply Forall_app. split; [apply hex_printable|lits].
  Qed.

  Lemma debug_str_printable s : Forall (fun c => ~ is_control c) (debug_str shown s).
  Proof.
    unfold debug_str. apply Forall_app. split; [lits|]. apply Forall_app.
    split; [|lits].
    induction s as [|c s IH]; cbn [flat_map]; [constructor|]. apply Forall_app. split; [apply escape_printable|exact IH].
  Qed.

End Uniqueness.

(** *** Integers and dates *)
Section Dates.
  Lemma digit_line n : Forall (fun c => 48 <= c <= 57) (dec n).
  Proof. eapply Forall_impl; [|apply dec_digits]. unfold is_digit. intros a H. cbn in H. lia. Qed.

  Lemma ends_not P R : ends R -> ~ P 44 -> ~ P 10 -> exists c r, R = c :: r /\ ~ P c.
  Proof. intros (c & r & -> & [-> | ->]) H1 H2; eauto. Qed.

  Lemma dec_uniq m n R Q : ends R -> ends Q -> dec m ++ R = dec n ++ Q -> m = n /\ R = Q.
  Proof.
    intros (c & r & -> & HC) (d & q & -> & HD) E.
    destruct (upto (fun c => 48 <= c <= 57) _ _ c d r q (digit_line m) (digit_line n) ltac:(cbv beta; lia) ltac:(cbv beta; lia) E) as [H1 H2].
    apply dec_inj in H1. auto.
  Qed.

  Lemma int_uniq y z R Q : ends R -> ends Q -> debug_int y ++ R = debug_int z ++ Q -> y = z /\ R = Q.
  Proof.
    intros HR HQ E. unfold debug_int in E.
    assert (HD : forall n X Y, dec n ++ X = 45 :: Y -> False).
    { intros n X Y H. pose proof (digit_line n) as D. pose proof (dec_nonempty n) as Z.
      destruct (dec n) as [|c r]; [contradiction|]. injection H as H _. apply Forall_inv in D. lia. }
    destruct (y <? 0)%Z eqn:Ey, (z <? 0)%Z eqn:Ez; cbn [app] in E.
    - injection E as E. destruct (dec_uniq _ _ _ _ HR HQ E) as [E1 E2]. split; [lia|exact E2].
    - symmetry in E. destruct (HD _ _ _ E).
    - destruct (HD _ _ _ E).
    - destruct (dec_uniq _ _ _ _ HR HQ E) as [E1 E2]. split; [lia|exact E2].
  Qed.

  Lemma ind_dec k n : ind k (dec n) = dec n.
  Proof. apply ind_none. intros c H. pose proof (proj1 (Forall_forall _ _) (digit_line n) c H) as D. cbn in D. lia. Qed.
  Lemma ind_int k z : ind k (debug_int z) = debug_int z.
  Proof.
    unfold debug_int. rewrite ind_app, ind_dec. f_equal. apply ind_none. intros c H.
    destruct (z <? 0)%Z; cbn in H; [|contradiction]. destruct H as [<-|[]]. discriminate.
  Qed.

  Lemma reads_map {A B} k (f : A -> list N) (g : B -> A) rel x :
    reads k f rel (g x) -> reads k (fun x => f (g x)) (fun x y => rel (g x) (g y)) x.
  Proof. intros H y R Q HR HQ E. exact (H (g y) R Q HR HQ E). Qed.

  (** A field *)
  Lemma field_reads k name n : (forall c, In c name -> c <> 10) -> reads k (fun n => name ++ bs ": " ++ dec n) eq n.
  Proof.
    intros HN m R Q HR HQ E. rewrite !ind_app, !ind_dec, <- !app_assoc in E. apply app_inv_head in E. apply app_inv_head in E.
    apply dec_uniq in E; auto.
  Qed.

  Lemma tuple_uniq {A} k name (f : A -> list (list N)) (rel : A -> A -> Prop) x :
    (forall c, In c name -> c <> 10) ->
    (forall y R Q, ents k (f x) ++ 41 :: R = ents k (f y) ++ 41 :: Q -> rel x y /\ R = Q) ->
    reads k (fun x => debug_tuple name (f x)) rel x.
  Proof.
    intros HN H y R Q HR HQ E. unfold debug_tuple in E.
    rewrite (app_assoc name), (app_assoc name (bs "(")) in E.
    assert (HH : forall c, In c (name ++ bs "(") -> c <> 10).
    { intros c HC. apply in_app_or in HC as [HC|HC]; [auto|]. revert c HC. no_newline. }
    rewrite !ind_body in E; [|exact HH|no_newline|exact HH|no_newline].
    rewrite <- !app_assoc in E. apply app_inv_head in E. apply app_inv_head in E.
    cbn [app] in E. injection E as E. rewrite <- !app_assoc in E. apply app_inv_head in E.
    cbn [bs app] in E. apply H in E. exact E.
  Qed.

  Lemma struct_uniq {A} k name (f : A -> list (list N * list N)) (rel : A -> A -> Prop) x :
    (forall c, In c name -> c <> 10) ->
    (forall y R Q, ents k (map (fun f => fst f ++ bs ": " ++ snd f) (f x)) ++ 125 :: R =
                   ents k (map (fun f => fst f ++ bs ": " ++ snd f) (f y)) ++ 125 :: Q -> rel x y /\ R = Q) ->
    reads k (fun x => debug_struct name (f x)) rel x.
  Proof.
    intros HN H y R Q HR HQ E. unfold debug_struct in E.
    rewrite (app_assoc name), (app_assoc name (bs " {")) in E.
    assert (HH : forall c, In c (name ++ bs " {") -> c <> 10).
    { intros c HC. apply in_app_or in HC as [HC|HC]; [auto|]. revert c HC. no_newline. }
    rewrite !ind_body in E; [|exact HH|no_newline|exact HH|no_newline].
    rewrite <- !app_assoc in E. apply app_inv_head in E. apply app_inv_head in E.
    cbn [app] in E. injection E as E. rewrite <- !app_assoc in E. apply app_inv_head in E.
    cbn [bs app] in E. apply H in E. exact E.
  Qed.

  Lemma ents_one {A} k (f : A -> list N) rel x y r r' R Q :
    reads (k + 4) f rel x -> ents k (f x :: r) ++ R = ents k (f y :: r') ++ Q -> rel x y /\ ents k r ++ R = ents k r' ++ Q.
  Proof.
    intros H E. unfold ents in E. cbn [flat_map] in E. fold (ents k r) (ents k r') in E.
    rewrite <- (app_assoc (blanks 4 ++ ind (k + 4) (f x) ++ 44 :: 10 :: blanks k)) in E.
    rewrite <- (app_assoc (blanks 4 ++ ind (k + 4) (f y) ++ 44 :: 10 :: blanks k)) in E.
    exact (ents_step _ _ _ _ _ _ _ H E).
  Qed.

  Lemma ents_field k name m n r r' R Q : (forall c, In c name -> c <> 10) ->
    ents k ((name ++ bs ": " ++ dec m) :: r) ++ R = ents k ((name ++ bs ": " ++ dec n) :: r') ++ Q ->
    m = n /\ ents k r ++ R = ents k r' ++ Q.
  Proof.
    intros HN. apply (ents_one k (fun n => name ++ bs ": " ++ dec n) eq m n). apply field_reads. exact HN.
  Qed.

  Lemma date_reads k d : reads k debug_date eq d.
  Proof.
    unfold debug_date. apply struct_uniq; [no_newline|]. intros e R Q E. cbn [map fst snd] in E.
    apply ents_field in E as [E1 E]; [|no_newline]. apply ents_field in E as [E2 E]; [|no_newline].
    apply ents_field in E as [E3 E]; [|no_newline]. cbn in E. injection E as E.
    destruct d, e; cbn in *; subst; auto.
  Qed.

  Lemma time_reads k d : reads k debug_time eq d.
  Proof.
    unfold debug_time. apply struct_uniq; [no_newline|]. intros e R Q E. cbn [map fst snd] in E.
    apply ents_field in E as [E1 E]; [|no_newline]. apply ents_field in E as [E2 E]; [|no_newline].
    apply ents_field in E as [E3 E]; [|no_newline]. apply ents_field in E as [E4 E]; [|no_newline]. cbn in E. injection E as E.
    destruct d, e; cbn in *; subst; auto.
  Qed.

  Lemma int_reads k z : reads k debug_int eq z.
  Proof. intros y R Q HR HQ E. rewrite !ind_int in E. apply int_uniq in E; auto. Qed.

  Lemma offset_reads k o : reads k debug_offset eq o.
  Proof.
    destruct o as [|m]; intros [|n] R Q HR HQ E; unfold debug_offset in E.
    - split; [reflexivity|]. apply app_inv_head in E. exact E.
    - cbn in E. discriminate.
    - cbn in E. discriminate.
    - destruct (tuple_uniq k (bs "Custom") (fun m => [debug_int m]) eq m) with (y := n) (R := R) (Q := Q) as [H1 H2]; auto.
      + no_newline.
      + intros y R' Q' E'. apply ents_one with (rel := eq) in E' as [E1 E']; [|apply int_reads]. cbn in E'. injection E' as E'. auto.
      + subst. auto.
  Qed.

  Lemma tuple_names k name name' l l' R Q : Forall (fun c => c <> 40 /\ c <> 10) name -> Forall (fun c => c <> 40 /\ c <> 10) name' -> name <> name' ->
    ind k (debug_tuple name l) ++ R = ind k (debug_tuple name' l') ++ Q -> False.
  Proof.
    intros H1 H2 H3 E. unfold debug_tuple in E. rewrite !(ind_app k name), !(ind_app k name') in E.
    rewrite (ind_none k name), (ind_none k name') in E.
    - rewrite !(ind_app k (bs "(")), !(ind_none k (bs "(")) in E by no_newline. rewrite <- !app_assoc in E. cbn [bs app] in E.
      apply (upto (fun c => c <> 40 /\ c <> 10)) in E; [|assumption|assumption|intros [X _]; apply X; reflexivity|intros [X _]; apply X; reflexivity].
      apply H3, E.
    - intros c H. apply (proj1 (Forall_forall _ _) H2 c H).
    - intros c H. apply (proj1 (Forall_forall _ _) H1 c H).
  Qed.
  Ltac no_paren := repeat (apply Forall_cons; [split; discriminate|]); apply Forall_nil.

  Lemma datetime_reads k d : reads k debug_datetime eq d.
  Proof.
    destruct d as [d t o|d t|d|t]; intros [d' t' o'|d' t'|d'|t'] R Q HR HQ E; unfold debug_datetime in E;
      try (exfalso; refine (tuple_names k _ _ _ _ _ _ _ _ _ E); [no_paren|no_paren|discriminate]; fail).
    - destruct (tuple_uniq k (bs "OffsetDateTime") (fun x => [debug_date (fst (fst x)); debug_time (snd (fst x)); debug_offset (snd x)]) eq (d, t, o))
        with (y := (d', t', o')) (R := R) (Q := Q) as [H1 H2]; auto.
      + no_newline.
      + intros [[d2 t2] o2] R' Q' E'. cbn [fst snd] in E'.
        apply ents_one with (rel := eq) in E' as [E1 E']; [|apply date_reads].
        apply ents_one with (rel := eq) in E' as [E2 E']; [|apply time_reads].
        apply ents_one with (rel := eq) in E' as [E3 E']; [|apply offset_reads]. cbn in E'. injection E' as E'. subst. auto.
      + injection H1 as -> -> ->. auto.
    - destruct (tuple_uniq k (bs "LocalDateTime") (fun x => [debug_date (fst x); debug_time (snd x)]) eq (d, t))
        with (y := (d', t')) (R := R) (Q := Q) as [H1 H2]; auto.
      + no_newline.
      + intros [d2 t2] R' Q' E'. cbn [fst snd] in E'.
        apply ents_one with (rel := eq) in E' as [E1 E']; [|apply date_reads].
        apply ents_one with (rel := eq) in E' as [E2 E']; [|apply time_reads]. cbn in E'. injection E' as E'. subst. auto.
      + injection H1 as -> ->. auto.
    - destruct (tuple_uniq k (bs "LocalDate") (fun x => [debug_date x]) eq d) with (y := d') (R := R) (Q := Q) as [H1 H2]; auto.
      + no_newline.
      + intros d2 R' Q' E'. apply ents_one with (rel := eq) in E' as [E1 E']; [|apply date_reads]. cbn in E'. injection E' as E'. subst. auto.
      + subst. auto.
    - destruct (tuple_uniq k (bs "LocalTime") (fun x => [debug_time x]) eq t) with (y := t') (R := R) (Q := Q) as [H1 H2]; auto.
      + no_newline.
      + intros d2 R' Q' E'. apply ents_one with (rel := eq) in E' as [E1 E']; [|apply time_reads]. cbn in E'. injection E' as E'. subst. auto.
      + subst. auto.
  Qed.
End Dates.

(** ** Values *)
Section Values.
  Context (shown : N -> bool) (fshow : fval -> list N).
  Hypothesis FT : forall f, float_text (fshow f).

  Notation debug := (debug shown fshow).
  Notation alike := (alike fshow).

  (** What the first character tells *)
  Definition sort (c : N) : N :=
    if c =? 123 then 1 else if c =? 91 then 2 else if c =? 34 then 3 else if (c =? 116) || (c =? 102) then 5
    else if (c =? 79) || (c =? 76) then 6 else if c =? 73 then 7 else 4.
  Definition sort_of (v : sval) : N :=
    match v with STable _ => 1 | SArray _ => 2 | SString _ => 3 | SInt _ | SFloat _ => 4 | SBool _ => 5 | SDateTime _ => 6 | SInvalid _ => 7 end.

  Lemma head_sort v k R : exists c r, ind k (debug v) ++ R = c :: r /\ sort c = sort_of v.
  Proof.
    assert (G : exists c r, debug v = c :: r /\ c <> 10 /\ sort c = sort_of v).
    { destruct v as [t|l|s|z|f|b|d|s]; cbn [DebugModel.debug sort_of].
      - destruct t; do 2 eexists; (split; [reflexivity|]); split; try reflexivity; discriminate.
      - destruct l; do 2 eexists; (split; [reflexivity|]); split; try reflexivity; discriminate.
      - do 2 eexists; split; [reflexivity|]; split; [discriminate|reflexivity].
      - unfold debug_int. destruct (z <? 0)%Z; cbn [app].
        + do 2 eexists; split; [reflexivity|]; split; [discriminate|reflexivity].
        + pose proof (digit_line (Z.abs_N z)) as D. pose proof (dec_nonempty (Z.abs_N z)) as NE.
          destruct (dec (Z.abs_N z)) as [|c r]; [contradiction|]. apply Forall_inv in D. exists c, r. split; [reflexivity|].
          split; [lia|]. unfold sort.
          repeat match goal with |- context [c =? ?x] => destruct (N.eqb_spec c x); [exfalso; lia|] end. reflexivity.
      - destruct (FT f) as ((c & r & E & H) & _). exists c, r. split; [exact E|]. split; [lia|]. unfold sort.
        repeat match goal with |- context [c =? ?x] => destruct (N.eqb_spec c x); [exfalso; lia|] end. reflexivity.
      - destruct b; do 2 eexists; (split; [reflexivity|]); split; try reflexivity; discriminate.
      - destruct d; do 2 eexists; (split; [reflexivity|]); split; try reflexivity; discriminate.
      - do 2 eexists; split; [reflexivity|]; split; [discriminate|reflexivity]. }
    destruct G as (c & r & E & H1 & H2). rewrite E.
    change (ind k (c :: r)) with ((if c =? 10 then 10 :: blanks k else [c]) ++ ind k r).
    apply N.eqb_neq in H1. rewrite H1. do 2 eexists. split; [reflexivity|exact H2].
  Qed.

  Lemma float_line f : Forall (fun c => c <> 44 /\ c <> 10) (fshow f).
  Proof.
    apply Forall_forall. intros c H. destruct (FT f) as (_ & A & _). apply A in H as [H|H]; [lia|].
    cbn in H. repeat (destruct H as [<-|H]; [split; discriminate|]). destruct H.
  Qed.
  Lemma int_line z : Forall (fun c => c <> 44 /\ c <> 10) (debug_int z).
  Proof.
    unfold debug_int. apply Forall_app. split; [destruct (z <? 0)%Z; repeat constructor; discriminate|].
    eapply Forall_impl; [|apply digit_line]. cbv beta. lia.
  Qed.
  Lemma ind_float k f : ind k (fshow f) = fshow f.
  Proof. apply ind_none. intros c H. apply (proj1 (Forall_forall _ _) (float_line f) c H). Qed.

  Lemma int_float z f : debug_int z = fshow f -> False.
  Proof.
    intros E. destruct (FT f) as (_ & _ & c & H & N1 & N2). rewrite <- E in H. unfold debug_int in H.
    apply in_app_or in H as [H|H].
    - destruct (z <? 0)%Z; [|destruct H]. destruct H as [H|[]]. congruence.
    - apply (proj1 (Forall_forall _ _) (digit_line _)) in H. cbv beta in H. lia.
  Qed.

  Lemma line_uniq a b R Q : Forall (fun c => c <> 44 /\ c <> 10) a -> Forall (fun c => c <> 44 /\ c <> 10) b ->
    ends R -> ends Q -> a ++ R = b ++ Q -> a = b /\ R = Q.
  Proof.
    intros HA HB (c & r & -> & HC) (d & q & -> & HD) E. revert E. apply upto with (P := fun c => c <> 44 /\ c <> 10); auto; cbv beta; lia.
  Qed.

  Local Opaque ents.
  Lemma set_uniq {A} k o e (f : A -> list N) rel l l' R Q : o <> 10 -> e <> 32 -> e <> 10 ->
    Forall (reads (k + 4) f rel) l ->
    ind k (debug_set [o] [e] (map f l)) ++ R = ind k (debug_set [o] [e] (map f l')) ++ Q -> Forall2 rel l l' /\ R = Q.
  Proof.
    intros HO HE HE2 HL E.
    assert (LO : forall c, In c [o] -> c <> 10) by (intros c [<-|[]]; exact HO).
    assert (LE : forall c, In c [e] -> c <> 10) by (intros c [<-|[]]; exact HE2).
    assert (EMPTY : ind k ([o] ++ [e]) = [o; e]) by (rewrite ind_app, !ind_none by assumption; reflexivity).
    destruct l as [|x l], l' as [|y l']; unfold debug_set in E; cbn [map] in E; rewrite ?EMPTY in E; rewrite ?ind_body in E by assumption.
    - injection E as E. auto.
    - exfalso. cbn [app] in E. injection E as E _. congruence.
    - exfalso. cbn [app] in E. injection E as E _. congruence.
    - cbn [app] in E. injection E as E. rewrite <- !app_assoc in E. apply app_inv_head in E.
      change (f x :: map f l) with (map f (x :: l)) in E. change (f y :: map f l') with (map f (y :: l')) in E.
      rewrite <- ?app_assoc in E. cbn [app] in E.
      destruct (ents_reads _ _ _ _ HL _ _ _ _ _ HE HE E) as [H1 H2]. injection H2 as H2. auto.
  Qed.

  Local Transparent ents.
  Lemma entry_reads k (kv : list N * sval) : reads k debug alike (snd kv) ->
    reads k (fun kv => debug_str shown (fst kv) ++ bs ": " ++ debug (snd kv)) (fun x y => fst x = fst y /\ alike (snd x) (snd y)) kv.
  Proof.
    intros H y R Q HR HQ E. rewrite !ind_app in E.
    rewrite !(ind_none k (debug_str _ _)) in E by (intros c HC; apply (proj1 (Forall_forall _ _) (debug_str_line shown _) c HC)).
    rewrite <- !app_assoc in E. apply debug_str_uniq in E as [E1 E]. apply app_inv_head in E.
    destruct (H _ _ _ HR HQ E) as [H1 H2]. auto.
  Qed.

  Lemma value_reads v : forall k, reads k debug alike v.
  Proof.
    induction v as [t IH|l IH|s|z|f|b|d|s] using sval_nest; intros k w R Q HR HQ E.
    all: assert (SO : sort_of w = sort_of (ltac:(match type of E with ind _ (debug ?x) ++ _ = _ => exact x end)))
      by (destruct (head_sort w k Q) as (c & r & H1 & <-); match goal with |- _ = sort_of ?x => destruct (head_sort x k R) as (c' & r' & H2 & <-) end; congruence).
    all: destruct w as [t'|l'|s'|z'|f'|b'|d'|s']; try discriminate SO; clear SO; cbn [DebugModel.debug] in E.
    - destruct (set_uniq k 123 125 (fun kv => debug_str shown (fst kv) ++ bs ": " ++ debug (snd kv)) (fun x y => fst x = fst y /\ alike (snd x) (snd y)) t t' R Q) as [H1 H2]; try discriminate; try assumption.
      + eapply Forall_impl; [|exact IH]. intros kv H. apply entry_reads, H.
      + split; [constructor; exact H1|exact H2].
    - destruct (set_uniq k 91 93 debug alike l l' R Q) as [H1 H2]; try discriminate; try assumption.
      + eapply Forall_impl; [|exact IH]. intros x H. apply H.
      + split; [constructor; exact H1|exact H2].
    - rewrite !(ind_none k (debug_str _ _)) in E by (intros c HC; apply (proj1 (Forall_forall _ _) (debug_str_line shown _) c HC)).
      apply debug_str_uniq in E as [-> ->]. split; [constructor|reflexivity].
    - apply int_reads in E as [-> ->]; auto. split; [constructor|reflexivity].
    - rewrite ind_int, ind_float in E. apply line_uniq in E as [E _]; auto using int_line, float_line. destruct (int_float _ _ E).
    - rewrite ind_int, ind_float in E. apply line_uniq in E as [E _]; auto using int_line, float_line. destruct (int_float _ _ (eq_sym E)).
    - rewrite !ind_float in E. apply line_uniq in E as [E1 E2]; auto using float_line. split; [constructor; exact E1|exact E2].
    - destruct b, b'; rewrite !ind_none in E by no_newline; try (exfalso; cbn in E; discriminate E); apply app_inv_head in E; (split; [constructor|exact E]).
    - apply datetime_reads in E as [-> ->]; auto. split; [constructor|reflexivity].
    - apply (tuple_uniq k (bs "Invalid") (fun s => [debug_str shown s]) eq s) in E as [-> ->]; auto.
      + split; [constructor|reflexivity].
      + no_newline.
      + intros s2 R' Q' E'. apply ents_one with (rel := eq) in E' as [E1 E'].
        * cbn in E'. injection E' as E'. auto.
        * intros y R2 Q2 HR2 HQ2 E2.
          rewrite !(ind_none _ (debug_str _ _)) in E2 by (intros c HC; apply (proj1 (Forall_forall _ _) (debug_str_line shown _) c HC)).
          apply debug_str_uniq in E2. exact E2.
  Qed.

  Lemma alike_floatless v : forall w, floatless v -> alike v w -> v = w.
  Proof.
    induction v as [t IH|l IH|s|z|f|b|d|s] using sval_nest; intros w HF HA; inversion HA; subst; auto; inversion HF; subst.
    - f_equal. match goal with H : Forall2 _ _ _ |- _ => rename H into H2 end.
      match goal with H : Forall (fun x => floatless (snd x)) t |- _ => rename H into H1 end. clear HA HF.
      induction H2 as [|[a x] [b y] l l' [H3 H4] H2 IH2]; [reflexivity|]. cbn [fst snd] in *. subst.
      inversion IH; subst. inversion H1; subst. cbn [snd] in *. f_equal; [f_equal; auto|auto].
    - f_equal. match goal with H : Forall2 _ _ _ |- _ => rename H into H2 end.
      match goal with H : Forall floatless l |- _ => rename H into H1 end. clear HA HF.
      induction H2 as [|x y l l' H3 H2 IH2]; [reflexivity|].
      inversion IH; subst. inversion H1; subst. f_equal; auto.
  Qed.

  (** C81: what is printed determines the value and the messages that follow
      it, up to the floats that are printed alike. *)
  Theorem C81_determined : forall v v' ms ms', stdout shown fshow v ms = stdout shown fshow v' ms' ->
    alike (STable v) (STable v') /\ concat ms = concat ms'.
  Proof.
    intros v v' ms ms' E. unfold stdout in E.
    assert (E' : ind 0 (debug (STable v)) ++ 10 :: concat ms = ind 0 (debug (STable v')) ++ 10 :: concat ms')
      by (rewrite !ind_0; exact E).
    apply value_reads in E' as [H1 H2]; try apply ends_newline. injection H2 as H2. auto.
  Qed.

  Theorem C81_no_floats : forall v v' ms ms', floatless (STable v) -> stdout shown fshow v ms = stdout shown fshow v' ms' -> v = v'.
  Proof.
    intros v v' ms ms' HF E. apply C81_determined in E as [E _]. apply alike_floatless in E; [|exact HF]. congruence.
  Qed.
End Values.

(** Two values that are printed alike are really the same but for their
    floats, and the other way round. *)
Theorem C81_alike_printed : forall shown fshow v v', alike fshow v v' -> debug shown fshow v = debug shown fshow v'.
Proof.
  intros shown fshow v. induction v as [t IH|l IH|s|z|f|b|d|s] using sval_nest; intros w HA; inversion HA; subst; cbn [debug]; auto.
  - assert (E : map (fun kv => debug_str shown (fst kv) ++ bs ": " ++ debug shown fshow (snd kv)) t = map (fun kv => debug_str shown (fst kv) ++ bs ": " ++ debug shown fshow (snd kv)) t').
    { match goal with H : Forall2 _ _ _ |- _ => rename H into H2 end. clear HA.
      induction H2 as [|[a x] [b y] l l' [H3 H4] H2 IH2]; [reflexivity|]. cbn [fst snd] in *. subst. inversion IH; subst. cbn [map fst snd].
      f_equal; [do 2 f_equal; auto|auto]. }
    rewrite E. reflexivity.
  - assert (E : map (debug shown fshow) l = map (debug shown fshow) l').
    { match goal with H : Forall2 _ _ _ |- _ => rename H into H2 end. clear HA.
      induction H2 as [|x y l l' H3 H2 IH2]; [reflexivity|]. inversion IH; subst. cbn [map]. f_equal; auto. }
    rewrite E. reflexivity.
Qed.

(** ** No control characters *)
Section Printable.
  Context (shown : N -> bool) (fshow : fval -> list N).
  Hypothesis FT : forall f, float_text (fshow f).
  Hypothesis SH : forall c, shown c = true -> ~ is_control c.

  Definition fair (c : N) : Prop := ~ is_control c \/ c = 10.
  Lemma fair_pad s : forall b, Forall fair s -> Forall fair (pad b s).
  Proof.
    induction s as [|c s IH]; intros b H; cbn [pad]; [constructor|]. inversion H; subst. apply Forall_app. split.
    - destruct b; [repeat constructor; unfold is_control; lia|constructor].
    - constructor; auto.
  Qed.
  Lemma fair_bs s : forallb (fun c => (31 <? c) && negb (c =? 127)) s = true -> Forall fair s.
  Proof.
    intros H. rewrite forallb_forall in H. apply Forall_forall. intros c HC. apply H in HC. left. unfold is_control. lia.
  Qed.
  Lemma fair_entries l : Forall (Forall fair) l -> Forall fair (entries l).
  Proof.
    unfold entries. induction 1 as [|e l H HL IH]; cbn [flat_map]; [constructor|]. apply Forall_app. split; [|exact IH].
    apply fair_pad, Forall_app. split; [exact H|]. constructor; [left; unfold is_control; lia|]. constructor; [right; reflexivity|constructor].
  Qed.
  Lemma fair_newline : Forall fair [10].
  Proof. constructor; [right; reflexivity|constructor]. Qed.
  Lemma fair_dec n : Forall fair (dec n).
  Proof. eapply Forall_impl; [|apply digit_line]. intros a H. left. unfold is_control. cbv beta in H. lia. Qed.
  Lemma fair_str s : Forall fair (debug_str shown s).
  Proof. eapply Forall_impl; [|apply debug_str_printable; exact SH]. intros a H. left. exact H. Qed.
  Lemma fair_int z : Forall fair (debug_int z).
  Proof. unfold debug_int. apply Forall_app. split; [destruct (z <? 0)%Z; [apply fair_bs; reflexivity|constructor]|apply fair_dec]. Qed.
  Lemma fair_tuple name l : Forall fair name -> Forall (Forall fair) l -> Forall fair (debug_tuple name l).
  Proof.
    intros H1 H2. unfold debug_tuple. repeat (apply Forall_app; split); auto using fair_newline, fair_entries; apply fair_bs; reflexivity.
  Qed.
  Lemma fair_struct name l : Forall fair name -> Forall (fun f => Forall fair (fst f) /\ Forall fair (snd f)) l -> Forall fair (debug_struct name l).
  Proof.
    intros H1 H2. unfold debug_struct. repeat (apply Forall_app; split); auto using fair_newline; try (apply fair_bs; reflexivity).
    apply fair_entries. induction H2 as [|x l [HA HB] HL IH]; cbn [map]; constructor; [|exact IH].
    repeat (apply Forall_app; split); auto. apply fair_bs; reflexivity.
  Qed.
  Lemma fair_date d : Forall fair (debug_date d).
  Proof. apply fair_struct; [apply fair_bs; reflexivity|]. repeat (apply Forall_cons; [split; cbn [fst snd]; [apply fair_bs; reflexivity|apply fair_dec]|]); apply Forall_nil. Qed.
  Lemma fair_time d : Forall fair (debug_time d).
  Proof. apply fair_struct; [apply fair_bs; reflexivity|]. repeat (apply Forall_cons; [split; cbn [fst snd]; [apply fair_bs; reflexivity|apply fair_dec]|]); apply Forall_nil. Qed.
  Lemma fair_offset o : Forall fair (debug_offset o).
  Proof. destruct o; [apply fair_bs; reflexivity|]. apply fair_tuple; [apply fair_bs; reflexivity|]. apply Forall_cons; [apply fair_int|apply Forall_nil]. Qed.
  Lemma fair_datetime d : Forall fair (debug_datetime d).
  Proof.
    destruct d; (apply fair_tuple; [apply fair_bs; reflexivity|]); repeat (apply Forall_cons; [auto using fair_date, fair_time, fair_offset|]); apply Forall_nil.
  Qed.
  Lemma fair_set o e l : Forall fair o -> Forall fair e -> Forall (Forall fair) l -> Forall fair (debug_set o e l).
  Proof.
    intros H1 H2 H3. unfold debug_set. destruct l as [|x l]; [apply Forall_app; split; assumption|].
    apply Forall_app; split; [assumption|]. apply Forall_app; split; [apply fair_newline|]. apply Forall_app; split; [apply fair_entries; assumption|assumption].
  Qed.
  Lemma fair_debug v : Forall fair (debug shown fshow v).
  Proof.
    induction v as [t IH|l IH|s|z|f|b|d|s] using sval_nest; cbn [debug].
    - apply fair_set; [apply fair_bs; reflexivity|apply fair_bs; reflexivity|].
      induction IH as [|x l H HL IH]; cbn [map]; constructor; [|exact IH].
      apply Forall_app; split; [apply fair_str|]. apply Forall_app; split; [apply fair_bs; reflexivity|exact H].
    - apply fair_set; [apply fair_bs; reflexivity|apply fair_bs; reflexivity|].
      induction IH as [|x l H HL IH]; cbn [map]; constructor; [exact H|exact IH].
    - apply fair_str.
    - apply fair_int.
    - apply Forall_forall. intros c H. destruct (FT f) as (_ & A & _). apply A in H as [H|H]; left; unfold is_control; [lia|].
      cbn in H. repeat (destruct H as [<-|H]; [lia|]). destruct H.
    - destruct b; apply fair_bs; reflexivity.
    - apply fair_datetime.
    - apply fair_tuple; [apply fair_bs; reflexivity|]. constructor; [apply fair_str|constructor].
  Qed.

  (** C81: the printed value has no control character other than the line
      breaks of its layout. *)
  Theorem C81_no_control : forall v c, In c (debug shown fshow v) -> is_control c -> c = 10.
  Proof.
    intros v c H HC. apply (proj1 (Forall_forall _ _) (fair_debug v)) in H as [H|H]; [contradiction|exact H].
  Qed.
End Printable.

(** ** Whole runs of the tool *)
Definition printed (shown : N -> bool) (fshow : fval -> list N) (width : list N -> N) (prof : profile) (m : mode) (text out : list N) : Prop :=
  exists v ms, ctoml width prof m text = Ok (v, ms) /\ out = stdout shown fshow v ms.

(** C81: if two documents make the tool print the same, they have the same
    value and the same messages. *)
Theorem C81_runs : forall shown fshow, (forall f, float_text (fshow f)) ->
  forall width prof m text text' out, printed shown fshow width prof m text out -> printed shown fshow width prof m text' out ->
  exists v v' ms ms', ctoml width prof m text = Ok (v, ms) /\ ctoml width prof m text' = Ok (v', ms') /\
    alike fshow (STable v) (STable v') /\ concat ms = concat ms'.
Proof.
  intros shown fshow FT width prof m text text' out (v & ms & H1 & ->) (v' & ms' & H2 & E).
  destruct (C81_determined shown fshow FT _ _ _ _ E) as [H3 H4]. exists v, v', ms, ms'. auto.
Qed.

(** An instance of the parameters: printable ASCII is shown as it is; floats
    in a notation of their own that has the form of [f64]'s. *)
Definition ascii_shown (c : N) : bool := (32 <=? c) && (c <? 127).
Definition plain_float (f : fval) : list N :=
  match f with
  | FDec n m e => (if n then [45] else []) ++ dec m ++ bs "e" ++ debug_int e
  | FInf n => (if n then [45] else []) ++ bs "inf"
  | FNan _ => bs "NaN"
  end.

Lemma plain_float_ok : forall f, float_text (plain_float f).
Proof.
  assert (D : forall n c, In c (dec n) -> 48 <= c <= 57) by (intros n c; apply (proj1 (Forall_forall _ _) (digit_line n))).
  intros [n m e|n|n]; cbn [plain_float]; unfold float_text.
  - split; [|split].
    + destruct n; cbn [app]; [do 2 eexists; split; [reflexivity|auto]|].
      pose proof (dec_nonempty m) as Z. pose proof (D m) as DM. destruct (dec m) as [|c r]; [contradiction|].
      exists c. eexists. split; [reflexivity|]. left. apply DM. left. reflexivity.
    + intros c H. apply in_app_or in H as [H|H]; [right; destruct n; cbn in H; [destruct H as [<-|[]]; cbn; auto|destruct H]|].
      apply in_app_or in H as [H|H]; [left; eapply D; exact H|].
      apply in_app_or in H as [H|H]; [right; cbn in H; destruct H as [<-|[]]; cbn; auto 10|].
      unfold debug_int in H. apply in_app_or in H as [H|H]; [right; destruct (e <? 0)%Z; cbn in H; [destruct H as [<-|[]]; cbn; auto|destruct H]|left; eapply D; exact H].
    + exists 101. split; [|split; [lia|lia]]. apply in_or_app. right. apply in_or_app. right. left. reflexivity.
  - destruct n; (split; [|split]).
    + do 2 eexists; split; [reflexivity|auto].
    + intros c H. right. cbn in H |- *. repeat (destruct H as [<-|H]; [auto 20|]). destruct H.
    + exists 105. split; [cbn; auto|split; lia].
    + do 2 eexists; split; [reflexivity|auto].
    + intros c H. right. cbn in H |- *. repeat (destruct H as [<-|H]; [auto 20|]). destruct H.
    + exists 105. split; [cbn; auto|split; lia].
  - split; [|split].
    + do 2 eexists; split; [reflexivity|auto].
    + intros c H. right. cbn in H |- *. repeat (destruct H as [<-|H]; [auto 20|]). destruct H.
    + exists 97. split; [cbn; auto|split; lia].
Qed.

Lemma ascii_shown_ok : forall c, ascii_shown c = true -> ~ is_control c.
Proof. unfold ascii_shown, is_control. intros c H. lia. Qed.

(** The dump of a small manifest, with a quote, a line break and a character
    that is not shown in its strings *)
Theorem C81_example :
  debug ascii_shown plain_float
    (STable [(bs "name", SString [97; 34; 10; 233]);
             (bs "list", SArray [SInt (-3); SBool true; STable []]);
             (bs "day", SDateTime (LocalDate (mkdate 1979 5 27)))]) =
  bs "{
    ""name"": ""a\""\n\u{e9}"",
    ""list"": [
        -3,
        true,
        {},
    ],
    ""day"": LocalDate(
        Date {
            year: 1979,
            month: 5,
            day: 27,
        },
    ),
}".
Proof. vm_compute. reflexivity. Qed.

(** The quotes are needed: without them a string could pass for an integer. *)
Theorem C81_distinguishes : forall s z, debug ascii_shown plain_float (SString s) <> debug ascii_shown plain_float (SInt z).
Proof.
  intros s z E. assert (E' : ind 0 (debug ascii_shown plain_float (SString s)) ++ [10] = ind 0 (debug ascii_shown plain_float (SInt z)) ++ [10]) by (rewrite E; reflexivity).
  apply (value_reads ascii_shown plain_float plain_float_ok) in E' as [H _]; try apply ends_newline. inversion H.
Qed.
