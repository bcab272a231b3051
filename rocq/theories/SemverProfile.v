(** Debug and release builds agree unless the debug build panics; integer overflow (C05). *)
From Verif Require Import Base BaseProofs CommonModel SemverModel SemverSpec SemverOrder SemverParse
  SemverVersion SemverReq SemverText SemverEval SemverErr.
Ltac Zify.zify_post_hook ::= Z.div_mod_to_equations.

Definition agree {E A} (d r : res E A) : Prop := d = Panic \/ d = r.

Lemma agree_refl {E A} (r : res E A) : agree r r.
Proof. right. reflexivity. Qed.

Lemma agree_bind {E A B} (d r : res E A) (f g : A -> res E B) :
  agree d r -> (forall a, agree (f a) (g a)) -> agree (bind d f) (bind r g).
Proof. intros [->|<-] H; [left; reflexivity|]. destruct d; cbn [bind]; [apply H|right; reflexivity|left; reflexivity]. Qed.

Lemma int_loop_agree {E} r : forall st idx, agree (@int_loop E Debug st idx r) (int_loop Release st idx r).
Proof.
  induction r as [|b r IH]; intros st idx; cbn [int_loop]; [apply agree_refl|].
  destruct (is_digit b); [|apply agree_refl]. apply agree_bind; [|intros a; apply IH].
  unfold int_step. destruct st as [a|]; [|apply agree_refl]. destruct (_ <=? _); [|apply agree_refl].
  destruct (_ <=? _); [apply agree_refl|left; reflexivity].
Qed.

Lemma parse_int_agree c f : agree (parse_int Debug c f) (parse_int Release c f).
Proof.
  unfold parse_int. destruct (peek_byte c) as [b|]; [|apply agree_refl].
  destruct (b =? 48); [apply agree_refl|]. destruct (_ && _); [|apply agree_refl].
  apply agree_bind; [apply int_loop_agree|]. intros [[st i] r]. apply agree_refl.
Qed.

Ltac agree_tac :=
  repeat first
    [ apply agree_refl
    | apply agree_bind; [first [apply parse_int_agree|apply agree_refl]|intros []; try intros []]
    | match goal with |- agree (match ?x with _ => _ end) _ => destruct x end
    | progress cbv zeta ].

Lemma parse_version_agree s p : agree (parse_version Debug s p) (parse_version Release s p).
Proof.
  unfold parse_version.
  apply agree_bind; [apply parse_int_agree|intros [a c1]].
  apply agree_bind; [apply agree_refl|intros c2].
  apply agree_bind; [apply parse_int_agree|intros [b c3]].
  apply agree_bind; [apply agree_refl|intros c4].
  apply agree_bind; [apply parse_int_agree|intros [d c5]].
  apply agree_refl.
Qed.

Lemma comp_version_agree c o : agree (comp_version Debug c o) (comp_version Release c o).
Proof.
  unfold comp_version.
  apply agree_bind; [apply parse_int_agree|intros [a c1]].
  destruct (eat_dot c1) as [[|] c2]; [|apply agree_refl].
  destruct (eat_wildcard c2) as [[w|] c3]; [apply agree_refl|].
  apply agree_bind; [apply parse_int_agree|intros [b c4]].
  destruct (eat_dot c4) as [[|] c5]; [|apply agree_refl].
  destruct (eat_wildcard c5) as [[w|] c6]; [apply agree_refl|].
  apply agree_bind; [apply parse_int_agree|intros [d c7]]. apply agree_refl.
Qed.

Lemma parse_comparator_agree p first b c :
  agree (parse_comparator Debug p first b c) (parse_comparator Release p first b c).
Proof.
  unfold parse_comparator. destruct (eat_wildcard c) as [[w|] c0]; [apply agree_refl|].
  destruct (parse_op b c) as [[o c1]|]; [|apply agree_refl].
  apply agree_bind; [apply comp_version_agree|intros [[v o1] c3]]. apply agree_refl.
Qed.

Lemma req_loop_agree p fuel : forall comps lc c,
  req_loop fuel Debug p comps lc c = Some Panic \/
  req_loop fuel Debug p comps lc c = req_loop fuel Release p comps lc c.
Proof.
  induction fuel as [|fuel IH]; intros comps lc c; cbn [req_loop]; [right; reflexivity|].
  destruct (peek_byte (eat_whitespace c)) as [b|]; [|right; reflexivity].
  destruct (_ <=? _); [right; reflexivity|].
  destruct (parse_comparator_agree p (match comps with [] => true | _ => false end) b (eat_whitespace c)) as [->| ->].
  - left; reflexivity.
  - destruct (parse_comparator Release _ _ _ _) as [[cmp c2]|e|]; [apply IH|right; reflexivity|left; reflexivity].
Qed.

Lemma parse_requirement_agree s p : agree (parse_requirement Debug s p) (parse_requirement Release s p).
Proof.
  unfold parse_requirement, parse_requirement_fuel.
  destruct (req_loop_agree p (S (length s)) [] None (ci_new p s)) as [->| ->]; [left; reflexivity|right; reflexivity].
Qed.

(** Without the overflowing numbers both profiles give the same result. *)
Lemma version_profile_irrelevant prof s p : valid_utf8 s -> ~ contains_overflow s ->
  parse_version prof s p = parse_version Debug s p.
Proof.
  intros V N. destruct prof; [reflexivity|].
  destruct (parse_version_agree s p) as [H|H]; [|auto].
  exfalso. pose proof (parse_version_good Debug p s V) as G. rewrite H in G. destruct G as (_ & G). auto.
Qed.
Lemma requirement_profile_irrelevant prof s p : valid_utf8 s -> ~ contains_overflow s ->
  parse_requirement prof s p = parse_requirement Debug s p.
Proof.
  intros V N. destruct prof; [reflexivity|].
  destruct (parse_requirement_agree s p) as [H|H]; [|auto].
  exfalso. destruct (parse_requirement_good Debug p s V) as (_ & G). rewrite H in G. destruct G as (_ & G). auto.
Qed.

(** ** Overflowing fields *)

(** The text before the k-th numeric field of a version. *)
Lemma overflow_version prof s p f n r k :
  version_prefix f k s -> u32_max < n -> ~ overflow_bug n -> no_digit r ->
  parse_version prof (s ++ dec n ++ r) p = Err (IntOverflow f (pos_plus p (blen s)) (blen (dec n))).
Proof.
  intros PF L B N. unfold parse_version, ci_new.
  inversion PF as [j|j a U|j a b U1 U2]; subst.
  - rewrite eat_whitespace_spaces by apply not_space_dec.
    rewrite parse_int_overflow by assumption. cbn [bind]. rewrite blen_spaces. reflexivity.
  - rewrite <- !app_assoc. rewrite eat_whitespace_spaces by apply not_space_dec.
    rewrite parse_int_dec by (exact U || reflexivity). cbn [bind bs app].
    rewrite expect_dot_yes. cbn [bind].
    rewrite parse_int_overflow by assumption. cbn [bind].
    rewrite !blen_app, blen_spaces. cbn [bs]. rewrite blen_cons, blen_nil.
    unfold pos_plus. do 2 f_equal. f_equal. lia.
  - rewrite <- !app_assoc. rewrite eat_whitespace_spaces by apply not_space_dec.
    rewrite parse_int_dec by (exact U1 || reflexivity). cbn [bind bs app].
    rewrite expect_dot_yes. cbn [bind].
    rewrite parse_int_dec by (exact U2 || reflexivity). cbn [bind bs app].
    rewrite expect_dot_yes. cbn [bind].
    rewrite parse_int_overflow by assumption. cbn [bind].
    rewrite !blen_app, blen_spaces. cbn [bs]. rewrite !blen_cons, blen_app, !blen_cons, !blen_nil.
    unfold pos_plus. do 2 f_equal. f_equal. lia.
Qed.

Lemma overflow_version_panics s p f n r k :
  version_prefix f k s -> overflow_bug n -> no_digit r -> parse_version Debug (s ++ dec n ++ r) p = Panic.
Proof.
  intros PF B N. unfold parse_version, ci_new.
  inversion PF as [j|j a U|j a b U1 U2]; subst.
  - rewrite eat_whitespace_spaces by apply not_space_dec.
    rewrite parse_int_overflow_bug by assumption. reflexivity.
  - rewrite <- !app_assoc. rewrite eat_whitespace_spaces by apply not_space_dec.
    rewrite parse_int_dec by (exact U || reflexivity). cbn [bind bs app].
    rewrite expect_dot_yes. cbn [bind].
    rewrite parse_int_overflow_bug by assumption. reflexivity.
  - rewrite <- !app_assoc. rewrite eat_whitespace_spaces by apply not_space_dec.
    rewrite parse_int_dec by (exact U1 || reflexivity). cbn [bind bs app].
    rewrite expect_dot_yes. cbn [bind].
    rewrite parse_int_dec by (exact U2 || reflexivity). cbn [bind bs app].
    rewrite expect_dot_yes. cbn [bind].
    rewrite parse_int_overflow_bug by assumption. reflexivity.
Qed.
