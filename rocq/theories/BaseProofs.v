(** Lemmas about the vocabulary of Base.v. *)
From Verif Require Import Base.
Ltac Zify.zify_post_hook ::= Z.div_mod_to_equations.
Arguments N.add : simpl never.
Arguments N.mul : simpl never.
Arguments N.sub : simpl never.
Arguments N.div : simpl never.
Arguments N.modulo : simpl never.
Arguments N.leb : simpl never.
Arguments N.ltb : simpl never.
Arguments N.eqb : simpl never.
Arguments N.compare : simpl never.
Arguments N.of_nat : simpl never.
Arguments N.to_nat : simpl never.

(** ** Lists *)

Lemma app_inv_len {A} (a b c d : list A) :
  a ++ b = c ++ d -> length a = length c -> a = c /\ b = d.
Proof.
  revert c; induction a as [|x a IH]; intros [|y c]; cbn [length app]; intros H L; try discriminate.
  - auto.
  - injection H as -> H. injection L as L. destruct (IH _ H L) as [-> ->]. auto.
Qed.

Lemma blen_app a b : blen (a ++ b) = blen a + blen b.
Proof. unfold blen. rewrite app_length. lia. Qed.
Lemma blen_cons x a : blen (x :: a) = 1 + blen a.
Proof. unfold blen. cbn [length]. lia. Qed.
Lemma blen_nil : blen [] = 0.
Proof. reflexivity. Qed.
Lemma blen_spaces n : blen (spaces n) = N.of_nat n.
Proof. unfold blen, spaces. rewrite repeat_length. reflexivity. Qed.

(** ** Byte strings *)

Lemma bytes_eqb_eq a b : bytes_eqb a b = true <-> a = b.
Proof.
  revert b; induction a as [|x a IH]; intros [|y b]; cbn [bytes_eqb]; split; intros H;
    try discriminate; try reflexivity.
  - apply andb_true_iff in H as [H1 H2]. apply N.eqb_eq in H1. apply IH in H2. congruence.
  - injection H as -> ->. rewrite N.eqb_refl. cbn [andb]. apply IH. reflexivity.
Qed.

Lemma bytes_cmp_eq a b : bytes_cmp a b = Eq <-> a = b.
Proof.
  revert b; induction a as [|x a IH]; intros [|y b]; cbn [bytes_cmp]; split; intros H;
    try discriminate; try reflexivity.
  - destruct (x ?= y) eqn:E; try discriminate. apply N.compare_eq in E. apply IH in H. congruence.
  - injection H as -> ->. rewrite N.compare_refl. apply IH. reflexivity.
Qed.

Lemma bytes_cmp_antisym a b : bytes_cmp b a = CompOpp (bytes_cmp a b).
Proof.
  revert b; induction a as [|x a IH]; intros [|y b]; cbn [bytes_cmp]; try reflexivity.
  rewrite (N.compare_antisym x y). destruct (x ?= y); cbn [CompOpp]; auto.
Qed.

Lemma bytes_cmp_trans a b c : bytes_cmp a b = Lt -> bytes_cmp b c = Lt -> bytes_cmp a c = Lt.
Proof.
  revert b c; induction a as [|x a IH]; intros [|y b] [|z c]; cbn [bytes_cmp]; intros H1 H2;
    try discriminate; try reflexivity.
  destruct (N.compare_spec x y) as [E1|E1|E1]; try discriminate;
    destruct (N.compare_spec y z) as [E2|E2|E2]; try discriminate.
  - subst. rewrite N.compare_refl. eauto.
  - subst. apply N.compare_lt_iff in E2. rewrite E2. reflexivity.
  - subst. apply N.compare_lt_iff in E1. rewrite E1. reflexivity.
  - assert (E : x < z) by lia. apply N.compare_lt_iff in E. rewrite E. reflexivity.
Qed.

(** ** Decimal text *)

Lemma log2_div10 n : 10 <= n -> N.log2 (n / 10) < N.log2 n.
Proof.
  intros H.
  assert (H0 : 0 < n / 10) by lia.
  destruct (N.log2_spec (n / 10) H0) as [A _].
  assert (B : 2 ^ (N.log2 (n / 10) + 1) <= n).
  { rewrite N.pow_add_r, N.pow_1_r. lia. }
  apply N.log2_le_pow2 in B; lia.
Qed.

Lemma dec_aux_app f n acc : (N.to_nat (N.log2 n) < f)%nat -> dec_aux f n acc = dec_aux f n [] ++ acc.
Proof.
  revert n acc; induction f as [|f IH]; intros n acc H; [lia|].
  cbn [dec_aux]. destruct (n / 10 =? 0) eqn:E; [reflexivity|].
  assert (L : (N.to_nat (N.log2 (n / 10)) < f)%nat) by (pose proof (log2_div10 n); lia).
  rewrite (IH (n / 10) (_ :: acc) L), (IH (n / 10) [_] L), <- app_assoc. reflexivity.
Qed.

Lemma dec_aux_fuel f g n : (N.to_nat (N.log2 n) < f)%nat -> (N.to_nat (N.log2 n) < g)%nat ->
  dec_aux f n [] = dec_aux g n [].
Proof.
  revert g n; induction f as [|f IH]; intros [|g] n H G; try lia.
  cbn [dec_aux]. destruct (n / 10 =? 0) eqn:E; [reflexivity|].
  pose proof (log2_div10 n).
  rewrite (dec_aux_app f), (dec_aux_app g) by lia. f_equal. apply IH; lia.
Qed.

Lemma dec_small n : n < 10 -> dec n = [48 + n].
Proof.
  intros H. unfold dec. cbn [dec_aux]. replace (n / 10 =? 0) with true by lia.
  repeat f_equal. lia.
Qed.

Lemma dec_big n : 10 <= n -> dec n = dec (n / 10) ++ [48 + n mod 10].
Proof.
  intros H. unfold dec at 1. cbn [dec_aux]. replace (n / 10 =? 0) with false by lia.
  pose proof (log2_div10 n H).
  rewrite dec_aux_app by lia. f_equal. apply dec_aux_fuel; lia.
Qed.

Lemma dec_ind (P : N -> Prop) :
  (forall n, n < 10 -> P n) -> (forall n, 10 <= n -> P (n / 10) -> P n) -> forall n, P n.
Proof.
  intros H1 H2 n. induction n as [n IH] using (well_founded_induction N.lt_wf_0).
  destruct (N.lt_ge_cases n 10) as [L|L]; [auto|]. apply H2; [assumption|]. apply IH. lia.
Qed.

Definition digits (ds : bytes) : Prop := Forall (fun b => is_digit b = true) ds.

Lemma dec_digits n : digits (dec n).
Proof.
  induction n as [n L|n L IH] using dec_ind.
  - rewrite dec_small by assumption. repeat constructor. unfold is_digit. lia.
  - rewrite dec_big by assumption. apply Forall_app. split; [assumption|].
    repeat constructor. unfold is_digit. lia.
Qed.

Lemma dec_nonempty n : dec n <> [].
Proof.
  destruct (N.lt_ge_cases n 10) as [L|L].
  - rewrite dec_small by assumption. discriminate.
  - rewrite dec_big by assumption. intros H. apply app_eq_nil in H as [_ H]. discriminate.
Qed.

Lemma val_acc_app a x y : val_acc a (x ++ y) = val_acc (val_acc a x) y.
Proof. unfold val_acc. apply fold_left_app. Qed.

Lemma dec_val_dec n : dec_val (dec n) = n.
Proof.
  induction n as [n L|n L IH] using dec_ind.
  - rewrite dec_small by assumption. unfold dec_val, val_acc, digit_val. cbn [fold_left]. lia.
  - rewrite dec_big by assumption. unfold dec_val in *. rewrite val_acc_app, IH.
    unfold val_acc, digit_val. cbn [fold_left]. lia.
Qed.

Lemma dec_inj a b : dec a = dec b -> a = b.
Proof. intros H. rewrite <- (dec_val_dec a), <- (dec_val_dec b), H. reflexivity. Qed.

(** Canonical digit strings: "0" or a digit string not starting with '0'. *)
Definition canonical (ds : bytes) : Prop :=
  digits ds /\ (ds = [48] \/ exists d r, ds = d :: r /\ d <> 48).

Lemma val_acc_ge a ds : a <= val_acc a ds.
Proof.
  revert a; induction ds as [|d ds IH]; intros a; unfold val_acc; cbn [fold_left]; [lia|].
  fold (val_acc (10 * a + digit_val d) ds). specialize (IH (10 * a + digit_val d)). lia.
Qed.

Lemma dec_head n : 0 < n -> exists d r, dec n = d :: r /\ 49 <= d <= 57.
Proof.
  induction n as [n L|n L IH] using dec_ind; intros H.
  - rewrite dec_small by assumption. exists (48 + n), []. split; [reflexivity|lia].
  - destruct IH as (d & r & E & B); [lia|].
    rewrite dec_big by assumption. rewrite E. cbn [app]. eauto.
Qed.

Lemma dec_canonical n : canonical (dec n).
Proof.
  split; [apply dec_digits|].
  destruct (N.eq_dec n 0) as [->|H]; [left; reflexivity|right].
  destruct (dec_head n) as (d & r & E & B); [lia|]. exists d, r. split; [assumption|lia].
Qed.

(** [dec_aux]-style uniqueness: appending digits to a canonical positive number. *)
Lemma dec_snoc n d : 0 < n -> is_digit d = true -> dec (10 * n + digit_val d) = dec n ++ [d].
Proof.
  unfold is_digit, digit_val. intros H D. rewrite dec_big by lia.
  replace ((10 * n + (d - 48)) / 10) with n by lia.
  replace (48 + (10 * n + (d - 48)) mod 10) with d by lia. reflexivity.
Qed.

Lemma dec_val_acc n ds : 0 < n -> digits ds -> dec (val_acc n ds) = dec n ++ ds.
Proof.
  revert n; induction ds as [|d ds IH]; intros n H D.
  - rewrite app_nil_r. reflexivity.
  - inversion D as [|? ? D1 D2]; subst. unfold val_acc. cbn [fold_left].
    fold (val_acc (10 * n + digit_val d) ds).
    rewrite IH by (assumption || lia). rewrite dec_snoc by assumption.
    rewrite <- app_assoc. reflexivity.
Qed.

Lemma canonical_dec ds : canonical ds -> ds = dec (dec_val ds).
Proof.
  intros [D [->|(d & r & -> & NZ)]]; [reflexivity|].
  inversion D as [|? ? D1 D2]; subst.
  unfold dec_val, val_acc. cbn [fold_left]. fold (val_acc (10 * 0 + digit_val d) r).
  unfold is_digit in D1.
  rewrite dec_val_acc; [|unfold digit_val; lia|assumption].
  rewrite dec_small by (unfold digit_val; lia).
  cbn [app]. f_equal. unfold digit_val. lia.
Qed.

(** ** UTF-8 *)

Lemma utf8_char_len c : blen (utf8_char c) = len_utf8 c.
Proof.
  unfold utf8_char, len_utf8.
  destruct (c <? 128); [reflexivity|]. destruct (c <? 2048); [reflexivity|].
  destruct (c <? 65536); reflexivity.
Qed.

Lemma utf8_first_char c r : is_scalar c = true -> utf8_first (utf8_char c ++ r) = Some c.
Proof.
  unfold is_scalar, utf8_char. intros H.
  destruct (c <? 128) eqn:E1; [|destruct (c <? 2048) eqn:E2; [|destruct (c <? 65536) eqn:E3]];
    cbn [app utf8_first].
  - rewrite E1. reflexivity.
  - replace (192 + c / 64 <? 128) with false by lia.
    replace (192 + c / 64 <? 192) with false by lia.
    replace (192 + c / 64 <? 224) with true by lia. f_equal. lia.
  - replace (224 + c / 4096 <? 128) with false by lia.
    replace (224 + c / 4096 <? 192) with false by lia.
    replace (224 + c / 4096 <? 224) with false by lia.
    replace (224 + c / 4096 <? 240) with true by lia. f_equal. lia.
  - replace (240 + c / 262144 <? 128) with false by lia.
    replace (240 + c / 262144 <? 192) with false by lia.
    replace (240 + c / 262144 <? 224) with false by lia.
    replace (240 + c / 262144 <? 240) with false by lia. f_equal. lia.
Qed.

Lemma valid_utf8_ascii b r : valid_utf8 (b :: r) -> b < 128 -> valid_utf8 r.
Proof.
  intros ([|c cs] & F & E) H; [discriminate|].
  inversion F as [|? ? F1 F2]; subst. exists cs. split; [assumption|].
  cbn [utf8 flat_map] in E. unfold utf8_char in E.
  destruct (c <? 128); [|destruct (c <? 2048); [|destruct (c <? 65536)]];
    cbn [app] in E; injection E; intros; try (exfalso; lia); assumption.
Qed.

(** A non-empty valid string has a first character, and it fits. *)
Lemma valid_utf8_first b r : valid_utf8 (b :: r) ->
  exists c, utf8_first (b :: r) = Some c /\ len_utf8 c <= blen (b :: r).
Proof.
  intros ([|c cs] & F & E); [discriminate|].
  inversion F as [|? ? F1 F2]; subst. exists c. rewrite E. cbn [utf8 flat_map].
  split; [apply utf8_first_char; assumption|].
  rewrite blen_app, utf8_char_len. lia.
Qed.

(** ASCII text is valid UTF-8. *)
Lemma ascii_valid s : Forall (fun b => b < 128) s -> valid_utf8 s.
Proof.
  intros F. exists s. split.
  - eapply Forall_impl; [|exact F]. cbv beta. intros a H. unfold is_scalar. lia.
  - induction F as [|b s Hb F IH]; [reflexivity|].
    cbn [utf8 flat_map]. unfold utf8_char. replace (b <? 128) with true by lia.
    cbn [app]. f_equal. exact IH.
Qed.

(** ** Splitting and joining *)

Lemma join_cons sep p q r : join sep (p :: q :: r) = p ++ sep :: join sep (q :: r).
Proof. reflexivity. Qed.

Lemma split_on_nonempty sep s : split_on sep s <> [].
Proof.
  induction s as [|b s IH]; cbn [split_on]; [discriminate|].
  destruct (b =? sep); [discriminate|]. destruct (split_on sep s); discriminate.
Qed.

Lemma join_split sep s : join sep (split_on sep s) = s.
Proof.
  induction s as [|b s IH]; cbn [split_on]; [reflexivity|].
  destruct (b =? sep) eqn:E.
  - apply N.eqb_eq in E. subst. destruct (split_on sep s) as [|p ps] eqn:S.
    + exfalso. eapply split_on_nonempty; eauto.
    + rewrite join_cons, IH. reflexivity.
  - destruct (split_on sep s) as [|p ps] eqn:S.
    + exfalso. eapply split_on_nonempty; eauto.
    + destruct ps; cbn [join app] in *; congruence.
Qed.

Lemma split_on_inj sep a b : split_on sep a = split_on sep b -> a = b.
Proof. intros H. rewrite <- (join_split sep a), <- (join_split sep b), H. reflexivity. Qed.

Lemma split_app sep p s : Forall (fun b => b <> sep) p ->
  split_on sep (p ++ s) =
    match split_on sep s with [] => [p] | q :: qs => (p ++ q) :: qs end.
Proof.
  induction p as [|b p IH]; intros F; cbn [app].
  - destruct (split_on sep s) eqn:E; [|reflexivity]. exfalso. eapply split_on_nonempty; eauto.
  - inversion F as [|? ? F1 F2]; subst. cbn [split_on].
    replace (b =? sep) with false by lia. rewrite IH by assumption.
    destruct (split_on sep s); reflexivity.
Qed.

Lemma split_sep sep s : split_on sep (sep :: s) = [] :: split_on sep s.
Proof. cbn [split_on]. rewrite N.eqb_refl. reflexivity. Qed.

Lemma split_join sep ps : ps <> [] -> Forall (Forall (fun b => b <> sep)) ps ->
  split_on sep (join sep ps) = ps.
Proof.
  induction ps as [|p ps IH]; intros NE F; [congruence|].
  inversion F as [|? ? F1 F2]; subst. destruct ps as [|q ps].
  - cbn [join]. rewrite <- (app_nil_r p) at 1. rewrite split_app by assumption.
    cbn [split_on]. rewrite app_nil_r. reflexivity.
  - rewrite join_cons, split_app by assumption. rewrite split_sep.
    rewrite IH by (discriminate || assumption). rewrite app_nil_r. reflexivity.
Qed.
