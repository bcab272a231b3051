(** Order laws for pre-releases, build metadata and versions. *)
From Verif Require Import Base BaseProofs CommonModel SemverModel SemverSpec.
Ltac Zify.zify_post_hook ::= Z.div_mod_to_equations.

(** A comparison function that is a strict total order agreeing with equality. *)
Definition good_cmp {A} (cmp : A -> A -> comparison) : Prop :=
  (forall a b, cmp a b = Eq <-> a = b) /\
  (forall a b, cmp b a = CompOpp (cmp a b)) /\
  (forall a b c, cmp a b = Lt -> cmp b c = Lt -> cmp a c = Lt).

Lemma good_N : good_cmp N.compare.
Proof.
  repeat split.
  - apply N.compare_eq.
  - intros ->. apply N.compare_refl.
  - apply N.compare_antisym.
  - intros a b c H1 H2. rewrite N.compare_lt_iff in *. lia.
Qed.

Lemma good_bytes : good_cmp bytes_cmp.
Proof.
  split; [|split].
  - apply bytes_cmp_eq.
  - apply bytes_cmp_antisym.
  - apply bytes_cmp_trans.
Qed.

Lemma good_refl {A} (cmp : A -> A -> comparison) a : good_cmp cmp -> cmp a a = Eq.
Proof. intros (H & _). apply H. reflexivity. Qed.

(** Pull back along an injective key. *)
Lemma good_key {A B} (f : A -> B) (cmp : B -> B -> comparison) :
  (forall a b, f a = f b -> a = b) -> good_cmp cmp -> good_cmp (fun a b => cmp (f a) (f b)).
Proof.
  intros I (H1 & H2 & H3). split; [|split].
  - intros a b. rewrite H1. split; [apply I|congruence].
  - intros a b. apply H2.
  - intros a b c. apply H3.
Qed.

(** Lexicographic combination on pairs. *)
Definition pair_cmp {A B} (c1 : A -> A -> comparison) (c2 : B -> B -> comparison) (x y : A * B) :=
  then_cmp (c1 (fst x) (fst y)) (c2 (snd x) (snd y)).

Lemma good_pair {A B} (c1 : A -> A -> comparison) (c2 : B -> B -> comparison) :
  good_cmp c1 -> good_cmp c2 -> good_cmp (pair_cmp c1 c2).
Proof.
  intros (E1 & S1 & T1) (E2 & S2 & T2). unfold pair_cmp. split; [|split].
  - intros [a b] [c d]; cbn [fst snd]. destruct (c1 a c) eqn:H; cbn [then_cmp].
    + apply E1 in H. rewrite E2. split; [congruence|]. intros X; injection X; auto.
    + split; [discriminate|]. intros X; injection X as -> ->.
      assert (c1 c c = Eq) by (apply E1; reflexivity). congruence.
    + split; [discriminate|]. intros X; injection X as -> ->.
      assert (c1 c c = Eq) by (apply E1; reflexivity). congruence.
  - intros [a b] [c d]; cbn [fst snd]. rewrite (S1 a c), (S2 b d).
    destruct (c1 a c); reflexivity.
  - intros [a b] [c d] [e f]; cbn [fst snd]. intros H1 H2.
    destruct (c1 a c) eqn:X; cbn [then_cmp] in H1; try discriminate;
      destruct (c1 c e) eqn:Y; cbn [then_cmp] in H2; try discriminate.
    + apply E1 in X. apply E1 in Y. subst.
      replace (c1 e e) with Eq by (symmetry; apply E1; reflexivity). cbn [then_cmp]. eauto.
    + apply E1 in X. subst. rewrite Y. reflexivity.
    + apply E1 in Y. subst. rewrite X. reflexivity.
    + rewrite (T1 _ _ _ X Y). reflexivity.
Qed.

(** Lexicographic order on lists of segments. *)
Lemma good_segs seg : good_cmp seg -> good_cmp (segs_cmp seg).
Proof.
  intros (E & S & T). split; [|split].
  - induction a as [|x a IH]; intros [|y b]; cbn [segs_cmp]; try (split; congruence).
    destruct (seg x y) eqn:H.
    + apply E in H. rewrite IH. split; congruence.
    + split; [discriminate|]. intros X; injection X as -> ->.
      assert (seg y y = Eq) by (apply E; reflexivity). congruence.
    + split; [discriminate|]. intros X; injection X as -> ->.
      assert (seg y y = Eq) by (apply E; reflexivity). congruence.
  - induction a as [|x a IH]; intros [|y b]; cbn [segs_cmp]; try reflexivity.
    rewrite (S x y). destruct (seg x y); cbn [CompOpp]; auto.
  - induction a as [|x a IH]; intros [|y b] [|z c]; cbn [segs_cmp]; intros H1 H2;
      try discriminate; try reflexivity.
    destruct (seg x y) eqn:X; try discriminate; destruct (seg y z) eqn:Y; try discriminate.
    + apply E in X, Y. subst. replace (seg z z) with Eq by (symmetry; apply E; reflexivity). eauto.
    + apply E in X. subst. rewrite Y. reflexivity.
    + apply E in Y. subst. rewrite X. reflexivity.
    + rewrite (T _ _ _ X Y). reflexivity.
Qed.

(** Two classes, the first below the second. *)
Lemma good_classes {A} (cls : A -> bool) (c1 c2 : A -> A -> comparison) :
  (forall a b, cls a = true -> cls b = true -> c1 a b = Eq <-> a = b) ->
  (forall a b, c1 b a = CompOpp (c1 a b)) ->
  (forall a b c, c1 a b = Lt -> c1 b c = Lt -> c1 a c = Lt) ->
  good_cmp c2 ->
  good_cmp (fun l r => match cls l, cls r with
                       | true, true => c1 l r
                       | true, false => Lt
                       | false, true => Gt
                       | false, false => c2 l r
                       end).
Proof.
  intros E1 S1 T1 (E2 & S2 & T2). split; [|split].
  - intros a b. destruct (cls a) eqn:A1, (cls b) eqn:B1; auto; split; congruence.
  - intros a b. destruct (cls a), (cls b); auto.
  - intros a b c. destruct (cls a), (cls b), (cls c); intros; try discriminate; eauto.
Qed.

Lemma good_pre_seg : good_cmp pre_seg_cmp.
Proof.
  set (k := fun s : bytes => (blen s, s)).
  assert (G : good_cmp (fun a b => pair_cmp N.compare bytes_cmp (k a) (k b))).
  { apply (good_key k).
    - unfold k. intros a b H. injection H; auto.
    - apply good_pair; [apply good_N|apply good_bytes]. }
  destruct G as (E & S & T).
  apply (good_classes (forallb is_digit) (fun l r => then_cmp (blen l ?= blen r) (bytes_cmp l r))).
  - intros a b _ _. apply E.
  - intros a b. apply (S a b).
  - intros a b c. apply (T a b c).
  - apply good_bytes.
Qed.

Lemma trim_zeros_app s : exists n, s = repeat 48 n ++ trim_zeros s.
Proof.
  induction s as [|b s (n & IH)]; [exists O; reflexivity|].
  cbn [trim_zeros].
  destruct (N.eq_dec b 48) as [->|H].
  - exists (Datatypes.S n). cbn [repeat app]. congruence.
  - exists O. cbn [repeat app]. destruct b as [|p]; [reflexivity|].
    repeat (destruct p as [p|p|]; try reflexivity; try congruence).
Qed.

Lemma trim_zeros_inj a b : trim_zeros a = trim_zeros b -> blen a = blen b -> a = b.
Proof.
  destruct (trim_zeros_app a) as (n & A), (trim_zeros_app b) as (m & B). intros H L.
  rewrite A, B, !blen_app, H in L. rewrite A, B, H. unfold blen in L.
  rewrite !repeat_length in L. replace n with m by lia. reflexivity.
Qed.

Lemma good_meta_seg : good_cmp meta_seg_cmp.
Proof.
  set (k := fun s : bytes => ((blen (trim_zeros s), trim_zeros s), blen s)).
  assert (G : good_cmp (fun a b => pair_cmp (pair_cmp N.compare bytes_cmp) N.compare (k a) (k b))).
  { apply (good_key k).
    - unfold k. intros a b H. injection H. intros. apply trim_zeros_inj; assumption.
    - apply good_pair; [apply good_pair; [apply good_N|apply good_bytes]|apply good_N]. }
  destruct G as (E & S & T).
  apply (good_classes (forallb is_digit)
     (fun l r => then_cmp (then_cmp (blen (trim_zeros l) ?= blen (trim_zeros r))
                                    (bytes_cmp (trim_zeros l) (trim_zeros r)))
                          (blen l ?= blen r))).
  - intros a b _ _. apply E.
  - intros a b. apply (S a b).
  - intros a b c. apply (T a b c).
  - apply good_bytes.
Qed.

Lemma good_meta : good_cmp meta_cmp.
Proof.
  unfold meta_cmp. apply (good_key (split_on 46) (segs_cmp meta_seg_cmp)).
  - apply split_on_inj.
  - apply good_segs, good_meta_seg.
Qed.

Lemma good_pre : good_cmp pre_cmp.
Proof.
  assert (G : good_cmp (fun a b => segs_cmp pre_seg_cmp (split_on 46 a) (split_on 46 b))).
  { apply (good_key (split_on 46) (segs_cmp pre_seg_cmp)).
    - apply split_on_inj.
    - apply good_segs, good_pre_seg. }
  destruct G as (E & S & T). unfold pre_cmp. split; [|split].
  - intros [|x a] [|y b]; cbn [is_empty]; try (split; congruence). apply E.
  - intros [|x a] [|y b]; cbn [is_empty]; try reflexivity. apply S.
  - intros [|x a] [|y b] [|z c]; cbn [is_empty]; intros H1 H2; try discriminate; try reflexivity.
    eapply T; eassumption.
Qed.

Lemma good_version : good_cmp version_cmp.
Proof.
  set (k := fun v => (v_major v, (v_minor v, (v_patch v, (v_pre v, v_meta v))))).
  change (good_cmp (fun a b => pair_cmp N.compare (pair_cmp N.compare (pair_cmp N.compare
            (pair_cmp pre_cmp meta_cmp))) (k a) (k b))).
  apply (good_key k).
  - intros [a b c d e] [a' b' c' d' e']. unfold k. cbn. intros H. injection H; intros; subst; reflexivity.
  - repeat apply good_pair; try apply good_N; [apply good_pre|apply good_meta].
Qed.

Lemma version_cmp_lt a b :
  version_cmp a b = Lt <->
  v_major a < v_major b \/
  (v_major a = v_major b /\ (v_minor a < v_minor b \/
  (v_minor a = v_minor b /\ (v_patch a < v_patch b \/
  (v_patch a = v_patch b /\ (pre_cmp (v_pre a) (v_pre b) = Lt \/
  (v_pre a = v_pre b /\ meta_cmp (v_meta a) (v_meta b) = Lt))))))).
Proof.
  unfold version_cmp, then_cmp.
  destruct (N.compare_spec (v_major a) (v_major b)); [|intuition lia|intuition (lia || discriminate)].
  destruct (N.compare_spec (v_minor a) (v_minor b)); [|intuition lia|intuition (lia || discriminate)].
  destruct (N.compare_spec (v_patch a) (v_patch b)); [|intuition lia|intuition (lia || discriminate)].
  destruct good_pre as (E & _). specialize (E (v_pre a) (v_pre b)).
  destruct (pre_cmp (v_pre a) (v_pre b)) eqn:P.
  - destruct E as [E _]. specialize (E eq_refl). intuition (lia || congruence).
  - intuition lia.
  - assert (v_pre a <> v_pre b) by (intros X; apply E in X; discriminate).
    intuition (lia || congruence).
Qed.

Lemma good_total {A} (cmp : A -> A -> comparison) : good_cmp cmp -> total_order cmp.
Proof.
  intros (E & S & T). split; [|split; [|split]]; auto.
  - intros a b. rewrite (S a b). destruct (cmp a b); cbn [CompOpp]; split; congruence.
  - intros a b c H1 H2.
    destruct (cmp a b) eqn:X; try congruence; destruct (cmp b c) eqn:Y; try congruence.
    + apply E in X, Y. subst. replace (cmp c c) with Eq by (symmetry; apply E; reflexivity). congruence.
    + apply E in X. subst. rewrite Y. congruence.
    + apply E in Y. subst. rewrite X. congruence.
    + rewrite (T _ _ _ X Y). congruence.
Qed.

(** ** Precedence *)

Lemma lex_lt_bytes a b : bytes_cmp a b = Lt <-> lex_lt N.lt a b.
Proof.
  revert b; induction a as [|x a IH]; intros [|y b]; cbn [bytes_cmp].
  - split; [discriminate|inversion 1].
  - split; [constructor|reflexivity].
  - split; [discriminate|inversion 1].
  - destruct (N.compare_spec x y) as [->|H|H].
    + rewrite IH. split; [constructor; assumption|]. intros L; inversion L; subst; [lia|assumption].
    + split; [constructor; assumption|reflexivity].
    + split; [discriminate|]. intros L; inversion L; subst; lia.
Qed.

(** Same-length digit strings: lexicographic order is numeric order. *)
Lemma digits_cmp_val a b x y : length a = length b -> digits a -> digits b ->
  (x < y -> val_acc x a < val_acc y b) /\
  (x = y -> bytes_cmp a b = (val_acc x a ?= val_acc y b)).
Proof.
  revert b x y; induction a as [|d a IH]; intros [|e b] x y L A B; cbn [length] in L; try discriminate.
  - cbn [val_acc fold_left bytes_cmp]. split; [auto|]. intros ->. symmetry. apply N.compare_refl.
  - inversion A as [|? ? A1 A2]; inversion B as [|? ? B1 B2]; subst. injection L as L.
    unfold val_acc; cbn [fold_left bytes_cmp].
    fold (val_acc (10 * x + digit_val d) a). fold (val_acc (10 * y + digit_val e) b).
    unfold is_digit in A1, B1. split.
    + intros H. apply (IH b); auto. unfold digit_val. lia.
    + intros <-. destruct (N.compare_spec d e) as [->|H|H].
      * apply IH; auto.
      * symmetry. apply N.compare_lt_iff. apply (IH b); auto. unfold digit_val. lia.
      * symmetry. apply N.compare_gt_iff.
        destruct (IH b (10 * x + digit_val d) (10 * x + digit_val e)) as [_ _]; auto.
        destruct (N.lt_ge_cases (val_acc (10 * x + digit_val e) b) (val_acc (10 * x + digit_val d) a))
          as [G|G]; [exact G|exfalso].
        clear IH.
        assert (forall p q u w, length p = length q -> digits p -> digits q -> u < w ->
                  val_acc u p < val_acc w q) as K.
        { clear. induction p as [|c p IHp]; intros [|f q] u w L P Q H; cbn [length] in L; try discriminate.
          - exact H.
          - inversion P as [|? ? P1 P2]; inversion Q as [|? ? Q1 Q2]; subst. injection L as L.
            unfold val_acc; cbn [fold_left]. apply IHp; auto.
            unfold is_digit, digit_val in *. lia. }
        specialize (K b a (10 * x + digit_val e) (10 * x + digit_val d) (eq_sym L) B2 A2).
        unfold digit_val in *. lia.
Qed.

Lemma dec_len_mono a b : a <= b -> blen (dec a) <= blen (dec b).
Proof.
  revert b; induction a as [a L|a L IH] using dec_ind; intros b H.
  - rewrite (dec_small a) by assumption. pose proof (dec_nonempty b).
    destruct (dec b); [congruence|]. rewrite !blen_cons, blen_nil. lia.
  - rewrite (dec_big a), (dec_big b) by lia. rewrite !blen_app, !blen_cons.
    specialize (IH (b / 10)). lia.
Qed.

(** On canonical numbers the code's comparison is the numeric one. *)
Lemma pre_seg_num m n : pre_seg_cmp (dec m) (dec n) = (m ?= n).
Proof.
  unfold pre_seg_cmp.
  assert (D : forall k, forallb is_digit (dec k) = true).
  { intros k. apply forallb_forall. pose proof (dec_digits k) as F.
    unfold digits in F. rewrite Forall_forall in F. exact F. }
  rewrite !D. destruct (N.compare_spec (blen (dec m)) (blen (dec n))) as [E|E|E]; cbn [then_cmp].
  - destruct (digits_cmp_val (dec m) (dec n) 0 0) as [_ H].
    + unfold blen in E. lia.
    + apply dec_digits.
    + apply dec_digits.
    + rewrite H by reflexivity. fold (dec_val (dec m)) (dec_val (dec n)).
      rewrite !dec_val_dec. reflexivity.
  - symmetry. apply N.compare_lt_iff. pose proof (dec_len_mono n m). lia.
  - symmetry. apply N.compare_gt_iff. pose proof (dec_len_mono m n). lia.
Qed.

Lemma word_not_digits w : is_word w -> forallb is_digit w = false.
Proof.
  intros (_ & b & I & H). apply not_true_iff_false. intros F.
  rewrite forallb_forall in F. specialize (F b I). unfold is_digit in F. lia.
Qed.

Lemma dec_all_digits n : forallb is_digit (dec n) = true.
Proof.
  apply forallb_forall. pose proof (dec_digits n) as F.
  unfold digits in F. rewrite Forall_forall in F. exact F.
Qed.

Lemma pre_seg_ident i j : ident_wf i -> ident_wf j ->
  (pre_seg_cmp (ident_text i) (ident_text j) = Lt <-> ident_lt i j).
Proof.
  destruct i as [m|v], j as [n|w]; cbn [ident_wf ident_text ident_lt]; intros Hi Hj.
  - rewrite pre_seg_num. apply N.compare_lt_iff.
  - unfold pre_seg_cmp. rewrite dec_all_digits, word_not_digits by assumption. tauto.
  - unfold pre_seg_cmp. rewrite dec_all_digits, word_not_digits by assumption. split; [discriminate|tauto].
  - unfold pre_seg_cmp. rewrite !word_not_digits by assumption. apply lex_lt_bytes.
Qed.

Lemma ident_text_inj i j : ident_wf i -> ident_wf j -> ident_text i = ident_text j -> i = j.
Proof.
  destruct i as [m|v], j as [n|w]; cbn [ident_wf ident_text]; intros Hi Hj H.
  - apply dec_inj in H. congruence.
  - subst. apply word_not_digits in Hj. rewrite dec_all_digits in Hj. discriminate.
  - subst. apply word_not_digits in Hi. rewrite dec_all_digits in Hi. discriminate.
  - congruence.
Qed.

Lemma ident_no_dot i : ident_wf i -> Forall (fun b => b <> 46) (ident_text i).
Proof.
  destruct i as [m|v]; cbn [ident_wf ident_text].
  - intros _. eapply Forall_impl; [|apply dec_digits]. cbv beta. unfold is_digit. lia.
  - intros (F & _). eapply Forall_impl; [|exact F]. cbv beta. unfold ident_char. lia.
Qed.

Lemma ident_text_nonempty i : ident_wf i -> ident_text i <> [].
Proof.
  destruct i as [m|v]; cbn [ident_wf ident_text]; intros H.
  - apply dec_nonempty.
  - destruct H as (_ & b & I & _). intros ->. destruct I.
Qed.

Lemma pre_text_split ids : ids <> [] -> Forall ident_wf ids ->
  split_on 46 (pre_text ids) = map ident_text ids.
Proof.
  intros NE F. unfold pre_text. apply split_join.
  - destruct ids; [congruence|discriminate].
  - apply Forall_map. eapply Forall_impl; [|exact F]. apply ident_no_dot.
Qed.

Lemma pre_text_nonempty ids : ids <> [] -> Forall ident_wf ids -> pre_text ids <> [].
Proof.
  intros NE F H. pose proof (pre_text_split ids NE F) as S. rewrite H in S. cbn [split_on] in S.
  destruct ids as [|i ids]; [congruence|]. cbn [map] in S. injection S as S _.
  inversion F; subst. eapply ident_text_nonempty; eauto.
Qed.

Lemma segs_lex x y : Forall ident_wf x -> Forall ident_wf y ->
  (segs_cmp pre_seg_cmp (map ident_text x) (map ident_text y) = Lt <-> lex_lt ident_lt x y).
Proof.
  revert y; induction x as [|i x IH]; intros [|j y] Fx Fy; cbn [map segs_cmp].
  - split; [discriminate|inversion 1].
  - split; [constructor|reflexivity].
  - split; [discriminate|inversion 1].
  - inversion Fx; inversion Fy; subst.
    pose proof (pre_seg_ident i j) as H. destruct good_pre_seg as (E & _ & _).
    destruct (pre_seg_cmp (ident_text i) (ident_text j)) eqn:C.
    + apply E in C. apply ident_text_inj in C; auto. subst j. rewrite IH by assumption. split.
      * constructor; assumption.
      * intros L; inversion L; subst; [|assumption].
        assert (Eq = Lt) by (apply H; assumption). discriminate.
    + split; [|reflexivity]. intros _. constructor. apply H; auto.
    + split; [discriminate|]. intros L; inversion L; subst.
      * assert (Gt = Lt) by (apply H; assumption). discriminate.
      * assert (pre_seg_cmp (ident_text j) (ident_text j) = Eq) by (apply E; reflexivity). congruence.
Qed.

(** C02 *)
Lemma pre_cmp_precedence x y : Forall ident_wf x -> Forall ident_wf y ->
  (pre_cmp (pre_text x) (pre_text y) = Lt <-> prec_lt x y) /\
  (pre_cmp (pre_text x) (pre_text y) = Eq <-> x = y).
Proof.
  intros Fx Fy.
  assert (NE : forall ids, Forall ident_wf ids -> is_empty (pre_text ids) = match ids with [] => true | _ => false end).
  { intros ids F. destruct ids as [|i ids]; [reflexivity|].
    pose proof (pre_text_nonempty (i :: ids)). destruct (pre_text (i :: ids)); [|reflexivity].
    exfalso. apply H; auto. discriminate. }
  unfold pre_cmp, prec_lt. rewrite !NE by assumption.
  destruct x as [|i x], y as [|j y].
  - split; split; try congruence; intros (H & _); congruence.
  - split; split; try congruence; intros (H & _); congruence.
  - split; split; try congruence. intros _. split; [discriminate|left; reflexivity].
  - rewrite !pre_text_split by (discriminate || assumption). split.
    + rewrite segs_lex by assumption. split.
      * intros H. split; [discriminate|right; assumption].
      * intros (_ & [H|H]); [discriminate|assumption].
    + destruct (good_segs _ good_pre_seg) as (E & _). rewrite E. split; [|congruence].
      revert Fx Fy. generalize (i :: x) (j :: y). clear.
      induction l as [|a l IH]; intros [|b m] Fl Fm H; cbn [map] in H; try discriminate; [reflexivity|].
      inversion Fl as [|? ? Fl1 Fl2]; inversion Fm as [|? ? Fm1 Fm2]; subst.
      injection H as G1 G2. f_equal; auto using ident_text_inj.
Qed.

(** ** Build metadata *)

Lemma trim_zeros_head s : (exists b r, trim_zeros s = b :: r /\ b <> 48) \/ trim_zeros s = [].
Proof.
  induction s as [|b s IH]; [right; reflexivity|].
  cbn [trim_zeros]. destruct (N.eq_dec b 48) as [->|H]; [exact IH|].
  left. exists b, s. split; [|assumption]. destruct b as [|p]; [reflexivity|].
  repeat (destruct p as [p|p|]; try reflexivity; try congruence).
Qed.

Lemma dec_val_zeros n s : dec_val (repeat 48 n ++ s) = dec_val s.
Proof.
  induction n as [|n IH]; [reflexivity|].
  cbn [repeat app]. unfold dec_val, val_acc in *. cbn [fold_left]. exact IH.
Qed.

Lemma dec_val_trim s : dec_val (trim_zeros s) = dec_val s.
Proof. destruct (trim_zeros_app s) as (n & E). rewrite E at 2. rewrite dec_val_zeros. reflexivity. Qed.

Lemma digits_trim s : digits s -> digits (trim_zeros s).
Proof.
  intros D. destruct (trim_zeros_app s) as (n & E). rewrite E in D. apply Forall_app in D. tauto.
Qed.

(** The significant digits are the canonical text of the value, or empty for 0. *)
Lemma trim_canon s : digits s ->
  (dec_val s = 0 /\ trim_zeros s = []) \/ (0 < dec_val s /\ trim_zeros s = dec (dec_val s)).
Proof.
  intros D. pose proof (digits_trim s D) as DT. rewrite <- (dec_val_trim s).
  destruct (trim_zeros_head s) as [(b & r & E & NZ)|E]; rewrite E in *.
  - right. inversion DT as [|? ? D1 D2]; subst. split.
    + unfold dec_val, val_acc. cbn [fold_left]. fold (val_acc (10 * 0 + digit_val b) r).
      pose proof (val_acc_ge (10 * 0 + digit_val b) r). unfold is_digit, digit_val in *. lia.
    + apply canonical_dec. split; [assumption|right; eauto].
  - left. auto.
Qed.

Lemma meta_val_cmp a b : digits a -> digits b ->
  then_cmp (blen (trim_zeros a) ?= blen (trim_zeros b)) (bytes_cmp (trim_zeros a) (trim_zeros b))
  = (dec_val a ?= dec_val b).
Proof.
  intros A B.
  assert (P : forall n, 0 < blen (dec n)).
  { intros n. pose proof (dec_nonempty n). destruct (dec n); [congruence|]. rewrite blen_cons. lia. }
  destruct (trim_canon a A) as [(Va & Ta)|(Va & Ta)], (trim_canon b B) as [(Vb & Tb)|(Vb & Tb)];
    rewrite Ta, Tb.
  - rewrite Va, Vb. reflexivity.
  - rewrite Va. specialize (P (dec_val b)). rewrite blen_nil.
    assert (E1 : (0 ?= blen (dec (dec_val b))) = Lt) by (apply N.compare_lt_iff; assumption).
    rewrite E1. symmetry. apply N.compare_lt_iff. assumption.
  - rewrite Vb. specialize (P (dec_val a)). rewrite blen_nil.
    assert (E1 : (blen (dec (dec_val a)) ?= 0) = Gt) by (apply N.compare_gt_iff; assumption).
    rewrite E1. symmetry. apply N.compare_gt_iff. assumption.
  - pose proof (pre_seg_num (dec_val a) (dec_val b)) as H. unfold pre_seg_cmp in H.
    rewrite !dec_all_digits in H. exact H.
Qed.

Lemma forallb_digits s : forallb is_digit s = true <-> digits s.
Proof. unfold digits. rewrite forallb_forall, Forall_forall. reflexivity. Qed.

Lemma meta_seg_lt a b : meta_seg_cmp a b = Lt <-> build_lt a b.
Proof.
  unfold meta_seg_cmp, build_lt.
  assert (Z : forall s, (forallb is_digit s = true <-> all_digits s)).
  { intros s. unfold all_digits. rewrite forallb_forall, Forall_forall.
    unfold is_digit. split; intros H x I; specialize (H x I); lia. }
  destruct (forallb is_digit a) eqn:A, (forallb is_digit b) eqn:B.
  - assert (DA : all_digits a) by (apply Z; assumption).
    assert (DB : all_digits b) by (apply Z; assumption).
    rewrite meta_val_cmp by (apply forallb_digits; assumption).
    unfold blen.
    destruct (N.compare_spec (dec_val a) (dec_val b)) as [E|E|E]; cbn [then_cmp].
    + rewrite N.compare_lt_iff. split; intros H.
      * left. repeat split; auto. right. split; [assumption|]. lia.
      * destruct H as [(_ & _ & [H|(_ & H)])|[(_ & H)|(H & _)]]; try lia; tauto.
    + split; [|reflexivity]. intros _. left. auto.
    + split; [discriminate|].
      intros [(_ & _ & [H|(H & _)])|[(_ & H)|(H & _)]]; try lia; tauto.
  - assert (DA : all_digits a) by (apply Z; assumption).
    assert (DB : ~ all_digits b) by (intros H; apply Z in H; congruence). tauto.
  - assert (DA : ~ all_digits a) by (intros H; apply Z in H; congruence).
    assert (DB : all_digits b) by (apply Z; assumption). split; [discriminate|tauto].
  - assert (DA : ~ all_digits a) by (intros H; apply Z in H; congruence).
    assert (DB : ~ all_digits b) by (intros H; apply Z in H; congruence).
    rewrite lex_lt_bytes. tauto.
Qed.

Lemma segs_lex_gen seg lt : good_cmp seg -> (forall a b, seg a b = Lt <-> lt a b) ->
  forall x y, segs_cmp seg x y = Lt <-> lex_lt lt x y.
Proof.
  intros (E & _) H. induction x as [|i x IH]; intros [|j y]; cbn [segs_cmp].
  - split; [discriminate|inversion 1].
  - split; [constructor|reflexivity].
  - split; [discriminate|inversion 1].
  - destruct (seg i j) eqn:C.
    + apply E in C. subst j. rewrite IH. split.
      * constructor; assumption.
      * intros L; inversion L as [|? ? ? ? L1|]; subst; [|assumption].
        apply H in L1. assert (seg i i = Eq) by (apply E; reflexivity). congruence.
    + split; [|reflexivity]. intros _. constructor. apply H; auto.
    + split; [discriminate|]. intros L; inversion L as [|? ? ? ? L1|]; subst.
      * apply H in L1. congruence.
      * assert (seg j j = Eq) by (apply E; reflexivity). congruence.
Qed.

Lemma meta_words_split ws : ws <> [] -> Forall (fun w => w <> [] /\ Forall ident_char w) ws ->
  split_on 46 (join 46 ws) = ws.
Proof.
  intros NE F. apply split_join; [assumption|].
  eapply Forall_impl; [|exact F]. cbv beta. intros w (_ & H).
  eapply Forall_impl; [|exact H]. cbv beta. unfold ident_char. lia.
Qed.

(** C03 *)
Lemma meta_cmp_spec x y :
  x <> [] -> y <> [] ->
  Forall (fun w => w <> [] /\ Forall ident_char w) x ->
  Forall (fun w => w <> [] /\ Forall ident_char w) y ->
  (meta_cmp (join 46 x) (join 46 y) = Lt <-> lex_lt build_lt x y) /\
  meta_cmp [] (join 46 y) = Lt.
Proof.
  intros Nx Ny Fx Fy. unfold meta_cmp. rewrite !meta_words_split by assumption. split.
  - apply segs_lex_gen; [apply good_meta_seg|apply meta_seg_lt].
  - destruct y as [|w y]; [congruence|]. inversion Fy as [|? ? (Nw & _) _]; subst.
    cbn [split_on segs_cmp].
    assert (meta_seg_cmp [] w = Lt) as ->; [|reflexivity].
    unfold meta_seg_cmp. cbn [forallb]. destruct (forallb is_digit w) eqn:D; [|reflexivity].
    rewrite meta_val_cmp; [|constructor|apply forallb_digits; assumption].
    change (dec_val []) with 0.
    destruct (N.compare_spec 0 (dec_val w)) as [E|E|E]; cbn [then_cmp]; [|reflexivity|lia].
    apply N.compare_lt_iff. destruct w; [congruence|]. rewrite blen_nil, blen_cons. lia.
Qed.
