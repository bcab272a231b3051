(** Proofs about numbers (C25-C28). *)
From Verif Require Import Base BaseProofs CommonModel TomlError LitModel LitSpec.
Ltac Zify.zify_post_hook ::= Z.div_mod_to_equations.

Lemma is_digit_iff c : is_digit c = true <-> decimal c.
Proof. unfold is_digit, decimal. lia. Qed.

Lemma bind_ok {E A B} (r : res E A) (f : A -> res E B) b :
  bind r f = Ok b <-> exists a, r = Ok a /\ f a = Ok b.
Proof.
  destruct r; cbn [bind]; split; try discriminate.
  - intros H. eauto.
  - intros (x & H & K). injection H as <-. exact K.
  - intros (x & H & _). discriminate.
  - intros (x & H & _). discriminate.
Qed.

(** ** Underscores *)

Section Us.
  Context (P : N -> Prop) (P95 : ~ P 95).

  Definition cont (lu : bool) (t ds : list N) : Prop := if lu then us P t ds else us_cont P t ds.

  Lemma cont_nil lu ds : cont lu [] ds <-> lu = false /\ ds = [].
  Proof using.
    destruct lu; cbn; split.
    - intros H; inversion H.
    - intros [H _]; discriminate.
    - intros H; inversion H; auto.
    - intros [_ ->]; constructor.
  Qed.
  Lemma cont_digit lu c r ds : P c -> (cont lu (c :: r) ds <-> exists ds', ds = c :: ds' /\ cont false r ds').
  Proof using P95.
    intros D. destruct lu; cbn; split.
    - intros H; inversion H; subst; eauto.
    - intros (ds' & -> & H). constructor; assumption.
    - intros H; inversion H; subst; [eauto|contradiction].
    - intros (ds' & -> & H). apply us_digit; assumption.
  Qed.
  Lemma cont_score lu r ds : cont lu (95 :: r) ds <-> lu = false /\ cont true r ds.
  Proof using P95.
    destruct lu; cbn; split.
    - intros H; inversion H; subst; contradiction.
    - intros [H _]; discriminate.
    - intros H; inversion H as [|d t ds' D|d t ds' D C]; subst; [contradiction|]. split; [reflexivity|]. constructor; assumption.
    - intros [_ H]. inversion H; subst. apply us_score; assumption.
  Qed.
  Lemma cont_other lu c r ds : ~ P c -> c <> 95 -> ~ cont lu (c :: r) ds.
  Proof using. intros D X. destruct lu; cbn; intros H; inversion H; subst; contradiction. Qed.

  Lemma cont_digits lu t : forall ds, cont lu t ds -> Forall P ds /\ (lu = true -> ds <> []).
  Proof using P95.
    assert (G : forall ds, us_cont P t ds -> Forall P ds) by (induction 1; constructor; assumption).
    intros ds. destruct lu; cbn.
    - intros H. inversion H as [d r ds' D C]; subst. split; [|discriminate].
      constructor; [assumption|]. clear -C. induction C; constructor; assumption.
    - intros H. split; [apply G; assumption|discriminate].
  Qed.

  Lemma us_cont_filter t ds : us_cont P t ds -> filter (fun c => negb (c =? 95)) t = ds.
  Proof using P95.
    induction 1 as [|d t ds D H IH|d t ds D H IH]; cbn [filter]; [reflexivity| |].
    - replace (d =? 95) with false; [cbn [negb]; f_equal; exact IH|]. symmetry. apply N.eqb_neq. intros ->. contradiction.
    - change (negb (95 =? 95)) with false. cbv iota.
      replace (d =? 95) with false; [cbn [negb]; f_equal; exact IH|]. symmetry. apply N.eqb_neq. intros ->. contradiction.
  Qed.
  Lemma us_filter t ds : us P t ds -> filter (fun c => negb (c =? 95)) t = ds.
  Proof using P95.
    intros H. inversion H as [d r ds' D C]; subst. cbn [filter].
    replace (d =? 95) with false; [cbn [negb]; f_equal; apply us_cont_filter; assumption|].
    symmetry. apply N.eqb_neq. intros ->. contradiction.
  Qed.
  Lemma us_cont_snoc_free t ds : us_cont P t ds -> cont false t ds.
  Proof using. auto. Qed.
End Us.

Lemma dec95 : ~ decimal 95.
Proof. unfold decimal. lia. Qed.

(** ** Float text *)

Lemma span_digits_app ds r : Forall decimal ds -> (forall c r', r = c :: r' -> ~ decimal c) ->
  span_digits (ds ++ r) = (ds, r).
Proof.
  intros F H. induction F as [|d ds D F IH]; cbn [app span_digits].
  - destruct r as [|c r]; [reflexivity|]. cbn. destruct (is_digit c) eqn:E; [|reflexivity].
    apply is_digit_iff in E. exfalso. eapply H; eauto.
  - apply is_digit_iff in D. rewrite D, IH. reflexivity.
Qed.

Lemma f64_exp_digits e sg neg ds : e = 101 \/ e = 69 -> sign_text sg neg -> Forall decimal ds ->
  f64_exp (e :: sg ++ ds) = match ds with [] => None | _ => Some (signed neg (dec_val ds)) end.
Proof.
  intros E S F. unfold f64_exp.
  replace ((e =? 101) || (e =? 69)) with true by lia.
  assert (X : span_digits ds = (ds, [])).
  { rewrite <- (app_nil_r ds) at 1. apply span_digits_app; [assumption|]. intros c r H; discriminate. }
  destruct S; cbn [app].
  - destruct ds as [|d ds].
    + reflexivity.
    + inversion F as [|? ? D F']; subst. destruct d as [|p]; [unfold decimal in D; lia|].
      assert (H43 : N.pos p <> 43) by (unfold decimal in D; lia). assert (H45 : N.pos p <> 45) by (unfold decimal in D; lia).
      replace (match N.pos p :: ds with 43 :: r' => (false, r') | 45 :: r' => (true, r') | _ => (false, N.pos p :: ds) end)
        with (false, N.pos p :: ds).
      * rewrite X. reflexivity.
      * repeat (destruct p as [p|p|]; try reflexivity; try congruence).
  - rewrite X. destruct ds; reflexivity.
  - rewrite X. destruct ds; reflexivity.
Qed.

Lemma f64_compute sg neg ids ft fds r :
  sign_text sg neg -> ids <> [] -> Forall decimal ids ->
  (ft = [] /\ fds = [] /\ (forall r', r <> 46 :: r')) \/ (ft = 46 :: fds /\ Forall decimal fds) ->
  (forall c r', r = c :: r' -> ~ decimal c) ->
  f64_from_str (sg ++ ids ++ ft ++ r) =
    match f64_exp r with
    | None => None
    | Some e => Some (FDec neg (dec_val (ids ++ fds)) (e - Z.of_nat (length fds)))
    end.
Proof.
  intros S NE F FT NR. unfold f64_from_str.
  assert (H : (match sg ++ ids ++ ft ++ r with
               | 43 :: r0 => (false, r0) | 45 :: r0 => (true, r0) | _ => (false, sg ++ ids ++ ft ++ r) end)
              = (neg, ids ++ ft ++ r)).
  { destruct S; cbn [app]; try reflexivity.
    destruct ids as [|d ids]; [congruence|]. inversion F as [|? ? D F']; subst.
    cbn [app]. destruct d as [|p]; [reflexivity|].
    assert (H43 : N.pos p <> 43) by (unfold decimal in D; lia). assert (H45 : N.pos p <> 45) by (unfold decimal in D; lia).
    repeat (destruct p as [p|p|]; try reflexivity; try congruence). }
  rewrite H. clear H.
  assert (X : span_digits (ids ++ ft ++ r) = (ids, ft ++ r)).
  { apply span_digits_app; [assumption|]. intros c r' E D.
    destruct FT as [(-> & -> & _)|(-> & _)]; cbn [app] in E; [eapply NR; eauto|].
    injection E as <- _. unfold decimal in D. lia. }
  rewrite X. clear X.
  assert (Y : (match ft ++ r with 46 :: r' => span_digits r' | _ => ([], ft ++ r) end) = (fds, r)).
  { destruct FT as [(-> & -> & N46)|(-> & FF)]; cbn [app].
    - destruct r as [|c r]; [reflexivity|]. destruct c as [|p]; [reflexivity|].
      repeat (destruct p as [p|p|]; try reflexivity). exfalso. eapply N46. reflexivity.
    - apply span_digits_app; assumption. }
  rewrite Y. clear Y. destruct (ids ++ fds) eqn:E.
  - destruct ids; [congruence|discriminate].
  - reflexivity.
Qed.

(** ** Loops *)

Lemma exp_loop_cont lit sp f : forall rest lu i,
  float_exp_loop lit sp false lu i rest = Ok f <-> (exists ds, cont decimal lu rest ds) /\ parse_float lit sp = Ok f.
Proof.
  induction rest as [|c r IH]; intros lu i; cbn [float_exp_loop].
  - destruct lu.
    + split; [intros H; apply bind_ok in H as (x & _ & H); discriminate|].
      intros ((ds & H) & _). apply cont_nil in H as [H _]. discriminate.
    + split; [intros H; split; [|exact H]|intros (_ & H); exact H]. exists []. apply cont_nil. auto.
  - destruct (is_digit c) eqn:D.
    + apply is_digit_iff in D. rewrite IH. split; intros ((ds & H) & E); (split; [|exact E]).
      * exists (c :: ds). apply cont_digit; eauto using dec95.
      * apply cont_digit in H as (ds' & -> & H); eauto using dec95.
    + assert (ND : ~ decimal c) by (rewrite <- is_digit_iff; congruence).
      destruct (c =? 95) eqn:U.
      * apply N.eqb_eq in U. subst c. destruct lu.
        -- split; [intros H; apply bind_ok in H as (x & _ & H); discriminate|].
           intros ((ds & H) & _). apply cont_score in H as [H _]; [discriminate|exact dec95].
        -- rewrite IH. split; intros ((ds & H) & E); (split; [|exact E]); exists ds.
           ++ apply cont_score; auto using dec95.
           ++ apply cont_score in H as [_ H]; auto using dec95.
      * apply N.eqb_neq in U. split; [discriminate|]. intros ((ds & H) & _). exfalso; exact (cont_other decimal _ _ _ _ ND U H).
Qed.

Lemma exp_loop_first lit sp f rest i :
  float_exp_loop lit sp true false i rest = Ok f <->
  (rest = [] \/ exists ds, us decimal rest ds) /\ parse_float lit sp = Ok f.
Proof.
  destruct rest as [|c r]; cbn [float_exp_loop].
  - intuition.
  - destruct (is_digit c) eqn:D.
    + rewrite exp_loop_cont. apply is_digit_iff in D. split.
      * intros ((ds & H) & E). split; [|exact E]. right. exists (c :: ds). constructor; assumption.
      * intros ([H|(ds & H)] & E); [discriminate|]. split; [|exact E]. inversion H; subst. eauto.
    + assert (ND : ~ decimal c) by (rewrite <- is_digit_iff; congruence).
      assert (NO : ~ ((c :: r = [] \/ (exists ds, us decimal (c :: r) ds)) /\ parse_float lit sp = Ok f)).
      { intros ([H|(ds & H)] & _); [discriminate|]. inversion H; subst. contradiction. }
      destruct (c =? 95); (split; [discriminate|contradiction]).
Qed.

(** The text after the [e] of an accepted float. *)
Lemma exp_body lit sp f i rest :
  validate_float_exponent lit sp i rest = Ok f <->
  (exists sg neg t, sign_text sg neg /\ rest = sg ++ t /\ (t = [] \/ exists ds, us decimal t ds)) /\
  parse_float lit sp = Ok f.
Proof.
  assert (G : forall j, float_exp_loop lit sp true false j rest = Ok f ->
     (exists sg neg t, sign_text sg neg /\ rest = sg ++ t /\ (t = [] \/ exists ds, us decimal t ds)) /\
     parse_float lit sp = Ok f).
  { intros j H. apply exp_loop_first in H as (H & E). split; [|exact E].
    exists [], false, rest. split; [constructor|]. auto. }
  unfold validate_float_exponent. destruct rest as [|c r].
  - split; [apply G|]. intros ((sg & neg & t & S & H & T) & E). apply exp_loop_first. auto.
  - destruct ((c =? 45) || (c =? 43)) eqn:C.
    + rewrite exp_loop_first. split.
      * intros (H & E). split; [|exact E].
        assert (K : c = 45 \/ c = 43) by lia.
        destruct K; subst c; [exists [45], true, r|exists [43], false, r]; (split; [constructor|auto]).
      * intros ((sg & neg & t & S & H & T) & E). split; [|exact E].
        destruct S; cbn [app] in H.
        -- subst t. destruct T as [T|(ds & T)]; [discriminate|]. inversion T as [d ? ? D]; subst. unfold decimal in D. lia.
        -- injection H as -> ->. assumption.
        -- injection H as -> ->. assumption.
    + split; [apply G|]. intros ((sg & neg & t & S & H & T) & E).
      apply exp_loop_first. split; [|exact E].
      destruct S; cbn [app] in H; [subst t; assumption| |]; injection H as -> ->; discriminate.
Qed.

(** Fraction loop, after its first digit. *)
Lemma fract_loop_cont lit sp f start : forall rest lu i, start < i ->
  float_fract_loop lit sp start lu i rest = Ok f <->
  exists t ds, cont decimal lu t ds /\
    ((rest = t /\ parse_float lit sp = Ok f) \/
     exists e r j, (e = 101 \/ e = 69) /\ rest = t ++ e :: r /\ validate_float_exponent lit sp j r = Ok f).
Proof.
  induction rest as [|c r IH]; intros lu i L; cbn [float_fract_loop].
  - destruct lu.
    + split; [intros H; apply bind_ok in H as (x & _ & H); discriminate|].
      intros (t & ds & H & [(<- & E)|(e & r & j & _ & E & _)]).
      * apply cont_nil in H as [H _]. discriminate.
      * destruct t; discriminate.
    + split.
      * intros H. exists [], []. split; [apply cont_nil; auto|]. left. auto.
      * intros (t & ds & H & [(<- & E)|(e & r & j & _ & E & _)]); [exact E|destruct t; discriminate].
  - destruct (is_digit c) eqn:D.
    + apply is_digit_iff in D. assert (L8 : 0 < len_utf8 c) by (unfold len_utf8; repeat destruct (_ <? _); lia).
      rewrite IH by lia. split.
      * intros (t & ds & H & K). exists (c :: t), (c :: ds). split; [apply cont_digit; eauto using dec95|].
        destruct K as [(-> & E)|(e & r' & j & C & -> & E)]; [left; auto|right; exists e, r', j; auto].
      * intros (t & ds & H & K). destruct K as [(<- & E)|(e & r' & j & C & K & E)].
        -- apply cont_digit in H as (ds' & -> & H); [|exact dec95|assumption]. exists r, ds'. split; [assumption|]. left; auto.
        -- destruct t as [|x t]; cbn [app] in K; injection K as -> ->.
           ++ unfold decimal in D. lia.
           ++ apply cont_digit in H as (ds' & -> & H); [|exact dec95|assumption]. exists t, ds'. split; [assumption|].
              right. exists e, r', j. auto.
    + assert (ND : ~ decimal c) by (rewrite <- is_digit_iff; congruence).
      destruct ((c =? 101) || (c =? 69)) eqn:CE.
      * replace (i =? start) with false by lia.
        assert (CE' : c = 101 \/ c = 69) by lia.
        assert (INV : forall t ds, cont decimal lu t ds ->
          ((c :: r = t /\ parse_float lit sp = Ok f) \/
           exists e r' j, (e = 101 \/ e = 69) /\ c :: r = t ++ e :: r' /\ validate_float_exponent lit sp j r' = Ok f) ->
          lu = false /\ exists j, validate_float_exponent lit sp j r = Ok f).
        { intros t ds H K.
          destruct K as [(<- & E)|(e & r' & j & C & K & E)].
          - exfalso. refine (cont_other decimal _ _ _ _ ND _ H). lia.
          - destruct t as [|x t]; cbn [app] in K; injection K as -> ->.
            + apply cont_nil in H as [-> _]. eauto.
            + exfalso. refine (cont_other decimal _ _ _ _ ND _ H). lia. }
        destruct lu.
        -- split; [intros H; apply bind_ok in H as (x & _ & H); discriminate|].
           intros (t & ds & H & K). destruct (INV t ds H K) as (X & _). discriminate.
        -- split.
           ++ intros H. exists [], []. split; [apply cont_nil; auto|]. right. exists c, r, (i + len_utf8 c). auto.
           ++ intros (t & ds & H & K). destruct (INV t ds H K) as (_ & j & E).
              apply exp_body in E. apply exp_body. exact E.
      * destruct (c =? 95) eqn:U.
        -- apply N.eqb_eq in U. subst c. replace (i =? start) with false by lia. destruct lu.
           ++ split; [intros H; apply bind_ok in H as (x & _ & H); discriminate|].
              intros (t & ds & H & K). destruct t as [|x t].
              ** apply cont_nil in H as [H _]. discriminate.
              ** assert (x = 95) as ->.
                 { destruct K as [(K & _)|(e & r' & j & _ & K & _)]; cbn in K; congruence. }
                 apply cont_score in H as [H _]; [discriminate|exact dec95].
           ++ change (len_utf8 95) with 1. rewrite IH by lia. split.
              ** intros (t & ds & H & K). exists (95 :: t), ds. split; [apply cont_score; auto using dec95|].
                 destruct K as [(-> & E)|(e & r' & j & C & -> & E)]; [left; auto|right; exists e, r', j; auto].
              ** intros (t & ds & H & K). destruct K as [(<- & E)|(e & r' & j & C & K & E)].
                 --- apply cont_score in H as [_ H]; [|exact dec95]. exists r, ds. auto.
                 --- destruct t as [|x t]; cbn [app] in K; injection K as <- ->; [lia|].
                     apply cont_score in H as [_ H]; [|exact dec95]. exists t, ds. split; [assumption|].
                     right. exists e, r', j. auto.
        -- split; [discriminate|]. intros (t & ds & H & K). exfalso. apply N.eqb_neq in U.
           destruct t as [|x t].
           ++ destruct K as [(K & _)|(e & r' & j & C & K & _)]; [discriminate|]. cbn in K. injection K as <- _. lia.
           ++ assert (x = c) as -> by (destruct K as [(K & _)|(e & r' & j & _ & K & _)]; cbn in K; congruence).
              exfalso; exact (cont_other decimal _ _ _ _ ND U H).
Qed.

(** The text after the dot of an accepted float. *)
Lemma fract_body lit sp f i rest :
  validate_float_fractional_part lit sp i i rest = Ok f <->
  exists t ds, us decimal t ds /\
    ((rest = t /\ parse_float lit sp = Ok f) \/
     exists e r j, (e = 101 \/ e = 69) /\ rest = t ++ e :: r /\ validate_float_exponent lit sp j r = Ok f).
Proof.
  unfold validate_float_fractional_part. destruct rest as [|c r].
  - split; [discriminate|]. intros (t & ds & H & K). inversion H; subst.
    destruct K as [(K & _)|(e & r' & j & _ & K & _)]; discriminate.
  - cbn [float_fract_loop]. rewrite N.eqb_refl. destruct (is_digit c) eqn:D.
    + apply is_digit_iff in D. assert (L8 : 0 < len_utf8 c) by (unfold len_utf8; repeat destruct (_ <? _); lia).
      rewrite fract_loop_cont by lia. split.
      * intros (t & ds & H & K). exists (c :: t), (c :: ds). split; [constructor; assumption|].
        destruct K as [(-> & E)|(e & r' & j & C & -> & E)]; [left; auto|right; exists e, r', j; auto].
      * intros (t & ds & H & K). inversion H as [d t' ds' D' C']; subst.
        destruct K as [(K & E)|(e & r' & j & C & K & E)].
        -- injection K as -> ->. exists t', ds'. split; [assumption|]. left; auto.
        -- cbn [app] in K. injection K as -> ->. exists t', ds'. split; [assumption|]. right. exists e, r', j. auto.
    + assert (NO : ~ exists t ds, us decimal t ds /\
         ((c :: r = t /\ parse_float lit sp = Ok f) \/
          exists e r' j, (e = 101 \/ e = 69) /\ c :: r = t ++ e :: r' /\ validate_float_exponent lit sp j r' = Ok f)).
      { intros (t & ds & H & K). inversion H as [d t' ds' D' C']; subst. apply is_digit_iff in D'.
        destruct K as [(K & E)|(e & r' & j & C & K & E)]; cbn in K; injection K as -> ->; congruence. }
      destruct ((c =? 101) || (c =? 69)); [split; [discriminate|contradiction]|].
      destruct (c =? 95); (split; [discriminate|contradiction]).
Qed.
