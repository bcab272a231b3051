(** Proofs about numbers, continued: whole literals (C25-C28). *)
From Verif Require Import Base BaseProofs CommonModel TomlError LitModel LitSpec LitNum.
Ltac Zify.zify_post_hook ::= Z.div_mod_to_equations.

Definition nous (c : N) : bool := negb (c =? 95).

Lemma len_utf8_pos c : 0 < len_utf8 c.
Proof. unfold len_utf8. repeat destruct (_ <? _); lia. Qed.
Lemma len_utf8_ascii c : c < 128 -> len_utf8 c = 1.
Proof. intros H. unfold len_utf8. replace (c <? 128) with true by lia. reflexivity. Qed.

Lemma us_decimal P t ds : ~ P 95 -> us P t ds -> ds <> [] /\ Forall P ds.
Proof.
  intros X H. destruct (cont_digits P X true t ds H) as [F N]. split; [apply N; reflexivity|assumption].
Qed.

Lemma sign_filter sg neg : sign_text sg neg -> filter nous sg = sg.
Proof. destruct 1; reflexivity. Qed.

(** ** What [parse_float] makes of a float's text *)
Lemma frac_filter ft fds : frac_text ft fds ->
  (filter nous ft = [] /\ ft = [] /\ fds = []) \/ (filter nous ft = 46 :: fds /\ Forall decimal fds /\ ft <> []).
Proof.
  destruct 1 as [|t ds H]; [left; auto|right].
  split; [|split; [|discriminate]].
  - change (filter nous (46 :: t)) with (46 :: filter nous t). f_equal. apply (us_filter decimal dec95). assumption.
  - apply us_decimal in H; [apply H|exact dec95].
Qed.

Lemma parse_float_text sg neg it ids ft fds et e sp :
  sign_text sg neg -> us decimal it ids -> frac_text ft fds -> exp_text et e ->
  parse_float (sg ++ it ++ ft ++ et) sp = Ok (FDec neg (dec_val (ids ++ fds)) (e - Z.of_nat (length fds))).
Proof.
  intros S I F X. unfold parse_float.
  change (fun c => negb (c =? 95)) with nous.
  rewrite !filter_app, (sign_filter _ _ S), (us_filter decimal dec95 _ _ I : filter nous it = ids).
  destruct (us_decimal _ _ _ dec95 I) as [NE FI].
  assert (Y : (forall c r', filter nous et = c :: r' -> ~ decimal c) /\ f64_exp (filter nous et) = Some e /\
              (forall r', filter nous et <> 46 :: r')).
  { destruct X as [|c sg' neg' t ds C S' U].
    - split; [intros ? ? H; discriminate|]. split; [reflexivity|]. intros ? H; discriminate.
    - assert (Q : filter nous (c :: sg' ++ t) = c :: sg' ++ ds).
      { cbn [filter]. replace (nous c) with true by (unfold nous; destruct C; subst; reflexivity).
        rewrite filter_app, (sign_filter _ _ S'), (us_filter decimal dec95 _ _ U : filter nous t = ds). reflexivity. }
      rewrite Q. split; [|split].
      + intros c' r' H. injection H as <- _. unfold decimal. lia.
      + destruct (us_decimal _ _ _ dec95 U) as [NE' FI']. rewrite (f64_exp_digits _ _ neg') by assumption.
        destruct ds; [congruence|reflexivity].
      + intros r' H. injection H as -> _. lia. }
  destruct Y as (Y1 & Y2 & Y3).
  rewrite (f64_compute sg neg ids (filter nous ft) fds (filter nous et)); try assumption.
  - rewrite Y2. reflexivity.
  - destruct (frac_filter _ _ F) as [(A & _ & B)|(A & B & _)]; [left; auto|right; auto].
Qed.

Lemma parse_float_no_exp sg neg it ids ft fds e sg' neg' sp f :
  sign_text sg neg -> us decimal it ids -> frac_text ft fds -> e = 101 \/ e = 69 -> sign_text sg' neg' ->
  parse_float (sg ++ it ++ ft ++ e :: sg') sp <> Ok f.
Proof.
  intros S I F C S'. unfold parse_float.
  change (fun c => negb (c =? 95)) with nous.
  rewrite !filter_app, (sign_filter _ _ S), (us_filter decimal dec95 _ _ I : filter nous it = ids).
  destruct (us_decimal _ _ _ dec95 I) as [NE FI].
  assert (Q : filter nous (e :: sg') = e :: sg' ++ []).
  { cbn [filter]. replace (nous e) with true by (unfold nous; destruct C; subst; reflexivity).
    rewrite (sign_filter _ _ S'), app_nil_r. reflexivity. }
  rewrite Q.
  rewrite (f64_compute sg neg ids (filter nous ft) fds (e :: sg' ++ [])); try assumption.
  - rewrite (f64_exp_digits _ _ neg') by (auto; constructor). discriminate.
  - destruct (frac_filter _ _ F) as [(A & _ & B)|(A & B & _)]; [left|right; auto].
    split; [assumption|]. split; [assumption|]. intros r' H. injection H as -> _. lia.
  - intros c r H. injection H as <- _. unfold decimal. lia.
Qed.

(** The part of a float from its dot or exponent on. *)
Definition float_tail (lit : list N) (sp : span) (f : fval) (r : list N) : Prop :=
  (exists r' i, r = 46 :: r' /\ validate_float_fractional_part lit sp i i r' = Ok f) \/
  (exists e r' i, (e = 101 \/ e = 69) /\ r = e :: r' /\ validate_float_exponent lit sp i r' = Ok f).

Lemma float_tail_iff sg neg it ids r sp f :
  sign_text sg neg -> us decimal it ids ->
  (float_tail (sg ++ it ++ r) sp f r <->
   exists ft fds et e, frac_text ft fds /\ exp_text et e /\ (ft <> [] \/ et <> []) /\ r = ft ++ et /\
     f = FDec neg (dec_val (ids ++ fds)) (e - Z.of_nat (length fds))).
Proof.
  intros S I. split.
  - intros [(r' & i & -> & H)|(e & r' & i & C & -> & H)].
    + apply fract_body in H as (t & ds & U & [(-> & P)|(e & r'' & j & C & -> & H)]).
      * exists (46 :: t), ds, [], 0%Z. split; [constructor; assumption|]. split; [constructor|].
        split; [left; discriminate|]. split; [rewrite app_nil_r; reflexivity|].
        rewrite <- (app_nil_r (46 :: t)) in P.
        rewrite (parse_float_text sg neg it ids (46 :: t) ds [] 0%Z) in P; [|assumption|assumption|constructor; assumption|constructor].
        injection P as <-. reflexivity.
      * apply exp_body in H as ((sg' & neg' & t' & S' & -> & T) & P).
        destruct T as [->|(ds' & T)].
        -- exfalso. rewrite app_nil_r in P.
           exact (parse_float_no_exp sg neg it ids (46 :: t) ds e sg' neg' sp f S I (fr_some _ _ U) C S' P).
        -- exists (46 :: t), ds, (e :: sg' ++ t'), (signed neg' (dec_val ds')).
           split; [constructor; assumption|]. split; [constructor; assumption|].
           split; [left; discriminate|]. split; [reflexivity|].
           change (46 :: t ++ e :: sg' ++ t') with ((46 :: t) ++ (e :: sg' ++ t')) in P.
           rewrite (parse_float_text sg neg it ids (46 :: t) ds (e :: sg' ++ t') (signed neg' (dec_val ds'))) in P;
             [|assumption|assumption|constructor; assumption|constructor; assumption].
           injection P as <-. reflexivity.
    + apply exp_body in H as ((sg' & neg' & t' & S' & -> & T) & P).
      destruct T as [->|(ds' & T)].
      * exfalso. rewrite app_nil_r in P.
        exact (parse_float_no_exp sg neg it ids [] [] e sg' neg' sp f S I fr_none C S' P).
      * exists [], [], (e :: sg' ++ t'), (signed neg' (dec_val ds')).
        split; [constructor|]. split; [constructor; assumption|].
        split; [right; discriminate|]. split; [reflexivity|].
        change (e :: sg' ++ t') with ([] ++ (e :: sg' ++ t')) in P.
        rewrite (parse_float_text sg neg it ids [] [] (e :: sg' ++ t') (signed neg' (dec_val ds'))) in P;
          [|assumption|assumption|constructor|constructor; assumption].
        injection P as <-. reflexivity.
  - intros (ft & fds & et & e & F & X & NE & -> & ->).
    pose proof (parse_float_text sg neg it ids ft fds et e sp S I F X) as P.
    destruct F as [|t ds U].
    + destruct X as [|c sg' neg' t' ds' C S' U']; [destruct NE; congruence|].
      right. exists c, (sg' ++ t'), 0. split; [assumption|]. split; [reflexivity|].
      apply exp_body. split; [|exact P]. exists sg', neg', t'. eauto.
    + left. exists (t ++ et), 0. split; [reflexivity|]. apply fract_body. exists t, ds. split; [assumption|].
      destruct X as [|c sg' neg' t' ds' C S' U'].
      * left. rewrite app_nil_r. split; [reflexivity|exact P].
      * right. exists c, (sg' ++ t'), 0. split; [assumption|]. split; [reflexivity|].
        apply exp_body. split; [|exact P]. exists sg', neg', t'. eauto.
Qed.

(** ** The decimal loop *)

Definition szn (sg : option tsign) : Z := match sg with None => 1%Z | Some s => sign_val s end.

(** Value of more digits after [acc], with a sign. *)
Definition zval (s : Z) (acc : Z) (ds : list N) : Z :=
  fold_left (fun a d => (a * 10 + s * Z.of_N (d - 48))%Z) ds acc.

Lemma zval_grow s ds : (s = 1 \/ s = -1)%Z -> forall acc, (0 <= s * acc)%Z -> (s * acc <= s * zval s acc ds)%Z.
Proof.
  intros S. induction ds as [|d ds IH]; intros acc A; cbn [zval fold_left]; [lia|].
  fold (zval s (acc * 10 + s * Z.of_N (d - 48)) ds).
  assert (s * acc <= s * (acc * 10 + s * Z.of_N (d - 48)))%Z by (destruct S; subst; lia).
  etransitivity; [eassumption|]. apply IH. lia.
Qed.

Lemma zval_dec s ds : (s = 1 \/ s = -1)%Z -> forall n, zval s (s * Z.of_N n) ds = (s * Z.of_N (val_acc n ds))%Z.
Proof.
  intros S. unfold zval, val_acc. induction ds as [|d ds IH]; intros n; cbn [fold_left]; [reflexivity|].
  rewrite <- IH. f_equal. unfold digit_val. destruct S; subst; lia.
Qed.

Lemma in_i64_iff z : in_i64 z = true <-> (i64_min <= z <= i64_max)%Z.
Proof. unfold in_i64. lia. Qed.

Lemma szn_cases sg : (szn sg = 1 \/ szn sg = -1)%Z.
Proof. destruct sg as [[]|]; cbn; auto. Qed.

(** Skip the date-time arms: they never give an integer or a float. *)
Definition number (v : pval) : Prop := (exists z, v = PInt z) \/ (exists f, v = PFloat f).

Lemma as_invalid_not_number r v : (forall v, r = Ok v -> ~ number v) -> number v -> as_invalid_datetime r <> Ok v.
Proof.
  intros H N. destruct r; cbn; [intros E; injection E as ->; exact (H v eq_refl N)| |discriminate].
  intros E. injection E as <-. destruct N as [(z & N)|(f & N)]; discriminate.
Qed.

Lemma after_year_not_number it sp y v : continue_parsing_date_time_after_year it sp y = Ok v -> ~ number v.
Proof.
  unfold continue_parsing_date_time_after_year. intros H.
  apply bind_ok in H as (((month & ms) & it1) & _ & H).
  apply bind_ok in H as (? & _ & H). apply bind_ok in H as (it2 & _ & H).
  apply bind_ok in H as (((day & dsp) & it3) & _ & H). apply bind_ok in H as (? & _ & H).
  cbv zeta in H. destruct (cnext it3) as [[[i c]|] it'].
  - destruct ((c =? 84) || (c =? 116)).
    + apply bind_ok in H as ((tm & o) & _ & H). injection H as <-. intros [(z & N)|(f & N)]; discriminate.
    + destruct (is_digit c); discriminate.
  - injection H as <-. intros [(z & N)|(f & N)]; discriminate.
Qed.

Ltac not_number := intros [(? & ?NN)|(? & ?NN)]; discriminate.

(** Everything the loop does with a character that is neither a digit, a dot,
    an exponent letter nor an underscore gives no number. *)
Lemma dec_other lit sp sg acc ovf lu i c r v :
  is_digit c = false -> c <> 46 -> c <> 101 -> c <> 69 -> c <> 95 -> number v ->
  dec_loop lit sp sg acc ovf lu i (c :: r) <> Ok v.
Proof.
  intros D A B C U N. cbn [dec_loop]. rewrite D.
  replace (c =? 46) with false by lia. replace ((c =? 101) || (c =? 69)) with false by lia.
  replace (c =? 95) with false by lia.
  repeat match goal with
  | |- (if ?b then _ else _) <> _ => destruct b
  end; try discriminate.
  - intros H. apply bind_ok in H as (t & _ & H). injection H as <-. revert N. not_number.
  - apply as_invalid_not_number; [|assumption]. apply after_year_not_number.
  - intros H. injection H as <-. revert N. not_number.
  - destruct (nth_error _ _); [|discriminate]. intros H. injection H as <-. revert N. not_number.
Qed.

Lemma dec_score lit sp sg acc ovf lu i r :
  dec_loop lit sp sg acc ovf lu i (95 :: r) =
    if lu then (let? j := pred_p i in consecutive_underscore_error r (pos_plus (s_start sp) j))
    else dec_loop lit sp sg acc ovf true (i + 1) r.
Proof. reflexivity. Qed.

Lemma dec_loop_int lit sp sg z : forall rest acc ovf lu i,
  (0 <= szn sg * acc)%Z -> in_i64 acc = true ->
  (dec_loop lit sp sg acc ovf lu i rest = Ok (PInt z) <->
   ovf = false /\ exists ds, cont decimal lu rest ds /\ z = zval (szn sg) acc ds /\ in_i64 z = true).
Proof.
  induction rest as [|c r IH]; intros acc ovf lu i A R.
  - cbn [dec_loop]. destruct lu.
    + split; [intros H; apply bind_ok in H as (x & _ & H); discriminate|].
      intros (_ & ds & H & _). apply cont_nil in H as [H _]. discriminate.
    + destruct ovf; [split; [discriminate|intros (H & _); discriminate]|]. split.
      * intros H. injection H as <-. split; [reflexivity|]. exists []. split; [apply cont_nil; auto|]. auto.
      * intros (_ & ds & H & -> & _). apply cont_nil in H as [_ ->]. reflexivity.
  - destruct (is_digit c) eqn:D.
    + cbn [dec_loop]. rewrite D. cbv zeta. apply is_digit_iff in D.
      destruct ovf.
      * rewrite IH by assumption. split; intros (H & _); discriminate.
      * fold (szn sg). destruct (in_i64 (acc * 10) && in_i64 (acc * 10 + szn sg * Z.of_N (c - 48))) eqn:O.
        -- apply andb_prop in O as [O1 O2].
           rewrite IH; [|destruct (szn_cases sg) as [S|S]; rewrite S in *; lia|assumption].
           split; intros (_ & ds & H & E & R'); (split; [reflexivity|]).
           ++ exists (c :: ds). split; [apply cont_digit; eauto using dec95|]. auto.
           ++ apply cont_digit in H as (ds' & -> & H); [|exact dec95|assumption]. exists ds'. auto.
        -- rewrite IH by assumption. split; [intros (H & _); discriminate|].
           intros (_ & ds & H & E & R'). exfalso.
           apply cont_digit in H as (ds' & -> & H); [|exact dec95|assumption].
           assert (V : z = zval (szn sg) (acc * 10 + szn sg * Z.of_N (c - 48)) ds') by exact E.
           pose proof (zval_grow (szn sg) ds' (szn_cases sg) (acc * 10 + szn sg * Z.of_N (c - 48))) as G.
           rewrite <- V in G. rewrite in_i64_iff in *.
           apply andb_false_iff in O.
           assert (O' : ~ (i64_min <= acc * 10 <= i64_max)%Z \/
                        ~ (i64_min <= acc * 10 + szn sg * Z.of_N (c - 48) <= i64_max)%Z).
           { destruct O as [O|O]; [left|right]; rewrite <- in_i64_iff; congruence. }
           clear O. unfold i64_min, i64_max in *.
           destruct (szn_cases sg) as [S|S]; rewrite S in *; lia.
    + assert (ND : ~ decimal c) by (rewrite <- is_digit_iff; congruence).
      destruct (N.eq_dec c 95) as [->|U].
      * rewrite dec_score.
        destruct lu.
        -- split; [intros H; apply bind_ok in H as (x & _ & H); discriminate|].
           intros (_ & ds & H & _). apply cont_score in H as [H _]; [discriminate|exact dec95].
        -- rewrite IH by assumption. split; intros (O & ds & H & E); (split; [assumption|]); exists ds; (split; [|assumption]).
           ++ apply cont_score; auto using dec95.
           ++ apply cont_score in H as [_ H]; auto using dec95.
      * split.
        -- intros H. exfalso.
           assert (K : c = 46 \/ (c = 101 \/ c = 69) \/ (c <> 46 /\ c <> 101 /\ c <> 69)) by lia.
           destruct K as [K|[K|(K1 & K2 & K3)]].
           ++ subst c. cbn [dec_loop] in H. change (is_digit 46) with false in H. change (46 =? 46) with true in H. cbv iota in H.
              destruct lu; apply bind_ok in H as (x & _ & H); discriminate.
           ++ cbn [dec_loop] in H. rewrite D in H. replace (c =? 46) with false in H by lia.
              replace ((c =? 101) || (c =? 69)) with true in H by lia.
              destruct lu; apply bind_ok in H as (x & _ & H); discriminate.
           ++ eapply dec_other in H; try eassumption. left; eauto.
        -- intros (_ & ds & H & _). exfalso. exact (cont_other decimal _ _ _ _ ND U H).
Qed.

Lemma dec_loop_float lit sp sg f : forall rest acc ovf lu i,
  (dec_loop lit sp sg acc ovf lu i rest = Ok (PFloat f) <->
   exists t ds r, cont decimal lu t ds /\ rest = t ++ r /\ float_tail lit sp f r).
Proof.
  induction rest as [|c r IH]; intros acc ovf lu i.
  - cbn [dec_loop]. split.
    + destruct lu; [intros H; apply bind_ok in H as (x & _ & H); discriminate|destruct ovf; discriminate].
    + intros (t & ds & r & _ & E & [(r' & j & -> & _)|(e & r' & j & _ & -> & _)]); destruct t; discriminate.
  - destruct (is_digit c) eqn:D.
    + assert (Q : exists acc' ovf', dec_loop lit sp sg acc ovf lu i (c :: r) = dec_loop lit sp sg acc' ovf' false (i + len_utf8 c) r).
      { cbn [dec_loop]. rewrite D. destruct ovf; [eauto|]. destruct (_ && _); eauto. }
      destruct Q as (acc' & ovf' & ->). rewrite IH. clear IH. apply is_digit_iff in D. split.
      * intros (t & ds & r' & H & -> & T). exists (c :: t), (c :: ds), r'. split; [apply cont_digit; eauto using dec95|auto].
      * intros (t & ds & r' & H & E & T). destruct t as [|x t].
        -- cbn [app] in E. subst r'. exfalso. unfold decimal in D.
           destruct T as [(r' & j & T & _)|(e & r' & j & C & T & _)]; injection T as -> _; lia.
        -- cbn [app] in E. injection E as <- ->. apply cont_digit in H as (ds' & -> & H); [|exact dec95|assumption]. eauto 6.
    + assert (ND : ~ decimal c) by (rewrite <- is_digit_iff; congruence).
      assert (TL : c <> 95 -> forall t ds r', cont decimal lu t ds -> c :: r = t ++ r' -> t = [] /\ lu = false /\ r' = c :: r).
      { intros U t ds r' H E. destruct t as [|x t]; cbn [app] in E; [apply cont_nil in H as [-> _]; auto|].
        injection E as <- _. exfalso. exact (cont_other decimal _ _ _ _ ND U H). }
      destruct (N.eq_dec c 95) as [->|U].
      * rewrite dec_score.
        assert (TS : forall t ds r', cont decimal lu t ds -> 95 :: r = t ++ r' -> float_tail lit sp f r' ->
                      lu = false /\ exists t', t = 95 :: t' /\ r = t' ++ r' /\ cont decimal true t' ds).
        { intros t ds r' H E T. destruct t as [|x t]; cbn [app] in E.
          - subst r'. destruct T as [(r' & j & T & _)|(e & r' & j & C & T & _)]; injection T as T _; lia.
          - injection E as <- ->. apply cont_score in H as [-> H]; [|exact dec95]. eauto. }
        destruct lu.
        -- split; [intros H; apply bind_ok in H as (x & _ & H); discriminate|].
           intros (t & ds & r' & H & E & T). destruct (TS _ _ _ H E T) as (X & _). discriminate.
        -- rewrite IH. split.
           ++ intros (t & ds & r' & H & -> & T). exists (95 :: t), ds, r'. split; [apply cont_score; auto using dec95|auto].
           ++ intros (t & ds & r' & H & E & T). destruct (TS _ _ _ H E T) as (_ & t' & _ & E' & H'). eauto 6.
      * assert (K : c = 46 \/ (c = 101 \/ c = 69) \/ (c <> 46 /\ c <> 101 /\ c <> 69)) by lia.
        destruct K as [K|[K|(K1 & K2 & K3)]].
        -- subst c. cbn [dec_loop]. change (is_digit 46) with false. change (46 =? 46) with true. cbv iota.
           change (len_utf8 46) with 1. split.
           ++ destruct lu; intros H; apply bind_ok in H as (x & H & H'); [discriminate|].
              injection H' as ->. exists [], [], (46 :: r). split; [apply cont_nil; auto|]. split; [reflexivity|].
              left. eauto.
           ++ intros (t & ds & r' & H & E & T). destruct (TL U _ _ _ H E) as (-> & -> & ->).
              destruct T as [(r' & j & T & V)|(e & r' & j & C & T & _)]; [|injection T as <- _; lia].
              injection T as <-. apply bind_ok. exists f. split; [|reflexivity].
              rewrite fract_body in V |- *. exact V.
        -- cbn [dec_loop]. rewrite D. replace (c =? 46) with false by lia.
           replace ((c =? 101) || (c =? 69)) with true by lia. split.
           ++ destruct lu; intros H; apply bind_ok in H as (x & H & H'); [discriminate|].
              injection H' as ->. exists [], [], (c :: r). split; [apply cont_nil; auto|]. split; [reflexivity|].
              right. eauto 6.
           ++ intros (t & ds & r' & H & E & T). destruct (TL U _ _ _ H E) as (-> & -> & ->).
              destruct T as [(r' & j & T & V)|(e & r' & j & C & T & V)]; [injection T as ? ?; lia|injection T as <- <-].
              apply bind_ok. exists f. split; [|reflexivity].
              rewrite exp_body in V |- *. exact V.
        -- split.
           ++ intros H. exfalso. eapply dec_other in H; try eassumption. right; eauto.
           ++ intros (t & ds & r' & H & E & T). destruct (TL U _ _ _ H E) as (-> & -> & ->).
              exfalso. destruct T as [(r' & j & T & V)|(e & r' & j & C & T & V)]; injection T as -> <-; lia.
Qed.
