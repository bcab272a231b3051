(** Proofs about numbers, concluded: which literals are integers and floats. *)
From Verif Require Import Base BaseProofs CommonModel TomlError LitModel LitSpec LitNum LitInt.
Ltac Zify.zify_post_hook ::= Z.div_mod_to_equations.

(** ** Prefixed integers *)

Lemma radix_pow pf : Z.of_N (radix pf) = (2 ^ Z.of_N (prefix_bits pf))%Z.
Proof. destruct pf; reflexivity. Qed.

Lemma hex_radix pf c n : (hex_val c = Some n /\ n < 2 ^ prefix_bits pf) <-> radix_digit pf c n.
Proof.
  split.
  - intros [H L]. unfold hex_val, is_digit in H.
    destruct ((48 <=? c) && (c <=? 57)) eqn:D; [injection H as <-|].
    + replace c with (48 + (c - 48)) at 1 by lia.
      destruct pf; cbn in L; constructor; lia.
    + destruct ((97 <=? c) && (c <=? 102)) eqn:D2; [injection H as <-|].
      * destruct pf; cbn in L; [lia|lia|].
        replace c with (97 + (c - 97)) at 1 by lia. replace (10 + c - 97) with (10 + (c - 97)) by lia. constructor; lia.
      * destruct ((65 <=? c) && (c <=? 70)) eqn:D3; [injection H as <-|discriminate].
        destruct pf; [cbn [prefix_bits] in L; change (2 ^ 1) with 2 in L; lia|cbn [prefix_bits] in L; change (2 ^ 3) with 8 in L; lia|].
        replace c with (65 + (c - 65)) at 1 by lia. constructor; lia.
  - intros H.
    assert (G : hex_val c = Some n).
    { unfold hex_val, is_digit. destruct H as [d L|d L|d L|d L|d L].
      1-3: replace ((48 <=? 48 + d) && (48 + d <=? 57)) with true by lia; f_equal; lia.
      - replace ((48 <=? 97 + d) && (97 + d <=? 57)) with false by lia.
        replace ((97 <=? 97 + d) && (97 + d <=? 102)) with true by lia. f_equal; lia.
      - replace ((48 <=? 65 + d) && (65 + d <=? 57)) with false by lia.
        replace ((97 <=? 65 + d) && (65 + d <=? 102)) with false by lia.
        replace ((65 <=? 65 + d) && (65 + d <=? 70)) with true by lia. f_equal; lia. }
    split; [exact G|]. destruct H; cbn [prefix_bits]; [change (2 ^ 1) with 2|change (2 ^ 3) with 8|change (2 ^ 4) with 16..]; lia.
Qed.

Definition rdig (pf : int_prefix) (c : N) : Prop := exists v, radix_digit pf c v.
Lemma rdig95 pf : ~ rdig pf 95.
Proof. intros (v & H). apply hex_radix in H as [H _]. discriminate. Qed.

Lemma radix_digit_fun pf c v w : radix_digit pf c v -> radix_digit pf c w -> v = w.
Proof. intros A B. apply hex_radix in A as [A _]. apply hex_radix in B as [B _]. congruence. Qed.

Lemma wrap_step k a n : (k = 2 \/ k = 8 \/ k = 16)%Z -> (0 <= n < k)%Z ->
  (wrap_i64 (wrap_i64 a * k) + n = wrap_i64 (k * a + n))%Z /\ in_i64 (wrap_i64 (wrap_i64 a * k) + n)%Z = true.
Proof.
  intros K N. unfold in_i64, wrap_i64, i64_min, i64_max.
  destruct K as [K|[K|K]]; subst k; lia.
Qed.

Lemma prefixed_cont sp pf z : forall rest lu a i,
  prefixed_loop sp pf false lu (wrap_i64 (Z.of_N a)) i rest = Ok z <->
  exists ds vs, cont (rdig pf) lu rest ds /\ Forall2 (radix_digit pf) ds vs /\
    z = wrap_i64 (Z.of_N (radix_value pf a vs)).
Proof.
  induction rest as [|c r IH]; intros lu a i; cbn [prefixed_loop].
  - destruct lu.
    + split; [intros H; apply bind_ok in H as (x & _ & H); discriminate|].
      intros (ds & vs & H & _). apply cont_nil in H as [H _]. discriminate.
    + split.
      * intros H. injection H as <-. exists [], []. split; [apply cont_nil; auto|]. auto.
      * intros (ds & vs & H & F & ->). apply cont_nil in H as [_ ->]. inversion F; subst. reflexivity.
  - destruct (hex_val c) as [n|] eqn:HV.
    + destruct (n <? 2 ^ prefix_bits pf) eqn:L.
      * assert (RD : radix_digit pf c n) by (apply hex_radix; split; [assumption|lia]).
        destruct (wrap_step (2 ^ Z.of_N (prefix_bits pf)) (Z.of_N a) (Z.of_N n)) as [W1 W2].
        { destruct pf; cbn; auto. }
        { rewrite <- radix_pow. destruct pf; cbn in *; lia. }
        cbv zeta. rewrite W2, W1.
        replace (2 ^ Z.of_N (prefix_bits pf) * Z.of_N a + Z.of_N n)%Z with (Z.of_N (radix pf * a + n))
          by (rewrite <- radix_pow; lia).
        rewrite IH. split.
        -- intros (ds & vs & H & F & ->). exists (c :: ds), (n :: vs).
           split; [apply cont_digit; [apply rdig95|exists n; assumption|eauto]|]. split; [constructor; assumption|reflexivity].
        -- intros (ds & vs & H & F & ->).
           apply cont_digit in H as (ds' & -> & H); [|apply rdig95|exists n; assumption].
           inversion F as [|? v ? vs' R F']; subst. assert (v = n) as -> by (eapply radix_digit_fun; eassumption).
           exists ds', vs'. auto.
      * split; [discriminate|]. intros (ds & vs & H & F & _). exfalso.
        refine (cont_other (rdig pf) _ _ _ _ _ _ H).
        -- intros (v & R). apply hex_radix in R as [R1 R2]. rewrite HV in R1. injection R1 as <-. lia.
        -- intros ->. discriminate.
    + assert (ND : ~ rdig pf c) by (intros (v & R); apply hex_radix in R as [R1 R2]; congruence).
      destruct (N.eq_dec c 95) as [->|U].
      * change (is_g_to_z 95) with false. change (95 =? 95) with true. cbn [andb].
        destruct lu.
        -- split; [intros H; apply bind_ok in H as (x & _ & H); discriminate|].
           intros (ds & vs & H & _). apply cont_score in H as [H _]; [discriminate|apply rdig95].
        -- rewrite IH. split; intros (ds & vs & H & E); exists ds, vs; (split; [|assumption]).
           ++ apply cont_score; auto using rdig95.
           ++ apply cont_score in H as [_ H]; auto using rdig95.
      * split.
        -- destruct (_ && _); [discriminate|]. replace (c =? 95) with false by lia. discriminate.
        -- intros (ds & vs & H & _). exfalso. exact (cont_other (rdig pf) _ _ _ _ ND U H).
Qed.

Lemma prefixed_first sp pf z rest i :
  prefixed_loop sp pf true false 0%Z i rest = Ok z <->
  exists ds vs, us (rdig pf) rest ds /\ Forall2 (radix_digit pf) ds vs /\
    z = wrap_i64 (Z.of_N (radix_value pf 0 vs)).
Proof.
  change (exists ds vs, us (rdig pf) rest ds /\ Forall2 (radix_digit pf) ds vs /\
            z = wrap_i64 (Z.of_N (radix_value pf 0 vs)))
    with (exists ds vs, cont (rdig pf) true rest ds /\ Forall2 (radix_digit pf) ds vs /\
            z = wrap_i64 (Z.of_N (radix_value pf 0 vs))).
  rewrite <- (prefixed_cont sp pf z rest true 0 i).
  change (wrap_i64 (Z.of_N 0)) with 0%Z.
  destruct rest as [|c r]; cbn [prefixed_loop].
  - split; [discriminate|]. intros H. apply bind_ok in H as (x & _ & H). discriminate.
  - destruct (hex_val c); [reflexivity|].
    destruct (_ && _); [reflexivity|]. destruct (c =? 95); [|reflexivity].
    split; [discriminate|]. intros H. apply bind_ok in H as (x & _ & H). discriminate.
Qed.

(** ** Whole literals *)

Definition sign_opt (sg : option tsign) : list N * bool :=
  match sg with None => ([], false) | Some SPos => ([43], false) | Some SNeg => ([45], true) end.
Lemma sign_opt_text sg : sign_text (fst (sign_opt sg)) (snd (sign_opt sg)).
Proof. destruct sg as [[]|]; constructor. Qed.
Lemma sign_text_opt s n : sign_text s n -> exists sg, sign_opt sg = (s, n).
Proof. destruct 1; [exists None|exists (Some SPos)|exists (Some SNeg)]; reflexivity. Qed.
Lemma signed_szn sg n : signed (snd (sign_opt sg)) n = (szn sg * Z.of_N n)%Z.
Proof. destruct sg as [[]|]; cbn [sign_opt snd signed szn sign_val]; lia. Qed.

(** A literal that starts, after its sign, with a digit other than zero. *)
Lemma dec_entry_int sg d r lit sp z i : 49 <= d <= 57 ->
  (parse_decimal_int_float_or_date (i, r) lit sp (Z.of_N (d - 48)) sg = Ok (PInt z) <->
   exists ds, us decimal (d :: r) ds /\ z = (szn sg * Z.of_N (dec_val ds))%Z /\ in_i64 z = true).
Proof.
  intros D. unfold parse_decimal_int_float_or_date. cbn [fst snd]. fold (szn sg).
  rewrite (dec_loop_int lit sp sg z r (Z.of_N (d - 48) * szn sg)%Z false false i).
  - assert (V : forall ds, zval (szn sg) (Z.of_N (d - 48) * szn sg) ds = (szn sg * Z.of_N (dec_val (d :: ds)))%Z).
    { intros ds. rewrite Z.mul_comm, zval_dec by apply szn_cases. f_equal. }
    split.
    + intros (_ & ds & H & E & R). exists (d :: ds). rewrite V in E. split; [constructor; [unfold decimal; lia|assumption]|auto].
    + intros (ds & H & E & R). split; [reflexivity|]. inversion H as [? ? ds' D' C]; subst. exists ds'. rewrite V. auto.
  - destruct (szn_cases sg) as [S|S]; rewrite S; lia.
  - apply in_i64_iff. unfold i64_min, i64_max. destruct (szn_cases sg) as [S|S]; rewrite S; lia.
Qed.

Lemma dec_entry_float sg d r sp f i : 49 <= d <= 57 ->
  (parse_decimal_int_float_or_date (i, r) (fst (sign_opt sg) ++ d :: r) sp (Z.of_N (d - 48)) sg = Ok (PFloat f) <->
   exists it ids ft fds et e, us decimal it ids /\ frac_text ft fds /\ exp_text et e /\ (ft <> [] \/ et <> []) /\
     d :: r = it ++ ft ++ et /\ f = FDec (snd (sign_opt sg)) (dec_val (ids ++ fds)) (e - Z.of_nat (length fds))).
Proof.
  intros D. unfold parse_decimal_int_float_or_date. cbn [fst snd].
  rewrite dec_loop_float. split.
  - intros (t & ds & r' & H & -> & T).
    assert (U : us decimal (d :: t) (d :: ds)) by (constructor; [unfold decimal; lia|exact H]).
    pose proof (float_tail_iff _ _ _ _ r' sp f (sign_opt_text sg) U) as I.
    destruct I as [I _]. destruct (I T) as (ft & fds & et & e & F & X & NE & -> & ->).
    exists (d :: t), (d :: ds), ft, fds, et, e. auto 10.
  - intros (it & ids & ft & fds & et & e & U & F & X & NE & E & ->).
    inversion U as [d' t ds D' C]; subst. cbn [app] in E. injection E as <- ->.
    exists t, ds, (ft ++ et). split; [exact C|]. split; [reflexivity|].
    change (d :: t ++ ft ++ et) with ((d :: t) ++ (ft ++ et)).
    apply (float_tail_iff _ _ _ _ _ sp _ (sign_opt_text sg) U).
    exists ft, fds, et, e. auto 10.
Qed.

(** A literal that starts, after its sign, with zero. *)
Lemma datetime_not_number it sp y v : continue_parsing_date_time it sp y = Ok v -> ~ number v.
Proof.
  unfold continue_parsing_date_time. destruct (cnext it) as [[[i c]|] it1]; [|discriminate].
  destruct (is_digit c).
  - destruct (cnext it1) as [[[i1 c1]|] it2]; [|discriminate]. destruct (is_digit c1).
    + intros H. apply bind_ok in H as (it3 & _ & H). eapply after_year_not_number; eassumption.
    + unfold bad_year_char. repeat destruct (_ || _) || destruct (_ =? _); discriminate.
  - destruct (c =? 58).
    + intros H. apply bind_ok in H as (t & _ & H). injection H as <-. not_number.
    + unfold bad_year_char. destruct (_ || _); [discriminate|]. destruct (c =? 45); discriminate.
Qed.

Lemma us_zero t ds : us decimal t ds -> no_leading_zero t -> forall r, t = 48 :: r -> r = [] /\ ds = [48].
Proof.
  intros U [NZ|NZ] r ->.
  - injection NZ as ->. inversion U as [? ? ds' D C]; subst. inversion C; subst. auto.
  - cbn in NZ. congruence.
Qed.

Lemma zero_int sg r lit sp z i :
  parse_prefixed_int_float_or_date (i, r) lit sp sg = Ok (PInt z) <->
  (r = [] /\ z = 0%Z) \/
  (sg = None /\ exists pf t ds vs, r = radix_letter pf :: t /\ us (rdig pf) t ds /\ Forall2 (radix_digit pf) ds vs /\
     z = wrap_i64 (Z.of_N (radix_value pf 0 vs))).
Proof.
  unfold parse_prefixed_int_float_or_date, cnext. cbn [fst snd]. destruct r as [|c r].
  - split.
    + intros H. injection H as <-. auto.
    + intros [(_ & ->)|(_ & pf & t & ds & vs & H & _)]; [reflexivity|discriminate].
  - destruct (radix_of c) as [[pf up]|] eqn:R.
    + assert (RL : up = false -> c = radix_letter pf).
      { intros ->. unfold radix_of in R. 
        repeat match type of R with (if ?b then _ else _) = _ =>
          let E := fresh in destruct b eqn:E; [try discriminate; injection R as <-; cbn [radix_letter]; lia|clear E] end.
        discriminate. }
      assert (RL2 : forall pf', c = radix_letter pf' -> pf' = pf /\ up = false).
      { intros pf' ->. destruct pf'; cbn in R; injection R as <- <-; auto. }
      split.
      * intros H. right. destruct sg as [s|]; [discriminate|]. split; [reflexivity|].
        destruct up; [discriminate|]. apply bind_ok in H as (v & H & E). injection E as ->. apply prefixed_first in H.
        destruct H as (ds & vs & U & F & E). exists pf, r, ds, vs. rewrite RL by reflexivity. auto.
      * intros [(H & _)|(-> & pf' & t & ds & vs & H & U & F & E)]; [discriminate|].
        injection H as H ->. destruct (RL2 _ H) as [-> ->]. apply bind_ok. exists z. split; [|reflexivity].
        apply prefixed_first. eauto.
    + split.
      * intros H. exfalso. destruct (c =? 46); [apply bind_ok in H as (x & _ & H); discriminate|].
        destruct (_ || _); [apply bind_ok in H as (x & _ & H); discriminate|].
        destruct (_ && _).
        -- revert H. apply as_invalid_not_number; [apply datetime_not_number|left; eauto].
        -- destruct (is_digit c || (c =? 95)); [discriminate|]. destruct sg; discriminate.
      * intros [(H & _)|(-> & pf' & t & ds & vs & H & _)]; [discriminate|]. injection H as -> _.
        destruct pf'; discriminate.
Qed.

Lemma zero_float sg r sp f i :
  parse_prefixed_int_float_or_date (i, r) (fst (sign_opt sg) ++ 48 :: r) sp sg = Ok (PFloat f) <->
  exists ft fds et e, frac_text ft fds /\ exp_text et e /\ (ft <> [] \/ et <> []) /\
     r = ft ++ et /\ f = FDec (snd (sign_opt sg)) (dec_val (48 :: fds)) (e - Z.of_nat (length fds)).
Proof.
  assert (U : us decimal [48] [48]) by (repeat constructor; unfold decimal; lia).
  pose proof (float_tail_iff _ _ _ _ r sp f (sign_opt_text sg) U) as I.
  change ([48] ++ r) with (48 :: r) in I. change ([48] ++ ?x) with (48 :: x) in I.
  transitivity (float_tail (fst (sign_opt sg) ++ 48 :: r) sp f r); [|exact I].
  clear I. set (lit := fst (sign_opt sg) ++ 48 :: r). clearbody lit.
  unfold parse_prefixed_int_float_or_date, cnext. cbn [fst snd]. destruct r as [|c r].
  - split; [discriminate|]. intros [(r' & j & H & _)|(e & r' & j & _ & H & _)]; discriminate.
  - destruct (radix_of c) as [[pf up]|] eqn:R.
    + split.
      * intros H. destruct sg; [discriminate|]. destruct up; [discriminate|]. apply bind_ok in H as (x & _ & H). discriminate.
      * intros [(r' & j & H & _)|(e & r' & j & C & H & _)]; injection H as -> _; [discriminate|].
        destruct C; subst e; discriminate.
    + destruct (N.eq_dec c 46) as [->|N46].
      * change (46 =? 46) with true. change (len_utf8 46) with 1. cbv iota. split.
        -- intros H. apply bind_ok in H as (x & H & E). injection E as ->. left. eauto.
        -- intros [(r' & j & H & V)|(e & r' & j & C & H & _)]; [|injection H as <- _; lia].
           injection H as <-. apply bind_ok. exists f. split; [|reflexivity]. rewrite fract_body in V |- *. exact V.
      * replace (c =? 46) with false by lia. destruct ((c =? 101) || (c =? 69)) eqn:CE.
        -- split.
           ++ intros H. apply bind_ok in H as (x & H & E). injection E as ->. right. exists c, r, (i + len_utf8 c).
              split; [lia|auto].
           ++ intros [(r' & j & H & V)|(e & r' & j & C & H & V)]; [injection H as ? _; lia|injection H as <- <-].
              apply bind_ok. exists f. split; [|reflexivity]. rewrite exp_body in V |- *. exact V.
        -- split.
           ++ intros H. exfalso. destruct (_ && _).
              ** revert H. apply as_invalid_not_number; [apply datetime_not_number|right; eauto].
              ** destruct (is_digit c || (c =? 95)); [discriminate|]. destruct sg; discriminate.
           ++ intros [(r' & j & H & V)|(e & r' & j & C & H & V)]; injection H as -> _; [lia|].
              destruct C; subst e; discriminate.
Qed.

(** [inf] and [nan] *)
Lemma bare_loop_ok sp w : forall rest expected i,
  bare_loop sp w expected i rest = Ok tt <-> rest = expected.
Proof.
  induction rest as [|c r IH]; intros [|e es] i; cbn [bare_loop]; try (split; [discriminate|discriminate]).
  - split; reflexivity.
  - destruct (c =? e) eqn:E.
    + apply N.eqb_eq in E. subst c. rewrite IH. split; [intros ->; reflexivity|intros H; injection H as ->; reflexivity].
    + apply N.eqb_neq in E. destruct (ascii_lower c =? e); (split; [discriminate|intros H; injection H as -> _; congruence]).
Qed.
Lemma bare_ok i0 r sp i c w :
  parse_bare_literal (i0, r) sp i c w = Ok tt <-> ascii_upper c = false /\ r = tl w.
Proof.
  unfold parse_bare_literal. cbn [fst snd]. destruct (ascii_upper c).
  - split; [discriminate|intros [H _]; discriminate].
  - rewrite bare_loop_ok. tauto.
Qed.

(** Case analysis on how a literal starts. *)
Lemma parse_literal_signed sg c r sp :
  parse_literal (fst (sign_opt (Some sg)) ++ c :: r) sp =
    if c =? 48 then parse_prefixed_int_float_or_date (2, r) (fst (sign_opt (Some sg)) ++ c :: r) sp (Some sg)
    else if is_digit c then
      parse_decimal_int_float_or_date (1 + len_utf8 c, r) (fst (sign_opt (Some sg)) ++ c :: r) sp (Z.of_N (c - 48)) (Some sg)
    else if (c =? 105) || (c =? 73) then
      let? _ := parse_bare_literal (1 + len_utf8 c, r) sp 1 43 (bs "inf") in
      Ok (PFloat (FInf match sg with SNeg => true | SPos => false end))
    else if (c =? 110) || (c =? 78) then
      let? _ := parse_bare_literal (1 + len_utf8 c, r) sp 1 43 (bs "nan") in
      Ok (PFloat (FNan match sg with SNeg => true | SPos => false end))
    else if c =? 46 then Err (EMissingNumDigitsAfterSign sg (pos_plus (s_start sp) 1))
    else Err (EUnexpectedLiteralChar LPIntOrFloat c (pos_plus (s_start sp) 1)).
Proof.
  destruct sg; cbn [sign_opt fst app parse_literal cnext snd fst].
  - change (43 =? 43) with true. change (43 =? 45) with false. cbv iota. change (0 + len_utf8 43) with 1.
    destruct (c =? 48) eqn:E; [apply N.eqb_eq in E; subst c|]; reflexivity.
  - change (45 =? 43) with false. change (45 =? 45) with true. cbv iota. change (0 + len_utf8 45) with 1.
    destruct (c =? 48) eqn:E; [apply N.eqb_eq in E; subst c|]; reflexivity.
Qed.

Lemma parse_literal_digit sg c r sp : decimal c ->
  let lit := fst (sign_opt sg) ++ c :: r in
  exists i, parse_literal lit sp =
    if c =? 48 then parse_prefixed_int_float_or_date (i, r) lit sp sg
    else parse_decimal_int_float_or_date (i, r) lit sp (Z.of_N (c - 48)) sg.
Proof.
  intros D lit. subst lit. pose proof D as D'. apply is_digit_iff in D'. unfold decimal in D.
  exists (match sg with None => 1 | Some _ => 2 end).
  destruct sg as [s|].
  - rewrite parse_literal_signed. rewrite D', (len_utf8_ascii c) by lia. reflexivity.
  - cbn [sign_opt fst app parse_literal cnext snd].
    replace ((c =? 43) || (c =? 45)) with false by lia. rewrite D', (len_utf8_ascii c) by lia. reflexivity.
Qed.

Lemma bare_not {E} (b : res E unit) r v : bind b (fun _ : unit => Ok r) = Ok v -> r = v :> pval.
Proof. intros H. apply bind_ok in H as (x & _ & H). injection H as <-. reflexivity. Qed.

Lemma number_starts lit sp v : parse_literal lit sp = Ok v -> number v ->
  (exists sg c r, decimal c /\ lit = fst (sign_opt sg) ++ c :: r) \/ exists s, v = PFloat (FInf s) \/ v = PFloat (FNan s).
Proof.
  intros H N. destruct lit as [|c r]; [discriminate|].
  assert (X : (c = 43 \/ c = 45) \/ (c <> 43 /\ c <> 45)) by lia. destruct X as [X|X].
  - assert (S : exists s, [c] = fst (sign_opt (Some s))) by (destruct X; subst; [exists SPos|exists SNeg]; reflexivity).
    destruct S as (s & S). change (c :: r) with ([c] ++ r) in H |- *. rewrite S in H |- *. clear S X c.
    destruct r as [|c r]; [destruct s; discriminate|].
    rewrite parse_literal_signed in H.
    destruct (c =? 48) eqn:E.
    { left. exists (Some s), c, r. split; [unfold decimal; lia|reflexivity]. }
    destruct (is_digit c) eqn:D.
    { left. exists (Some s), c, r. split; [apply is_digit_iff; assumption|reflexivity]. }
    destruct ((c =? 105) || (c =? 73)). { right. apply bare_not in H. eauto. }
    destruct ((c =? 110) || (c =? 78)). { right. apply bare_not in H. eauto. }
    destruct (c =? 46); discriminate.
  - cbn [parse_literal cnext snd fst] in H.
    replace ((c =? 43) || (c =? 45)) with false in H by lia.
    destruct (c =? 48) eqn:E.
    { left. exists None, c, r. split; [unfold decimal; lia|reflexivity]. }
    destruct (is_digit c) eqn:D.
    { left. exists None, c, r. split; [apply is_digit_iff; assumption|reflexivity]. }
    destruct ((c =? 102) || (c =? 70)). { apply bare_not in H. subst v. destruct N as [(z & N)|(f & N)]; discriminate. }
    destruct ((c =? 116) || (c =? 84)). { apply bare_not in H. subst v. destruct N as [(z & N)|(f & N)]; discriminate. }
    destruct ((c =? 105) || (c =? 73)). { right. apply bare_not in H. eauto. }
    destruct ((c =? 110) || (c =? 78)). { right. apply bare_not in H. eauto. }
    destruct (c =? 95); discriminate.
Qed.

Theorem int_literals lit sp z :
  parse_literal lit sp = Ok (PInt z) <->
  (dec_int lit z /\ in_i64 z = true) \/ (exists v, prefixed_int lit v /\ z = wrap_i64 (Z.of_N v)).
Proof.
  split.
  - intros H. destruct (number_starts _ _ _ H) as [(sg & c & r & D & ->)|(s & [X|X])]; try discriminate; [left; eauto|].
    destruct (parse_literal_digit sg c r sp D) as (i & Q). rewrite Q in H. clear Q.
    destruct (c =? 48) eqn:E.
    + apply N.eqb_eq in E. subst c. apply zero_int in H as [(-> & ->)|(-> & pf & t & ds & vs & -> & U & F & ->)].
      * left. split; [|reflexivity].
        assert (K : 0%Z = signed (snd (sign_opt sg)) (dec_val [48])) by (destruct sg as [[]|]; reflexivity).
        rewrite K. constructor; [apply sign_opt_text|repeat constructor; unfold decimal; lia|left; reflexivity].
      * right. exists (radix_value pf 0 vs). split; [|reflexivity]. cbn [sign_opt fst app]. econstructor; eassumption.
    + apply dec_entry_int in H as (ds & U & -> & R); [|unfold decimal in D; lia].
      left. split; [|assumption]. rewrite <- signed_szn. constructor; [apply sign_opt_text|assumption|].
      right. cbn. lia.
  - intros [(H & R)|(v & H & ->)].
    + destruct H as [s neg t ds S U NZ]. apply sign_text_opt in S as (sg & S).
      assert (s = fst (sign_opt sg)) as -> by (rewrite S; reflexivity).
      assert (neg = snd (sign_opt sg)) as -> by (rewrite S; reflexivity).
      inversion U as [d r ds' D C]; subst.
      destruct (parse_literal_digit sg d r sp D) as (i & ->).
      destruct (d =? 48) eqn:E.
      * apply N.eqb_eq in E. subst d. destruct (us_zero _ _ U NZ _ eq_refl) as [-> E].
        rewrite E. apply zero_int. left. split; [reflexivity|]. destruct sg as [[]|]; reflexivity.
      * apply dec_entry_int; [unfold decimal in D; lia|]. exists (d :: ds'). split; [assumption|].
        rewrite <- signed_szn. auto.
    + destruct H as [pf t ds vs U F].
      destruct (parse_literal_digit None 48 (radix_letter pf :: t) sp) as (i & Q); [unfold decimal; lia|].
      cbn [sign_opt fst app] in Q. rewrite Q. change (48 =? 48) with true. cbv iota. apply zero_int. right.
      split; [reflexivity|]. exists pf, t, ds, vs. auto.
Qed.

Theorem float_literals lit sp f :
  parse_literal lit sp = Ok (PFloat f) <-> toml_float lit f \/ capital_float lit f.
Proof.
  split.
  - intros H.
    assert (N : number (PFloat f)) by (right; eauto).
    destruct (number_starts _ _ _ H N) as [(sg & c & r & D & ->)|(s & X)].
    + left. destruct (parse_literal_digit sg c r sp D) as (i & Q). rewrite Q in H. clear Q.
      destruct (c =? 48) eqn:E.
      * apply N.eqb_eq in E. subst c. apply zero_float in H as (ft & fds & et & e & F & X & NE & -> & ->).
        change (48 :: ft ++ et) with ([48] ++ ft ++ et).
        change (48 :: fds) with ([48] ++ fds).
        constructor; try assumption; [apply sign_opt_text|repeat constructor; unfold decimal; lia|left; reflexivity].
      * apply dec_entry_float in H as (it & ids & ft & fds & et & e & U & F & X & NE & EQ & ->); [|unfold decimal in D; lia].
        rewrite EQ. constructor; try assumption; [apply sign_opt_text|].
        right. inversion U; subst. cbn [app] in EQ. injection EQ as <- _. cbn. lia.
    + (* inf and nan *)
      destruct lit as [|c r]; [discriminate|].
      assert (Y : (c = 43 \/ c = 45) \/ (c <> 43 /\ c <> 45)) by lia. destruct Y as [Y|Y].
      * assert (S : exists t, [c] = fst (sign_opt (Some t))) by (destruct Y; subst; [exists SPos|exists SNeg]; reflexivity).
        destruct S as (t & S). change (c :: r) with ([c] ++ r) in H |- *. rewrite S in H |- *. clear S Y c.
        destruct r as [|c r]; [destruct t; discriminate|].
        rewrite parse_literal_signed in H.
        destruct (c =? 48) eqn:E.
        { exfalso. apply N.eqb_eq in E; subst c. apply zero_float in H as (ft & fds & et & e & _ & _ & _ & _ & ->). destruct X; discriminate. }
        destruct (is_digit c) eqn:D.
        { exfalso. apply is_digit_iff in D. unfold decimal in D. apply dec_entry_float in H as (it & ids & ft & fds & et & e & _ & _ & _ & _ & _ & ->); [destruct X; discriminate|lia]. }
        destruct ((c =? 105) || (c =? 73)) eqn:C1.
        { apply bind_ok in H as ([] & B & H). injection H as <-. apply bare_ok in B as [_ ->].
          assert (K : c = 105 \/ c = 73) by lia. destruct K; subst c.
          - left. destruct t; [apply (tf_inf [43] false); constructor|apply (tf_inf [45] true); constructor].
          - right. destruct t; constructor. }
        destruct ((c =? 110) || (c =? 78)) eqn:C2.
        { apply bind_ok in H as ([] & B & H). injection H as <-. apply bare_ok in B as [_ ->].
          assert (K : c = 110 \/ c = 78) by lia. destruct K; subst c.
          - left. destruct t; [apply (tf_nan [43] false); constructor|apply (tf_nan [45] true); constructor].
          - right. destruct t; constructor. }
        destruct (c =? 46); discriminate.
      * cbn [parse_literal cnext snd fst] in H.
        replace ((c =? 43) || (c =? 45)) with false in H by lia.
        destruct (c =? 48) eqn:E.
        { exfalso. apply N.eqb_eq in E; subst c. change (48 :: r) with (fst (sign_opt None) ++ 48 :: r) in H.
          apply zero_float in H as (ft & fds & et & e & _ & _ & _ & _ & ->). destruct X; discriminate. }
        destruct (is_digit c) eqn:D.
        { exfalso. apply is_digit_iff in D. unfold decimal in D. change (c :: r) with (fst (sign_opt None) ++ c :: r) in H.
          apply dec_entry_float in H as (it & ids & ft & fds & et & e & _ & _ & _ & _ & _ & ->); [destruct X; discriminate|lia]. }
        destruct ((c =? 102) || (c =? 70)). { apply bare_not in H. discriminate. }
        destruct ((c =? 116) || (c =? 84)). { apply bare_not in H. discriminate. }
        destruct ((c =? 105) || (c =? 73)) eqn:C1.
        { apply bind_ok in H as ([] & B & H). injection H as <-. apply bare_ok in B as [UP ->].
          left. assert (K : c = 105). { assert (K : c = 105 \/ c = 73) by lia. destruct K; [assumption|subst c; discriminate]. }
          subst c. apply (tf_inf [] false). constructor. }
        destruct ((c =? 110) || (c =? 78)) eqn:C2.
        { apply bind_ok in H as ([] & B & H). injection H as <-. apply bare_ok in B as [UP ->].
          left. assert (K : c = 110). { assert (K : c = 110 \/ c = 78) by lia. destruct K; [assumption|subst c; discriminate]. }
          subst c. apply (tf_nan [] false). constructor. }
        destruct (c =? 95); discriminate.
  - intros [H|H].
    + destruct H as [s neg it ids ft fds et e S U NZ F X NE|s neg S|s neg S].
      * apply sign_text_opt in S as (sg & S).
        assert (s = fst (sign_opt sg)) as -> by (rewrite S; reflexivity).
        assert (neg = snd (sign_opt sg)) as -> by (rewrite S; reflexivity). clear S.
        inversion U as [d r ds' D C]; subst. cbn [app].
        destruct (parse_literal_digit sg d (r ++ ft ++ et) sp D) as (i & ->).
        destruct (d =? 48) eqn:E.
        -- apply N.eqb_eq in E. subst d. destruct (us_zero _ _ U NZ _ eq_refl) as [-> E]. injection E as ->.
           apply zero_float. exists ft, fds, et, e. auto 10.
        -- apply dec_entry_float; [unfold decimal in D; lia|]. exists (d :: r), (d :: ds'), ft, fds, et, e. auto 10.
      * destruct S; reflexivity.
      * destruct S; reflexivity.
    + destruct H; reflexivity.
Qed.


(** Digits never start a boolean. *)
Lemma after_year_not_bool it sp y b : continue_parsing_date_time_after_year it sp y <> Ok (PBool b).
Proof.
  unfold continue_parsing_date_time_after_year. intros H.
  apply bind_ok in H as (((month & ms) & it1) & _ & H).
  apply bind_ok in H as (? & _ & H). apply bind_ok in H as (it2 & _ & H).
  apply bind_ok in H as (((day & dsp) & it3) & _ & H). apply bind_ok in H as (? & _ & H).
  cbv zeta in H. destruct (cnext it3) as [[[i c]|] it'].
  - destruct ((c =? 84) || (c =? 116)).
    + apply bind_ok in H as ((tm & o) & _ & H). discriminate.
    + destruct (is_digit c); discriminate.
  - discriminate.
Qed.
Lemma dec_loop_not_bool lit sp sg b : forall rest acc ovf lu i, dec_loop lit sp sg acc ovf lu i rest <> Ok (PBool b).
Proof.
  induction rest as [|c r IH]; intros acc ovf lu i; cbn [dec_loop].
  - destruct lu; [intros H; apply bind_ok in H as (x & _ & H); discriminate|]. destruct ovf; discriminate.
  - cbv zeta. repeat match goal with
    | |- (if ?b then _ else _) <> _ => destruct b
    | |- bind _ _ <> _ => let H := fresh in intros H; apply bind_ok in H as (? & _ & H); discriminate
    | |- match nth_error _ _ with _ => _ end <> _ => destruct (nth_error (utf8 lit) 4)
    end; try apply IH; try discriminate.
    + unfold as_invalid_datetime.
      destruct (continue_parsing_date_time_after_year _ _ _) eqn:E; try discriminate.
      rewrite <- E. apply after_year_not_bool.
Qed.
Lemma digit_not_bool sg c r sp b : decimal c -> parse_literal (fst (sign_opt sg) ++ c :: r) sp <> Ok (PBool b).
Proof.
  intros D. destruct (parse_literal_digit sg c r sp D) as (i & ->). destruct (c =? 48).
  - unfold parse_prefixed_int_float_or_date. destruct (cnext (i, r)) as [[[j x]|] it]; [|discriminate].
    destruct (radix_of x) as [[pf up]|].
    + destruct sg; [discriminate|]. destruct up; [discriminate|]. intros H. apply bind_ok in H as (? & _ & H). discriminate.
    + destruct (x =? 46); [intros H; apply bind_ok in H as (? & _ & H); discriminate|].
      destruct (_ || _); [intros H; apply bind_ok in H as (? & _ & H); discriminate|].
      destruct (_ && _).
      * unfold as_invalid_datetime.
        destruct (continue_parsing_date_time _ _ _) as [v|e|] eqn:E; try discriminate.
        intros H. injection H as ->. revert E. unfold continue_parsing_date_time.
        destruct (cnext it) as [[[i1 c1]|] it1]; [|discriminate].
        unfold bad_year_char. destruct (is_digit c1).
        -- destruct (cnext it1) as [[[i2 c2]|] it2]; [|discriminate]. destruct (is_digit c2).
           ++ intros H. apply bind_ok in H as (it3 & _ & H). exact (after_year_not_bool _ _ _ _ H).
           ++ destruct (_ || _); [discriminate|]. destruct (c2 =? 45); discriminate.
        -- destruct (c1 =? 58); [intros H; apply bind_ok in H as (? & _ & H); discriminate|].
           destruct (_ || _); [discriminate|]. destruct (c1 =? 45); discriminate.
      * destruct (_ || _); [discriminate|]. destruct sg; discriminate.
  - apply dec_loop_not_bool.
Qed.

Theorem bool_literals lit sp b : parse_literal lit sp = Ok (PBool b) <-> toml_bool lit b.
Proof.
  split.
  - intros H. destruct lit as [|c r]; [discriminate|].
    assert (Y : (c = 43 \/ c = 45) \/ (c <> 43 /\ c <> 45)) by lia. destruct Y as [Y|Y].
    + exfalso.
      assert (S : exists t, [c] = fst (sign_opt (Some t))) by (destruct Y; subst; [exists SPos|exists SNeg]; reflexivity).
      destruct S as (t & S). change (c :: r) with ([c] ++ r) in H. rewrite S in H. clear S Y c.
      destruct r as [|c r]; [destruct t; discriminate|].
      destruct (is_digit c) eqn:D. { apply is_digit_iff in D. exact (digit_not_bool _ _ _ _ _ D H). }
      rewrite parse_literal_signed in H. rewrite D in H.
      destruct (c =? 48) eqn:E; [apply N.eqb_eq in E; subst c; discriminate|].
      destruct ((c =? 105) || (c =? 73)). { apply bare_not in H. discriminate. }
      destruct ((c =? 110) || (c =? 78)). { apply bare_not in H. discriminate. }
      destruct (c =? 46); discriminate.
    + destruct (is_digit c) eqn:D. { apply is_digit_iff in D. exfalso. exact (digit_not_bool None _ _ _ _ D H). }
      cbn [parse_literal cnext snd fst] in H. rewrite D in H.
      replace ((c =? 43) || (c =? 45)) with false in H by lia.
      replace (c =? 48) with false in H by (unfold is_digit in D; lia).
      destruct ((c =? 102) || (c =? 70)) eqn:C1.
      { apply bind_ok in H as ([] & B & H). injection H as <-. apply bare_ok in B as [UP ->].
        assert (K : c = 102 \/ c = 70) by lia. destruct K; subst c; [constructor|discriminate]. }
      destruct ((c =? 116) || (c =? 84)) eqn:C2.
      { apply bind_ok in H as ([] & B & H). injection H as <-. apply bare_ok in B as [UP ->].
        assert (K : c = 116 \/ c = 84) by lia. destruct K; subst c; [constructor|discriminate]. }
      destruct ((c =? 105) || (c =? 73)). { apply bare_not in H. discriminate. }
      destruct ((c =? 110) || (c =? 78)). { apply bare_not in H. discriminate. }
      destruct (c =? 95); discriminate.
  - destruct 1; reflexivity.
Qed.
