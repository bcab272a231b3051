(** Reading a literal never panics and reports errors inside the literal
    (C46). *)
From Verif Require Import Base BaseProofs CommonModel TomlError LitModel LitSpec LitNum LitInt LitWhole LitDate.
Ltac Zify.zify_post_hook ::= Z.div_mod_to_equations.

Lemma tlen_under r : count_underscores r <= tlen r.
Proof.
  induction r as [|c r IH]; [cbn; lia|]. pose proof (len_utf8_pos c).
  assert (X : c <> 95 \/ c = 95) by lia. destruct X as [X| ->].
  - replace (count_underscores (c :: r)) with 0; [cbn [tlen]; lia|].
    cbn. destruct c as [|q]; [reflexivity|]. repeat (destruct q as [q|q|]; try reflexivity). congruence.
  - change (count_underscores (95 :: r)) with (1 + count_underscores r). cbn [tlen]. change (len_utf8 95) with 1. lia.
Qed.

Lemma utf8_ascii t : Forall (fun c => c < 128) t -> utf8 t = t.
Proof.
  unfold utf8. induction 1 as [|c t C F IH]; [reflexivity|]. cbn [flat_map]. rewrite IH.
  unfold utf8_char. replace (c <? 128) with true by lia. reflexivity.
Qed.

Lemma tlen_ascii t : Forall (fun c => c < 128) t -> tlen t = N.of_nat (length t).
Proof. induction 1 as [|c t C F IH]; [reflexivity|]. cbn [tlen length]. rewrite len_utf8_ascii, IH by assumption. lia. Qed.

Lemma tlen_app a b : tlen (a ++ b) = tlen a + tlen b.
Proof. induction a as [|c a IH]; cbn [app tlen]; [reflexivity|lia]. Qed.

(** ** Digits read so far *)
Definition sofar (P : N -> Prop) (lu : bool) (t ds : list N) : Prop := exists t', us P t' ds /\ t = if lu then t' ++ [95] else t'.
Lemma us_cont_snoc P t ds c : us_cont P t ds -> P c -> us_cont P (t ++ [c]) (ds ++ [c]) /\ us_cont P (t ++ [95; c]) (ds ++ [c]).
Proof. intros H C. induction H as [|d t ds D H [I1 I2]|d t ds D H [I1 I2]]; cbn [app]; split; repeat (constructor; auto). Qed.
Lemma us_snoc P t ds c : us P t ds -> P c -> us P (t ++ [c]) (ds ++ [c]) /\ us P (t ++ [95; c]) (ds ++ [c]).
Proof. intros [d t' ds' D H] C. destruct (us_cont_snoc _ _ _ _ H C). cbn [app]. split; constructor; assumption. Qed.
Lemma sofar_digit P lu t ds c : sofar P lu t ds -> P c -> sofar P false (t ++ [c]) (ds ++ [c]).
Proof.
  intros (t' & U & ->) C. destruct (us_snoc _ _ _ _ U C) as [A B]. destruct lu; [|eexists; split; [exact A|reflexivity]].
  rewrite <- app_assoc. cbn [app]. eexists. split; [exact B|reflexivity].
Qed.
Lemma sofar_us P t ds : sofar P false t ds -> sofar P true (t ++ [95]) ds.
Proof. intros (t' & U & ->). exists t'. auto. Qed.
Lemma sofar_one (P : N -> Prop) c : P c -> sofar P false [c] [c].
Proof. intros C. exists [c]. split; [constructor; [exact C|constructor]|reflexivity]. Qed.

Definition part_state (p : lit_part) (first lu : bool) (u : list N) : Prop :=
  exists x d, u = x ++ d /\ before_part p x /\ ((first = true /\ lu = false /\ d = []) \/ (first = false /\ exists ds, sofar (part_digit p) lu d ds)).
Lemma st_init p u : before_part p u -> part_state p true false u.
Proof. intros B. exists u, []. split; [symmetry; apply app_nil_r|]. split; [exact B|left; auto]. Qed.
Lemma st_digit p first lu u c : part_state p first lu u -> part_digit p c -> part_state p false false (u ++ [c]).
Proof.
  intros (x & d & -> & B & [(_ & _ & ->)|(_ & ds & S)]) C.
  - exists x, [c]. rewrite app_nil_r. split; [reflexivity|]. split; [exact B|]. right. split; [reflexivity|]. exists [c]. apply sofar_one. exact C.
  - exists x, (d ++ [c]). rewrite app_assoc. split; [reflexivity|]. split; [exact B|]. right. split; [reflexivity|]. exists (ds ++ [c]). eapply sofar_digit; eassumption.
Qed.
Lemma st_us p u : part_state p false false u -> part_state p false true (u ++ [95]).
Proof.
  intros (x & d & -> & B & [(X & _)|(_ & ds & S)]); [discriminate|]. exists x, (d ++ [95]). rewrite app_assoc. split; [reflexivity|]. split; [exact B|].
  right. split; [reflexivity|]. exists ds. apply sofar_us. exact S.
Qed.
Lemma st_in p first lu u : part_state p first lu u -> in_part p u.
Proof.
  intros (x & d & -> & B & [(_ & _ & ->)|(_ & ds & t' & U & E)]); eexists _, _; (split; [reflexivity|]); (split; [exact B|]); [left; reflexivity|].
  right. exists t', ds. split; [exact U|]. destruct lu; auto.
Qed.
Lemma st_start p lu u : part_state p true lu u -> before_part p u.
Proof. intros (x & d & -> & B & [(_ & _ & ->)|(X & _)]); [rewrite app_nil_r; exact B|discriminate]. Qed.
Lemma st_after p u : part_state p false true u -> exists u', u = u' ++ [95] /\ after_digit p u'.
Proof.
  intros (x & d & -> & B & [(X & _)|(_ & ds & t' & U & ->)]); [discriminate|]. exists (x ++ t'). rewrite app_assoc. split; [reflexivity|].
  exists x, t', ds. auto.
Qed.
Lemma st_done p u : part_state p false false u -> after_digit p u.
Proof. intros (x & d & -> & B & [(X & _)|(_ & ds & t' & U & ->)]); [discriminate|]. exists x, t', ds. auto. Qed.
Lemma st_lu p first lu u : part_state p first lu u -> lu = true -> first = false.
Proof. intros (x & d & -> & B & [(_ & -> & ->)|(X & _)]); [discriminate|auto]. Qed.

Lemma parse_float_fract lit sp : after_digit LPFloatFract lit -> exists f, parse_float lit sp = Ok f.
Proof.
  intros (x & d & ds & -> & B & U). inversion B as [| | | | |sg neg t ts S T NZ|]; subst. eexists. rewrite <- !app_assoc. cbn [app].
  pose proof (parse_float_text sg neg t ts (46 :: d) ds [] 0%Z sp S T ltac:(constructor; exact U) ltac:(constructor)) as P. rewrite app_nil_r in P. exact P.
Qed.
Lemma parse_float_exp lit sp : after_digit LPFloatExp lit -> exists f, parse_float lit sp = Ok f.
Proof.
  intros (x & d & ds & -> & B & U). inversion B as [| | | | | |sg neg t ts ft fds e sg' neg' S T NZ F E S']; subst. eexists. rewrite <- !app_assoc. cbn [app].
  apply parse_float_text; [exact S|exact T|exact F|eapply ex_some; [exact E|exact S'|exact U]].
Qed.
Lemma fract_exp u e sg neg : after_digit LPFloatFract u -> e = 101 \/ e = 69 -> sign_text sg neg -> before_part LPFloatExp ((u ++ [e]) ++ sg).
Proof.
  intros (x & d & ds & -> & B & U) E S. inversion B as [| | | | |sg0 neg0 t ts S0 T NZ|]; subst. rewrite <- !app_assoc. cbn [app].
  apply (bp_exp sg0 neg0 t ts (46 :: d) ds e sg neg); auto. constructor. exact U.
Qed.

Section Good.
  Context (p : pos) (lit : list N).
  Let sp := lit_span p lit.

  Definition good {A} (Q : A -> Prop) (r : res terror A) : Prop :=
    match r with Ok a => Q a | Err e => explained p lit e | Panic => False end.
  Definition any {A} (_ : A) : Prop := True.
  (** The iterator stands behind the part [u] of the literal. *)
  Definition inv (u : list N) (it : citer) : Prop := lit = u ++ snd it /\ fst it = tlen u.
  Definition inv_ (it : citer) : Prop := exists u, inv u it.

  Lemma good_bind {A B} (Q : A -> Prop) (R : B -> Prop) (r : res terror A) f :
    good Q r -> (forall a, Q a -> good R (f a)) -> good R (bind r f).
  Proof. destruct r; cbn; auto. Qed.

  Ltac app_eq := rewrite <- ?app_assoc; cbn [app]; rewrite ?app_nil_r; reflexivity.
  Ltac ins_ u v EL := cbn [fst snd]; cbn [good]; exists u, v; eexists; split; [etransitivity; [exact EL|rewrite <- ?app_assoc; cbn [app]; reflexivity]|];
    split; [cbn [err_span]; unfold sp, lit_span, span_from_pos_len, span_pos, span_ascii_char, pos_plus; cbn [p_line p_char s_start s_end fst snd];
    rewrite ?tlen_app; cbn [tlen]; try change (len_utf8 95) with 1; f_equal; f_equal; lia|cbn [lit_says]].
  Ltac ins u v EL := ins_ u v EL; reflexivity.
  Lemma ins_at u v w e : lit = u ++ v ++ w -> err_span e = mkspan (pos_plus p (tlen u)) (pos_plus p (tlen u + tlen v)) -> lit_says e u v w -> explained p lit e.
  Proof. intros E S L. exists u, v, w. auto. Qed.
  Ltac insx u v w EI := cbn [fst snd good]; apply (ins_at u v w); [|cbn [err_span]; unfold sp, lit_span, span_from_pos_len, span_pos, span_ascii_char, pos_plus; cbn [p_line p_char s_start s_end fst snd]; rewrite <- ?EI; cbn [tlen]; try change (len_utf8 95) with 1; f_equal; f_equal; lia|cbn [lit_says]].

  Lemma ins_whole e : err_span e = sp -> lit_says e [] lit [] -> explained p lit e.
  Proof.
    intros H S. exists [], lit, []. split; [rewrite app_nil_r; reflexivity|]. split; [|exact S]. rewrite H. unfold sp, lit_span, span_from_pos_len, pos_plus. cbn [tlen].
    destruct p as [pl pc]. cbn [p_line p_char]. f_equal; f_equal; lia.
  Qed.
  Lemma ins_end e : err_span e = span_pos (s_end sp) -> lit_says e lit [] [] -> explained p lit e.
  Proof.
    intros H S. exists lit, [], []. split; [rewrite !app_nil_r; reflexivity|]. split; [|exact S]. rewrite H. unfold sp, lit_span, span_pos, span_from_pos_len, pos_plus. cbn [tlen s_end].
    f_equal; f_equal; lia.
  Qed.
  Ltac at_end := cbn [good]; apply ins_end; [reflexivity|cbn [lit_says]; try reflexivity].

  Lemma good_end (k : pos -> terror) u : (forall p, err_span (k p) = span_ascii_char p /\ lit_says (k p) u [95] []) -> lit = u ++ [95] ->
    forall A (Q : A -> Prop), good Q (let? p := pos_minus_p (s_end sp) 1 in Err (k p)).
  Proof.
    intros K U A Q. assert (L : tlen lit = tlen u + 1) by (rewrite U, tlen_app; reflexivity).
    unfold pos_minus_p, pos_minus, sp, lit_span, span_from_pos_len, pos_plus. cbn [s_end p_char p_line].
    replace (1 <=? p_char p + tlen lit) with true by lia. cbn [bind good]. destruct (K (mkpos (p_line p) (p_char p + tlen lit - 1))) as [KS KL].
    exists u, [95], []. split; [exact U|]. split; [|exact KL]. rewrite KS. change (tlen [95]) with 1. unfold span_ascii_char, pos_plus. cbn [p_line p_char]. f_equal; f_equal; lia.
  Qed.
  Lemma split_us r : exists w, r = repeat 95 (N.to_nat (count_underscores r)) ++ w /\ ~ begins (eq 95) w.
  Proof.
    induction r as [|c r (w & IH & NB)]; [exists []; split; [reflexivity|intros (? & ? & X & _); discriminate]|].
    assert (X : c <> 95 \/ c = 95) by lia. destruct X as [X| ->].
    - exists (c :: r). split; [|intros (? & ? & Y & <-); injection Y as Y _; congruence]. replace (count_underscores (c :: r)) with 0; [reflexivity|].
      cbn. destruct c as [|q]; [reflexivity|]. repeat (destruct q as [q|q|]; try reflexivity). congruence.
    - exists w. split; [|exact NB]. change (count_underscores (95 :: r)) with (1 + count_underscores r). replace (N.to_nat (1 + count_underscores r)) with (S (N.to_nat (count_underscores r))) by lia. cbn [repeat app]. f_equal. exact IH.
  Qed.
  Lemma tlen_repeat k : tlen (repeat 95 k) = N.of_nat k.
  Proof. induction k as [|k IH]; [reflexivity|]. cbn [repeat tlen]. rewrite IH. change (len_utf8 95) with 1. lia. Qed.
  Lemma good_consec {A} (Q : A -> Prop) part u i r : part_state part false true u -> lit = u ++ 95 :: r -> i = tlen u ->
    good Q (let? j := pred_p i in consecutive_underscore_error r (pos_plus (s_start sp) j)).
  Proof.
    intros S EL ->. destruct (st_after _ _ S) as (u' & -> & AD). rewrite tlen_app. change (tlen [95]) with 1. unfold pred_p. replace (tlen u' + 1 =? 0) with false by lia. cbn [bind].
    unfold consecutive_underscore_error. destruct (split_us r) as (w & R & NB). cbn [good].
    exists u', (95 :: 95 :: repeat 95 (N.to_nat (count_underscores r))), w. split; [|split; [|split; [eexists; reflexivity|split; [exact NB|exists part; exact AD]]]]; cbn [err_span].
    - rewrite EL, <- app_assoc. cbn [app]. do 3 f_equal. exact R.
    - cbn [tlen]. rewrite tlen_repeat. change (len_utf8 95) with 1. unfold sp, lit_span, span_from_pos_len, pos_plus. cbn [s_start p_line p_char]. f_equal; f_equal; lia.
  Qed.

  Ltac chr c := pose proof (len_utf8_pos c).
  Lemma snoc_app (u : list N) c r : u ++ c :: r = (u ++ [c]) ++ r.
  Proof. rewrite <- app_assoc. reflexivity. Qed.
  Lemma tlen_snoc u c : tlen (u ++ [c]) = tlen u + len_utf8 c.
  Proof. rewrite tlen_app. cbn [tlen]. lia. Qed.
  Lemma not_us c (u : list N) : (c =? 95) = false -> c = 95 -> u = [43] \/ u = [45].
  Proof. lia. Qed.
  Lemma not_digit c : is_digit c = false -> ~ decimal c.
  Proof. intros D H. apply is_digit_iff in H. congruence. Qed.

  Lemma good_exp : forall rest u first lu i, part_state LPFloatExp first lu u -> lit = u ++ rest -> i = tlen u ->
    good any (float_exp_loop lit sp first lu i rest).
  Proof.
    induction rest as [|c r IH]; intros u first lu i L E EI; cbn [float_exp_loop].
    - rewrite app_nil_r in E. destruct lu.
      + rewrite (st_lu _ _ _ _ L eq_refl) in L. destruct (st_after _ _ L) as (u' & U & AD). apply (good_end _ u'); [|rewrite E; exact U].
        intros q. split; [reflexivity|]. split; [reflexivity|]. split; [exact AD|reflexivity].
      + destruct first.
        * apply st_start in L. rewrite <- E in L. destruct (parse_float lit sp) as [f|e|] eqn:PF; [exact I| |unfold parse_float in PF; destruct (f64_from_str _); discriminate].
          unfold parse_float in PF. destruct (f64_from_str _); [discriminate|]. injection PF as <-. cbn [good]. apply ins_whole; [reflexivity|]. cbn [lit_says]. auto.
        * apply st_done in L. rewrite <- E in L. destruct (parse_float_exp _ sp L) as (f & ->). exact I.
    - destruct (is_digit c) eqn:D.
      { apply (IH (u ++ [c])); [eapply st_digit; [exact L|apply is_digit_iff; exact D]|rewrite E; apply snoc_app|rewrite tlen_snoc, EI; reflexivity]. }
      destruct (c =? 95) eqn:U; [apply N.eqb_eq in U; subst c|].
      + destruct first; [ins_ u [95] E; split; [reflexivity|exact (st_start _ _ _ L)]|]. destruct lu; [eapply good_consec; [exact L|exact E|exact EI]|].
        apply (IH (u ++ [95])); [apply st_us; exact L|rewrite E; apply snoc_app|rewrite tlen_snoc, EI; reflexivity].
      + ins_ u [c] E. split; [reflexivity|]. split; [exact (st_in _ _ _ _ L)|]. split; [apply not_digit; exact D|apply not_us; exact U].
  Qed.
  Lemma good_exponent u i rest : (forall sg neg, sign_text sg neg -> before_part LPFloatExp (u ++ sg)) -> lit = u ++ rest -> i = tlen u -> good any (validate_float_exponent lit sp i rest).
  Proof.
    intros B E EI. unfold validate_float_exponent.
    assert (B0 : part_state LPFloatExp true false u) by (apply st_init; rewrite <- (app_nil_r u); eapply B; constructor).
    destruct rest as [|c r]; [eapply good_exp; [exact B0|exact E|exact EI]|].
    destruct ((c =? 45) || (c =? 43)) eqn:C.
    - apply (good_exp _ (u ++ [c])); [|rewrite E; apply snoc_app|rewrite tlen_snoc, EI, len_utf8_ascii by lia; reflexivity]. apply st_init.
      assert (X : c = 45 \/ c = 43) by lia. destruct X as [-> | ->]; eapply B; constructor.
    - eapply good_exp; [exact B0|exact E|exact EI].
  Qed.
  Lemma good_fract_loop start : forall rest u lu i, part_state LPFloatFract (i =? start) lu u -> (i = start -> rest <> []) -> lit = u ++ rest -> i = tlen u ->
    start <= i -> good any (float_fract_loop lit sp start lu i rest).
  Proof.
    induction rest as [|c r IH]; intros u lu i L NE E EI SI; cbn [float_fract_loop].
    - replace (i =? start) with false in L by (symmetry; apply N.eqb_neq; intros X; exact (NE X eq_refl)). rewrite app_nil_r in E. destruct lu.
      + destruct (st_after _ _ L) as (u' & U & AD). apply (good_end _ u'); [|rewrite E; exact U].
        intros q. split; [reflexivity|]. split; [reflexivity|]. split; [exact AD|left; reflexivity].
      + apply st_done in L. rewrite <- E in L. destruct (parse_float_fract _ sp L) as (f & ->). exact I.
    - pose proof (len_utf8_pos c) as LC.
      assert (NX : i + len_utf8 c =? start = false) by lia.
      destruct (is_digit c) eqn:D.
      { apply (IH (u ++ [c])); [rewrite NX; eapply st_digit; [exact L|apply is_digit_iff; exact D]|lia|rewrite E; apply snoc_app|rewrite tlen_snoc, EI; reflexivity|lia]. }
      destruct ((c =? 101) || (c =? 69)) eqn:EE.
      + assert (EC : c = 101 \/ c = 69) by lia. clear EE.
        destruct (i =? start) eqn:IS; [ins_ u (@nil N) E; split; [reflexivity|]; split; [exact (st_start _ _ _ L)|right; exists c, r; auto]|]. destruct lu.
        * destruct (st_after _ _ L) as (u' & U & AD). subst u. rewrite tlen_snoc in EI. change (len_utf8 95) with 1 in EI.
          unfold pred_p. replace (i =? 0) with false by lia. cbn [bind]. rewrite <- app_assoc in E. ins_ u' [95] E. split; [reflexivity|]. split; [exact AD|]. right. exists c, r. auto.
        * apply (good_exponent (u ++ [c])); [|rewrite E; apply snoc_app|rewrite tlen_snoc, EI; reflexivity]. intros sg neg S. eapply fract_exp; [exact (st_done _ _ L)|exact EC|exact S].
      + destruct (c =? 95) eqn:U; [apply N.eqb_eq in U; subst c|].
        * destruct (i =? start) eqn:IS; [ins_ u [95] E; split; [reflexivity|exact (st_start _ _ _ L)]|]. destruct lu; [eapply good_consec; [exact L|exact E|exact EI]|].
          apply (IH (u ++ [95])); [rewrite NX; apply st_us; exact L|lia|rewrite E; apply snoc_app|rewrite tlen_snoc, EI; reflexivity|lia].
        * ins_ u [c] E. split; [reflexivity|]. split; [exact (st_in _ _ _ _ L)|]. split; [apply not_digit; exact D|apply not_us; exact U].
  Qed.
  Lemma good_fraction start u i rest : before_part LPFloatFract u -> lit = u ++ rest -> i = tlen u -> start = i -> good any (validate_float_fractional_part lit sp start i rest).
  Proof.
    intros B E EI ->. unfold validate_float_fractional_part. destruct rest.
    - rewrite app_nil_r in E. at_end. split; [reflexivity|]. split; [rewrite E; exact B|left; reflexivity].
    - eapply good_fract_loop; [rewrite N.eqb_refl; apply st_init; exact B|discriminate|exact E|exact EI|lia].
  Qed.

  (** ** Dates *)
  Lemma good_then {A B} (R : B -> Prop) (r : res terror A) f : good any r -> (forall a, r = Ok a -> good R (f a)) -> good R (bind r f).
  Proof. destruct r; cbn; auto. Qed.
  Lemma inv_text u t i s r : inv u (i, s) -> s = t ++ r -> Forall (fun c => c < 128) t -> inv (u ++ t) (i + tlen t, r).
  Proof. intros [E EI] -> F. cbn [fst snd] in *. split; cbn [fst snd]; [rewrite E; apply app_assoc|rewrite tlen_app, EI; reflexivity]. Qed.
  Lemma inv_one u c i s : inv u (i, c :: s) -> inv (u ++ [c]) (i + len_utf8 c, s).
  Proof. intros [E EI]. cbn [fst snd] in *. split; cbn [fst snd]; [rewrite E; apply snoc_app|rewrite tlen_snoc, EI; reflexivity]. Qed.
  Lemma two_len n : n < 100 -> tlen (two n) = 2.
  Proof. intros L. destruct (two_digits n L). unfold two, decimal in *. cbn [tlen]. rewrite !len_utf8_ascii by lia. lia. Qed.
  Lemma inv_two u n i s : n < 100 -> inv u (i, two n ++ s) -> inv (u ++ two n) (i + 2, s).
  Proof. intros L [E EI]. cbn [fst snd] in *. split; cbn [fst snd]; [rewrite E; apply app_assoc|rewrite tlen_app, two_len, EI by exact L; reflexivity]. Qed.

  Lemma good_expect_char u it f e : inv u it -> dt_after f u -> In e (dt_next f) -> good any (expect_char it sp f e).
  Proof.
    destruct it as [i s]. intros [E EI] DA IE. unfold expect_char, cnext. cbn [fst snd] in *.
    destruct s as [|c s].
    - rewrite app_nil_r in E. at_end. split; [reflexivity|]. split; [exact IE|]. split; [rewrite E; exact DA|left; reflexivity].
    - destruct (c =? e) eqn:CE; [exact I|]. ins_ u [c] E. split; [reflexivity|]. split; [lia|]. split; [exact IE|exact DA].
  Qed.
  Lemma within_one f u c : f <> DYear -> dt_before f u -> decimal c -> dt_within f (u ++ [c]).
  Proof. intros NY B D. destruct f; try congruence; exists u, c; auto. Qed.
  Lemma good_two u it nexts f : inv u it -> f <> DYear -> dt_before f u -> (forall c, In c nexts -> In c (dt_next f)) ->
    good any (expect_two_digit_num it nexts sp f).
  Proof.
    destruct it as [i s]. intros [E EI] NY B NX. unfold expect_two_digit_num, cnext. cbn [fst snd] in *.
    assert (NE : forall c l, existsb (N.eqb c) l = true -> In c l).
    { intros c l H. apply existsb_exists in H as (x & H & X). apply N.eqb_eq in X. subst x. exact H. }
    destruct s as [|c s]; [rewrite app_nil_r in E; at_end; split; [reflexivity|split; [rewrite E; exact B|left; reflexivity]]|]. destruct (is_digit c) eqn:D.
    - pose proof (proj1 (is_digit_iff _) D) as DD. cbn [tlen fst snd] in *. assert (L : len_utf8 c = 1) by (unfold decimal in DD; apply len_utf8_ascii; lia).
      pose proof (within_one f u c NY B DD) as W. assert (E' : lit = (u ++ [c]) ++ s) by (rewrite E; apply snoc_app).
      destruct s as [|c1 s]; [rewrite app_nil_r in E'; at_end; split; [reflexivity|left; split; [rewrite E'; exact W|left; reflexivity]]|].
      cbn [fst snd]. destruct (is_digit c1) eqn:D1; [exact I|].
      destruct (existsb _ _) eqn:EX.
      + ins_ (u ++ [c]) (@nil N) E'. split; [reflexivity|]. left. split; [exact W|right]. exists c1, s. split; [reflexivity|]. apply NX, NE, EX.
      + ins_ (u ++ [c]) [c1] E'. split; [reflexivity|]. split; [right; left; exists f; exact W|intros X; destruct (not_digit _ D1 X)].
    - destruct (existsb _ _) eqn:EX.
      + ins_ u (@nil N) E. split; [reflexivity|]. split; [exact B|right]. exists c, s. split; [reflexivity|]. apply NX, NE, EX.
      + ins_ u [c] E. split; [reflexivity|]. split; [left; exists f; exact B|intros X; destruct (not_digit _ D X)].
  Qed.
  Lemma good_range u f n w lo hi s : lit = u ++ two n ++ w -> n < 100 -> s = mkspan (pos_plus p (tlen u)) (pos_plus (pos_plus p (tlen u)) 2) ->
    dt_before f u -> dt_range f u lo hi -> good any (check_range n s lo hi f).
  Proof.
    intros E N1 -> B R. unfold check_range. destruct (_ && _) eqn:C; [exact Logic.I|]. exists u, (two n), w.
    split; [exact E|]. split; [|split; [exact B|split; [exact R|split; [lia|left; auto]]]]. rewrite two_len by exact N1. cbn [err_span]. unfold pos_plus. cbn [p_line p_char]. f_equal; f_equal; lia.
  Qed.
  Lemma after_two f u n lo hi : f <> DYear -> dt_before f u -> dt_range f u lo hi -> lo <= n <= hi -> dt_after f (u ++ two n).
  Proof. intros NY B R L. destruct f; try congruence; exists u, n, lo, hi; auto. Qed.

  (** A number of two digits, then a check of its range. *)
  Lemma field_step {B} (R : B -> Prop) u it nexts f lo hi (k : N -> citer -> res terror B) :
    inv u it -> f <> DYear -> dt_before f u -> dt_range f u lo hi -> (forall c, In c nexts -> In c (dt_next f)) ->
    (forall n it', n < 100 -> lo <= n <= hi -> inv (u ++ two n) it' -> good R (k n it')) ->
    good R (let? (n, s, it') := expect_two_digit_num it nexts sp f in let? _ := check_range n s lo hi f in k n it').
  Proof.
    intros E NY DB DR NX K. apply good_then; [apply (good_two u); assumption|]. intros [[n s] [i' r]] H. destruct it as [i t].
    apply expect_two_iff in H as (L & -> & -> & ->). pose proof (inv_two _ _ _ _ L E) as E2. destruct E as [E EI]. cbn [fst snd] in *.
    apply good_then; [eapply good_range; [exact E|exact L|rewrite EI; reflexivity|exact DB|exact DR]|]. intros [] H. apply check_range_iff in H. apply K; assumption.
  Qed.
  Lemma char_step {B} (R : B -> Prop) u it f e (k : citer -> res terror B) :
    inv u it -> dt_after f u -> In e (dt_next f) -> e < 128 -> (forall it', inv (u ++ [e]) it' -> good R (k it')) ->
    good R (let? it' := expect_char it sp f e in k it').
  Proof.
    intros E DA IE LE K. apply good_then; [apply (good_expect_char u); assumption|]. intros [i' r] H. destruct it as [i s].
    apply expect_char_iff in H as [-> ->]; [|exact LE]. apply K. pose proof (inv_one _ _ _ _ E) as X. rewrite len_utf8_ascii in X by exact LE. exact X.
  Qed.
  Ltac nexts := let c := fresh in let H := fresh in intros c H; cbn [dt_next]; exact H.

  Lemma good_subsec x sec : dt_before DSecond x -> sec < 60 -> forall s ds d v i, Forall decimal ds -> (d = 0 <-> ds = []) ->
    lit = (x ++ two sec ++ [46] ++ ds) ++ s -> i = tlen (x ++ two sec ++ [46] ++ ds) -> good any (subsec_loop sp d v i s).
  Proof.
    intros B L60.
    assert (FIN : forall s ds d v i, Forall decimal ds -> (d = 0 <-> ds = []) -> (s = [] \/ begins (fun c => In c (dt_next DSecond)) s) ->
       lit = (x ++ two sec ++ [46] ++ ds) ++ s ->
       good (@any (N * citer)) (if d =? 0 then Err (EDateTimeMissingSubsec (s_end sp)) else Ok (v * 10 ^ (9 - d), (i, s)))).
    { intros s ds d v i F D0 S E. destruct (d =? 0) eqn:D; [|exact I]. at_end. split; [reflexivity|]. split; [reflexivity|].
      assert (ds = []) as -> by (apply D0; lia). exists x, sec, s. split; [rewrite E, app_nil_r, <- !app_assoc; reflexivity|]. auto. }
    induction s as [|c s IH]; intros ds d v i F D0 E EI; cbn [subsec_loop]; [eapply FIN; eauto|].
    destruct (is_digit c) eqn:D.
    - apply is_digit_iff in D. pose proof D as D'. unfold decimal in D'. pose proof (len_utf8_ascii c ltac:(lia)) as L.
      assert (F' : Forall decimal (ds ++ [c])) by (apply Forall_app; split; [exact F|constructor; [exact D|constructor]]).
      assert (E' : lit = (x ++ two sec ++ [46] ++ ds ++ [c]) ++ s) by (rewrite E, <- !app_assoc; reflexivity).
      assert (EI' : i + 1 = tlen (x ++ two sec ++ [46] ++ ds ++ [c])) by (rewrite EI, !tlen_app; cbn [tlen]; lia).
      assert (NZ : forall k, k <> 0 -> (k = 0 <-> ds ++ [c] = [])) by (intros k K; split; [congruence|intros X; destruct ds; discriminate]).
      destruct (d <? 9) eqn:D9; apply (IH (ds ++ [c])); try assumption; apply NZ; lia.
    - destruct (is_offset_start c) eqn:O.
      { eapply FIN; [exact F|exact D0| |exact E]. right. exists c, s. split; [reflexivity|]. unfold is_offset_start in O. cbn [dt_next In]. lia. }
      unfold unexpected_char_error. insx (x ++ two sec ++ [46] ++ ds) [c] s EI; [exact E|]. split; [reflexivity|]. split; [|intros X; destruct (not_digit _ D X)].
      right. right. left. exists x, sec, (46 :: ds). split; [reflexivity|]. split; [exact B|]. split; [exact L60|]. right. exists ds. auto.
  Qed.
  Lemma subsec_seconds x sec ft n : dt_before DSecond x -> sec < 60 -> subsec_text ft n -> dt_seconds (x ++ two sec ++ ft).
  Proof. intros B L S. exists x, sec, ft. split; [reflexivity|]. split; [exact B|]. split; [exact L|]. destruct S as [|ds NE F]; [left; reflexivity|right; exists ds; auto]. Qed.
  Lemma good_time u it h : inv u it -> dt_before DMinute u -> good any (continue_parsing_time it sp h).
  Proof.
    intros E B. unfold continue_parsing_time.
    apply (field_step _ u); [exact E|discriminate|exact B|constructor|nexts|]. intros m it1 _ LM E1.
    apply (char_step _ (u ++ two m) _ DMinute); [exact E1|eapply after_two; [discriminate|exact B|constructor|exact LM]|left; reflexivity|lia|]. intros it2 E2.
    assert (B2 : dt_before DSecond ((u ++ two m) ++ [58])) by (rewrite <- app_assoc; constructor; [exact B|lia]). revert E2 B2. generalize ((u ++ two m) ++ [58]) as x. intros x E2 B2.
    apply (field_step _ x); [exact E2|discriminate|exact B2|constructor|nexts|]. intros s it3 L3 LS E3.
    assert (S60 : s < 60) by lia.
    apply good_then.
    { destruct it3 as [i [|c r]]; [exact I|]. cbn [fst snd] in *. destruct (N.eq_dec c 46) as [->|X].
      - destruct E3 as [E3 EI]. cbn [fst snd] in *. unfold parse_subsec. cbn [fst snd]. apply (good_subsec x s B2 S60 r []); [constructor|tauto| |].
        + rewrite E3. rewrite <- !app_assoc. reflexivity.
        + rewrite EI, !tlen_app. cbn [tlen]. change (len_utf8 46) with 1. lia.
      - destruct c as [|q]; [exact I|]. repeat (destruct q as [q|q|]; try exact I). congruence. }
    intros [nn it4] H. cbv zeta.
    destruct it4 as [i4 [|c4 r4]]; [exact I|]. cbn [fst snd]. destruct (is_offset_start c4) eqn:O; [exact I|].
    destruct it3 as [i [|c r]]; [discriminate|]. destruct E3 as [E3 EI]. cbn [fst snd] in *. destruct (N.eq_dec c 46) as [->|X].
    - unfold parse_subsec in H. cbn [fst snd] in H. change 0 with (N.of_nat 0) in H at 1. apply subsec_iff in H; [|lia]. destruct H as (ds & F & -> & A & -> & NE & _). exfalso.
      destruct A as [A|(c' & r' & A & O')]; [discriminate|]. injection A as <- _. congruence.
    - assert (H' : @Ok terror _ (0, (i, c :: r)) = Ok (nn, (i4, c4 :: r4))).
      { etransitivity; [|exact H]. destruct c as [|q]; [reflexivity|]. repeat (destruct q as [q|q|]; try reflexivity). congruence. }
      injection H' as _ <- <- <-. unfold unexpected_char_error. insx (x ++ two s) [c] r EI; [exact E3|]. split; [reflexivity|].
      split; [right; right; left; rewrite <- (app_nil_r (two s)); eapply subsec_seconds; [exact B2|exact S60|constructor]|].
      intros _. eapply after_two; [discriminate|exact B2|constructor|lia].
  Qed.
  Lemma good_error_on_offset u it : inv u it -> (exists t, lenient_datetime u (LocalTime t)) -> at_offset (snd it) -> good any (error_on_offset it sp).
  Proof.
    destruct it as [i s]. intros [E EI] T A. unfold error_on_offset, cnext. cbn [fst snd] in *.
    destruct s as [|c s]; [exact I|]. destruct A as [A|(c' & r' & A & O)]; [discriminate|]. injection A as <- <-. rewrite O.
    assert (L : len_utf8 c = 1) by (apply len_utf8_ascii; unfold is_offset_start in O; lia).
    assert (IC : In c [90; 122; 43; 45]) by (unfold is_offset_start in O; cbn [In]; lia). ins_ u [c] E. split; [exists c; split; [reflexivity|exact IC]|exact T].
  Qed.
  Lemma inv_cpt u i s r i' m sec ft n : m < 60 -> sec < 60 -> subsec_text ft n -> inv u (i, s) -> s = two m ++ [58] ++ two sec ++ ft ++ r -> i' = i + tlen (two m ++ [58] ++ two sec ++ ft) ->
    inv (u ++ two m ++ [58] ++ two sec ++ ft) (i', r).
  Proof.
    intros _ _ _ [E EI] -> ->. cbn [fst snd] in *. split; cbn [fst snd]; [rewrite E, <- !app_assoc; reflexivity|rewrite (tlen_app u), EI; reflexivity].
  Qed.
  (** The hour [t] at the start of the literal, and a colon. *)
  Lemma good_local_time it h t : hour_text [] t h -> inv (t ++ [58]) it -> good any (continue_parsing_local_time it sp h).
  Proof.
    intros HT E. unfold continue_parsing_local_time.
    assert (T2 : tlen t = 2).
    { destruct HT as [(L & ->)|(_ & L & HU)]; [apply two_len; exact L|]. destruct HU as (d & r & ds & -> & D & U & _). destruct r as [|c [|? ?]]; try discriminate L. cbn [tlen].
      assert (C : decimal c \/ c = 95).
      { destruct U as [U|(r' & R & U)]; [inversion U; subst; auto|]. destruct r' as [|? [|? ?]]; try discriminate R. injection R as ->. auto. }
      unfold decimal in C. rewrite !len_utf8_ascii by lia. lia. }
    apply good_then.
    { unfold check_range. destruct (_ && _) eqn:C; [exact I|]. destruct it as [i s]. destruct E as [E EI]. cbn [fst snd] in *. cbn [good]. exists [], t, ([58] ++ s).
      split; [rewrite E, <- app_assoc; reflexivity|]. split; [|split; [constructor|split; [constructor|split; [lia|right; auto]]]].
      cbn [err_span tlen]. rewrite T2. unfold sp, lit_span, span_from_pos_len, pos_plus. cbn [s_start p_line p_char]. destruct p as [pl pc]. cbn [p_line p_char]. f_equal; f_equal; lia. }
    intros [] C. apply check_range_iff in C.
    assert (B : dt_before DMinute (t ++ [58])) by (apply (db_minute [] t h); [constructor|exact HT|lia]).
    apply good_then; [apply (good_time (t ++ [58])); assumption|]. intros [tm [i' r]] H. destruct it as [i s]. apply cpt_iff in H as (m & sec & ft & n & LM & LS & ST & ES & AO & -> & EI').
    apply good_then; [|intros [] _; exact I]. eapply good_error_on_offset; [exact (inv_cpt _ _ _ _ _ _ _ _ _ LM LS ST E ES EI')| |exact AO].
    eexists. rewrite <- app_assoc. apply (dw_time _ _ _ t h ([58] ++ two m ++ [58] ++ two sec ++ ft)); [|lia|exact (mst m sec ft n LM LS ST)].
    destruct HT as [HT|[_ HT]]; [left; exact HT|right; exact HT].
  Qed.
  Lemma good_parse_offset u it : inv u it -> dt_before DOffsetHour u -> good any (parse_offset it sp).
  Proof.
    intros E B. unfold parse_offset.
    apply (field_step _ u); [exact E|discriminate|exact B|constructor|nexts|]. intros h it1 _ LH E1.
    apply (char_step _ (u ++ two h) _ DOffsetHour); [exact E1|eapply after_two; [discriminate|exact B|constructor|exact LH]|left; reflexivity|lia|]. intros it2 E2.
    apply (field_step _ ((u ++ two h) ++ [58])); [exact E2|discriminate|rewrite <- app_assoc; constructor; [exact B|lia]|constructor|intros ? []|]. intros m it3 _ _ _. exact I.
  Qed.
  Lemma good_try_offset x s ft n it : inv (x ++ two s ++ ft) it -> dt_before DSecond x -> s < 60 -> subsec_text ft n -> at_offset (snd it) -> good any (try_to_parse_offset it sp).
  Proof.
    destruct it as [i [|c r]]; intros E B LS ST A; unfold try_to_parse_offset, cnext; cbn [fst snd] in *; [exact I|].
    destruct A as [A|(c' & r' & A & O)]; [discriminate|]. injection A as <- <-.
    pose proof (inv_one _ _ _ _ E) as E'.
    assert (OH : forall sg, sg = 43 \/ sg = 45 -> dt_before DOffsetHour ((x ++ two s ++ ft) ++ [sg])) by (intros sg SG; rewrite <- !app_assoc; eapply db_offset_hour; eassumption).
    destruct (_ || _) eqn:Z; [exact I|].
    destruct (c =? 43) eqn:C1; [apply N.eqb_eq in C1; subst c; apply good_then; [eapply good_parse_offset; [exact E'|apply OH; auto]|intros [? ?] _; exact I]|].
    destruct (c =? 45) eqn:C2; [apply N.eqb_eq in C2; subst c; apply good_then; [eapply good_parse_offset; [exact E'|apply OH; auto]|intros [? ?] _; exact I]|].
    unfold is_offset_start in O. rewrite Z in O. cbn [orb] in O. rewrite C1, C2 in O. discriminate.
  Qed.
  Lemma good_time_offset u it : inv u it -> dt_before DHour u -> good any (parse_time_and_offset it sp).
  Proof.
    intros E B. unfold parse_time_and_offset.
    apply (field_step _ u); [exact E|discriminate|exact B|constructor|nexts|]. intros h it1 L LH E1.
    apply (char_step _ (u ++ two h) _ DHour); [exact E1|eapply after_two; [discriminate|exact B|constructor|exact LH]|left; reflexivity|lia|]. intros it2 E2.
    assert (B2 : dt_before DMinute ((u ++ two h) ++ [58])) by (rewrite <- app_assoc; apply (db_minute u (two h) h); [exact B|left; auto|lia]).
    apply good_then; [eapply good_time; [exact E2|exact B2]|]. intros [tm [i' r]] H. destruct it2 as [i s]. apply cpt_iff in H as (m & sec & ft & n & LM & LS & ST & ES & AO & -> & EI').
    pose proof (inv_cpt _ _ _ _ _ _ _ _ _ LM LS ST E2 ES EI') as E3.
    apply good_then; [|intros o _; exact I]. apply (good_try_offset ((((u ++ two h) ++ [58]) ++ two m) ++ [58]) sec ft n); [|rewrite <- app_assoc; constructor; assumption|exact LS|exact ST|exact AO].
    rewrite <- !app_assoc in *. exact E3.
  Qed.

  Definition vok (v : pval) : Prop := match v with PInvalidDateTime e => explained p lit e | _ => True end.
  Lemma max_day_days y m : 1 <= m <= 12 -> month_days y m (max_day y m).
  Proof.
    intros M. unfold max_day. pose proof (is_leap_iff y) as LE.
    destruct (m =? 2) eqn:M2; [apply N.eqb_eq in M2; subst m; destruct (is_leap_year y); [apply md29; tauto|apply md28; intros X; apply LE in X; discriminate]|].
    destruct (_ || _) eqn:M4; [apply md30; cbn [In]; lia|apply md31; cbn [In]; lia].
  Qed.
  Lemma year_le yt y : year_text yt y -> y <= 9999.
  Proof.
    intros [(Y & _)|(L & d & r & ds & -> & D & U & ->)]; [exact Y|].
    assert (F : Forall decimal ds /\ (length ds <= length r)%nat).
    { assert (G : forall r ds, us_cont decimal r ds -> Forall decimal ds /\ (length ds <= length r)%nat).
      { induction 1 as [|? ? ? ? ? [F1 F2]|? ? ? ? ? [F1 F2]]; cbn [length]; (split; [constructor; assumption|lia]). }
      destruct U as [U|(r' & -> & U)]; destruct (G _ _ U) as [F1 F2]; (split; [exact F1|]); [exact F2|rewrite app_length; lia]. }
    destruct F as [F FL]. pose proof (val_acc_lt ds F (d - 48)) as V. change (dec_val (d :: ds)) with (val_acc (10 * 0 + digit_val d) ds). unfold digit_val.
    replace (10 * 0 + (d - 48)) with (d - 48) by lia. cbn [length] in L.
    assert (P : 10 ^ N.of_nat (length ds) <= 10 ^ 3) by (apply N.pow_le_mono_r; lia). change (10 ^ 3) with 1000 in P. nia.
  Qed.
  Lemma good_after_year yt y it : year_text yt y -> inv (yt ++ [45]) it -> good vok (continue_parsing_date_time_after_year it sp y).
  Proof.
    intros Y E. unfold continue_parsing_date_time_after_year.
    assert (B : dt_before DMonth (yt ++ [45])) by (econstructor; exact Y).
    apply (field_step _ (yt ++ [45])); [exact E|discriminate|exact B|constructor|nexts|]. intros m it1 _ LM E1.
    apply (char_step _ ((yt ++ [45]) ++ two m) _ DMonth); [exact E1|eapply after_two; [discriminate|exact B|constructor|exact LM]|left; reflexivity|lia|]. intros it2 E2.
    assert (B2 : dt_before DDay (((yt ++ [45]) ++ two m) ++ [45])) by (rewrite <- !app_assoc; apply (db_day yt y); assumption).
    assert (R2 : dt_range DDay (((yt ++ [45]) ++ two m) ++ [45]) 1 (max_day y m)) by (rewrite <- !app_assoc; apply (dr_day yt y); [exact Y|apply max_day_days; exact LM]).
    apply (field_step _ (((yt ++ [45]) ++ two m) ++ [45])); [exact E2|discriminate|exact B2|exact R2|nexts|]. intros d it3 _ LD E3. cbv zeta.
    assert (LDT : lenient_datetime ((((yt ++ [45]) ++ two m) ++ [45]) ++ two d) (LocalDate (mkdate y m d))).
    { rewrite <- !app_assoc. apply (dw_date _ _ _ yt (mkdate y m d)); [exact Y|]. apply valid_date_iff; [exact (year_le _ _ Y)|auto]. }
    destruct it3 as [i [|c r]]; unfold cnext; cbn [fst snd]; [exact I|].
    destruct (_ || _) eqn:T.
    - apply good_then; [eapply good_time_offset; [exact (inv_one _ _ _ _ E3)|eapply db_hour; [exact LDT|lia]]|]. intros [t o] _. exact I.
    - destruct E3 as [E3 EI]. cbn [fst snd] in *. destruct (is_digit c) eqn:D.
      + insx ((((yt ++ [45]) ++ two m) ++ [45]) ++ two d) (@nil N) (c :: r) EI; [exact E3|]. split; [reflexivity|]. split; [left; reflexivity|].
        split; [eapply after_two; [discriminate|exact B2|exact R2|exact LD]|]. right. exists c, r. split; [reflexivity|apply is_digit_iff; exact D].
      + insx ((((yt ++ [45]) ++ two m) ++ [45]) ++ two d) [c] r EI; [exact E3|]. split; [reflexivity|]. split; [right; right; right; eexists; exact LDT|intros X; destruct (not_digit _ D X)].
  Qed.
  Lemma good_start0 {A} (Q : A -> Prop) e c r : lit = c :: r -> len_utf8 c = 1 -> err_span e = span_ascii_char p -> lit_says e [] [c] r -> good Q (Err e).
  Proof.
    intros E L S H. cbn [good]. exists [], [c], r. split; [exact E|]. split; [|exact H]. rewrite S. cbn [tlen]. rewrite L. unfold span_ascii_char, pos_plus. destruct p as [pl pc]. cbn [p_line p_char]. f_equal; f_equal; lia.
  Qed.
  Lemma good_bad_year {A} (Q : A -> Prop) d0 ds i c r : lit = (48 :: d0 :: ds) ++ c :: r -> Forall decimal (d0 :: ds) -> (length ds <= 1)%nat -> is_digit c = false -> i = tlen (48 :: d0 :: ds) -> good Q (bad_year_char sp i c).
  Proof.
    intros E F L D EI. unfold bad_year_char.
    assert (W : dt_within DYear (48 :: d0 :: ds)).
    { split; [discriminate|]. split; [cbn [length]; lia|]. constructor; [left; unfold decimal; lia|]. eapply Forall_impl; [|exact F]. auto. }
    destruct (_ || _); [apply (good_start0 _ _ 48 (d0 :: ds ++ c :: r)); [rewrite E; reflexivity|reflexivity|reflexivity|split; [reflexivity|split; [auto|]]]|].
    { exists d0, (ds ++ c :: r). split; [reflexivity|left; exact (Forall_inv F)]. }
    destruct (c =? 45) eqn:C.
    - insx (48 :: d0 :: ds) (@nil N) (c :: r) EI; [exact E|]. split; [reflexivity|]. left. split; [exact W|right]. exists c, r. split; [reflexivity|]. left. lia.
    - insx (48 :: d0 :: ds) [c] r EI; [exact E|]. split; [reflexivity|]. split; [right; left; exists DYear; exact W|intros X; destruct (not_digit _ D X)].
  Qed.
  Lemma good_date_time it d0 : decimal d0 -> inv [48; d0] it -> good vok (continue_parsing_date_time it sp (d0 - 48)).
  Proof.
    intros D0 [E EI]. unfold continue_parsing_date_time. pose proof D0 as D0'. unfold decimal in D0'.
    assert (W : forall ds, Forall decimal ds -> (length ds <= 1)%nat -> dt_within DYear (48 :: d0 :: ds)).
    { intros ds F L. split; [discriminate|]. split; [cbn [length]; lia|]. constructor; [left; unfold decimal; lia|]. constructor; [left; exact D0|]. eapply Forall_impl; [|exact F]. auto. }
    destruct it as [i [|c r]]; unfold cnext; cbn [fst snd] in *.
    { at_end. split; [reflexivity|]. left. split; [rewrite E; apply (W []); [constructor|cbn; lia]|left; reflexivity]. }
    assert (E' : lit = [48; d0; c] ++ r) by (rewrite E; reflexivity).
    destruct (is_digit c) eqn:D.
    - pose proof (proj1 (is_digit_iff _) D) as DD. assert (L : len_utf8 c = 1) by (unfold decimal in DD; apply len_utf8_ascii; lia).
      assert (EI' : i + len_utf8 c = tlen [48; d0; c]) by (rewrite EI; cbn [tlen]; lia).
      destruct r as [|c1 r].
      { at_end. split; [reflexivity|]. left. split; [rewrite E'; apply (W [c]); [constructor; [exact DD|constructor]|cbn; lia]|left; reflexivity]. }
      cbn [fst snd]. destruct (is_digit c1) eqn:D1.
      + pose proof (proj1 (is_digit_iff _) D1) as DD1. assert (L1 : len_utf8 c1 = 1) by (unfold decimal in DD1; apply len_utf8_ascii; lia).
        assert (E2 : inv [48; d0; c; c1] (i + len_utf8 c + len_utf8 c1, r)) by (split; cbn [fst snd]; [exact E'|rewrite EI'; cbn [tlen]; lia]).
        cbv zeta. unfold decimal in DD, DD1.
        apply (char_step _ [48; d0; c; c1] _ DYear); [exact E2| |left; reflexivity|lia|].
        { split; [reflexivity|]. repeat (constructor; [left; unfold decimal; lia|]). constructor. }
        intros it E3. apply (good_after_year [48; d0; c; c1]); [|exact E3]. left. split; [lia|].
        unfold four. f_equal; [lia|]. f_equal; [lia|]. f_equal; [lia|]. f_equal; lia.
      + eapply (good_bad_year _ d0 [c]); [exact E'|constructor; [exact D0|constructor; [exact DD|constructor]]|cbn; lia|exact D1|exact EI'].
    - destruct (c =? 58) eqn:C.
      + apply N.eqb_eq in C. subst c. apply good_then; [|intros t _; exact I]. apply (good_local_time _ _ [48; d0]).
        * left. split; [lia|]. unfold two. f_equal; [lia|]. f_equal; lia.
        * split; cbn [fst snd]; [rewrite E; reflexivity|rewrite EI; cbn [app tlen]; lia].
      + eapply (good_bad_year _ d0 []); [exact E|constructor; [exact D0|constructor]|cbn; lia|exact D|exact EI].
  Qed.
  Lemma good_as_invalid r : good vok r -> good vok (as_invalid_datetime r).
  Proof. destruct r; cbn; auto. Qed.

  (** ** Numbers *)
  Definition sg_text (sg : option tsign) : list N := fst (sign_opt sg).
  Lemma sg_sign sg : exists neg, sign_text (sg_text sg) neg.
  Proof. eexists. apply sign_opt_text. Qed.

  (** The digits [d] of a decimal number read so far, and its value. *)
  Definition dec_inv (sg : option tsign) (u : list N) (acc : Z) (ovf lu : bool) : Prop :=
    exists d t ds, u = sg_text sg ++ d :: t /\ 49 <= d <= 57 /\ sofar decimal lu (d :: t) (d :: ds) /\
      (ovf = false -> acc = (szn sg * Z.of_N (dec_val (d :: ds)))%Z) /\
      (ovf = true -> in_i64 (szn sg * Z.of_N (dec_val (d :: ds))) = false).
  Lemma dec_state sg u acc ovf lu p0 : (p0 = LPInt \/ p0 = LPIntOrFloat \/ p0 = LPFloatIntegral) -> dec_inv sg u acc ovf lu -> part_state p0 false lu u.
  Proof.
    intros P (d & t & ds & -> & D & S & _). destruct (sg_sign sg) as (neg & SG). exists (sg_text sg), (d :: t). split; [reflexivity|].
    destruct P as [-> |[-> | ->]]; (split; [econstructor; exact SG|right; split; [reflexivity|exists (d :: ds); exact S]]).
  Qed.
  Lemma dec_done sg u acc ovf : dec_inv sg u acc ovf false -> exists neg t ds, u = sg_text sg ++ t /\ sign_text (sg_text sg) neg /\ us decimal t ds /\ no_leading_zero t /\
    (ovf = true -> in_i64 (signed neg (dec_val ds)) = false).
  Proof.
    intros (d & t & ds & -> & D & (t' & U & E) & _ & O). exists (snd (sign_opt sg)), (d :: t), (d :: ds). split; [reflexivity|]. split; [apply sign_opt_text|]. split; [rewrite E; exact U|].
    split; [right; cbn [hd]; lia|]. rewrite signed_szn. exact O.
  Qed.
  Lemma dec_val_snoc ds c : dec_val (ds ++ [c]) = 10 * dec_val ds + (c - 48).
  Proof. unfold dec_val. rewrite BaseProofs.val_acc_app. reflexivity. Qed.
  Lemma dec_digit sg u acc ovf lu c : dec_inv sg u acc ovf lu -> decimal c ->
    let m := (acc * 10)%Z in let v := (m + szn sg * Z.of_N (c - 48))%Z in
    dec_inv sg (u ++ [c]) (if ovf then acc else if in_i64 m && in_i64 v then v else acc) (if ovf then true else negb (in_i64 m && in_i64 v)) false.
  Proof.
    intros (d & t & ds & -> & D & S & A & O) C m v. exists d, (t ++ [c]), (ds ++ [c]). split; [rewrite <- app_assoc; reflexivity|]. split; [exact D|].
    split; [exact (sofar_digit _ _ _ _ _ S C)|]. change (d :: ds ++ [c]) with ((d :: ds) ++ [c]). rewrite dec_val_snoc. set (n := dec_val (d :: ds)) in *. unfold decimal in C.
    destruct (szn_cases sg) as [Z1|Z1]; rewrite Z1 in *; unfold in_i64, i64_min, i64_max in *; subst m v.
    all: destruct ovf; [split; [discriminate|intros _; specialize (O eq_refl); lia]|]. all: specialize (A eq_refl); subst acc.
    all: match goal with |- context [if ?b then _ else _] => destruct b eqn:B end; cbn [negb]; (split; [intros X; try discriminate X; lia|intros X; try discriminate X; lia]).
  Qed.
  Lemma dec_us sg u acc ovf : dec_inv sg u acc ovf false -> dec_inv sg (u ++ [95]) acc ovf true.
  Proof.
    intros (d & t & ds & -> & D & S & A & O). exists d, (t ++ [95]), ds. split; [rewrite <- app_assoc; reflexivity|]. split; [exact D|].
    split; [exact (sofar_us _ _ _ S)|]. auto.
  Qed.
  Lemma us_cont_text t ds : us_cont decimal t ds -> dt_digits t /\ Forall decimal ds /\ (length ds <= length t)%nat.
  Proof.
    induction 1 as [|d t ds D H (A & B & L)|d t ds D H (A & B & L)]; cbn [length]; (split; [|split; [try constructor; assumption|lia]]); [constructor|constructor; [left; exact D|exact A]|].
    constructor; [right; reflexivity|]. constructor; [left; exact D|exact A].
  Qed.
  (** A short number without a sign. *)
  Lemma dec_short u acc ovf lu : dec_inv None u acc ovf lu -> dt_digits u /\ u <> [] /\ Forall (fun c => c < 128) u /\
    ((length u <= 4)%nat -> exists n, underscored (length u) u n /\ n < 10 ^ N.of_nat (length u) /\ acc = Z.of_N n).
  Proof.
    intros (d & t & ds & E & D & (t' & U & EU) & A & O). cbn [sg_text sign_opt fst app] in E. subst u. inversion U as [d0 r ds0 D0 UC]; subst.
    destruct (us_cont_text _ _ UC) as (T1 & T2 & T3).
    assert (ET : t = if lu then r ++ [95] else r) by (destruct lu; cbn [app] in EU; injection EU as EU; exact EU). clear EU.
    assert (DT : dt_digits (d :: t)).
    { constructor; [left; exact D0|]. subst t. destruct lu; [|exact T1]. apply Forall_app. split; [exact T1|]. constructor; [right; reflexivity|constructor]. }
    assert (LT : (length ds <= length t)%nat) by (subst t; destruct lu; [rewrite app_length|]; lia).
    split; [exact DT|]. split; [discriminate|]. split; [eapply Forall_impl; [|exact DT]; cbv beta; unfold decimal; intros; lia|]. intros L.
    exists (dec_val (d :: ds)). split; [|split].
    - split; [reflexivity|]. exists d, t, ds. split; [reflexivity|]. split; [exact D|]. split; [|reflexivity]. subst t. destruct lu; [right; exists r; auto|left; exact UC].
    - pose proof (val_acc_lt ds T2 (d - 48)) as V. change (dec_val (d :: ds)) with (val_acc (10 * 0 + digit_val d) ds). unfold digit_val. replace (10 * 0 + (d - 48)) with (d - 48) by lia.
      cbn [length]. replace (N.of_nat (S (length t))) with (1 + N.of_nat (length t)) by lia. rewrite N.pow_add_r. change (10 ^ 1) with 10.
      assert (P : 10 ^ N.of_nat (length ds) <= 10 ^ N.of_nat (length t)) by (apply N.pow_le_mono_r; lia). nia.
    - cbn [szn] in A, O. destruct ovf; [|rewrite (A eq_refl); lia]. exfalso. specialize (O eq_refl).
      pose proof (val_acc_lt ds T2 (d - 48)) as V. change (dec_val (d :: ds)) with (val_acc (10 * 0 + digit_val d) ds) in O. unfold digit_val in O. replace (10 * 0 + (d - 48)) with (d - 48) in O by lia.
      cbn [length] in L. assert (P : 10 ^ N.of_nat (length ds) <= 10 ^ 3) by (apply N.pow_le_mono_r; lia). change (10 ^ 3) with 1000 in P. unfold in_i64, i64_min, i64_max in O. nia.
  Qed.

  Lemma good_dec sg : forall rest u acc ovf lu i, dec_inv sg u acc ovf lu -> lit = u ++ rest -> i = tlen u ->
    good vok (dec_loop lit sp sg acc ovf lu i rest).
  Proof.
    induction rest as [|c r IH]; intros u acc ovf lu i DI EL EI; cbn [dec_loop].
    - rewrite app_nil_r in EL. destruct lu.
      + destruct (st_after _ _ (dec_state _ _ _ _ _ LPInt (or_introl eq_refl) DI)) as (u' & U & AD). apply (good_end _ u'); [|rewrite EL; exact U].
        intros q. split; [reflexivity|]. split; [reflexivity|]. split; [exact AD|reflexivity].
      + destruct ovf; [|exact I]. cbn [good]. apply ins_whole; [reflexivity|]. split; [reflexivity|]. split; [reflexivity|].
        destruct (dec_done _ _ _ _ DI) as (neg & t & ds & U & SG & US & NZ & O). exists (signed neg (dec_val ds)). split; [rewrite EL, U; constructor; assumption|].
        specialize (O eq_refl). intros X. apply in_i64_iff in X. congruence.
    - cbv zeta. assert (E' : lit = (u ++ [c]) ++ r) by (rewrite EL; apply snoc_app). assert (EI' : i + len_utf8 c = tlen (u ++ [c])) by (rewrite tlen_snoc, EI; reflexivity).
      destruct (is_digit c) eqn:D.
      { pose proof (dec_digit _ _ _ _ _ c DI (proj1 (is_digit_iff _) D)) as DD. cbv zeta in DD. fold (szn sg).
        destruct ovf; [eapply IH; [exact DD|exact E'|exact EI']|].
        destruct (_ && _); (eapply IH; [exact DD|exact E'|exact EI']). }
      assert (ENDS : lu = true -> begins (fun c => c = 46 \/ c = 101 \/ c = 69) (c :: r) ->
        good vok (let? p := pos_minus_p (pos_plus (s_start sp) i) 1 in Err (ELitEndsWithUnderscore LPFloatIntegral p))).
      { intros H B. subst lu. destruct (st_after _ _ (dec_state _ _ _ _ _ LPFloatIntegral (or_intror (or_intror eq_refl)) DI)) as (u' & U & AD). rewrite U in EI, EL. rewrite tlen_snoc in EI. change (len_utf8 95) with 1 in EI.
        unfold pos_minus_p, pos_minus, pos_plus at 1. cbn [p_char]. replace (1 <=? p_char (s_start sp) + i) with true by lia.
        cbn [bind good]. rewrite <- app_assoc in EL. exists u', [95], (c :: r). split; [exact EL|]. split; [|split; [reflexivity|split; [exact AD|exact B]]]. change (tlen [95]) with 1.
        cbn [err_span]. unfold sp, lit_span, span_from_pos_len, span_ascii_char, pos_plus. cbn [s_start p_line p_char]. f_equal; f_equal; lia. }
      assert (INT : lu = false -> exists neg t ds, u = sg_text sg ++ t /\ sign_text (sg_text sg) neg /\ us decimal t ds /\ no_leading_zero t).
      { intros ->. destruct (dec_done _ _ _ _ DI) as (neg & t & ds & X). exists neg, t, ds. tauto. }
      destruct (c =? 46) eqn:C46.
      { apply N.eqb_eq in C46. subst c. destruct lu; [apply ENDS; [reflexivity|exists 46, r; auto]|]. destruct (INT eq_refl) as (neg & t & ds & U & SG & US & NZ).
        apply good_then; [|intros f _; exact I]. apply (good_fraction _ (u ++ [46])); [rewrite U, <- app_assoc; econstructor; eassumption|exact E'|exact EI'|reflexivity]. }
      destruct ((c =? 101) || (c =? 69)) eqn:CE.
      { assert (EC : c = 101 \/ c = 69) by lia. destruct lu; [apply ENDS; [reflexivity|exists c, r; auto]|]. destruct (INT eq_refl) as (neg & t & ds & U & SG & US & NZ).
        apply good_then; [|intros f _; exact I]. apply (good_exponent (u ++ [c])); [|exact E'|exact EI']. intros sg' neg' S'. rewrite U, <- !app_assoc. apply (bp_exp _ neg t ds [] [] c sg' neg'); auto. constructor. }
      set (b := match sg with Some _ => false | None => true end).
      assert (UN : b = true -> sg = None) by (subst b; destruct sg; [discriminate|reflexivity]). clearbody b.
      assert (SH : b = true -> dt_digits u /\ u <> [] /\ i = N.of_nat (length u) /\
        ((length u <= 4)%nat -> exists n, underscored (length u) u n /\ n < 10 ^ N.of_nat (length u) /\ acc = Z.of_N n)).
      { intros X. specialize (UN X). clear - DI UN EI. subst sg. destruct (dec_short _ _ _ _ DI) as (A & B & C & E0). rewrite (tlen_ascii _ C) in EI. auto. }
      destruct ((c =? 58) && b && (i =? 2)) eqn:C1.
      { apply andb_true_iff in C1 as [C1 I2]. apply andb_true_iff in C1 as [C1 B1]. apply N.eqb_eq in C1. subst c. destruct (SH B1) as (_ & _ & LU & HN). destruct (HN ltac:(lia)) as (n & UD & LN & ->).
        apply good_then; [apply (good_local_time _ _ u)|intros t _; exact I].
        - right. split; [reflexivity|]. replace (length u) with 2%nat in * by lia. change (10 ^ N.of_nat 2) with 100 in LN. replace (Z.to_N (Z.of_N n mod 256)) with n by lia. exact UD.
        - split; [exact E'|exact EI']. }
      destruct ((c =? 45) && b && (i =? 4)) eqn:C4.
      { apply andb_true_iff in C4 as [C4 I4]. apply andb_true_iff in C4 as [C4 B4]. apply N.eqb_eq in C4. subst c. destruct (SH B4) as (_ & _ & LU & HN). destruct (HN ltac:(lia)) as (n & UD & LN & ->).
        apply good_as_invalid, (good_after_year u).
        - right. replace (length u) with 4%nat in * by lia. change (10 ^ N.of_nat 4) with 10000 in LN. replace (Z.to_N (Z.of_N n mod 65536)) with n by lia. exact UD.
        - split; [exact E'|exact EI']. }
      destruct ((c =? 58) && b && (i <=? 3)) eqn:C3.
      { apply andb_true_iff in C3 as [C3 I3]. apply andb_true_iff in C3 as [C3 B3]. apply N.eqb_eq in C3. subst c. rewrite B3 in C1. change (58 =? 58) with true in C1. cbn [andb] in C1.
        destruct (SH B3) as (DD & NE & LU & _). insx u (@nil N) (58 :: r) EI; [exact EL|]. split; [reflexivity|].
        destruct u as [|x [|y [|z [|? ?]]]]; try congruence; cbn [length] in LU; try lia.
        - left. split; [|right; exists 58, r; split; [reflexivity|left; reflexivity]]. exists [], x. split; [reflexivity|]. split; [constructor|].
          destruct DI as (d & t & ds & E0 & D0 & _). rewrite (UN B3) in E0. cbn [sg_text sign_opt fst app] in E0. injection E0 as -> _. unfold decimal. lia.
        - right. split; [reflexivity|]. split; [reflexivity|]. split; [exact DD|exists 58, r; auto]. }
      destruct ((c =? 45) && b && (i <=? 6)) eqn:C2.
      { apply andb_true_iff in C2 as [C2 I6]. apply andb_true_iff in C2 as [C2 B2]. apply N.eqb_eq in C2. subst c. rewrite B2 in C4. change (45 =? 45) with true in C4. cbn [andb] in C4.
        destruct (SH B2) as (DD & NE & LU & _).
        destruct (i <=? 3) eqn:I3.
        { cbn [good vok]. insx u (@nil N) (45 :: r) EI; [exact EL|]. split; [reflexivity|]. left. split; [|right; exists 45, r; split; [reflexivity|left; reflexivity]]. split; [exact NE|]. split; [lia|exact DD]. }
        assert (PL : (4 < length u)%nat) by lia.
        assert (FA : Forall (fun c => c < 128) u) by (eapply Forall_impl; [|exact DD]; cbv beta; unfold decimal; intros; lia).
        destruct (nth_error u 4) as [x|] eqn:NT; [|apply nth_error_None in NT; lia].
        assert (NU : nth_error (utf8 lit) 4 = Some x).
        { rewrite EL. unfold utf8. rewrite flat_map_app. fold (utf8 u). rewrite utf8_ascii by assumption. rewrite nth_error_app1 by assumption. exact NT. }
        rewrite NU. cbn [good vok].
        assert (X : decimal x \/ x = 95) by (apply (proj1 (Forall_forall _ _) DD); eapply nth_error_In; exact NT).
        apply nth_error_split in NT. destruct NT as (a & z & E0 & LA). rewrite E0 in FA, DD, EL. apply Forall_app in FA as [FA _]. apply Forall_app in DD as [DA _]. pose proof (tlen_ascii a FA) as TA.
        exists a, [x], (z ++ 45 :: r). split; [rewrite EL, <- app_assoc; reflexivity|]. split; [|split; [reflexivity|split; [unfold decimal in X; lia|split; [left; reflexivity|split; [exact LA|exact DA]]]]].
        assert (LX : len_utf8 x = 1) by (apply len_utf8_ascii; unfold decimal in X; lia).
        cbn [tlen err_span]. unfold sp, lit_span, span_from_pos_len, pos_plus. cbn [s_start p_line p_char]. f_equal; f_equal; lia. }
      destruct (c =? 95) eqn:U.
      + apply N.eqb_eq in U. subst c. destruct lu; [eapply good_consec; [exact (dec_state _ _ _ _ _ LPInt (or_introl eq_refl) DI)|exact EL|exact EI]|].
        eapply IH; [exact (dec_us _ _ _ _ DI)|exact E'|exact EI'].
      + insx u [c] r EI; [exact EL|]. split; [reflexivity|]. split; [eapply st_in; exact (dec_state _ _ _ _ _ LPIntOrFloat (or_intror (or_introl eq_refl)) DI)|].
        split; [apply not_digit; exact D|apply not_us; exact U].
  Qed.

  Lemma good_prefixed pf : forall rest u first lu acc i, part_state (LPPrefixedInt pf) first lu u -> in_i64 acc = true -> lit = u ++ rest -> i = tlen u ->
    good any (prefixed_loop sp pf first lu acc i rest).
  Proof.
    assert (BP : forall x, before_part (LPPrefixedInt pf) x -> x = [48; radix_letter pf]) by (intros x B; inversion B; reflexivity).
    induction rest as [|c r IH]; intros u first lu acc i L A E EI; cbn [prefixed_loop].
    - rewrite app_nil_r in E. destruct first; [at_end; split; [reflexivity|]; split; [reflexivity|]; exists pf; rewrite E; apply BP; exact (st_start _ _ _ L)|].
      destruct lu; [|exact I]. destruct (st_after _ _ L) as (u' & U & AD). apply (good_end _ u'); [|rewrite E; exact U].
      intros q. split; [reflexivity|]. split; [reflexivity|]. split; [reflexivity|]. exists pf. exact AD.
    - cbv zeta. assert (E' : lit = (u ++ [c]) ++ r) by (rewrite E; apply snoc_app). assert (EI' : i + len_utf8 c = tlen (u ++ [c])) by (rewrite tlen_snoc, EI; reflexivity).
      assert (NR : forall n, hex_val c = Some n -> n <? 2 ^ prefix_bits pf = false -> ~ part_digit (LPPrefixedInt pf) c).
      { intros n H LT (v & R). apply hex_radix in R as [R LV]. rewrite H in R. injection R as ->. lia. }
      assert (NH : hex_val c = None -> ~ part_digit (LPPrefixedInt pf) c).
      { intros H (v & R). apply hex_radix in R as [R _]. congruence. }
      destruct (hex_val c) as [v|] eqn:HV.
      + destruct (v <? 2 ^ prefix_bits pf) eqn:LT.
        * assert (W : wrap_i64 acc = acc).
          { unfold wrap_i64. apply in_i64_iff in A. unfold i64_min, i64_max in A. lia. }
          destruct (wrap_step (2 ^ Z.of_N (prefix_bits pf)) acc (Z.of_N v)) as [W1 W2].
          { destruct pf; cbn; auto. }
          { rewrite <- radix_pow. destruct pf; cbn in *; lia. }
          rewrite W in W2. rewrite W2. eapply IH; [eapply st_digit; [exact L|exists v; apply hex_radix; split; [exact HV|lia]]|exact W2|exact E'|exact EI'].
        * insx u [c] r EI; [exact E|]. split; [reflexivity|]. split; [exact (st_in _ _ _ _ L)|]. split; [exact (NR _ eq_refl LT)|].
          unfold hex_val, is_digit in HV. unfold decimal. destruct ((48 <=? c) && (c <=? 57)) eqn:B1; [lia|]. destruct ((97 <=? c) && (c <=? 102)) eqn:B2; [lia|]. destruct ((65 <=? c) && (c <=? 70)) eqn:B3; [lia|discriminate].
      + destruct (_ && _) eqn:GZ.
        * insx u [c] r EI; [exact E|]. split; [reflexivity|]. split; [exact (st_in _ _ _ _ L)|]. split; [exact (NH eq_refl)|].
          apply andb_true_iff in GZ as [GZ _]. unfold is_g_to_z in GZ. right. lia.
        * destruct (c =? 95) eqn:U; [|insx u [c] r EI; [exact E|]; split; [reflexivity|]; split; [exact (st_in _ _ _ _ L)|]; split; [exact (NH eq_refl)|apply not_us; exact U]].
          apply N.eqb_eq in U. subst c.
          destruct first; [insx u [95] r EI; [exact E|]; split; [reflexivity|]; exists pf; apply BP; exact (st_start _ _ _ L)|].
          destruct lu; [eapply good_consec; [exact L|exact E|exact EI]|]. eapply IH; [apply st_us; exact L|assumption|exact E'|exact EI'].
  Qed.

  Lemma radix_of_some c pf up : radix_of c = Some (pf, up) -> c = if up then capital_radix pf else radix_letter pf.
  Proof. unfold radix_of. intros H. repeat (match type of H with context [if ?x then _ else _] => destruct x eqn:?; [injection H as <- <-; cbn [capital_radix radix_letter]; lia|] end). discriminate. Qed.
  Lemma radix_of_none c : radix_of c = None -> ~ In c [66; 79; 88; 98; 111; 120].
  Proof. unfold radix_of. intros H. repeat (match type of H with context [if ?x then _ else _] => destruct x eqn:?; [discriminate|] end). cbn [In]. lia. Qed.

  (** Behind the zero at the start of a number. *)
  Lemma good_zero sg r : lit = sg_text sg ++ 48 :: r -> good vok (parse_prefixed_int_float_or_date (tlen (sg_text sg) + 1, r) lit sp sg).
  Proof.
    set (u := sg_text sg). intros E0. assert (E : lit = (u ++ [48]) ++ r) by (rewrite E0; apply snoc_app). assert (EI : tlen u + 1 = tlen (u ++ [48])) by (rewrite tlen_snoc; reflexivity).
    destruct (sg_sign sg) as (neg & SG). fold u in SG. assert (U48 : us decimal [48] [48]) by (constructor; [unfold decimal; lia|constructor]).
    unfold parse_prefixed_int_float_or_date, cnext. cbn [fst snd]. destruct r as [|c r]; [exact I|].
    cbn [fst snd]. assert (E' : lit = ((u ++ [48]) ++ [c]) ++ r) by (rewrite E; apply snoc_app). assert (EI' : tlen u + 1 + len_utf8 c = tlen ((u ++ [48]) ++ [c])) by (rewrite tlen_snoc, EI; reflexivity).
    destruct (radix_of c) as [[pf up]|] eqn:RO.
    - pose proof (radix_of_some _ _ _ RO) as RC.
      destruct sg as [g|].
      { apply (good_start0 _ _ (sign_char g) (48 :: c :: r)); [rewrite E0; subst u; destruct g; reflexivity|destruct g; reflexivity|reflexivity|]. split; [reflexivity|]. split; [destruct g; auto|].
        exists pf, c, r. split; [reflexivity|]. destruct up; auto. }
      destruct up.
      + assert (L1 : len_utf8 c = 1) by (rewrite RC; destruct pf; reflexivity). subst u. cbn [sg_text sign_opt fst] in *. cbn [good]. apply (ins_at [48] [c] r); [exact E| |split; [reflexivity|rewrite RC; reflexivity]].
        cbn [err_span tlen]. rewrite L1. change (len_utf8 48) with 1. unfold sp, lit_span, span_from_pos_len, span_ascii_char, pos_plus. cbn [s_start p_line p_char]. f_equal; f_equal; lia.
      + apply good_then; [eapply good_prefixed; [|reflexivity|exact E'|exact EI']|intros v _; exact I]. subst u. cbn [sg_text sign_opt fst app]. rewrite RC. apply st_init. constructor.
    - pose proof (radix_of_none _ RO) as RN. destruct (c =? 46) eqn:C46.
      { apply N.eqb_eq in C46. subst c. apply good_then; [|intros f _; exact I]. eapply good_fraction; [|exact E'|exact EI'|reflexivity]. rewrite <- app_assoc. eapply bp_fract; [exact SG|exact U48|left; reflexivity]. }
      destruct ((c =? 101) || (c =? 69)) eqn:CE.
      { apply good_then; [|intros f _; exact I]. eapply good_exponent; [|exact E'|exact EI']. intros sg' neg' S'. rewrite <- !app_assoc. apply (bp_exp u neg [48] [48] [] [] c sg' neg'); auto; [left; reflexivity|constructor|lia]. }
      destruct (is_digit c && _) eqn:DG.
      + apply andb_true_iff in DG as [DG NS]. destruct sg; [discriminate NS|]. subst u. cbn [sg_text sign_opt fst app tlen] in *.
        apply is_digit_iff in DG. apply good_as_invalid, good_date_time; [exact DG|]. split; [exact E'|exact EI'].
      + destruct (is_digit c || (c =? 95)) eqn:DU.
        * assert (B : begins (fun c => decimal c \/ c = 95) (c :: r)).
          { exists c, r. split; [reflexivity|]. apply orb_true_iff in DU as [DU|DU]; [left; apply is_digit_iff; exact DU|right; lia]. }
          destruct sg as [g|]; subst u.
          -- assert (L : len_utf8 (sign_char g) = 1) by (destruct g; reflexivity).
             cbn [good]. apply (ins_at [sign_char g] [48] (c :: r)); [rewrite E0; destruct g; reflexivity| |split; [reflexivity|split; [destruct g; auto|exact B]]]. cbn [tlen err_span]. rewrite L.
             unfold sp, lit_span, span_from_pos_len, span_ascii_char, pos_plus. cbn [s_start p_line p_char]. change (len_utf8 48) with 1. f_equal; f_equal; lia.
          -- apply (good_start0 _ _ 48 (c :: r)); [exact E0|reflexivity| |split; [reflexivity|split; [auto|exact B]]]. unfold sp, lit_span, span_from_pos_len, pos_plus. cbn [err_span s_start]. destruct p as [pl pc]. cbn [p_line p_char]. rewrite N.add_0_r. reflexivity.
        * apply orb_false_iff in DU as [D1 D2]. apply orb_false_iff in CE as [CE1 CE2].
          destruct sg as [g|]; (insx (u ++ [48]) [c] r EI; [exact E|]).
          -- split; [subst u; destruct g; auto|]. split; [reflexivity|apply not_digit; exact D1].
          -- split; [reflexivity|]. split; [reflexivity|]. split; [apply not_digit; exact D1|]. cbn [In] in *. lia.
  Qed.

  Lemma bare_letters x c : bare_word x -> In c x -> 97 <= c <= 122.
  Proof.
    unfold bare_word. cbn [In]. intros B H. repeat (destruct B as [<-|B]; [cbn [bs In] in H; repeat (destruct H as [<-|H]; [vm_compute; split; discriminate|]); destruct H|]). destruct B.
  Qed.
  Lemma word_bare x u q : word_read x u q -> bare_word x /\ forall c, In c q -> In c x.
  Proof.
    destruct 1 as [x p0 q B ->|x sg p0 q B S ->|x sg c p0 q B S ->].
    - split; [exact B|]. intros c H. apply in_or_app. auto.
    - split; [unfold bare_word; cbn [In]; destruct B as [-> | ->]; tauto|]. intros c H. apply in_or_app. auto.
    - split; [unfold bare_word; cbn [In]; destruct B as [-> | ->]; tauto|]. intros c' H. right. apply in_or_app. auto.
  Qed.
  Lemma word_step x u e q : word_read x u (e :: q) -> word_read x (u ++ [e]) q.
  Proof.
    intros H. inversion H as [? ? ? B X|? sg p0 ? B S X|? sg c p0 ? B S X]; subst.
    - constructor; [exact B|]. rewrite <- app_assoc. reflexivity.
    - cbn [app]. constructor; [exact B|exact S|]. rewrite <- app_assoc. reflexivity.
    - cbn [app]. apply wr_capital; [exact B|exact S|]. rewrite <- app_assoc. reflexivity.
  Qed.
  Lemma lower_cases x u e q c : word_read x u (e :: q) -> c <> e -> (ascii_lower c =? e = true -> c = e - 32) /\ (ascii_lower c =? e = false -> c <> e - 32).
  Proof.
    intros W NE. destruct (word_bare _ _ _ W) as [B I0]. pose proof (bare_letters _ e B (I0 _ (or_introl eq_refl))) as L.
    unfold ascii_lower, ascii_upper. destruct ((65 <=? c) && (c <=? 90)) eqn:U; lia.
  Qed.
  Lemma good_bare_loop w : forall rest u es i, word_read w u es -> lit = u ++ rest -> i = tlen u -> good any (bare_loop sp w es i rest).
  Proof.
    induction rest as [|c r IH]; intros u [|e es] i W E EI; cbn [bare_loop]; [exact I| | |].
    - rewrite app_nil_r in E. at_end. split; [reflexivity|]. split; [reflexivity|]. exists (e :: es). split; [rewrite E; exact W|discriminate].
    - cbn [good]. exists u, (c :: r), []. split; [rewrite app_nil_r; exact E|]. split; [|split; [reflexivity|split; [discriminate|auto]]]. cbn [err_span]. unfold sp, lit_span, span_from_pos_len, pos_plus. cbn [s_start s_end p_line p_char].
      assert (T : tlen lit = tlen u + tlen (c :: r)) by (rewrite E, tlen_app; reflexivity). f_equal; f_equal; lia.
    - destruct (c =? e) eqn:CE; [apply N.eqb_eq in CE; subst c; apply (IH (u ++ [e])); [apply word_step; exact W|rewrite E; apply snoc_app|rewrite tlen_snoc, EI; reflexivity]|].
      apply N.eqb_neq in CE. destruct (lower_cases _ _ _ _ _ W CE) as [LC1 LC2].
      destruct (ascii_lower c =? e); (insx u [c] r EI; [exact E|]; split; [reflexivity|]; exists e, es; auto).
  Qed.
End Good.

Lemma good_literal lit p : lit <> [] -> good p lit (vok p lit) (parse_literal lit (lit_span p lit)).
Proof.
  intros NE. destruct lit as [|c r]; [congruence|]. clear NE.
  set (lit := c :: r). set (sp := lit_span p lit).
  pose proof (len_utf8_pos c) as LC.
  unfold parse_literal, cnext. cbn [snd fst]. subst lit. cbn [snd fst].
  set (lit := c :: r) in *.
  assert (L0 : tlen [c] = len_utf8 c) by (cbn [tlen]; lia).
  assert (IN0 : forall e, err_span e = span_from_pos_len (s_start sp) (len_utf8 c) -> lit_says e [] [c] r -> good p lit (vok p lit) (Err e)).
  { intros e H NH. cbn [good]. exists [], [c], r. split; [reflexivity|]. split; [|exact NH]. rewrite H, L0. unfold sp, lit_span, span_from_pos_len, pos_plus. cbn [s_start tlen]. destruct p as [pl pc]. cbn [p_line p_char]. f_equal; f_equal; lia. }
  destruct ((c =? 43) || (c =? 45)) eqn:CS.
  - assert (L1 : len_utf8 c = 1) by (apply len_utf8_ascii; lia).
    set (sg := if c =? 43 then SPos else SNeg).
    assert (CC : c = sign_char sg) by (subst sg; destruct (c =? 43) eqn:X; cbn [sign_char]; lia).
    assert (CT : [c] = sg_text (Some sg)) by (rewrite CC; destruct sg; reflexivity).
    assert (NU : ascii_upper c = false) by (unfold ascii_upper; lia).
    destruct r as [|c2 r].
    + cbn [good]. apply ins_end; [reflexivity|]. split; [subst lit; rewrite CC; reflexivity|]. split; [reflexivity|left; reflexivity].
    + cbn [fst snd]. rewrite L1. change (0 + 1) with 1.
      assert (E2 : lit = [c; c2] ++ r) by reflexivity. assert (T2 : 1 + len_utf8 c2 = tlen [c; c2]) by (cbn [tlen]; lia).
      assert (ONE : forall e v, err_span e = mkspan (pos_plus p 1) (pos_plus p (1 + tlen v)) -> (v = [c2] /\ lit_says e [c] [c2] r \/ v = [] /\ lit_says e [c] [] (c2 :: r)) -> good p lit (vok p lit) (Err e)).
      { intros e v H W. cbn [good]. destruct W as [(-> & NH)|(-> & NH)]; [exists [c], [c2], r|exists [c], [], (c2 :: r)]; (split; [reflexivity|]); (split; [|exact NH]); rewrite H, L0, L1; reflexivity. }
      destruct (c2 =? 48) eqn:Z.
      { apply N.eqb_eq in Z. subst c2. change (1 + len_utf8 48) with 2. pose proof (good_zero p lit (Some sg) r) as G. rewrite <- CT, L0, L1 in G. exact (G eq_refl). }
      destruct (is_digit c2) eqn:D.
      { apply is_digit_iff in D. unfold parse_decimal_int_float_or_date. cbn [fst snd]. apply N.eqb_neq in Z.
        apply (good_dec p lit (Some sg) r [c; c2]); [|reflexivity|exact T2].
        exists c2, [], []. split; [rewrite <- CT; reflexivity|]. split; [unfold decimal in D; lia|]. split; [apply sofar_one; exact D|]. split; [|discriminate]. intros _.
        unfold dec_val, val_acc, digit_val. cbn [fold_left]. cbn [szn]. lia. }
      assert (BARE2 : forall w v x l, (w = bs "inf" \/ w = bs "nan") -> w = x :: l -> (c2 = x \/ c2 = x - 32) -> vok p lit v -> good p lit (vok p lit) (let? _ := parse_bare_literal (1 + len_utf8 c2, r) sp 1 c w in Ok v)).
      { intros w v x l W X C2 VO. eapply good_bind; [|intros _ _; exact VO]. unfold parse_bare_literal. rewrite NU. cbn [fst snd]. apply (good_bare_loop p lit w r [c; c2]); [|exact E2|exact T2].
        assert (SS : c = 43 \/ c = 45) by lia. subst w. cbn [tl]. destruct C2 as [-> | ->]; [apply (wr_signed _ c [x] l); auto|apply (wr_capital _ c x [] l); auto]. }
      destruct ((c2 =? 105) || (c2 =? 73)) eqn:B1; [apply (BARE2 (bs "inf") _ 105 [110; 102]); [left; reflexivity|reflexivity|lia|exact I]|].
      destruct ((c2 =? 110) || (c2 =? 78)) eqn:B2; [apply (BARE2 (bs "nan") _ 110 [97; 110]); [right; reflexivity|reflexivity|lia|exact I]|].
      destruct (c2 =? 46) eqn:C46.
      * apply (ONE _ []); [reflexivity|right]. split; [reflexivity|]. split; [rewrite CC; reflexivity|]. split; [reflexivity|]. right. exists c2, r. split; [reflexivity|lia].
      * apply (ONE _ [c2]); [cbn [err_span tlen]; unfold sp, lit_span, span_from_pos_len, pos_plus; cbn [s_start p_line p_char]; f_equal; f_equal; lia|].
        left. split; [reflexivity|]. split; [reflexivity|]. split; [|split; [apply not_digit; exact D|]].
        -- exists [c], []. split; [reflexivity|]. split; [|left; reflexivity]. destruct (sg_sign (Some sg)) as (neg & SG). rewrite <- CT in SG. econstructor. exact SG.
        -- intros ->. destruct sg; rewrite CC; auto.
  - change (0 + len_utf8 c) with (len_utf8 c).
    destruct (c =? 48) eqn:Z.
    { apply N.eqb_eq in Z. subst c. exact (good_zero p lit None r eq_refl). }
    apply N.eqb_neq in Z.
    destruct (is_digit c) eqn:D.
    { apply is_digit_iff in D. unfold parse_decimal_int_float_or_date. cbn [fst snd].
      apply (good_dec p lit None r [c]); [|reflexivity|symmetry; exact L0].
      exists c, [], []. split; [reflexivity|]. split; [unfold decimal in D; lia|]. split; [apply sofar_one; exact D|]. split; [|discriminate]. intros _.
      unfold dec_val, val_acc, digit_val. cbn [fold_left]. cbn [szn]. lia. }
    assert (BARE : forall w v x l, bare_word w -> w = x :: l -> 97 <= x <= 122 -> (c = x \/ c = x - 32) -> vok p lit v -> good p lit (vok p lit) (let? _ := parse_bare_literal (len_utf8 c, r) sp 0 c w in Ok v)).
    { intros w v x l BW X LX CX VO. eapply good_bind; [|intros _ _; exact VO]. unfold parse_bare_literal.
      assert (UP : ascii_upper c = true <-> c = x - 32) by (unfold ascii_upper; lia).
      destruct (ascii_upper c).
      - cbn [good]. exists [], [c], r. split; [reflexivity|]. split; [|split; [reflexivity|exists x, l; split; [apply wr_plain; [exact BW|exact X]|apply UP; reflexivity]]].
        cbn [err_span tlen]. rewrite N.add_0_r. unfold sp, lit_span, span_from_pos_len, span_ascii_char, pos_plus. cbn [s_start p_line p_char].
        rewrite (len_utf8_ascii c) by lia. f_equal; f_equal; lia.
      - cbn [fst snd]. apply (good_bare_loop p lit w r [c]); [|reflexivity|symmetry; exact L0]. subst w. cbn [tl]. destruct CX as [-> |CX]; [|destruct UP as [_ UP]; discriminate (UP CX)].
        apply wr_plain; [exact BW|reflexivity]. }
    destruct ((c =? 102) || (c =? 70)) eqn:B1; [apply (BARE (bs "false") _ 102 [97; 108; 115; 101]); [unfold bare_word; cbn [In]; tauto|reflexivity|lia|lia|exact I]|].
    destruct ((c =? 116) || (c =? 84)) eqn:B2; [apply (BARE (bs "true") _ 116 [114; 117; 101]); [unfold bare_word; cbn [In]; tauto|reflexivity|lia|lia|exact I]|].
    destruct ((c =? 105) || (c =? 73)) eqn:B3; [apply (BARE (bs "inf") _ 105 [110; 102]); [unfold bare_word; cbn [In]; tauto|reflexivity|lia|lia|exact I]|].
    destruct ((c =? 110) || (c =? 78)) eqn:B4; [apply (BARE (bs "nan") _ 110 [97; 110]); [unfold bare_word; cbn [In]; tauto|reflexivity|lia|lia|exact I]|].
    destruct (c =? 95) eqn:U.
    + apply N.eqb_eq in U. subst c. apply IN0; [reflexivity|]. split; [reflexivity|constructor].
    + apply IN0; [reflexivity|]. split; [reflexivity|]. split; [reflexivity|]. split; [apply N.eqb_neq; exact U|apply not_digit; exact D].
Qed.
