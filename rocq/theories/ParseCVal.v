(** The parser accepts keys and values of the grammar, and what it builds says
    what they say. *)
From Verif Require Import Base BaseProofs CommonModel TomlError LitModel LitSpec LitWhole LitDate LexModel LexSpec LexBase LexStr LexSound LexProps ParseModel ParseSpec ParsePlace ParseItems ParseKey ParseLit ParseVal ParseValue ParseAssoc.

(** ** What may follow a key or value *)

(** The first lexeme that is not a blank. *)
Inductive next_is (P : lexeme -> Prop) : list tile -> Prop :=
| ni_here x s r : x <> XBlank -> P x -> next_is P ((x, s) :: r)
| ni_blank s r : next_is P r -> next_is P ((XBlank, s) :: r).
Definition stop (x : lexeme) : Prop :=
  x = XNewline \/ x = XComment \/ x = XPunct TComma \/ x = XPunct TSquareRight \/ x = XPunct TCurlyRight.
Definition stops (r : list tile) : Prop := blanks r \/ next_is stop r.
Definition after_key (x : lexeme) : Prop := x = XPunct TEqual \/ x = XPunct TSquareRight.

Lemma next_is_split P r : next_is P r -> exists w x s r', r = w ++ (x, s) :: r' /\ blanks w /\ x <> XBlank /\ P x.
Proof.
  induction 1 as [x s r NX PX|s r _ (w & x & s' & r' & -> & B & NX & PX)].
  - exists [], x, s, r. split; [reflexivity|]. split; [constructor|]. auto.
  - exists ((XBlank, s) :: w), x, s', r'. split; [reflexivity|]. split; [constructor; [reflexivity|exact B]|]. auto.
Qed.
Lemma next_is_app (P : lexeme -> Prop) w x s r : blanks w -> x <> XBlank -> P x -> next_is P (w ++ (x, s) :: r).
Proof.
  intros B NX PX. induction B as [|[y t] w H B IH]; [apply ni_here; assumption|]. cbv [is_blank] in H. cbn in H. subst y. cbn [app]. apply ni_blank. exact IH.
Qed.
Lemma stops_trivia w x s r : trivia w -> stop x -> stops (w ++ (x, s) :: r).
Proof.
  intros T PX. right. induction T as [|[y t] w H T IH].
  - apply ni_here; [|exact PX]. destruct PX as [->|[->|[->|[->| ->]]]]; discriminate.
  - cbn [app]. destruct H as [H|[H|H]]; cbn in H; subst y.
    + apply ni_blank. exact IH.
    + apply ni_here; [discriminate|left; reflexivity].
    + apply ni_here; [discriminate|right; left; reflexivity].
Qed.
Lemma stops_run r : stops r -> ~ starts_run r.
Proof.
  intros [H|H] (x & r' & -> & W).
  - pose proof (Forall_inv H) as B. unfold is_blank in B. destruct W as [W|W]; unfold is_punct in *; congruence.
  - inversion H as [x0 s0 r0 NX PX E|s0 r0 PX E]; subst; destruct W as [W|W]; unfold is_punct in *; cbn in W; try discriminate; subst;
      destruct PX as [D|[D|[D|[D|D]]]]; discriminate.
Qed.

(** ** Trivia in front of something *)
Lemma trivia_prefix w x r a b : w ++ x :: r = a ++ b -> trivia w -> trivia a -> ~ is_trivia x ->
  exists w', w = a ++ w' /\ b = w' ++ x :: r.
Proof.
  revert a. induction w as [|y w IH]; intros [|z a] E TW TA NX.
  - exists []. split; [reflexivity|]. symmetry. exact E.
  - injection E as <- _. exfalso. apply NX. exact (Forall_inv TA).
  - exists (y :: w). split; [reflexivity|]. symmetry. exact E.
  - injection E as <- E. destruct (IH a E (Forall_inv_tail TW) (Forall_inv_tail TA) NX) as (w' & -> & ->). exists w'. auto.
Qed.
Lemma trivia_blanks input st pre w x r : at_ input st pre (w ++ x :: r) -> trivia w ->
  pty (eof input) st <> INewline -> (forall c, pty (eof input) st <> IComment c) -> blanks w.
Proof.
  intros A T N1 N2. assert (D : blanks w \/ exists u y s v, w = u ++ (y, s) :: v /\ blanks u /\ (y = XNewline \/ y = XComment)).
  { clear A N1 N2. induction T as [|[y s] w H T IH]; [left; constructor|]. destruct H as [H|H].
    - cbn in H. subst y. destruct IH as [IH|(u & z & t & v & -> & B & D)]; [left; constructor; [reflexivity|exact IH]|].
      right. exists ((XBlank, s) :: u), z, t, v. split; [reflexivity|]. split; [constructor; [reflexivity|exact B]|exact D].
    - right. exists [], y, s, w. split; [reflexivity|]. split; [constructor|exact H]. }
  destruct D as [D|(u & y & s & v & -> & B & D)]; [exact D|exfalso].
  rewrite <- app_assoc in A. cbn [app] in A.
  assert (NX : y <> XBlank) by (destruct D; subst; discriminate).
  pose proof (peek_tile input st pre u y s _ A B NX) as P. unfold pty in N1, N2. rewrite P in N1, N2. cbn [i_ty] in N1, N2.
  destruct D; subst y; [apply N1; reflexivity|eapply N2; reflexivity].
Qed.

(** ** First lexemes *)
Definition ident_like (x : lexeme) : Prop := x = XWord \/ exists q t o, x = XString q t o.
Lemma g_key_first kt ks : g_key kt ks -> exists x s r, kt = (x, s) :: r /\ ident_like x.
Proof.
  intros G. destruct G as [x k G|x k w1 d w2 ts ks G]; destruct G as [s|q t o s]; eexists _, _, _; (split; [reflexivity|]);
    first [left; reflexivity|right; eexists _, _, _; reflexivity].
Qed.
Definition value_like (x : lexeme) : Prop := ident_like x \/ x = XPunct TSquareLeft \/ x = XPunct TCurlyLeft.
Lemma g_value_first vt tv : g_value vt tv -> exists x s r, vt = (x, s) :: r /\ value_like x.
Proof.
  intros G. destruct G as [q t o s|ts t v ((s & r & ->) & _)|ta a b tb t v ((s & r & ->) & _)|[x s] r ts vs L|[x s] r w L|[x s] r ts fs L];
    try (unfold is_punct in L; cbn in L; subst x); eexists _, _, _; (split; [reflexivity|]).
  - left. right. eexists _, _, _. reflexivity.
  - left. left. reflexivity.
  - left. left. reflexivity.
  - right. left. reflexivity.
  - right. right. reflexivity.
  - right. right. reflexivity.
Qed.
Lemma value_not_trivia x s : value_like x -> ~ is_trivia (x, s).
Proof. intros [[->|(q & t & o & ->)]|[->| ->]] [H|[H|H]]; discriminate. Qed.
Lemma value_not_blank x : value_like x -> x <> XBlank.
Proof. intros [[->|(q & t & o & ->)]|[->| ->]]; discriminate. Qed.

Section CVal.
  Context (input : list N).
  Notation at_ := (at_ input).
  Notation goes := (goes input).
  Notation eof := (eof input).

  Lemma goes_eq st pre ts ts' st' a a' b es cs : goes st pre ts st' a b es cs -> ts = ts' -> a = a' -> goes st pre ts' st' a' b es cs.
  Proof. intros G <- <-. exact G. Qed.
  Lemma at_eq st pre ts ts' : at_ st pre ts -> ts = ts' -> at_ st pre ts'.
  Proof. intros A <-. exact A. Qed.

  (** What [peek] says about the following lexeme. *)
  Lemma pty_next P st pre r : at_ st pre r -> next_is P r -> exists p x s, P x /\ x <> XBlank /\ pty eof st = item_ty p x s.
  Proof.
    intros A H. destruct (next_is_split _ _ H) as (w & x & s & r' & -> & B & NX & PX).
    exists (pre ++ source w), x, s. split; [exact PX|]. split; [exact NX|]. unfold pty. rewrite (peek_tile input st pre w x s r' A B NX). reflexivity.
  Qed.
  Lemma pty_stops st pre r : at_ st pre r -> stops r ->
    (forall y, pty eof st <> ILit y) /\ pty eof st <> IDot.
  Proof.
    intros A [H|H].
    - unfold pty. rewrite (peek_blanks input st pre r A H). cbn. split; [intros; discriminate|discriminate].
    - destruct (pty_next _ _ _ _ A H) as (p & x & s & PX & _ & ->). destruct PX as [->|[->|[->|[->| ->]]]]; cbn [item_ty]; (split; [intros; discriminate|discriminate]).
  Qed.

  (** ** Keys *)
  Lemma g_ident_parse st pre w x s r k : at_ st pre (w ++ (x, s) :: r) -> blanks w -> valid (x, s) -> g_ident (x, s) k ->
    exists i, parse_ident (ppeek eof st) st = inl (i, st) /\ id_text i = k.
  Proof.
    intros A B V G. assert (NX : x <> XBlank) by (inversion G; discriminate).
    rewrite (peek_tile input st pre w x s r A B NX). unfold parse_ident. cbn [i_ty i_start].
    inversion G as [s0 F E1 E2|q t o s0 NM E1 E2]; subst; cbn [item_ty sr_text st_quote st_lit st_lit_end st_text st_offset].
    - rewrite (proj2 (find_invalid_none k 0) F). eexists. split; [reflexivity|]. reflexivity.
    - destruct V as (trim & _ & VO). subst o.
      destruct q; try (exfalso; apply NM; cbv; tauto); (replace ((to_end_line _ =? 0) && (to_end_char _ =? 0)) with false; [eexists; split; [reflexivity|]; reflexivity|]);
        symmetry; apply andb_false_iff; right; apply N.eqb_neq; destruct trim; discriminate.
  Qed.

  Lemma key_loop_complete : forall kt ks, g_key kt ks -> forall fuel idents st pre w r, at_ st pre (w ++ kt ++ r) -> blanks w ->
    Forall valid kt -> next_is after_key r -> (left st < fuel)%nat ->
    exists k st', key_loop eof fuel idents st = Ok (KeyOk k, st') /\ goes st pre (w ++ kt ++ r) st' (w ++ kt) r [] [] /\
      ps_store st' = ps_store st /\ key_path k = map ident_text idents ++ ks.
  Proof.
    induction 1 as [[x s] k G|[x s] k w1 [d ds] w2 ts ks G B1 D B2 GK IH]; intros fuel idents st pre w r A B V NK L; (destruct fuel as [|fuel]; [lia|]); cbn [key_loop].
    - cbn [app] in A |- *. destruct (g_ident_parse st pre w x s r k A B (Forall_inv V) G) as (i & -> & IT).
      assert (NX : x <> XBlank) by (inversion G; discriminate).
      pose proof (goes_skip input st pre w x s r A B NX) as G1. pose proof (goes_at _ _ _ _ _ _ _ _ _ G1) as A1.
      cbv zeta. destruct (pty_next _ _ _ _ A1 NK) as (p & y & t & PY & _ & PT). rewrite PT.
      exists (match idents with [] => KOne i | _ => KDotted (idents ++ [mkdi i None]) end), (padv st).
      split; [destruct PY as [->| ->]; reflexivity|]. split; [exact G1|]. split; [reflexivity|].
      destruct idents as [|i0 is0]; [cbn [key_path map app]; rewrite IT; reflexivity|]. cbn [key_path]. rewrite map_app. cbn [map di_ident]. rewrite IT. reflexivity.
    - assert (A0 : at_ st pre (w ++ (x, s) :: w1 ++ (d, ds) :: w2 ++ ts ++ r)).
      { eapply at_eq; [exact A|assoc]. }
      destruct (g_ident_parse st pre w x s _ k A0 B (Forall_inv V) G) as (i & -> & IT).
      assert (NX : x <> XBlank) by (inversion G; discriminate).
      pose proof (goes_skip input st pre w x s _ A0 B NX) as G1. pose proof (goes_at _ _ _ _ _ _ _ _ _ G1) as A1.
      unfold is_punct in D. cbn in D. subst d.
      cbv zeta. unfold pty. rewrite (peek_tile input _ _ w1 (XPunct TDot) ds _ A1 B1 ltac:(discriminate)). cbn [i_ty item_ty i_start].
      pose proof (goes_skip input _ _ w1 (XPunct TDot) ds _ A1 B1 ltac:(discriminate)) as G2. pose proof (goes_trans _ _ _ _ _ _ _ _ _ _ _ _ _ _ G1 G2) as G3.
      pose proof (goes_at _ _ _ _ _ _ _ _ _ G3) as A3.
      pose proof (Forall_inv_tail V) as V1. apply Forall_app in V1 as [_ V1]. apply Forall_inv_tail in V1. apply Forall_app in V1 as [_ V1].
      destruct (IH fuel (idents ++ [mkdi i (Some (pos_at ((pre ++ source (w ++ [(x, s)])) ++ source w1)))]) (padv (padv st)) _ w2 r A3 B2 V1 NK) as (k' & st' & R & G4 & ST & KP).
      { pose proof (goes_less _ _ _ _ _ _ _ _ _ A0 G3) as LT.
        assert (HI : has_item ((w ++ [(x, s)]) ++ w1 ++ [(XPunct TDot, ds)])).
        { intros H. apply Forall_app in H as [H _]. apply Forall_app in H as [_ H]. apply Forall_inv in H. cbv [is_blank] in H. cbn in H. congruence. }
        specialize (LT HI). lia. }
      exists k', st'. split; [exact R|]. pose proof (goes_trans _ _ _ _ _ _ _ _ _ _ _ _ _ _ G3 G4) as G5. cbn [app] in G5.
      split; [eapply goes_eq; [exact G5|assoc|assoc]|].
      split; [exact ST|]. rewrite KP, map_app, <- app_assoc. cbn [map app]. unfold ident_text at 2. cbn [di_ident]. rewrite IT. reflexivity.
  Qed.
  Lemma parse_key_complete kt ks st pre w r : g_key kt ks -> at_ st pre (w ++ kt ++ r) -> blanks w -> Forall valid kt -> next_is after_key r ->
    exists k st', parse_key eof st = Ok (KeyOk k, st') /\ goes st pre (w ++ kt ++ r) st' (w ++ kt) r [] [] /\
      ps_store st' = ps_store st /\ key_path k = ks.
  Proof. intros G A B V NK. exact (key_loop_complete kt ks G (S (left st)) [] st pre w r A B V NK ltac:(lia)). Qed.

  (** ** Numbers, booleans, dates *)
  Lemma scalar_literal t v sp : scalar t v ->
    match v with
    | TvInt z => parse_literal t sp = Ok (PInt z)
    | TvFloat f => parse_literal t sp = Ok (PFloat f)
    | TvBool b => parse_literal t sp = Ok (PBool b)
    | TvDate (LocalDate d) => parse_literal t sp = Ok (PPartialDate d)
    | TvDate d => parse_literal t sp = Ok (PDateTime d)
    | _ => False
    end.
  Proof.
    intros S. destruct S as [t z D I|t v P|t f F|t b B|t d D].
    - apply int_literals. auto.
    - apply int_literals. right. eauto.
    - apply float_literals. exact F.
    - apply bool_literals. exact B.
    - pose proof (proj2 (datetime_literals t sp d) D) as H. destruct d; exact H.
  Qed.

  Lemma g_lit_split ts t : g_lit ts t -> exists s u, ts = (XWord, s) :: u /\ Forall word_or_dot u /\ t = s ++ source u.
  Proof. intros ((s & u & ->) & W & E). exists s, u. split; [reflexivity|]. split; [exact (Forall_inv_tail W)|symmetry; exact E]. Qed.

  Lemma lit_complete depth level st pre w ts t v r : at_ st pre (w ++ ts ++ r) -> blanks w -> g_lit ts t -> scalar t v -> stops r ->
    exists x st', parse_value input eof (S depth) level st = Ok (VOk x, st') /\ goes st pre (w ++ ts ++ r) st' (w ++ ts) r [] [] /\ val_of x = Some v.
  Proof.
    intros A B GL SC ST. destruct (g_lit_split _ _ GL) as (s & u & -> & W & ->).
    destruct (combine_goes input st pre w s u r A B W (stops_run _ ST)) as (st' & R & G & _ & _).
    cbn [parse_value]. rewrite (peek_tile input st pre w XWord s (u ++ r) A B ltac:(discriminate)). cbn [i_ty item_ty].
    unfold parse_literal_value. cbn [i_start sr_text]. rewrite R. cbn [bind sr_text].
    pose proof (scalar_literal _ _ (sp_of (pre ++ source w) (s ++ source u)) SC) as PL.
    assert (D : (exists d, v = TvDate (LocalDate d)) \/ forall d, v <> TvDate (LocalDate d)).
    { destruct v as [| | | |[]| |]; try (right; intros; discriminate). left. eexists. reflexivity. }
    destruct D as [(d & ->)|ND].
    - rewrite PL. pose proof (goes_at _ _ _ _ _ _ _ _ _ G) as A1. destruct (pty_stops _ _ _ A1 ST) as [NL _].
      unfold try_to_parse_time_part. destruct (pty eof st') eqn:PT; try (eexists _, _; split; [reflexivity|]; split; [exact G|reflexivity]).
      exfalso. exact (NL _ eq_refl).
    - destruct v as [|z|f|b|[]| |]; try contradiction; try (rewrite PL; eexists _, _; split; [reflexivity|]; split; [exact G|reflexivity]).
      exfalso. eapply ND. reflexivity.
  Qed.

  Lemma spaced_complete depth level st pre w ta a b tb t v r : at_ st pre (w ++ (ta ++ b :: tb) ++ r) -> blanks w ->
    g_lit ta a -> is_blank b -> g_lit tb t -> spaced a t v -> stops r ->
    exists x st', parse_value input eof (S depth) level st = Ok (VOk x, st') /\ goes st pre (w ++ (ta ++ b :: tb) ++ r) st' (w ++ ta ++ b :: tb) r [] [] /\ val_of x = Some v.
  Proof.
    intros A B GA BB GB SP ST. destruct (g_lit_split _ _ GA) as (s & u & -> & W & EA). destruct (g_lit_split _ _ GB) as (s' & u' & -> & W' & EB).
    destruct b as [bx bs0]. unfold is_blank in BB. cbn in BB. subst bx.
    set (rest := (XBlank, bs0) :: ((XWord, s') :: u') ++ r) in *.
    assert (A0 : at_ st pre (w ++ ((XWord, s) :: u) ++ rest)).
    { eapply at_eq; [exact A|unfold rest; assoc]. }
    assert (NR : ~ starts_run rest).
    { intros (y & z & E & [Y|Y]); unfold rest in E; injection E as <- _; discriminate Y. }
    destruct (combine_goes input st pre w s u rest A0 B W NR) as (st1 & R & G1 & _ & IN & NL & NE).
    cbn [parse_value]. rewrite (peek_tile input st pre w XWord s (u ++ rest) A0 B ltac:(discriminate)). cbn [i_ty item_ty].
    unfold parse_literal_value. cbn [i_start sr_text]. rewrite R. cbn [bind sr_text]. rewrite <- EA.
    assert (exists d, lenient_datetime a (LocalDate d) /\ exists tm o, parse_time_and_offset (0, t) (sp_of ((pre ++ source (w ++ (XWord, s) :: u)) ++ source [(XBlank, bs0)]) t) = Ok (tm, o) /\ v = TvDate (from_optional_offset d tm o))
      as (d & LD & tm & o & PTO & ->).
    { destruct SP as [a d t0 tm LD T|a d t0 tm ot o g LD T O]; exists d; (split; [exact LD|]).
      - exists tm, None. split; [|reflexivity]. apply time_and_offset_iff. left. eauto.
      - exists tm, (Some o). split; [|reflexivity]. apply time_and_offset_iff. right. exists t0, ot, o, g. auto. }
    rewrite (proj2 (datetime_literals a _ (LocalDate d)) LD). cbn [as_pval].
    pose proof (goes_at _ _ _ _ _ _ _ _ _ G1) as A1.
    change rest with ([(XBlank, bs0)] ++ (XWord, s') :: u' ++ r) in A1.
    assert (BL : blanks [(XBlank, bs0)]) by (constructor; [reflexivity|constructor]).
    unfold try_to_parse_time_part, pty. rewrite (peek_tile input st1 _ _ XWord s' (u' ++ r) A1 BL ltac:(discriminate)). cbn [i_ty item_ty i_start sr_text].
    destruct (combine_goes input st1 _ _ s' u' r A1 BL W' (stops_run _ ST)) as (st2 & R2 & G2 & _ & IN2 & NL2 & _).
    rewrite R2. cbn [bind sr_text].
    assert (SB : tlen bs0 = 1 /\ no_lf bs0).
    { destruct A1 as (_ & SH & _). apply Forall_inv in SH. cbn in SH. destruct SH as [-> | ->]; (split; [reflexivity|intros [H|[]]; discriminate]). }
    assert (FAR : p_char (s_end (sp_of (pre ++ source w) a)) + 1 <? p_char (s_start (sp_of ((pre ++ source (w ++ (XWord, s) :: u)) ++ source [(XBlank, bs0)]) (s' ++ source u'))) = false).
    { unfold sp_of. cbn [s_end s_start]. change (source [(XBlank, bs0)]) with (bs0 ++ []). rewrite app_nil_r.
      replace (pre ++ source (w ++ (XWord, s) :: u)) with ((pre ++ source w) ++ a) by (rewrite EA, source_app, source_cons; assoc).
      rewrite <- (pos_plus_text ((pre ++ source w) ++ a) bs0 1); [|apply SB|symmetry; apply SB]. cbn [pos_plus p_char]. apply N.ltb_ge. lia. }
    match goal with |- context [if ?c then perr _ _ else _] => replace c with false by (symmetry; exact FAR) end.
    assert (CC : concat_strs input (mkref (tlen (pre ++ source w)) a) (mkref (tlen ((pre ++ source (w ++ (XWord, s) :: u)) ++ source [(XBlank, bs0)])) (s' ++ source u')) =
       Ok (mkref (tlen (pre ++ source w)) (a ++ bs0 ++ s' ++ source u'))).
    { replace ((pre ++ source (w ++ (XWord, s) :: u)) ++ source [(XBlank, bs0)]) with ((pre ++ source w) ++ a ++ bs0).
      - apply (concat_eq input (pre ++ source w) a bs0 (s' ++ source u') (source r)). rewrite IN2.
        rewrite EA, source_app, source_cons. change (source [(XBlank, bs0)]) with (bs0 ++ []). rewrite app_nil_r. assoc.
      - rewrite EA, source_app, source_cons. change (source [(XBlank, bs0)]) with (bs0 ++ []). rewrite app_nil_r. assoc. }
    match goal with |- context [concat_strs input ?x ?y] => replace (concat_strs input x y) with (@Ok Empty_set _ (mkref (tlen (pre ++ source w)) (a ++ bs0 ++ s' ++ source u'))) by (symmetry; exact CC) end.
    cbn [bind]. cbv zeta. rewrite EB in PTO. match goal with |- context [parse_time_and_offset ?x ?y] => replace (parse_time_and_offset x y) with (@Ok terror _ (tm, o)) by (symmetry; exact PTO) end. eexists _, st2. split; [reflexivity|].
    pose proof (goes_trans _ _ _ _ _ _ _ _ _ _ _ _ _ _ G1 G2) as G3. cbn [app] in G3. split; [|reflexivity].
    eapply goes_eq; [exact G3|unfold rest; assoc|assoc].
  Qed.
End CVal.
