(** Table and array headers: within the document, sound, and the offsets of
    the brackets. *)
From Verif Require Import Base BaseProofs CommonModel TomlError LitModel LitSpec LexModel LexSpec LexBase LexStr LexSound LexProps ParseModel ParseSpec ParsePlace ParseItems ParseKey ParseLit ParseVal ParseValue ParseAssoc.

(** Only strings between triple quotes span lines. *)
Lemma string_lf_multi q off s : string_shape q off s -> In 10 s -> multi q.
Proof.
  intros (trim & b & e & -> & TR & FE & _ & NB & _) H. assert (D : {multi q} + {~ multi q}) by (destruct q; unfold multi; first [left; tauto|right; intuition discriminate]).
  destruct D as [M|M]; [exact M|]. destruct TR as [->|[M2 _]]; [|exact M2]. cbn [app] in H.
  apply in_app_iff in H as [H|H]; [exfalso; destruct q; cbn in H; intuition discriminate|].
  apply in_app_iff in H as [H|H]; [exfalso; exact (NB M H)|].
  rewrite Forall_forall in FE. specialize (FE _ H). destruct q; discriminate FE.
Qed.

Lemma inline_split m : Forall shape m -> inline m ->
  no_lf (source m) \/ exists m1 x m2, m = m1 ++ x :: m2 /\ inline m1 /\ multiline_string x /\ inline m2.
Proof.
  induction m as [|[x s] m IH]; intros S IL; [left; intros []|].
  pose proof (Forall_inv S) as S1. pose proof (Forall_inv IL) as [I1 I2]. cbn in I1, I2.
  destruct (IH (Forall_inv_tail S) (Forall_inv_tail IL)) as [NL|(m1 & y & m2 & -> & H1 & H2 & H3)].
  - assert (D : no_lf s -> no_lf (source ((x, s) :: m))) by (intros H; rewrite source_cons; apply no_lf_app; split; assumption).
    destruct x as [| |ty| | |q text off]; try congruence.
    + left. apply D. cbn in S1. destruct S1 as [->| ->]; intros [H|[]]; discriminate.
    + left. apply D. destruct (punct_char ty s S1) as (c & -> & _ & N & _). intros [H|[]]; congruence.
    + left. apply D. apply word_no_lf. apply S1.
    + destruct (in_dec N.eq_dec 10 s) as [H|H]; [|left; apply D; exact H].
      right. exists [], (XString q text off, s), m. split; [reflexivity|]. split; [constructor|].
      split; [split; [exists q, text, off; split; [reflexivity|]|exact H]|exact (Forall_inv_tail IL)].
      exact (string_lf_multi _ _ _ (proj1 S1) H).
  - right. exists ((x, s) :: m1), y, m2. split; [reflexivity|]. split; [constructor; [split; assumption|assumption]|]. auto.
Qed.

Section Head.
  Context (input : list N) (all : list tile).
  Notation at_ := (at_ input).
  Notation goes := (goes input).
  Notation eof := (eof input).
  Notation char_at := (char_at input).

  Lemma open_sound p0 st ts : at_ st (p0 ++ [91]) ts ->
    exists o st' a b es, header_open eof (pos_at p0) st = (o, st') /\ goes st (p0 ++ [91]) ts st' a b es [] /\ inline a /\
      match o with
      | Some l => char_at 91 l /\ exists w, a = w ++ [(XPunct TSquareLeft, [91])] /\ blanks w /\ (es = [] -> w = [])
      | None => a = [] /\ es = []
      end.
  Proof.
    intros A. unfold header_open. destruct (punct_ity (pty eof st)) as [[ty c]|] eqn:P.
    2: { exists None, st, [], ts, []. split; [destruct (pty eof st); try reflexivity; discriminate P|]. split; [apply goes_refl; exact A|]. split; [constructor|]. auto. }
    destruct (pty eof st) eqn:PT; try discriminate P; cbn [punct_ity] in P; injection P as <- <-;
      try (exists None, st, [], ts, []; split; [reflexivity|]; split; [apply goes_refl; exact A|]; split; [constructor|]; auto; fail).
    destruct (peek_punct input st _ ts TSquareLeft 91 A) as (w & r & E & B & PS & CA & G & IN); [rewrite PT; reflexivity|].
    assert (SHW : Forall shape w) by (rewrite E in A; exact (proj1 (at_split _ _ _ _ _ A))).
    destruct (blanks_no_lf w SHW B) as [NL LW].
    assert (IL : inline (w ++ [(XPunct TSquareLeft, [91])])).
    { apply Forall_app. split; [apply blanks_inline, B|]. constructor; [split; discriminate|constructor]. }
    assert (PC : p_char (i_start (ppeek eof st)) = p_char (pos_at p0) + 1 + N.of_nat (length w)).
    { rewrite PS. rewrite (pos_at_no_lf (p0 ++ [91])) by exact NL. cbn [p_char]. rewrite (pos_at_no_lf p0 [91]) by (intros [H|[]]; discriminate).
      cbn [p_char]. rewrite LW. change (tlen [91]) with 1. reflexivity. }
    destruct (N.eqb_spec (p_char (pos_at p0) + 1) (p_char (i_start (ppeek eof st)))) as [EQ|NE]; cbn [negb].
    - exists (Some (i_start (ppeek eof st))), (padv st), (w ++ [(XPunct TSquareLeft, [91])]), r, []. split; [reflexivity|]. split; [exact G|]. split; [exact IL|].
      split; [exact CA|]. exists w. split; [reflexivity|]. split; [exact B|]. intros _. destruct w; [reflexivity|cbn [length] in PC; lia].
    - eexists (Some _), _, (w ++ [(XPunct TSquareLeft, [91])]), r, [_]. split; [reflexivity|]. split; [apply (goes_err _ _ _ _ _ _ _ [] _ _ G)|].
      + rewrite PS. rewrite (pos_plus_text p0 [91]) by (first [intros [H|[]]; discriminate|reflexivity]).
        apply (err_ok_at input _ (p0 ++ [91]) (source w) ([91] ++ source r)); [rewrite IN; repeat rewrite <- app_assoc; reflexivity|reflexivity| |reflexivity].
        split; [split; [|exact (blanks_text w SHW B)]|].
        * intros H. rewrite H in LW. change (tlen []) with 0 in LW. apply NE. rewrite PC. destruct w; [symmetry; apply N.add_0_r|cbn [length] in LW; lia].
        * exists 91. split; [left; reflexivity|]. split; [exists p0; reflexivity|exists 91, (source r); auto].
      + split; [exact IL|]. split; [exact CA|]. exists w. split; [reflexivity|]. split; [exact B|]. discriminate.
  Qed.

  Lemma hkey_sound st pre ts : at_ st pre ts ->
    exists k skip st' a b es, header_key eof st = Ok (k, skip, st') /\ goes st pre ts st' a b es [] /\ inline a /\
      match k with Some k => key_ok input k | None => True end /\
      (es = [] -> Forall valid a -> skip = false /\ exists k' w kt, k = Some k' /\ a = w ++ kt /\ blanks w /\ g_key kt (key_path k')).
  Proof.
    intros A. unfold header_key. destruct (parse_key_sound input st pre ts A) as (r & st1 & a & b & es & -> & G & IL & POST). cbn [bind].
    destruct r as [k|k|e].
    - destruct POST as (_ & KO & _ & GK). exists (Some k), false, st1, a, b, es. split; [reflexivity|]. split; [exact G|]. split; [exact IL|].
      split; [exact KO|]. intros E _. split; [reflexivity|]. destruct (GK E) as (w & kt & E1 & B & GK'). exists k, w, kt. auto.
    - destruct POST as (_ & KO & NV). exists (Some k), true, st1, a, b, es. split; [reflexivity|]. split; [exact G|]. split; [exact IL|].
      split; [exact KO|]. intros _ V. contradiction.
    - pose proof (goes_err _ _ _ _ _ _ _ _ _ _ G POST) as G1. pose proof (goes_at _ _ _ _ _ _ _ _ _ G1) as A1.
      destruct (recover_sound input header_stop _ _ _ A1) as (a2 & b2 & G2 & _ & IL2 & _); [reflexivity|].
      eexists None, false, _, (a ++ a2), b2, _. split; [reflexivity|]. split; [exact (goes_trans _ _ _ _ _ _ _ _ _ _ _ _ _ _ G1 G2)|].
      split; [apply Forall_app; split; [exact IL|apply IL2; reflexivity]|]. split; [exact I|].
      intros E. rewrite app_nil_r in E. apply app_eq_nil in E as [_ E]. discriminate.
  Qed.

  Lemma close1_sound l st pre ts : at_ st pre ts -> match l with Some p => char_at 91 p | None => True end ->
    exists o st' a b es, header_close1 eof l st = (o, st') /\ goes st pre ts st' a b es [] /\ inline a /\
      match l, o with
      | Some _, Some p => es = [] /\ char_at 93 p /\ exists w, a = w ++ [(XPunct TSquareRight, [93])] /\ blanks w /\ p = pos_at (pre ++ source w)
      | Some _, None => a = [] /\ es <> []
      | None, None => a = [] /\ es = []
      | None, Some _ => False
      end.
  Proof.
    intros A PL. unfold header_close1. destruct l as [l|].
    2: { exists None, st, [], ts, []. split; [reflexivity|]. split; [apply goes_refl; exact A|]. split; [constructor|]. auto. }
    change (i_ty (ppeek eof st)) with (pty eof st).
    assert (FAIL : exists o st' a b es, (None, perr st (EExpectedDotOrRightSquareFound (token_fmt_str (ppeek eof st)) l (token_span (ppeek eof st)))) = (o, st') /\
      goes st pre ts st' a b es [] /\ inline a /\
      match o with
      | Some p => es = [] /\ char_at 93 p /\ exists w, a = w ++ [(XPunct TSquareRight, [93])] /\ blanks w /\ p = pos_at (pre ++ source w)
      | None => a = [] /\ es <> []
      end).
    { eexists None, _, [], ts, [_]. split; [reflexivity|]. split; [apply (goes_err _ _ _ _ _ _ _ [] _ _ (goes_refl _ _ _ _ A))|].
      - eapply err_ok_found; [eapply peek_stands; exact A|auto|exact PL].
      - split; [constructor|]. split; [reflexivity|discriminate]. }
    destruct (pty eof st) eqn:PT; try exact FAIL. clear FAIL.
    destruct (peek_punct input st pre ts TSquareRight 93 A) as (w & r & E & B & PS & CA & G & IN); [rewrite PT; reflexivity|].
    exists (Some (i_start (ppeek eof st))), (padv st), (w ++ [(XPunct TSquareRight, [93])]), r, []. split; [reflexivity|]. split; [exact G|].
    split. { apply Forall_app. split; [apply blanks_inline, B|]. constructor; [split; discriminate|constructor]. }
    split; [reflexivity|]. split; [exact CA|]. exists w. auto.
  Qed.

  Lemma close2_sound l ra st pre ts : at_ st pre ts -> char_at 91 l ->
    match ra with Some p => exists p1, p = pos_at p1 /\ pre = p1 ++ [93] | None => True end ->
    exists o st' a b es, header_close2 eof l ra st = (o, st') /\ goes st pre ts st' a b es [] /\ inline a /\
      match o with
      | Some p => char_at 93 p /\ exists w, a = w ++ [(XPunct TSquareRight, [93])] /\ blanks w /\ p = pos_at (pre ++ source w) /\
          (es = [] -> ra <> None -> w = [])
      | None => a = [] /\ es <> []
      end.
  Proof.
    intros A PL PR. unfold header_close2. change (i_ty (ppeek eof st)) with (pty eof st).
    match goal with |- context [(@None pos, ?s)] => assert (FAIL : exists o st' a b es, (@None pos, s) = (o, st') /\
      goes st pre ts st' a b es [] /\ inline a /\
      match o with
      | Some p => char_at 93 p /\ exists w, a = w ++ [(XPunct TSquareRight, [93])] /\ blanks w /\ p = pos_at (pre ++ source w) /\
          (es = [] -> ra <> None -> w = [])
      | None => a = [] /\ es <> []
      end) end.
    { eexists None, _, [], ts, [_]. split; [reflexivity|]. split; [apply (goes_err _ _ _ _ _ _ _ [] _ _ (goes_refl _ _ _ _ A))|].
      - destruct ra; (eapply err_ok_found; [eapply peek_stands; exact A|intros; cbn [parse_says]; auto|exact PL]).
      - split; [constructor|]. split; [reflexivity|discriminate]. }
    destruct (pty eof st) eqn:PT; try exact FAIL. clear FAIL.
    destruct (peek_punct input st pre ts TSquareRight 93 A) as (w & r & E & B & PS & CA & G & IN); [rewrite PT; reflexivity|].
    assert (IL : inline (w ++ [(XPunct TSquareRight, [93])])).
    { apply Forall_app. split; [apply blanks_inline, B|]. constructor; [split; discriminate|constructor]. }
    destruct ra as [ra|].
    2: { exists (Some (i_start (ppeek eof st))), (padv st), (w ++ [(XPunct TSquareRight, [93])]), r, []. split; [reflexivity|]. split; [exact G|].
         split; [exact IL|]. split; [exact CA|]. exists w. split; [reflexivity|]. split; [exact B|]. split; [exact PS|]. intros _ H. congruence. }
    destruct PR as (p1 & -> & EP).
    assert (SHW : Forall shape w) by (rewrite E in A; exact (proj1 (at_split _ _ _ _ _ A))).
    destruct (blanks_no_lf w SHW B) as [NL LW].
    assert (PC : p_char (i_start (ppeek eof st)) = p_char (pos_at p1) + 1 + N.of_nat (length w)).
    { rewrite PS, EP. rewrite (pos_at_no_lf (p1 ++ [93])) by exact NL. cbn [p_char]. rewrite (pos_at_no_lf p1 [93]) by (intros [H|[]]; discriminate).
      cbn [p_char]. rewrite LW. change (tlen [93]) with 1. reflexivity. }
    destruct (N.eqb_spec (p_char (pos_at p1) + 1) (p_char (i_start (ppeek eof st)))) as [EQ|NE]; cbn [negb].
    - exists (Some (i_start (ppeek eof st))), (padv st), (w ++ [(XPunct TSquareRight, [93])]), r, []. split; [reflexivity|]. split; [exact G|]. split; [exact IL|].
      split; [exact CA|]. exists w. split; [reflexivity|]. split; [exact B|]. split; [exact PS|]. intros _ _. destruct w; [reflexivity|cbn [length] in PC; lia].
    - eexists (Some _), _, (w ++ [(XPunct TSquareRight, [93])]), r, [_]. split; [reflexivity|]. split; [apply (goes_err _ _ _ _ _ _ _ [] _ _ G)|].
      + rewrite PS. rewrite (pos_plus_text p1 [93]) by (first [intros [H|[]]; discriminate|reflexivity]). rewrite EP in IN |- *.
        apply (err_ok_at input _ (p1 ++ [93]) (source w) ([93] ++ source r)); [rewrite IN; repeat rewrite <- app_assoc; reflexivity|reflexivity| |reflexivity].
        split; [split; [|exact (blanks_text w SHW B)]|].
        * intros H. rewrite H in LW. change (tlen []) with 0 in LW. apply NE. rewrite PC. destruct w; [symmetry; apply N.add_0_r|cbn [length] in LW; lia].
        * exists 93. split; [right; reflexivity|]. split; [exists p1; reflexivity|exists 93, (source r); auto].
      + split; [exact IL|]. split; [exact CA|]. exists w. split; [reflexivity|]. split; [exact B|]. split; [exact PS|]. discriminate.
  Qed.

  (** The distance of a closing bracket, and where it leads. *)
  Notation r_off_ok := (r_off_ok input all).
  Lemma par_offset_ok done l m r rest p : all = done ++ (XPunct TSquareLeft, l) :: m ++ (XPunct TSquareRight, r) :: rest ->
    input = source all -> shape (XPunct TSquareLeft, l) -> Forall shape m -> inline m -> shape (XPunct TSquareRight, r) -> p = pos_at (source done ++ l ++ source m) ->
    (exists d, par_offset (pos_at (source done)) p = Ok d /\ r_off_ok (pos_at (source done)) (Some d)) \/
    (par_offset (pos_at (source done)) p = Panic /\ multiline_brackets all).
  Proof.
    intros EA IN SL SM IL SR ->. pose proof (punct_unique TSquareLeft 91 l ltac:(cbv; tauto) SL) as ->. pose proof (punct_unique TSquareRight 93 r ltac:(cbv; tauto) SR) as ->.
    destruct (inline_split m SM IL) as [NL|(m1 & x & m2 & -> & H1 & H2 & H3)].
    - left. rewrite pos_at_no_lf.
      2: { apply no_lf_app. split; [intros [H|[]]; discriminate|exact NL]. }
      unfold par_offset. cbn [p_char]. rewrite tlen_app. change (tlen [91]) with 1. rewrite usub_le by lia. cbn [bind].
      destruct (N.eqb_spec (p_char (pos_at (source done)) + (1 + tlen (source m)) - p_char (pos_at (source done))) 0); [lia|].
      eexists. split; [reflexivity|]. right. exists (source done ++ 91 :: source m), (source rest). split.
      + rewrite IN, EA, source_app, source_cons, source_app, source_cons. repeat rewrite <- app_assoc. reflexivity.
      + rewrite (pos_plus_text _ (91 :: source m)); [reflexivity| |].
        * intros [H|H]; [discriminate|exact (NL H)].
        * change (91 :: source m) with ([91] ++ source m). rewrite tlen_app. change (tlen [91]) with 1. lia.
    - assert (RK : multiline_brackets all).
      { exists done, (XPunct TSquareLeft, [91]), m1, x, m2, (XPunct TSquareRight, [93]), rest. split; [rewrite EA; repeat rewrite <- app_assoc; reflexivity|].
        split; [reflexivity|]. split; [assumption|]. split; [assumption|]. split; [assumption|reflexivity]. }
      destruct (par_offset _ _) as [d| |] eqn:P; [left; exists d; split; [reflexivity|left; exact RK]|exfalso|right; auto].
      unfold par_offset, usub in P. destruct (_ <=? _); cbn [bind] in P; [destruct (_ =? 0)|]; discriminate.
  Qed.

  (** A closing bracket in what was consumed. *)
  Definition bracket_in (pre : list N) (a : list tile) (o : option pos) : Prop :=
    match o with
    | Some p => exists m r, a = m ++ (XPunct TSquareRight, [93]) :: r /\ p = pos_at (pre ++ source m)
    | None => True
    end.
  Lemma bracket_in_app pre a b o : bracket_in pre a o -> bracket_in pre (a ++ b) o.
  Proof. destruct o; [|trivial]. intros (m & r & -> & ->). exists m, (r ++ b). split; [assoc|reflexivity]. Qed.
  Lemma bracket_in_r pre a b o : bracket_in (pre ++ source a) b o -> bracket_in pre (a ++ b) o.
  Proof. destruct o; [|trivial]. intros (m & r & -> & ->). exists (a ++ m), r. split; [assoc|]. rewrite source_app, app_assoc. reflexivity. Qed.

  Lemma head_sound p0 st ts : at_ st (p0 ++ [91]) ts -> char_at 91 (pos_at p0) ->
    exists la key ra rt st' a b es, header eof (pos_at p0) st = Ok (la, key, ra, rt, st') /\ goes st (p0 ++ [91]) ts st' a b es [] /\ inline a /\
      match la with Some l => char_at 91 l | None => True end /\ match key with Some k => key_ok input k | None => True end /\
      bracket_in (p0 ++ [91]) a ra /\ bracket_in (p0 ++ [91]) a rt /\
      (es = [] -> Forall valid a -> exists k w1 kt w2, key = Some k /\ blanks w1 /\ g_key kt (key_path k) /\ blanks w2 /\ rt <> None /\
         match la with
         | None => a = w1 ++ kt ++ w2 ++ [(XPunct TSquareRight, [93])]
         | Some _ => ra <> None /\ a = (XPunct TSquareLeft, [91]) :: w1 ++ kt ++ w2 ++ [(XPunct TSquareRight, [93]); (XPunct TSquareRight, [93])]
         end).
  Proof.
    intros A PI. unfold header. destruct (open_sound p0 st ts A) as (la & st1 & a1 & b1 & es1 & -> & G1 & IL1 & LA).
    pose proof (goes_at _ _ _ _ _ _ _ _ _ G1) as A1.
    destruct (hkey_sound st1 _ b1 A1) as (key & skip & st2 & a2 & b2 & es2 & -> & G2 & IL2 & KO & KG). cbn [bind].
    pose proof (goes_trans _ _ _ _ _ _ _ _ _ _ _ _ _ _ G1 G2) as G12. cbn [app] in G12.
    assert (CLA : match la with Some l => char_at 91 l | None => True end) by (destruct la; [apply LA|exact I]).
    assert (IL12 : inline (a1 ++ a2)) by (apply Forall_app; auto).
    destruct skip.
    { exists la, key, None, None, st2, (a1 ++ a2), b2, (es1 ++ es2). split; [reflexivity|]. split; [exact G12|]. split; [exact IL12|].
      split; [exact CLA|]. split; [exact KO|]. split; [exact I|]. split; [exact I|].
      intros E V. apply app_eq_nil in E as [_ E]. apply Forall_app in V as [_ V]. destruct (KG E V) as [H _]. discriminate. }
    pose proof (goes_at _ _ _ _ _ _ _ _ _ G12) as A2.
    destruct (close1_sound la st2 _ b2 A2) as (ra & st3 & a3 & b3 & es3 & -> & G3 & IL3 & RA).
    { exact CLA. }
    pose proof (goes_trans _ _ _ _ _ _ _ _ _ _ _ _ _ _ G12 G3) as G123. cbn [app] in G123.
    pose proof (goes_at _ _ _ _ _ _ _ _ _ G123) as A3.
    assert (BR : bracket_in (p0 ++ [91]) ((a1 ++ a2) ++ a3) ra).
    { apply bracket_in_r. destruct la, ra; try exact I; [|destruct RA]. destruct RA as (_ & _ & w & -> & _ & ->). exists w, []. split; reflexivity. }
    destruct (close2_sound (pos_at p0) ra st3 _ b3 A3 PI) as (rt & st4 & a4 & b4 & es4 & -> & G4 & IL4 & RT).
    { destruct la, ra; try exact I; [|destruct RA]. destruct RA as (_ & _ & w & -> & _ & ->).
      eexists. split; [reflexivity|]. rewrite !source_app. cbn [source map concat snd]. rewrite app_nil_r. assoc. }
    pose proof (goes_trans _ _ _ _ _ _ _ _ _ _ _ _ _ _ G123 G4) as G. cbn [app] in G.
    exists la, key, ra, rt, st4, (((a1 ++ a2) ++ a3) ++ a4), b4, (((es1 ++ es2) ++ es3) ++ es4).
    split; [reflexivity|]. split; [exact G|]. split; [apply Forall_app; split; [apply Forall_app; split; assumption|assumption]|].
    split; [exact CLA|]. split; [exact KO|]. split; [apply bracket_in_app; exact BR|].
    split. { apply bracket_in_r. destruct rt; [|exact I]. destruct RT as (_ & w & -> & _ & -> & _). exists w, []. split; reflexivity. }
    intros E V. apply app_eq_nil in E as [E E4]. apply app_eq_nil in E as [E E3]. apply app_eq_nil in E as [E1 E2].
    apply Forall_app in V as [V _]. apply Forall_app in V as [V _]. apply Forall_app in V as [_ V].
    destruct (KG E2 V) as (_ & k & w1 & kt & -> & -> & B1 & GK). exists k, w1, kt.
    destruct rt as [rt|]; [|destruct RT as [_ RT]; contradiction]. destruct RT as (_ & w4 & -> & B4 & _ & W4).
    destruct la as [la|].
    - destruct LA as (_ & w0 & -> & B0 & W0). rewrite (W0 E1). destruct ra as [ra|]; [|destruct RA as [_ RA]; contradiction].
      destruct RA as (_ & _ & w3 & -> & B3 & _). rewrite (W4 E4) by discriminate. exists w3. split; [reflexivity|]. split; [exact B1|]. split; [exact GK|].
      split; [exact B3|]. split; [discriminate|]. split; [discriminate|]. cbn [app]. repeat rewrite <- app_assoc. reflexivity.
    - destruct LA as [-> _]. destruct ra as [ra|]; [destruct RA|]. destruct RA as [-> _]. exists w4. split; [reflexivity|]. split; [exact B1|]. split; [exact GK|].
      split; [exact B4|]. split; [discriminate|]. cbn [app]. repeat rewrite <- app_assoc. reflexivity.
  Qed.
End Head.
