(** A document with one line of any text: the lexer cuts what is above and below
    as it stands, and everything it reports is on the line. *)
From Verif Require Import Base BaseProofs CommonModel TomlError LitModel LexModel LexSpec LexBase LexMain LexTop LexPre OnLit OnLex ParseRoot.
From Verif Require LexCMain LexCGen.

Section Line.
  Context (input X below : list N) (L : N) (IN : input = X ++ 10 :: below).
  Lemma line_end_state done w es lx : between input done w below es lx -> w = [].
  Proof.
    intros ((I1 & W & _) & _). destruct w as [|c w] using rev_ind; [reflexivity|]. exfalso. rewrite IN in I1.
    replace (X ++ 10 :: below) with ((X ++ [10]) ++ below) in I1 by (rewrite <- app_assoc; reflexivity). replace (source done ++ (w ++ [c]) ++ below) with ((source done ++ w ++ [c]) ++ below) in I1 by (rewrite <- !app_assoc; reflexivity).
    apply app_inv_tail in I1. rewrite app_assoc in I1. apply app_inj_tail in I1. destruct I1 as [_ <-]. apply Forall_app in W. destruct W as [_ W]. apply Forall_inv in W. apply W. cbn. tauto.
  Qed.
  Lemma line_loop : forall fuel done w rest es lx, (length rest < fuel)%nat -> between input done w rest es lx -> onlex L below false AtLine lx ->
    exists lx' fuel' done' es', lex_loop input fuel lx = lex_loop input fuel' lx' /\ (length below < fuel')%nat /\ between input done' [] below es' lx' /\ ext done done' /\ Forall (eon L) es'.
  Proof.
    induction fuel as [|fuel IH]; intros done w rest es lx F (WI & bp & l & EL & LO) ON; [lia|].
    destruct rest as [|c rest]; [destruct ON as ((_ & r & R & _) & _); rewrite EL in R; destruct r; discriminate|].
    destruct (step_between input done w l es c rest WI LO) as (lx1 & done' & w' & rest' & es' & EX & R & LE & BT). cbn [length] in F.
    assert (NX : exists l1, lnext lx = (Some c, l1) /\ lex_step input c l1 = Ok lx1).
    { rewrite EL. destruct (N.eq_dec c 10) as [->|NL]; [rewrite lnext_lf|rewrite lnext_char by assumption; replace (c =? 10) with false in R by lia]; eauto. }
    destruct NX as (l1 & NX & ST). cbn [lex_loop]. rewrite NX, ST. cbn [bind].
    destruct (on_step input L below lx c l1 lx1 NX ST ON) as [H|(H & _ & ER)].
    - destruct (IH done' w' rest' es' lx1 ltac:(lia) BT H) as (lx2 & f2 & d2 & e2 & A1 & A2 & A3 & A4 & A5). exists lx2, f2, d2, e2. split; [exact A1|]. split; [exact A2|]. split; [exact A3|]. split; [eapply ext_trans; eassumption|exact A5].
    - pose proof BT as (_ & bp' & l' & EL' & _). assert (ER' : rest' = below) by (rewrite EL' in H; exact H). subst rest'. pose proof (line_end_state _ _ _ _ BT) as ->.
      rewrite EL' in ER. exists lx1, fuel, done', es'. split; [reflexivity|]. split; [lia|]. auto.
  Qed.
End Line.

Theorem lex_line ts1 line ts2 : Forall valid ts1 -> all_separated ts1 -> ends_line ts1 -> ~ In 10 line -> ~ triple line -> Forall valid ts2 -> all_separated ts2 ->
  let input := source ts1 ++ (line ++ [10]) ++ source ts2 in
  exists more es, source more = line ++ [10] /\ Forall shape more /\ all_separated (ts1 ++ more ++ ts2) /\ lex input = Ok (tokens_of (ts1 ++ more ++ ts2), es) /\ Forall (eon (p_line (pos_at (source ts1)))) es.
Proof.
  intros V1 A1 E1 NL NT V2 A2 input. set (g := (line ++ [10]) ++ source ts2). pose proof (seps_below _ g V1 E1 A1) as SB. set (L := p_line (pos_at (source ts1))).
  destruct (lex_tiles_pre input g (length ts1) ts1 [] [] (lexer_new input) (Datatypes.S (length input))) as (lx & f & R & F & C); auto.
  - congruence.
  - exists 0, (mklit false pos_zero 0). split; [reflexivity|]. split; [reflexivity|congruence].
  - cbn [word_tiles app] in C.
    assert (SH1 : Forall shape ts1) by (eapply Forall_impl; [|exact V1]; intros x; apply valid_shape).
    assert (B0 : between input ts1 [] g [] lx).
    { split; [|exact C]. split; [reflexivity|]. split; [constructor|]. split; [intros (r & E); destruct r; discriminate|]. split; [exact SH1|]. split; [exact SB|]. split; [constructor|]. auto. }
    assert (G : g = line ++ 10 :: source ts2) by (unfold g; rewrite <- app_assoc; reflexivity).
    assert (ON : onlex L (source ts2) false AtLine lx).
    { destruct C as (bp & l & -> & LO). split; [|split; [|constructor]].
      - cbn [stage_ok lx_cur cu_line cu_rest cur_at]. split; [rewrite app_nil_r; reflexivity|]. exists line. auto.
      - intros [H|H]; [discriminate|]. cbn [lx_lit] in H. rewrite (proj1 LO eq_refl) in H. discriminate. }
    assert (INP : input = (source ts1 ++ line) ++ 10 :: source ts2) by (unfold input; rewrite <- !app_assoc; reflexivity).
    destruct (line_loop input _ _ L INP f ts1 [] g [] lx F B0 ON) as (lx2 & f2 & d2 & es & R2 & F2 & ((I2 & _ & _ & (S2 & P2 & _)) & C2) & (more & ->) & ER).
    cbn [app] in I2. rewrite source_app in I2. unfold input in I2. rewrite <- (app_assoc (source ts1) (source more)) in I2. apply app_inv_head in I2. apply app_inv_tail in I2. apply Forall_app in S2.
    destruct (LexCGen.lex_tiles input es (length ts2) ts2 (ts1 ++ more) [] lx2 f2) as (d3 & w3 & l3 & R3 & L3 & E3); auto.
    { congruence. }
    { rewrite source_app, <- I2. unfold input. rewrite <- !app_assoc. reflexivity. }
    cbn [word_tiles] in E3. rewrite (app_nil_r (ts1 ++ more)), <- app_assoc in E3.
    exists more, es. split; [symmetry; exact I2|]. split; [apply S2|]. split.
    { apply seps_all. rewrite app_assoc. apply seps_app. split; [rewrite app_nil_r; exact P2|]. apply seps_all. exact A2. }
    split; [|exact ER]. unfold lex. rewrite R, R2, R3. cbn [bind].
    assert (SRC : input = source d3 ++ w3).
    { rewrite <- source_words, E3. rewrite !source_app, <- I2. reflexivity. }
    destruct (end_literal_eq input d3 w3 l3 es (cur_at (source d3 ++ w3) [] (tlen (source d3 ++ w3))) []) as (l' & _ & RE); [rewrite app_nil_r; exact SRC|assumption|reflexivity|].
    rewrite RE. cbn [bind]. rewrite lpos_end. cbn [bind lx_out out_of o_tokens o_strings o_literals o_errors].
    rewrite <- E3. unfold tokens_of. rewrite source_words. reflexivity.
Qed.

(** ** The pieces of the line *)

Lemma line_last more line : source more = line ++ [10] -> Forall shape more -> ~ In 10 line -> ~ triple line ->
  exists lt brk, more = lt ++ [(XNewline, brk)] /\ line_break brk /\ ~ In 10 (source lt).
Proof.
  intros E SH NL NT. destruct more as [|[x s] lt] using rev_ind; [destruct line; discriminate|]. clear IHlt.
  assert (X : x = XNewline).
  { rewrite source_app, source_one in E. apply Forall_app in SH. destruct SH as [_ SH]. apply Forall_inv in SH.
    assert (LAST : s <> [] -> exists s', s = s' ++ [10] /\ line = source lt ++ s').
    { intros NE. destruct s as [|c s'] using rev_ind; [congruence|]. rewrite app_assoc in E. apply app_inj_tail in E. destruct E as [E ->]. exists s'. auto. }
    destruct x as [| |ty| | |q text off]; cbn in SH; [| reflexivity | | | | ]; exfalso.
    - destruct (LAST ltac:(destruct SH; subst; discriminate)) as (s' & -> & _). destruct SH as [SH|SH]; (destruct s' as [|a [|b s']]; discriminate SH).
    - destruct SH as (c & PU & ->). destruct (LAST ltac:(discriminate)) as (s' & SH & _). destruct s' as [|a [|b s']]; try discriminate SH. injection SH as ->. cbv in PU. intuition congruence.
    - destruct SH as [NE W]. destruct (LAST NE) as (s' & -> & _). apply Forall_app in W. destruct W as [_ W]. apply (Forall_inv W). cbn. tauto.
    - destruct SH as (t & -> & N). destruct (LAST ltac:(discriminate)) as (s' & E' & _). apply N. assert (I : In 10 (35 :: t)) by (rewrite E'; apply in_or_app; right; left; reflexivity). destruct I as [I|I]; [discriminate|exact I].
    - destruct SH as ((trim & b & e & E' & TR & Q & _ & NM & _) & _). destruct (LAST ltac:(rewrite E'; destruct q; discriminate)) as (s' & ES & EL).
      assert (SINGLE : ~ multi q -> False).
      { intros M. assert (I : In 10 s) by (rewrite ES; apply in_or_app; right; left; reflexivity). rewrite E' in I.
        assert (TR0 : trim = []) by (destruct TR as [T|[M' _]]; [exact T|destruct (M M')]). subst trim. cbn [app] in I. apply in_app_or in I. destruct I as [I|I]; [destruct q; cbn in I; intuition discriminate|].
        apply in_app_or in I. destruct I as [I|I]; [exact (NM M I)|]. rewrite Forall_forall in Q. specialize (Q _ I). destruct q; discriminate. }
      destruct q; try (apply SINGLE; intros [M|M]; discriminate).
      all: apply NT; rewrite EL; destruct s' as [|a [|a' [|a'' s']]]; rewrite ES in E'; cbn [delims app] in E'; try discriminate E'; injection E' as -> -> -> _; eexists _, (source lt), s'; split; [|reflexivity]; auto. }
  subst x. exists lt, s. split; [reflexivity|]. apply Forall_app in SH. split; [exact (Forall_inv (proj2 SH))|].
  rewrite source_app, source_one in E. intros I. apply NL. pose proof (Forall_inv (proj2 SH)) as LB. cbn in LB. destruct LB as [-> | ->].
  - apply app_inj_tail in E. destruct E as [<- _]. exact I.
  - change [13; 10] with ([13] ++ [10]) in E. rewrite app_assoc in E. apply app_inj_tail in E. destruct E as [<- _]. apply in_or_app. auto.
Qed.
(** A piece is told by its first character. *)
Lemma head_blank x s ts r : Forall shape ((x, s) :: ts) -> source ((x, s) :: ts) = r -> forall c r', r = c :: r' -> (c = 9 \/ c = 32) -> x = XBlank /\ source ts = r'.
Proof.
  intros SH <- c r' E C. change (source ((x, s) :: ts)) with (s ++ source ts) in E. pose proof (Forall_inv SH) as S1. destruct x as [| |ty| | |q text off]; cbn in S1.
  - destruct S1 as [-> | ->]; injection E as _ E; auto.
  - exfalso. destruct S1 as [-> | ->]; injection E as E _; lia.
  - exfalso. destruct S1 as (c' & PU & ->). injection E as -> _. cbv in PU. destruct C as [-> | ->]; intuition congruence.
  - exfalso. destruct S1 as [NE W]. destruct s as [|c' s]; [congruence|]. injection E as -> _. apply (Forall_inv W). cbn. destruct C as [-> | ->]; tauto.
  - exfalso. destruct S1 as (t & -> & _). injection E as E _. lia.
  - exfalso. destruct S1 as ((trim & b & e & -> & _) & _). destruct q; cbn [delims app] in E; injection E as E _; lia.
Qed.
Lemma head_bracket x s ts r' : Forall shape ((x, s) :: ts) -> source ((x, s) :: ts) = 91 :: r' -> x = XPunct TSquareLeft /\ source ts = r'.
Proof.
  intros SH E. change (source ((x, s) :: ts)) with (s ++ source ts) in E. pose proof (Forall_inv SH) as S1. destruct x as [| |ty| | |q text off]; cbn in S1.
  - exfalso. destruct S1 as [-> | ->]; discriminate E.
  - exfalso. destruct S1 as [-> | ->]; discriminate E.
  - destruct S1 as (c' & PU & ->). injection E as -> E. split; [|exact E]. cbv in PU. intuition congruence.
  - exfalso. destruct S1 as [NE W]. destruct s as [|c' s]; [congruence|]. injection E as -> _. apply (Forall_inv W). cbn. tauto.
  - exfalso. destruct S1 as (t & -> & _). discriminate E.
  - exfalso. destruct S1 as ((trim & b & e & -> & _) & _). destruct q; discriminate E.
Qed.
Lemma bracket_split : forall w ts r, Forall (fun c => c = 9 \/ c = 32) w -> Forall shape ts -> source ts = w ++ 91 :: r ->
  exists wt s ts', ts = wt ++ (XPunct TSquareLeft, s) :: ts' /\ Forall (fun x => fst x = XBlank) wt /\ source ts' = r.
Proof.
  induction w as [|c w IH]; intros ts r W SH E; (destruct ts as [|[x s] ts]; [discriminate|]).
  - destruct (head_bracket _ _ _ _ SH E) as [-> ER]. exists [], s, ts. split; [reflexivity|]. split; [constructor|exact ER].
  - destruct (head_blank _ _ _ _ SH E c (w ++ 91 :: r) eq_refl (Forall_inv W)) as [-> ER].
    destruct (IH ts r (Forall_inv_tail W) (Forall_inv_tail SH) ER) as (wt & s' & ts' & -> & B & R'). exists ((XBlank, s) :: wt), s', ts'. split; [reflexivity|]. split; [constructor; [reflexivity|exact B]|exact R'].
Qed.
