(** The parser accepts arrays and inline tables of the grammar. *)
From Verif Require Import Base BaseProofs CommonModel TomlError LitModel LitSpec LexModel LexSpec LexBase LexStr LexSound LexProps ParseModel ParseSpec ParsePlace ParseItems ParseKey ParseLit ParseVal ParseValue ParseAssoc ParseCVal.

Lemma nest_arr_inv level vs : level + nest (TvArr vs) <= 100 -> level < 100 /\ Forall (fun v => level + 1 + nest v <= 100) vs.
Proof.
  change (nest (TvArr vs)) with (1 + fold_right N.max 0 (map nest vs)). intros H. split; [lia|].
  assert (K : fold_right N.max 0 (map nest vs) <= 100 - level - 1) by lia.
  assert (L : level < 100) by lia. clear H.
  induction vs as [|v vs IH]; [constructor|]. cbn [map fold_right] in K. constructor; [lia|]. apply IH. lia.
Qed.
Lemma nest_tab_inv level (fs : list (path * tval)) : level + nest (TvTab fs) <= 100 -> level < 100 /\ Forall (fun x => level + 1 + nest (snd x) <= 100) fs.
Proof.
  change (nest (TvTab fs)) with (1 + fold_right N.max 0 (map (fun x => nest (snd x)) fs)). intros H. split; [lia|].
  assert (K : fold_right N.max 0 (map (fun x => nest (snd x)) fs) <= 100 - level - 1) by lia.
  assert (L : level < 100) by lia. clear H.
  induction fs as [|v vs IH]; [constructor|]. cbn [map fold_right] in K. constructor; [lia|]. apply IH. lia.
Qed.

Lemma forall_split {A} (P : A -> Prop) l a b : Forall P l -> l = a ++ b -> Forall P a /\ Forall P b.
Proof. intros F ->. apply Forall_app. exact F. Qed.

(** What a list of values starts with, apart from trivia. *)
Lemma g_elems_drop ts vs a b r rest : g_elems ts vs -> ts ++ r :: rest = a ++ b -> trivia a -> is_punct TSquareRight r ->
  exists ts', ts = a ++ ts' /\ b = ts' ++ r :: rest /\ g_elems ts' vs.
Proof.
  intros G E TA PR.
  assert (NR : ~ is_trivia r) by (unfold is_punct, is_trivia in *; rewrite PR; intros [H|[H|H]]; discriminate).
  destruct G as [w T|w1 ts v w2 T1 GV T2|w1 ts v w2 c ts' vs T1 GV T2 PC G].
  - destruct (trivia_prefix w r rest a b E T TA NR) as (w' & -> & ->). exists w'. split; [reflexivity|]. split; [reflexivity|].
    constructor. apply Forall_app in T. tauto.
  - destruct (g_value_first _ _ GV) as (x & s & u & -> & VL).
    destruct (trivia_prefix w1 (x, s) (u ++ w2 ++ r :: rest) a b) as (w' & -> & ->); [rewrite <- E; assoc|exact T1|exact TA|apply value_not_trivia; exact VL|].
    exists (w' ++ ((x, s) :: u) ++ w2). split; [assoc|]. split; [assoc|]. apply ge_last; [apply Forall_app in T1; tauto|assumption|assumption].
  - destruct (g_value_first _ _ GV) as (x & s & u & -> & VL).
    destruct (trivia_prefix w1 (x, s) (u ++ w2 ++ c :: ts' ++ r :: rest) a b) as (w' & -> & ->); [rewrite <- E; assoc|exact T1|exact TA|apply value_not_trivia; exact VL|].
    exists (w' ++ ((x, s) :: u) ++ w2 ++ c :: ts'). split; [assoc|]. split; [assoc|]. apply ge_cons; [apply Forall_app in T1; tauto|assumption..].
Qed.

Section CValue.
  Context (input : list N).
  Notation at_ := (at_ input).
  Notation goes := (goes input).
  Notation eof := (eof input).

  (** [f] accepts values that are not nested too deep at [level]. *)
  Definition complete (f : pst -> run (vres * pst)) (level : N) : Prop :=
    forall st pre w vt tv rest, at_ st pre (w ++ vt ++ rest) -> blanks w -> Forall valid vt -> g_value vt tv -> level + nest tv <= 100 -> stops rest ->
      exists v st' cs, f st = Ok (VOk v, st') /\ goes st pre (w ++ vt ++ rest) st' (w ++ vt) rest [] cs /\ val_of v = Some tv.

  Lemma pty_punct st pre w ty s r : at_ st pre (w ++ (XPunct ty, s) :: r) -> blanks w -> pty eof st = item_ty [] (XPunct ty) s.
  Proof. intros A B. unfold pty. rewrite (peek_tile input st pre w (XPunct ty) s r A B ltac:(discriminate)). destruct ty; reflexivity. Qed.

  Lemma array_loop_complete f level : complete f (level + 1) -> forall fuel ts vs r rest ac values st pre,
    g_elems ts vs -> Forall valid ts -> Forall (fun v => level + 1 + nest v <= 100) vs -> is_punct TSquareRight r ->
    at_ st pre (ts ++ r :: rest) -> (left st < fuel)%nat -> cr_start ac <= next_id (ps_store st) -> range_ok (next_id (ps_store st)) ac ->
    exists ac' news st' a w cs, array_loop eof f level fuel ac values st = Ok (inr (ac', values ++ news, st')) /\
      goes st pre (ts ++ r :: rest) st' a (w ++ r :: rest) [] cs /\ ts = a ++ w /\ blanks w /\
      cr_start ac' = cr_start ac /\ all_some (map (fun x => val_of (av_val x)) news) = Some vs.
  Proof.
    intros INNER. induction fuel as [|fuel IH]; intros ts vs r rest ac values st pre GE V NS PR A L CS RO; [lia|]. cbn [array_loop].
    destruct (eat_trivia_goes input st ac pre _ A CS RO) as (st1 & ac1 & a1 & b1 & -> & G1 & T1 & C1 & R1 & _ & NN1 & NC1). cbn [bind].
    pose proof (goes_at _ _ _ _ _ _ _ _ _ G1) as A1. pose proof (goes_grow _ _ _ _ _ _ _ _ _ G1) as N1.
    destruct (g_elems_drop ts vs a1 b1 r rest GE (proj1 G1) T1 PR) as (ts1 & -> & -> & GE1). clear GE.
    destruct r as [rx rs]. unfold is_punct in PR. cbn in PR. subst rx.
    apply Forall_app in V as [_ V].
    assert (AFTER : forall w vt tv w2 X, ts1 = w ++ vt ++ w2 ++ X -> trivia w -> g_value vt tv -> trivia w2 -> level + 1 + nest tv <= 100 ->
      (X = [] \/ exists cs' X', X = (XPunct TComma, cs') :: X') ->
      exists v st2 cs2 vc3 st4 ac4 w4 cs4 a4, blanks w /\ array_end (pty eof st1) = false /\ f st1 = Ok (VOk v, st2) /\ val_of v = Some tv /\
        (let? (s, vc) := mark_comments_above (ps_store st2) (p_line (val_start v)) (level + 1) in
         let? (st, vc) := eat_line_comment (set_store st2 s) vc in
         let? (st, ac) := eat_trivia st ac1 in
         Ok (vc, ac, st)) = Ok (vc3, ac4, st4) /\
        goes st1 (pre ++ source a1) (ts1 ++ (XPunct TSquareRight, rs) :: rest) st4 (w ++ vt ++ a4) (w4 ++ X ++ (XPunct TSquareRight, rs) :: rest) [] (cs2 ++ cs4) /\
        w2 = a4 ++ w4 /\ blanks w4 /\ cr_start ac4 = cr_start ac1 /\ range_ok (next_id (ps_store st4)) ac4 /\ range_ok (next_id (ps_store st4)) vc3).
    { intros w vt tv w2 X E1 TW GV T2 NE XX.
      destruct (g_value_first _ _ GV) as (x & s & u & Evt & VL).
      assert (BW : blanks w).
      { eapply (trivia_blanks input st1 _ w (x, s)); [|exact TW|exact NN1|exact NC1]. eapply at_eq; [exact A1|]. rewrite E1, Evt. assoc. }
      assert (A1' : at_ st1 (pre ++ source a1) (w ++ vt ++ w2 ++ X ++ (XPunct TSquareRight, rs) :: rest)) by (eapply at_eq; [exact A1|rewrite E1; assoc]).
      assert (V' : Forall valid vt) by (rewrite E1 in V; apply Forall_app in V as [_ V]; apply Forall_app in V; tauto).
      assert (STP : exists y ys Y, X ++ (XPunct TSquareRight, rs) :: rest = (y, ys) :: Y /\ stop y /\ ~ is_trivia (y, ys)).
      { destruct XX as [->|(c' & X' & ->)]; eexists _, _, _; (split; [reflexivity|]); (split; [cbv; tauto|]); intros [H|[H|H]]; discriminate. }
      destruct STP as (y & ys & Y & EY & SY & NTY).
      destruct (INNER st1 _ w vt tv (w2 ++ X ++ (XPunct TSquareRight, rs) :: rest) A1' BW V' GV NE) as (v & st2 & cs2 & RV & G2 & VO).
      { rewrite EY. apply stops_trivia; assumption. }
      pose proof (goes_at _ _ _ _ _ _ _ _ _ G2) as A2. pose proof (goes_grow _ _ _ _ _ _ _ _ _ G2) as N2.
      destruct (mark_comments_above_ok (ps_store st2) (p_line (val_start v)) (level + 1)) as (s2 & vc & ME & M2 & VE & VR).
      assert (G2s := goes_store _ _ _ _ _ _ _ _ _ s2 G2 M2). pose proof (goes_at _ _ _ _ _ _ _ _ _ G2s) as A2s.
      assert (E2 : next_id s2 = next_id (ps_store st2)) by (apply next_id_map; exact M2).
      destruct (eat_line_goes input (set_store st2 s2) vc _ _ A2s) as (st3 & vc3 & a3 & b3 & LE & G3 & T3 & C3 & R3 & _ & _).
      { cbn [set_store ps_store]. lia. }
      { exact VR. }
      pose proof (goes_at _ _ _ _ _ _ _ _ _ G3) as A3. pose proof (goes_grow _ _ _ _ _ _ _ _ _ G3) as N3. cbn [set_store ps_store] in N3.
      pose proof (proj1 G3) as E3. rewrite EY in E3. destruct (trivia_prefix w2 (y, ys) Y a3 b3 E3 T2 T3 NTY) as (w3 & -> & ->).
      destruct (eat_trivia_goes input st3 ac1 _ _ A3) as (st4 & ac4 & a4 & b4 & TE & G4 & T4 & C4 & R4 & _ & NN4 & NC4).
      { lia. }
      { eapply range_ok_le; [exact R1|]. lia. }
      apply Forall_app in T2 as [_ T2].
      pose proof (goes_at _ _ _ _ _ _ _ _ _ G4) as A4. pose proof (goes_grow _ _ _ _ _ _ _ _ _ G4) as N4.
      destruct (trivia_prefix w3 (y, ys) Y a4 b4 (proj1 G4) T2 T4 NTY) as (w4 & -> & ->).
      assert (BW4 : blanks w4).
      { eapply trivia_blanks; [exact A4|apply Forall_app in T2; tauto|exact NN4|exact NC4]. }
      exists v, st2, cs2, vc3, st4, ac4, w4, (comments_of ((pre ++ source a1) ++ source (w ++ vt)) a3 ++ comments_of (((pre ++ source a1) ++ source (w ++ vt)) ++ source a3) a4), (a3 ++ a4).
      split; [exact BW|]. split.
      { unfold pty. rewrite Evt in A1'. cbn [app] in A1'. rewrite (peek_tile input st1 _ w x s _ A1' BW (value_not_blank _ VL)). cbn [i_ty].
        destruct VL as [[->|(q & t & o & ->)]|[->| ->]]; reflexivity. }
      split; [exact RV|]. split; [exact VO|]. split; [rewrite ME; cbn [bind]; rewrite LE; cbn [bind]; rewrite TE; reflexivity|].
      split. { pose proof (goes_trans _ _ _ _ _ _ _ _ _ _ _ _ _ _ G2s (goes_trans _ _ _ _ _ _ _ _ _ _ _ _ _ _ G3 G4)) as G5. rewrite EY. cbn [app] in G5.
        eapply goes_eq; [exact G5| |assoc]. rewrite E1. assoc. }
      split; [assoc|]. split; [exact BW4|]. split; [lia|]. split; [exact R4|]. eapply range_ok_le; [exact R3|lia]. }
    destruct GE1 as [w T|w vt tv w2 T1' GV T2|w vt tv w2 [c cs'] ts' vs T1' GV T2 PC GE].
    - assert (BW : blanks w) by (eapply trivia_blanks; [exact A1|exact T|exact NN1|exact NC1]).
      rewrite (pty_punct st1 _ w TSquareRight rs rest A1 BW). cbn [item_ty array_end].
      eexists ac1, [], st1, a1, w, _. rewrite app_nil_r. split; [reflexivity|]. split; [exact G1|]. split; [reflexivity|]. split; [exact BW|]. split; [exact C1|reflexivity].
    - destruct (AFTER w vt tv w2 []) as (v & st2 & cs2 & vc3 & st4 & ac4 & w4 & cs4 & a4 & BW & AE & RV & VO & EQ & G4 & E4 & B4 & C4 & R4 & V4);
        [rewrite app_nil_r; reflexivity|exact T1'|exact GV|exact T2|exact (Forall_inv NS)|left; reflexivity|].
      rewrite AE, RV. cbn [bind].
      destruct (mark_comments_above (ps_store st2) (p_line (val_start v)) (level + 1)) as [[s vc]| |]; try discriminate EQ. cbn [bind] in EQ |- *.
      destruct (eat_line_comment (set_store st2 s) vc) as [[st3 vc']| |]; try discriminate EQ. cbn [bind] in EQ |- *.
      destruct (eat_trivia st3 ac1) as [[st4' ac4']| |]; try discriminate EQ. cbn [bind] in EQ |- *. injection EQ as -> -> ->.
      pose proof (goes_at _ _ _ _ _ _ _ _ _ G4) as A4. rewrite (pty_punct st4 _ w4 TSquareRight rs rest A4 B4). cbn [item_ty].
      eexists ac4, [mkav vc3 v None], st4, (a1 ++ w ++ vt ++ a4), w4, _. split; [reflexivity|].
      split; [exact (goes_trans _ _ _ _ _ _ _ _ _ _ _ _ _ _ G1 G4)|]. split; [rewrite E4; assoc|]. split; [exact B4|]. split; [congruence|].
      cbn. rewrite VO. reflexivity.
    - unfold is_punct in PC. cbn in PC. subst c.
      destruct (AFTER w vt tv w2 ((XPunct TComma, cs') :: ts')) as (v & st2 & cs2 & vc3 & st4 & ac4 & w4 & cs4 & a4 & BW & AE & RV & VO & EQ & G4 & E4 & B4 & C4 & R4 & V4);
        [reflexivity|exact T1'|exact GV|exact T2|exact (Forall_inv NS)|right; eexists _, _; reflexivity|].
      rewrite AE, RV. cbn [bind].
      destruct (mark_comments_above (ps_store st2) (p_line (val_start v)) (level + 1)) as [[s vc]| |]; try discriminate EQ. cbn [bind] in EQ |- *.
      destruct (eat_line_comment (set_store st2 s) vc) as [[st3 vc']| |]; try discriminate EQ. cbn [bind] in EQ |- *.
      destruct (eat_trivia st3 ac1) as [[st4' ac4']| |]; try discriminate EQ. cbn [bind] in EQ |- *. injection EQ as -> -> ->.
      pose proof (goes_at _ _ _ _ _ _ _ _ _ G4) as A4. cbn [app] in A4. rewrite (pty_punct st4 _ w4 TComma cs' _ A4 B4). cbn [item_ty].
      assert (N14 : next_id (ps_store st1) <= next_id (ps_store st4)) by (eapply goes_grow; exact G4).
      destruct (range_extend_ok vc3 (next_id (ps_store st4))) as (vc5 & -> & X1 & X2 & _). { unfold range_ok in V4. lia. }
      cbn [bind]. destruct (mark_contained_comments_ok (ps_store st4) vc5 (level + 1)) as (s5 & -> & M5). { unfold range_ok. lia. }
      cbn [bind]. cbv zeta. change (padv (set_store st4 s5)) with (set_store (padv st4) s5).
      pose proof (goes_skip input st4 _ w4 (XPunct TComma) cs' _ A4 B4 ltac:(discriminate)) as G5.
      cbn [app] in G4. pose proof (goes_trans _ _ _ _ _ _ _ _ _ _ _ _ _ _ G1 (goes_trans _ _ _ _ _ _ _ _ _ _ _ _ _ _ G4 G5)) as G15.
      assert (G15s := goes_store _ _ _ _ _ _ _ _ _ s5 G15 M5). pose proof (goes_at _ _ _ _ _ _ _ _ _ G15s) as A5.
      assert (E5' : next_id s5 = next_id (ps_store st4)) by (apply next_id_map; exact M5).
      destruct (eat_line_goes input (set_store (padv st4) s5) vc5 _ _ A5) as (st6 & vc6 & a6 & b6 & -> & G6 & T6 & C6 & R6 & _ & _).
      { cbn [set_store ps_store]. lia. }
      { unfold range_ok. cbn [set_store ps_store]. lia. }
      cbn [bind]. pose proof (goes_trans _ _ _ _ _ _ _ _ _ _ _ _ _ _ G15s G6) as G16.
      pose proof (goes_at _ _ _ _ _ _ _ _ _ G16) as A6. pose proof (goes_grow _ _ _ _ _ _ _ _ _ G6) as N6. cbn [set_store ps_store] in N6.
      destruct (g_elems_drop ts' vs a6 b6 (XPunct TSquareRight, rs) rest GE (proj1 G6) T6 eq_refl) as (ts6 & -> & -> & GE6).
      assert (V6 : Forall valid ts6).
      { apply Forall_app in V as [_ V]. apply Forall_app in V as [_ V]. apply Forall_app in V as [_ V]. apply Forall_inv_tail in V. apply Forall_app in V. tauto. }
      assert (L6 : (left st6 < fuel)%nat).
      { pose proof (goes_less _ _ _ _ _ _ _ _ _ A G16) as LT6. assert (X : (left st6 < left st)%nat); [|lia].
        apply LT6. apply has_item_l. apply has_item_r. apply has_item_r. rewrite <- (app_nil_r (w4 ++ _)). apply punct_item. }
      assert (CS6 : cr_start ac4 <= next_id (ps_store st6)) by lia.
      assert (RO6 : range_ok (next_id (ps_store st6)) ac4) by (eapply range_ok_le; [exact R4|lia]).
      destruct (IH ts6 vs (XPunct TSquareRight, rs) rest ac4 (values ++ [mkav vc6 v (Some (i_start (ppeek eof st4)))]) st6 _ GE6 V6 (Forall_inv_tail NS) eq_refl A6 L6 CS6 RO6)
        as (ac7 & news & st7 & a7 & w7 & cs7 & R7 & G7 & E7 & B7 & C7 & AS).
      rewrite R7. eexists ac7, (mkav vc6 v (Some (i_start (ppeek eof st4))) :: news), st7, _, w7, _. split; [do 3 f_equal; assoc|].
      pose proof (goes_trans _ _ _ _ _ _ _ _ _ _ _ _ _ _ G16 G7) as G17. split; [exact G17|]. split; [rewrite E4, E7; assoc|]. split; [exact B7|].
      split; [lia|]. cbn [map av_val all_some fold_right]. unfold all_some in AS. rewrite VO, AS. reflexivity.
  Qed.

  Lemma parse_array_complete f level l_par st pre ts vs r rest : complete f (level + 1) -> level + nest (TvArr vs) <= 100 ->
    g_elems ts vs -> Forall valid ts -> is_punct TSquareRight r -> at_ st pre (ts ++ r :: rest) ->
    exists v st' cs, parse_array eof f level l_par st = Ok (VOk v, st') /\ goes st pre (ts ++ r :: rest) st' (ts ++ [r]) rest [] cs /\ val_of v = Some (TvArr vs).
  Proof.
    intros INNER NE GE V PR A. unfold parse_array. destruct (nest_arr_inv _ _ NE) as [LV NS].
    destruct (eat_line_goes input st (mkrange (next_id (ps_store st)) 0 level) pre _ A) as (st1 & ac & a1 & b1 & -> & G1 & T1 & C1 & R1 & _ & _).
    { cbn. lia. } { unfold range_ok. cbn. lia. }
    cbn [bind]. pose proof (goes_at _ _ _ _ _ _ _ _ _ G1) as A1. pose proof (goes_grow _ _ _ _ _ _ _ _ _ G1) as N1. cbn in C1.
    destruct (g_elems_drop ts vs a1 b1 r rest GE (proj1 G1) T1 PR) as (ts1 & -> & -> & GE1).
    apply Forall_app in V as [_ V].
    destruct (array_loop_complete f level INNER (S (left st1)) ts1 vs r rest ac [] st1 _ GE1 V NS PR A1 ltac:(lia)) as (ac2 & news & st2 & a2 & w2 & cs2 & R2 & G2 & -> & B2 & C2 & AS).
    { lia. } { exact R1. }
    unfold left in R2. rewrite R2. cbn [bind]. pose proof (goes_at _ _ _ _ _ _ _ _ _ G2) as A2. pose proof (goes_grow _ _ _ _ _ _ _ _ _ G2) as N2.
    destruct r as [rx rs]. unfold is_punct in PR. cbn in PR. subst rx.
    fold (pty eof st2). rewrite (pty_punct st2 _ w2 TSquareRight rs rest A2 B2). cbn [item_ty].
    destruct (range_extend_ok ac2 (next_id (ps_store st2))) as (ac3 & E3 & X1 & X2 & _). { lia. }
    change (ps_store (padv st2)) with (ps_store st2). rewrite E3. cbn [bind].
    destruct (mark_contained_comments_ok (ps_store st2) ac3 level) as (s3 & -> & M3). { unfold range_ok. lia. }
    cbn [bind]. cbv zeta. eexists _, _, _. split; [reflexivity|].
    pose proof (goes_skip input st2 _ w2 (XPunct TSquareRight) rs _ A2 B2 ltac:(discriminate)) as G3.
    pose proof (goes_trans _ _ _ _ _ _ _ _ _ _ _ _ _ _ G1 (goes_trans _ _ _ _ _ _ _ _ _ _ _ _ _ _ G2 G3)) as G4.
    assert (G4s := goes_store _ _ _ _ _ _ _ _ _ s3 G4 M3). split; [|cbn [val_of closed]; cbn [app]; rewrite AS; reflexivity].
    eapply goes_eq; [exact G4s|assoc|assoc].
  Qed.

  (** ** Inline tables *)
  Lemma pty_value st pre w x s r : at_ st pre (w ++ (x, s) :: r) -> blanks w -> value_like x -> table_end (pty eof st) = false.
  Proof.
    intros A B VL. unfold pty. rewrite (peek_tile input st _ w x s _ A B (value_not_blank _ VL)). cbn [i_ty].
    destruct VL as [[->|(q & t & o & ->)]|[->| ->]]; reflexivity.
  Qed.
  Definition field_of (a : iassign) : option (path * tval) :=
    option_map (pair (key_path (as_key (ia_assign a)))) (val_of (as_val (ia_assign a))).

  Lemma table_loop_complete f level : complete f (level + 1) -> forall ts fs, g_fields ts fs -> forall fuel r rest comma assigns st pre,
    Forall valid ts -> Forall (fun x => level + 1 + nest (snd x) <= 100) fs -> is_punct TCurlyRight r ->
    at_ st pre (ts ++ r :: rest) -> (left st < fuel)%nat ->
    exists news st' a w cs, table_loop eof f fuel comma assigns st = Ok (inr (assigns ++ news, st')) /\
      goes st pre (ts ++ r :: rest) st' a (w ++ r :: rest) [] cs /\ ts = a ++ w /\ blanks w /\
      all_some (map field_of news) = Some fs.
  Proof.
    intros INNER.
    (* one assignment *)
    assert (ONE : forall w1 kt k w2 e w3 vt tv w4 X st pre, blanks w1 -> g_key kt k -> blanks w2 -> is_punct TEqual e -> blanks w3 -> g_value vt tv -> blanks w4 ->
      at_ st pre (w1 ++ kt ++ w2 ++ e :: w3 ++ vt ++ w4 ++ X) -> Forall valid (w1 ++ kt ++ w2 ++ e :: w3 ++ vt) -> level + 1 + nest tv <= 100 ->
      (exists y ys Y, X = (y, ys) :: Y /\ (y = XPunct TComma \/ y = XPunct TCurlyRight)) ->
      table_end (pty eof st) = false /\ exists k' st1 v st2 cs, parse_key eof st = Ok (KeyOk k', st1) /\ i_ty (ppeek eof st1) = IEqual /\
        f (padv st1) = Ok (VOk v, st2) /\ key_path k' = k /\ val_of v = Some tv /\
        goes st pre (w1 ++ kt ++ w2 ++ e :: w3 ++ vt ++ w4 ++ X) st2 (w1 ++ kt ++ w2 ++ e :: w3 ++ vt) (w4 ++ X) [] cs).
    { intros w1 kt k w2 [e es] w3 vt tv w4 X st pre B1 GK B2 PE B3 GV B4 A V NE (y & ys & Y & -> & PY). unfold is_punct in PE. cbn in PE. subst e.
      split.
      { destruct (g_key_first _ _ GK) as (x & s & u & -> & IL). cbn [app] in A. eapply pty_value; [exact A|exact B1|left; exact IL]. }
      apply Forall_app in V as [_ V]. apply Forall_app in V as [VK V]. apply Forall_app in V as [_ V]. apply Forall_inv_tail in V. apply Forall_app in V as [_ V].
      destruct (parse_key_complete input kt k st pre w1 _ GK A B1 VK) as (k' & st1 & RK & G1 & _ & KP).
      { apply next_is_app; [exact B2|discriminate|left; reflexivity]. }
      pose proof (goes_at _ _ _ _ _ _ _ _ _ G1) as A1.
      pose proof (goes_skip input st1 _ w2 (XPunct TEqual) es _ A1 B2 ltac:(discriminate)) as G2. pose proof (goes_at _ _ _ _ _ _ _ _ _ G2) as A2.
      destruct (INNER _ _ w3 vt tv (w4 ++ (y, ys) :: Y) A2 B3 V GV NE) as (v & st2 & cs & RV & G3 & VO).
      { right. apply next_is_app; [exact B4|destruct PY; subst; discriminate|]. destruct PY; subst; cbv; tauto. }
      exists k', st1, v, st2, cs. split; [exact RK|]. split; [fold (pty eof st1); rewrite (pty_punct st1 _ w2 TEqual es _ A1 B2); reflexivity|].
      split; [exact RV|]. split; [exact KP|]. split; [exact VO|].
      pose proof (goes_trans _ _ _ _ _ _ _ _ _ _ _ _ _ _ G1 (goes_trans _ _ _ _ _ _ _ _ _ _ _ _ _ _ G2 G3)) as G4.
      eapply goes_eq; [exact G4|reflexivity|assoc]. }
    induction 1 as [w1 kt k w2 e w3 vt tv w4 B1 GK B2 PE B3 GV B4|w1 kt k w2 e w3 vt tv w4 [c cs0] ts' fs B1 GK B2 PE B3 GV B4 PC GF IH];
      intros fuel [rx rs] rest comma assigns st pre V NS PR A L; unfold is_punct in PR; cbn in PR; subst rx; (destruct fuel as [|fuel]; [lia|]); cbn [table_loop].
    - assert (A' : at_ st pre (w1 ++ kt ++ w2 ++ e :: w3 ++ vt ++ w4 ++ (XPunct TCurlyRight, rs) :: rest)) by (eapply at_eq; [exact A|assoc]).
      assert (V' : Forall valid (w1 ++ kt ++ w2 ++ e :: w3 ++ vt)).
      { refine (proj1 (forall_split _ _ _ w4 V _)). assoc. }
      destruct (ONE w1 kt k w2 e w3 vt tv w4 _ st pre B1 GK B2 PE B3 GV B4 A' V' (Forall_inv NS)) as (TE & k' & st1 & v & st2 & cs & -> & PT & RV & KP & VO & G).
      { eexists _, _, _. split; [reflexivity|]. auto. }
      rewrite TE. cbn [bind]. cbv zeta. rewrite PT, RV. cbn [bind]. pose proof (goes_at _ _ _ _ _ _ _ _ _ G) as A2.
      rewrite (pty_punct st2 _ w4 TCurlyRight rs rest A2 B4). cbn [item_ty table_end].
      eexists [_], st2, _, w4, cs. split; [reflexivity|]. split; [eapply goes_eq; [exact G|assoc|reflexivity]|]. split; [assoc|]. split; [exact B4|].
      unfold field_of. cbn. rewrite VO, KP. reflexivity.
    - unfold is_punct in PC. cbn in PC. subst c.
      assert (A' : at_ st pre (w1 ++ kt ++ w2 ++ e :: w3 ++ vt ++ w4 ++ (XPunct TComma, cs0) :: ts' ++ (XPunct TCurlyRight, rs) :: rest)) by (eapply at_eq; [exact A|assoc]).
      assert (V' : Forall valid (w1 ++ kt ++ w2 ++ e :: w3 ++ vt) /\ Forall valid ts').
      { destruct (forall_split _ _ (w1 ++ kt ++ w2 ++ e :: w3 ++ vt) (w4 ++ (XPunct TComma, cs0) :: ts') V ltac:(assoc)) as [V0 V'].
        split; [exact V0|]. apply Forall_app in V' as [_ V']. exact (Forall_inv_tail V'). }
      destruct V' as [V1 V2].
      destruct (ONE w1 kt k w2 e w3 vt tv w4 _ st pre B1 GK B2 PE B3 GV B4 A' V1 (Forall_inv NS)) as (TE & k' & st1 & v & st2 & cs & -> & PT & RV & KP & VO & G).
      { eexists _, _, _. split; [reflexivity|]. auto. }
      rewrite TE. cbn [bind]. cbv zeta. rewrite PT, RV. cbn [bind]. pose proof (goes_at _ _ _ _ _ _ _ _ _ G) as A2.
      rewrite (pty_punct st2 _ w4 TComma cs0 _ A2 B4). cbn [item_ty table_end].
      pose proof (goes_skip input st2 _ w4 (XPunct TComma) cs0 _ A2 B4 ltac:(discriminate)) as G3. pose proof (goes_trans _ _ _ _ _ _ _ _ _ _ _ _ _ _ G G3) as G4.
      pose proof (goes_at _ _ _ _ _ _ _ _ _ G4) as A4.
      destruct (IH fuel (XPunct TCurlyRight, rs) rest (Some (i_start (ppeek eof st2))) (assigns ++ [mkia (mkassign k' (i_start (ppeek eof st1)) v) (Some (i_start (ppeek eof st2)))])
        (padv st2) _ V2 (Forall_inv_tail NS) eq_refl A4) as (news & st5 & a5 & w5 & cs5 & -> & G5 & -> & B5 & AS).
      { pose proof (goes_less _ _ _ _ _ _ _ _ _ A' G4) as LT. specialize (LT ltac:(apply has_item_r; rewrite <- (app_nil_r (w4 ++ _)); apply punct_item)). lia. }
      eexists (_ :: news), st5, _, w5, _. split; [do 3 f_equal; assoc|].
      pose proof (goes_trans _ _ _ _ _ _ _ _ _ _ _ _ _ _ G4 G5) as G6.
      split; [eapply goes_eq; [exact G6|assoc|reflexivity]|]. split; [assoc|]. split; [exact B5|].
      unfold all_some in *. cbn [map fold_right]. rewrite AS. unfold field_of. cbn [as_val as_key ia_assign option_map]. rewrite VO, KP. reflexivity.
  Qed.

  Lemma parse_table_complete f level l_par st pre ts fs r rest : complete f (level + 1) -> level + nest (TvTab fs) <= 100 ->
    g_fields ts fs \/ blanks ts /\ fs = [] -> Forall valid ts -> is_punct TCurlyRight r -> at_ st pre (ts ++ r :: rest) ->
    exists v st' cs, parse_table eof f l_par st = Ok (VOk v, st') /\ goes st pre (ts ++ r :: rest) st' (ts ++ [r]) rest [] cs /\ val_of v = Some (TvTab fs).
  Proof.
    intros INNER NE GF V PR A. unfold parse_table. destruct (nest_tab_inv _ _ NE) as [LV NS].
    assert (LOOP : exists news st' a w cs, table_loop eof f (S (length (pc_rest (ps_cur st)))) None [] st = Ok (inr (news, st')) /\
      goes st pre (ts ++ r :: rest) st' a (w ++ r :: rest) [] cs /\ ts = a ++ w /\ blanks w /\ all_some (map field_of news) = Some fs).
    { destruct GF as [GF|[B ->]].
      - exact (table_loop_complete f level INNER ts fs GF (S (left st)) r rest None [] st pre V NS PR A ltac:(lia)).
      - destruct r as [rx rs]. unfold is_punct in PR. cbn in PR. subst rx.
        exists [], st, [], ts, []. cbn [table_loop]. rewrite (pty_punct st _ ts TCurlyRight rs rest A B). cbn [item_ty table_end].
        split; [reflexivity|]. split; [apply goes_refl; exact A|]. auto. }
    destruct LOOP as (news & st1 & a & w & cs & -> & G1 & -> & B & AS). cbn [bind]. pose proof (goes_at _ _ _ _ _ _ _ _ _ G1) as A1.
    destruct r as [rx rs]. unfold is_punct in PR. cbn in PR. subst rx.
    fold (pty eof st1). rewrite (pty_punct st1 _ w TCurlyRight rs rest A1 B). cbn [item_ty].
    pose proof (goes_skip input st1 _ w (XPunct TCurlyRight) rs _ A1 B ltac:(discriminate)) as G2. pose proof (goes_trans _ _ _ _ _ _ _ _ _ _ _ _ _ _ G1 G2) as G3.
    eexists _, _, _. split; [reflexivity|]. split; [eapply goes_eq; [exact G3|assoc|assoc]|].
    cbn [val_of closed]. change (fun a0 => option_map (pair (key_path (as_key (ia_assign a0)))) (val_of (as_val (ia_assign a0)))) with field_of. rewrite AS. reflexivity.
  Qed.

  (** ** All values *)
  Lemma parse_value_complete : forall depth level, 101 <= level + N.of_nat depth -> complete (parse_value input eof depth level) level.
  Proof.
    induction depth as [|depth IH]; intros level D st pre w vt tv rest A B V GV NE ST; [lia|].
    assert (INNER : complete (parse_value input eof depth (level + 1)) (level + 1)) by (apply IH; lia).
    destruct GV as [q t o s|ts t v GL SC|ta a b tb t v GA BB GB SP|[lx ls] r ts vs PL PR GE|[lx ls] r ts PL PR BW|[lx ls] r ts fs PL PR GF].
    - cbn [app] in A |- *. cbn [parse_value]. rewrite (peek_tile input st pre w (XString q t o) s rest A B ltac:(discriminate)). cbn [i_ty item_ty].
      eexists _, (padv st), []. split; [reflexivity|]. split; [apply goes_skip; [exact A|exact B|discriminate]|reflexivity].
    - destruct (lit_complete input depth level st pre w ts t v rest A B GL SC ST) as (x & st' & R & G & VO). exists x, st', []. auto.
    - destruct (spaced_complete input depth level st pre w ta a b tb t v rest A B GA BB GB SP ST) as (x & st' & R & G & VO). exists x, st', []. auto.
    - unfold is_punct in PL. cbn in PL. subst lx.
      assert (A0 : at_ st pre (w ++ (XPunct TSquareLeft, ls) :: ts ++ r :: rest)) by (eapply at_eq; [exact A|assoc]).
      cbn [parse_value]. rewrite (peek_tile input st pre w (XPunct TSquareLeft) ls _ A0 B ltac:(discriminate)). cbn [i_ty item_ty i_start]. cbv zeta.
      pose proof (goes_skip input st _ w (XPunct TSquareLeft) ls _ A0 B ltac:(discriminate)) as G1. pose proof (goes_at _ _ _ _ _ _ _ _ _ G1) as A1.
      destruct (nest_arr_inv _ _ NE) as [LV _]. unfold recursion_limit. destruct (N.leb_spec 100 level); [lia|].
      destruct (parse_array_complete _ level (pos_at (pre ++ source w)) (padv st) (pre ++ source (w ++ [(XPunct TSquareLeft, ls)])) ts vs r rest INNER NE GE) as (v & st' & cs & R & G2 & VO); [|exact PR|exact A1|].
      { apply Forall_inv_tail in V. apply Forall_app in V. tauto. }
      exists v, st', ([] ++ cs). split; [exact R|]. split; [|exact VO]. eapply goes_eq; [exact (goes_trans _ _ _ _ _ _ _ _ _ _ _ _ _ _ G1 G2)|assoc|assoc].
    - unfold is_punct in PL. cbn in PL. subst lx.
      assert (A0 : at_ st pre (w ++ (XPunct TCurlyLeft, ls) :: ts ++ r :: rest)) by (eapply at_eq; [exact A|assoc]).
      cbn [parse_value]. rewrite (peek_tile input st pre w (XPunct TCurlyLeft) ls _ A0 B ltac:(discriminate)). cbn [i_ty item_ty i_start]. cbv zeta.
      pose proof (goes_skip input st _ w (XPunct TCurlyLeft) ls _ A0 B ltac:(discriminate)) as G1. pose proof (goes_at _ _ _ _ _ _ _ _ _ G1) as A1.
      destruct (nest_tab_inv _ _ NE) as [LV _]. unfold recursion_limit. destruct (N.leb_spec 100 level); [lia|].
      destruct (parse_table_complete _ level (pos_at (pre ++ source w)) (padv st) (pre ++ source (w ++ [(XPunct TCurlyLeft, ls)])) ts [] r rest INNER NE) as (v & st' & cs & R & G2 & VO); [right; auto| |exact PR|exact A1|].
      { apply Forall_inv_tail in V. apply Forall_app in V. tauto. }
      exists v, st', ([] ++ cs). split; [exact R|]. split; [|exact VO]. eapply goes_eq; [exact (goes_trans _ _ _ _ _ _ _ _ _ _ _ _ _ _ G1 G2)|assoc|assoc].
    - unfold is_punct in PL. cbn in PL. subst lx.
      assert (A0 : at_ st pre (w ++ (XPunct TCurlyLeft, ls) :: ts ++ r :: rest)) by (eapply at_eq; [exact A|assoc]).
      cbn [parse_value]. rewrite (peek_tile input st pre w (XPunct TCurlyLeft) ls _ A0 B ltac:(discriminate)). cbn [i_ty item_ty i_start]. cbv zeta.
      pose proof (goes_skip input st _ w (XPunct TCurlyLeft) ls _ A0 B ltac:(discriminate)) as G1. pose proof (goes_at _ _ _ _ _ _ _ _ _ G1) as A1.
      destruct (nest_tab_inv _ _ NE) as [LV _]. unfold recursion_limit. destruct (N.leb_spec 100 level); [lia|].
      destruct (parse_table_complete _ level (pos_at (pre ++ source w)) (padv st) (pre ++ source (w ++ [(XPunct TCurlyLeft, ls)])) ts fs r rest INNER NE) as (v & st' & cs & R & G2 & VO); [left; exact GF| |exact PR|exact A1|].
      { apply Forall_inv_tail in V. apply Forall_app in V. tauto. }
      exists v, st', ([] ++ cs). split; [exact R|]. split; [|exact VO]. eapply goes_eq; [exact (goes_trans _ _ _ _ _ _ _ _ _ _ _ _ _ _ G1 G2)|assoc|assoc].
  Qed.
End CValue.
