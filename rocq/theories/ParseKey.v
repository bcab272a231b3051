(** [parse_key] and [recover_on]: total, and sound. *)
From Verif Require Import Base BaseProofs CommonModel TomlError LitModel LexModel LexSpec LexBase LexStr LexSound LexProps ParseModel ParseSpec ParsePlace ParseItems.

(** On one line, apart from line breaks inside strings. *)
Lemma blanks_inline w : blanks w -> inline w.
Proof. intros B. eapply Forall_impl; [|exact B]. intros [x s] H. cbv [is_blank] in H. cbn in H. subst x. split; discriminate. Qed.
Lemma inline_no_comments pre a : inline a -> comments_of pre a = [].
Proof.
  revert pre. induction a as [|[x s] a IH]; intros pre H; [reflexivity|].
  pose proof (Forall_inv H) as [_ NC]. cbn in NC. pose proof (IH (pre ++ s) (Forall_inv_tail H)) as E. unfold comments_of in *.
  destruct x; cbn [tile_items flat_map]; try exact E; try (rewrite E; try reflexivity; unfold item_comment; cbn; try destruct ty; reflexivity). congruence.
Qed.

(** ** Where nodes stand *)

Section Key.
  Context (input : list N).
  Notation at_ := (at_ input).
  Notation goes := (goes input).
  Notation eof := (eof input).

  Lemma find_invalid_none : forall s i, find_invalid i s = None <-> Forall bare s.
  Proof.
    induction s as [|c s IH]; intros i; cbn [find_invalid]; [split; [constructor|reflexivity]|].
    unfold bare_char. destruct (((97 <=? c) && (c <=? 122)) || _ || _ || _ || _) eqn:B.
    - rewrite IH. split; [intros H; constructor; [unfold bare; lia|assumption]|intros H; exact (Forall_inv_tail H)].
    - split; [discriminate|]. intros H. pose proof (Forall_inv H) as H1. unfold bare in H1. lia.
  Qed.

  Lemma find_invalid_at : forall s i j c, find_invalid i s = Some (j, c) -> exists a b, s = a ++ c :: b /\ j = i + tlen a /\ ~ bare c.
  Proof.
    induction s as [|x s IH]; intros i j c F; cbn [find_invalid] in F; [discriminate|].
    destruct (bare_char x) eqn:B.
    - destruct (IH _ _ _ F) as (a & b & -> & -> & NB). exists (x :: a), b. split; [reflexivity|]. split; [cbn [tlen]; lia|exact NB].
    - injection F as <- <-. exists [], s. split; [reflexivity|]. split; [cbn; lia|]. unfold bare_char in B. unfold bare. lia.
  Qed.

  Definition ident_text (d : dident) : list N := id_text (di_ident d).
  Lemma key_loop_sound : forall fuel idents st pre ts, at_ st pre ts -> (left st < fuel)%nat ->
    Forall (dident_ok input) idents ->
    exists r st' a b es, key_loop eof fuel idents st = Ok (r, st') /\ goes st pre ts st' a b es [] /\ inline a /\
      match r with
      | KeyOk k => has_item a /\ key_ok input k /\ ps_store st' = ps_store st /\
          (es = [] -> exists w kt ks, a = w ++ kt /\ blanks w /\ g_key kt ks /\ key_path k = map ident_text idents ++ ks)
      | KeyUnterminated k => has_item a /\ key_ok input k /\ ~ Forall valid a
      | KeyErr e => err_ok input e
      end.
  Proof.
    induction fuel as [|fuel IH]; intros idents st pre ts A L OKS; [lia|].
    cbn [key_loop].
    assert (STOP : forall e, parse_ident (ppeek eof st) st = inr (KeyErr e, st) -> err_ok input e ->
      exists r st' a b es, (match parse_ident (ppeek eof st) st with
        | inr r => Ok r
        | inl (i, st) => let st := padv st in
            match pty eof st with
            | IDot => key_loop eof fuel (idents ++ [mkdi i (Some (i_start (ppeek eof st)))]) (padv st)
            | _ => Ok (KeyOk match idents with [] => KOne i | _ => KDotted (idents ++ [mkdi i None]) end, st)
            end end) = Ok (r, st') /\ goes st pre ts st' a b es [] /\ inline a /\
      match r with
      | KeyOk k => has_item a /\ key_ok input k /\ ps_store st' = ps_store st /\
          (es = [] -> exists w kt ks, a = w ++ kt /\ blanks w /\ g_key kt ks /\ key_path k = map ident_text idents ++ ks)
      | KeyUnterminated k => has_item a /\ key_ok input k /\ ~ Forall valid a
      | KeyErr e => err_ok input e
      end).
    { intros e -> EO. exists (KeyErr e), st, [], ts, []. split; [reflexivity|]. split; [apply goes_refl; exact A|]. split; [constructor|exact EO]. }
    assert (SPI := peek_stands input st pre ts A).
    destruct (peek_cases input st pre ts A) as [(B & P & _)|(w & x & s & r & E & B & NX & SH & P & IN)].
    { eapply STOP; [rewrite P; reflexivity|]. rewrite P in SPI. eapply err_ok_found; [exact SPI|auto|reflexivity]. }
    assert (OTHER : (forall q t o, x <> XString q t o) -> x <> XWord ->
        exists e, parse_ident (ppeek eof st) st = inr (KeyErr e, st) /\ err_ok input e).
    { intros N1 N2. rewrite P in SPI |- *. unfold parse_ident. cbn [i_ty]. destruct x as [| |[]| | |]; cbn [item_ty]; try congruence; (eexists; split; [reflexivity|eapply err_ok_found; [exact SPI|auto|reflexivity]]). }
    assert (NC : x <> XComment \/ x = XComment) by (destruct x; (left; discriminate) || (right; reflexivity)).
    destruct NC as [NC| ->]; [|destruct OTHER as (e & OE & EO); [discriminate|discriminate|eapply STOP; [exact OE|exact EO]]].
    subst ts. pose proof (goes_padv input st pre w x s r A B NX NC) as G.
    assert (HI : has_item (w ++ [(x, s)])).
    { intros H. apply Forall_app in H as [_ H]. apply Forall_inv in H. unfold is_blank in H. cbn in H. congruence. }
    (* an identifier [i] in the lexeme, with [es1] reported *)
    assert (CONT : forall i st1 es1, parse_ident (ppeek eof st) st = inl (i, st1) ->
      goes st pre (w ++ (x, s) :: r) (padv st1) (w ++ [(x, s)]) r es1 [] -> ps_store st1 = ps_store st ->
      ident_ok input i -> x <> XNewline -> (es1 = [] -> g_ident (x, s) (id_text i)) ->
      exists r0 st' a b es, (match parse_ident (ppeek eof st) st with
        | inr r => Ok r
        | inl (i, st) => let st := padv st in
            match pty eof st with
            | IDot => key_loop eof fuel (idents ++ [mkdi i (Some (i_start (ppeek eof st)))]) (padv st)
            | _ => Ok (KeyOk match idents with [] => KOne i | _ => KDotted (idents ++ [mkdi i None]) end, st)
            end end) = Ok (r0, st') /\ goes st pre (w ++ (x, s) :: r) st' a b es [] /\ inline a /\
      match r0 with
      | KeyOk k => has_item a /\ key_ok input k /\ ps_store st' = ps_store st /\
          (es = [] -> exists w kt ks, a = w ++ kt /\ blanks w /\ g_key kt ks /\ key_path k = map ident_text idents ++ ks)
      | KeyUnterminated k => has_item a /\ key_ok input k /\ ~ Forall valid a
      | KeyErr e => err_ok input e
      end).
    { intros i st1 es1 -> G1 ST1 OKI NNL GI. cbv zeta.
      pose proof (goes_at _ _ _ _ _ _ _ _ _ G1) as A1.
      assert (INL : inline (w ++ [(x, s)])).
      { apply Forall_app. split; [apply blanks_inline; assumption|]. constructor; [split; assumption|constructor]. }
      assert (FIN : exists r0 st' a b es, Ok (KeyOk match idents with [] => KOne i | _ => KDotted (idents ++ [mkdi i None]) end, padv st1) = @Ok Empty_set _ (r0, st') /\
        goes st pre (w ++ (x, s) :: r) st' a b es [] /\ inline a /\
        match r0 with
        | KeyOk k => has_item a /\ key_ok input k /\ ps_store st' = ps_store st /\
            (es = [] -> exists w kt ks, a = w ++ kt /\ blanks w /\ g_key kt ks /\ key_path k = map ident_text idents ++ ks)
        | KeyUnterminated k => has_item a /\ key_ok input k /\ ~ Forall valid a
        | KeyErr e => err_ok input e
        end).
      { eexists _, (padv st1), (w ++ [(x, s)]), r, es1. split; [reflexivity|]. split; [exact G1|]. split; [exact INL|].
        split; [exact HI|]. split; [|split; [exact ST1|]].
        - destruct idents as [|d ds]; [exact OKI|]. cbn [key_ok]. split; [discriminate|]. apply Forall_app. split; [assumption|]. constructor; [split; [exact OKI|exact I]|constructor].
        - intros H. exists w, [(x, s)], [id_text i]. split; [reflexivity|]. split; [assumption|]. split; [constructor; apply GI, H|].
          destruct idents as [|d ds]; [reflexivity|]. cbn [key_path]. rewrite map_app. reflexivity. }
      destruct (peek_cases input _ _ _ A1) as [(B1 & P1 & _)|(w1 & x1 & s1 & r1 & E1 & B1 & NX1 & SH1 & P1 & IN1)];
        unfold pty; rewrite P1; cbn [i_ty i_start eof]; [exact FIN|].
      destruct x1 as [| |[]| | |]; cbn [item_ty]; try exact FIN. subst r.
      assert (G2 := goes_padv input (padv st1) (pre ++ source (w ++ [(x, s)])) w1 (XPunct TDot) s1 r1 A1 B1 ltac:(discriminate) ltac:(discriminate)).
      pose proof (goes_trans _ _ _ _ _ _ _ _ _ _ _ _ _ _ G1 G2) as G3.
      pose proof (goes_at _ _ _ _ _ _ _ _ _ G3) as A3.
      assert (PD : s1 = [46]).
      { destruct SH1 as (c & PC & ->). unfold punct in PC. cbn [In] in PC.
        repeat (destruct PC as [PC|PC]; [first [discriminate PC|injection PC as <-; reflexivity]|]). destruct PC. }
      subst s1.
      set (d := mkdi i (Some (pos_at ((pre ++ source (w ++ [(x, s)])) ++ source w1)))).
      destruct (IH (idents ++ [d]) (padv (padv st1)) _ r1 A3) as (r0 & st' & a & b & es & RUN & G4 & INL4 & POST).
      { pose proof (goes_less _ _ _ _ _ _ _ _ _ A G3) as LE.
        assert (has_item ((w ++ [(x, s)]) ++ w1 ++ [(XPunct TDot, [46])])) as HI2 by (intros H; apply Forall_app in H as [H _]; exact (HI H)).
        specialize (LE HI2). lia. }
      { apply Forall_app. split; [assumption|]. constructor; [|constructor]. split; [exact OKI|].
        eexists _, (source r1). split; [|reflexivity]. rewrite IN1. reflexivity. }
      fold d. rewrite RUN. pose proof (goes_trans _ _ _ _ _ _ _ _ _ _ _ _ _ _ G3 G4) as G5.
      eexists r0, st', _, b, _. split; [reflexivity|]. split; [exact G5|].
      assert (INL2 : inline (w1 ++ [(XPunct TDot, [46])])).
      { apply Forall_app. split; [apply blanks_inline; assumption|]. constructor; [split; discriminate|constructor]. }
      split. { apply Forall_app. split; [apply Forall_app; split; assumption|assumption]. }
      assert (HI3 : has_item (((w ++ [(x, s)]) ++ w1 ++ [(XPunct TDot, [46])]) ++ a)).
      { intros H. apply Forall_app in H as [H _]. apply Forall_app in H as [H _]. exact (HI H). }
      destruct r0 as [k|k|e]; [|split; [exact HI3|split; [apply POST|intros V; apply Forall_app in V as [_ V]; exact (proj2 (proj2 POST) V)]]|exact POST].
      destruct POST as (_ & KO & STO & POST). split; [exact HI3|]. split; [exact KO|]. split; [rewrite STO; exact ST1|].
      intros EN. apply app_eq_nil in EN as [EN1 EN2]. apply app_eq_nil in EN1 as [EN1 _].
      destruct (POST EN2) as (w2 & kt & ks & -> & B2 & GK & KP).
      exists w, ((x, s) :: w1 ++ (XPunct TDot, [46]) :: w2 ++ kt), (id_text i :: ks).
      split; [assoc|]. split; [assumption|].
      split; [apply gk_dot; [apply GI, EN1|assumption|reflexivity|assumption|assumption]|].
      rewrite KP, map_app, <- app_assoc. reflexivity. }
    assert (ERR : forall e0, err_ok input e0 -> goes st pre (w ++ (x, s) :: r) (padv (perr st e0)) (w ++ [(x, s)]) r [e0] []).
    { intros e0 EO. destruct G as (G1 & G2 & G3 & G4 & G5 & G6). split; [exact G1|]. split; [exact G2|]. split; [reflexivity|]. split; [exact G4|].
      split; [exact G5|]. constructor; [exact EO|constructor]. }
    destruct x as [| |ty| | |q text off]; try (destruct OTHER as (e & OE & EO); [discriminate|discriminate|eapply STOP; [exact OE|exact EO]]).
    - (* a bare word *)
      cbn [item_ty] in P. destruct SH as [NE WC].
      assert (OKI : ident_ok input (plain_ident (mkref (tlen (pre ++ source w)) s) (span_from_pos_len (pos_at (pre ++ source w)) (tlen s)))).
      { split; [exists (pre ++ source w), (source r); split; [exact IN|]; split; reflexivity|]. split; [exact NE|]. split; [exact WC|]. split; [reflexivity|]. split; reflexivity. }
      destruct (find_invalid 0 s) as [[i c]|] eqn:F.
      1: assert (EO : err_ok input (EInvalidCharInIdentifier c (pos_plus (pos_at (pre ++ source w)) i))).
      1: { destruct (find_invalid_at s 0 i c F) as (a & b & -> & -> & NB).
           rewrite (pos_plus_text (pre ++ source w) a); [|apply (word_no_lf (a ++ c :: b)) in WC; apply no_lf_app in WC; tauto|lia].
           apply (err_ok_at input _ ((pre ++ source w) ++ a) [] (c :: b ++ source r)); [rewrite IN, <- !app_assoc; reflexivity|rewrite app_nil_r; reflexivity| |reflexivity].
           split; [reflexivity|]. split; [exact NB|]. exists c, (b ++ source r). auto. }
      + destruct (forallb is_control_char s) eqn:FC.
        * eapply STOP; [|exact EO]. rewrite P. unfold parse_ident. cbn [i_ty i_start sr_text]. rewrite F, FC. reflexivity.
        * eapply CONT with (es1 := [_]); [|apply ERR; exact EO|reflexivity|exact OKI|discriminate|discriminate].
          rewrite P. unfold parse_ident. cbn [i_ty i_start sr_text]. rewrite F, FC. reflexivity.
      + eapply CONT with (es1 := []); [|exact G|reflexivity|exact OKI|discriminate|].
        * rewrite P. unfold parse_ident. cbn [i_ty i_start sr_text]. rewrite F. reflexivity.
        * intros _. constructor. apply (find_invalid_none s 0), F.
    - (* a string *)
      cbn [item_ty] in P.
      set (str := mkstr q (mkref (tlen (pre ++ source w)) s) (pos_at ((pre ++ source w) ++ s)) text off) in *.
      assert (OKI : forall k, match k with KPlain => False | KBasic => q = QBasic | KLiteral => q = QLiteral end -> ident_ok input (string_ident (st_lit str) (mkspan (pos_at (pre ++ source w)) (st_lit_end str)) text off k)).
      { intros k NK. split; [exists (pre ++ source w), (source r); split; [exact IN|]; split; reflexivity|]. destruct SH as [SH TF].
        destruct k; [destruct NK|subst q; exists off; auto..]. }
      assert (Q : (exists e, parse_ident (ppeek eof st) st = inr (KeyErr e, st) /\ err_ok input e) \/
        ~ multi q /\ exists k, match k with KPlain => False | KBasic => q = QBasic | KLiteral => q = QLiteral end /\ parse_ident (ppeek eof st) st =
           let i := string_ident (st_lit str) (mkspan (pos_at (pre ++ source w)) (st_lit_end str)) text off k in
           if (to_end_line off =? 0) && (to_end_char off =? 0) then inr (KeyUnterminated (KOne i), padv st) else inl (i, st)).
      { rewrite P. unfold parse_ident. cbn [i_ty i_start]. cbv delta [str]. cbn [st_quote st_lit st_lit_end st_text st_offset].
        assert (SI : forall e, err_span e = mkspan (pos_at (pre ++ source w)) (pos_at ((pre ++ source w) ++ s)) -> parse_says e (pre ++ source w) s (source r) -> err_hint e = None -> err_ok input e).
        { intros e. apply err_ok_at. exact IN. }
        destruct SH as [(trim & bd & en & SE & _) _].
        destruct q; [right|left; eexists; split; [reflexivity|apply SI; [reflexivity|exists (trim ++ bd ++ en); exact SE|reflexivity]]|right|left; eexists; split; [reflexivity|apply SI; [reflexivity|exists (trim ++ bd ++ en); exact SE|reflexivity]]];
          (split; [intros [H|H]; discriminate|eexists; split; [|reflexivity]; reflexivity]). }
      destruct Q as [(e & OE & EO)|(NM & k & NK & OE)]; [eapply STOP; [exact OE|exact EO]|].
      cbv zeta in OE. destruct ((to_end_line off =? 0) && (to_end_char off =? 0)) eqn:UT.
      + rewrite OE. eexists (KeyUnterminated _), (padv st), (w ++ [(XString q text off, s)]), r, []. split; [reflexivity|]. split; [exact G|].
        split; [apply Forall_app; split; [apply blanks_inline; assumption|constructor; [split; discriminate|constructor]]|].
        split; [exact HI|]. split; [apply OKI, NK|]. intros V. apply Forall_app in V as [_ V]. apply Forall_inv in V. destruct V as (trim & _ & ->).
        destruct trim, q; cbn in UT; try discriminate; apply NM; (left; reflexivity) || (right; reflexivity).
      + eapply CONT with (es1 := []); [exact OE|exact G|reflexivity|apply OKI, NK|discriminate|]. intros _. constructor. exact NM.
  Qed.

  Lemma parse_key_sound st pre ts : at_ st pre ts ->
    exists r st' a b es, parse_key eof st = Ok (r, st') /\ goes st pre ts st' a b es [] /\ inline a /\
      match r with
      | KeyOk k => has_item a /\ key_ok input k /\ ps_store st' = ps_store st /\
          (es = [] -> exists w kt, a = w ++ kt /\ blanks w /\ g_key kt (key_path k))
      | KeyUnterminated k => has_item a /\ key_ok input k /\ ~ Forall valid a
      | KeyErr e => err_ok input e
      end.
  Proof.
    intros A. destruct (key_loop_sound (S (left st)) [] st pre ts A ltac:(lia) ltac:(constructor)) as (r & st' & a & b & es & R & G & IL & POST).
    exists r, st', a, b, es. split; [exact R|]. split; [exact G|]. split; [exact IL|].
    destruct r as [k|k|e]; [|exact POST|exact POST]. destruct POST as (H1 & H2 & H2' & H3). split; [exact H1|]. split; [exact H2|]. split; [exact H2'|].
    intros E. destruct (H3 E) as (w & kt & ks & E1 & B & GK & KP). exists w, kt. rewrite KP. auto.
  Qed.

  (** ** Recovery *)
  Lemma recover_sound p st pre ts : at_ st pre ts -> (forall c, p (IComment c) = true) ->
    exists a b, goes st pre ts (recover_on p st) a b [] [] /\ comments_of pre a = [] /\
      (p INewline = true -> inline a) /\
      (forall w x s r, ts = w ++ (x, s) :: r -> blanks w -> x <> XBlank -> p (item_ty (pre ++ source w) x s) = false -> has_item a) /\
      (blanks b \/ exists w x s r, b = w ++ (x, s) :: r /\ blanks w /\ x <> XBlank /\ p (item_ty ((pre ++ source a) ++ source w) x s) = true).
  Proof.
    intros A PC. unfold recover_on.
    assert (K : forall l prev ts pre, input = pre ++ source ts -> Forall shape ts -> all_separated ts -> l = tile_items pre ts -> prev_in input prev ->
      exists a b, ts = a ++ b /\ (pc_rest (skip_items p prev l) = tile_items (pre ++ source a) b /\ prev_in input (pc_prev (skip_items p prev l))) /\ comments_of pre a = [] /\
      (p INewline = true -> inline a) /\
      (forall w x s r, ts = w ++ (x, s) :: r -> blanks w -> x <> XBlank -> p (item_ty (pre ++ source w) x s) = false -> has_item a) /\
      (blanks b \/ exists w x s r, b = w ++ (x, s) :: r /\ blanks w /\ x <> XBlank /\ p (item_ty ((pre ++ source a) ++ source w) x s) = true)).
    { induction l as [|i l IH]; intros prev ts0 pre0 IN SH SEP E PV.
      - exists [], ts0. cbn [app source map concat skip_items pc_rest]. rewrite !app_nil_r. split; [reflexivity|]. split; [split; [exact E|exact PV]|].
        split; [reflexivity|]. split; [intros; constructor|].
        destruct (view ts0 pre0) as [(B & _)|(w & x & s & r & _ & _ & _ & V)]; [|rewrite V in E; discriminate].
        split; [|left; exact B]. intros w x s r -> BW NX _. apply Forall_app in B as [_ B]. apply Forall_inv in B. unfold is_blank in B. cbn in B. congruence.
      - destruct (view ts0 pre0) as [(_ & V)|(w & x & s & r & -> & B & NX & V)]; [rewrite V in E; discriminate|].
        rewrite V in E. injection E as -> E. cbn [skip_items i_ty].
        destruct (p (item_ty (pre0 ++ source w) x s)) eqn:PX.
        + exists [], (w ++ (x, s) :: r). cbn [app pc_rest]. change (source []) with (@nil N). rewrite !app_nil_r.
          split; [reflexivity|]. split; [split; [rewrite V, E; reflexivity|exact PV]|]. split; [reflexivity|]. split; [intros; constructor|].
          split.
          * intros w' x' s' r' EE BW' NX' PX' _.
            assert (w' = w /\ x' = x /\ s' = s) as (-> & -> & ->).
            { clear - EE B NX BW' NX'. revert w' EE BW'. induction w as [|[y t] w IHw]; intros [|[y' t'] w'] EE BW'.
              - injection EE as -> ->. auto.
              - injection EE as <- <- _. apply Forall_inv in BW'. cbv [is_blank] in BW'. cbn in BW'. congruence.
              - injection EE as <- <- _. apply Forall_inv in B. cbv [is_blank] in B. cbn in B. congruence.
              - injection EE as <- <- EE. destruct (IHw (Forall_inv_tail B) w' EE (Forall_inv_tail BW')) as (-> & -> & ->). auto. }
            congruence.
          * right. exists w, x, s, r. auto.
        + rewrite source_app, source_cons in IN.
          destruct (IH (Some (mkitem (item_ty (pre0 ++ source w) x s) (pos_at (pre0 ++ source w)))) r (pre0 ++ source w ++ s)) as (a & b & -> & PR & CO & IL & _ & END).
          { rewrite IN, <- !app_assoc. reflexivity. }
          { apply Forall_app in SH as [_ SH]. exact (Forall_inv_tail SH). }
          { apply all_separated_tail in SEP. exact (proj2 SEP). }
          { exact E. }
          { cbn [prev_in i_start]. apply (pos_in_at input _ (s ++ source r)). rewrite IN, <- !app_assoc. reflexivity. }
          exists (w ++ (x, s) :: a), b. split; [rewrite <- app_assoc; reflexivity|].
          assert (ES : pre0 ++ source (w ++ (x, s) :: a) = (pre0 ++ source w ++ s) ++ source a).
          { rewrite source_app, source_cons, <- !app_assoc. reflexivity. }
          rewrite ES. split; [exact PR|].
          split. { rewrite comments_of_app. unfold comments_of at 1. rewrite (tile_items_blanks w) by assumption. cbn [flat_map app].
            unfold comments_of in *. rewrite tile_items_cons by assumption. cbn [flat_map]. rewrite <- app_assoc, CO, app_nil_r.
            unfold item_comment. cbn [i_ty]. destruct (item_ty (pre0 ++ source w) x s) eqn:EI; try reflexivity. rewrite PC in PX. discriminate. }
          split. { intros PN. apply Forall_app. split; [apply blanks_inline; assumption|]. constructor; [|apply IL, PN].
            split; cbn; intros ->; cbn [item_ty] in PX; congruence. }
          split; [|exact END].
          intros w' x' s' r' _ _ _ _ H. apply Forall_app in H as [_ H]. apply Forall_inv in H. unfold is_blank in H. cbn in H. congruence. }
    destruct A as (IN & SH & SEP & E & PV).
    destruct (K (pc_rest (ps_cur st)) (pc_prev (ps_cur st)) ts pre IN SH SEP E PV) as (a & b & -> & PR & CO & IL & HI & END).
    exists a, b. split; [|auto].
    split; [reflexivity|]. split.
    - split; [rewrite IN, source_app, <- app_assoc; reflexivity|]. split; [apply Forall_app in SH; tauto|].
      split; [apply (all_separated_tail a), SEP|]. exact PR.
    - rewrite !app_nil_r. split; [reflexivity|]. split; [reflexivity|]. split; constructor.
  Qed.
End Key.
