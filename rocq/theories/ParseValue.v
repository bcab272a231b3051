(** [parse_value], continued: arrays, inline tables, and the whole. *)
From Verif Require Import Base BaseProofs CommonModel TomlError LitModel LitSpec LexModel LexSpec LexBase LexStr LexSound LexProps ParseModel ParseSpec ParsePlace ParseItems ParseKey ParseLit ParseVal.

(** Numbers, booleans and dates contain no comments. *)
Lemma run_inline u : Forall word_or_dot u -> inline u.
Proof. intros F. eapply Forall_impl; [|exact F]. intros [x s] [H|H]; unfold is_punct in H; cbn in H; subst x; split; discriminate. Qed.
Lemma scalar_inline ts v : g_value ts v -> nest v = 0 -> inline ts.
Proof.
  intros G NE. destruct G.
  - constructor; [split; discriminate|constructor].
  - apply run_inline. apply H.
  - apply Forall_app. split; [apply run_inline, H|]. constructor; [|apply run_inline; apply H1].
    destruct b as [x s]. cbv [is_blank] in H0. cbn in H0. subst x. split; discriminate.
  - change (nest (TvArr vs)) with (1 + fold_right N.max 0 (map nest vs)) in NE. lia.
  - discriminate.
  - change (nest (TvTab fs)) with (1 + fold_right N.max 0 (map (fun x => nest (snd x)) fs)) in NE. lia.
Qed.

Section Value.
  Context (input : list N).
  Notation at_ := (at_ input).
  Notation goes := (goes input).
  Notation eof := (eof input).
  Notation placed := (placed input).
  Notation node_ok := (node_ok input).
  Notation inner_ok := (inner_ok input).

  (** The rest of an array or inline table after its bracket. *)
  Definition body_post (level : N) (pre : list N) (a b : list tile) (es : list terror) (cs : list comment) (st' : pst) (r : vres)
    (G : list tile -> tval -> Prop) : Prop :=
    match r with
    | VOk v => node_ok (next_id (ps_store st')) v /\
        (es = [] -> Forall valid a -> cs = comments_of pre a /\ exists tv, G a tv /\ val_of v = Some tv /\ level + nest tv <= 100)
    | VErr e => err_ok input e /\ (forall p, e = ERecursionLimitExceeded p -> b = [])
    end.
  Definition array_body (a : list tile) (tv : tval) : Prop :=
    exists ts vs, a = ts ++ [(XPunct TSquareRight, [93])] /\ g_elems ts vs /\ tv = TvArr vs.
  Definition table_body (a : list tile) (tv : tval) : Prop :=
    exists ts fs, a = ts ++ [(XPunct TCurlyRight, [125])] /\ tv = TvTab fs /\ (g_fields ts fs \/ blanks ts /\ fs = []).

  Lemma nest_all level vs : level < 100 -> Forall (fun v => level + 1 + nest v <= 100) vs -> level + nest (TvArr vs) <= 100.
  Proof.
    intros L F. change (nest (TvArr vs)) with (1 + fold_right N.max 0 (map nest vs)). assert (fold_right N.max 0 (map nest vs) <= 100 - level - 1); [|lia].
    induction F as [|v vs H F IH]; cbn [map fold_right]; lia.
  Qed.
  Lemma nest_tab level (fs : list (path * tval)) : level < 100 -> Forall (fun x => level + 1 + nest (snd x) <= 100) fs -> level + nest (TvTab fs) <= 100.
  Proof.
    intros L F. change (nest (TvTab fs)) with (1 + fold_right N.max 0 (map (fun x => nest (snd x)) fs)). assert (fold_right N.max 0 (map (fun x => nest (snd x)) fs) <= 100 - level - 1); [|lia].
    induction F as [|v vs H F IH]; cbn [map fold_right]; lia.
  Qed.

  Lemma last_end (l : list avalue) n l_par : Forall (avalue_ok input n) l -> char_at input 91 l_par ->
    pos_in input (match rev l with v :: _ => av_end v | [] => pos_plus l_par 1 end).
  Proof.
    intros F C. destruct (rev l) as [|v r] eqn:E; [eapply char_at_after; [exact C|discriminate|reflexivity]|].
    assert (IN : In v l) by (apply in_rev; rewrite E; left; reflexivity).
    rewrite Forall_forall in F. destruct (F v IN) as (_ & CO & NO). unfold av_end. destruct (av_comma v).
    - eapply char_at_after; [exact CO|discriminate|reflexivity].
    - eapply node_end_in; exact NO.
  Qed.
  Lemma last_end_t (l : list iassign) n l_par : Forall (iassign_ok input n) l -> char_at input 123 l_par ->
    pos_in input (match rev l with v :: _ => ia_end v | [] => pos_plus l_par 1 end).
  Proof.
    intros F C. destruct (rev l) as [|v r] eqn:E; [eapply char_at_after; [exact C|discriminate|reflexivity]|].
    assert (IN : In v l) by (apply in_rev; rewrite E; left; reflexivity).
    rewrite Forall_forall in F. destruct (F v IN) as (_ & _ & CO & NO). unfold ia_end. destruct (ia_comma v).
    - eapply char_at_after; [exact CO|discriminate|reflexivity].
    - eapply node_end_in; exact NO.
  Qed.

  Lemma parse_array_sound f level l_par st pre ts : inner_ok f (level + 1) -> level < 100 -> at_ st pre ts -> char_at input 91 l_par ->
    exists r st' a b es cs, parse_array eof f level l_par st = Ok (r, st') /\ goes st pre ts st' a b es cs /\
      body_post level pre a b es cs st' r array_body.
  Proof.
    intros INNER LV A CL. unfold parse_array.
    destruct (eat_line_goes input st (mkrange (next_id (ps_store st)) 0 level) pre ts A) as (st1 & ac & a1 & b1 & -> & G1 & T1 & C1 & R1 & _ & _).
    { cbn. lia. } { unfold range_ok. cbn. lia. }
    cbn [bind]. pose proof (goes_at _ _ _ _ _ _ _ _ _ G1) as A1. pose proof (goes_grow _ _ _ _ _ _ _ _ _ G1) as N1.
    destruct (array_loop_sound input f level INNER (S (left st1)) ac [] st1 _ b1 A1 ltac:(lia)) as (res & st2 & a2 & b2 & es2 & cs2 & EQ & G2 & POST).
    { cbn in C1. lia. } { exact R1. } { constructor. }
    unfold left in EQ. rewrite EQ. cbn [bind]. pose proof (goes_trans _ _ _ _ _ _ _ _ _ _ _ _ _ _ G1 G2) as G12. cbn [app] in G12.
    destruct res as [[e s]|[[ac2 vals] s]]; cbn [array_post] in POST.
    - destruct POST as (-> & EO & BN & _). eexists _, st2, _, b2, _, _. split; [reflexivity|]. split; [exact G12|]. split; [exact EO|]. intros _ _. exact BN.
    - destruct POST as (-> & C2 & R2 & VO & GR). pose proof (goes_at _ _ _ _ _ _ _ _ _ G12) as A2. pose proof (goes_grow _ _ _ _ _ _ _ _ _ G2) as N2.
      cbn in C1. assert (CS : cr_start ac2 <= next_id (ps_store st2)) by lia.
      assert (TAIL : forall st3 rp a3 b3 es3, goes st2 (pre ++ source (a1 ++ a2)) b2 st3 a3 b3 es3 [] -> ps_store st3 = ps_store st2 ->
         match rp with Some p => char_at input 93 p | None => es3 <> [] end ->
         (es3 = [] -> exists w, a3 = w ++ [(XPunct TSquareRight, [93])] /\ blanks w) ->
         exists r st' a b es cs,
          (let? ac := range_extend_to ac2 (next_id (ps_store st3)) in
           let? s := mark_contained_comments (ps_store st3) ac level in
           let e := match rp with Some p => EndPar p | None => EndNone (match rev vals with v :: _ => av_end v | [] => pos_plus l_par 1 end) end in
           Ok (VOk (VArray ac l_par vals e), set_store st3 s)) = Ok (r, st') /\ goes st pre ts st' a b es cs /\ body_post level pre a b es cs st' r array_body).
      { intros st3 rp a3 b3 es3 G3 S3 RP GP. rewrite S3.
        destruct (range_extend_ok ac2 (next_id (ps_store st2)) CS) as (ac3 & -> & X1 & X2 & _). cbn [bind].
        destruct (mark_contained_comments_ok (ps_store st2) ac3 level) as (s3 & -> & M3). { unfold range_ok. lia. }
        cbn [bind]. cbv zeta. pose proof (goes_trans _ _ _ _ _ _ _ _ _ _ _ _ _ _ G12 G3) as G13.
        assert (G13s := goes_store _ _ _ _ _ _ _ _ _ s3 G13). rewrite S3 in G13s. specialize (G13s M3).
        eexists _, _, _, b3, _, _. split; [reflexivity|]. split; [exact G13s|]. cbn [body_post set_store ps_store].
        rewrite (next_id_map _ _ M3). split.
        - apply node_array. split; [unfold range_ok; lia|]. split; [exact CL|]. split; [|exact VO].
          destruct rp; [exact RP|]. eapply last_end; [exact VO|exact CL].
        - rewrite app_nil_r. intros EN V. apply app_eq_nil in EN as [EN2 EN3]. apply Forall_app in V as [V _]. apply Forall_app in V as [_ V].
          destruct (GR EN2 V) as (-> & news & vs & -> & AS & GE & NS). destruct (GP EN3) as (w & -> & BW).
          split; [rewrite (comments_of_app pre (a1 ++ a2)), punct_comments, app_nil_r, comments_of_app by exact BW; reflexivity|].
          exists (TvArr vs). split; [|split; [|apply nest_all; assumption]].
          + exists (a1 ++ a2 ++ w), vs. split; [assoc|]. split; [|reflexivity]. apply g_elems_trivia; [exact T1|]. apply GE. apply blanks_trivia, BW.
          + cbn [val_of]. destruct rp; [|contradiction]. cbn [closed app]. rewrite AS. reflexivity. }
      assert (FAIL : forall sp, stands input (token_fmt_str (ppeek eof st2)) sp \/ (i_ty (ppeek eof st2) = IEOF /\ exists p, sp = span_pos p /\ pos_in input p) -> exists r st' a b es cs,
          (let? ac := range_extend_to ac2 (next_id (ps_store (perr st2 (EExpectedRightSquareFound (token_fmt_str (ppeek eof st2)) l_par sp)))) in
           let? s := mark_contained_comments (ps_store (perr st2 (EExpectedRightSquareFound (token_fmt_str (ppeek eof st2)) l_par sp))) ac level in
           let e := EndNone (match rev vals with v :: _ => av_end v | [] => pos_plus l_par 1 end) in
           Ok (VOk (VArray ac l_par vals e), set_store (perr st2 (EExpectedRightSquareFound (token_fmt_str (ppeek eof st2)) l_par sp)) s)) = Ok (r, st') /\ goes st pre ts st' a b es cs /\ body_post level pre a b es cs st' r array_body).
      { intros sp SI. apply (TAIL (perr st2 (EExpectedRightSquareFound (token_fmt_str (ppeek eof st2)) l_par sp)) None [] b2 [EExpectedRightSquareFound (token_fmt_str (ppeek eof st2)) l_par sp]).
        - apply (goes_err _ _ _ _ _ _ _ [] []); [apply goes_refl; exact A2|].
          destruct SI as [SI|(T & p & -> & x & y & IN & ->)]; [eapply err_ok_found; [exact SI|intros; left; assumption|exact CL]|]. split; [|exact CL].
          exists x, [], y. rewrite app_nil_r. split; [exact IN|]. split; [reflexivity|]. right. split; [|reflexivity]. unfold token_fmt_str. rewrite T. reflexivity.
        - reflexivity.
        - discriminate.
        - discriminate. }
      pose proof (peek_stands _ _ _ _ A2) as SP. fold (pty eof st2).
      destruct (pty eof st2) eqn:PT; try (apply FAIL; left; exact SP).
      + destruct (peek_punct input st2 _ _ TSquareRight 93 A2) as (w & r & E5 & B5 & PK & CH & G5 & _). { rewrite PT. reflexivity. }
        apply (TAIL (padv st2) (Some (i_start (ppeek eof st2))) _ r [] G5); [reflexivity|exact CH|]. intros _. exists w. auto.
      + apply FAIL. destruct A2 as (_ & _ & _ & _ & PV). unfold ppeek_prev.
        destruct (pc_prev (ps_cur st2)) as [[[] p]|]; try (left; exact SP). right. split; [exact PT|]. exists p. split; [reflexivity|exact PV].
  Qed.

  (** ** Inline tables *)
  Definition table_post (level : N) (comma : option pos) (assigns : list iassign) (pre : list N) (a b : list tile) (es : list terror) (cs : list comment) (st' : pst)
    (res : terror * pst + list iassign * pst) : Prop :=
    match res with
    | inl (e, s) => s = st' /\ err_ok input e /\ b = []
    | inr (l, s) => s = st' /\ Forall (iassign_ok input (next_id (ps_store st'))) l /\
        (es = [] -> Forall valid a -> cs = comments_of pre a /\
         ((comma = None /\ a = [] /\ l = assigns) \/
          exists news fs, l = assigns ++ news /\
           all_some (map (fun x => option_map (pair (key_path (as_key (ia_assign x)))) (val_of (as_val (ia_assign x)))) news) = Some fs /\
           (forall w, blanks w -> g_fields (a ++ w) fs) /\ Forall (fun x => level + 1 + nest (snd x) <= 100) fs) /\ 
         True)
    end.

  Lemma table_loop_sound f level : inner_ok f (level + 1) -> forall fuel comma assigns st pre ts, at_ st pre ts -> (left st < fuel)%nat ->
    comma_ok input comma -> Forall (iassign_ok input (next_id (ps_store st))) assigns ->
    exists res st' a b es cs, table_loop eof f fuel comma assigns st = Ok res /\ goes st pre ts st' a b es cs /\
      table_post level comma assigns pre a b es cs st' res.
  Proof.
    intros INNER. induction fuel as [|fuel IH]; intros comma assigns st pre ts A L CO AO; [lia|]. cbn [table_loop].
    destruct (table_end (pty eof st)) eqn:TE.
    { destruct comma as [p|].
      - eexists _, (perr st (EInlineTableTrailingComma p)), [], ts, [EInlineTableTrailingComma p], []. split; [reflexivity|].
        split; [apply (goes_err _ _ _ _ _ _ _ [] []); [apply goes_refl; exact A|]|].
        + destruct CO as (x & y & IN & ->). eapply err_ok_char; [exact IN|discriminate|reflexivity|reflexivity|reflexivity|reflexivity].
        + split; [reflexivity|]. split; [exact AO|]. discriminate.
      - eexists _, st, [], ts, [], []. split; [reflexivity|]. split; [apply goes_refl; exact A|]. split; [reflexivity|]. split; [exact AO|].
        intros _ _. split; [reflexivity|]. split; [|exact I]. left. auto. }
    (* recovery, after an error was reported *)
    assert (REC : forall st1 a1 b1 es1 cs1, goes st pre ts st1 a1 b1 es1 cs1 -> es1 <> [] ->
      exists res st' a b es cs,
       (let st := recover_on table_stop st1 in
              match pty eof st with
              | IComma => table_loop eof f fuel comma assigns (padv st)
              | _ => Ok (inr (assigns, st))
              end) = Ok res /\ goes st pre ts st' a b es cs /\ table_post level comma assigns pre a b es cs st' res).
    { intros st1 a1 b1 es1 cs1 G1 NE. pose proof (goes_at _ _ _ _ _ _ _ _ _ G1) as A1.
      destruct (recover_sound input table_stop _ _ _ A1 ltac:(reflexivity)) as (a3 & b3 & G3 & _).
      pose proof (goes_trans _ _ _ _ _ _ _ _ _ _ _ _ _ _ G1 G3) as G13. pose proof (goes_at _ _ _ _ _ _ _ _ _ G13) as A3.
      cbv zeta. set (st3 := recover_on table_stop st1) in *. pose proof (goes_grow _ _ _ _ _ _ _ _ _ G13) as N3.
      assert (STOP : exists res st' a b es cs, @Ok Empty_set (terror * pst + list iassign * pst) (inr (assigns, st3)) = Ok res /\ goes st pre ts st' a b es cs /\ table_post level comma assigns pre a b es cs st' res).
      { eexists _, st3, _, b3, _, _. split; [reflexivity|]. split; [exact G13|]. split; [reflexivity|]. split; [eapply iassigns_le; [exact N3|exact AO]|].
        intros H. exfalso. destruct es1; [congruence|discriminate]. }
      destruct (pty eof st3) eqn:PT; try exact STOP. clear STOP.
      destruct (peek_punct input st3 _ _ TComma 44 A3) as (w & r & E5 & B5 & PK & CH & G5 & _). { rewrite PT. reflexivity. }
      pose proof (goes_trans _ _ _ _ _ _ _ _ _ _ _ _ _ _ G13 G5) as G15. pose proof (goes_at _ _ _ _ _ _ _ _ _ G15) as A5.
      destruct (IH comma assigns (padv st3) _ _ A5) as (res & st6 & a6 & b6 & es6 & cs6 & -> & G6 & P6).
      { pose proof (goes_less _ _ _ _ _ _ _ _ _ A G15) as LT. specialize (LT ltac:(apply has_item_r; rewrite <- (app_nil_r (w ++ _)); apply punct_item)). lia. }
      { exact CO. } { change (ps_store (padv st3)) with (ps_store st3). eapply iassigns_le; [exact N3|exact AO]. }
      pose proof (goes_trans _ _ _ _ _ _ _ _ _ _ _ _ _ _ G15 G6) as G16. eexists _, st6, _, b6, _, _. split; [reflexivity|]. split; [exact G16|].
      destruct res as [[e s]|[l s]]; cbn [table_post] in *; [exact P6|]. destruct P6 as (P1 & P2 & _). split; [exact P1|]. split; [exact P2|].
      intros H. exfalso. destruct es1; [congruence|discriminate]. }
    destruct (parse_key_sound input st pre ts A) as (k & st1 & a1 & b1 & es1 & -> & G1 & IL & POST). cbn [bind].
    pose proof (goes_at _ _ _ _ _ _ _ _ _ G1) as A1. pose proof (goes_grow _ _ _ _ _ _ _ _ _ G1) as N1.
    destruct k as [k|k|e].
    - destruct POST as (HI & KO & ST1 & GK). pose proof (peek_stands _ _ _ _ A1) as SP.
      set (t := ppeek eof st1) in *.
      assert (NOEQ : exists res st' a b es cs,
        (let st := recover_on table_stop (perr st1 (EExpectedEqOrDotFound (token_fmt_str t) (token_span t))) in
              match pty eof st with
              | IComma => table_loop eof f fuel comma assigns (padv st)
              | _ => Ok (inr (assigns, st))
              end) = Ok res /\ goes st pre ts st' a b es cs /\ table_post level comma assigns pre a b es cs st' res).
      { eapply REC; [eapply goes_err; [exact G1|eapply err_ok_found; [exact SP|auto|reflexivity]]|]. intros H. destruct es1; discriminate. }
      cbv zeta. change (i_ty t) with (pty eof st1). destruct (pty eof st1) eqn:PT; try exact NOEQ. clear NOEQ.
      destruct (peek_punct input st1 _ _ TEqual 61 A1) as (w2 & r2 & E2 & B2 & PK & CH & G2 & _). { rewrite PT. reflexivity. }
      pose proof (goes_trans _ _ _ _ _ _ _ _ _ _ _ _ _ _ G1 G2) as G12. pose proof (goes_at _ _ _ _ _ _ _ _ _ G12) as A2.
      destruct (INNER (padv st1) _ _ A2) as (r & st3 & a3 & b3 & es3 & cs3 & -> & G3 & POST). cbn [bind].
      pose proof (goes_trans _ _ _ _ _ _ _ _ _ _ _ _ _ _ G12 G3) as G13. cbn [app] in G13. pose proof (goes_at _ _ _ _ _ _ _ _ _ G13) as A3.
      pose proof (goes_grow _ _ _ _ _ _ _ _ _ G13) as N3.
      destruct r as [v|e]; cbn [val_post] in POST.
      + destruct POST as (HI3 & NO & GR). rewrite app_nil_r in G13.
        assert (FIELD : forall c, comma_ok input c -> iassign_ok input (next_id (ps_store st3)) (mkia (mkassign k (i_start t) v) c)).
        { intros c CC. split; [exact KO|]. split; [exact CH|]. split; [exact CC|exact NO]. }
        assert (AO3 : Forall (iassign_ok input (next_id (ps_store st3))) assigns) by (eapply iassigns_le; [exact N3|exact AO]).
        assert (FACTS : es1 = [] -> es3 = [] -> Forall valid a1 -> Forall valid a3 ->
          cs3 = comments_of pre ((a1 ++ w2 ++ [(XPunct TEqual, [61])]) ++ a3) /\
          exists w kt w3 ts tv, (a1 ++ w2 ++ [(XPunct TEqual, [61])]) ++ a3 = w ++ kt ++ w2 ++ (XPunct TEqual, [61]) :: w3 ++ ts /\ blanks w /\ blanks w3 /\ g_key kt (key_path k) /\
            g_value ts tv /\ val_of v = Some tv /\ level + 1 + nest tv <= 100).
        { intros EN1 EN3 V1 V3. destruct (GK EN1) as (w & kt & -> & BW & GKT). destruct (GR EN3 V3) as (-> & w3 & vt & tv & -> & BW3 & GV & VOF & NE).
          split.
          - rewrite (comments_of_app pre _ (w3 ++ vt)), (comments_of_app pre (w ++ kt)), punct_comments by exact B2.
            rewrite (inline_no_comments pre (w ++ kt)) by exact IL. reflexivity.
          - exists w, kt, w3, vt, tv. split; [assoc|]. auto 7. }
        destruct (table_end (pty eof st3)) eqn:TE3.
        * eexists _, st3, _, b3, _, _. split; [reflexivity|]. split; [exact G13|]. split; [reflexivity|].
          split; [apply Forall_app; split; [exact AO3|]; constructor; [apply FIELD; exact I|constructor]|].
          intros EN V. apply app_eq_nil in EN as [EN1 EN3]. apply Forall_app in V as [V1 V3]. apply Forall_app in V1 as [V1 _].
          destruct (FACTS EN1 EN3 V1 V3) as (CE & w & kt & w3 & vt & tv & AE & BW & BW3 & GKT & GV & VOF & NE). rewrite AE in *.
          split; [exact CE|]. split; [|exact I]. right. eexists [_], [_]. split; [reflexivity|].
          split; [unfold all_some; cbn [map fold_right ia_assign as_key as_val]; rewrite VOF; reflexivity|].
          split; [|constructor; [exact NE|constructor]]. intros w' BW'.
          match goal with |- g_fields ?x _ => replace x with (w ++ kt ++ w2 ++ (XPunct TEqual, [61]) :: w3 ++ vt ++ w') by assoc end.
          apply gf_last; auto. reflexivity.
        * assert (MISS : exists res st' a b es cs, table_loop eof f fuel None (assigns ++ [mkia (mkassign k (i_start t) v) None]) (perr st3 (EMissingComma (val_end v))) = Ok res /\
            goes st pre ts st' a b es cs /\ table_post level comma assigns pre a b es cs st' res).
          { assert (G5 := goes_err _ _ _ _ _ _ _ _ _ (EMissingComma (val_end v)) G13 (err_ok_pos _ (EMissingComma (val_end v)) _ (node_end_in _ _ _ NO) eq_refl (fun _ _ _ _ => eq_refl) eq_refl)).
            pose proof (goes_at _ _ _ _ _ _ _ _ _ G5) as A5.
            destruct (IH None (assigns ++ [mkia (mkassign k (i_start t) v) None]) _ _ _ A5) as (res & st6 & a6 & b6 & es6 & cs6 & -> & G6 & P6).
            { pose proof (goes_less _ _ _ _ _ _ _ _ _ A G5) as LT. specialize (LT ltac:(apply has_item_r, HI3)). lia. }
            { exact I. }
            { apply Forall_app; split; [exact AO3|]; constructor; [apply FIELD; exact I|constructor]. }
            pose proof (goes_trans _ _ _ _ _ _ _ _ _ _ _ _ _ _ G5 G6) as G7.
            eexists _, st6, _, b6, _, _. split; [reflexivity|]. split; [exact G7|].
            destruct res as [[e s]|[l s]]; cbn [table_post] in *; [exact P6|]. destruct P6 as (P1 & P2 & _). split; [exact P1|]. split; [exact P2|].
            intros H. exfalso. clear - H. apply app_eq_nil in H as [H _]. apply app_eq_nil in H as [_ H]. discriminate. }
          destruct (pty eof st3) eqn:PT3; try exact MISS. clear MISS.
          destruct (peek_punct input st3 _ _ TComma 44 A3) as (w4 & r4 & E4 & B4 & PK4 & CH4 & G4 & _). { rewrite PT3. reflexivity. }
          pose proof (goes_trans _ _ _ _ _ _ _ _ _ _ _ _ _ _ G13 G4) as G14. pose proof (goes_at _ _ _ _ _ _ _ _ _ G14) as A4.
          destruct (IH (Some (i_start (ppeek eof st3))) (assigns ++ [mkia (mkassign k (i_start t) v) (Some (i_start (ppeek eof st3)))]) _ _ _ A4) as (res & st6 & a6 & b6 & es6 & cs6 & -> & G6 & P6).
          { pose proof (goes_less _ _ _ _ _ _ _ _ _ A G14) as LT. specialize (LT ltac:(apply has_item_l, has_item_r, HI3)). lia. }
          { exact CH4. }
          { change (ps_store (padv st3)) with (ps_store st3). apply Forall_app; split; [exact AO3|]; constructor; [apply FIELD; exact CH4|constructor]. }
          pose proof (goes_trans _ _ _ _ _ _ _ _ _ _ _ _ _ _ G14 G6) as G7.
          eexists _, st6, _, b6, _, _. split; [reflexivity|]. split; [exact G7|].
          destruct res as [[e s]|[l s]]; cbn [table_post] in *; [exact P6|]. destruct P6 as (P1 & P2 & P3). split; [exact P1|]. split; [exact P2|].
          rewrite !app_nil_r. intros EN V. apply app_eq_nil in EN as [EN EN6]. apply app_eq_nil in EN as [EN1 EN3].
          apply Forall_app in V as [V V6]. apply Forall_app in V as [V V4]. apply Forall_app in V as [V1 V3]. apply Forall_app in V1 as [V1 _].
          destruct (P3 EN6 V6) as (CE6 & [(H & _)|(news & fs & -> & AS & GF & NS)] & _); [discriminate|].
          destruct (FACTS EN1 EN3 V1 V3) as (CE & w & kt & w3 & vt & tv & AE & BW & BW3 & GKT & GV & VOF & NE).
          split. { rewrite (comments_of_app pre _ a6), (comments_of_app pre _ (w4 ++ _)), punct_comments by exact B4. rewrite app_nil_r. rewrite CE, CE6. reflexivity. }
          split; [|exact I]. right. exists (mkia (mkassign k (i_start t) v) (Some (i_start (ppeek eof st3))) :: news), ((key_path k, tv) :: fs).
          split; [assoc|]. split; [unfold all_some in *; cbn [map fold_right ia_assign as_key as_val]; rewrite VOF, AS; reflexivity|].
          split; [|constructor; [exact NE|exact NS]]. intros w' BW'. rewrite AE.
          match goal with |- g_fields ?x _ => replace x
            with (w ++ kt ++ w2 ++ (XPunct TEqual, [61]) :: w3 ++ vt ++ w4 ++ (XPunct TComma, [44]) :: a6 ++ w') by assoc end.
          apply gf_cons; auto; reflexivity.
      + destruct POST as [EO RL]. destruct (recursion_error e) eqn:RE.
        * assert (exists p, e = ERecursionLimitExceeded p) as [p ->] by (destruct e; try discriminate; eexists; reflexivity).
          eexists _, st3, _, b3, _, _. split; [reflexivity|]. split; [exact G13|]. split; [reflexivity|]. split; [exact EO|]. eapply RL. reflexivity.
        * eapply REC; [eapply goes_err; [exact G13|exact EO]|]. intros H. apply app_eq_nil in H as [_ H]. discriminate.
    - destruct POST as (HI & KO & NV). eexists _, st1, _, b1, _, _. split; [reflexivity|]. split; [exact G1|]. split; [reflexivity|].
      split; [eapply iassigns_le; [exact N1|exact AO]|]. intros _ V. contradiction.
    - eapply REC; [eapply goes_err; [exact G1|exact POST]|]. intros H. apply app_eq_nil in H as [_ H]. discriminate.
  Qed.

  Lemma parse_table_sound f level l_par st pre ts : inner_ok f (level + 1) -> level < 100 -> at_ st pre ts -> char_at input 123 l_par ->
    exists r st' a b es cs, parse_table eof f l_par st = Ok (r, st') /\ goes st pre ts st' a b es cs /\
      body_post level pre a b es cs st' r table_body.
  Proof.
    intros INNER LV A CL. unfold parse_table.
    destruct (table_loop_sound f level INNER (S (left st)) None [] st _ _ A ltac:(lia) I ltac:(constructor)) as (res & st2 & a2 & b2 & es2 & cs2 & EQ & G2 & POST).
    unfold left in EQ. rewrite EQ. cbn [bind].
    destruct res as [[e s]|[l s]]; cbn [table_post] in POST.
    - destruct POST as (-> & EO & BN). eexists _, st2, _, b2, _, _. split; [reflexivity|]. split; [exact G2|]. split; [exact EO|]. intros _ _. exact BN.
    - destruct POST as (-> & AO & GR). pose proof (goes_at _ _ _ _ _ _ _ _ _ G2) as A2. pose proof (peek_stands _ _ _ _ A2) as SP. fold (pty eof st2).
      assert (FAIL : exists r st' a b es cs,
         @Ok Empty_set _ (VOk (VTable l_par l (EndNone (match rev l with a :: _ => ia_end a | [] => pos_plus l_par 1 end))),
             perr st2 (EExpectedRightCurlyFound (token_fmt_str (ppeek eof st2)) l_par (token_span (ppeek eof st2)))) = Ok (r, st') /\
         goes st pre ts st' a b es cs /\ body_post level pre a b es cs st' r table_body).
      { eexists _, _, _, b2, _, _. split; [reflexivity|]. split; [eapply goes_err; [exact G2|eapply err_ok_found; [exact SP|auto|exact CL]]|]. cbn [body_post]. split.
        - apply node_table. split; [exact CL|]. split; [|exact AO]. eapply last_end_t; [exact AO|exact CL].
        - intros H. apply app_eq_nil in H as [_ H]. discriminate. }
      destruct (pty eof st2) eqn:PT; try exact FAIL. clear FAIL.
      destruct (peek_punct input st2 _ _ TCurlyRight 125 A2) as (w & r & E5 & B5 & PK & CH & G5 & _). { rewrite PT. reflexivity. }
      pose proof (goes_trans _ _ _ _ _ _ _ _ _ _ _ _ _ _ G2 G5) as G25.
      eexists _, _, _, r, _, _. split; [reflexivity|]. split; [exact G25|]. cbn [body_post]. split.
      + apply node_table. split; [exact CL|]. split; [exact CH|exact AO].
      + rewrite !app_nil_r. intros EN V. apply Forall_app in V as [V _]. destruct (GR EN V) as (-> & H & _).
        split; [rewrite comments_of_app, punct_comments, app_nil_r by exact B5; reflexivity|].
        destruct H as [(_ & -> & ->)|(news & fs & -> & AS & GF & NS)].
        * exists (TvTab []). split; [|split; [reflexivity|apply nest_tab; [exact LV|constructor]]]. exists w, []. split; [reflexivity|]. split; [reflexivity|]. right. auto.
        * exists (TvTab fs). split; [|split; [|apply nest_tab; [exact LV|exact NS]]].
          -- exists (a2 ++ w), fs. split; [assoc|]. split; [reflexivity|]. left. apply GF, B5.
          -- cbn [val_of closed app]. rewrite AS. reflexivity.
  Qed.

  (** ** A value that starts with a dot *)
  Lemma dot_value_sound st pre ts : at_ st pre ts -> pty eof st = IDot ->
    exists r st' a b es cs, parse_dot_value input eof st (ppeek eof st) = Ok (r, st') /\ goes st pre ts st' a b es cs /\ es <> [] /\
      match r with VOk v => has_item a /\ lit_ok input v | VErr e => err_ok input e /\ forall p, e <> ERecursionLimitExceeded p end.
  Proof.
    intros A PT. pose proof (peek_stands _ _ _ _ A) as SP.
    destruct (peek_punct input st _ _ TDot 46 A) as (w & r & E5 & B5 & PK & CH & G5 & IN). { rewrite PT. reflexivity. }
    unfold parse_dot_value. set (t := ppeek eof st) in *. set (P := pre ++ source w) in *.
    assert (EO : err_ok input (EUnexpectedLiteralStart 46 (i_start t))) by (rewrite PK; apply (err_ok_char input _ P 46 (source r) IN); [discriminate|reflexivity|reflexivity|reflexivity|reflexivity]).
    assert (G1 := goes_err _ _ _ _ _ _ _ _ _ _ G5 EO). cbn [app] in G1. set (st1 := perr (padv st) _) in *.
    pose proof (goes_at _ _ _ _ _ _ _ _ _ G1) as A1.
    assert (FAIL : exists r0 st' a b es cs, @Ok Empty_set _ (VErr (EExpectedValueFound (token_fmt_str t) (token_span t)), st1) = Ok (r0, st') /\ goes st pre ts st' a b es cs /\ es <> [] /\
      match r0 with VOk v => has_item a /\ lit_ok input v | VErr e => err_ok input e /\ forall p, e <> ERecursionLimitExceeded p end).
    { eexists _, st1, _, r, _, _. split; [reflexivity|]. split; [exact G1|]. split; [discriminate|]. split; [eapply err_ok_found; [exact SP|auto|reflexivity]|discriminate]. }
    cbv zeta. change (i_ty (ppeek eof st1)) with (pty eof st1). destruct (pty eof st1) as [s|l|c| | | | | | | | |] eqn:P1; try exact FAIL.
    destruct (word_run input _ _ _ _ A1 P1) as (w2 & s & u & b & -> & B & W & NRb & PK2 & ->). rewrite PK2. cbn [i_start].
    assert (ES : pre ++ source (w ++ [(XPunct TDot, [46])]) = P ++ [46]) by (rewrite source_app; subst P; assoc).
    rewrite ES in *. assert (NS : no_lf [46]) by (intros [H|[]]; discriminate).
    rewrite PK. rewrite (pos_plus_text P [46]) by auto.
    destruct (at_split _ _ _ _ _ A1) as (SW & SW2 & _ & IN2).
    assert (W0 : pos_eqb (pos_at ((P ++ [46]) ++ source w2)) (pos_at (P ++ [46])) = false \/ w2 = []).
    { destruct w2 as [|y w2]; [right; reflexivity|left]. apply (pos_eqb_lt _ _). apply pos_at_lt.
      destruct y as [y s']. pose proof (shape_nonempty _ _ (Forall_inv SW)) as NE. rewrite source_cons. destruct s'; [congruence|discriminate]. }
    destruct W0 as [-> | ->]; [exact FAIL|]. clear FAIL. change (source []) with (@nil N) in *. rewrite app_nil_r in *.
    replace (pos_eqb (pos_at (P ++ [46])) (pos_at (P ++ [46]))) with true by (symmetry; apply pos_eqb_eq; reflexivity).
    cbn [app] in *. rewrite source_cons in IN2.
    assert (EF : extend_str_front input (mkref (tlen (P ++ [46])) s) 1 = Ok (mkref (tlen P) ([46] ++ s))).
    { unfold extend_str_front. cbn [sr_off sr_text]. rewrite usub_le by (rewrite tlen_app; change (tlen [46]) with 1; lia). cbn [bind].
      replace (tlen (P ++ [46]) - 1) with (tlen P) by (rewrite tlen_app; change (tlen [46]) with 1; lia).
      apply (slice_eq input P ([46] ++ s) (source (u ++ b))); [rewrite IN2; assoc|reflexivity|]. rewrite !tlen_app. lia. }
    rewrite EF. cbn [bind sr_text].
    assert (NLS := word_no_lf _ (proj2 (Forall_inv SW2))).
    replace (span_from_pos_len (pos_at P) (tlen s + 1)) with (sp_of P ([46] ++ s)).
    2: { unfold sp_of, span_from_pos_len. rewrite (pos_plus_text P ([46] ++ s)); [reflexivity|apply no_lf_app; auto|]. rewrite tlen_app. change (tlen [46]) with 1. lia. }
    assert (G2 := goes_padv input st1 (P ++ [46]) [] XWord s (u ++ b) A1 ltac:(constructor) ltac:(discriminate) ltac:(discriminate)).
    pose proof (goes_at _ _ _ _ _ _ _ _ _ G2) as A2. cbn [app] in A2.
    replace ((P ++ [46]) ++ source [(XWord, s)]) with (P ++ [46] ++ s) in A2 by (rewrite source_cons; cbn; rewrite app_nil_r; assoc).
    destruct A2 as (I2 & SH2 & Q2 & E2 & PV2).
    destruct (combine_eq input u P ([46] ++ s) b (pc_prev (ps_cur (padv st1))) PV2) as (prev' & PV' & R);
      [rewrite IN2; assoc|exact SH2|exact W|exact NRb|apply no_lf_app; auto|].
    unfold combine_adjacent. rewrite E2. rw_combine R. cbn [bind].
    eexists _, _, ((w ++ [(XPunct TDot, [46])]) ++ (XWord, s) :: u), b, [EUnexpectedLiteralStart 46 (pos_at P)], []. split; [reflexivity|].
    apply Forall_app in SH2 as [SU SB].
    split; [|split; [discriminate|split; [apply punct_item|]]].
    - destruct G1 as (H1 & H2 & H3 & H4 & H5 & H6). split; [rewrite E5; assoc|]. split.
      + split; [rewrite IN2, !source_app, !source_cons; change (source []) with (@nil N); subst P; assoc|]. split; [exact SB|]. split; [apply (all_separated_tail u), Q2|].
        cbn [set_pcur ps_cur pc_rest pc_prev]. split; [|exact PV']. f_equal. rewrite !source_app, !source_cons. change (source []) with (@nil N). subst P. assoc.
      + subst t. rewrite PK in H3. split; [exact H3|]. split; [rewrite app_nil_r; reflexivity|]. split; [constructor|]. rewrite PK in H6. exact H6.
    - cbn [lit_ok]. apply placed_of with (b := source b). rewrite IN2, source_app. assoc.
  Qed.

  (** ** Values *)
  Lemma jump_goes st pre ts : at_ st pre ts -> goes st pre ts (jump_to_end st) ts [] [] [].
  Proof.
    intros (IN & SH & SEP & E & PV). split; [rewrite app_nil_r; reflexivity|]. split.
    - split; [rewrite app_nil_r; exact IN|]. split; [constructor|]. split; [exact I|]. split; [reflexivity|].
      unfold jump_to_end. cbn [set_pcur ps_cur pc_prev]. rewrite E. revert PV. generalize (pc_prev (ps_cur st)). clear - IN.
      revert pre IN. induction ts as [|[x s] ts IH]; intros pre IN o PV; [exact PV|]. rewrite source_cons in IN.
      assert (IN' : input = (pre ++ s) ++ source ts) by (rewrite IN; assoc).
      destruct x; cbn [tile_items last_item]; apply (IH _ IN'); try exact PV; cbn [prev_in i_start]; eapply pos_in_at; exact IN.
    - rewrite !app_nil_r. split; [reflexivity|]. split; [reflexivity|]. split; constructor.
  Qed.

  Lemma parse_value_sound : forall depth level, level <= 100 -> 101 <= level + N.of_nat depth -> inner_ok (parse_value input eof depth level) level.
  Proof.
    induction depth as [|depth IH]; intros level LV DP st pre ts A; [cbn in DP; lia|]. cbn [parse_value].
    pose proof (peek_stands _ _ _ _ A) as SP. change (i_ty (ppeek eof st)) with (pty eof st).
    assert (FAIL : exists r st' a b es cs, @Ok Empty_set _ (VErr (EExpectedValueFound (token_fmt_str (ppeek eof st)) (token_span (ppeek eof st))), st) = Ok (r, st') /\ goes st pre ts st' a b es cs /\
      val_post input level pre a b es cs st' r).
    { eexists _, st, [], ts, [], []. split; [reflexivity|]. split; [apply goes_refl; exact A|]. split; [eapply err_ok_found; [exact SP|auto|reflexivity]|discriminate]. }
    destruct (pty eof st) as [s|l|c| | | | | | | | |] eqn:PT; try exact FAIL; clear FAIL.
    - (* string *)
      unfold pty in PT. destruct (peek_cases input st pre ts A) as [(B & PK & _)|(w & x & s0 & r & -> & B & NX & SH & PK & IN)]; rewrite PK in PT |- *; [discriminate|].
      cbn [i_ty i_start] in *. destruct x as [| |[]| | |q text off]; cbn [item_ty] in PT; try discriminate. injection PT as <-. cbn [st_lit st_lit_end st_text st_offset st_quote].
      eexists _, _, _, r, [], []. split; [reflexivity|]. split; [apply goes_padv; [exact A|exact B|discriminate|discriminate]|]. cbn [val_post].
      split; [apply has_item_r; intros H; apply Forall_inv in H; discriminate H|]. split.
      + cbn [ParsePlace.node_ok lit_ok]. split; [apply (placed_of input _ _ _ IN)|exact SH].
      + intros _ V. split.
        * symmetry. apply inline_no_comments. apply Forall_app. split; [apply blanks_inline, B|]. constructor; [split; discriminate|constructor].
        * eexists w, [_], (TvStr text). split; [reflexivity|]. split; [exact B|]. split; [apply gv_string|]. split; [reflexivity|]. cbn [nest]. lia.
    - (* literal *)
      destruct (word_run input _ _ _ _ A PT) as (w & s & u & b & -> & B & W & NRb & PK & ->).
      destruct (literal_value_goes input st pre w s u b A B W NRb) as (v & st' & a & c & es & -> & G & ST & HI & PL & GR). cbn [bind].
      eexists _, st', a, c, es, []. split; [reflexivity|]. split; [exact G|]. cbn [val_post]. split; [exact HI|]. split; [apply lit_node, PL|].
      intros EN V. destruct (GR EN) as (vt & tv & -> & GV & VOF & NE). split.
      + symmetry. apply inline_no_comments. apply Forall_app. split; [apply blanks_inline, B|]. eapply scalar_inline; eassumption.
      + exists w, vt, tv. split; [reflexivity|]. split; [exact B|]. split; [exact GV|]. split; [exact VOF|]. lia.
    - (* array *)
      destruct (peek_punct input st _ _ TSquareLeft 91 A) as (w & r & E5 & B5 & PK & CH & G5 & IN). { rewrite PT. reflexivity. }
      pose proof (goes_at _ _ _ _ _ _ _ _ _ G5) as A5. unfold recursion_limit. destruct (N.leb_spec 100 level).
      + pose proof (goes_trans _ _ _ _ _ _ _ _ _ _ _ _ _ _ G5 (jump_goes _ _ _ A5)) as GJ.
        eexists _, _, _, [], _, _. split; [reflexivity|]. split; [exact GJ|]. split; [|reflexivity].
        rewrite PK. eapply err_ok_char; [exact IN|discriminate|reflexivity|reflexivity|cbn [parse_says]; auto|reflexivity].
      + destruct (parse_array_sound (parse_value input eof depth (level + 1)) level (i_start (ppeek eof st)) (padv st) _ r ltac:(apply IH; lia) H A5 CH) as (res & st' & a & b & es & cs & -> & G & POST).
        pose proof (goes_trans _ _ _ _ _ _ _ _ _ _ _ _ _ _ G5 G) as G6. cbn [app] in G6. eexists _, st', _, b, es, cs. split; [reflexivity|]. split; [exact G6|].
        destruct res as [v|e]; cbn [val_post body_post] in *; [|exact POST]. destruct POST as [NO GR]. split; [apply punct_item|]. split; [exact NO|].
        intros EN V. apply Forall_app in V as [_ V]. destruct (GR EN V) as (-> & tv & (tb & vs & -> & GE & ->) & VOF & NE).
        split; [rewrite (comments_of_app pre (w ++ _)), (punct_comments pre w) by exact B5; reflexivity|].
        exists w, ((XPunct TSquareLeft, [91]) :: tb ++ [(XPunct TSquareRight, [93])]), (TvArr vs). split; [assoc|]. split; [exact B5|].
        split; [apply gv_array; [reflexivity|reflexivity|exact GE]|]. auto.
    - (* inline table *)
      destruct (peek_punct input st _ _ TCurlyLeft 123 A) as (w & r & E5 & B5 & PK & CH & G5 & IN). { rewrite PT. reflexivity. }
      pose proof (goes_at _ _ _ _ _ _ _ _ _ G5) as A5. unfold recursion_limit. destruct (N.leb_spec 100 level).
      + pose proof (goes_trans _ _ _ _ _ _ _ _ _ _ _ _ _ _ G5 (jump_goes _ _ _ A5)) as GJ.
        eexists _, _, _, [], _, _. split; [reflexivity|]. split; [exact GJ|]. split; [|reflexivity].
        rewrite PK. eapply err_ok_char; [exact IN|discriminate|reflexivity|reflexivity|cbn [parse_says]; auto|reflexivity].
      + destruct (parse_table_sound (parse_value input eof depth (level + 1)) level (i_start (ppeek eof st)) (padv st) _ r ltac:(apply IH; lia) H A5 CH) as (res & st' & a & b & es & cs & -> & G & POST).
        pose proof (goes_trans _ _ _ _ _ _ _ _ _ _ _ _ _ _ G5 G) as G6. cbn [app] in G6. eexists _, st', _, b, es, cs. split; [reflexivity|]. split; [exact G6|].
        destruct res as [v|e]; cbn [val_post body_post] in *; [|exact POST]. destruct POST as [NO GR]. split; [apply punct_item|]. split; [exact NO|].
        intros EN V. apply Forall_app in V as [_ V]. destruct (GR EN V) as (-> & tv & (tb & fs & -> & -> & GE) & VOF & NE).
        split; [rewrite (comments_of_app pre (w ++ _)), (punct_comments pre w) by exact B5; reflexivity|].
        exists w, ((XPunct TCurlyLeft, [123]) :: tb ++ [(XPunct TCurlyRight, [125])]), (TvTab fs). split; [assoc|]. split; [exact B5|].
        split; [destruct GE as [GE|[GE ->]]; [apply gv_table|apply gv_empty_table]; (reflexivity || exact GE)|]. auto.
    - (* dot *)
      destruct (dot_value_sound st pre ts A PT) as (r & st' & a & b & es & cs & -> & G & NE & POST).
      eexists r, st', a, b, es, cs. split; [reflexivity|]. split; [exact G|]. destruct r as [v|e]; cbn [val_post].
      + destruct POST as [HI PL]. split; [exact HI|]. split; [apply lit_node, PL|]. contradiction.
      + destruct POST as [EO NR]. split; [exact EO|]. intros p E. destruct (NR p E).
  Qed.
End Value.
