(** Consequences for literals: overflow, leading zeros, underscores, strict
    date-times. *)
From Verif Require Import Base BaseProofs CommonModel TomlError LitModel LitSpec LitNum LitInt LitWhole LitDate LitErr.
Ltac Zify.zify_post_hook ::= Z.div_mod_to_equations.

(** ** Overflow *)
Lemma dec_loop_overflow lit sp sg : forall rest acc ovf lu i ds,
  (0 <= szn sg * acc)%Z -> in_i64 acc = true -> cont decimal lu rest ds ->
  ovf = true \/ in_i64 (zval (szn sg) acc ds) = false ->
  dec_loop lit sp sg acc ovf lu i rest = Err (EIntLiteralOverflow sp).
Proof.
  induction rest as [|c r IH]; intros acc ovf lu i ds A R H O.
  - apply cont_nil in H as [-> ->]. cbn [dec_loop]. destruct O as [->|O]; [reflexivity|].
    cbn in O. congruence.
  - destruct (is_digit c) eqn:D.
    + cbn [dec_loop]. rewrite D. cbv zeta. apply is_digit_iff in D.
      apply cont_digit in H as (ds' & -> & H); [|exact dec95|assumption].
      destruct ovf; [eapply IH; eauto|]. fold (szn sg).
      destruct (in_i64 (acc * 10) && in_i64 (acc * 10 + szn sg * Z.of_N (c - 48))) eqn:Q; [|eapply IH; eauto].
      apply andb_prop in Q as [_ Q]. eapply IH; [|exact Q|exact H|].
      * destruct (szn_cases sg) as [S|S]; rewrite S in *; lia.
      * destruct O as [O|O]; [discriminate|right; exact O].
    + assert (ND : ~ decimal c) by (rewrite <- is_digit_iff; congruence).
      destruct (N.eq_dec c 95) as [->|U]; [|exfalso; exact (cont_other decimal _ _ _ _ ND U H)].
      rewrite dec_score. apply cont_score in H as [-> H]; [|exact dec95]. eapply IH; eauto.
Qed.

Theorem dec_overflow lit sp z : dec_int lit z -> in_i64 z = false -> parse_literal lit sp = Err (EIntLiteralOverflow sp).
Proof.
  intros H O. destruct H as [s neg t ds S U NZ]. apply sign_text_opt in S as (sg & S).
  assert (s = fst (sign_opt sg)) as -> by (rewrite S; reflexivity).
  assert (neg = snd (sign_opt sg)) as -> by (rewrite S; reflexivity).
  inversion U as [d r ds' D C]; subst.
  destruct (parse_literal_digit sg d r sp D) as (i & ->).
  destruct (d =? 48) eqn:E.
  - exfalso. apply N.eqb_eq in E. subst d. destruct (us_zero _ _ U NZ _ eq_refl) as [-> E].
    rewrite E in O. destruct sg as [[]|]; discriminate.
  - unfold parse_decimal_int_float_or_date. cbn [fst snd]. fold (szn sg). unfold decimal in D.
    apply (dec_loop_overflow _ _ _ _ _ _ _ _ ds').
    + destruct (szn_cases sg) as [Q|Q]; rewrite Q; lia.
    + apply in_i64_iff. unfold i64_min, i64_max. destruct (szn_cases sg) as [Q|Q]; rewrite Q; lia.
    + exact C.
    + right. rewrite <- O. f_equal. rewrite signed_szn, Z.mul_comm, zval_dec by apply szn_cases. reflexivity.
Qed.

(** ** Leading zeros *)
Lemma us_chars P t ds : us P t ds -> forall c, In c t -> P c \/ c = 95.
Proof.
  intros H. inversion H as [d r ds' D C]; subst. clear H. intros c [<-|I]; [auto|].
  induction C as [|x t ds X C IH|x t ds X C IH]; cbn [In] in I; [contradiction| |].
  - destruct I as [<-|I]; auto.
  - destruct I as [<-|[<-|I]]; auto.
Qed.
Lemma us_head P t ds : us P t ds -> exists d r, t = d :: r /\ P d.
Proof. intros H. inversion H; subst. eauto. Qed.

Lemma dtlit_sep lit v : dtlit lit v -> exists c r, decimal c /\ lit = c :: r /\ (In 45 r \/ In 58 r).
Proof.
  intros H. destruct (dtlit_starts _ _ H) as (c & r & D & E). exists c, r. split; [assumption|]. split; [assumption|].
  assert (I : In 45 lit \/ In 58 lit).
  { destruct H as [yt y s v Y _|ht h s m sec n _ _ M].
    - left. apply in_app_iff. right. left. reflexivity.
    - right. apply in_app_iff. right. apply min_sec_colon in M as (r' & ->). left. reflexivity. }
  rewrite E in I. unfold decimal in D. destruct I as [[I|I]|[I|I]]; auto; lia.
Qed.

Theorem leading_zero p sg neg t ds : sign_text sg neg -> us decimal (48 :: t) ds -> t <> [] ->
  rejected (parse_literal (sg ++ 48 :: t) (lit_span p (sg ++ 48 :: t))).
Proof.
  intros S U NE. set (lit := sg ++ 48 :: t). set (sp := lit_span p lit).
  assert (NEL : lit <> []) by (subst lit; destruct sg; discriminate).
  assert (CH : forall c, In c lit -> decimal c \/ c = 95 \/ c = 43 \/ c = 45).
  { intros c I. subst lit. apply in_app_iff in I as [I|I].
    - destruct S; cbn in I; intuition.
    - apply (us_chars _ _ _ U) in I. intuition. }
  assert (SG : sg = [] \/ sg = [43] \/ sg = [45]) by (destruct S; auto).
  pose proof (good_literal lit p NEL) as G. fold sp in G. unfold rejected.
  destruct (parse_literal lit sp) as [v|e|] eqn:E; [|eauto|contradiction].
  destruct v as [f|z|b|d|d|e]; [| | | | |right; eauto]; exfalso.
  - apply float_literals in E.
    assert (F : exists c, In c lit /\ (c = 46 \/ c = 101 \/ c = 69 \/ c = 110)).
    { destruct E as [E|E].
      - destruct E as [s n it ids ft fds et ev S' U' NZ F X NN|s n S'|s n S'].
        + destruct F as [|ft fds UF].
          * destruct X as [|e sg' ng t' ds' C S'' U'']; [destruct NN; congruence|].
            exists e. split; [|tauto]. rewrite !in_app_iff. right. right. right. left. reflexivity.
          * exists 46. split; [|tauto]. rewrite !in_app_iff. right. right. left. left. reflexivity.
        + exists 110. split; [|tauto]. rewrite !in_app_iff. right. cbn. tauto.
        + exists 110. split; [|tauto]. rewrite !in_app_iff. right. cbn. tauto.
      - exists 110. split; [|tauto]. destruct E; cbn; tauto. }
    destruct F as (c & I & C). apply CH in I. unfold decimal in I. lia.
  - apply int_literals in E as [(E & _)|(v & E & _)].
    + subst lit. remember (sg ++ 48 :: t) as l eqn:L. destruct E as [s n t' ds' S' U' NZ].
      destruct (us_head _ _ _ U') as (d & r & -> & D). unfold decimal in D.
      assert (K : d = 48 /\ r = t).
      { destruct S', SG as [-> |[-> | ->]]; cbn [app] in L; try (injection L as ? ?; split; [lia|assumption]);
          injection L as ?; lia. }
      destruct K as [-> ->]. destruct NZ as [NZ|NZ]; [congruence|]. cbn in NZ. congruence.
    + subst lit. remember (sg ++ 48 :: t) as l eqn:L. destruct E as [pf t' ds' vs U' F].
      destruct SG as [-> |[-> | ->]]; cbn [app] in L; try discriminate.
      injection L as L. assert (I : In (radix_letter pf) (48 :: t)) by (rewrite <- L; right; left; reflexivity).
      apply (us_chars _ _ _ U) in I. unfold decimal in I. destruct pf; cbn in I; lia.
  - apply bool_literals in E. assert (I : In 101 lit) by (destruct E; cbn; tauto). apply CH in I. unfold decimal in I. lia.
  - apply datetime_values in E; [|left; eauto]. apply dtlit_sep in E as (c & r & D & E & I). unfold decimal in D.
    subst lit. destruct SG as [-> |[-> | ->]]; cbn [app] in E; injection E as <- E; try lia.
    assert (J : In 45 (48 :: t) \/ In 58 (48 :: t)) by (rewrite E; cbn; tauto).
    destruct J as [J|J]; apply (us_chars _ _ _ U) in J; unfold decimal in J; lia.
  - apply datetime_values in E; [|right; eauto]. apply dtlit_sep in E as (c & r & D & E & I). unfold decimal in D.
    subst lit. destruct SG as [-> |[-> | ->]]; cbn [app] in E; injection E as <- E; try lia.
    assert (J : In 45 (48 :: t) \/ In 58 (48 :: t)) by (rewrite E; cbn; tauto).
    destruct J as [J|J]; apply (us_chars _ _ _ U) in J; unfold decimal in J; lia.
Qed.

(** ** Prefixed integers *)
Lemma wrap_small n : n < 9223372036854775808 -> wrap_i64 (Z.of_N n) = Z.of_N n.
Proof. intros H. unfold wrap_i64. lia. Qed.

(** ** Underscores *)
Lemma btw_app P l1 l2 : btw P l1 -> btw P l2 -> btw P (l1 ++ l2).
Proof.
  intros H1 H2 a b E. apply app_eq_app in E as (l & [(-> & E)|(-> & E)]).
  - destruct l as [|c l].
    + cbn [app] in E. destruct (H2 [] b (eq_sym E)) as (a' & x & y & b' & X & _). destruct a'; discriminate.
    + cbn [app] in E. injection E as <- ->. destruct (H1 a l eq_refl) as (a' & x & y & b' & -> & -> & X & Y).
      exists a', x, y, (b' ++ l2). auto.
  - destruct (H2 l b E) as (a' & x & y & b' & -> & -> & X & Y). exists (l1 ++ a'), x, y, b'. rewrite app_assoc. auto.
Qed.
Lemma btw_none P l : ~ In 95 l -> btw P l.
Proof. intros H a b ->. exfalso. apply H, in_app_iff. right. left. reflexivity. Qed.
Lemma btw_us P t ds : ~ P 95 -> us P t ds -> btw P t.
Proof.
  intros N5 H. inversion H as [d r ds' D C]; subst. clear H.
  revert d D. induction C as [|x t ds X C IH|x t ds X C IH]; intros d D.
  - apply btw_none. intros [I|[]]. subst. contradiction.
  - intros a b E. destruct a as [|a0 a]; cbn [app] in E; [injection E as -> _; contradiction|]. injection E as <- E.
    destruct (IH x X a b E) as (a' & u & v & b' & -> & -> & U & V). exists (d :: a'), u, v, b'. auto.
  - intros a b E. destruct a as [|a0 a]; cbn [app] in E; [injection E as -> _; contradiction|]. injection E as <- E.
    destruct a as [|a1 a]; cbn [app] in E.
    + injection E as <-. exists [], d, x, t. auto.
    + injection E as <- E. destruct (IH x X a b E) as (a' & u & v & b' & -> & -> & U & V).
      exists (d :: 95 :: a'), u, v, b'. auto.
Qed.
Lemma us_clean P t ds : ~ P 95 -> us P t ds -> us P ds ds.
Proof.
  intros N5 H. destruct (us_decimal P t ds N5 H) as [NE F]. destruct ds as [|d ds]; [congruence|].
  inversion F as [|? ? D F']; subst. constructor; [assumption|]. clear -F'. induction F'; constructor; assumption.
Qed.

Lemma sign_no95 sg neg : sign_text sg neg -> ~ In 95 sg.
Proof. destruct 1; cbn; intuition lia. Qed.

Lemma hd_clean t ds : us decimal t ds -> no_leading_zero t -> no_leading_zero ds.
Proof.
  intros U [->|H].
  - inversion U as [? ? ds' D C]; subst. inversion C; subst. left; reflexivity.
  - inversion U; subst. right. exact H.
Qed.

Theorem underscores lit sp v : parse_literal lit sp = Ok v -> number v ->
  between_digits lit /\ parse_literal (filter nous lit) sp = Ok v.
Proof.
  intros H [(z & ->)|(f & ->)].
  - apply int_literals in H as [(E & R)|(v & E & ->)].
    + destruct E as [s n t ds S U NZ]. split.
      * left. apply btw_app; [apply btw_none; eapply sign_no95; eassumption|eapply btw_us; [exact dec95|eassumption]].
      * apply int_literals. left. split; [|assumption].
        rewrite filter_app, (sign_filter _ _ S), (us_filter decimal dec95 _ _ U : filter nous t = ds).
        constructor; [assumption|eapply us_clean; [exact dec95|eassumption]|eapply hd_clean; eassumption].
    + destruct E as [pf t ds vs U F]. split.
      * right. exists pf, t. split; [reflexivity|].
        change (48 :: radix_letter pf :: t) with ([48; radix_letter pf] ++ t). apply btw_app.
        -- apply btw_none. destruct pf; cbn; intuition lia.
        -- eapply btw_us; [apply rdig95|exact U].
      * apply int_literals. right. exists (radix_value pf 0 vs). split; [|reflexivity].
        assert (Q : filter nous (48 :: radix_letter pf :: t) = 48 :: radix_letter pf :: ds).
        { rewrite <- (us_filter (rdig pf) (rdig95 pf) _ _ U). destruct pf; reflexivity. }
        rewrite Q. econstructor; [|eassumption]. eapply us_clean; [apply rdig95|exact U].
  - apply float_literals in H as [E|E].
    + destruct E as [s n it ids ft fds et ev S U NZ F X NN|s n S|s n S].
      * split.
        -- left. apply btw_app; [apply btw_none; eapply sign_no95; eassumption|].
           apply btw_app; [eapply btw_us; [exact dec95|eassumption]|]. apply btw_app.
           ++ destruct F as [|t ds UF]; [apply btw_none; auto|]. apply (btw_app decimal [46]); [apply btw_none; cbn; intuition lia|].
              eapply btw_us; [exact dec95|eassumption].
           ++ destruct X as [|e sg neg t ds C SX UX]; [apply btw_none; auto|].
              apply (btw_app decimal [e]); [apply btw_none; cbn; intuition lia|].
              apply btw_app; [apply btw_none; eapply sign_no95; eassumption|eapply btw_us; [exact dec95|eassumption]].
        -- apply float_literals. left.
           rewrite !filter_app, (sign_filter _ _ S), (us_filter decimal dec95 _ _ U : filter nous it = ids).
           assert (F' : frac_text (filter nous ft) fds /\ (ft <> [] -> filter nous ft <> [])).
           { destruct F as [|t ds UF]; [split; [constructor|auto]|].
             change (filter nous (46 :: t)) with (46 :: filter nous t). rewrite (us_filter decimal dec95 _ _ UF : filter nous t = ds).
             split; [constructor; eapply us_clean; [exact dec95|eassumption]|discriminate]. }
           assert (X' : exp_text (filter nous et) ev /\ (et <> [] -> filter nous et <> [])).
           { destruct X as [|e sg neg t ds C SX UX]; [split; [constructor|auto]|].
             cbn [filter]. replace (nous e) with true by (unfold nous; destruct C; subst; reflexivity).
             rewrite filter_app, (sign_filter _ _ SX), (us_filter decimal dec95 _ _ UX : filter nous t = ds).
             split; [constructor; auto; eapply us_clean; [exact dec95|eassumption]|discriminate]. }
           constructor; [assumption|eapply us_clean; [exact dec95|eassumption]|eapply hd_clean; eassumption|apply F'|apply X'|].
           destruct NN as [NN|NN]; [left; apply F'; assumption|right; apply X'; assumption].
      * split.
        -- left. apply btw_app; apply btw_none; [eapply sign_no95; eassumption|]. cbn. intuition lia.
        -- apply float_literals. left. rewrite filter_app, (sign_filter _ _ S). apply (tf_inf s n S).
      * split.
        -- left. apply btw_app; apply btw_none; [eapply sign_no95; eassumption|]. cbn. intuition lia.
        -- apply float_literals. left. rewrite filter_app, (sign_filter _ _ S). apply (tf_nan s n S).
    + split; [left; apply btw_none; destruct E; cbn; intuition lia|].
      apply float_literals. right. destruct E; constructor.
Qed.

(** ** Strict date-times *)
Lemma strict_lenient lit d : toml_datetime lit d -> lenient_datetime lit d.
Proof.
  destruct 1 as [yt d Y V|yt d sep tx t Y V S T|yt d sep tx t ox o g Y V S T O G|ht h mt m s n H L M].
  - apply dw_date; auto.
  - apply dw_local; auto.
  - apply dw_offset; auto.
  - apply dw_time; auto.
Qed.

Lemma us_cont_no95 P t ds : us_cont P t ds -> ~ In 95 t -> t = ds.
Proof.
  induction 1 as [|x t ds X C IH|x t ds X C IH]; intros N5; [reflexivity| |].
  - f_equal. apply IH. intros I. apply N5. right. assumption.
  - exfalso. apply N5. left. reflexivity.
Qed.
Lemma underscored_no95 len t n : underscored len t n -> ~ In 95 t -> Forall decimal t /\ n = dec_val t /\ length t = len.
Proof.
  intros (L & d & r & ds & -> & D & [U|(r' & -> & U)] & ->) N5.
  - assert (r = ds) as <- by (eapply us_cont_no95; [eassumption|intros I; apply N5; right; assumption]).
    split; [|auto]. constructor; [unfold decimal; lia|].
    destruct (cont_digits decimal dec95 false r r U) as [F _]. exact F.
  - exfalso. apply N5. right. apply in_app_iff. right. left. reflexivity.
Qed.
Lemma lyear_strict t y : lyear t y -> ~ In 95 t -> y <= 9999 /\ t = four y.
Proof.
  intros [H|H] N5; [assumption|]. destruct (underscored_no95 _ _ _ H N5) as (F & -> & L).
  destruct t as [|a [|b [|c [|d [|x t]]]]]; try discriminate.
  inversion F as [|? ? A F1]; subst. inversion F1 as [|? ? B F2]; subst. inversion F2 as [|? ? C F3]; subst. inversion F3 as [|? ? D F4]; subst.
  unfold dec_val, val_acc, digit_val. cbn [fold_left]. split; [unfold decimal in *; lia|].
  rewrite <- (four_digits a b c d) by assumption. f_equal; lia.
Qed.
Lemma lhour_strict t y : lhour t y -> ~ In 95 t -> y < 100 /\ t = two y.
Proof.
  intros [H|H] N5; [assumption|]. destruct (underscored_no95 _ _ _ H N5) as (F & -> & L).
  destruct t as [|a [|b [|x t]]]; try discriminate.
  inversion F as [|? ? A F1]; subst. inversion F1 as [|? ? B F2]; subst.
  unfold dec_val, val_acc, digit_val. cbn [fold_left]. split; [unfold decimal in *; lia|].
  rewrite <- (two_inj a b) by assumption. f_equal; lia.
Qed.

Lemma lenient_strict lit d : lenient_datetime lit d -> ~ In 95 lit ->
  exists l g, lit = l ++ g /\ toml_datetime l d /\ (g <> [] -> exists x t o, d = OffsetDateTime x t o).
Proof.
  intros H N5. destruct H as [yt d Y V|yt d sep tx t Y V S T|yt d sep tx t ox o g Y V S T O G|ht h mt m s n H L M].
  - eexists _, []. split; [symmetry; apply app_nil_r|]. split; [|congruence].
    apply dw_date; [|assumption]. apply lyear_strict; [exact Y|]. intros I. apply N5, in_app_iff. auto.
  - eexists _, []. split; [symmetry; apply app_nil_r|]. split; [|congruence].
    apply dw_local; auto. apply lyear_strict; [exact Y|]. intros I. apply N5, in_app_iff. auto.
  - exists (yt ++ [45] ++ two (dt_month d) ++ [45] ++ two (dt_day d) ++ [sep] ++ tx ++ ox), g.
    split; [rewrite <- !app_assoc; reflexivity|]. split; [|eauto].
    rewrite <- (app_nil_r ox). apply dw_offset; auto. apply lyear_strict; [exact Y|]. intros I. apply N5, in_app_iff. auto.
  - eexists _, []. split; [symmetry; apply app_nil_r|]. split; [|congruence].
    apply dw_time; auto. apply lhour_strict; [exact H|]. intros I. apply N5, in_app_iff. auto.
Qed.

(** Every accepted date-time is a valid calendar value, whatever its text. *)
Lemma subsec_lt ft n : subsec_text ft n -> n < 1000000000.
Proof.
  destruct 1 as [|ds NE F]; [lia|].
  assert (F9 : Forall decimal (firstn 9 (ds ++ repeat 48 9))).
  { rewrite Forall_forall in *. intros c I. assert (J : In c (ds ++ repeat 48 9)).
    { revert I. generalize (ds ++ repeat 48 9). generalize 9%nat. clear. intros n l. revert n. induction l; intros [|n]; cbn; intuition eauto. }
    apply in_app_iff in J as [J|J]; [auto|]. apply repeat_spec in J. subst. unfold decimal. lia. }
  pose proof (val_acc_lt _ F9 0) as L. fold (dec_val (firstn 9 (ds ++ repeat 48 9))) in L.
  rewrite firstn_length, app_length, repeat_length in L.
  replace (Nat.min 9 (length ds + 9)) with 9%nat in L by lia. exact L.
Qed.

Lemma min_sec_valid mt m s n h : h < 24 -> min_sec_text mt m s n -> valid_time (mktime h m s n).
Proof. intros H [m' s' ft n' M S F]. apply subsec_lt in F. unfold valid_time. cbn. auto. Qed.

Theorem lenient_valid lit d : lenient_datetime lit d -> valid_datetime d.
Proof.
  assert (TV : forall tx t, time_text tx t -> valid_time t).
  { intros tx t [h mt m s n L M]. eapply min_sec_valid; eassumption. }
  destruct 1 as [yt d Y V|yt d sep tx t Y V S T|yt d sep tx t ox o g Y V S T O G|ht h mt m s n H L M]; cbn; eauto.
  - split; [assumption|]. split; [eauto|]. destruct O; cbn; auto; lia.
  - eapply min_sec_valid; eassumption.
Qed.
