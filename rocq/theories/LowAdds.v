(** From a line on, the parser only adds to the tree what is on that line or below. *)
From Verif Require Import Base BaseProofs CommonModel TomlError LitModel LexModel ParseModel ParseMarks MapModel MapExt ParseCTop ParsePre LowLit LowParse LowMap.

Section Low.
  Context (input : list N) (eof : item) (L : N) (LEOF : iok L eof) (TEOF : i_ty eof = IEOF).
  Notation talow := (talow L).
  Notation astlow := (astlow L).

  Inductive more_low : ast -> ast -> Prop :=
  | ml_assign a a' : ta_assign a' = ta_assign a -> more_low (AAssign a) (AAssign a')
  | ml_table t t' l more : tb_header t' = tb_header t -> tb_assigns t' = l ++ more -> map ta_assign l = map ta_assign (tb_assigns t) -> Forall talow more -> more_low (ATable t) (ATable t')
  | ml_array t t' l more : ae_header t' = ae_header t -> ae_assigns t' = l ++ more -> map ta_assign l = map ta_assign (ae_assigns t) -> Forall talow more -> more_low (AArray t) (AArray t')
  | ml_comment c : more_low (AComment c) (AComment c).
  Inductive addl : list ast -> list ast -> Prop :=
  | al_none l : Forall astlow l -> addl [] l
  | al_more x x' l new : more_low x x' -> Forall astlow new -> addl (x :: l) (new ++ x' :: l).

  Lemma same_low : forall l l', map ta_assign l' = map ta_assign l -> Forall talow l -> Forall talow l'.
  Proof.
    induction l as [|a l IH]; intros [|a' l'] E F; try discriminate; [constructor|]. injection E as E1 E2. constructor; [|exact (IH _ E2 (Forall_inv_tail F))].
    pose proof (Forall_inv F) as H. unfold LowMap.talow in *. rewrite E1. exact H.
  Qed.
  Lemma more_low_low x x' : more_low x x' -> astlow x -> astlow x'.
  Proof.
    intros [a a' E|t t' l m H1 H2 H3 H4|t t' l m H1 H2 H3 H4|c] H; cbn [LowMap.astlow] in *.
    - unfold LowMap.talow in *. rewrite E. exact H.
    - destruct H as [K F]. split; [rewrite H1; exact K|]. rewrite H2. apply Forall_app. split; [|exact H4]. exact (same_low _ _ H3 F).
    - destruct H as [K F]. split; [rewrite H1; exact K|]. rewrite H2. apply Forall_app. split; [|exact H4]. exact (same_low _ _ H3 F).
    - exact I.
  Qed.
  Lemma ml_refl x : more_low x x.
  Proof.
    destruct x as [a|t|t|c].
    - apply ml_assign. reflexivity.
    - apply ml_table with (l := tb_assigns t) (more := []); [reflexivity|symmetry; apply app_nil_r|reflexivity|constructor].
    - apply ml_array with (l := ae_assigns t) (more := []); [reflexivity|symmetry; apply app_nil_r|reflexivity|constructor].
    - apply ml_comment.
  Qed.
  Lemma ml_trans x y z : more_low x y -> more_low y z -> more_low x z.
  Proof.
    intros H K. destruct H as [a a' E|t t' l m H1 H2 H3 H4|t t' l m H1 H2 H3 H4|c]; inversion K as [b b' F|u u' l' m' K1 K2 K3 K4|u u' l' m' K1 K2 K3 K4|c']; clear K.
    - constructor. congruence.
    - subst u z. rewrite H2, map_app in K3. destruct (map_split _ _ _ _ K3) as (a & b & -> & E1 & E2). apply ml_table with (l := a) (more := b ++ m'); [congruence|rewrite K2, app_assoc; reflexivity|congruence|].
      apply Forall_app. split; [exact (same_low _ _ E2 H4)|exact K4].
    - subst u z. rewrite H2, map_app in K3. destruct (map_split _ _ _ _ K3) as (a & b & -> & E1 & E2). apply ml_array with (l := a) (more := b ++ m'); [congruence|rewrite K2, app_assoc; reflexivity|congruence|].
      apply Forall_app. split; [exact (same_low _ _ E2 H4)|exact K4].
    - constructor.
  Qed.
  Lemma al_refl l : addl l l.
  Proof. destruct l as [|x l]; [apply al_none; constructor|]. exact (al_more x x l [] (ml_refl x) (Forall_nil _)). Qed.
  Lemma al_trans a b c : addl a b -> addl b c -> addl a c.
  Proof.
    intros [l F|x x' l new M F] H.
    - apply al_none. destruct H as [l F'|y y' l new M F']; [exact F'|]. apply Forall_app. split; [exact F'|]. constructor; [exact (more_low_low _ _ M (Forall_inv F))|exact (Forall_inv_tail F)].
    - remember (new ++ x' :: l) as bb eqn:E. destruct H as [l' F'|y y' l' new' M' F']; [destruct new; discriminate|].
      destruct new as [|z new]; cbn [app] in E; injection E as -> ->.
      + constructor; [exact (ml_trans _ _ _ M M')|exact F'].
      + change (new' ++ y' :: new ++ x' :: l) with (new' ++ (y' :: new) ++ x' :: l). rewrite app_assoc. constructor; [exact M|]. apply Forall_app. split; [exact F'|].
        constructor; [exact (more_low_low _ _ M' (Forall_inv F))|exact (Forall_inv_tail F)].
  Qed.
  Lemma al_front new l : Forall astlow new -> addl l (new ++ l).
  Proof. intros F. destruct l as [|x l]; [rewrite app_nil_r|]; constructor; auto. apply ml_refl. Qed.
  Lemma al_head x x' l : more_low x x' -> addl (x :: l) (x' :: l).
  Proof. intros M. exact (al_more x x' l [] M (Forall_nil _)). Qed.
  Lemma comments_low cs : Forall astlow (rev (map AComment cs)).
  Proof. apply Forall_rev. induction cs; constructor; [exact I|assumption]. Qed.

  Lemma al_free s free l s' l' n : place_free s free l = Ok (s', l', n) -> addl l l'.
  Proof.
    assert (D : forall l, @Ok Empty_set _ (s, rev (map AComment free) ++ l, 0) = Ok (s', l', n) -> addl l l') by (intros l0 H; injection H as _ <- _; apply al_front, comments_low).
    destruct l as [|x l]; [apply D|]. destruct x as [a|t|t|c]; cbn [place_free]; try (apply D); intros H; apply bind_ok in H as ([s1 c1] & _ & H); injection H as _ <- _; apply al_head.
    - apply ml_table with (l := tb_assigns t) (more := []); cbn; rewrite ?app_nil_r; constructor || reflexivity.
    - apply ml_array with (l := ae_assigns t) (more := []); cbn; rewrite ?app_nil_r; constructor || reflexivity.
  Qed.
  Lemma al_push a l : talow a -> addl l (push_assign a l).
  Proof.
    intros A. assert (F : Forall astlow [AAssign a]) by (constructor; [exact A|constructor]). assert (F2 : Forall talow [a]) by (constructor; [exact A|constructor]).
    destruct l as [|x l]; [exact (al_front _ [] F)|]. destruct x as [b|t|t|c]; cbn [push_assign].
    - exact (al_front [AAssign a] _ F).
    - apply al_head. apply ml_table with (l := tb_assigns t) (more := [a]); auto.
    - apply al_head. apply ml_array with (l := ae_assigns t) (more := [a]); auto.
    - exact (al_front [AAssign a] _ F).
  Qed.
  Lemma al_comment c r r' : root_comment c r = Ok r' -> addl (rt_asts r) (rt_asts r').
  Proof.
    unfold root_comment. intros E. destruct (rt_newline r); [|injection E as <-; apply al_refl].
    destruct (store_comment _ _) as [id s]. step_in E. injection E as <-. cbn [rt_asts]. destruct (rt_asts r) as [|h l]; [discriminate|].
    destruct h as [a|t|t|c0]; [| | |discriminate]; step_in Heqr0; try (destruct x0 as [c0 a0]); injection Heqr0 as <-; apply al_head.
    - constructor. reflexivity.
    - apply append_comment_same in Heqr1. apply ml_table with (l := a0) (more := []); cbn; rewrite ?app_nil_r; auto.
    - apply append_comment_same in Heqr1. apply ml_array with (l := a0) (more := []); cbn; rewrite ?app_nil_r; auto.
  Qed.
  Lemma al_header t r r' : root_header eof t r = Ok r' -> rlow L r -> L <= p_line (i_start t) -> addl (rt_asts r) (rt_asts r').
  Proof.
    unfold root_header, rlow. intros E H P. cbv zeta in E. step_in E. destruct x as [[[[la k] ra] rt] st].
    assert (K : forall k0, k = Some k0 -> keylow L k0) by exact (proj2 (proj2 (low_header eof L LEOF _ false _ _ _ _ _ _ Heqr0 (low_adv L _ _ H) P))).
    destruct (rt_newline r && _); [injection E as <-; apply al_refl|].
    step_in E. step_in E. destruct x0 as [s c]. step_in E. injection E as <-. cbn [rt_asts].
    change (x0 :: ?u ++ ?v) with ((x0 :: u) ++ v). apply al_front. constructor; [|apply comments_low].
    destruct la as [ar|]; step_in Heqr3; injection Heqr3 as <-; (split; [|constructor]); cbn [ae_header tb_header]; intros k0 K0; apply K.
    - unfold new_aheader in Heqr4. step_in Heqr4. step_in Heqr4. injection Heqr4 as <-. exact K0.
    - unfold new_theader in Heqr4. step_in Heqr4. injection Heqr4 as <-. exact K0.
  Qed.
  Lemma al_assign n t r r' : root_assign input eof n t r = Ok r' -> rlow L r -> L <= p_line (i_start t) -> addl (rt_asts r) (rt_asts r').
  Proof.
    unfold root_assign, rlow. intros E H P. cbv zeta in E. step_in E. destruct x as [k st]. destruct (low_key eof L LEOF _ _ _ _ Heqr0 H) as (KL & H1). destruct k as [k|k|e].
    2,3: injection E as <-; apply al_refl.
    destruct (i_ty _) eqn:TY in E; try (injection E as <-; apply al_refl). destruct (_ && _) in E; [injection E as <-; apply al_refl|].
    assert (H2 : low L true (padv st)) by (eapply low_adv_new; [exact H1|rewrite TY, TEOF; discriminate]).
    step_in E. step_in E. destruct x0 as [[s l] level]. step_in E. destruct x0 as [s0 cs]. step_in E. destruct x0 as [v st0].
    pose proof (al_free _ _ _ _ _ _ Heqr2) as G'. destruct v as [v|e]; [|injection E as <-; exact G']. step_in E. injection E as <-. cbn [rt_asts].
    refine (al_trans _ _ _ G' (al_push _ _ _)). split; [exact KL|]. cbn [ta_assign as_val].
    apply low_value with (L := L) in Heqr4; [exact (proj1 (proj1 Heqr4))|exact LEOF|]. apply low_store. destruct (rt_newline r); [|exact H2]. apply low_perr; [exact H2|]. eapply e_here; [reflexivity|reflexivity|exact P].
  Qed.
  Lemma al_loop : forall fuel r r', root_loop input eof fuel r = Ok r' -> rlow L r -> addl (rt_asts r) (rt_asts r').
  Proof.
    induction fuel as [|fuel IH]; intros r r' E H; [discriminate|]. cbn [root_loop] in E. cbv zeta in E. pose proof (peek_start eof L LEOF _ _ H) as P.
    assert (AS : (let? r := root_assign input eof max_depth (ppeek eof (rt_st r)) r in root_loop input eof fuel r) = Ok r' -> addl (rt_asts r) (rt_asts r')).
    { intros X. step_in X. refine (al_trans _ _ _ (al_assign _ _ _ _ Heqr0 H P) (IH _ _ X _)). eapply low_root_assign; eassumption. }
    destruct (i_ty (ppeek eof (rt_st r))); try (exact (AS E)).
    - step_in E. refine (al_trans _ _ _ (al_comment _ _ _ Heqr1) (IH _ _ E _)). eapply low_root_comment; [exact Heqr1|]. unfold rlow. cbn [rt_st set_rst]. apply low_adv. exact H.
    - step_in E. refine (al_trans _ _ _ (al_header _ _ _ Heqr0 H P) (IH _ _ E _)). eapply low_root_header; eassumption.
    - refine (IH _ _ E _). unfold rlow. cbn [rt_st]. apply low_adv. exact H.
    - injection E as <-. apply al_refl.
  Qed.
End Low.
