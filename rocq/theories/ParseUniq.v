(** A cut document says one thing only. *)
From Verif Require Import Base BaseProofs CommonModel TomlError LitModel LitSpec LitNum LitInt LitWhole LitDate LexModel LexSpec LexBase LexStr LexSound LexTop LexProps ParseModel ParseSpec ParsePlace ParseItems ParseKey ParseLit ParseVal ParseValue ParseCVal ParseCValue.

Scheme g_value_ind3 := Induction for g_value Sort Prop
  with g_elems_ind3 := Induction for g_elems Sort Prop
  with g_fields_ind3 := Induction for g_fields Sort Prop.
Combined Scheme g_all_ind from g_value_ind3, g_elems_ind3, g_fields_ind3.

(** ** Splitting *)
Lemma split_unique {A} (P : A -> Prop) : forall w w' x x' r r', w ++ x :: r = w' ++ x' :: r' -> Forall P w -> Forall P w' -> ~ P x -> ~ P x' ->
  w = w' /\ x = x' /\ r = r'.
Proof.
  induction w as [|y w IH]; intros [|y' w'] x x' r r' E F F' N N'.
  - injection E as <- <-. auto.
  - injection E as <- _. destruct (N (Forall_inv F')).
  - injection E as -> _. destruct (N' (Forall_inv F)).
  - injection E as <- E. destruct (IH _ _ _ _ _ E (Forall_inv_tail F) (Forall_inv_tail F') N N') as (-> & -> & ->). auto.
Qed.

Lemma date_unique t d d' : lenient_datetime t d -> lenient_datetime t d' -> d = d'.
Proof.
  intros H H'. apply (datetime_literals t (mkspan pos_zero pos_zero)) in H, H'.
  destruct d, d'; rewrite H in H'; injection H' as; congruence.
Qed.
Lemma scalar_unique t v v' : scalar t v -> scalar t v' -> v = v'.
Proof.
  intros H H'. pose proof (scalar_literal t v (mkspan pos_zero pos_zero) H) as L. pose proof (scalar_literal t v' (mkspan pos_zero pos_zero) H') as L'.
  destruct v; cbn in L; try contradiction; destruct v'; cbn in L'; try contradiction;
    repeat match goal with d : datetime |- _ => destruct d end; rewrite L in L'; try discriminate; injection L' as; congruence.
Qed.
Lemma spaced_unique a t v v' : spaced a t v -> spaced a t v' -> v = v'.
Proof.
  assert (K : forall v, spaced a t v -> exists x tm o, lenient_datetime a (LocalDate x) /\
    parse_time_and_offset (0, t) (mkspan pos_zero pos_zero) = Ok (tm, o) /\ v = TvDate (from_optional_offset x tm o)).
  { intros w H. destruct H as [a x b tm D T|a x b tm ot o g D T O].
    - exists x, tm, None. split; [exact D|]. split; [|reflexivity]. apply time_and_offset_iff. left. eauto.
    - exists x, tm, (Some o). split; [exact D|]. split; [|reflexivity]. apply time_and_offset_iff. right. exists b, ot, o, g. auto. }
  intros H H'. destruct (K _ H) as (x & tm & o & D & R & ->). destruct (K _ H') as (x' & tm' & o' & D' & R' & ->).
  rewrite R in R'. injection R' as <- <-. pose proof (date_unique _ _ _ D D') as E. injection E as <-. reflexivity.
Qed.

Lemma punct_not_blank ty x : is_punct ty x -> ~ is_blank x.
Proof. unfold is_punct, is_blank. congruence. Qed.
Lemma punct_not_trivia ty x : is_punct ty x -> ~ is_trivia x.
Proof. unfold is_punct, is_trivia. intros -> [H|[H|H]]; discriminate. Qed.
Lemma punct_same ty ty' x : is_punct ty x -> is_punct ty' x -> ty = ty'.
Proof. unfold is_punct. congruence. Qed.

(** ** Keys *)
Lemma g_ident_unique x k k' : g_ident x k -> g_ident x k' -> k = k'.
Proof. intros H H'. inversion H; subst; inversion H'; subst; reflexivity. Qed.
Lemma g_ident_not_blank x k : g_ident x k -> ~ is_blank x.
Proof. intros H. inversion H; unfold is_blank; cbn; discriminate. Qed.
(** What follows a key is not a dot. *)
Lemma next_after w d r w' x r' : blanks w -> blanks w' -> is_punct TDot d -> after_key (fst x) ->
  w ++ d :: r = w' ++ x :: r' -> False.
Proof.
  intros B B' D AK E. destruct (split_unique is_blank w w' d x r r' E B B') as (_ & <- & _); [eapply punct_not_blank; exact D| |].
  - destruct x as [x s]. cbn in AK. destruct AK as [->| ->]; unfold is_blank; discriminate.
  - unfold is_punct in D. rewrite D in AK. destruct AK; discriminate.
Qed.
Lemma g_key_unique : forall kt ks, g_key kt ks -> forall kt' ks' r r', g_key kt' ks' -> kt ++ r = kt' ++ r' ->
  next_is after_key r -> next_is after_key r' -> kt = kt' /\ ks = ks' /\ r = r'.
Proof.
  induction 1 as [x k GI|x k w1 d w2 ts ks GI B1 D B2 G IH]; intros kt' ks' r r' G' E N N'; destruct G' as [x' k' GI'|x' k' w1' d' w2' ts' ks' GI' B1' D' B2' G'].
  - injection E as <- <-. rewrite (g_ident_unique _ _ _ GI GI'). auto.
  - injection E as <- E. exfalso. destruct (next_is_split _ _ N) as (w & y & s & r0 & -> & B & NB & AK).
    repeat rewrite <- app_assoc in E. symmetry in E. exact (next_after w1' d' _ w (y, s) r0 B1' B D' AK E).
  - injection E as <- E. exfalso. destruct (next_is_split _ _ N') as (w & y & s & r0 & -> & B & NB & AK).
    repeat rewrite <- app_assoc in E. exact (next_after w1 d _ w (y, s) r0 B1 B D AK E).
  - injection E as <- E. repeat rewrite <- app_assoc in E. cbn [app] in E.
    destruct (split_unique is_blank w1 w1' d d' _ _ E B1 B1') as (<- & <- & E2); [eapply punct_not_blank; eassumption|eapply punct_not_blank; eassumption|].
    repeat rewrite <- app_assoc in E2.
    destruct (g_key_first _ _ G) as (y & s & u & -> & IL). destruct (g_key_first _ _ G') as (y' & s' & u' & -> & IL').
    cbn [app] in E2.
    destruct (split_unique is_blank w2 w2' (y, s) (y', s') _ _ E2 B2 B2') as (<- & E3 & E4).
    + unfold is_blank. cbn. destruct IL as [->|(q & t & o & ->)]; discriminate.
    + unfold is_blank. cbn. destruct IL' as [->|(q & t & o & ->)]; discriminate.
    + injection E3 as <- <-. destruct (IH ((y, s) :: u') ks' r r' G') as (<- & <- & <-); [cbn [app]; f_equal; exact E4|assumption|assumption|].
      rewrite (g_ident_unique _ _ _ GI GI'). auto.
Qed.

(** ** Values *)
Lemma stops_word w x r : stops (w ++ x :: r) -> blanks w -> fst x <> XWord.
Proof.
  intros ST B E. destruct x as [x s]. cbn in E. subst x.
  assert (K : forall w', ~ blanks (w' ++ (XWord, s) :: r)) by (intros w' H; apply Forall_app in H as [_ H]; apply Forall_inv in H; discriminate H).
  destruct ST as [H|H]; [exact (K _ H)|]. destruct (next_is_split _ _ H) as (w' & y & t & r' & E & B' & NB & PS).
  destruct (split_unique is_blank _ _ _ _ _ _ E B B' ltac:(discriminate) ltac:(exact NB)) as (_ & E2 & _). injection E2 as <- <-.
  destruct PS as [PS|[PS|[PS|[PS|PS]]]]; discriminate.
Qed.
Lemma g_lit_unique ts t ts' t' r r' : g_lit ts t -> g_lit ts' t' -> ~ starts_run r -> ~ starts_run r' -> ts ++ r = ts' ++ r' ->
  ts = ts' /\ t = t' /\ r = r'.
Proof.
  intros (_ & W & <-) (_ & W' & <-) N N' E. destruct (run_unique _ _ _ _ E W W' N N') as [-> ->]. auto.
Qed.
Lemma blank_run b r : is_blank b -> ~ starts_run (b :: r).
Proof. intros B (x & r' & E & W). injection E as -> _. unfold is_blank in B. destruct W as [W|W]; unfold is_punct in *; congruence. Qed.

Definition v_unique (ts : list tile) (v : tval) : Prop := forall ts' v' r r', g_value ts' v' -> ts ++ r = ts' ++ r' -> stops r -> stops r' ->
  ts = ts' /\ v = v' /\ r = r'.
Definition e_unique (ts : list tile) (vs : list tval) : Prop := forall ts' vs' x x' r r', g_elems ts' vs' -> is_punct TSquareRight x -> is_punct TSquareRight x' ->
  ts ++ x :: r = ts' ++ x' :: r' -> ts = ts' /\ vs = vs' /\ x = x' /\ r = r'.
Definition f_unique (ts : list tile) (fs : list (path * tval)) : Prop := forall ts' fs' x x' r r', g_fields ts' fs' -> is_punct TCurlyRight x -> is_punct TCurlyRight x' ->
  ts ++ x :: r = ts' ++ x' :: r' -> ts = ts' /\ fs = fs' /\ x = x' /\ r = r'.

Lemma stops_punct w ty x r : trivia w -> is_punct ty x -> stop (XPunct ty) -> stops (w ++ x :: r).
Proof. intros T P SP. destruct x as [x s]. unfold is_punct in P. cbn in P. subst x. apply stops_trivia; assumption. Qed.
Lemma blanks_trivia w : blanks w -> trivia w.
Proof. apply Forall_impl. intros x H. left. exact H. Qed.
Lemma stop_comma : stop (XPunct TComma). Proof. unfold stop. auto. Qed.
Lemma stop_right : stop (XPunct TSquareRight). Proof. unfold stop. auto. Qed.
Lemma stop_curly : stop (XPunct TCurlyRight). Proof. unfold stop. auto 6. Qed.

Lemma value_unless : forall vt tv, g_value vt tv -> exists x r, vt = x :: r /\ ~ is_trivia x /\ (forall ty, is_punct ty x -> ty = TSquareLeft \/ ty = TCurlyLeft).
Proof.
  intros vt tv G. destruct (g_value_first _ _ G) as (x & s & r & -> & VL). exists (x, s), r. split; [reflexivity|].
  split; [apply value_not_trivia, VL|]. intros ty P. unfold is_punct in P. cbn in P. subst x.
  destruct VL as [[H|(q & t & o & H)]|[H|H]]; try discriminate; injection H as ->; auto.
Qed.

(** The first value of a list, and what follows it. *)
Inductive elems_view : list tile -> list tval -> Prop :=
| ev_nil w : trivia w -> elems_view w []
| ev_val w1 vt v w2 tail vs : trivia w1 -> g_value vt v -> trivia w2 ->
    (tail = [] /\ vs = [] \/ exists c ts', is_punct TComma c /\ tail = c :: ts' /\ g_elems ts' vs) ->
    elems_view (w1 ++ vt ++ w2 ++ tail) (v :: vs).
Lemma g_elems_view ts vs : g_elems ts vs -> elems_view ts vs.
Proof.
  intros G. destruct G as [w T|w1 ts v w2 T1 G T2|w1 ts v w2 c ts' vs T1 G T2 C GE].
  - apply ev_nil, T.
  - rewrite <- (app_nil_r w2). apply ev_val; auto.
  - apply ev_val; auto. right. eauto.
Qed.

Lemma first_value w vt r w' vt' r' v v' : w ++ vt ++ r = w' ++ vt' ++ r' -> trivia w -> trivia w' -> g_value vt v -> g_value vt' v' ->
  w = w' /\ vt ++ r = vt' ++ r'.
Proof.
  intros E T T' G G'. destruct (value_unless _ _ G) as (x & u & -> & NT & _). destruct (value_unless _ _ G') as (x' & u' & -> & NT' & _).
  cbn [app] in *. destruct (split_unique is_trivia _ _ _ _ _ _ E T T' NT NT') as (-> & -> & ->). auto.
Qed.
Lemma no_value w x r w1 vt v w2 tail x' r' : w ++ x :: r = (w1 ++ vt ++ w2 ++ tail) ++ x' :: r' -> trivia w -> is_punct TSquareRight x ->
  trivia w1 -> g_value vt v -> False.
Proof.
  intros E T R T1 G. destruct (value_unless _ _ G) as (y & u & -> & NT & NP). repeat rewrite <- app_assoc in E. cbn [app] in E.
  destruct (split_unique is_trivia _ _ _ _ _ _ E T T1 (punct_not_trivia _ _ R) NT) as (_ & <- & _). destruct (NP _ R); discriminate.
Qed.

Inductive fields_view : list tile -> list (path * tval) -> Prop :=
| fv w1 kt k w2 e w3 vt v w4 tail fs : blanks w1 -> g_key kt k -> blanks w2 -> is_punct TEqual e -> blanks w3 -> g_value vt v -> blanks w4 ->
    (tail = [] /\ fs = [] \/ exists c ts', is_punct TComma c /\ tail = c :: ts' /\ g_fields ts' fs) ->
    fields_view (w1 ++ kt ++ w2 ++ e :: w3 ++ vt ++ w4 ++ tail) ((k, v) :: fs).
Lemma g_fields_view ts fs : g_fields ts fs -> fields_view ts fs.
Proof.
  intros G. destruct G as [w1 kt k w2 e w3 vt v w4|w1 kt k w2 e w3 vt v w4 c ts' fs].
  - rewrite <- (app_nil_r w4). apply fv; auto.
  - apply fv; auto. right. eauto.
Qed.
Lemma first_key w kt k w2 e r w' kt' k' w2' e' r' (EK : after_key (fst e)) (EK' : after_key (fst e')) :
  w ++ kt ++ w2 ++ e :: r = w' ++ kt' ++ w2' ++ e' :: r' -> blanks w -> blanks w' -> g_key kt k -> g_key kt' k' -> blanks w2 -> blanks w2' ->
  w = w' /\ kt = kt' /\ k = k' /\ w2 = w2' /\ e = e' /\ r = r'.
Proof.
  intros E B B' G G' B2 B2'. destruct (g_key_first _ _ G) as (x & s & u & -> & IL). destruct (g_key_first _ _ G') as (x' & s' & u' & -> & IL').
  assert (NB : forall e, after_key (fst e) -> ~ is_blank e) by (intros [y t] [H|H]; cbn in H; subst; discriminate).
  cbn [app] in E. destruct (split_unique is_blank _ _ _ _ _ _ E B B') as (-> & E1 & E2).
  { destruct IL as [->|(?&?&?& ->)]; discriminate. } { destruct IL' as [->|(?&?&?& ->)]; discriminate. }
  injection E1 as <- <-.
  assert (NX : forall w2 (e : tile) r, blanks w2 -> after_key (fst e) -> next_is after_key (w2 ++ e :: r)).
  { intros w [y t] q BW AK. apply next_is_app; [exact BW| |exact AK]. destruct AK as [H|H]; cbn in H; subst; discriminate. }
  destruct (g_key_unique _ _ G _ _ (w2 ++ e :: r) (w2' ++ e' :: r') G') as (K1 & -> & E3); [cbn [app]; f_equal; exact E2|apply NX; assumption|apply NX; assumption|].
  injection K1 as <-. destruct (split_unique is_blank _ _ _ _ _ _ E3 B2 B2' (NB _ EK) (NB _ EK')) as (-> & -> & ->). auto 8.
Qed.
Lemma equal_after e : is_punct TEqual e -> after_key (fst e).
Proof. intros ->. left. reflexivity. Qed.
Lemma right_after e : is_punct TSquareRight e -> after_key (fst e).
Proof. intros ->. right. reflexivity. Qed.
Lemma first_field w1 kt k w2 e w3 vt v r w1' kt' k' w2' e' w3' vt' v' r' :
  w1 ++ kt ++ w2 ++ e :: w3 ++ vt ++ r = w1' ++ kt' ++ w2' ++ e' :: w3' ++ vt' ++ r' ->
  blanks w1 -> blanks w1' -> g_key kt k -> g_key kt' k' -> blanks w2 -> blanks w2' -> is_punct TEqual e -> is_punct TEqual e' -> blanks w3 -> blanks w3' ->
  g_value vt v -> g_value vt' v' -> w1 = w1' /\ kt = kt' /\ k = k' /\ w2 = w2' /\ e = e' /\ w3 = w3' /\ vt ++ r = vt' ++ r'.
Proof.
  intros E B1 B1' GK GK' B2 B2' Q Q' B3 B3' GV GV'.
  destruct (first_key _ _ _ _ _ _ _ _ _ _ _ _ (equal_after _ Q) (equal_after _ Q') E B1 B1' GK GK' B2 B2') as (-> & -> & -> & -> & -> & E2).
  destruct (first_value _ _ _ _ _ _ _ _ E2 (blanks_trivia _ B3) (blanks_trivia _ B3') GV GV') as (-> & E3). auto 10.
Qed.
Lemma empty_fields w x r ts fs x' r' : w ++ x :: r = ts ++ x' :: r' -> blanks w -> is_punct TCurlyRight x -> g_fields ts fs -> False.
Proof.
  intros E B R G. apply g_fields_view in G. destruct G as [w1 kt k w2 e w3 vt v w4 tail fs B1 GK].
  destruct (g_key_first _ _ GK) as (y & s & u & -> & IL). repeat rewrite <- app_assoc in E. cbn [app] in E.
  destruct (split_unique is_blank _ _ _ _ _ _ E B B1 (punct_not_blank _ _ R)) as (_ & EX & _).
  - destruct IL as [->|(?&?&?& ->)]; discriminate.
  - rewrite EX in R. unfold is_punct in R. cbn in R. destruct IL as [->|(?&?&?& ->)]; discriminate.
Qed.

Ltac other E := (* the alternatives that start differently *)
  exfalso; repeat match goal with
  | H : g_lit _ _ |- _ => destruct H as ((? & ? & ->) & _)
  | H : is_punct _ ?l |- _ => destruct l; unfold is_punct in H; cbn in H; subst
  end; discriminate E.

Lemma unique_all :
  (forall ts v, g_value ts v -> v_unique ts v) /\ (forall ts vs, g_elems ts vs -> e_unique ts vs) /\ (forall ts fs, g_fields ts fs -> f_unique ts fs).
Proof.
  apply (g_all_ind (fun ts v _ => v_unique ts v) (fun ts vs _ => e_unique ts vs) (fun ts fs _ => f_unique ts fs)).
  - (* string *)
    intros q text off s ts' v' r r' G E ST ST'. destruct G as [q' text' off' s'|ts t v GL SC|ta a b tb t v GL IB GL' SP|l r0 ts vs L R GE|l r0 w L R B|l r0 ts fs L R GF]; try other E.
    injection E as <- <- <- <- <-. auto.
  - (* scalar *)
    intros ts t v GL SC ts' v' r r' G E ST ST'. destruct G as [q' text' off' s'|ts' t' v' GL' SC'|ta a b tb t' v' GLa IB GLb SP|l r0 ts' vs L R GE|l r0 w L R B|l r0 ts' fs L R GF]; try other E.
    + destruct (g_lit_unique _ _ _ _ _ _ GL GL' (stops_run _ ST) (stops_run _ ST') E) as (<- & <- & <-). rewrite (scalar_unique _ _ _ SC SC'). auto.
    + exfalso. rewrite <- app_assoc in E. cbn [app] in E.
      destruct (g_lit_unique _ _ _ _ _ _ GL GLa (stops_run _ ST) (blank_run _ _ IB) E) as (_ & _ & ->).
      destruct GLb as ((w & u & ->) & _). apply (stops_word [b] (XWord, w) (u ++ r') ST); [constructor; [exact IB|constructor]|reflexivity].
  - (* date and time *)
    intros ta a b tb t v GL IB GL2 SP ts' v' r r' G E ST ST'. rewrite <- app_assoc in E. cbn [app] in E.
    destruct G as [q' text' off' s'|ts' t' v' GL' SC'|ta' a' b' tb' t' v' GLa IB' GLb SP'|l r0 ts' vs L R GE|l r0 w L R B|l r0 ts' fs L R GF]; try other E.
    + exfalso. destruct (g_lit_unique _ _ _ _ _ _ GL GL' (blank_run _ _ IB) (stops_run _ ST') E) as (_ & _ & <-).
      destruct GL2 as ((w & u & ->) & _). apply (stops_word [b] (XWord, w) (u ++ r) ST'); [constructor; [exact IB|constructor]|reflexivity].
    + rewrite <- app_assoc in E. cbn [app] in E.
      destruct (g_lit_unique _ _ _ _ _ _ GL GLa (blank_run _ _ IB) (blank_run _ _ IB') E) as (<- & <- & E2). injection E2 as <- E2.
      destruct (g_lit_unique _ _ _ _ _ _ GL2 GLb (stops_run _ ST) (stops_run _ ST') E2) as (<- & <- & <-). rewrite (spaced_unique _ _ _ _ SP SP'). auto.
  - (* array *)
    intros l x ts vs L R GE IH ts' v' r r' G E ST ST'. destruct G as [q' text' off' s'|ts' t' v' GL' SC'|ta' a' b' tb' t' v' GLa IB' GLb SP'|l' x' ts' vs' L' R' GE'|l' r0 w L' R' B|l' r0 ts' fs L' R' GF]; try other E.
    cbn [app] in E. injection E as <- E. rewrite <- !app_assoc in E. cbn [app] in E.
    destruct (IH _ _ _ _ _ _ GE' R R' E) as (<- & <- & <- & <-). auto.
  - (* empty table *)
    intros l x w L R B ts' v' r r' G E ST ST'. destruct G as [q' text' off' s'|ts' t' v' GL' SC'|ta' a' b' tb' t' v' GLa IB' GLb SP'|l' x' ts' vs' L' R' GE'|l' x' w' L' R' B'|l' x' ts' fs L' R' GF]; try other E;
      cbn [app] in E; injection E as <- E; rewrite <- !app_assoc in E; cbn [app] in E.
    + destruct (split_unique is_blank _ _ _ _ _ _ E B B' (punct_not_blank _ _ R) (punct_not_blank _ _ R')) as (<- & <- & <-). auto.
    + exfalso. eapply empty_fields; eassumption.
  - (* table *)
    intros l x ts fs L R GF IH ts' v' r r' G E ST ST'. destruct G as [q' text' off' s'|ts' t' v' GL' SC'|ta' a' b' tb' t' v' GLa IB' GLb SP'|l' x' ts' vs' L' R' GE'|l' x' w' L' R' B'|l' x' ts' fs' L' R' GF']; try other E;
      cbn [app] in E; injection E as <- E; rewrite <- !app_assoc in E; cbn [app] in E.
    + exfalso. symmetry in E. eapply empty_fields; eassumption.
    + destruct (IH _ _ _ _ _ _ GF' R R' E) as (<- & <- & <- & <-). auto.
  - (* no values *)
    intros w T ts' vs' x x' r r' G R R' E. apply g_elems_view in G. destruct G as [w' T'|w1 vt v w2 tail vs' T1 GV T2 D].
    + destruct (split_unique is_trivia _ _ _ _ _ _ E T T' (punct_not_trivia _ _ R) (punct_not_trivia _ _ R')) as (<- & <- & <-). auto.
    + exfalso. eapply no_value; eassumption.
  - (* last value *)
    intros w1 vt v w2 T1 GV IH T2 ts' vs' x x' r r' G R R' E. apply g_elems_view in G. destruct G as [w' T'|w1' vt' v' w2' tail vs' T1' GV' T2' D].
    + exfalso. symmetry in E. rewrite <- (app_nil_r w2) in E. eapply no_value; eassumption.
    + destruct D as [[-> ->]|(c & ts' & C & -> & GE)]; repeat rewrite <- app_assoc in E; cbn [app] in E.
      * destruct (first_value _ _ _ _ _ _ _ _ E T1 T1' GV GV') as (<- & E2).
        destruct (IH _ _ _ _ GV' E2) as (<- & <- & E3); [eapply stops_punct; [exact T2|exact R|apply stop_right]|eapply stops_punct; [exact T2'|exact R'|apply stop_right]|].
        destruct (split_unique is_trivia _ _ _ _ _ _ E3 T2 T2' (punct_not_trivia _ _ R) (punct_not_trivia _ _ R')) as (<- & <- & <-). rewrite app_nil_r. auto.
      * exfalso. destruct (first_value _ _ _ _ _ _ _ _ E T1 T1' GV GV') as (<- & E2).
        destruct (IH _ _ _ _ GV' E2) as (<- & <- & E3); [eapply stops_punct; [exact T2|exact R|apply stop_right]|eapply stops_punct; [exact T2'|exact C|apply stop_comma]|].
        destruct (split_unique is_trivia _ _ _ _ _ _ E3 T2 T2' (punct_not_trivia _ _ R) (punct_not_trivia _ _ C)) as (_ & <- & _). pose proof (punct_same _ _ _ R C). discriminate.
  - (* value and comma *)
    intros w1 vt v w2 c ts1 vs T1 GV IH T2 C GE IHE ts' vs' x x' r r' G R R' E. apply g_elems_view in G. destruct G as [w' T'|w1' vt' v' w2' tail vs' T1' GV' T2' D].
    + exfalso. symmetry in E. eapply no_value; eassumption.
    + destruct D as [[-> ->]|(c' & ts' & C' & -> & GE')]; repeat rewrite <- app_assoc in E; cbn [app] in E.
      * exfalso. destruct (first_value _ _ _ _ _ _ _ _ E T1 T1' GV GV') as (<- & E2).
        destruct (IH _ _ _ _ GV' E2) as (<- & <- & E3); [eapply stops_punct; [exact T2|exact C|apply stop_comma]|eapply stops_punct; [exact T2'|exact R'|apply stop_right]|].
        destruct (split_unique is_trivia _ _ _ _ _ _ E3 T2 T2' (punct_not_trivia _ _ C) (punct_not_trivia _ _ R')) as (_ & <- & _). pose proof (punct_same _ _ _ R' C). discriminate.
      * destruct (first_value _ _ _ _ _ _ _ _ E T1 T1' GV GV') as (<- & E2).
        destruct (IH _ _ _ _ GV' E2) as (<- & <- & E3); [eapply stops_punct; [exact T2|exact C|apply stop_comma]|eapply stops_punct; [exact T2'|exact C'|apply stop_comma]|].
        destruct (split_unique is_trivia _ _ _ _ _ _ E3 T2 T2' (punct_not_trivia _ _ C) (punct_not_trivia _ _ C')) as (<- & <- & E4).
        destruct (IHE _ _ _ _ _ _ GE' R R' E4) as (<- & <- & <- & <-). auto.
  - (* last field *)
    intros w1 kt k w2 e w3 vt v w4 B1 GK B2 EQ B3 GV IH B4 ts' fs' x x' r r' G R R' E. apply g_fields_view in G. destruct G as [w1' kt' k' w2' e' w3' vt' v' w4' tail fs' B1' GK' B2' EQ' B3' GV' B4' D].
    destruct D as [[-> ->]|(c & ts' & C & -> & GF)]; repeat rewrite <- app_assoc in E; cbn [app] in E; repeat rewrite <- app_assoc in E.
    * destruct (first_field _ _ _ _ _ _ _ _ _ _ _ _ _ _ _ _ _ _ E B1 B1' GK GK' B2 B2' EQ EQ' B3 B3' GV GV') as (<- & <- & <- & <- & <- & <- & E2).
      destruct (IH _ _ _ _ GV' E2) as (<- & <- & E3); [eapply stops_punct; [apply blanks_trivia, B4|exact R|apply stop_curly]|eapply stops_punct; [apply blanks_trivia, B4'|exact R'|apply stop_curly]|].
      destruct (split_unique is_blank _ _ _ _ _ _ E3 B4 B4' (punct_not_blank _ _ R) (punct_not_blank _ _ R')) as (<- & <- & <-). rewrite app_nil_r. auto.
    * exfalso. destruct (first_field _ _ _ _ _ _ _ _ _ _ _ _ _ _ _ _ _ _ E B1 B1' GK GK' B2 B2' EQ EQ' B3 B3' GV GV') as (<- & <- & <- & <- & <- & <- & E2).
      destruct (IH _ _ _ _ GV' E2) as (<- & <- & E3); [eapply stops_punct; [apply blanks_trivia, B4|exact R|apply stop_curly]|eapply stops_punct; [apply blanks_trivia, B4'|exact C|apply stop_comma]|].
      destruct (split_unique is_blank _ _ _ _ _ _ E3 B4 B4' (punct_not_blank _ _ R) (punct_not_blank _ _ C)) as (_ & <- & _). pose proof (punct_same _ _ _ R C). discriminate.
  - (* field and comma *)
    intros w1 kt k w2 e w3 vt v w4 c ts1 fs B1 GK B2 EQ B3 GV IH B4 C GF IHF ts' fs' x x' r r' G R R' E. apply g_fields_view in G. destruct G as [w1' kt' k' w2' e' w3' vt' v' w4' tail fs' B1' GK' B2' EQ' B3' GV' B4' D].
    destruct D as [[-> ->]|(c' & ts' & C' & -> & GF')]; repeat rewrite <- app_assoc in E; cbn [app] in E; repeat rewrite <- app_assoc in E; cbn [app] in E.
    * exfalso. destruct (first_field _ _ _ _ _ _ _ _ _ _ _ _ _ _ _ _ _ _ E B1 B1' GK GK' B2 B2' EQ EQ' B3 B3' GV GV') as (<- & <- & <- & <- & <- & <- & E2).
      destruct (IH _ _ _ _ GV' E2) as (<- & <- & E3); [eapply stops_punct; [apply blanks_trivia, B4|exact C|apply stop_comma]|eapply stops_punct; [apply blanks_trivia, B4'|exact R'|apply stop_curly]|].
      destruct (split_unique is_blank _ _ _ _ _ _ E3 B4 B4' (punct_not_blank _ _ C) (punct_not_blank _ _ R')) as (_ & <- & _). pose proof (punct_same _ _ _ R' C). discriminate.
    * destruct (first_field _ _ _ _ _ _ _ _ _ _ _ _ _ _ _ _ _ _ E B1 B1' GK GK' B2 B2' EQ EQ' B3 B3' GV GV') as (<- & <- & <- & <- & <- & <- & E2).
      destruct (IH _ _ _ _ GV' E2) as (<- & <- & E3); [eapply stops_punct; [apply blanks_trivia, B4|exact C|apply stop_comma]|eapply stops_punct; [apply blanks_trivia, B4'|exact C'|apply stop_comma]|].
      destruct (split_unique is_blank _ _ _ _ _ _ E3 B4 B4' (punct_not_blank _ _ C) (punct_not_blank _ _ C')) as (<- & <- & E4).
      destruct (IHF _ _ _ _ _ _ GF' R R' E4) as (<- & <- & <- & <-). auto.
Qed.

(** ** Statements *)
Definition stmt_first (x : tile) : Prop := ident_like (fst x) \/ is_punct TSquareLeft x.
Lemma g_stmt_first ts s : g_stmt ts s -> exists x r, ts = x :: r /\ stmt_first x.
Proof.
  intros G. destruct G as [kt k w1 e w2 ts v GK|l w1 kt k w2 r L|l l' w1 kt k w2 r r' L].
  - destruct (g_key_first _ _ GK) as (x & s & r & -> & IL). eexists _, _. split; [reflexivity|]. left. exact IL.
  - eexists _, _. split; [reflexivity|]. right. exact L.
  - eexists _, _. split; [reflexivity|]. right. exact L.
Qed.
Lemma ident_not_punct x s ty : ident_like x -> ~ is_punct ty (x, s).
Proof. unfold is_punct. cbn. intros [->|(?&?&?& ->)]; discriminate. Qed.
Lemma g_stmt_unique ts s ts' s' r r' : g_stmt ts s -> g_stmt ts' s' -> ts ++ r = ts' ++ r' -> stops r -> stops r' ->
  ts = ts' /\ s = s' /\ r = r'.
Proof.
  intros G G' E ST ST'.
  assert (KP : forall kt k (l : tile) a b, g_key kt k -> is_punct TSquareLeft l -> kt ++ a = l :: b -> False).
  { intros kt k l a b GK L EQ. destruct (g_key_first _ _ GK) as (x & t & u & -> & IL). injection EQ as <- _. exact (ident_not_punct _ _ _ IL L). }
  assert (KB : forall kt k (l : tile) w a b, g_key kt k -> is_punct TSquareLeft l -> blanks w -> l :: b = w ++ kt ++ a -> False).
  { intros kt k l w a b GK L B EQ. destruct w as [|y w]; [eapply KP; [exact GK|exact L|symmetry; exact EQ]|]. injection EQ as -> _.
    exact (punct_not_blank _ _ L (Forall_inv B)). }
  destruct G as [kt k w1 e w2 ts v GK B1 Q B2 GV|l w1 kt k w2 x L B1 GK B2 R|l l2 w1 kt k w2 x x2 L L2 B1 GK B2 R R2];
    destruct G' as [kt' k' w1' e' w2' ts' v' GK' B1' Q' B2' GV'|l' w1' kt' k' w2' x' L' B1' GK' B2' R'|l' l2' w1' kt' k' w2' x' x2' L' L2' B1' GK' B2' R' R2'];
    repeat rewrite <- app_assoc in E; cbn [app] in E; repeat rewrite <- app_assoc in E; cbn [app] in E.
  - destruct (first_field [] kt k w1 e w2 ts v r [] kt' k' w1' e' w2' ts' v' r') as (_ & <- & <- & <- & <- & <- & E2); [exact E|constructor|constructor|assumption..|].
    destruct (proj1 unique_all _ _ GV _ _ _ _ GV' E2 ST ST') as (<- & <- & <-). auto.
  - exfalso. eapply KP; [exact GK|exact L'|exact E].
  - exfalso. eapply KP; [exact GK|exact L'|exact E].
  - exfalso. symmetry in E. eapply KP; [exact GK'|exact L|exact E].
  - injection E as <- E. destruct (first_key _ _ _ _ _ _ _ _ _ _ _ _ (right_after _ R) (right_after _ R') E B1 B1' GK GK' B2 B2') as (<- & <- & <- & <- & <- & <-). auto.
  - exfalso. injection E as <- E. symmetry in E. eapply KB; [exact GK|exact L2'|exact B1|exact E].
  - exfalso. symmetry in E. eapply KP; [exact GK'|exact L|exact E].
  - exfalso. injection E as <- E. eapply KB; [exact GK'|exact L2|exact B1'|exact E].
  - injection E as <- <- E. destruct (first_key _ _ _ _ _ _ _ _ _ _ _ _ (right_after _ R) (right_after _ R') E B1 B1' GK GK' B2 B2') as (<- & <- & <- & <- & <- & E2).
    injection E2 as <- <-. auto.
Qed.

(** ** Lines *)
Definition line_end (t : list tile) : Prop := match t with [] => True | x :: _ => fst x = XComment \/ fst x = XNewline end.
Lemma line_end_stops w t : blanks w -> line_end t -> stops (w ++ t).
Proof.
  intros B L. destruct t as [|[x s] t]; [left; rewrite app_nil_r; exact B|]. apply stops_trivia; [apply blanks_trivia, B|].
  cbn in L. unfold stop. destruct L as [->| ->]; auto.
Qed.
Lemma end_not_blank x t : line_end (x :: t) -> ~ is_blank x.
Proof. unfold is_blank. cbn. intros [->| ->]; discriminate. Qed.
Lemma blanks_end w t w' t' : w ++ t = w' ++ t' -> blanks w -> blanks w' -> line_end t -> line_end t' -> w = w' /\ t = t'.
Proof.
  intros E B B' L L'. destruct t as [|x t], t' as [|x' t'].
  - rewrite !app_nil_r in E. auto.
  - exfalso. rewrite app_nil_r in E. rewrite E in B. apply Forall_app in B as [_ B]. exact (end_not_blank _ _ L' (Forall_inv B)).
  - exfalso. rewrite app_nil_r in E. rewrite <- E in B'. apply Forall_app in B' as [_ B']. exact (end_not_blank _ _ L (Forall_inv B')).
  - destruct (split_unique is_blank _ _ _ _ _ _ E B B' (end_not_blank _ _ L) (end_not_blank _ _ L')) as (-> & -> & ->). auto.
Qed.
Lemma stmt_first_not_blank x : stmt_first x -> ~ is_blank x.
Proof. unfold is_blank. intros [[->|(?&?&?& ->)]|H]; [discriminate|discriminate|exact (punct_not_blank _ _ H)]. Qed.
Lemma stmt_not_end w t w1 ts s r : w ++ t = w1 ++ ts ++ r -> blanks w -> line_end t -> blanks w1 -> g_stmt ts s -> False.
Proof.
  intros E B L B1 G. destruct (g_stmt_first _ _ G) as (x & u & -> & SF). cbn [app] in E. destruct t as [|y t].
  - rewrite app_nil_r in E. rewrite E in B. apply Forall_app in B as [_ B]. exact (stmt_first_not_blank _ SF (Forall_inv B)).
  - destruct (split_unique is_blank _ _ _ _ _ _ E B B1 (end_not_blank _ _ L) (stmt_first_not_blank _ SF)) as (_ & <- & _).
    cbn in L. destruct SF as [[H|(?&?&?&H)]|H]; unfold is_punct in *; rewrite H in L; destruct L; discriminate.
Qed.
Lemma g_line_unique ts s ts' s' t t' : g_line ts s -> g_line ts' s' -> ts ++ t = ts' ++ t' -> line_end t -> line_end t' ->
  s = s' /\ t = t'.
Proof.
  intros G G' E L L'. destruct G as [w B|w1 ts s w2 B1 G B2], G' as [w' B'|w1' ts' s' w2' B1' G' B2'].
  - destruct (blanks_end _ _ _ _ E B B' L L') as (_ & ->). auto.
  - exfalso. repeat rewrite <- app_assoc in E. eapply stmt_not_end; eassumption.
  - exfalso. repeat rewrite <- app_assoc in E. symmetry in E. eapply stmt_not_end; eassumption.
  - repeat rewrite <- app_assoc in E. destruct (g_stmt_first _ _ G) as (x & u & -> & SF). destruct (g_stmt_first _ _ G') as (x' & u' & -> & SF').
    cbn [app] in E. destruct (split_unique is_blank _ _ _ _ _ _ E B1 B1' (stmt_first_not_blank _ SF) (stmt_first_not_blank _ SF')) as (<- & <- & E2).
    destruct (g_stmt_unique _ _ _ _ (w2 ++ t) (w2' ++ t') G G') as (_ & <- & E3); [cbn [app]; f_equal; exact E2|apply line_end_stops; assumption|apply line_end_stops; assumption|].
    destruct (blanks_end _ _ _ _ E3 B2 B2' L L') as (_ & ->). auto.
Qed.

Lemma comment_end c r : g_comment c -> line_end r -> line_end (c ++ r).
Proof. intros [|s] L; [exact L|left; reflexivity]. Qed.
Definition doc_rest (r : list tile) : Prop := match r with [] => True | x :: _ => fst x = XNewline end.
Lemma doc_rest_end r : doc_rest r -> line_end r.
Proof. destruct r; cbn; auto. Qed.
Lemma comment_unique c c' r r' : g_comment c -> g_comment c' -> doc_rest r -> doc_rest r' -> c ++ r = c' ++ r' -> r = r'.
Proof.
  intros [|s] [|s'] D D' E; cbn [app] in E.
  - exact E.
  - subst r. cbn in D. discriminate.
  - subst r'. cbn in D'. discriminate.
  - injection E as _ E. exact E.
Qed.
Theorem g_doc_unique : forall ts d, g_doc ts d -> forall d', g_doc ts d' -> d = d'.
Proof.
  induction 1 as [ts s c GL GC|ts s c n rest d GL GC GD IH]; intros d' G'.
  - remember (ts ++ c) as all eqn:EA. destruct G' as [ts' s' c' GL' GC'|ts' s' c' n' rest' d' GL' GC' GD'].
    + assert (E : ts ++ c ++ [] = ts' ++ c' ++ []) by (rewrite !app_nil_r; symmetry; exact EA).
      destruct (g_line_unique _ _ _ _ _ _ GL GL' E) as (-> & _); [apply comment_end; [assumption|exact I]..|reflexivity].
    + exfalso. assert (E : ts ++ c ++ [] = ts' ++ c' ++ (XNewline, n') :: rest') by (rewrite app_nil_r; symmetry; exact EA).
      destruct (g_line_unique _ _ _ _ _ _ GL GL' E) as (_ & E2); [apply comment_end; [assumption|exact I]|apply comment_end; [assumption|right; reflexivity]|].
      apply comment_unique in E2; [discriminate|assumption|assumption|exact I|reflexivity].
  - remember (ts ++ c ++ (XNewline, n) :: rest) as all eqn:EA. destruct G' as [ts' s' c' GL' GC'|ts' s' c' n' rest' d' GL' GC' GD'].
    + exfalso. assert (E : ts ++ c ++ (XNewline, n) :: rest = ts' ++ c' ++ []) by (rewrite app_nil_r; symmetry; exact EA).
      destruct (g_line_unique _ _ _ _ _ _ GL GL' E) as (_ & E2); [apply comment_end; [assumption|right; reflexivity]|apply comment_end; [assumption|exact I]|].
      apply comment_unique in E2; [discriminate|assumption|assumption|reflexivity|exact I].
    + symmetry in EA. destruct (g_line_unique _ _ _ _ _ _ GL GL' EA) as (-> & E2); [apply comment_end; [assumption|right; reflexivity]..|].
      apply comment_unique in E2; [|assumption|assumption|reflexivity|reflexivity]. injection E2 as _ <-. rewrite (IH _ GD'). reflexivity.
Qed.
