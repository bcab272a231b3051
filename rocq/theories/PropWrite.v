(** C82: every value can be written. *)
From Verif Require Import PropDebug MapSpec.
From Verif Require Import Base BaseProofs CommonModel TomlError LitModel LitSpec LexModel LexSpec LexProps LexMain ParseModel ParseSpec CliModel MeanSpec WriteSpec PropIde PropCli.
From Coq Require Import Lia.

(** ** Literals *)
Definition lit_char (c : N) : Prop := 48 <= c <= 57 \/ 97 <= c <= 122 \/ In c [43; 45; 58; 84; 90].
Lemma lit_word c : lit_char c -> word_char c /\ c <> 13.
Proof.
  unfold lit_char, word_char. cbn [In]. intros H. split; [|lia]. intros H2. lia.
Qed.

(** What comes after a value *)
Definition stop (rest : list N) : Prop := exists c r, rest = c :: r /\ In c [44; 93; 125; 32; 10].
Lemma stop_word rest : stop rest -> ~ starts_with word_char rest.
Proof.
  intros (c & r & -> & H) (d & q & E & W). injection E as <- <-. apply W. cbn in *. lia.
Qed.
Lemma stop_quote rest q : stop rest -> ~ starts_with (eq (delim q)) rest.
Proof. intros (c & r & -> & H) (d & s & E & W). injection E as <- <-. unfold delim in W. cbn in H. destruct q; lia. Qed.

Lemma stop_blank : ~ starts_with word_char [32].
Proof. apply stop_word. exists 32, []. cbn. auto 10. Qed.
Lemma no_cr s : Forall lit_char s -> ~ ends_with 13 s.
Proof. intros F (r & ->). apply Forall_app in F as [_ F]. apply Forall_inv in F. apply lit_word in F. lia. Qed.

Lemma word_lit s : s <> [] -> Forall lit_char s -> forall rest, ~ starts_with word_char rest ->
  Forall LexSpec.valid [(XWord, s)] /\ seps [(XWord, s)] rest /\ g_lit [(XWord, s)] s.
Proof.
  intros NE F rest H. split; [|split].
  - constructor; [|constructor]. cbn. split; [exact NE|]. eapply Forall_impl; [|exact F]. intros c Hc. apply lit_word, Hc.
  - apply seps_one. cbn. left. split; [exact H|]. intros X. destruct (no_cr _ F X).
  - split; [exists s, []; reflexivity|]. split; [constructor; [left; reflexivity|constructor]|]. unfold source. cbn. apply app_nil_r.
Qed.

(** A literal: one word, or two around a dot *)
Definition lit_text (t : list N) : Prop :=
  (t <> [] /\ Forall lit_char t) \/
  exists a b, t = a ++ [46] ++ b /\ a <> [] /\ b <> [] /\ Forall lit_char a /\ Forall lit_char b.
Lemma lit_tiles t : lit_text t -> exists ts, source ts = t /\ Forall LexSpec.valid ts /\ (forall rest, stop rest -> seps ts rest) /\ g_lit ts t.
Proof.
  intros [[NE F]|(a & b & -> & NA & NB & FA & FB)].
  - exists [(XWord, t)]. split; [unfold source; cbn; apply app_nil_r|].
    destruct (word_lit t NE F [32] stop_blank) as (V & _ & G).
    split; [exact V|]. split; [|exact G]. intros rest H. apply word_lit; auto using stop_word.
  - exists ([(XWord, a)] ++ [(XPunct TDot, [46])] ++ [(XWord, b)]).
    assert (ND : forall x, ~ starts_with word_char (46 :: x)).
    { intros x (c & r & E & W). injection E as <- <-. apply W. cbn. auto 10. }
    destruct (word_lit a NA FA [46] (ND [])) as (V & _ & G).
    destruct (word_lit b NB FB [32] stop_blank) as (V' & _ & G').
    assert (SRC : source ([(XWord, a)] ++ [(XPunct TDot, [46])] ++ [(XWord, b)]) = a ++ [46] ++ b) by (unfold source; cbn; rewrite app_nil_r; reflexivity).
    split; [exact SRC|]. split; [|split].
    + apply Forall_app. split; [exact V|]. constructor; [|exact V']. cbn. exists 46. split; [unfold punct; cbn; auto 10|reflexivity].
    + intros rest H. apply seps_app. split; [apply word_lit; auto; unfold source; cbn; apply ND|].
      apply seps_app. split; [cbn; auto|]. apply word_lit; auto using stop_word.
    + split; [eexists _, _; reflexivity|]. split; [|exact SRC]. apply Forall_cons; [left; reflexivity|]. apply Forall_cons; [right; reflexivity|]. apply Forall_cons; [left; reflexivity|apply Forall_nil].
Qed.

(** ** Numbers *)
Lemma us_plain t : t <> [] -> Forall decimal t -> us decimal t t.
Proof.
  destruct t as [|c r]; [contradiction|]. intros _ F. inversion F; subst. constructor; [assumption|].
  clear F. match goal with H : Forall decimal r |- _ => induction H; constructor; auto end.
Qed.
Lemma dec_decimal n : Forall decimal (dec n).
Proof. apply digit_line. Qed.
Lemma dec_no_zero n : no_leading_zero (dec n).
Proof. destruct (dec_canonical n) as [_ [E|(d & r & E & H)]]; [left; exact E|right; rewrite E; exact H]. Qed.
Lemma dec_lit n : Forall lit_char (dec n).
Proof. eapply Forall_impl; [|apply dec_decimal]. intros c H. left. exact H. Qed.

Lemma int_written z : dec_int (write_int z) z.
Proof.
  assert (H : forall sg neg, sign_text sg neg -> dec_int (sg ++ dec (Z.abs_N z)) (signed neg (dec_val (dec (Z.abs_N z))))).
  { intros sg neg S. constructor; [exact S|apply us_plain; [apply dec_nonempty|apply dec_decimal]|apply dec_no_zero]. }
  rewrite dec_val_dec in H. unfold write_int. destruct (z <? 0)%Z eqn:E.
  - specialize (H [45] true ltac:(constructor)). replace (signed true (Z.abs_N z)) with z in H by (unfold signed; lia). exact H.
  - specialize (H [] false ltac:(constructor)). replace (signed false (Z.abs_N z)) with z in H by (unfold signed; lia). exact H.
Qed.
Lemma int_lit z : lit_text (write_int z).
Proof.
  left. unfold write_int. split.
  - intros E. apply app_eq_nil in E as [_ E]. destruct (dec_nonempty _ E).
  - apply Forall_app. split; [|apply dec_lit]. destruct (z <? 0)%Z; constructor; [unfold lit_char; cbn; auto 10|constructor].
Qed.

Lemma minus_sign (neg : bool) : sign_text (if neg then [45] else []) neg.
Proof. destruct neg; constructor. Qed.
Lemma minus_lit (neg : bool) : Forall lit_char (if neg then [45] else []).
Proof. destruct neg; constructor; [unfold lit_char; cbn; auto 10|constructor]. Qed.

Lemma float_written f : toml_float (write_float f) f.
Proof.
  destruct f as [neg m e|neg|neg]; cbn [write_float].
  - assert (H : forall et, exp_text et e -> et <> [] -> toml_float ((if neg then [45] else []) ++ dec m ++ [] ++ et) (FDec neg (dec_val (dec m ++ [])) (e - Z.of_nat (@length N [])))).
    { intros et H NE. constructor; auto using minus_sign, dec_no_zero; [apply us_plain; [apply dec_nonempty|apply dec_decimal]|constructor]. }
    rewrite app_nil_r, dec_val_dec in H. cbn [length] in H. change (Z.of_nat 0) with 0%Z in H. rewrite Z.sub_0_r in H. cbn [app] in H.
    apply H; [|discriminate].
    pose proof (int_written e) as D. unfold write_int in *.
    assert (X : forall sg neg, sign_text sg neg -> exp_text (101 :: sg ++ dec (Z.abs_N e)) (signed neg (dec_val (dec (Z.abs_N e))))).
    { intros sg ng S. constructor; auto. apply us_plain; [apply dec_nonempty|apply dec_decimal]. }
    rewrite dec_val_dec in X. destruct (e <? 0)%Z eqn:E.
    + specialize (X [45] true ltac:(constructor)). replace (signed true (Z.abs_N e)) with e in X by (unfold signed; lia). exact X.
    + specialize (X [] false ltac:(constructor)). replace (signed false (Z.abs_N e)) with e in X by (unfold signed; lia). exact X.
  - constructor. apply minus_sign.
  - constructor. apply minus_sign.
Qed.
Ltac all_lit := repeat (apply Forall_cons; [unfold lit_char; cbn; lia|]); apply Forall_nil.
Lemma float_lit f : lit_text (write_float f).
Proof.
  left. destruct f as [neg m e|neg|neg]; cbn [write_float]; (split; [intros E; apply app_eq_nil in E as [_ E]; try discriminate E|]).
  - apply app_eq_nil in E as [E _]. destruct (dec_nonempty _ E).
  - apply Forall_app. split; [apply minus_lit|]. apply Forall_app. split; [apply dec_lit|]. apply Forall_app. split; [all_lit|].
    unfold write_int. apply Forall_app. split; [apply minus_lit|apply dec_lit].
  - apply Forall_app. split; [apply minus_lit|]. all_lit.
  - apply Forall_app. split; [apply minus_lit|]. all_lit.
Qed.

(** ** Dates and times *)
Lemma two_lit n : n < 100 -> Forall lit_char (two n).
Proof. intros H. unfold two. repeat (apply Forall_cons; [left|]); [| |apply Forall_nil]; pose proof (N.div_mod n 10 ltac:(lia)); pose proof (N.mod_lt n 10 ltac:(lia)); lia. Qed.
Lemma four_lit n : n <= 9999 -> Forall lit_char (four n).
Proof.
  intros H. assert (n / 1000 < 10) by (apply N.div_lt_upper_bound; lia).
  pose proof (N.mod_lt (n / 100) 10 ltac:(lia)). pose proof (N.mod_lt (n / 10) 10 ltac:(lia)). pose proof (N.mod_lt n 10 ltac:(lia)).
  unfold four. repeat (apply Forall_cons; [left; lia|]). apply Forall_nil.
Qed.
Lemma date_bounds d : valid_date d -> dt_year d <= 9999 /\ dt_month d < 100 /\ dt_day d < 100.
Proof.
  intros (Y & n & M & D). split; [exact Y|]. inversion M; subst; cbn in *; lia.
Qed.
Lemma date_lit d : valid_date d -> date_text d <> [] /\ Forall lit_char (date_text d).
Proof.
  intros V. destruct (date_bounds d V) as (Y & M & D). unfold date_text. split; [discriminate|].
  apply Forall_app. split; [apply four_lit; exact Y|]. apply Forall_app. split; [all_lit|]. apply Forall_app. split; [apply two_lit; exact M|].
  apply Forall_app. split; [all_lit|]. apply two_lit; exact D.
Qed.
Lemma offset_lit o : valid_offset o -> Forall lit_char (write_offset o) /\ exists ot, ot = write_offset o /\ offset_text ot o.
Proof.
  destruct o as [|m]; cbn [write_offset]; intros V.
  - split; [all_lit|]. eexists. split; [reflexivity|]. constructor. auto.
  - cbn in V. set (a := Z.abs_N m). assert (A : a < 1440) by lia.
    assert (H1 : a / 60 < 24) by (apply N.div_lt_upper_bound; lia). assert (H2 : a mod 60 < 60) by (apply N.mod_lt; lia).
    assert (H3 : 60 * (a / 60) + a mod 60 = a) by (symmetry; apply N.div_mod; lia).
    split.
    + apply Forall_app. split; [destruct (m <? 0)%Z; all_lit|]. apply Forall_app. split; [apply two_lit; lia|].
      apply Forall_app. split; [all_lit|apply two_lit; lia].
    + eexists. split; [reflexivity|]. destruct (m <? 0)%Z eqn:E.
      * pose proof (ot_minus (a / 60) (a mod 60) H1 H2) as H. rewrite H3 in H. replace (- Z.of_N a)%Z with m in H by lia. exact H.
      * pose proof (ot_plus (a / 60) (a mod 60) H1 H2) as H. rewrite H3 in H. replace (Z.of_N a) with m in H by lia. exact H.
Qed.

Lemma dec_length k : forall n, n < 10 ^ N.of_nat k -> (0 < k)%nat -> (length (dec n) <= k)%nat.
Proof.
  induction k as [|k IH]; intros n H P; [lia|]. destruct (N.lt_ge_cases n 10) as [L|L].
  - rewrite dec_small by exact L. cbn. lia.
  - rewrite dec_big, app_length by exact L. cbn [length].
    destruct k as [|k]; [cbn in H; lia|].
    assert (length (dec (n / 10)) <= S k)%nat; [|lia]. apply IH; [|lia].
    rewrite Nat2N.inj_succ, N.pow_succ_r' in H. apply N.div_lt_upper_bound; lia.
Qed.
Lemma zeros_val j l : dec_val (repeat 48 j ++ l) = dec_val l.
Proof. induction j as [|j IH]; [reflexivity|]. unfold dec_val in *. cbn [repeat app]. unfold val_acc in *. cbn [fold_left]. exact IH. Qed.
Lemma nine_ok n : n < 1000000000 -> length (nine n) = 9%nat /\ dec_val (nine n) = n /\ Forall decimal (nine n).
Proof.
  intros H. pose proof (dec_length 9 n H ltac:(lia)) as L. unfold nine. split; [rewrite app_length, repeat_length; lia|].
  split; [rewrite zeros_val; apply dec_val_dec|]. apply Forall_app. split; [|apply dec_decimal].
  apply Forall_forall. intros c C. apply repeat_spec in C. subst. unfold decimal. lia.
Qed.
Lemma subsec_written n : n < 1000000000 -> subsec_text (if n =? 0 then [] else [46] ++ nine n) n.
Proof.
  intros H. destruct (n =? 0) eqn:E.
  - apply N.eqb_eq in E. subst. constructor.
  - destruct (nine_ok n H) as (L & V & D). pose proof (ss_some (nine n)) as X.
    rewrite firstn_app, L in X. change (firstn (9 - 9) (repeat 48 9)) with (@nil N) in X. rewrite app_nil_r, <- L, firstn_all, V in X.
    apply X; [|exact D]. intros Z. rewrite Z in L. discriminate.
Qed.
Lemma min_sec_written t : valid_time t ->
  min_sec_text ([58] ++ two (tm_minute t) ++ [58] ++ two (tm_second t) ++ (if tm_nanos t =? 0 then [] else [46] ++ nine (tm_nanos t)))
    (tm_minute t) (tm_second t) (tm_nanos t).
Proof. intros (H & M & S & N). constructor; auto. apply subsec_written, N. Qed.
Lemma time_written t : valid_time t -> time_text (write_time t) t.
Proof.
  intros V. pose proof (min_sec_written t V) as M. destruct V as (H & _). unfold write_time. destruct t as [h m s n]. cbn in *.
  apply (tt_intro h _ m s n H M).
Qed.

(** Text in front of a time, and behind it *)
Lemma time_lit a t b : valid_time t -> Forall lit_char a -> Forall lit_char b -> lit_text (a ++ write_time t ++ b).
Proof.
  intros (H & M & S & N) FA FB. unfold write_time.
  assert (HMS : Forall lit_char (two (tm_hour t) ++ [58] ++ two (tm_minute t) ++ [58] ++ two (tm_second t))).
  { apply Forall_app. split; [apply two_lit; lia|]. apply Forall_app. split; [all_lit|]. apply Forall_app. split; [apply two_lit; lia|].
    apply Forall_app. split; [all_lit|]. apply two_lit; lia. }
  destruct (tm_nanos t =? 0).
  - left. rewrite app_nil_r. split; [intros E; apply app_eq_nil in E as [_ E]; discriminate E|].
    apply Forall_app. split; [exact FA|]. apply Forall_app. split; [exact HMS|exact FB].
  - right. exists (a ++ two (tm_hour t) ++ [58] ++ two (tm_minute t) ++ [58] ++ two (tm_second t)), (nine (tm_nanos t) ++ b).
    destruct (nine_ok _ N) as (L & _ & D).
    split; [rewrite <- !app_assoc; cbn [app]; rewrite <- ?app_assoc; reflexivity|].
    split; [intros E; apply app_eq_nil in E as [_ E]; discriminate E|].
    split; [intros E; apply app_eq_nil in E as [E _]; rewrite E in L; discriminate L|].
    split; [apply Forall_app; auto|]. apply Forall_app. split; [|exact FB]. eapply Forall_impl; [|exact D]. intros c C. left. exact C.
Qed.

Lemma datetime_written d : valid_datetime d -> lit_text (write_datetime d) /\ lenient_datetime (write_datetime d) d.
Proof.
  assert (YT : forall d, valid_date d -> (fun t y => (y <= 9999 /\ t = four y) \/ underscored 4 t y) (four (dt_year d)) (dt_year d)).
  { intros x V. left. split; [apply V|reflexivity]. }
  destruct d as [d t o|d t|d|t]; cbn [valid_datetime write_datetime].
  - intros (VD & VT & VO). destruct (date_lit d VD) as [_ FD]. destruct (offset_lit o VO) as (FO & ot & -> & O).
    split.
    + rewrite app_assoc. apply time_lit; auto. apply Forall_app. split; [exact FD|all_lit].
    + unfold lenient_datetime, date_text. rewrite <- !app_assoc.
      rewrite <- (app_nil_r (write_offset o)). apply (dw_offset _ _ _ _ d 84 _ t _ o []); auto using time_written.
  - intros (VD & VT). destruct (date_lit d VD) as [_ FD]. split.
    + rewrite <- (app_nil_r (write_time t)), app_assoc. apply time_lit; auto. apply Forall_app. split; [exact FD|all_lit].
    + unfold lenient_datetime, date_text. rewrite <- !app_assoc. apply (dw_local _ _ _ _ d 84 _ t); auto using time_written.
  - intros VD. split; [left; apply date_lit; exact VD|]. unfold lenient_datetime, date_text. apply (dw_date _ _ _ _ d); auto.
  - intros VT. split.
    + rewrite <- (app_nil_r (write_time t)). apply (time_lit [] t []); auto.
    + unfold lenient_datetime, write_time. pose proof (min_sec_written t VT) as M. destruct VT as (H & _). destruct t as [h m s n]. cbn in *.
      apply (dw_time _ _ _ (two h) h _ m s n); auto. left. split; [lia|reflexivity].
Qed.

(** ** Values *)
Fixpoint tval_of (v : sval) : tval :=
  match v with
  | CliModel.STable t => TvTab (map (fun kv => ([fst kv], tval_of (snd kv))) t)
  | CliModel.SArray l => TvArr (map tval_of l)
  | SString s => TvStr s
  | SInt z => TvInt z
  | SFloat f => TvFloat f
  | SBool b => TvBool b
  | SDateTime d => TvDate d
  | SInvalid s => TvStr s
  end.

(** Pieces for a text *)
Definition pieces (t : list N) (P : list tile -> Prop) (next : list N -> Prop) : Prop :=
  exists ts, source ts = t /\ Forall LexSpec.valid ts /\ (forall rest, next rest -> seps ts rest) /\ P ts.
Notation one_tile x s := ([(x, s)]) (only parsing).

Lemma source_app a b : source (a ++ b) = source a ++ source b.
Proof. unfold source. rewrite map_app, concat_app. reflexivity. Qed.
Lemma source_cons x s b : source ((x, s) :: b) = s ++ source b.
Proof. reflexivity. Qed.

Lemma string_tile s : LexSpec.valid (XString QBasic s (mkoff 0 1 0 1), write_basic s) /\
  forall rest, ~ starts_with (eq 34) rest -> separated (XString QBasic s (mkoff 0 1 0 1), write_basic s) rest.
Proof.
  split.
  - cbn. exists []. split; [apply write_basic_string|reflexivity].
  - intros rest H. cbn. intros _. exact H.
Qed.
Lemma not_multi : ~ multi QBasic. Proof. intros [H|H]; discriminate. Qed.
Lemma no_start (P : N -> Prop) c r : ~ P c -> ~ starts_with P (c :: r).
Proof. intros H (d & q & E & W). injection E as <- <-. auto. Qed.

Lemma punct_valid ty c : punct ty c -> LexSpec.valid (XPunct ty, [c]).
Proof. intros H. exists c. split; [exact H|reflexivity]. Qed.
Ltac p_in := unfold punct; cbn; auto 10.
Lemma blank_valid : LexSpec.valid (XBlank, [32]).
Proof. right. reflexivity. Qed.

(** A key, an equals sign and a value *)
Lemma pair_pieces k v :
  pieces (write_value v) (fun ts => g_value ts (tval_of v)) stop ->
  exists kt ts, source (kt :: (XBlank, [32]) :: (XPunct TEqual, [61]) :: (XBlank, [32]) :: ts) = write_basic k ++ bs " = " ++ write_value v /\
    Forall LexSpec.valid (kt :: (XBlank, [32]) :: (XPunct TEqual, [61]) :: (XBlank, [32]) :: ts) /\
    (forall rest, stop rest -> seps (kt :: (XBlank, [32]) :: (XPunct TEqual, [61]) :: (XBlank, [32]) :: ts) rest) /\
    g_key [kt] [k] /\ g_value ts (tval_of v).
Proof.
  intros (ts & S & V & P & G). destruct (string_tile k) as [SV SS].
  exists (XString QBasic k (mkoff 0 1 0 1), write_basic k), ts.
  split; [rewrite !source_cons, S; reflexivity|]. split; [|split; [|split]].
  - repeat apply Forall_cons; auto using blank_valid. apply punct_valid. p_in.
  - intros rest H. split; [apply SS; rewrite source_cons; apply no_start; discriminate|]. split; [exact Logic.I|]. split; [exact Logic.I|]. split; [exact Logic.I|]. apply P, H.
  - constructor. constructor. exact not_multi.
  - exact G.
Qed.

Lemma one_blank : blanks [(XBlank, [32])].
Proof. constructor; [reflexivity|constructor]. Qed.
Lemma elems_blank b ts vs : is_blank b -> g_elems ts vs -> g_elems (b :: ts) vs.
Proof.
  intros B G. assert (W : forall w, trivia w -> trivia (b :: w)) by (intros w H; constructor; [left; exact B|exact H]).
  inversion G; subst.
  - apply ge_nil. auto.
  - rewrite app_comm_cons. apply ge_last; auto.
  - rewrite app_comm_cons. apply ge_cons; auto.
Qed.
Lemma fields_blank b ts fs : is_blank b -> g_fields ts fs -> g_fields (b :: ts) fs.
Proof.
  intros B G. assert (W : forall w, blanks w -> blanks (b :: w)) by (intros w H; constructor; [exact B|exact H]).
  inversion G; subst.
  - rewrite app_comm_cons. apply gf_last; auto.
  - rewrite app_comm_cons. apply gf_cons; auto.
Qed.

Lemma elems_pieces l : Forall (fun v => pieces (write_value v) (fun ts => g_value ts (tval_of v)) stop) l ->
  pieces (listed (map write_value l)) (fun ts => g_elems ts (map tval_of l)) (fun rest => exists r, rest = 93 :: r).
Proof.
  induction 1 as [|v l (ts & S & V & P & G) HL IH].
  - exists []. split; [reflexivity|]. split; [constructor|]. split; [intros; exact Logic.I|]. apply ge_nil. constructor.
  - destruct l as [|w l].
    + exists ts. cbn [map listed]. rewrite app_nil_r. split; [exact S|]. split; [exact V|]. split; [intros rest (r & ->); apply P; exists 93, r; cbn; auto|].
      pose proof (ge_last [] ts (tval_of v) [] (Forall_nil _) G (Forall_nil _)) as X. rewrite app_nil_r in X. exact X.
    + destruct IH as (us & S' & V' & P' & G'). exists (ts ++ (XPunct TComma, [44]) :: (XBlank, [32]) :: us).
      split; [rewrite source_app, !source_cons, S, S'; reflexivity|]. split; [|split].
      * apply Forall_app. split; [exact V|]. repeat apply Forall_cons; auto using blank_valid. apply punct_valid. p_in.
      * intros rest R. apply seps_app. split; [apply P; rewrite source_cons; eexists 44, _; split; [reflexivity|cbn; auto]|].
        split; [exact Logic.I|]. split; [exact Logic.I|]. apply P', R.
      * change (map tval_of (v :: w :: l)) with (tval_of v :: map tval_of (w :: l)).
        apply (ge_cons [] ts (tval_of v) [] (XPunct TComma, [44]) ((XBlank, [32]) :: us) _ (Forall_nil _) G (Forall_nil _) eq_refl).
        apply elems_blank; [reflexivity|exact G'].
Qed.

Notation write_pair := (fun kv : list N * sval => write_basic (fst kv) ++ bs " = " ++ write_value (snd kv)).
Notation pair_of := (fun kv : list N * sval => ([fst kv], tval_of (snd kv))).
Lemma fields_pieces t : t <> [] -> Forall (fun kv => pieces (write_value (snd kv)) (fun ts => g_value ts (tval_of (snd kv))) stop) t ->
  pieces (listed (map write_pair t)) (fun ts => g_fields ts (map pair_of t)) (fun rest => exists r, rest = 125 :: r).
Proof.
  intros NE F. induction F as [|[k v] t Hv HL IH]; [contradiction|]. clear NE. cbn [fst snd] in Hv.
  destruct (pair_pieces k v Hv) as (kt & ts & S & V & P & GK & G).
  assert (GF : forall c us fs, is_punct TComma c -> g_fields us fs ->
     g_fields ((kt :: (XBlank, [32]) :: (XPunct TEqual, [61]) :: (XBlank, [32]) :: ts) ++ c :: us) (([k], tval_of v) :: fs)).
  { intros c us fs C GU. exact (gf_cons [] [kt] [k] [(XBlank, [32])] (XPunct TEqual, [61]) [(XBlank, [32])] ts (tval_of v) [] c us fs (Forall_nil _) GK one_blank eq_refl one_blank G (Forall_nil _) C GU). }
  destruct t as [|kv t].
  - exists (kt :: (XBlank, [32]) :: (XPunct TEqual, [61]) :: (XBlank, [32]) :: ts). cbn [map listed]. rewrite app_nil_r.
    split; [exact S|]. split; [exact V|]. split; [intros rest (r & ->); apply P; exists 125, r; cbn; auto|].
    pose proof (gf_last [] [kt] [k] [(XBlank, [32])] (XPunct TEqual, [61]) [(XBlank, [32])] ts (tval_of v) [] (Forall_nil _) GK one_blank eq_refl one_blank G (Forall_nil _)) as X.
    cbn [app] in X. rewrite app_nil_r in X. exact X.
  - destruct (IH ltac:(discriminate)) as (us & S' & V' & P' & G').
    exists ((kt :: (XBlank, [32]) :: (XPunct TEqual, [61]) :: (XBlank, [32]) :: ts) ++ (XPunct TComma, [44]) :: (XBlank, [32]) :: us).
    split; [rewrite source_app, S, !source_cons, S'; reflexivity|]. split; [|split].
    + apply Forall_app. split; [exact V|]. repeat apply Forall_cons; auto using blank_valid. apply punct_valid. p_in.
    + intros rest R. apply seps_app. split; [apply P; rewrite source_cons; eexists 44, _; split; [reflexivity|cbn; auto]|].
      split; [exact Logic.I|]. split; [exact Logic.I|]. apply P', R.
    + cbn [map]. apply GF; [reflexivity|]. apply fields_blank; [reflexivity|exact G'].
Qed.

Lemma lit_pieces t v : lit_text t -> scalar t v -> pieces t (fun ts => g_value ts v) stop.
Proof.
  intros L S. destruct (lit_tiles t L) as (ts & H1 & H2 & H3 & H4). exists ts. repeat (split; [assumption|]). eapply gv_scalar; eassumption.
Qed.

Lemma value_pieces v : toml_value v -> pieces (write_value v) (fun ts => g_value ts (tval_of v)) stop.
Proof.
  induction v as [t IH|l IH|s|z|f|b|d|s] using sval_nest; intros TV; inversion TV; subst; cbn [write_value].
  - assert (F : Forall (fun kv => pieces (write_value (snd kv)) (fun ts => g_value ts (tval_of (snd kv))) stop) t).
    { match goal with H : Forall (fun kv => unicode _ /\ _) t |- _ => rename H into HF end. clear TV.
      rewrite Forall_forall in *. intros kv I. apply IH; [exact I|]. apply HF, I. }
    destruct t as [|kv t].
    + exists [(XPunct TCurlyLeft, [123]); (XPunct TCurlyRight, [125])]. split; [reflexivity|].
      split; [repeat apply Forall_cons; try apply punct_valid; try p_in; constructor|]. split; [intros; repeat split|].
      apply (gv_empty_table (XPunct TCurlyLeft, [123]) (XPunct TCurlyRight, [125]) []); try reflexivity. constructor.
    + destruct (fields_pieces (kv :: t) ltac:(discriminate) F) as (ts & S & V & P & G).
      exists ((XPunct TCurlyLeft, [123]) :: ts ++ [(XPunct TCurlyRight, [125])]).
      split; [rewrite source_cons, source_app, S; reflexivity|]. split; [|split].
      * apply Forall_cons; [apply punct_valid; p_in|]. apply Forall_app. split; [exact V|]. apply Forall_cons; [apply punct_valid; p_in|constructor].
      * intros rest R. split; [exact Logic.I|]. apply seps_app. split; [|repeat split]. apply P. eexists. reflexivity.
      * apply gv_table; [reflexivity|reflexivity|]. exact G.
  - assert (F : Forall (fun v => pieces (write_value v) (fun ts => g_value ts (tval_of v)) stop) l).
    { match goal with H : Forall toml_value l |- _ => rename H into HF end. clear TV.
      rewrite Forall_forall in *. intros kv I. apply IH; [exact I|]. apply HF, I. }
    destruct (elems_pieces l F) as (ts & S & V & P & G).
    exists ((XPunct TSquareLeft, [91]) :: ts ++ [(XPunct TSquareRight, [93])]).
    split; [rewrite source_cons, source_app, S; reflexivity|]. split; [|split].
    + apply Forall_cons; [apply punct_valid; p_in|]. apply Forall_app. split; [exact V|]. apply Forall_cons; [apply punct_valid; p_in|constructor].
    + intros rest R. split; [exact Logic.I|]. apply seps_app. split; [|repeat split]. apply P. eexists. reflexivity.
    + apply gv_array; [reflexivity|reflexivity|exact G].
  - destruct (string_tile s) as [SV SS]. exists [(XString QBasic s (mkoff 0 1 0 1), write_basic s)].
    split; [unfold source; cbn [map concat snd]; apply app_nil_r|]. split; [constructor; [exact SV|constructor]|]. split.
    + intros rest R. apply seps_one, SS. apply (stop_quote rest QBasic R).
    + constructor.
  - apply lit_pieces; [apply int_lit|]. apply sc_dec; [apply int_written|]. unfold in_i64, i64_min, i64_max. lia.
  - apply lit_pieces; [apply float_lit|]. apply sc_float. left. apply float_written.
  - destruct b.
    + apply lit_pieces; [left; split; [discriminate|all_lit]|]. apply sc_bool. constructor.
    + apply lit_pieces; [left; split; [discriminate|all_lit]|]. apply sc_bool. constructor.
  - destruct (datetime_written d) as [L D]; [assumption|]. apply lit_pieces; [exact L|]. apply sc_date, D.
Qed.

(** ** Documents *)
Notation assign_of := (fun kv : list N * sval => SAssign [fst kv] (tval_of (snd kv))).
Lemma document_pieces t : Forall (fun kv => toml_value (snd kv)) t ->
  exists ts, lexical ts (write_document t) /\ g_doc ts (map assign_of t).
Proof.
  assert (G : forall ts, Forall (fun kv => toml_value (snd kv)) ts ->
    exists us, source us = write_document ts /\ Forall LexSpec.valid us /\ seps us [] /\ g_doc us (map assign_of ts)).
  { induction 1 as [|[k v] l Hv HL (us & S' & V' & P' & G')].
    - exists []. split; [reflexivity|]. split; [constructor|]. split; [exact Logic.I|]. apply (gd_last [] [] []); constructor. constructor.
    - cbn [fst snd] in Hv. destruct (pair_pieces k v (value_pieces v Hv)) as (kt & ts & S & V & P & GK & GV).
      exists ((kt :: (XBlank, [32]) :: (XPunct TEqual, [61]) :: (XBlank, [32]) :: ts) ++ (XNewline, [10]) :: us).
      split; [|split; [|split]].
      + unfold write_document in *. cbn [flat_map fst snd]. rewrite source_app, S, source_cons, S', <- !app_assoc. reflexivity.
      + apply Forall_app. split; [exact V|]. apply Forall_cons; [left; reflexivity|exact V'].
      + apply seps_app. split; [apply P; rewrite source_cons; eexists 10, _; split; [reflexivity|cbn; auto 10]|]. split; [exact Logic.I|exact P'].
      + set (LN := kt :: (XBlank, [32]) :: (XPunct TEqual, [61]) :: (XBlank, [32]) :: ts).
        assert (X : g_line LN [SAssign [k] (tval_of v)]).
        { rewrite <- (app_nil_r LN). apply (gl_stmt [] LN (SAssign [k] (tval_of v)) []); [constructor| |constructor].
          exact (gs_assign [kt] [k] [(XBlank, [32])] (XPunct TEqual, [61]) [(XBlank, [32])] ts (tval_of v) GK one_blank eq_refl one_blank GV). }
        exact (gd_line LN [SAssign [k] (tval_of v)] [] [10] us (map assign_of l) X gc_none G'). }
  intros F. destruct (G t F) as (us & S & V & P & D). exists us. split; [|exact D]. split; [exact S|]. split; [exact V|]. apply seps_all, P.
Qed.

(** ** What such a document says *)
Fixpoint numbered {A} (l : list A) (i : N) : list (step * A) :=
  match l with [] => [] | x :: r => (SIdx i, x) :: numbered r (i + 1) end.
(** The parts of a value, one step below it *)
Definition children (v : sval) : list (step * sval) :=
  match v with
  | CliModel.STable t => map (fun kv => (SKey (fst kv), snd kv)) t
  | CliModel.SArray l => numbered l 0
  | _ => []
  end.

Lemma numbered_values {A} (l : list A) : forall i, map snd (numbered l i) = l.
Proof. induction l as [|x l IH]; intros i; cbn; [reflexivity|]. rewrite IH. reflexivity. Qed.
Lemma numbered_in {A} (l : list A) : forall i s x, In (s, x) (numbered l i) <-> exists j, s = SIdx (i + N.of_nat j) /\ nth_error l j = Some x.
Proof.
  induction l as [|y l IH]; intros i s x; cbn [numbered In].
  - split; [contradiction|]. intros ([|j] & _ & H); discriminate H.
  - rewrite IH. split.
    + intros [E|(j & -> & H)]; [injection E as <- <-; exists 0%nat; split; [f_equal; lia|reflexivity]|exists (S j); split; [f_equal; lia|exact H]].
    + intros ([|j] & -> & H); [left; injection H as ->; f_equal; f_equal; lia|right; exists j; split; [f_equal; lia|exact H]].
Qed.
Lemma numbered_nodup {A} (l : list A) : forall i, NoDup (map fst (numbered l i)).
Proof.
  induction l as [|x l IH]; intros i; cbn; constructor; [|apply IH].
  intros H. apply in_map_iff in H as ((s & y) & E & H). apply numbered_in in H as (j & -> & _). cbn in E. injection E. lia.
Qed.

Lemma child_ind (P : sval -> Prop) : (forall v, Forall (fun c => P (snd c)) (children v) -> P v) -> forall v, P v.
Proof.
  intros H v. induction v as [t IH|l IH|s|z|f|b|d|s] using sval_nest; apply H; cbn [children]; try constructor.
  - apply Forall_map. exact IH.
  - apply (Forall_map snd). rewrite numbered_values. exact IH.
Qed.

Lemma children_values v : toml_value v -> Forall (fun c => toml_value (snd c)) (children v) /\ NoDup (map fst (children v)).
Proof.
  intros [t ND F|l F|s U|z B|f|b|d V]; cbn [children]; try (split; constructor; fail).
  - split; [apply Forall_map; eapply Forall_impl; [|exact F]; intros kv [_ X]; exact X|].
    rewrite map_map. cbn [fst]. clear F. induction t as [|kv t IH]; cbn [map] in *; [constructor|]. inversion ND; subst. constructor; [|auto].
    intros X. apply in_map_iff in X as (y & E & X). injection E as E. match goal with H : ~ In _ _ |- _ => apply H end. rewrite <- E. apply in_map. exact X.
  - split; [apply (Forall_map snd); rewrite numbered_values; exact F|apply numbered_nodup].
Qed.

Lemma sget_in t k x : NoDup (map fst t) -> (sget t k = Some x <-> In (k, x) t).
Proof.
  induction t as [|[a y] t IH]; intros ND; cbn [sget In].
  - split; [discriminate|contradiction].
  - inversion ND; subst. destruct (list_eq_dec N.eq_dec a k) as [->|NE].
    + split; [intros E; injection E as ->; auto|]. intros [E|H]; [injection E as ->; reflexivity|].
      exfalso. match goal with H : ~ In _ _ |- _ => apply H end. apply (in_map fst _ _ H).
    + rewrite IH by assumption. split; [auto|]. intros [E|H]; [injection E as E _; contradiction|exact H].
Qed.

Lemma at_child v s p x : toml_value v -> (sval_at (s :: p) v = Some x <-> exists c, In (s, c) (children v) /\ sval_at p c = Some x).
Proof.
  intros TV. destruct s as [k|i]; cbn [sval_at].
  - destruct v as [t|l| | | | | |]; cbn [children]; try (split; [discriminate|intros (c & [] & _)]; fail).
    + inversion TV; subst. split.
      * destruct (sget t k) as [c|] eqn:E; [|discriminate]. intros H2. exists c. split; [|exact H2]. apply sget_in in E; [|assumption].
        apply in_map_iff. exists (k, c). auto.
      * intros (c & I & H2). apply in_map_iff in I as ([a y] & E & I). cbn in E. injection E as -> ->. apply sget_in in I; [|assumption]. rewrite I. exact H2.
    + split; [discriminate|]. intros (c & I & _). apply numbered_in in I as (j & E & _). discriminate E.
  - destruct v as [t|l| | | | | |]; cbn [children]; try (split; [discriminate|intros (c & [] & _)]; fail).
    + split; [discriminate|]. intros (c & I & _). apply in_map_iff in I as (y & E & _). discriminate E.
    + split.
      * destruct (nth_error l (N.to_nat i)) as [c|] eqn:E; [|discriminate]. intros H. exists c. split; [|exact H]. apply numbered_in.
        exists (N.to_nat i). split; [f_equal; lia|exact E].
      * intros (c & I & H). apply numbered_in in I as (j & E & N). injection E as ->. replace (N.to_nat (0 + N.of_nat j)) with j by lia. rewrite N. exact H.
Qed.

Notation says v p := (said_value (tval_of v) p).
Lemma says_eq v p : says v p = (p, PValue (tval_of v)) :: flat_map (fun c => says (snd c) (p ++ [fst c])) (children v).
Proof.
  destruct v as [t|l|s|z|f|b|d|s]; cbn [tval_of said_value children]; try reflexivity; f_equal.
  - rewrite !flat_map_concat_map, !map_map. reflexivity.
  - generalize 0. induction l as [|x l IH]; intros i; cbn [map numbered flat_map fst snd]; [reflexivity|]. rewrite IH. reflexivity.
Qed.

Lemma in_says v : toml_value v -> forall p q r, In (q, r) (says v p) <-> exists p' x, q = p ++ p' /\ sval_at p' v = Some x /\ r = PValue (tval_of x).
Proof.
  induction v as [v IH] using child_ind. intros TV p q r. destruct (children_values v TV) as [CV _].
  rewrite says_eq. cbn [In]. rewrite in_flat_map. rewrite Forall_forall in IH, CV. split.
  - intros [E|((s & c) & I & H)].
    + injection E as <- <-. exists [], v. rewrite app_nil_r. auto.
    + cbn [fst snd] in H. apply (IH _ I) in H as (p' & x & -> & H & ->); [|apply (CV _ I)].
      exists (s :: p'), x. rewrite <- app_assoc. split; [reflexivity|]. split; [|reflexivity]. apply at_child; [exact TV|]. exists c. auto.
  - intros ([|s p'] & x & -> & H & ->).
    + left. rewrite app_nil_r. cbn in H. injection H as ->. reflexivity.
    + right. apply at_child in H as (c & I & H); [|exact TV]. exists (s, c). split; [exact I|]. cbn [fst snd].
      apply (IH _ I); [apply (CV _ I)|]. exists p', x. rewrite <- app_assoc. auto.
Qed.

Lemma nodup_app {A} (a b : list A) : NoDup a -> NoDup b -> (forall x, In x a -> In x b -> False) -> NoDup (a ++ b).
Proof.
  induction 1 as [|x a H N IH]; intros HB D; cbn [app]; [exact HB|]. constructor.
  - intros I. apply in_app_or in I as [I|I]; [contradiction|]. apply (D x); [left; reflexivity|exact I].
  - apply IH; [exact HB|]. intros y I J. apply (D y); [right; exact I|exact J].
Qed.

Lemma says_nodup v : toml_value v -> forall p, NoDup (map fst (says v p)).
Proof.
  induction v as [v IH] using child_ind. intros TV p. destruct (children_values v TV) as [CV ND].
  rewrite says_eq. cbn [map fst].
  assert (PRE : forall c q, In c (children v) -> In q (map fst (says (snd c) (p ++ [fst c]))) -> exists p', q = p ++ fst c :: p').
  { intros c q I H. apply in_map_iff in H as ((q' & r) & <- & H). rewrite Forall_forall in CV. apply in_says in H as (p' & x & -> & _); [|apply CV, I].
    exists p'. rewrite <- app_assoc. reflexivity. }
  revert IH CV ND PRE. generalize (children v). clear. intros cs IH CV ND PRE. constructor.
  - intros H. apply in_map_iff in H as (x & E & H). apply in_flat_map in H as (c & I & H). assert (IP : In p (map fst (says (snd c) (p ++ [fst c])))) by (apply in_map_iff; exists x; auto).
    destruct (PRE c p I IP) as (p' & EP).
    rewrite <- (app_nil_r p) in EP at 1. apply app_inv_head in EP. discriminate.
  - induction cs as [|c cs IHc]; cbn [flat_map]; [constructor|].
    inversion IH; subst. inversion CV; subst. inversion ND; subst. rewrite map_app. apply nodup_app.
    + auto.
    + apply IHc; auto. intros c' q I. apply PRE. right. exact I.
    + intros q Q1 Q2. destruct (PRE c q ltac:(left; reflexivity) Q1) as (p1 & ->).
      apply in_map_iff in Q2 as (x & E & Q2). apply in_flat_map in Q2 as (c' & I & Q2).
      destruct (PRE c' (fst x) ltac:(right; exact I) ltac:(apply in_map; exact Q2)) as (p2 & E2). rewrite E in E2. apply app_inv_head in E2. injection E2 as E2 _.
      match goal with H : ~ In (fst c) _ |- _ => apply H end. rewrite E2. apply in_map. exact I.
Qed.

(** The keys right below a place *)
Fixpoint strip (p q : list step) : option (list step) :=
  match p, q with
  | [], _ => Some q
  | a :: p, b :: q => if step_eq_dec a b then strip p q else None
  | _ :: _, [] => None
  end.
Lemma strip_some p : forall q r, strip p q = Some r <-> q = p ++ r.
Proof.
  induction p as [|a p IH]; intros q r; cbn [strip app]; [split; congruence|].
  destruct q as [|b q]; [split; discriminate|]. destruct (step_eq_dec a b) as [->|NE]; [rewrite IH; split; congruence|split; congruence].
Qed.
Lemma strip_self p r : strip p (p ++ r) = Some r.
Proof. apply strip_some. reflexivity. Qed.
Definition key_below (p : list step) (x : list step * part) : list (list N) := match strip p (fst x) with Some [SKey k] => [k] | _ => [] end.
Definition below (p : list step) (d : list (list step * part)) : list (list N) := flat_map (key_below p) d.

Lemma below_said p d : said_below p d (below p d).
Proof.
  induction d as [|[q r] d IH]; [constructor|]. unfold below. cbn [flat_map]. fold (below p d). unfold key_below. cbn [fst].
  assert (SKIP : (forall k, q <> p ++ [SKey k]) -> said_below p ((q, r) :: d) ([] ++ below p d)) by (intros H; constructor; assumption).
  destruct (strip p q) as [[|[k|i] [|s l]]|] eqn:E; try (apply SKIP; intros k' ->; rewrite strip_self in E; discriminate E).
  apply strip_some in E as ->. constructor. exact IH.
Qed.

Definition keys_of_value (v : option sval) : list (list N) := match v with Some (CliModel.STable t) => map fst t | _ => [] end.

Lemma below_nothing p d : (forall x, In x d -> strip p (fst x) = None) -> below p d = [].
Proof.
  induction d as [|x d IH]; intros H; [reflexivity|]. unfold below. cbn [flat_map]. fold (below p d). rewrite IH by (intros y Y; apply H; right; exact Y).
  unfold key_below. rewrite (H x) by (left; reflexivity). reflexivity.
Qed.

Lemma below_says v : toml_value v -> forall p p', below (p ++ p') (says v p) = keys_of_value (sval_at p' v).
Proof.
  induction v as [v IH] using child_ind. intros TV p p'. destruct (children_values v TV) as [CV ND].
  rewrite says_eq. unfold below. cbn [flat_map]. fold (below (p ++ p')). rewrite Forall_forall in CV, IH.
  assert (FM : forall cs, below (p ++ p') (flat_map (fun c => says (snd c) (p ++ [fst c])) cs) = flat_map (fun c => below (p ++ p') (says (snd c) (p ++ [fst c]))) cs).
  { intros cs. unfold below. induction cs as [|c cs IHc]; [reflexivity|]. cbn [flat_map]. rewrite flat_map_app, IHc. reflexivity. }
  change (flat_map (key_below (p ++ p')) (flat_map (fun c => says (snd c) (p ++ [fst c])) (children v))) with (below (p ++ p') (flat_map (fun c => says (snd c) (p ++ [fst c])) (children v))).
  rewrite FM. clear FM. destruct p' as [|s p'].
  - rewrite app_nil_r. unfold key_below at 1. cbn [fst]. rewrite <- (app_nil_r p) at 2. rewrite strip_self. cbn [app].
    assert (ONE : forall c, In c (children v) -> below p (says (snd c) (p ++ [fst c])) = match fst c with SKey k => [k] | SIdx _ => [] end).
    { intros [s c] I. cbn [fst snd]. rewrite says_eq. unfold below. cbn [flat_map]. unfold key_below at 1. cbn [fst]. rewrite strip_self.
      assert (Z : flat_map (key_below p) (flat_map (fun c0 => says (snd c0) ((p ++ [s]) ++ [fst c0])) (children c)) = []).
      { assert (Z : forall x, In x (flat_map (fun c0 => says (snd c0) ((p ++ [s]) ++ [fst c0])) (children c)) -> key_below p x = []).
        { intros [q r] H. apply in_flat_map in H as ((s2 & c2) & I2 & H). cbn [fst snd] in H. pose proof (CV _ I) as TC. cbn [snd] in TC.
          destruct (children_values c TC) as [CV2 _]. rewrite Forall_forall in CV2.
          apply in_says in H as (p2 & x & -> & _); [|apply (CV2 _ I2)]. unfold key_below. cbn [fst]. rewrite <- !app_assoc, strip_self. destruct s; reflexivity. }
        revert Z. generalize (flat_map (fun c0 => says (snd c0) ((p ++ [s]) ++ [fst c0])) (children c)). intros l Z. induction l as [|x l IHl]; [reflexivity|].
        cbn [flat_map]. rewrite Z by (left; reflexivity). apply IHl. intros y Y. apply Z. right. exact Y. }
      rewrite Z, app_nil_r. reflexivity. }
    cbn [sval_at keys_of_value].
    assert (ALL : forall cs, (forall c, In c cs -> In c (children v)) -> flat_map (fun c => below p (says (snd c) (p ++ [fst c]))) cs = flat_map (fun c => match fst c with SKey k => [k] | SIdx _ => [] end) cs).
    { induction cs as [|c cs IHc]; intros H; [reflexivity|]. cbn [flat_map]. rewrite ONE by (apply H; left; reflexivity). rewrite IHc by (intros; apply H; right; assumption). reflexivity. }
    rewrite ALL by auto. destruct v as [t|l| | | | | |]; try reflexivity; cbn [children].
    + clear. induction t as [|kv t IH]; [reflexivity|]. cbn [map flat_map fst]. rewrite IH. reflexivity.
    + clear. generalize 0. induction l as [|x l IH]; intros i; [reflexivity|]. cbn [numbered flat_map fst]. apply IH.
  - unfold key_below at 1. cbn [fst].
    assert (N : strip (p ++ s :: p') p = None).
    { destruct (strip (p ++ s :: p') p) as [r|] eqn:E; [|reflexivity]. apply strip_some in E. rewrite <- (app_nil_r p), <- !app_assoc in E. apply app_inv_head in E. discriminate. }
    rewrite N. cbn [app]. clear N.
    assert (OTHER : forall c, In c (children v) -> fst c <> s -> below (p ++ s :: p') (says (snd c) (p ++ [fst c])) = []).
    { intros [s2 c] I NE. cbn [fst snd] in *. apply below_nothing. intros [q r] H. apply in_says in H as (p2 & x & -> & _); [|apply (CV _ I)].
      cbn [fst]. destruct (strip _ _) as [z|] eqn:E; [|reflexivity]. exfalso. apply strip_some in E. rewrite <- !app_assoc in E. apply app_inv_head in E. cbn in E. congruence. }
    assert (SAME : forall c, In c (children v) -> fst c = s -> below (p ++ s :: p') (says (snd c) (p ++ [fst c])) = keys_of_value (sval_at p' (snd c))).
    { intros [s2 c] I E. cbn [fst snd] in *. subst s2. pose proof (IH _ I (CV _ I) (p ++ [s]) p') as X. cbn [snd] in X. rewrite <- app_assoc in X. exact X. }
    assert (G : forall cs, (forall c, In c cs -> In c (children v)) -> NoDup (map fst cs) ->
      (forall c, In (s, c) cs -> flat_map (fun c => below (p ++ s :: p') (says (snd c) (p ++ [fst c]))) cs = keys_of_value (sval_at p' c)) /\
      ((forall c, ~ In (s, c) cs) -> flat_map (fun c => below (p ++ s :: p') (says (snd c) (p ++ [fst c]))) cs = [])).
    { induction cs as [|[s2 c2] cs IHc]; intros SUB NDc.
      - split; [intros c []|reflexivity].
      - cbn [map fst] in NDc. inversion NDc; subst. destruct IHc as [I1 I2]; [intros c X; apply SUB; right; exact X|assumption|]. cbn [flat_map]. split.
        + intros c [E|I].
          * injection E as -> ->. rewrite (SAME (s, c)) by (try (apply SUB; left); reflexivity). rewrite I2; [apply app_nil_r|].
            intros c' I. match goal with H : ~ In s _ |- _ => apply H end. apply (in_map fst _ _ I).
          * rewrite (OTHER (s2, c2)); [cbn [app]; apply I1; exact I|apply SUB; left; reflexivity|]. cbn [fst]. intros ->.
            match goal with H : ~ In s _ |- _ => apply H end. apply (in_map fst _ _ I).
        + intros H. rewrite (OTHER (s2, c2)); [cbn [app]; apply I2; intros c I; apply (H c); right; exact I|apply SUB; left; reflexivity|].
          cbn [fst]. intros ->. apply (H c2). left. reflexivity. }
    destruct (G (children v) (fun _ X => X) ND) as [G1 G2].
    destruct (in_dec step_eq_dec s (map fst (children v))) as [I|NI].
    + apply in_map_iff in I as ((s2 & c) & E & I). cbn in E. subst s2. rewrite (G1 c I).
      destruct (sval_at p' c) as [x|] eqn:E.
      * assert (X : sval_at (s :: p') v = Some x) by (apply at_child; [exact TV|]; exists c; auto). rewrite X. reflexivity.
      * destruct (sval_at (s :: p') v) as [x|] eqn:E2; [|reflexivity]. exfalso. apply at_child in E2 as (c' & I' & E2); [|exact TV].
        assert (c' = c); [|subst; congruence]. clear - ND I I'. revert ND I I'. generalize (children v). intros l ND I I'. induction l as [|[a y] l IHl]; [contradiction|].
        cbn [map fst] in ND. inversion ND; subst. destruct I as [I|I], I' as [I'|I']; try congruence; [| |auto].
        -- injection I as -> ->. exfalso. match goal with H : ~ In s _ |- _ => apply H end. apply (in_map fst _ _ I').
        -- injection I' as -> ->. exfalso. match goal with H : ~ In s _ |- _ => apply H end. apply (in_map fst _ _ I).
    + rewrite G2 by (intros c I; apply NI; apply (in_map fst _ _ I)).
      destruct (sval_at (s :: p') v) as [x|] eqn:E2; [|reflexivity]. exfalso. apply at_child in E2 as (c' & I' & E2); [|exact TV]. apply NI, (in_map fst _ _ I').
Qed.

(** ** The document *)
Lemma sub_value v : toml_value v -> forall p x, sval_at p v = Some x -> toml_value x.
Proof.
  induction v as [v IH] using child_ind. intros TV [|s p] x E.
  - cbn in E. injection E as <-. exact TV.
  - apply at_child in E as (c & I & E); [|exact TV]. destruct (children_values v TV) as [CV _]. rewrite Forall_forall in IH, CV.
    exact (IH _ I (CV _ I) p x E).
Qed.

Lemma doc_said t : said_by (map assign_of t) = tl (says (CliModel.STable t) []).
Proof.
  unfold said_by. rewrite says_eq. cbn [tl children].
  assert (G : forall d, said_from d [] (map assign_of t) = d ++ flat_map (fun c => says (snd c) ([] ++ [fst c])) (map (fun kv => (SKey (fst kv), snd kv)) t)).
  { induction t as [|kv t IH]; intros d; cbn [map said_from flat_map fst snd said_key app]; [rewrite app_nil_r; reflexivity|].
    rewrite IH, <- app_assoc. reflexivity. }
  apply (G []).
Qed.

Lemma firsts_nodup {A} (l : list A) : NoDup l -> firsts l l.
Proof.
  induction l as [|x l IH] using rev_ind; intros N; [constructor|]. apply NoDup_remove in N as [N NI]. rewrite app_nil_r in N, NI.
  constructor; auto.
Qed.

Lemma doc_consistent t : toml_value (CliModel.STable t) -> consistent (map assign_of t).
Proof.
  intros TV x y (a & b & c & E) F. exfalso. rewrite doc_said in E. pose proof (says_nodup _ TV []) as N.
  revert E N. generalize (says (CliModel.STable t) []). intros [|h r] E N; cbn [tl] in E; [destruct a; discriminate E|].
  cbn [map] in N. inversion N as [|? ? _ N2]; subst. rewrite map_app in N2. cbn [map] in N2. rewrite map_app in N2. cbn [map] in N2.
  apply NoDup_remove_2 in N2. apply N2. rewrite F. apply in_or_app. right. apply in_or_app. right. left. reflexivity.
Qed.

Lemma doc_means t : toml_value (CliModel.STable t) -> means (map assign_of t) (CliModel.STable t).
Proof.
  intros TV p.
  assert (IN : forall q r, In (q, r) (said_by (map assign_of t)) -> exists x, sval_at q (CliModel.STable t) = Some x /\ r = PValue (tval_of x)).
  { intros q r H. rewrite doc_said in H. assert (H2 : In (q, r) (says (CliModel.STable t) [])) by (rewrite says_eq in *; right; exact H).
    apply in_says in H2 as (p' & x & -> & E & ->); [|exact TV]. exists x. auto. }
  assert (CON : forall q x, q <> [] -> sval_at q (CliModel.STable t) = Some x -> In (q, PValue (tval_of x)) (said_by (map assign_of t))).
  { intros q x NE E. assert (H : In (q, PValue (tval_of x)) (says (CliModel.STable t) [])) by (apply in_says; [exact TV|]; exists q, x; auto).
    rewrite doc_said. rewrite says_eq in *. destruct H as [H|H]; [injection H as H _; congruence|exact H]. }
  destruct (sval_at p (CliModel.STable t)) as [x|] eqn:E.
  - pose proof (sub_value _ TV _ _ E) as TX.
    assert (NT : (forall t', x <> CliModel.STable t') -> p <> []).
    { intros N ->. cbn in E. injection E as <-. apply (N t). reflexivity. }
    destruct x as [t'|l|s|z|f|b|d|s].
    + exists (HTable (map fst t')). split; [reflexivity|]. apply (ha_table _ _ (below p (said_by (map assign_of t)))).
      * destruct p as [|a p]; [left; reflexivity|]. right. eexists. split; [apply CON; [discriminate|exact E]|]. exact Logic.I.
      * apply below_said.
      * assert (B : below p (said_by (map assign_of t)) = map fst t').
        { rewrite doc_said. pose proof (below_says _ TV [] p) as B. cbn [app] in B. rewrite E in B. cbn [keys_of_value] in B.
          rewrite says_eq in *. cbn [tl]. unfold below in B. cbn [flat_map] in B. unfold key_below at 1 in B. cbn [fst] in B.
          destruct p as [|a p]; exact B. }
        rewrite B. apply firsts_nodup. inversion TX; subst. assumption.
    + exists (HArray (N.of_nat (length l))). split; [reflexivity|]. specialize (CON p _ (NT ltac:(discriminate)) E). cbn [tval_of] in CON.
      pose proof (ha_array _ _ _ CON) as X. rewrite map_length in X. exact X.
    + eexists; split; [reflexivity|]. apply (ha_scalar _ _ (TvStr s)); [|exact Logic.I]. apply (CON p _ (NT ltac:(discriminate)) E).
    + eexists; split; [reflexivity|]. apply (ha_scalar _ _ (TvInt z)); [|exact Logic.I]. apply (CON p _ (NT ltac:(discriminate)) E).
    + eexists; split; [reflexivity|]. apply (ha_scalar _ _ (TvFloat f)); [|exact Logic.I]. apply (CON p _ (NT ltac:(discriminate)) E).
    + eexists; split; [reflexivity|]. apply (ha_scalar _ _ (TvBool b)); [|exact Logic.I]. apply (CON p _ (NT ltac:(discriminate)) E).
    + eexists; split; [reflexivity|]. apply (ha_scalar _ _ (TvDate d)); [|exact Logic.I]. apply (CON p _ (NT ltac:(discriminate)) E).
    + inversion TX.
  - intros h H. inversion H as [l ks HP HB HF|HI|l HI|v HI HS]; subst.
    + destruct HP as [-> |(r & HI & _)]; [discriminate E|]. apply IN in HI as (x & EX & _). congruence.
    + apply IN in HI as (x & _ & EX). discriminate.
    + apply IN in HI as (x & EX & _). congruence.
    + apply IN in HI as (x & EX & _). congruence.
Qed.

Lemma nest_depth v : nest (tval_of v) = depth v.
Proof.
  induction v as [t IH|l IH|s|z|f|b|d|s] using sval_nest; try reflexivity; cbn [tval_of nest depth]; f_equal; rewrite map_map.
  - f_equal. cbn [snd]. induction IH as [|kv t H HL IH2]; [reflexivity|]. cbn [map]. f_equal; assumption.
  - f_equal. induction IH as [|kv t H HL IH2]; [reflexivity|]. cbn [map]. f_equal; assumption.
Qed.

Lemma doc_nesting t : depth (CliModel.STable t) <= 101 -> nesting_ok 0 (map assign_of t).
Proof.
  cbn [depth]. induction t as [|kv t IH]; intros H; cbn [map nesting_ok fold_right] in *; [exact Logic.I|]. rewrite nest_depth. split; [lia|apply IH; lia].
Qed.

(** *** Only unicode scalar values *)
Lemma lit_char_scalars t : lit_text t -> scalars t.
Proof.
  assert (L : forall s, Forall lit_char s -> scalars s).
  { intros s F. eapply Forall_impl; [|exact F]. intros c H. unfold lit_char in H. cbn in H. unfold is_scalar. lia. }
  intros [[_ F]|(a & b & -> & _ & _ & FA & FB)]; [apply L, F|]. apply Forall_app. split; [apply L, FA|]. constructor; [reflexivity|apply L, FB].
Qed.
Lemma basic_scalars s : unicode s -> scalars (write_basic s).
Proof.
  intros U. unfold write_basic. apply Forall_app. split; [repeat constructor|]. apply Forall_app. split; [|repeat constructor].
  induction U as [|c s H HL IH]; cbn [flat_map]; [constructor|]. apply Forall_app. split; [|exact IH]. unfold write_char.
  destruct (c =? 34); [repeat constructor|]. destruct (c =? 92); [repeat constructor|]. destruct (c =? 9); [repeat constructor|].
  destruct ((c <=? 31) || (c =? 127)) eqn:E; [|constructor; [exact H|constructor]].
  assert (HX : forall n, n < 16 -> is_scalar (hex_of n) = true).
  { intros n L. unfold hex_of, is_scalar. destruct (n <? 10) eqn:E2; lia. }
  repeat (apply Forall_cons; [first [reflexivity|apply HX]|]); try apply Forall_nil.
  - apply N.div_lt_upper_bound; lia.
  - apply N.mod_lt. lia.
Qed.
Lemma listed_scalars l : Forall scalars l -> scalars (listed l).
Proof.
  induction 1 as [|x l H HL IH]; cbn [listed]; [constructor|]. apply Forall_app. split; [exact H|]. destruct l; [constructor|].
  apply Forall_app. split; [repeat constructor|exact IH].
Qed.
Lemma value_scalars v : toml_value v -> scalars (write_value v).
Proof.
  induction v as [t IH|l IH|s|z|f|b|d|s] using sval_nest; intros TV; inversion TV; subst; cbn [write_value].
  - apply Forall_app. split; [repeat constructor|]. apply Forall_app. split; [|repeat constructor]. apply listed_scalars.
    match goal with H : Forall (fun kv => unicode _ /\ _) t |- _ => rename H into HF end. clear TV.
    apply Forall_map. rewrite Forall_forall in *. intros kv I. destruct (HF _ I) as [UK TV].
    apply Forall_app. split; [apply basic_scalars, UK|]. apply Forall_app. split; [repeat constructor|]. apply IH; assumption.
  - apply Forall_app. split; [repeat constructor|]. apply Forall_app. split; [|repeat constructor]. apply listed_scalars.
    match goal with H : Forall toml_value l |- _ => rename H into HF end. clear TV.
    apply Forall_map. rewrite Forall_forall in *. auto.
  - apply basic_scalars. assumption.
  - apply lit_char_scalars, int_lit.
  - apply lit_char_scalars, float_lit.
  - destruct b; repeat constructor.
  - apply lit_char_scalars, datetime_written. assumption.
Qed.
Lemma document_scalars t : toml_value (CliModel.STable t) -> scalars (write_document t).
Proof.
  intros TV. inversion TV as [? _ F| | | | | |]; subst. unfold write_document. clear TV. induction F as [|kv t [U V] HL IH]; cbn [flat_map]; [constructor|].
  apply Forall_app. split; [|exact IH]. apply Forall_app. split; [apply basic_scalars, U|]. apply Forall_app. split; [repeat constructor|].
  apply Forall_app. split; [apply value_scalars, V|repeat constructor].
Qed.

(** ** Theorems *)

(** C82: the text written for a value is a TOML document that says it. *)
Theorem C82_document : forall t, toml_value (CliModel.STable t) -> depth (CliModel.STable t) <= 101 ->
  exists d, toml_doc (write_document t) d /\ consistent d /\ means d (CliModel.STable t).
Proof.
  intros t TV D. exists (map assign_of t). split; [|split; [apply doc_consistent, TV|apply doc_means, TV]].
  destruct (document_pieces t) as (ts & L & G).
  - inversion TV as [? _ F| | | | | |]; subst. eapply Forall_impl; [|exact F]. intros kv [_ X]. exact X.
  - exists ts. split; [exact L|]. split; [exact G|apply doc_nesting, D].
Qed.

(** C82: the tool reads it back, without a message: every value can be
    written. *)
Theorem C82_read_back : forall width prof t, toml_value (CliModel.STable t) -> depth (CliModel.STable t) <= 101 ->
  ctoml width prof Validate (write_document t) = Ok (t, []).
Proof.
  intros width prof t TV D. apply C65_silent_exactly_on_valid_toml; [apply document_scalars, TV|apply C82_document; assumption].
Qed.

(** C82: different values are written differently. *)
Theorem C82_injective : forall t t', toml_value (CliModel.STable t) -> toml_value (CliModel.STable t') ->
  depth (CliModel.STable t) <= 101 -> depth (CliModel.STable t') <= 101 -> write_document t = write_document t' -> t = t'.
Proof.
  intros t t' T T' D D' E. pose proof (C82_read_back (fun _ => 0) Release t T D) as R. rewrite E, (C82_read_back (fun _ => 0) Release t' T' D') in R.
  congruence.
Qed.

(** The bound on the depth is exact: one level more and there is a message. *)
Fixpoint deep (n : nat) : sval := match n with O => CliModel.SArray [] | S n => CliModel.SArray [deep n] end.
Lemma deep_value n : toml_value (deep n).
Proof. induction n; cbn; constructor; repeat constructor; assumption. Qed.

(** A value with everything in it *)
Definition everything : list (list N * sval) :=
  [(bs "a", SString [34; 92; 10; 9; 1; 233; 128512; 127]);
   ([], CliModel.SArray [SInt (-9223372036854775808); CliModel.STable []; CliModel.STable [(bs "x.y", SBool false); (bs "z", SFloat (FDec true 25 (-1)))]; SFloat (FNan false)]);
   (bs "d", SDateTime (OffsetDateTime (mkdate 2024 2 29) (mktime 23 59 59 1000) (OCustom (-90))));
   (bs "e", CliModel.STable [(bs "a", SDateTime (LocalTime (mktime 0 0 0 0)))])].
Theorem C82_example : toml_value (CliModel.STable everything) /\ depth (CliModel.STable everything) <= 101 /\
  (match ctoml (fun _ => 0) Release Validate (write_document everything) with Ok (v, []) => true | _ => false end) = true.
Proof.
  split; [|split; [vm_compute; discriminate|vm_compute; reflexivity]].
  assert (U : forall s, forallb is_scalar s = true -> unicode s) by (intros s H; apply Forall_forall; apply forallb_forall; exact H).
  constructor; [repeat constructor; cbn; intuition discriminate|].
  repeat (apply Forall_cons; [split; [apply U; reflexivity|]|]); try apply Forall_nil; cbn [snd].
  - constructor. apply U. reflexivity.
  - constructor. repeat (apply Forall_cons; [|]); try apply Forall_nil; try (constructor; lia); try (constructor; fail).
    + constructor; [constructor|constructor].
    + constructor; [repeat constructor; cbn; intuition discriminate|].
      repeat (apply Forall_cons; [split; [apply U; reflexivity|constructor]|]). apply Forall_nil.
  - constructor. cbn. split; [|split; [repeat split; cbn; lia|lia]]. split; [cbn; lia|]. exists 29. split; [|cbn; lia]. apply md29.
    split; [exists 506; reflexivity|]. left. intros (k & E). cbn in E. lia.
  - constructor; [repeat constructor; cbn; intuition discriminate|]. apply Forall_cons; [split; [apply U; reflexivity|]|apply Forall_nil].
    constructor. cbn. repeat split; lia.
Qed.
Theorem C82_too_deep : toml_value (CliModel.STable [(bs "a", deep 100)]) /\ depth (CliModel.STable [(bs "a", deep 100)]) = 102 /\
  (match ctoml (fun _ => 0) Release Validate (write_document [(bs "a", deep 100)]) with Ok (_, []) => false | Ok (_, _ :: _) => true | _ => false end) = true.
Proof.
  split; [|split; [vm_compute; reflexivity|vm_compute; reflexivity]].
  constructor; [repeat constructor; cbn; auto|]. constructor; [|constructor]. split; [repeat constructor|apply deep_value].
Qed.
