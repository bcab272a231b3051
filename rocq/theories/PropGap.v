(** C80: what stands between the symbols of a document does not matter. *)
From Verif Require Import Base BaseProofs CommonModel TomlError LitModel LitSpec LexModel LexSpec LexBase LexStr LexMain LexTop LexCStr LexCMain LexPre ParseModel ParseSpec ParsePlace ParseItems ParseVal ParseValue ParseCVal ParseCValue ParseUniq ParsePre.
From Verif Require Import MapModel MapSpec MapWf CliModel MeanSpec PropMap IdeModel IdeSpec IdeProofs PropParse PropIde MeanProofs PropCli ManifestSpec ManifestProofs PropManifest ManifestFine PropFine PropPre PropLines PropLayout.

(** ** Specification *)

(** Equals signs, commas, brackets and braces; not dots. *)
Definition symbol (x : tile) : Prop :=
  exists ty, is_punct ty x /\ In ty [TEqual; TComma; TSquareLeft; TSquareRight; TCurlyLeft; TCurlyRight].
(** Reading from left to right: is an equals sign to the left on this line, and
    which brackets ([true]) and braces ([false]) of the value are open, the
    innermost one first. *)
Definition scan1 (s : bool * list bool) (x : tile) : bool * list bool :=
  match fst x, s with
  | XNewline, (_, []) => (false, [])
  | XPunct TEqual, (_, []) => (true, [])
  | XPunct TSquareLeft, (true, st) => (true, true :: st)
  | XPunct TCurlyLeft, (e, st) => (e, false :: st)
  | XPunct TSquareRight, (e, st) | XPunct TCurlyRight, (e, st) => (e, tl st)
  | _, _ => s
  end.
Definition scan (s : bool * list bool) (a : list tile) : bool * list bool := fold_left scan1 a s.
(** The innermost opening symbol is the bracket of an array. *)
Definition in_array (s : bool * list bool) : Prop := exists st, snd s = true :: st.
(** One of the two is a symbol, or a dot to the left of the equals sign. *)
Definition apart (s : bool * list bool) (x y : tile) : Prop :=
  symbol x \/ symbol y \/ fst s = false /\ (is_punct TDot x \/ is_punct TDot y).
(** [w] can stand between [x] and [y], which are [apart]: in an array
    blanks, line breaks and comments, elsewhere blanks, but not between the two
    brackets of the header of an array. *)
Definition fits (s : bool * list bool) (x y : tile) (w : list tile) : Prop :=
  apart s x y /\
  (in_array s /\ trivia w \/
   ~ in_array s /\ blanks w /\ ~ (is_punct TSquareLeft x /\ is_punct TSquareLeft y) /\ ~ (is_punct TSquareRight x /\ is_punct TSquareRight y)).
Definition no_tile : tile := (XBlank, []).
(** Two ways to fill a gap between [a] and [b]. *)
Definition gap (a w w' b : list tile) : Prop :=
  fits (scan (false, []) a) (last a no_tile) (hd no_tile b) w /\ fits (scan (false, []) a) (last a no_tile) (hd no_tile b) w'.

(** ** Lists *)
Lemma split_here {A} (P1 X a R : list A) : P1 ++ X = a ++ R ->
  (exists m, P1 = a ++ m /\ R = m ++ X) \/ (exists a', a = P1 ++ a' /\ a' <> [] /\ X = a' ++ R).
Proof.
  revert a. induction P1 as [|x P1 IH]; intros [|y a] E; cbn in E.
  - left. exists []. split; [reflexivity|symmetry; exact E].
  - right. exists (y :: a). split; [reflexivity|]. split; [discriminate|exact E].
  - left. exists (x :: P1). split; [reflexivity|symmetry; exact E].
  - injection E as <- E. destruct (IH _ E) as [(m & -> & ->)|(a' & -> & NE & ->)]; [left; exists m; auto|right; exists a'; auto].
Qed.
Lemma fill {A} (P : A -> Prop) (m X w0 b : list A) : m ++ X = w0 ++ b -> Forall P w0 -> (forall x r, X = x :: r -> ~ P x) -> exists m', m = w0 ++ m' /\ b = m' ++ X.
Proof.
  revert w0. induction m as [|x m IH]; intros [|y w0] E F H; cbn in E.
  - exists []. split; [reflexivity|symmetry; exact E].
  - exfalso. exact (H _ _ E (Forall_inv F)).
  - exists (x :: m). split; [reflexivity|symmetry; exact E].
  - injection E as <- E. destruct (IH _ E (Forall_inv_tail F) H) as (m' & -> & ->). exists m'. split; reflexivity.
Qed.
Definition solid (v : list tile) : Prop := (exists x r, v = x :: r /\ ~ is_trivia x) /\ (exists x r, v = r ++ [x] /\ ~ is_trivia x).
(** A gap inside a solid piece, or after it. *)
Lemma hole v X a w0 b : solid v -> v ++ X = a ++ w0 ++ b -> trivia w0 -> a <> [] ->
  (exists b', v = a ++ w0 ++ b' /\ b' <> [] /\ b = b' ++ X) \/ (exists a', a = v ++ a' /\ X = a' ++ w0 ++ b).
Proof.
  intros [_ (z & r & -> & NZ)] E T NE. destruct (split_here _ _ _ _ E) as [(m & E1 & E2)|(a' & -> & _ & ->)]; [|right; eauto].
  destruct m as [|y m _] using rev_ind.
  - rewrite app_nil_r in E1. right. exists []. rewrite app_nil_r. auto.
  - left. rewrite app_assoc in E1. apply app_inj_tail in E1. destruct E1 as [-> <-].
    rewrite <- app_assoc in E2. symmetry in E2. cbn [app] in E2. destruct (fill is_trivia m (z :: X) w0 b E2 T) as (m' & -> & ->).
    { intros x u E3. injection E3 as <- _. exact NZ. }
    exists (m' ++ [z]). rewrite <- !app_assoc. split; [reflexivity|]. split; [destruct m'; discriminate|reflexivity].
Qed.
Lemma hole_start v X a w0 b : solid v -> v ++ X = a ++ w0 ++ b -> trivia w0 -> a = [] -> w0 = [].
Proof.
  intros [(z & r & -> & NZ) _] E T ->. destruct w0 as [|y w0]; [reflexivity|]. cbn in E. injection E as <- _. destruct (NZ (Forall_inv T)).
Qed.
Lemma last_app {A} (a b : list A) d : b <> [] -> last (a ++ b) d = last b d.
Proof. intros NE. destruct b as [|x b _] using rev_ind; [congruence|]. rewrite app_assoc, !last_last. reflexivity. Qed.
Lemma last_dflt {A} (b : list A) d d' : b <> [] -> last b d = last b d'.
Proof. intros NE. destruct b as [|x b _] using rev_ind; [congruence|]. rewrite !last_last. reflexivity. Qed.
Lemma last_in {A} (b : list A) d : b <> [] -> In (last b d) b.
Proof. intros NE. destruct b as [|x b _] using rev_ind; [congruence|]. rewrite last_last. apply in_or_app. right. left. reflexivity. Qed.
Lemma hd_app {A} (a b : list A) d : a <> [] -> hd d (a ++ b) = hd d a.
Proof. destruct a; [congruence|reflexivity]. Qed.
Lemma hd_in {A} (b : list A) d : b <> [] -> In (hd d b) b.
Proof. destruct b; [congruence|left; reflexivity]. Qed.

(** ** Scanning *)
Lemma scan_app s a b : scan s (a ++ b) = scan (scan s a) b.
Proof. apply fold_left_app. Qed.
Lemma scan_trivia s t : trivia t -> snd s <> [] -> scan s t = s.
Proof.
  intros T NE. induction T as [|x t X T IH]; [reflexivity|]. cbn [scan fold_left]. replace (scan1 s x) with s; [exact IH|].
  destruct s as [e [|o st]]; [destruct NE; reflexivity|]. destruct x as [y u]. cbn in X. destruct X as [X|[X|X]]; cbn in X; subst y; reflexivity.
Qed.
Lemma scan_tr e o st t : trivia t -> scan (e, o :: st) t = (e, o :: st).
Proof. intros T. apply scan_trivia; [exact T|cbn; discriminate]. Qed.
Lemma scan_blanks s t : blanks t -> scan s t = s.
Proof.
  intros T. induction T as [|x t X T IH]; [reflexivity|]. cbn [scan fold_left]. replace (scan1 s x) with s; [exact IH|].
  destruct x as [y u]. cbv [is_blank fst] in X. subst y. destruct s as [[|] st]; reflexivity.
Qed.
Definition inert (x : tile) : Prop := match fst x with XBlank | XWord | XComment | XString _ _ _ => True | XPunct ty => ty = TDot | XNewline => False end.
Lemma scan_inert s t : Forall inert t -> scan s t = s.
Proof.
  intros T. induction T as [|x t X T IH]; [reflexivity|]. cbn [scan fold_left]. replace (scan1 s x) with s; [exact IH|].
  destruct x as [y u]. cbv [inert fst] in X. destruct y; try contradiction; subst; destruct s as [[|] st]; reflexivity.
Qed.
Lemma inert_symbol x : inert x -> ~ symbol x.
Proof. intros I0 (ty & P & M). unfold inert in I0. rewrite P in I0. subst ty. cbn in M. repeat (destruct M as [M|M]; [discriminate|]); exact M. Qed.
Lemma blank_inert x : is_blank x -> inert x.
Proof. unfold is_blank, inert. intros ->. exact I. Qed.
Lemma ident_inert x k : g_ident x k -> inert x.
Proof. intros [s F|q text off s N]; exact I. Qed.
Lemma dot_inert x : is_punct TDot x -> inert x.
Proof. unfold is_punct, inert. intros ->. reflexivity. Qed.
Lemma key_inert kt k : g_key kt k -> Forall inert kt.
Proof.
  induction 1 as [x k G|x k w1 d w2 ts ks G B1 D B2 _ IH].
  - constructor; [exact (ident_inert _ _ G)|constructor].
  - constructor; [exact (ident_inert _ _ G)|]. apply Forall_app. split; [eapply Forall_impl; [|exact B1]; exact blank_inert|].
    constructor; [exact (dot_inert _ D)|]. apply Forall_app. split; [eapply Forall_impl; [|exact B2]; exact blank_inert|exact IH].
Qed.
Lemma lit_inert ts t : g_lit ts t -> Forall inert ts.
Proof. intros (_ & F & _). eapply Forall_impl; [|exact F]. intros x [H|H]; [unfold inert; rewrite H; exact I|exact (dot_inert _ H)]. Qed.
Lemma punct_scan ty x s : is_punct ty x -> scan1 s x = scan1 s (XPunct ty, []).
Proof. destruct x as [y u]. unfold is_punct. cbn. intros ->. reflexivity. Qed.
Lemma scan_cons s x a : scan s (x :: a) = scan (scan1 s x) a.
Proof. reflexivity. Qed.

Lemma scan_all :
  (forall ts v, g_value ts v -> forall st, scan (true, st) ts = (true, st)) /\
  (forall ts vs, g_elems ts vs -> forall st, scan (true, true :: st) ts = (true, true :: st)) /\
  (forall ts fs, g_fields ts fs -> forall st, scan (true, false :: st) ts = (true, false :: st)).
Proof.
  apply (g_all_ind (fun ts v _ => forall st, scan (true, st) ts = (true, st)) (fun ts vs _ => forall st, scan (true, true :: st) ts = (true, true :: st))
    (fun ts (fs : list (ParseSpec.path * tval)) _ => forall st, scan (true, false :: st) ts = (true, false :: st))).
  - intros q text off s st. reflexivity.
  - intros ts t v GL _ st. apply scan_inert, (lit_inert _ _ GL).
  - intros ta a b tb t v GL IB GL2 _ st. apply scan_inert, Forall_app. split; [exact (lit_inert _ _ GL)|]. constructor; [exact (blank_inert _ IB)|exact (lit_inert _ _ GL2)].
  - intros l r ts vs L R _ IH st. rewrite scan_cons, scan_app, (punct_scan _ _ _ L). cbn [scan1 fst]. rewrite IH, scan_cons, (punct_scan _ _ _ R). reflexivity.
  - intros l r w L R B st. rewrite scan_cons, scan_app, (punct_scan _ _ _ L). cbn [scan1 fst]. rewrite (scan_blanks _ _ B), scan_cons, (punct_scan _ _ _ R). reflexivity.
  - intros l r ts fs L R _ IH st. rewrite scan_cons, scan_app, (punct_scan _ _ _ L). cbn [scan1 fst]. rewrite IH, scan_cons, (punct_scan _ _ _ R). reflexivity.
  - intros w T st. apply scan_trivia; [exact T|cbn; discriminate].
  - intros w1 ts v w2 T1 _ IH T2 st. rewrite !scan_app, (scan_tr _ _ _ _ T1), IH. exact (scan_tr _ _ _ _ T2).
  - intros w1 ts v w2 c ts' vs T1 _ IH T2 C _ IHE st. rewrite !scan_app, (scan_tr _ _ _ _ T1), IH, (scan_tr _ _ _ _ T2), scan_cons, (punct_scan _ _ _ C). exact (IHE st).
  - intros w1 kt k w2 e w3 ts v w4 B1 GK B2 Q B3 _ IH B4 st. rewrite !scan_app, (scan_blanks _ _ B1), (scan_inert _ _ (key_inert _ _ GK)), (scan_blanks _ _ B2), scan_cons, (punct_scan _ _ _ Q).
    cbn [scan1 fst]. rewrite !scan_app, (scan_blanks _ _ B3), IH. exact (scan_blanks _ _ B4).
  - intros w1 kt k w2 e w3 ts v w4 c ts' fs B1 GK B2 Q B3 _ IH B4 C _ IHF st. rewrite !scan_app, (scan_blanks _ _ B1), (scan_inert _ _ (key_inert _ _ GK)), (scan_blanks _ _ B2), scan_cons, (punct_scan _ _ _ Q).
    cbn [scan1 fst]. rewrite !scan_app, (scan_blanks _ _ B3), IH, (scan_blanks _ _ B4), scan_cons, (punct_scan _ _ _ C). exact (IHF st).
Qed.

(** ** Solid pieces *)
Lemma solid_one x : ~ is_trivia x -> solid [x].
Proof. intros N. split; [exists x, []; auto|exists x, []; auto]. Qed.
Lemma solid_app a b : solid a -> solid b -> forall m, solid (a ++ m ++ b).
Proof.
  intros [(x & r & -> & NX) _] [_ (y & q & -> & NY)] m. split; [exists x, (r ++ m ++ q ++ [y]); auto|].
  exists y, ((x :: r) ++ m ++ q). rewrite <- !app_assoc. auto.
Qed.
Lemma ident_not_trivia x k : g_ident x k -> ~ is_trivia x.
Proof. intros [s F|q text off s N] [H|[H|H]]; discriminate. Qed.
Lemma key_solid kt k : g_key kt k -> solid kt.
Proof.
  induction 1 as [x k G|x k w1 d w2 ts ks G B1 D B2 _ IH]; [exact (solid_one _ (ident_not_trivia _ _ G))|].
  replace (x :: w1 ++ d :: w2 ++ ts) with ([x] ++ (w1 ++ d :: w2) ++ ts) by (rewrite <- app_assoc; reflexivity). apply solid_app; [exact (solid_one _ (ident_not_trivia _ _ G))|exact IH].
Qed.
Lemma lit_solid ts t : g_lit ts t -> solid ts.
Proof.
  intros ((s & r & ->) & F & _). assert (K : forall x, word_or_dot x -> ~ is_trivia x).
  { intros x [H|H]; [unfold is_trivia; rewrite H; intros [E|[E|E]]; discriminate|exact (punct_not_trivia _ _ H)]. }
  split; [exists (XWord, s), r; split; [reflexivity|apply K, (Forall_inv F)]|].
  destruct (@exists_last _ ((XWord, s) :: r)) as (q & y & E); [discriminate|]. rewrite E in F |- *. exists y, q. split; [reflexivity|]. apply Forall_app in F as [_ F]. apply K, (Forall_inv F).
Qed.
Lemma brackets_solid l m r ty ty' : is_punct ty l -> is_punct ty' r -> solid (l :: m ++ [r]).
Proof. intros L R. change (solid ([l] ++ m ++ [r])). apply solid_app; apply solid_one; [exact (punct_not_trivia _ _ L)|exact (punct_not_trivia _ _ R)]. Qed.
Lemma value_solid ts v : g_value ts v -> solid ts.
Proof.
  intros [q text off s|ts0 t v0 L _|ta a b tb t v0 La _ Lb _|l r ts0 vs L R _|l r w L R _|l r ts0 fs L R _].
  - apply solid_one. intros [H|[H|H]]; discriminate.
  - exact (lit_solid _ _ L).
  - change (b :: tb) with ([b] ++ tb). apply solid_app; [exact (lit_solid _ _ La)|exact (lit_solid _ _ Lb)].
  - exact (brackets_solid _ _ _ _ _ L R).
  - exact (brackets_solid _ _ _ _ _ L R).
  - exact (brackets_solid _ _ _ _ _ L R).
Qed.

(** ** Replacing what fills a gap *)
Lemma fits_trivia s x y w : fits s x y w -> trivia w.
Proof. intros (_ & [[_ T]|(_ & B & _)]); [exact T|exact (blanks_trivia _ B)]. Qed.
Lemma fits_blanks s x y w : fits s x y w -> ~ in_array s -> blanks w.
Proof. intros (_ & [[A _]|(_ & B & _)]) N; [destruct (N A)|exact B]. Qed.
Lemma not_array_nil e : ~ in_array (e, []).
Proof. intros (st & E). discriminate. Qed.
Lemma not_array_table e st : ~ in_array (e, false :: st).
Proof. intros (st' & E). discriminate. Qed.
Lemma inert_no_gap s x y w : fst s = true -> inert x -> inert y -> ~ fits s x y w.
Proof. intros T IX IY ([H|[H|[H _]]] & _); [exact (inert_symbol _ IX H)|exact (inert_symbol _ IY H)|congruence]. Qed.
Lemma last_cons {A} (l : A) a d : last (l :: a) d = last a l.
Proof. destruct a as [|x a _] using rev_ind; [reflexivity|]. rewrite app_comm_cons, !last_last. reflexivity. Qed.
Lemma hd_snoc {A} (b : list A) r d : hd d (b ++ [r]) = hd r b.
Proof. destruct b; reflexivity. Qed.
Lemma first_solid v X : solid v -> forall x r, v ++ X = x :: r -> ~ is_trivia x.
Proof. intros [(z & q & -> & N) _] x r E. injection E as -> _. exact N. Qed.
Lemma solid_nonempty v : solid v -> v <> [].
Proof. intros [(z & q & -> & _) _]. discriminate. Qed.

Definition vi (ts : list tile) (v : tval) : Prop := forall st a w0 w b d1 d2, ts = a ++ w0 ++ b -> a <> [] -> b <> [] ->
  fits (scan (true, st) a) (last a d1) (hd d2 b) w0 -> fits (scan (true, st) a) (last a d1) (hd d2 b) w -> g_value (a ++ w ++ b) v.
Definition ei (ts : list tile) (vs : list tval) : Prop := forall st a w0 w b l r, ts = a ++ w0 ++ b ->
  fits (scan (true, true :: st) a) (last a l) (hd r b) w0 -> fits (scan (true, true :: st) a) (last a l) (hd r b) w -> g_elems (a ++ w ++ b) vs.
Definition fi (ts : list tile) (fs : list (ParseSpec.path * tval)) : Prop := forall st a w0 w b l r, ts = a ++ w0 ++ b ->
  fits (scan (true, false :: st) a) (last a l) (hd r b) w0 -> fits (scan (true, false :: st) a) (last a l) (hd r b) w -> g_fields (a ++ w ++ b) fs.

Lemma trivia_app a b : trivia a -> trivia b -> trivia (a ++ b).
Proof. intros A B. apply Forall_app. auto. Qed.
Lemma trivia_l a b : trivia (a ++ b) -> trivia a.
Proof. intros A. apply Forall_app in A. tauto. Qed.
Lemma trivia_r a b : trivia (a ++ b) -> trivia b.
Proof. intros A. apply Forall_app in A. tauto. Qed.
Lemma blanks_app a b : blanks a -> blanks b -> blanks (a ++ b).
Proof. intros A B. apply Forall_app. auto. Qed.
Lemma blanks_l a b : blanks (a ++ b) -> blanks a.
Proof. intros A. apply Forall_app in A. tauto. Qed.
Lemma blanks_r a b : blanks (a ++ b) -> blanks b.
Proof. intros A. apply Forall_app in A. tauto. Qed.

Ltac asc := cbn [app]; repeat (rewrite <- !app_assoc; cbn [app]); reflexivity.

(** The first value of an array. *)
Lemma elem_gap w1 vt v w2 X st a w0 w b l r : trivia w1 -> g_value vt v -> vi vt v -> trivia w2 -> (forall x q, X = x :: q -> ~ is_trivia x) ->
  w1 ++ vt ++ w2 ++ X = a ++ w0 ++ b -> fits (scan (true, true :: st) a) (last a l) (hd r b) w0 -> fits (scan (true, true :: st) a) (last a l) (hd r b) w ->
  (exists w1' vt' w2', a ++ w ++ b = w1' ++ vt' ++ w2' ++ X /\ trivia w1' /\ g_value vt' v /\ trivia w2') \/
  (exists a', a' <> [] /\ a = w1 ++ vt ++ w2 ++ a' /\ X = a' ++ w0 ++ b).
Proof.
  intros T1 GV IH T2 HX E F0 F. pose proof (value_solid _ _ GV) as SV. pose proof (fits_trivia _ _ _ _ F0) as W0. pose proof (fits_trivia _ _ _ _ F) as W.
  destruct (split_here _ _ _ _ E) as [(m & -> & E2)|(a1 & -> & NE & E2)].
  - left. destruct (fill _ _ _ _ _ (eq_sym E2) W0 (first_solid _ _ SV)) as (m' & -> & ->). exists (a ++ w ++ m'), vt, w2.
    split; [asc|]. split; [|auto]. apply trivia_app; [exact (trivia_l _ _ T1)|]. apply trivia_app; [exact W|exact (trivia_r _ _ (trivia_r _ _ T1))].
  - rewrite scan_app, (scan_tr _ _ _ _ T1) in F0, F. rewrite last_app in F0, F by exact NE.
    destruct (hole _ _ _ _ _ SV E2 W0 NE) as [(b1 & EV & NB & ->)|(a2 & -> & E3)].
    + left. rewrite hd_app in F0, F by exact NB. exists w1, (a1 ++ w ++ b1), w2. split; [asc|]. split; [exact T1|]. split; [|exact T2]. exact (IH _ _ _ _ _ _ _ EV NE NB F0 F).
    + destruct (split_here _ _ _ _ E3) as [(m & -> & E4)|(a3 & -> & N3 & E4)].
      * left. destruct (fill _ _ _ _ _ (eq_sym E4) W0 HX) as (m' & -> & ->). exists w1, vt, (a2 ++ w ++ m').
        split; [asc|]. split; [exact T1|]. split; [exact GV|]. apply trivia_app; [exact (trivia_l _ _ T2)|]. apply trivia_app; [exact W|exact (trivia_r _ _ (trivia_r _ _ T2))].
      * right. exists a3. auto.
Qed.
(** The part before something that is not blank. *)
Lemma blanks_gap s w1 X a w0 w b l r : ~ in_array s -> blanks w1 -> (forall x q, X = x :: q -> ~ is_blank x) ->
  w1 ++ X = a ++ w0 ++ b -> fits (scan s a) (last a l) (hd r b) w0 -> fits (scan s a) (last a l) (hd r b) w ->
  (exists m', b = m' ++ X /\ blanks (a ++ w ++ m')) \/ (exists a', a' <> [] /\ a = w1 ++ a' /\ X = a' ++ w0 ++ b).
Proof.
  intros N B1 HX E F0 F. destruct (split_here _ _ _ _ E) as [(m & -> & E2)|(a1 & -> & NE & E2)]; [left|right; exists a1; auto].
  rewrite (scan_blanks _ _ (blanks_l _ _ B1)) in F0, F. pose proof (fits_blanks _ _ _ _ F0 N) as W0. pose proof (fits_blanks _ _ _ _ F N) as W.
  destruct (fill _ _ _ _ _ (eq_sym E2) W0 HX) as (m' & -> & ->). exists m'. split; [reflexivity|].
  apply blanks_app; [exact (blanks_l _ _ B1)|]. apply blanks_app; [exact W|exact (blanks_r _ _ (blanks_r _ _ B1))].
Qed.
(** Blanks around the dots of a key. *)
Lemma key_blanks kt k : g_key kt k -> forall a w0 w b, kt = a ++ w0 ++ b -> a <> [] -> b <> [] -> blanks w0 -> blanks w ->
  (forall l r, is_punct TDot (last a l) \/ is_punct TDot (hd r b)) -> g_key (a ++ w ++ b) k.
Proof.
  induction 1 as [x k G|x k w1 d w2 ts ks G B1 D B2 GK IH]; intros a w0 w b E NA NB W0 W HD; (destruct a as [|y a]; [congruence|]); injection E as <- E.
  - symmetry in E. apply app_eq_nil in E. destruct E as [_ E]. apply app_eq_nil in E. tauto.
  - destruct (split_here _ _ _ _ E) as [(m & -> & E2)|(a2 & -> & NE2 & E2)].
    { destruct (fill _ _ _ _ _ (eq_sym E2) W0 (fun z q K => punct_not_blank _ _ (eq_ind d (is_punct TDot) D z (f_equal (hd d) K)))) as (m' & -> & ->).
      replace ((x :: a) ++ w ++ m' ++ d :: w2 ++ ts) with (x :: (a ++ w ++ m') ++ d :: w2 ++ ts) by asc. apply gk_dot; try assumption.
      apply blanks_app; [exact (blanks_l _ _ B1)|]. apply blanks_app; [exact W|exact (blanks_r _ _ (blanks_r _ _ B1))]. }
    destruct a2 as [|y a2]; [congruence|]. injection E2 as <- E2. destruct (split_here _ _ _ _ E2) as [(m & -> & E3)|(a3 & -> & NE3 & E3)].
    { destruct (fill _ _ _ _ _ (eq_sym E3) W0) as (m' & -> & ->).
      { intros z q K BZ. apply (first_solid _ [] (key_solid _ _ GK) z q); [rewrite app_nil_r; exact K|left; exact BZ]. }
      replace ((x :: w1 ++ d :: a2) ++ w ++ m' ++ ts) with (x :: w1 ++ d :: (a2 ++ w ++ m') ++ ts) by asc. apply gk_dot; try assumption.
      apply blanks_app; [exact (blanks_l _ _ B2)|]. apply blanks_app; [exact W|exact (blanks_r _ _ (blanks_r _ _ B2))]. }
    replace ((x :: w1 ++ d :: w2 ++ a3) ++ w ++ b) with (x :: w1 ++ d :: w2 ++ (a3 ++ w ++ b)) by asc. apply gk_dot; try assumption.
    apply (IH _ w0); try assumption. intros l r. replace (x :: w1 ++ d :: w2 ++ a3) with ((x :: w1 ++ d :: w2) ++ a3) in HD by asc.
    specialize (HD l r). rewrite last_app in HD by exact NE3. exact HD.
Qed.
Lemma key_gap s kt k X a w0 w b l r : ~ in_array s -> g_key kt k -> a <> [] -> kt ++ X = a ++ w0 ++ b -> fits (scan s a) (last a l) (hd r b) w0 -> fits (scan s a) (last a l) (hd r b) w ->
  (exists kt', a ++ w ++ b = kt' ++ X /\ g_key kt' k) \/ (exists a', a = kt ++ a' /\ X = a' ++ w0 ++ b).
Proof.
  intros N GK NE E F0 F. destruct (hole _ _ _ _ _ (key_solid _ _ GK) E (fits_trivia _ _ _ _ F0) NE) as [(b1 & EV & NB & ->)|H]; [left|right; exact H].
  rewrite hd_app in F0, F by exact NB. pose proof (key_inert _ _ GK) as K. rewrite EV in K. rewrite !Forall_app in K. destruct K as (K1 & _ & K2).
  rewrite (scan_inert _ _ K1) in F0, F. rewrite Forall_forall in K1, K2. exists (a ++ w ++ b1). split; [asc|].
  apply (key_blanks _ _ GK _ w0); try assumption; [exact (fits_blanks _ _ _ _ F0 N)|exact (fits_blanks _ _ _ _ F N)|].
  intros l' r'. destruct F as ([H|[H|[_ H]]] & _); [destruct (inert_symbol _ (K1 _ (last_in _ l NE)) H)|destruct (inert_symbol _ (K2 _ (hd_in _ r NB)) H)|].
  rewrite (last_dflt a l' l NE). destruct b1 as [|z b1]; [congruence|]. exact H.
Qed.
Lemma key_first kt k X : g_key kt k -> forall x q, kt ++ X = x :: q -> ~ is_blank x.
Proof. intros GK x q E B. apply (first_solid _ X (key_solid _ _ GK) _ _ E). left. exact B. Qed.
Lemma value_first_blank vt v X : g_value vt v -> forall x q, vt ++ X = x :: q -> ~ is_blank x.
Proof. intros GK x q E B. apply (first_solid _ X (value_solid _ _ GK) _ _ E). left. exact B. Qed.
Lemma punct_first ty e Y : is_punct ty e -> forall x q, e :: Y = x :: q -> ~ is_blank x.
Proof. intros P x q E. injection E as <- _. exact (punct_not_blank _ _ P). Qed.
Lemma punct_first_trivia ty e Y : is_punct ty e -> forall x q, e :: Y = x :: q -> ~ is_trivia x.
Proof. intros P x q E. injection E as <- _. exact (punct_not_trivia _ _ P). Qed.

(** A key, an equals sign and a value. *)
Lemma pair_gap s st w1 kt k w2 e w3 vt v w4 X a w0 w b l r : ~ in_array s -> ~ in_array (true, st) -> scan1 s e = (true, st) ->
  blanks w1 -> g_key kt k -> blanks w2 -> is_punct TEqual e -> blanks w3 -> g_value vt v -> vi vt v -> blanks w4 -> (forall x q, X = x :: q -> ~ is_blank x) ->
  w1 ++ kt ++ w2 ++ e :: w3 ++ vt ++ w4 ++ X = a ++ w0 ++ b -> fits (scan s a) (last a l) (hd r b) w0 -> fits (scan s a) (last a l) (hd r b) w ->
  (exists w1' kt' w2' w3' vt' w4', a ++ w ++ b = w1' ++ kt' ++ w2' ++ e :: w3' ++ vt' ++ w4' ++ X /\ blanks w1' /\ g_key kt' k /\ blanks w2' /\ blanks w3' /\ g_value vt' v /\ blanks w4') \/
  (exists a', a' <> [] /\ a = w1 ++ kt ++ w2 ++ e :: w3 ++ vt ++ w4 ++ a' /\ X = a' ++ w0 ++ b).
Proof.
  intros N1 N2 SE B1 GK B2 Q B3 GV IH B4 HX E F0 F.
  destruct (blanks_gap _ _ _ _ _ _ _ _ _ N1 B1 (key_first _ _ _ GK) E F0 F) as [(m & -> & B)|(a1 & NE1 & -> & E1)].
  { left. exists (a ++ w ++ m), kt, w2, w3, vt, w4. split; [asc|auto 7]. }
  rewrite scan_app, (scan_blanks _ _ B1) in F0, F. rewrite last_app in F0, F by exact NE1.
  destruct (key_gap _ _ _ _ _ _ _ _ _ _ N1 GK NE1 E1 F0 F) as [(kt' & EK & GK')|(a2 & -> & E2)].
  { left. exists w1, kt', w2, w3, vt, w4. split; [rewrite <- app_assoc, EK; reflexivity|auto 7]. }
  rewrite scan_app, (scan_inert _ _ (key_inert _ _ GK)) in F0, F.
  assert (exists l', last (kt ++ a2) l = last a2 l') as (l' & EL).
  { destruct a2 as [|y a2]; [exists (last (kt ++ []) l); reflexivity|]. exists l. apply last_app. discriminate. }
  rewrite EL in F0, F.
  destruct (blanks_gap _ _ _ _ _ _ _ _ _ N1 B2 (punct_first _ _ _ Q) E2 F0 F) as [(m & -> & B)|(a3 & NE3 & -> & E3)].
  { left. exists w1, kt, (a2 ++ w ++ m), w3, vt, w4. split; [asc|auto 7]. }
  rewrite scan_app, (scan_blanks _ _ B2) in F0, F. rewrite last_app in F0, F by exact NE3. destruct a3 as [|y a3]; [congruence|]. injection E3 as <- E3.
  rewrite scan_cons, SE in F0, F. rewrite last_cons in F0, F.
  destruct (blanks_gap _ _ _ _ _ _ _ _ _ N2 B3 (value_first_blank _ _ _ GV) E3 F0 F) as [(m & -> & B)|(a4 & NE4 & -> & E4)].
  { left. exists w1, kt, w2, (a3 ++ w ++ m), vt, w4. split; [asc|auto 7]. }
  rewrite scan_app, (scan_blanks _ _ B3) in F0, F. rewrite last_app in F0, F by exact NE4.
  destruct (hole _ _ _ _ _ (value_solid _ _ GV) E4 (fits_trivia _ _ _ _ F0) NE4) as [(b1 & EV & NB & ->)|(a5 & -> & E5)].
  { left. rewrite hd_app in F0, F by exact NB. exists w1, kt, w2, w3, (a4 ++ w ++ b1), w4. split; [asc|]. pose proof (IH _ _ _ _ _ _ _ EV NE4 NB F0 F). auto 7. }
  rewrite scan_app, (proj1 scan_all _ _ GV) in F0, F.
  assert (exists l'', last (vt ++ a5) e = last a5 l'') as (l'' & EL2).
  { destruct a5 as [|y a5]; [exists (last (vt ++ []) e); reflexivity|]. exists e. apply last_app. discriminate. }
  rewrite EL2 in F0, F.
  destruct (blanks_gap _ _ _ _ _ _ _ _ _ N2 B4 HX E5 F0 F) as [(m & -> & B)|(a6 & NE6 & -> & E6)].
  { left. exists w1, kt, w2, w3, vt, (a5 ++ w ++ m). split; [asc|auto 7]. }
  right. exists a6. split; [exact NE6|]. split; [asc|exact E6].
Qed.

(** The brackets of a value. *)
Lemma inner_gap l m r a w0 b : l :: m ++ [r] = a ++ w0 ++ b -> a <> [] -> b <> [] -> ~ is_trivia r -> exists a1 b1, a = l :: a1 /\ b = b1 ++ [r] /\ m = a1 ++ w0 ++ b1.
Proof.
  intros E NA NB _. destruct a as [|x a1]; [congruence|]. injection E as <- E. destruct (exists_last NB) as (b1 & y & ->). rewrite !app_assoc in E. apply app_inj_tail in E. destruct E as [-> <-].
  exists a1, b1. rewrite <- app_assoc. auto.
Qed.
Lemma gap_all :
  (forall ts v, g_value ts v -> vi ts v) /\ (forall ts vs, g_elems ts vs -> ei ts vs) /\ (forall ts fs, g_fields ts fs -> fi ts fs).
Proof.
  apply (g_all_ind (fun ts v _ => vi ts v) (fun ts vs _ => ei ts vs) (fun ts fs _ => fi ts fs)).
  - intros q text off s st a w0 w b d1 d2 E NA NB _ _. destruct a as [|x a]; [congruence|]. injection E as _ E. symmetry in E. apply app_eq_nil in E. destruct E as [_ E]. apply app_eq_nil in E. tauto.
  - intros ts t v GL _ st a w0 w b d1 d2 E NA NB F0 _. exfalso. pose proof (lit_inert _ _ GL) as K. rewrite E, !Forall_app in K. destruct K as (K1 & _ & K2). rewrite (scan_inert _ _ K1) in F0. rewrite Forall_forall in K1, K2.
    exact (inert_no_gap (true, st) _ _ _ eq_refl (K1 _ (last_in _ d1 NA)) (K2 _ (hd_in _ d2 NB)) F0).
  - intros ta x b0 tb t v GL IB GL2 _ st a w0 w b d1 d2 E NA NB F0 _. exfalso. assert (K : Forall inert (ta ++ b0 :: tb)).
    { apply Forall_app. split; [exact (lit_inert _ _ GL)|]. constructor; [exact (blank_inert _ IB)|exact (lit_inert _ _ GL2)]. }
    rewrite E, !Forall_app in K. destruct K as (K1 & _ & K2). rewrite (scan_inert _ _ K1) in F0. rewrite Forall_forall in K1, K2. exact (inert_no_gap (true, st) _ _ _ eq_refl (K1 _ (last_in _ d1 NA)) (K2 _ (hd_in _ d2 NB)) F0).
  - intros x y ts vs L R GE IH st a w0 w b d1 d2 E NA NB F0 F. destruct (inner_gap _ _ _ _ _ _ E NA NB (punct_not_trivia _ _ R)) as (a1 & b1 & -> & -> & E1).
    rewrite scan_cons, (punct_scan _ _ _ L), last_cons, hd_snoc in F0, F. cbn [scan1 fst] in F0, F.
    replace ((x :: a1) ++ w ++ b1 ++ [y]) with (x :: (a1 ++ w ++ b1) ++ [y]) by asc. apply gv_array; [exact L|exact R|]. exact (IH _ _ _ _ _ _ _ E1 F0 F).
  - intros x y w1 L R B st a w0 w b d1 d2 E NA NB F0 F. destruct (inner_gap _ _ _ _ _ _ E NA NB (punct_not_trivia _ _ R)) as (a1 & b1 & -> & -> & E1).
    rewrite scan_cons, (punct_scan _ _ _ L), last_cons, hd_snoc in F0, F. cbn [scan1 fst] in F0, F. subst w1.
    replace ((x :: a1) ++ w ++ b1 ++ [y]) with (x :: (a1 ++ w ++ b1) ++ [y]) by asc. apply gv_empty_table; [exact L|exact R|].
    rewrite (scan_blanks _ _ (blanks_l _ _ B)) in F. apply blanks_app; [exact (blanks_l _ _ B)|]. apply blanks_app; [exact (fits_blanks _ _ _ _ F (not_array_table _ _))|exact (blanks_r _ _ (blanks_r _ _ B))].
  - intros x y ts fs L R GE IH st a w0 w b d1 d2 E NA NB F0 F. destruct (inner_gap _ _ _ _ _ _ E NA NB (punct_not_trivia _ _ R)) as (a1 & b1 & -> & -> & E1).
    rewrite scan_cons, (punct_scan _ _ _ L), last_cons, hd_snoc in F0, F. cbn [scan1 fst] in F0, F.
    replace ((x :: a1) ++ w ++ b1 ++ [y]) with (x :: (a1 ++ w ++ b1) ++ [y]) by asc. apply gv_table; [exact L|exact R|]. exact (IH _ _ _ _ _ _ _ E1 F0 F).
  - intros w1 T st a w0 w b l r -> F0 F. apply ge_nil. apply trivia_app; [exact (trivia_l _ _ T)|]. apply trivia_app; [exact (fits_trivia _ _ _ _ F)|exact (trivia_r _ _ (trivia_r _ _ T))].
  - intros w1 ts v w2 T1 GV IH T2 st a w0 w b l r E F0 F.
    destruct (elem_gap w1 ts v w2 [] st a w0 w b l r T1 GV IH T2) as [(w1' & vt' & w2' & -> & T1' & GV' & T2')|(a' & NE & _ & E2)]; [discriminate|rewrite app_nil_r; exact E|exact F0|exact F| |].
    + rewrite app_nil_r. apply ge_last; assumption.
    + destruct a'; [congruence|discriminate].
  - intros w1 ts v w2 c ts' vs T1 GV IH T2 C GE IHE st a w0 w b l r E F0 F.
    destruct (elem_gap w1 ts v w2 (c :: ts') st a w0 w b l r T1 GV IH T2 (punct_first_trivia _ _ _ C) E F0 F) as [(w1' & vt' & w2' & -> & T1' & GV' & T2')|(a' & NE & -> & E2)].
    + apply ge_cons; assumption.
    + destruct a' as [|y a']; [congruence|]. injection E2 as <- E2.
      replace ((w1 ++ ts ++ w2 ++ c :: a') ++ w ++ b) with (w1 ++ ts ++ w2 ++ c :: (a' ++ w ++ b)) by asc. apply ge_cons; [assumption..|].
      rewrite !scan_app, (scan_tr _ _ _ _ T1), (proj1 scan_all _ _ GV), (scan_tr _ _ _ _ T2), scan_cons, (punct_scan _ _ _ C) in F0, F. cbn [scan1 fst] in F0, F.
      assert (EL : last (w1 ++ ts ++ w2 ++ c :: a') l = last a' c).
      { replace (w1 ++ ts ++ w2 ++ c :: a') with ((w1 ++ ts ++ w2) ++ c :: a') by asc. rewrite last_app by discriminate. apply last_cons. }
      rewrite EL in F0, F. exact (IHE _ _ _ _ _ _ _ E2 F0 F).
  - intros w1 kt k w2 e w3 ts v w4 B1 GK B2 Q B3 GV IH B4 st a w0 w b l r E F0 F.
    destruct (pair_gap (true, false :: st) (false :: st) w1 kt k w2 e w3 ts v w4 [] a w0 w b l r) as [(w1' & kt' & w2' & w3' & vt' & w4' & -> & H1 & HK & H2 & H3 & H4 & H5)|(a' & NE & _ & E2)];
      try assumption; try apply not_array_table; try discriminate; [rewrite (punct_scan _ _ _ Q); reflexivity|rewrite app_nil_r; exact E| |].
    + rewrite app_nil_r. apply gf_last; assumption.
    + destruct a'; [congruence|discriminate].
  - intros w1 kt k w2 e w3 ts v w4 c ts' fs B1 GK B2 Q B3 GV IH B4 C GF IHF st a w0 w b l r E F0 F.
    destruct (pair_gap (true, false :: st) (false :: st) w1 kt k w2 e w3 ts v w4 (c :: ts') a w0 w b l r) as [(w1' & kt' & w2' & w3' & vt' & w4' & -> & H1 & HK & H2 & H3 & H4 & H5)|(a' & NE & -> & E2)];
      try assumption; try apply not_array_table; [rewrite (punct_scan _ _ _ Q); reflexivity|exact (punct_first _ _ _ C)| |].
    + apply gf_cons; assumption.
    + destruct a' as [|y a']; [congruence|]. injection E2 as <- E2.
      replace ((w1 ++ kt ++ w2 ++ e :: w3 ++ ts ++ w4 ++ c :: a') ++ w ++ b) with (w1 ++ kt ++ w2 ++ e :: w3 ++ ts ++ w4 ++ c :: (a' ++ w ++ b)) by asc. apply gf_cons; [assumption..|].
      assert (SC : scan (true, false :: st) (w1 ++ kt ++ w2 ++ e :: w3 ++ ts ++ w4 ++ c :: a') = scan (true, false :: st) a').
      { rewrite !scan_app, (scan_blanks _ _ B1), (scan_inert _ _ (key_inert _ _ GK)), (scan_blanks _ _ B2), scan_cons, (punct_scan _ _ _ Q).
        cbn [scan1 fst]. rewrite !scan_app, (scan_blanks _ _ B3), (proj1 scan_all _ _ GV), (scan_blanks _ _ B4), scan_cons, (punct_scan _ _ _ C). reflexivity. }
      assert (EL : last (w1 ++ kt ++ w2 ++ e :: w3 ++ ts ++ w4 ++ c :: a') l = last a' c).
      { replace (w1 ++ kt ++ w2 ++ e :: w3 ++ ts ++ w4 ++ c :: a') with ((w1 ++ kt ++ w2 ++ e :: w3 ++ ts ++ w4) ++ c :: a') by asc. rewrite last_app by discriminate. apply last_cons. }
      rewrite SC, EL in F0, F. exact (IHF _ _ _ _ _ _ _ E2 F0 F).
Qed.

(** ** Lines *)
Lemma scan_punct_flat ty x e : is_punct ty x -> ty = TSquareLeft /\ e = false \/ ty = TSquareRight \/ ty = TDot \/ ty = TComma -> scan1 (e, []) x = (e, []).
Proof. intros P H. rewrite (punct_scan _ _ _ P). destruct H as [[-> ->]|[->|[->| ->]]]; try destruct e; reflexivity. Qed.
Lemma one_bracket s ty x Y a w0 w b c r : ~ in_array s -> is_punct ty x -> ty = TSquareLeft \/ ty = TSquareRight -> is_punct ty c -> x :: Y = a ++ w0 ++ b ->
  fits (scan s a) (last a c) (hd r b) w0 -> fits (scan s a) (last a c) (hd r b) w -> exists a', a = x :: a' /\ Y = a' ++ w0 ++ b.
Proof.
  intros N P H C E F0 F. destruct a as [|y a]; [exfalso|injection E as <- E; exists a; auto].
  pose proof (fits_blanks _ _ _ _ F0 N) as W0. destruct w0 as [|y w0]; [|injection E as <- _; exact (punct_not_blank _ _ P (Forall_inv W0))].
  cbn in E. subst b. cbn in F0. destruct F0 as (_ & [[A _]|(_ & _ & H1 & H2)]); [exact (N A)|]. destruct H as [-> | ->]; [apply H1|apply H2]; auto.
Qed.
Lemma last_some {A} (k a : list A) l : exists l', last (k ++ a) l = last a l'.
Proof. destruct a as [|y a]; [exists (last (k ++ []) l); reflexivity|]. exists l. apply last_app. discriminate. Qed.
Lemma end_first X : line_end X -> forall x q, X = x :: q -> ~ is_blank x.
Proof. intros L x q ->. exact (end_not_blank _ _ L). Qed.
Lemma line_gap L s X a w0 w b l r : g_line L s -> line_end X -> L ++ X = a ++ w0 ++ b ->
  fits (scan (false, []) a) (last a l) (hd r b) w0 -> fits (scan (false, []) a) (last a l) (hd r b) w ->
  (exists L', a ++ w ++ b = L' ++ X /\ g_line L' s) \/ (exists a', a' <> [] /\ a = L ++ a' /\ X = a' ++ w0 ++ b).
Proof.
  intros GL LE E F0 F. pose proof (end_first _ LE) as HX. pose proof (not_array_nil false) as N.
  destruct GL as [w1 B1|w1 ts s w4 B1 GS B4].
  - destruct (blanks_gap _ _ _ _ _ _ _ _ _ N B1 HX E F0 F) as [(m & -> & B)|H]; [left|right; exact H]. exists (a ++ w ++ m). split; [asc|]. apply gl_empty. exact B.
  - destruct GS as [kt k w2 e w3 vt v GK B2 Q B3 GV|x w2 kt k w3 y P B2 GK B3 R|x x' w2 kt k w3 y y' P P' B2 GK B3 R R'].
    + replace ((w1 ++ (kt ++ w2 ++ e :: w3 ++ vt) ++ w4) ++ X) with (w1 ++ kt ++ w2 ++ e :: w3 ++ vt ++ w4 ++ X) in E by asc.
      destruct (pair_gap (false, []) [] w1 kt k w2 e w3 vt v w4 X a w0 w b l r) as [(w1' & kt' & w2' & w3' & vt' & w4' & -> & H1 & HK & H2 & H3 & H4 & H5)|(a' & NE & -> & E2)];
        try assumption; try apply not_array_nil; [rewrite (punct_scan _ _ _ Q); reflexivity|exact (proj1 gap_all _ _ GV)| |].
      * left. exists (w1' ++ (kt' ++ w2' ++ e :: w3' ++ vt') ++ w4'). split; [asc|]. apply gl_stmt; [exact H1|apply gs_assign; assumption|exact H5].
      * right. exists a'. split; [exact NE|]. split; [asc|exact E2].
    + replace ((w1 ++ (x :: w2 ++ kt ++ w3 ++ [y]) ++ w4) ++ X) with (w1 ++ x :: w2 ++ kt ++ w3 ++ y :: w4 ++ X) in E by asc.
      destruct (blanks_gap _ _ _ _ _ _ _ _ _ N B1 (punct_first _ _ _ P) E F0 F) as [(m & -> & B)|(a1 & NE1 & -> & E1)].
      { left. exists ((a ++ w ++ m) ++ (x :: w2 ++ kt ++ w3 ++ [y]) ++ w4). split; [asc|]. apply gl_stmt; [exact B|apply gs_table; assumption|exact B4]. }
      rewrite scan_app, (scan_blanks _ _ B1) in F0, F. rewrite last_app in F0, F by exact NE1. destruct a1 as [|z a1]; [congruence|]. injection E1 as <- E1.
      rewrite scan_cons, (scan_punct_flat _ _ _ P ltac:(auto)), last_cons in F0, F.
      destruct (blanks_gap _ _ _ _ _ _ _ _ _ N B2 (key_first _ _ _ GK) E1 F0 F) as [(m & -> & B)|(a2 & NE2 & -> & E2)].
      { left. exists (w1 ++ (x :: (a1 ++ w ++ m) ++ kt ++ w3 ++ [y]) ++ w4). split; [asc|]. apply gl_stmt; [exact B1|apply gs_table; assumption|exact B4]. }
      rewrite scan_app, (scan_blanks _ _ B2) in F0, F. rewrite last_app in F0, F by exact NE2.
      destruct (key_gap _ _ _ _ _ _ _ _ _ _ N GK NE2 E2 F0 F) as [(kt' & EK & GK')|(a3 & -> & E3)].
      { left. exists (w1 ++ (x :: w2 ++ kt' ++ w3 ++ [y]) ++ w4). split; [|apply gl_stmt; [exact B1|apply gs_table; assumption|exact B4]].
        replace ((w1 ++ x :: w2 ++ a2) ++ w ++ b) with (w1 ++ x :: w2 ++ (a2 ++ w ++ b)) by asc. rewrite EK. asc. }
      rewrite scan_app, (scan_inert _ _ (key_inert _ _ GK)) in F0, F.
      destruct (last_some kt a3 x) as (l' & EL). rewrite EL in F0, F.
      destruct (blanks_gap _ _ _ _ _ _ _ _ _ N B3 (punct_first _ _ _ R) E3 F0 F) as [(m & -> & B)|(a4 & NE4 & -> & E4)].
      { left. exists (w1 ++ (x :: w2 ++ kt ++ (a3 ++ w ++ m) ++ [y]) ++ w4). split; [asc|]. apply gl_stmt; [exact B1|apply gs_table; assumption|exact B4]. }
      rewrite scan_app, (scan_blanks _ _ B3) in F0, F. rewrite last_app in F0, F by exact NE4. destruct a4 as [|z a4]; [congruence|]. injection E4 as <- E4.
      rewrite scan_cons, (scan_punct_flat _ _ _ R ltac:(auto)), last_cons in F0, F.
      destruct (blanks_gap _ _ _ _ _ _ _ _ _ N B4 HX E4 F0 F) as [(m & -> & B)|(a5 & NE5 & -> & E5)].
      { left. exists (w1 ++ (x :: w2 ++ kt ++ w3 ++ [y]) ++ (a4 ++ w ++ m)). split; [asc|]. apply gl_stmt; [exact B1|apply gs_table; assumption|exact B]. }
      right. exists a5. split; [exact NE5|]. split; [asc|exact E5].
    + replace ((w1 ++ (x :: x' :: w2 ++ kt ++ w3 ++ [y; y']) ++ w4) ++ X) with (w1 ++ x :: x' :: w2 ++ kt ++ w3 ++ y :: y' :: w4 ++ X) in E by asc.
      destruct (blanks_gap _ _ _ _ _ _ _ _ _ N B1 (punct_first _ _ _ P) E F0 F) as [(m & -> & B)|(a1 & NE1 & -> & E1)].
      { left. exists ((a ++ w ++ m) ++ (x :: x' :: w2 ++ kt ++ w3 ++ [y; y']) ++ w4). split; [asc|]. apply gl_stmt; [exact B|apply gs_array; assumption|exact B4]. }
      rewrite scan_app, (scan_blanks _ _ B1) in F0, F. rewrite last_app in F0, F by exact NE1. destruct a1 as [|z a1]; [congruence|]. injection E1 as <- E1.
      rewrite scan_cons, (scan_punct_flat _ _ _ P ltac:(auto)), last_cons in F0, F.
      destruct (one_bracket _ _ _ _ _ _ _ _ _ _ N P' ltac:(auto) P E1 F0 F) as (a1' & -> & E1').
      rewrite scan_cons, (scan_punct_flat _ _ _ P' ltac:(auto)), last_cons in F0, F.
      destruct (blanks_gap _ _ _ _ _ _ _ _ _ N B2 (key_first _ _ _ GK) E1' F0 F) as [(m & -> & B)|(a2 & NE2 & -> & E2)].
      { left. exists (w1 ++ (x :: x' :: (a1' ++ w ++ m) ++ kt ++ w3 ++ [y; y']) ++ w4). split; [asc|]. apply gl_stmt; [exact B1|apply gs_array; assumption|exact B4]. }
      rewrite scan_app, (scan_blanks _ _ B2) in F0, F. rewrite last_app in F0, F by exact NE2.
      destruct (key_gap _ _ _ _ _ _ _ _ _ _ N GK NE2 E2 F0 F) as [(kt' & EK & GK')|(a3 & -> & E3)].
      { left. exists (w1 ++ (x :: x' :: w2 ++ kt' ++ w3 ++ [y; y']) ++ w4). split; [|apply gl_stmt; [exact B1|apply gs_array; assumption|exact B4]].
        replace ((w1 ++ x :: x' :: w2 ++ a2) ++ w ++ b) with (w1 ++ x :: x' :: w2 ++ (a2 ++ w ++ b)) by asc. rewrite EK. asc. }
      rewrite scan_app, (scan_inert _ _ (key_inert _ _ GK)) in F0, F.
      destruct (last_some kt a3 x') as (l' & EL). rewrite EL in F0, F.
      destruct (blanks_gap _ _ _ _ _ _ _ _ _ N B3 (punct_first _ _ _ R) E3 F0 F) as [(m & -> & B)|(a4 & NE4 & -> & E4)].
      { left. exists (w1 ++ (x :: x' :: w2 ++ kt ++ (a3 ++ w ++ m) ++ [y; y']) ++ w4). split; [asc|]. apply gl_stmt; [exact B1|apply gs_array; assumption|exact B4]. }
      rewrite scan_app, (scan_blanks _ _ B3) in F0, F. rewrite last_app in F0, F by exact NE4. destruct a4 as [|z a4]; [congruence|]. injection E4 as <- E4.
      rewrite scan_cons, (scan_punct_flat _ _ _ R ltac:(auto)), last_cons in F0, F.
      destruct (one_bracket _ _ _ _ _ _ _ _ _ _ N R' ltac:(auto) R E4 F0 F) as (a4' & -> & E4').
      rewrite scan_cons, (scan_punct_flat _ _ _ R' ltac:(auto)), last_cons in F0, F.
      destruct (blanks_gap _ _ _ _ _ _ _ _ _ N B4 HX E4' F0 F) as [(m & -> & B)|(a5 & NE5 & -> & E5)].
      { left. exists (w1 ++ (x :: x' :: w2 ++ kt ++ w3 ++ [y; y']) ++ (a4' ++ w ++ m)). split; [asc|]. apply gl_stmt; [exact B1|apply gs_array; assumption|exact B]. }
      right. exists a5. split; [exact NE5|]. split; [asc|exact E5].
Qed.
Lemma scan_line L s : g_line L s -> exists e, scan (false, []) L = (e, []).
Proof.
  intros [w1 B1|w1 ts s' w4 B1 GS B4]; [exists false; exact (scan_blanks _ _ B1)|].
  destruct GS as [kt k w2 e w3 vt v GK B2 Q B3 GV|x w2 kt k w3 y P B2 GK B3 R|x x' w2 kt k w3 y y' P P' B2 GK B3 R R'].
  - exists true. rewrite !scan_app, (scan_blanks _ _ B1), (scan_inert _ _ (key_inert _ _ GK)), (scan_blanks _ _ B2), scan_cons, (punct_scan _ _ _ Q).
    cbn [scan1 fst]. rewrite !scan_app, (scan_blanks _ _ B3), (proj1 scan_all _ _ GV). exact (scan_blanks _ _ B4).
  - exists false. rewrite !scan_app, (scan_blanks _ _ B1), scan_cons, (scan_punct_flat _ _ _ P ltac:(auto)), !scan_app, (scan_blanks _ _ B2), (scan_inert _ _ (key_inert _ _ GK)), (scan_blanks _ _ B3), scan_cons, (scan_punct_flat _ _ _ R ltac:(auto)).
    exact (scan_blanks _ _ B4).
  - exists false. rewrite !scan_app, (scan_blanks _ _ B1), !scan_cons, (scan_punct_flat _ _ _ P ltac:(auto)), (scan_punct_flat _ _ _ P' ltac:(auto)), !scan_app, (scan_blanks _ _ B2), (scan_inert _ _ (key_inert _ _ GK)), (scan_blanks _ _ B3), !scan_cons,
      (scan_punct_flat _ _ _ R ltac:(auto)), (scan_punct_flat _ _ _ R' ltac:(auto)). exact (scan_blanks _ _ B4).
Qed.
Lemma newline_no_symbol n : ~ symbol (XNewline, n).
Proof. intros (ty & P & _). discriminate. Qed.
Lemma comment_no_symbol n : ~ symbol (XComment, n).
Proof. intros (ty & P & _). discriminate. Qed.
Lemma comment_apart s n y : apart s (XComment, n) y -> symbol y \/ is_punct TDot y.
Proof. intros [H|[H|[_ [H|H]]]]; [destruct (comment_no_symbol _ H)|auto|discriminate|auto]. Qed.

(** ** Documents *)
Lemma doc_gap ts d : g_doc ts d -> forall a w0 w b l r, ts = a ++ w0 ++ b -> ~ (symbol r \/ is_punct TDot r) ->
  fits (scan (false, []) a) (last a l) (hd r b) w0 -> fits (scan (false, []) a) (last a l) (hd r b) w -> g_doc (a ++ w ++ b) d.
Proof.
  induction 1 as [ts s c GL GC|ts s c n ts' d GL GC GD IH]; intros a w0 w b l r E NR F0 F.
  - assert (LE : line_end c) by (rewrite <- (app_nil_r c); apply comment_end; [exact GC|exact I]).
    destruct (line_gap _ _ _ _ _ _ _ _ _ GL LE E F0 F) as [(L' & -> & GL')|(a' & NE & -> & E2)]; [apply gd_last; assumption|].
    exfalso. destruct GC as [|cs]; [destruct a'; [congruence|discriminate]|]. destruct a' as [|y a']; [congruence|]. injection E2 as <- E2.
    symmetry in E2. apply app_eq_nil in E2. destruct E2 as [-> E2]. apply app_eq_nil in E2. destruct E2 as [-> ->].
    rewrite last_last in F0. destruct F0 as (H & _). exact (NR (comment_apart _ _ _ H)).
  - assert (LE : line_end (c ++ (XNewline, n) :: ts')) by (apply comment_end; [exact GC|right; reflexivity]).
    destruct (line_gap _ _ _ _ _ _ _ _ _ GL LE E F0 F) as [(L' & -> & GL')|(a' & NE & -> & E2)]; [apply gd_line; assumption|].
    destruct (scan_line _ _ GL) as (e & SL).
    assert (K : exists a3, a' = c ++ (XNewline, n) :: a3 /\ ts' = a3 ++ w0 ++ b).
    { destruct GC as [|cs]; (destruct a' as [|y a']; [congruence|]); cbn [app] in E2; injection E2 as <- E2; [exists a'; auto|].
      destruct a' as [|y a']; [exfalso|injection E2 as <- E2; exists a'; auto]. rewrite scan_app, SL, last_last in F0.
      pose proof (fits_blanks _ _ _ _ F0 (not_array_nil e)) as W0. destruct w0 as [|y w0]; [|injection E2 as <- _; pose proof (Forall_inv W0) as H; discriminate H].
      cbn in E2. subst b. destruct F0 as (H & _). apply comment_apart in H. destruct H as [H|H]; [exact (newline_no_symbol _ H)|discriminate]. }
    destruct K as (a3 & -> & ->).
    replace ((ts ++ c ++ (XNewline, n) :: a3) ++ w ++ b) with (ts ++ c ++ (XNewline, n) :: (a3 ++ w ++ b)) by asc. apply gd_line; [exact GL|exact GC|].
    assert (SC : scan (false, []) (ts ++ c ++ (XNewline, n) :: a3) = scan (false, []) a3).
    { rewrite !scan_app, SL. replace (scan (e, []) c) with (e, [] : list bool); [reflexivity|]. destruct GC as [|cs]; [reflexivity|]. destruct e; reflexivity. }
    assert (EL : last (ts ++ c ++ (XNewline, n) :: a3) l = last a3 (XNewline, n)).
    { replace (ts ++ c ++ (XNewline, n) :: a3) with ((ts ++ c) ++ (XNewline, n) :: a3) by asc. rewrite last_app by discriminate. apply last_cons. }
    rewrite SC, EL in F0, F. exact (IH _ _ _ _ _ _ eq_refl NR F0 F).
Qed.

(** ** Theorems *)
(** Any pieces of a document make it the document it is. *)
Lemma doc_tiles ts t d : lexical ts t -> toml_doc t d -> g_doc ts d.
Proof.
  intros L T. destruct (C34_toml_documents _ _ T) as (a & P & DO). pose proof (lexical_cut _ _ L) as C. pose proof L as (_ & V & _).
  destruct (run_sound _ _ _ C (fun _ => V)) as [[X _]|(a' & es' & X & _ & _ & _ & D)]; rewrite P in X; [discriminate|]. injection X as <- EN.
  destruct (D (eq_sym EN)) as (d' & _ & G & _ & DO'). congruence.
Qed.
Lemma gap_one a w w' b t t' d : lexical (a ++ w ++ b) t -> lexical (a ++ w' ++ b) t' -> gap a w w' b -> toml_doc t d -> toml_doc t' d.
Proof.
  intros L L' [F F'] T. pose proof (doc_tiles _ _ _ L T) as G. exists (a ++ w' ++ b). split; [exact L'|]. split; [|exact (doc_nesting _ _ T)].
  assert (NS : ~ (symbol no_tile \/ is_punct TDot no_tile)) by (intros [(ty & P & _)|P]; discriminate).
  exact (doc_gap _ _ G _ _ _ _ _ _ eq_refl NS F F').
Qed.
(** What fills the gaps next to symbols does not matter. *)
Theorem C80_gaps a w w' b t t' d : lexical (a ++ w ++ b) t -> lexical (a ++ w' ++ b) t' -> gap a w w' b -> (toml_doc t d <-> toml_doc t' d).
Proof. intros L L' G. split; [exact (gap_one _ _ _ _ _ _ _ L L' G)|exact (gap_one _ _ _ _ _ _ _ L' L (conj (proj2 G) (proj1 G)))]. Qed.

(** Any number of such changes, and those of C79. *)
Inductive respaced : list N -> list N -> Prop :=
| rsp_same t : respaced t t
| rsp_layout t t' t2 : reformatted t t' -> respaced t' t2 -> respaced t t2
| rsp_gap a w w' b t t' t2 : lexical (a ++ w ++ b) t -> lexical (a ++ w' ++ b) t' -> gap a w w' b -> respaced t' t2 -> respaced t t2.
Theorem C80_documents t t' d : respaced t t' -> (toml_doc t d <-> toml_doc t' d).
Proof.
  induction 1 as [t|t t' t2 R _ IH|a w w' b t t' t2 L L' G _ IH]; [tauto| |].
  - rewrite (C79_documents _ _ d R). exact IH.
  - rewrite (C80_gaps _ _ _ _ _ _ d L L' G). exact IH.
Qed.
Theorem C80_output width prof t t' v : respaced t t' -> scalars t -> scalars t' ->
  (ctoml width prof Validate t = Ok (v, []) <-> ctoml width prof Validate t' = Ok (v, [])).
Proof.
  intros R SC SC'. rewrite (C65_silent_exactly_on_valid_toml _ _ _ _ SC), (C65_silent_exactly_on_valid_toml _ _ _ _ SC').
  split; intros (d & T & H); exists d; (split; [apply (C80_documents _ _ d R); exact T|exact H]).
Qed.
Theorem C80_manifest width prof t t' v : respaced t t' -> scalars t -> scalars t' -> settled prof t (STable v) ->
  (ctoml width prof Check t = Ok (v, []) <-> ctoml width prof Check t' = Ok (v, [])).
Proof.
  intros R SC SC' ST. assert (ST' : settled prof t' (STable v)) by (destruct ST as [->|[_ ST]]; [left; reflexivity|right; auto]).
  rewrite (C75_silent_exactly_on_fine_manifests _ _ _ _ SC ST), (C75_silent_exactly_on_fine_manifests _ _ _ _ SC' ST').
  split; intros (d & T & H); exists d; (split; [apply (C80_documents _ _ d R); exact T|exact H]).
Qed.
Theorem C80_dependencies prof t t' d v a m deps ds a' m' deps' ds' : respaced t t' -> toml_doc t d -> consistent d -> means d v -> settled prof t v -> settled prof t' v ->
  lex_and_parse t = Ok (a, []) -> map_doc (as_asts a) = Ok (m, []) -> check prof m = Ok (deps, ds) ->
  lex_and_parse t' = Ok (a', []) -> map_doc (as_asts a') = Ok (m', []) -> check prof m' = Ok (deps', ds') ->
  map dep_data deps = map dep_data deps'.
Proof. intros R T C ME ST ST'. exact (same_dependencies _ _ _ _ _ _ _ _ _ _ _ _ _ T (proj1 (C80_documents _ _ d R) T) C ME ST ST'). Qed.

(** ** Blanks *)
Lemma starts_grow P s g g' : s <> [] -> starts_with P (s ++ g) -> starts_with P (s ++ g').
Proof. intros NE (c & r & E & H). destruct s as [|x s]; [congruence|]. injection E as -> _. exists c, (s ++ g'). auto. Qed.
Lemma seps_swap g x g' : x = 32 \/ x = 9 -> forall a, Forall LexSpec.valid a -> no_comment a -> seps a g -> seps a (x :: g').
Proof.
  intros HX. induction a as [|[y s] a IH]; intros V NC A; [exact I|]. cbn [seps] in A |- *. destruct A as [A1 A2]. pose proof (Forall_inv_tail V) as V2. split.
  - destruct a as [|z a].
    + cbn [source map concat app] in *. assert (FC : forall (P : N -> Prop), ~ P 32 -> ~ P 9 -> ~ starts_with P (x :: g')).
      { intros P P1 P2 (c & r & E & H). injection E as <- _. destruct HX as [-> | ->]; auto. }
      destruct y as [| |ty| | |q text off]; cbn [separated] in *; try exact I.
      * left. split; [apply FC; intros W; apply W; cbn; tauto|]. intros _. apply FC; lia.
      * exfalso. exact (NC [] s eq_refl).
      * intros _. apply FC; destruct q; cbn; lia.
    + set (tl := z :: a) in *. assert (NE : tl <> []) by discriminate. pose proof (source_nonempty _ V2 NE) as SN.
      assert (CR : (exists r, source tl ++ g = 13 :: 10 :: r) -> exists r, source tl ++ x :: g' = 13 :: 10 :: r).
      { intros H. destruct (starts_crlf_tile_g _ _ V2 A2 NE H) as (ts' & ->). eexists. reflexivity. }
      destruct y as [| |ty| | |q text off]; cbn [separated] in *; try exact I.
      * destruct A1 as [[A1 A3]|A1]; [left|right; exact (CR A1)]. split; [intros H; apply A1; exact (starts_grow _ _ _ _ SN H)|]. intros E H. exact (A3 E (starts_grow _ _ _ _ SN H)).
      * destruct A1 as [A1|[[A1 A3]|A1]]; [apply app_eq_nil in A1; tauto| |right; right; exact (CR A1)]. right. left. split; [exact (starts_grow _ _ _ _ SN A1)|exact A3].
      * intros H K. exact (A1 H (starts_grow _ _ _ _ SN K)).
  - apply IH; [exact V2| |exact A2]. intros p s0 E. apply (NC ((y, s) :: p) s0). rewrite E. reflexivity.
Qed.
Lemma symbol_source y : symbol y \/ is_punct TDot y -> LexSpec.valid y -> exists c, snd y = [c] /\ c <> 10 /\ c <> 13.
Proof.
  intros H V. assert (exists ty, is_punct ty y) as (ty & P) by (destruct H as [(ty & P & _)|P]; eauto). destruct y as [y s]. unfold is_punct in P. cbn in P. subst y. cbn in V. destruct V as (c & K & ->). exists c. split; [reflexivity|].
  unfold punct in K. cbn in K. repeat (destruct K as [K|K]; [injection K as _ <-; lia|]). destruct K.
Qed.
(** Blanks can be put in, and taken out, next to every symbol. *)
Theorem C80_blanks a b w t d : lexical (a ++ b) t -> blank_text w -> gap a [] (blank_tiles w) b -> (toml_doc t d <-> toml_doc (source a ++ w ++ source b) d).
Proof.
  intros L BW G. destruct w as [|x w]; [destruct L as (<- & _ & _); rewrite source_app; tauto|].
  apply (C80_gaps a [] (blank_tiles (x :: w)) b t _ d L); [|exact G]. destruct L as (S0 & V & A). apply Forall_app in V as [VA VB].
  split; [rewrite !source_app, blank_source; reflexivity|]. split.
  - apply Forall_app. split; [exact VA|]. apply Forall_app. split; [|exact VB]. apply Forall_map. eapply Forall_impl; [|exact BW]. intros z [-> | ->]; cbn; auto.
  - apply seps_all in A. apply seps_all. apply seps_app in A. destruct A as [A1 A2]. apply seps_app. rewrite app_nil_r in A1 |- *. split.
    + rewrite source_app, blank_source. apply (seps_swap (source b)); [exact (Forall_inv BW)|exact VA| |exact A1].
      intros p s0 E. subst a. destruct G as [(H & _) _]. rewrite last_last in H. apply comment_apart in H.
      destruct b as [|y b]; [destruct H as [(ty & P & _)|P]; discriminate|]. cbn in H. destruct (symbol_source _ H (Forall_inv VB)) as (c & E & N10 & N13).
      apply seps_app in A1. destruct A1 as [_ [A1 _]]. cbn [separated] in A1. change (source []) with (@nil N) in A1. cbn [app] in A1. destruct y as [y u]. cbn in E. subst u. cbn in A1.
      destruct A1 as [A1|[[(c' & r & E & H10) _]|(r & E)]]; [discriminate| |]; injection E as E _; congruence.
    + apply seps_app. split; [|exact A2]. generalize (source b ++ []). intros g. clear. induction (x :: w) as [|y u IH]; cbn; [exact I|]. split; [exact I|exact IH].
Qed.

(** ** Examples *)
Definition word_charb (c : N) : bool := negb (existsb (N.eqb c) [9; 10; 32; 34; 35; 39; 44; 46; 61; 91; 93; 123; 125]).
Definition simple_tile (x : tile) : bool :=
  match x with
  | (XBlank, [c]) => (c =? 9) || (c =? 32)
  | (XNewline, [c]) => c =? 10
  | (XPunct ty, [c]) => match ty with TSquareLeft => c =? 91 | TSquareRight => c =? 93 | TCurlyLeft => c =? 123 | TCurlyRight => c =? 125 | TEqual => c =? 61 | TDot => c =? 46 | TComma => c =? 44 | _ => false end
  | (XWord, c :: r) => forallb (fun c => word_charb c && negb (c =? 13)) (c :: r)
  | (XComment, c :: r) => (c =? 35) && forallb (fun c => (32 <=? c) && (c <? 127)) r
  | _ => false
  end.
Fixpoint simple_tiles (ts : list tile) : bool :=
  match ts with
  | [] => true
  | x :: r => simple_tile x && simple_tiles r &&
      match fst x, r with XWord, (XWord, _) :: _ => false | XComment, y :: _ => match fst y with XNewline => true | _ => false end | _, _ => true end
  end.
Lemma word_charb_ok c : word_charb c = true -> word_char c.
Proof.
  intros H M. unfold word_charb in H. apply negb_true_iff in H. assert (K : existsb (N.eqb c) [9; 10; 32; 34; 35; 39; 44; 46; 61; 91; 93; 123; 125] = true) by (apply existsb_exists; exists c; split; [exact M|apply N.eqb_refl]). congruence.
Qed.
Lemma simple_valid x : simple_tile x = true -> LexSpec.valid x /\ ~ ends_with 13 (snd x) /\ exists c r, snd x = c :: r /\ (fst x = XNewline -> c = 10) /\ (fst x <> XWord -> In c [9; 10; 32; 35; 44; 46; 61; 91; 93; 123; 125]).
Proof.
  destruct x as [[| |ty| | |q text off] s]; cbn [simple_tile fst snd]; intros H.
  - destruct s as [|c [|c' s]]; try discriminate. apply orb_true_iff in H. rewrite !N.eqb_eq in H. split; [cbn; destruct H as [-> | ->]; auto|]. split; [intros (r & E); destruct r as [|y [|z r]]; [injection E as ->; lia|discriminate|discriminate]|].
    exists c, []. split; [reflexivity|]. split; [discriminate|]. intros _. cbn. destruct H as [-> | ->]; auto.
  - destruct s as [|c [|c' s]]; try discriminate. apply N.eqb_eq in H. subst c. split; [left; reflexivity|]. split; [intros (r & E); destruct r as [|y [|z r]]; discriminate|]. exists 10, []. cbn. auto.
  - destruct s as [|c [|c' s]]; try (destruct ty; discriminate). assert (K : punct ty c) by (destruct ty; try discriminate; apply N.eqb_eq in H; subst c; unfold punct; cbn; auto 12).
    split; [exists c; auto|]. unfold punct in K. cbn in K. assert (M : In c [91; 93; 123; 125; 61; 46; 44]) by (cbn; repeat (destruct K as [K|K]; [injection K as _ <-; auto 12|]); destruct K).
    split; [intros (r & E); destruct r as [|y [|z r]]; [injection E as ->; cbn in M; lia|discriminate|discriminate]|]. exists c, []. split; [reflexivity|]. split; [discriminate|]. intros _. cbn in M |- *. lia.
  - destruct s as [|c s]; try discriminate. assert (K : Forall (fun c => word_char c /\ c <> 13) (c :: s)).
    { apply Forall_forall. intros z M. apply (proj1 (forallb_forall _ _) H) in M. apply andb_true_iff in M. destruct M as [M1 M2]. split; [exact (word_charb_ok _ M1)|]. intros ->. discriminate. }
    split; [split; [discriminate|]; eapply Forall_impl; [|exact K]; intros z [Z _]; exact Z|]. split.
    + intros (r & E). rewrite E in K. apply Forall_app in K as [_ K]. apply Forall_inv in K. destruct K as [_ K]. congruence.
    + exists c, s. split; [reflexivity|]. split; [discriminate|]. congruence.
  - destruct s as [|c s]; try discriminate. apply andb_true_iff in H. destruct H as [H1 H2]. apply N.eqb_eq in H1. subst c.
    assert (K : Forall (fun c => plain c /\ c <> 13) s). { apply Forall_forall. intros z M. apply (proj1 (forallb_forall _ _) H2) in M. unfold plain. lia. }
    split; [exists s; split; [reflexivity|]; eapply Forall_impl; [|exact K]; intros z [Z _]; exact Z|]. split.
    + intros (r & E). destruct r as [|y r]; [discriminate|]. injection E as _ ->. apply Forall_app in K as [_ K]. apply Forall_inv in K. destruct K as [_ K]. congruence.
    + exists 35, s. split; [reflexivity|]. split; [discriminate|]. intros _. cbn. auto 6.
  - destruct s; discriminate.
Qed.
Lemma simple_lexical ts t : simple_tiles ts = true -> source ts = t -> lexical ts t.
Proof.
  intros H <-. split; [reflexivity|]. revert H. induction ts as [|x ts IH]; intros H; [split; [constructor|exact I]|]. cbn [simple_tiles] in H. apply andb_true_iff in H. destruct H as [H H3]. apply andb_true_iff in H. destruct H as [H1 H2].
  destruct (IH H2) as [V A]. destruct (simple_valid _ H1) as (V1 & N13 & _). split; [constructor; assumption|]. cbn [all_separated]. split; [|exact A].
  destruct ts as [|y ts].
  - destruct x as [[| |ty| | |q text off] s]; cbn [separated]; try exact I; [left|left; reflexivity|destruct s; discriminate]. split; [|intros _]; intros (c & r & E & _); discriminate.
  - cbn [simple_tiles] in H2. apply andb_true_iff in H2. destruct H2 as [H2 _]. apply andb_true_iff in H2. destruct H2 as [H2 _]. destruct (simple_valid _ H2) as (_ & _ & c & r & E & E10 & EM).
    change (source (y :: ts)) with (snd y ++ source ts). rewrite E. destruct x as [[| |ty| | |q text off] s]; cbn [separated fst] in *; try exact I.
    + left. split; [|intros K; destruct (N13 K)]. intros (c' & r' & E' & W). injection E' as <- _. apply W. assert (NW : fst y <> XWord) by (destruct y as [[] u]; try discriminate; intros K; discriminate K).
      apply EM in NW. cbn in NW |- *. lia.
    + right. left. split; [|exact N13]. destruct (fst y) eqn:EY; try discriminate. exists 10, (r ++ source ts). rewrite (E10 eq_refl). auto.
    + destruct s; discriminate.
Qed.
Definition tW (s : string) : tile := (XWord, bs s).
Definition tP (ty : ttype) (s : string) : tile := (XPunct ty, bs s).
Definition tB : tile := (XBlank, [32]).
Definition tN : tile := (XNewline, [10]).
Definition tC (s : string) : tile := (XComment, bs s).
Lemma triviab_ok w : forallb (fun x : tile => match fst x with XBlank | XNewline | XComment => true | _ => false end) w = true -> trivia w.
Proof. intros H. apply Forall_forall. intros [x s] M. apply (proj1 (forallb_forall _ _) H) in M. unfold is_trivia. cbn in *. destruct x; try discriminate; auto. Qed.
Lemma blanksb_ok w : forallb (fun x : tile => match fst x with XBlank => true | _ => false end) w = true -> blanks w.
Proof. intros H. apply Forall_forall. intros [x s] M. apply (proj1 (forallb_forall _ _) H) in M. unfold is_blank. cbn in *. destruct x; try discriminate; auto. Qed.
Ltac sym := solve [eexists; split; [reflexivity|cbn; auto 8]].
Ltac apart_ := first [left; sym|right; left; sym|right; right; split; [reflexivity|first [left; reflexivity|right; reflexivity]]].
Ltac fits_ := split; [apart_|first
  [left; split; [eexists; vm_compute; reflexivity|apply triviab_ok; reflexivity]
  |right; split; [intros (? & H); vm_compute in H; discriminate H|split; [apply blanksb_ok; reflexivity|split; intros [H1 H2]; vm_compute in H1, H2; discriminate]]]].
Ltac gap_ a w w' b := apply (rsp_gap a w w' b _ (source (a ++ w' ++ b))); [apply simple_lexical; vm_compute; reflexivity|apply simple_lexical; vm_compute; reflexivity|split; fits_|].
(** One line, and the same in the usual layout. *)
Definition tight : list N := bs "a.b=[1,{c=2},[3]]" ++ nl.
Definition loose : list N := bs "a . b = [" ++ nl ++ bs "  1, # one" ++ nl ++ bs "  { c = 2 }, [3] ]" ++ nl.
Definition te := tP TEqual "=". Definition tl0 := tP TSquareLeft "[". Definition tr0 := tP TSquareRight "]".
Definition tc := tP TComma ",". Definition tcl := tP TCurlyLeft "{". Definition tcr := tP TCurlyRight "}". Definition td := tP TDot ".".
Example C80_example : respaced tight loose /\
  exists v, ctoml ascii Debug Validate tight = Ok (v, []) /\ ctoml ascii Debug Validate loose = Ok (v, []) /\ v <> [].
Proof.
  split.
  - gap_ [tW "a"] (@nil tile) [tB] [td; tW "b"; te; tl0; tW "1"; tc; tcl; tW "c"; te; tW "2"; tcr; tc; tl0; tW "3"; tr0; tr0; tN].
    gap_ [tW "a"; tB; td] (@nil tile) [tB] [tW "b"; te; tl0; tW "1"; tc; tcl; tW "c"; te; tW "2"; tcr; tc; tl0; tW "3"; tr0; tr0; tN].
    gap_ [tW "a"; tB; td; tB; tW "b"] (@nil tile) [tB] [te; tl0; tW "1"; tc; tcl; tW "c"; te; tW "2"; tcr; tc; tl0; tW "3"; tr0; tr0; tN].
    gap_ [tW "a"; tB; td; tB; tW "b"; tB; te] (@nil tile) [tB] [tl0; tW "1"; tc; tcl; tW "c"; te; tW "2"; tcr; tc; tl0; tW "3"; tr0; tr0; tN].
    gap_ [tW "a"; tB; td; tB; tW "b"; tB; te; tB; tl0] (@nil tile) [tN; tB; tB] [tW "1"; tc; tcl; tW "c"; te; tW "2"; tcr; tc; tl0; tW "3"; tr0; tr0; tN].
    gap_ [tW "a"; tB; td; tB; tW "b"; tB; te; tB; tl0; tN; tB; tB; tW "1"; tc] (@nil tile) [tB; tC "# one"; tN; tB; tB] [tcl; tW "c"; te; tW "2"; tcr; tc; tl0; tW "3"; tr0; tr0; tN].
    gap_ [tW "a"; tB; td; tB; tW "b"; tB; te; tB; tl0; tN; tB; tB; tW "1"; tc; tB; tC "# one"; tN; tB; tB; tcl] (@nil tile) [tB] [tW "c"; te; tW "2"; tcr; tc; tl0; tW "3"; tr0; tr0; tN].
    gap_ [tW "a"; tB; td; tB; tW "b"; tB; te; tB; tl0; tN; tB; tB; tW "1"; tc; tB; tC "# one"; tN; tB; tB; tcl; tB; tW "c"] (@nil tile) [tB] [te; tW "2"; tcr; tc; tl0; tW "3"; tr0; tr0; tN].
    gap_ [tW "a"; tB; td; tB; tW "b"; tB; te; tB; tl0; tN; tB; tB; tW "1"; tc; tB; tC "# one"; tN; tB; tB; tcl; tB; tW "c"; tB; te] (@nil tile) [tB] [tW "2"; tcr; tc; tl0; tW "3"; tr0; tr0; tN].
    gap_ [tW "a"; tB; td; tB; tW "b"; tB; te; tB; tl0; tN; tB; tB; tW "1"; tc; tB; tC "# one"; tN; tB; tB; tcl; tB; tW "c"; tB; te; tB; tW "2"] (@nil tile) [tB] [tcr; tc; tl0; tW "3"; tr0; tr0; tN].
    gap_ [tW "a"; tB; td; tB; tW "b"; tB; te; tB; tl0; tN; tB; tB; tW "1"; tc; tB; tC "# one"; tN; tB; tB; tcl; tB; tW "c"; tB; te; tB; tW "2"; tB; tcr; tc] (@nil tile) [tB] [tl0; tW "3"; tr0; tr0; tN].
    gap_ [tW "a"; tB; td; tB; tW "b"; tB; te; tB; tl0; tN; tB; tB; tW "1"; tc; tB; tC "# one"; tN; tB; tB; tcl; tB; tW "c"; tB; te; tB; tW "2"; tB; tcr; tc; tB; tl0; tW "3"; tr0] (@nil tile) [tB] [tr0; tN].
    apply rsp_same.
  - eexists. split; [vm_compute; reflexivity|]. split; [vm_compute; reflexivity|]. discriminate.
Qed.
Lemma no_doc t : (match lex_and_parse t with Ok (_, []) => true | _ => false end) = false -> forall d, ~ toml_doc t d.
Proof. intros H d T. destruct (C34_toml_documents _ _ T) as (a & P & _). rewrite P in H. discriminate. Qed.
(** Elsewhere it does matter: next to the dot of a number, between the brackets
    of the header of an array, and line breaks in an inline table. *)
Theorem C80_elsewhere_refuted :
  ((exists d, toml_doc (bs "a = 1.5") d) /\ forall d, ~ toml_doc (bs "a = 1 .5") d) /\
  ((exists d, toml_doc (bs "[[a]]") d) /\ forall d, ~ toml_doc (bs "[ [a]]") d) /\
  ((exists d, toml_doc (bs "a = {b = 1}") d) /\ forall d, ~ toml_doc (bs "a = {" ++ nl ++ bs "b = 1}") d).
Proof. split; [|split]; (split; [apply some_doc; vm_compute; reflexivity|apply no_doc; vm_compute; reflexivity]). Qed.

Print Assumptions C80_gaps.
Print Assumptions C80_blanks.
Print Assumptions C80_documents.
Print Assumptions C80_output.
Print Assumptions C80_manifest.
Print Assumptions C80_dependencies.
Print Assumptions C80_elsewhere_refuted.
