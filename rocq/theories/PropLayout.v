(** C79: blank lines and comments do not matter. *)
From Verif Require Import Base BaseProofs CommonModel TomlError LitModel LitSpec LexModel LexSpec LexBase LexStr LexMain LexTop LexCStr LexCMain LexPre ParseModel ParseSpec ParseUniq ParsePre.
From Verif Require Import MapModel MapSpec MapWf CliModel MeanSpec PropMap IdeModel IdeSpec IdeProofs PropParse PropIde MeanProofs PropCli ManifestSpec ManifestProofs PropManifest ManifestFine PropFine PropPre PropLines.

(** ** Specification *)

(** Blanks and tabs, and a comment if there is one. *)
Definition blank_text (w : list N) : Prop := Forall (fun c => c = 32 \/ c = 9) w.
Definition comment_text (c : list N) : Prop := c = [] \/ exists t, c = 35 :: t /\ Forall plain t.
(** Lines of nothing else. *)
Inductive quiet_lines : list N -> Prop :=
| ql_none : quiet_lines []
| ql_line w c n r : blank_text w -> comment_text c -> line_break n -> quiet_lines r -> quiet_lines (w ++ c ++ n ++ r).

(** ** Levels *)
Lemma nesting_lower : forall d k k', k' <= k -> nesting_ok k d -> nesting_ok k' d.
Proof.
  induction d as [|[p v|p|p] d IH]; intros k k' L N; cbn [nesting_ok] in *; try exact I; try exact N.
  destruct N as [N1 N2]. split; [lia|exact (IH _ _ L N2)].
Qed.
Lemma nesting_tail : forall a b k, nesting_ok k (a ++ b) -> nesting_ok 0 b.
Proof.
  induction a as [|[p v|p|p] a IH]; intros b k N; cbn [app nesting_ok] in N.
  - apply (nesting_lower b k 0); [lia|exact N].
  - exact (IH _ _ (proj2 N)).
  - exact (IH _ _ N).
  - exact (IH _ _ N).
Qed.

(** ** Documents one after the other *)
Lemma line_split ts s c n rest d0 : g_line ts s -> g_comment c -> forall all, g_doc all d0 -> all = ts ++ c ++ (XNewline, n) :: rest -> exists d, d0 = s ++ d /\ g_doc rest d.
Proof.
  intros GL GC all G EA. destruct G as [us s' c' GL' GC'|us s' c' n' rest' d' GL' GC' GD'].
  - exfalso. assert (E : ts ++ c ++ (XNewline, n) :: rest = us ++ c' ++ []) by (rewrite app_nil_r; symmetry; exact EA).
    destruct (g_line_unique _ _ _ _ _ _ GL GL' E) as (_ & E2); [apply comment_end; [assumption|right; reflexivity]|apply comment_end; [assumption|exact I]|].
    apply comment_unique in E2; [discriminate|assumption|assumption|reflexivity|exact I].
  - symmetry in EA. destruct (g_line_unique _ _ _ _ _ _ GL GL' EA) as (-> & E2); [apply comment_end; [assumption|right; reflexivity]..|].
    apply comment_unique in E2; [|assumption|assumption|reflexivity|reflexivity]. injection E2 as _ <-. exists d'. auto.
Qed.
Lemma lines_split ts d1 : g_lines ts d1 -> forall more d, g_doc (ts ++ more) d -> exists d2, d = d1 ++ d2 /\ g_doc more d2.
Proof.
  induction 1 as [|ts s c n ts' d1 GL GC _ IH]; intros more d G; [exists d; auto|].
  destruct (line_split _ _ _ n (ts' ++ more) _ GL GC _ G) as (d' & -> & G'); [rewrite <- !app_assoc; reflexivity|]. destruct (IH _ _ G') as (d2 & -> & G2). exists d2. rewrite app_assoc. auto.
Qed.
Lemma all_separated_tail a b : all_separated (a ++ b) -> all_separated b.
Proof. induction a as [|x a IH]; intros A; [exact A|]. apply IH. exact (proj2 A). Qed.
(** What a document says from some line on is what the text from there on says
    alone. *)
Theorem C79_split a b d1 d : toml_doc a d1 -> complete_lines a ->
  (toml_doc (a ++ b) d <-> exists d2, d = d1 ++ d2 /\ toml_doc b d2 /\ nesting_ok 0 (d1 ++ d2)).
Proof.
  intros T CL. split.
  - intros T'. destruct (C34_toml_documents _ _ T') as (t & P & DO). destruct T' as (us & LU & GU & NU). destruct T as (ts & L & G & _). pose proof (lines_end _ _ L CL) as EL.
    pose proof (lexical_cut _ _ L) as (S1 & SH & SEP & _). destruct L as (_ & V & _).
    destruct (lex_prefix ts b V SH SEP EL) as (more & les & E1 & E2 & E3 & E4 & _ & E5). rewrite S1 in *.
    assert (les = []) by (pose proof (lexical_cut _ _ LU) as (_ & _ & _ & LX); congruence). subst les.
    assert (C : cut (a ++ b) (ts ++ more) []) by (split; [exact E1|auto]).
    destruct (run_sound _ _ _ C E5) as [[X _]|(t' & es' & X & _ & _ & _ & D)]; rewrite P in X; [discriminate|]. injection X as <- EN. destruct (D (eq_sym EN)) as (d' & L' & G' & _ & DO').
    assert (d' = d) by congruence. subst d'. destruct (lines_split _ _ (doc_lines _ _ G EL) _ _ G') as (d2 & -> & G2). exists d2. split; [reflexivity|]. split; [|exact NU].
    exists more. split; [|split; [exact G2|exact (nesting_tail _ _ _ NU)]]. destruct L' as (S2 & V2 & A2). rewrite source_app, S1 in S2. apply app_inv_head in S2.
    split; [exact S2|]. split; [apply Forall_app in V2; tauto|exact (all_separated_tail _ _ A2)].
  - intros (d2 & -> & T' & N). exact (C76_appended _ _ _ _ T CL T' N).
Qed.

(** ** Comments at the end *)
Definition blank_tiles (w : list N) : list tile := map (fun c => (XBlank, [c])) w.
Lemma blank_source w : source (blank_tiles w) = w.
Proof. induction w as [|c w IH]; [reflexivity|]. cbn. f_equal. exact IH. Qed.
Definition comment_tiles (c : list N) : list tile := match c with [] => [] | _ => [(XComment, c)] end.
Lemma comment_source c : source (comment_tiles c) = c.
Proof. destruct c; [reflexivity|]. cbn. rewrite app_nil_r. reflexivity. Qed.
Lemma tail_valid w c : blank_text w -> comment_text c -> Forall LexSpec.valid (blank_tiles w ++ comment_tiles c).
Proof.
  intros B C. apply Forall_app. split.
  - apply Forall_map. eapply Forall_impl; [|exact B]. intros x [-> | ->]; cbn; auto.
  - destruct C as [->|(t & -> & F)]; constructor; [|constructor]. exists t. auto.
Qed.
Lemma tail_separated w c : all_separated (blank_tiles w ++ comment_tiles c).
Proof. induction w as [|x w IH]; cbn; [destruct c; cbn; auto|]. auto. Qed.
Lemma blank_plain c : c = 32 \/ c = 9 -> plain c.
Proof. unfold plain. lia. Qed.
Lemma tail_plain w c : blank_text w -> comment_text c -> Forall plain (w ++ c).
Proof.
  intros B C. apply Forall_app. split; [eapply Forall_impl; [|exact B]; exact blank_plain|]. destruct C as [->|(t & -> & F)]; constructor; [|exact F]. unfold plain. lia.
Qed.
Definition no_comment (ts : list tile) : Prop := forall p s, ts <> p ++ [(XComment, s)].
Lemma no_comment_app a b : b <> [] -> no_comment b -> no_comment (a ++ b).
Proof.
  intros NE H p s E. destruct b as [|x b _] using rev_ind; [congruence|]. rewrite app_assoc in E. apply app_inj_tail in E. destruct E as [_ ->]. exact (H b s eq_refl).
Qed.
Lemma no_comment_one x : fst x <> XComment -> no_comment [x].
Proof. intros H p s E. apply H. destruct p as [|y [|z p]]; [|discriminate|discriminate]. injection E as ->. reflexivity. Qed.
Lemma no_comment_all ts : Forall (fun x => fst x <> XComment) ts -> no_comment ts.
Proof. intros F p s ->. apply Forall_app in F as [_ F]. apply Forall_inv in F. apply F. reflexivity. Qed.
Lemma no_comment_punct ty x : is_punct ty x -> no_comment [x].
Proof. intros H. apply no_comment_one. unfold is_punct in H. rewrite H. discriminate. Qed.
Lemma cons_one {A} (x : A) l : x :: l = [x] ++ l. Proof. reflexivity. Qed.
Lemma lit_end ts t : g_lit ts t -> ts <> [] /\ no_comment ts.
Proof.
  intros ((s & r & ->) & F & _). split; [discriminate|]. apply no_comment_all. eapply Forall_impl; [|exact F]. intros x [H|H]; [rewrite H; discriminate|]. unfold is_punct in H. rewrite H. discriminate.
Qed.
Lemma value_end ts v : g_value ts v -> ts <> [] /\ no_comment ts.
Proof.
  intros [q text off s|ts0 t v0 L _|ta a b tb t v0 _ _ L _|l r ts0 vs _ P _|l r w _ P _|l r ts0 fs _ P _].
  - split; [discriminate|]. apply no_comment_one. discriminate.
  - exact (lit_end _ _ L).
  - destruct (lit_end _ _ L) as [L1 L2]. split; [destruct ta; discriminate|]. rewrite cons_one, app_assoc. apply no_comment_app; assumption.
  - split; [discriminate|]. rewrite cons_one, app_assoc. apply no_comment_app; [discriminate|exact (no_comment_punct _ _ P)].
  - split; [discriminate|]. rewrite cons_one, app_assoc. apply no_comment_app; [discriminate|exact (no_comment_punct _ _ P)].
  - split; [discriminate|]. rewrite cons_one, app_assoc. apply no_comment_app; [discriminate|exact (no_comment_punct _ _ P)].
Qed.
Lemma stmt_end ts s : g_stmt ts s -> ts <> [] /\ no_comment ts.
Proof.
  intros [kt k w1 e w2 ts0 v _ _ _ _ GV|l w1 kt k w2 r _ _ _ _ P|l l' w1 kt k w2 r r' _ _ _ _ _ _ P].
  - destruct (value_end _ _ GV) as [V1 V2]. split; [destruct kt, w1; discriminate|]. rewrite (cons_one e), !app_assoc. apply no_comment_app; assumption.
  - split; [discriminate|]. rewrite (cons_one l), !app_assoc. apply no_comment_app; [discriminate|exact (no_comment_punct _ _ P)].
  - split; [discriminate|]. rewrite (cons_one l), (cons_one l'), (cons_one r [r']), !app_assoc. apply no_comment_app; [discriminate|exact (no_comment_punct _ _ P)].
Qed.
Lemma blanks_no_comment w : blanks w -> no_comment w.
Proof. intros B. apply no_comment_all. eapply Forall_impl; [|exact B]. intros x H. cbv [is_blank] in H. rewrite H. discriminate. Qed.
Lemma line_no_comment ts s : g_line ts s -> no_comment ts.
Proof.
  intros [w B|w1 ts0 s0 w2 B1 GS B2]; [exact (blanks_no_comment _ B)|]. destruct (stmt_end _ _ GS) as [S1 S2]. destruct w2 as [|x w2]; [rewrite app_nil_r; apply no_comment_app; assumption|].
  rewrite app_assoc. apply no_comment_app; [discriminate|exact (blanks_no_comment _ B2)].
Qed.
Lemma doc_end ts d : g_doc ts d ->
  (no_comment ts /\ forall w c, blanks w -> g_comment c -> g_doc (ts ++ w ++ c) d) \/ (exists p s0, ts = p ++ [(XComment, s0)] /\ forall s1, g_doc (p ++ [(XComment, s1)]) d).
Proof.
  induction 1 as [ts s c GL GC|ts s c n ts' d GL GC G0 IH].
  - destruct GC as [|s0].
    + left. rewrite app_nil_r. split; [exact (line_no_comment _ _ GL)|]. intros w c B C. rewrite app_assoc. apply gd_last; [|exact C]. destruct GL as [w0 B0|w1 ts s w2 B1 G B2]; [apply gl_empty, Forall_app; auto|]. rewrite <- !app_assoc. apply gl_stmt; [exact B1|exact G|apply Forall_app; auto].
    + right. exists ts, s0. split; [reflexivity|]. intros s1. apply gd_last; [exact GL|apply gc_some].
  - destruct IH as [[IH0 IH]|(p & s0 & -> & IH)].
    + left. split.
      * rewrite app_assoc, cons_one, app_assoc. destruct ts' as [|x ts']; [|apply no_comment_app; [discriminate|exact IH0]]. rewrite app_nil_r. apply no_comment_app; [discriminate|apply no_comment_one; discriminate].
      * intros w c' B C. rewrite <- !app_assoc. cbn [app]. apply gd_line; auto.
    + right. exists (ts ++ c ++ (XNewline, n) :: p), s0. split; [rewrite <- !app_assoc; reflexivity|]. intros s1. rewrite <- !app_assoc. cbn [app]. apply gd_line; auto.
Qed.
(** The first character of what is appended. *)
Lemma seps_grow g : (forall c r, g = c :: r -> c = 32 \/ c = 9 \/ c = 35 \/ c = 10 \/ (c = 13 /\ exists r', r = 10 :: r')) ->
  forall ts, (starts_with (eq 10) g -> ~ ends_with 13 (source ts)) -> (g = [] \/ starts_with (fun c => c = 10 \/ c = 13) g \/ no_comment ts) -> all_separated ts -> Forall LexSpec.valid ts -> seps ts g.
Proof.
  intros HG. induction ts as [|[x s] ts IH]; intros NC CM A V; [exact I|]. cbn [all_separated] in A. destruct A as [A1 A2]. pose proof (Forall_inv_tail V) as V2. cbn [seps]. split.
  - destruct ts as [|y ts].
    + cbn [source map concat app] in *. destruct g as [|c r]; [exact A1|]. specialize (HG c r eq_refl). change (source [(x, s)]) with (s ++ []) in NC. rewrite app_nil_r in NC.
      destruct x as [| |ty| | |q text off]; cbn [separated] in *; try exact I.
      * destruct HG as [HG|[HG|[HG|[HG|[HG (r' & ->)]]]]]; subst c; [left|left|left|left|right; exists r'; reflexivity].
        all: split; [intros (c & r0 & E & W); injection E as <- _; apply W; cbn; tauto|]; intros E13 S10; exact (NC S10 E13).
      * right. destruct HG as [HG|[HG|[HG|[HG|[HG (r' & ->)]]]]]; subst c.
        1-3: exfalso; destruct CM as [CM|[CM|CM]]; [discriminate CM|destruct CM as (c & r0 & E & W); injection E as <- _; lia|exact (CM [] s eq_refl)].
        -- left. assert (S10 : starts_with (eq 10) (10 :: r)) by (exists 10, r; auto). split; [exact S10|exact (NC S10)].
        -- right. exists r'. reflexivity.
      * intros _ (c0 & r0 & E & <-). injection E as E _. destruct q; cbn in E; lia.
    + apply separated_below; [|exact A1]. apply source_nonempty; [exact V2|discriminate].
  - apply IH; [| |exact A2|exact V2].
    + intros S10 (r & E). apply (NC S10). exists (s ++ r). change (source ((x, s) :: ts)) with (s ++ source ts). rewrite E, app_assoc. reflexivity.
    + destruct CM as [CM|[CM|CM]]; auto. right. right. intros p s0 E. apply (CM ((x, s) :: p) s0). rewrite E. reflexivity.
Qed.
Lemma doc_tail l d w c : toml_doc l d -> blank_text w -> comment_text c -> toml_doc (l ++ w ++ c) d.
Proof.
  intros (ts & (S0 & V & A) & G & NE) B C.
  assert (FIRST : forall x r, w ++ c = x :: r -> x = 32 \/ x = 9 \/ x = 35 \/ x = 10 \/ (x = 13 /\ exists r', r = 10 :: r')).
  { intros x r E. destruct w as [|y w].
    - destruct C as [->|(t & -> & F)]; [discriminate|]. injection E as <- _. auto.
    - injection E as <- _. apply Forall_inv in B. tauto. }
  assert (N10 : ~ starts_with (eq 10) (w ++ c)).
  { intros (x & r & E & <-). destruct w as [|y w]; [destruct C as [->|(t & -> & F)]; discriminate|]. injection E as -> _. apply Forall_inv in B. lia. }
  destruct (doc_end _ _ G) as [[NC GA]|(p & s0 & -> & GA)].
  - exists (ts ++ blank_tiles w ++ comment_tiles c). split; [|split; [|exact NE]].
    + split; [rewrite !source_app, blank_source, comment_source, S0; reflexivity|]. split; [apply Forall_app; split; [exact V|apply tail_valid; assumption]|].
      apply seps_all, seps_app. rewrite app_nil_r, source_app, blank_source, comment_source. split; [|apply seps_all, tail_separated].
      apply seps_grow; [exact FIRST|intros H; destruct (N10 H)|auto|exact A|exact V].
    + apply GA; [apply Forall_map, Forall_forall; reflexivity|]. destruct c; [apply gc_none|apply gc_some].
  - exists (p ++ [(XComment, s0 ++ w ++ c)]). apply Forall_app in V as [V1 V2]. apply Forall_inv in V2. destruct V2 as (t & -> & PT). split; [|split; [apply GA|exact NE]].
    split; [rewrite <- S0, !source_last; cbn [snd]; rewrite <- app_assoc; reflexivity|]. split.
    + apply Forall_app. split; [exact V1|]. constructor; [|constructor]. exists (t ++ w ++ c). split; [reflexivity|]. apply Forall_app. split; [exact PT|apply tail_plain; assumption].
    + apply seps_all in A. apply seps_all. apply seps_app in A. destruct A as [A1 A2]. apply seps_app. split; [|split; [left; reflexivity|exact I]].
      cbn [source map snd concat] in A1 |- *. rewrite !app_nil_r in A1. rewrite !app_nil_r. clear - A1. revert A1. generalize (source p). intros _. revert p. induction p as [|x p IH]; intros A1; [exact I|]. cbn [seps] in *. destruct A1 as [A1 A2]. split; [|auto].
      change ((35 :: t) ++ w ++ c) with ((35 :: t) ++ (w ++ c)). rewrite app_assoc. apply separated_below; [|exact A1]. destruct (source p); discriminate.
Qed.
(** A line break at the end. *)
Lemma lb_first n : line_break n -> forall x r, n = x :: r -> x = 32 \/ x = 9 \/ x = 35 \/ x = 10 \/ (x = 13 /\ exists r', r = 10 :: r').
Proof. intros [-> | ->] x r E; injection E as <- <-; eauto 9. Qed.
Lemma doc_newline l d n : toml_doc l d -> line_break n -> ~ ends_with 13 l -> toml_doc (l ++ n) d.
Proof.
  intros (ts & (S0 & V & A) & G & NE) L N13. exists (ts ++ [(XNewline, n)]). split; [|split; [|exact NE]].
  - split; [rewrite source_last, S0; reflexivity|]. split; [apply Forall_app; split; [exact V|constructor; [exact L|constructor]]|].
    apply seps_all, seps_app. rewrite app_nil_r. split; [|split; [exact I|exact I]]. change (source [(XNewline, n)]) with (n ++ []). rewrite app_nil_r.
    apply seps_grow; [exact (lb_first _ L)| | |exact A|exact V].
    + intros _. rewrite S0. exact N13.
    + right. left. destruct L as [-> | ->]; [exists 10, []|exists 13, [10]]; auto.
  - clear - G. induction G as [ts s c GL GC|ts s c n0 ts' d GL GC _ IH].
    + rewrite <- app_assoc, <- (app_nil_r s). apply gd_line; [exact GL|exact GC|]. exact (gd_last [] [] [] (gl_empty [] (Forall_nil _)) gc_none).
    + rewrite <- !app_assoc. cbn [app]. apply gd_line; assumption.
Qed.
Lemma separated_strip x u m : u <> [] -> line_break m -> (m = [10] -> ~ ends_with 13 u) -> separated x (u ++ m) -> separated x u.
Proof.
  intros NE L K A. assert (CR : forall r, u ++ m = 13 :: 10 :: r -> exists r', u = 13 :: 10 :: r').
  { intros r E. destruct u as [|c u]; [congruence|]. injection E as -> E. destruct u as [|c u]; [|injection E as -> E; eauto]. exfalso. destruct L as [-> | ->]; [|discriminate]. apply K; [reflexivity|]. exists []. reflexivity. }
  destruct x as [[| |ty| | |q text off] s]; cbn [separated] in *; try exact I.
  - destruct A as [[A B]|(r & A)]; [left; rewrite !starts_app in A by exact NE; rewrite starts_app in B by exact NE; auto|right; exact (CR r A)].
  - destruct A as [A|[[A B]|(r & A)]]; [apply app_eq_nil in A; tauto|rewrite starts_app in A by exact NE; auto|right; right; exact (CR r A)].
  - intros M. specialize (A M). rewrite starts_app in A by exact NE. exact A.
Qed.
Lemma lines_doc us d : g_lines us d -> forall a x, us = a ++ [x] -> g_doc a d.
Proof.
  induction 1 as [|ts s c n ts' d GL GC G IH]; intros a x E; [destruct a; discriminate|]. destruct ts' as [|y ts' _] using rev_ind.
  - assert (E' : (ts ++ c) ++ [(XNewline, n)] = a ++ [x]) by (rewrite <- app_assoc; exact E). apply app_inj_tail in E'. destruct E' as [<- _]. inversion G as [X Y|? ? ? ? ? ? ? ? ? X Y].
    + rewrite app_nil_r. apply gd_last; assumption.
    + exfalso. destruct ts0, c0; discriminate.
  - rewrite app_comm_cons, !app_assoc in E. apply app_inj_tail in E. destruct E as [<- ->]. rewrite <- app_assoc. apply gd_line; [exact GL|exact GC|]. exact (IH _ _ eq_refl).
Qed.
Lemma doc_strip l d n : toml_doc (l ++ n) d -> line_break n -> ~ ends_with 13 l -> toml_doc l d.
Proof.
  intros (ts & L & G & NE) LB N13. assert (CL : complete_lines (l ++ n)).
  { right. destruct LB as [-> | ->]; [exists l|exists (l ++ [13]); rewrite <- app_assoc]; reflexivity. }
  pose proof (lines_end _ _ L CL) as EL. pose proof (doc_lines _ _ G EL) as GL. destruct L as (S0 & V & A).
  destruct EL as [-> |(a & m & ->)].
  { cbn in S0. symmetry in S0. apply app_eq_nil in S0. destruct S0 as [_ ->]. destruct LB; discriminate. }
  rewrite source_last in S0. cbn [snd] in S0. apply Forall_app in V as [V1 V2]. apply Forall_inv in V2. apply seps_all, seps_app in A. destruct A as [A _].
  cbn [source map snd concat] in A. rewrite !app_nil_r in A.
  assert (N13' : ~ ends_with 13 (source a) \/ m = [13; 10]).
  { destruct V2 as [-> | ->]; [left|right; reflexivity]. intros E. destruct a as [|[x s] a _] using rev_ind; [destruct E as (r & E); destruct r; discriminate|].
    rewrite source_last in E. cbn [snd] in E. apply Forall_app in V1 as [_ V1]. apply Forall_inv in V1. apply seps_app in A. destruct A as [_ [A _]].
    assert (E' : ends_with 13 s).
    { destruct E as (r & E). destruct s as [|c s _] using rev_ind; [destruct (valid_nonempty _ _ V1 eq_refl)|]. rewrite app_assoc in E. apply app_inj_tail in E. destruct E as [_ ->]. exists s. reflexivity. }
    apply (valid_cr _ _ _ V1 A E'). exists 10, []. auto. }
  assert (SA : source a = l).
  { destruct V2 as [-> | ->], LB as [-> | ->].
    - apply app_inj_tail in S0. tauto.
    - change [13; 10] with ([13] ++ [10]) in S0. rewrite app_assoc in S0. apply app_inj_tail in S0. destruct S0 as [S0 _]. destruct N13' as [N|N]; [|discriminate]. destruct N. exists l. exact S0.
    - change [13; 10] with ([13] ++ [10]) in S0. rewrite app_assoc in S0. apply app_inj_tail in S0. destruct S0 as [S0 _]. destruct N13. exists (source a). symmetry. exact S0.
    - apply app_inv_tail in S0. exact S0. }
  exists a. split; [|split; [|exact NE]].
  - split; [exact SA|]. split; [exact V1|]. clear - A V2 V1 N13'. assert (K : m = [10] -> ~ ends_with 13 (source a)) by (intros ->; destruct N13' as [N|N]; [exact N|discriminate]). clear N13'.
    induction a as [|x a IH]; [exact I|]. cbn [seps all_separated] in *. destruct A as [A1 A2]. split.
    + destruct a as [|y a].
      * clear. cbn [source map concat app]. destruct x as [[| |ty| | |q text off] s]; cbn [separated] in *; try exact I.
        -- left. split; [intros (c & r & E & _); discriminate|intros _ (c & r & E & _); discriminate].
        -- left. reflexivity.
        -- intros _ (c & r & E & _). discriminate.
      * apply (separated_strip x _ m); [apply source_nonempty; [exact (Forall_inv_tail V1)|discriminate]|exact V2| |exact A1].
        intros E (r & X). apply (K E). exists (snd x ++ r). change (source (x :: y :: a)) with (snd x ++ source (y :: a)). rewrite X, app_assoc. reflexivity.
    + apply IH; [exact A2|exact (Forall_inv_tail V1)|]. intros E (r & X). apply (K E). exists (snd x ++ r). change (source (x :: a)) with (snd x ++ source a). rewrite X, app_assoc. reflexivity.
  - exact (lines_doc _ _ GL _ _ eq_refl).
Qed.

(** ** Blanks at the start *)
Lemma blank_head us x r : Forall LexSpec.valid us -> source us = x :: r -> x = 32 \/ x = 9 -> exists us', us = (XBlank, [x]) :: us' /\ source us' = r.
Proof.
  intros V E X. destruct us as [|[y s] us]; [discriminate|]. pose proof (Forall_inv V) as V1. pose proof (valid_nonempty _ _ V1) as NE. destruct s as [|z s]; [congruence|].
  cbn in E. injection E as -> E. change (concat (map snd us)) with (source us) in E. destruct y as [| |ty| | |q text off]; cbn [LexSpec.valid shape] in V1.
  - assert (s = []) by (destruct V1 as [V1|V1]; injection V1 as _ ->; reflexivity). subst s. exists us. auto.
  - exfalso. destruct V1 as [V1|V1]; injection V1 as -> _; lia.
  - exfalso. destruct V1 as (c & P & V1). injection V1 as -> _. unfold punct in P. cbn in P. destruct X as [-> | ->]; repeat (destruct P as [P|P]; [discriminate P|]); exact P.
  - exfalso. destruct V1 as [_ V1]. apply Forall_inv in V1. apply V1. cbn. destruct X as [-> | ->]; auto 10.
  - exfalso. destruct V1 as (t & V1 & _). injection V1 as -> _. lia.
  - exfalso. destruct V1 as (trim & (b & V1 & _) & _). destruct q; injection V1 as -> _; lia.
Qed.
Lemma g_doc_blank x ts d : is_blank x -> (g_doc (x :: ts) d <-> g_doc ts d).
Proof.
  intros B. split.
  - intros G. remember (x :: ts) as all eqn:EA. assert (L : forall us s r, g_line us s -> us ++ r = x :: ts -> line_end r -> exists us', g_line us' s /\ us' ++ r = ts).
    { intros us s r GL E LE. destruct GL as [w BW|w1 us s w2 B1 GS B2].
      - destruct w as [|y w]; cbn [app] in E.
        + exfalso. destruct r as [|z r]; [discriminate|]. injection E as -> _. exact (end_not_blank _ _ LE B).
        + injection E as -> <-. exists w. split; [apply gl_empty; exact (Forall_inv_tail BW)|reflexivity].
      - destruct w1 as [|y w1]; cbn [app] in E.
        + exfalso. destruct (g_stmt_first _ _ GS) as (z & u & -> & SF). cbn [app] in E. injection E as -> _. exact (stmt_first_not_blank _ SF B).
        + injection E as -> <-. exists (w1 ++ us ++ w2). split; [apply gl_stmt; [exact (Forall_inv_tail B1)|exact GS|exact B2]|reflexivity]. }
    destruct G as [us s c GL GC|us s c n rest d GL GC GD].
    + destruct (L us s c GL EA) as (us' & GL' & <-); [rewrite <- (app_nil_r c); apply comment_end; [exact GC|exact I]|]. apply gd_last; assumption.
    + destruct (L us s (c ++ (XNewline, n) :: rest) GL EA) as (us' & GL' & <-); [apply comment_end; [exact GC|right; reflexivity]|]. apply gd_line; assumption.
  - intros G. assert (L : forall us s, g_line us s -> g_line (x :: us) s).
    { intros us s [w BW|w1 us' s' w2 B1 GS B2]; [apply gl_empty; constructor; assumption|]. rewrite app_comm_cons. apply gl_stmt; [constructor; assumption|assumption|assumption]. }
    destruct G as [us s c GL GC|us s c n rest d GL GC GD]; rewrite app_comm_cons; [apply gd_last|apply gd_line]; auto.
Qed.
Lemma doc_indent w b d : blank_text w -> (toml_doc (w ++ b) d <-> toml_doc b d).
Proof.
  intros B. induction B as [|x w X B IH]; [tauto|]. rewrite <- IH. cbn [app]. split; intros (ts & (S0 & V & A) & G & NE).
  - destruct (blank_head _ _ _ V S0 X) as (ts' & -> & E). exists ts'. split; [|split; [apply (g_doc_blank (XBlank, [x])); [reflexivity|exact G]|exact NE]].
    split; [exact E|]. split; [exact (Forall_inv_tail V)|exact (proj2 A)].
  - exists ((XBlank, [x]) :: ts). split; [|split; [apply g_doc_blank; [reflexivity|exact G]|exact NE]].
    split; [cbn; f_equal; exact S0|]. split; [constructor; [|exact V]|split; [exact I|exact A]]. destruct X as [-> | ->]; cbn; auto.
Qed.

(** ** Theorems *)
Lemma empty_doc : toml_doc [] [].
Proof. exists []. split; [split; [reflexivity|split; [constructor|exact I]]|]. split; [exact (gd_last [] [] [] (gl_empty [] (Forall_nil _)) gc_none)|exact I]. Qed.
Lemma complete_app a b : complete_lines a -> complete_lines b -> complete_lines (a ++ b).
Proof. intros A [->|(t & ->)]; [rewrite app_nil_r; exact A|]. right. exists (a ++ t). rewrite app_assoc. reflexivity. Qed.
Lemma complete_break l n : line_break n -> complete_lines (l ++ n).
Proof. intros [-> | ->]; right; [exists l; reflexivity|exists (l ++ [13]); rewrite <- app_assoc; reflexivity]. Qed.
Lemma plain_end s : Forall plain s -> ~ ends_with 13 s.
Proof. intros F (r & ->). apply Forall_app in F as [_ F]. apply Forall_inv in F. apply plain_not in F. tauto. Qed.
Lemma doc_nesting t d : toml_doc t d -> nesting_ok 0 d.
Proof. intros (ts & _ & _ & N). exact N. Qed.
Lemma quiet_doc c : quiet_lines c -> toml_doc c [] /\ complete_lines c.
Proof.
  induction 1 as [|w c n r B C L _ [IH1 IH2]]; [split; [exact empty_doc|left; reflexivity]|].
  assert (T : toml_doc ((w ++ c) ++ n) []) by (apply doc_newline; [exact (doc_tail [] [] w c empty_doc B C)|exact L|exact (plain_end _ (tail_plain _ _ B C))]).
  pose proof (complete_break (w ++ c) n L) as CL. rewrite !app_assoc. split; [|apply complete_app; assumption]. apply (C76_appended _ [] _ [] T CL IH1 I).
Qed.
(** Lines of blanks and comments can be put in, or taken out, after any
    complete lines. *)
Theorem C79_lines a b c d1 d : toml_doc a d1 -> complete_lines a -> quiet_lines c -> (toml_doc (a ++ b) d <-> toml_doc (a ++ c ++ b) d).
Proof.
  intros T CL Q. destruct (quiet_doc _ Q) as [TC CC]. assert (T2 : toml_doc (a ++ c) d1).
  { rewrite <- (app_nil_r d1). apply C76_appended; [exact T|exact CL|exact TC|]. rewrite app_nil_r. exact (doc_nesting _ _ T). }
  rewrite app_assoc, (C79_split a b d1 d T CL), (C79_split (a ++ c) b d1 d T2 (complete_app _ _ CL CC)). tauto.
Qed.
(** Lines can be indented. *)
Theorem C79_indented a b w d1 d : toml_doc a d1 -> complete_lines a -> blank_text w -> (toml_doc (a ++ b) d <-> toml_doc (a ++ w ++ b) d).
Proof.
  intros T CL B. rewrite (C79_split a b d1 d T CL), (C79_split a (w ++ b) d1 d T CL). split; intros (d2 & E & T2 & N); exists d2; (split; [exact E|]); split; try exact N; apply (doc_indent w b d2 B); exact T2.
Qed.
(** Blanks and a comment can be put at the end of a line. *)
Theorem C79_line_end l n b w c d1 d : toml_doc (l ++ n) d1 -> line_break n -> ~ ends_with 13 l -> blank_text w -> comment_text c ->
  (toml_doc (l ++ n ++ b) d <-> toml_doc (l ++ w ++ c ++ n ++ b) d).
Proof.
  intros T L N13 B C. assert (T2 : toml_doc ((l ++ w ++ c) ++ n) d1).
  { apply doc_newline; [|exact L|].
    - apply doc_tail; [exact (doc_strip _ _ _ T L N13)|exact B|exact C].
    - pose proof (tail_plain _ _ B C) as PL. destruct (w ++ c) as [|x r _] eqn:E using rev_ind; [rewrite app_nil_r; exact N13|].
      intros (u & H). rewrite app_assoc in H. apply app_inj_tail in H. destruct H as [_ ->]. apply (plain_end _ PL). exists r. reflexivity. }
  replace (l ++ n ++ b) with ((l ++ n) ++ b) by (rewrite <- app_assoc; reflexivity).
  replace (l ++ w ++ c ++ n ++ b) with (((l ++ w ++ c) ++ n) ++ b) by (rewrite <- !app_assoc; reflexivity).
  rewrite (C79_split _ b d1 d T (complete_break _ _ L)), (C79_split _ b d1 d T2 (complete_break _ _ L)). tauto.
Qed.

(** One change of the layout; [a], or the line [l] with what is above it, is a
    document on its own: the place is not inside a value. *)
Inductive layout_edit : list N -> list N -> Prop :=
| le_ends t t' : relined t t' -> layout_edit t t'
| le_lines a d c b : toml_doc a d -> complete_lines a -> quiet_lines c -> layout_edit (a ++ b) (a ++ c ++ b)
| le_indent a d w b : toml_doc a d -> complete_lines a -> blank_text w -> layout_edit (a ++ b) (a ++ w ++ b)
| le_tail l n d w c b : toml_doc (l ++ n) d -> line_break n -> ~ ends_with 13 l -> blank_text w -> comment_text c ->
    layout_edit (l ++ n ++ b) (l ++ w ++ c ++ n ++ b).
(** Any number of them, each made or undone. *)
Inductive reformatted : list N -> list N -> Prop :=
| rf_same t : reformatted t t
| rf_edit t t' t2 : layout_edit t t' -> reformatted t' t2 -> reformatted t t2
| rf_undo t t' t2 : layout_edit t' t -> reformatted t' t2 -> reformatted t t2.
Lemma edit_documents t t' d : layout_edit t t' -> (toml_doc t d <-> toml_doc t' d).
Proof.
  intros [u u' R|a d0 c b T CL Q|a d0 w b T CL B|l n d0 w c b T L N13 B C].
  - split; apply C78_documents; [exact R|apply relined_sym; exact R].
  - exact (C79_lines _ _ _ _ _ T CL Q).
  - exact (C79_indented _ _ _ _ _ T CL B).
  - exact (C79_line_end _ _ _ _ _ _ _ T L N13 B C).
Qed.
Theorem C79_documents t t' d : reformatted t t' -> (toml_doc t d <-> toml_doc t' d).
Proof.
  induction 1 as [t|t t' t2 E _ IH|t t' t2 E _ IH]; [tauto| |].
  - rewrite (edit_documents _ _ d E). exact IH.
  - rewrite <- (edit_documents _ _ d E). exact IH.
Qed.
(** Formatting a file changes neither what the tool prints for it nor whether
    it finds something. *)
Theorem C79_output width prof t t' v : reformatted t t' -> scalars t -> scalars t' ->
  (ctoml width prof Validate t = Ok (v, []) <-> ctoml width prof Validate t' = Ok (v, [])).
Proof.
  intros R SC SC'. rewrite (C65_silent_exactly_on_valid_toml _ _ _ _ SC), (C65_silent_exactly_on_valid_toml _ _ _ _ SC').
  split; intros (d & T & H); exists d; (split; [apply (C79_documents _ _ d R); exact T|exact H]).
Qed.
Theorem C79_manifest width prof t t' v : reformatted t t' -> scalars t -> scalars t' -> settled prof t (STable v) ->
  (ctoml width prof Check t = Ok (v, []) <-> ctoml width prof Check t' = Ok (v, [])).
Proof.
  intros R SC SC' ST. assert (ST' : settled prof t' (STable v)) by (destruct ST as [->|[_ ST]]; [left; reflexivity|right; auto]).
  rewrite (C75_silent_exactly_on_fine_manifests _ _ _ _ SC ST), (C75_silent_exactly_on_fine_manifests _ _ _ _ SC' ST').
  split; intros (d & T & H); exists d; (split; [apply (C79_documents _ _ d R); exact T|exact H]).
Qed.
Theorem C79_dependencies prof t t' d v a m deps ds a' m' deps' ds' : reformatted t t' -> toml_doc t d -> consistent d -> means d v -> settled prof t v -> settled prof t' v ->
  lex_and_parse t = Ok (a, []) -> map_doc (as_asts a) = Ok (m, []) -> check prof m = Ok (deps, ds) ->
  lex_and_parse t' = Ok (a', []) -> map_doc (as_asts a') = Ok (m', []) -> check prof m' = Ok (deps', ds') ->
  map dep_data deps = map dep_data deps'.
Proof. intros R T C ME ST ST'. exact (same_dependencies _ _ _ _ _ _ _ _ _ _ _ _ _ T (proj1 (C79_documents _ _ d R) T) C ME ST ST'). Qed.

(** ** Examples *)
Lemma some_doc t : (match lex_and_parse t with Ok (_, []) => true | _ => false end) = true -> exists d, toml_doc t d.
Proof. destruct (lex_and_parse t) as [[a [|e es]]|[]|] eqn:E; try discriminate. intros _. destruct (C34_accepted_documents _ _ E) as (d & T & _). eauto. Qed.
Definition plain_example : list N := bs "[dependencies]" ++ nl ++ bs "a = '1.2'" ++ nl.
Definition formatted_example : list N := bs "# c" ++ nl ++ bs "  " ++ nl ++ bs "[dependencies] # d" ++ [13; 10] ++ [9] ++ bs "a = '1.2'" ++ nl.
Lemma blank_ok w : forallb (fun c => (c =? 32) || (c =? 9)) w = true -> blank_text w.
Proof. intros H. apply Forall_forall. intros c I0. apply (proj1 (forallb_forall _ _) H) in I0. lia. Qed.
Lemma comment_ok t : forallb (fun c => (32 <=? c) && (c <? 127)) t = true -> comment_text (35 :: t).
Proof. intros H. right. exists t. split; [reflexivity|]. apply Forall_forall. intros c I0. apply (proj1 (forallb_forall _ _) H) in I0. unfold plain. lia. Qed.
Lemma not_cr t : negb (last t 0 =? 13) = true -> ~ ends_with 13 t.
Proof. intros H (r & ->). rewrite last_last in H. discriminate. Qed.
Lemma relined_refl t : ~ In 13 t -> relined t t.
Proof.
  induction t as [|c t IH]; intros NI; [apply rl_nil|]. assert (R : relined t t) by (apply IH; intros H; apply NI; right; exact H). destruct (N.eq_dec c 10) as [->|N1].
  - apply (rl_end [10] [10]); [left; reflexivity|left; reflexivity|exact R].
  - apply rl_char; [exact N1|intros ->; apply NI; left; reflexivity|exact R].
Qed.
Example C79_example : reformatted plain_example formatted_example /\
  exists v, ctoml ascii Debug Check plain_example = Ok (v, []) /\ ctoml ascii Debug Check formatted_example = Ok (v, []) /\ v <> [].
Proof.
  split.
  - eapply rf_edit.
    { (* the lines at the start *)
      refine (le_lines [] [] (bs "# c" ++ nl ++ bs "  " ++ nl) plain_example empty_doc (or_introl eq_refl) _).
      refine (ql_line [] (bs "# c") nl (bs "  " ++ nl) (blank_ok [] eq_refl) (comment_ok (bs " c") eq_refl) (or_introl eq_refl) _).
      exact (ql_line (bs "  ") [] nl [] (blank_ok (bs "  ") eq_refl) (or_introl eq_refl) (or_introl eq_refl) ql_none). }
    eapply rf_edit.
    { (* the comment *)
      destruct (some_doc (bs "# c" ++ nl ++ bs "  " ++ nl ++ bs "[dependencies]" ++ nl) ltac:(vm_compute; reflexivity)) as (d & T).
      refine (le_tail (bs "# c" ++ nl ++ bs "  " ++ nl ++ bs "[dependencies]") nl d (bs " ") (bs "# d") (bs "a = '1.2'" ++ nl) T (or_introl eq_refl) _ (blank_ok (bs " ") eq_refl) (comment_ok (bs " d") eq_refl)).
      apply not_cr. vm_compute. reflexivity. }
    eapply rf_edit.
    { (* the indent *)
      destruct (some_doc (bs "# c" ++ nl ++ bs "  " ++ nl ++ bs "[dependencies] # d" ++ nl) ltac:(vm_compute; reflexivity)) as (d & T).
      refine (le_indent (bs "# c" ++ nl ++ bs "  " ++ nl ++ bs "[dependencies] # d" ++ nl) d [9] (bs "a = '1.2'" ++ nl) T _ (blank_ok [9] eq_refl)).
      right. exists (bs "# c" ++ nl ++ bs "  " ++ nl ++ bs "[dependencies] # d"). vm_compute. reflexivity. }
    eapply rf_edit; [|apply rf_same].
    apply le_ends. assert (R : relined ((bs "# c" ++ nl ++ bs "  " ++ nl ++ bs "[dependencies] # d") ++ (nl ++ [9] ++ bs "a = '1.2'" ++ nl)) ((bs "# c" ++ nl ++ bs "  " ++ nl ++ bs "[dependencies] # d") ++ ([13; 10] ++ [9] ++ bs "a = '1.2'" ++ nl))); [|rewrite <- !app_assoc in R; exact R].
    apply relined_app.
    + apply relined_refl, no_cr. vm_compute. reflexivity.
    + apply rl_end; [left; reflexivity|right; reflexivity|]. apply relined_refl, no_cr. vm_compute. reflexivity.
  - eexists. split; [vm_compute; reflexivity|]. split; [vm_compute; reflexivity|]. discriminate.
Qed.
(** Inside a value lines that look quiet are not: here a comment goes into a
    string, and a blank line comes after a backslash, where it is not seen. *)
Theorem C79_inside_refuted : exists v v', ctoml ascii Debug Validate (bs "a = " ++ [34; 34; 34; 10] ++ bs "b" ++ [34; 34; 34; 10]) = Ok (v, []) /\
  ctoml ascii Debug Validate (bs "a = " ++ [34; 34; 34; 10] ++ bs "# c" ++ [10] ++ bs "b" ++ [34; 34; 34; 10]) = Ok (v', []) /\ v <> v' /\
  ctoml ascii Debug Validate (bs "a = " ++ [34; 34; 34; 10] ++ bs "\" ++ [10; 10] ++ bs "b" ++ [34; 34; 34; 10]) = Ok (v, []).
Proof. do 2 eexists. split; [vm_compute; reflexivity|]. split; [vm_compute; reflexivity|]. split; [discriminate|vm_compute; reflexivity]. Qed.

Print Assumptions C79_split.
Print Assumptions C79_lines.
Print Assumptions C79_indented.
Print Assumptions C79_line_end.
Print Assumptions C79_documents.
Print Assumptions C79_output.
Print Assumptions C79_manifest.
Print Assumptions C79_dependencies.
