(** A document that starts with complete lines and goes on with anything: what
    the lines say is read first, and nothing of it is changed later. *)
From Verif Require Import Base BaseProofs CommonModel TomlError LitModel LitSpec LexModel LexSpec LexBase LexStr LexSound LexMain LexTop LexPre LexProps ParseModel ParseSpec ParsePlace ParseItems ParseKey ParseLit ParseVal ParseValue ParseAssoc ParseHead ParseRoot ParseTop ParseCVal ParseCValue ParseCTop.
From Verif Require Import MapExt.

(** ** Complete lines *)
Inductive g_lines : list tile -> list stmt -> Prop :=
| gl_none : g_lines [] []
| gl_more ts s c n ts' d : g_line ts s -> g_comment c -> g_lines ts' d -> g_lines (ts ++ c ++ (XNewline, n) :: ts') (s ++ d).

Definition closed_by (ts : list tile) : Prop := exists a x, ts = a ++ [x] /\ fst x <> XNewline.
Lemma closed_app a b : closed_by b -> closed_by (a ++ b).
Proof. intros (c & x & -> & H). exists (a ++ c), x. rewrite app_assoc. auto. Qed.
Lemma closed_cons a b : closed_by b -> closed_by (a :: b).
Proof. exact (closed_app [a] b). Qed.
Lemma closed_one x : fst x <> XNewline -> closed_by [x].
Proof. intros H. exists [], x. auto. Qed.
Lemma closed_all ts : ts <> [] -> Forall (fun x => fst x <> XNewline) ts -> closed_by ts.
Proof. intros NE. destruct ts as [|x a] using rev_ind; [congruence|]. intros F. apply Forall_app in F as [_ F]. exists a, x. split; [reflexivity|exact (Forall_inv F)]. Qed.
Lemma closed_punct ty x : is_punct ty x -> closed_by [x].
Proof. intros H. apply closed_one. unfold is_punct in H. rewrite H. discriminate. Qed.
Lemma g_lit_closed ts t : g_lit ts t -> closed_by ts.
Proof.
  intros ((s & r & ->) & F & _). apply closed_all; [discriminate|]. eapply Forall_impl; [|exact F]. intros x [H|H]; [rewrite H; discriminate|]. unfold is_punct in H. rewrite H. discriminate.
Qed.
Lemma g_value_closed ts v : g_value ts v -> closed_by ts.
Proof.
  intros [q text off s|ts0 t v0 L _|ta a b tb t v0 _ _ L _|l r ts0 vs _ P _|l r w _ P _|l r ts0 fs _ P _].
  - apply closed_one. discriminate.
  - exact (g_lit_closed _ _ L).
  - apply closed_app, closed_cons. exact (g_lit_closed _ _ L).
  - apply closed_cons, closed_app. exact (closed_punct _ _ P).
  - apply closed_cons, closed_app. exact (closed_punct _ _ P).
  - apply closed_cons, closed_app. exact (closed_punct _ _ P).
Qed.
Lemma g_stmt_closed ts s : g_stmt ts s -> closed_by ts.
Proof.
  intros [kt k w1 e w2 ts0 v _ _ _ _ GV|l w1 kt k w2 r _ _ _ _ P|l l' w1 kt k w2 r r' _ _ _ _ _ _ P].
  - apply closed_app, closed_app, closed_cons, closed_app. exact (g_value_closed _ _ GV).
  - apply closed_cons, closed_app, closed_app, closed_app. exact (closed_punct _ _ P).
  - apply closed_cons, closed_cons, closed_app, closed_app, closed_app, closed_cons. exact (closed_punct _ _ P).
Qed.
Lemma blanks_closed w : w <> [] -> blanks w -> closed_by w.
Proof. intros NE B. apply closed_all; [exact NE|]. eapply Forall_impl; [|exact B]. intros x H. cbv [is_blank] in H. rewrite H. discriminate. Qed.
Lemma line_closed ts s c : g_line ts s -> g_comment c -> (ts ++ c = [] /\ s = []) \/ closed_by (ts ++ c).
Proof.
  intros GL [|cs].
  2: { right. apply closed_app, closed_one. discriminate. }
  rewrite app_nil_r. destruct GL as [w B|w1 ts s w2 B1 GS B2].
  - destruct w as [|x w]; [left; auto|right; apply blanks_closed; [discriminate|exact B]].
  - right. apply closed_app. destruct w2 as [|x w]; [rewrite app_nil_r; exact (g_stmt_closed _ _ GS)|]. apply closed_app, blanks_closed; [discriminate|exact B2].
Qed.
Lemma closed_not_line ts : closed_by ts -> ends_line ts -> False.
Proof. intros (a & x & -> & NX) [E|(b & n & E)]; [destruct a; discriminate|]. apply app_inj_tail in E. destruct E as [_ ->]. apply NX. reflexivity. Qed.
Lemma doc_lines ts d : g_doc ts d -> ends_line ts -> g_lines ts d.
Proof.
  induction 1 as [ts s c GL GC|ts s c n ts' d GL GC GD IH]; intros EL.
  - destruct (line_closed _ _ _ GL GC) as [(-> & ->)|C]; [constructor|]. destruct (closed_not_line _ C EL).
  - constructor; [exact GL|exact GC|]. apply IH. destruct ts' as [|x ts']; [left; reflexivity|]. rewrite app_assoc in EL. apply ends_line_app in EL; [|discriminate]. exact (proj1 (ends_line_tail _ _ EL)).
Qed.

Section Pre.
  Context (input : list N) (all : list tile) (IN : input = source all) (SHA : Forall shape all).

  Lemma c_lines ts d : g_lines ts d -> forall f r pre d0 rest, cinv input all r pre (ts ++ rest) d0 -> Forall valid ts -> rt_newline r = false ->
    nesting_ok (level_after 0 d0) d -> (left (rt_st r) < f)%nat ->
    exists f' r' pre', root_loop input (eof input) f r = root_loop input (eof input) f' r' /\ cinv input all r' pre' rest (d0 ++ d) /\ rt_newline r' = false /\ (left (rt_st r') < f')%nat.
  Proof.
    induction 1 as [|ts s c n ts' d GL GC GD IH]; intros f r pre d0 rest C V NL NE LF.
    - exists f, r, pre. rewrite app_nil_r. auto.
    - apply nesting_app in NE as [NE1 NE2].
      destruct (forall_split _ _ (ts ++ c) ((XNewline, n) :: ts') V ltac:(assoc)) as [V1 V2].
      destruct (c_line input all IN SHA f r pre ts s c ((XNewline, n) :: ts' ++ rest) d0) as (f' & r' & w & pre' & -> & C' & B & _ & L'); try assumption.
      + destruct C as [H1 H2 H3 H4 H5]. constructor; try assumption. eapply at_eq; [exact H2|assoc].
      + right. apply ni_here; [discriminate|left; reflexivity].
      + destruct f' as [|f']; [lia|]. destruct (c_newline input all f' r' pre' w n (ts' ++ rest) _ C' B) as (r2 & -> & C2 & N2 & L2).
        destruct (IH f' r2 _ _ rest C2 (Forall_inv_tail V2) N2) as (f3 & r3 & p3 & R3 & C3 & N3 & L3); [rewrite level_after_app; exact NE2|lia|].
        exists f3, r3, p3. split; [exact R3|]. split; [rewrite app_assoc; exact C3|]. auto.
  Qed.
End Pre.

(** ** Nothing is taken back *)

(** The same statement, perhaps with other comments and more assignments. *)
Inductive more_of : ast -> ast -> Prop :=
| mo_assign a a' : ta_assign a' = ta_assign a -> more_of (AAssign a) (AAssign a')
| mo_table t t' l more : tb_header t' = tb_header t -> tb_assigns t' = l ++ more -> map ta_assign l = map ta_assign (tb_assigns t) -> more_of (ATable t) (ATable t')
| mo_array t t' l more : ae_header t' = ae_header t -> ae_assigns t' = l ++ more -> map ta_assign l = map ta_assign (ae_assigns t) -> more_of (AArray t) (AArray t')
| mo_comment c : more_of (AComment c) (AComment c).
(** For reversed lists. *)
Inductive adds : list ast -> list ast -> Prop :=
| ad_none l : adds [] l
| ad_more x x' l new : more_of x x' -> adds (x :: l) (new ++ x' :: l).

Lemma more_refl x : more_of x x.
Proof.
  destruct x as [a|t|t|c].
  - apply mo_assign. reflexivity.
  - apply mo_table with (l := tb_assigns t) (more := []); [reflexivity|symmetry; apply app_nil_r|reflexivity].
  - apply mo_array with (l := ae_assigns t) (more := []); [reflexivity|symmetry; apply app_nil_r|reflexivity].
  - apply mo_comment.
Qed.
Lemma map_split {A B} (f : A -> B) l : forall a b, map f l = a ++ b -> exists u v, l = u ++ v /\ map f u = a /\ map f v = b.
Proof.
  induction l as [|x l IH]; intros [|y a] b H; cbn in H; try discriminate.
  - exists [], []. auto.
  - exists [], (x :: l). auto.
  - injection H as <- H. destruct (IH _ _ H) as (u & v & -> & <- & <-). exists (x :: u), v. auto.
Qed.
Lemma more_trans x y z : more_of x y -> more_of y z -> more_of x z.
Proof.
  intros H K. destruct H as [a a' E|t t' l m H1 H2 H3|t t' l m H1 H2 H3|c]; inversion K as [b b' F|u u' l' m' K1 K2 K3|u u' l' m' K1 K2 K3|c']; subst.
  - constructor. congruence.
  - rewrite H2, map_app in K3. destruct (map_split _ _ _ _ K3) as (a & b & -> & E1 & E2). apply mo_table with (l := a) (more := b ++ m'); [congruence|rewrite K2, app_assoc; reflexivity|congruence].
  - rewrite H2, map_app in K3. destruct (map_split _ _ _ _ K3) as (a & b & -> & E1 & E2). apply mo_array with (l := a) (more := b ++ m'); [congruence|rewrite K2, app_assoc; reflexivity|congruence].
  - constructor.
Qed.
Lemma adds_refl l : adds l l.
Proof. destruct l as [|x l]; [constructor|]. exact (ad_more x x l [] (more_refl x)). Qed.
Lemma adds_trans a b c : adds a b -> adds b c -> adds a c.
Proof.
  intros [l|x x' l new M] H; [constructor|]. inversion H as [l' E|y y' l' new' M' E]; [destruct new; discriminate|]. subst c. destruct new as [|z new]; cbn [app] in E; injection E as -> ->.
  - constructor. exact (more_trans _ _ _ M M').
  - change (y' :: new ++ x' :: l) with ((y' :: new) ++ x' :: l). rewrite app_assoc. constructor. exact M.
Qed.
Lemma adds_front new l : adds l (new ++ l).
Proof. destruct l as [|x l]; constructor. apply more_refl. Qed.
Lemma adds_head x x' l : more_of x x' -> adds (x :: l) (x' :: l).
Proof. intros M. exact (ad_more x x' l [] M). Qed.

Lemma append_comment_same cr l id cr' l' : append_comment cr l id = Ok (cr', l') -> map ta_assign l' = map ta_assign l.
Proof.
  unfold append_comment. destruct (rev l) as [|a l1] eqn:E; intros H; apply bind_ok in H as (c & _ & H); injection H as _ <-; [reflexivity|].
  assert (EL : l = rev l1 ++ [a]) by (rewrite <- (rev_involutive l), E; reflexivity). rewrite EL, !map_app. reflexivity.
Qed.
Lemma adds_free s free l s' l' n : place_free s free l = Ok (s', l', n) -> adds l l'.
Proof.
  assert (D : forall l, @Ok Empty_set _ (s, rev (map AComment free) ++ l, 0) = Ok (s', l', n) -> adds l l') by (intros l0 H; injection H as _ <- _; apply adds_front).
  destruct l as [|x l]; [apply D|]. destruct x as [a|t|t|c]; cbn [place_free]; try (apply D); intros H; apply bind_ok in H as ([s1 c1] & _ & H); injection H as _ <- _; apply adds_head.
  - apply mo_table with (l := tb_assigns t) (more := []); cbn; rewrite ?app_nil_r; reflexivity.
  - apply mo_array with (l := ae_assigns t) (more := []); cbn; rewrite ?app_nil_r; reflexivity.
Qed.
Lemma adds_push a l : adds l (push_assign a l).
Proof.
  destruct l as [|x l]; [constructor|]. destruct x as [b|t|t|c]; cbn [push_assign].
  - exact (adds_front [AAssign a] _).
  - apply adds_head. apply mo_table with (l := tb_assigns t) (more := [a]); reflexivity.
  - apply adds_head. apply mo_array with (l := ae_assigns t) (more := [a]); reflexivity.
  - exact (adds_front [AAssign a] _).
Qed.
Lemma adds_comment c r r' : root_comment c r = Ok r' -> adds (rt_asts r) (rt_asts r').
Proof.
  unfold root_comment. intros E. destruct (rt_newline r); [|injection E as <-; apply adds_refl].
  destruct (store_comment _ _) as [id s]. step_in E. injection E as <-. cbn [rt_asts]. destruct (rt_asts r) as [|h l]; [discriminate|].
  destruct h as [a|t|t|c0]; [| | |discriminate]; step_in Heqr0; try (destruct x0 as [c0 a0]); injection Heqr0 as <-; apply adds_head.
  - constructor. reflexivity.
  - apply append_comment_same in Heqr1. apply mo_table with (l := a0) (more := []); cbn; rewrite ?app_nil_r; auto.
  - apply append_comment_same in Heqr1. apply mo_array with (l := a0) (more := []); cbn; rewrite ?app_nil_r; auto.
Qed.
Lemma adds_header eof t r r' : root_header eof t r = Ok r' -> adds (rt_asts r) (rt_asts r').
Proof.
  unfold root_header. intros E. cbv zeta in E. step_in E. destruct x as [[[[la k] ra] rt] st]. destruct (rt_newline r && _); [injection E as <-; apply adds_refl|].
  step_in E. step_in E. destruct x0 as [s c]. step_in E. injection E as <-. cbn [rt_asts].
  change (x0 :: ?u ++ ?v) with ((x0 :: u) ++ v). apply adds_front.
Qed.
Lemma adds_assign input eof n t r r' : root_assign input eof n t r = Ok r' -> adds (rt_asts r) (rt_asts r').
Proof.
  unfold root_assign. intros E. cbv zeta in E. step_in E. destruct x as [k st]. destruct k as [k|k|e].
  2,3: injection E as <-; apply adds_refl.
  destruct (i_ty _) in E; try (injection E as <-; apply adds_refl). destruct (_ && _) in E; [injection E as <-; apply adds_refl|].
  step_in E. step_in E. destruct x0 as [[s l] level]. step_in E. destruct x0 as [s0 cs]. step_in E. destruct x0 as [v st0].
  pose proof (adds_free _ _ _ _ _ _ Heqr2) as G'. destruct v as [v|e]; [|injection E as <-; exact G']. step_in E. injection E as <-. cbn [rt_asts]. exact (adds_trans _ _ _ G' (adds_push _ _)).
Qed.
Lemma adds_loop input eof fuel : forall r r', root_loop input eof fuel r = Ok r' -> adds (rt_asts r) (rt_asts r').
Proof.
  induction fuel as [|fuel IH]; intros r r' E; [discriminate|]. cbn [root_loop] in E. cbv zeta in E.
  assert (AS : forall t, (let? r := root_assign input eof max_depth t r in root_loop input eof fuel r) = Ok r' -> adds (rt_asts r) (rt_asts r')).
  { intros t X. step_in X. exact (adds_trans _ _ _ (adds_assign _ _ _ _ _ _ Heqr0) (IH _ _ X)). }
  destruct (i_ty (ppeek eof (rt_st r))); try (exact (AS _ E)).
  - step_in E. exact (adds_trans _ _ _ (adds_comment _ _ _ Heqr1) (IH _ _ E)).
  - step_in E. exact (adds_trans _ _ _ (adds_header _ _ _ _ Heqr0) (IH _ _ E)).
  - exact (IH _ _ E).
  - injection E as <-. apply adds_refl.
Qed.

(** ** The whole document *)
Lemma parse_items_prefix input ts d more a es : input = source (ts ++ more) -> Forall shape (ts ++ more) -> all_separated (ts ++ more) -> Forall valid ts ->
  g_lines ts d -> nesting_ok 0 d -> parse_items input (eof input) (tile_items [] (ts ++ more)) = Ok (a, es) ->
  exists l l', all_some (stmts l) = Some d /\ adds l l' /\ as_asts a = rev l'.
Proof.
  intros IN SHA SEP V GD NE E. unfold parse_items in E. set (all := ts ++ more) in *.
  assert (A0 : at_ input (mkps (mkpc None (tile_items [] all)) [] []) [] all).
  { split; [exact IN|]. split; [exact SHA|]. split; [exact SEP|]. split; [reflexivity|exact I]. }
  destruct (c_lines input all IN SHA ts d GD (S (length (tile_items [] all))) (mkroot (mkps (mkpc None (tile_items [] all)) [] []) [] [] false) [] [] more) as (f & r & pre & R & C & _ & _).
  - constructor; [|exact A0|reflexivity|reflexivity|reflexivity]. exists [], all. apply rinv_start; assumption.
  - exact V.
  - reflexivity.
  - exact NE.
  - cbn [rt_st]. unfold left. cbn. lia.
  - rewrite R in E. destruct (root_loop input (eof input) f r) as [r'|[]|] eqn:RL; [|discriminate]. cbn [bind] in E. injection E as <- _.
    cbn [as_asts]. exists (rt_asts r), (rev (map AComment (rt_prev r')) ++ rt_asts r'). destruct C as [_ _ _ S _]. split; [exact S|]. split; [|reflexivity].
    exact (adds_trans _ _ _ (adds_loop _ _ _ _ _ RL) (adds_front _ _)).
Qed.
