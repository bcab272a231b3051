(** The comments above the statements of a document. *)
From Verif Require Import Base BaseProofs CommonModel TomlError LitModel LitSpec LexModel LexSpec LexBase LexStr LexSound LexProps ParseModel ParseSpec
  CommentSpec ParsePlace ParseItems ParseKey ParseLit ParseVal ParseValue ParseAssoc ParseHead ParseRoot ParseTop ParseMarks ParseOrder ParseKeep OrderItems.

(** ** The end of a statement *)
Definition solid (x : tile) : Prop := fst x <> XBlank /\ fst x <> XNewline /\ fst x <> XComment.
Lemma solid_end x : valid x -> solid x -> exists p c, snd x = p ++ [c] /\ c <> 9 /\ c <> 10 /\ c <> 32.
Proof.
  destruct x as [[| |ty| | |q text off] s]; intros V (N1 & N2 & N3); cbn [fst snd] in *; try congruence.
  - destruct V as (c & P & ->). exists [], c. split; [reflexivity|]. unfold punct in P. cbn [In] in P.
    repeat (destruct P as [P|P]; [injection P as _ <-; repeat split; discriminate|]). destruct P.
  - destruct V as [NE F]. destruct (exists_last NE) as (p & c & ->). exists p, c. split; [reflexivity|]. apply Forall_app in F as [_ F]. apply Forall_inv in F.
    unfold word_char in F. cbn [In] in F. repeat split; intros ->; tauto.
  - destruct V as (trim & (b & -> & _) & _).
    assert (D : exists d c, delims q = d ++ [c] /\ c <> 9 /\ c <> 10 /\ c <> 32).
    { destruct q; [exists [], 34|exists [34; 34], 34|exists [], 39|exists [39; 39], 39]; (split; [reflexivity|]); repeat split; discriminate. }
    destruct D as (d & c & E & NC). exists (delims q ++ trim ++ b ++ d), c. split; [|exact NC]. transitivity (delims q ++ trim ++ b ++ (d ++ [c])); [rewrite <- E; reflexivity|repeat rewrite <- app_assoc; reflexivity].
Qed.
Lemma punct_solid ty x : is_punct ty x -> solid x.
Proof. unfold is_punct, solid. intros ->. repeat split; discriminate. Qed.
Lemma lit_last ts t : g_lit ts t -> exists a x, ts = a ++ [x] /\ solid x.
Proof.
  intros ((s & r & E) & F & _). assert (NE : ts <> []) by (rewrite E; discriminate). destruct (exists_last NE) as (a & x & ->). exists a, x. split; [reflexivity|].
  apply Forall_app in F as [_ F]. apply Forall_inv in F. destruct F as [F|F]; [unfold solid; rewrite F; repeat split; discriminate|eapply punct_solid; exact F].
Qed.
Lemma value_end ts v : g_value ts v -> exists a x, ts = a ++ [x] /\ solid x.
Proof.
  intros G. inversion G; subst.
  - eexists [], _. split; [reflexivity|]. repeat split; discriminate.
  - eapply lit_last. eassumption.
  - match goal with H : g_lit tb _ |- _ => destruct (lit_last _ _ H) as (a' & x & -> & S) end. exists (ta ++ b :: a'), x. split; [rewrite <- app_assoc; reflexivity|exact S].
  - exists (l :: ts0), r. split; [reflexivity|]. eapply punct_solid. eassumption.
  - exists (l :: w), r. split; [reflexivity|]. eapply punct_solid. eassumption.
  - exists (l :: ts0), r. split; [reflexivity|]. eapply punct_solid. eassumption.
Qed.
Lemma stmt_end ts s : g_stmt ts s -> exists a x, ts = a ++ [x] /\ solid x.
Proof.
  intros G. inversion G; subst.
  - match goal with H : g_value _ _ |- _ => destruct (value_end _ _ H) as (a' & x & -> & S) end. exists (kt ++ w1 ++ e :: w2 ++ a'), x.
    split; [repeat rewrite <- app_assoc; cbn [app]; repeat rewrite <- app_assoc; reflexivity|exact S].
  - exists (l :: w1 ++ kt ++ w2), r. split; [cbn [app]; repeat rewrite <- app_assoc; reflexivity|]. eapply punct_solid. eassumption.
  - exists (l :: l' :: w1 ++ kt ++ w2 ++ [r]), r'. split; [cbn [app]; repeat rewrite <- app_assoc; reflexivity|]. eapply punct_solid. eassumption.
Qed.

(** ** Comments and lines *)
Lemma comment_after : forall a pre c, In c (comments_of pre a) -> p_line (pos_at pre) <= line_of c.
Proof.
  induction a as [|[x s] a IH]; intros pre c H; [destruct H|]. change ((x, s) :: a) with ([(x, s)] ++ a) in H. rewrite comments_of_app in H. apply in_app_iff in H as [H|H].
  - unfold comments_of in H. destruct x as [| |[]| | |]; cbn in H; try contradiction. destruct H as [<-|[]]. change (line_of _) with (p_line (pos_at pre)). lia.
  - specialize (IH _ _ H). pose proof (line_app pre (source [(x, s)])). lia.
Qed.
Lemma comment_before : forall a pre x b c, Forall shape (a ++ x :: b) -> all_separated (a ++ x :: b) -> solid x -> In c (comments_of pre (a ++ [x])) ->
  line_of c < p_line (pos_at (pre ++ source (a ++ [x]))).
Proof.
  induction a as [|[y s] a IH]; intros pre x b c SH SEP SO H.
  - unfold comments_of in H. destruct x as [[| |[]| | |] s]; destruct SO as (N1 & N2 & N3); cbn in H, N1, N2, N3; try contradiction.
  - cbn [app] in *. change ((y, s) :: a ++ [x]) with ([(y, s)] ++ a ++ [x]) in H |- *. rewrite comments_of_app in H. rewrite source_app. apply in_app_iff in H as [H|H].
    + unfold comments_of in H. destruct y as [| |[]| | |]; cbn in H; try contradiction. destruct H as [<-|[]].
      pose proof (after_comment _ _ (Forall_inv_tail SH) SEP) as NN. destruct a as [|[z t] a]; cbn [app nl_next fst] in NN.
      { destruct SO as (_ & N2 & _). contradiction. }
      subst z. pose proof (Forall_inv (Forall_inv_tail SH)) as L. cbn in L.
      change (line_of _) with (p_line (pos_at pre)).
      pose proof (line_app ((pre ++ source [(XComment, s)]) ++ t) (source (a ++ [x]))) as L1.
      pose proof (line_app pre (source [(XComment, s)])) as L2.
      assert (L3 : p_line (pos_at ((pre ++ source [(XComment, s)]) ++ t)) = p_line (pos_at (pre ++ source [(XComment, s)])) + 1 \/
        p_line (pos_at ((pre ++ source [(XComment, s)]) ++ t)) > p_line (pos_at (pre ++ source [(XComment, s)]))).
      { destruct L as [->| ->].
        - rewrite pos_at_lf. left. reflexivity.
        - change [13; 10] with ([13] ++ [10]). rewrite app_assoc, pos_at_lf. cbn [p_line]. pose proof (line_app (pre ++ source [(XComment, s)]) [13]). right. lia. }
      change (source (((XNewline, t) :: a) ++ [x])) with (t ++ source (a ++ [x])). rewrite !app_assoc. lia.
    + rewrite app_assoc. eapply IH; [exact (Forall_inv_tail SH)|exact (proj2 SEP)|exact SO|exact H].
Qed.

(** ** Comments on a line of their own *)
Lemma pos_at_inj input a b c d : input = a ++ b -> input = c ++ d -> pos_at a = pos_at c -> a = c.
Proof.
  intros E1 E2 P. destruct (app_eq_app a b c d) as [m [[E _]|[E _]]]; [congruence| |]; subst; (destruct m as [|x m]; [rewrite app_nil_r in *; congruence|]); exfalso.
  - assert (LT : pos_lt (pos_at c) (pos_at (c ++ x :: m))) by (apply pos_at_lt; discriminate). rewrite P in LT. unfold pos_lt in LT. lia.
  - assert (LT : pos_lt (pos_at a) (pos_at (a ++ x :: m))) by (apply pos_at_lt; discriminate). rewrite P in LT. unfold pos_lt in LT. lia.
Qed.
Lemma blanks_text w : blanks w -> Forall shape w -> Forall (fun x => x = 32 \/ x = 9) (source w).
Proof.
  induction w as [|[x s] w IH]; intros B SH; [constructor|]. pose proof (Forall_inv B) as B1. unfold is_blank in B1. cbn in B1. subst x.
  rewrite source_cons. apply Forall_app. split; [|exact (IH (Forall_inv_tail B) (Forall_inv_tail SH))]. destruct (Forall_inv SH) as [->| ->]; constructor; auto.
Qed.
Lemma not_own input q c v r cm : input = (q ++ [c]) ++ v ++ 35 :: r -> c <> 9 -> c <> 10 -> c <> 32 -> Forall (fun x => x = 32 \/ x = 9) v ->
  s_start (c_span cm) = pos_at ((q ++ [c]) ++ v) -> ~ own_line input cm.
Proof.
  intros IN N1 N2 N3 F P (p & w & r' & IN' & P' & F' & EP).
  assert (E : p ++ w = (q ++ [c]) ++ v).
  { eapply (pos_at_inj input _ (35 :: r') _ (35 :: r)); [rewrite IN', <- app_assoc; reflexivity|rewrite IN; repeat rewrite <- app_assoc; reflexivity|]. congruence. }
  clear - E N1 N2 N3 F F' EP.
  assert (C : forall m, p = q ++ c :: m -> Forall (fun x => x = 32 \/ x = 9) m -> False).
  { intros m -> G. destruct EP as [EP|[y EP]]; [destruct q; discriminate EP|].
    destruct (@exists_last _ (c :: m) ltac:(discriminate)) as (m' & z & EM). rewrite EM, app_assoc in EP. apply app_inj_tail in EP as [_ ->].
    destruct m' as [|z m']; [injection EM as -> _; contradiction|]. injection EM as _ ->. apply Forall_app in G as [_ G]. apply Forall_inv in G. lia. }
  destruct (app_eq_app _ _ _ _ E) as [m [[-> E1]|[E1 ->]]].
  - rewrite E1 in F. apply Forall_app in F as [F _]. apply (C m); [rewrite <- app_assoc; reflexivity|exact F].
  - destruct m as [|y m] using rev_ind; [rewrite app_nil_r in E1; apply (C []); [symmetry; exact E1|constructor]|].
    rewrite app_assoc in E1. apply app_inj_tail in E1 as [_ ->]. apply Forall_app in F' as [F' _]. apply Forall_app in F' as [_ F']. apply Forall_inv in F'. lia.
Qed.
Lemma lines_end ds d : g_lines ds d -> Forall shape ds -> source ds = [] \/ exists q, source ds = q ++ [10].
Proof.
  intros G SH. destruct G as [|ds d ts s c n G GL GC]; [left; reflexivity|right]. apply Forall_app in SH as [_ SH]. apply Forall_app in SH as [_ SH]. apply Forall_app in SH as [_ SH].
  rewrite !source_app. change (source [(XNewline, n)]) with (n ++ []). rewrite app_nil_r. destruct (Forall_inv SH) as [->| ->].
  - exists (source ds ++ source ts ++ source c). repeat rewrite <- app_assoc. reflexivity.
  - exists (source ds ++ source ts ++ source c ++ [13]). repeat rewrite <- app_assoc. reflexivity.
Qed.

(** ** Ranges *)
Definition grown (r r' : crange) : Prop := cr_start r' = cr_start r /\ cr_len r <= cr_len r'.
Lemma grown_refl r : grown r r. Proof. split; [reflexivity|lia]. Qed.
(** Every statement of [l'] is one of [l], with a range that has grown. *)
Definition grows (l l' : list ast) : Prop :=
  forall x' lvl p r', In x' l' -> states x' lvl p r' -> exists x r, In x l /\ states x lvl p r /\ grown r r'.
Lemma grows_refl l : grows l l.
Proof. intros x lvl p r H S. exists x, r. split; [exact H|]. split; [exact S|]. apply grown_refl. Qed.
Lemma grows_comments cs l l' : grows l l' -> grows l (rev (map AComment cs) ++ l').
Proof.
  intros G x lvl p r H S. apply in_app_iff in H as [H|H]; [|eapply G; eassumption].
  apply in_rev, in_map_iff in H as (c & <- & _). inversion S.
Qed.
Lemma grows_tail x x' l : (forall lvl p r', states x' lvl p r' -> exists r, states x lvl p r /\ grown r r') -> grows (x :: l) (x' :: l).
Proof.
  intros G y lvl p r [<-|H] S.
  - destruct (G _ _ _ S) as (r0 & S0 & R0). exists x, r0. split; [left; reflexivity|auto].
  - exists y, r. split; [right; exact H|]. split; [exact S|]. apply grown_refl.
Qed.
Lemma range_append_grown n r id r' : range_append r id = Ok r' -> range_ok n r -> n <= id -> grown r r'.
Proof.
  unfold range_append, usub, range_ok. intros E R L. destruct (_ <=? _) eqn:Q; [|discriminate]. cbn [bind] in E. injection E as <-. split; [reflexivity|]. cbn [cr_len]. apply N.leb_le in Q. lia.
Qed.
Lemma add_comments_grown p : forall cs s r s' r', add_comments s r cs p = Ok (s', r') -> range_ok (next_id s) r ->
  grown r r' /\ s' = s ++ map (mkac p (cr_level r)) cs.
Proof.
  intros cs s r s' r' E R. split.
  2: { destruct (add_comments_ok cs s r p) as (r1 & E1 & _); [unfold range_ok in R; lia|exact R|]. rewrite E in E1. injection E1 as -> _. reflexivity. }
  revert s r s' r' E R. induction cs as [|c cs IH]; intros s r s' r' E R; cbn [add_comments] in E; [injection E as _ <-; apply grown_refl|].
  destruct (add_comment _ _ _ _) as [[s1 r1']|[]|] eqn:AC; [|discriminate]. cbn [bind] in E. unfold add_comment, store_comment in AC.
  destruct (range_append _ _) as [r2|[]|] eqn:RA; [|discriminate]. cbn [bind] in AC. injection AC as <- <-.
  pose proof (range_append_grown _ _ _ _ RA R ltac:(lia)) as G1.
  assert (R2 : range_ok (next_id (s ++ [mkac p (cr_level r) c])) r2).
  { unfold range_append, usub in RA. destruct (_ <=? _) eqn:Q; [|discriminate]. cbn [bind] in RA. injection RA as <-. unfold range_ok. rewrite next_id_app. cbn [cr_start cr_len]. apply N.leb_le in Q. lia. }
  specialize (IH _ _ _ _ E R2). destruct G1, IH. split; [congruence|lia].
Qed.
Lemma append_comment_grown n cr l id cr' l' : append_comment cr l id = Ok (cr', l') -> range_ok n cr -> Forall (fun a => range_ok n (ta_comments a)) l -> n <= id ->
  grown cr cr' /\ forall a', In a' l' -> exists a, In a l /\ ta_assign a' = ta_assign a /\ grown (ta_comments a) (ta_comments a').
Proof.
  unfold append_comment. intros E R F L. destruct (rev l) as [|a l1] eqn:RL.
  - destruct (range_append _ _) as [r2|[]|] eqn:RA; [|discriminate]. cbn [bind] in E. injection E as <- <-. split; [eapply range_append_grown; eassumption|].
    intros a' H. exists a'. split; [exact H|]. split; [reflexivity|apply grown_refl].
  - destruct (range_append _ _) as [r2|[]|] eqn:RA; [|discriminate]. cbn [bind] in E. injection E as <- <-. split; [apply grown_refl|].
    assert (EL : l = rev l1 ++ [a]) by (rewrite <- (rev_involutive l), RL; reflexivity). rewrite EL in F |- *. apply Forall_app in F as [_ F]. apply Forall_inv in F.
    intros a' H. apply in_app_iff in H as [H|[<-|[]]].
    + exists a'. split; [apply in_app_iff; auto|]. split; [reflexivity|apply grown_refl].
    + exists a. split; [apply in_app_iff; right; left; reflexivity|]. split; [reflexivity|]. cbn [ta_comments]. eapply range_append_grown; eassumption.
Qed.

Section Above.
  Context (input : list N) (all : list tile).
  Notation at_ := (at_ input).
  Notation eof := (eof input).
  Notation rinv := (rinv input all).
  Notation own := (own_line input).

  Lemma push_grows a l x' lvl p r' : In x' (push_assign a l) -> states x' lvl p r' ->
    (exists x, In x l /\ states x lvl p r') \/ (lvl = in_body l /\ key_at (as_key (ta_assign a)) p /\ r' = ta_comments a).
  Proof.
    assert (D : in_body l = 0 -> In x' (AAssign a :: l) -> states x' lvl p r' ->
      (exists x, In x l /\ states x lvl p r') \/ (lvl = in_body l /\ key_at (as_key (ta_assign a)) p /\ r' = ta_comments a)).
    { intros -> [<-|H] S; [inversion S; subst; right; auto|]. left. eauto. }
    destruct l as [|[y|t|t|y] l]; cbn [push_assign in_body] in *; try (apply D; reflexivity); clear D; intros [<-|H] S.
    - inversion S; subst; cbn [tb_header tb_comments tb_assigns] in *.
      + left. eexists. split; [left; reflexivity|]. constructor.
      + match goal with H : In _ (_ ++ [_]) |- _ => apply in_app_iff in H as [H|[H|[]]] end; [left; eexists; split; [left; reflexivity|econstructor; eassumption]|]. subst. right. auto.
    - left. eexists. split; [right; exact H|exact S].
    - inversion S; subst; cbn [ae_header ae_comments ae_assigns] in *.
      + left. eexists. split; [left; reflexivity|]. constructor.
      + match goal with H : In _ (_ ++ [_]) |- _ => apply in_app_iff in H as [H|[H|[]]] end; [left; eexists; split; [left; reflexivity|econstructor; eassumption]|]. subst. right. auto.
    - left. eexists. split; [right; exact H|exact S].
  Qed.
  Lemma place_free_grows s fr l s' l' lvl : place_free s fr l = Ok (s', l', lvl) -> Forall (ast_in input all (next_id s)) l ->
    grows l l' /\ in_body l' = in_body l /\ exists x, s' = s ++ x /\ (x = [] \/ exists lv, x = map (mkac Contained lv) fr).
  Proof.
    intros E AO. assert (D : in_body l = 0 -> Ok (s, rev (map AComment fr) ++ l, 0) = @Ok Empty_set _ (s', l', lvl) ->
      grows l l' /\ in_body l' = in_body l /\ exists x, s' = s ++ x /\ (x = [] \/ exists lv, x = map (mkac Contained lv) fr)).
    { intros IB H. injection H as <- <- _. split; [apply grows_comments, grows_refl|]. split; [rewrite <- map_rev; destruct (rev fr); [reflexivity|symmetry; exact IB]|]. exists []. rewrite app_nil_r. auto. }
    destruct l as [|[a|t|t|c] l]; cbn [place_free] in E; try (apply D; [reflexivity|exact E]); clear D; pose proof (Forall_inv AO) as (R1 & _).
    - destruct (add_comments _ _ _ _) as [[s1 c1]|[]|] eqn:AC; [|discriminate]. cbn [bind] in E. injection E as <- <- _. destruct (add_comments_grown _ _ _ _ _ _ AC R1) as [G ->]. split; [|split; [reflexivity|eexists; split; [reflexivity|eauto]]].
      apply grows_tail. intros lv p r' S. inversion S; subst; cbn in *; eexists; (split; [|first [exact G|apply grown_refl]]); econstructor; eassumption.
    - destruct (add_comments _ _ _ _) as [[s1 c1]|[]|] eqn:AC; [|discriminate]. cbn [bind] in E. injection E as <- <- _. destruct (add_comments_grown _ _ _ _ _ _ AC R1) as [G ->]. split; [|split; [reflexivity|eexists; split; [reflexivity|eauto]]].
      apply grows_tail. intros lv p r' S. inversion S; subst; cbn in *; eexists; (split; [|first [exact G|apply grown_refl]]); econstructor; eassumption.
  Qed.
  Lemma root_comment_grows c r r' : rt_newline r = true -> Forall (ast_in input all (next_id (ps_store (rt_st r)))) (rt_asts r) -> root_comment c r = Ok r' ->
    grows (rt_asts r) (rt_asts r') /\ ps_store (rt_st r') = ps_store (rt_st r) ++ [mkac LineEnd 0 c] /\ rt_prev r' = rt_prev r /\ rt_newline r' = true.
  Proof.
    intros NL AO E. unfold root_comment in E. rewrite NL in E. cbn [store_comment] in E. unfold store_comment in E.
    assert (TR : forall n l, Forall (tassign_ok input n) l -> Forall (fun a => range_ok n (ta_comments a)) l) by (intros n l; apply Forall_impl; intros a [H _]; exact H).
    destruct (rt_asts r) as [|[a|t|t|y] l] eqn:AS; try discriminate; pose proof (Forall_inv AO) as A1.
    - destruct (range_append _ _) as [c1|[]|] eqn:RA; [|discriminate]. cbn [bind] in E. injection E as <-. cbn. split; [|auto]. destruct A1 as [R1 _].
      pose proof (range_append_grown _ _ _ _ RA R1 (N.le_refl _)) as G. apply grows_tail. intros lv p r' S. inversion S; subst. eexists. split; [constructor; eassumption|exact G].
    - destruct (append_comment _ _ _) as [[c1 l1]|[]|] eqn:AC; [|discriminate]. cbn [bind] in E. injection E as <-. cbn. split; [|auto]. destruct A1 as (R1 & _ & R3).
      destruct (append_comment_grown _ _ _ _ _ _ AC R1 (TR _ _ R3) (N.le_refl _)) as [G1 G2]. apply grows_tail. intros lv p r' S. inversion S as [|u|u a' p' IA KA|u|]; subst; cbn in *.
      + eexists. split; [constructor|exact G1].
      + destruct (G2 _ IA) as (a & I1 & E1 & G). rewrite E1 in KA. exists (ta_comments a). split; [econstructor; eassumption|exact G].
    - destruct (append_comment _ _ _) as [[c1 l1]|[]|] eqn:AC; [|discriminate]. cbn [bind] in E. injection E as <-. cbn. split; [|auto]. destruct A1 as (R1 & _ & R3).
      destruct (append_comment_grown _ _ _ _ _ _ AC R1 (TR _ _ R3) (N.le_refl _)) as [G1 G2]. apply grows_tail. intros lv p r' S. inversion S as [|u|u a' p' IA KA|u|u a' p' IA KA]; subst; cbn in *.
      + eexists. split; [constructor|exact G1].
      + destruct (G2 _ IA) as (a & I1 & E1 & G). rewrite E1 in KA. exists (ta_comments a). split; [econstructor; eassumption|exact G].
  Qed.

  (** ** A statement's comments *)
  Definition fits (store : list acomment) (cs : list comment) (lvl : N) (p : pos) (r : crange) : Prop :=
    exists above s0 s1, store = s0 ++ map (mkac Above lvl) above ++ s1 /\ cr_start r = N.of_nat (length s0) /\ N.of_nat (length above) <= cr_len r /\
      Forall (fun c => p_line p <= line_of (ac_comment c)) s1 /\ block (p_line p) above /\ Forall own above /\
      (forall c, In c cs -> own c -> line_of c + N.of_nat (length above) + 1 <> p_line p).
  Lemma fits_grow store cs lvl p r x ds r' : fits store cs lvl p r -> grown r r' -> Forall (fun c => p_line p <= line_of (ac_comment c)) x ->
    (forall c, In c ds -> p_line p <= line_of c) -> fits (store ++ x) (cs ++ ds) lvl p r'.
  Proof.
    intros (above & s0 & s1 & -> & H1 & H2 & H3 & H4 & H5 & H6) [G1 G2] F D. exists above, s0, (s1 ++ x). split; [repeat rewrite <- app_assoc; reflexivity|].
    split; [congruence|]. split; [lia|]. split; [apply Forall_app; auto|]. split; [exact H4|]. split; [exact H5|]. intros c IC OC. apply in_app_iff in IC as [IC|IC]; [exact (H6 _ IC OC)|].
    specialize (D _ IC). lia.
  Qed.
  Lemma fits_above store cs lvl p r : fits store cs lvl p r -> exists above, comments_above input cs store lvl p r above.
  Proof.
    intros (above & s0 & s1 & -> & H1 & H2 & H3 & H4 & H5 & H6). exists above. exists (firstn (N.to_nat (cr_len r) - length above) s1). unfold attached.
    rewrite H1, Nnat.Nat2N.id, skipn_app, skipn_all, Nat.sub_diag. cbn [skipn app]. split.
    - rewrite firstn_app, map_length. f_equal. apply firstn_all2. rewrite map_length. lia.
    - split; [|auto]. apply Forall_forall. intros c IC. apply (proj1 (Forall_forall _ _) H3). rewrite <- (firstn_skipn (N.to_nat (cr_len r) - length above) s1). apply in_app_iff. auto.
  Qed.

  (** ** The invariant *)
  Record above_inv (r : root) (done : list tile) (e : N) : Prop := mkai {
    ai_seen : forall c, In c (comments_of [] done) -> In c (rt_prev r) \/ line_of c + 1 < e \/ (line_of c + 1 = e /\ ~ own c);
    ai_prev : forall c, In c (rt_prev r) -> e <= line_of c /\ own c;
    ai_line : if rt_newline r then e = p_line (pos_at (source done)) + 1 else e <= p_line (pos_at (source done));
    ai_store : forall c, In c (ps_store (rt_st r)) -> line_of (ac_comment c) + 1 < e \/ (line_of (ac_comment c) + 1 = e /\ ac_pos c = LineEnd);
    ai_stmts : forall x lvl p rg, In x (rt_asts r) -> states x lvl p rg -> p_line p < e /\ fits (ps_store (rt_st r)) (comments_of [] done) lvl p rg;
  }.

  (** ** The comments before a statement *)
  Lemma below_all : forall l n c, below n l -> In c l -> line_of c < n.
  Proof. induction l as [|x l IH]; intros n c B H; [destruct H|]. destruct B as [B1 B2]. destruct H as [<-|H]; [exact B1|]. specialize (IH _ _ B2 H). lia. Qed.
  Lemma below_past : forall a n f, below n (a ++ f) -> block n (rev a) -> below (n - N.of_nat (length a)) f /\ N.of_nat (length a) <= n.
  Proof.
    induction a as [|c a IH]; intros n f B K.
    - cbn [app length] in *. rewrite N.sub_0_r. split; [exact B|]. lia.
    - destruct B as [B1 B2]. cbn [rev] in K. apply block_snoc in K as [K1 K2]. destruct (IH _ _ B2 K2) as [H1 H2]. cbn [length].
      split; [|lia]. replace (n - N.of_nat (S (length a))) with (line_of c - N.of_nat (length a)) by lia. exact H1.
  Qed.
  Lemma block_lines : forall cs n c, block n cs -> In c cs -> n <= line_of c + N.of_nat (length cs) /\ line_of c < n.
  Proof.
    induction cs as [|x cs IH]; intros n c B H; [destruct H|]. destruct B as [B1 B2]. destruct H as [<-|H].
    - cbn [length] in *. lia.
    - specialize (IH _ _ B2 H). cbn [length]. lia.
  Qed.
  Lemma free_lines prev fr asc n : prev = fr ++ asc -> below n (rev prev) -> block n asc ->
    (forall f c, fr = f ++ [c] -> line_of c + 1 + N.of_nat (length asc) <> n) -> forall c, In c fr -> line_of c + N.of_nat (length asc) + 1 < n.
  Proof.
    intros -> B K MX c H. rewrite rev_app_distr in B. destruct (below_past (rev asc) n (rev fr)) as [B1 B2]; [exact B|rewrite rev_involutive; exact K|].
    rewrite rev_length in *. destruct fr as [|z fr] using rev_ind; [destruct H|]. clear IHfr. specialize (MX fr z eq_refl). rewrite rev_app_distr in B1. cbn [rev app below] in B1. destruct B1 as [B3 B4].
    apply in_app_iff in H as [H|[<-|[]]]; [|lia]. apply in_rev in H. pose proof (below_all _ _ _ B4 H). lia.
  Qed.
  (** A new statement on line [n]. *)
  Lemma new_fits e r done fr asc s0 s1 lvl p rg : above_inv r done e -> rt_newline r = false -> rt_prev r = fr ++ asc -> p_line (pos_at (source done)) <= p_line p -> below (p_line p) (rev (rt_prev r)) ->
    block (p_line p) asc -> (forall f c, fr = f ++ [c] -> line_of c + 1 + N.of_nat (length asc) <> p_line p) ->
    cr_start rg = N.of_nat (length s0) -> N.of_nat (length asc) <= cr_len rg -> Forall (fun c => p_line p <= line_of (ac_comment c)) s1 ->
    fits (s0 ++ map (mkac Above lvl) asc ++ s1) (comments_of [] done) lvl p rg.
  Proof.
    intros [SEEN PREV LINE _ _] NL EP LE BL BK MX S0 LN F. exists asc, s0, s1. split; [reflexivity|]. split; [exact S0|]. split; [exact LN|]. split; [exact F|]. split; [exact BK|]. split.
    - apply Forall_forall. intros c H. apply PREV. rewrite EP. apply in_app_iff. auto.
    - intros c H OC E. rewrite NL in LINE. destruct (SEEN _ H) as [H1|[H1|[_ H1]]]; [| |contradiction].
      + rewrite EP in H1. apply in_app_iff in H1 as [H1|H1].
        * pose proof (free_lines _ _ _ _ EP BL BK MX _ H1). lia.
        * pose proof (block_lines _ _ _ BK H1). lia.
      + destruct asc as [|a asc]; [cbn in E; lia|]. destruct (PREV a) as [P1 _]; [rewrite EP; apply in_app_iff; right; left; reflexivity|]. destruct BK as [BK _]. lia.
  Qed.

  (** ** Steps *)
  Lemma done_shape r done ts : rinv r done ts -> Forall shape all -> Forall shape done /\ Forall shape ts.
  Proof. intros R SH. rewrite (ri_all _ _ _ _ _ R) in SH. apply Forall_app in SH. exact SH. Qed.
  Lemma line_le a b : p_line (pos_at (source a)) <= p_line (pos_at (source (a ++ b))).
  Proof. rewrite source_app. apply line_app. Qed.

  Lemma done_comments' a b : comments_of [] (a ++ b) = comments_of [] a ++ comments_of (source a) b.
  Proof. apply comments_of_app. Qed.

  Lemma newline_above r done a w s e : Forall shape a -> a = w ++ [(XNewline, s)] -> blanks w -> above_inv r done e ->
    above_inv (mkroot (padv (rt_st r)) (rt_asts r) (rt_prev r) false) (done ++ a) e.
  Proof.
    intros SH E B [SEEN PREV LINE STORE STMTS].
    assert (CC : comments_of [] (done ++ a) = comments_of [] done).
    { rewrite done_comments', E. unfold comments_of. rewrite (tile_items_app w), (tile_items_blanks w) by exact B. apply app_nil_r. }
    assert (LN : p_line (pos_at (source done)) + 1 <= p_line (pos_at (source (done ++ a)))).
    { rewrite E in SH |- *. apply Forall_app in SH as [_ SH]. rewrite !source_app. change (source [(XNewline, s)]) with (s ++ []). rewrite app_nil_r, app_assoc. pose proof (line_app (source done) (source w)) as L1.
      destruct (Forall_inv SH) as [->| ->].
      - rewrite pos_at_lf. cbn [p_line]. lia.
      - change [13; 10] with ([13] ++ [10]). rewrite app_assoc, pos_at_lf. cbn [p_line]. pose proof (line_app (source done ++ source w) [13]). lia. }
    constructor; cbn [rt_prev rt_newline rt_st rt_asts padv set_pcur ps_store]; rewrite ?CC; try assumption.
    destruct (rt_newline r); lia.
  Qed.

  Lemma comment_above r done ts c r' a b w s e : rinv r done ts -> rinv r' (done ++ a) b -> Forall shape all -> input = source all ->
    root_comment (mk_comment c (i_start (ppeek eof (rt_st r)))) (set_rst r (padv (rt_st r))) = Ok r' -> ts = a ++ b -> no_errors r done ->
    a = w ++ [(XComment, s)] -> blanks w -> i_start (ppeek eof (rt_st r)) = pos_at (source done ++ source w) ->
    comments_of (source done) a = [mk_comment c (i_start (ppeek eof (rt_st r)))] ->
    p_line (pos_at (source (done ++ a))) = p_line (i_start (ppeek eof (rt_st r))) -> above_inv r done e -> above_inv r' (done ++ a) e.
  Proof.
    intros R R' SH IN E ET NE EA B PS CC LE [SEEN PREV LINE STORE STMTS]. set (cm := mk_comment _ _) in *.
    assert (LC : line_of cm = p_line (pos_at (source done))).
    { change (line_of cm) with (p_line (i_start (ppeek eof (rt_st r)))). rewrite PS. rewrite pos_at_no_lf; [reflexivity|]. apply blanks_no_lf; [|exact B].
      destruct (done_shape _ _ _ R SH) as [_ S2]. rewrite ET, EA in S2. apply Forall_app in S2 as [S2 _]. apply Forall_app in S2 as [S2 _]. exact S2. }
    assert (LE' : p_line (pos_at (source (done ++ a))) = line_of cm) by exact LE. clear LE.
    assert (CD : comments_of [] (done ++ a) = comments_of [] done ++ [cm]) by (rewrite done_comments', CC; reflexivity).
    pose proof (ri_doc _ _ _ _ _ R NE) as (ds & cur & cc & d & st & ED & GLS & GL & GC & CN & NLR & _).
    assert (cc = []) as ->.
    { destruct CN as [->|CN]; [reflexivity|]. rewrite ET, EA in CN. destruct w as [|y w]; [discriminate CN|]. cbn in CN. apply Forall_inv in B. unfold is_blank in B. congruence. }
    rewrite app_nil_r in ED. destruct (done_shape _ _ _ R SH) as [S1 S2]. rewrite ET, EA in S2. apply Forall_app in S2 as [S2 _]. apply Forall_app in S2 as [S2 S3].
    destruct (Forall_inv S3) as (t & -> & _).
    assert (INP : exists rest, input = source done ++ source w ++ 35 :: rest).
    { rewrite IN, (ri_all _ _ _ _ _ R), ET, EA, !source_app. change (source [(XComment, 35 :: t)]) with (35 :: t ++ []). exists (t ++ [] ++ source b). repeat rewrite <- app_assoc. cbn [app]. repeat rewrite <- app_assoc. reflexivity. }
    destruct INP as [rest INP].
    destruct (rt_newline r) eqn:NL.
    - destruct (root_comment_grows cm (set_rst r (padv (rt_st r))) r') as (G & ST & PR & NL'); [exact NL|exact (ri_asts _ _ _ _ _ R)|exact E|]. cbn [set_rst rt_asts rt_st rt_prev padv set_pcur ps_store] in G, ST, PR.
      assert (PN : rt_prev r = []) by exact (proj1 (ri_nl _ _ _ _ _ R NL)).
      assert (NO : ~ own cm).
      { destruct GL as [w0 B0|w1 vt sm w2 B1 GS B2]; [discriminate NLR|].
        destruct (stmt_end _ _ GS) as (va & x & -> & SO). rewrite ED in S1. apply Forall_app in S1 as [_ S1]. apply Forall_app in S1 as [_ S1]. apply Forall_app in S1 as [_ S1].
        assert (VX : valid x). { destruct NE as [_ V]. rewrite ED in V. apply Forall_app in V as [_ V]. apply Forall_app in V as [_ V]. apply Forall_app in V as [V _]. apply Forall_app in V as [_ V]. exact (Forall_inv V). }
        destruct (solid_end x VX SO) as (q & z & EX & N1 & N2 & N3).
        assert (SD : source done = (source (ds ++ w1 ++ va) ++ q ++ [z]) ++ source w2).
        { rewrite ED, <- EX. rewrite !source_app. change (source [x]) with (snd x ++ []) || (destruct x as [x0 x1]; change (source [(x0, x1)]) with (x1 ++ [])). rewrite app_nil_r. cbn [snd]. repeat rewrite <- app_assoc. reflexivity. }
        apply (not_own input (source (ds ++ w1 ++ va) ++ q) z (source w2 ++ source w) rest); try assumption.
        - rewrite INP, SD. repeat rewrite <- app_assoc. reflexivity.
        - apply Forall_app. split; apply blanks_text; assumption.
        - change (s_start (c_span cm)) with (i_start (ppeek eof (rt_st r))). rewrite PS, SD. repeat rewrite <- app_assoc. reflexivity. }
      constructor; rewrite ?CD, ?NL', ?PR, ?ST.
      + intros y H. apply in_app_iff in H as [H|[<-|[]]]; [apply SEEN, H|]. right. right. split; [lia|exact NO].
      + exact PREV.
      + rewrite LE'. lia.
      + intros y H. apply in_app_iff in H as [H|[<-|[]]]; [apply STORE, H|]. right. cbn [ac_comment ac_pos]. split; [lia|reflexivity].
      + intros x lvl p rg H S. destruct (G _ _ _ _ H S) as (x0 & r0 & I0 & S0 & GR). destruct (STMTS _ _ _ _ I0 S0) as [P1 P2]. split; [exact P1|].
        eapply fits_grow; [exact P2|exact GR| |].
        * constructor; [|constructor]. cbn [ac_comment]. lia.
        * intros y [<-|[]]. lia.
    - assert (OW : own cm).
      { destruct GL as [w0 B0|w1 vt sm w2 B1 GS B2]; [|discriminate NLR]. rewrite ED in S1. apply Forall_app in S1 as [S1 S0].
        exists (source ds), (source w0 ++ source w), rest. rewrite ED, source_app in INP. split; [rewrite INP; repeat rewrite <- app_assoc; reflexivity|].
        split; [change (s_start (c_span cm)) with (i_start (ppeek eof (rt_st r))); rewrite PS, ED, source_app, <- app_assoc; reflexivity|].
        split; [apply Forall_app; split; apply blanks_text; assumption|]. eapply lines_end; eassumption. }
      unfold root_comment in E. cbn [set_rst rt_newline] in E. rewrite NL in E. injection E as <-. cbn [rt_prev rt_newline rt_st rt_asts padv set_pcur ps_store] in *.
      constructor; rewrite ?CD; cbn [rt_prev rt_newline rt_st rt_asts padv set_pcur ps_store].
      + intros y H. apply in_app_iff in H as [H|[<-|[]]]; [|left; apply in_app_iff; right; left; reflexivity]. destruct (SEEN _ H) as [H1|H1]; [left; apply in_app_iff; auto|right; exact H1].
      + intros y H. apply in_app_iff in H as [H|[<-|[]]]; [apply PREV, H|]. split; [lia|exact OW].
      + lia.
      + exact STORE.
      + intros x lvl p rg H S. destruct (STMTS _ _ _ _ H S) as [P1 P2]. split; [exact P1|]. rewrite <- (app_nil_r (ps_store (rt_st r))).
        eapply fits_grow; [exact P2|apply grown_refl|constructor|]. intros y [<-|[]]. lia.
  Qed.

  Lemma header_store l st la k ra rt st' : header eof l st = Ok (la, k, ra, rt, st') -> ps_store st' = ps_store st.
  Proof.
    unfold header. destruct (header_open eof l st) as [o st1] eqn:HO. assert (S1 : ps_store st1 = ps_store st).
    { unfold header_open in HO. destruct (pty eof st); try (injection HO as _ <-; reflexivity). cbv zeta in HO. destruct (negb _); injection HO as _ <-; reflexivity. }
    unfold header_key. destruct (parse_key eof st1) as [[kr st2]|[]|] eqn:PK; [|discriminate]. cbn [bind]. unfold parse_key in PK. apply key_loop_store in PK.
    assert (CL : forall st3 ro st4 ro2 st5, ps_store st3 = ps_store st1 -> header_close1 eof o st3 = (ro, st4) -> header_close2 eof l ro st4 = (ro2, st5) -> ps_store st5 = ps_store st).
    { intros st3 ro st4 ro2 st5 S3 C1 C2. assert (S4 : ps_store st4 = ps_store st3).
      { unfold header_close1 in C1. destruct o; [|injection C1 as _ <-; reflexivity]. cbv zeta in C1. destruct (i_ty _); injection C1 as _ <-; reflexivity. }
      assert (S5 : ps_store st5 = ps_store st4).
      { unfold header_close2 in C2. cbv zeta in C2. destruct (i_ty _); injection C2 as _ <-; try reflexivity. destruct ro; [destruct (negb _)|]; reflexivity. }
      congruence. }
    destruct kr as [k1|k1|e]; intros E; cbn [bind] in E.
    - destruct (header_close1 _ _ _) as [ro st4] eqn:C1. destruct (header_close2 _ _ _ _) as [ro2 st5] eqn:C2. injection E as _ _ _ _ <-. exact (CL _ _ _ _ _ PK C1 C2).
    - injection E as _ _ _ _ <-. congruence.
    - destruct (header_close1 _ _ _) as [ro st4] eqn:C1. destruct (header_close2 _ _ _ _) as [ro2 st5] eqn:C2. injection E as _ _ _ _ <-. refine (CL _ _ _ _ _ _ C1 C2). exact PK.
  Qed.

  Lemma header_above r done ts a b r' e : rinv r done ts -> header_facts input r done a b r' -> above_inv r done e -> below (p_line (pos_at (source done))) (rev (rt_prev r)) ->
    above_inv r' (done ++ a) (p_line (pos_at (source (done ++ a))) + 1).
  Proof.
    intros R (fr & asc & la & k & ra & rt & st1 & new & cr & NL & NE & ILA & NLF & HD & LN & EP & BK & MX & MS & -> & C1 & C2 & NEW & _) AI BL.
    apply header_store in HD. change (ps_store (padv (rt_st r))) with (ps_store (rt_st r)) in HD. rewrite HD in *. clear MS HD.
    pose proof AI as [SEEN PREV LINE STORE STMTS]. rewrite NL in LINE. set (M := p_line (pos_at (source done))) in *.
    assert (CD : comments_of [] (done ++ a) = comments_of [] done) by (rewrite done_comments', (inline_no_comments _ _ ILA); apply app_nil_r).
    assert (LA : p_line (pos_at (source (done ++ a))) = M) by (rewrite source_app, pos_at_no_lf by exact NLF; reflexivity).
    assert (PL : forall c, In c (rt_prev r) -> line_of c < M) by (intros c H; apply (below_all _ _ _ BL), in_rev; rewrite rev_involutive; exact H).
    rewrite LA, LN in *.
    constructor; cbn [rt_prev rt_newline rt_st rt_asts set_store ps_store]; rewrite ?CD, ?LA.
    - intros c H. right. left. destruct (SEEN _ H) as [H1|[H1|[H1 _]]]; [specialize (PL _ H1); lia|lia|lia].
    - intros c [].
    - reflexivity.
    - intros c H. left. apply in_app_iff in H as [H|H]; [destruct (STORE _ H) as [H1|[H1 _]]; lia|].
      apply in_map_iff in H as (y & <- & H). cbn [ac_comment]. specialize (PL y). rewrite EP in PL. specialize (PL ltac:(apply in_app_iff; auto)). lia.
    - assert (NEWF : forall p, p_line p = M -> fits (ps_store (rt_st r) ++ map (mkac Above 0) asc) (comments_of [] done) 0 p cr).
      { intros p EM. rewrite <- (app_nil_r (map _ _)). eapply new_fits; try eassumption; rewrite ?EM; try assumption; try reflexivity.
        - unfold next_id in C2. rewrite app_length, map_length in C2. unfold next_id in C1. lia.
        - constructor. }
      intros x lvl p rg [<-|H] S.
      + destruct NEW as [(h & -> & EH)|(h & -> & EH)]; inversion S; subst; cbn in *; try contradiction.
        * rewrite EH, LN. split; [lia|]. apply NEWF. rewrite <- LN. reflexivity.
        * rewrite EH, LN. split; [lia|]. apply NEWF. rewrite <- LN. reflexivity.
      + destruct (grows_comments fr _ _ (grows_refl _) _ _ _ _ H S) as (x0 & r0 & I0 & S0 & GR). destruct (STMTS _ _ _ _ I0 S0) as [P1 P2]. split; [lia|].
        rewrite <- (app_nil_r (comments_of [] done)). eapply fits_grow; [exact P2|exact GR| |intros y []].
        apply Forall_forall. intros c IC. apply in_map_iff in IC as (y & <- & IC). cbn [ac_comment]. destruct (PREV y) as [P3 _]; [rewrite EP; apply in_app_iff; auto|]. lia.
  Qed.

  Lemma at_good st pre ts : at_ st pre ts -> good input (pos_at pre) st.
  Proof. intros (IN & SH & _ & E & _). unfold good. rewrite E. apply tiles_ahead; assumption. Qed.
  Lemma assign_above r done ts a b r' e : rinv r done ts -> assign_facts input r done a b r' -> above_inv r done e -> below (p_line (pos_at (source done))) (rev (rt_prev r)) ->
    above_inv r' (done ++ a) (p_line (pos_at (source (done ++ a))) + 1).
  Proof.
    intros R (fr & asc & s3 & l3 & k & st1 & st4 & st5 & v & a0 & a5 & cr & NL & NE & EA & IL0 & PK & EQ & NLF & LQ & EP & BK & MX & PF & S4 & A4 & PV & M5 & C1 & C2 & -> & w & vt & sm & EV & B & GS) AI BL.
    pose proof AI as [SEEN PREV LINE STORE STMTS]. rewrite NL in LINE. set (M := p_line (pos_at (source done))) in *.
    assert (LO : p_line (pos_at (source done ++ source a0)) = M) by (rewrite pos_at_no_lf by exact NLF; reflexivity).
    rewrite LO in LQ. rewrite LQ in BK, MX.
    destruct (place_free_grows _ _ _ _ _ _ PF (ri_asts _ _ _ _ _ R)) as (GR & IB & xf & ES3 & XF).
    assert (PL : forall c, In c (rt_prev r) -> line_of c < M) by (intros c H; apply (below_all _ _ _ BL), in_rev; rewrite rev_involutive; exact H).
    assert (FRL : forall c, In c fr -> line_of c + N.of_nat (length asc) + 1 < M) by (eapply free_lines; eassumption).
    assert (XFL : forall c, In c xf -> In (ac_comment c) fr).
    { intros c H. destruct XF as [->|[lv ->]]; [destruct H|]. apply in_map_iff in H as (y & <- & H). exact H. }
    (* the value *)
    assert (SE : sealed (ps_store st4) (pos_at (source done ++ source a0))).
    { intros p c E AC. rewrite LO. assert (H : In c (ps_store st4)) by (rewrite E; apply in_app_iff; right; left; reflexivity). rewrite S4, ES3 in H.
      apply in_app_iff in H as [H|H]; [apply in_app_iff in H as [H|H]|].
      - destruct (STORE _ H) as [H1|[_ H1]]; [lia|congruence].
      - specialize (FRL _ (XFL _ H)). lia.
      - apply in_map_iff in H as (y & <- & _). discriminate AC. }
    destruct (parse_value_keep input _ _ SE _ _ _ _ _ PV (at_good _ _ _ A4)) as (x & EX & LX); [exists []; split; [rewrite app_nil_r; reflexivity|constructor]|].
    rewrite LO in LX. rewrite EX, map_app in M5. apply app_inv_head in M5.
    assert (ELX : forall c, In c x -> In (ac_comment c) (comments_of (source done ++ source a0) a5)) by (intros c H; rewrite <- M5; apply in_map, H).
    (* the last line *)
    set (L := p_line (pos_at (source (done ++ a)))).
    assert (ML : M <= L) by (unfold M, L; apply line_le).
    assert (UP : forall c, In c (comments_of (source done ++ source a0) a5) -> line_of c < L).
    { intros c H. destruct (stmt_end _ _ GS) as (va & z & -> & SO). destruct a5 as [|y a5' _] using rev_ind; [destruct H|].
      assert (y = z) as ->. { rewrite EV, !app_assoc in EA. symmetry in EA. apply app_inj_tail in EA as [_ EA]. exact EA. }
      destruct A4 as (_ & SH4 & SEP4 & _). rewrite <- app_assoc in SH4, SEP4. pose proof (comment_before _ _ _ _ _ SH4 SEP4 SO H) as LT. unfold L. rewrite EA, !source_app. rewrite !source_app in LT. repeat rewrite <- app_assoc in *. exact LT. }
    assert (CD : comments_of [] (done ++ a) = comments_of [] done ++ comments_of (source done ++ source a0) a5).
    { rewrite done_comments', EA, comments_of_app, (inline_no_comments _ _ IL0). reflexivity. }
    assert (LOW : forall c, In c (comments_of (source done ++ source a0) a5) -> M <= line_of c) by (intros c H; apply comment_after in H; lia).
    assert (ST5 : ps_store st5 = ps_store (rt_st r) ++ xf ++ map (mkac Above (in_body (rt_asts r))) asc ++ x) by (rewrite EX, S4, ES3; repeat rewrite <- app_assoc; reflexivity).
    constructor; cbn [rt_prev rt_newline rt_st rt_asts].
    - rewrite CD. intros c H. right. left. apply in_app_iff in H as [H|H]; [|specialize (UP _ H); lia].
      destruct (SEEN _ H) as [H1|[H1|[H1 _]]]; [specialize (PL _ H1); lia|lia|lia].
    - intros c [].
    - reflexivity.
    - rewrite ST5. intros c H. left. apply in_app_iff in H as [H|H]; [destruct (STORE _ H) as [H1|[H1 _]]; lia|].
      apply in_app_iff in H as [H|H]; [specialize (FRL _ (XFL _ H)); lia|]. apply in_app_iff in H as [H|H].
      + apply in_map_iff in H as (y & <- & H). cbn [ac_comment]. specialize (PL y). rewrite EP in PL. specialize (PL ltac:(apply in_app_iff; auto)). lia.
      + specialize (UP _ (ELX _ H)). lia.
    - intros x' lvl p rg H S. rewrite CD. destruct (push_grows _ _ _ _ _ _ H S) as [(x1 & I1 & S1)|(-> & KA & ->)].
      + destruct (GR _ _ _ _ I1 S1) as (x0 & r0 & I0 & S0 & GRR). destruct (STMTS _ _ _ _ I0 S0) as [P1 P2]. split; [lia|]. rewrite ST5.
        eapply fits_grow; [exact P2|exact GRR| |intros c IC; specialize (LOW _ IC); lia].
        apply Forall_app. split; [apply Forall_forall; intros c IC|apply Forall_app; split; [apply Forall_forall; intros c IC|]].
        * destruct (PREV (ac_comment c)) as [P3 _]; [rewrite EP; apply in_app_iff; left; exact (XFL _ IC)|]. lia.
        * apply in_map_iff in IC as (y & <- & IC). cbn [ac_comment]. destruct (PREV y) as [P3 _]; [rewrite EP; apply in_app_iff; auto|]. lia.
        * eapply Forall_impl; [|exact LX]. intros c IC. cbn beta in IC. lia.
      + cbn [ta_assign as_key ta_comments] in *.
        assert (PM : p_line p = M).
        { pose proof (parse_key_order _ _ _ _ _ PK (at_good _ _ _ (ri_at _ _ _ _ _ R))) as (m & O & GM & _).
          assert (KO : pos_le (pos_at (source done)) p /\ pos_le p m).
          { inversion KA; subst; cbn [key_marks flat_map dident_marks app in_order] in O; destruct O as (O1 & (_ & _ & O2) & O3); (split; [exact O1|]); cbn [ident_mark s_start s_end] in *.
            - eapply pos_le_trans; [exact O2|exact O3].
            - eapply pos_le_trans; [exact O2|]. eapply in_order_le. exact O3. }
          destruct KO as [K1 K2]. apply pos_le_line in K1. fold M in K1. assert (NEOF : i_ty (ppeek eof st1) <> IEOF) by (rewrite EQ; discriminate). destruct (good_span _ _ _ GM NEOF) as (GP & _). apply pos_le_line in K2. apply pos_le_line in GP. lia. }
        split; [lia|]. rewrite <- (app_nil_r (ps_store st5)). eapply fits_grow with (r := cr); [|apply grown_refl|constructor|intros c IC; specialize (LOW _ IC); lia].
        rewrite EX, S4, IB, <- app_assoc. eapply new_fits; try eassumption; rewrite ?PM; try assumption; try (fold M; lia).
        unfold next_id in *. rewrite EX, S4, !app_length, map_length in C2. lia.
  Qed.

  (** ** The loop *)
  Definition aboves (r : root) (done : list tile) : Prop := no_errors r done -> exists e, above_inv r done e.
  Lemma root_loop_above : input = source all -> Forall shape all -> forall fuel r done ts r', rinv r done ts -> aboves r done ->
    root_loop input eof fuel r = Ok r' -> exists done' ts', rinv r' done' ts' /\ blanks ts' /\ aboves r' done'.
  Proof.
    intros IN SHA. induction fuel as [|fuel IH]; intros r done ts r' R AI E; [discriminate|]. cbn [root_loop] in E. change (i_ty (ppeek eof (rt_st r))) with (pty eof (rt_st r)) in E.
    assert (ASG : line_stop (pty eof (rt_st r)) = false -> (let? r := root_assign input eof max_depth (ppeek eof (rt_st r)) r in root_loop input eof fuel r) = Ok r' ->
      exists done' ts', rinv r' done' ts' /\ blanks ts' /\ aboves r' done').
    { intros LS E1. destruct (assign_step _ _ r done ts R LS) as (r1 & a & b & E2 & ET & HI & R1 & FA). rewrite E2 in E1. cbn [bind] in E1. refine (IH _ _ _ _ R1 _ E1).
      intros NE1. specialize (FA NE1). assert (NE : no_errors r done) by (destruct FA as (? & ? & ? & ? & ? & ? & ? & ? & ? & ? & ? & ? & _ & H & _); exact H).
      destruct (AI NE) as [e A0]. destruct (strict_lines _ _ r done ts R) as [_ BL]; [intros H; rewrite H in LS; discriminate|intros H; rewrite H in LS; discriminate|].
      eexists. eapply assign_above; eassumption. }
    destruct (pty eof (rt_st r)) eqn:PT; try (apply ASG; [reflexivity|exact E]); clear ASG.
    - destruct (comment_step _ _ r done ts r0 R PT) as (r1 & a & b & E2 & ET & HI & R1 & w & s & EA & B & PS & CC & LE). rewrite E2 in E. cbn [bind] in E. refine (IH _ _ _ _ R1 _ E).
      intros [H V]. apply Forall_app in V as [V _]. assert (NE : no_errors r done).
      { split; [|exact V]. unfold root_comment in E2. cbn [set_rst rt_newline rt_st rt_asts rt_prev] in E2. destruct (rt_newline r); [|injection E2 as <-; exact H].
        destruct (store_comment _ _) as [id st2]. match type of E2 with bind ?m _ = _ => destruct m as [l|[]|]; [|discriminate] end. cbn [bind] in E2. injection E2 as <-. exact H. }
      destruct (AI NE) as [e A0]. exists e. eapply comment_above; eassumption.
    - destruct (header_step _ _ r done ts R IN SHA PT) as [[E2 _]|(r1 & a & b & E2 & ET & HI & R1 & FA)]; rewrite E2 in E; [discriminate|]. cbn [bind] in E. refine (IH _ _ _ _ R1 _ E).
      intros NE1. specialize (FA NE1). assert (NE : no_errors r done) by (destruct FA as (? & ? & ? & ? & ? & ? & ? & ? & ? & _ & H & _); exact H).
      destruct (AI NE) as [e A0]. destruct (strict_lines _ _ r done ts R) as [_ BL]; [rewrite PT; discriminate|rewrite PT; discriminate|].
      eexists. eapply header_above; eassumption.
    - destruct (newline_step _ _ r done ts R PT) as (a & b & ET & HI & R1 & w & s & EA & B). refine (IH _ _ _ _ R1 _ E).
      intros [H V]. apply Forall_app in V as [V _]. destruct (AI (conj H V)) as [e A0]. exists e. eapply newline_above; try eassumption.
      destruct (done_shape _ _ _ R SHA) as [_ S2]. rewrite ET in S2. apply Forall_app in S2 as [S2 _]. exact S2.
    - injection E as <-. exists done, ts. split; [exact R|]. split; [|exact AI]. pose proof (ri_at _ _ _ _ _ R) as A. unfold pty in PT.
      destruct (peek_cases input _ _ _ A) as [(B & _)|(w & x & s & b & ET & B & NX & SH & PK & _)]; [exact B|]. rewrite PK in PT. cbn [i_ty] in PT. destruct (not_eof _ _ _ SH NX PT).
  Qed.
  Lemma parse_items_above a : input = source all -> Forall shape all -> all_separated all -> Forall valid all ->
    parse_items input eof (tile_items [] all) = Ok (a, []) ->
    forall x lvl p r, In x (as_asts a) -> states x lvl p r -> exists above, comments_above input (comments_of [] all) (as_comments a) lvl p r above.
  Proof.
    intros IN SHA SEP V E x lvl p rg H S. unfold parse_items in E. pose proof (rinv_start input all IN SHA SEP) as R0.
    destruct (root_loop _ _ _ _) as [r'|[]|] eqn:RL; [|discriminate]. cbn [bind] in E. injection E as <- EE. cbn [as_asts as_comments] in *.
    assert (A0 : aboves (mkroot (mkps (mkpc None (tile_items [] all)) [] []) [] [] false) []).
    { intros _. exists 0. constructor; cbn.
      - intros c [].
      - intros c [].
      - lia.
      - intros c [].
      - intros y l q rg' []. }
    destruct (root_loop_above IN SHA _ _ _ _ _ R0 A0 RL) as (done & ts & R & B & AI).
    pose proof (ri_all _ _ _ _ _ R) as EA. destruct AI as [e [_ _ _ _ ST]]; [split; [exact EE|]; rewrite EA in V; apply Forall_app in V as [V _]; exact V|].
    assert (CA : comments_of [] all = comments_of [] done) by (rewrite EA, done_comments', (blanks_no_comments _ ts B); apply app_nil_r). rewrite CA.
    apply in_rev in H. apply in_app_iff in H as [H|H].
    - apply in_rev, in_map_iff in H as (c & <- & _). inversion S.
    - apply fits_above. exact (proj2 (ST _ _ _ _ H S)).
  Qed.
End Above.
