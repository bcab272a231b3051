(** Where the keys and statements named in the errors of the mapping stand. *)
From Verif Require Import Base BaseProofs CommonModel CommonSpec TomlError LitModel LexModel LexSpec LexBase ParseModel ParseSpec ParsePlace ParseItems
  ParseMarks ParseOrder MapModel MapSpec MapWf.

(** The marks of the statement a key belongs to. *)
Definition kind_marks (k : mkind) : list span :=
  match k with
  | MTable t => ast_marks (ATable t)
  | MArrayEntry t => ast_marks (AArray t)
  | MTop a => assign_marks a
  | MInl a => ia_marks a
  end.
Definition within {A} (a b : list A) : Prop := exists x y, b = x ++ a ++ y.
Lemma within_refl {A} (a : list A) : within a a.
Proof. exists [], []. rewrite app_nil_r. reflexivity. Qed.
Lemma within_app {A} (a b x y : list A) : within a b -> within a (x ++ b ++ y).
Proof. intros (u & v & ->). exists (x ++ u), (v ++ y). rewrite <- !app_assoc. reflexivity. Qed.
Lemma within_l {A} (a b y : list A) : within a b -> within a (b ++ y).
Proof. apply (within_app a b [] y). Qed.
Lemma within_r {A} (a b x : list A) : within a b -> within a (x ++ b).
Proof. intros H. pose proof (within_app a b x [] H) as W. rewrite app_nil_r in W. exact W. Qed.
Lemma within_flat {A B} (f : A -> list B) (l : list A) x : In x l -> within (f x) (flat_map f l).
Proof.
  intros H. apply in_split in H. destruct H as (u & v & ->). rewrite flat_map_app. cbn [flat_map]. apply within_app, within_refl.
Qed.
Lemma within_trans {A} (a b c : list A) : within a b -> within b c -> within a c.
Proof. intros H (x & y & ->). apply within_app. exact H. Qed.

(** ** Spellings in the order of the document *)
Definition last_ident (p : list ident) : option ident := match rev p with i :: _ => Some i | [] => None end.
Definition spelling_marks (s : spelling) : list span := match last_ident (fst s) with Some i => [ident_mark i] | None => [] end.

Lemma subseq_drop {A} (a b c d : list A) : subseq a b -> subseq c d -> subseq (a ++ c) (b ++ d).
Proof. apply subseq_app. Qed.
Lemma subseq_end {A} (a b c : list A) : subseq a b -> subseq a (b ++ c).
Proof. intros H. rewrite <- (app_nil_r a). apply subseq_app; [exact H|constructor]. Qed.
Lemma subseq_front {A} (a b c : list A) : subseq a b -> subseq a (c ++ b).
Proof. intros H. change a with ([] ++ a). apply subseq_app; [constructor|exact H]. Qed.
Lemma in_order_subseq input a b : subseq a b -> forall lo hi, in_order input lo b hi -> in_order input lo a hi.
Proof.
  induction 1 as [l|x a b H IH|x a b H IH]; intros lo hi O.
  - eapply in_order_le. exact O.
  - destruct O as (A & B & C). split; [exact A|]. split; [exact B|]. apply IH. exact C.
  - apply IH. destruct O as (A & (_ & _ & B) & C). eapply in_order_lo; [|exact C]. eapply pos_le_trans; eassumption.
Qed.
Lemma in_order_in input s l : In s l -> forall lo hi, in_order input lo l hi -> pos_le lo (s_start s) /\ span_in input s /\ pos_le (s_end s) hi.
Proof.
  intros H. apply in_split in H. destruct H as (a & b & ->). intros lo hi O. apply in_order_app in O. destruct O as (m & A & B & C & D).
  split; [eapply pos_le_trans; [eapply in_order_le; exact A|exact B]|]. split; [exact C|]. eapply in_order_le. exact D.
Qed.
Lemma in_order_before input s1 s2 a b c : forall lo hi, in_order input lo (a ++ s1 :: b ++ s2 :: c) hi -> pos_le (s_end s1) (s_start s2).
Proof.
  intros lo hi O. apply in_order_app in O. destruct O as (m & _ & _ & _ & O). apply in_order_app in O. destruct O as (m' & A & B & _).
  eapply pos_le_trans; [eapply in_order_le; exact A|exact B].
Qed.

Lemma last_ident_snoc p i : last_ident (p ++ [i]) = Some i.
Proof. unfold last_ident. rewrite rev_app_distr. reflexivity. Qed.
Lemma key_marks_subseq pre k kind : subseq (flat_map spelling_marks (key_spellings pre k kind)) (key_marks k).
Proof.
  unfold key_spellings. destruct k as [i|l]; cbn [key_idents key_marks].
  - cbn [prefixes map flat_map spelling_marks fst app]. unfold spelling_marks. cbn [fst]. rewrite last_ident_snoc. apply subseq_refl.
  - revert pre. induction l as [|d l IH]; intros pre; [constructor|]. cbn [map prefixes flat_map].
    apply subseq_app; [|apply IH]. unfold spelling_marks. cbn [fst]. rewrite last_ident_snoc. apply ss_keep. constructor.
Qed.
Lemma value_marks_subseq v : forall pre, subseq (flat_map spelling_marks (value_spellings pre v)) (value_marks v).
Proof.
  induction v as [lp l e IH|cr lp l e IH|v SC] using value_ind2; intros pre.
  - cbn [value_spellings value_marks]. apply subseq_front, subseq_end. induction IH as [|a l I0 IH IHl]; [constructor|]. cbn [flat_map].
    rewrite flat_map_app. apply subseq_app; [|exact IHl]. rewrite flat_map_app. apply subseq_app; [apply key_marks_subseq|].
    apply subseq_front, subseq_end, I0.
  - cbn [value_spellings value_marks]. apply subseq_front, subseq_end. induction IH as [|a l I0 IH IHl]; [constructor|]. cbn [flat_map].
    rewrite flat_map_app. apply subseq_app; [|exact IHl]. apply subseq_end, I0.
  - destruct v; try contradiction; constructor.
Qed.
Lemma assign_marks_subseq pre a : subseq (flat_map spelling_marks (assign_spellings pre a)) (assign_marks a).
Proof.
  unfold assign_spellings, assign_marks. rewrite flat_map_app. apply subseq_app; [apply key_marks_subseq|]. apply subseq_front, value_marks_subseq.
Qed.
Lemma assigns_marks_subseq pre l : subseq (flat_map spelling_marks (flat_map (assign_spellings pre) l)) (flat_map assign_marks l).
Proof.
  induction l as [|a l IH]; [constructor|]. cbn [flat_map]. rewrite flat_map_app. apply subseq_app; [apply assign_marks_subseq|exact IH].
Qed.
Lemma doc_marks_subseq l : subseq (flat_map spelling_marks (doc_spellings l)) (doc_marks l).
Proof.
  induction l as [|a l IH]; [constructor|]. unfold doc_spellings, doc_marks in *. cbn [flat_map]. rewrite flat_map_app. apply subseq_app; [|exact IH].
  destruct a as [a|t|t|c]; cbn [ast_spellings ast_marks].
  - apply assign_marks_subseq.
  - unfold theader_marks. destruct (th_key (tb_header t)) as [k|]; [|constructor]. rewrite flat_map_app.
    apply subseq_app; [|apply assigns_marks_subseq]. apply subseq_front, subseq_end, key_marks_subseq.
  - unfold aheader_marks. destruct (ah_key (ae_header t)) as [k|]; [|constructor]. rewrite flat_map_app.
    apply subseq_app; [|apply assigns_marks_subseq]. apply subseq_front, subseq_end, key_marks_subseq.
  - constructor.
Qed.

(** ** Statements of the spellings *)
Definition kind_key (k : mkind) : option key :=
  match k with
  | MTable t => th_key (tb_header t)
  | MArrayEntry t => ah_key (ae_header t)
  | MTop a => Some (as_key (ta_assign a))
  | MInl a => Some (as_key (ia_assign a))
  end.
Definition kind_assigns (k : mkind) : list tassign := match k with MTable t => tb_assigns t | MArrayEntry t => ae_assigns t | _ => [] end.
Definition sp_ok (m : list span) (s : spelling) : Prop :=
  within (kind_marks (snd s)) m /\
  exists q i k, fst s = q ++ [i] /\ kind_key (snd s) = Some k /\ In i (key_idents k).
Lemma sp_ok_within m m' s : within m m' -> sp_ok m s -> sp_ok m' s.
Proof. intros W (A & B). split; [eapply within_trans; eassumption|exact B]. Qed.

Lemma prefixes_in {A} (l : list A) : forall pre s, In s (prefixes pre l) -> exists q i, s = q ++ [i] /\ In i l /\ (forall j, In j q -> In j pre \/ In j l).
Proof.
  induction l as [|x l IH]; intros pre s H; [destruct H|]. cbn [prefixes] in H. destruct H as [<-|H].
  - exists pre, x. split; [reflexivity|]. split; [left; reflexivity|auto].
  - destruct (IH _ _ H) as (q & i & -> & I & Q). exists q, i. split; [reflexivity|]. split; [right; exact I|].
    intros j J. destruct (Q j J) as [K|K]; [|right; right; exact K]. apply in_app_or in K. destruct K as [K|[<-|[]]]; [left; exact K|right; left; reflexivity].
Qed.
Lemma key_spellings_ok pre k kind m : kind_key kind = Some k -> within (kind_marks kind) m -> Forall (sp_ok m) (key_spellings pre k kind).
Proof.
  intros E W. apply Forall_forall. intros s H. apply in_map_iff in H. destruct H as (p & <- & H). split; [exact W|].
  destruct (prefixes_in _ _ _ H) as (q & i & -> & I & _). exists q, i, k. auto.
Qed.
Lemma flat_ok {A} (f : A -> list spelling) (g : A -> list span) l m : (forall x, In x l -> Forall (sp_ok (g x)) (f x)) -> within (flat_map g l) m ->
  Forall (sp_ok m) (flat_map f l).
Proof.
  intros F W. apply Forall_forall. intros s H. apply in_flat_map in H. destruct H as (x & X & H).
  pose proof (proj1 (Forall_forall _ _) (F x X) s H) as G. eapply sp_ok_within; [|exact G]. eapply within_trans; [|exact W]. apply within_flat. exact X.
Qed.
Lemma value_spellings_ok v : forall pre, Forall (sp_ok (value_marks v)) (value_spellings pre v).
Proof.
  induction v as [lp l e IH|cr lp l e IH|v SC] using value_ind2; intros pre.
  - cbn [value_spellings value_marks]. eapply (flat_ok _ ia_marks); [|apply within_r, within_l, within_refl].
    intros a X. pose proof (proj1 (Forall_forall _ _) IH a X (pre ++ key_idents (as_key (ia_assign a)))) as V. apply Forall_app. split.
    + apply key_spellings_ok; [reflexivity|apply within_refl].
    + eapply Forall_impl; [|exact V]. intros s. apply sp_ok_within. unfold ia_marks. apply within_r, within_r, within_l, within_refl.
  - cbn [value_spellings value_marks]. eapply (flat_ok _ av_marks); [|apply within_r, within_l, within_refl].
    intros a X. pose proof (proj1 (Forall_forall _ _) IH a X pre) as V.
    eapply Forall_impl; [|exact V]. intros s. apply sp_ok_within. unfold av_marks. apply within_l, within_refl.
  - destruct v; try contradiction; constructor.
Qed.
Lemma assign_spellings_ok pre a : Forall (sp_ok (assign_marks a)) (assign_spellings pre a).
Proof.
  apply Forall_app. split; [apply key_spellings_ok; [reflexivity|apply within_refl]|].
  eapply Forall_impl; [|apply value_spellings_ok]. intros s. apply sp_ok_within. unfold assign_marks. apply within_r, within_r, within_refl.
Qed.
Lemma doc_spellings_ok l : Forall (sp_ok (doc_marks l)) (doc_spellings l).
Proof.
  unfold doc_spellings, doc_marks. eapply (flat_ok _ ast_marks); [|apply within_refl]. intros a _. destruct a as [a|t|t|c]; cbn [ast_spellings].
  - apply assign_spellings_ok.
  - destruct (th_key (tb_header t)) as [k|] eqn:K; [|constructor]. apply Forall_app. split; [apply key_spellings_ok; [exact K|apply within_refl]|].
    eapply (flat_ok _ assign_marks); [intros x _; apply assign_spellings_ok|]. cbn [ast_marks]. apply within_r, within_refl.
  - destruct (ah_key (ae_header t)) as [k|] eqn:K; [|constructor]. apply Forall_app. split; [apply key_spellings_ok; [exact K|apply within_refl]|].
    eapply (flat_ok _ assign_marks); [intros x _; apply assign_spellings_ok|]. cbn [ast_marks]. apply within_r, within_refl.
  - constructor.
Qed.

(** ** All identifiers of a spelling are in the document *)
Definition ids_in (pre : list ident) (m : list span) (s : spelling) : Prop := forall j, In j (fst s) -> In j pre \/ In (ident_mark j) m.
Lemma key_ident_mark k i : In i (key_idents k) -> In (ident_mark i) (key_marks k).
Proof.
  destruct k as [i0|l]; cbn [key_idents key_marks].
  - intros [<-|[]]. left. reflexivity.
  - intros H. apply in_map_iff in H. destruct H as (d & <- & H). apply in_flat_map. exists d. split; [exact H|]. left. reflexivity.
Qed.
Lemma key_spellings_in pre k kind m : incl (key_marks k) m -> Forall (ids_in pre m) (key_spellings pre k kind).
Proof.
  intros W. apply Forall_forall. intros s H j J. apply in_map_iff in H. destruct H as (p & <- & H). cbn [fst] in J.
  destruct (prefixes_in _ _ _ H) as (q & i & -> & I & Q). apply in_app_or in J. destruct J as [J|[<-|[]]].
  - destruct (Q j J) as [K|K]; [left; exact K|right; apply W, key_ident_mark, K].
  - right. apply W, key_ident_mark, I.
Qed.
Lemma ids_more pre k m s : incl (key_marks k) m -> ids_in (pre ++ key_idents k) m s -> ids_in pre m s.
Proof.
  intros W H j J. destruct (H j J) as [K|K]; [|right; exact K]. apply in_app_or in K. destruct K as [K|K]; [left; exact K|].
  right. apply W, key_ident_mark, K.
Qed.
Lemma ids_incl pre m m' s : incl m m' -> ids_in pre m s -> ids_in pre m' s.
Proof. intros W H j J. destruct (H j J) as [K|K]; [left; exact K|right; apply W, K]. Qed.
Lemma value_spellings_in v : forall pre, Forall (ids_in pre (value_marks v)) (value_spellings pre v).
Proof.
  induction v as [lp l e IH|cr lp l e IH|v SC] using value_ind2; intros pre.
  - cbn [value_spellings value_marks]. apply Forall_forall. intros s H. apply in_flat_map in H. destruct H as (a & A & H).
    apply (ids_incl _ (ia_marks a)).
    { intros x X. apply in_or_app. right. apply in_or_app. left. apply in_flat_map. exists a. split; [exact A|exact X]. }
    assert (KI : incl (key_marks (as_key (ia_assign a))) (ia_marks a)) by (intros x X; apply in_or_app; left; exact X).
    apply in_app_or in H. destruct H as [H|H].
    + exact (proj1 (Forall_forall _ _) (key_spellings_in pre _ _ _ KI) s H).
    + apply (ids_more _ _ _ _ KI). pose proof (proj1 (Forall_forall _ _) IH a A (pre ++ key_idents (as_key (ia_assign a)))) as V.
      eapply ids_incl; [|exact (proj1 (Forall_forall _ _) V s H)]. intros x X. unfold ia_marks. rewrite !in_app_iff. tauto.
  - cbn [value_spellings value_marks]. apply Forall_forall. intros s H. apply in_flat_map in H. destruct H as (a & A & H).
    pose proof (proj1 (Forall_forall _ _) IH a A pre) as V. eapply ids_incl; [|exact (proj1 (Forall_forall _ _) V s H)].
    intros x X. apply in_or_app. right. apply in_or_app. left. apply in_flat_map. exists a. split; [exact A|]. apply in_or_app. left. exact X.
  - destruct v; try contradiction; constructor.
Qed.
Lemma assign_spellings_in pre a : Forall (ids_in pre (assign_marks a)) (assign_spellings pre a).
Proof.
  assert (KI : incl (key_marks (as_key (ta_assign a))) (assign_marks a)) by (intros x X; apply in_or_app; left; exact X).
  apply Forall_app. split; [apply key_spellings_in; exact KI|]. eapply Forall_impl; [|apply value_spellings_in]. intros s H.
  apply (ids_more _ _ _ _ KI). eapply ids_incl; [|exact H]. intros x X. unfold assign_marks. rewrite !in_app_iff. tauto.
Qed.
Lemma doc_spellings_in l : Forall (ids_in [] (doc_marks l)) (doc_spellings l).
Proof.
  apply Forall_forall. intros s H. apply in_flat_map in H. destruct H as (a & A & H).
  apply (ids_incl _ (ast_marks a)). { intros x X. apply in_flat_map. exists a. auto. }
  assert (HD : forall k m ls, incl (key_marks k) m -> incl (flat_map assign_marks ls) m -> In s (flat_map (assign_spellings (key_idents k)) ls) -> ids_in [] m s).
  { intros k m ls KI AI S. apply in_flat_map in S. destruct S as (x & X & S). apply (ids_more [] k m s KI).
    eapply ids_incl; [|exact (proj1 (Forall_forall _ _) (assign_spellings_in _ x) s S)]. intros y Y. apply AI, in_flat_map. exists x. auto. }
  destruct a as [a|t|t|c]; cbn [ast_spellings] in H.
  - exact (proj1 (Forall_forall _ _) (assign_spellings_in [] a) s H).
  - destruct (th_key (tb_header t)) as [k|] eqn:K; [|destruct H].
    assert (KI : incl (key_marks k) (ast_marks (ATable t))). { intros x X. cbn [ast_marks]. unfold theader_marks. rewrite K. rewrite !in_app_iff. tauto. }
    apply in_app_or in H. destruct H as [H|H].
    + exact (proj1 (Forall_forall _ _) (key_spellings_in [] k (MTable t) _ KI) s H).
    + eapply HD; [exact KI| |exact H]. intros x X. cbn [ast_marks]. apply in_or_app. right. exact X.
  - destruct (ah_key (ae_header t)) as [k|] eqn:K; [|destruct H].
    assert (KI : incl (key_marks k) (ast_marks (AArray t))). { intros x X. cbn [ast_marks]. unfold aheader_marks. rewrite K. rewrite !in_app_iff. tauto. }
    apply in_app_or in H. destruct H as [H|H].
    + exact (proj1 (Forall_forall _ _) (key_spellings_in [] k (MArrayEntry t) _ KI) s H).
    + eapply HD; [exact KI| |exact H]. intros x X. cbn [ast_marks]. apply in_or_app. right. exact X.
  - destruct H.
Qed.

(** ** The span of a statement *)
Lemma first_last input lo l hi s e : in_order input lo l hi -> (exists r, l = s :: r) -> (exists r, l = r ++ [e]) ->
  span_in input (mkspan (s_start s) (s_end e)) /\ pos_le lo (s_start s) /\ pos_le (s_end e) hi.
Proof.
  intros O (r & E) (q & F).
  assert (A : In s l) by (rewrite E; left; reflexivity). assert (B : In e l) by (rewrite F; apply in_or_app; right; left; reflexivity).
  destruct (in_order_in _ _ _ A _ _ O) as (A1 & A2 & A3). destruct (in_order_in _ _ _ B _ _ O) as (B1 & B2 & B3).
  split; [|auto]. split; [exact (proj1 A2)|]. split; [exact (proj1 (proj2 B2))|]. cbn [s_start s_end].
  rewrite E in O. cbn in O. destruct O as (_ & _ & O). destruct r as [|x r].
  - rewrite E in F. destruct q as [|y q]; [injection F as ->; exact (proj2 (proj2 B2))|]. injection F as _ F. destruct q; discriminate.
  - assert (C : In e (x :: r)).
    { rewrite E in F. destruct q as [|y q]; [discriminate|]. injection F as _ F. rewrite F. apply in_or_app. right. left. reflexivity. }
    destruct (in_order_in _ _ _ C _ _ O) as (C1 & C2 & _). eapply pos_le_trans; [exact (proj2 (proj2 A2))|].
    eapply pos_le_trans; [exact C1|exact (proj2 (proj2 B2))].
Qed.
Lemma key_start_mark k p : key_start k = Ok p -> exists s r, key_marks k = s :: r /\ s_start s = p.
Proof.
  destruct k as [i|l]; cbn [key_start key_marks].
  - intros E. injection E as <-. exists (ident_mark i), []. split; reflexivity.
  - destruct l as [|d l]; [discriminate|]. cbn. intros E. injection E as <-. eexists _, _. split; reflexivity.
Qed.
Lemma snoc_of {A} (l : list A) x r : rev l = x :: r -> l = rev r ++ [x].
Proof. intros H. rewrite <- (rev_involutive l), H. reflexivity. Qed.
Lemma last_of_snoc {A} (l : list A) x : last_of l = Ok x -> exists r, l = r ++ [x].
Proof.
  induction l as [|y l IH]; [discriminate|]. destruct l as [|z l].
  - intros E. injection E as <-. exists []. reflexivity.
  - intros E. destruct (IH E) as (r & ->). exists (y :: r). reflexivity.
Qed.
Lemma key_end_mark k p : key_end k = Ok p -> exists r e, key_marks k = r ++ [e] /\ s_end e = p.
Proof.
  destruct k as [i|l]; cbn [key_end key_marks].
  - intros E. injection E as <-. exists [], (ident_mark i). split; reflexivity.
  - destruct (last_of l) as [d|[]|] eqn:L; [|discriminate]. cbn [bind]. intros E. injection E as <-. destruct (last_of_snoc _ _ L) as (r & ->).
    rewrite flat_map_app. cbn [flat_map]. rewrite app_nil_r. unfold dident_marks. destruct (di_dot d) as [q|].
    + exists (flat_map dident_marks r ++ [ident_mark (di_ident d)]), (span_ascii_char q). split; [rewrite <- app_assoc; reflexivity|reflexivity].
    + exists (flat_map dident_marks r), (ident_mark (di_ident d)). split; reflexivity.
Qed.
Lemma value_end_mark v : exists r e, value_marks v = r ++ [e] /\ s_end e = val_end v.
Proof. apply value_last. Qed.
Lemma assign_end_mark a : exists r e, assign_marks a = r ++ [e] /\ s_end e = val_end (as_val (ta_assign a)).
Proof.
  destruct (value_end_mark (as_val (ta_assign a))) as (r & e & E & S). unfold assign_marks. rewrite E, !app_assoc. eexists _, e. split; [reflexivity|exact S].
Qed.
Lemma assigns_end_mark l h p m : assigns_end l h = Ok p -> (h = Ok p -> exists r e, m = r ++ [e] /\ s_end e = p) ->
  exists r e, m ++ flat_map assign_marks l = r ++ [e] /\ s_end e = p.
Proof.
  unfold assigns_end. destruct l as [|a l].
  - intros E H. cbn [flat_map]. rewrite app_nil_r. exact (H E).
  - generalize dependent (a :: l). clear a l. intros l0. destruct (last_of l0) as [x|[]|] eqn:LO; [|discriminate]. cbn [bind]. intros E _. injection E as <-.
    destruct (last_of_snoc _ _ LO) as (q & ->). destruct (assign_end_mark x) as (r & e & E & S).
    rewrite flat_map_app. cbn [flat_map]. rewrite app_nil_r, E, !app_assoc. eexists _, e. split; [reflexivity|exact S].
Qed.
Lemma kind_span_marks k key sp : kind_key k = Some key -> kind_span k = Ok sp ->
  exists s e, (exists r, kind_marks k = s :: r) /\ (exists r, kind_marks k = r ++ [e]) /\ sp = mkspan (s_start s) (s_end e).
Proof.
  destruct k as [t|t|a|a]; cbn [kind_key kind_span kind_marks]; intros K E.
  - destruct (assigns_end _ _) as [p|[]|] eqn:AE; [|discriminate]. cbn [bind] in E. injection E as <-.
    destruct (assigns_end_mark _ _ _ (theader_marks (tb_header t)) AE) as (r & e & ER & SE).
    { unfold theader_end, theader_marks. rewrite K. destruct (th_r_off (tb_header t)) as [o|]; cbn [bracket_mark].
      - intros X. injection X as <-. rewrite !app_assoc. eexists _, _. split; reflexivity.
      - intros X. destruct (key_end_mark _ _ X) as (r & e & -> & S). rewrite app_nil_r, app_assoc. eexists _, e. split; [reflexivity|exact S]. }
    exists (span_ascii_char (th_l_par (tb_header t))), e. split; [eexists; reflexivity|]. split; [exists r; exact ER|]. rewrite SE. reflexivity.
  - destruct (assigns_end _ _) as [p|[]|] eqn:AE; [|discriminate]. cbn [bind] in E. injection E as <-.
    destruct (assigns_end_mark _ _ _ (aheader_marks (ae_header t)) AE) as (r & e & ER & SE).
    { unfold aheader_end, aheader_marks. rewrite K. destruct (snd (ah_r_offs (ae_header t))) as [o|]; cbn [bracket_mark].
      - intros X. injection X as <-. rewrite !app_assoc. eexists _, _. split; reflexivity.
      - destruct (fst (ah_r_offs (ae_header t))) as [o|]; cbn [bracket_mark].
        + intros X. injection X as <-. rewrite !app_nil_r, !app_assoc. eexists _, _. split; reflexivity.
        + intros X. destruct (key_end_mark _ _ X) as (r & e & -> & S). rewrite !app_nil_r, app_assoc. eexists _, e. split; [reflexivity|exact S]. }
    exists (span_ascii_char (fst (ah_l_pars (ae_header t)))), e. split; [eexists; reflexivity|]. split; [exists r; exact ER|]. rewrite SE. reflexivity.
  - unfold assign_span in E. destruct (key_start _) as [p|[]|] eqn:KS; [|discriminate]. cbn [bind] in E. injection E as <-.
    destruct (key_start_mark _ _ KS) as (s & r & KM & S). destruct (assign_end_mark a) as (r' & e & EM & SE).
    exists s, e. split; [unfold assign_marks; rewrite KM; eexists; reflexivity|]. split; [exists r'; exact EM|]. rewrite S, SE. reflexivity.
  - unfold iassign_span in E. destruct (key_start _) as [p|[]|] eqn:KS; [|discriminate]. cbn [bind] in E. injection E as <-.
    destruct (key_start_mark _ _ KS) as (s & r & KM & S).
    assert (EM : exists r e, ia_marks a = r ++ [e] /\ s_end e = ia_end a).
    { unfold ia_marks, ia_end. destruct (ia_comma a) as [c|]; cbn [comma_marks].
      - rewrite !app_assoc. eexists _, _. split; reflexivity.
      - rewrite app_nil_r. destruct (value_end_mark (as_val (ia_assign a))) as (r1 & e & -> & SE). rewrite !app_assoc. eexists _, e. split; [reflexivity|exact SE]. }
    destruct EM as (r' & e & EM & SE).
    exists s, e. split; [unfold ia_marks; rewrite KM; eexists; reflexivity|]. split; [exists r'; exact EM|]. rewrite S, SE. reflexivity.
Qed.
Lemma kind_key_marks k key i : kind_key k = Some key -> In i (key_idents key) -> In (ident_mark i) (kind_marks k).
Proof.
  intros K I. apply key_ident_mark in I. destruct k as [t|t|a|a]; cbn [kind_key kind_marks ast_marks] in *.
  - unfold theader_marks. rewrite K, !in_app_iff. tauto.
  - unfold aheader_marks. rewrite K, !in_app_iff. tauto.
  - injection K as <-. unfold assign_marks. rewrite !in_app_iff. tauto.
  - injection K as <-. unfold ia_marks. rewrite !in_app_iff. tauto.
Qed.

(** ** The enclosing keys come before *)
Section Earlier.
  Context (input : list N).
  Definition earlier (s : spelling) : Prop := forall q i, fst s = q ++ [i] -> Forall (fun j => pos_le (lit_end j) (id_start i)) q.
  Definition by_ (p : pos) (l : list ident) : Prop := Forall (fun j => pos_le (lit_end j) p) l.
  Lemma by_le p p' l : pos_le p p' -> by_ p l -> by_ p' l.
  Proof. intros L. apply Forall_impl. intros j H. eapply pos_le_trans; eassumption. Qed.
  Lemma in_order_part lo a hi b : within b a -> in_order input lo a hi -> exists lo' hi', pos_le lo lo' /\ in_order input lo' b hi'.
  Proof.
    intros (x & y & ->) O. apply in_order_app in O. destruct O as (m & A & O). apply in_order_app in O. destruct O as (m' & B & _).
    exists m, m'. split; [eapply in_order_le; exact A|exact B].
  Qed.
  Lemma snoc_eq {A} (a b : list A) x y : a ++ [x] = b ++ [y] -> a = b /\ x = y.
  Proof. apply app_inj_tail. Qed.
  Lemma key_earlier pre k kind lo hi : in_order input lo (key_marks k) hi -> by_ lo pre ->
    Forall earlier (key_spellings pre k kind) /\ by_ hi (pre ++ key_idents k).
  Proof.
    unfold key_spellings. destruct k as [i|l]; cbn [key_idents key_marks].
    - intros (A & SI & B) P. cbn [ident_mark s_start s_end in_order] in A, B. cbn [prefixes map]. split.
      + constructor; [|constructor]. intros q j E. cbn [fst] in E. apply snoc_eq in E as [<- <-]. eapply by_le; eassumption.
      + apply Forall_app. split; [|constructor; [exact B|constructor]]. eapply by_le; [|exact P].
        eapply pos_le_trans; [exact A|]. eapply pos_le_trans; [exact (proj2 (proj2 SI))|exact B].
    - revert pre lo. induction l as [|d l IH]; intros pre lo O P; cbn [map prefixes].
      + cbn [flat_map in_order] in O. split; [constructor|]. rewrite app_nil_r. eapply by_le; eassumption.
      + cbn [flat_map] in O. apply in_order_app in O. destruct O as (m & (A & B & C) & O).
        assert (Q : by_ m (pre ++ [di_ident d])).
        { cbn [ident_mark s_start s_end] in A, B, C. assert (L : pos_le (lit_end (di_ident d)) m) by (eapply in_order_le; exact C).
          apply Forall_app. split; [|constructor; [exact L|constructor]]. eapply by_le; [|exact P]. eapply pos_le_trans; [exact A|].
          eapply pos_le_trans; [exact (proj2 (proj2 B))|exact L]. }
        destruct (IH _ _ O Q) as (I1 & I2). rewrite <- app_assoc in I2. split; [|exact I2]. constructor; [|exact I1].
        intros q j E. cbn [fst] in E. apply snoc_eq in E as [<- <-]. eapply by_le; [|exact P]. exact A.
  Qed.
  Lemma value_earlier v : forall pre lo hi, in_order input lo (value_marks v) hi -> by_ lo pre -> Forall earlier (value_spellings pre v).
  Proof.
    induction v as [lp l e IH|cr lp l e IH|v SC] using value_ind2; intros pre lo hi O P.
    - cbn [value_spellings]. apply Forall_forall. intros s H. apply in_flat_map in H. destruct H as (a & A & H). revert s H. apply Forall_forall.
      destruct (in_order_part _ _ _ (ia_marks a) (within_trans _ _ _ (within_flat ia_marks l a A) (within_r _ _ [span_ascii_char lp] (within_l _ _ [end_mark e] (within_refl _)))) O)
        as (lo' & hi' & L & O').
      unfold ia_marks in O'. apply in_order_app in O'. destruct O' as (m & OK & O'). destruct O' as (E1 & E2 & O'). cbn [app] in O'. apply in_order_app in O'.
      destruct O' as (m' & OV & _). assert (P' : by_ lo' pre) by (eapply by_le; eassumption).
      destruct (key_earlier pre _ (MInl a) _ _ OK P') as (K1 & K2). apply Forall_app. split; [exact K1|].
      pose proof (proj1 (Forall_forall _ _) IH a A) as V. eapply V; [exact OV|]. eapply by_le; [|exact K2].
      eapply pos_le_trans; [exact E1|]. exact (proj2 (proj2 E2)).
    - cbn [value_spellings]. apply Forall_forall. intros s H. apply in_flat_map in H. destruct H as (a & A & H). revert s H. apply Forall_forall.
      destruct (in_order_part _ _ _ (av_marks a) (within_trans _ _ _ (within_flat av_marks l a A) (within_r _ _ [span_ascii_char lp] (within_l _ _ [end_mark e] (within_refl _)))) O)
        as (lo' & hi' & L & O').
      unfold av_marks in O'. apply in_order_app in O'. destruct O' as (m & OV & _).
      pose proof (proj1 (Forall_forall _ _) IH a A) as V. eapply V; [exact OV|]. eapply by_le; eassumption.
    - destruct v; try contradiction; constructor.
  Qed.
  Lemma assign_earlier a pre lo hi : in_order input lo (assign_marks a) hi -> by_ lo pre -> Forall earlier (assign_spellings pre a).
  Proof.
    intros O P. unfold assign_marks in O. apply in_order_app in O. destruct O as (m & OK & E1 & E2 & OV).
    destruct (key_earlier pre _ (MTop a) _ _ OK P) as (K1 & K2). apply Forall_app. split; [exact K1|].
    eapply value_earlier; [exact OV|]. eapply by_le; [|exact K2]. eapply pos_le_trans; [exact E1|exact (proj2 (proj2 E2))].
  Qed.
  Lemma assigns_earlier l pre lo hi : in_order input lo (flat_map assign_marks l) hi -> by_ lo pre -> Forall earlier (flat_map (assign_spellings pre) l).
  Proof.
    intros O P. apply Forall_forall. intros s H. apply in_flat_map in H. destruct H as (a & A & H). revert s H. apply Forall_forall.
    destruct (in_order_part _ _ _ (assign_marks a) (within_flat assign_marks l a A) O) as (lo' & hi' & L & O').
    eapply assign_earlier; [exact O'|]. eapply by_le; eassumption.
  Qed.
  Lemma doc_earlier l lo hi : in_order input lo (doc_marks l) hi -> Forall earlier (doc_spellings l).
  Proof.
    intros O. apply Forall_forall. intros s H. apply in_flat_map in H. destruct H as (a & A & H). revert s H. apply Forall_forall.
    destruct (in_order_part _ _ _ (ast_marks a) (within_flat ast_marks l a A) O) as (lo' & hi' & L & O').
    assert (NIL : by_ lo' []) by constructor.
    destruct a as [a|t|t|c]; cbn [ast_spellings ast_marks] in *.
    - eapply assign_earlier; eassumption.
    - unfold theader_marks in O'. destruct (th_key (tb_header t)) as [k|]; [|constructor]. rewrite <- !app_assoc in O'.
      destruct O' as (_ & _ & O'). cbn [app] in O'. apply in_order_app in O'. destruct O' as (m & OK & O').
      destruct (key_earlier [] _ (MTable t) _ _ OK ltac:(constructor)) as (K1 & K2). apply Forall_app. split; [exact K1|].
      apply in_order_app in O'. destruct O' as (m' & X & O'). eapply assigns_earlier; [exact O'|]. eapply by_le; [|exact K2]. eapply in_order_le. exact X.
    - unfold aheader_marks in O'. destruct (ah_key (ae_header t)) as [k|]; [|constructor]. rewrite <- !app_assoc in O'.
      destruct O' as (_ & _ & _ & _ & O'). cbn [app] in O'. apply in_order_app in O'. destruct O' as (m & OK & O').
      destruct (key_earlier [] _ (MArrayEntry t) _ _ OK ltac:(constructor)) as (K1 & K2). apply Forall_app. split; [exact K1|].
      rewrite app_assoc in O'. apply in_order_app in O'. destruct O' as (m' & X & O'). eapply assigns_earlier; [exact O'|]. eapply by_le; [|exact K2]. eapply in_order_le. exact X.
    - constructor.
  Qed.

  (** ** Errors *)
  Lemma before_in {A} (l : list A) x y : before l x y -> In x l /\ In y l.
  Proof. intros (a & b & c & ->). split; apply in_or_app; right; [left; reflexivity|right; apply in_or_app; right; left; reflexivity]. Qed.
  Lemma before_order l x y i j lo hi : in_order input lo (doc_marks l) hi -> before (doc_spellings l) x y ->
    last_ident (fst x) = Some i -> last_ident (fst y) = Some j -> pos_le (lit_end i) (id_start j).
  Proof.
    intros O (a & b & c & E) I J. pose proof (in_order_subseq _ _ _ (doc_marks_subseq l) _ _ O) as Q. rewrite E in Q.
    rewrite flat_map_app in Q. cbn [flat_map] in Q. rewrite flat_map_app in Q. cbn [flat_map] in Q. unfold spelling_marks in Q at 2 4.
    rewrite I, J in Q. cbn [app] in Q. exact (in_order_before input (ident_mark i) (ident_mark j) _ _ _ _ _ Q).
  Qed.
  Lemma ident_in l s j lo hi : in_order input lo (doc_marks l) hi -> In s (doc_spellings l) -> In j (fst s) -> span_in input (ident_mark j).
  Proof.
    intros O H J. destruct (proj1 (Forall_forall _ _) (doc_spellings_in l) s H j J) as [[]|M].
    exact (proj1 (proj2 (in_order_in _ _ _ M _ _ O))).
  Qed.
  Lemma kind_place l s sp i q lo hi : in_order input lo (doc_marks l) hi -> In s (doc_spellings l) -> kind_span (snd s) = Ok sp -> fst s = q ++ [i] ->
    span_in input sp /\ pos_le (s_start sp) (id_start i).
  Proof.
    intros O H K Q. destruct (proj1 (Forall_forall _ _) (doc_spellings_ok l) s H) as (W & q' & i' & k & Q' & KK & I).
    rewrite Q in Q'. apply snoc_eq in Q' as [<- <-]. destruct (in_order_part _ _ _ _ W O) as (lo' & hi' & _ & O').
    destruct (kind_span_marks _ _ _ KK K) as (a & e & F & L & ->). destruct (first_last _ _ _ _ _ _ O' F L) as (A & B & C).
    split; [exact A|]. cbn [s_start]. pose proof (kind_key_marks _ _ _ KK I) as M. destruct F as (r & F). rewrite F in M, O'.
    destruct O' as (_ & SI & O'). destruct M as [->|M]; [left; reflexivity|].
    eapply pos_le_trans; [exact (proj2 (proj2 SI))|]. exact (proj1 (in_order_in _ _ _ M _ _ O')).
  Qed.
End Earlier.
