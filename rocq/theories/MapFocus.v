(** Statements about different top-level keys do not touch each other. *)
From Verif Require Import Base BaseProofs CommonModel TomlError LitModel LexModel ParseModel ParsePlace MapModel MapSpec MapWf MapRel MapExt.

(** The top-level key that an item names. *)
Definition top_of (k : key) : option (list N) := match map id_text (key_idents k) with x :: _ => Some x | [] => None end.
Definition top_key (x : ast) : option (list N) :=
  match x with
  | AAssign a => top_of (as_key (ta_assign a))
  | ATable t => match th_key (tb_header t) with Some k => top_of k | None => None end
  | AArray t => match ah_key (ae_header t) with Some k => top_of k | None => None end
  | AComment _ => None
  end.
Definition names (k : list N) (x : ast) : bool :=
  match top_key x with Some k' => if list_eq_dec N.eq_dec k' k then true else false | None => false end.
(** The items that name [k]. *)
Definition about (k : list N) (l : list ast) : list ast := filter (names k) l.

(** [m'] comes from [m] by a change of the entry of [k] that depends on this
    entry only. *)
Definition focus (f : mtable -> run (mtable * list terror)) (k : list N) : Prop :=
  forall m m' es, f m = Ok (m', es) ->
    (forall k', k' <> k -> tget m' k' = tget m k') /\
    forall m2, tget m2 k = tget m k -> exists m2', f m2 = Ok (m2', es) /\ tget m2' k = tget m' k.

Lemma tget_tset_same m k e x : tget m k = Some x -> tget (tset m k e) k = Some e.
Proof. intros H. rewrite tget_tset, bytes_eqb_refl, H. reflexivity. Qed.
Lemma tget_tset_other m k e k' : k' <> k -> tget (tset m k e) k' = tget m k'.
Proof. intros H. rewrite tget_tset. destruct (bytes_eqb k k') eqn:E; [apply bytes_eqb_eq in E; congruence|reflexivity]. Qed.
Lemma tget_tpush_same m k e : tget m k = None -> tget (tpush m k e) k = Some e.
Proof. intros H. rewrite tget_tpush, bytes_eqb_refl by exact H. reflexivity. Qed.
Lemma tget_tpush_other m k e k' : tget m k = None -> k' <> k -> tget (tpush m k e) k' = tget m k'.
Proof. intros N H. rewrite tget_tpush by exact N. destruct (bytes_eqb k k') eqn:E; [apply bytes_eqb_eq in E; congruence|reflexivity]. Qed.

(** The four ways to end. *)
Lemma focus_same m m' es es0 k m2 : Ok (m, es0) = Ok (m', es) :> run (mtable * list terror) -> tget m2 k = tget m k ->
  (forall k', k' <> k -> tget m' k' = tget m k') /\ exists m2', Ok (m2, es0) = Ok (m2', es) :> run (mtable * list terror) /\ tget m2' k = tget m' k.
Proof. intros E H. injection E as <- <-. split; [reflexivity|]. exists m2. auto. Qed.
Lemma focus_set m m' es es0 k e x m2 : Ok (tset m k e, es0) = Ok (m', es) :> run (mtable * list terror) -> tget m k = Some x -> tget m2 k = tget m k ->
  (forall k', k' <> k -> tget m' k' = tget m k') /\ exists m2', Ok (tset m2 k e, es0) = Ok (m2', es) :> run (mtable * list terror) /\ tget m2' k = tget m' k.
Proof.
  intros E G H. injection E as <- <-. split; [intros k'; apply tget_tset_other|]. exists (tset m2 k e). split; [reflexivity|].
  rewrite (tget_tset_same _ _ _ _ G). rewrite G in H. exact (tget_tset_same _ _ _ _ H).
Qed.
Lemma focus_push m m' es es0 k e m2 : Ok (tpush m k e, es0) = Ok (m', es) :> run (mtable * list terror) -> tget m k = None -> tget m2 k = tget m k ->
  (forall k', k' <> k -> tget m' k' = tget m k') /\ exists m2', Ok (tpush m2 k e, es0) = Ok (m2', es) :> run (mtable * list terror) /\ tget m2' k = tget m' k.
Proof.
  intros E G H. injection E as <- <-. split; [intros k' N; apply tget_tpush_other; assumption|]. exists (tpush m2 k e). split; [reflexivity|].
  rewrite (tget_tpush_same _ _ _ G). rewrite G in H. exact (tget_tpush_same _ _ _ H).
Qed.
Lemma focus_intro f k : (forall m m' es m2, f m = Ok (m', es) -> tget m2 k = tget m k ->
    (forall k', k' <> k -> tget m' k' = tget m k') /\ exists m2', f m2 = Ok (m2', es) /\ tget m2' k = tget m' k) -> focus f k.
Proof. intros H m m' es E. split; [exact (proj1 (H _ _ _ m E eq_refl))|]. intros m2 E2. exact (proj2 (H _ _ _ m2 E E2)). Qed.

Lemma insert_node_focus p i v r : focus (fun m => insert_node p m i v r) (id_text i).
Proof.
  apply focus_intro. intros m m' es m2 E H. unfold insert_node in *. cbv zeta in *. rewrite H. destruct (tget m (id_text i)) as [e|] eqn:T.
  2:{ step_in E. destruct x as [n es0]. cbn [bind]. rewrite <- T in H. exact (focus_push _ _ _ _ _ _ _ E T H). }
  assert (HH := H). rewrite <- T in HH.
  assert (D : (let? orig := first_of (e_reprs e) in let? err := duplicate_key_error p orig r in Ok (m, [err])) = Ok (m', es) ->
     (forall k', k' <> id_text i -> tget m' k' = tget m k') /\
     exists m2', (let? orig := first_of (e_reprs e) in let? err := duplicate_key_error p orig r in Ok (m2, [err])) = Ok (m2', es) /\ tget m2' (id_text i) = tget m' (id_text i)).
  { intros X. step_in X. cbn [bind] in *. step_in X. cbn [bind]. exact (focus_same _ _ _ _ _ _ X HH). }
  destruct v as [f|f|a f]; [exact (D E)| |].
  - destruct (e_node e) as [t|l|pa v0 l|v0]; try exact (D E).
    step_in E. cbn [bind]. destruct x as [err|]; [exact (focus_same _ _ _ _ _ _ E HH)|]. cbn [insert_repr] in *.
    step_in E. destruct x as [t' es1]. cbn [bind]. exact (focus_set _ _ _ _ _ _ _ _ E T HH).
  - destruct (e_node e) as [t|l|pa v0 l|v0]; try exact (D E).
    + cbn [insert_repr] in *. step_in E. destruct x as [t' es1]. cbn [bind]. exact (focus_set _ _ _ _ _ _ _ _ E T HH).
    + step_in E. cbn [bind]. exact (focus_same _ _ _ _ _ _ E HH).
Qed.
Lemma insert_dotted_focus idents v kind o rest i p parent : focus (insert_dotted idents v kind (o :: rest) i p parent) (id_text (di_ident o)).
Proof.
  destruct rest as [|o2 rest]; [exact (insert_node_focus p (di_ident o) v _)|].
  apply focus_intro. intros m m' es m2 E H. rewrite insert_dotted_eq in *. cbv zeta in *. rewrite H. destruct (tget m (id_text (di_ident o))) as [e|] eqn:T.
  2:{ step_in E. destruct x as [n es0]. cbn [bind]. rewrite <- T in H. exact (focus_push _ _ _ _ _ _ _ E T H). }
  assert (HH := H). rewrite <- T in HH. step_in E. cbn [bind]. destruct x as [e' np next t|e' err].
  - step_in E. destruct x as [t' es0]. cbn [bind]. exact (focus_set _ _ _ _ _ _ _ _ E T HH).
  - exact (focus_set _ _ _ _ _ _ _ _ E T HH).
Qed.
Lemma at_path_focus p parent k v kind t : top_of k = Some t -> focus (fun m => insert_node_at_path p parent m k v kind) t.
Proof.
  destruct k as [i|[|o l]]; unfold top_of; cbn [key_idents map]; intros E; [| |]; try discriminate; injection E as <-.
  - exact (insert_node_focus p i v _).
  - exact (insert_dotted_focus _ v kind o l 0 p parent).
Qed.
Lemma at_path_key p parent m k v kind r : insert_node_at_path p parent m k v kind = Ok r -> exists t, top_of k = Some t.
Proof. destruct k as [i|[|o l]]; intros E; [eexists; reflexivity|discriminate|eexists; reflexivity]. Qed.

(** One item: it touches the key it names, or nothing. *)
Lemma map_ast_focus x k : top_key x = Some k -> focus (fun m => map_ast m x) k.
Proof.
  destruct x as [a|t|t|c]; cbn [top_key map_ast]; intros E; [exact (at_path_focus _ _ _ _ _ _ E)| | |discriminate].
  - destruct (th_key (tb_header t)) as [k0|]; [exact (at_path_focus _ _ _ _ _ _ E)|discriminate].
  - destruct (ah_key (ae_header t)) as [k0|]; [exact (at_path_focus _ _ _ _ _ _ E)|discriminate].
Qed.
Lemma map_ast_keyless x m m' es : top_key x = None -> map_ast m x = Ok (m', es) -> m' = m /\ es = [].
Proof.
  destruct x as [a|t|t|c]; cbn [top_key map_ast]; intros K E.
  - destruct (at_path_key _ _ _ _ _ _ _ E). congruence.
  - destruct (th_key (tb_header t)) as [k0|]; [destruct (at_path_key _ _ _ _ _ _ _ E); congruence|]. injection E as <- <-. auto.
  - destruct (ah_key (ae_header t)) as [k0|]; [destruct (at_path_key _ _ _ _ _ _ _ E); congruence|]. injection E as <- <-. auto.
  - injection E as <- <-. auto.
Qed.

Lemma subseq_app {A} (a b c d : list A) : subseq a b -> subseq c d -> subseq (a ++ c) (b ++ d).
Proof.
  intros H. revert c d. induction H as [l|x a b H IH|x a b H IH]; intros c d H2.
  - induction l as [|x l IH]; [exact H2|]. exact (ss_skip _ _ _ IH).
  - apply ss_keep. apply IH. exact H2.
  - apply ss_skip. apply IH. exact H2.
Qed.
Lemma subseq_all {A} (l : list A) : subseq l l.
Proof. induction l; constructor. assumption. Qed.
Lemma map_asts_focus k l : forall m m' es mk, map_asts m l = Ok (m', es) -> tget mk k = tget m k ->
  exists mk' esk, map_asts mk (about k l) = Ok (mk', esk) /\ tget mk' k = tget m' k /\ (forall k', k' <> k -> tget mk' k' = tget mk k') /\ subseq esk es.
Proof.
  induction l as [|x l IH]; intros m m' es mk E H.
  - injection E as <- <-. exists mk, []. split; [reflexivity|]. split; [exact H|]. split; [reflexivity|constructor].
  - cbn [map_asts] in E. step_in E. destruct x0 as [m1 es1]. step_in E. destruct x0 as [m2 es2]. injection E as <- <-.
    cbn [about filter]. unfold names at 1. destruct (top_key x) as [kx|] eqn:K.
    + destruct (map_ast_focus x kx K _ _ _ Heqr) as [F1 F2]. destruct (list_eq_dec N.eq_dec kx k) as [->|NE].
      * destruct (F2 mk H) as (mk1 & M1 & G1). destruct (IH _ _ _ mk1 Heqr0 G1) as (mk' & esk & M2 & G2 & O2 & S2).
        exists mk', (es1 ++ esk). cbn [map_asts]. rewrite M1. cbn [bind]. fold (about k l). rewrite M2. cbn [bind]. split; [reflexivity|]. split; [exact G2|].
        split; [|apply subseq_app; [apply subseq_all|exact S2]]. intros k' N'. rewrite (O2 _ N').
        exact (proj1 (map_ast_focus x k K _ _ _ M1) _ N').
      * destruct (IH _ _ _ mk Heqr0) as (mk' & esk & M2 & G2 & O2 & S2); [rewrite (F1 k) by congruence; exact H|].
        exists mk', esk. split; [exact M2|]. split; [exact G2|]. split; [exact O2|]. exact (subseq_app [] es1 esk es2 (ss_nil _) S2).
    + destruct (map_ast_keyless _ _ _ _ K Heqr) as [-> ->]. exact (IH _ _ _ mk Heqr0 H).
Qed.
Lemma map_asts_errors l : forall m m' es e, map_asts m l = Ok (m', es) -> In e es ->
  exists k, forall mk mk' esk, tget mk k = tget m k -> map_asts mk (about k l) = Ok (mk', esk) -> In e esk.
Proof.
  induction l as [|x l IH]; intros m m' es e E X; [injection E as <- <-; destruct X|].
  cbn [map_asts] in E. step_in E. destruct x0 as [m1 es1]. step_in E. destruct x0 as [m2 es2]. injection E as <- <-. apply in_app_or in X.
  destruct (top_key x) as [kx|] eqn:K.
  - destruct (map_ast_focus x kx K _ _ _ Heqr) as [F1 F2]. destruct X as [X|X].
    + exists kx. intros mk mk' esk G A. cbn [about filter] in A. unfold names at 1 in A. rewrite K in A. destruct (list_eq_dec N.eq_dec kx kx) as [_|]; [|congruence].
      destruct (F2 mk G) as (mk1 & M1 & _). cbn [map_asts] in A. rewrite M1 in A. cbn [bind] in A. step_in A. destruct x0 as [m3 es3]. injection A as <- <-. apply in_or_app. auto.
    + destruct (IH _ _ _ _ Heqr0 X) as (k & Hk). exists k. intros mk mk' esk G A. cbn [about filter] in A. unfold names at 1 in A. rewrite K in A.
      destruct (list_eq_dec N.eq_dec kx k) as [->|NE].
      * destruct (F2 mk G) as (mk1 & M1 & G1). cbn [map_asts] in A. rewrite M1 in A. cbn [bind] in A. step_in A. destruct x0 as [m3 es3]. injection A as <- <-. apply in_or_app. right.
        exact (Hk _ _ _ G1 Heqr1).
      * apply (Hk mk mk' esk); [rewrite (F1 k) by congruence; exact G|exact A].
  - destruct (map_ast_keyless _ _ _ _ K Heqr) as [-> ->]. destruct X as [[]|X]. destruct (IH _ _ _ _ Heqr0 X) as (k & Hk). exists k. intros mk mk' esk G A.
    cbn [about filter] in A. unfold names at 1 in A. rewrite K in A. exact (Hk _ _ _ G A).
Qed.
