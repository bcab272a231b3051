(** The map never panics, its references lead to the keys they stand for, and
    its messages are about those keys. *)
From Verif Require Import Base BaseProofs CommonModel CommonProofs TomlError LitModel LexModel ParseModel MapModel MapSpec.
From Coq Require Import Permutation Sorted.

Lemma bytes_eqb_eq a b : bytes_eqb a b = true <-> a = b.
Proof.
  revert b; induction a as [|x a IH]; intros [|y b]; cbn; split; try discriminate; try reflexivity.
  - intros H. apply andb_prop in H. destruct H as [H1 H2]. apply IH in H2. f_equal; [lia|assumption].
  - intros H. injection H as -> ->. rewrite N.eqb_refl. apply IH. reflexivity.
Qed.
Lemma bytes_eqb_refl a : bytes_eqb a a = true.
Proof. apply bytes_eqb_eq. reflexivity. Qed.

(** Induction on nodes. *)
Section NodeInd.
  Variable P : node -> Prop.
  Hypothesis HT : forall t, Forall (fun x => P (e_node (snd x))) t -> P (NTable t).
  Hypothesis HA : forall es, Forall (fun e => Forall (fun x => P (e_node (snd x))) (te_table e)) es -> P (NTop es).
  Hypothesis HI : forall p v es, Forall (fun e => P (ie_node e)) es -> P (NInline p v es).
  Hypothesis HS : forall v, P (NScalar v).
  Fixpoint node_ind2 (n : node) : P n :=
    let tbl := fix tbl (t : mtable) : Forall (fun x => P (e_node (snd x))) t :=
      match t with
      | [] => Forall_nil _
      | x :: r => Forall_cons x (match x return P (e_node (snd x)) with (_, mke n _) => node_ind2 n end) (tbl r)
      end in
    match n with
    | NTable t => HT t (tbl t)
    | NTop es => HA es ((fix go (es : list tentry) : Forall (fun e => Forall (fun x => P (e_node (snd x))) (te_table e)) es :=
        match es with
        | [] => Forall_nil _
        | e :: r => Forall_cons e (match e return Forall (fun x => P (e_node (snd x))) (te_table e) with mkte t _ _ => tbl t end) (go r)
        end) es)
    | NInline p v es => HI p v es ((fix go (es : list ientry) : Forall (fun e => P (ie_node e)) es :=
        match es with
        | [] => Forall_nil _
        | e :: r => Forall_cons e (match e return P (ie_node e) with mkie n _ => node_ind2 n end) (go r)
        end) es)
    | NScalar v => HS v
    end.
End NodeInd.

(** Induction on values. *)
Section ValueInd.
  Variable P : value -> Prop.
  Hypothesis HT : forall p l e, Forall (fun a => P (as_val (ia_assign a))) l -> P (VTable p l e).
  Hypothesis HA : forall c p l e, Forall (fun a => P (av_val a)) l -> P (VArray c p l e).
  Hypothesis HS : forall v, match v with VTable _ _ _ | VArray _ _ _ _ => False | _ => True end -> P v.
  Fixpoint value_ind2 (v : value) : P v :=
    match v as v return P v with
    | VTable p l e => HT p l e ((fix go (l : list iassign) : Forall (fun a => P (as_val (ia_assign a))) l :=
        match l with
        | [] => Forall_nil _
        | a :: r => Forall_cons a (match a return P (as_val (ia_assign a)) with mkia (mkassign _ _ v) _ => value_ind2 v end) (go r)
        end) l)
    | VArray c p l e => HA c p l e ((fix go (l : list avalue) : Forall (fun a => P (av_val a)) l :=
        match l with
        | [] => Forall_nil _
        | a :: r => Forall_cons a (match a return P (av_val a) with mkav _ v _ => value_ind2 v end) (go r)
        end) l)
    | v => HS v I
    end.
End ValueInd.

Lemma All_Forall {A} (P : A -> Prop) l : All P l <-> Forall P l.
Proof.
  induction l as [|x l IH]; cbn; split; intros H; auto.
  - destruct H. constructor; tauto.
  - inversion H; subst. tauto.
Qed.

(** ** Sorted lines *)
Lemma dedup_in l x : In x (dedup l) <-> In x l.
Proof.
  induction l as [|a [|b r] IH]; [tauto|tauto|]. cbn [dedup]. destruct (a =? b) eqn:E.
  - rewrite IH. apply N.eqb_eq in E. subst b. cbn [In]. tauto.
  - cbn [In] in *. rewrite IH. tauto.
Qed.
Lemma sort_insert_in x l y : In y (sort_insert N.compare x l) <-> x = y \/ In y l.
Proof.
  induction l as [|a r IH]; cbn; [tauto|]. destruct (x ?= a); cbn; tauto.
Qed.
Lemma sort_by_in l y : In y (sort_by N.compare l) <-> In y l.
Proof. induction l as [|a r IH]; cbn [sort_by]; [tauto|]. rewrite sort_insert_in, IH. cbn. tauto. Qed.
Fixpoint weakly (l : list N) : Prop := match l with x :: (y :: _) as r => x <= y /\ weakly r | _ => True end.
Lemma sort_insert_weakly x l : weakly l -> weakly (sort_insert N.compare x l).
Proof.
  induction l as [|a r IH]; intros W; cbn [sort_insert]; [exact I|].
  destruct (N.compare_spec x a) as [E|E|E].
  - subst. split; [lia|exact W].
  - split; [lia|exact W].
  - assert (W' : weakly r) by (destruct r; [exact I|apply W]). specialize (IH W').
    destruct r as [|b r]; [cbn; repeat split; lia|]. destruct W as [W1 W2]. cbn [sort_insert] in *.
    destruct (x ?= b); (split; [lia|exact IH]).
Qed.
Lemma sort_by_weakly l : weakly (sort_by N.compare l).
Proof. induction l; [exact I|]. apply sort_insert_weakly. assumption. Qed.
Lemma weakly_least a l y : weakly (a :: l) -> In y l -> a <= y.
Proof.
  revert a; induction l as [|b r IH]; intros a W I; [destruct I|]. destruct W as [W1 W2].
  destruct I as [<-|I]; [exact W1|]. specialize (IH b W2 I). lia.
Qed.
Lemma increasing_cons a l : (forall y, In y l -> a < y) -> increasing l -> increasing (a :: l).
Proof. destruct l as [|b l]; intros L W; [exact I|]. split; [apply L; left; reflexivity|exact W]. Qed.
Lemma dedup_increasing l : weakly l -> increasing (dedup l).
Proof.
  induction l as [|a [|b r] IH]; intros W; [exact I|exact I|]. destruct W as [W1 W2]. specialize (IH W2).
  change (increasing (if a =? b then dedup (b :: r) else a :: dedup (b :: r))).
  destruct (a =? b) eqn:E; [exact IH|]. apply N.eqb_neq in E. apply increasing_cons; [|exact IH].
  intros y Y. rewrite dedup_in in Y. destruct Y as [<-|Y]; [lia|]. pose proof (weakly_least _ _ _ W2 Y). lia.
Qed.

(** ** Shown keys *)
Lemma plain_char_spec c : plain_char c = true <-> 97 <= c <= 122 \/ 65 <= c <= 90 \/ 48 <= c <= 57 \/ c = 95 \/ c = 45.
Proof. unfold plain_char. rewrite !orb_true_iff, !andb_true_iff. lia. Qed.
Lemma fmt_segment_shown k : shown_key k (fmt_path_segment k).
Proof.
  destruct k as [|c k].
  - apply (sk_quoted []). intros [H _]. congruence.
  - cbn [fmt_path_segment]. destruct (forallb plain_char (c :: k)) eqn:E.
    + constructor. split; [discriminate|]. apply Forall_forall. intros x X. apply plain_char_spec. rewrite forallb_forall in E. auto.
    + apply sk_quoted. intros [_ B]. assert (forallb plain_char (c :: k) = true); [|congruence].
      apply forallb_forall. intros x X. apply plain_char_spec. rewrite Forall_forall in B. auto.
Qed.

(** ** Paths *)
Definition path_ok (c : chains) (p : path) (place : list step) : Prop :=
  (forall n s k, c n = Some (s, k) -> collect_lines p n = Ok (map line_of (rev s)) /\ map id_text s = keys_of place) /\
  (p = [] /\ place = [] \/ p <> [] /\ exists t, fmt_path p = Ok t /\ shown place t).

(** A spelling that is the whole key of its assignment. *)
Definition whole (x : spelling) : Prop :=
  match snd x with
  | MTop a => exists pre, fst x = pre ++ key_idents (as_key (ta_assign a))
  | MInl a => exists pre, fst x = pre ++ key_idents (as_key (ia_assign a))
  | _ => True
  end.
(** What an entry is, by one of its representations. *)
Definition shape_of (v : value) (n : node) : Prop :=
  match n with
  | NTable _ => table_value v
  | NTop _ => False
  | NInline _ _ _ => array_value v
  | NScalar _ => ~ table_value v /\ ~ array_value v
  end.
Definition is_table (n : node) : Prop := match n with NTable _ => True | _ => False end.
Definition is_top (n : node) : Prop := match n with NTop _ => True | _ => False end.
Definition fits (n : node) (r : mrepr) : Prop :=
  match is_last_ident (r_key r), r_kind r with
  | Ok true, MTop a => shape_of (as_val (ta_assign a)) n
  | Ok true, MInl a => shape_of (as_val (ia_assign a)) n
  | Ok true, MTable _ => is_table n
  | Ok true, MArrayEntry _ => is_top n
  | _, MTop _ | _, MInl _ => is_table n
  | _, _ => is_table n \/ is_top n
  end.
Lemma fits_table t t' r : fits (NTable t) r -> fits (NTable t') r.
Proof. exact (fun H => H). Qed.
Lemma fits_top es es' r : fits (NTop es) r -> fits (NTop es') r.
Proof. exact (fun H => H). Qed.
Lemma fits_put n t r : fits n r -> fits (put_table n t) r.
Proof. destruct n; exact (fun H => H). Qed.

Definition repr_ok (d : list spelling) (c : chains) (k : list N) (r : mrepr) : Prop :=
  exists s k0 i sp, c (r_parent r) = Some (s, k0) /\ repr_ident (r_key r) = Ok i /\ id_text i = k /\
    In (s ++ [i], r_kind r) d /\ kind_span (r_kind r) = Ok sp /\
    (is_last_ident (r_key r) = Ok true -> whole (s ++ [i], r_kind r)).

Fixpoint wf_node (d : list spelling) (c : chains) (n : node) : Prop :=
  let entry (x : list N * mentry) : Prop :=
    match x with
    | (k, mke n rs) => rs <> [] /\ Forall (repr_ok d c k) rs /\ Forall (fits n) rs /\ wf_node d (next c rs) n
    end in
  match n with
  | NTable t => All entry t
  | NTop es => es <> [] /\ All (fun e => match e with mkte t parent a =>
      (exists k, ah_key (ae_header a) = Some k /\ c parent = Some (key_idents k, Some (MArrayEntry a))) /\ All entry t end) es
  | NInline parent _ es => c parent <> None /\ All (fun e => match e with mkie n _ => wf_node d c n end) es
  | NScalar _ => True
  end.
Definition wf_entry (d : list spelling) (c : chains) (k : list N) (e : mentry) : Prop :=
  e_reprs e <> [] /\ Forall (repr_ok d c k) (e_reprs e) /\ Forall (fits (e_node e)) (e_reprs e) /\ wf_node d (next c (e_reprs e)) (e_node e).
Definition wf_table (d : list spelling) (c : chains) (t : mtable) : Prop := Forall (fun x => wf_entry d c (fst x) (snd x)) t.
Definition wf_elem (d : list spelling) (c : chains) (e : tentry) : Prop :=
  (exists k, ah_key (ae_header (te_repr e)) = Some k /\ c (te_parent e) = Some (key_idents k, Some (MArrayEntry (te_repr e)))) /\ wf_table d c (te_table e).

Lemma wf_entry_unfold d c x :
  match x with (k, mke n rs) => rs <> [] /\ Forall (repr_ok d c k) rs /\ Forall (fits n) rs /\ wf_node d (next c rs) n end <-> wf_entry d c (fst x) (snd x).
Proof. destruct x as [k [n rs]]. reflexivity. Qed.
Lemma wf_NTable d c t : wf_node d c (NTable t) <-> wf_table d c t.
Proof. cbn [wf_node]. rewrite All_Forall. unfold wf_table. split; apply Forall_impl; intros x; apply wf_entry_unfold. Qed.
Lemma wf_NTop d c es : wf_node d c (NTop es) <-> es <> [] /\ Forall (wf_elem d c) es.
Proof.
  cbn [wf_node]. rewrite All_Forall. apply and_iff_compat_l.
  split; apply Forall_impl; intros [t p a]; unfold wf_elem; cbn [te_repr te_parent te_table]; rewrite All_Forall;
    (intros [H1 H2]; split; [exact H1|]); revert H2; apply Forall_impl; intros x; apply wf_entry_unfold.
Qed.
Lemma wf_NInline d c p v es : wf_node d c (NInline p v es) <-> c p <> None /\ Forall (fun e => wf_node d c (ie_node e)) es.
Proof. cbn [wf_node]. rewrite All_Forall. apply and_iff_compat_l. split; apply Forall_impl; intros [n a]; exact (fun H => H). Qed.

Definition ext (c c' : chains) : Prop := forall n x, c n = Some x -> c' n = Some x.
Lemma ext_refl c : ext c c. Proof. intros n x H. exact H. Qed.
Lemma ext_next c c' rs rs' : ext c c' -> ext (next c rs) (next c' (rs ++ rs')).
Proof.
  intros E n x. unfold next. destruct (nth_error rs (N.to_nat n)) as [r|] eqn:R; [|discriminate].
  rewrite nth_error_app1 by (apply nth_error_Some; congruence). rewrite R.
  destruct (c (r_parent r)) as [[s k]|] eqn:C; [|discriminate]. rewrite (E _ _ C). tauto.
Qed.
Lemma ext_next1 c rs r : ext (next c rs) (next c (rs ++ [r])).
Proof. apply ext_next. apply ext_refl. Qed.
Lemma ext_next0 c c' rs : ext c c' -> ext (next c rs) (next c' rs).
Proof. intros E. rewrite <- (app_nil_r rs) at 2. apply ext_next. exact E. Qed.
Lemma repr_ok_mono d d' c c' k r : incl d d' -> ext c c' -> repr_ok d c k r -> repr_ok d' c' k r.
Proof. intros D E (s & k0 & i & sp & H1 & H2 & H3 & H4 & H5 & H6). exists s, k0, i, sp. auto 12. Qed.
Lemma wf_mono d d' n : incl d d' -> forall c c', ext c c' -> wf_node d c n -> wf_node d' c' n.
Proof.
  intros D. induction n as [t IH|es IH|p v es IH|v] using node_ind2; intros c c' E.
  - rewrite !wf_NTable. unfold wf_table. intros W. rewrite Forall_forall in *. intros x X. specialize (IH x X). destruct (W x X) as (W1 & W2 & W4 & W3).
    split; [exact W1|]. split; [revert W2; apply Forall_impl; intros r; apply repr_ok_mono; assumption|]. split; [exact W4|].
    apply (IH _ _ (ext_next0 _ _ _ E) W3).
  - rewrite !wf_NTop. intros [W0 W]. split; [exact W0|]. rewrite Forall_forall in *. intros e I0. specialize (IH e I0).
    destruct (W e I0) as [(k & K1 & K2) WT]. split; [exists k; auto|]. unfold wf_table in *. rewrite Forall_forall in *.
    intros x X. specialize (IH x X). destruct (WT x X) as (W1 & W2 & W4 & W3).
    split; [exact W1|]. split; [revert W2; apply Forall_impl; intros r; apply repr_ok_mono; assumption|]. split; [exact W4|].
    apply (IH _ _ (ext_next0 _ _ _ E) W3).
  - rewrite !wf_NInline. intros [W0 W]. split.
    + destruct (c p) eqn:CP; [|congruence]. rewrite (E _ _ CP). discriminate.
    + rewrite Forall_forall in *. intros e I0. exact (IH e I0 _ _ E (W e I0)).
  - intros _. exact I.
Qed.
Lemma wf_entry_mono d d' c c' k e : incl d d' -> ext c c' -> wf_entry d c k e -> wf_entry d' c' k e.
Proof.
  intros D E (W1 & W2 & W4 & W3). split; [exact W1|]. split; [revert W2; apply Forall_impl; intros r; apply repr_ok_mono; assumption|]. split; [exact W4|].
  apply (wf_mono d d' _ D _ _ (ext_next0 _ _ _ E) W3).
Qed.
Lemma wf_table_mono d d' c c' t : incl d d' -> ext c c' -> wf_table d c t -> wf_table d' c' t.
Proof. intros D E. apply Forall_impl. intros x. apply wf_entry_mono; assumption. Qed.
Lemma wf_elem_mono d d' c c' t : incl d d' -> ext c c' -> wf_elem d c t -> wf_elem d' c' t.
Proof. intros D E [(k & K1 & K2) W]. split; [exists k; auto|]. apply (wf_table_mono d d' c c' _ D E W). Qed.

Lemma tget_wf d c m k e : wf_table d c m -> tget m k = Some e -> wf_entry d c k e.
Proof.
  intros W. induction W as [|[k' e'] m W1 W2 IH]; cbn; [discriminate|]. destruct (bytes_eqb k' k) eqn:E; [|exact IH].
  intros H. injection H as <-. apply bytes_eqb_eq in E. subst k'. exact W1.
Qed.
Lemma tset_wf d c m k e : wf_table d c m -> wf_entry d c k e -> wf_table d c (tset m k e).
Proof.
  intros W WE. induction W as [|[k' e'] m W1 W2 IH]; cbn; [constructor|]. destruct (bytes_eqb k' k) eqn:E.
  - apply bytes_eqb_eq in E. subst k'. constructor; assumption.
  - constructor; assumption.
Qed.
Lemma tpush_wf d c m k e : wf_table d c m -> wf_entry d c k e -> wf_table d c (tpush m k e).
Proof. intros W WE. apply Forall_app. split; [exact W|]. constructor; [exact WE|constructor]. Qed.

Lemma keys_of_app a b : keys_of (a ++ b) = keys_of a ++ keys_of b.
Proof. apply flat_map_app. Qed.

Lemma first_repr rs : rs <> [] -> exists r : mrepr, first_of rs = Ok r /\ In r rs.
Proof. destruct rs as [|r rs]; [congruence|]. intros _. exists r. split; [reflexivity|left; reflexivity]. Qed.
Lemma last_of_app {A} (l : list A) x : last_of (l ++ [x]) = Ok x.
Proof. induction l as [|a [|b r] IH]; [reflexivity|reflexivity|exact IH]. Qed.
Lemma first_of_app {A} (l : list A) x : l <> [] -> first_of (l ++ [x]) = first_of l.
Proof. destruct l; [congruence|reflexivity]. Qed.

Lemma path_ok_next d c p place k rs : path_ok c p place -> rs <> [] -> Forall (repr_ok d c k) rs ->
  path_ok (next c rs) (SegTable rs :: p) (place ++ [SKey k]).
Proof.
  intros [P1 P2] NE F. split.
  - intros n s kd. unfold next. cbn [collect_lines]. unfold lookup. destruct (nth_error rs (N.to_nat n)) as [r|] eqn:R; [|discriminate].
    apply nth_error_In in R. rewrite Forall_forall in F. destruct (F r R) as (s0 & k0 & i & sp & H1 & H2 & H3 & H4 & H5 & _).
    rewrite H1, H2. intros H. injection H as <- <-. cbn [bind]. rewrite H2. cbn [bind].
    destruct (P1 _ _ _ H1) as [L1 L2]. rewrite L1. cbn [bind]. rewrite rev_app_distr. split; [reflexivity|].
    rewrite map_app, L2, keys_of_app. cbn. rewrite H3. reflexivity.
  - right. split; [discriminate|]. destruct (first_repr rs NE) as (r & R1 & R2). rewrite Forall_forall in F.
    destruct (F r R2) as (s0 & k0 & i & sp & H1 & H2 & H3 & H4 & H5 & _).
    assert (SK : seg_key rs = Ok (fmt_path_segment k)) by (unfold seg_key; rewrite R1; cbn [bind]; rewrite H2; cbn [bind]; rewrite H3; reflexivity).
    destruct P2 as [[-> ->]|(PN & t & F1 & SH)].
    + exists (fmt_path_segment k). split; [exact SK|]. apply (sh_first k). apply fmt_segment_shown.
    + exists (t ++ bs "." ++ fmt_path_segment k). split.
      * destruct p as [|x p]; [congruence|].
        transitivity (let? b := fmt_path (x :: p) in let? k := seg_key rs in Ok (E := Empty_set) (b ++ bs "." ++ k)); [reflexivity|].
        rewrite F1, SK. reflexivity.
      * constructor; [exact SH|apply fmt_segment_shown].
Qed.
Lemma path_ok_index c p place i : path_ok c p place -> p <> [] -> path_ok c (SegArray i :: p) (place ++ [SIdx i]).
Proof.
  intros [P1 P2] NE. split.
  - intros n s k H. cbn [collect_lines]. rewrite keys_of_app. cbn. rewrite app_nil_r. apply (P1 _ _ _ H).
  - right. split; [discriminate|]. destruct P2 as [[-> _]|(_ & t & F1 & SH)]; [congruence|].
    exists (t ++ bs "[" ++ dec i ++ bs "]"). split.
    + destruct p as [|x p]; [congruence|].
      transitivity (let? b := fmt_path (x :: p) in Ok (E := Empty_set) (b ++ bs "[" ++ dec i ++ bs "]")); [reflexivity|].
      rewrite F1. reflexivity.
    + constructor. exact SH.
Qed.
Lemma path_ok_sub c c' p place : ext c c' -> path_ok c' p place -> path_ok c p place.
Proof. intros E [P1 P2]. split; [|exact P2]. intros n s k H. apply (P1 n s k). apply E. exact H. Qed.
Lemma path_ok_root : path_ok root_chains [] [].
Proof. split; [|left; auto]. intros n s k H. injection H as <- <-. split; reflexivity. Qed.

Lemma joined_shown c p place i : path_ok c p place -> exists t, joined_path p i = Ok t /\ shown (place ++ [SKey (id_text i)]) t.
Proof.
  intros [_ [[-> ->]|(NE & t & F1 & SH)]].
  - exists (fmt_path_segment (id_text i)). split; [reflexivity|]. apply (sh_first (id_text i)). apply fmt_segment_shown.
  - exists (t ++ bs "." ++ fmt_path_segment (id_text i)). split.
    + destruct p; [congruence|]. unfold joined_path. rewrite F1. reflexivity.
    + constructor; [exact SH|apply fmt_segment_shown].
Qed.
Lemma context_ok c p place a b s1 k1 s2 k2 : path_ok c p place -> c a = Some (s1, k1) -> c b = Some (s2, k2) ->
  exists ls, context_lines p a b = Ok ls /\ lines_ok s1 s2 ls.
Proof.
  intros [P1 P2] A B. destruct (P1 _ _ _ A) as [LA KA]. destruct (P1 _ _ _ B) as [LB KB].
  destruct p as [|x p].
  - destruct P2 as [[_ ->]|[? _]]; [|congruence]. cbn in KA, KB. apply map_eq_nil in KA. apply map_eq_nil in KB. subst.
    exists []. split; [reflexivity|]. split; [exact I|]. cbn. firstorder.
  - unfold context_lines. rewrite LA, LB. cbn [bind]. eexists. split; [reflexivity|]. split.
    + apply dedup_increasing, sort_by_weakly.
    + intros n. rewrite dedup_in, sort_by_in, in_app_iff, !in_map_iff. setoid_rewrite in_app_iff. split.
      * intros [(i & <- & I1)|(i & <- & I1)]; exists i; (split; [|reflexivity]); apply in_rev in I1; tauto.
      * intros (i & [I1|I1] & <-); [left|right]; exists i; (split; [reflexivity|]); apply in_rev in I1; exact I1.
Qed.

(** ** Messages *)
Lemma before_app {A} (d d' : list A) x y : In x d -> In y d' -> before (d ++ d') x y.
Proof.
  intros X Y. apply in_split in X. apply in_split in Y. destruct X as (a & b & ->). destruct Y as (a' & b' & ->).
  exists a, (b ++ a'), b'. rewrite <- !app_assoc. reflexivity.
Qed.
Lemma before_more {A} (d d' : list A) x y : before d x y -> before (d ++ d') x y.
Proof. intros (a & b & c & ->). exists a, b, (c ++ d'). rewrite <- app_assoc. cbn. rewrite <- app_assoc. reflexivity. Qed.
Lemma err_mono d x e : map_err_ok d e -> map_err_ok (d ++ x) e.
Proof.
  intros (pl & p1 & i1 & k1 & p2 & i2 & k2 & y & B & K1 & K2 & (B' & K' & R) & H). exists pl, p1, i1, k1, p2, i2, k2, y.
  split; [apply before_more; exact B|]. split; [exact K1|]. split; [exact K2|]. split; [|exact H]. split; [apply before_more; exact B'|auto].
Qed.
Lemma errs_mono d x es : Forall (map_err_ok d) es -> Forall (map_err_ok (d ++ x)) es.
Proof. apply Forall_impl. intros e. apply err_mono. Qed.

Lemma repr_keys c p place d k r s k0 i : path_ok c p place -> repr_ok d c k r -> c (r_parent r) = Some (s, k0) ->
  repr_ident (r_key r) = Ok i -> map id_text (s ++ [i]) = keys_of (place ++ [SKey k]).
Proof.
  intros [P1 _] (s' & k' & i' & sp & H1 & H2 & H3 & _) H4 H5. rewrite H4 in H1. rewrite H5 in H2. injection H1 as <- <-. injection H2 as <-.
  destruct (P1 _ _ _ H4) as [_ K]. rewrite map_app, keys_of_app, K. cbn. rewrite H3. reflexivity.
Qed.

Lemma dup_error d d' c p place k orig r : path_ok c p place -> repr_ok d c k orig -> repr_ok d' c k r ->
  exists err, duplicate_key_error p orig r = Ok err /\ map_err_ok (d ++ d') err.
Proof.
  intros P O R. pose proof O as (s1 & k1 & i1 & sp1 & A1 & A2 & A3 & A4 & A5 & A6). pose proof R as (s2 & k2 & i2 & sp2 & B1 & B2 & B3 & B4 & B5 & B6).
  destruct (context_ok _ _ _ _ _ _ _ _ _ P A1 B1) as (ls & L1 & L2). destruct (joined_shown _ _ _ i2 P) as (t & T1 & T2).
  unfold duplicate_key_error. rewrite L1, B2. cbn [bind]. rewrite T1, A2. cbn [bind]. eexists. split; [reflexivity|].
  exists (place ++ [SKey k]), s1, i1, (r_kind orig), s2, i2, (r_kind r), (s1 ++ [i1], r_kind orig). split; [apply before_app; assumption|].
  split; [apply (repr_keys _ _ _ _ _ _ _ _ _ P O A1 A2)|]. split; [apply (repr_keys _ _ _ _ _ _ _ _ _ P R B1 B2)|].
  split; [split; [apply before_app; assumption|]; split; [apply (repr_keys _ _ _ _ _ _ _ _ _ P O A1 A2)|exact I]|].
  cbn. rewrite B3 in T2. auto.
Qed.
Definition extending (mk : list N -> list N -> span -> span -> terror) : Prop :=
  mk = ECannotExtendInlineTable \/ mk = ECannotExtendInlineArray \/ mk = ECannotExtendInlineArrayAsTable \/
  mk = ECannotExtendTableWithDottedKey \/ mk = ECannotExtendArrayWithDottedKey.
(** The representation [x] is why [r] cannot be added. *)
Definition blames d (c : chains) (mk : list N -> list N -> span -> span -> terror) (r x : mrepr) : Prop :=
  exists s k0 i s' k0' i', c (r_parent r) = Some (s, k0) /\ repr_ident (r_key r) = Ok i /\
    c (r_parent x) = Some (s', k0') /\ repr_ident (r_key x) = Ok i' /\ In (s' ++ [i'], r_kind x) d /\
    forall ls t o n, reason (mk ls t o n) (s ++ [i], r_kind r) (s' ++ [i'], r_kind x).
Lemma ext_error d d' c p place k e r mk x : extending mk -> path_ok c p place -> wf_entry d c k e -> repr_ok d' c k r ->
  In x (e_reprs e) -> blames d c mk r x ->
  exists err, extend_error mk p e r = Ok err /\ map_err_ok (d ++ d') err.
Proof.
  intros M P (W1 & W2 & _) R X (s & k0 & i & s' & k0' & i' & X1 & X2 & X3 & X4 & X5 & X6).
  pose proof (proj1 (Forall_forall _ _) W2 _ X) as XO. destruct (first_repr _ W1) as (orig & O1 & O2). rewrite Forall_forall in W2. specialize (W2 _ O2).
  pose proof W2 as (s1 & k1 & i1 & sp1 & A1 & A2 & A3 & A4 & A5 & A6). pose proof R as (s2 & k2 & i2 & sp2 & B1 & B2 & B3 & B4 & B5 & B6).
  destruct (context_ok _ _ _ _ _ _ _ _ _ P A1 B1) as (ls & L1 & L2). destruct (joined_shown _ _ _ i2 P) as (t & T1 & T2).
  unfold extend_error. rewrite O1. cbn [bind]. rewrite L1, B2. cbn [bind]. rewrite T1, A5. cbn [bind]. eexists. split; [reflexivity|].
  rewrite B1 in X1. rewrite B2 in X2. injection X1 as <- <-. injection X2 as <-.
  exists (place ++ [SKey k]), s1, i1, (r_kind orig), s2, i2, (r_kind r), (s' ++ [i'], r_kind x). split; [apply before_app; assumption|].
  split; [apply (repr_keys _ _ _ _ _ _ _ _ _ P W2 A1 A2)|]. split; [apply (repr_keys _ _ _ _ _ _ _ _ _ P R B1 B2)|].
  split; [split; [apply before_app; assumption|]; split; [apply (repr_keys _ _ _ _ _ _ _ _ _ P XO X3 X4)|apply X6]|].
  rewrite B3 in T2. destruct M as [-> |[-> |[-> |[-> | ->]]]]; cbn; auto.
Qed.

Lemma last_ok d c k r : repr_ok d c k r -> exists b, is_last_ident (r_key r) = Ok b.
Proof.
  intros (s & k0 & i & sp & _ & H & _). unfold is_last_ident, repr_ident in *. destruct (r_key r) as [j|idx l]; [eauto|].
  unfold lookup in H. destruct l; [destruct (N.to_nat idx); discriminate|]. unfold usub. cbn [length].
  destruct (1 <=? N.of_nat (S (length l))) eqn:E; [cbn [bind]; eauto|lia].
Qed.

Lemma check_ok d d' c p place place' np k rs r b n : path_ok c p place -> Forall (repr_ok d c k) rs -> rs <> [] -> repr_ok d' c k r ->
  Forall (fits n) rs -> is_table n \/ is_top n -> is_last_ident (r_key r) = Ok false -> (b = true -> assignment (r_kind r)) ->
  (exists t, fmt_path np = Ok t /\ shown place' t) -> keys_of place' = keys_of (place ++ [SKey k]) ->
  exists x, check_reprs p np (rs ++ [r]) (rs ++ [r]) b = Ok x /\ match x with Some err => map_err_ok (d ++ d') err | None => True end.
Proof.
  intros P F NE R FT NT NLAST BA (t & T1 & T2) KE.
  assert (G : forall l, Forall (fun x => x = r \/ (In x rs /\ fits n x)) l ->
    exists x, check_reprs p np (rs ++ [r]) l b = Ok x /\ match x with Some err => map_err_ok (d ++ d') err | None => True end).
  { destruct (first_repr _ NE) as (orig & O1 & O2). pose proof F as F0. rewrite Forall_forall in F0. pose proof (F0 _ O2) as O3.
    pose proof O3 as (s1 & k1 & i1 & sp1 & A1 & A2 & A3 & A4 & A5 & A6). pose proof R as (s2 & k2 & i2 & sp2 & B1 & B2 & B3 & B4 & B5 & B6).
    destruct (context_ok _ _ _ _ _ _ _ _ _ P A1 B1) as (ls & L1 & L2).
    assert (FAIL : forall mk y, extending mk -> In y rs -> blames d c mk r y ->
      exists x, (let? orig := first_of (rs ++ [r]) in
        let? dupe := last_of (rs ++ [r]) in
        let? ls := context_lines p (r_parent orig) (r_parent dupe) in
        let? t := fmt_path np in
        let? sp := kind_span (r_kind orig) in
        let? i := repr_ident (r_key dupe) in
        Ok (E := Empty_set) (Some (mk ls t sp (lit_span i)))) = Ok x /\ match x with Some err => map_err_ok (d ++ d') err | None => True end).
    { intros mk y M Y (s & k0 & i & s' & k0' & i' & X1 & X2 & X3 & X4 & X5 & X6). rewrite B1 in X1. rewrite B2 in X2. injection X1 as <- <-. injection X2 as <-.
      rewrite (first_of_app _ _ NE), O1, last_of_app. cbn [bind]. rewrite L1, T1, A5, B2. cbn [bind].
      eexists. split; [reflexivity|]. cbn beta.
      exists place', s1, i1, (r_kind orig), s2, i2, (r_kind r), (s' ++ [i'], r_kind y). split; [apply before_app; assumption|]. rewrite KE.
      split; [apply (repr_keys _ _ _ _ _ _ _ _ _ P O3 A1 A2)|]. split; [apply (repr_keys _ _ _ _ _ _ _ _ _ P R B1 B2)|].
      split; [split; [apply before_app; assumption|]; split; [apply (repr_keys _ _ _ _ _ _ _ _ _ P (F0 _ Y) X3 X4)|apply X6]|].
      destruct M as [-> |[-> |[-> |[-> | ->]]]]; cbn; auto. }
    assert (BLAME : forall y mk, In y rs -> (forall s' k0' i', c (r_parent y) = Some (s', k0') -> repr_ident (r_key y) = Ok i' ->
        (is_last_ident (r_key y) = Ok true -> whole (s' ++ [i'], r_kind y)) -> forall ls t o n0, reason (mk ls t o n0) (s2 ++ [i2], r_kind r) (s' ++ [i'], r_kind y)) ->
      blames d c mk r y).
    { intros y mk Y H. destruct (F0 _ Y) as (s' & k0' & i' & sp' & C1 & C2 & C3 & C4 & C5 & C6).
      exists s2, k2, i2, s', k0', i'. do 5 (split; [assumption|]). exact (H s' k0' i' C1 C2 C6). }
    induction l as [|x l IH]; intros FL; [exists None; split; [reflexivity|exact I]|].
    pose proof (Forall_inv FL) as X. apply Forall_inv_tail in FL. specialize (IH FL). cbn [check_reprs]. cbv zeta. cbn beta in X.
    destruct (r_kind x) as [tb|ae|ta|ia] eqn:KX.
    - destruct b; [|exact IH]. destruct X as [-> |[X XF]]; [rewrite KX in BA; destruct (BA eq_refl)|].
      apply (FAIL _ x); [unfold extending; tauto|exact X|]. apply BLAME; [exact X|]. intros s' k0' i' _ _ _ l0 t0 o n0. split; [exists tb; exact KX|exact (BA eq_refl)].
    - exact IH.
    - destruct X as [-> |[X XF]]; [rewrite NLAST; exact IH|]. destruct (last_ok _ _ _ _ (F0 _ X)) as (lb & LB). rewrite LB. cbn [bind]. destruct lb; [|exact IH].
      apply (FAIL _ x); [unfold extending; tauto|exact X|]. apply BLAME; [exact X|]. intros s' k0' i' _ _ W l0 t0 o n0. specialize (W LB). rewrite KX in W |- *.
      destruct W as (pre & W). cbn [fst] in W. rewrite W. exists (as_val (ta_assign ta)). split; [constructor|]. unfold fits in XF. rewrite LB, KX in XF.
      destruct NT as [NT|NT]; destruct n; try contradiction; exact XF.
    - destruct X as [-> |[X XF]]; [rewrite NLAST; exact IH|]. destruct (last_ok _ _ _ _ (F0 _ X)) as (lb & LB). rewrite LB. cbn [bind]. destruct lb; [|exact IH].
      apply (FAIL _ x); [unfold extending; tauto|exact X|]. apply BLAME; [exact X|]. intros s' k0' i' _ _ W l0 t0 o n0. specialize (W LB). rewrite KX in W |- *.
      destruct W as (pre & W). cbn [fst] in W. rewrite W. exists (as_val (ia_assign ia)). split; [constructor|]. unfold fits in XF. rewrite LB, KX in XF.
      destruct NT as [NT|NT]; destruct n; try contradiction; exact XF. }
  apply G. apply Forall_app. split.
  - apply Forall_forall. intros x X. right. split; [exact X|exact (proj1 (Forall_forall _ _) FT _ X)].
  - constructor; [left; reflexivity|constructor].
Qed.

Lemma set_last_wf d c es t : Forall (wf_elem d c) es -> wf_table d c t -> Forall (wf_elem d c) (set_last es t).
Proof.
  intros F T. induction F as [|e [|e' r] H F IH]; [constructor| |].
  - constructor; [|constructor]. destruct H as [H1 _]. split; [exact H1|exact T].
  - constructor; [exact H|exact IH].
Qed.
Lemma set_last_nonempty es t : es <> [] -> set_last es t <> [].
Proof. destruct es as [|e [|e' r]]; cbn; congruence. Qed.
Lemma last_elem (es : list tentry) : es <> [] -> exists e, last_of es = Ok e /\ In e es.
Proof.
  induction es as [|e [|e' r] IH]; [congruence| |]; intros _.
  - exists e. split; [reflexivity|left; reflexivity].
  - destruct IH as (x & X1 & X2); [discriminate|]. exists x. split; [exact X1|right; exact X2].
Qed.

Lemma next_last c rs r s k0 i : c (r_parent r) = Some (s, k0) -> repr_ident (r_key r) = Ok i ->
  next c (rs ++ [r]) (N.of_nat (length rs)) = Some (s ++ [i], Some (r_kind r)).
Proof.
  intros H1 H2. unfold next. rewrite Nat2N.id, nth_error_app2, Nat.sub_diag by lia. cbn. rewrite H1, H2. reflexivity.
Qed.

(** A new representation of an entry *)
Lemma push_repr d d' c k n rs r : wf_entry d c k (mke n rs) -> repr_ok d' c k r -> fits n r -> wf_entry (d ++ d') c k (mke n (rs ++ [r])).
Proof.
  intros (W1 & W2 & W4 & W3) R FR. cbn [e_reprs e_node] in *. split; [cbn; destruct rs; discriminate|]. cbn [e_reprs e_node]. split; [|split].
  - apply Forall_app. split.
    + revert W2. apply Forall_impl. intros x. apply repr_ok_mono; [apply incl_appl, incl_refl|apply ext_refl].
    + constructor; [|constructor]. revert R. apply repr_ok_mono; [apply incl_appr, incl_refl|apply ext_refl].
  - apply Forall_app. split; [exact W4|constructor; [exact FR|constructor]].
  - revert W3. apply wf_mono; [apply incl_appl, incl_refl|apply ext_next1].
Qed.

Lemma inline_array_given d c k ip iv ies rs : wf_entry d c k (mke (NInline ip iv ies) rs) ->
  exists x, In x rs /\ exists s k0 i v, c (r_parent x) = Some (s, k0) /\ repr_ident (r_key x) = Ok i /\ In (s ++ [i], r_kind x) d /\
    gives (s ++ [i], r_kind x) v /\ array_value v.
Proof.
  intros (W1 & W2 & W4 & _). cbn [e_reprs e_node] in *. destruct rs as [|x rs]; [congruence|]. exists x. split; [left; reflexivity|].
  pose proof (Forall_inv W4) as F. destruct (Forall_inv W2) as (s & k0 & i & sp & C1 & C2 & C3 & C4 & C5 & C6). destruct (last_ok _ _ _ _ (Forall_inv W2)) as (lb & LB).
  unfold fits in F. rewrite LB in F, C6. exists s, k0, i. destruct (r_kind x) as [tb|ae|ta|ia] eqn:KX; destruct lb; cbn [is_table is_top] in F; try tauto.
  - destruct (C6 eq_refl) as (pre & E). cbn [fst] in E. rewrite E in *. exists (as_val (ta_assign ta)). do 3 (split; [assumption|]). split; [constructor|exact F].
  - destruct (C6 eq_refl) as (pre & E). cbn [fst] in E. rewrite E in *. exists (as_val (ia_assign ia)). do 3 (split; [assumption|]). split; [constructor|exact F].
Qed.

Lemma get_table_ok d d' c p place k e r s k0 i : path_ok c p place -> wf_entry d c k e -> repr_ok d' c k r -> is_last_ident (r_key r) = Ok false ->
  c (r_parent r) = Some (s, k0) -> repr_ident (r_key r) = Ok i ->
  exists x, get_table_to_extend p e r = Ok x /\
  match x with
  | ExtErr e' err => wf_entry (d ++ d') c k e' /\ map_err_ok (d ++ d') err
  | ExtOk e' parent np t =>
      wf_entry (d ++ d') c k e' /\ np <> [] /\ wf_table (d ++ d') (next c (e_reprs e')) t /\
      next c (e_reprs e') parent = Some (s ++ [i], Some (r_kind r)) /\
      (exists place', path_ok (next c (e_reprs e')) np place') /\
      (forall d2 t', incl (d ++ d') d2 -> wf_table d2 (next c (e_reprs e')) t' -> wf_node d2 (next c (e_reprs e')) (put_table (e_node e') t'))
  end.
Proof.
  intros P W R NLAST CP RI. destruct e as [n rs].
  assert (NE : wf_entry (d ++ d') c k (mke n rs)).
  { revert W. apply wf_entry_mono; [apply incl_appl, incl_refl|apply ext_refl]. }
  pose proof W as (W1 & W2 & W4 & W3). cbn [e_reprs e_node] in *.
  assert (P' : path_ok (next c (rs ++ [r])) (SegTable (rs ++ [r]) :: p) (place ++ [SKey k])).
  { apply (path_ok_next (d ++ d')); [exact P|destruct rs; discriminate|]. apply Forall_app. split.
    - revert W2. apply Forall_impl. intros x. apply repr_ok_mono; [apply incl_appl, incl_refl|apply ext_refl].
    - constructor; [|constructor]. revert R. apply repr_ok_mono; [apply incl_appr, incl_refl|apply ext_refl]. }
  unfold get_table_to_extend. cbn [e_node e_reprs insert_repr]. unfold insert_repr. cbv zeta.
  destruct n as [t|es|ip iv ies|sv].
  - assert (FP : exists t0, fmt_path (SegTable (rs ++ [r]) :: p) = Ok t0 /\ shown (place ++ [SKey k]) t0).
    { destruct P' as [_ [[? _]|(_ & H)]]; [discriminate|exact H]. }
    assert (W' : wf_entry (d ++ d') c k (mke (NTable t) (rs ++ [r]))).
    { apply push_repr; [exact W|exact R|]. unfold fits. rewrite NLAST. destruct (r_kind r); cbn; auto. }
    assert (BA : is_assignment (r_kind r) = true -> assignment (r_kind r)) by (destruct (r_kind r); cbn; intros; try discriminate; exact I).
    destruct (check_ok d d' c p place _ _ k rs r (is_assignment (r_kind r)) (NTable t) P W2 W1 R W4 (or_introl I) NLAST BA FP eq_refl) as (x & X1 & X2).
    rewrite X1. cbn [bind]. destruct x as [err|].
    + eexists. split; [reflexivity|]. split; [exact W'|exact X2].
    + eexists. split; [reflexivity|]. cbn [e_node e_reprs]. split; [exact W'|]. split; [discriminate|].
      destruct W' as (_ & _ & _ & W'). cbn [e_node e_reprs] in W'. split; [apply wf_NTable in W'; exact W'|].
      split; [apply (next_last _ _ _ _ _ _ CP RI)|]. split; [exists (place ++ [SKey k]); exact P'|].
      intros d2 t' _ H. apply wf_NTable. exact H.
  - destruct (is_assignment (r_kind r)) eqn:IA.
    + assert (B : exists x, In x rs /\ blames d c ECannotExtendArrayWithDottedKey r x).
      { apply wf_NTop in W3. destruct W3 as [ES W3]. destruct es as [|el es]; [congruence|]. destruct (Forall_inv W3) as [(hk & K1 & K2) _].
        unfold next in K2. destruct (nth_error rs (N.to_nat (te_parent el))) as [x|] eqn:NX; [|discriminate]. exists x. apply nth_error_In in NX. split; [exact NX|].
        destruct (proj1 (Forall_forall _ _) W2 _ NX) as (s' & k0' & i' & sp' & C1 & C2 & C3 & C4 & C5 & C6). rewrite C1, C2 in K2. injection K2 as K2 K3.
        exists s, k0, i, s', k0', i'. do 5 (split; [assumption|]). intros ls t o n0. split; [|destruct (r_kind r); try discriminate; exact I].
        exists (te_repr el), hk. split; [exact K1|]. rewrite K2, K3. reflexivity. }
      destruct B as (bx & BX1 & BX2).
      destruct (ext_error d d' c p place k (mke (NTop es) rs) r ECannotExtendArrayWithDottedKey bx) as (err & E1 & E2); auto.
      { unfold extending. tauto. }
      rewrite E1. cbn [bind]. eexists. split; [reflexivity|]. split; [exact NE|exact E2].
    + assert (W' : wf_entry (d ++ d') c k (mke (NTop es) (rs ++ [r]))).
      { apply push_repr; [exact W|exact R|]. unfold fits. rewrite NLAST. destruct (r_kind r); try discriminate; cbn; auto. }
      apply wf_NTop in W3. destruct W3 as [ES W3]. destruct (last_elem es ES) as (l & L1 & L2).
      assert (U : usub (N.of_nat (length es)) 1 = Ok (N.of_nat (length es) - 1)).
      { unfold usub. destruct es; [congruence|]. cbn [length]. destruct (1 <=? N.of_nat (S (length es))) eqn:E; [reflexivity|lia]. }
      rewrite U. cbn [bind]. rewrite L1. cbn [bind].
      assert (P2 := path_ok_index _ _ _ (N.of_nat (length es) - 1) P' ltac:(discriminate)).
      assert (FP : exists t0, fmt_path (SegArray (N.of_nat (length es) - 1) :: SegTable (rs ++ [r]) :: p) = Ok t0 /\ shown ((place ++ [SKey k]) ++ [SIdx (N.of_nat (length es) - 1)]) t0).
      { destruct P2 as [_ [[? _]|(_ & H)]]; [discriminate|exact H]. }
      destruct (check_ok d d' c p place _ _ k rs r false (NTop es) P W2 W1 R W4 (or_intror I) NLAST ltac:(discriminate) FP) as (x & X1 & X2).
      { rewrite keys_of_app. cbn. apply app_nil_r. }
      rewrite X1. cbn [bind]. destruct x as [err|].
      * eexists. split; [reflexivity|]. split; [exact W'|exact X2].
      * eexists. split; [reflexivity|]. cbn [e_node e_reprs]. split; [exact W'|]. split; [discriminate|].
        destruct W' as (_ & _ & _ & W'). cbn [e_node e_reprs] in W'. apply wf_NTop in W'. destruct W' as [_ W'].
        split; [rewrite Forall_forall in W'; apply (W' l L2)|].
        split; [apply (next_last _ _ _ _ _ _ CP RI)|]. split; [eexists; exact P2|].
        intros d2 t' D H. apply wf_NTop. split; [apply set_last_nonempty; exact ES|]. apply set_last_wf; [|exact H].
        revert W'. apply Forall_impl. intros z. apply wf_elem_mono; [exact D|apply ext_refl].
  - destruct (inline_array_given d c k ip iv ies rs W) as (bx & BX1 & s' & k0' & i' & v & C1 & C2 & C4 & GV & AV).
    destruct (ext_error d d' c p place k (mke (NInline ip iv ies) rs) r ECannotExtendInlineArrayAsTable bx) as (err & E1 & E2); auto.
    { unfold extending. tauto. }
    { exists s, k0, i, s', k0', i'. do 5 (split; [assumption|]). intros ls t o n0. exists v. auto. }
    rewrite E1. cbn [bind]. eexists. split; [reflexivity|]. split; [exact NE|exact E2].
  - destruct (first_repr _ W1) as (o & O1 & O2). rewrite O1. cbn [bind]. rewrite Forall_forall in W2.
    destruct (dup_error d d' c p place k o r P (W2 _ O2) R) as (err & E1 & E2).
    rewrite E1. cbn [bind]. eexists. split; [reflexivity|]. split; [exact NE|exact E2].
Qed.

(** ** Insertion *)
Definition good_value (v : value) (full : list ident) (own : list spelling) (f : path -> N -> run (node * list terror)) : Prop :=
  forall d c p place parent k0, c parent = Some (full, k0) -> path_ok c p place -> p <> [] ->
  exists n es, f p parent = Ok (n, es) /\ shape_of v n /\ wf_node (d ++ own) c n /\ Forall (map_err_ok (d ++ own)) es.
Definition kind_value (kind : mkind) : option value :=
  match kind with MTop a => Some (as_val (ta_assign a)) | MInl a => Some (as_val (ia_assign a)) | _ => None end.
Definition good_assigns (full : list ident) (own : list spelling) (f : path -> N -> mtable -> run (mtable * list terror)) : Prop :=
  forall d c p place parent k0 m, c parent = Some (full, k0) -> path_ok c p place -> p <> [] -> wf_table d c m ->
  exists m' es, f p parent m = Ok (m', es) /\ wf_table (d ++ own) c m' /\ Forall (map_err_ok (d ++ own)) es.
Definition good (full : list ident) (own : list spelling) (kind : mkind) (v : insert_value) : Prop :=
  match v with
  | IValue f => exists v, kind_value kind = Some v /\ good_value v full own f
  | IAssigns f => (exists t, kind = MTable t) /\ good_assigns full own f
  | IEntry a f => kind = MArrayEntry a /\ (exists k, ah_key (ae_header a) = Some k /\ key_idents k = full) /\ good_assigns full own f
  end.

Definition made (kind : mkind) (n : node) : Prop :=
  match kind with
  | MTop a => shape_of (as_val (ta_assign a)) n
  | MInl a => shape_of (as_val (ia_assign a)) n
  | MTable _ => is_table n
  | MArrayEntry _ => is_top n
  end.
Lemma made_fits n r : is_last_ident (r_key r) = Ok true -> made (r_kind r) n -> fits n r.
Proof. intros L M. unfold fits. rewrite L. destruct (r_kind r); exact M. Qed.
Lemma map_insert_ok full own kind v d c p place parent : good full own kind v -> c parent = Some (full, Some kind) -> path_ok c p place -> p <> [] ->
  exists n es, map_insert_value p parent v = Ok (n, es) /\ made kind n /\ wf_node (d ++ own) c n /\ Forall (map_err_ok (d ++ own)) es.
Proof.
  intros G C P NE. destruct v as [f|f|a f]; cbn [map_insert_value].
  - destruct G as (v & KV & G). destruct (G d _ _ _ _ _ C P NE) as (n & es & E & SH & W & F). exists n, es. split; [exact E|]. split; [|auto].
    destruct kind; try discriminate; injection KV as <-; exact SH.
  - destruct G as ((tb & ->) & G). destruct (G d _ _ _ _ _ [] C P NE ltac:(constructor)) as (m & es & E & W & F). rewrite E. cbn [bind].
    eexists _, _. split; [reflexivity|]. split; [exact I|]. split; [apply wf_NTable; exact W|exact F].
  - destruct G as (-> & (k & K1 & K2) & G).
    destruct (G d _ _ _ _ _ [] C (path_ok_index _ _ _ 0 P NE) ltac:(discriminate) ltac:(constructor)) as (m & es & E & W & F). rewrite E. cbn [bind].
    eexists _, _. split; [reflexivity|]. split; [exact I|]. split; [|exact F]. apply wf_NTop. split; [discriminate|]. constructor; [|constructor].
    split; [|exact W]. exists k. split; [exact K1|]. cbn. rewrite K2. exact C.
Qed.

Lemma one_repr d d' c k r n : repr_ok d' c k r -> fits n r -> wf_node (d ++ d') (next c [r]) n -> wf_entry (d ++ d') c k (mke n [r]).
Proof.
  intros R FR W. split; [discriminate|]. cbn [e_reprs e_node]. split; [|split; [constructor; [exact FR|constructor]|exact W]]. constructor; [|constructor].
  revert R. apply repr_ok_mono; [apply incl_appr, incl_refl|apply ext_refl].
Qed.

Lemma super_ok d d' c p place k r rs : path_ok c p place -> Forall (repr_ok d c k) rs -> repr_ok d' c k r ->
  exists x, super_reprs p r rs = Ok x /\ match x with Some err => map_err_ok (d ++ d') err | None => True end.
Proof.
  intros P F R. induction F as [|x rs X F IH]; [exists None; split; [reflexivity|exact I]|].
  destruct (dup_error d d' c p place k x r P X R) as (err & E1 & E2).
  destruct (last_ok _ _ _ _ X) as (lb & LB).
  cbn [super_reprs]. cbv zeta. rewrite E1, LB. cbn [bind].
  destruct (r_kind x); try destruct lb; try exact IH; exists (Some err); split; auto.
Qed.

Lemma insert_node_ok d c p place m i v s k0 mk parent kind own sp :
  path_ok c p place -> wf_table d c m -> c parent = Some (s, k0) -> repr_ident mk = Ok i -> kind_span kind = Ok sp ->
  is_last_ident mk = Ok true -> whole (s ++ [i], kind) -> good (s ++ [i]) own kind v ->
  exists m' es, insert_node p m i v (mkrepr parent mk kind) = Ok (m', es) /\
    wf_table (d ++ (s ++ [i], kind) :: own) c m' /\ Forall (map_err_ok (d ++ (s ++ [i], kind) :: own)) es.
Proof.
  intros P W CP RI KS LI WH G. set (r := mkrepr parent mk kind). set (k := id_text i).
  assert (R : repr_ok [(s ++ [i], kind)] c k r).
  { exists s, k0, i, sp. repeat split; auto. left. reflexivity. }
  assert (DE : d ++ (s ++ [i], kind) :: own = (d ++ [(s ++ [i], kind)]) ++ own) by (rewrite <- app_assoc; reflexivity).
  rewrite DE. set (D := d ++ [(s ++ [i], kind)]) in *.
  assert (I1 : incl d D) by (apply incl_appl, incl_refl).
  assert (I2 : incl D (D ++ own)) by (apply incl_appl, incl_refl).
  assert (I3 : incl d (D ++ own)) by (eapply incl_tran; eassumption).
  assert (WM : wf_table (D ++ own) c m) by (revert W; apply wf_table_mono; [exact I3|apply ext_refl]).
  unfold insert_node. fold k. destruct (tget m k) as [e|] eqn:T.
  - pose proof (tget_wf _ _ _ _ _ W T) as WE. pose proof WE as (W1 & W2 & W4 & W3).
    assert (DUP : forall orig, In orig (e_reprs e) -> exists err, duplicate_key_error p orig r = Ok err /\ map_err_ok (D ++ own) err).
    { intros orig O. rewrite Forall_forall in W2. destruct (dup_error d _ c p place k orig r P (W2 _ O) R) as (err & E1 & E2).
      exists err. split; [exact E1|]. apply err_mono. exact E2. }
    assert (DUPF : exists m' es, (let? orig := first_of (e_reprs e) in let? err := duplicate_key_error p orig r in Ok (E := Empty_set) (m, [err])) = Ok (m', es) /\
        wf_table (D ++ own) c m' /\ Forall (map_err_ok (D ++ own)) es).
    { destruct (first_repr _ W1) as (o & O1 & O2). rewrite O1. cbn [bind]. destruct (DUP o O2) as (err & E1 & E2). rewrite E1. cbn [bind].
      eexists _, _. split; [reflexivity|]. split; [exact WM|]. constructor; [exact E2|constructor]. }
    assert (PUSH : fits (e_node e) r -> wf_entry D c k (mke (e_node e) (e_reprs e ++ [r]))) by (destruct e as [en er]; intros; apply push_repr; assumption).
    assert (P' : path_ok (next c (e_reprs e ++ [r])) (SegTable (e_reprs e ++ [r]) :: p) (place ++ [SKey k])).
    { apply (path_ok_next D); [exact P|destruct (e_reprs e); discriminate|]. apply Forall_app. split.
      - revert W2. apply Forall_impl. intros x. apply repr_ok_mono; [apply incl_appl, incl_refl|apply ext_refl].
      - constructor; [|constructor]. revert R. apply repr_ok_mono; [apply incl_appr, incl_refl|apply ext_refl]. }
    assert (NL : next c (e_reprs e ++ [r]) (N.of_nat (length (e_reprs e))) = Some (s ++ [i], Some kind)) by (apply (next_last c _ r s k0 i CP RI)).
    cbv zeta. destruct v as [f|f|a f].
    + exact DUPF.
    + destruct (e_node e) as [t|es0|ip iv ies|sv] eqn:EN; try exact DUPF.
      destruct (super_ok d _ c p place k r (e_reprs e) P W2 R) as (x & X1 & X2). rewrite X1. cbn [bind]. destruct x as [err|].
      * eexists _, _. split; [reflexivity|]. split; [exact WM|]. constructor; [apply err_mono; exact X2|constructor].
      * unfold insert_repr. destruct G as ((tb & ->) & G). destruct PUSH as (Q1 & Q2 & Q4 & Q3); [apply made_fits; [exact LI|exact I]|]. cbn [e_node e_reprs] in *. apply wf_NTable in Q3.
        destruct (G D _ _ _ _ _ t NL P' ltac:(discriminate) Q3) as (m' & es & E & W' & F). rewrite E. cbn [bind].
        eexists _, _. split; [reflexivity|]. split; [|exact F]. apply tset_wf; [exact WM|]. split; [exact Q1|]. cbn [e_node e_reprs].
        split; [|split; [exact Q4|apply wf_NTable; exact W']]. revert Q2. apply Forall_impl. intros y. apply repr_ok_mono; [exact I2|apply ext_refl].
    + destruct (e_node e) as [t|es0|ip iv ies|sv] eqn:EN; try exact DUPF.
      * unfold insert_repr. destruct G as (-> & (k1 & K1 & K2) & G). destruct PUSH as (Q1 & Q2 & Q5 & Q3); [apply made_fits; [exact LI|exact I]|]. cbn [e_node e_reprs] in *. apply wf_NTop in Q3. destruct Q3 as [Q3 Q4].
        destruct (G D _ _ _ _ _ [] NL (path_ok_index _ _ _ (N.of_nat (length es0)) P' ltac:(discriminate)) ltac:(discriminate) ltac:(constructor)) as (m' & es & E & W' & F).
        rewrite E. cbn [bind].
        eexists _, _. split; [reflexivity|]. split; [|exact F]. apply tset_wf; [exact WM|]. split; [exact Q1|]. cbn [e_node e_reprs].
        split; [revert Q2; apply Forall_impl; intros y; apply repr_ok_mono; [exact I2|apply ext_refl]|]. split; [exact Q5|].
        apply wf_NTop. split; [destruct es0; discriminate|]. apply Forall_app. split.
        -- revert Q4. apply Forall_impl. intros y. apply wf_elem_mono; [exact I2|apply ext_refl].
        -- constructor; [|constructor]. split; [|exact W']. exists k1. split; [exact K1|]. cbn. rewrite K2. exact NL.
      * destruct G as (-> & (k1 & K1 & K2) & G).
        destruct (inline_array_given d c k ip iv ies (e_reprs e)) as (bx & BX1 & s' & k0' & i' & v & C1 & C2 & C4 & GV & AV).
        { rewrite <- EN. destruct e; exact WE. }
        assert (BL : blames d c ECannotExtendInlineArray r bx).
        { exists s, k0, i, s', k0', i'. do 5 (split; [assumption|]). intros ls t o n0. split; [exists v; auto|]. exists a, k1. rewrite K2. auto. }
        destruct (ext_error d _ c p place k e r ECannotExtendInlineArray bx ltac:(unfold extending; tauto) P WE R BX1 BL) as (err & E1 & E2). rewrite E1. cbn [bind].
        eexists _, _. split; [reflexivity|]. split; [exact WM|]. constructor; [apply err_mono; exact E2|constructor].
  - cbv zeta.
    assert (P' : path_ok (next c [r]) (SegTable [r] :: p) (place ++ [SKey k])).
    { apply (path_ok_next [(s ++ [i], kind)]); [exact P|discriminate|]. constructor; [exact R|constructor]. }
    assert (NL : next c [r] 0 = Some (s ++ [i], Some kind)) by (apply (next_last c [] r s k0 i CP RI)).
    destruct (map_insert_ok _ _ _ _ D _ _ _ _ G NL P' ltac:(discriminate)) as (n & es & E & MD & W' & F). rewrite E. cbn [bind].
    eexists _, _. split; [reflexivity|]. split; [|exact F]. apply tpush_wf; [exact WM|].
    apply (wf_entry_mono (d ++ [(s ++ [i], kind)] ++ own) (D ++ own) c c); [unfold D; rewrite <- app_assoc; apply incl_refl|apply ext_refl|].
    apply one_repr; [|apply made_fits; [exact LI|exact MD]|replace (d ++ [(s ++ [i], kind)] ++ own) with (D ++ own) by (unfold D; rewrite <- app_assoc; reflexivity); exact W'].
    revert R. apply repr_ok_mono; [apply incl_appl, incl_refl|apply ext_refl].
Qed.

Definition idents_of (l : list dident) : list ident := map di_ident l.
Lemma lookup_at (done rest : list dident) o : lookup (done ++ o :: rest) (N.of_nat (length done)) = Ok o.
Proof. unfold lookup. rewrite Nat2N.id, nth_error_app2, Nat.sub_diag by lia. reflexivity. Qed.

Definition kind_key (kind : mkind) (l : list ident) : Prop :=
  match kind with
  | MTop a => key_idents (as_key (ta_assign a)) = l
  | MInl a => key_idents (as_key (ia_assign a)) = l
  | _ => True
  end.
Lemma kind_key_whole kind s0 l : kind_key kind l -> whole (s0 ++ l, kind).
Proof. destruct kind; cbn; intros H; [exact I|exact I| |]; exists s0; rewrite H; reflexivity. Qed.
Lemma last_true done (o : dident) : is_last_ident (MDotted (N.of_nat (length done)) (done ++ [o])) = Ok true.
Proof.
  unfold is_last_ident, usub. rewrite app_length. cbn [length]. destruct (N.leb_spec 1 (N.of_nat (length done + 1))); [|lia]. cbn [bind]. f_equal. lia.
Qed.
Lemma last_false done (o o2 : dident) rest : is_last_ident (MDotted (N.of_nat (length done)) (done ++ o :: o2 :: rest)) = Ok false.
Proof.
  unfold is_last_ident, usub. rewrite app_length. cbn [length]. destruct (N.leb_spec 1 (N.of_nat (length done + S (S (length rest))))); [|lia]. cbn [bind]. f_equal. lia.
Qed.
Lemma whole_last kind idents done (o : dident) s0 : kind_key kind (idents_of idents) -> idents = done ++ [o] -> whole ((s0 ++ idents_of done) ++ [di_ident o], kind).
Proof. intros K ->. rewrite <- app_assoc. unfold idents_of in K. rewrite map_app in K. apply kind_key_whole. exact K. Qed.
Lemma new_chain_ok idents v kind sp own : kind_span kind = Ok sp -> kind_key kind (idents_of idents) -> forall rest done d c p place parent s k0,
  (exists s0, s = s0 ++ idents_of done) -> idents = done ++ rest -> rest <> [] -> path_ok c p place -> c parent = Some (s, k0) -> good (s ++ idents_of rest) own kind v ->
  exists e es, new_chain idents v kind rest (N.of_nat (length done)) p parent = Ok (e, es) /\
    wf_entry (d ++ map (fun s => (s, kind)) (prefixes s (idents_of rest)) ++ own) c
      (match rest with o :: _ => id_text (di_ident o) | [] => [] end) e /\
    Forall (map_err_ok (d ++ map (fun s => (s, kind)) (prefixes s (idents_of rest)) ++ own)) es.
Proof.
  intros KS KK. induction rest as [|o rest IH]; intros done d c p place parent s k0 SD ID NE P CP G; [congruence|].
  set (i := di_ident o). set (r := mkrepr parent (MDotted (N.of_nat (length done)) idents) kind).
  assert (RI : repr_ident (r_key r) = Ok i).
  { cbn. rewrite ID, lookup_at. reflexivity. }
  assert (WH : is_last_ident (r_key r) = Ok true -> whole (s ++ [i], kind)).
  { destruct rest as [|o2 rest]; cbn [r r_key]; rewrite ID; [|rewrite last_false; discriminate]. intros _. destruct SD as (s0 & ->). eapply whole_last; eassumption. }
  assert (R : repr_ok [(s ++ [i], kind)] c (id_text i) r).
  { exists s, k0, i, sp. split; [exact CP|]. split; [exact RI|]. split; [reflexivity|]. split; [left; reflexivity|]. auto. }
  assert (P' : path_ok (next c [r]) (SegTable [r] :: p) (place ++ [SKey (id_text i)])).
  { apply (path_ok_next [(s ++ [i], kind)]); [exact P|discriminate|]. constructor; [exact R|constructor]. }
  assert (NL : next c [r] 0 = Some (s ++ [i], Some kind)) by (apply (next_last c [] r s k0 i CP RI)).
  cbn [idents_of map prefixes]. fold i. fold (idents_of rest). cbn [new_chain]. cbv zeta. fold r.
  set (D := d ++ [(s ++ [i], kind)]).
  assert (DE : forall x, d ++ ((s ++ [i], kind) :: x) ++ own = D ++ x ++ own) by (intros x; unfold D; rewrite <- app_assoc; reflexivity).
  rewrite DE.
  assert (ONE : forall n x, fits n r -> wf_node (D ++ x) (next c [r]) n -> wf_entry (D ++ x) c (id_text i) (mke n [r])).
  { intros n x FR H. apply (wf_entry_mono (d ++ [(s ++ [i], kind)] ++ x) (D ++ x) c c); [unfold D; rewrite <- app_assoc; apply incl_refl|apply ext_refl|].
    apply one_repr; [|exact FR|replace (d ++ [(s ++ [i], kind)] ++ x) with (D ++ x) by (unfold D; rewrite <- app_assoc; reflexivity); exact H].
    revert R. apply repr_ok_mono; [apply incl_appl, incl_refl|apply ext_refl]. }
  destruct rest as [|o2 rest].
  - cbn [idents_of map prefixes app] in *. destruct (map_insert_ok _ _ _ _ D _ _ _ _ G NL P' ltac:(discriminate)) as (n & es & E & MD & W & F).
    rewrite E. cbn [bind]. eexists _, _. split; [reflexivity|]. split; [apply ONE; [|exact W]|exact F].
    apply made_fits; [|exact MD]. cbn [r r_key]. rewrite ID. apply last_true.
  - assert (L1 : N.of_nat (length done) + 1 = N.of_nat (length (done ++ [o]))) by (rewrite app_length; cbn; lia).
    destruct (IH (done ++ [o]) D (next c [r]) (SegTable [r] :: p) (place ++ [SKey (id_text i)]) 0 (s ++ [i]) (Some kind)) as (e & es & E & W & F).
    { destruct SD as (s0 & ->). exists s0. rewrite <- app_assoc. unfold idents_of. rewrite map_app. reflexivity. }
    { rewrite <- app_assoc. exact ID. }
    { discriminate. }
    { exact P'. }
    { exact NL. }
    { rewrite <- app_assoc. exact G. }
    rewrite L1, E. cbn [bind]. eexists _, _. split; [reflexivity|]. split; [|exact F].
    apply ONE; [unfold fits; cbn [r r_key r_kind]; rewrite ID, last_false; destruct kind; cbn; auto|]. apply wf_NTable. unfold tpush. cbn [app]. constructor; [exact W|constructor].
Qed.

Lemma insert_dotted_eq idents v kind o o2 rest i p parent m :
  insert_dotted idents v kind (o :: o2 :: rest) i p parent m =
  match tget m (id_text (di_ident o)) with
  | None =>
      let? (e, es) := new_chain idents v kind (o :: o2 :: rest) i p parent in
      Ok (tpush m (id_text (di_ident o)) e, es)
  | Some e =>
      let? x := get_table_to_extend p e (mkrepr parent (MDotted i idents) kind) in
      match x with
      | ExtErr e' err => Ok (tset m (id_text (di_ident o)) e', [err])
      | ExtOk e' next_parent next t =>
          let? (t', es) := insert_dotted idents v kind (o2 :: rest) (i + 1) next next_parent t in
          Ok (tset m (id_text (di_ident o)) (mke (put_table (e_node e') t') (e_reprs e')), es)
      end
  end.
Proof. reflexivity. Qed.
Lemma insert_dotted_ok idents v kind sp own : kind_span kind = Ok sp -> kind_key kind (idents_of idents) -> forall rest done d c p place parent s k0 m,
  (exists s0, s = s0 ++ idents_of done) -> idents = done ++ rest -> rest <> [] -> path_ok c p place -> wf_table d c m -> c parent = Some (s, k0) -> good (s ++ idents_of rest) own kind v ->
  exists m' es, insert_dotted idents v kind rest (N.of_nat (length done)) p parent m = Ok (m', es) /\
    wf_table (d ++ map (fun s => (s, kind)) (prefixes s (idents_of rest)) ++ own) c m' /\
    Forall (map_err_ok (d ++ map (fun s => (s, kind)) (prefixes s (idents_of rest)) ++ own)) es.
Proof.
  intros KS KK. induction rest as [|o rest IH]; intros done d c p place parent s k0 m SD ID NE P W CP G; [congruence|].
  set (i := di_ident o). set (r := mkrepr parent (MDotted (N.of_nat (length done)) idents) kind).
  assert (RI : repr_ident (r_key r) = Ok i).
  { cbn. rewrite ID, lookup_at. reflexivity. }
  destruct rest as [|o2 rest].
  - cbn [insert_dotted]. apply (insert_node_ok d c p place m i v s k0 (r_key r) parent kind own sp); auto.
    + cbn [r r_key]. rewrite ID. apply last_true.
    + destruct SD as (s0 & ->). eapply whole_last; eassumption.
  - assert (LF : is_last_ident (r_key r) = Ok false) by (cbn [r r_key]; rewrite ID; apply last_false).
    assert (R : repr_ok [(s ++ [i], kind)] c (id_text i) r).
    { exists s, k0, i, sp. split; [exact CP|]. split; [exact RI|]. split; [reflexivity|]. split; [left; reflexivity|]. split; [exact KS|]. rewrite LF. discriminate. }
    rewrite insert_dotted_eq. fold i. fold r. destruct (tget m (id_text i)) as [e|] eqn:T.
    + pose proof (tget_wf _ _ _ _ _ W T) as WE.
      destruct (get_table_ok d _ c p place _ e r s k0 i P WE R LF CP RI) as (x & X1 & X2). rewrite X1. cbn [bind].
      cbn [idents_of map prefixes]. fold i. fold (idents_of rest).
      set (D := d ++ [(s ++ [i], kind)]) in *.
      assert (DE : forall x, d ++ ((s ++ [i], kind) :: x) ++ own = D ++ x ++ own) by (intros y; unfold D; rewrite <- app_assoc; reflexivity).
      cbn [map]. rewrite DE. set (x0 := (_ :: _) ++ own).
      assert (I2 : incl D (D ++ x0)) by (apply incl_appl, incl_refl).
      assert (WM : wf_table (D ++ x0) c m) by (revert W; apply wf_table_mono; [eapply incl_tran; [apply incl_appl, incl_refl|exact I2]|apply ext_refl]).
      destruct x as [e' np npath t|e' err].
      * destruct X2 as (Y1 & Y2 & Y3 & Y4 & (place' & Y5) & Y6).
        assert (L1 : N.of_nat (length done) + 1 = N.of_nat (length (done ++ [o]))) by (rewrite app_length; cbn; lia).
        destruct (IH (done ++ [o]) D (next c (e_reprs e')) npath place' np (s ++ [i]) (Some kind) t) as (t' & es & E & W' & F).
        { destruct SD as (s0 & ->). exists s0. rewrite <- app_assoc. unfold idents_of. rewrite map_app. reflexivity. }
        { rewrite <- app_assoc. exact ID. }
        { discriminate. }
        { exact Y5. }
        { exact Y3. }
        { exact Y4. }
        { rewrite <- app_assoc. exact G. }
        fold x0 in W', F. rewrite L1, E. cbn [bind]. eexists _, _. split; [reflexivity|]. split; [|exact F].
        apply tset_wf; [exact WM|]. destruct Y1 as (Z1 & Z2 & Z4 & Z3). split; [exact Z1|]. cbn [e_node e_reprs].
        split; [revert Z2; apply Forall_impl; intros y; apply repr_ok_mono; [exact I2|apply ext_refl]|].
        split; [revert Z4; apply Forall_impl; intros y; apply fits_put|].
        apply Y6; [exact I2|exact W'].
      * destruct X2 as [Y1 Y2]. eexists _, _. split; [reflexivity|]. split.
        -- apply tset_wf; [exact WM|]. revert Y1. apply wf_entry_mono; [exact I2|apply ext_refl].
        -- constructor; [apply err_mono; exact Y2|constructor].
    + destruct (new_chain_ok idents v kind sp own KS KK (o :: o2 :: rest) done d c p place parent s k0 SD ID ltac:(discriminate) P CP G) as (e & es & E & W' & F).
      rewrite E. cbn [bind]. eexists _, _. split; [reflexivity|]. split; [|exact F]. apply tpush_wf; [|exact W'].
      revert W. apply wf_table_mono; [apply incl_appl, incl_refl|apply ext_refl].
Qed.

Lemma insert_at_path_ok p place parent m k v kind sp own d c s k0 :
  kind_span kind = Ok sp -> key_real k -> kind_key kind (key_idents k) -> path_ok c p place -> wf_table d c m -> c parent = Some (s, k0) -> good (s ++ key_idents k) own kind v ->
  exists m' es, insert_node_at_path p parent m k v kind = Ok (m', es) /\
    wf_table (d ++ key_spellings s k kind ++ own) c m' /\ Forall (map_err_ok (d ++ key_spellings s k kind ++ own)) es.
Proof.
  intros KS KR KK P W CP G. destruct k as [i|l]; cbn [insert_node_at_path].
  - apply (insert_node_ok d c p place m i v s k0 (MOne i) parent kind own sp); auto. apply kind_key_whole. exact KK.
  - apply (insert_dotted_ok l v kind sp own KS KK l [] d c p place parent s k0 m); auto.
    + exists s. symmetry. apply app_nil_r.
    + intros ->. apply KR. reflexivity.
Qed.

(** ** Values *)
Lemma key_start_ok k : key_real k -> exists p, key_start k = Ok p.
Proof. destruct k as [i|[|x l]]; intros H; cbn; eauto. exfalso. apply H. reflexivity. Qed.
Lemma key_end_ok k : key_real k -> exists p, key_end k = Ok p.
Proof.
  destruct k as [i|l]; intros H; cbn; eauto. induction l as [|x [|y l] IH].
  - exfalso. apply H. reflexivity.
  - cbn. eauto.
  - apply IH. discriminate.
Qed.

Lemma map_value_ok v : value_real v -> forall s, good_value v s (value_spellings s v) (map_value v).
Proof.
  induction v as [lp l e IH|cr lp l e IH|v SC] using value_ind2; intros VR s d c p place parent k0 C P NE.
  - cbn [map_value value_spellings value_real] in *. rewrite All_Forall in VR.
    set (own := fun a : iassign => key_spellings s (as_key (ia_assign a)) (MInl a) ++ value_spellings (s ++ key_idents (as_key (ia_assign a))) (as_val (ia_assign a))).
    assert (L : forall d m, wf_table d c m ->
      exists m' es, (fix go (l : list iassign) (m : mtable) : run (mtable * list terror) :=
           match l with
           | [] => Ok (m, [])
           | a :: r =>
               let? (m, es) := insert_node_at_path p parent m (as_key (ia_assign a)) (IValue (map_value (as_val (ia_assign a)))) (MInl a) in
               let? (m, es') := go r m in
               Ok (m, es ++ es')
           end) l m = Ok (m', es) /\ wf_table (d ++ flat_map own l) c m' /\ Forall (map_err_ok (d ++ flat_map own l)) es).
    { clear d. induction l as [|a l IHl]; intros d m W.
      - exists m, []. cbn. rewrite app_nil_r. auto.
      - destruct (Forall_inv VR) as [KR VR1]. pose proof (Forall_inv IH) as IH1. cbn beta in IH1.
        destruct (key_start_ok _ KR) as (ks & KS).
        assert (KSP : kind_span (MInl a) = Ok (mkspan ks (ia_end a))) by (cbn; unfold iassign_span; rewrite KS; reflexivity).
        destruct (insert_at_path_ok p place parent m (as_key (ia_assign a)) (IValue (map_value (as_val (ia_assign a)))) (MInl a) _
          (value_spellings (s ++ key_idents (as_key (ia_assign a))) (as_val (ia_assign a))) d c s k0 KSP KR eq_refl P W C (ex_intro _ _ (conj eq_refl (IH1 VR1 _)))) as (m1 & es1 & E1 & W1 & F1).
        rewrite E1. cbn [bind]. fold (own a) in W1, F1.
        destruct (IHl (Forall_inv_tail IH) (Forall_inv_tail VR) (d ++ own a) m1 W1) as (m2 & es2 & E2 & W2 & F2).
        rewrite E2. cbn [bind]. cbn [flat_map]. rewrite <- app_assoc in W2, F2. eexists _, _. split; [reflexivity|]. split; [exact W2|].
        apply Forall_app. split; [|exact F2]. rewrite app_assoc. apply errs_mono. exact F1. }
    destruct (L d [] ltac:(constructor)) as (m & es & E & W & F). rewrite E. cbn [bind].
    eexists _, _. split; [reflexivity|]. split; [exact I|]. split; [apply wf_NTable; exact W|exact F].
  - cbn [map_value value_spellings value_real] in *. rewrite All_Forall in VR.
    assert (L : forall d i,
      exists ns es, (fix go (l : list avalue) (i : N) : run (list ientry * list terror) :=
           match l with
           | [] => Ok ([], [])
           | a :: r =>
               let? (n, es) := map_value (av_val a) (SegArray i :: p) parent in
               let? (ns, es') := go r (i + 1) in
               Ok (mkie n a :: ns, es ++ es')
           end) l i = Ok (ns, es) /\ Forall (fun e => wf_node (d ++ flat_map (fun a => value_spellings s (av_val a)) l) c (ie_node e)) ns /\
        Forall (map_err_ok (d ++ flat_map (fun a => value_spellings s (av_val a)) l)) es).
    { clear d. induction l as [|a l IHl]; intros d i.
      - exists [], []. auto.
      - pose proof (Forall_inv VR) as VR1. pose proof (Forall_inv IH) as IH1. cbn beta in IH1, VR1.
        destruct (IH1 VR1 s d c (SegArray i :: p) (place ++ [SIdx i]) parent k0 C (path_ok_index _ _ _ i P NE) ltac:(discriminate)) as (n & es1 & E1 & _ & W1 & F1).
        rewrite E1. cbn [bind]. destruct (IHl (Forall_inv_tail IH) (Forall_inv_tail VR) (d ++ value_spellings s (av_val a)) (i + 1)) as (ns & es2 & E2 & W2 & F2).
        rewrite E2. cbn [bind]. cbn [flat_map]. rewrite <- app_assoc in W2, F2. eexists _, _. split; [reflexivity|]. split.
        + constructor; [|exact W2]. cbn [ie_node]. revert W1. apply wf_mono; [|apply ext_refl]. rewrite app_assoc. apply incl_appl, incl_refl.
        + apply Forall_app. split; [|exact F2]. rewrite app_assoc. apply errs_mono. exact F1. }
    destruct (L d 0) as (ns & es & E & W & F). rewrite E. cbn [bind].
    eexists _, _. split; [reflexivity|]. split; [exact I|]. split; [|exact F]. apply wf_NInline. split; [congruence|exact W].
  - destruct v; try destruct SC; (eexists _, _; split; [reflexivity|]; split; [cbn; tauto|]; split; [exact I|constructor]).
Qed.

Lemma tassign_span a : key_real (as_key (ta_assign a)) -> exists sp, kind_span (MTop a) = Ok sp.
Proof. intros KR. destruct (key_start_ok _ KR) as (ks & KS). cbn. unfold assign_span. rewrite KS. cbn. eauto. Qed.

Lemma assign_ok p place parent m a d c s k0 : tassign_real a -> path_ok c p place -> wf_table d c m -> c parent = Some (s, k0) ->
  exists m' es, insert_node_at_path p parent m (as_key (ta_assign a)) (IValue (map_value (as_val (ta_assign a)))) (MTop a) = Ok (m', es) /\
    wf_table (d ++ assign_spellings s a) c m' /\ Forall (map_err_ok (d ++ assign_spellings s a)) es.
Proof.
  intros [KR VR] P W C. destruct (tassign_span _ KR) as (sp & SP).
  apply (insert_at_path_ok p place parent m _ _ (MTop a) sp _ d c s k0 SP KR eq_refl P W C). cbn [good]. eexists. split; [reflexivity|]. apply map_value_ok. exact VR.
Qed.

Lemma insert_assigns_ok l : Forall tassign_real l -> forall s, good_assigns s (flat_map (assign_spellings s) l) (insert_assigns l).
Proof.
  intros F s. induction F as [|a l A F IH]; intros d c p place parent k0 m C P NE W.
  - exists m, []. cbn. rewrite app_nil_r. auto.
  - cbn [insert_assigns flat_map]. destruct (assign_ok p place parent m a d c s k0 A P W C) as (m1 & es1 & E1 & W1 & F1). rewrite E1. cbn [bind].
    destruct (IH _ c p place parent k0 m1 C P NE W1) as (m2 & es2 & E2 & W2 & F2). rewrite E2. cbn [bind]. rewrite <- app_assoc in W2, F2.
    eexists _, _. split; [reflexivity|]. split; [exact W2|]. apply Forall_app. split; [|exact F2]. rewrite app_assoc. apply errs_mono. exact F1.
Qed.

Lemma assigns_end_ok l h : (exists p, h = Ok p) -> exists p, assigns_end l h = Ok p.
Proof.
  intros H. destruct l as [|a l]; [exact H|]. cbn [assigns_end].
  assert (L : exists x, last_of (a :: l) = Ok x).
  { clear. revert a. induction l as [|b l IH]; intros a; [cbn; eauto|]. apply IH. }
  destruct L as (x & ->). cbn. eauto.
Qed.
Lemma table_span_ok t k : th_key (tb_header t) = Some k -> key_real k -> exists sp, kind_span (MTable t) = Ok sp.
Proof.
  intros K KR. destruct (assigns_end_ok (tb_assigns t) (theader_end (tb_header t))) as (e & E).
  - unfold theader_end. destruct (th_r_off (tb_header t)); [eauto|]. rewrite K. apply key_end_ok. exact KR.
  - cbn [kind_span]. rewrite E. cbn. eauto.
Qed.
Lemma entry_span_ok t k : ah_key (ae_header t) = Some k -> key_real k -> exists sp, kind_span (MArrayEntry t) = Ok sp.
Proof.
  intros K KR. destruct (assigns_end_ok (ae_assigns t) (aheader_end (ae_header t))) as (e & E).
  - unfold aheader_end. destruct (ah_r_offs (ae_header t)) as [[a|] [b|]]; cbn [fst snd]; eauto. rewrite K. apply key_end_ok. exact KR.
  - cbn [kind_span]. rewrite E. cbn. eauto.
Qed.

Lemma map_ast_ok d m a : ast_real a -> wf_table d root_chains m ->
  exists m' es, map_ast m a = Ok (m', es) /\ wf_table (d ++ ast_spellings a) root_chains m' /\ Forall (map_err_ok (d ++ ast_spellings a)) es.
Proof.
  intros AR W.
  assert (SKIP : exists m' es, Ok (E := Empty_set) (m, @nil terror) = Ok (m', es) /\ wf_table (d ++ []) root_chains m' /\ Forall (map_err_ok (d ++ [])) es).
  { exists m, []. rewrite app_nil_r. auto. }
  destruct a as [a|t|t|c]; cbn [map_ast ast_spellings ast_real] in *.
  - apply (assign_ok [] [] root_parent m a d root_chains [] None AR path_ok_root W eq_refl).
  - destruct AR as [KR FR]. destruct (th_key (tb_header t)) as [k|] eqn:K; [|exact SKIP]. destruct (table_span_ok t k K KR) as (sp & SP).
    apply (insert_at_path_ok [] [] root_parent m k _ (MTable t) sp _ d root_chains [] None SP KR I path_ok_root W eq_refl).
    cbn [good]. split; [exists t; reflexivity|]. apply insert_assigns_ok. exact FR.
  - destruct AR as [KR FR]. destruct (ah_key (ae_header t)) as [k|] eqn:K; [|exact SKIP]. destruct (entry_span_ok t k K KR) as (sp & SP).
    apply (insert_at_path_ok [] [] root_parent m k _ (MArrayEntry t) sp _ d root_chains [] None SP KR I path_ok_root W eq_refl).
    cbn [good]. split; [reflexivity|]. split; [exists k; auto|]. apply insert_assigns_ok. exact FR.
  - exact SKIP.
Qed.

Lemma map_asts_ok l : Forall ast_real l -> forall d m, wf_table d root_chains m ->
  exists m' es, map_asts m l = Ok (m', es) /\ wf_table (d ++ doc_spellings l) root_chains m' /\ Forall (map_err_ok (d ++ doc_spellings l)) es.
Proof.
  intros F. induction F as [|a l A F IH]; intros d m W.
  - exists m, []. cbn. rewrite app_nil_r. auto.
  - cbn [map_asts doc_spellings flat_map]. destruct (map_ast_ok d m a A W) as (m1 & es1 & E1 & W1 & F1). rewrite E1. cbn [bind].
    destruct (IH _ m1 W1) as (m2 & es2 & E2 & W2 & F2). rewrite E2. cbn [bind]. rewrite <- app_assoc in W2, F2.
    eexists _, _. split; [reflexivity|]. split; [exact W2|]. apply Forall_app. split; [|exact F2]. rewrite app_assoc. apply errs_mono. exact F1.
Qed.
Lemma map_doc_ok l : Forall ast_real l ->
  exists m es, map_doc l = Ok (m, es) /\ wf_table (doc_spellings l) root_chains m /\ Forall (map_err_ok (doc_spellings l)) es.
Proof. intros F. apply (map_asts_ok l F [] []). constructor. Qed.
