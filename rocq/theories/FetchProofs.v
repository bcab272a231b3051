(** Proofs about reading the index: the derived decoders against FetchSpec. *)
From Verif Require Import Base BaseProofs CommonModel IndexModel IndexSpec IndexProofs FetchModel FetchSpec.
From Verif Require SemverModel SemverSpec PropSemver DiagModel.

Section Decode.
Context (prof : profile).
(** A value whose versions are read alike by all builds. *)
Definition settled (j : jval) : Prop := prof = Debug \/ forall s, mentions j s -> valid_utf8 s /\ ~ SemverSpec.contains_overflow s.
Lemma settled_array l j : settled (JArray l) -> In j l -> settled j.
Proof. intros [P|P] H; [left; exact P|right]. intros s M. apply P. econstructor; eassumption. Qed.
Lemma settled_object l x k j : settled (JObject l) -> In (x, k, j) l -> settled j.
Proof. intros [P|P] H; [left; exact P|right]. intros s M. apply P. econstructor; eassumption. Qed.

Lemma bind_ok {E A B} (r : res E A) (f : A -> res E B) y : bind r f = Ok y <-> exists x, r = Ok x /\ f x = Ok y.
Proof. destruct r as [x|e|]; cbn [bind]; split; try discriminate; try (intros (x' & E0 & _); discriminate); [eauto|]. intros (x' & E0 & F). injection E0 as <-. exact F. Qed.

Lemma version_ok j v : settled j -> (de_version prof j = Ok v <-> version_of j v).
Proof.
  intros ST. unfold version_of, string_of, de_version, visit_version. destruct j as [| | |x s| |]; try (split; [discriminate|intros (s0 & (x0 & E) & _); discriminate]).
  transitivity (SemverModel.parse_version prof s pos_zero = Ok v).
  - destruct (SemverModel.parse_version prof s pos_zero) as [v'|e|]; split; congruence.
  - transitivity (SemverSpec.version_grammar s v).
    + destruct ST as [-> |ST]; [apply PropSemver.C04_parse_version_grammar|]. destruct (ST s (mn_string x s)) as [U O]. apply PropSemver.C04_parse_version_grammar_any_build; assumption.
    + split; [eauto|]. intros (s0 & (x0 & E) & G). injection E as _ ->. exact G.
Qed.
Lemma requirement_ok j r : settled j -> (de_requirement prof j = Ok r <-> requirement_of j r).
Proof.
  intros ST. unfold requirement_of, string_of, de_requirement, visit_requirement. destruct j as [| | |x s| |]; try (split; [discriminate|intros (s0 & cs & (x0 & E) & _); discriminate]).
  transitivity (SemverModel.parse_requirement prof s pos_zero = Ok r).
  - destruct (SemverModel.parse_requirement prof s pos_zero) as [v'|e|]; split; congruence.
  - transitivity (SemverModel.parse_requirement Debug s pos_zero = Ok r).
    + destruct ST as [-> |ST]; [reflexivity|]. destruct (ST s (mn_string x s)) as [U O]. rewrite (PropSemver.C07_parse_requirement_any_build prof s pos_zero U O). reflexivity.
    + rewrite PropSemver.C07_parse_requirement_grammar. split.
      * intros (cs & G & E). exists s, cs. eauto.
      * intros (s0 & cs & (x0 & E) & G & R). injection E as _ ->. eauto.
Qed.
Lemma string_ok j s : de_string j = Ok s <-> string_of j s.
Proof. unfold string_of. destruct j; cbn [de_string]; split; try discriminate; try (intros (x & E); discriminate); [intros H; injection H as ->; eauto|intros (x & E); congruence]. Qed.
Lemma borrowed_ok j s : de_borrowed j = Ok s <-> verbatim j s.
Proof. unfold verbatim. destruct j as [| | |[] t| |]; cbn [de_borrowed]; split; congruence. Qed.
Lemma bool_ok j b : de_bool j = Ok b <-> bool_of j b.
Proof. unfold bool_of. destruct j; cbn [de_bool]; split; congruence. Qed.
Lemma option_ok {A} (d : jval -> de A) R j o : (forall x, d j = Ok x <-> R j x) -> (forall x, ~ R JNull x) -> (de_option d j = Ok o <-> or_null R j o).
Proof.
  intros H N0. unfold de_option, or_null. assert (NN : j <> JNull -> (let? x := d j in Ok (Some x)) = Ok o <-> match o with None => j = JNull | Some x => R j x end).
  { intros NE. rewrite bind_ok. destruct o as [x|].
    - rewrite <- H. split; [intros (y & E & F); congruence|eauto].
    - split; [intros (y & E & F); discriminate|contradiction]. }
  destruct j; try (apply NN; discriminate). destruct o as [x|]; [|split; reflexivity]. split; [discriminate|]. intros X. destruct (N0 _ X).
Qed.
Lemma list_ok {A} (d : jval -> de A) R l xs : (forall j x, In j l -> (d j = Ok x <-> R j x)) -> (de_list d l = Ok xs <-> Forall2 R l xs).
Proof.
  revert xs. induction l as [|j l IH]; intros xs H; cbn [de_list].
  - split; [intros E; injection E as <-; constructor|]. intros F. inversion F. reflexivity.
  - rewrite bind_ok. split.
    + intros (x & E & F). apply bind_ok in F as (ys & E2 & F). injection F as <-. constructor; [apply H; [left; reflexivity|exact E]|]. apply IH; [intros ? ? ?; apply H; right; assumption|exact E2].
    + intros F. inversion F as [|? x ? ys E F2]; subst. exists x. split; [apply H; [left; reflexivity|exact E]|]. apply bind_ok. exists ys. split; [|reflexivity].
      apply IH; [intros ? ? ?; apply H; right; assumption|exact F2].
Qed.
Lemma vec_ok {A} (d : jval -> de A) R j xs : (forall l i x, j = JArray l -> In i l -> (d i = Ok x <-> R i x)) -> (de_vec d j = Ok xs <-> list_of R j xs).
Proof.
  intros H. unfold de_vec, list_of. destruct j as [| | | |l|]; try (split; [discriminate|intros (js & E & _); discriminate]).
  rewrite (list_ok d R) by (intros; eapply H; [reflexivity|assumption]). split; [eauto|]. intros (js & E & F). injection E as ->. exact F.
Qed.

(** Maps. *)
Definition last_given (ms : list member) (k : bytes) (l : list bytes) : Prop :=
  exists a x b j, ms = a ++ (x, k, j) :: b /\ ~ In k (names b) /\ list_of verbatim j l.
Lemma borrowed_vec j l : de_vec de_borrowed j = Ok l <-> list_of verbatim j l.
Proof. apply vec_ok. intros. apply borrowed_ok. Qed.
Lemma members_ok ms m : de_members ms = Ok m <-> Forall2 (fun x y => fst (fst x) = true /\ fst y = snd (fst x) /\ list_of verbatim (snd x) (snd y)) ms m.
Proof.
  revert m. induction ms as [|[[vb k] j] ms IH]; intros m; cbn [de_members].
  - split; [intros E; injection E as <-; constructor|]. intros F. inversion F. reflexivity.
  - destruct vb.
    + rewrite bind_ok. split.
      * intros (v & E & F). apply bind_ok in F as (m' & E2 & F). injection F as <-. constructor; [cbn [fst snd]; split; [reflexivity|split; [reflexivity|apply borrowed_vec; exact E]]|apply IH; exact E2].
      * intros F. inversion F as [|? [k' v] ? m' (_ & E1 & E2) F2]; subst. cbn [fst snd] in *. subst k'. exists v. split; [apply borrowed_vec; exact E2|]. apply bind_ok. exists m'. split; [apply IH; exact F2|reflexivity].
    + split; [discriminate|]. intros F. inversion F as [|? ? ? ? (E1 & _) _]. discriminate.
Qed.
Lemma insert_fst m k v : map fst (imap_insert m k v) = if existsb (bytes_eqb k) (map fst m) then map fst m else map fst m ++ [k].
Proof.
  induction m as [|[k' v'] m IH]; [reflexivity|]. cbn [imap_insert map fst existsb].
  assert (SY : bytes_eqb k k' = bytes_eqb k' k).
  { destruct (bytes_eqb k k') eqn:A, (bytes_eqb k' k) eqn:B; try reflexivity; [apply bytes_eqb_eq in A; subst; rewrite (proj2 (bytes_eqb_eq k' k') eq_refl) in B; discriminate|apply bytes_eqb_eq in B; subst; rewrite (proj2 (bytes_eqb_eq k k) eq_refl) in A; discriminate]. }
  rewrite SY. destruct (bytes_eqb k' k); cbn [map fst orb]; [reflexivity|]. rewrite IH. destruct (existsb _ _); reflexivity.
Qed.
Lemma firsts_in l k : In k (firsts l) <-> In k l.
Proof.
  induction l as [|x l IH]; [reflexivity|]. cbn [firsts In]. rewrite filter_In, IH. split; [tauto|]. intros [->|H]; [auto|].
  destruct (bytes_eqb k x) eqn:E; [left; symmetry; apply bytes_eqb_eq; exact E|right; auto].
Qed.
Lemma firsts_snoc l k : firsts (l ++ [k]) = if existsb (bytes_eqb k) (firsts l) then firsts l else firsts l ++ [k].
Proof.
  induction l as [|x l IH]; [reflexivity|]. cbn [app firsts existsb]. rewrite IH. destruct (bytes_eqb k x) eqn:KX; cbn [orb].
  - apply bytes_eqb_eq in KX. subst x. destruct (existsb _ _); [reflexivity|]. rewrite filter_app. cbn [filter]. rewrite (proj2 (bytes_eqb_eq k k) eq_refl). cbn [negb]. rewrite app_nil_r. reflexivity.
  - assert (EF : existsb (bytes_eqb k) (filter (fun y => negb (bytes_eqb y x)) (firsts l)) = existsb (bytes_eqb k) (firsts l)).
    { clear IH. induction (firsts l) as [|y ys IHy]; [reflexivity|]. cbn [filter existsb]. destruct (bytes_eqb y x) eqn:YX; cbn [negb existsb]; rewrite IHy; [|reflexivity].
      apply bytes_eqb_eq in YX. subst y. rewrite KX. reflexivity. }
    rewrite EF. destruct (existsb _ _); [reflexivity|]. rewrite filter_app. cbn [filter]. rewrite KX. reflexivity.
Qed.
Lemma collect_fst l : map fst (imap_collect l) = firsts (map fst l).
Proof.
  induction l as [|[k v] l IH] using rev_ind; [reflexivity|]. unfold imap_collect. rewrite fold_left_app. fold (imap_collect l). cbn [fold_left fst snd]. rewrite insert_fst, IH, map_app. cbn [map fst]. symmetry. apply firsts_snoc.
Qed.
Lemma firsts_nodup l : NoDup (firsts l).
Proof.
  induction l as [|x l IH]; [constructor|]. cbn [firsts]. constructor.
  - rewrite filter_In. intros [_ H]. rewrite (proj2 (bytes_eqb_eq x x) eq_refl) in H. discriminate.
  - apply NoDup_filter. exact IH.
Qed.
(** A map is given by its keys and what they stand for. *)
Lemma imap_ext (m m' : imap) : NoDup (map fst m) -> map fst m = map fst m' -> (forall k l, In (k, l) m <-> In (k, l) m') -> m = m'.
Proof.
  revert m'. induction m as [|[k l] m IH]; intros [|[k' l'] m'] D E H; try discriminate; [reflexivity|]. cbn [map fst] in *. injection E as <- E. apply NoDup_cons_iff in D as [D1 D2].
  assert (L : l = l').
  { destruct (proj1 (H k l) (or_introl eq_refl)) as [X|X]; [congruence|]. apply (in_map fst) in X. cbn [fst] in X. rewrite <- E in X. contradiction. }
  subst l'. f_equal. apply IH; [exact D2|exact E|]. intros k0 l0. specialize (H k0 l0). cbn [In] in H. split; intros X.
  - destruct (proj1 H (or_intror X)) as [Y|Y]; [|exact Y]. injection Y as -> ->. apply (in_map fst) in X. contradiction.
  - destruct (proj2 H (or_intror X)) as [Y|Y]; [|exact Y]. injection Y as -> ->. apply (in_map fst) in X. cbn [fst] in X. rewrite <- E in X. contradiction.
Qed.
Lemma Forall2_split {A B} (R : A -> B -> Prop) a x b l : Forall2 R (a ++ x :: b) l -> exists a' x' b', l = a' ++ x' :: b' /\ Forall2 R a a' /\ R x x' /\ Forall2 R b b'.
Proof. intros F. apply Forall2_app_inv_l in F as (a' & t & F1 & F2 & ->). inversion F2 as [|? x' ? b' RX F3]; subst. exists a', x', b'. auto. Qed.
Lemma Forall2_split_r {A B} (R : A -> B -> Prop) a x b l : Forall2 R l (a ++ x :: b) -> exists a' x' b', l = a' ++ x' :: b' /\ Forall2 R a' a /\ R x' x /\ Forall2 R b' b.
Proof. intros F. apply Forall2_app_inv_r in F as (a' & t & F1 & F2 & ->). inversion F2 as [|x' ? b' ? RX F3]; subst. exists a', x', b'. auto. Qed.
Definition same_member (x : member) (y : bytes * list bytes) : Prop := fst (fst x) = true /\ fst y = snd (fst x) /\ list_of verbatim (snd x) (snd y).
Lemma same_names ms m : Forall2 same_member ms m -> map fst m = names ms.
Proof. induction 1 as [|x y ms m (_ & E & _) F IH]; [reflexivity|]. cbn [map names]. unfold names in IH. rewrite IH, E. reflexivity. Qed.
Lemma verbatim_fun j l l' : list_of verbatim j l -> list_of verbatim j l' -> l = l'.
Proof.
  intros (js & -> & F) (js' & E & F'). injection E as <-. revert l' F'. induction F as [|x y js l H F IH]; intros l' F'; inversion F'; subst; [reflexivity|]. unfold verbatim in *. f_equal; [congruence|auto].
Qed.
Lemma same_last ms m k l : Forall2 same_member ms m -> (last_pair m k l <-> last_given ms k l).
Proof.
  intros F. split.
  - intros (a & b & -> & N0). apply Forall2_split_r in F as (a' & [[x k'] j] & b' & -> & _ & (E1 & E2 & E3) & F2). cbn [fst snd] in *. subst k' x. exists a', true, b', j. split; [reflexivity|]. split; [|exact E3].
    rewrite <- (same_names _ _ F2). exact N0.
  - intros (a & x & b & j & -> & N0 & L). apply Forall2_split in F as (a' & [k' l'] & b' & -> & _ & (E1 & E2 & E3) & F2). cbn [fst snd] in *. subst k'. rewrite (verbatim_fun _ _ _ L E3). exists a', b'. split; [reflexivity|].
    rewrite (same_names _ _ F2). exact N0.
Qed.
Lemma features_ok j m : de_features j = Ok m <-> features_of j m.
Proof.
  unfold de_features, features_of. destruct j as [| | | | |ms]; try (split; [discriminate|intros (ms & E & _); discriminate]).
  rewrite bind_ok. split.
  - intros (m0 & E & F). injection F as <-. apply members_ok in E. destruct (collect_spec m0) as [_ CS]. exists ms. split; [reflexivity|]. split; [|split].
    + clear - E. induction E as [|x y ms m (E1 & E2 & E3) F IH]; constructor; [split; [exact E1|eauto]|exact IH].
    + rewrite collect_fst, (same_names _ _ E). reflexivity.
    + intros k l. rewrite CS. exact (same_last _ _ _ _ E).
  - intros (ms' & E & FA & FS & IN). injection E as <-.
    assert (M : exists m0, Forall2 same_member ms m0).
    { clear - FA. induction FA as [|x ms (E1 & l & L) F (m0 & IH)]; [exists []; constructor|]. exists ((snd (fst x), l) :: m0). constructor; [split; [exact E1|split; [reflexivity|exact L]]|exact IH]. }
    destruct M as (m0 & M). exists m0. split; [apply members_ok; exact M|]. f_equal. destruct (collect_spec m0) as [ND CS]. apply imap_ext; [exact ND|rewrite collect_fst, (same_names _ _ M), FS; reflexivity|].
    intros k l. rewrite CS, (same_last _ _ _ _ M), IN. reflexivity.
Qed.
Lemma features_distinct j m : features_of j m -> NoDup (map fst m).
Proof. intros (ms & _ & _ & E & _). rewrite E. apply firsts_nodup. Qed.

Lemma kind_ok j k : de_kind j = Ok k <-> kind_of j k.
Proof.
  assert (KN : forall s, kind_named s = Ok k <-> kind_name s k).
  { intros s. unfold kind_named. split.
    - destruct (bytes_eqb s (bs "normal")) eqn:E; [apply bytes_eqb_eq in E; subst; intros H; injection H as <-; constructor|].
      destruct (bytes_eqb s (bs "dev")) eqn:E2; [apply bytes_eqb_eq in E2; subst; intros H; injection H as <-; constructor|].
      destruct (bytes_eqb s (bs "build")) eqn:E3; [apply bytes_eqb_eq in E3; subst; intros H; injection H as <-; constructor|discriminate].
    - intros H. destruct H; reflexivity. }
  split.
  - destruct j as [| | |x s| |[|[[x s] []] []]]; cbn [de_kind]; try discriminate; intros H; constructor; apply KN; exact H.
  - intros H. destruct H; cbn [de_kind]; apply KN; assumption.
Qed.

(** ** Structs *)
Fixpoint scan {A} (k : bytes) (d : jval -> de A) (o : option A) (l : list member) : de (option A) :=
  match l with
  | [] => Ok o
  | (_, k', j) :: r => if bytes_eqb k' k then let? x := once o (d j) in scan k d x r else scan k d o r
  end.
Lemma scan_some {A} k (d : jval -> de A) x l o : scan k d (Some x) l = Ok o <-> absent l k /\ o = Some x.
Proof.
  unfold absent. induction l as [|[[v k'] j] l IH]; cbn [scan names map fst snd In].
  - split; [intros H; injection H as <-; auto|intros [_ ->]; reflexivity].
  - destruct (bytes_eqb k' k) eqn:E.
    + apply bytes_eqb_eq in E. subst k'. cbn [once bind]. split; [discriminate|intros [H _]; destruct H; left; reflexivity].
    + rewrite IH. split; [intros [H ->]; split; [|reflexivity]|intros [H ->]; split; [|reflexivity]].
      * intros [-> |X]; [rewrite (proj2 (bytes_eqb_eq k k) eq_refl) in E; discriminate|exact (H X)].
      * intros X. apply H. right. exact X.
Qed.
Lemma scan_none {A} k (d : jval -> de A) l o : scan k d None l = Ok o <-> (absent l k /\ o = None) \/ (exists j x, only l k j /\ d j = Ok x /\ o = Some x).
Proof.
  induction l as [|[[v k'] j] l IH]; cbn [scan].
  - split; [intros H; injection H as <-; left; split; [intros []|reflexivity]|]. intros [[_ ->]|(j & x & (a & y & b & E & _) & _)]; [reflexivity|destruct a; discriminate].
  - destruct (bytes_eqb k' k) eqn:E.
    + apply bytes_eqb_eq in E. subst k'. rewrite bind_ok. split.
      * intros (y & F & G). unfold once in F. apply bind_ok in F as (x & D & F). injection F as <-. apply scan_some in G as [AB ->]. right. exists j, x. split; [|auto]. exists [], v, l. split; [reflexivity|]. split; [intros []|exact AB].
      * intros [[AB _]|(j' & x & (a & y & b & EL & N1 & N2) & D & ->)]; [destruct AB; left; reflexivity|].
        destruct a as [|[[v0 k0] j0] a]; [|exfalso; injection EL as <- <- <- ->; apply N1; left; reflexivity].
        injection EL as <- <- <-. exists (Some x). split; [unfold once; rewrite D; reflexivity|]. apply scan_some. auto.
    + assert (NK : k' <> k) by (intros ->; rewrite (proj2 (bytes_eqb_eq k k) eq_refl) in E; discriminate). rewrite IH. split.
      * intros [[AB ->]|(j' & x & (a & y & b & -> & N1 & N2) & D & ->)]; [left; split; [intros [X|X]; [exact (NK X)|exact (AB X)]|reflexivity]|].
        right. exists j', x. split; [|auto]. exists ((v, k', j) :: a), y, b. split; [reflexivity|]. split; [|exact N2]. intros [X|X]; [exact (NK X)|exact (N1 X)].
      * intros [[AB ->]|(j' & x & (a & y & b & EL & N1 & N2) & D & ->)]; [left; split; [intros X; apply AB; right; exact X|reflexivity]|].
        destruct a as [|[[v0 k0] j0] a]; [exfalso; injection EL as _ X _ _; exact (NK X)|]. injection EL as <- <- <- ->.
        right. exists j', x. split; [|auto]. exists a, y, b. split; [reflexivity|]. split; [|exact N2]. intros X. apply N1. right. exact X.
Qed.
Lemma scan_required {A} k (d : jval -> de A) (R : jval -> A -> Prop) l x : (forall j y, In j (map snd l) -> (d j = Ok y <-> R j y)) ->
  ((exists o, scan k d None l = Ok o /\ need o = Ok x) <-> required l k R x).
Proof.
  intros H. unfold required. assert (IJ : forall j, only l k j -> In j (map snd l)).
  { intros j (a & y & b & -> & _). rewrite map_app. apply in_or_app. right. left. reflexivity. }
  split.
  - intros (o & S0 & N0). apply scan_none in S0 as [[_ ->]|(j & y & ON & D & ->)]; [discriminate|]. injection N0 as ->. exists j. split; [exact ON|]. apply H; [exact (IJ _ ON)|exact D].
  - intros (j & ON & RX). exists (Some x). split; [|reflexivity]. apply scan_none. right. exists j, x. split; [exact ON|]. split; [|reflexivity]. apply H; [exact (IJ _ ON)|exact RX].
Qed.
Lemma scan_optional {A} k (d : jval -> de A) (R : jval -> A -> Prop) l n x : (forall j y, In j (map snd l) -> (d j = Ok y <-> R j y)) ->
  ((exists o, scan k d None l = Ok o /\ or_default n o = Ok x) <-> optional l k R n x).
Proof.
  intros H. unfold optional. rewrite <- (scan_required k d R l x H). split.
  - intros (o & S0 & N0). pose proof S0 as S1. apply scan_none in S1 as [[AB ->]|(j & y & ON & D & ->)]; [left; injection N0 as ->; auto|right; exists (Some y); auto].
  - intros [[AB ->]|(o & S0 & N0)]; [exists None; split; [apply scan_none; left; auto|reflexivity]|]. destruct o; [|discriminate]. eauto.
Qed.
(** Reading the members one after the other is reading each of them. *)
Ltac other_key := match goal with |- context [bytes_eqb ?a ?b] => change (bytes_eqb a b) with false; cbv iota end.
Lemma bind_and {A B} (r : de A) (f : A -> de B) (P : A -> Prop) (y : B) : (forall x, f x = Ok y <-> P x) -> (bind r f = Ok y <-> exists x, r = Ok x /\ P x).
Proof. intros H. rewrite bind_ok. split; intros (x & E & F); exists x; split; try exact E; apply H; exact F. Qed.
Lemma dep_scan l : forall p q, dep_members prof p l = Ok q <->
  scan (bs "name") de_string (pd_name p) l = Ok (pd_name q) /\ scan (bs "package") (de_option de_string) (pd_package p) l = Ok (pd_package q) /\
  scan (bs "req") (de_requirement prof) (pd_req p) l = Ok (pd_req q) /\ scan (bs "default_features") de_bool (pd_default p) l = Ok (pd_default q) /\
  scan (bs "features") (de_vec de_string) (pd_features p) l = Ok (pd_features q) /\ scan (bs "kind") de_kind (pd_kind p) l = Ok (pd_kind q) /\
  scan (bs "target") (de_option de_string) (pd_target p) l = Ok (pd_target q) /\ scan (bs "optional") de_bool (pd_optional p) l = Ok (pd_optional q).
Proof.
  induction l as [|[[v k] j] l IH]; intros [n pk r df fs kd tg op] q; cbn [dep_members scan pd_name pd_package pd_req pd_default pd_features pd_kind pd_target pd_optional].
  - destruct q as [n0 pk0 r0 df0 fs0 kd0 tg0 op0]. cbn [pd_name pd_package pd_req pd_default pd_features pd_kind pd_target pd_optional]. split; [intros H; injection H as <- <- <- <- <- <- <- <-; auto 10|].
    intros (H1 & H2 & H3 & H4 & H5 & H6 & H7 & H8). congruence.
  - unfold dep_member.
    repeat match goal with |- context [if bytes_eqb k ?s then let? x := once _ _ in Ok _ else _] =>
      let E := fresh "E" in destruct (bytes_eqb k s) eqn:E;
      [apply bytes_eqb_eq in E; subst k; repeat (match goal with |- context [bytes_eqb (bs ?a) (bs ?b)] => let v := eval vm_compute in (bytes_eqb (bs a) (bs b)) in change (bytes_eqb (bs a) (bs b)) with v; cbv iota end);
       rewrite !bind_ok; split;
        [intros (p1 & H1 & H2); apply bind_ok in H1 as (x & H0 & H1); injection H1 as <-; apply IH in H2; cbn [pd_name pd_package pd_req pd_default pd_features pd_kind pd_target pd_optional] in H2; intuition eauto
        |intros (B1 & B2 & B3 & B4 & B5 & B6 & B7 & B8); match goal with H : exists x, once _ _ = Ok x /\ _ |- _ => destruct H as (x & Ha & Hb) end;
         match goal with Ha : once _ _ = Ok ?x |- _ => eexists; split; [rewrite Ha; reflexivity|apply IH; cbn [pd_name pd_package pd_req pd_default pd_features pd_kind pd_target pd_optional]; intuition eauto] end]
      |] end.
    cbn [bind]. apply IH.
Qed.
Lemma entry_scan l : forall p q, entry_members prof p l = Ok q <->
  scan (bs "name") de_borrowed (pe_name p) l = Ok (pe_name q) /\ scan (bs "vers") (de_version prof) (pe_vers p) l = Ok (pe_vers q) /\
  scan (bs "features") de_features (pe_features p) l = Ok (pe_features q) /\ scan (bs "features2") de_features (pe_features2 p) l = Ok (pe_features2 q) /\
  scan (bs "deps") (de_vec (de_dep prof)) (pe_deps p) l = Ok (pe_deps q) /\ scan (bs "yanked") de_bool (pe_yanked p) l = Ok (pe_yanked q) /\
  scan (bs "rust_version") (de_option (de_version prof)) (pe_rust p) l = Ok (pe_rust q).
Proof.
  induction l as [|[[v k] j] l IH]; intros [n vs f f2 d y r] q; cbn [entry_members scan pe_name pe_vers pe_features pe_features2 pe_deps pe_yanked pe_rust].
  - destruct q as [n0 vs0 f0 f20 d0 y0 r0]. cbn [pe_name pe_vers pe_features pe_features2 pe_deps pe_yanked pe_rust]. split; [intros H; injection H as <- <- <- <- <- <- <-; auto 10|].
    intros (H1 & H2 & H3 & H4 & H5 & H6 & H7). congruence.
  - unfold entry_member.
    repeat match goal with |- context [if bytes_eqb k ?s then let? x := once _ _ in Ok _ else _] =>
      let E := fresh "E" in destruct (bytes_eqb k s) eqn:E;
      [apply bytes_eqb_eq in E; subst k; repeat (match goal with |- context [bytes_eqb (bs ?a) (bs ?b)] => let v := eval vm_compute in (bytes_eqb (bs a) (bs b)) in change (bytes_eqb (bs a) (bs b)) with v; cbv iota end);
       rewrite !bind_ok; split;
        [intros (p1 & H1 & H2); apply bind_ok in H1 as (x & H0 & H1); injection H1 as <-; apply IH in H2; cbn [pe_name pe_vers pe_features pe_features2 pe_deps pe_yanked pe_rust] in H2; intuition eauto
        |intros (B1 & B2 & B3 & B4 & B5 & B6 & B7); match goal with H : exists x, once _ _ = Ok x /\ _ |- _ => destruct H as (x & Ha & Hb) end;
         match goal with Ha : once _ _ = Ok ?x |- _ => eexists; split; [rewrite Ha; reflexivity|apply IH; cbn [pe_name pe_vers pe_features pe_features2 pe_deps pe_yanked pe_rust]; intuition eauto] end]
      |] end.
    cbn [bind]. apply IH.
Qed.

Lemma in_member (l : list member) j : In j (map snd l) -> exists x k, In (x, k, j) l.
Proof. intros H. apply in_map_iff in H as ([[x k] j'] & <- & H). eauto. Qed.
Lemma no_null_string x : ~ string_of JNull x. Proof. intros (v & E). discriminate. Qed.
Lemma no_null_version x : ~ version_of JNull x. Proof. intros (s & (v & E) & _). discriminate. Qed.
Lemma strings_ok j l : de_vec de_string j = Ok l <-> list_of string_of j l.
Proof. apply vec_ok. intros. apply string_ok. Qed.
Lemma opt_string_ok j o : de_option de_string j = Ok o <-> or_null string_of j o.
Proof. apply option_ok; [intros; apply string_ok|exact no_null_string]. Qed.
Lemma opt_version_ok j o : settled j -> (de_option (de_version prof) j = Ok o <-> or_null version_of j o).
Proof. intros ST. apply option_ok; [intros; apply version_ok; exact ST|exact no_null_version]. Qed.

Ltac seq H := apply bind_ok in H; let x := fresh "x" in let E := fresh "E" in destruct H as (x & E & H).
Lemma dep_ok j d : settled j -> (de_dep prof j = Ok d <-> dep_of j d).
Proof.
  intros ST. destruct j as [| | | |l|l]; try (split; [discriminate|intros H; inversion H]).
  - assert (SI : forall i, In i l -> settled i) by (intros i; apply settled_array; exact ST). cbn [de_dep]. split.
    + destruct l as [|n [|pk [|r [|df [|fs [|kd [|tg [|op [|]]]]]]]]]; try discriminate. intros H. do 8 seq H. injection H as <-.
      constructor; cbn [id_name id_package id_req id_default id_features id_kind id_target id_optional]; [apply string_ok|apply opt_string_ok|apply requirement_ok; [apply SI; cbn; tauto|]|apply bool_ok|apply strings_ok|apply kind_ok|apply opt_string_ok|apply bool_ok]; assumption.
    + intros H. inversion H as [|n pk r df fs kd tg op d' H1 H2 H3 H4 H5 H6 H7 H8]; subst.
      apply string_ok in H1. apply opt_string_ok in H2. apply requirement_ok in H3; [|apply SI; cbn; tauto]. apply bool_ok in H4. apply strings_ok in H5. apply kind_ok in H6. apply opt_string_ok in H7. apply bool_ok in H8.
      rewrite H1. cbn [bind]. rewrite H2. cbn [bind]. rewrite H3. cbn [bind]. rewrite H4. cbn [bind]. rewrite H5. cbn [bind]. rewrite H6. cbn [bind]. rewrite H7. cbn [bind]. rewrite H8. cbn [bind]. destruct d; reflexivity.
  - assert (SI : forall i, In i (map snd l) -> settled i) by (intros i X; apply in_member in X as (x & k & X); exact (settled_object _ _ _ _ ST X)). cbn [de_dep].
    assert (EQ : (let? p := dep_members prof (mkpdep None None None None None None None None) l in dep_done p) = Ok d <->
      (exists o, scan (bs "name") de_string None l = Ok o /\ need o = Ok (id_name d)) /\ (exists o, scan (bs "package") (de_option de_string) None l = Ok o /\ or_default None o = Ok (id_package d)) /\
      (exists o, scan (bs "req") (de_requirement prof) None l = Ok o /\ need o = Ok (id_req d)) /\ (exists o, scan (bs "default_features") de_bool None l = Ok o /\ need o = Ok (id_default d)) /\
      (exists o, scan (bs "features") (de_vec de_string) None l = Ok o /\ need o = Ok (id_features d)) /\ (exists o, scan (bs "kind") de_kind None l = Ok o /\ need o = Ok (id_kind d)) /\
      (exists o, scan (bs "target") (de_option de_string) None l = Ok o /\ or_default None o = Ok (id_target d)) /\ (exists o, scan (bs "optional") de_bool None l = Ok o /\ need o = Ok (id_optional d))).
    { rewrite bind_ok. split.
      - intros (p & M & D). apply dep_scan in M. cbn [pd_name pd_package pd_req pd_default pd_features pd_kind pd_target pd_optional] in M. destruct M as (M1 & M2 & M3 & M4 & M5 & M6 & M7 & M8).
        unfold dep_done in D. do 8 seq D. injection D as <-. cbn [id_name id_package id_req id_default id_features id_kind id_target id_optional]. repeat split; eauto.
      - intros ((o1 & M1 & D1) & (o2 & M2 & D2) & (o3 & M3 & D3) & (o4 & M4 & D4) & (o5 & M5 & D5) & (o6 & M6 & D6) & (o7 & M7 & D7) & (o8 & M8 & D8)).
        exists (mkpdep o1 o2 o3 o4 o5 o6 o7 o8). split; [apply dep_scan; cbn [pd_name pd_package pd_req pd_default pd_features pd_kind pd_target pd_optional]; auto 10|].
        unfold dep_done. cbn [pd_name pd_package pd_req pd_default pd_features pd_kind pd_target pd_optional]. rewrite D1. cbn [bind]. rewrite D2. cbn [bind]. rewrite D3. cbn [bind]. rewrite D4. cbn [bind]. rewrite D5. cbn [bind]. rewrite D6. cbn [bind]. rewrite D7. cbn [bind]. rewrite D8. cbn [bind]. destruct d; reflexivity. }
    rewrite EQ. clear EQ.
    rewrite (scan_required _ _ string_of) by (intros; apply string_ok). rewrite (scan_optional _ _ (or_null string_of)) by (intros; apply opt_string_ok).
    rewrite (scan_required _ _ requirement_of) by (intros ? ? X; apply requirement_ok; exact (SI _ X)). rewrite (scan_required _ _ bool_of) by (intros; apply bool_ok).
    rewrite (scan_required _ _ (list_of string_of)) by (intros; apply strings_ok). rewrite (scan_required _ _ kind_of) by (intros; apply kind_ok).
    rewrite (scan_optional _ _ (or_null string_of)) by (intros; apply opt_string_ok). rewrite (scan_required _ _ bool_of) by (intros; apply bool_ok).
    split; [intros (M1 & M2 & M3 & M4 & M5 & M6 & M7 & M8); constructor; assumption|]. intros H. inversion H; subst. auto 10.
Qed.
Lemma deps_ok j l : settled j -> (de_vec (de_dep prof) j = Ok l <-> list_of dep_of j l).
Proof. intros ST. apply vec_ok. intros js i x -> X. apply dep_ok. exact (settled_array _ _ ST X). Qed.
Lemma entry_reads j e : settled j -> (de_entry prof j = Ok e <-> entry_of j e).
Proof.
  intros ST. destruct j as [| | | |l|l]; try (split; [discriminate|intros H; inversion H]).
  - assert (SI : forall i, In i l -> settled i) by (intros i; apply settled_array; exact ST). cbn [de_entry]. split.
    + destruct l as [|n [|v [|f [|f2 [|d [|y [|r [|]]]]]]]]; try discriminate. intros H. do 7 seq H. injection H as <-.
      constructor; cbn [en_name en_vers en_features en_features2 en_deps en_yanked en_rust]; [apply borrowed_ok|apply version_ok; [apply SI; cbn; tauto|]|apply features_ok|apply features_ok|apply deps_ok; [apply SI; cbn; tauto|]|apply bool_ok|apply opt_version_ok; [apply SI; cbn; tauto|]]; assumption.
    + intros H. inversion H as [|n v f f2 d y r e' H1 H2 H3 H4 H5 H6 H7]; subst.
      apply borrowed_ok in H1. apply version_ok in H2; [|apply SI; cbn; tauto]. apply features_ok in H3, H4. apply deps_ok in H5; [|apply SI; cbn; tauto]. apply bool_ok in H6. apply opt_version_ok in H7; [|apply SI; cbn; tauto].
      rewrite H1. cbn [bind]. rewrite H2. cbn [bind]. rewrite H3. cbn [bind]. rewrite H4. cbn [bind]. rewrite H5. cbn [bind]. rewrite H6. cbn [bind]. rewrite H7. cbn [bind]. destruct e; reflexivity.
  - assert (SI : forall i, In i (map snd l) -> settled i) by (intros i X; apply in_member in X as (x & k & X); exact (settled_object _ _ _ _ ST X)). cbn [de_entry].
    assert (EQ : (let? p := entry_members prof (mkpentry None None None None None None None) l in entry_done p) = Ok e <->
      (exists o, scan (bs "name") de_borrowed None l = Ok o /\ need o = Ok (en_name e)) /\ (exists o, scan (bs "vers") (de_version prof) None l = Ok o /\ need o = Ok (en_vers e)) /\
      (exists o, scan (bs "features") de_features None l = Ok o /\ need o = Ok (en_features e)) /\ (exists o, scan (bs "features2") de_features None l = Ok o /\ or_default [] o = Ok (en_features2 e)) /\
      (exists o, scan (bs "deps") (de_vec (de_dep prof)) None l = Ok o /\ need o = Ok (en_deps e)) /\ (exists o, scan (bs "yanked") de_bool None l = Ok o /\ need o = Ok (en_yanked e)) /\
      (exists o, scan (bs "rust_version") (de_option (de_version prof)) None l = Ok o /\ or_default None o = Ok (en_rust e))).
    { rewrite bind_ok. split.
      - intros (p & M & D). apply entry_scan in M. cbn [pe_name pe_vers pe_features pe_features2 pe_deps pe_yanked pe_rust] in M. destruct M as (M1 & M2 & M3 & M4 & M5 & M6 & M7).
        unfold entry_done in D. do 7 seq D. injection D as <-. cbn [en_name en_vers en_features en_features2 en_deps en_yanked en_rust]. repeat split; eauto.
      - intros ((o1 & M1 & D1) & (o2 & M2 & D2) & (o3 & M3 & D3) & (o4 & M4 & D4) & (o5 & M5 & D5) & (o6 & M6 & D6) & (o7 & M7 & D7)).
        exists (mkpentry o1 o2 o3 o4 o5 o6 o7). split; [apply entry_scan; cbn [pe_name pe_vers pe_features pe_features2 pe_deps pe_yanked pe_rust]; auto 10|].
        unfold entry_done. cbn [pe_name pe_vers pe_features pe_features2 pe_deps pe_yanked pe_rust]. rewrite D1. cbn [bind]. rewrite D2. cbn [bind]. rewrite D3. cbn [bind]. rewrite D4. cbn [bind]. rewrite D5. cbn [bind]. rewrite D6. cbn [bind]. rewrite D7. cbn [bind]. destruct e; reflexivity. }
    rewrite EQ. clear EQ.
    rewrite (scan_required _ _ verbatim) by (intros; apply borrowed_ok). rewrite (scan_required _ _ version_of) by (intros ? ? X; apply version_ok; exact (SI _ X)).
    rewrite (scan_required _ _ features_of) by (intros; apply features_ok). rewrite (scan_optional _ _ features_of) by (intros; apply features_ok).
    rewrite (scan_required _ _ (list_of dep_of)) by (intros ? ? X; apply deps_ok; exact (SI _ X)). rewrite (scan_required _ _ bool_of) by (intros; apply bool_ok).
    rewrite (scan_optional _ _ (or_null version_of)) by (intros ? ? X; apply opt_version_ok; exact (SI _ X)).
    split; [intros (M1 & M2 & M3 & M4 & M5 & M6 & M7); constructor; assumption|]. intros H. inversion H; subst. auto 10.
Qed.
Lemma entry_of_ok j e : entry_of j e -> entry_ok e.
Proof.
  intros H. destruct H as [ms e _ _ (j1 & _ & F1) F2 _ _ _|n v f f2 d y r e _ _ F1 F2 _ _ _].
  - split; [exact (features_distinct _ _ F1)|]. destruct F2 as [[_ ->]|(j2 & _ & F2)]; [constructor|exact (features_distinct _ _ F2)].
  - split; [exact (features_distinct _ _ F1)|exact (features_distinct _ _ F2)].
Qed.
End Decode.

(** ** Panics *)
Section Panics.
Context (prof : profile).
Definition texts (j : jval) : Prop := forall s, mentions j s -> valid_utf8 s.
(** A debug build panics on a number in this value. *)
Definition bad (j : jval) : Prop := prof = Debug /\ exists s, mentions j s /\ SemverSpec.contains_overflow s.
Lemma bad_array l j : In j l -> bad j -> bad (JArray l).
Proof. intros H (P & s & M & O). split; [exact P|]. exists s. split; [econstructor; eassumption|exact O]. Qed.
Lemma bad_object l x k j : In (x, k, j) l -> bad j -> bad (JObject l).
Proof. intros H (P & s & M & O). split; [exact P|]. exists s. split; [econstructor; eassumption|exact O]. Qed.
Lemma texts_array l j : texts (JArray l) -> In j l -> texts j.
Proof. intros T H s M. apply T. econstructor; eassumption. Qed.
Lemma texts_object l x k j : texts (JObject l) -> In (x, k, j) l -> texts j.
Proof. intros T H s M. apply T. econstructor; eassumption. Qed.
Lemma bind_panic {E A B} (r : res E A) (f : A -> res E B) : bind r f = Panic -> r = Panic \/ exists x, r = Ok x /\ f x = Panic.
Proof. destruct r; cbn [bind]; try discriminate; eauto. Qed.
Lemma version_panic j : texts j -> de_version prof j = Panic -> bad j.
Proof.
  intros T. unfold de_version, visit_version. destruct j as [| | |x s| |]; try discriminate.
  destruct (SemverModel.parse_version prof s pos_zero) eqn:E; try discriminate. intros _.
  destruct (proj1 (PropSemver.C15_semver_panics_only_on_overflow prof pos_zero s (T s (mn_string x s))) E) as [P O]. split; [exact P|]. exists s. split; [constructor|exact O].
Qed.
Lemma requirement_panic j : texts j -> de_requirement prof j = Panic -> bad j.
Proof.
  intros T. unfold de_requirement, visit_requirement. destruct j as [| | |x s| |]; try discriminate.
  destruct (SemverModel.parse_requirement prof s pos_zero) eqn:E; try discriminate. intros _.
  destruct (proj1 (proj2 (PropSemver.C15_semver_panics_only_on_overflow prof pos_zero s (T s (mn_string x s)))) E) as [P O]. split; [exact P|]. exists s. split; [constructor|exact O].
Qed.
Lemma option_panic {A} (d : jval -> de A) j : de_option d j = Panic -> d j = Panic.
Proof. unfold de_option. destruct j; try discriminate; intros H; apply bind_panic in H as [H|(x & _ & H)]; try discriminate; exact H. Qed.
Lemma vec_panic {A} (d : jval -> de A) j : de_vec d j = Panic -> exists l i, j = JArray l /\ In i l /\ d i = Panic.
Proof.
  destruct j as [| | | |l|]; try discriminate. cbn [de_vec]. intros H. exists l. assert (X : exists i, In i l /\ d i = Panic); [|destruct X as (i & X); exists i; split; [reflexivity|exact X]].
  induction l as [|j l IH]; [discriminate|]. cbn [de_list] in H. apply bind_panic in H as [H|(x & _ & H)]; [exists j; split; [left; reflexivity|exact H]|].
  apply bind_panic in H as [H|(y & _ & H)]; [|discriminate]. destruct (IH H) as (i & I0 & P). exists i. split; [right; exact I0|exact P].
Qed.
Lemma string_panic j : de_string j <> Panic. Proof. destruct j; discriminate. Qed.
Lemma borrowed_panic j : de_borrowed j <> Panic. Proof. destruct j as [| | |[] ?| |]; discriminate. Qed.
Lemma bool_panic j : de_bool j <> Panic. Proof. destruct j; discriminate. Qed.
Lemma features_panic j : de_features j <> Panic.
Proof.
  destruct j as [| | | | |ms]; try discriminate. cbn [de_features]. intros H. apply bind_panic in H as [H|(x & _ & H)]; [|discriminate].
  induction ms as [|[[[] k] j] ms IH]; cbn [de_members] in H; try discriminate. apply bind_panic in H as [H|(x & _ & H)].
  - apply vec_panic in H as (l & i & _ & _ & H). exact (borrowed_panic _ H).
  - apply bind_panic in H as [H|(y & _ & H)]; [exact (IH H)|discriminate].
Qed.
Lemma kind_panic j : de_kind j <> Panic.
Proof.
  assert (KN : forall s, kind_named s <> Panic) by (intros s; unfold kind_named; repeat (destruct (bytes_eqb _ _); [discriminate|]); discriminate).
  destruct j as [| | |x s| |[|[[x s] []] []]]; cbn [de_kind]; try discriminate; apply KN.
Qed.
Lemma once_panic {A} (o : option A) d : once o d = Panic -> d = Panic.
Proof. unfold once. destruct o; [discriminate|]. intros H. apply bind_panic in H as [H|(x & _ & H)]; [exact H|discriminate]. Qed.
Lemma need_panic {A} (o : option A) : need o <> Panic. Proof. destruct o; discriminate. Qed.
Lemma default_panic {A} (n : A) (o : option A) : or_default n o <> Panic. Proof. destruct o; discriminate. Qed.
Ltac pan H := apply bind_panic in H; destruct H as [H|(? & _ & H)].
Ltac plain H := first [destruct (string_panic _ H) | destruct (borrowed_panic _ H) | destruct (bool_panic _ H) | destruct (features_panic _ H) | destruct (kind_panic _ H)
  | destruct (need_panic _ H) | destruct (default_panic _ _ H) | (apply option_panic in H; destruct (string_panic _ H))
  | (apply vec_panic in H; destruct H as (? & ? & _ & _ & H); destruct (string_panic _ H)) | discriminate H].
Lemma dep_panic j : texts j -> de_dep prof j = Panic -> bad j.
Proof.
  intros T H. destruct j as [| | | |l|l]; try discriminate; cbn [de_dep] in H.
  - destruct l as [|n [|pk [|r [|df [|fs [|kd [|tg [|op [|]]]]]]]]]; try discriminate. repeat (pan H; [try plain H|]); [|discriminate].
    apply requirement_panic in H; [|eapply texts_array; [exact T|cbn; tauto]]. eapply bad_array; [|exact H]. cbn. tauto.
  - pan H; [|unfold dep_done in H; repeat (pan H; [plain H|]); discriminate].
    assert (X : exists x k i, In (x, k, i) l /\ de_requirement prof i = Panic).
    { revert H. generalize (mkpdep None None None None None None None None). induction l as [|[[x k] i] l IH]; intros p H; cbn [dep_members] in H; [discriminate|].
      pan H.
      - exists x, k, i. split; [left; reflexivity|]. destruct p as [n pk r df fs kd tg op]. unfold dep_member in H.
        repeat match type of H with context [if bytes_eqb ?a ?b then _ else _] => destruct (bytes_eqb a b); [pan H; [apply once_panic in H; first [exact H|exfalso; plain H]|discriminate]|] end. discriminate.
      - destruct (IH ltac:(intros s M; apply T; inversion M; subst; econstructor; [right; eassumption|eassumption]) _ H) as (x' & k' & i' & I0 & P). exists x', k', i'. split; [right; exact I0|exact P]. }
    destruct X as (x & k & i & I0 & P). eapply bad_object; [exact I0|]. apply requirement_panic; [exact (texts_object _ _ _ _ T I0)|exact P].
Qed.
Lemma entry_panic j : texts j -> de_entry prof j = Panic -> bad j.
Proof.
  assert (VS : forall i, texts i -> de_vec (de_dep prof) i = Panic -> bad i).
  { intros i T H. apply vec_panic in H as (l & i' & -> & I0 & H). eapply bad_array; [exact I0|]. apply dep_panic; [exact (texts_array _ _ T I0)|exact H]. }
  intros T H. destruct j as [| | | |l|l]; try discriminate; cbn [de_entry] in H.
  - destruct l as [|n [|v [|f [|f2 [|d [|y [|r [|]]]]]]]]; try discriminate. repeat (pan H; [try plain H|]); [| | |discriminate].
    + apply version_panic in H; [|eapply texts_array; [exact T|cbn; tauto]]. eapply bad_array; [|exact H]. cbn. tauto.
    + apply VS in H; [|eapply texts_array; [exact T|cbn; tauto]]. eapply bad_array; [|exact H]. cbn. tauto.
    + apply option_panic in H. apply version_panic in H; [|eapply texts_array; [exact T|cbn; tauto]]. eapply bad_array; [|exact H]. cbn. tauto.
  - pan H; [|unfold entry_done in H; repeat (pan H; [plain H|]); discriminate].
    assert (X : exists x k i, In (x, k, i) l /\ (de_version prof i = Panic \/ de_vec (de_dep prof) i = Panic)).
    { clear T VS. revert H. generalize (mkpentry None None None None None None None). induction l as [|[[x k] i] l IH]; intros p H; cbn [entry_members] in H; [discriminate|].
      pan H.
      - exists x, k, i. split; [left; reflexivity|]. destruct p as [n v f f2 d y r]. unfold entry_member in H.
        repeat match type of H with context [if bytes_eqb ?a ?b then _ else _] => destruct (bytes_eqb a b); [pan H; [apply once_panic in H; first [left; exact H|right; exact H|left; exact (option_panic _ _ H)|exfalso; plain H]|discriminate]|] end. discriminate.
      - destruct (IH _ H) as (x' & k' & i' & I0 & P). exists x', k', i'. split; [right; exact I0|exact P]. }
    destruct X as (x & k & i & I0 & P). eapply bad_object; [exact I0|]. pose proof (texts_object _ _ _ _ T I0) as TI. destruct P as [P|P]; [exact (version_panic _ TI P)|exact (VS _ TI P)].
Qed.
End Panics.

(** ** Text *)
Lemma from_utf8_ok s : from_utf8 s = true <-> valid_utf8 s.
Proof.
  unfold from_utf8. split.
  - generalize (length s). intros f. revert s. induction f as [|f IH]; intros s; destruct s as [|b s]; cbn [from_utf8_fuel]; try discriminate; try (intros _; exists []; split; [constructor|reflexivity]).
    destruct (utf8_first (b :: s)) as [c|]; [|discriminate]. destruct (is_scalar c) eqn:SC; [|discriminate]. destruct (strip_prefix (utf8_char c) (b :: s)) as [r|] eqn:SP; [|discriminate].
    intros H. apply strip_prefix_some in SP. rewrite SP. destruct (IH _ H) as (cs & F & ->). exists (c :: cs). split; [constructor; assumption|reflexivity].
  - intros (cs & F & ->). assert (G : forall f, (length (utf8 cs) <= f)%nat -> from_utf8_fuel f (utf8 cs) = true); [|apply G; lia].
    induction F as [|c cs SC F IH]; intros f L; [destruct f; reflexivity|]. change (utf8 (c :: cs)) with (utf8_char c ++ utf8 cs) in *.
    assert (NE : exists b t, utf8_char c = b :: t) by (unfold utf8_char; repeat (destruct (_ <? _)); eauto).
    destruct NE as (b & t & NE). destruct f as [|f]; [rewrite NE in L; cbn in L; lia|].
    pose proof (utf8_first_char c (utf8 cs) SC) as FC. assert (SP : strip_prefix (utf8_char c) (utf8_char c ++ utf8 cs) = Some (utf8 cs)) by (apply strip_prefix_some; reflexivity).
    rewrite app_length in L. rewrite NE in *. cbn [app length] in *. cbn [from_utf8_fuel]. rewrite FC, SC, NE, SP. apply IH. lia.
Qed.
