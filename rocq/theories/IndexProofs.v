(** Proofs about the sparse index. *)
From Verif Require Import Base BaseProofs CommonModel CommonSpec CommonProofs SemverOrder IndexModel IndexSpec.
From Verif Require SemverModel.
Ltac Zify.zify_post_hook ::= Z.div_mod_to_equations.

(** ** Prefixes *)
Lemma strip_prefix_some p : forall s r, strip_prefix p s = Some r <-> s = p ++ r.
Proof.
  induction p as [|a p IH]; intros s r; cbn; [split; congruence|]. destruct s as [|b s]; [split; discriminate|].
  destruct (N.eqb_spec a b) as [->|N0].
  - rewrite IH. split; [intros ->; reflexivity|]. intros H. injection H as ->. reflexivity.
  - split; [discriminate|]. intros H. injection H as <- _. congruence.
Qed.
Lemma as_dep_some m r : as_dep m = Some r <-> m = bs "dep:" ++ r.
Proof. apply strip_prefix_some. Qed.
Lemma as_dep_none m : as_dep m = None <-> ~ explicit m.
Proof.
  split.
  - intros E (n & H). apply as_dep_some in H. congruence.
  - intros H. destruct (as_dep m) as [r|] eqn:E; [|reflexivity]. exfalso. apply H. exists r. apply as_dep_some. exact E.
Qed.
Lemma is_dep_explicit m : is_dep m = true <-> explicit m.
Proof.
  unfold is_dep. fold (as_dep m). destruct (as_dep m) as [r|] eqn:E.
  - split; [|reflexivity]. intros _. exists r. apply as_dep_some. exact E.
  - split; [discriminate|]. intros H. apply as_dep_none in E. contradiction.
Qed.
Lemma contains_slash m : contains (bs "/") m = true <-> In 47 m.
Proof.
  induction m as [|b m IH]; [split; [discriminate|intros []]|].
  change (contains (bs "/") (b :: m)) with (match (if 47 =? b then Some m else None) with Some _ => true | None => contains (bs "/") m end).
  destruct (N.eqb_spec 47 b) as [<-|N0].
  - split; [left; reflexivity|reflexivity].
  - rewrite IH. split; [right; assumption|]. intros [H|H]; [congruence|exact H].
Qed.
Lemma weak_dep_feature m : is_weak_dep_feature m = true <-> exists a b, m = a ++ bs "?/" ++ b.
Proof.
  unfold is_weak_dep_feature. induction m as [|x m IH].
  - split; [discriminate|]. intros (a & b & H). destruct a; discriminate.
  - change (contains (bs "?/") (x :: m)) with (match strip_prefix (bs "?/") (x :: m) with Some _ => true | None => contains (bs "?/") m end).
    destruct (strip_prefix (bs "?/") (x :: m)) as [r|] eqn:E.
    + split; [|reflexivity]. intros _. apply strip_prefix_some in E. exists [], r. exact E.
    + rewrite IH. split.
      * intros (a & b & ->). exists (x :: a), b. reflexivity.
      * intros (a & b & H). destruct a as [|y a]; [exfalso; cbn [app] in H; rewrite H in E; vm_compute in E; discriminate|].
        injection H as <- H. exists a, b. exact H.
Qed.

(** ** Order of members *)
Definition rank (m : bytes) : N * bytes :=
  match as_dep m with Some r => (2, r) | None => (if is_dep_feature m then 1 else 0, m) end.
Lemma rank_inj a b : rank a = rank b -> a = b.
Proof.
  unfold rank. destruct (as_dep a) as [x|] eqn:A, (as_dep b) as [y|] eqn:B.
  - intros H. injection H as <-. apply as_dep_some in A, B. congruence.
  - destruct (is_dep_feature b); discriminate.
  - destruct (is_dep_feature a); discriminate.
  - congruence.
Qed.
Lemma member_cmp_rank a b : member_cmp a b = pair_cmp N.compare bytes_cmp (rank a) (rank b).
Proof.
  unfold member_cmp, rank, pair_cmp. destruct (as_dep a), (as_dep b); cbn [fst snd].
  - reflexivity.
  - destruct (is_dep_feature b); reflexivity.
  - destruct (is_dep_feature a); reflexivity.
  - destruct (is_dep_feature a), (is_dep_feature b); reflexivity.
Qed.
Lemma good_member : good_cmp member_cmp.
Proof.
  pose proof (good_key rank _ rank_inj (good_pair _ _ good_N good_bytes)) as G. destruct G as (G1 & G2 & G3).
  split; [|split]; intros; rewrite ?member_cmp_rank in *; eauto.
Qed.
Lemma member_le_cmp a b : member_cmp a b <> Gt <-> member_le a b.
Proof.
  unfold member_cmp. destruct (as_dep a) as [x|] eqn:A, (as_dep b) as [y|] eqn:B.
  - apply as_dep_some in A, B. split; [exact (ml_deps _ _ x y A B)|].
    intros [x' y' A' B' L|N0 _|N0 _ _ _|N0 _ _ _]; try (exfalso; apply N0; exists x; exact A).
    rewrite A in A'. apply app_inv_head in A'. rewrite B in B'. apply app_inv_head in B'. subst x' y'. exact L.
  - apply as_dep_some in A. apply as_dep_none in B. assert (EA : explicit a) by (exists x; exact A).
    split; [congruence|]. intros [x' y' A' B' L|N0 _|N0 _ _ _|N0 _ _ _]; try contradiction. exfalso. apply B. exists y'. exact B'.
  - apply as_dep_none in A. apply as_dep_some in B. split; [|congruence]. intros _. apply ml_dep; [exact A|exists y; exact B].
  - apply as_dep_none in A, B. unfold is_dep_feature.
    assert (X : forall m, contains (bs "/") m = true <-> of_dependency m) by (intros m; apply contains_slash).
    pose proof (X a) as XA. pose proof (X b) as XB. destruct (contains (bs "/") a), (contains (bs "/") b).
    + split; [intros L; apply ml_same; tauto|]. intros [x' y' A' B' L|_ N0|_ _ N0 _|_ _ _ L]; [exfalso; apply A; exists x'; exact A'|contradiction|tauto|exact L].
    + split; [congruence|]. intros [x' y' A' B' L|_ N0|_ _ N0 N1|_ _ E L]; [exfalso; apply A; exists x'; exact A'|contradiction| |]; exfalso; intuition discriminate.
    + split; [|congruence]. intros _. apply ml_of; try assumption; [|tauto]. intros H. apply XA in H. discriminate.
    + split.
      * intros L. apply ml_same; try assumption. split; intros H; [apply XA in H|apply XB in H]; discriminate.
      * intros [x' y' A' B' L|_ N0|_ _ N0 N1|_ _ _ L]; [exfalso; apply A; exists x'; exact A'|contradiction|exfalso; apply XB in N1; discriminate|exact L].
Qed.

(** ** Boundaries of characters *)
Lemma utf8_char_bytes c : is_scalar c = true -> exists h t, utf8_char c = h :: t /\ ((h <? 128) || (192 <=? h)) = true /\ Forall (fun b => ((b <? 128) || (192 <=? b)) = false) t.
Proof.
  unfold is_scalar, utf8_char. intros H.
  destruct (c <? 128) eqn:E1; [|destruct (c <? 2048) eqn:E2; [|destruct (c <? 65536) eqn:E3]]; eexists _, _; (split; [reflexivity|]); (split; [lia|]);
    repeat constructor; lia.
Qed.
Lemma utf8_cons c cs : utf8 (c :: cs) = utf8_char c ++ utf8 cs.
Proof. reflexivity. Qed.
Lemma utf8_app a b : utf8 (a ++ b) = utf8 a ++ utf8 b.
Proof. apply flat_map_app. Qed.
Lemma utf8_inj a : forall b, Forall (fun c => is_scalar c = true) a -> Forall (fun c => is_scalar c = true) b ->
  forall x, utf8 a ++ x = utf8 b -> exists b', b = a ++ b' /\ x = utf8 b'.
Proof.
  induction a as [|c a IH]; intros b FA FB x E; [exists b; auto|]. destruct b as [|d b].
  - destruct (utf8_char_bytes c (Forall_inv FA)) as (h & t & H & _). rewrite utf8_cons, H in E. discriminate.
  - rewrite !utf8_cons, <- app_assoc in E. assert (CD : c = d).
    { pose proof (utf8_first_char c (utf8 a ++ x) (Forall_inv FA)) as F1. rewrite E in F1. rewrite (utf8_first_char d _ (Forall_inv FB)) in F1. congruence. }
    subst d. apply app_inv_head in E. destruct (IH _ (Forall_inv_tail FA) (Forall_inv_tail FB) _ E) as (b' & -> & ->). exists b'. auto.
Qed.
Definition splits (s : bytes) (i : N) : Prop := exists x y, chars x /\ chars y /\ s = x ++ y /\ blen x = i.
Lemma boundary_splits s i : chars s -> boundary s i = true <-> splits s i.
Proof.
  intros (cs & F & ->). revert i. induction cs as [|c cs IH]; intros i.
  - unfold boundary. cbn [utf8 flat_map]. destruct (N.to_nat i) as [|n] eqn:Ei; cbn [nth_error].
    + replace i with 0 by lia. split; [|reflexivity]. intros _. exists [], []. repeat split; try (exists []; split; [constructor|reflexivity]); reflexivity.
    + split; [intros H; apply N.eqb_eq in H; unfold blen in H; cbn in H; lia|]. intros (x & y & _ & _ & E & L). destruct x; [|discriminate]. unfold blen in L; cbn in L. lia.
  - pose proof (Forall_inv F) as F1. pose proof (Forall_inv_tail F) as F2. destruct (utf8_char_bytes c F1) as (h & t & H & Hh & Ht). rewrite utf8_cons.
    destruct (N.ltb_spec i (len_utf8 c)) as [L|L].
    + destruct (N.eq_dec i 0) as [->|NZ].
      * unfold boundary. rewrite H. change (N.to_nat 0) with O. cbn [app nth_error]. rewrite Hh. split; [|reflexivity]. intros _.
        exists [], (h :: t ++ utf8 cs). split; [exists []; split; [constructor|reflexivity]|]. split; [|split; reflexivity].
        exists (c :: cs). split; [exact F|]. rewrite utf8_cons, H. reflexivity.
      * split.
        -- unfold boundary. rewrite <- utf8_char_len, H, blen_cons in L. rewrite H. cbn [app].
           destruct (N.to_nat i) as [|n] eqn:Ei; [lia|]. cbn [nth_error]. rewrite nth_error_app1 by (unfold blen in L; lia).
           destruct (nth_error t n) as [b|] eqn:Eb; [|apply nth_error_None in Eb; unfold blen in L; lia].
           rewrite Forall_forall in Ht. rewrite (Ht _ (nth_error_In _ _ Eb)). discriminate.
        -- intros (x & y & (xs & FX & ->) & _ & E & LX). destruct xs as [|d xs]; [unfold blen in LX; cbn in LX; lia|]. exfalso.
           rewrite <- utf8_cons in E. symmetry in E. destruct (utf8_inj _ _ FX F _ E) as (b' & E2 & _). injection E2 as <- _.
           rewrite utf8_cons, blen_app, utf8_char_len in LX. lia.
    + transitivity (boundary (utf8 cs) (i - len_utf8 c) = true).
      * unfold boundary. rewrite <- utf8_char_len in L |- *. replace (N.to_nat i) with (length (utf8_char c) + N.to_nat (i - blen (utf8_char c)))%nat by (unfold blen in *; lia).
        rewrite nth_error_app2 by lia. replace (length (utf8_char c) + N.to_nat (i - blen (utf8_char c)) - length (utf8_char c))%nat with (N.to_nat (i - blen (utf8_char c))) by lia.
        destruct (nth_error (utf8 cs) (N.to_nat (i - blen (utf8_char c)))); [reflexivity|]. rewrite blen_app, !N.eqb_eq. lia.
      * rewrite (IH F2). split.
        -- intros (x & y & (xs & FX & ->) & CY & E & LX). exists (utf8 (c :: xs)), y. split; [exists (c :: xs); split; [constructor; assumption|reflexivity]|].
           split; [exact CY|]. rewrite utf8_cons, blen_app, utf8_char_len, E, <- app_assoc. split; [reflexivity|]. lia.
        -- intros (x & y & (xs & FX & ->) & CY & E & LX). destruct xs as [|d xs].
           ++ destruct (utf8_char_bytes c F1) as (h' & t' & H' & _). pose proof (utf8_char_len c) as LL. rewrite H', blen_cons in LL. unfold blen in LX. cbn in LX. lia.
           ++ rewrite <- utf8_cons in E. pose proof E as E0. symmetry in E0. destruct (utf8_inj _ _ FX F _ E0) as (b' & E2 & E3). injection E2 as <- ->.
              exists (utf8 xs), y. split; [exists xs; split; [exact (Forall_inv_tail FX)|reflexivity]|]. split; [exact CY|].
              rewrite utf8_app, E3. rewrite utf8_cons, blen_app, utf8_char_len in LX. split; [reflexivity|lia].
Qed.

(** ** The index path *)
Lemma index_url_inv name u : sparse_index_url CratesIo name = Ok u -> exists d, directory name d /\ u = bs "https://index.crates.io/" ++ d ++ name.
Proof.
  assert (SL : forall s a b r, slice s a b = Ok r -> r = firstn (N.to_nat (b - a)) (skipn (N.to_nat a) s)).
  { intros s a b r. unfold slice. destruct (_ && _ && _); [|discriminate]. congruence. }
  unfold sparse_index_url, blen. destruct name as [|a [|b [|c [|d r]]]]; cbn [length].
  - discriminate.
  - intros H. injection H as <-. exists (bs "1/"). split; [constructor|reflexivity].
  - intros H. injection H as <-. exists (bs "2/"). split; [constructor|reflexivity].
  - change (N.of_nat 3) with 3. cbn iota beta. destruct (slice [a; b; c] 0 1) as [d0|[]|] eqn:E; [|discriminate]. apply SL in E. intros H. injection H as <-.
    exists (bs "3/" ++ [a] ++ bs "/"). split; [constructor|]. rewrite E. reflexivity.
  - assert (X : exists n, N.of_nat (S (S (S (S (length r))))) = n /\ 4 <= n) by (eexists; split; [reflexivity|lia]). destruct X as (n & -> & L).
    destruct n as [|[[p|p|]|[p|p|]|]]; try lia; cbn iota beta; destruct (slice (a :: b :: c :: d :: r) 0 2) as [d01|[]|] eqn:E1; try discriminate; cbn [bind];
      destruct (slice (a :: b :: c :: d :: r) 2 4) as [d23|[]|] eqn:E2; try discriminate; cbn [bind]; apply SL in E1, E2; intros H; injection H as <-;
      exists ([a; b] ++ bs "/" ++ [c; d] ++ bs "/"); (split; [constructor|]); rewrite E1, E2; reflexivity.
Qed.
Lemma slice_panics s a b : a <= b -> slice s a b = Panic <-> ~ (boundary s a = true /\ boundary s b = true).
Proof.
  intros L. unfold slice. replace (a <=? b) with true by lia. destruct (boundary s a), (boundary s b); cbn; (split; [try discriminate; intros _ [? ?]; discriminate|]); try reflexivity.
  intros H. exfalso. apply H. auto.
Qed.
Lemma boundary_zero s : chars s -> boundary s 0 = true.
Proof. intros H. apply boundary_splits; [exact H|]. exists [], s. split; [exists []; split; [constructor|reflexivity]|]. split; [exact H|]. split; reflexivity. Qed.
Lemma index_url_panics name : chars name ->
  sparse_index_url CratesIo name = Panic <-> name = [] \/ (blen name = 3 /\ ~ splits name 1) \/ (4 <= blen name /\ ~ (splits name 2 /\ splits name 4)).
Proof.
  intros C. assert (P : forall i, boundary name i = true <-> splits name i) by (intros i; apply boundary_splits; exact C).
  pose proof (boundary_zero _ C) as B0. unfold sparse_index_url.
  destruct name as [|a [|b [|c [|d r]]]]; [tauto| | | |]; unfold blen; cbn [length].
  - split; [discriminate|]. intros [H|[[H _]|[H _]]]; [discriminate| |]; cbn in H; lia.
  - split; [discriminate|]. intros [H|[[H _]|[H _]]]; [discriminate| |]; cbn in H; lia.
  - change (N.of_nat 3) with 3. cbn iota beta. pose proof (slice_panics [a; b; c] 0 1 ltac:(lia)) as X. rewrite B0, P in X.
    destruct (slice [a; b; c] 0 1) as [x|[]|] eqn:E; cbn [bind].
    + split; [discriminate|]. intros [H|[[_ H]|[H _]]]; [discriminate| |lia]. exfalso. assert (Y : @Ok Empty_set _ x = Panic) by (apply X; tauto). discriminate.
    + split; [|reflexivity]. intros _. right. left. split; [reflexivity|]. destruct X as [X _]. specialize (X eq_refl). tauto.
  - assert (X : exists n, N.of_nat (S (S (S (S (length r))))) = n /\ 4 <= n) by (eexists; split; [reflexivity|lia]). destruct X as (n & -> & L).
    pose proof (slice_panics (a :: b :: c :: d :: r) 0 2 ltac:(lia)) as X1. rewrite B0, P in X1. pose proof (slice_panics (a :: b :: c :: d :: r) 2 4 ltac:(lia)) as X2. rewrite !P in X2.
    assert (Y : (let? d01 := slice (a :: b :: c :: d :: r) 0 2 in let? d23 := slice (a :: b :: c :: d :: r) 2 4 in
             Ok (index_url ++ d01 ++ bs "/" ++ d23 ++ bs "/" ++ a :: b :: c :: d :: r)) = Panic <-> ~ (splits (a :: b :: c :: d :: r) 2 /\ splits (a :: b :: c :: d :: r) 4)).
    { destruct (slice (a :: b :: c :: d :: r) 0 2) as [x|[]|] eqn:E; cbn [bind].
      - destruct (slice (a :: b :: c :: d :: r) 2 4) as [y|[]|] eqn:E2; cbn [bind].
        + split; [discriminate|]. intros H. exfalso. assert (Y : @Ok Empty_set _ y = Panic) by (apply X2; tauto). discriminate.
        + tauto.
      - split; [|reflexivity]. intros _. destruct X1 as [X1 _]. specialize (X1 eq_refl). tauto. }
    destruct n as [|[[p|p|]|[p|p|]|]]; try lia; cbn iota beta; rewrite Y; (split; [intros H; right; right; split; [lia|exact H]|]); intros [H|[[H _]|[_ H]]]; try discriminate; try lia; exact H.
Qed.

(** ** Maps *)
Lemma insert_keys m k v x : In x (map fst (imap_insert m k v)) <-> x = k \/ In x (map fst m).
Proof.
  induction m as [|[k' v'] m IH]; cbn; [intuition|]. destruct (bytes_eqb k' k) eqn:E.
  - apply bytes_eqb_eq in E. subst. cbn. intuition.
  - cbn. rewrite IH. intuition.
Qed.
Lemma insert_nodup m k v : NoDup (map fst m) -> NoDup (map fst (imap_insert m k v)).
Proof.
  induction m as [|[k' v'] m IH]; cbn; intros D; [constructor; [intros []|constructor]|]. apply NoDup_cons_iff in D. destruct D as [D1 D2].
  destruct (bytes_eqb k' k) eqn:E; cbn.
  - constructor; assumption.
  - constructor; [|auto]. rewrite insert_keys. intros [->|H]; [|contradiction]. rewrite (proj2 (bytes_eqb_eq k k) eq_refl) in E. discriminate.
Qed.
Lemma insert_in m k v f l : NoDup (map fst m) -> In (f, l) (imap_insert m k v) <-> (f = k /\ l = v) \/ (f <> k /\ In (f, l) m).
Proof.
  induction m as [|[k' v'] m IH]; cbn [imap_insert map fst In]; intros D.
  - split; [intros [H|[]]; injection H as -> ->; auto|]. intros [[-> ->]|[_ []]]. auto.
  - apply NoDup_cons_iff in D. destruct D as [D1 D2]. assert (K : In (f, l) m -> In f (map fst m)) by (intros H; apply (in_map fst) in H; exact H).
    destruct (bytes_eqb k' k) eqn:E; cbn [In].
    + apply bytes_eqb_eq in E. subst k'. split.
      * intros [H|H]; [injection H as <- <-; auto|]. right. split; [|auto]. intros ->. auto.
      * intros [[-> ->]|[N0 [H|H]]]; auto. congruence.
    + assert (N1 : k' <> k) by (intros ->; rewrite (proj2 (bytes_eqb_eq k k) eq_refl) in E; discriminate). rewrite (IH D2). split.
      * intros [H|[H|[H1 H2]]]; auto. injection H as <- <-. auto.
      * intros [H|[H1 [H2|H2]]]; auto.
Qed.
Definition last_pair (l : imap) (k : bytes) (v : list bytes) : Prop := exists a b, l = a ++ (k, v) :: b /\ ~ In k (map fst b).
Lemma collect_spec l : NoDup (map fst (imap_collect l)) /\ forall k v, In (k, v) (imap_collect l) <-> last_pair l k v.
Proof.
  induction l as [|[k v] l IH] using rev_ind.
  - split; [constructor|]. intros k v. split; [intros []|]. intros (a & b & E & _). destruct a; discriminate.
  - destruct IH as [D IH]. unfold imap_collect. rewrite fold_left_app. fold (imap_collect l). cbn [fold_left fst snd]. split; [apply insert_nodup; exact D|].
    intros f x. rewrite insert_in by exact D. rewrite IH. split.
    + intros [[-> ->]|[N0 (a & b & -> & N1)]].
      * exists l, []. split; [reflexivity|intros []].
      * exists a, (b ++ [(k, v)]). split; [rewrite <- app_assoc; reflexivity|]. rewrite map_app, in_app_iff. intros [H|[H|[]]]; [contradiction|]. cbn in H. congruence.
    + intros (a & b & E & N1). destruct b as [|p b _] using rev_ind.
      * apply app_inj_tail in E. destruct E as [-> E]. injection E as -> ->. auto.
      * rewrite app_comm_cons, app_assoc in E. apply app_inj_tail in E. destruct E as [-> <-]. rewrite map_app, in_app_iff in N1. right. split.
        -- intros ->. apply N1. right. left. reflexivity.
        -- exists a, b. split; [reflexivity|]. tauto.
Qed.
Lemma find_key m k : NoDup (map fst m) -> forall x, find (fun x : bytes * list bytes => bytes_eqb (fst x) k) m = Some x <-> In x m /\ fst x = k.
Proof.
  intros D x. split.
  - intros E. apply find_some in E. destruct E as [I0 E]. apply bytes_eqb_eq in E. auto.
  - intros [I0 <-]. induction m as [|y m IH]; [destruct I0|]. cbn in *. apply NoDup_cons_iff in D. destruct D as [D1 D2]. destruct (bytes_eqb (fst y) (fst x)) eqn:E.
    + apply bytes_eqb_eq in E. destruct I0 as [->|I0]; [reflexivity|]. exfalso. apply D1. rewrite E. apply in_map. exact I0.
    + destruct I0 as [->|I0]; [rewrite (proj2 (bytes_eqb_eq _ _) eq_refl) in E; discriminate|auto].
Qed.
Lemma replace_perm m k x : forall y, find (fun x : bytes * list bytes => bytes_eqb (fst x) k) m = Some y -> Permutation (y :: replace_key m k x) (x :: m).
Proof.
  induction m as [|z m IH]; intros y E; [discriminate|]. cbn in *. destruct (bytes_eqb (fst z) k).
  - injection E as ->. apply perm_swap.
  - rewrite perm_swap. rewrite (IH y E). apply perm_swap.
Qed.
Lemma swap_remove_perm m k : NoDup (map fst m) ->
  match swap_remove m k with
  | (Some v, r) => Permutation ((k, v) :: r) m
  | (None, r) => r = m /\ ~ In k (map fst m)
  end.
Proof.
  intros D. unfold swap_remove. destruct (find _ m) as [[k' v]|] eqn:F.
  - pose proof (proj1 (find_key m k D (k', v)) F) as [I0 K]. cbn in K. subst k'. destruct (rev m) as [|x r] eqn:R.
    + apply (f_equal (@rev _)) in R. rewrite rev_involutive in R. subst. destruct I0.
    + assert (M : m = rev r ++ [x]) by (rewrite <- (rev_involutive m), R; reflexivity). destruct (bytes_eqb (fst x) k) eqn:E.
      * assert (X : x = (k, v)).
        { apply bytes_eqb_eq in E. assert (F2 : find (fun y : bytes * list bytes => bytes_eqb (fst y) k) m = Some x).
          { apply find_key; [exact D|]. split; [|exact E]. rewrite M. apply in_or_app. right. left. reflexivity. }
          congruence. }
        rewrite <- X, M. apply Permutation_cons_append.
      * rewrite (replace_perm (rev r) k x (k, v)); [rewrite M; apply Permutation_cons_append|].
        apply find_key.
        -- rewrite M, map_app in D. apply NoDup_remove_1 in D. rewrite app_nil_r in D. exact D.
        -- split; [|reflexivity]. rewrite M in I0. apply in_app_or in I0. destruct I0 as [I0|[I0|[]]]; [exact I0|]. subst x. cbn in E. rewrite (proj2 (bytes_eqb_eq _ _) eq_refl) in E. discriminate.
  - split; [reflexivity|]. intros I0. apply in_map_iff in I0. destruct I0 as ([k' v] & <- & I0). pose proof (find_none _ _ F _ I0) as H. cbn in H.
    rewrite (proj2 (bytes_eqb_eq _ _) eq_refl) in H. discriminate.
Qed.

(** ** Members *)
Lemma has_key_in m k : has_key m k = true <-> In k (map fst m).
Proof.
  unfold has_key. rewrite existsb_exists, in_map_iff. split.
  - intros (x & I0 & E). apply bytes_eqb_eq in E. eauto.
  - intros (x & E & I0). exists x. split; [exact I0|]. apply bytes_eqb_eq. exact E.
Qed.
Lemma normal_member_ok e m : normalised e m (normal_member e m).
Proof.
  unfold normal_member. assert (O : existsb (fun d => match id_kind d with INormal => true | _ => false end && id_optional d && bytes_eqb (id_name d) m) (en_deps e) = true <-> optional_dependency e m).
  { rewrite existsb_exists. split.
    - intros (d & I0 & E). apply andb_prop in E. destruct E as [E E3]. apply andb_prop in E. destruct E as [E1 E2]. apply bytes_eqb_eq in E3.
      exists d. destruct (id_kind d) eqn:K; try discriminate. auto.
    - intros (d & I0 & K & O & N0). exists d. split; [exact I0|]. rewrite K, O. cbn. apply bytes_eqb_eq. exact N0. }
  assert (F : has_key (en_features e) m || has_key (en_features2 e) m = true <-> is_feature e m) by (rewrite orb_true_iff, !has_key_in; reflexivity).
  pose proof (is_dep_explicit m) as D. cbv zeta.
  destruct (is_dep m); [apply no_same; tauto|]. destruct (_ || _); [apply no_same; tauto|]. destruct (existsb _ _); cbn.
  - apply no_dep; [| |tauto]; intros H; [apply D in H|apply F in H]; discriminate.
  - apply no_same. right. right. intros H. apply O in H. discriminate.
Qed.
Lemma normalised_fun e m a b : normalised e m a -> normalised e m b -> a = b.
Proof. intros A B. inversion A; subst; inversion B; subst; tauto. Qed.
Lemma last_cons x l k v : last_pair (x :: l) k v <-> last_pair l k v \/ (x = (k, v) /\ ~ In k (map fst l)).
Proof.
  split.
  - intros (a & b & E & N0). destruct a as [|y a]; cbn in E; injection E as -> ->; [auto|]. left. exists a, b. auto.
  - intros [(a & b & -> & N0)|[-> N0]]; [exists (x :: a), b; auto|exists [], l; auto].
Qed.
Lemma last_in l k v : last_pair l k v -> In k (map fst l).
Proof. intros (a & b & -> & _). rewrite map_app. apply in_or_app. right. left. reflexivity. Qed.
Lemma last_app a b k v : last_pair (a ++ b) k v <-> last_pair b k v \/ (last_pair a k v /\ ~ In k (map fst b)).
Proof.
  induction a as [|x a IH]; cbn [app].
  - split; [auto|]. intros [H|[(y & z & E & _) _]]; [exact H|]. destruct y; discriminate.
  - rewrite !last_cons, IH, map_app, in_app_iff. pose proof (last_in b k v). tauto.
Qed.
Lemma last_nodup l k v : NoDup (map fst l) -> last_pair l k v <-> In (k, v) l.
Proof.
  induction l as [|x l IH]; intros D; cbn [In].
  - split; [|tauto]. intros (a & b & E & _). destruct a; discriminate.
  - cbn in D. apply NoDup_cons_iff in D. destruct D as [D1 D2]. rewrite last_cons, (IH D2). split; [tauto|]. intros [->|H]; [|auto]. right. auto.
Qed.
Lemma lists_last e f ms : entry_ok e ->
  last_pair (map (fun x => (fst x, sort_by member_cmp (map (normal_member e) (snd x)))) (en_features e ++ en_features2 e)) f ms <->
  exists l, lists e f l /\ ms = sort_by member_cmp (map (normal_member e) l).
Proof.
  intros [D1 D2]. set (g := fun x : bytes * list bytes => (fst x, sort_by member_cmp (map (normal_member e) (snd x)))).
  assert (KG : forall l, map fst (map g l) = map fst l) by (intros l; rewrite map_map; reflexivity).
  assert (IG : forall l, In (f, ms) (map g l) <-> exists x, In (f, x) l /\ ms = sort_by member_cmp (map (normal_member e) x)).
  { intros l. rewrite in_map_iff. split.
    - intros ([k x] & E & I0). cbn in E. injection E as -> <-. eauto.
    - intros (x & I0 & ->). exists (f, x). auto. }
  rewrite map_app, last_app, !last_nodup by (rewrite KG; assumption). rewrite KG, !IG. split.
  - intros [(x & I0 & E)|[(x & I0 & E) N0]]; exists x; (split; [|exact E]); [apply li_new|apply li_old]; assumption.
  - intros (x & [I0|I0 N0] & E); [left|right]; eauto.
Qed.
Lemma forall2_map {A B} (f : A -> B) (R : A -> B -> Prop) l : (forall x, R x (f x)) -> Forall2 R l (map f l).
Proof. intros H. induction l; constructor; auto. Qed.
Lemma forall2_fun {A B} (f : A -> B) (R : A -> B -> Prop) l l' : (forall x y, R x y -> y = f x) -> Forall2 R l l' -> l' = map f l.
Proof. intros H. induction 1; cbn; [reflexivity|]. f_equal; auto. Qed.
Lemma sorted_sorted_by {A} (cmp : A -> A -> comparison) l : sorted cmp l <-> sorted_by (fun x y => cmp x y <> Gt) l.
Proof.
  split; [intros S0 a x b y c; apply sorted_split; exact S0|]. induction l as [|z l IH]; intros H; constructor.
  - rewrite Forall_forall. intros y I0. apply in_split in I0. destruct I0 as (b & c & ->). exact (H [] z b y c eq_refl).
  - apply IH. intros a x b y c E. apply (H (z :: a) x b y c). rewrite E. reflexivity.
Qed.
Lemma sorted_unique {A} (cmp : A -> A -> comparison) : good_cmp cmp -> forall l l', sorted cmp l -> sorted cmp l' -> Permutation l l' -> l = l'.
Proof.
  intros G. pose proof G as (G1 & G2 & G3). induction l as [|x l IH]; intros l' S1 S2 P; [apply Permutation_nil in P; congruence|].
  destruct l' as [|y l']; [symmetry in P; apply Permutation_nil in P; discriminate|].
  inversion S1 as [|? ? F1 S1']; subst. inversion S2 as [|? ? F2 S2']; subst.
  assert (E : x = y).
  { assert (I1 : In x (y :: l')) by (apply (Permutation_in _ P); left; reflexivity). assert (I2 : In y (x :: l)) by (apply (Permutation_in _ (Permutation_sym P)); left; reflexivity).
    destruct I1 as [->|I1]; [reflexivity|]. destruct I2 as [->|I2]; [reflexivity|]. rewrite Forall_forall in F1, F2. pose proof (F1 _ I2) as H1. pose proof (F2 _ I1) as H2.
    apply G1. rewrite (G2 x y) in H2. destruct (cmp x y); cbn in *; congruence. }
  subst y. f_equal. apply IH; [assumption|assumption|]. apply Permutation_cons_inv in P. exact P.
Qed.
Lemma good_sort {A} (cmp : A -> A -> comparison) l : good_cmp cmp -> sorted cmp (sort_by cmp l).
Proof.
  intros G. apply sort_sorted; [intros a b; apply G|]. destruct (good_total _ G) as (_ & _ & T & _). exact T.
Qed.
Lemma members_all e f ms : entry_ok e -> In (f, ms) (all_features e) <-> members e f ms.
Proof.
  intros OK. unfold all_features. rewrite (proj2 (collect_spec _)), (lists_last _ _ _ OK). unfold members. split.
  - intros (l & L & ->). exists l, (map (normal_member e) l). split; [exact L|]. split; [apply forall2_map; apply normal_member_ok|].
    split; [symmetry; apply sort_perm|]. intros a x b y c E. apply member_le_cmp. pose proof (good_sort member_cmp (map (normal_member e) l) good_member) as S0.
    rewrite sorted_sorted_by in S0. exact (S0 a x b y c E).
  - intros (l & l' & L & F & P & S0). exists l. split; [exact L|]. apply (forall2_fun (normal_member e)) in F; [|intros x y H; exact (normalised_fun _ _ _ _ H (normal_member_ok e x))].
    subst l'. apply (sorted_unique member_cmp good_member).
    + apply sorted_sorted_by. intros a x b y c E. apply member_le_cmp. exact (S0 a x b y c E).
    + apply good_sort, good_member.
    + rewrite <- P. symmetry. apply sort_perm.
Qed.
Lemma sorted_keys m : NoDup (map fst m) -> sorted_by (fun x y => bytes_cmp (fst x) (fst y) = Lt) (sort_keys m).
Proof.
  intros D a x b y c E. unfold sort_keys in E. set (cmp := fun a b : bytes * list bytes => bytes_cmp (fst a) (fst b)) in *.
  assert (S0 : sorted cmp (sort_by cmp m)).
  { apply sort_sorted; unfold cmp; [intros; apply bytes_cmp_antisym|]. destruct (good_total _ good_bytes) as (_ & _ & T & _). intros p q r. apply T. }
  rewrite sorted_sorted_by in S0. pose proof (S0 a x b y c E) as H. unfold cmp in H.
  destruct (bytes_cmp (fst x) (fst y)) eqn:C; [|reflexivity|congruence]. exfalso. apply bytes_cmp_eq in C.
  assert (D2 : NoDup (map fst (sort_by cmp m))) by (apply (Permutation_NoDup (l := map fst m)); [apply Permutation_map; symmetry; apply sort_perm|exact D]).
  rewrite E, map_app in D2. cbn in D2. apply NoDup_remove_2 in D2. apply D2. rewrite C, map_app. cbn. apply in_or_app. right. apply in_or_app. right. left. reflexivity.
Qed.
Lemma read_version_ok e : entry_ok e -> version_for e (read_version e).
Proof.
  intros OK. assert (D : NoDup (map fst (all_features e))) by apply collect_spec. pose proof (swap_remove_perm _ (bs "default") D) as P. pose proof (members_all e) as M.
  unfold read_version. destruct (swap_remove (all_features e) (bs "default")) as [[v|] fs]; unfold version_for; cbn [iv_vers iv_yanked iv_rust iv_deps iv_default iv_features].
  - assert (D' : NoDup (map fst ((bs "default", v) :: fs))) by (apply (Permutation_NoDup (l := map fst (all_features e))); [apply Permutation_map; symmetry; exact P|exact D]).
    cbn [map fst] in D'. apply NoDup_cons_iff in D'. destruct D' as [D1 D2].
    assert (I0 : forall f ms, members e f ms <-> (f = bs "default" /\ ms = v) \/ (f <> bs "default" /\ In (f, ms) fs)).
    { intros f ms. rewrite <- (M f ms OK). split.
      - intros I0. apply (Permutation_in _ (Permutation_sym P)) in I0. destruct I0 as [H|H]; [injection H as <- <-; auto|]. right. split; [|exact H].
        intros ->. apply D1. apply (in_map fst) in H. exact H.
      - intros [[-> ->]|[_ H]]; apply (Permutation_in _ P); [left; reflexivity|right; exact H]. }
    repeat (split; [reflexivity|]). split; [|split].
    + intros ms. rewrite I0. split; [intros H; injection H as ->; auto|]. intros [[_ ->]|[H _]]; congruence.
    + intros f ms. rewrite I0. unfold sort_keys. split.
      * intros H. apply (Permutation_in _ (sort_perm _ _)) in H. assert (N0 : f <> bs "default") by (intros ->; apply D1; apply (in_map fst) in H; exact H). auto.
      * intros [N0 [[H _]|[_ H]]]; [contradiction|]. apply (Permutation_in _ (Permutation_sym (sort_perm _ _))). exact H.
    + apply sorted_keys. exact D2.
  - destruct P as [-> N1]. repeat (split; [reflexivity|]). split; [|split].
    + intros ms. split; [discriminate|]. intros H. apply M in H; [|exact OK]. exfalso. apply N1. apply (in_map fst) in H. exact H.
    + intros f ms. rewrite <- (M f ms OK). unfold sort_keys. split.
      * intros H. apply (Permutation_in _ (sort_perm _ _)) in H. split; [|exact H]. intros ->. apply N1. apply (in_map fst) in H. exact H.
      * intros [_ H]. apply (Permutation_in _ (Permutation_sym (sort_perm _ _))). exact H.
    + apply sorted_keys. exact D.
Qed.

(** ** Lines *)
Lemma text_file s ls : text_lines s ls -> file_lines s (match rev ls with [] :: r => rev r | _ => ls end).
Proof.
  assert (R : forall (l : bytes) ls, ls <> [] -> match rev (l :: ls) with [] :: r => rev r | _ => l :: ls end = l :: match rev ls with [] :: r => rev r | _ => ls end).
  { intros l ls0 NE. cbn [rev]. destruct (rev ls0) as [|x r] eqn:E; [apply (f_equal (@rev _)) in E; rewrite rev_involutive in E; cbn in E; congruence|].
    cbn [app]. destruct x; [rewrite rev_app_distr; reflexivity|reflexivity]. }
  induction 1 as [l N0|l s ls N0 CR T IH|l s ls N0 T IH].
  - cbn. destruct l as [|b l]; [constructor|apply fl_last; [exact N0|discriminate]].
  - rewrite R by exact (text_lines_nonempty _ _ T). apply fl_lf; assumption.
  - rewrite R by exact (text_lines_nonempty _ _ T). apply fl_crlf; assumption.
Qed.
Lemma str_lines_ok s : file_lines s (str_lines s).
Proof. unfold str_lines. apply text_file. apply lines_spec. reflexivity. Qed.
Lemma file_text s ls : file_lines s ls -> exists ls0, text_lines s ls0 /\ ls = match rev ls0 with [] :: r => rev r | _ => ls0 end.
Proof.
  assert (R : forall (l : bytes) ls, ls <> [] -> match rev (l :: ls) with [] :: r => rev r | _ => l :: ls end = l :: match rev ls with [] :: r => rev r | _ => ls end).
  { intros l ls0 NE. cbn [rev]. destruct (rev ls0) as [|x r] eqn:E; [apply (f_equal (@rev _)) in E; rewrite rev_involutive in E; cbn in E; congruence|].
    cbn [app]. destruct x; [rewrite rev_app_distr; reflexivity|reflexivity]. }
  induction 1 as [|l N0 NE|l s ls N0 CR T (ls0 & T0 & E)|l s ls N0 T (ls0 & T0 & E)].
  - exists [[]]. split; [constructor; intros []|reflexivity].
  - exists [l]. split; [constructor; exact N0|]. cbn. destruct l; [congruence|reflexivity].
  - exists (l :: ls0). split; [apply TL_lf; assumption|]. rewrite R by exact (text_lines_nonempty _ _ T0). congruence.
  - exists (l :: ls0). split; [apply TL_crlf; assumption|]. rewrite R by exact (text_lines_nonempty _ _ T0). congruence.
Qed.
Lemma str_lines_spec s ls : str_lines s = ls <-> file_lines s ls.
Proof.
  split; [intros <-; apply str_lines_ok|]. intros F. destruct (file_text _ _ F) as (ls0 & T & ->). unfold str_lines. rewrite (proj2 (lines_spec s ls0) T). reflexivity.
Qed.

(** ** A crate *)
Section Crate.
  Context (decode : bytes -> res Empty_set (option entry)).
  Definition named (n : bytes) (e : entry) : Prop := en_name e = n.
  Definition reads_line (l : bytes) (e : entry) : Prop := decode l = Ok (Some e).
  Lemma read_some ls : forall n,
    (exists es, Forall2 reads_line ls es /\ Forall (named n) es /\ read_lines decode ls (Some n) = Ok (Some n, map read_version es)) \/
    (exists a l b es, ls = a ++ l :: b /\ Forall2 reads_line a es /\ Forall (named n) es /\
       ((decode l = Panic /\ read_lines decode ls (Some n) = Panic) \/ (decode l = Ok None /\ read_lines decode ls (Some n) = Err EJson) \/
        (exists e, decode l = Ok (Some e) /\ en_name e <> n /\ read_lines decode ls (Some n) = Err EMismatchedNames))).
  Proof.
    induction ls as [|l ls IH]; intros n; cbn [read_lines].
    - left. exists []. auto.
    - destruct (decode l) as [[e|]|[]|] eqn:E.
      + destruct (bytes_eqb n (en_name e)) eqn:B; cbn [bind].
        * apply bytes_eqb_eq in B. destruct (IH n) as [(es & F & F2 & ->)|(a & l0 & b & es & -> & F & F2 & H)].
          -- left. exists (e :: es). cbn [bind map]. split; [constructor; assumption|]. split; [constructor; [symmetry; exact B|exact F2]|reflexivity].
          -- right. exists (l :: a), l0, b, (e :: es). split; [reflexivity|]. split; [constructor; assumption|]. split; [constructor; [symmetry; exact B|exact F2]|].
             destruct H as [[D ->]|[[D ->]|(e' & D & NE & ->)]]; [left; auto|right; left; auto|right; right; eauto].
        * right. exists [], l, ls, []. split; [reflexivity|]. split; [constructor|]. split; [constructor|]. right; right. exists e. split; [exact E|]. split; [|reflexivity].
          intros H. rewrite H in B. rewrite (proj2 (bytes_eqb_eq n n) eq_refl) in B. discriminate.
      + right. exists [], l, ls, []. split; [reflexivity|]. split; [constructor|]. split; [constructor|]. right; left. auto.
      + right. exists [], l, ls, []. split; [reflexivity|]. split; [constructor|]. split; [constructor|]. left. auto.
  Qed.
End Crate.
