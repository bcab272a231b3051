(** Refinement proof of InlineStr (C16). *)
From Verif Require Import Base BaseProofs InlineModel InlineSpec.
From Coq Require Import Permutation.
Ltac Zify.zify_post_hook ::= Z.div_mod_to_equations.

(** ** Words *)

Lemma lor_1 a : a mod 2 = 0 -> N.lor a 1 = a + 1.
Proof.
  intros E. destruct a as [|[p|p|]]; try reflexivity.
  - exfalso. rewrite N.mod_eq in E by lia. lia.
  - exfalso. revert E. vm_compute. discriminate.
Qed.

Lemma ptr_to_repr_eq a : a mod 2 = 0 -> a < two64 -> ptr_to_repr a = a / 2 + two63.
Proof.
  intros E L. unfold ptr_to_repr. rewrite lor_1 by assumption.
  replace ((a + 1) / 2) with (a / 2) by lia. replace ((a + 1) mod 2) with 1 by lia.
  unfold two63, two64 in *. lia.
Qed.

Lemma repr_to_ptr_repr a : a mod 2 = 0 -> a < two64 -> repr_to_ptr (ptr_to_repr a) = a.
Proof.
  intros E L. rewrite ptr_to_repr_eq by assumption. unfold repr_to_ptr.
  rewrite N.shiftl_mul_pow2. change (2 ^ 1) with 2. unfold two63, two64 in *. lia.
Qed.

Lemma is_inline_iff w : is_inline w = true <-> w < two63.
Proof.
  unfold is_inline. rewrite N.eqb_eq, N.shiftr_div_pow2.
  change (2 ^ (8 * PTR_SIZE - 1)) with two63. unfold two63. lia.
Qed.

Lemma le_val_bounds s : s <> [] -> Forall (fun b => 1 <= b <= 127) s ->
  256 ^ (blen s - 1) <= le_val s < 128 * 256 ^ (blen s - 1).
Proof.
  intros NE F. induction F as [|b s B F IH]; [congruence|]. clear NE.
  destruct s as [|c s].
  - cbn [le_val]. rewrite blen_cons, blen_nil. change (256 ^ (1 + 0 - 1)) with 1. lia.
  - specialize (IH ltac:(discriminate)). cbn [le_val] in *.
    replace (blen (b :: c :: s) - 1) with (N.succ (blen (c :: s) - 1)) by (rewrite !blen_cons; lia).
    rewrite N.pow_succ_r'. lia.
Qed.

Lemma pow256_mono a b : a <= b -> 256 ^ a <= 256 ^ b.
Proof. intros H. apply N.pow_le_mono_r; lia. Qed.

Lemma le_val_small s : s <> [] -> blen s <= 8 -> Forall (fun b => 1 <= b <= 127) s -> 0 < le_val s < two63.
Proof.
  intros NE L F. destruct (le_val_bounds s NE F) as (A & B).
  assert (256 ^ (blen s - 1) <= 256 ^ 7) by (apply pow256_mono; lia).
  assert (256 ^ 0 <= 256 ^ (blen s - 1)) by (apply pow256_mono; lia).
  change (256 ^ 7) with 72057594037927936 in *. change (256 ^ 0) with 1 in *. unfold two63. lia.
Qed.

Lemma le_bytes_val k : forall s, Forall (fun b => 1 <= b <= 127) s ->
  le_bytes (length s + k) (le_val s) = s ++ repeat 0 k.
Proof.
  intros s F. induction F as [|b s B F IH].
  - cbn [length app le_val plus]. induction k as [|k IH]; [reflexivity|]. cbn [le_bytes repeat].
    rewrite N.mod_0_l, N.div_0_l by lia. rewrite IH. reflexivity.
  - cbn [length plus le_bytes le_val app].
    replace ((b + 256 * le_val s) mod 256) with b by lia.
    replace ((b + 256 * le_val s) / 256) with (le_val s) by lia. rewrite IH. reflexivity.
Qed.

Lemma le_val_bytes n : forall w, w < 256 ^ N.of_nat n -> le_val (le_bytes n w) = w.
Proof.
  induction n as [|n IH]; intros w L.
  - change (256 ^ N.of_nat 0) with 1 in L. cbn. lia.
  - cbn [le_bytes le_val]. rewrite IH; [lia|].
    rewrite Nat2N.inj_succ, N.pow_succ_r' in L. apply N.div_lt_upper_bound; lia.
Qed.

Lemma le_bytes_length n : forall w, length (le_bytes n w) = n.
Proof. induction n as [|n IH]; intros w; cbn [le_bytes length]; [reflexivity|]. rewrite IH. reflexivity. Qed.

Lemma pow256 n : 256 ^ n = 2 ^ (8 * n).
Proof. rewrite N.pow_mul_r. reflexivity. Qed.

Lemma inline_len s : s <> [] -> blen s <= 8 -> Forall (fun b => 1 <= b <= 127) s ->
  PTR_SIZE - leading_zeros (le_val s) / 8 = blen s.
Proof.
  intros NE L F. destruct (le_val_bounds s NE F) as (A & B).
  destruct (le_val_small s NE L F) as (P & _).
  assert (LS : 1 <= blen s) by (destruct s; [congruence|rewrite blen_cons; lia]).
  unfold leading_zeros, PTR_SIZE, word_bits. rewrite N.size_log2 by lia.
  assert (H1 : 8 * (blen s - 1) <= N.log2 (le_val s)).
  { rewrite pow256 in A. apply N.log2_le_pow2 in A; [exact A|lia]. }
  assert (H2 : N.log2 (le_val s) < 8 * (blen s - 1) + 7).
  { apply N.log2_lt_pow2; [lia|]. rewrite N.pow_add_r. rewrite pow256 in B. change (2 ^ 7) with 128. lia. }
  lia.
Qed.

(** ** Representation *)

Definition rep (h : heap) (w : N) (s : bytes) : Prop :=
  (s = [] /\ w = EMPTY) \/
  (s <> [] /\ blen s <= 8 /\ w = le_val s) \/
  (8 < blen s /\ exists a, 0 < a < two64 /\ a mod 2 = 0 /\ w = ptr_to_repr a /\
     lookup a h = Some (le_bytes 8 (blen s) ++ s)).

Definition owned (w : N) : list N := if inl_is_empty w || is_inline w then [] else [repr_to_ptr w].

(** Classification of representations. *)
Lemma rep_cases h w s : str_ok s -> rep h w s ->
  (inl_is_empty w = true /\ s = [] /\ w = EMPTY) \/
  (inl_is_empty w = false /\ is_inline w = true /\ s <> [] /\ blen s <= 8 /\ w = le_val s) \/
  (inl_is_empty w = false /\ is_inline w = false /\ 8 < blen s /\ exists a, 0 < a < two64 /\ a mod 2 = 0 /\
     w = ptr_to_repr a /\ repr_to_ptr w = a /\ lookup a h = Some (le_bytes 8 (blen s) ++ s)).
Proof.
  intros (F & LS) [(-> & ->)|[(NE & L & ->)|(L & a & R & E & -> & LK)]].
  - left. auto.
  - right; left. destruct (le_val_small s NE L F) as (P & Q). unfold inl_is_empty, EMPTY.
    split; [unfold two63 in *; lia|]. split; [apply is_inline_iff; assumption|]. auto.
  - right; right. rewrite repr_to_ptr_repr by (assumption || lia).
    pose proof (ptr_to_repr_eq a E ltac:(lia)) as EQ.
    assert (NI : is_inline (ptr_to_repr a) = false).
    { destruct (is_inline (ptr_to_repr a)) eqn:X; [|reflexivity]. apply is_inline_iff in X. rewrite EQ in X. lia. }
    split; [unfold inl_is_empty, EMPTY; rewrite EQ; unfold two63 in *; lia|].
    split; [assumption|]. split; [assumption|]. exists a. auto.
Qed.

Lemma block_len s : blen (le_bytes 8 (blen s) ++ s) = 8 + blen s.
Proof. rewrite blen_app. unfold blen at 1. rewrite le_bytes_length. lia. Qed.

Lemma long_block_read h a s : str_ok s -> lookup a h = Some (le_bytes 8 (blen s) ++ s) ->
  read_len h a = Ok (blen s).
Proof.
  intros (_ & L) E. unfold read_len. rewrite E.
  rewrite block_len. replace (8 <=? 8 + blen s) with true by lia.
  rewrite firstn_app, le_bytes_length. change (8 - 8)%nat with O. rewrite firstn_O, app_nil_r.
  rewrite firstn_all2 by (rewrite le_bytes_length; lia).
  rewrite le_val_bytes; [reflexivity|]. change (256 ^ N.of_nat 8) with 18446744073709551616. lia.
Qed.

Lemma skip8 s : skipn 8 (le_bytes 8 (blen s) ++ s) = s.
Proof.
  rewrite skipn_app, le_bytes_length. change (8 - 8)%nat with O.
  rewrite skipn_all2 by (rewrite le_bytes_length; lia). reflexivity.
Qed.

Lemma long_ptr_as_str h w a s : str_ok s -> repr_to_ptr w = a -> lookup a h = Some (le_bytes 8 (blen s) ++ s) ->
  ptr_as_str h w = Ok s.
Proof.
  intros OK E LK. unfold ptr_as_str. rewrite E, (long_block_read h a s OK LK). cbn [bind]. rewrite LK, block_len.
  replace (8 + blen s <=? 8 + blen s) with true by lia. rewrite skip8. unfold blen.
  rewrite Nat2N.id, firstn_all. reflexivity.
Qed.

Lemma as_str_rep h w s : str_ok s -> rep h w s -> as_str h w = Ok s.
Proof.
  intros OK R. unfold as_str. destruct (rep_cases h w s OK R)
    as [(-> & -> & _)|[(-> & -> & NE & L & ->)|(-> & -> & L & a & _ & _ & _ & E & LK)]].
  - reflexivity.
  - cbv zeta. destruct OK as (F & _). rewrite inline_len by assumption.
    assert (X : (8 = length s + (8 - length s))%nat) by (unfold blen in L; lia).
    rewrite X at 1. rewrite le_bytes_val by assumption. unfold blen. rewrite Nat2N.id.
    rewrite firstn_app, Nat.sub_diag, firstn_all. cbn. rewrite app_nil_r. reflexivity.
  - eapply long_ptr_as_str; eassumption.
Qed.

Lemma is_empty_rep h w s : str_ok s -> rep h w s -> (inl_is_empty w = true <-> s = []).
Proof.
  intros OK R. destruct (rep_cases h w s OK R) as [(-> & -> & _)|[(-> & _ & NE & _)|(-> & _ & L & _)]].
  - tauto.
  - split; [discriminate|congruence].
  - split; [discriminate|]. intros ->. rewrite blen_nil in L. lia.
Qed.

Lemma le_val_inj s t : Forall (fun b => 1 <= b <= 127) s -> Forall (fun b => 1 <= b <= 127) t ->
  le_val s = le_val t -> s = t.
Proof.
  intros F. revert t. induction F as [|b s B F IH]; intros t G E.
  - destruct G as [|c t C G]; [reflexivity|]. cbn [le_val] in E. lia.
  - destruct G as [|c t C G]; cbn [le_val] in E; [lia|]. f_equal; [lia|]. apply IH; [assumption|lia].
Qed.

Lemma eq_rep h v w s t : str_ok s -> str_ok t -> rep h v s -> rep h w t ->
  exists b, inl_eq h v w = Ok b /\ (b = true <-> s = t).
Proof.
  intros OS OT RS RT. unfold inl_eq.
  destruct (rep_cases h v s OS RS) as [(E1 & -> & ->)|[(E1 & I1 & NE1 & L1 & EV)|(E1 & I1 & L1 & a & A1 & _ & _ & P1 & K1)]];
  destruct (rep_cases h w t OT RT) as [(E2 & -> & EW)|[(E2 & I2 & NE2 & L2 & EW)|(E2 & I2 & L2 & a2 & A2 & _ & _ & P2 & K2)]].
  - rewrite E1. cbn [orb]. subst w. exists true. split; [reflexivity|tauto].
  - rewrite E1. cbn [orb]. exists false. unfold inl_is_empty in E2. rewrite N.eqb_sym, E2. split; [reflexivity|].
    split; [discriminate|congruence].
  - rewrite E1. cbn [orb]. exists false. unfold inl_is_empty in E2. rewrite N.eqb_sym, E2. split; [reflexivity|].
    split; [discriminate|]. intros <-. rewrite blen_nil in L2. lia.
  - rewrite E1, I1. cbn [orb]. exists false. unfold inl_is_empty in E1. subst w. rewrite E1. split; [reflexivity|].
    split; [discriminate|congruence].
  - rewrite E1, I1. cbn [orb]. eexists; split; [reflexivity|]. subst v w. rewrite N.eqb_eq. split; [|congruence].
    apply le_val_inj; [apply OS|apply OT].
  - rewrite E1, I1. cbn [orb]. exists false. split.
    + f_equal. destruct (v =? w) eqn:X; [|reflexivity]. apply N.eqb_eq in X. congruence.
    + split; [discriminate|]. intros ->. lia.
  - rewrite E1, I1, E2. cbn [orb]. exists false. split; [reflexivity|]. split; [discriminate|].
    intros ->. rewrite blen_nil in L1. lia.
  - rewrite E1, I1, E2, I2. cbn [orb]. exists false. split; [reflexivity|]. split; [discriminate|]. intros ->. lia.
  - rewrite E1, I1, E2, I2. cbn [orb]. rewrite (long_ptr_as_str h v a s), (long_ptr_as_str h w a2 t) by assumption.
    cbn [bind]. eexists; split; [reflexivity|]. apply bytes_eqb_eq.
Qed.

(** ** Heap frame *)

Lemma lookup_in a h b : lookup a h = Some b -> In a (map fst h).
Proof.
  induction h as [|[x c] h IH]; cbn [lookup map fst]; [discriminate|].
  destruct (a =? x) eqn:E; [apply N.eqb_eq in E; subst; left; reflexivity|right; auto].
Qed.

Lemma rep_alloc h w s a b : ~ In a (map fst h) -> rep h w s -> rep ((a, b) :: h) w s.
Proof.
  intros NI [H|[H|(L & x & R & E & EW & LK)]]; [left; exact H|right; left; exact H|].
  right; right. split; [assumption|]. exists x. repeat (split; [assumption|]).
  cbn [lookup]. replace (x =? a) with false; [assumption|].
  symmetry. apply N.eqb_neq. intros ->. apply lookup_in in LK. contradiction.
Qed.

Lemma lookup_remove a x h : x <> a -> lookup x (remove a h) = lookup x h.
Proof.
  intros NE. induction h as [|[y c] h IH]; cbn [remove lookup]; [reflexivity|].
  destruct (a =? y) eqn:E.
  - apply N.eqb_eq in E. subst. replace (x =? y) with false by lia. reflexivity.
  - cbn [lookup]. rewrite IH. reflexivity.
Qed.

Lemma rep_remove h w s a : str_ok s -> ~ In a (owned w) -> rep h w s -> rep (remove a h) w s.
Proof.
  intros OK NI R. destruct (rep_cases h w s OK R)
    as [(_ & -> & ->)|[(_ & _ & NE & L & ->)|(E1 & I1 & L & x & X & XE & EW & P & LK)]].
  - left; auto.
  - right; left; auto.
  - right; right. split; [assumption|]. exists x. repeat (split; [assumption|]).
    rewrite lookup_remove; [assumption|]. intros ->. apply NI. unfold owned. rewrite E1, I1. cbn [orb]. left. assumption.
Qed.

Lemma remove_perm a h : In a (map fst h) -> Permutation (map fst h) (a :: map fst (remove a h)).
Proof.
  induction h as [|[x c] h IH]; cbn [map fst remove]; [intros []|].
  intros I. destruct (a =? x) eqn:E.
  - apply N.eqb_eq in E. subst. reflexivity.
  - destruct I as [->|I]; [rewrite N.eqb_refl in E; discriminate|]. cbn [map fst].
    rewrite (IH I) at 1. apply perm_swap.
Qed.

(** ** Program invariant *)

Record Inv (st : istate) (m : sstate) : Prop := {
  inv_rep : Forall2 (fun v x => fst v = fst x /\ str_ok (snd x) /\ rep (is_heap st) (snd v) (snd x)) (is_vars st) m;
  inv_names : NoDup (map fst m);
  inv_heap : NoDup (map fst (is_heap st));
  inv_own : Permutation (map fst (is_heap st)) (flat_map (fun v => owned (snd v)) (is_vars st))
}.

Lemma get_none_notin {A} x (m : list (nat * A)) : get x m = None -> ~ In x (map fst m).
Proof.
  induction m as [|[y a] m IH]; cbn [get map fst]; [auto|].
  destruct (Nat.eqb x y) eqn:E; [discriminate|]. intros H [I|I]; [|apply IH; assumption].
  subst. rewrite Nat.eqb_refl in E. discriminate.
Qed.

Lemma inv_get st m x s : Inv st m -> get x m = Some s ->
  str_ok s /\ exists w, get x (is_vars st) = Some w /\ rep (is_heap st) w s.
Proof.
  intros [R _ _ _] G. induction R as [|[y w] [z t] vs m (E & OK & RP) R IH]; cbn [get] in *; [discriminate|].
  cbn [fst snd] in *. subst z. destruct (Nat.eqb x y); [|apply IH; assumption].
  injection G as ->. split; [assumption|]. eauto.
Qed.

Lemma del_split {A} x (l : list (nat * A)) a : get x l = Some a ->
  exists l1 l2, l = l1 ++ (x, a) :: l2 /\ del x l = l1 ++ l2 /\ ~ In x (map fst l1).
Proof.
  induction l as [|[y b] l IH]; cbn [get del]; [discriminate|].
  destruct (Nat.eqb x y) eqn:E.
  - intros H. injection H as ->. apply Nat.eqb_eq in E. subst. exists [], l. cbn. auto.
  - intros H. destruct (IH H) as (l1 & l2 & -> & D & NI). exists ((y, b) :: l1), l2. rewrite D.
    cbn. split; [reflexivity|]. split; [reflexivity|]. intros [X|X]; [|auto].
    subst. rewrite Nat.eqb_refl in E. discriminate.
Qed.

Lemma Forall2_impl_in {A B} (P Q : A -> B -> Prop) l m :
  (forall a b, In a l -> P a b -> Q a b) -> Forall2 P l m -> Forall2 Q l m.
Proof.
  intros H F. induction F as [|a b l m X F IH]; constructor.
  - apply H; [left; reflexivity|assumption].
  - apply IH. intros a' b' I. apply H. right. assumption.
Qed.

Lemma del_forall2 x (vs : list (nat * N)) (m : sstate) (P : N -> bytes -> Prop) :
  Forall2 (fun v y => fst v = fst y /\ P (snd v) (snd y)) vs m ->
  Forall2 (fun v y => fst v = fst y /\ P (snd v) (snd y)) (del x vs) (del x m).
Proof.
  induction 1 as [|[y w] [z t] vs m (E & X) F IH]; cbn [del]; [constructor|].
  cbn [fst snd] in *. subst z. destruct (Nat.eqb x y); [assumption|]. constructor; [cbn; auto|assumption].
Qed.

Section Run.
Context (alloc : heap -> N -> option N) (AOK : allocator_ok alloc).

Lemma flat_owned_in a (vs : list (nat * N)) v : In v vs -> In a (owned (snd v)) ->
  In a (flat_map (fun v => owned (snd v)) vs).
Proof. intros I J. apply in_flat_map. exists v. auto. Qed.

(** A freshly written block becomes a long string. *)
Lemma fresh_block st m x s a h : Inv st m -> get x m = None -> str_ok s -> 8 < blen s ->
  alloc_block alloc (is_heap st) (le_bytes 8 (blen s) ++ s) = Ok (a, h) ->
  Inv (mkis ((x, ptr_to_repr a) :: is_vars st) h) ((x, s) :: m).
Proof.
  intros [R NM NH PO] G OK L A. unfold alloc_block in A.
  destruct (alloc (is_heap st) (blen (le_bytes 8 (blen s) ++ s))) as [a'|] eqn:AE; [|discriminate].
  injection A as -> <-. destruct (AOK _ _ _ AE) as (P & E & B & NI).
  assert (LT : a < two64) by (rewrite block_len in B; lia).
  assert (RN : rep ((a, le_bytes 8 (blen s) ++ s) :: is_heap st) (ptr_to_repr a) s).
  { right; right. split; [assumption|]. exists a. repeat split; try assumption; [].
    cbn [lookup]. rewrite N.eqb_refl. reflexivity. }
  split; cbn [is_vars is_heap map fst].
  - constructor; [cbn [fst snd]; auto|].
    eapply Forall2_impl_in; [|exact R]. cbv beta. intros v y _ (E1 & E2 & E3).
    split; [assumption|]. split; [assumption|]. apply rep_alloc; assumption.
  - constructor; [apply get_none_notin; assumption|assumption].
  - constructor; assumption.
  - cbn [flat_map snd].
    destruct (rep_cases _ _ _ OK RN) as [(_ & -> & _)|[(_ & _ & _ & L2 & _)|(E1 & I1 & _ & a2 & _ & _ & _ & P2 & _)]].
    + rewrite blen_nil in L. lia.
    + lia.
    + unfold owned at 1. rewrite E1, I1. cbn [orb app].
      rewrite repr_to_ptr_repr by assumption. apply perm_skip. assumption.
Qed.

(** A word that needs no block. *)
Lemma short_word st m x s w : Inv st m -> get x m = None -> str_ok s -> rep [] w s ->
  Inv (mkis ((x, w) :: is_vars st) (is_heap st)) ((x, s) :: m).
Proof.
  intros [R NM NH PO] G OK RW.
  assert (NB : inl_is_empty w || is_inline w = true /\ rep (is_heap st) w s).
  { destruct (rep_cases _ _ _ OK RW) as [(E & -> & ->)|[(E & I1 & NE & L & ->)|(_ & _ & _ & a2 & _ & _ & _ & _ & K)]].
    - rewrite E. split; [reflexivity|left; auto].
    - rewrite E, I1. split; [reflexivity|right; left; auto].
    - discriminate K. }
  destruct NB as (NB & RW2).
  split; cbn [is_vars is_heap map fst flat_map snd].
  - constructor; [cbn; auto|assumption].
  - constructor; [apply get_none_notin; assumption|assumption].
  - assumption.
  - unfold owned at 1. rewrite NB. cbn. assumption.
Qed.

Lemma inl_new_ok st m x s : Inv st m -> get x m = None -> str_ok s ->
  match inl_new alloc (is_heap st) s with
  | Ok (w, h) => Inv (mkis ((x, w) :: is_vars st) h) ((x, s) :: m)
  | Err _ => True
  | Panic => False
  end.
Proof.
  intros I G OK. unfold inl_new. cbv zeta. destruct (blen s =? 0) eqn:E0.
  - assert (s = []) by (destruct s; [reflexivity|rewrite blen_cons in E0; lia]). subst.
    apply short_word; auto. left; auto.
  - assert (NE : s <> []) by (intros ->; discriminate E0).
    destruct (blen s <=? PTR_SIZE) eqn:E1.
    + apply short_word; auto. right; left. unfold PTR_SIZE in E1. split; [assumption|]. split; [lia|reflexivity].
    + destruct OK as (F & LS). unfold PTR_SIZE in E1.
      replace (blen s <=? MAX_STR_LEN) with true by (unfold MAX_STR_LEN, PTR_SIZE; lia).
      destruct (alloc_block alloc (is_heap st) (le_bytes 8 (blen s) ++ s)) as [[a h]|e|] eqn:A; cbn [bind].
      * eapply fresh_block; try eassumption; [split; assumption|lia].
      * exact Logic.I.
      * unfold alloc_block in A. destruct (alloc _ _); discriminate.
Qed.

Lemma inl_clone_ok st m x y s w : Inv st m -> get x m = Some s -> get y m = None ->
  get x (is_vars st) = Some w -> rep (is_heap st) w s -> str_ok s ->
  match inl_clone alloc (is_heap st) w with
  | Ok (w', h) => Inv (mkis ((y, w') :: is_vars st) h) ((y, s) :: m)
  | Err _ => True
  | Panic => False
  end.
Proof.
  intros I G1 G2 GW R OK. unfold inl_clone. cbv zeta.
  destruct (rep_cases _ _ _ OK R) as [(E & -> & ->)|[(E & I1 & NE & L & ->)|(E & I1 & L & a & _ & _ & _ & P & K)]].
  - rewrite E, orb_true_r. apply short_word; auto. left; auto.
  - rewrite I1. cbn [orb]. apply short_word; auto. right; left; auto.
  - rewrite E, I1. cbn [orb]. rewrite P, (long_block_read _ _ _ OK K). cbn [bind]. rewrite K, block_len.
    unfold PTR_SIZE. replace (8 + blen s <=? 8 + blen s) with true by lia.
    replace (N.to_nat (8 + blen s)) with (length (le_bytes 8 (blen s) ++ s))
      by (rewrite app_length, le_bytes_length; unfold blen; lia).
    rewrite firstn_all.
    destruct (alloc_block alloc (is_heap st) (le_bytes 8 (blen s) ++ s)) as [[c h]|e|] eqn:A; cbn [bind].
    + eapply fresh_block; eassumption.
    + exact Logic.I.
    + unfold alloc_block in A. destruct (alloc _ _); discriminate.
Qed.

Lemma inl_drop_ok st m x s w : Inv st m -> get x m = Some s ->
  get x (is_vars st) = Some w -> rep (is_heap st) w s -> str_ok s ->
  match inl_drop (is_heap st) w with
  | Ok h => Inv (mkis (del x (is_vars st)) h) (del x m)
  | Err _ => False
  | Panic => False
  end.
Proof.
  intros [RV NM NH PO] G1 GW R OK. unfold inl_drop. cbv zeta.
  destruct (del_split x m s G1) as (m1 & m2 & EM & DM & _).
  destruct (del_split x (is_vars st) w GW) as (v1 & v2 & EV & DV & _).
  assert (NM2 : NoDup (map fst (del x m))).
  { rewrite DM. rewrite EM in NM. rewrite map_app in *. cbn [map fst] in NM. apply NoDup_remove_1 in NM. assumption. }
  assert (PO2 : Permutation (map fst (is_heap st)) (owned w ++ flat_map (fun v => owned (snd v)) (del x (is_vars st)))).
  { rewrite DV. rewrite PO, EV. rewrite !flat_map_app. cbn [flat_map snd]. rewrite !app_assoc.
    apply Permutation_app_tail. apply Permutation_app_comm. }
  assert (SHORT : inl_is_empty w || is_inline w = true -> Inv (mkis (del x (is_vars st)) (is_heap st)) (del x m)).
  { intros NB. split; cbn [is_vars is_heap]; try assumption.
    - apply (del_forall2 x (is_vars st) m (fun w s => str_ok s /\ rep (is_heap st) w s)). exact RV.
    - unfold owned at 1 in PO2. rewrite NB in PO2. exact PO2. }
  destruct (rep_cases _ _ _ OK R) as [(E & -> & EW)|[(E & I1 & NE & L & EW)|(E & I1 & L & a & _ & _ & _ & P & K)]].
  - rewrite E. apply SHORT. rewrite E. reflexivity.
  - rewrite E, I1. apply SHORT. rewrite E, I1. reflexivity.
  - rewrite E, I1. cbn [orb]. rewrite P, (long_block_read _ _ _ OK K). cbn [bind]. rewrite K, block_len.
    unfold PTR_SIZE. rewrite N.eqb_refl.
    assert (OW : owned w = [a]) by (unfold owned; rewrite E, I1, P; reflexivity).
    rewrite OW in PO2. cbn [app] in PO2.
    assert (NI : ~ In a (flat_map (fun v => owned (snd v)) (del x (is_vars st)))).
    { apply (Permutation_NoDup PO2) in NH. inversion NH; assumption. }
    pose proof (remove_perm a (is_heap st) (lookup_in _ _ _ K)) as RP.
    split; cbn [is_vars is_heap].
    + eapply Forall2_impl_in; [|apply (del_forall2 x (is_vars st) m (fun w s => str_ok s /\ rep (is_heap st) w s)); exact RV].
      cbv beta. intros v y IV (E1 & OKY & RY). split; [assumption|]. split; [assumption|].
      apply rep_remove; [assumption| |assumption]. intros IA. apply NI. eapply flat_owned_in; eassumption.
    + assumption.
    + apply (Permutation_NoDup RP) in NH. inversion NH; assumption.
    + apply (Permutation_cons_inv (a := a)). rewrite <- RP. exact PO2.
Qed.

Lemma istep_ok st m o m' x : Inv st m -> spec_step m o m' x ->
  match istep alloc st o with
  | Ok (st', x') => x' = x /\ Inv st' m'
  | Err _ => True
  | Panic => False
  end.
Proof.
  intros I S. inversion S as [? y s G OK|? y z s G1 G2|? y s G|? y s G|? y s b G B|? y z s t b G1 G2 B]; subst;
    cbn [istep]; unfold var.
  - pose proof (inl_new_ok st m y s I G OK) as H. destruct (inl_new alloc (is_heap st) s) as [[w h]|e|]; cbn [bind]; auto.
  - destruct (inv_get _ _ _ _ I G1) as (OK & w & GW & R). rewrite GW. cbn [bind].
    pose proof (inl_clone_ok st m y z s w I G1 G2 GW R OK) as H.
    destruct (inl_clone alloc (is_heap st) w) as [[w' h]|e|]; cbn [bind]; auto.
  - destruct (inv_get _ _ _ _ I G) as (OK & w & GW & R). rewrite GW. cbn [bind].
    pose proof (inl_drop_ok st m y s w I G GW R OK) as H.
    destruct (inl_drop (is_heap st) w) as [h|e|]; cbn [bind]; auto.
  - destruct (inv_get _ _ _ _ I G) as (OK & w & GW & R). rewrite GW. cbn [bind].
    rewrite (as_str_rep _ _ _ OK R). cbn [bind]. auto.
  - destruct (inv_get _ _ _ _ I G) as (OK & w & GW & R). rewrite GW. cbn [bind]. split; [|assumption].
    f_equal. apply eq_true_iff_eq. rewrite (is_empty_rep _ _ _ OK R), B. reflexivity.
  - destruct (inv_get _ _ _ _ I G1) as (OK1 & w1 & GW1 & R1). destruct (inv_get _ _ _ _ I G2) as (OK2 & w2 & GW2 & R2).
    rewrite GW1, GW2. cbn [bind]. destruct (eq_rep _ _ _ _ _ OK1 OK2 R1 R2) as (c & -> & C). cbn [bind].
    split; [|assumption]. f_equal. apply eq_true_iff_eq. rewrite C, B. reflexivity.
Qed.

Lemma irun_ok os : forall st m m' xs, Inv st m -> spec_run m os m' xs ->
  match irun alloc st os with
  | Ok (st', xs') => xs' = xs /\ Inv st' m'
  | Err _ => True
  | Panic => False
  end.
Proof.
  induction os as [|o os IH]; intros st m m' xs I S; inversion S as [|? ? m1 x ? ? ys S1 S2]; subst; cbn [irun].
  - auto.
  - pose proof (istep_ok st m o m1 x I S1) as H.
    destruct (istep alloc st o) as [[st1 x1]|e|]; cbn [bind]; auto. destruct H as (-> & I1).
    specialize (IH st1 m1 m' ys I1 S2). destruct (irun alloc st1 os) as [[st2 ys']|e|]; cbn [bind]; auto.
    destruct IH as (-> & I2). auto.
Qed.
End Run.

Lemma inv_init : Inv (mkis [] []) [].
Proof. split; cbn; constructor. Qed.

(** One live block per long string. *)
Lemma inv_blocks st m : Inv st m -> length (is_heap st) = long_strings m.
Proof.
  intros [R _ _ PO]. apply Permutation_length in PO. rewrite map_length in PO. rewrite PO. clear PO.
  unfold long_strings. induction R as [|v x vs m (E & OK & RP) F IH]; [reflexivity|].
  cbn [flat_map filter]. rewrite app_length, IH.
  destruct (rep_cases _ _ _ OK RP) as [(E1 & S & _)|[(E1 & I1 & NE & L & _)|(E1 & I1 & L & _)]]; unfold owned; rewrite E1.
  - rewrite S. cbn. reflexivity.
  - rewrite I1. replace (8 <? blen (snd x)) with false by lia. reflexivity.
  - rewrite I1. replace (8 <? blen (snd x)) with true by lia. reflexivity.
Qed.
