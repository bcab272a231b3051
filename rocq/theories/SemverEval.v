(** Requirement evaluation: C10-C14. *)
From Verif Require Import Base BaseProofs CommonModel SemverModel SemverSpec SemverOrder SemverParse
  SemverVersion SemverReq SemverText.
From Coq Require Import Permutation.
Ltac Zify.zify_post_hook ::= Z.div_mod_to_equations.

(** Pre-release strings that occur: empty or grammatical. *)
Definition pre_ok (s : bytes) : Prop := s = [] \/ pre_grammar s.

Lemma pre_ok_ids s : pre_ok s -> exists ids, Forall ident_wf ids /\ s = pre_text ids.
Proof. intros [->|(ids & _ & F & ->)]; [exists []; auto|eauto]. Qed.

(** All comparisons of two pre-release strings, as one number. *)
Lemma pre_cases p q : pre_ok p -> pre_ok q -> exists z, (z <= 2 /\ (q = [] -> z <= 1)) /\
  (pre_before p q <-> z = 0) /\ (p = q <-> z = 1) /\ (pre_before q p <-> z = 2) /\
  cmp_lt (pre_cmp p q) = (z =? 0) /\ cmp_gt (pre_cmp p q) = (z =? 2) /\
  cmp_ge (pre_cmp p q) = (1 <=? z) /\ bytes_eqb p q = (z =? 1).
Proof.
  intros Hp Hq.
  assert (LT : forall a b, pre_ok a -> pre_ok b -> (pre_before a b <-> pre_cmp a b = Lt)).
  { intros a b Ha Hb. split.
    - intros (x & y & Fx & Fy & -> & -> & P). apply pre_cmp_precedence; assumption.
    - intros H. destruct (pre_ok_ids a Ha) as (x & Fx & ->). destruct (pre_ok_ids b Hb) as (y & Fy & ->).
      exists x, y. repeat (split; [assumption || reflexivity|]). apply pre_cmp_precedence; assumption. }
  destruct good_pre as (E & S & _).
  pose proof (LT p q Hp Hq) as L1. pose proof (LT q p Hq Hp) as L2. rewrite (S p q) in L2.
  pose proof (E p q) as E1.
  assert (EB : bytes_eqb p q = match pre_cmp p q with Eq => true | _ => false end).
  { destruct (bytes_eqb p q) eqn:B.
    - apply bytes_eqb_eq in B. apply E in B. rewrite B. reflexivity.
    - destruct (pre_cmp p q) eqn:C; try reflexivity. apply E in C. apply bytes_eqb_eq in C. congruence. }
  exists (match pre_cmp p q with Lt => 0 | Eq => 1 | Gt => 2 end).
  split.
  { split; [destruct (pre_cmp p q); lia|]. intros ->. unfold pre_cmp. destruct (is_empty p); cbn [is_empty]; lia. }
  rewrite EB. destruct (pre_cmp p q); cbn [CompOpp] in L2; cbn [cmp_lt cmp_gt cmp_ge];
    repeat split; try reflexivity; try lia; intros X; try discriminate X;
    first [apply L1 in X | apply L2 in X | apply E1 in X | idtac]; try discriminate;
    try (apply L1; reflexivity); try (apply L2; reflexivity); try (apply E1; reflexivity).
Qed.

Lemma comp_ver_pre_ok c t : partial_text c t -> pre_ok (cv_pre c).
Proof. intros T; inversion T; subst; cbn [cv_pre]; try (left; reflexivity); right; assumption. Qed.

Lemma triple_eq a b c d e f : ((a, b, c) : triple) = (d, e, f) <-> a = d /\ b = e /\ c = f.
Proof. split; [intros H; injection H; auto|intros (-> & -> & ->); reflexivity]. Qed.
Lemma key_eq (t u : triple) p q : ((t, p) : key) = (u, q) <-> t = u /\ p = q.
Proof. split; [intros H; injection H; auto|intros (-> & ->); reflexivity]. Qed.

Ltac split_ifs :=
  repeat match goal with
         | |- context [if ?b then _ else _] => destruct b eqn:?
         end.

(** One comparator. *)
Lemma matches_impl_spec c v : comparator_wf c -> version_wf v ->
  exists b, matches_impl c v = Some b /\ (b = true <-> accepts (c_op c) (c_version c) v).
Proof.
  intros ([(t & T)|(w & EW)] & (ot & W) & CW) V.
  2:{ rewrite (CW w EW) in *. unfold matches_impl. rewrite (CW w EW), EW. eexists; split; [reflexivity|].
      unfold matches_exact, accepts. cbn [cv_major cv_minor cv_patch cv_pre full_key andb].
      rewrite bytes_eqb_eq. tauto. }
  assert (PV : pre_ok (v_pre v)) by (destruct V as (_ & _ & _ & P & _); exact P).
  assert (PC : pre_ok (cv_pre (c_version c))) by (eapply comp_ver_pre_ok; exact T).
  destruct (pre_cases _ _ PV PC) as (z & (Z2 & Z3) & ZL & ZE & ZG & BL & BG & BGE & BE).
  assert (ZE' : cv_pre (c_version c) = v_pre v <-> z = 1) by (rewrite <- ZE; split; congruence).
  destruct c as [oo o vo cv cm]. cbn [c_op c_version] in *.
  destruct v as [A B C P M]. cbn [v_pre] in *.
  unfold matches_impl. cbn [c_op c_version].
  assert (WLF : o = OpWl -> full_key cv = None).
  { intros ->. inversion W as [| | | | | | | ? HW|]; subst. destruct cv as [|? []|? ? []|? ? ? []|]; cbn in HW; tauto || reflexivity. }
  destruct cv as [w|a wl|a b wl|a b c m|a b c p m]; cbn [cv_pre] in *.
  { inversion T. }
  all: unfold accepts, key_le, key_lt, key_of, triple_of, caret_limit, tilde_limit, range_lo, range_hi, named_range, full_key;
    cbn [fst snd v_pre v_major v_minor v_patch];
    unfold matches_exact, matches_greater, matches_less, matches_tilde, matches_caret, or_else, opt_eqb;
    cbn [cv_major cv_minor cv_patch cv_pre v_pre v_major v_minor v_patch];
    rewrite ?BL, ?BG, ?BGE, ?BE;
    destruct o; try (specialize (WLF eq_refl); discriminate WLF);
    try specialize (Z3 eq_refl); cbv beta iota zeta; split_ifs; (eexists; split; [reflexivity|]);
    rewrite ?key_eq, ?triple_eq, ?ZL, ?ZE, ?ZE', ?ZG; unfold triple_le, triple_lt; clear ZL ZE ZE' ZG BL BG BGE BE; lia.
Qed.

(** ** Parsed comparators are well formed *)

Lemma comp_grammar_wf off s b c : comp_grammar off s b c -> comparator_wf c.
Proof.
  intros G. inversion G as [before mid after o v ot vt comma T W M op_off ver_off]; subst.
  split; [left; cbn; eauto|]. split; [cbn; eauto|]. cbn. intros w ->. inversion T.
Qed.

Lemma req_grammar_wf s cs : req_grammar s cs -> Forall comparator_wf cs.
Proof.
  intros G. inversion G as [before after w|s' cs' GS LE]; subst.
  - constructor; [|constructor]. split; [right; cbn; eauto|]. split; [exists []; apply OW_wl; exact I|reflexivity].
  - clear - GS. induction GS as [off s c G|off s c rest cs G GS IH]; constructor;
      try (eapply comp_grammar_wf; eassumption); [constructor|assumption].
Qed.

(** Comparators that can be evaluated: an operator that needs a bound has one. *)
Lemma wf_evaluates c v : comparator_wf c -> exists b, matches_impl c v = Some b.
Proof.
  intros ([(t & T)|(w & EW)] & _ & CW).
  - unfold matches_impl, or_else. assert (M : cv_major (c_version c) <> None) by (inversion T; discriminate).
    unfold matches_greater, matches_less, matches_caret.
    destruct (cv_major (c_version c)) as [a|]; [|congruence].
    destruct (c_op c); try (eexists; reflexivity); destruct (matches_exact _ _); eexists; reflexivity.
  - unfold matches_impl. rewrite (CW w EW). eexists; reflexivity.
Qed.

Lemma all_match_total cs v : Forall comparator_wf cs -> exists b, all_match cs v = Some b.
Proof.
  induction 1 as [|c cs W F IH]; cbn [all_match]; [eexists; reflexivity|].
  destruct (wf_evaluates c v W) as (b & ->). destruct b; [assumption|eexists; reflexivity].
Qed.

Lemma req_matches_total r v : Forall comparator_wf (r_comparators r) -> exists b, req_matches r v = Some b.
Proof.
  intros F. unfold req_matches. destruct (all_match_total _ v F) as ([|] & ->); [|eexists; reflexivity].
  destruct (is_empty (v_pre v)); eexists; reflexivity.
Qed.

Lemma comparator_matches_total c v : comparator_wf c -> exists b, comparator_matches c v = Some b.
Proof.
  intros F. unfold comparator_matches. destruct (wf_evaluates c v F) as ([|] & ->); eexists; reflexivity.
Qed.

(** ** Requirements *)

Lemma all_match_true cs v :
  all_match cs v = Some true <-> Forall (fun c => matches_impl c v = Some true) cs.
Proof.
  induction cs as [|c cs IH]; cbn [all_match]; [split; auto|].
  destruct (matches_impl c v) as [[|]|] eqn:M.
  - rewrite IH. split; [constructor; assumption|inversion 1; assumption].
  - split; [discriminate|inversion 1; congruence].
  - split; [discriminate|inversion 1; congruence].
Qed.

Lemma is_empty_nil (s : bytes) : is_empty s = true <-> s = [].
Proof. destruct s; cbn; split; congruence. Qed.

Lemma pre_compatible_opts c v : pre_is_compatible c v = true <-> opts_in (c_version c) v.
Proof.
  unfold pre_is_compatible, opts_in, opt_eqb, triple_of.
  destruct (c_version c) as [w|a wl|a b wl|a b p m|a b p pr m]; cbn [cv_major cv_minor cv_patch cv_pre is_empty negb];
    try (rewrite ?andb_false_r; split; [discriminate|tauto]).
  rewrite triple_eq, !andb_true_iff, negb_true_iff, !N.eqb_eq.
  assert (E : is_empty pr = false <-> pr <> []) by (destruct pr; cbn; split; congruence).
  rewrite E. tauto.
Qed.

Lemma req_matches_spec r v : Forall comparator_wf (r_comparators r) -> version_wf v ->
  exists b, req_matches r v = Some b /\ (b = true <-> req_accepts (r_comparators r) v).
Proof.
  intros F V. destruct (req_matches_total r v F) as (b & E). exists b. split; [assumption|].
  assert (A : all_match (r_comparators r) v = Some true <->
              Forall (fun c => accepts (c_op c) (c_version c) v) (r_comparators r)).
  { rewrite all_match_true. rewrite !Forall_forall. rewrite Forall_forall in F.
    split; intros H c I; specialize (H c I); destruct (matches_impl_spec c v (F c I) V) as (b' & E' & S);
      rewrite E' in *; [apply S; congruence|f_equal; apply S; assumption]. }
  unfold req_matches in E. unfold req_accepts.
  assert (X : existsb (fun c => pre_is_compatible c v) (r_comparators r) = true <->
              Exists (fun c => opts_in (c_version c) v) (r_comparators r)).
  { rewrite existsb_exists, Exists_exists. split; intros (c & I & H); exists c; (split; [assumption|]);
      apply pre_compatible_opts; assumption. }
  rewrite <- X, <- A, <- is_empty_nil.
  destruct (all_match (r_comparators r) v) as [[|]|]; try discriminate.
  - destruct (is_empty (v_pre v)); injection E as <-; intuition congruence.
  - injection E as <-. intuition congruence.
Qed.

Lemma req_matches_members r r' v :
  Forall comparator_wf (r_comparators r) ->
  (forall c, In c (r_comparators r) <-> In c (r_comparators r')) ->
  req_matches r v = req_matches r' v.
Proof.
  intros F H.
  assert (F' : Forall comparator_wf (r_comparators r')).
  { rewrite Forall_forall in *. intros c I. apply F, H, I. }
  assert (A : all_match (r_comparators r) v = all_match (r_comparators r') v).
  { destruct (all_match_total _ v F) as (b & E). destruct (all_match_total _ v F') as (b' & E').
    rewrite E, E'. f_equal. apply eq_true_iff_eq.
    assert (M : all_match (r_comparators r) v = Some true <-> all_match (r_comparators r') v = Some true).
    { rewrite !all_match_true, !Forall_forall. split; intros G c I; apply G, H, I. }
    rewrite E, E' in M. split; intros ->; [assert (X : Some b' = Some true) by tauto|assert (X : Some b = Some true) by tauto]; congruence. }
  assert (X : existsb (fun c => pre_is_compatible c v) (r_comparators r)
            = existsb (fun c => pre_is_compatible c v) (r_comparators r')).
  { apply eq_true_iff_eq. rewrite !existsb_exists. split; intros (c & I & G); exists c; (split; [apply H|]); assumption. }
  unfold req_matches. rewrite A, X. reflexivity.
Qed.

Lemma req_single p l c v : req_matches (mkreq p l [c]) v = comparator_matches c v.
Proof.
  unfold req_matches, comparator_matches. cbn [r_comparators all_match existsb].
  destruct (matches_impl c v) as [[|]|]; try reflexivity.
  destruct (is_empty (v_pre v)); [reflexivity|]. cbn [orb]. rewrite orb_false_r. reflexivity.
Qed.

Lemma req_release_conj r v : Forall comparator_wf (r_comparators r) -> v_pre v = [] ->
  (req_matches r v = Some true <-> Forall (fun c => comparator_matches c v = Some true) (r_comparators r)).
Proof.
  intros F P. unfold req_matches. destruct (all_match_total _ v F) as (b & E).
  assert (A : all_match (r_comparators r) v = Some true <->
      Forall (fun c => comparator_matches c v = Some true) (r_comparators r)).
  { rewrite all_match_true, !Forall_forall.
    assert (H : forall c, matches_impl c v = Some true <-> comparator_matches c v = Some true).
    { intros c. unfold comparator_matches. rewrite P. cbn [is_empty orb].
      destruct (matches_impl c v) as [[|]|]; split; congruence. }
    split; intros G c I; apply H, G, I. }
  rewrite <- A, E. rewrite P. cbn [is_empty]. destruct b; tauto.
Qed.

Lemma req_pre_optin r v : req_matches r v = Some true -> v_pre v <> [] ->
  Exists (fun c => opts_in (c_version c) v) (r_comparators r).
Proof.
  unfold req_matches. destruct (all_match _ v) as [[|]|]; try discriminate.
  destruct (is_empty (v_pre v)) eqn:E; [apply is_empty_nil in E; congruence|].
  intros H _. injection H as H. apply existsb_exists in H as (c & I & H).
  apply Exists_exists. exists c. split; [assumption|]. apply pre_compatible_opts; assumption.
Qed.

(** ** Build metadata *)

Lemma matches_impl_meta c c' v v' :
  c_op c = c_op c' -> same_but_meta (c_version c) (c_version c') -> same_version_but_meta v v' ->
  matches_impl c v = matches_impl c' v' /\ pre_is_compatible c v = pre_is_compatible c' v'.
Proof.
  intros O S (A & B & C & P).
  assert (E : cv_major (c_version c) = cv_major (c_version c') /\ cv_minor (c_version c) = cv_minor (c_version c') /\
              cv_patch (c_version c) = cv_patch (c_version c') /\ cv_pre (c_version c) = cv_pre (c_version c')).
  { inversion S; subst; cbn; auto. }
  destruct E as (E1 & E2 & E3 & E4). split.
  - unfold matches_impl, matches_exact, matches_greater, matches_less, matches_tilde, matches_caret.
    rewrite O, A, B, C, P, E1, E2, E3, E4. reflexivity.
  - unfold pre_is_compatible. rewrite A, B, C, E1, E2, E3, E4. reflexivity.
Qed.

Lemma req_matches_meta r r' v v' :
  Forall2 (fun c c' => c_op c = c_op c' /\ same_but_meta (c_version c) (c_version c'))
    (r_comparators r) (r_comparators r') ->
  same_version_but_meta v v' ->
  req_matches r v = req_matches r' v'.
Proof.
  intros F S. unfold req_matches. destruct S as (A & B & C & P).
  assert (X : all_match (r_comparators r) v = all_match (r_comparators r') v' /\
     existsb (fun c => pre_is_compatible c v) (r_comparators r)
     = existsb (fun c => pre_is_compatible c v') (r_comparators r')).
  { induction F as [|c c' cs cs' (O & SC) F IH]; [split; reflexivity|]. cbn [all_match existsb].
    destruct IH as (IH1 & IH2).
    destruct (matches_impl_meta c c' v v' O SC (conj A (conj B (conj C P)))) as (M1 & M2).
    rewrite M1, M2, IH1, IH2. split; reflexivity. }
  destruct X as (-> & ->). rewrite P. reflexivity.
Qed.
