(** Property theorems about crates/semver.  Specifications: SemverSpec.v. *)
From Verif Require Import Base BaseProofs CommonModel SemverModel SemverSpec SemverOrder SemverParse
  SemverVersion SemverReq SemverText SemverEval SemverErr SemverProfile.

(** C01.  [total_order cmp]: Equal exactly for equal values, swapping the
    arguments swaps the answer, and "not greater" is transitive (totality is
    that [cmp] always answers). *)
Theorem C01_version_total_order : total_order version_cmp.
Proof. exact (good_total _ good_version). Qed.
Print Assumptions C01_version_total_order.
(** Which of two different versions is the smaller: the numbers decide first,
    most significant first, then the pre-release (C02), then the build
    metadata (C03). *)
Theorem C01_numbers_decide_first : forall a b,
  version_cmp a b = Lt <->
  v_major a < v_major b \/
  (v_major a = v_major b /\ (v_minor a < v_minor b \/
  (v_minor a = v_minor b /\ (v_patch a < v_patch b \/
  (v_patch a = v_patch b /\ (pre_cmp (v_pre a) (v_pre b) = Lt \/
  (v_pre a = v_pre b /\ meta_cmp (v_meta a) (v_meta b) = Lt))))))).
Proof. exact version_cmp_lt. Qed.
Print Assumptions C01_numbers_decide_first.
Example C01_nontrivial :
  version_cmp (mkver 1 0 0 (bs "alpha.2") []) (mkver 1 0 0 (bs "alpha.10") []) = Lt /\
  version_cmp (mkver 1 0 0 [] (bs "01")) (mkver 1 0 0 [] (bs "1")) = Gt.
Proof. split; reflexivity. Qed.

(** C02 *)
Theorem C02_prerelease_precedence : forall x y : list ident,
  Forall ident_wf x -> Forall ident_wf y ->
  (pre_cmp (pre_text x) (pre_text y) = Lt <-> prec_lt x y) /\
  (pre_cmp (pre_text x) (pre_text y) = Eq <-> x = y).
Proof. exact pre_cmp_precedence. Qed.
Print Assumptions C02_prerelease_precedence.
Example C02_nontrivial :
  Forall ident_wf [IWord (bs "alpha"); INum 9] /\ Forall ident_wf [IWord (bs "alpha"); INum 10] /\
  pre_text [IWord (bs "alpha"); INum 10] = bs "alpha.10" /\
  prec_lt [IWord (bs "alpha"); INum 9] [IWord (bs "alpha"); INum 10].
Proof.
  assert (W : ident_wf (IWord (bs "alpha"))).
  { split; [repeat constructor; unfold ident_char; cbn; lia|]. exists 97. cbn. split; [auto|lia]. }
  split; [constructor; [exact W|repeat constructor]|]. split; [constructor; [exact W|repeat constructor]|].
  split; [reflexivity|]. split; [discriminate|]. right. apply lex_later, lex_here. cbn. lia.
Qed.

(** C03 *)
Theorem C03_build_metadata_order : forall x y : list bytes,
  x <> [] -> y <> [] ->
  Forall (fun w => w <> [] /\ Forall ident_char w) x ->
  Forall (fun w => w <> [] /\ Forall ident_char w) y ->
  (meta_cmp (join 46 x) (join 46 y) = Lt <-> lex_lt build_lt x y) /\
  meta_cmp [] (join 46 y) = Lt.
Proof. exact meta_cmp_spec. Qed.
Print Assumptions C03_build_metadata_order.
Theorem C03_build_metadata_total : total_order meta_cmp.
Proof. exact (good_total _ good_meta). Qed.
Print Assumptions C03_build_metadata_total.
Example C03_nontrivial :
  map (fun p => meta_cmp (bs (fst p)) (bs (snd p)))
    [("0", "00"); ("00", "1"); ("1", "01"); ("01", "001"); ("001", "2"); ("2", "1a")]%string
  = [Lt; Lt; Lt; Lt; Lt; Lt].
Proof. reflexivity. Qed.

(** C04 *)
Theorem C04_parse_version_grammar : forall s p v,
  parse_version Debug s p = Ok v <-> version_grammar s v.
Proof. intros s p v. exact (conj (parse_version_sound s p v) (parse_version_complete Debug s p v)). Qed.
Print Assumptions C04_parse_version_grammar.
(** The same for release builds, except for inputs that contain one of the
    numbers 4294967296 to 4294967299 (see C05). *)
Theorem C04_parse_version_grammar_any_build : forall prof s p v,
  valid_utf8 s -> ~ contains_overflow s ->
  (parse_version prof s p = Ok v <-> version_grammar s v).
Proof.
  exact (fun prof s p v V N =>
    eq_ind_r (fun r => r = Ok v <-> version_grammar s v)
      (conj (parse_version_sound s p v) (parse_version_complete Debug s p v))
      (version_profile_irrelevant prof s p V N)).
Qed.
Print Assumptions C04_parse_version_grammar_any_build.
Example C04_nontrivial :
  parse_version Debug (bs " 1.20.3-rc.1+build.007 ") pos_zero = Ok (mkver 1 20 3 (bs "rc.1") (bs "build.007")) /\
  (exists e, parse_version Debug (bs "1.02.3") pos_zero = Err e) /\
  valid_utf8 (bs "1.2.3") /\ ~ contains_overflow (bs "1.2.3").
Proof.
  split; [reflexivity|]. split; [eexists; reflexivity|]. split.
  - apply ascii_valid. repeat constructor.
  - intros (a & k & b & E & K).
    assert (L : length (dec k) = 10%nat).
    { assert (H : k = 4294967296 \/ k = 4294967297 \/ k = 4294967298 \/ k = 4294967299) by lia.
      destruct H as [->|[->|[->| ->]]]; reflexivity. }
    apply (f_equal (@length N)) in E. rewrite !app_length, L in E. cbn in E. lia.
Qed.

(** C05.  Full statement: for every numeric field of a version text that does
    not fit in u32 the result is IntOverflow at the field, in every build.
    It is false: *)
Definition C05_statement : Prop := forall prof s p f n r k,
  version_prefix f k s -> 4294967295 < n -> no_digit r ->
  parse_version prof (s ++ dec n ++ r) p = Err (IntOverflow f (pos_plus p (blen s)) (blen (dec n))).
Theorem C05_overflow_rejected_refuted : ~ C05_statement.
Proof.
  intros H. specialize (H Debug [] pos_zero FMajor 4294967296 (bs ".0.0") O (VP_major O) eq_refl eq_refl).
  vm_compute in H. discriminate H.
Qed.
Print Assumptions C05_overflow_rejected_refuted.
(** What happens instead: a debug build panics, a release build returns a wrapped number. *)
Theorem C05_overflow_panics : forall s p f n r k,
  version_prefix f k s -> overflow_bug n -> no_digit r -> parse_version Debug (s ++ dec n ++ r) p = Panic.
Proof. exact overflow_version_panics. Qed.
Print Assumptions C05_overflow_panics.
Theorem C05_overflow_wraps_refuted :
  exists s v, parse_version Release s pos_zero = Ok v /\ ~ version_grammar s v.
Proof.
  exists (bs "4294967297.0.0"), (mkver 1 0 0 [] []). split; [reflexivity|].
  intros G. apply version_display_trimmed in G as (a & b & E & _).
  destruct a; [|discriminate]. vm_compute in E. discriminate.
Qed.
Print Assumptions C05_overflow_wraps_refuted.
(** Partial: holds for all numbers except those that start with 4294967296 to
    4294967299 (all ten-digit ones above 4294967299 included). *)
Theorem C05_overflow_rejected_partial : forall prof s p f n r k,
  version_prefix f k s -> 4294967295 < n -> ~ overflow_bug n -> no_digit r ->
  parse_version prof (s ++ dec n ++ r) p = Err (IntOverflow f (pos_plus p (blen s)) (blen (dec n))).
Proof. exact overflow_version. Qed.
Print Assumptions C05_overflow_rejected_partial.
Example C05_nontrivial : version_prefix FPatch 1 (bs " 1.2.") /\ 4294967295 < 4294967300 /\ no_digit (bs "-a") /\
  parse_version Debug (bs " 1.2.4294967300-a") (mkpos 3 7) = Err (IntOverflow FPatch (mkpos 3 12) 10) /\
  overflow_bug 42949672965.
Proof.
  split; [apply (VP_patch 1 1 2); cbv; discriminate|].
  repeat split; try reflexivity. exists 4294967296, [53]. split; [lia|]. reflexivity.
Qed.

(** C06 *)
Theorem C06_version_display_is_trimmed_input : forall s p v,
  parse_version Debug s p = Ok v -> trimmed s (version_text v).
Proof. intros s p v H. exact (version_display_trimmed s v (parse_version_sound s p v H)). Qed.
Print Assumptions C06_version_display_is_trimmed_input.
Theorem C06_version_parse_display : forall prof v p,
  version_wf v -> parse_version prof (version_text v) p = Ok v.
Proof. intros prof v p H. exact (parse_version_complete prof _ p v (version_text_grammar v H)). Qed.
Print Assumptions C06_version_parse_display.
(** Everything the parser returns is well formed in the sense used above. *)
Theorem C06_parsed_versions_wf : forall s p v, parse_version Debug s p = Ok v -> version_wf v.
Proof. intros s p v H. exact (version_grammar_wf s v (parse_version_sound s p v H)). Qed.
Print Assumptions C06_parsed_versions_wf.
Example C06_nontrivial : parse_version Debug (bs "  0.0.1-x-y.0 ") pos_zero = Ok (mkver 0 0 1 (bs "x-y.0") []) /\
  version_text (mkver 0 0 1 (bs "x-y.0") []) = bs "0.0.1-x-y.0".
Proof. split; reflexivity. Qed.

(** C07 *)
Theorem C07_parse_requirement_grammar : forall s p r,
  parse_requirement Debug s p = Ok r <->
  (exists cs, req_grammar s cs /\ r = mkreq p (blen s) cs).
Proof.
  intros s p r. split.
  - intros H. destruct (parse_requirement_sound s p r H) as (G & E1 & E2).
    exists (r_comparators r). split; [exact G|]. destruct r; cbn in *; congruence.
  - intros (cs & G & ->). exact (parse_requirement_complete Debug s p cs G).
Qed.
Print Assumptions C07_parse_requirement_grammar.
Theorem C07_parse_requirement_any_build : forall prof s p,
  valid_utf8 s -> ~ contains_overflow s -> parse_requirement prof s p = parse_requirement Debug s p.
Proof. exact requirement_profile_irrelevant. Qed.
Print Assumptions C07_parse_requirement_any_build.
Example C07_nontrivial :
  parse_requirement Debug (bs " >= 1.2 , <2.x.*") pos_zero = Ok (mkreq pos_zero 16
    [mkcomp 1 OpGe 4 (CMinor 1 2 None) (Some 8); mkcomp 10 OpLt 11 (CMajor 2 (Some (WLowerX, Some WStar))) None]) /\
  (exists e, parse_requirement Debug (bs "1.2,") pos_zero = Err e) /\
  (exists e, parse_requirement Debug (bs "*, 1") pos_zero = Err e).
Proof. split; [reflexivity|]. split; eexists; reflexivity. Qed.

(** C08 *)
Theorem C08_requirement_display : forall s p r, parse_requirement Debug s p = Ok r ->
  fmt_requirement false r = Some s /\ exists m, fmt_requirement true r = Some m /\ trimmed s m.
Proof.
  intros s p r H. destruct (parse_requirement_sound s p r H) as (G & E1 & E2).
  pose proof (fmt_requirement_ok s p (r_comparators r) G) as F.
  destruct r as [rp rl rc]; cbn in *. subst rp rl. exact F.
Qed.
Print Assumptions C08_requirement_display.
Example C08_nontrivial : exists r, parse_requirement Debug (bs "  >=1.2 ,  <2 ") pos_zero = Ok r /\
  fmt_requirement true r = Some (bs ">=1.2 ,  <2").
Proof. eexists; split; reflexivity. Qed.

(** C09 *)
Theorem C09_requirement_offsets : forall s p r, parse_requirement Debug s p = Ok r ->
  r_pos r = p /\ r_len r = blen s /\ located s 0 (r_comparators r).
Proof.
  intros s p r H. destruct (parse_requirement_sound s p r H) as (G & E1 & E2).
  exact (conj E1 (conj E2 (req_located s (r_comparators r) G))).
Qed.
Print Assumptions C09_requirement_offsets.

(** C10 *)
Theorem C10_matching_never_panics : forall s p r v, parse_requirement Debug s p = Ok r ->
  req_matches r v <> None /\ Forall (fun c => comparator_matches c v <> None) (r_comparators r).
Proof.
  intros s p r v H. destruct (parse_requirement_sound s p r H) as (G & _ & _). apply req_grammar_wf in G.
  split.
  - destruct (req_matches_total r v G) as (b & ->). discriminate.
  - eapply Forall_impl; [|exact G]. cbv beta. intros c W. destruct (comparator_matches_total c v W) as (b & ->). discriminate.
Qed.
Print Assumptions C10_matching_never_panics.

(** C11.  The decision of one comparator, and of a requirement, is that of
    the specification [accepts] / [req_accepts]. *)
Theorem C11_comparator_decision : forall c v, comparator_wf c -> version_wf v ->
  exists b, matches_impl c v = Some b /\ (b = true <-> accepts (c_op c) (c_version c) v).
Proof. exact matches_impl_spec. Qed.
Print Assumptions C11_comparator_decision.
Theorem C11_parsed_comparators_wf : forall s p r, parse_requirement Debug s p = Ok r ->
  Forall comparator_wf (r_comparators r).
Proof. intros s p r H. exact (req_grammar_wf s _ (proj1 (parse_requirement_sound s p r H))). Qed.
Print Assumptions C11_parsed_comparators_wf.
Theorem C11_requirement_decision : forall s p r v, parse_requirement Debug s p = Ok r -> version_wf v ->
  exists b, req_matches r v = Some b /\ (b = true <-> req_accepts (r_comparators r) v).
Proof.
  intros s p r v H. exact (req_matches_spec r v (req_grammar_wf s _ (proj1 (parse_requirement_sound s p r H)))).
Qed.
Print Assumptions C11_requirement_decision.
Example C11_nontrivial : forall r v w,
  parse_requirement Debug (bs "^0.2.3, <0.2.9") pos_zero = Ok r ->
  parse_version Debug (bs "0.2.8") pos_zero = Ok v -> parse_version Debug (bs "0.3.0") pos_zero = Ok w ->
  req_matches r v = Some true /\ req_matches r w = Some false.
Proof. intros r v w H1 H2 H3. injection H1 as <-. injection H2 as <-. injection H3 as <-. split; reflexivity. Qed.

(** C12 *)
Theorem C12_prerelease_opt_in : forall r v, req_matches r v = Some true -> v_pre v <> [] ->
  Exists (fun c => opts_in (c_version c) v) (r_comparators r).
Proof. exact req_pre_optin. Qed.
Print Assumptions C12_prerelease_opt_in.
(** A release is decided by the comparators alone. *)
Theorem C12_release_unaffected : forall r v, Forall comparator_wf (r_comparators r) -> version_wf v -> v_pre v = [] ->
  (req_matches r v = Some true <-> Forall (fun c => accepts (c_op c) (c_version c) v) (r_comparators r)).
Proof.
  intros r v F V P. destruct (req_matches_spec r v F V) as (b & -> & S).
  unfold req_accepts in S. split.
  - intros H. injection H as ->. apply S. reflexivity.
  - intros H. f_equal. apply S. auto.
Qed.
Print Assumptions C12_release_unaffected.
Example C12_nontrivial : forall r v, parse_requirement Debug (bs ">=1.0.0-rc.1") pos_zero = Ok r ->
  parse_version Debug (bs "1.0.0-rc.2") pos_zero = Ok v ->
  req_matches r v = Some true /\ req_matches r (mkver 1 0 1 (bs "rc.2") []) = Some false.
Proof. intros r v H1 H2. injection H1 as <-. injection H2 as <-. split; reflexivity. Qed.

(** C13 *)
Theorem C13_conjunction : forall r v, Forall comparator_wf (r_comparators r) -> v_pre v = [] ->
  (req_matches r v = Some true <-> Forall (fun c => comparator_matches c v = Some true) (r_comparators r)).
Proof. exact req_release_conj. Qed.
Print Assumptions C13_conjunction.
Theorem C13_order_and_duplicates_irrelevant : forall r r' v,
  Forall comparator_wf (r_comparators r) ->
  (forall c, In c (r_comparators r) <-> In c (r_comparators r')) ->
  req_matches r v = req_matches r' v.
Proof. exact req_matches_members. Qed.
Print Assumptions C13_order_and_duplicates_irrelevant.
Theorem C13_single_comparator : forall p l c v, req_matches (mkreq p l [c]) v = comparator_matches c v.
Proof. exact req_single. Qed.
Print Assumptions C13_single_comparator.

(** C14 *)
Theorem C14_build_metadata_ignored : forall r r' v v',
  Forall2 (fun c c' => c_op c = c_op c' /\ same_but_meta (c_version c) (c_version c'))
    (r_comparators r) (r_comparators r') ->
  same_version_but_meta v v' ->
  req_matches r v = req_matches r' v'.
Proof. exact req_matches_meta. Qed.
Print Assumptions C14_build_metadata_ignored.
Example C14_nontrivial : same_but_meta (CPatch 1 2 3 (Some (bs "x"))) (CPatch 1 2 3 None) /\
  same_version_but_meta (mkver 1 2 3 [] (bs "a")) (mkver 1 2 3 [] (bs "b")).
Proof. split; [apply SBM_patch|repeat split]. Qed.

(** C15 *)
Theorem C15_version_errors_say : forall prof p s e, valid_utf8 s ->
  parse_version prof s p = Err e -> error_marks p s e.
Proof. intros prof p s e V H. pose proof (parse_version_good prof p s V) as G. rewrite H in G. exact G. Qed.
Print Assumptions C15_version_errors_say.
Theorem C15_requirement_errors_say : forall prof p s e, valid_utf8 s ->
  parse_requirement prof s p = Err e -> error_marks p s e.
Proof.
  intros prof p s e V H. pose proof (proj2 (parse_requirement_good prof p s V)) as G. rewrite H in G. exact G.
Qed.
Print Assumptions C15_requirement_errors_say.
Theorem C15_version_error_spans : forall prof p s e, valid_utf8 s ->
  parse_version prof s p = Err e -> span_inside p (blen s) (error_span e).
Proof. intros prof p s e V H. eapply marks_inside, C15_version_errors_say; eassumption. Qed.
Print Assumptions C15_version_error_spans.
Theorem C15_requirement_error_spans : forall prof p s e, valid_utf8 s ->
  parse_requirement prof s p = Err e -> span_inside p (blen s) (error_span e).
Proof. intros prof p s e V H. eapply marks_inside, C15_requirement_errors_say; eassumption. Qed.
Print Assumptions C15_requirement_error_spans.
Example C15_nontrivial : valid_utf8 (bs "1.2.*, a") /\
  parse_requirement Debug (bs "1.2.*, a") (mkpos 2 5) = Err (InvalidOp 97 (mkpos 2 12)).
Proof. split; [apply ascii_valid; repeat constructor|reflexivity]. Qed.
Example C15_nontrivial_says :
  error_says (InvalidOp 97 (mkpos 2 12)) (bs "1.2.*, ") (bs "a") [] /\
  parse_version Debug (bs "1.02.3") (mkpos 0 1) = Err (LeadingZeroNum FMinor (mkpos 0 3)) /\
  error_says (LeadingZeroNum FMinor (mkpos 0 3)) (bs "1.") (bs "0") (bs "2.3") /\
  ~ error_says (LeadingZeroNum FMajor (mkpos 0 3)) (bs "1.") (bs "0") (bs "2.3").
Proof.
  split; [|split; [reflexivity|split]].
  - split; [split; reflexivity|]. cbn. unfold digit, wildcard. split; [lia|]. split; [lia|]. intuition discriminate.
  - split; [reflexivity|]. split; [exists 50, (bs ".3"); split; [reflexivity|]; unfold digit; lia|].
    exists [], (bs "1."). split; [reflexivity|]. split; [intros b (a & E); destruct a; discriminate|].
    split; [|reflexivity]. constructor; [left; split; vm_compute; discriminate|]. constructor; [right; right; reflexivity|constructor].
  - intros (_ & _ & x & y & E & X & Y & C). destruct y as [|u y] using rev_ind.
    + rewrite app_nil_r in E. apply (X 46); [exists (bs "1"); symmetry; exact E|]. right; right; reflexivity.
    + clear IHy. rewrite app_assoc in E. change (bs "1.") with (bs "1" ++ [46]) in E. apply app_inj_tail in E as [_ E]. subst u.
      rewrite count_occ_app in C. cbn in C. lia.
Qed.
(** The one thing an error says that is not so: which part the trailing
    characters come after. *)
Example C15_trailing_part_refuted :
  parse_version Debug (bs "1.2.3 x") (mkpos 0 0) = Err (TrailingCharacters (bs "x") (Some FPrerelease) (mkpos 0 6)) /\
  parse_version Debug (bs "1.2.3-a x") (mkpos 0 0) = Err (TrailingCharacters (bs "x") None (mkpos 0 8)).
Proof. split; reflexivity. Qed.

(** Also used by C05 and C31: the semver parsers terminate and panic only in
    debug builds on inputs that contain an overflowing number. *)
Theorem C15_semver_panics_only_on_overflow : forall prof p s, valid_utf8 s ->
  (parse_version prof s p = Panic -> prof = Debug /\ contains_overflow s) /\
  (parse_requirement prof s p = Panic -> prof = Debug /\ contains_overflow s) /\
  parse_requirement_fuel prof s p <> None.
Proof.
  intros prof p s V. pose proof (parse_version_good prof p s V) as G1.
  destruct (parse_requirement_good prof p s V) as (F & G2). split; [|split; [|exact F]].
  - intros H. rewrite H in G1. exact G1.
  - intros H. rewrite H in G2. exact G2.
Qed.
Print Assumptions C15_semver_panics_only_on_overflow.
