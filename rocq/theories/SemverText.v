(** Display round trips (C06, C08) and offsets (C09). *)
From Verif Require Import Base BaseProofs CommonModel SemverModel SemverSpec SemverOrder SemverParse
  SemverVersion SemverReq.
Ltac Zify.zify_post_hook ::= Z.div_mod_to_equations.

(** ** Trimming *)

Definition no_edge_space (m : bytes) : Prop := (forall r, m <> 32 :: r) /\ (forall r, m <> r ++ [32]).

Lemma snoc_inv {A} (l : list A) : l = [] \/ exists r x, l = r ++ [x].
Proof. destruct l as [|a l] using rev_ind; [left; reflexivity|right; eauto]. Qed.

Lemma last_not_space (a : bytes) x r : x <> 32 -> a ++ [x] <> r ++ [32].
Proof. intros H E. apply app_inj_tail in E as [_ E]. congruence. Qed.

(** A text ending in a non-space character. *)
Definition ends_ns (m : bytes) : Prop := exists r x, m = r ++ [x] /\ x <> 32.

Lemma ends_ns_app a m : ends_ns m -> ends_ns (a ++ m).
Proof. intros (r & x & -> & H). exists (a ++ r), x. rewrite app_assoc. auto. Qed.

Lemma ends_ns_not m : ends_ns m -> forall r, m <> r ++ [32].
Proof. intros (r & x & -> & H) r'. apply last_not_space; assumption. Qed.

Lemma ends_ns_forall m : m <> [] -> Forall (fun b => b <> 32) m -> ends_ns m.
Proof.
  intros NE F. destruct (snoc_inv m) as [->|(r & x & ->)]; [congruence|].
  exists r, x. split; [reflexivity|]. apply Forall_app in F as [_ F]. inversion F; assumption.
Qed.

Lemma dec_no_space n : Forall (fun b => b <> 32) (dec n).
Proof.
  eapply Forall_impl; [|apply (dec_digits n)]. cbv beta. intros a D. unfold is_digit in D. lia.
Qed.
Lemma ends_ns_dec n : ends_ns (dec n).
Proof. apply ends_ns_forall; [apply dec_nonempty|apply dec_no_space]. Qed.

Lemma ident_char_ns c : is_ident_char c = true \/ c = 46 -> c <> 32.
Proof. intros [H| ->]; [|discriminate]. intros ->. discriminate. Qed.

Lemma ends_ns_ident f s : ident_grammar f s -> ends_ns s.
Proof.
  intros G. apply ends_ns_forall; [eapply grammar_nonempty; eassumption|].
  eapply Forall_impl; [|eapply grammar_chars; eassumption]. intros a. apply ident_char_ns.
Qed.

(** ** Versions *)

Lemma pre_ident s : pre_grammar s -> ident_grammar FPrerelease s.
Proof. apply pre_grammar_iff. Qed.
Lemma meta_ident s : meta_grammar s -> ident_grammar FBuildMetadata s.
Proof. apply meta_grammar_iff. Qed.

Lemma version_text_shape v dash plus :
  dash_part (v_pre v) dash -> plus_part (v_meta v) plus ->
  version_text v = dec (v_major v) ++ bs "." ++ dec (v_minor v) ++ bs "." ++ dec (v_patch v) ++ dash ++ plus.
Proof.
  intros D P. unfold version_text. cbn [bs app]. change (N_of_ascii ".") with 46.
  do 6 f_equal. f_equal. f_equal.
  - destruct D as [(-> & ->)|(G & ->)]; [reflexivity|].
    pose proof (grammar_nonempty _ _ (pre_ident _ G)) as NE. destruct (v_pre v); [congruence|reflexivity].
  - destruct P as [(-> & ->)|(G & ->)]; [reflexivity|].
    pose proof (grammar_nonempty _ _ (meta_ident _ G)) as NE. destruct (v_meta v); [congruence|reflexivity].
Qed.

Lemma version_display_trimmed s v : version_grammar s v -> trimmed s (version_text v).
Proof.
  intros (a & b & dash & plus & U1 & U2 & U3 & D & P & ->).
  exists a, b. rewrite (version_text_shape v dash plus D P).
  split; [rewrite <- !app_assoc; reflexivity|]. split.
  - apply not_space_dec.
  - apply ends_ns_not.
    do 4 apply ends_ns_app.
    destruct P as [(_ & ->)|(G & ->)].
    + rewrite app_nil_r. destruct D as [(_ & ->)|(G & ->)].
      * rewrite app_nil_r. apply ends_ns_dec.
      * apply ends_ns_app. apply (ends_ns_app [45]). eapply ends_ns_ident. apply pre_ident; eassumption.
    + do 2 apply ends_ns_app. apply (ends_ns_app [43]). eapply ends_ns_ident. apply meta_ident; eassumption.
Qed.

Lemma version_text_grammar v : version_wf v -> version_grammar (version_text v) v.
Proof.
  intros (U1 & U2 & U3 & D & P).
  exists O, O, (if is_empty (v_pre v) then [] else 45 :: v_pre v),
    (if is_empty (v_meta v) then [] else 43 :: v_meta v).
  split; [assumption|]. split; [assumption|]. split; [assumption|].
  assert (HD : dash_part (v_pre v) (if is_empty (v_pre v) then [] else 45 :: v_pre v)).
  { destruct D as [->|G]; [left; split; reflexivity|].
    pose proof (grammar_nonempty _ _ (pre_ident _ G)) as NE. right. split; [assumption|].
    destruct (v_pre v); [congruence|reflexivity]. }
  assert (HP : plus_part (v_meta v) (if is_empty (v_meta v) then [] else 43 :: v_meta v)).
  { destruct P as [->|G]; [left; split; reflexivity|].
    pose proof (grammar_nonempty _ _ (meta_ident _ G)) as NE. right. split; [assumption|].
    destruct (v_meta v); [congruence|reflexivity]. }
  split; [assumption|]. split; [assumption|].
  rewrite (version_text_shape v _ _ HD HP). cbn [spaces repeat app]. rewrite app_nil_r. reflexivity.
Qed.

Lemma version_grammar_wf s v : version_grammar s v -> version_wf v.
Proof.
  intros (a & b & dash & plus & U1 & U2 & U3 & D & P & ->).
  repeat (split; [assumption|]).
  split; [destruct D as [(-> & _)|(G & _)]; auto|destruct P as [(-> & _)|(G & _)]; auto].
Qed.

(** ** Requirements *)

Lemma comp_ver_text_partial v t : partial_text v t -> comp_ver_text v = t.
Proof.
  intros T; inversion T; subst; cbn [comp_ver_text bs app]; try reflexivity;
    repeat match goal with w : wl_char |- _ => destruct w end; reflexivity.
Qed.

Lemma op_text_written o v t : op_written o v t -> op_text o = t.
Proof. intros W; inversion W; reflexivity. Qed.

Lemma partial_ends_ns v t : partial_text v t -> ends_ns t.
Proof.
  assert (WL : forall w, ends_ns (wl_text w)).
  { intros w. exists [], (wl_byte w). destruct w; split; (reflexivity || discriminate). }
  intros T; inversion T; subst; repeat apply ends_ns_app; try apply ends_ns_dec; try apply WL.
  - eapply ends_ns_ident. apply meta_ident; eassumption.
  - eapply ends_ns_ident. apply pre_ident; eassumption.
  - eapply ends_ns_ident. apply meta_ident; eassumption.
Qed.

Lemma write_pad_ok t n k : write_pad (n + N.of_nat k) (t, n) = Some (t ++ spaces k, n + N.of_nat k).
Proof.
  unfold write_pad. cbn [fst snd]. replace (n <=? n + N.of_nat k) with true by lia.
  replace (N.to_nat (n + N.of_nat k - n)) with k by lia.
  unfold write_bytes. cbn [fst snd]. rewrite blen_spaces. reflexivity.
Qed.

Lemma fmt_comparator_ok t n o v ot vt off mid after (comma : bool) :
  partial_text v vt -> op_written o v ot ->
  let ver_off := off + blen ot + N.of_nat mid in
  let end_off := ver_off + blen vt + N.of_nat after in
  fmt_comparator (mkcomp off o ver_off v (if comma then Some end_off else None)) (t, n)
  = Some (t ++ ot ++ spaces mid ++ vt ++ (if comma then spaces after ++ [44] else []),
          if comma then end_off + 1 else ver_off + blen vt).
Proof.
  intros T W ver_off end_off. unfold fmt_comparator.
  cbn [c_op_offset c_op c_version_offset c_version c_comma fst snd].
  rewrite (op_text_written _ _ _ W), (comp_ver_text_partial _ _ T).
  unfold write_bytes at 1. cbn [fst snd].
  subst ver_off. rewrite write_pad_ok. unfold write_bytes at 1. cbn [fst snd].
  destruct comma.
  - subst end_off. rewrite write_pad_ok. unfold write_bytes. cbn [fst snd].
    rewrite blen_cons, blen_nil, <- !app_assoc. reflexivity.
  - unfold write_bytes. cbn [fst snd]. rewrite app_nil_r, <- !app_assoc. reflexivity.
Qed.

(** The comparators print their text without the spaces at the end. *)
Lemma fmt_others_ok off s cs : comps_grammar off s cs -> forall t,
  exists m k, s = m ++ spaces k /\ ends_ns m /\ fmt_others cs (t, off) = Some (t ++ m, off + blen m).
Proof.
  intros G. induction G as [off s c G|off s c rest cs G GS IH]; intros t.
  - inversion G as [before mid after o v ot vt comma T W M op_off ver_off]; subst. cbn [fmt_others c_op_offset].
    exists (spaces before ++ ot ++ spaces mid ++ vt), after.
    split; [rewrite <- !app_assoc; reflexivity|].
    split; [do 3 apply ends_ns_app; eapply partial_ends_ns; eassumption|].
    subst op_off ver_off. rewrite write_pad_ok.
    pose proof (fmt_comparator_ok (t ++ spaces before) (off + N.of_nat before) o v ot vt
      (off + N.of_nat before) mid after false T W) as F. cbv zeta in F. cbn iota in F.
    rewrite F, app_nil_r, <- !app_assoc. f_equal. f_equal.
    rewrite !blen_app, !blen_spaces. lia.
  - inversion G as [before mid after o v ot vt comma T W M op_off ver_off]; subst. cbn [fmt_others c_op_offset].
    subst op_off ver_off. rewrite write_pad_ok.
    pose proof (fmt_comparator_ok (t ++ spaces before) (off + N.of_nat before) o v ot vt
      (off + N.of_nat before) mid after true T W) as F. cbv zeta in F. cbn iota in F.
    rewrite F. clear F.
    match goal with |- context [fmt_others cs (?x, ?y)] => destruct (IH x) as (m & k & E & N & F); 
      replace y with (off + blen (spaces before ++ ot ++ spaces mid ++ vt ++ spaces after) + 1)
        by (rewrite !blen_app, !blen_spaces; lia)
    end.
    rewrite F. exists ((spaces before ++ ot ++ spaces mid ++ vt ++ spaces after) ++ bs "," ++ m), k.
    split; [rewrite E, <- !app_assoc; reflexivity|].
    split; [do 2 apply ends_ns_app; assumption|].
    f_equal. rewrite <- !app_assoc. f_equal. rewrite !blen_app. cbn [bs]. rewrite blen_cons, blen_nil. lia.
Qed.

Lemma comp_grammar_split off s b c : comp_grammar off s b c ->
  exists k r, s = spaces k ++ r /\ (forall r', r <> 32 :: r') /\ r <> [] /\ c_op_offset c = off + N.of_nat k.
Proof.
  intros G. inversion G as [before mid after o v ot vt comma T W M op_off ver_off]; subst.
  exists before, (ot ++ spaces mid ++ vt ++ spaces after). split; [reflexivity|].
  destruct (partial_text_head v vt T) as (d & ds & -> & D).
  assert (O : ot = [] \/ exists b ot', ot = b :: ot' /\ b <> 32).
  { inversion W; auto; right; eexists; eexists; (split; [reflexivity|discriminate]). }
  destruct O as [->|(x & ot' & -> & NX)].
  - rewrite (M eq_refl). cbn [spaces repeat app]. split; [apply not_space_digit; assumption|].
    split; [discriminate|]. reflexivity.
  - cbn [app]. split; [congruence|]. split; [discriminate|]. reflexivity.
Qed.


Lemma write_pad_shift target t u n :
  write_pad target (t ++ u, n) = option_map (fun o => (t ++ fst o, snd o)) (write_pad target (u, n)).
Proof.
  unfold write_pad, write_bytes. cbn [fst snd]. destruct (n <=? target); cbn [option_map fst snd]; [|reflexivity].
  rewrite app_assoc. reflexivity.
Qed.

Lemma fmt_comparator_shift c t u n n' :
  fmt_comparator c (t ++ u, n) = option_map (fun o => (t ++ fst o, snd o)) (fmt_comparator c (u, n')).
Proof.
  unfold fmt_comparator. cbn [fst]. unfold write_bytes at 1 4. cbn [fst snd]. rewrite <- app_assoc, write_pad_shift.
  destruct (write_pad (c_version_offset c) _) as [[x m]|]; cbn [option_map]; [|reflexivity].
  destruct (c_comma c) as [off|]; unfold write_bytes at 1; cbn [fst snd].
  - rewrite <- app_assoc, write_pad_shift. unfold write_bytes at 2. cbn [fst snd].
    destruct (write_pad off _) as [[y k]|]; cbn [option_map]; [|reflexivity].
    unfold write_bytes. cbn [fst snd]. rewrite <- app_assoc. reflexivity.
  - unfold write_bytes. cbn [option_map fst snd]. rewrite <- app_assoc. reflexivity.
Qed.

Lemma fmt_others_shift cs t : forall u n,
  fmt_others cs (t ++ u, n) = option_map (fun o => (t ++ fst o, snd o)) (fmt_others cs (u, n)).
Proof.
  induction cs as [|c cs IH]; intros u n; [reflexivity|]. cbn [fmt_others]. rewrite write_pad_shift.
  destruct (write_pad (c_op_offset c) (u, n)) as [[x m]|]; cbn [option_map fst snd]; [|reflexivity].
  rewrite (fmt_comparator_shift c t x m m).
  destruct (fmt_comparator c (x, m)) as [[y k]|]; cbn [option_map fst snd]; [|reflexivity]. apply IH.
Qed.

Lemma comps_head_split off s cs : comps_grammar off s cs ->
  exists k r c cs', s = spaces k ++ r /\ (forall r', r <> 32 :: r') /\ cs = c :: cs' /\
    c_op_offset c = off + N.of_nat k.
Proof.
  intros G. inversion G as [off' s' c G1|off' s' c rest cs' G1 GS]; subst;
    destruct (comp_grammar_split _ _ _ _ G1) as (k & r & -> & NS & NE & EO).
  - exists k, r, c, []. auto.
  - exists k, (r ++ bs "," ++ rest), c, cs'. 
    split; [rewrite <- !app_assoc; reflexivity|]. split; [|auto].
    intros r'. destruct r as [|x r]; [congruence|]. cbn [app]. intros H. injection H as -> _. eapply NS; reflexivity.
Qed.

Lemma spaces_not_ends_ns k : ~ ends_ns (spaces k).
Proof.
  intros (r & x & E & H). apply H. assert (I : In x (spaces k)) by (rewrite E; apply in_or_app; right; left; reflexivity).
  apply repeat_spec in I. assumption.
Qed.

(** Printing a parsed requirement. *)
Lemma fmt_requirement_ok s p cs : req_grammar s cs ->
  fmt_requirement false (mkreq p (blen s) cs) = Some s /\
  exists m, fmt_requirement true (mkreq p (blen s) cs) = Some m /\ trimmed s m.
Proof.
  intros G. inversion G as [before after w|s' cs' GS LE]; subst; unfold fmt_requirement; cbn [r_comparators r_len].
  - unfold fmt_comparator. cbn [c_op_offset c_op c_version_offset c_version c_comma fst snd op_text comp_ver_text].
    set (len := blen (spaces before ++ wl_text w ++ spaces after)).
    assert (PAD : forall t, write_pad (N.of_nat before) (write_bytes [] (t, N.of_nat before)) = Some (t, N.of_nat before)).
    { intros t. unfold write_bytes. cbn [fst snd]. rewrite blen_nil, app_nil_r.
      replace (N.of_nat before) with (N.of_nat before + N.of_nat 0) at 1 by lia.
      replace (N.of_nat before + 0) with (N.of_nat before) by lia.
      rewrite write_pad_ok. cbn [spaces repeat]. rewrite app_nil_r.
      replace (N.of_nat before + N.of_nat 0) with (N.of_nat before) by lia. reflexivity. }
    rewrite !PAD. cbn [fmt_others]. unfold write_bytes. cbn [fst snd].
    replace len with (N.of_nat before + blen [wl_byte w] + N.of_nat after).
    2:{ subst len. rewrite !blen_app, !blen_spaces, wl_len, blen_cons, blen_nil. lia. }
    rewrite write_pad_ok. cbn [option_map fst app].
    replace (N.to_nat (N.of_nat before)) with before by lia.
    split; [f_equal; destruct w; rewrite <- app_assoc; reflexivity|].
    exists [wl_byte w]. split; [reflexivity|]. exists before, after.
    split; [destruct w; reflexivity|].
    split; intros r; [destruct w; discriminate|].
    destruct r as [|x [|y r]]; destruct w; discriminate.
  - destruct (comps_head_split _ _ _ GS) as (k & r & c & cs' & ES & NS & EC & EO).
    destruct (fmt_others_ok 0 s cs GS []) as (m & j & E & N & F). cbn [app] in F.
    subst cs. cbn [fmt_others] in F. rewrite EO in F.
    rewrite write_pad_ok in F. cbn [app] in F.
    replace (N.to_nat (c_op_offset c)) with k by lia.
    assert (F2 : match fmt_comparator c (write_bytes (spaces k) ([], 0)) with
                 | Some o => fmt_others cs' o | None => None end = Some (m, 0 + blen m)).
    { rewrite <- F. unfold write_bytes. cbn [fst snd app]. rewrite blen_spaces. reflexivity. }
    assert (S : exists m', match fmt_comparator c ([], 0) with
                 | Some o => fmt_others cs' o | None => None end = Some (m', blen m) /\ m = spaces k ++ m').
    { unfold write_bytes in F2. cbn [fst snd app] in F2. rewrite <- (app_nil_r (spaces k)) in F2 at 1.
      rewrite (fmt_comparator_shift c (spaces k) [] _ 0) in F2.
      destruct (fmt_comparator c ([], 0)) as [[x n]|]; cbn [option_map fst snd] in F2; [|discriminate].
      rewrite fmt_others_shift in F2.
      destruct (fmt_others cs' (x, n)) as [[y q]|]; cbn [option_map fst snd] in F2; [|discriminate].
      exists y. injection F2 as E1 E2. split; [f_equal; f_equal; lia|congruence]. }
    destruct S as (m' & S1 & S2).
    split.
    + destruct (fmt_comparator c (write_bytes (spaces k) ([], 0))) as [o|]; [|discriminate].
      rewrite F2. rewrite E. rewrite blen_app, blen_spaces.
      replace (blen m + N.of_nat j) with (0 + blen m + N.of_nat j) by lia.
      rewrite write_pad_ok. reflexivity.
    + exists m'. destruct (fmt_comparator c ([], 0)) as [o|]; [|discriminate].
      rewrite S1. split; [reflexivity|].
      exists k, j. rewrite E, S2, <- app_assoc. split; [reflexivity|].
      assert (ER : r = m' ++ spaces j).
      { rewrite E, S2, <- app_assoc in ES. apply app_inv_head in ES. congruence. }
      split.
      * intros r' ->. eapply NS. rewrite ER. reflexivity.
      * intros r' X. destruct N as (a & x & EA & NX). rewrite EA in S2. rewrite X, app_assoc in S2.
        apply app_inj_tail in S2 as [_ S2]. congruence.
Qed.

(** ** Offsets (C09) *)


Lemma at_offset_app u s off t : at_offset s off t -> at_offset (u ++ s) (blen u + off) t.
Proof. intros (a & b & -> & <-). exists (u ++ a), b. rewrite blen_app, app_assoc. auto. Qed.

Lemma comps_located s off rest cs : comps_grammar off rest cs ->
  forall pre, s = pre ++ rest -> blen pre = off -> located s off cs.
Proof.
  intros G. induction G as [off rest c G|off s1 c rest cs G GS IH]; intros pre E L.
  - inversion G as [before mid after o v ot vt comma T W M op_off ver_off]; subst.
    cbn [located c_op_offset c_op c_version_offset c_version c_comma]. exists ot, vt. subst op_off ver_off.
    split; [assumption|]. split; [left; assumption|]. split; [lia|].
    split; [exists (pre ++ spaces before); eexists; rewrite <- !app_assoc; split; [reflexivity|]; rewrite blen_app, blen_spaces; lia|].
    split; [lia|].
    split.
    + exists (pre ++ spaces before ++ ot ++ spaces mid); eexists; rewrite <- !app_assoc. split; [reflexivity|].
      rewrite !blen_app, !blen_spaces; lia.
    + split; [reflexivity|]. rewrite !blen_app, !blen_spaces; lia.
  - inversion G as [before mid after o v ot vt comma T W M op_off ver_off]; subst.
    cbn [located c_op_offset c_op c_version_offset c_version c_comma]. exists ot, vt. subst op_off ver_off.
    split; [assumption|]. split; [left; assumption|]. split; [lia|].
    split; [exists (pre ++ spaces before); eexists; rewrite <- !app_assoc; split; [reflexivity|]; rewrite blen_app, blen_spaces; lia|].
    split; [lia|].
    split.
    + exists (pre ++ spaces before ++ ot ++ spaces mid); eexists; rewrite <- !app_assoc. split; [reflexivity|].
      rewrite !blen_app, !blen_spaces; lia.
    + split; [lia|].
      split.
      * exists (pre ++ spaces before ++ ot ++ spaces mid ++ vt ++ spaces after); eexists; rewrite <- !app_assoc.
        split; [reflexivity|]. rewrite !blen_app, !blen_spaces; lia.
      * split; [eapply comps_nonempty; eassumption|].
        match goal with |- located _ ?x _ =>
          replace x with (blen pre + blen (spaces before ++ ot ++ spaces mid ++ vt ++ spaces after) + 1)
            by (rewrite !blen_app, !blen_spaces; lia) end.
        apply (IH (pre ++ (spaces before ++ ot ++ spaces mid ++ vt ++ spaces after) ++ bs ",")).
        -- rewrite <- !app_assoc. reflexivity.
        -- rewrite !blen_app. cbn [bs]. rewrite blen_cons, blen_nil. lia.
Qed.

Lemma req_located s cs : req_grammar s cs -> located s 0 cs.
Proof.
  intros G. inversion G as [before after w|s' cs' GS LE]; subst.
  - cbn [located c_op_offset c_op c_version_offset c_version c_comma]. exists [], (wl_text w).
    split; [apply OW_wl; exact I|]. split; [right; eauto|]. split; [lia|].
    split; [exists (spaces before); eexists; split; [reflexivity|apply blen_spaces]|].
    split; [rewrite blen_nil; lia|].
    split; [exists (spaces before); eexists; split; [reflexivity|apply blen_spaces]|].
    split; [reflexivity|]. rewrite !blen_app, !blen_spaces. lia.
  - eapply (comps_located s 0 s cs GS []); reflexivity.
Qed.
