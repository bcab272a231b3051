(** The items of a document are in order. *)
From Verif Require Import Base BaseProofs CommonModel CommonSpec TomlError LitModel LexModel LexSpec LexBase ParseModel ParseSpec ParsePlace ParseItems
  ParseMarks ParseOrder.

Lemma token_end p x s : shape (x, s) -> x <> XBlank -> x <> XNewline ->
  s_end (token_span (mkitem (item_ty p x s) (pos_at p))) = pos_at (p ++ s).
Proof.
  intros SH NB NN. destruct x as [| |ty| | |q text off]; try congruence; unfold token_span; cbn [item_ty i_ty i_start].
  - destruct (punct_char ty s SH) as (c & -> & PC & NC & LC). assert (E : pos_plus (pos_at p) 1 = pos_at (p ++ [c])).
    { apply pos_plus_text; [intros [H|[]]; congruence|]. rewrite tlen_one. auto. }
    destruct SH as (c' & PU & EC). injection EC as <-. unfold punct in PU. cbn [In] in PU.
    repeat (destruct PU as [PU|PU]; [injection PU as <- _; exact E|]). destruct PU.
  - cbn [sr_text]. apply pos_plus_text; [|reflexivity]. intros H. destruct SH as [_ SH]. rewrite Forall_forall in SH. apply (SH 10 H). cbn. tauto.
  - destruct SH as (t & -> & NT). cbn [tl sr_text]. change (1 + tlen t) with (tlen (35 :: t)). apply pos_plus_text; [|reflexivity].
    intros [H|H]; [discriminate|exact (NT H)].
  - reflexivity.
Qed.
Lemma single_no_lf q off s : string_shape q off s -> ~ multi q -> ~ In 10 s.
Proof.
  intros (trim & b & e & -> & T & F & _ & B & _) NM. destruct T as [->|[M _]]; [|contradiction]. rewrite Forall_forall in F.
  intros I. rewrite !in_app_iff in I. destruct I as [I|[[]|[I|I]]].
  - destruct q; try (destruct NM; unfold multi; tauto); cbn in I; intuition discriminate.
  - exact (B NM I).
  - specialize (F 10 I). destruct q; discriminate.
Qed.
Lemma tile_good input p x s r : input = p ++ s ++ r -> shape (x, s) -> x <> XBlank ->
  item_good input (mkitem (item_ty p x s) (pos_at p)).
Proof.
  intros IN SH NB. split; [eapply token_span_in; eassumption|]. cbn [i_ty]. destruct x as [| |ty| | |q text off]; cbn [item_ty]; try exact I.
  - destruct ty; exact I.
  - destruct SH as [SH _]. cbn [st_quote st_lit_end st_lit sr_text i_start].
    assert (D : multi q \/ ~ multi q) by (unfold multi; destruct q; intuition discriminate).
    destruct D as [D|D]; [left; exact D|right]. symmetry. apply pos_plus_text; [|reflexivity]. eapply single_no_lf; eassumption.
Qed.
Lemma tiles_ahead input : forall ts pre, input = pre ++ source ts -> Forall shape ts -> ahead input (pos_at pre) (tile_items pre ts).
Proof.
  induction ts as [|[x s] ts IH]; intros pre IN SH.
  - cbn. rewrite IN. apply pos_le_app.
  - pose proof (Forall_inv SH) as S1. pose proof (Forall_inv_tail SH) as S2. rewrite source_cons in IN.
    assert (IN' : input = (pre ++ s) ++ source ts) by (rewrite <- app_assoc; exact IN).
    specialize (IH (pre ++ s) IN' S2).
    destruct (match x with XBlank => true | _ => false end) eqn:XB.
    { destruct x; try discriminate. cbn [tile_items]. eapply ahead_lo; [|exact IH]. apply pos_le_app. }
    assert (NB : x <> XBlank) by (intros ->; discriminate).
    refine (eq_ind_r (ahead input (pos_at pre)) _ (tile_items_cons x s pre ts NB)). cbn [ahead i_start]. split; [apply pos_le_refl|]. split; [eapply tile_good; eassumption|].
    assert (D : x = XNewline \/ x <> XNewline) by (destruct x; (left; reflexivity) || (right; discriminate)).
    destruct D as [->|NN].
    + cbn [item_ty i_ty]. split; [destruct (tile_items _ ts); [exact I|intros X; destruct X; reflexivity]|].
      cbn [token_span i_ty i_start span_pos s_end]. eapply ahead_lo; [|exact IH]. apply pos_le_app.
    + rewrite (token_end pre x s S1 NB NN). split; [|exact IH].
      destruct (view ts (pre ++ s)) as [(_ & ->)|(w & y & s' & r & E & B & _ & ->)]; [exact I|]. intros _. cbn [i_start].
      rewrite (pos_at_no_lf (pre ++ s) (source w)); [reflexivity|]. apply blanks_no_lf; [|exact B]. rewrite E in S2. apply Forall_app in S2. apply S2.
Qed.
