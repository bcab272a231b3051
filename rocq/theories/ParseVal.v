(** [parse_value]: total, within the document, and sound. *)
From Verif Require Import Base BaseProofs CommonModel TomlError LitModel LitSpec LexModel LexSpec LexBase LexStr LexSound LexProps ParseModel ParseSpec ParsePlace ParseItems ParseKey ParseLit.

(** ** Comment storage *)
Lemma range_ok_le n m r : range_ok n r -> n <= m -> range_ok m r.
Proof. unfold range_ok. lia. Qed.

Lemma next_id_app s c : next_id (s ++ [c]) = next_id s + 1.
Proof. unfold next_id. rewrite app_length. cbn. lia. Qed.
Lemma next_id_map s s' : map ac_comment s = map ac_comment s' -> next_id s = next_id s'.
Proof. intros H. unfold next_id. rewrite <- (map_length ac_comment s), H, map_length. reflexivity. Qed.
Lemma next_id_grow s s' cs : map ac_comment s' = map ac_comment s ++ cs -> next_id s <= next_id s'.
Proof. intros H. unfold next_id. rewrite <- (map_length ac_comment s'), H, app_length, map_length. lia. Qed.

Lemma usub_le a b : b <= a -> usub a b = Ok (a - b).
Proof. intros H. unfold usub. destruct (N.leb_spec b a); [reflexivity|lia]. Qed.

Lemma add_comment_ok s r c p : cr_start r <= next_id s ->
  exists r', add_comment s r c p = Ok (s ++ [mkac p (cr_level r) c], r') /\ cr_start r' = cr_start r /\ range_ok (next_id s + 1) r' /\ cr_level r' = cr_level r.
Proof.
  intros H. unfold add_comment, store_comment, range_append. rewrite usub_le by assumption. cbn [bind].
  eexists. split; [reflexivity|]. cbn [cr_start cr_len cr_level range_ok]. split; [reflexivity|]. split; [|reflexivity]. unfold range_ok. cbn [cr_start cr_len]. lia.
Qed.
Lemma add_comments_ok : forall cs s r p, cr_start r <= next_id s -> range_ok (next_id s) r ->
  exists r', add_comments s r cs p = Ok (s ++ map (mkac p (cr_level r)) cs, r') /\ cr_start r' = cr_start r /\
    range_ok (next_id (s ++ map (mkac p (cr_level r)) cs)) r' /\ cr_level r' = cr_level r.
Proof.
  induction cs as [|c cs IH]; intros s r p H R; cbn [add_comments map].
  - exists r. rewrite app_nil_r. auto.
  - destruct (add_comment_ok s r c p H) as (r1 & -> & E1 & R1 & L1). cbn [bind].
    destruct (IH (s ++ [mkac p (cr_level r) c]) r1 p) as (r2 & E2 & S2 & R2 & L2).
    { rewrite next_id_app, E1. lia. }
    { rewrite next_id_app. assumption. }
    rewrite L1 in *. repeat rewrite <- app_assoc in E2. cbn [app] in E2. rewrite E2. exists r2. split; [reflexivity|].
    repeat rewrite <- app_assoc in R2. cbn [app] in R2. split; [congruence|]. split; [exact R2|congruence].
Qed.
Lemma map_ac p l cs : map ac_comment (map (mkac p l) cs) = cs.
Proof. rewrite map_map. cbn. apply map_id. Qed.
Lemma store_comments_ok s cs p l : exists r', store_comments s cs p l = Ok (s ++ map (mkac p l) cs, r') /\ cr_start r' = next_id s /\
  range_ok (next_id (s ++ map (mkac p l) cs)) r'.
Proof.
  unfold store_comments. destruct (add_comments_ok cs s (mkrange (next_id s) 0 l) p) as (r & E & S & R & _); cbn [cr_start cr_level] in *.
  - lia.
  - unfold range_ok. cbn. lia.
  - exists r. auto.
Qed.

Lemma mark_above_ok : forall s line level i, map ac_comment (fst (mark_above line level s i)) = map ac_comment s /\
  match snd (mark_above line level s i) with Some j => i <= j /\ j <= i + N.of_nat (length s) | None => True end.
Proof.
  induction s as [|c s IH]; intros line level i; cbn [mark_above]; [split; [reflexivity|exact I]|].
  destruct (_ && _).
  - destruct (IH (line - 1) level (i + 1)) as [E B]. destruct (mark_above (line - 1) level s (i + 1)) as [r o]. cbn [fst snd] in *.
    split; [cbn [map ac_comment]; rewrite E; reflexivity|]. destruct o; [|exact I]. cbn [length]. lia.
  - cbn [fst snd length]. split; [reflexivity|]. lia.
Qed.
Lemma mark_comments_above_ok s line level : exists s' r, mark_comments_above s line level = Ok (s', r) /\
  map ac_comment s' = map ac_comment s /\ cr_start r + cr_len r = next_id s /\ range_ok (next_id s') r.
Proof.
  unfold mark_comments_above. destruct (mark_above_ok (rev s) line level 0) as [E B]. destruct (mark_above line level (rev s) 0) as [r o].
  cbn [fst snd] in *. assert (L : match o with Some l => l | None => 0 end <= next_id s).
  { destruct o; [|lia]. rewrite rev_length in B. unfold next_id. lia. }
  rewrite usub_le by assumption. cbn [bind]. eexists _, _. split; [reflexivity|].
  assert (M : map ac_comment (rev r) = map ac_comment s) by (rewrite map_rev, E, <- map_rev, rev_involutive; reflexivity).
  split; [exact M|]. cbn [cr_start cr_len]. split; [lia|]. unfold range_ok. rewrite (next_id_map _ _ M). cbn [cr_start cr_len]. lia.
Qed.

Lemma mark_contained_ok : forall s i a b level, map ac_comment (mark_contained i a b level s) = map ac_comment s.
Proof.
  induction s as [|c s IH]; intros i a b level; [reflexivity|]. cbn [mark_contained map]. rewrite IH. destruct (_ && _); reflexivity.
Qed.
Lemma mark_contained_comments_ok s r level : range_ok (next_id s) r -> exists s', mark_contained_comments s r level = Ok s' /\
  map ac_comment s' = map ac_comment s.
Proof.
  intros H. unfold mark_contained_comments. destruct (N.leb_spec (cr_start r + cr_len r) (next_id s)); [|unfold range_ok in H; lia].
  eexists. split; [reflexivity|apply mark_contained_ok].
Qed.
Lemma range_extend_ok r n : cr_start r <= n -> exists r', range_extend_to r n = Ok r' /\ cr_start r' + cr_len r' = n /\ cr_start r' = cr_start r /\ cr_level r' = cr_level r.
Proof.
  intros H. unfold range_extend_to. rewrite usub_le by assumption. cbn [bind]. eexists. split; [reflexivity|]. cbn. lia.
Qed.

(** ** Trivia *)
Lemma blanks_trivia w : blanks w -> trivia w.
Proof. intros B. eapply Forall_impl; [|exact B]. intros x H. left. exact H. Qed.
Lemma blanks_no_comments pre w : blanks w -> comments_of pre w = [].
Proof. intros B. unfold comments_of. rewrite tile_items_blanks by assumption. reflexivity. Qed.

Section Val.
  Context (input : list N).
  Notation at_ := (at_ input).
  Notation goes := (goes input).
  Notation eof := (eof input).
  Notation placed := (placed input).

  Lemma eat_trivia_sound : forall l prev s r pre ts errs, input = pre ++ source ts -> Forall shape ts -> all_separated ts -> l = tile_items pre ts -> prev_in input prev ->
    cr_start r <= next_id s -> range_ok (next_id s) r ->
    exists c s' r' a b, eat_trivia_loop prev l s r = Ok (c, s', r') /\ ts = a ++ b /\
      at_ (mkps c errs s') (pre ++ source a) b /\ trivia a /\
      map ac_comment s' = map ac_comment s ++ comments_of pre a /\ cr_start r' = cr_start r /\ range_ok (next_id s') r' /\ cr_level r' = cr_level r /\
      pty eof (mkps c errs s') <> INewline /\ (forall x, pty eof (mkps c errs s') <> IComment x).
  Proof.
    induction l as [|i l IH]; intros prev s r pre ts errs IN SH SEP E PV R RO; cbn [eat_trivia_loop].
    - eexists _, s, r, [], ts. split; [reflexivity|]. split; [reflexivity|].
      assert (AT : at_ (mkps (mkpc prev []) errs s) (pre ++ source []) ts).
      { cbn. rewrite app_nil_r. split; [exact IN|]. split; [exact SH|]. split; [exact SEP|split; [exact E|exact PV]]. }
      split; [exact AT|]. split; [constructor|]. rewrite app_nil_r. split; [reflexivity|]. split; [reflexivity|]. split; [assumption|]. split; [reflexivity|].
      unfold pty, ppeek. cbn. split; [discriminate|intros; discriminate].
    - destruct (view ts pre) as [(_ & V)|(w & x & s0 & r0 & -> & B & NX & V)]; [rewrite V in E; discriminate|].
      assert (STOP : pty eof (mkps (mkpc prev (i :: l)) errs s) <> INewline -> (forall x, pty eof (mkps (mkpc prev (i :: l)) errs s) <> IComment x) ->
        exists c s' r' a b, @Ok Empty_set _ (mkpc prev (i :: l), s, r) = Ok (c, s', r') /\ w ++ (x, s0) :: r0 = a ++ b /\
      at_ (mkps c errs s') (pre ++ source a) b /\ trivia a /\
      map ac_comment s' = map ac_comment s ++ comments_of pre a /\ cr_start r' = cr_start r /\ range_ok (next_id s') r' /\ cr_level r' = cr_level r /\
      pty eof (mkps c errs s') <> INewline /\ (forall x, pty eof (mkps c errs s') <> IComment x)).
      { intros N1 N2. eexists _, s, r, [], _. split; [reflexivity|]. split; [reflexivity|].
        split. { cbn. rewrite app_nil_r. split; [exact IN|]. split; [exact SH|]. split; [exact SEP|split; [exact E|exact PV]]. }
        split; [constructor|]. rewrite app_nil_r. split; [reflexivity|]. split; [reflexivity|]. split; [assumption|]. split; [reflexivity|]. split; assumption. }
      rewrite V in E. injection E as -> E.
      assert (SH' : Forall shape r0) by (apply Forall_app in SH as [_ SH]; exact (Forall_inv_tail SH)).
      assert (SEP' : all_separated r0) by (apply all_separated_tail in SEP; exact (proj2 SEP)).
      assert (IN' : input = (pre ++ source w ++ s0) ++ source r0) by (rewrite IN, source_app, source_cons; assoc).
      assert (PV' : pos_in input (pos_at (pre ++ source w))) by (eapply (pos_in_at _ _ (s0 ++ source r0)); rewrite IN'; assoc).
      assert (ES : forall a, pre ++ source (w ++ (x, s0) :: a) = (pre ++ source w ++ s0) ++ source a) by (intros; rewrite source_app, source_cons; assoc).
      destruct x as [| |[]| | |]; cbn [item_ty] in *; try congruence; try (apply STOP; [discriminate|intros; discriminate]).
      + destruct (IH (Some (mkitem INewline (pos_at (pre ++ source w)))) s r (pre ++ source w ++ s0) r0 errs IN' SH' SEP' E PV' R RO) as (c & s' & r' & a & b & -> & -> & A & T & M & H).
        exists c, s', r', (w ++ (XNewline, s0) :: a), b. split; [reflexivity|]. split; [assoc|]. rewrite ES. split; [exact A|].
        split; [apply Forall_app; split; [apply blanks_trivia; assumption|constructor; [right; left; reflexivity|assumption]]|].
        split; [|exact H]. rewrite M. f_equal. rewrite comments_of_app, (blanks_no_comments _ w) by assumption. cbn [app].
        unfold comments_of at 2. rewrite tile_items_cons by discriminate. cbn [flat_map item_comment i_ty item_ty app]. rewrite <- app_assoc. reflexivity.
      + destruct (add_comment_ok s r (mk_comment (mkref (tlen (pre ++ source w) + 1) (tl s0)) (pos_at (pre ++ source w))) Contained R) as (r1 & -> & C1 & R1 & L1).
        cbn [bind].
        destruct (IH (Some (mkitem (IComment (mkref (tlen (pre ++ source w) + 1) (tl s0))) (pos_at (pre ++ source w))))
           (s ++ [mkac Contained (cr_level r) (mk_comment (mkref (tlen (pre ++ source w) + 1) (tl s0)) (pos_at (pre ++ source w)))]) r1
           (pre ++ source w ++ s0) r0 errs IN' SH' SEP' E PV') as (c & s' & r' & a & b & -> & -> & A & T & M & ST & H2 & H3 & H4).
        { rewrite next_id_app, C1. lia. }
        { rewrite next_id_app. assumption. }
        exists c, s', r', (w ++ (XComment, s0) :: a), b. split; [reflexivity|]. split; [assoc|]. rewrite ES. split; [exact A|].
        split; [apply Forall_app; split; [apply blanks_trivia; assumption|constructor; [right; right; reflexivity|assumption]]|].
        split; [|split; [congruence|split; [assumption|split; [congruence|assumption]]]]. rewrite M, map_app. cbn [map ac_comment]. rewrite <- app_assoc. f_equal.
        rewrite comments_of_app, (blanks_no_comments _ w) by assumption. cbn [app].
        unfold comments_of at 2. rewrite tile_items_cons by discriminate. cbn [flat_map item_comment i_ty item_ty app i_start]. rewrite <- app_assoc. reflexivity.
  Qed.

  Lemma eat_trivia_goes st r pre ts : at_ st pre ts -> cr_start r <= next_id (ps_store st) -> range_ok (next_id (ps_store st)) r ->
    exists st' r' a b, eat_trivia st r = Ok (st', r') /\ goes st pre ts st' a b [] (comments_of pre a) /\ trivia a /\
      cr_start r' = cr_start r /\ range_ok (next_id (ps_store st')) r' /\ cr_level r' = cr_level r /\
      pty eof st' <> INewline /\ (forall x, pty eof st' <> IComment x).
  Proof.
    intros (IN & SH & SEP & E & PV) R RO.
    destruct (eat_trivia_sound _ (pc_prev (ps_cur st)) (ps_store st) r pre ts (ps_errs st) IN SH SEP E PV R RO) as (c & s' & r' & a & b & EQ & -> & A & T & M & H1 & H2 & H3 & H4).
    unfold eat_trivia. rewrite EQ. cbn [bind]. exists (mkps c (ps_errs st) s'), r', a, b. split; [reflexivity|].
    split; [|split; [exact T|auto]]. split; [reflexivity|]. split; [exact A|]. split; [rewrite app_nil_r; reflexivity|]. split; [exact M|]. split; [apply subseq_refl|constructor].
  Qed.

  Lemma eat_line_goes st r pre ts : at_ st pre ts -> cr_start r <= next_id (ps_store st) -> range_ok (next_id (ps_store st)) r ->
    exists st' r' a b, eat_line_comment st r = Ok (st', r') /\ goes st pre ts st' a b [] (comments_of pre a) /\ trivia a /\
      cr_start r' = cr_start r /\ range_ok (next_id (ps_store st')) r' /\ cr_level r' = cr_level r /\
      (a = [] /\ (forall x, pty eof st <> IComment x) \/ exists w s, a = w ++ [(XComment, s)] /\ blanks w).
  Proof.
    intros A R RO. unfold eat_line_comment. pose proof A as (IN & SH & SEP & E & PV).
    assert (STAY : (forall x, pty eof st <> IComment x) -> exists st' r' a b, @Ok Empty_set _ (st, r) = Ok (st', r') /\ goes st pre ts st' a b [] (comments_of pre a) /\ trivia a /\
      cr_start r' = cr_start r /\ range_ok (next_id (ps_store st')) r' /\ cr_level r' = cr_level r /\
      (a = [] /\ (forall x, pty eof st <> IComment x) \/ exists w s, a = w ++ [(XComment, s)] /\ blanks w)).
    { intros N. exists st, r, [], ts. split; [reflexivity|]. split; [apply goes_refl; exact A|]. split; [constructor|]. auto 6. }
    destruct (view ts pre) as [(B & V)|(w & x & s0 & r0 & -> & B & NX & V)].
    - rewrite E, V. apply STAY. unfold pty, ppeek. rewrite E, V. intros; discriminate.
    - assert (NP : x <> XComment -> forall y, pty eof st <> IComment y).
      { intros NC y. unfold pty, ppeek. rewrite E, V. cbn [hd i_ty]. destruct x as [| |[]| | |]; cbn [item_ty]; congruence. }
      rewrite E, V. destruct x as [| |[]| | |]; cbn [item_ty]; try (apply STAY; apply NP; discriminate). 
      destruct (add_comment_ok (ps_store st) r (mk_comment (mkref (tlen (pre ++ source w) + 1) (tl s0)) (pos_at (pre ++ source w))) LineEnd R) as (r1 & -> & C1 & R1 & L1).
      cbn [bind]. eexists _, r1, (w ++ [(XComment, s0)]), r0. split; [reflexivity|].
      assert (CO : comments_of pre (w ++ [(XComment, s0)]) = [mk_comment (mkref (tlen (pre ++ source w) + 1) (tl s0)) (pos_at (pre ++ source w))]).
      { rewrite comments_of_app, (blanks_no_comments _ w) by assumption. reflexivity. }
      rewrite CO. split; [|split; [apply Forall_app; split; [apply blanks_trivia; assumption|constructor; [right; right; reflexivity|constructor]]|
        split; [exact C1|split; [cbn [set_store ps_store]; rewrite next_id_app; exact R1|split; [exact L1|]]]]].
      + split; [assoc|]. split.
        * pose proof (at_split _ _ _ _ _ A) as (_ & S2 & Q2 & I). split; [rewrite I, source_app; cbn; rewrite app_nil_r; assoc|].
          split; [exact (Forall_inv_tail S2)|]. split; [exact (proj2 Q2)|].
          cbn [set_store ps_cur padv set_pcur]. unfold cadv. rewrite E, V. cbn [pc_rest pc_prev prev_in i_start]. split; [rewrite source_app; cbn; rewrite app_nil_r; f_equal|]. apply (pos_in_at _ _ _ I).
        * cbn [set_store ps_errs ps_store padv set_pcur]. rewrite app_nil_r, map_app. split; [reflexivity|]. split; [reflexivity|]. split; [|constructor].
          rewrite CO. apply subseq_refl.
      + right. exists w, s0. auto.
  Qed.

  (** ** Nodes stand where their text is *)
  Notation comma_ok := (comma_ok input).
  Notation end_ok := (end_ok input).
  Notation node_ok := (node_ok input).
  Definition iassign_ok (n : N) (a : iassign) : Prop :=
    key_ok input (as_key (ia_assign a)) /\ char_at input 61 (as_eq (ia_assign a)) /\ comma_ok (ia_comma a) /\ node_ok n (as_val (ia_assign a)).
  Definition avalue_ok (n : N) (a : avalue) : Prop := range_ok n (av_comments a) /\ comma_ok (av_comma a) /\ node_ok n (av_val a).
  Lemma fold_Forall {A} (P : A -> Prop) l : fold_right (fun a Q => P a /\ Q) True l <-> Forall P l.
  Proof. induction l; cbn; [split; constructor|]. rewrite IHl. split; [intros [? ?]; constructor; assumption|intros H; inversion H; auto]. Qed.
  Lemma node_table n p l e : node_ok n (VTable p l e) <-> char_at input 123 p /\ end_ok 125 e /\ Forall (iassign_ok n) l.
  Proof. cbn [node_ok]. rewrite <- fold_Forall. reflexivity. Qed.
  Lemma node_array n cr p l e : node_ok n (VArray cr p l e) <-> range_ok n cr /\ char_at input 91 p /\ end_ok 93 e /\ Forall (avalue_ok n) l.
  Proof. cbn [node_ok]. rewrite <- fold_Forall. reflexivity. Qed.
  Lemma lit_node n v : lit_ok input v -> node_ok n v.
  Proof. destruct v; cbn; tauto. Qed.

  Lemma node_ok_le n m : n <= m -> forall v, node_ok n v -> node_ok m v.
  Proof.
    intros LE. fix IH 1. intros [l sp t o q|l sp z|l sp x|sp b|l sp d|p l e|cr p l e|l sp].
    1-5,8: exact (fun H => H).
    - intros (H1 & H2 & H3). split; [exact H1|]. split; [exact H2|]. clear H1 H2. revert H3.
      induction l as [|a l IHl]; [exact (fun H => H)|]. intros [(K1 & K2 & K3 & K4) K]. split; [|exact (IHl K)].
      split; [exact K1|]. split; [exact K2|]. split; [exact K3|]. exact (IH _ K4).
    - intros (H0 & H1 & H2 & H3). split; [exact (range_ok_le _ _ _ H0 LE)|]. split; [exact H1|]. split; [exact H2|]. clear H0 H1 H2. revert H3.
      induction l as [|a l IHl]; [exact (fun H => H)|]. intros [(K1 & K2 & K3) K]. split; [|exact (IHl K)].
      split; [exact (range_ok_le _ _ _ K1 LE)|]. split; [exact K2|]. exact (IH _ K3).
  Qed.
  Lemma avalues_le n m l : n <= m -> Forall (avalue_ok n) l -> Forall (avalue_ok m) l.
  Proof.
    intros LE F. eapply Forall_impl; [|exact F]. intros a (H1 & H2 & H3). split; [eapply range_ok_le; eassumption|]. split; [exact H2|].
    eapply node_ok_le; eassumption.
  Qed.
  Lemma iassigns_le n m l : n <= m -> Forall (iassign_ok n) l -> Forall (iassign_ok m) l.
  Proof.
    intros LE F. eapply Forall_impl; [|exact F]. intros a (H1 & H2 & H3 & H4). split; [exact H1|]. split; [exact H2|]. split; [exact H3|].
    eapply node_ok_le; eassumption.
  Qed.

  Lemma char_at_in c p : char_at input c p -> pos_in input p.
  Proof. intros (a & b & IN & ->). eapply pos_in_at. exact IN. Qed.
  Lemma char_at_after c p : char_at input c p -> c <> 10 -> len_utf8 c = 1 -> pos_in input (pos_plus p 1).
  Proof.
    intros (a & b & IN & ->) NL L. rewrite (pos_plus_text a [c]); [|intros [H|[]]; congruence|rewrite tlen_one; auto].
    apply (pos_in_at input (a ++ [c]) b). rewrite IN. assoc.
  Qed.
  Lemma end_in c e : end_ok c e -> c <> 10 -> len_utf8 c = 1 -> pos_in input (end_pos e).
  Proof. intros H NL L. destruct e; cbn in *; [eapply char_at_after; eassumption|exact H]. Qed.
  Lemma placed_end r sp : placed r sp -> pos_in input (s_end sp).
  Proof. intros (a & b & IN & _ & ->). cbn. apply (pos_in_at input (a ++ sr_text r) b). rewrite IN. assoc. Qed.
  Lemma node_end_in n v : node_ok n v -> pos_in input (val_end v).
  Proof.
    destruct v; cbn [val_end]; intros H; cbn [ParsePlace.node_ok ParsePlace.lit_ok] in H;
      try (eapply placed_end; exact H); try (eapply placed_end; exact (proj1 H)).
    - destruct H as [o H]. eapply placed_end; eassumption.
    - eapply end_in; [apply H|discriminate|reflexivity].
    - eapply end_in; [apply H|discriminate|reflexivity].
  Qed.

  (** ** Punctuation in front of the cursor *)
  Definition punct_ity (t : ity) : option (ttype * N) :=
    match t with
    | ISquareLeft => Some (TSquareLeft, 91) | ISquareRight => Some (TSquareRight, 93)
    | ICurlyLeft => Some (TCurlyLeft, 123) | ICurlyRight => Some (TCurlyRight, 125)
    | IEqual => Some (TEqual, 61) | IComma => Some (TComma, 44) | IDot => Some (TDot, 46)
    | _ => None
    end.
  Lemma punct_unique ty c s : punct ty c -> shape (XPunct ty, s) -> s = [c].
  Proof.
    intros P (d & D & ->). f_equal. revert P D. unfold punct. cbn [In].
    intros P D. repeat (destruct P as [P|P]; [injection P as <- <-; repeat (destruct D as [D|D]; [first [discriminate D|injection D as <-; reflexivity]|]); destruct D|]). destruct P.
  Qed.
  Lemma peek_punct st pre ts ty c : at_ st pre ts -> punct_ity (pty eof st) = Some (ty, c) ->
    exists w r, ts = w ++ (XPunct ty, [c]) :: r /\ blanks w /\ i_start (ppeek eof st) = pos_at (pre ++ source w) /\
      char_at input c (i_start (ppeek eof st)) /\ goes st pre ts (padv st) (w ++ [(XPunct ty, [c])]) r [] [] /\
      input = (pre ++ source w) ++ c :: source r.
  Proof.
    intros A P. unfold pty in P. destruct (peek_cases input st pre ts A) as [(B & PK & _)|(w & x & s & r & E & B & NX & SH & PK & IN)]; rewrite PK in P |- *; [discriminate|].
    cbn [i_ty i_start] in *. destruct x as [| |t| | |]; try discriminate.
    assert (PU : t = ty /\ punct ty c) by (destruct t; cbn in P; try discriminate; injection P as <- <-; split; try reflexivity; unfold punct; cbn; tauto).
    destruct PU as [-> PU]. pose proof (punct_unique _ _ _ PU SH) as ->. exists w, r. split; [exact E|]. split; [exact B|]. split; [reflexivity|].
    split; [|split].
    - eexists _, _. split; [exact IN|reflexivity].
    - rewrite E in A |- *. apply goes_padv; [exact A|exact B|discriminate|discriminate].
    - exact IN.
  Qed.
  Lemma punct_comments pre w ty s : blanks w -> comments_of pre (w ++ [(XPunct ty, s)]) = [].
  Proof.
    intros B. apply inline_no_comments. apply Forall_app. split; [apply blanks_inline, B|]. constructor; [split; discriminate|constructor].
  Qed.
  Lemma punct_item w ty s r : has_item ((w ++ [(XPunct ty, s)]) ++ r).
  Proof. intros H. apply Forall_app in H as [H _]. apply Forall_app in H as [_ H]. apply Forall_inv in H. discriminate H. Qed.
  Lemma has_item_l a b : has_item a -> has_item (a ++ b).
  Proof. intros H B. apply Forall_app in B as [B _]. exact (H B). Qed.
  Lemma has_item_r a b : has_item b -> has_item (a ++ b).
  Proof. intros H B. apply Forall_app in B as [_ B]. exact (H B). Qed.
  Lemma goes_grow st pre ts st' a b es cs : goes st pre ts st' a b es cs -> next_id (ps_store st) <= next_id (ps_store st').
  Proof. intros (_ & _ & _ & M & _). eapply next_id_grow. exact M. Qed.

  (** ** Arrays *)
  Definition val_post (level : N) (pre : list N) (a b : list tile) (es : list terror) (cs : list comment) (st' : pst) (r : vres) : Prop :=
    match r with
    | VOk v => has_item a /\ node_ok (next_id (ps_store st')) v /\
        (es = [] -> Forall valid a -> cs = comments_of pre a /\
         exists w vt tv, a = w ++ vt /\ blanks w /\ g_value vt tv /\ val_of v = Some tv /\ level + nest tv <= 100)
    | VErr e => err_ok input e /\ (forall p, e = ERecursionLimitExceeded p -> b = [])
    end.
  Definition inner_ok (f : pst -> run (vres * pst)) (level : N) : Prop :=
    forall st pre ts, at_ st pre ts ->
      exists r st' a b es cs, f st = Ok (r, st') /\ goes st pre ts st' a b es cs /\ val_post level pre a b es cs st' r.

  Lemma g_elems_trivia w ts vs : trivia w -> g_elems ts vs -> g_elems (w ++ ts) vs.
  Proof.
    intros T G. destruct G.
    - apply ge_nil. apply Forall_app. auto.
    - rewrite app_assoc. apply ge_last; [apply Forall_app; auto|assumption|assumption].
    - rewrite app_assoc. apply ge_cons; [apply Forall_app; auto|assumption..].
  Qed.

  Definition array_post (level : N) (values : list avalue) (pre : list N) (a b : list tile) (es : list terror) (cs : list comment) (ac : crange) (st' : pst)
    (res : terror * pst + crange * list avalue * pst) : Prop :=
    match res with
    | inl (e, s) => s = st' /\ err_ok input e /\ b = [] /\ exists p, e = ERecursionLimitExceeded p
    | inr (ac', vals', s) => s = st' /\ cr_start ac' = cr_start ac /\ range_ok (next_id (ps_store st')) ac' /\ Forall (avalue_ok (next_id (ps_store st'))) vals' /\
        (es = [] -> Forall valid a -> cs = comments_of pre a /\
         exists news vs, vals' = values ++ news /\ all_some (map (fun x => val_of (av_val x)) news) = Some vs /\
           (forall w, trivia w -> g_elems (a ++ w) vs) /\ Forall (fun v => level + 1 + nest v <= 100) vs)
    end.

  Lemma array_loop_sound f level : inner_ok f (level + 1) -> forall fuel ac values st pre ts, at_ st pre ts -> (left st < fuel)%nat ->
    cr_start ac <= next_id (ps_store st) -> range_ok (next_id (ps_store st)) ac -> Forall (avalue_ok (next_id (ps_store st))) values ->
    exists res st' a b es cs, array_loop eof f level fuel ac values st = Ok res /\ goes st pre ts st' a b es cs /\
      array_post level values pre a b es cs ac st' res.
  Proof.
    intros INNER. induction fuel as [|fuel IH]; intros ac values st pre ts A L CS RO VO; [lia|]. cbn [array_loop].
    destruct (eat_trivia_goes st ac pre ts A CS RO) as (st1 & ac1 & a1 & b1 & -> & G1 & T1 & C1 & R1 & _ & NN1 & NC1). cbn [bind].
    pose proof (goes_at _ _ _ _ _ _ _ _ _ G1) as A1. pose proof (goes_grow _ _ _ _ _ _ _ _ G1) as N1.
    assert (DONE : exists res st' a b es cs, @Ok Empty_set (terror * pst + crange * list avalue * pst) (inr (ac1, values, st1)) = Ok res /\ goes st pre ts st' a b es cs /\
      array_post level values pre a b es cs ac st' res).
    { eexists _, st1, a1, b1, [], _. split; [reflexivity|]. split; [exact G1|]. cbn [array_post]. split; [reflexivity|]. split; [exact C1|]. split; [exact R1|].
      split; [eapply avalues_le; eassumption|]. intros _ _. split; [reflexivity|]. exists [], []. rewrite app_nil_r. split; [reflexivity|]. split; [reflexivity|].
      split; [|constructor]. intros w W. apply ge_nil. apply Forall_app. auto. }
    assert (STEP : exists res st' a b es cs,
        (let? (r, st) := f st1 in
            match r with
            | VErr e =>
                if recursion_error e then Ok (inl (e, st))
                else
                  let st := recover_on array_stop (perr st e) in
                  if array_end (pty eof st) then Ok (inr (ac1, values, st))
                  else array_loop eof f level fuel ac1 values (padv st)
            | VOk v =>
                let? (s, vc) := mark_comments_above (ps_store st) (p_line (val_start v)) (level + 1) in
                let? (st, vc) := eat_line_comment (set_store st s) vc in
                let? (st, ac) := eat_trivia st ac1 in
                match pty eof st with
                | IComma =>
                    let? vc := range_extend_to vc (next_id (ps_store st)) in
                    let? s := mark_contained_comments (ps_store st) vc (level + 1) in
                    let comma := i_start (ppeek eof st) in
                    let? (st, vc) := eat_line_comment (padv (set_store st s)) vc in
                    array_loop eof f level fuel ac (values ++ [mkav vc v (Some comma)]) st
                | ISquareRight | IEOF => Ok (inr (ac, values ++ [mkav vc v None], st))
                | _ => array_loop eof f level fuel ac (values ++ [mkav vc v None]) (perr st (EMissingComma (val_end v)))
                end
            end) = Ok res /\ goes st pre ts st' a b es cs /\ array_post level values pre a b es cs ac st' res).
    2: { destruct (array_end (pty eof st1)); [exact DONE|exact STEP]. }
    clear DONE. destruct (INNER st1 _ b1 A1) as (r & st2 & a2 & b2 & es2 & cs2 & -> & G2 & POST). cbn [bind].
    pose proof (goes_trans _ _ _ _ _ _ _ _ _ _ _ _ _ _ G1 G2) as G12. cbn [app] in G12.
    pose proof (goes_at _ _ _ _ _ _ _ _ _ G2) as A2. pose proof (goes_grow _ _ _ _ _ _ _ _ G2) as N2.
    destruct r as [v|e]; cbn [val_post] in POST.
    - destruct POST as (HI2 & NO & GR).
      destruct (mark_comments_above_ok (ps_store st2) (p_line (val_start v)) (level + 1)) as (s2 & vc & -> & M2 & VE & VR). cbn [bind].
      assert (G2s := goes_store _ _ _ _ _ _ _ _ _ s2 G12 M2). pose proof (goes_at _ _ _ _ _ _ _ _ _ G2s) as A2s.
      assert (E2 : next_id s2 = next_id (ps_store st2)) by (apply next_id_map; exact M2).
      destruct (eat_line_goes (set_store st2 s2) vc _ b2 A2s) as (st3 & vc3 & a3 & b3 & -> & G3 & T3 & C3 & R3 & _ & _).
      { cbn [set_store ps_store]. lia. }
      { exact VR. }
      cbn [bind]. pose proof (goes_trans _ _ _ _ _ _ _ _ _ _ _ _ _ _ G2s G3) as G13.
      pose proof (goes_at _ _ _ _ _ _ _ _ _ G13) as A3. pose proof (goes_grow _ _ _ _ _ _ _ _ G3) as N3. cbn [set_store ps_store] in N3.
      destruct (eat_trivia_goes st3 ac1 _ b3 A3) as (st4 & ac4 & a4 & b4 & -> & G4 & T4 & C4 & R4 & _ & NN4 & NC4).
      { lia. }
      { eapply range_ok_le; [exact R1|]. lia. }
      cbn [bind]. pose proof (goes_trans _ _ _ _ _ _ _ _ _ _ _ _ _ _ G13 G4) as G14.
      pose proof (goes_at _ _ _ _ _ _ _ _ _ G14) as A4. pose proof (goes_grow _ _ _ _ _ _ _ _ G4) as N4.
      assert (HI : has_item (((a1 ++ a2) ++ a3) ++ a4)) by (apply has_item_l, has_item_l, has_item_r, HI2).
      pose proof (goes_less _ _ _ _ _ _ _ _ _ A G14 HI) as LT.
      assert (NO4 : node_ok (next_id (ps_store st4)) v) by (eapply node_ok_le; [|exact NO]; lia).
      assert (VO4 : Forall (avalue_ok (next_id (ps_store st4))) values) by (eapply avalues_le; [|exact VO]; lia).
      assert (RV4 : range_ok (next_id (ps_store st4)) vc3) by (eapply range_ok_le; [exact R3|lia]).
      assert (CO : es2 = [] -> Forall valid a2 ->
        comments_of pre (((a1 ++ a2) ++ a3) ++ a4) = ((comments_of pre a1 ++ cs2) ++ comments_of (pre ++ source (a1 ++ a2)) a3) ++ comments_of (pre ++ source ((a1 ++ a2) ++ a3)) a4).
      { intros EN V. destruct (GR EN V) as [-> _]. rewrite !comments_of_app. reflexivity. }
      assert (PC : pos_in input (val_end v)) by (eapply node_end_in; exact NO).
      assert (MISS : (exists res st' a b es cs, array_loop eof f level fuel ac4 (values ++ [mkav vc3 v None]) (perr st4 (EMissingComma (val_end v))) = Ok res /\
         goes st pre ts st' a b es cs /\ array_post level values pre a b es cs ac st' res)).
      { assert (G5 := goes_err _ _ _ _ _ _ _ _ _ (EMissingComma (val_end v)) G14 (err_ok_pos _ (EMissingComma (val_end v)) _ PC eq_refl (fun _ _ _ _ => eq_refl) eq_refl)).
        pose proof (goes_at _ _ _ _ _ _ _ _ _ G5) as A5.
        destruct (IH ac4 (values ++ [mkav vc3 v None]) _ _ _ A5) as (res & st6 & a6 & b6 & es6 & cs6 & -> & G6 & P6).
        { cbn [left perr ps_cur]. change (left st4 < fuel)%nat. lia. }
        { cbn [perr ps_store]. lia. }
        { exact R4. }
        { cbn [perr ps_store]. apply Forall_app. split; [exact VO4|]. constructor; [|constructor]. split; [exact RV4|]. split; [exact I|exact NO4]. }
        pose proof (goes_trans _ _ _ _ _ _ _ _ _ _ _ _ _ _ G5 G6) as G7.
        eexists _, st6, _, b6, _, _. split; [reflexivity|]. split; [exact G7|].
        destruct res as [[e s]|[[ac' vals'] s]]; cbn [array_post] in *; [exact P6|]. destruct P6 as (P1 & P2 & P3 & P4 & _).
        split; [exact P1|]. split; [lia|]. split; [exact P3|]. split; [exact P4|].
        intros H. exfalso. clear - H. destruct es2; discriminate H. }
      assert (LAST : exists res st' a b es cs, @Ok Empty_set (terror * pst + crange * list avalue * pst) (inr (ac4, values ++ [mkav vc3 v None], st4)) = Ok res /\ goes st pre ts st' a b es cs /\
         array_post level values pre a b es cs ac st' res).
      { eexists _, st4, _, b4, _, _. split; [reflexivity|]. split; [exact G14|]. cbn [array_post]. split; [reflexivity|]. split; [lia|]. split; [exact R4|].
        split; [apply Forall_app; split; [exact VO4|]; constructor; [|constructor]; split; [exact RV4|]; split; [exact I|exact NO4]|].
        rewrite !app_nil_r. intros EN V. apply Forall_app in V as [V _]. apply Forall_app in V as [V _]. apply Forall_app in V as [_ V].
        split; [symmetry; exact (CO EN V)|]. destruct (GR EN V) as (_ & w & vt & tv & -> & B & GV & VOF & NE).
        exists [mkav vc3 v None], [tv]. split; [reflexivity|]. split; [cbn; rewrite VOF; reflexivity|]. split; [|constructor; [exact NE|constructor]].
        intros w' W'. replace ((((a1 ++ w ++ vt) ++ a3) ++ a4) ++ w') with ((a1 ++ w) ++ vt ++ a3 ++ a4 ++ w') by assoc.
        apply ge_last; [apply Forall_app; split; [assumption|apply blanks_trivia; assumption]|assumption|]. repeat (apply Forall_app; split); assumption. }
      destruct (pty eof st4) eqn:PT; try exact MISS; try exact LAST. clear MISS LAST.
      destruct (peek_punct st4 _ _ TComma 44 A4) as (w5 & r5 & E5 & B5 & PK & CH & G5 & _). { rewrite PT. reflexivity. }
      destruct (range_extend_ok vc3 (next_id (ps_store st4))) as (vc5 & -> & X1 & X2 & _). { unfold range_ok in RV4. lia. }
      cbn [bind]. destruct (mark_contained_comments_ok (ps_store st4) vc5 (level + 1)) as (s5 & -> & M5). { unfold range_ok. lia. }
      cbn [bind]. cbv zeta. change (padv (set_store st4 s5)) with (set_store (padv st4) s5).
      pose proof (goes_trans _ _ _ _ _ _ _ _ _ _ _ _ _ _ G14 G5) as G15.
      assert (G15s := goes_store _ _ _ _ _ _ _ _ _ s5 G15 M5). pose proof (goes_at _ _ _ _ _ _ _ _ _ G15s) as A5.
      assert (E5' : next_id s5 = next_id (ps_store st4)) by (apply next_id_map; exact M5).
      destruct (eat_line_goes (set_store (padv st4) s5) vc5 _ r5 A5) as (st6 & vc6 & a6 & b6 & -> & G6 & T6 & C6 & R6 & _ & _).
      { cbn [set_store ps_store]. lia. }
      { unfold range_ok. cbn [set_store ps_store]. lia. }
      cbn [bind]. pose proof (goes_trans _ _ _ _ _ _ _ _ _ _ _ _ _ _ G15s G6) as G16.
      pose proof (goes_at _ _ _ _ _ _ _ _ _ G16) as A6. pose proof (goes_grow _ _ _ _ _ _ _ _ G6) as N6. cbn [set_store ps_store] in N6.
      destruct (IH ac4 (values ++ [mkav vc6 v (Some (i_start (ppeek eof st4)))]) st6 _ b6 A6) as (res & st7 & a7 & b7 & es7 & cs7 & -> & G7 & P7).
      { pose proof (goes_less _ _ _ _ _ _ _ _ _ A G16) as LT6. assert (X : (left st6 < left st)%nat) by (apply LT6; do 4 apply has_item_l; apply has_item_r, HI2). lia. }
      { lia. }
      { eapply range_ok_le; [exact R4|lia]. }
      { apply Forall_app. split; [eapply avalues_le; [|exact VO]; lia|]. constructor; [|constructor].
        split; [exact R6|]. split; [exact CH|]. eapply node_ok_le; [|exact NO]; lia. }
      pose proof (goes_trans _ _ _ _ _ _ _ _ _ _ _ _ _ _ G16 G7) as G17.
      eexists _, st7, _, b7, _, _. split; [reflexivity|]. split; [exact G17|].
      destruct res as [[e s]|[[ac' vals'] s]]; cbn [array_post] in *; [exact P7|]. destruct P7 as (P1 & P2 & P3 & P4 & P5).
      split; [exact P1|]. split; [lia|]. split; [exact P3|]. split; [exact P4|].
      rewrite !app_nil_r. intros EN V. apply app_eq_nil in EN as [EN2 EN7].
      apply Forall_app in V as [V V7]. apply Forall_app in V as [V _]. apply Forall_app in V as [V _]. apply Forall_app in V as [V _]. apply Forall_app in V as [V _]. apply Forall_app in V as [_ V].
      destruct (P5 EN7 V7) as (-> & news & vs & -> & AS & GE & NS).
      split. { rewrite <- (CO EN2 V). rewrite (comments_of_app pre _ a7), (comments_of_app pre _ a6), (comments_of_app pre _ (w5 ++ _)), punct_comments by exact B5. rewrite app_nil_r. reflexivity. }
      destruct (GR EN2 V) as (_ & w & vt & tv & -> & B & GV & VOF & NE).
      exists (mkav vc6 v (Some (i_start (ppeek eof st4))) :: news), (tv :: vs). split; [assoc|].
      split; [unfold all_some in *; cbn [map fold_right av_val]; rewrite VOF, AS; reflexivity|]. split; [|constructor; assumption].
      intros w' W'.
      replace ((((((((a1 ++ w ++ vt) ++ a3) ++ a4) ++ w5 ++ [(XPunct TComma, [44])]) ++ a6) ++ a7) ++ w'))
        with ((a1 ++ w) ++ vt ++ (a3 ++ a4 ++ w5) ++ (XPunct TComma, [44]) :: a6 ++ a7 ++ w') by assoc.
      apply ge_cons; [apply Forall_app; split; [assumption|apply blanks_trivia; assumption]|assumption| |reflexivity|].
      { repeat (apply Forall_app; split); try assumption. apply blanks_trivia; assumption. }
      apply g_elems_trivia; [assumption|]. apply GE. assumption.
    - destruct POST as [EO RL].
      assert (GE := goes_err _ _ _ _ _ _ _ _ _ e G12 EO). pose proof (goes_at _ _ _ _ _ _ _ _ _ GE) as AE.
      destruct (recursion_error e) eqn:RE.
      { assert (exists p, e = ERecursionLimitExceeded p) as [p ->] by (destruct e; try discriminate; eexists; reflexivity).
        eexists _, st2, _, b2, _, _. split; [reflexivity|]. split; [exact G12|]. cbn [array_post]. split; [reflexivity|]. split; [exact EO|].
        split; [eapply RL; reflexivity|eexists; reflexivity]. }
      destruct (recover_sound input array_stop _ _ _ AE ltac:(reflexivity)) as (a3 & b3 & G3 & CO3 & _ & _ & STP).
      pose proof (goes_trans _ _ _ _ _ _ _ _ _ _ _ _ _ _ GE G3) as G13. pose proof (goes_at _ _ _ _ _ _ _ _ _ G13) as A3.
      cbv zeta. set (st3 := recover_on array_stop (perr st2 e)) in *.
      assert (N3 : next_id (ps_store st) <= next_id (ps_store st3)) by (eapply goes_grow; exact G13).
      assert (S3 : ps_store st3 = ps_store st2) by reflexivity.
      assert (STOP : exists res st' a b es cs, @Ok Empty_set (terror * pst + crange * list avalue * pst) (inr (ac1, values, st3)) = Ok res /\ goes st pre ts st' a b es cs /\
         array_post level values pre a b es cs ac st' res).
      { eexists _, st3, _, b3, _, _. split; [reflexivity|]. split; [exact G13|]. cbn [array_post]. split; [reflexivity|]. split; [exact C1|].
        split; [eapply range_ok_le; [exact R1|rewrite S3; lia]|]. split; [eapply avalues_le; [exact N3|exact VO]|].
        intros H. exfalso. clear - H. destruct es2; discriminate H. }
      assert (GO : pc_rest (ps_cur st3) <> [] -> exists res st' a b es cs, array_loop eof f level fuel ac1 values (padv st3) = Ok res /\ goes st pre ts st' a b es cs /\
         array_post level values pre a b es cs ac st' res).
      { intros NE. destruct (peek_cases input st3 _ _ A3) as [(_ & _ & E0)|(w & x & s & r & -> & B & NX & SH & PK & IN)]; [congruence|].
        assert (HIx : has_item (w ++ [(x, s)])).
        { intros H. apply Forall_app in H as [_ H]. apply Forall_inv in H. cbv [is_blank] in H. cbn in H. congruence. }
        assert (G4 : goes st3 ((pre ++ source ((a1 ++ a2) ++ a3))) (w ++ (x, s) :: r) (padv st3) (w ++ [(x, s)]) r [] []).
        { apply goes_skip; assumption. }
        pose proof (goes_trans _ _ _ _ _ _ _ _ _ _ _ _ _ _ G13 G4) as G14. pose proof (goes_at _ _ _ _ _ _ _ _ _ G14) as A4.
        destruct (IH ac1 values (padv st3) _ _ A4) as (res & st7 & a7 & b7 & es7 & cs7 & -> & G7 & P7).
        { pose proof (goes_less _ _ _ _ _ _ _ _ _ A G14) as LT6. specialize (LT6 ltac:(apply has_item_r, HIx)). lia. }
        { change (ps_store (padv st3)) with (ps_store st2). lia. }
        { change (ps_store (padv st3)) with (ps_store st2). eapply range_ok_le; [exact R1|lia]. }
        { change (ps_store (padv st3)) with (ps_store st3). eapply avalues_le; [exact N3|exact VO]. }
        pose proof (goes_trans _ _ _ _ _ _ _ _ _ _ _ _ _ _ G14 G7) as G17.
        eexists _, st7, _, b7, _, _. split; [reflexivity|]. split; [exact G17|].
        destruct res as [[e' s']|[[ac' vals'] s']]; cbn [array_post] in *; [exact P7|]. destruct P7 as (P1 & P2 & P3 & P4 & _).
        split; [exact P1|]. split; [lia|]. split; [exact P3|]. split; [exact P4|]. intros H. exfalso. clear - H. destruct es2; discriminate H. }
      destruct (array_end (pty eof st3)) eqn:PT; [exact STOP|]. apply GO. intros E0. unfold pty, ppeek in PT. rewrite E0 in PT. discriminate.
  Qed.
End Val.
