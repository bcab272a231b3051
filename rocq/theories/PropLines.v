(** C78: whether lines end in LF or CR LF does not matter. *)
From Verif Require Import Base BaseProofs CommonModel TomlError LitModel LitSpec LexModel LexSpec LexBase LexStr LexMain LexTop ParseModel ParseSpec ParseUniq.
From Verif Require Import MapModel MapSpec MapWf CliModel MeanSpec PropMap IdeModel IdeSpec IdeProofs PropParse PropIde MeanProofs PropCli ManifestSpec ManifestProofs PropManifest ManifestFine PropFine PropManOrder.

(** ** Specification *)

(** The same text, but for the ends of its lines, each of which is LF or CR LF
    in either. There are no other carriage returns. *)
Inductive relined : list N -> list N -> Prop :=
| rl_nil : relined [] []
| rl_char c s t : c <> 10 -> c <> 13 -> relined s t -> relined (c :: s) (c :: t)
| rl_end n n' s t : line_break n -> line_break n' -> relined s t -> relined (n ++ s) (n' ++ t).

(** ** The relation *)
Lemma relined_sym s t : relined s t -> relined t s.
Proof. induction 1; [apply rl_nil|apply rl_char; assumption|apply rl_end; assumption]. Qed.
Lemma relined_app a a' b b' : relined a a' -> relined b b' -> relined (a ++ b) (a' ++ b').
Proof. intros H B. induction H as [|c s t A1 A2 _ IH|n n' s t A1 A2 _ IH]; [exact B|apply (rl_char c); assumption|]. rewrite <- !app_assoc. apply rl_end; assumption. Qed.
Lemma relined_cons c s t : c <> 10 -> c <> 13 -> relined (c :: s) t -> exists t', t = c :: t' /\ relined s t'.
Proof.
  intros A B H. inversion H as [|c0 s0 t0 A1 A2 R E1 E2|n n' s0 t0 L L' R E1 E2]; subst; [eauto|].
  destruct L as [-> | ->]; injection E1 as E1; subst; congruence.
Qed.
Lemma relined_lf s t : relined (10 :: s) t -> exists n t', t = n ++ t' /\ line_break n /\ relined s t'.
Proof.
  intros H. inversion H as [|c0 s0 t0 A1 A2 R E1 E2|n n' s0 t0 L L' R E1 E2]; subst; [congruence|].
  destruct L as [-> | ->]; [|discriminate]. injection E1 as ->. eauto.
Qed.
Lemma relined_cr s t : relined (13 :: s) t -> exists s' n t', s = 10 :: s' /\ t = n ++ t' /\ line_break n /\ relined s' t'.
Proof.
  intros H. inversion H as [|c0 s0 t0 A1 A2 R E1 E2|n n' s0 t0 L L' R E1 E2]; subst; [congruence|].
  destruct L as [-> | ->]; [discriminate|]. injection E1 as <-. eauto 7.
Qed.
Lemma relined_nil t : relined [] t -> t = [].
Proof. intros H. inversion H as [|c0 s0 t0 A1 A2 R E1 E2|n n' s0 t0 L L' R E1 E2]; [reflexivity|]. destruct L as [-> | ->]; discriminate. Qed.
(** The first part of the text, if it does not end between CR and LF. *)
Lemma relined_split : forall s r t, relined (s ++ r) t -> (ends_with 13 s -> ~ starts_with (eq 10) r) ->
  exists s' r', t = s' ++ r' /\ relined s s' /\ relined r r'.
Proof.
  intros s. remember (length s) as n eqn:LN. revert s LN. induction n as [n IH] using lt_wf_ind. intros [|c s] LN r t R NE; cbn [app length] in *.
  - exists [], t. split; [reflexivity|]. split; [apply rl_nil|exact R].
  - assert (TL : forall u v, c :: s = u ++ v -> ends_with 13 v -> ends_with 13 (c :: s)).
    { intros u v E (w & ->). exists (u ++ w). rewrite E, <- app_assoc. reflexivity. }
    destruct (N.eq_dec c 10) as [->|N1]; [|destruct (N.eq_dec c 13) as [->|N2]].
    + apply relined_lf in R. destruct R as (m & t' & -> & L & R). destruct (IH (length s) ltac:(lia) s eq_refl r t' R) as (s' & r' & -> & R1 & R2).
      { intros E. apply NE. exact (TL [10] s eq_refl E). }
      exists (m ++ s'), r'. rewrite <- app_assoc. split; [reflexivity|]. split; [|exact R2]. apply (rl_end [10] m); [left; reflexivity|exact L|exact R1].
    + apply relined_cr in R. destruct R as (s0 & m & t' & E & -> & L & R). destruct s as [|c s].
      { cbn [app] in E. subst r. exfalso. apply NE; [exists []; reflexivity|]. exists 10, s0. auto. }
      cbn [app] in E. injection E as -> <-. cbn [length] in LN. destruct (IH (length s) ltac:(lia) s eq_refl r t' R) as (s' & r' & -> & R1 & R2).
      { intros E. apply NE. exact (TL [13; 10] s eq_refl E). }
      exists (m ++ s'), r'. rewrite <- app_assoc. split; [reflexivity|]. split; [|exact R2]. apply (rl_end [13; 10] m); [right; reflexivity|exact L|exact R1].
    + apply relined_cons in R; [|assumption..]. destruct R as (t' & -> & R). destruct (IH (length s) ltac:(lia) s eq_refl r t' R) as (s' & r' & -> & R1 & R2).
      { intros E. apply NE. exact (TL [c] s eq_refl E). }
      exists (c :: s'), r'. split; [reflexivity|]. split; [|exact R2]. apply rl_char; assumption.
Qed.
(** A carriage return is followed by a line feed. *)
Lemma relined_cr_end s t : relined s t -> ~ ends_with 13 s.
Proof.
  intros R (a & ->). destruct (relined_split a [13] t R) as (s' & r' & _ & _ & R').
  - intros _ (c & r & E & <-). discriminate.
  - apply relined_cr in R'. destruct R' as (s0 & _ & _ & E & _). discriminate.
Qed.
Lemma relined_no_end s r t : relined (s ++ r) t -> ends_with 13 s -> starts_with (eq 10) r.
Proof.
  intros R (a & ->). rewrite <- app_assoc in R. destruct (relined_split a _ t R) as (s' & r' & _ & _ & R').
  - intros _ (c & w & E & <-). discriminate.
  - apply relined_cr in R'. destruct R' as (s0 & _ & _ & E & _). exists 10, s0. auto.
Qed.
(** A text without line feeds is the same. *)
Lemma relined_same s t : relined s t -> ~ In 10 s -> t = s.
Proof.
  induction 1 as [|c s t A1 A2 _ IH|n n' s t A1 A2 _ IH]; intros NI; [reflexivity| |].
  - f_equal. apply IH. intros H. apply NI. right. exact H.
  - exfalso. apply NI. apply in_or_app. left. destruct A1 as [-> | ->]; cbn; auto.
Qed.
Lemma relined_starts P s t : relined s t -> (P 10 <-> P 13) -> starts_with P s -> starts_with P t.
Proof.
  intros R PP (c & r & -> & H). destruct (N.eq_dec c 10) as [->|N1]; [|destruct (N.eq_dec c 13) as [->|N2]].
  - apply relined_lf in R. destruct R as (n & t' & -> & [-> | ->] & _); [exists 10, t'|exists 13, (10 :: t')]; split; try reflexivity; tauto.
  - apply relined_cr in R. destruct R as (s0 & n & t' & _ & -> & [-> | ->] & _); [exists 10, t'|exists 13, (10 :: t')]; split; try reflexivity; tauto.
  - apply relined_cons in R; [|assumption..]. destruct R as (t' & -> & _). exists c, t'. auto.
Qed.
Lemma relined_not_starts P s t : relined s t -> (P 10 <-> P 13) -> ~ starts_with P s -> ~ starts_with P t.
Proof. intros R PP H H'. apply H. exact (relined_starts P _ _ (relined_sym _ _ R) PP H'). Qed.
(** What a line break at the start becomes. *)
Definition at_break (s : list N) : Prop := exists n r, line_break n /\ s = n ++ r.
Lemma at_break_iff s : at_break s <-> starts_with (eq 10) s \/ exists r, s = 13 :: 10 :: r.
Proof.
  split.
  - intros (n & r & [-> | ->] & ->); [left; exists 10, r; auto|right; exists r; reflexivity].
  - intros [(c & r & -> & <-)|(r & ->)]; [exists [10], r|exists [13; 10], r]; split; try reflexivity; [left|right]; reflexivity.
Qed.
Lemma relined_break s t : relined s t -> at_break s -> at_break t.
Proof.
  intros R (n & r & [-> | ->] & ->).
  - apply relined_lf in R. destruct R as (m & t' & -> & L & _). exists m, t'. auto.
  - apply relined_cr in R. destruct R as (s0 & m & t' & _ & -> & L & _). exists m, t'. auto.
Qed.

(** ** Strings *)
Lemma plain_not c : plain c -> c <> 10 /\ c <> 13.
Proof. unfold plain. lia. Qed.
Lemma hex_not c d : hex_digit_of c d -> c <> 10 /\ c <> 13.
Proof. intros H. destruct H; lia. Qed.
Lemma hex_text_not ds v : hex_text ds v -> ~ In 10 ds /\ ~ ends_with 13 ds.
Proof.
  induction 1 as [|ds v c d _ [IH _] D].
  - split; [tauto|]. intros (r & E). destruct r; discriminate.
  - apply hex_not in D. split.
    + intros Q. apply in_app_or in Q. destruct Q as [Q|[Q|[]]]; [exact (IH Q)|]. lia.
    + intros (r & E). apply app_inj_tail in E. destruct E as [_ E]. lia.
Qed.
Lemma folded_relined w w' : relined w w' -> folded w -> folded w'.
Proof.
  intros R [F I]. assert (G : Forall is_ws w -> Forall is_ws w' /\ (In 10 w -> In 10 w')).
  { clear F I. induction R as [|c s t A1 A2 _ IH|n n' s t L L' _ IH]; intros F; [auto| |].
    - inversion F as [|? ? F1 F2]; subst. destruct (IH F2) as [G1 G2]. split; [constructor; assumption|]. intros [H|H]; [congruence|right; auto].
    - apply Forall_app in F as [_ F]. destruct (IH F) as [G1 G2]. split.
      + apply Forall_app. split; [|exact G1]. destruct L' as [-> | ->]; repeat (constructor; [unfold is_ws; auto|]); constructor.
      + intros _. apply in_or_app. left. destruct L' as [-> | ->]; cbn; auto. }
  destruct (G F) as [G1 G2]. split; auto.
Qed.
Lemma ws_breaks : is_ws 10 <-> is_ws 13.
Proof. unfold is_ws. lia. Qed.
Lemma escape_not e v : escape_letter e v -> e <> 10 /\ e <> 13.
Proof. unfold escape_letter. cbn. intros H. repeat (destruct H as [H|H]; [injection H as <- <-; lia|]). destruct H. Qed.
Lemma body_relined q n s x : body q n s x -> forall s', relined s s' -> body q n s' x.
Proof.
  induction 1 as [n|n c s x P D E B IH|n e v s x E L B IH|n u ds v s x E U H SC B IH|n w s x M F NS B IH|n s x M B IH|n s x M B IH|n s x M LT B IH]; intros s' R.
  - apply relined_nil in R. subst. apply body_end.
  - pose proof (plain_not _ P) as [A1 A2]. apply relined_cons in R; [|assumption..]. destruct R as (t & -> & R). apply body_char; auto.
  - apply relined_cons in R; [|lia..]. destruct R as (t & -> & R). pose proof (escape_not _ _ L) as [A1 A2]. apply relined_cons in R; [|assumption..]. destruct R as (t' & -> & R). apply body_escape; auto.
  - apply relined_cons in R; [|lia..]. destruct R as (t & -> & R). assert (UN : u <> 10 /\ u <> 13) by lia. apply relined_cons in R; [|lia..]. destruct R as (t' & -> & R).
    destruct (hex_text_not _ _ H) as [H1 H2]. apply relined_split in R; [|tauto]. destruct R as (d' & r' & -> & R1 & R2). apply relined_same in R1; [|exact H1]. subst d'. apply body_unicode; auto.
  - apply relined_cons in R; [|lia..]. destruct R as (t & -> & R). apply relined_split in R.
    + destruct R as (w' & r' & -> & R1 & R2). apply body_fold; [exact M|exact (folded_relined _ _ R1 F)|exact (relined_not_starts _ _ _ R2 ws_breaks NS)|apply IH; exact R2].
    + intros _ (c & r & -> & <-). apply NS. exists 10, r. split; [reflexivity|]. unfold is_ws. auto.
  - apply relined_lf in R. destruct R as (m & t & -> & [-> | ->] & R); [apply body_lf|apply body_crlf]; auto.
  - apply relined_cr in R. destruct R as (s0 & m & t & E & -> & [-> | ->] & R); injection E as <-; [apply body_lf|apply body_crlf]; auto.
  - assert (D : delim q <> 10 /\ delim q <> 13) by (destruct q; cbn; lia). apply relined_cons in R; [|apply D..]. destruct R as (t & -> & R). apply body_delim; auto.
Qed.
Lemma delims_not q : ~ In 10 (delims q) /\ ~ ends_with 13 (delims q).
Proof. split; [destruct q; cbn; lia|]. intros (r & E). destruct q, r as [|? [|? [|? [|? ?]]]]; discriminate. Qed.
Lemma delims_not_lf q : ~ starts_with (eq 10) (delims q).
Proof. destruct q; cbn; intros (c & r & E & <-); discriminate. Qed.
Lemma string_relined q s trim x s' : toml_string q s trim x -> relined s s' -> exists trim', toml_string q s' trim' x /\ (trim = [] <-> trim' = []).
Proof.
  intros (b & -> & B & T & NB) R. destruct (delims_not q) as [D1 D2].
  apply relined_split in R; [|tauto]. destruct R as (d & r & -> & R1 & R). apply relined_same in R1; [|exact D1]. subst d.
  apply relined_split in R.
  2:{ intros E. exfalso. destruct T as [-> |[_ [-> | ->]]]; destruct E as (u & E); destruct u as [|? [|? [|? ?]]]; discriminate. }
  destruct R as (trim' & r' & -> & R1 & R). apply relined_split in R; [|intros _; apply delims_not_lf]. destruct R as (b' & d & -> & R2 & R3). apply relined_same in R3; [|exact D1]. subst d.
  exists trim'. assert (TT : (trim = [] <-> trim' = []) /\ (trim' = [] \/ multi q /\ line_break trim')).
  { destruct T as [-> |[M L]].
    - apply relined_nil in R1. subst. tauto.
    - assert (L' : line_break trim').
      { destruct L as [-> | ->]; [apply relined_lf in R1; destruct R1 as (m & t & -> & L & R1)|apply relined_cr in R1; destruct R1 as (s0 & m & t & E & -> & L & R1); injection E as <-];
          apply relined_nil in R1; subst t; rewrite app_nil_r; exact L. }
      split; [|auto]. destruct L as [-> | ->], L' as [-> | ->]; split; discriminate. }
  destruct TT as [T1 T2]. split; [|exact T1]. exists b'. split; [reflexivity|]. split; [exact (body_relined _ _ _ _ B _ R2)|]. split; [exact T2|].
  intros M E. apply T1 in E. specialize (NB M E). apply relined_sym in R2.
  assert (X : ~ at_break b') by (intros X; apply (relined_break _ _ R2) in X; rewrite at_break_iff in X; tauto). rewrite at_break_iff in X. tauto.
Qed.

(** ** Pieces *)
Definition same_tile (x y : tile) : Prop := fst x = fst y /\ (match fst x with XWord | XPunct _ => snd x = snd y | _ => True end).
Lemma word_not s : Forall word_char s -> ~ In 10 s.
Proof. intros F I. apply (proj1 (Forall_forall _ _) F) in I. apply I. cbn. auto. Qed.
Lemma valid_cr x s rest : LexSpec.valid (x, s) -> separated (x, s) rest -> ends_with 13 s -> ~ starts_with (eq 10) rest.
Proof.
  intros V A (r & ->) ST. destruct x as [| |ty| | |q text off]; cbn [LexSpec.valid shape separated] in *.
  - destruct V as [V|V]; destruct r as [|? [|? ?]]; discriminate V.
  - destruct V as [V|V]; destruct r as [|? [|? [|? ?]]]; discriminate V.
  - destruct V as (c & P & V). apply (app_inj_tail r []) in V. destruct V as [_ <-]. unfold punct in P. cbn in P. repeat (destruct P as [P|P]; [discriminate P|]). exact P.
  - destruct A as [[_ A]|(r' & ->)]; [apply A; [exists r; reflexivity|exact ST]|]. destruct ST as (c & r0 & E & <-). discriminate.
  - destruct V as (t & E & F). destruct r as [|c r]; [discriminate|]. injection E as -> <-. apply Forall_app in F as [_ F]. apply Forall_inv in F. apply plain_not in F. lia.
  - destruct V as (trim & (b & E & _) & _). destruct (delims_not q) as [_ D]. rewrite !app_assoc in E.
    assert (X : exists u, delims q = u ++ [delim q]) by (destruct q; [exists []|exists [34; 34]|exists []|exists [39; 39]]; reflexivity).
    destruct X as (u & X). rewrite X in E. rewrite !app_assoc in E. apply app_inj_tail in E. destruct E as [_ E]. destruct q; discriminate.
Qed.
Lemma tile_relined x s s' : LexSpec.valid (x, s) -> relined s s' -> LexSpec.valid (x, s') /\ same_tile (x, s) (x, s').
Proof.
  intros V R. unfold same_tile. cbn [fst snd]. destruct x as [| |ty| | |q text off]; cbn [LexSpec.valid shape] in *.
  - apply relined_same in R; [|destruct V as [-> | ->]; cbn; lia]. subst. auto.
  - split; [|auto]. destruct V as [-> | ->]; [apply relined_lf in R; destruct R as (m & t & -> & L & R)|apply relined_cr in R; destruct R as (s0 & m & t & E & -> & L & R); injection E as <-];
      apply relined_nil in R; subst t; rewrite app_nil_r; exact L.
  - destruct V as (c & P & ->). apply relined_same in R.
    + subst. split; [|auto]. exists c. auto.
    + intros [->|[]]. unfold punct in P. cbn in P. repeat (destruct P as [P|P]; [discriminate|]). exact P.
  - apply relined_same in R; [|apply word_not; tauto]. subst. auto.
  - destruct V as (t & -> & F). apply relined_same in R.
    + subst. split; [|auto]. exists t. auto.
    + intros [H|H]; [discriminate|]. apply (proj1 (Forall_forall _ _) F) in H. apply plain_not in H. lia.
  - destruct V as (trim & T & ->). split; [|auto]. destruct (string_relined _ _ _ _ _ T R) as (trim' & T' & TT). exists trim'. split; [exact T'|].
    destruct trim, trim'; try reflexivity; exfalso; [discriminate (proj1 TT eq_refl)|discriminate (proj2 TT eq_refl)].
Qed.
Lemma word_breaks : ~ word_char 10.
Proof. unfold word_char. cbn. tauto. Qed.
Lemma separated_relined x s s' rest rest' : LexSpec.valid (x, s) -> separated (x, s) rest -> relined s s' -> relined rest rest' -> separated (x, s') rest'.
Proof.
  intros V A R RR. pose proof (relined_cr_end _ _ (relined_sym _ _ R)) as NC. destruct x as [| |ty| | |q text off]; cbn [separated] in *; try exact I.
  - destruct rest' as [|c r'] eqn:ER; [left; split; [|tauto]; intros (c & r & E & _); discriminate|]. rewrite <- ER in *.
    destruct (N.eq_dec c 13) as [->|N2]; [|].
    + right. rewrite ER in RR. apply relined_sym, relined_cr in RR. destruct RR as (s0 & n & t' & -> & _). exists s0. exact ER.
    + left. split; [|tauto]. intros (c0 & r0 & E & W). rewrite ER in E. injection E as <- <-. destruct (N.eq_dec c 10) as [->|N1]; [exact (word_breaks W)|].
      rewrite ER in RR. apply relined_sym, relined_cons in RR; [|assumption..]. destruct RR as (t' & -> & _). destruct A as [[A _]|(r & A)]; [|congruence]. apply A. exists c, t'. auto.
  - destruct A as [-> |A]; [left; exact (relined_nil _ RR)|]. right.
    assert (X : at_break rest') by (apply (relined_break _ _ RR); rewrite at_break_iff; tauto). rewrite at_break_iff in X. tauto.
  - intros H ST. apply relined_sym in RR. assert (D : eq (delim q) 10 <-> eq (delim q) 13) by (destruct q; cbn; split; discriminate).
    apply A; [|exact (relined_starts _ _ _ RR D ST)]. destruct H as [H| ->]; [left; exact H|right]. apply relined_sym, relined_same in R; [exact R|destruct q; cbn; lia].
Qed.
Lemma pieces_relined : forall ts text, Forall LexSpec.valid ts -> all_separated ts -> relined (source ts) text ->
  exists ts', source ts' = text /\ Forall LexSpec.valid ts' /\ all_separated ts' /\ Forall2 same_tile ts ts'.
Proof.
  induction ts as [|[x s] ts IH]; intros text V A R.
  - apply relined_nil in R. subst. exists []. split; [reflexivity|]. split; [constructor|]. split; [exact I|constructor].
  - cbn [all_separated] in A. destruct A as [A1 A2]. pose proof (Forall_inv V) as V1. pose proof (Forall_inv_tail V) as V2.
    change (source ((x, s) :: ts)) with (s ++ source ts) in R. apply relined_split in R; [|exact (valid_cr _ _ _ V1 A1)]. destruct R as (s' & r' & -> & R1 & R2).
    destruct (IH r' V2 A2 R2) as (ts' & E & V' & A' & F). destruct (tile_relined _ _ _ V1 R1) as [VX SX]. exists ((x, s') :: ts').
    split; [cbn; rewrite <- E; reflexivity|]. split; [constructor; assumption|]. split; [|constructor; assumption]. split; [|exact A']. rewrite E. exact (separated_relined _ _ _ _ _ V1 A1 R1 R2).
Qed.

(** ** Grammar *)
Notation sames := (Forall2 same_tile).
Lemma sames_app a b ts : sames (a ++ b) ts -> exists a' b', ts = a' ++ b' /\ sames a a' /\ sames b b'.
Proof. intros H. apply Forall2_app_inv_l in H. destruct H as (a' & b' & A & B & ->). eauto. Qed.
Lemma sames_cons x b ts : sames (x :: b) ts -> exists y b', ts = y :: b' /\ same_tile x y /\ sames b b'.
Proof. intros H. inversion H; subst. eauto. Qed.
Lemma sames_nil ts : sames [] ts -> ts = [].
Proof. intros H. inversion H. reflexivity. Qed.
Ltac parts := repeat match goal with
  | H : sames (_ ++ _) _ |- _ => apply sames_app in H; let a := fresh "a" in let b := fresh "b" in let h := fresh "H" in destruct H as (a & b & -> & h & H)
  | H : sames (_ :: _) _ |- _ => apply sames_cons in H; let a := fresh "y" in let b := fresh "b" in let h := fresh "H" in destruct H as (a & b & -> & h & H)
  | H : sames [] _ |- _ => apply sames_nil in H; subst
  end.
Lemma same_all (P : lexeme -> Prop) w w' : sames w w' -> Forall (fun x => P (fst x)) w -> Forall (fun x => P (fst x)) w'.
Proof. induction 1 as [|x y w w' [E _] _ IH]; intros F; [constructor|]. inversion F; subst. constructor; [rewrite <- E; assumption|auto]. Qed.
Lemma same_blanks w w' : sames w w' -> blanks w -> blanks w'.
Proof. exact (same_all (fun x => x = XBlank) w w'). Qed.
Lemma same_trivia w w' : sames w w' -> trivia w -> trivia w'.
Proof. exact (same_all (fun x => x = XBlank \/ x = XNewline \/ x = XComment) w w'). Qed.
Lemma same_punct ty x y : same_tile x y -> is_punct ty x -> is_punct ty y.
Proof. intros [E _] H. unfold is_punct in *. congruence. Qed.
Lemma same_blank x y : same_tile x y -> is_blank x -> is_blank y.
Proof. intros [E _] H. unfold is_blank in *. congruence. Qed.
Lemma same_ident x y k : same_tile x y -> g_ident x k -> g_ident y k.
Proof.
  intros [E Q] H. destruct H as [s B|q text off s M]; destruct y as [y s']; cbn in E, Q; subst.
  - apply gi_bare. exact B.
  - apply gi_quoted. exact M.
Qed.
Lemma same_key ts k : g_key ts k -> forall ts', sames ts ts' -> g_key ts' k.
Proof.
  induction 1 as [x k H|x k w1 d w2 ts ks H B1 P B2 _ IH]; intros ts' F; parts.
  - apply gk_one. eapply same_ident; eassumption.
  - apply gk_dot; eauto using same_ident, same_blanks, same_punct.
Qed.
Lemma same_lit ts t ts' : sames ts ts' -> g_lit ts t -> g_lit ts' t.
Proof.
  intros F ((s & r & E) & W & S0). split; [|].
  - subst ts. parts. destruct H as [E Q]. cbn in E, Q. destruct y as [y s']. cbn in *. subst. eauto.
  - clear E r s. subst t. induction F as [|x y ts ts' [E Q] _ IH]; [split; [constructor|reflexivity]|]. inversion W as [|? ? W1 W2]; subst. destruct (IH W2) as [I1 I2]. split.
    + constructor; [|exact I1]. destruct W1 as [W1|W1]; [left|right]; unfold is_punct in *; congruence.
    + cbn. f_equal; [|exact I2]. destruct x as [x s], y as [y s']. cbn in *. subst y. destruct W1 as [W1|W1]; cbn in W1; unfold is_punct in W1; cbn in W1; subst x; symmetry; exact Q.
Qed.
Lemma same_values :
  (forall ts v, g_value ts v -> forall ts', sames ts ts' -> g_value ts' v) /\
  (forall ts vs, g_elems ts vs -> forall ts', sames ts ts' -> g_elems ts' vs) /\
  (forall ts fs, g_fields ts fs -> forall ts', sames ts ts' -> g_fields ts' fs).
Proof.
  apply (g_all_ind (fun ts v _ => forall ts', sames ts ts' -> g_value ts' v) (fun ts vs _ => forall ts', sames ts ts' -> g_elems ts' vs) (fun ts fs _ => forall ts', sames ts ts' -> g_fields ts' fs)).
  - intros q text off s ts' F. parts. destruct H as [E _]. destruct y as [y s']. cbn in E. subst. apply gv_string.
  - intros ts t v G S0 ts' F. eapply gv_scalar; [eapply same_lit; eassumption|exact S0].
  - intros ta a b tb t v G B G' S0 ts' F. parts. eapply gv_spaced; eauto using same_lit, same_blank.
  - intros l r ts vs P1 P2 _ IH ts' F. parts. apply gv_array; eauto using same_punct.
  - intros l r w P1 P2 B ts' F. parts. apply gv_empty_table; eauto using same_punct, same_blanks.
  - intros l r ts fs P1 P2 _ IH ts' F. parts. apply gv_table; eauto using same_punct.
  - intros w T ts' F. apply ge_nil. eapply same_trivia; eassumption.
  - intros w1 ts v w2 T1 _ IH T2 ts' F. parts. apply ge_last; eauto using same_trivia.
  - intros w1 ts v w2 c ts' vs T1 _ IH T2 P _ IH' ts2 F. parts. apply ge_cons; eauto using same_trivia, same_punct.
  - intros w1 kt k w2 e w3 ts v w4 B1 K B2 P B3 _ IH B4 ts' F. parts. apply gf_last; eauto using same_blanks, same_punct, same_key.
  - intros w1 kt k w2 e w3 ts v w4 c ts' fs B1 K B2 P B3 _ IH B4 P2 _ IH' ts2 F. parts. apply gf_cons; eauto using same_blanks, same_punct, same_key.
Qed.
Lemma same_stmt ts s ts' : g_stmt ts s -> sames ts ts' -> g_stmt ts' s.
Proof.
  intros G F. destruct same_values as (SV & _ & _). destruct G as [kt k w1 e w2 ts v K B1 P B2 GV|l w1 kt k w2 r P1 B1 K B2 P2|l l' w1 kt k w2 r r' P1 P2 B1 K B2 P3 P4]; parts.
  - apply gs_assign; eauto using same_key, same_blanks, same_punct.
  - apply gs_table; eauto using same_key, same_blanks, same_punct.
  - apply gs_array; eauto using same_key, same_blanks, same_punct.
Qed.
Lemma same_line ts s ts' : g_line ts s -> sames ts ts' -> g_line ts' s.
Proof.
  intros G F. destruct G as [w B|w1 ts s w2 B1 G B2]; parts.
  - apply gl_empty. eapply same_blanks; eassumption.
  - apply gl_stmt; eauto using same_stmt, same_blanks.
Qed.
Lemma same_comment ts ts' : g_comment ts -> sames ts ts' -> g_comment ts'.
Proof.
  intros G F. destruct G as [|s]; parts; [apply gc_none|]. destruct H as [E _]. destruct y as [y s']. cbn in E. subst. apply gc_some.
Qed.
Lemma same_docs ts d : g_doc ts d -> forall ts', sames ts ts' -> g_doc ts' d.
Proof.
  induction 1 as [ts s c G C|ts s c n ts2 d G C _ IH]; intros ts' F; parts.
  - apply gd_last; eauto using same_line, same_comment.
  - match goal with H : same_tile (XNewline, _) ?y |- _ => destruct H as [E _]; destruct y as [y s']; cbn in E; subst y end. apply gd_line; eauto using same_line, same_comment.
Qed.

(** ** Theorems *)

(** Texts that differ in the ends of their lines only say the same. *)
Theorem C78_documents text text' d : relined text text' -> toml_doc text d -> toml_doc text' d.
Proof.
  intros R (ts & (S0 & V & A) & G & NE). subst text. destruct (pieces_relined _ _ V A R) as (ts' & E & V' & A' & F).
  exists ts'. split; [split; [exact E|auto]|]. split; [exact (same_docs _ _ G _ F)|exact NE].
Qed.
Lemma relined_scalars t t' : relined t t' -> scalars t -> scalars t'.
Proof.
  unfold scalars. induction 1 as [|c s t A1 A2 _ IH|n n' s t A1 A2 _ IH]; intros F; [exact F| |].
  - inversion F; subst. constructor; auto.
  - apply Forall_app in F as [_ F]. apply Forall_app. split; [|auto]. destruct A2 as [-> | ->]; repeat constructor; reflexivity.
Qed.
Lemma C78_documents_iff text text' d : relined text text' -> (toml_doc text d <-> toml_doc text' d).
Proof. intros R. split; apply C78_documents; [exact R|apply relined_sym; exact R]. Qed.
(** The tool accepts both or neither, and prints the same value for both. *)
Theorem C78_output width prof text text' v : relined text text' -> scalars text ->
  (ctoml width prof Validate text = Ok (v, []) <-> ctoml width prof Validate text' = Ok (v, [])).
Proof.
  intros R SC. rewrite (C65_silent_exactly_on_valid_toml _ _ _ _ SC), (C65_silent_exactly_on_valid_toml _ _ _ _ (relined_scalars _ _ R SC)).
  split; intros (d & T & H); exists d; (split; [apply (C78_documents_iff _ _ d R); exact T|exact H]).
Qed.
Lemma settled_relined prof text text' v : relined text text' -> settled prof text v -> settled prof text' v.
Proof. intros R [->|[SC H]]; [left; reflexivity|right]. split; [exact (relined_scalars _ _ R SC)|exact H]. Qed.
(** A manifest is fine in both or in neither. *)
Theorem C78_manifest width prof text text' v : relined text text' -> scalars text -> settled prof text (STable v) ->
  (ctoml width prof Check text = Ok (v, []) <-> ctoml width prof Check text' = Ok (v, [])).
Proof.
  intros R SC ST. rewrite (C75_silent_exactly_on_fine_manifests _ _ _ _ SC ST), (C75_silent_exactly_on_fine_manifests _ _ _ _ (relined_scalars _ _ R SC) (settled_relined _ _ _ _ R ST)).
  split; intros (d & T & H); exists d; (split; [apply (C78_documents_iff _ _ d R); exact T|exact H]).
Qed.
Lemma same_names {A B} (f : A -> B) : forall l l', map f l = map f l' -> NoDup (map f l) -> (forall x, In x l -> In x l') -> l = l'.
Proof.
  induction l as [|x l IH]; intros [|y l'] E ND H; try discriminate; [reflexivity|]. cbn [map] in *. injection E as E1 E2. inversion ND as [|? ? N1 N2]; subst.
  assert (X : x = y).
  { destruct (H x (or_introl eq_refl)) as [X|X]; [auto|]. exfalso. apply N1. rewrite E2. apply in_map. exact X. }
  subst y. f_equal. apply IH; [exact E2|exact N2|]. intros z Z. destruct (H z (or_intror Z)) as [W|W]; [|exact W]. subst z. exfalso. apply N1. apply in_map. exact Z.
Qed.
(** Two texts that say the same declare the same dependencies, in the same
    order. *)
Theorem same_dependencies prof text text' d v a m deps ds a' m' deps' ds' : toml_doc text d -> toml_doc text' d -> consistent d -> means d v -> settled prof text v -> settled prof text' v ->
  lex_and_parse text = Ok (a, []) -> map_doc (as_asts a) = Ok (m, []) -> check prof m = Ok (deps, ds) ->
  lex_and_parse text' = Ok (a', []) -> map_doc (as_asts a') = Ok (m', []) -> check prof m' = Ok (deps', ds') ->
  map dep_data deps = map dep_data deps'.
Proof.
  intros T T' C ME ST ST' P M E P' M' E'.
  assert (MA : manifest text m) by (exists a, [], []; auto). assert (MA' : manifest text' m') by (exists a', [], []; auto).
  assert (SV : v = STable (map_simple m)).
  { destruct (C64_meaning _ _ T) as (a0 & m0 & es0 & P0 & M0 & CI & U). rewrite P in P0. injection P0 as <-. rewrite M in M0. injection M0 as <- <-. apply (U C). exact ME. }
  assert (SV' : v = STable (map_simple m')).
  { destruct (C64_meaning _ _ T') as (a0 & m0 & es0 & P0 & M0 & CI & U). rewrite P' in P0. injection P0 as <-. rewrite M' in M0. injection M0 as <- <-. apply (U C). exact ME. }
  rewrite SV in ST. pose proof (C74_dependencies _ _ _ _ _ MA E ST) as (pl & EQ & _ & IN).
  rewrite SV' in ST'. pose proof (C74_dependencies _ _ _ _ _ MA' E' ST') as (pl' & EQ' & _ & IN').
  apply (same_names (fun d => (md_kind d, md_target d, md_name d))).
  - rewrite (C74_order _ _ _ _ _ MA E), (C74_order _ _ _ _ _ MA' E'). congruence.
  - exact (C74_names_once _ _ _ _ _ MA E).
  - rewrite EQ, EQ'. intros x X. apply in_map_iff in X. destruct X as ([p y] & <- & X). apply IN in X. rewrite <- SV, SV' in X. apply IN' in X. apply in_map_iff. exists (p, y). auto.
Qed.
(** A valid document declares the same dependencies, in the same order. *)
Theorem C78_dependencies prof text text' d v a m deps ds a' m' deps' ds' : relined text text' -> toml_doc text d -> consistent d -> means d v -> settled prof text v ->
  lex_and_parse text = Ok (a, []) -> map_doc (as_asts a) = Ok (m, []) -> check prof m = Ok (deps, ds) ->
  lex_and_parse text' = Ok (a', []) -> map_doc (as_asts a') = Ok (m', []) -> check prof m' = Ok (deps', ds') ->
  map dep_data deps = map dep_data deps'.
Proof. intros R T C ME ST. exact (same_dependencies _ _ _ _ _ _ _ _ _ _ _ _ _ T (C78_documents _ _ _ R T) C ME ST (settled_relined _ _ _ _ R ST)). Qed.
(** Whether there are syntax errors does not depend on line ends either. *)
Theorem C78_accepted text text' : relined text text' -> ((exists a, lex_and_parse text = Ok (a, [])) <-> exists a, lex_and_parse text' = Ok (a, [])).
Proof.
  assert (H : forall t t', relined t t' -> (exists a, lex_and_parse t = Ok (a, [])) -> exists a, lex_and_parse t' = Ok (a, [])).
  { intros t t' R (a & P). destruct (C34_accepted_documents _ _ P) as (d & T & _). destruct (C34_toml_documents _ _ (C78_documents _ _ _ R T)) as (a' & P' & _). eauto. }
  intros R. split; apply H; [exact R|apply relined_sym; exact R].
Qed.

(** Turning each LF into CR LF. *)
Definition crlf (text : list N) : list N := flat_map (fun c => if c =? 10 then [13; 10] else [c]) text.
Theorem C78_crlf text : ~ In 13 text -> relined text (crlf text).
Proof.
  induction text as [|c s IH]; intros NI; [apply rl_nil|]. cbn [crlf flat_map]. assert (R : relined s (crlf s)) by (apply IH; intros H; apply NI; right; exact H). destruct (c =? 10) eqn:E.
  - apply N.eqb_eq in E. subst c. apply (rl_end [10] [13; 10]); [left|right|]; try reflexivity. exact R.
  - apply N.eqb_neq in E. apply rl_char; [exact E|intros ->; apply NI; left; reflexivity|exact R].
Qed.

(** ** Examples *)

(** A document with comments, blank lines and strings of several lines. *)
Definition lines_example : list N :=
  bs "# c" ++ nl ++ nl ++ bs "[dependencies] # d" ++ nl ++ bs "a = '1.2'" ++ nl ++ bs "b = { version = " ++ [39; 39; 39; 10] ++ bs "1" ++ [39; 39; 39] ++ bs ", features = [ # e" ++ [10] ++ bs "'f'," ++ [10] ++
  [34; 34; 34] ++ bs "x\" ++ [32; 10; 10] ++ bs "  y" ++ [10] ++ bs "z" ++ [34; 34; 34; 10] ++ bs "] }" ++ nl.
Lemma no_cr text : forallb (fun c => negb (c =? 13)) text = true -> ~ In 13 text.
Proof. intros F H. apply (proj1 (forallb_forall _ _) F) in H. discriminate. Qed.
Example C78_example : relined lines_example (crlf lines_example) /\ lines_example <> crlf lines_example /\ scalars lines_example /\
  exists v, ctoml ascii Debug Check lines_example = Ok (v, []) /\ ctoml ascii Debug Check (crlf lines_example) = Ok (v, []) /\
    sval_at [SKey (bs "dependencies"); SKey (bs "b")] (STable v) = Some (STable [(bs "version", SString (bs "1")); (bs "features", SArray [SString (bs "f"); SString (bs "xy" ++ [10] ++ bs "z")])]).
Proof.
  split; [apply C78_crlf, no_cr; vm_compute; reflexivity|]. split; [intros H; apply (f_equal (@length N)) in H; vm_compute in H; discriminate H|]. split; [all_ascii|].
  eexists. split; [vm_compute; reflexivity|]. split; [vm_compute; reflexivity|]. vm_compute. reflexivity.
Qed.
(** On documents with errors line ends do matter: the tool crashes on one of
    these and not on the other. *)
Theorem C78_errors_refuted : exists text text' x, relined text text' /\ scalars text /\ ctoml ascii Release Validate text = Ok x /\ ctoml ascii Release Validate text' = Panic.
Proof.
  assert (E : exists x, ctoml ascii Release Validate (bs "a = 'b" ++ nl) = Ok x) by (eexists; vm_compute; reflexivity). destruct E as (x & E).
  exists (bs "a = 'b" ++ nl), (crlf (bs "a = 'b" ++ nl)), x. split; [apply C78_crlf, no_cr; reflexivity|]. split; [all_ascii|]. split; [exact E|vm_compute; reflexivity].
Qed.
(** A carriage return elsewhere is no line end. *)
Theorem C78_other_returns_refuted : exists text x v m ms, text = bs "a = 1 # c" ++ [13; 13; 10] /\ ctoml ascii Debug Validate (bs "a = 1 # c" ++ [13; 10]) = Ok (x, []) /\
  ctoml ascii Debug Validate text = Ok (v, m :: ms).
Proof. do 5 eexists. split; [reflexivity|]. split; [vm_compute; reflexivity|vm_compute; reflexivity]. Qed.

Print Assumptions C78_documents.
Print Assumptions C78_output.
Print Assumptions C78_manifest.
Print Assumptions C78_dependencies.
Print Assumptions C78_accepted.
Print Assumptions C78_crlf.
