(** A document that starts with valid pieces, the last of them a line break,
    and goes on with anything: the pieces at the start are read as they are. *)
From Verif Require Import Base BaseProofs CommonModel TomlError LitModel LexModel LexSpec LexBase LexStr LexQuote LexEsc LexUni LexLoop LexSound LexMain LexTop LexCStr LexCMain.

Definition ends_line (ts : list tile) : Prop := ts = [] \/ exists a n, ts = a ++ [(XNewline, n)].
Lemma ends_line_tail x ts : ends_line (x :: ts) -> ends_line ts /\ (ts = [] -> fst x = XNewline).
Proof.
  intros [E|(a & n & E)]; [discriminate|]. destruct a as [|y a]; cbn in E; injection E as -> ->.
  - split; [left; reflexivity|reflexivity].
  - split; [right; exists a, n; reflexivity|]. intros H. destruct a; discriminate.
Qed.
Lemma ends_line_app a b : b <> [] -> ends_line (a ++ b) -> ends_line b.
Proof. intros NE. induction a as [|x a IH]; intros H; [exact H|]. apply IH. exact (proj1 (ends_line_tail _ _ H)). Qed.
Lemma source_nonempty ts : Forall valid ts -> ts <> [] -> source ts <> [].
Proof. intros V NE. destruct ts as [|[x s] ts]; [congruence|]. apply Forall_inv in V. apply valid_nonempty in V. cbn. intros H. apply app_eq_nil in H. tauto. Qed.

(** What is after a piece of a line does not depend on what is below. *)
Lemma starts_app P a b : a <> [] -> (starts_with P (a ++ b) <-> starts_with P a).
Proof. intros NE. destruct a as [|c a]; [congruence|]. cbn [app]. rewrite !starts_with_cons. tauto. Qed.
Lemma separated_below x rest g : rest <> [] -> separated x rest -> separated x (rest ++ g).
Proof.
  intros NE. destruct x as [[| |ty| | |q text off] s]; cbn [separated]; try tauto.
  - intros [[A B]|(r & ->)]; [left|right; exists (r ++ g); reflexivity]. rewrite !starts_app by exact NE. auto.
  - intros [E|[[A B]|(r & ->)]]; [congruence| |right; right; exists (r ++ g); reflexivity]. right. left. rewrite starts_app by exact NE. auto.
  - intros H M. rewrite starts_app by exact NE. exact (H M).
Qed.
Lemma seps_below ts g : Forall valid ts -> ends_line ts -> all_separated ts -> seps ts g.
Proof.
  induction ts as [|x ts IH]; intros V E A; [exact I|]. destruct (ends_line_tail _ _ E) as [E1 E2]. destruct A as [A1 A2]. pose proof (Forall_inv_tail V) as V2. split; [|apply IH; assumption].
  destruct ts as [|y ts].
  - specialize (E2 eq_refl). destruct x as [x s]. cbn in E2. subst x. exact I.
  - apply separated_below; [|exact A1]. apply source_nonempty; [exact V2|discriminate].
Qed.

Lemma starts_lf_tile_g ts g : Forall valid ts -> ts <> [] -> starts_with (eq 10) (source ts ++ g) -> exists ts', ts = (XNewline, [10]) :: ts'.
Proof. intros V NE H. rewrite starts_app in H; [|apply source_nonempty; assumption]. exact (starts_lf_tile _ V H). Qed.
Lemma starts_crlf_tile_g ts g : Forall valid ts -> seps ts g -> ts <> [] -> (exists r, source ts ++ g = 13 :: 10 :: r) -> exists ts', ts = (XNewline, [13; 10]) :: ts'.
Proof.
  intros V S NE0 (r & E). destruct ts as [|(x, s) ts]; [congruence|].
  pose proof (Forall_inv V) as V1. pose proof (valid_nonempty _ _ V1) as NE.
  destruct s as [|c s]; [congruence|]. cbn [seps] in S. destruct S as [S1 S2].
  cbn in E. injection E as -> E.
  destruct x; cbn in V1.
  - destruct V1; discriminate.
  - destruct V1 as [H|H]; [discriminate|]. injection H as ->. exists ts; reflexivity.
  - destruct V1 as (c & PU & E1). injection E1 as <- _. unfold punct in PU. cbn in PU. exfalso. intuition congruence.
  - exfalso. destruct V1 as (_ & W). inversion W as [|? ? W1 W2]; subst.
    destruct s as [|z s]; cbn in E.
    + cbn [separated] in S1. change (concat (map snd ts)) with (source ts) in E. rewrite E in S1. destruct S1 as [(_ & H)|(r' & H)]; [|discriminate].
      apply H; [exists []; reflexivity|]. apply starts_with_cons. reflexivity.
    + injection E as -> _. inversion W2 as [|? ? W3 _]; subst. apply W3. cbn. tauto.
  - destruct V1 as (t & E1 & _). discriminate.
  - destruct V1 as (trim & (b & E1 & _) & _). destruct q; discriminate.
Qed.

Section Input.
Context (input : list N) (g : list N).

Lemma lex_tiles_pre : forall n ts done w lx fuel,
  (length ts <= n)%nat -> Forall valid ts -> seps ts g -> ends_line ts -> (ts = [] -> w = []) -> (w <> [] -> separated (XWord, w) (source ts ++ g)) ->
  input = source done ++ w ++ source ts ++ g -> cst done w (source ts ++ g) lx -> (length (source ts ++ g) < fuel)%nat ->
  exists lx' fuel', lex_loop input fuel lx = lex_loop input fuel' lx' /\ (length g < fuel')%nat /\ cst ((done ++ word_tiles w) ++ ts) [] g lx'.
Proof.
  induction n as [|n IH]; intros ts done w lx fuel LN V S EL EW SW IN C F.
  - destruct ts; [|cbn in LN; lia]. rewrite (EW eq_refl) in *. exists lx, fuel. split; [reflexivity|]. split; [exact F|]. cbn [word_tiles]. rewrite !(app_nil_r done). exact C.
  - destruct ts as [|(x, s) ts].
    { rewrite (EW eq_refl) in *. exists lx, fuel. split; [reflexivity|]. split; [exact F|]. cbn [word_tiles]. rewrite !(app_nil_r done). exact C. }
    cbn [length] in LN. clear EW.
    pose proof (Forall_inv V) as V1. pose proof (Forall_inv_tail V) as V2. cbn [seps] in S. destruct S as [S1 S2]. destruct (ends_line_tail _ _ EL) as [EL1 EL2]. cbn [fst] in EL2.
    assert (SRC0 : source ((x, s) :: ts) ++ g = s ++ source ts ++ g) by (cbn; rewrite <- app_assoc; reflexivity).
    change (source ((x, s) :: ts)) with (s ++ source ts) in *. rewrite <- app_assoc in SW, IN, C, F.
    (* the rest, after the tile is done *)
    assert (NEXT : forall ts' done' lx' fuel', (length ts' <= n)%nat -> Forall valid ts' -> seps ts' g -> ends_line ts' ->
      input = source done' ++ source ts' ++ g -> cst done' [] (source ts' ++ g) lx' -> (length (source ts' ++ g) < fuel')%nat ->
      forall done2, done' ++ ts' = done2 ->
      exists lx2 fuel2, lex_loop input fuel' lx' = lex_loop input fuel2 lx2 /\ (length g < fuel2)%nat /\ cst done2 [] g lx2).
    { intros ts' done' lx' fuel' LN' V' S' EL' IN' C' F' done2 <-.
      destruct (IH ts' done' [] lx' fuel' LN' V' S' EL' ltac:(reflexivity) ltac:(congruence) IN' C' F') as (l2 & f2 & R2 & F2 & C2).
      exists l2, f2. split; [assumption|]. split; [assumption|]. cbn [word_tiles] in C2. rewrite (app_nil_r done') in C2. exact C2. }
    assert (ONE : forall c s' lx1, s = c :: s' -> (forall bp l fuel, lx = mklex (cur_at (source done ++ w) (s ++ source ts ++ g) bp) l (out_of done []) -> lit_ok done w l ->
         (length (s ++ source ts ++ g) < Datatypes.S fuel)%nat ->
         lex_loop input (Datatypes.S fuel) lx = lex_loop input fuel lx1) -> cst ((done ++ word_tiles w) ++ [(x, s)]) [] (source ts ++ g) lx1 ->
      exists lx' fuel', lex_loop input fuel lx = lex_loop input fuel' lx' /\ (length g < fuel')%nat /\ cst ((done ++ word_tiles w) ++ (x, s) :: ts) [] g lx').
    { intros c s' lx1 Es HR C1. destruct C as (bp & l & E & L). destruct fuel as [|fuel]; [lia|].
      rewrite (HR bp l fuel E L F).
      apply (NEXT ts ((done ++ word_tiles w) ++ [(x, s)]) lx1 fuel); auto; [lia| | |].
      - rewrite source_app, source_words, source_one, IN. assoc.
      - rewrite Es in F. cbn [app length] in F. rewrite app_length in F. lia.
      - rewrite <- app_assoc. reflexivity. }
    destruct C as (bp & l & E & L).
    destruct x.
    + (* blank *)
      assert (Hs : exists c, s = [c] /\ (c = 9 \/ c = 32)) by (destruct V1 as [->| ->]; eauto).
      destruct Hs as (c & -> & Hc).
      destruct (step_blank input done w c (source ts ++ g) l Hc IN L) as (lx1 & R & C1).
      apply (ONE c [] lx1 eq_refl); [|assumption].
      intros bp0 l0 f E0 L0 _. rewrite E in E0. rewrite E. cbn [app]. rewrite loop_step, R. reflexivity.
    + (* line break *)
      destruct V1 as [->| ->].
      * destruct (step_newline_lf input done w (source ts ++ g) l IN L) as (lx1 & R & C1).
        apply (ONE 10 [] lx1 eq_refl); [|assumption].
        intros bp0 l0 f E0 L0 _. rewrite E. cbn [app]. rewrite loop_step, R. reflexivity.
      * destruct (step_newline_crlf input done w (source ts ++ g) l IN L) as (lx1 & R & C1).
        apply (ONE 13 [10] lx1 eq_refl); [|assumption].
        intros bp0 l0 f E0 L0 _. rewrite E. cbn [app]. rewrite loop_step, R. reflexivity.
    + (* punctuation *)
      destruct V1 as (c & PU & ->).
      destruct (step_punct input done w ty c (source ts ++ g) l PU IN L) as (lx1 & R & C1).
      apply (ONE c [] lx1 eq_refl); [|assumption].
      intros bp0 l0 f E0 L0 _. rewrite E. cbn [app]. rewrite loop_step, R. reflexivity.
    + (* word *)
      clear ONE. destruct V1 as (NE & W).
      assert (Ew : w = []).
      { destruct w as [|c0 w]; [reflexivity|]. exfalso. specialize (SW ltac:(discriminate)).
        destruct s as [|c s]; [congruence|]. pose proof (Forall_inv W) as W1. pose proof (Forall_inv_tail W) as W2.
        destruct SW as [(SW & _)|(r & SW)].
        - apply SW. cbn [app]. apply starts_with_cons. assumption.
        - destruct (starts_crlf_tile_g ((XWord, c :: s) :: ts) g V (conj S1 S2) ltac:(discriminate)) as (ts' & E'); [exists r; cbn [app source map snd concat]; rewrite <- SW; cbn; rewrite <- app_assoc; reflexivity|discriminate]. }
      subst w.
      assert (CRW : ends_with 13 ([] ++ s) -> ~ starts_with (eq 10) (source ts ++ g)).
      { cbn [app]. intros EW. destruct S1 as [(_ & H)|(r & H)]; [auto|]. rewrite H. rewrite starts_with_cons. lia. }
      destruct (loop_word input s done [] (source ts ++ g) lx fuel W CRW IN) as (lx1 & f1 & R1 & F1 & C1).
      { exists bp, l. auto. }
      { assumption. }
      rewrite R1. cbn [app] in C1.
      destruct (IH ts done s lx1 f1) as (l2 & f2 & R2 & F2 & C2); auto; [lia|intros ->; discriminate (EL2 eq_refl)|].
      exists l2, f2. split; [assumption|]. split; [assumption|].
      destruct s as [|c s]; [congruence|]. cbn [word_tiles] in *. rewrite (app_nil_r done). rewrite <- app_assoc in C2. exact C2.
    + (* comment *)
      clear ONE. destruct V1 as (t & -> & PT).
      assert (TS : ts <> []) by (intros ->; discriminate (EL2 eq_refl)).
      assert (N : exists nlp ts2, ts = (XNewline, nlp) :: ts2 /\ line_break nlp).
      { destruct S1 as [E0|[(E0 & _)|E0]].
        - exfalso. apply app_eq_nil in E0. destruct E0 as [E0 _]. exact (source_nonempty _ V2 TS E0).
        - destruct (starts_lf_tile_g ts g V2 TS E0) as (ts2 & ->). exists [10], ts2. split; [reflexivity|]. left. reflexivity.
        - destruct (starts_crlf_tile_g ts g V2 S2 TS E0) as (ts2 & ->). exists [13; 10], ts2. split; [reflexivity|]. right. reflexivity. }
      destruct N as (nlp & ts2 & -> & HN).
      assert (SR : source ((XNewline, nlp) :: ts2) ++ g = nlp ++ source ts2 ++ g) by (cbn; rewrite <- app_assoc; reflexivity).
      rewrite SR in *.
      assert (NN : nlp <> []) by (destruct HN as [-> | ->]; discriminate).
      destruct (step_comment input done w t nlp (source ts2 ++ g) l PT (or_intror HN)) as (lx1 & R & C1); [rewrite IN; assoc|assumption|].
      destruct fuel as [|fuel]; [lia|]. rewrite E. cbn [app]. rewrite loop_step, R. cbn [bind].
      assert (EM : match nlp with [] => [] | _ :: _ => [(XNewline, nlp)] end = [(XNewline, nlp)]) by (destruct nlp; [congruence|reflexivity]). rewrite EM in C1.
      apply (NEXT ts2 ((done ++ word_tiles w) ++ [(XComment, 35 :: t); (XNewline, nlp)])).
      * cbn [length] in LN. lia.
      * exact (Forall_inv_tail V2).
      * cbn [seps] in S2. tauto.
      * exact (proj1 (ends_line_tail _ _ EL1)).
      * rewrite source_app, source_words, IN. change (source [(XComment, 35 :: t); (XNewline, nlp)]) with ((35 :: t) ++ nlp ++ []). rewrite app_nil_r. assoc.
      * assumption.
      * clear - F. cbn [app length] in F. repeat rewrite app_length in *. lia.
      * rewrite <- app_assoc. reflexivity.
    + (* string *)
      destruct (step_string input done w q text off s (source ts ++ g) l V1 S1 IN L) as (c & s' & lx1 & -> & R & C1).
      apply (ONE c s' lx1 eq_refl); [|assumption].
      intros bp0 l0 f E0 L0 _. rewrite E. cbn [app]. rewrite loop_step, R. reflexivity.
Qed.
End Input.

Theorem lex_prefix ts g : Forall valid ts -> Forall shape ts -> all_separated ts -> ends_line ts ->
  exists more es, source (ts ++ more) = source ts ++ g /\ Forall shape (ts ++ more) /\ all_separated (ts ++ more) /\
    lex (source ts ++ g) = Ok (tokens_of (ts ++ more), es) /\ Forall (errok (source ts ++ g)) es /\ (es = [] -> Forall valid (ts ++ more)).
Proof.
  intros V SH A EL. pose proof (seps_below _ g V EL A) as SB. set (input := source ts ++ g).
  destruct (lex_tiles_pre input g (length ts) ts [] [] (lexer_new input) (Datatypes.S (length input))) as (lx & f & R & F & C); auto.
  - congruence.
  - exists 0, (mklit false pos_zero 0). split; [reflexivity|]. split; [reflexivity|congruence].
  - cbn [word_tiles app] in C.
    assert (B0 : between input ts [] g [] lx).
    { split; [|exact C]. split; [reflexivity|]. split; [constructor|]. split; [intros (r & E); destruct r; discriminate|]. split; [exact SH|]. split; [exact SB|]. split; [constructor|]. auto. }
    destruct (lex_loop_between input f ts [] g [] lx F B0) as (d & w & es & (more & ->) & ((IN & W & CL & G) & _) & l & L & R2).
    unfold lex. rewrite R, R2. cbn [bind].
    destruct (end_literal_eq input _ w l es (cur_at (source (ts ++ more) ++ w) [] (tlen (source (ts ++ more) ++ w))) [] IN L eq_refl) as (l' & _ & RE).
    rewrite RE. cbn [bind]. rewrite lpos_end. cbn [bind lx_out out_of o_tokens o_strings o_literals o_errors].
    assert (G1 : good input ((ts ++ more) ++ word_tiles w) [] es).
    { apply good_words; auto. intros _. left. split; [apply starts_with_nil|intros _; apply starts_with_nil]. }
    destruct G1 as (G1 & G2 & G3 & G4). rewrite <- app_assoc in *.
    exists (more ++ word_tiles w), es. split; [rewrite app_assoc, source_words, IN, app_nil_r; reflexivity|]. split; [assumption|].
    split; [apply seps_all; assumption|]. split; [|split; assumption].
    unfold tokens_of. rewrite (app_assoc ts more), source_words. reflexivity.
Qed.
