(** C71: the command line tool. *)
From Verif Require Import Base BaseProofs CommonModel LexModel ParseModel MapModel DisplayModel CliModel CliSpec MainModel MainSpec PropIde PropCli.

(** ** File names *)
Lemma pieces_slash : forall a cur acc r, pieces cur acc (a ++ 47 :: r) = pieces [] (pieces cur acc a) r.
Proof.
  induction a as [|c a IH]; intros cur acc r; cbn [app pieces]; [reflexivity|]. destruct (c =? 47); apply IH.
Qed.
Lemma pieces_acc : forall p cur acc, pieces cur acc p = pieces cur [] p ++ acc.
Proof.
  induction p as [|c p IH]; intros cur acc; cbn [pieces]; [reflexivity|]. destruct (c =? 47); [|apply IH].
  rewrite (IH [] (rev cur :: acc)), (IH [] [rev cur]). rewrite <- app_assoc. reflexivity.
Qed.
Lemma pieces_one : forall s cur acc, ~ In 47 s -> pieces cur acc s = (rev cur ++ s) :: acc.
Proof.
  induction s as [|c s IH]; intros cur acc N0; cbn [pieces]; [rewrite app_nil_r; reflexivity|].
  destruct (N.eqb_spec c 47) as [->|NE]; [exfalso; apply N0; left; reflexivity|]. rewrite IH by (intros H; apply N0; right; exact H). cbn [rev]. rewrite <- app_assoc. reflexivity.
Qed.
Definition real_pieces (p : list N) : list (list N) := filter (fun s => negb (empty_or_dot s)) (pieces [] [] p).
Lemma real_slash a s : ~ In 47 s -> real_pieces (a ++ 47 :: s) = (if empty_or_dot s then [] else [s]) ++ real_pieces a.
Proof.
  intros N0. unfold real_pieces. rewrite pieces_slash, pieces_one by exact N0. cbn [rev app filter]. destruct (empty_or_dot s); reflexivity.
Qed.
Lemma real_one s : ~ In 47 s -> real_pieces s = if empty_or_dot s then [] else [s].
Proof. intros N0. unfold real_pieces. rewrite pieces_one by exact N0. cbn [rev app filter]. destruct (empty_or_dot s); reflexivity. Qed.
Lemma dot_no_slash : ~ In 47 [46].
Proof. intros [H|[]]; discriminate. Qed.
Lemma real_nothing b : nothing b -> forall x, real_pieces (x ++ b) = real_pieces x.
Proof.
  induction 1 as [|r H IH|r H IH]; intros x; [rewrite app_nil_r; reflexivity| |].
  - replace (x ++ 47 :: r) with ((x ++ [47]) ++ r) by (rewrite <- app_assoc; reflexivity). rewrite IH. exact (real_slash x [] (fun h => h)).
  - replace (x ++ 47 :: 46 :: r) with ((x ++ [47; 46]) ++ r) by (rewrite <- app_assoc; reflexivity). rewrite IH. exact (real_slash x [46] dot_no_slash).
Qed.
Lemma nothing_app a b : nothing a -> nothing b -> nothing (a ++ b).
Proof. induction 1 as [|r H IH|r H IH]; intros H0; [exact H0|apply no_slash; auto|apply no_dot; auto]. Qed.
Lemma last_piece p : ~ In 47 p \/ exists a s, p = a ++ 47 :: s /\ ~ In 47 s.
Proof.
  induction p as [|c p [N0|(a & s & -> & N0)]]; [left; intros []| |right; exists (c :: a), s; auto].
  destruct (N.eq_dec c 47) as [->|NE]; [right; exists [], p; auto|left; intros [H|H]; [congruence|exact (N0 H)]].
Qed.
Lemma empty_or_dot_spec s : empty_or_dot s = true <-> s = [] \/ s = bs ".".
Proof.
  split.
  - destruct s as [|c [|d s]]; [auto| |]; cbn [empty_or_dot].
    + destruct (N.eq_dec c 46) as [->|NE]; [right; reflexivity|]. intros H. exfalso.
      destruct c as [|p]; [discriminate|]. repeat (destruct p as [p|p|]; try discriminate). apply NE. reflexivity.
    + intros H. exfalso. destruct c as [|p]; [discriminate|]. repeat (destruct p as [p|p|]; try discriminate).
  - intros [-> | ->]; reflexivity.
Qed.
Lemma real_head p : match real_pieces p with
  | [] => nothing p \/ nothing (47 :: p)
  | n :: _ => n <> [] /\ n <> bs "." /\ ~ In 47 n /\ exists a b, p = a ++ n ++ b /\ (a = [] \/ exists a', a = a' ++ [47]) /\ nothing b
  end.
Proof.
  remember (length p) as k eqn:L. assert (LE : (length p <= k)%nat) by lia. clear L. revert p LE.
  induction k as [|k IH]; intros p LE.
  - destruct p; [|cbn in LE; lia]. left. constructor.
  - destruct (last_piece p) as [N0|(a & s & -> & N0)].
    + rewrite real_one by exact N0. destruct (empty_or_dot p) eqn:D.
      * apply empty_or_dot_spec in D. destruct D as [-> | ->]; [left; constructor|right; apply no_dot; constructor].
      * assert (NE : ~ (p = [] \/ p = bs ".")) by (intros H; apply empty_or_dot_spec in H; congruence).
        split; [tauto|]. split; [tauto|]. split; [exact N0|]. exists [], []. rewrite app_nil_r. split; [reflexivity|]. split; [left; reflexivity|constructor].
    + rewrite real_slash by exact N0. destruct (empty_or_dot s) eqn:D.
      * cbn [app]. rewrite app_length in LE. cbn [length] in LE. specialize (IH a). assert (LA : (length a <= k)%nat) by lia. specialize (IH LA).
        assert (NS : nothing (47 :: s)) by (apply empty_or_dot_spec in D; destruct D as [-> | ->]; [apply no_slash|apply no_dot]; constructor).
        destruct (real_pieces a) as [|n l].
        -- destruct IH as [IH|IH]; [left|right; change (47 :: a ++ 47 :: s) with ((47 :: a) ++ 47 :: s)]; apply nothing_app; assumption.
        -- destruct IH as (H1 & H2 & H3 & a0 & b0 & -> & H4 & H5). do 3 (split; [assumption|]). exists a0, (b0 ++ 47 :: s).
           split; [rewrite <- !app_assoc; reflexivity|]. split; [exact H4|apply nothing_app; assumption].
      * cbn [app]. assert (NE : ~ (s = [] \/ s = bs ".")) by (intros H; apply empty_or_dot_spec in H; congruence).
        split; [tauto|]. split; [tauto|]. split; [exact N0|]. exists (a ++ [47]), []. rewrite app_nil_r, <- app_assoc. split; [reflexivity|]. split; [right; eauto|constructor].
Qed.
Lemma named_head p n a b : n <> [] -> n <> bs "." -> ~ In 47 n -> p = a ++ n ++ b -> (a = [] \/ exists a', a = a' ++ [47]) -> nothing b ->
  exists l, real_pieces p = n :: l.
Proof.
  intros H1 H2 H3 -> A B. rewrite app_assoc, real_nothing by exact B.
  assert (D : empty_or_dot n = false) by (destruct (empty_or_dot n) eqn:D; [apply empty_or_dot_spec in D; tauto|reflexivity]).
  destruct A as [-> |(a' & ->)]; [exists []; cbn [app]; rewrite real_one, D by exact H3; reflexivity|].
  exists (real_pieces a'). rewrite <- app_assoc. cbn [app]. rewrite real_slash, D by exact H3. reflexivity.
Qed.
Lemma file_name_spec p : match file_name p with Some n => file_named p n | None => forall n, ~ file_named p n end.
Proof.
  assert (D : forall x : list N, {x = [46; 46]} + {x <> [46; 46]}) by (intros x; apply list_eq_dec, N.eq_dec).
  assert (E : file_name p = match real_pieces p with [] => None | n :: _ => if D n then None else Some n end).
  { unfold file_name. fold (real_pieces p). destruct (real_pieces p) as [|n l]; [reflexivity|].
    destruct (D n) as [-> |NE]; [reflexivity|].
    destruct n as [|c [|d [|e n]]]; try reflexivity; repeat (try reflexivity; match goal with |- context [match ?x with _ => _ end] => is_var x; destruct x; try reflexivity end); congruence. }
  rewrite E. pose proof (real_head p) as H. destruct (real_pieces p) as [|n l] eqn:R.
  - intros n ((N1 & N2 & N3 & N4) & a & b & P & A & B). destruct (named_head p n a b N1 N2 N4 P A B) as (l & X). congruence.
  - destruct H as (H1 & H2 & H3 & a & b & P & A & B). destruct (D n) as [-> |NE].
    + intros n ((N1 & N2 & N3 & N4) & a0 & b0 & P0 & A0 & B0). destruct (named_head p n a0 b0 N1 N2 N4 P0 A0 B0) as (l0 & X). rewrite R in X. injection X as <- _. apply N3. reflexivity.
    + split; [split; [exact H1|]; split; [exact H2|]; split; [exact NE|exact H3]|]. exists a, b. auto.
Qed.
Lemma file_named_unique p n n' : file_named p n -> file_named p n' -> n = n'.
Proof.
  intros ((N1 & N2 & N3 & N4) & a & b & P & A & B) ((M1 & M2 & M3 & M4) & a' & b' & P' & A' & B').
  destruct (named_head p n a b N1 N2 N4 P A B) as (l & X). destruct (named_head p n' a' b' M1 M2 M4 P' A' B') as (l' & X'). congruence.
Qed.

(** ** The tool *)
Lemma is_text_spec a b : is_text a b = true <-> a = b.
Proof. unfold is_text. destruct (list_eq_dec N.eq_dec a b); split; congruence. Qed.
Lemma is_text_refl a : is_text a a = true.
Proof. apply is_text_spec. reflexivity. Qed.
Lemma is_text_no a b : a <> b -> is_text a b = false.
Proof. intros H. destruct (is_text a b) eqn:E; [apply is_text_spec in E; contradiction|reflexivity]. Qed.

(** The arguments say what to do, are in error, or are not readable; one of
    the three. *)
Theorem C71_arguments prog args : garbled (Text prog :: args) \/ (exists msg, usage_error args msg) \/ (exists mode p, runs_on args mode p).
Proof.
  destruct args as [|[m|] r]; [right; left; eexists; constructor| |left; constructor].
  assert (D : (exists mode, m = mode_name mode) \/ forall mode, m <> mode_name mode).
  { destruct (list_eq_dec N.eq_dec m (bs "validate")) as [->|N1]; [left; exists Validate; reflexivity|].
    destruct (list_eq_dec N.eq_dec m (bs "check")) as [->|N2]; [left; exists Check; reflexivity|]. right. intros []; assumption. }
  destruct D as [(mode & ->)|D]; [|right; left; eexists; apply ue_mode; exact D].
  destruct r as [|[p|] r]; [right; left; eexists; apply ue_no_file| |left; apply (ga_file _ mode)].
  pose proof (file_name_spec p) as F. destruct (file_name p) as [n|]; [|right; left; eexists; apply ue_empty; exact F].
  destruct mode; [right; right; exists Validate, p; eapply ro_validate; exact F|].
  destruct (list_eq_dec N.eq_dec n (bs "Cargo.toml")) as [->|NE]; [right; right; exists Check, p; apply ro_check; exact F|].
  right; left. eexists. eapply ue_name; eassumption.
Qed.
Lemma mode_inj m m' : mode_name m = mode_name m' -> m = m'.
Proof. destruct m, m'; intros H; reflexivity || discriminate H. Qed.
Theorem C71_exclusive prog args :
  (forall msg mode p, usage_error args msg -> runs_on args mode p -> False) /\
  (forall msg msg', usage_error args msg -> usage_error args msg' -> msg = msg') /\
  (forall mode p mode' p', runs_on args mode p -> runs_on args mode' p' -> mode = mode' /\ p = p') /\
  (garbled (Text prog :: args) -> (forall msg, ~ usage_error args msg) /\ (forall mode p, ~ runs_on args mode p)).
Proof.
  split; [|split; [|split]].
  - intros msg mode p U R. inversion R as [p0 n r F E|p0 r F E]; subst; inversion U as [|m r0 H E|md E|md p1 r0 H E|p1 n1 r0 H H1 E]; subst.
    + exact (H Validate eq_refl).
    + exact (H _ F).
    + exact (H Check eq_refl).
    + exact (H _ F).
    + apply H1. eapply file_named_unique; eassumption.
  - intros msg msg' U U'. inversion U as [E|m r0 H E|md E|md p1 r0 H E|p1 n1 r0 H H1 E]; subst; inversion U' as [E'|m' r0' H' E'|md' E'|md' p1' r0' H' E'|p1' n1' r0' H' H1' E']; subst; try reflexivity.
    all: exfalso. all: first [exact (H _ H') | exact (H' _ H) | exact (H Check eq_refl) | exact (H' Check eq_refl) | exact (H Validate eq_refl)
      | exact (H' Validate eq_refl) | eapply H; reflexivity | eapply H'; reflexivity].
  - intros mode p mode' p' R R'. inversion R as [p0 n r F E|p0 r F E]; subst; inversion R' as [p0' n' r' F' E'|p0' r' F' E']; subst; split; reflexivity.
  - intros G. inversion G as [l E|p0 l E|p0 mode l E]; subst.
    + split; [intros msg U; inversion U|intros mode p R; inversion R].
    + split; [|intros md p R; inversion R; subst; destruct mode; discriminate].
      intros msg U. inversion U as [E'|m' r0' H' E'|md' E'|md' p1' r0' H' E'|p1' n1' r0' H' H1' E']; subst. exact (H' mode eq_refl).
Qed.

Section Tool.
  Context (width : list N -> N) (prof : profile) (debug : list (list N * sval) -> list N) (fs : list N -> contents) (t0 t1 t2 t3 t4 t5 : N).
  Notation tool := (main width prof debug fs t0 t1 t2 t3 t4 t5).

  Lemma main_mode prog mode r : tool (Text prog :: Text (mode_name mode) :: r) =
    let? (p, _) := next_arg r in
    match p with
    | None => Ok (input_fail (bs "missing argument <file>"))
    | Some path =>
        match file_name path with
        | Some name =>
            match mode with
            | Check => if negb (is_text name (bs "Cargo.toml"))
                       then Ok (input_fail (bs "file isn't named `Cargo.toml`, use mode `validate` for arbitrary toml files"))
                       else main_file width prof debug fs t0 t1 t2 t3 t4 t5 mode path
            | Validate => main_file width prof debug fs t0 t1 t2 t3 t4 t5 mode path
            end
        | None => Ok (input_fail (bs "<file> path is empty"))
        end
    end.
  Proof. destruct mode; reflexivity. Qed.
  (** Wrong arguments: nothing but a message and the usage, on standard error,
      whatever files there are. *)
  Theorem C71_usage prog args msg : usage_error args msg ->
    tool (Text prog :: args) = Ok (mkout [] (red (bs "argument error: " ++ msg) ++ [10] ++ usage) false).
  Proof.
    intros U. assert (I : forall s, input_fail s = mkout [] (red (bs "argument error: " ++ s) ++ [10] ++ usage) false).
    { intros s. unfold input_fail, red. rewrite <- !app_assoc. reflexivity. }
    rewrite <- I. destruct U as [|m r H|mode|mode p r H|p n r F NE].
    - reflexivity.
    - unfold main. cbn [next_arg bind]. cbv zeta. rewrite (is_text_no m (bs "validate")) by (exact (H Validate)). rewrite (is_text_no m (bs "check")) by (exact (H Check)). reflexivity.
    - rewrite main_mode. reflexivity.
    - rewrite main_mode. cbn [next_arg bind]. pose proof (file_name_spec p) as G. destruct (file_name p) as [n|]; [exfalso; exact (H _ G)|reflexivity].
    - rewrite main_mode. cbn [next_arg bind]. pose proof (file_name_spec p) as G. destruct (file_name p) as [n'|]; [|exfalso; exact (G _ F)].
      rewrite (file_named_unique _ _ _ F G) in NE. rewrite is_text_no by exact NE. reflexivity.
  Qed.
  Lemma main_runs prog args mode p : runs_on args mode p -> tool (Text prog :: args) = main_file width prof debug fs t0 t1 t2 t3 t4 t5 mode p.
  Proof.
    intros [p0 n r F|p0 r F].
    - refine (eq_trans (main_mode prog Validate _) _). cbn [next_arg bind]. pose proof (file_name_spec p0) as G. destruct (file_name p0) as [n'|]; [reflexivity|exfalso; exact (G _ F)].
    - refine (eq_trans (main_mode prog Check _) _). cbn [next_arg bind]. pose proof (file_name_spec p0) as G. destruct (file_name p0) as [n'|]; [|exfalso; exact (G _ F)].
      rewrite <- (file_named_unique _ _ _ F G). rewrite is_text_refl. reflexivity.
  Qed.
  (** A file that cannot be read. *)
  Theorem C71_unreadable prog args mode p e : runs_on args mode p -> fs p = Unreadable e ->
    tool (Text prog :: args) = Ok (mkout [] (red (bs "error: error reading from file: " ++ e)) false).
  Proof.
    intros R E. rewrite (main_runs prog _ _ _ R). unfold main_file. rewrite E. unfold fail, red. rewrite <- ?app_assoc. reflexivity.
  Qed.
  Lemma since_ok a b : b <= a -> since a b = Ok ((a - b) / 1000).
  Proof. intros H. unfold since. apply N.leb_le in H. rewrite H. reflexivity. Qed.
  Lemma since_panic a b : ~ b <= a -> since a b = Panic.
  Proof. intros H. unfold since. destruct (N.leb_spec b a); [contradiction|reflexivity]. Qed.
  Lemma times_spec mode : (steady t0 t1 t2 t3 t4 t5 /\ exists ts, times t0 t1 t2 t3 t4 t5 mode = Ok ts /\ time_table mode t0 t1 t2 t3 t4 t5 ts) \/
    (~ steady t0 t1 t2 t3 t4 t5 /\ times t0 t1 t2 t3 t4 t5 mode = Panic).
  Proof.
    unfold steady, times.
    destruct (N.le_decidable t0 t1) as [H1|H1]; [rewrite (since_ok t1 t0) by exact H1|right; split; [tauto|rewrite since_panic by exact H1; reflexivity]].
    destruct (N.le_decidable t1 t2) as [H2|H2]; [rewrite (since_ok t2 t1) by exact H2|right; split; [tauto|cbn [bind]; rewrite (since_panic t2 t1) by exact H2; reflexivity]].
    destruct (N.le_decidable t2 t3) as [H3|H3]; [rewrite (since_ok t3 t2) by exact H3|right; split; [tauto|cbn [bind]; rewrite (since_panic t3 t2) by exact H3; reflexivity]].
    destruct (N.le_decidable t3 t4) as [H4|H4]; [rewrite (since_ok t4 t3) by exact H4|right; split; [tauto|cbn [bind]; rewrite (since_panic t4 t3) by exact H4; reflexivity]].
    destruct (N.le_decidable t4 t5) as [H5|H5]; [rewrite (since_ok t5 t4) by exact H5|right; split; [tauto|cbn [bind]; rewrite (since_panic t5 t4) by exact H5; reflexivity]].
    rewrite (since_ok t5 t0) by lia. left. split; [tauto|]. cbn [bind]. eexists. split; [reflexivity|].
    match goal with |- time_table _ _ _ _ _ _ _ ?x => set (out := x) end.
    assert (T : forall name w us, time_line name w us (bs name ++ repeat 32 (w - length (dec us)) ++ dec us ++ bs "us" ++ [10])) by (intros; constructor; reflexivity).
    pose proof (tt mode t0 t1 t2 t3 t4 t5 _ _ _ _ _ _ (T _ _ _) (T _ _ _) (T _ _ _) (T _ _ _) (T _ _ _) (T _ _ _)) as X.
    replace out with
      ([10] ++ (bs "lexing   " ++ repeat 32 (6 - length (dec ((t1 - t0) / 1000))) ++ dec ((t1 - t0) / 1000) ++ bs "us" ++ [10]) ++
       (bs "parsing  " ++ repeat 32 (6 - length (dec ((t2 - t1) / 1000))) ++ dec ((t2 - t1) / 1000) ++ bs "us" ++ [10]) ++
       (bs "mapping  " ++ repeat 32 (6 - length (dec ((t3 - t2) / 1000))) ++ dec ((t3 - t2) / 1000) ++ bs "us" ++ [10]) ++
       match mode with Check => bs "checking " ++ repeat 32 (4 - length (dec ((t4 - t3) / 1000))) ++ dec ((t4 - t3) / 1000) ++ bs "us" ++ [10] | Validate => [] end ++
       (bs "simple   " ++ repeat 32 (6 - length (dec ((t5 - t4) / 1000))) ++ dec ((t5 - t4) / 1000) ++ bs "us" ++ [10]) ++
       bs "-----------------" ++ [10] ++
       (bs "total    " ++ repeat 32 (6 - length (dec ((t5 - t0) / 1000))) ++ dec ((t5 - t0) / 1000) ++ bs "us" ++ [10])); [exact X|].
    unfold out, padded, nl. destruct mode; rewrite <- ?app_assoc; reflexivity.
  Qed.
  (** A file that can be read: the value, the messages (C62) and the times go
      to standard output, and the exit code is success. *)
  Theorem C71_report prog args mode p text : runs_on args mode p -> fs p = Readable text ->
    (forall o, tool (Text prog :: args) = Ok o ->
       exists v msgs ts, ctoml width prof mode text = Ok (v, msgs) /\ time_table mode t0 t1 t2 t3 t4 t5 ts /\
         o = mkout (debug v ++ [10] ++ concat msgs ++ ts) [] true) /\
    (tool (Text prog :: args) = Panic <-> ctoml width prof mode text = Panic \/ ~ steady t0 t1 t2 t3 t4 t5).
  Proof.
    intros R E. rewrite (main_runs prog _ _ _ R). unfold main_file. rewrite E.
    destruct (ctoml width prof mode text) as [[v msgs]|[]|] eqn:C; cbn [bind].
    - destruct (times_spec mode) as [(ST & ts & T & TT)|(ST & T)]; rewrite T; cbn [bind]; (split; [intros o O; try discriminate|]).
      + injection O as <-. exists v, msgs, ts. auto.
      + split; [discriminate|intros [H|H]; [discriminate|contradiction]].
      + split; auto.
    - split; [discriminate|tauto].
  Qed.
  Theorem C71_garbled args : garbled args -> tool args = Panic.
  Proof.
    intros [l|[p|] l|[p|] mode l]; try reflexivity. rewrite main_mode. reflexivity.
  Qed.
  (** The exit code is success exactly if there is a file to work on. *)
  Theorem C71_exit_code prog args o : tool (Text prog :: args) = Ok o ->
    (o_success o = true <-> exists mode p text, runs_on args mode p /\ fs p = Readable text).
  Proof.
    intros E. destruct (C71_arguments prog args) as [G|[(msg & U)|(mode & p & R)]].
    - rewrite (C71_garbled _ G) in E. discriminate.
    - rewrite (C71_usage prog _ _ U) in E. injection E as <-. split; [discriminate|]. intros (mode & p & text & R & _). exfalso.
      exact (proj1 (C71_exclusive prog args) _ _ _ U R).
    - destruct (fs p) as [text|why] eqn:F.
      + destruct (C71_report prog _ _ _ _ R F) as (H & _). destruct (H _ E) as (v & msgs & ts & _ & _ & ->). split; [intros _; eauto|reflexivity].
      + rewrite (C71_unreadable prog _ _ _ _ R F) in E. injection E as <-. split; [discriminate|]. intros (mode' & p' & text & R' & F'). exfalso.
        destruct (proj1 (proj2 (proj2 (C71_exclusive prog args))) _ _ _ _ R R') as (_ & ->). congruence.
  Qed.
End Tool.
(** It does not tell whether there are errors in the document. *)
Theorem C71_errors_in_exit_code_refuted : exists fs v msg o, ctoml ascii Debug Validate (bs "a") = Ok (v, [msg]) /\ fs (bs "x/f.toml/.") = Readable (bs "a") /\
  main ascii Debug (fun _ => []) fs 0 0 0 0 0 0 [Text (bs "ctoml"); Text (bs "validate"); Text (bs "x/f.toml/.")] = Ok o /\ o_success o = true.
Proof.
  exists (fun _ => Readable (bs "a")). eexists _, _, _. split; [vm_compute; reflexivity|]. split; [reflexivity|]. split; [vm_compute; reflexivity|reflexivity].
Qed.
Example C71_examples : file_named (bs "a/Cargo.toml") (bs "Cargo.toml") /\ file_named (bs "Cargo.toml/.//") (bs "Cargo.toml") /\
  (forall n, ~ file_named (bs "a/..") n) /\ (forall n, ~ file_named (bs "./") n).
Proof.
  split; [exact (file_name_spec (bs "a/Cargo.toml"))|]. split; [exact (file_name_spec (bs "Cargo.toml/.//"))|].
  split; [exact (file_name_spec (bs "a/.."))|exact (file_name_spec (bs "./"))].
Qed.
Print Assumptions C71_arguments.
Print Assumptions C71_exclusive.
Print Assumptions C71_usage.
Print Assumptions C71_unreadable.
Print Assumptions C71_report.
Print Assumptions C71_garbled.
Print Assumptions C71_exit_code.
Print Assumptions C71_errors_in_exit_code_refuted.
