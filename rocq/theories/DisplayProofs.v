(** Proofs about the display of diagnostics. *)
From Verif Require Import Base BaseProofs CommonModel CommonSpec CommonProofs LitModel LexModel LexSpec LexBase
  MapSpec DisplayModel DisplaySpec.

Lemma text_slice_app a b c i j : i = tlen a -> j = tlen (a ++ b) -> text_slice (a ++ b ++ c) i j = Ok b.
Proof. intros -> ->. unfold text_slice. rewrite slice_app. reflexivity. Qed.

Lemma take_bytes_inv n s x : take_bytes n s = Some x -> exists y, s = x ++ y /\ n = tlen x.
Proof.
  revert n x. induction s as [|c r IH]; intros n x; cbn [take_bytes].
  - destruct (N.eqb_spec n 0); [|discriminate]. intros [= <-]. exists []. split; [reflexivity|exact e].
  - destruct (N.eqb_spec n 0) as [->|].
    { intros [= <-]. exists (c :: r). split; reflexivity. }
    destruct (N.leb_spec (len_utf8 c) n); [|discriminate].
    destruct (take_bytes (n - len_utf8 c) r) as [u|] eqn:E; [|discriminate]. intros [= <-].
    apply IH in E. destruct E as (y & -> & E). exists y. split; [reflexivity|]. cbn [tlen]. lia.
Qed.
Lemma drop_bytes_inv n s x : drop_bytes n s = Some x -> exists y, s = y ++ x /\ n = tlen y.
Proof.
  revert n x. induction s as [|c r IH]; intros n x; cbn [drop_bytes].
  - destruct (N.eqb_spec n 0); [|discriminate]. intros [= <-]. exists []. split; [reflexivity|exact e].
  - destruct (N.eqb_spec n 0) as [->|].
    { intros [= <-]. exists []. split; reflexivity. }
    destruct (N.leb_spec (len_utf8 c) n); [|discriminate]. intros E.
    apply IH in E. destruct E as (y & -> & E). exists (c :: y). split; [reflexivity|]. cbn [tlen]. lia.
Qed.
Lemma text_slice_inv s i j b : text_slice s i j = Ok b -> exists a c, s = a ++ b ++ c /\ i = tlen a /\ j = tlen (a ++ b).
Proof.
  unfold text_slice, slice. destruct (N.leb_spec i j); [|discriminate].
  destruct (drop_bytes i s) as [t|] eqn:D; [|discriminate].
  destruct (take_bytes (j - i) t) as [u|] eqn:T; [|discriminate]. intros [= <-].
  apply drop_bytes_inv in D. destruct D as (a & -> & D). apply take_bytes_inv in T. destruct T as (c & -> & T).
  exists a, c. rewrite tlen_app. split; [reflexivity|]. split; lia.
Qed.

(** ** Lines *)

Lemma hidden_ctl c : (c =? 9) = false -> hidden c = (c <=? 31) || (c =? 127).
Proof. intros H. unfold hidden. rewrite H. reflexivity. Qed.
Lemma hidden_len c : hidden c = true -> len_utf8 c = 1.
Proof. intros H. apply len_small. unfold hidden in H. lia. Qed.

Lemma show_chars_spec rest : forall a p, Forall (fun c => hidden c = false) p ->
  show_chars (a ++ p ++ rest) rest (tlen (a ++ p)) (tlen a) = Ok (p ++ visible rest).
Proof.
  induction rest as [|c r IH]; intros a p P; cbn [show_chars].
  - unfold visible. cbn [filter]. rewrite (text_slice_app a p []) by (rewrite ?app_nil_r; reflexivity). rewrite app_nil_r. reflexivity.
  - assert (EQ : a ++ p ++ c :: r = a ++ (p ++ [c]) ++ r) by (rewrite <- app_assoc; reflexivity).
    assert (L : tlen (a ++ p) + len_utf8 c = tlen (a ++ p ++ [c])) by (rewrite !tlen_app, tlen_one; lia).
    assert (KEEP : hidden c = false ->
      show_chars (a ++ p ++ c :: r) r (tlen (a ++ p) + len_utf8 c) (tlen a) = Ok (p ++ visible (c :: r))).
    { intros H. rewrite EQ, L. rewrite IH.
      - unfold visible. cbn [filter]. rewrite H. cbn [negb]. rewrite <- app_assoc. reflexivity.
      - apply Forall_app. split; [exact P|]. constructor; [exact H|constructor]. }
    destruct (c =? 9) eqn:E9.
    + apply KEEP. unfold hidden. rewrite E9. reflexivity.
    + pose proof (hidden_ctl c E9) as HC. destruct ((c <=? 31) || (c =? 127)) eqn:C.
      * rewrite (text_slice_app a p (c :: r)) by reflexivity. cbn [bind].
        rewrite L. rewrite (hidden_len c HC) in L.
        replace (a ++ p ++ c :: r) with ((a ++ p ++ [c]) ++ [] ++ r) by (rewrite <- !app_assoc; reflexivity).
        replace (tlen (a ++ p ++ [c])) with (tlen ((a ++ p ++ [c]) ++ [])) by (rewrite app_nil_r; reflexivity).
        rewrite L. rewrite IH by constructor. cbn [bind app].
        unfold visible. cbn [filter]. rewrite HC. cbn [negb]. reflexivity.
      * apply KEEP. exact HC.
Qed.

Lemma display_line_spec n line : display_line n line = Ok (source_row n line).
Proof.
  unfold display_line. pose proof (show_chars_spec line [] [] (Forall_nil _)) as H. cbn [app tlen] in H.
  rewrite H. cbn [bind]. reflexivity.
Qed.

Section Width.
Context (width : list N -> N).

Lemma runs_cons_visible p rest : Forall (fun c => hidden c = false) p ->
  match runs rest with q :: qs => runs (p ++ rest) = (p ++ q) :: qs | [] => False end.
Proof.
  intros P. destruct (runs rest) as [|q qs] eqn:E.
  { destruct rest as [|c r]; cbn [runs] in E; [discriminate|]. destruct (hidden c); [discriminate|]. destruct (runs r); discriminate. }
  induction p as [|c p IH]; [exact E|]. cbn [app runs]. rewrite (Forall_inv P). rewrite (IH (Forall_inv_tail P)). reflexivity.
Qed.

Lemma calc_width_from_spec rest : forall a p, Forall (fun c => hidden c = false) p ->
  calc_width_from width (a ++ p ++ rest) rest (tlen (a ++ p)) (tlen a) = Ok (shown_width width (p ++ rest)).
Proof.
  induction rest as [|c r IH]; intros a p P; cbn [calc_width_from].
  - rewrite (text_slice_app a p []) by (rewrite ?app_nil_r; reflexivity). cbn [bind]. f_equal.
    pose proof (runs_cons_visible p [] P) as R. cbn [runs] in R. unfold shown_width. rewrite R, app_nil_r. cbn [map fold_right]. lia.
  - assert (EQ : a ++ p ++ c :: r = a ++ (p ++ [c]) ++ r) by (rewrite <- app_assoc; reflexivity).
    assert (L : tlen (a ++ p) + len_utf8 c = tlen (a ++ p ++ [c])) by (rewrite !tlen_app, tlen_one; lia).
    assert (KEEP : hidden c = false ->
      calc_width_from width (a ++ p ++ c :: r) r (tlen (a ++ p) + len_utf8 c) (tlen a) = Ok (shown_width width (p ++ c :: r))).
    { intros H. rewrite EQ, L. rewrite IH.
      - rewrite <- app_assoc. reflexivity.
      - apply Forall_app. split; [exact P|]. constructor; [exact H|constructor]. }
    destruct (c =? 9) eqn:E9.
    + apply KEEP. unfold hidden. rewrite E9. reflexivity.
    + pose proof (hidden_ctl c E9) as HC. destruct ((c <=? 31) || (c =? 127)) eqn:C.
      * rewrite (text_slice_app a p (c :: r)) by reflexivity. cbn [bind].
        rewrite L. rewrite (hidden_len c HC) in L.
        replace (a ++ p ++ c :: r) with ((a ++ p ++ [c]) ++ [] ++ r) by (rewrite <- !app_assoc; reflexivity).
        replace (tlen (a ++ p ++ [c])) with (tlen ((a ++ p ++ [c]) ++ [])) by (rewrite app_nil_r; reflexivity).
        rewrite L. rewrite IH by constructor. cbn [bind app]. f_equal.
        pose proof (runs_cons_visible p (c :: r) P) as R. cbn [runs] in R. rewrite HC in R.
        unfold shown_width. rewrite R, app_nil_r. reflexivity.
      * apply KEEP. exact HC.
Qed.
Lemma calc_width_spec s : calc_width width s = Ok (shown_width width s).
Proof.
  unfold calc_width. pose proof (calc_width_from_spec s [] [] (Forall_nil _)) as H. cbn [app tlen] in H. exact H.
Qed.

(** ** Positions *)
Lemma pos_ltb_spec a b : pos_ltb a b = true <-> pos_lt a b.
Proof. unfold pos_ltb. rewrite <- pos_cmp_lt. destruct (pos_cmp a b); split; congruence. Qed.
Lemma pos_ltb_false a b : pos_ltb a b = false <-> ~ pos_lt a b.
Proof. rewrite <- pos_ltb_spec. destruct (pos_ltb a b); split; congruence. Qed.

(** ** The body *)

(** [ls] are the lines of [text] from line [l] on. *)
Definition from_line (text : list (list N)) (l : N) (ls : list (list N)) : Prop :=
  forall k line, nth_error ls k = Some line -> nth_error text (N.to_nat l + k) = Some line.

(** What [body_lines] does from line [start + i] on. *)
Lemma body_lines_spec text sev ann sp ls : forall i start num,
  start = p_line (s_start sp) -> start + num = p_line (s_end sp) + 1 -> i + N.of_nat (length ls) = num ->
  from_line text (start + i) ls -> ls <> [] ->
  let a := if i =? 0 then p_char (s_start sp) else 0 in
  (forall out, body_lines width sev ann sp start num i ls = Ok out -> block width text sev ann (start + i) a (s_end sp) out) /\
  ((exists line, nth_error ls 0 = Some line /\ column line a) ->
   (exists line, nth_error ls (length ls - 1) = Some line /\ column line (p_char (s_end sp))) ->
   (length ls = 1%nat -> a <= p_char (s_end sp)) ->
   body_lines width sev ann sp start num i ls <> Panic).
Proof.
  induction ls as [|line r IH]; intros i start num ST EN LEN FROM NE; [congruence|]. clear NE. cbv zeta.
  assert (HERE : nth_error text (N.to_nat (start + i)) = Some line).
  { specialize (FROM 0%nat line eq_refl). rewrite Nat.add_0_r in FROM. exact FROM. }
  cbn [body_lines]. rewrite display_line_spec. cbn [bind]. cbv zeta.
  set (a := if i =? 0 then p_char (s_start sp) else 0).
  destruct r as [|line' r'].
  - (* the last line *)
    cbn [length] in LEN. assert (LAST : (i =? num - 1) = true) by lia. rewrite !LAST. clear IH. split.
    + intros out. destruct (text_slice line 0 a) as [x|[]|] eqn:S1; [|discriminate]. cbn [bind]. rewrite calc_width_spec. cbn [bind].
      destruct (text_slice line a (p_char (s_end sp))) as [y|[]|] eqn:S2; [|discriminate]. cbn [bind body_lines].
      intros [= <-]. apply text_slice_inv in S1. destruct S1 as (x0 & z0 & E1 & T1 & T2).
      destruct x0 as [|? ?]; [|cbn [tlen] in T1; pose proof (len_pos n); lia]. cbn [app] in *. clear T1.
      apply text_slice_inv in S2. destruct S2 as (x' & z & E2 & T3 & T4).
      assert (x' = x). { pose proof (text_slice_app [] x z0 0 a eq_refl T2) as P1. cbn [app] in P1. rewrite <- E1 in P1.
        pose proof (text_slice_app [] x' (y ++ z) 0 a eq_refl T3) as P2. cbn [app] in P2. rewrite <- E2 in P2. congruence. }
      subst x'. rewrite E2 in HERE |- *. rewrite T3.
      pose proof (block_last width text sev ann (start + i) x y z (s_end sp) ltac:(lia) HERE T4) as B.
      unfold underline_row in B. rewrite <- !app_assoc in B. cbn [bs app] in B |- *. exact B.
    + intros (l1 & G1 & b1 & c1 & E1 & T1) (l2 & G2 & b2 & c2 & E2 & T2) LE. cbn in G1, G2.
      injection G1 as <-. injection G2 as <-. specialize (LE eq_refl).
      assert (SP : exists y z, line = b1 ++ y ++ z /\ p_char (s_end sp) = tlen (b1 ++ y)).
      { clear -E1 T1 E2 T2 LE. rewrite E1 in E2. rewrite E1. rewrite T1, T2 in LE. rewrite T2. clear T1 T2 E1.
        revert b2 E2 LE. induction b1 as [|c b1 IH]; intros b2 E2 LE.
        - exists b2, c2. split; [exact E2|reflexivity].
        - destruct b2 as [|c' b2]. { cbn [tlen] in LE. pose proof (len_pos c). lia. }
          cbn [app] in E2. injection E2 as <- E2. cbn [tlen] in LE.
          destruct (IH b2 E2 ltac:(lia)) as (y & z & E3 & E). exists y, z. split; [|cbn [app tlen]; lia].
          cbn [app]. f_equal. exact E3. }
      destruct SP as (y & z & EL & TE).
      pose proof (text_slice_app [] b1 (y ++ z) 0 a eq_refl T1) as P1. cbn [app] in P1. rewrite <- EL in P1. rewrite P1. cbn [bind].
      rewrite calc_width_spec. cbn [bind].
      pose proof (text_slice_app b1 y z a (p_char (s_end sp)) T1 TE) as P2. rewrite <- EL in P2. rewrite P2. cbn [bind body_lines]. discriminate.
  - (* more lines follow *)
    cbn [length] in LEN. assert (LAST : (i =? num - 1) = false) by lia. rewrite !LAST.
    specialize (IH (i + 1) start num ST EN). cbv zeta in IH.
    assert (I1 : (i + 1 =? 0) = false) by lia. rewrite I1 in IH.
    destruct IH as (IH1 & IH2).
    { cbn [length]. lia. }
    { intros k l G. specialize (FROM (S k) l G). replace (N.to_nat (start + (i + 1)) + k)%nat with (N.to_nat (start + i) + S k)%nat by lia. exact FROM. }
    { discriminate. }
    split.
    + intros out. destruct (text_slice line 0 a) as [x|[]|] eqn:S1; [|discriminate]. cbn [bind]. rewrite calc_width_spec. cbn [bind].
      destruct (text_slice line a (tlen line)) as [y|[]|] eqn:S2; [|discriminate]. cbn [bind].
      destruct (body_lines width sev ann sp start num (i + 1) (line' :: r')) as [rest|[]|] eqn:R; [|discriminate]. cbn [bind].
      intros [= <-]. apply text_slice_inv in S1. destruct S1 as (x0 & z0 & E1 & T1 & T2).
      destruct x0 as [|? ?]; [|cbn [tlen] in T1; pose proof (len_pos n); lia]. cbn [app] in *. clear T1.
      apply text_slice_inv in S2. destruct S2 as (x' & z & E2 & T3 & T4).
      assert (x' = x). { pose proof (text_slice_app [] x z0 0 a eq_refl T2) as P1. cbn [app] in P1. rewrite <- E1 in P1.
        pose proof (text_slice_app [] x' (y ++ z) 0 a eq_refl T3) as P2. cbn [app] in P2. rewrite <- E2 in P2. congruence. }
      subst x'. assert (z = []). { rewrite E2 in T4. rewrite !tlen_app in T4. destruct z as [|c z]; [reflexivity|]. cbn [tlen] in T4. pose proof (len_pos c). lia. }
      subst z. rewrite app_nil_r in E2. rewrite E2 in HERE |- *. rewrite T3.
      specialize (IH1 rest eq_refl). rewrite N.add_assoc in IH1.
      pose proof (block_more width text sev ann (start + i) x y (s_end sp) rest ltac:(lia) HERE IH1) as B.
      unfold underline_row in B. rewrite <- !app_assoc in B. cbn [bs app] in B |- *. exact B.
    + intros (l1 & G1 & b1 & c1 & E1 & T1) G2 _. cbn in G1. injection G1 as <-.
      pose proof (text_slice_app [] b1 c1 0 a eq_refl T1) as P1. cbn [app] in P1. rewrite <- E1 in P1. rewrite P1. cbn [bind].
      rewrite calc_width_spec. cbn [bind].
      pose proof (text_slice_app b1 c1 [] a (tlen line) T1 ltac:(rewrite E1; reflexivity)) as P2. rewrite app_nil_r, <- E1 in P2.
      rewrite P2. cbn [bind].
      assert (NP : body_lines width sev ann sp start num (i + 1) (line' :: r') <> Panic).
      { apply IH2.
        - exists line'. split; [reflexivity|]. exists [], line'. split; reflexivity.
        - destruct G2 as (l2 & G2 & C2). exists l2. split; [|exact C2]. cbn [length] in G2 |- *.
          replace (S (S (length r')) - 1)%nat with (S (length r')) in G2 by lia.
          replace (S (length r') - 1)%nat with (length r') by lia. exact G2.
        - lia. }
      destruct (body_lines width sev ann sp start num (i + 1) (line' :: r')) as [rest|[]|]; [|congruence]. cbn [bind]. discriminate.
Qed.

Lemma from_line_sub text l n : from_line text l (firstn n (skipn (N.to_nat l) text)).
Proof.
  intros k line G. rewrite <- (firstn_skipn (N.to_nat l) text).
  assert (B : (N.to_nat l <= length text)%nat).
  { destruct (Nat.le_gt_cases (N.to_nat l) (length text)) as [L|L]; [exact L|]. rewrite skipn_all2 in G by lia. rewrite firstn_nil in G. destruct k; discriminate. }
  rewrite nth_error_app2 by (rewrite firstn_length; lia). rewrite firstn_length.
  replace (N.to_nat l + k - Nat.min (N.to_nat l) (length text))%nat with k by lia.
  rewrite <- (firstn_skipn n (skipn (N.to_nat l) text)). rewrite nth_error_app1; [exact G|].
  apply nth_error_Some. congruence.
Qed.

Lemma nth_sub (text : list (list N)) l n k : (k < n)%nat -> nth_error (firstn n (skipn l text)) k = nth_error text (l + k).
Proof.
  intros H. revert l. induction text as [|t ts IH]; intros l.
  - rewrite skipn_nil, firstn_nil. destruct k, (l + 0)%nat; try reflexivity; destruct (l + S k)%nat; reflexivity.
  - destruct l as [|l]; cbn [skipn Nat.add].
    + clear IH. revert n k H. generalize (t :: ts) as s. induction s as [|x s IH]; intros n k H; destruct n as [|n]; [lia|destruct k; reflexivity|lia|].
      cbn [firstn]. destruct k as [|k]; [reflexivity|]. cbn [nth_error]. apply IH. lia.
    + apply IH.
Qed.

Lemma display_body_ok sev ann sp text : span_on_text text sp ->
  exists out, display_body width sev ann sp text = Ok out /\ marked width text sev ann sp out.
Proof.
  intros ((l1 & G1 & C1) & (l2 & G2 & C2) & LE). unfold display_body. cbv zeta.
  assert (B2 : (N.to_nat (p_line (s_end sp)) < length text)%nat) by (apply nth_error_Some; congruence).
  assert (LL : p_line (s_start sp) <= p_line (s_end sp)). { destruct (N.le_gt_cases (p_line (s_start sp)) (p_line (s_end sp))) as [|GT]; [assumption|]. exfalso. apply LE. left. exact GT. }
  assert (E1 : (p_line (s_start sp) <=? p_line (s_end sp) + 1) = true) by lia.
  assert (E2 : (p_line (s_end sp) + 1 <=? N.of_nat (length text)) = true) by lia. rewrite E1, E2. cbn [andb].
  set (num := p_line (s_end sp) + 1 - p_line (s_start sp)). set (ls := firstn _ _).
  assert (LEN : length ls = N.to_nat num). { unfold ls. rewrite firstn_length, skipn_length. unfold num. lia. }
  pose proof (body_lines_spec text sev ann sp ls 0 (p_line (s_start sp)) num eq_refl) as P.
  cbv zeta in P. rewrite N.add_0_r in P. change (0 =? 0) with true in P. cbv iota in P.
  destruct P as (P1 & P2).
  { unfold num. lia. }
  { lia. }
  { apply from_line_sub. }
  { intros E. rewrite E in LEN. cbn [length] in LEN. unfold num in LEN. lia. }
  assert (NP : body_lines width sev ann sp (p_line (s_start sp)) num 0 ls <> Panic).
  { apply P2.
    - exists l1. split; [|exact C1]. unfold ls. rewrite nth_sub by (unfold num; lia). rewrite Nat.add_0_r. exact G1.
    - exists l2. split; [|exact C2]. rewrite LEN. unfold ls. rewrite nth_sub by (unfold num; lia). rewrite <- G2. f_equal. unfold num. lia.
    - intros L1. unfold num in LEN. destruct (N.le_gt_cases (p_char (s_start sp)) (p_char (s_end sp))) as [|GT]; [assumption|]. exfalso. apply LE. right. split; [lia|exact GT]. }
  destruct (body_lines width sev ann sp (p_line (s_start sp)) num 0 ls) as [out|[]|]; [|congruence].
  exists out. split; [reflexivity|]. exact (P1 out eq_refl).
Qed.

Lemma block_on text sev ann l a e out : block width text sev ann l a e out ->
  (exists line, nth_error text (N.to_nat l) = Some line /\ column line a) /\ on_text text e /\ l <= p_line e /\ (l = p_line e -> a <= p_char e).
Proof.
  induction 1 as [l x y z e EL G T|l x y e out LT G B (IH1 & IH2 & IH3 & IH4)].
  - split; [exists (x ++ y ++ z); split; [exact G|exists x, (y ++ z); split; reflexivity]|]. split; [|split; [lia|]].
    + exists (x ++ y ++ z). rewrite EL. split; [exact G|]. exists (x ++ y), z. rewrite <- app_assoc. split; [reflexivity|exact T].
    + intros _. rewrite T, tlen_app. lia.
  - split; [exists (x ++ y); split; [exact G|exists x, y; split; reflexivity]|]. split; [exact IH2|]. split; lia.
Qed.

Lemma display_body_inv sev ann sp text : p_line (s_start sp) <= p_line (s_end sp) ->
  display_body width sev ann sp text <> Panic -> span_on_text text sp.
Proof.
  intros LL H. unfold display_body in H. cbv zeta in H.
  destruct (p_line (s_start sp) <=? p_line (s_end sp) + 1) eqn:E1; [|exfalso; apply H; reflexivity].
  destruct (N.leb_spec (p_line (s_end sp) + 1) (N.of_nat (length text))) as [E2|E2]; [|exfalso; apply H; reflexivity]. cbn [andb] in H.
  set (num := p_line (s_end sp) + 1 - p_line (s_start sp)) in *. set (ls := firstn _ _) in *.
  assert (LEN : length ls = N.to_nat num). { unfold ls. rewrite firstn_length, skipn_length. unfold num. lia. }
  pose proof (body_lines_spec text sev ann sp ls 0 (p_line (s_start sp)) num eq_refl) as P.
  cbv zeta in P. rewrite N.add_0_r in P. change (0 =? 0) with true in P. cbv iota in P.
  destruct P as (P1 & P2).
  { unfold num. lia. }
  { lia. }
  { apply from_line_sub. }
  { intros E. rewrite E in LEN. cbn [length] in LEN. unfold num in LEN. lia. }
  destruct (body_lines width sev ann sp (p_line (s_start sp)) num 0 ls) as [out|[]|]; [|congruence].
  destruct (block_on _ _ _ _ _ _ _ (P1 out eq_refl)) as (S1 & S2 & S3 & S4). split; [exact S1|]. split; [exact S2|].
  intros [GT|(EQ & GT)]; [lia|]. symmetry in EQ. specialize (S4 EQ). lia.
Qed.

(** ** Context lines *)
Lemma increasing_tail x l : increasing (x :: l) -> increasing l /\ Forall (fun y => x < y) l.
Proof.
  revert x. induction l as [|y l IH]; intros x; cbn [increasing]; [intros _; split; [exact I|constructor]|].
  intros (H & R). split; [exact R|]. constructor; [exact H|]. destruct (IH y R) as (_ & F).
  revert F. apply Forall_impl. intros; lia.
Qed.
Lemma context_none text lo hi ls : Forall (fun y => hi <= y) ls -> context_rows text lo hi ls [].
Proof. induction 1 as [|y l H F IH]; [constructor|]. apply context_skip; [lia|exact IH]. Qed.

Lemma display_context_ok text ls lo hi : increasing ls -> hi <= N.of_nat (length text) ->
  exists out, display_context_lines text ls lo hi = Ok out /\ context_rows text lo hi ls out.
Proof.
  intros INC HI. induction ls as [|l r IH]; [exists []; split; [reflexivity|constructor]|].
  destruct (increasing_tail _ _ INC) as (INC' & F). cbn [display_context_lines].
  destruct (N.ltb_spec l lo) as [L|L].
  { destruct (IH INC') as (out & E & C). exists out. split; [exact E|]. apply context_skip; [lia|exact C]. }
  destruct (N.ltb_spec l hi) as [L'|L'].
  - destruct (nth_error text (N.to_nat l)) as [line|] eqn:G; [|apply nth_error_None in G; lia].
    rewrite display_line_spec. cbn [bind]. destruct (IH INC') as (out & E & C). rewrite E. cbn [bind].
    eexists. split; [reflexivity|]. apply context_row; [lia|exact G|exact C].
  - exists []. split; [reflexivity|]. apply context_skip; [lia|]. apply context_none. revert F. apply Forall_impl. intros; lia.
Qed.

Lemma on_text_line text p : on_text text p -> p_line p < N.of_nat (length text).
Proof. intros (line & G & _). assert (N.to_nat (p_line p) < length text)%nat by (apply nth_error_Some; congruence). lia. Qed.

Lemma display_header_ok d text : on_text text (s_start (g_span d)) ->
  exists h, display_header d text = Ok h /\ heading text d (h ++ [10] ++ bs "     " ++ ansi_blue ++ bs "|" ++ ansi_clear ++ [10]).
Proof.
  intros (line & G & a & b & E & T). unfold display_header. cbv zeta. rewrite G. subst line.
  pose proof (text_slice_app [] a b 0 (p_char (s_start (g_span d))) eq_refl T) as P. cbn [app] in P. rewrite P. cbn [bind].
  eexists. split; [reflexivity|]. pose proof (heading_at text d a b G T) as H. rewrite <- !app_assoc. cbn [bs app] in H |- *.
  repeat (rewrite <- app_assoc; cbn [app]). exact H.
Qed.

Lemma display_ok d text :
  span_on_text text (g_span d) -> (forall h, g_hint d = Some h -> span_on_text text (h_span h)) -> increasing (g_lines d) ->
  exists out, display width d text = Ok out /\ displayed width text d out.
Proof.
  intros M H INC. unfold display.
  destruct (display_header_ok d text (proj1 M)) as (hd & E & HD). rewrite E. cbn [bind]. cbv zeta.
  pose proof (on_text_line _ _ (proj1 M)) as ML.
  destruct (display_body_ok (g_severity d) (g_annotation d) (g_span d) text M) as (mb & EM & MB).
  destruct (g_hint d) as [h|] eqn:GH.
  - specialize (H h eq_refl). pose proof (on_text_line _ _ (proj1 H)) as HL.
    destruct (display_body_ok SevHint (h_annotation h) (h_span h) text H) as (hb & EH & HB).
    destruct (pos_ltb (s_start (h_span h)) (s_start (g_span d))) eqn:LT.
    + destruct (display_context_ok text (g_lines d) 0 (p_line (s_start (h_span h))) INC ltac:(lia)) as (c1 & E1 & C1).
      destruct (display_context_ok text (g_lines d) (p_line (s_end (h_span h)) + 1) (p_line (s_start (g_span d))) INC ltac:(lia)) as (c2 & E2 & C2).
      rewrite E1. cbn [bind]. rewrite EH. cbn [bind]. rewrite E2. cbn [bind]. rewrite EM. cbn [bind].
      eexists. split; [reflexivity|]. apply pos_ltb_spec in LT.
      pose proof (displayed_hint_first width text d h _ c1 hb c2 mb GH LT HD C1 HB C2 MB) as D.
      rewrite <- !app_assoc in D. cbn [bs app] in D |- *. repeat (rewrite <- app_assoc in D; cbn [app] in D). rewrite app_nil_r. rewrite <- !app_assoc. exact D.
    + destruct (display_context_ok text (g_lines d) 0 (p_line (s_start (g_span d))) INC ltac:(lia)) as (c1 & E1 & C1).
      destruct (display_context_ok text (g_lines d) (p_line (s_end (g_span d)) + 1) (p_line (s_start (h_span h))) INC ltac:(lia)) as (c2 & E2 & C2).
      cbn [bind]. rewrite E1. cbn [bind]. rewrite EM. cbn [bind]. rewrite E2. cbn [bind]. rewrite EH. cbn [bind].
      eexists. split; [reflexivity|]. apply pos_ltb_false in LT.
      pose proof (displayed_hint_last width text d h _ c1 mb c2 hb GH LT HD C1 MB C2 HB) as D.
      rewrite <- !app_assoc in D. cbn [bs app] in D |- *. repeat (rewrite <- app_assoc in D; cbn [app] in D). exact D.
  - destruct (display_context_ok text (g_lines d) 0 (p_line (s_start (g_span d))) INC ltac:(lia)) as (c1 & E1 & C1).
    cbn [bind]. rewrite E1. cbn [bind]. rewrite EM. cbn [bind].
    eexists. split; [reflexivity|]. pose proof (displayed_plain width text d _ c1 mb GH HD C1 MB) as D.
    rewrite <- !app_assoc in D. cbn [bs app] in D |- *. repeat (rewrite <- app_assoc in D; cbn [app] in D). rewrite app_nil_r. exact D.
Qed.

Lemma display_inv d text :
  p_line (s_start (g_span d)) <= p_line (s_end (g_span d)) ->
  (forall h, g_hint d = Some h -> p_line (s_start (h_span h)) <= p_line (s_end (h_span h))) ->
  display width d text <> Panic ->
  span_on_text text (g_span d) /\ (forall h, g_hint d = Some h -> span_on_text text (h_span h)).
Proof.
  intros L1 L2 H. unfold display in H. destruct (display_header d text) as [hd|[]|]; [|exfalso; apply H; reflexivity]. cbn [bind] in H. cbv zeta in H.
  destruct (g_hint d) as [h|] eqn:GH.
  - specialize (L2 h eq_refl). destruct (pos_ltb (s_start (h_span h)) (s_start (g_span d))).
    + destruct (display_context_lines text (g_lines d) 0 _) as [c|[]|]; [|exfalso; apply H; reflexivity]. cbn [bind] in H.
      destruct (display_body width SevHint (h_annotation h) (h_span h) text) as [hb|[]|] eqn:EH; [|exfalso; apply H; reflexivity]. cbn [bind] in H.
      destruct (display_context_lines text (g_lines d) _ _) as [c'|[]|]; [|exfalso; apply H; reflexivity]. cbn [bind] in H.
      destruct (display_body width (g_severity d) (g_annotation d) (g_span d) text) as [mb|[]|] eqn:EM; [|exfalso; apply H; reflexivity].
      split; [apply (display_body_inv (g_severity d) (g_annotation d)); [exact L1|congruence]|].
      intros h' [= <-]. apply (display_body_inv SevHint (h_annotation h)); [exact L2|congruence].
    + cbn [bind] in H. destruct (display_context_lines text (g_lines d) 0 _) as [c|[]|]; [|exfalso; apply H; reflexivity]. cbn [bind] in H.
      destruct (display_body width (g_severity d) (g_annotation d) (g_span d) text) as [mb|[]|] eqn:EM; [|exfalso; apply H; reflexivity]. cbn [bind] in H.
      destruct (display_context_lines text (g_lines d) _ _) as [c'|[]|]; [|exfalso; apply H; reflexivity]. cbn [bind] in H.
      destruct (display_body width SevHint (h_annotation h) (h_span h) text) as [hb|[]|] eqn:EH; [|exfalso; apply H; reflexivity]. cbn [bind] in H.
      split; [apply (display_body_inv (g_severity d) (g_annotation d)); [exact L1|congruence]|].
      intros h' [= <-]. apply (display_body_inv SevHint (h_annotation h)); [exact L2|congruence].
  - cbn [bind] in H. destruct (display_context_lines text (g_lines d) 0 _) as [c|[]|]; [|exfalso; apply H; reflexivity]. cbn [bind] in H.
    destruct (display_body width (g_severity d) (g_annotation d) (g_span d) text) as [mb|[]|] eqn:EM; [|exfalso; apply H; reflexivity].
    split; [apply (display_body_inv (g_severity d) (g_annotation d)); [exact L1|congruence]|]. discriminate.
Qed.
End Width.

(** ** Positions of a document on its lines *)

Lemma fold_pos v : forall n, fold_left pos_step v (mkpos n 0) = mkpos (n + p_line (pos_at v)) (p_char (pos_at v)).
Proof.
  induction v as [|c v IH] using rev_ind; intros n.
  - cbn. rewrite N.add_0_r. reflexivity.
  - rewrite fold_left_app, IH, pos_at_snoc. cbn [fold_left]. unfold pos_step. cbn [p_line p_char].
    destruct (c =? 10); cbn [p_line p_char]; [rewrite N.add_assoc|]; reflexivity.
Qed.
Lemma pos_at_line u v : no_lf u -> pos_at (u ++ 10 :: v) = mkpos (1 + p_line (pos_at v)) (p_char (pos_at v)).
Proof.
  intros H. rewrite app_cons_assoc, pos_at_app, pos_at_lf.
  pose proof (pos_at_no_lf [] u H) as E. cbn [app] in E. rewrite E. cbn [p_line].
  rewrite fold_pos. reflexivity.
Qed.
Lemma pos_at_first u : no_lf u -> pos_at u = mkpos 0 (tlen u).
Proof. intros H. pose proof (pos_at_no_lf [] u H) as E. cbn [app] in E. rewrite E. reflexivity. Qed.

(** The place between the two characters of a CRLF. *)
Definition splits_crlf (a b : list N) : Prop := (exists a', a = a' ++ [13]) /\ exists b', b = 10 :: b'.

Lemma app_split {A} (x y u v : list A) : x ++ y = u ++ v -> (exists z, x = u ++ z /\ v = z ++ y) \/ (exists z, u = x ++ z /\ y = z ++ v).
Proof.
  revert u. induction x as [|c x IH]; intros u E.
  - right. exists u. split; [reflexivity|exact E].
  - destruct u as [|d u]; [left; exists (c :: x); split; [reflexivity|symmetry; exact E]|].
    injection E as <- E. destruct (IH u E) as [(z & -> & ->)|(z & -> & ->)]; [left|right]; exists z; split; reflexivity.
Qed.

Lemma column_prefix (u w : list N) : column (u ++ w) (tlen u).
Proof. exists u, w. split; reflexivity. Qed.

Lemma column_bound l n : column l n -> n <= tlen l.
Proof. intros (a & b & -> & ->). rewrite tlen_app. lia. Qed.

Lemma on_text_next l ls p : on_text (l :: ls) (mkpos (1 + p_line p) (p_char p)) <-> on_text ls p.
Proof.
  unfold on_text. cbn [p_line p_char]. replace (N.to_nat (1 + p_line p)) with (S (N.to_nat (p_line p))) by lia. cbn [nth_error]. reflexivity.
Qed.

Lemma splits_here a x b : b <> [] -> (splits_crlf (x ++ a) b <-> splits_crlf a b) \/ a = [].
Proof.
  intros _. destruct a as [|c a] using rev_ind; [right; reflexivity|]. left. clear IHa. unfold splits_crlf. split; intros ((a' & E) & B); (split; [|exact B]).
  - rewrite app_assoc in E. apply app_inj_tail in E. destruct E as [_ ->]. exists a. reflexivity.
  - apply app_inj_tail in E. destruct E as [_ ->]. exists (x ++ a). rewrite app_assoc. reflexivity.
Qed.
Lemma splits_tail x c a b : splits_crlf (x ++ c :: a) b <-> splits_crlf (c :: a) b.
Proof.
  unfold splits_crlf. destruct a as [|d a _] using rev_ind.
  - split; intros ((a' & E) & B); (split; [|exact B]).
    + apply app_inj_tail in E. destruct E as [_ ->]. exists []. reflexivity.
    + destruct a' as [|? [|? ?]]; try discriminate. injection E as ->. exists x. reflexivity.
  - rewrite app_comm_cons. split; intros ((a' & E) & B); (split; [|exact B]).
    + rewrite app_assoc in E. apply app_inj_tail in E. destruct E as [_ ->]. exists (c :: a). reflexivity.
    + apply app_inj_tail in E. destruct E as [_ ->]. exists (x ++ c :: a). rewrite app_assoc. reflexivity.
Qed.
Lemma splits_lf_front x a b : splits_crlf (x ++ 10 :: a) b <-> splits_crlf a b.
Proof.
  rewrite splits_tail. destruct a as [|c a].
  - unfold splits_crlf. split; intros ((a' & E) & B); [destruct a' as [|? [|? ?]]; discriminate|destruct a'; discriminate].
  - exact (splits_tail [10] c a b).
Qed.

Lemma on_text_lines s ls : text_lines s ls -> forall a b, s = a ++ b -> (on_text ls (pos_at a) <-> ~ splits_crlf a b).
Proof.
  induction 1 as [l H|l s ls H NR T IH|l s ls H T IH]; intros a b E.
  - subst l. assert (NL : no_lf a) by (intros X; apply H, in_or_app; left; exact X). rewrite (pos_at_first a NL).
    split; [|intros _; exists (a ++ b); split; [reflexivity|apply column_prefix]].
    intros _ (_ & b' & ->). apply H, in_or_app. right. left. reflexivity.
  - symmetry in E. apply app_split in E. destruct E as [(z & -> & E)|(z & E1 & E2)].
    + destruct z as [|c z]; cbn [app] in E.
      * subst b. rewrite app_nil_r. rewrite (pos_at_first l H). split; [|intros _; exists l; split; [reflexivity|]].
        -- intros _ ((a' & ->) & _). apply (NR a'). reflexivity.
        -- exists l, []. rewrite app_nil_r. split; reflexivity.
      * injection E as <- ->. rewrite (pos_at_line l z H), splits_lf_front, on_text_next. apply IH. reflexivity.
    + subst l b. assert (NL : no_lf a) by (intros X; apply H, in_or_app; left; exact X). rewrite (pos_at_first a NL).
      split; [|intros _; exists (a ++ z); split; [reflexivity|apply column_prefix]]. intros _ ((a' & ->) & b' & EB).
      destruct z as [|c z]; cbn [app] in EB.
      * apply (NR a'). rewrite app_nil_r. reflexivity.
      * injection EB as -> _. apply H, in_or_app. right. left. reflexivity.
  - assert (H13 : no_lf (l ++ [13])). { intros X. apply in_app_or in X. destruct X as [X|[X|[]]]; [exact (H X)|discriminate]. }
    replace (l ++ [13; 10] ++ s) with ((l ++ [13]) ++ 10 :: s) in E by (rewrite <- app_assoc; reflexivity).
    symmetry in E. apply app_split in E. destruct E as [(z & -> & E)|(z & E1 & E2)].
    + destruct z as [|c z]; cbn [app] in E.
      * subst b. rewrite app_nil_r. rewrite (pos_at_first _ H13). split.
        -- intros (line & G & C). cbn in G. injection G as <-. apply column_bound in C. cbn [p_char] in C. rewrite tlen_app, tlen_one in C. pose proof (len_pos 13). lia.
        -- intros X. exfalso. apply X. split; [exists l; reflexivity|exists s; reflexivity].
      * injection E as <- ->. rewrite (pos_at_line (l ++ [13]) z H13), splits_lf_front, on_text_next. apply IH. reflexivity.
    + subst b. destruct z as [|c z _] using rev_ind.
      * rewrite app_nil_r in E1. subst a. cbn [app]. rewrite (pos_at_first _ H13). split.
        -- intros (line & G & C). cbn in G. injection G as <-. apply column_bound in C. cbn [p_char] in C. rewrite tlen_app, tlen_one in C. pose proof (len_pos 13). lia.
        -- intros X. exfalso. apply X. split; [exists l; reflexivity|exists s; reflexivity].
      * rewrite app_assoc in E1. apply app_inj_tail in E1. destruct E1 as [-> <-].
        assert (NL : no_lf a) by (intros X; apply H, in_or_app; left; exact X). rewrite (pos_at_first a NL).
        split; [|intros _; exists (a ++ z); split; [reflexivity|apply column_prefix]]. intros _ ((a' & ->) & b' & EB).
        destruct z as [|c z]; cbn [app] in EB; [discriminate|]. injection EB as -> _. apply H, in_or_app. right. left. reflexivity.
Qed.
