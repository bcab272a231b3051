(** Proofs about the common crate: C17-C19, C44, C45. *)
From Verif Require Import Base BaseProofs CommonModel CommonSpec SemverOrder.
From Coq Require Import Permutation.
Ltac Zify.zify_post_hook ::= Z.div_mod_to_equations.

Lemma good_pos : good_cmp pos_cmp.
Proof.
  set (k := fun v => (p_line v, p_char v)).
  assert (G : good_cmp (fun a b => pair_cmp N.compare N.compare (k a) (k b))).
  { apply (good_key k).
    - intros [a b] [c d]. unfold k. cbn. congruence.
    - apply good_pair; apply good_N. }
  assert (E : forall a b, pos_cmp a b = pair_cmp N.compare N.compare (k a) (k b)).
  { intros a b. unfold pos_cmp, pair_cmp, k, SemverModel.then_cmp. cbn [fst snd]. destruct (p_line a ?= p_line b); reflexivity. }
  destruct G as (G1 & G2 & G3). split; [|split]; intros; rewrite !E in *; [apply G1|apply G2|eapply G3; eassumption].
Qed.

Lemma pos_cmp_lt a b : pos_cmp a b = Lt <-> pos_lt a b.
Proof.
  unfold pos_cmp, pos_lt. destruct (N.compare_spec (p_line a) (p_line b)) as [E|E|E].
  - rewrite N.compare_lt_iff. lia.
  - split; [left; assumption|reflexivity].
  - split; [discriminate|]. lia.
Qed.

Lemma pos_plus_minus p n : pos_minus (pos_plus p n) n = Some p.
Proof.
  unfold pos_minus, pos_plus. cbn [p_char p_line]. replace (n <=? p_char p + n) with true by lia.
  destruct p as [l c]. cbn. do 2 f_equal. lia.
Qed.

Lemma pos_minus_plus p q n : pos_minus p n = Some q -> pos_plus q n = p.
Proof.
  unfold pos_minus, pos_plus. destruct (n <=? p_char p) eqn:E; [|discriminate].
  intros H. injection H as <-. destruct p as [l c]. cbn in *. f_equal. lia.
Qed.

(** ** Marks *)

Lemma firstn_app_exact {A} (a b : list A) : firstn (length a) (a ++ b) = a.
Proof. rewrite firstn_app, Nat.sub_diag, firstn_all. cbn. apply app_nil_r. Qed.

Lemma reports_append {E W I} (rs : list (report E W I)) : forall d,
  exists es ws is, do_reports d rs = mkdiags (d_errors d ++ es) (d_warnings d ++ ws) (d_infos d ++ is).
Proof.
  induction rs as [|r rs IH]; intros d.
  - exists [], [], []. rewrite !app_nil_r. destruct d; reflexivity.
  - unfold do_reports in *. cbn [fold_left].
    destruct (IH (do_report d r)) as (es & ws & is & E0). rewrite E0.
    destruct r; cbn [do_report diag_error diag_warn diag_info d_errors d_warnings d_infos].
    + exists (e :: es), ws, is. rewrite <- app_assoc. reflexivity.
    + exists es, (w :: ws), is. rewrite <- app_assoc. reflexivity.
    + exists es, ws, (i :: is). rewrite <- app_assoc. reflexivity.
Qed.

Lemma mark_reset {E W I} (d : diags E W I) rs : diag_reset (do_reports d rs) (diag_mark d) = d.
Proof.
  destruct (reports_append rs d) as (es & ws & is & ->).
  unfold diag_reset, diag_mark. cbn [m_error m_warning m_info d_errors d_warnings d_infos].
  rewrite !firstn_app_exact. destruct d; reflexivity.
Qed.

(** ** Sorting *)
Section SortProofs.
  Context {A : Type} (cmp : A -> A -> comparison).
  Context (total : forall a b, cmp a b = CompOpp (cmp b a)).
  Context (trans : forall a b c, cmp a b <> Gt -> cmp b c <> Gt -> cmp a c <> Gt).

  Inductive sorted : list A -> Prop :=
  | sorted_nil : sorted []
  | sorted_cons x l : Forall (fun y => cmp x y <> Gt) l -> sorted l -> sorted (x :: l).

  Lemma insert_perm x l : Permutation (sort_insert cmp x l) (x :: l).
  Proof.
    induction l as [|y l IH]; cbn [sort_insert]; [reflexivity|].
    destruct (cmp x y); try reflexivity. rewrite IH. apply perm_swap.
  Qed.

  Lemma sort_perm l : Permutation (sort_by cmp l) l.
  Proof.
    induction l as [|x l IH]; cbn [sort_by]; [reflexivity|]. rewrite insert_perm, IH. reflexivity.
  Qed.

  Lemma insert_sorted x l : sorted l -> sorted (sort_insert cmp x l).
  Proof.
    induction 1 as [|y l F S IH]; cbn [sort_insert]; [constructor; constructor|].
    destruct (cmp x y) eqn:C.
    - constructor; [|constructor; assumption]. constructor; [congruence|].
      eapply Forall_impl; [|exact F]. intros z H. apply (trans x y z); congruence.
    - constructor; [|constructor; assumption]. constructor; [congruence|].
      eapply Forall_impl; [|exact F]. intros z H. apply (trans x y z); congruence.
    - constructor; [|assumption]. eapply Permutation_Forall; [symmetry; apply insert_perm|].
      constructor; [|assumption]. rewrite total, C. discriminate.
  Qed.

  Lemma sort_sorted l : sorted (sort_by cmp l).
  Proof. induction l as [|x l IH]; cbn [sort_by]; [constructor|]. apply insert_sorted; assumption. Qed.

  (** Stability: elements that compare equal keep their order. *)
  Lemma insert_filter (f : A -> bool) x l :
    (forall y, f x = true -> f y = true -> cmp x y <> Gt) ->
    filter f (sort_insert cmp x l) = filter f (x :: l).
  Proof.
    intros H. induction l as [|y l IH]; cbn [sort_insert]; [reflexivity|].
    destruct (cmp x y) eqn:C; try reflexivity.
    cbn [filter] in *. rewrite IH. destruct (f x) eqn:FX; [|reflexivity].
    destruct (f y) eqn:FY; [|reflexivity]. exfalso. apply (H y eq_refl FY). assumption.
  Qed.

  Lemma sort_filter (f : A -> bool) l :
    (forall x y, f x = true -> f y = true -> cmp x y <> Gt) ->
    filter f (sort_by cmp l) = filter f l.
  Proof.
    intros H. induction l as [|x l IH]; cbn [sort_by]; [reflexivity|].
    rewrite insert_filter by (intros; apply H; assumption). cbn [filter]. rewrite IH. reflexivity.
  Qed.

  Lemma sorted_split l : sorted l -> forall a x b y c, l = a ++ x :: b ++ y :: c -> cmp x y <> Gt.
  Proof.
    induction 1 as [|z l F S IH]; intros [|w a] x b y c E; cbn in E; try discriminate.
    - injection E as -> ->. rewrite Forall_forall in F. apply F. apply in_or_app. right. left. reflexivity.
    - injection E as -> ->. eapply IH. reflexivity.
  Qed.
End SortProofs.

Section DiagSort.
  Context {D : Type} (span_of : D -> span).

  Lemma diag_cmp_total a b : diag_cmp span_of a b = CompOpp (diag_cmp span_of b a).
  Proof. destruct good_pos as (_ & S & _). unfold diag_cmp, span_cmp. apply S. Qed.
  Lemma diag_cmp_trans a b c : diag_cmp span_of a b <> Gt -> diag_cmp span_of b c <> Gt -> diag_cmp span_of a c <> Gt.
  Proof. destruct (good_total _ good_pos) as (_ & _ & T & _). unfold diag_cmp, span_cmp. apply T. Qed.

  Lemma diag_sort_spec l :
    Permutation (sort_by (diag_cmp span_of) l) l /\
    in_order span_of (sort_by (diag_cmp span_of) l) /\
    (forall p, starting_at span_of p (sort_by (diag_cmp span_of) l) = starting_at span_of p l).
  Proof.
    split; [apply sort_perm|]. split.
    - intros a x b y c E. pose proof (sorted_split (diag_cmp span_of) _
        (sort_sorted _ diag_cmp_total diag_cmp_trans l) a x b y c E) as H.
      rewrite <- pos_cmp_lt. intros L. apply H. rewrite diag_cmp_total. unfold diag_cmp, span_cmp. rewrite L. reflexivity.
    - intros p. apply sort_filter. intros x y. unfold pos_eqb, diag_cmp, span_cmp. intros Hx Hy.
      assert (E : s_start (span_of x) = s_start (span_of y)).
      { destruct (s_start (span_of x)), (s_start (span_of y)). cbn in *. f_equal; lia. }
      rewrite E. rewrite (good_refl pos_cmp) by apply good_pos. discriminate.
  Qed.
End DiagSort.

(** ** Lines *)

Lemma split10_app l s : ~ In 10 l -> split_on 10 (l ++ 10 :: s) = l :: split_on 10 s.
Proof.
  intros H. rewrite split_app.
  - rewrite split_sep. rewrite app_nil_r. reflexivity.
  - apply Forall_forall. intros x I ->. auto.
Qed.
Lemma split10_none l : ~ In 10 l -> split_on 10 l = [l].
Proof.
  intros H. rewrite <- (app_nil_r l) at 1. rewrite split_app; [cbn; rewrite app_nil_r; reflexivity|].
  apply Forall_forall. intros x I ->. auto.
Qed.

Lemma strip_cr_no l : (forall r, l <> r ++ [13]) -> strip_cr l = l.
Proof.
  intros H. unfold strip_cr. destruct (rev l) as [|x r] eqn:E; [reflexivity|].
  assert (L : l = rev r ++ [x]) by (rewrite <- (rev_involutive l), E; reflexivity).
  assert (x <> 13) by (intros ->; eapply H; exact L).
  destruct x as [|q]; [reflexivity|]. repeat (destruct q as [q|q|]; try reflexivity; try congruence).
Qed.
Lemma strip_cr_yes l : strip_cr (l ++ [13]) = l.
Proof. unfold strip_cr. rewrite rev_app_distr. cbn. apply rev_involutive. Qed.

Lemma text_lines_nonempty s ls : text_lines s ls -> ls <> [].
Proof. destruct 1; discriminate. Qed.

Lemma strip_terminated_cons l r : r <> [] -> strip_terminated (l :: r) = strip_cr l :: strip_terminated r.
Proof. destruct r; [congruence|reflexivity]. Qed.

Lemma text_lines_complete s ls : text_lines s ls -> lines s = ls.
Proof.
  unfold lines. induction 1 as [l H|l s ls H NR T IH|l s ls H T IH].
  - rewrite split10_none by assumption. reflexivity.
  - cbn [app]. rewrite split10_app by assumption.
    rewrite strip_terminated_cons by apply split_on_nonempty. rewrite strip_cr_no, IH by assumption. reflexivity.
  - change (l ++ [13; 10] ++ s) with (l ++ [13] ++ 10 :: s). rewrite app_assoc.
    rewrite split10_app.
    2:{ intros I. apply in_app_or in I as [I|[I|[]]]; [auto|discriminate]. }
    rewrite strip_terminated_cons by apply split_on_nonempty. rewrite strip_cr_yes, IH. reflexivity.
Qed.

Lemma cut_newline (s : bytes) : (~ In 10 s) \/ exists l r, s = l ++ 10 :: r /\ ~ In 10 l.
Proof.
  induction s as [|x s IH]; [left; auto|].
  destruct (N.eq_dec x 10) as [->|NE]; [right; exists [], s; auto|].
  destruct IH as [H|(l & r & -> & H)].
  - left. intros [E|I]; auto.
  - right. exists (x :: l), r. split; [reflexivity|]. intros [E|I]; auto.
Qed.

Lemma snoc_cases (l : bytes) : (forall r, l <> r ++ [13]) \/ exists r, l = r ++ [13].
Proof.
  destruct l as [|x l] using rev_ind; [left; intros [|]; discriminate|].
  destruct (N.eq_dec x 13) as [->|NE]; [right; eauto|]. left. intros r E. apply app_inj_tail in E as [_ E]. congruence.
Qed.

Lemma text_lines_exist n : forall s, (length s <= n)%nat -> exists ls, text_lines s ls.
Proof.
  induction n as [|n IH]; intros s L.
  - destruct s; [|cbn in L; lia]. exists [[]]. constructor. auto.
  - destruct (cut_newline s) as [H|(l & r & -> & H)]; [exists [s]; constructor; assumption|].
    rewrite app_length in L. cbn [length] in L. destruct (IH r) as (ls & T); [lia|].
    destruct (snoc_cases l) as [NR|(l' & ->)].
    + exists (l :: ls). apply TL_lf; assumption.
    + exists (l' :: ls). rewrite <- app_assoc. apply (TL_crlf l' r ls); [|assumption].
      intros I. apply H. apply in_or_app. auto.
Qed.

Lemma lines_spec s ls : lines s = ls <-> text_lines s ls.
Proof.
  split; [|apply text_lines_complete]. intros <-.
  destruct (text_lines_exist (length s) s) as (ls & T); [lia|]. rewrite (text_lines_complete s ls T). exact T.
Qed.

(** ** Escaping of control characters *)

Lemma hex_digit_printable n : n < 16 -> ~ is_control (hex_digit n).
Proof. unfold hex_digit, is_control. destruct (n <? 10) eqn:E; lia. Qed.

Lemma fmt_char_cases c :
  (is_control c /\ Forall (fun x => ~ is_control x) (fmt_char c)) \/ (~ is_control c /\ fmt_char c = [c]).
Proof.
  assert (P : forall x, 32 <= x <= 126 -> ~ is_control x) by (unfold is_control; lia).
  destruct (N.eq_dec c 8) as [->|N8]; [left; split; [left; lia|repeat constructor; apply P; cbn; lia]|].
  destruct (N.eq_dec c 9) as [->|N9]; [left; split; [left; lia|repeat constructor; apply P; cbn; lia]|].
  destruct (N.eq_dec c 10) as [->|N10]; [left; split; [left; lia|repeat constructor; apply P; cbn; lia]|].
  destruct (N.eq_dec c 12) as [->|N12]; [left; split; [left; lia|repeat constructor; apply P; cbn; lia]|].
  destruct (N.eq_dec c 13) as [->|N13]; [left; split; [left; lia|repeat constructor; apply P; cbn; lia]|].
  assert (E : fmt_char c = if (c <=? 31) || (c =? 127) then bs "\x" ++ [hex_digit (c / 16); hex_digit (c mod 16)] else [c]).
  { unfold fmt_char. destruct c as [|q]; [reflexivity|].
    do 4 (destruct q as [q|q|]; try reflexivity; try congruence). }
  rewrite E. destruct ((c <=? 31) || (c =? 127)) eqn:B.
  - left. split; [unfold is_control; lia|]. cbn [bs app]. repeat constructor; try (apply P; cbn; lia);
      apply hex_digit_printable; lia.
  - right. split; [unfold is_control; lia|reflexivity].
Qed.

Lemma fmt_str_no_control s : Forall (fun x => ~ is_control x) (fmt_str s).
Proof.
  unfold fmt_str. induction s as [|c s IH]; cbn [flat_map]; [constructor|].
  apply Forall_app. split; [|assumption].
  destruct (fmt_char_cases c) as [(_ & F)|(H & ->)]; [assumption|constructor; [assumption|constructor]].
Qed.

Lemma fmt_str_id s : Forall (fun x => ~ is_control x) s -> fmt_str s = s.
Proof.
  unfold fmt_str. induction 1 as [|c s H F IH]; cbn [flat_map]; [reflexivity|].
  destruct (fmt_char_cases c) as [(C & _)|(_ & ->)]; [contradiction|]. cbn. rewrite IH. reflexivity.
Qed.

Lemma hex_digit_char n : n < 16 -> hex_char (hex_digit n) n.
Proof.
  intros H. unfold hex_char, hex_digit.
  assert (C : exists k, (k < 16)%nat /\ n = N.of_nat k) by (exists (N.to_nat n); lia).
  destruct C as (k & K & ->). rewrite Nnat.Nat2N.id.
  do 16 (destruct k as [|k]; [reflexivity|]). lia.
Qed.

Lemma fmt_char_names c : is_control c -> names_control c (fmt_char c).
Proof.
  intros H. assert (D := N.div_mod c 16 ltac:(lia)). assert (M := N.mod_upper_bound c 16 ltac:(lia)).
  assert (G : fmt_char c = bs "\x" ++ [hex_digit (c / 16); hex_digit (c mod 16)] -> names_control c (fmt_char c)).
  { intros ->. eapply NC_x; [apply hex_digit_char|apply hex_digit_char|]; try lia.
    unfold is_control in H. apply N.div_lt_upper_bound; lia. }
  destruct (N.eq_dec c 8) as [->|]; [apply NC_b; reflexivity|].
  destruct (N.eq_dec c 9) as [->|]; [apply NC_t; reflexivity|].
  destruct (N.eq_dec c 10) as [->|]; [apply NC_n; reflexivity|].
  destruct (N.eq_dec c 12) as [->|]; [apply NC_f; reflexivity|].
  destruct (N.eq_dec c 13) as [->|]; [apply NC_r; reflexivity|].
  apply G. unfold fmt_char.
  replace ((c <=? 31) || (c =? 127)) with true by (unfold is_control in H; lia).
  destruct c as [|q]; [reflexivity|].
  do 4 (destruct q as [q|q|]; try reflexivity; try congruence).
Qed.
