(** Property theorems about crates/common.  Specifications: CommonSpec.v. *)
From Verif Require Import Base BaseProofs CommonModel CommonSpec SemverOrder CommonProofs.
From Coq Require Import Permutation.

(** C17 *)
Theorem C17_positions_total_order : total_order pos_cmp.
Proof. exact (good_total _ good_pos). Qed.
Print Assumptions C17_positions_total_order.
Theorem C17_positions_reading_order : forall a b, pos_cmp a b = Lt <-> pos_lt a b.
Proof. exact pos_cmp_lt. Qed.
Print Assumptions C17_positions_reading_order.
Theorem C17_plus_minus : forall p n, pos_minus (pos_plus p n) n = Some p.
Proof. exact pos_plus_minus. Qed.
Print Assumptions C17_plus_minus.
Theorem C17_minus_plus : forall p q n, pos_minus p n = Some q -> pos_plus q n = p.
Proof. exact pos_minus_plus. Qed.
Print Assumptions C17_minus_plus.
Example C17_nontrivial : pos_cmp (mkpos 1 9) (mkpos 2 0) = Lt /\ pos_minus (mkpos 1 9) 4 = Some (mkpos 1 5).
Proof. split; reflexivity. Qed.

(** C18 *)
Theorem C18_mark_reset : forall E W I (d : diags E W I) (rs : list (report E W I)),
  diag_reset (do_reports d rs) (diag_mark d) = d.
Proof. exact @mark_reset. Qed.
Print Assumptions C18_mark_reset.
Example C18_nontrivial :
  do_reports (mkdiags [1] [2] []) [RErr 5; RInfo 6; RErr 7] = mkdiags [1; 5; 7] [2] [6].
Proof. reflexivity. Qed.

(** C19 *)
Theorem C19_sort_diagnostics : forall E W I (se : E -> span) (sw : W -> span) (si : I -> span) (d : diags E W I),
  let d' := sort_diagnostics se sw si d in
  (Permutation (d_errors d') (d_errors d) /\ in_order se (d_errors d') /\
     forall p, starting_at se p (d_errors d') = starting_at se p (d_errors d)) /\
  (Permutation (d_warnings d') (d_warnings d) /\ in_order sw (d_warnings d') /\
     forall p, starting_at sw p (d_warnings d') = starting_at sw p (d_warnings d)) /\
  (Permutation (d_infos d') (d_infos d) /\ in_order si (d_infos d') /\
     forall p, starting_at si p (d_infos d') = starting_at si p (d_infos d)).
Proof.
  exact (fun E W I se sw si d => conj (diag_sort_spec se (d_errors d))
    (conj (diag_sort_spec sw (d_warnings d)) (diag_sort_spec si (d_infos d)))).
Qed.
Print Assumptions C19_sort_diagnostics.
Example C19_nontrivial :
  sort_by (diag_cmp (fun d : N * N => span_pos (mkpos (fst d) 0))) [(3, 1); (1, 2); (3, 0); (1, 1)]
  = [(1, 2); (1, 1); (3, 1); (3, 0)].
Proof. reflexivity. Qed.

(** C44 *)
Theorem C44_lines : forall s ls, lines s = ls <-> text_lines s ls.
Proof. exact lines_spec. Qed.
Print Assumptions C44_lines.
Example C44_nontrivial : lines [97; 13; 10; 13; 13; 10; 98; 13] = [[97]; [13]; [98; 13]].
Proof. reflexivity. Qed.

(** C45 *)
Theorem C45_no_control_characters : forall s, Forall (fun x => ~ is_control x) (fmt_str s).
Proof. exact fmt_str_no_control. Qed.
Print Assumptions C45_no_control_characters.
Theorem C45_printable_unchanged : forall s, Forall (fun x => ~ is_control x) s -> fmt_str s = s.
Proof. exact fmt_str_id. Qed.
Print Assumptions C45_printable_unchanged.
Theorem C45_control_characters_named : forall a c b,
  is_control c -> exists e, names_control c e /\ fmt_str (a ++ c :: b) = fmt_str a ++ e ++ fmt_str b.
Proof.
  intros a c b H. exists (fmt_char c). split; [exact (fmt_char_names c H)|].
  unfold fmt_str. rewrite flat_map_app. reflexivity.
Qed.
Print Assumptions C45_control_characters_named.
Example C45_nontrivial : fmt_str [97; 10; 27; 127] = bs "a\n\x1b\x7f".
Proof. reflexivity. Qed.
