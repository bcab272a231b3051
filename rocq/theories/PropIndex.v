(** Theorems about the sparse index (C41-C43).  Specification: IndexSpec.v. *)
From Verif Require Import Base BaseProofs CommonModel CommonProofs SemverOrder IndexModel IndexSpec IndexProofs.
From Verif Require SemverModel PropSemver.

(** ** C41 *)
Definition lower (b : N) : N := if (65 <=? b) && (b <=? 90) then b + 32 else b.

(** The address is that of the registry's layout, for the name as it is. *)
Theorem C41_layout name u : sparse_index_url CratesIo name = Ok u ->
  exists d, directory name d /\ u = bs "https://index.crates.io/" ++ d ++ name.
Proof. exact (index_url_inv name u). Qed.
(** Every ASCII name has an address, ... *)
Theorem C41_ascii_names name : name <> [] -> Forall (fun b => b < 128) name -> exists u, sparse_index_url CratesIo name = Ok u.
Proof.
  intros NE F. pose proof (ascii_valid _ F) as V. destruct (sparse_index_url CratesIo name) as [u|[]|] eqn:E; [eauto|]. exfalso.
  apply (index_url_panics _ V) in E.
  assert (SP : forall i, i <= blen name -> splits name i).
  { intros i L. exists (firstn (N.to_nat i) name), (skipn (N.to_nat i) name). rewrite <- (firstn_skipn (N.to_nat i) name) in F. apply Forall_app in F. destruct F as [F1 F2].
    split; [exact (ascii_valid _ F1)|]. split; [exact (ascii_valid _ F2)|]. split; [symmetry; apply firstn_skipn|]. unfold blen in *. rewrite firstn_length. lia. }
  destruct E as [E|[[L H]|[L H]]]; [contradiction| |].
  - apply H. apply SP. lia.
  - apply H. split; apply SP; lia.
Qed.
(** ... and of the others exactly those whose characters the layout does not
    split. *)
Theorem C41_panics name : valid_utf8 name ->
  (sparse_index_url CratesIo name = Panic <->
   name = [] \/ (blen name = 3 /\ ~ splits name 1) \/ (4 <= blen name /\ ~ (splits name 2 /\ splits name 4))).
Proof. exact (index_url_panics name). Qed.
(** Different names have different addresses. *)
Theorem C41_distinct a b u : sparse_index_url CratesIo a = Ok u -> sparse_index_url CratesIo b = Ok u -> a = b.
Proof.
  intros A B. apply index_url_inv in A, B. destruct A as (da & DA & ->). destruct B as (db & DB & E). apply app_inv_head in E.
  assert (L : length (da ++ a) = length (db ++ b)) by (rewrite E; reflexivity). rewrite !app_length in L.
  assert (X : length da = length db).
  { destruct DA, DB; cbn [length app bs] in *; rewrite ?app_length in *; cbn [length] in *; lia. }
  apply app_inv_len in E; [|exact X]. tauto.
Qed.
(** The name is not put into lower case as the layout asks. *)
Theorem C41_case_refuted : exists name d, directory (map lower name) d /\ Forall (fun b => b < 128) name /\ name <> [] /\
  sparse_index_url CratesIo name <> Ok (bs "https://index.crates.io/" ++ d ++ map lower name).
Proof. exists (bs "Inflector"), (bs "in/fl/"). split; [exact (dir_more 105 110 102 108 _)|]. split; [repeat constructor|]. split; [discriminate|]. vm_compute. discriminate. Qed.
Example C41_nontrivial : map (sparse_index_url CratesIo) [bs "a"; bs "cc"; bs "syn"; bs "serde"; [195; 164; 97]; [195; 164; 195; 164]] =
  [Ok (bs "https://index.crates.io/1/a"); Ok (bs "https://index.crates.io/2/cc"); Ok (bs "https://index.crates.io/3/s/syn");
   Ok (bs "https://index.crates.io/se/rd/serde"); Panic; Ok (bs "https://index.crates.io/" ++ [195; 164; 47; 195; 164; 47; 195; 164; 195; 164])].
Proof. vm_compute. reflexivity. Qed.

(** ** C43 *)
Theorem C43_total_order : total_order member_cmp.
Proof. exact (good_total _ good_member). Qed.
(** Features, then features of dependencies, then dependencies. *)
Theorem C43_order a b : member_cmp a b <> Gt <-> member_le a b.
Proof. exact (member_le_cmp a b). Qed.
(** What a member is. *)
Theorem C43_kinds m :
  (is_dep m = true <-> exists n, m = bs "dep:" ++ n) /\ (forall n, as_dep m = Some n <-> m = bs "dep:" ++ n) /\
  (is_dep_feature m = true <-> In 47 m) /\ (is_weak_dep_feature m = true <-> exists a b, m = a ++ bs "?/" ++ b).
Proof. split; [exact (is_dep_explicit m)|]. split; [intros n; exact (as_dep_some m n)|]. split; [exact (contains_slash m)|exact (weak_dep_feature m)]. Qed.
Example C43_nontrivial : map (fun p => member_cmp (bs (fst p)) (bs (snd p))) [("std", "a/b"); ("z/b", "dep:a"); ("dep:b", "dep:a"); ("a?/x", "a/x")]%string = [Lt; Lt; Gt; Gt].
Proof. reflexivity. Qed.

(** ** C42 *)

(** What [parse_crate] makes of a response, for any decoder of lines whose
    objects have distinct keys. *)
Section Crate.
  Context (decode : bytes -> res Empty_set (option entry)) (decode_ok : forall l e, decode l = Ok (Some e) -> entry_ok e).

  (** One version per line, ordered; equal versions keep the order of the
      lines. *)
  Theorem C42_versions s c : parse_crate decode s = Ok c ->
    exists ls es vs, file_lines s ls /\ es <> [] /\ Forall2 (fun l e => decode l = Ok (Some e)) ls es /\
      Forall (fun e => en_name e = ic_name c) es /\ Forall2 version_for es vs /\
      Permutation (ic_versions c) vs /\
      sorted_by (fun a b => SemverModel.version_cmp (iv_vers a) (iv_vers b) <> Gt) (ic_versions c) /\
      (forall f : iversion -> bool, (forall x y, f x = true -> f y = true -> iv_vers x = iv_vers y) -> filter f (ic_versions c) = filter f vs).
  Proof.
    unfold parse_crate. pose proof (str_lines_ok s) as FL. destruct (str_lines s) as [|l ls]; [discriminate|]. cbn [read_lines].
    destruct (decode l) as [[e|]|[]|] eqn:E; [|discriminate|discriminate]. cbn [bind].
    destruct (read_some decode ls (en_name e)) as [(es & F & F2 & ->)|(a & l0 & b & es & _ & _ & _ & [[_ ->]|[[_ ->]|(e' & _ & _ & ->)]])]; cbn [bind]; try discriminate.
    intros H. set (cmp := fun a b : iversion => SemverModel.version_cmp (iv_vers a) (iv_vers b)) in *.
    assert (HC : c = mkic (en_name e) (sort_by cmp (map read_version (e :: es)))) by (cbn [map]; congruence). subst c. clear H. cbn [ic_name ic_versions]. exists (l :: ls), (e :: es), (map read_version (e :: es)).
    assert (F3 : Forall2 (fun l e => decode l = Ok (Some e)) (l :: ls) (e :: es)) by (constructor; [exact E|exact F]).
    split; [exact FL|]. split; [discriminate|]. split; [exact F3|]. split; [constructor; [reflexivity|exact F2]|]. split.
    { clear - F3 decode_ok. revert F3. generalize (l :: ls), (e :: es). clear - decode_ok. intros ls es F. induction F; cbn [map]; constructor; eauto using read_version_ok. }
    set (vs := map read_version (e :: es)).
    split; [apply sort_perm|]. split.
    - apply (sorted_sorted_by cmp). destruct good_version as (G1 & G2 & G3). apply sort_sorted.
      + intros a b. apply G2.
      + destruct (good_total _ good_version) as (_ & _ & T & _). intros a b c. apply T.
    - intros f FE. apply sort_filter. intros x y X Y. unfold cmp. rewrite (FE x y X Y). rewrite (good_refl _ _ good_version). discriminate.
  Qed.
  (** When there is no crate. *)
  Definition same_name (n : option bytes) (e : entry) : Prop := n = None \/ n = Some (en_name e).
  Theorem C42_errors s :
    (parse_crate decode s = Err ENoVersion <-> s = []) /\
    (parse_crate decode s = Err EJson <-> exists ls a l b es n, file_lines s ls /\ ls = a ++ l :: b /\ Forall2 (fun l e => decode l = Ok (Some e)) a es /\
       Forall (fun e => en_name e = n) es /\ decode l = Ok None) /\
    (parse_crate decode s = Err EMismatchedNames <-> exists ls a l b es n e, file_lines s ls /\ ls = a ++ l :: b /\ Forall2 (fun l e => decode l = Ok (Some e)) a es /\
       es <> [] /\ Forall (fun e => en_name e = n) es /\ decode l = Ok (Some e) /\ en_name e <> n) /\
    (parse_crate decode s = Panic <-> exists ls a l b es n, file_lines s ls /\ ls = a ++ l :: b /\ Forall2 (fun l e => decode l = Ok (Some e)) a es /\
       Forall (fun e => en_name e = n) es /\ decode l = Panic).
  Proof.
    assert (LS : forall ls, file_lines s ls <-> str_lines s = ls) by (intros ls; symmetry; apply str_lines_spec).
    (* the outcomes *)
    assert (OC : (s = [] /\ parse_crate decode s = Err ENoVersion) \/
      (exists c, parse_crate decode s = Ok c) \/
      (exists a l b es n, str_lines s = a ++ l :: b /\ Forall2 (fun l e => decode l = Ok (Some e)) a es /\ Forall (fun e => en_name e = n) es /\
         ((decode l = Panic /\ parse_crate decode s = Panic) \/ (decode l = Ok None /\ parse_crate decode s = Err EJson) \/
          (es <> [] /\ exists e, decode l = Ok (Some e) /\ en_name e <> n /\ parse_crate decode s = Err EMismatchedNames)))).
    { unfold parse_crate. pose proof (str_lines_ok s) as FL. destruct (str_lines s) as [|l ls] eqn:SL.
      - left. split; [|reflexivity]. inversion FL; reflexivity.
      - right. cbn [read_lines]. destruct (decode l) as [[e|]|[]|] eqn:E.
        + cbn [bind]. destruct (read_some decode ls (en_name e)) as [(es & F & F2 & ->)|(a & l0 & b & es & -> & F & F2 & H)].
          * left. cbn [bind]. eexists. reflexivity.
          * right. exists (l :: a), l0, b, (e :: es), (en_name e). split; [reflexivity|]. split; [constructor; assumption|]. split; [constructor; [reflexivity|exact F2]|].
            destruct H as [[D ->]|[[D ->]|(e' & D & NE & ->)]]; [left; auto|right; left; auto|right; right; split; [discriminate|eauto]].
        + right. exists [], l, ls, [], []. split; [reflexivity|]. split; [constructor|]. split; [constructor|]. right; left. auto.
        + right. exists [], l, ls, [], []. split; [reflexivity|]. split; [constructor|]. split; [constructor|]. left. auto. }
    (* which are exclusive *)
    assert (U : forall a l b es a' l' b' es', str_lines s = a ++ l :: b -> Forall2 (fun l e => decode l = Ok (Some e)) a es -> str_lines s = a' ++ l' :: b' -> Forall2 (fun l e => decode l = Ok (Some e)) a' es' ->
      (length a < length a')%nat -> exists e q, decode l = Ok (Some e) /\ es' = es ++ e :: q).
    { intros a l b es a' l' b' es' E1 F1 E2 F2 L. rewrite E1 in E2. clear E1. revert a' es' es F1 F2 E2 L. induction a as [|x a IH]; intros a' es' es F1 F2 E2 L.
      - destruct a' as [|y a']; [cbn in L; lia|]. injection E2 as -> _. inversion F2 as [|? e ? es0 D F3]; subst. inversion F1; subst. exists e, es0. auto.
      - destruct a' as [|y a']; [cbn in L; lia|]. injection E2 as -> E2. inversion F2 as [|? e2 ? es2 D2 F3]; subst. inversion F1 as [|? e1 ? es1 D1 F4]; subst.
        destruct (IH _ _ _ F4 F3 E2 ltac:(cbn in L; lia)) as (e & q & D & ->). exists e, q. split; [exact D|]. cbn. congruence. }
    assert (V : forall a l b es a' l' b' es', str_lines s = a ++ l :: b -> Forall2 (fun l e => decode l = Ok (Some e)) a es -> str_lines s = a' ++ l' :: b' -> Forall2 (fun l e => decode l = Ok (Some e)) a' es' ->
      length a = length a' -> l = l' /\ es = es').
    { intros a l b es a' l' b' es' E1 F1 E2 F2 L. rewrite E1 in E2. apply app_inv_len in E2; [|exact L]. destruct E2 as [<- E2]. injection E2 as <- _. split; [reflexivity|].
      clear - F1 F2. revert es' F2. induction F1 as [|x e a es D F1 IH]; intros es' F2; inversion F2; subst; [reflexivity|]. f_equal; [congruence|auto]. }
    (* a bad line after the same prefix decides *)
    set (bad1 := fun x : res Empty_set (option entry) => exists a l b es n, str_lines s = a ++ l :: b /\ Forall2 (fun l e => decode l = Ok (Some e)) a es /\ Forall (fun e => en_name e = n) es /\ decode l = x).
    set (bad2 := exists a l b es n e, str_lines s = a ++ l :: b /\ Forall2 (fun l e => decode l = Ok (Some e)) a es /\ es <> [] /\ Forall (fun e => en_name e = n) es /\ decode l = Ok (Some e) /\ en_name e <> n).
    assert (X11 : forall x y, (forall e, x <> Ok (Some e)) -> (forall e, y <> Ok (Some e)) -> x <> y -> bad1 x -> bad1 y -> False).
    { intros x y X Y XY (a & l & b & es & n & E1 & F1 & N1 & D1) (a' & l' & b' & es' & n' & E2 & F2 & N2 & D2).
      assert (L : (length a < length a' \/ length a = length a' \/ length a' < length a)%nat) by lia. destruct L as [L|[L|L]].
      - destruct (U _ _ _ _ _ _ _ _ E1 F1 E2 F2 L) as (e & q & D & _). rewrite D1 in D. exact (X e D).
      - destruct (V _ _ _ _ _ _ _ _ E1 F1 E2 F2 L) as [-> _]. congruence.
      - destruct (U _ _ _ _ _ _ _ _ E2 F2 E1 F1 L) as (e & q & D & _). rewrite D2 in D. exact (Y e D). }
    assert (X12 : forall x, (forall e, x <> Ok (Some e)) -> bad1 x -> bad2 -> False).
    { intros x X (a & l & b & es & n & E1 & F1 & N1 & D1) (a' & l' & b' & es' & n' & e' & E2 & F2 & NE & N2 & D2 & NN).
      assert (L : (length a < length a' \/ length a = length a' \/ length a' < length a)%nat) by lia. destruct L as [L|[L|L]].
      - destruct (U _ _ _ _ _ _ _ _ E1 F1 E2 F2 L) as (e & q & D & _). rewrite D1 in D. exact (X e D).
      - destruct (V _ _ _ _ _ _ _ _ E1 F1 E2 F2 L) as [-> _]. rewrite D1 in D2. exact (X _ D2).
      - destruct (U _ _ _ _ _ _ _ _ E2 F2 E1 F1 L) as (e & q & D & ->). rewrite D2 in D. injection D as <-.
        apply Forall_app in N1. destruct N1 as [N1 N3]. apply Forall_inv in N3. destruct es' as [|e1 es']; [congruence|]. apply Forall_inv in N1, N2. congruence. }
    assert (XC : forall c, parse_crate decode s = Ok c -> (forall x, (forall e, x <> Ok (Some e)) -> ~ bad1 x) /\ ~ bad2).
    { intros c E. destruct (C42_versions s c E) as (ls & es & vs & FL & _ & F & N0 & _). apply LS in FL. split.
      - intros x X (a & l & b & es' & n & E1 & _ & _ & D). rewrite FL in E1. subst ls. rewrite E1 in F. apply Forall2_app_inv_l in F. destruct F as (y & z & _ & F & _). inversion F as [|? e0 ? z' D0 F3]; subst. exact (X _ D0).
      - intros (a & l & b & es' & n & e & E1 & F1 & NE & N1 & D & NN). rewrite FL in E1. subst ls. rewrite E1 in F. apply Forall2_app_inv_l in F. destruct F as (x & y & F2 & F & ->).
        inversion F as [|? e0 ? y' D0 F3]; subst. rewrite D in D0. injection D0 as <-. apply Forall_app in N0. destruct N0 as [N2 N3]. apply Forall_inv in N3.
        assert (EX : es' = x).
        { clear - F1 F2. revert x F2. induction F1 as [|p e a es D F1 IH]; intros x F2; inversion F2; subst; [reflexivity|]. f_equal; [congruence|auto]. }
        subst x. destruct es' as [|e1 es']; [congruence|]. apply Forall_inv in N1, N2. congruence. }
    assert (XN : s = [] -> (forall x, ~ bad1 x) /\ ~ bad2).
    { intros ->. split; [intros x (a & l & b & _ & _ & E & _)|intros (a & l & b & _ & _ & _ & E & _)]; destruct a; discriminate. }
    assert (B1 : forall x, bad1 x <-> exists ls a l b es n, file_lines s ls /\ ls = a ++ l :: b /\ Forall2 (fun l e => decode l = Ok (Some e)) a es /\ Forall (fun e => en_name e = n) es /\ decode l = x).
    { intros x. split; [intros (a & l & b & es & n & H)|intros (ls & a & l & b & es & n & FL & -> & H); apply LS in FL]; [exists (str_lines s), a, l, b, es, n; split; [apply LS; reflexivity|exact H]|exists a, l, b, es, n; auto]. }
    assert (B2 : bad2 <-> exists ls a l b es n e, file_lines s ls /\ ls = a ++ l :: b /\ Forall2 (fun l e => decode l = Ok (Some e)) a es /\ es <> [] /\ Forall (fun e => en_name e = n) es /\ decode l = Ok (Some e) /\ en_name e <> n).
    { split; [intros (a & l & b & es & n & e & H)|intros (ls & a & l & b & es & n & e & FL & -> & H); apply LS in FL]; [exists (str_lines s), a, l, b, es, n, e; split; [apply LS; reflexivity|exact H]|exists a, l, b, es, n, e; auto]. }
    rewrite <- (B1 (Ok None)), <- (B1 Panic), <- B2. clear B1 B2.
    assert (NO : forall e, (Ok None : res Empty_set (option entry)) <> Ok (Some e)) by discriminate. assert (NP : forall e, (Panic : res Empty_set (option entry)) <> Ok (Some e)) by discriminate.
    destruct OC as [[-> E]|[(c & E)|(a & l & b & es & n & SL & F & N0 & [[D E]|[[D E]|(NE & e & D & NN & E)]])]]; rewrite E.
    - destruct (XN eq_refl) as [A B]. specialize (A Panic) as A1. specialize (A (Ok None)). repeat split; try congruence; try tauto.
    - destruct (XC c E) as [A B]. specialize (A Panic NP) as A1. specialize (A (Ok None) NO). assert (s <> []) by (intros ->; discriminate). repeat split; try congruence; try tauto.
    - assert (Y : bad1 Panic) by (exists a, l, b, es, n; auto). assert (s <> []) by (intros X; destruct (XN X) as [A _]; exact (A _ Y)).
      assert (NX : ~ bad1 (Ok None)) by (intros Z; exact (X11 _ _ NP NO ltac:(discriminate) Y Z)). pose proof (X12 _ NP Y). repeat split; try congruence; try tauto; intros H1; exfalso; tauto.
    - assert (Y : bad1 (Ok None)) by (exists a, l, b, es, n; auto). assert (s <> []) by (intros X; destruct (XN X) as [A _]; exact (A _ Y)).
      assert (NX : ~ bad1 Panic) by (intros Z; exact (X11 _ _ NP NO ltac:(discriminate) Z Y)). pose proof (X12 _ NO Y). repeat split; try congruence; try tauto; intros H1; exfalso; tauto.
    - assert (Y : bad2) by (exists a, l, b, es, n, e; auto 10). assert (s <> []) by (intros X; destruct (XN X); tauto).
      assert (NX : ~ bad1 Panic) by (intros Z; exact (X12 _ NP Z Y)). assert (NX' : ~ bad1 (Ok None)) by (intros Z; exact (X12 _ NO Z Y)). repeat split; try congruence; try tauto; intros H1; exfalso; tauto.
  Qed.
End Crate.

(** A feature in both maps of a line loses the members of the older one. *)
Theorem C42_merge_refuted : exists e f m, entry_ok e /\ In (f, [m]) (en_features e) /\ forall ms, members e f ms -> ~ exists m', normalised e m m' /\ In m' ms.
Proof.
  exists (mkentry (bs "c") (SemverModel.mkver 1 0 0 [] []) [(bs "f", [bs "a"])] [(bs "f", [])] [] false None), (bs "f"), (bs "a").
  split; [split; repeat constructor; intros []|]. split; [left; reflexivity|].
  intros ms (l & l' & L & F & P & _) (m' & _ & I0). inversion L as [H|H N0]; cbn in H.
  - destruct H as [H|[]]. injection H as <-. inversion F; subst. apply Permutation_nil in P. subst. exact I0.
  - apply N0. left. reflexivity.
Qed.

(** A response of two lines. *)
Definition index_entry (l : bytes) : res Empty_set (option entry) :=
  if bytes_eqb l [97] then
    Ok (Some (mkentry (bs "c") (SemverModel.mkver 1 10 0 [] []) [(bs "default", [bs "x"]); (bs "z", [bs "o/f"; bs "o"; bs "dep:p"; bs "x"])] [(bs "x", [])]
            [mkidep (bs "o") None (SemverModel.mkreq pos_zero 0 []) true [] INormal None true] false None))
  else if bytes_eqb l [98] then Ok (Some (mkentry (bs "c") (SemverModel.mkver 1 9 0 [] []) [] [] [] true None))
  else Ok None.
Example C42_nontrivial : (forall l e, index_entry l = Ok (Some e) -> entry_ok e) /\
  match parse_crate index_entry [97; 13; 10; 98; 10] with
  | Ok c => ic_name c = bs "c" /\ map (fun v => (SemverModel.v_minor (iv_vers v), iv_default v, iv_features v)) (ic_versions c) =
      [(9, None, []); (10, Some [bs "x"], [(bs "x", []); (bs "z", [bs "x"; bs "o/f"; bs "dep:o"; bs "dep:p"])])]
  | _ => False
  end.
Proof.
  split; [|vm_compute; split; reflexivity]. intros l e. unfold index_entry.
  destruct (bytes_eqb l [97]); [intros H; injection H as <-; split; repeat constructor; cbn; intuition discriminate|].
  destruct (bytes_eqb l [98]); [|discriminate]. intros H. injection H as <-. split; constructor.
Qed.

Print Assumptions C41_layout.
Print Assumptions C41_ascii_names.
Print Assumptions C41_panics.
Print Assumptions C41_distinct.
Print Assumptions C41_case_refuted.
Print Assumptions C43_total_order.
Print Assumptions C43_order.
Print Assumptions C43_kinds.
Print Assumptions C42_versions.
Print Assumptions C42_errors.
Print Assumptions C42_merge_refuted.
