(** Theorems about reading the index: versions and requirements in JSON (C68)
    and the fetched crate (C67). *)
From Verif Require Import Base BaseProofs CommonModel IndexModel IndexSpec IndexProofs PropIndex FetchModel FetchSpec FetchProofs.
From Verif Require SemverModel SemverSpec PropSemver DiagModel.

(** ** C68 *)

(** What is written is read back. *)
Theorem C68_version_roundtrip prof v : SemverSpec.version_wf v -> visit_version prof (serialize_version v) = Ok v.
Proof. intros W. unfold visit_version, serialize_version. rewrite (PropSemver.C06_version_parse_display prof v pos_zero W). reflexivity. Qed.
Theorem C68_requirement_roundtrip s r : visit_requirement Debug s = Ok r ->
  serialize_requirement r = Some s.
Proof.
  unfold visit_requirement, serialize_requirement. destruct (SemverModel.parse_requirement Debug s pos_zero) as [r'|e|] eqn:E; try discriminate. intros H. injection H as <-.
  exact (proj1 (PropSemver.C08_requirement_display _ _ _ E)).
Qed.
(** Only versions and requirements of the grammar are read; every version that
    is read can be written and read again. *)
Theorem C68_version_read s v : visit_version Debug s = Ok v <-> SemverSpec.version_grammar s v.
Proof.
  rewrite <- (PropSemver.C04_parse_version_grammar s pos_zero v). unfold visit_version. destruct (SemverModel.parse_version Debug s pos_zero) as [v'|e|]; split; congruence.
Qed.
Theorem C68_version_wf s v : visit_version Debug s = Ok v -> SemverSpec.version_wf v.
Proof.
  unfold visit_version. destruct (SemverModel.parse_version Debug s pos_zero) as [v'|e|] eqn:E; try discriminate. intros H. injection H as <-. exact (PropSemver.C06_parsed_versions_wf _ _ _ E).
Qed.
Theorem C68_requirement_read s r : visit_requirement Debug s = Ok r <-> exists cs, SemverSpec.req_grammar s cs /\ r = SemverModel.mkreq pos_zero (blen s) cs.
Proof.
  rewrite <- (PropSemver.C07_parse_requirement_grammar s pos_zero r). unfold visit_requirement. destruct (SemverModel.parse_requirement Debug s pos_zero) as [r'|e|]; split; congruence.
Qed.
(** Otherwise the message is that of an error which is true of the text. *)
Theorem C68_messages prof s m : valid_utf8 s -> visit_version prof s = Err m \/ visit_requirement prof s = Err m ->
  exists e, SemverSpec.error_marks pos_zero s e /\ m = DiagModel.semver_description e.
Proof.
  intros U [H|H]; [unfold visit_version in H; destruct (SemverModel.parse_version prof s pos_zero) as [v|e|] eqn:E|unfold visit_requirement in H; destruct (SemverModel.parse_requirement prof s pos_zero) as [v|e|] eqn:E]; try discriminate; injection H as <-; exists e; (split; [|reflexivity]).
  - eapply PropSemver.C15_version_errors_say; eassumption.
  - eapply PropSemver.C15_requirement_errors_say; eassumption.
Qed.
Example C68_nontrivial :
  serialize_version (SemverModel.mkver 1 2 3 (bs "a.0") (bs "b")) = bs "1.2.3-a.0+b" /\
  visit_version Debug (bs "1.2") = Err (bs "missing dot after minor version number") /\
  (exists r, visit_requirement Debug (bs ">= 1.2, <2") = Ok r /\ serialize_requirement r = Some (bs ">= 1.2, <2")).
Proof. split; [reflexivity|]. split; [reflexivity|]. eexists. split; [vm_compute; reflexivity|vm_compute; reflexivity]. Qed.

(** ** C69: a line of the index *)
Section Line.
  Context (json : bytes -> option jval).
  (** A line is a version exactly if it is JSON that describes one. *)
  Theorem C69_lines line e : decode Debug json line = Ok (Some e) <-> exists j, json line = Some j /\ entry_of j e.
  Proof.
    unfold decode. destruct (json line) as [j|]; [|split; [discriminate|intros (j & E & _); discriminate]].
    split.
    - destruct (de_entry Debug j) as [e'|x|] eqn:D; try discriminate. intros H. injection H as <-. exists j. split; [reflexivity|]. apply (entry_reads Debug j e' (or_introl eq_refl)). exact D.
    - intros (j' & E & F). injection E as <-. apply (entry_reads Debug j e (or_introl eq_refl)) in F. rewrite F. reflexivity.
  Qed.
  (** The same in every build, if no number is near 2^32 (C05). *)
  Theorem C69_lines_any_build prof line j e : json line = Some j ->
    (forall s, mentions j s -> valid_utf8 s /\ ~ SemverSpec.contains_overflow s) ->
    (decode prof json line = Ok (Some e) <-> entry_of j e).
  Proof.
    intros E ST. unfold decode. rewrite E. rewrite <- (entry_reads prof j e (or_intror ST)). destruct (de_entry prof j); split; congruence.
  Qed.
  Theorem C69_panics prof line : (forall j s, json line = Some j -> mentions j s -> valid_utf8 s) -> decode prof json line = Panic ->
    prof = Debug /\ exists j s, json line = Some j /\ mentions j s /\ SemverSpec.contains_overflow s.
  Proof.
    intros T. unfold decode. destruct (json line) as [j|]; [|discriminate]. destruct (de_entry prof j) eqn:D; try discriminate. intros _.
    destruct (entry_panic prof j (fun s => T j s eq_refl) D) as (P & s & M & O). eauto 8.
  Qed.
End Line.
(** A line of the index as crates.io writes it ... *)
Definition index_line (rust : jval) : jval :=
  JObject [(true, bs "name", JString true (bs "syn")); (true, bs "vers", JString true (bs "2.0.0"));
    (true, bs "deps", JArray [JObject [(true, bs "name", JString true (bs "quote")); (true, bs "req", JString true (bs "^1.0.25"));
       (true, bs "features", JArray []); (true, bs "optional", JBool true); (true, bs "default_features", JBool false);
       (true, bs "target", JNull); (true, bs "kind", JString true (bs "normal"))]]);
    (true, bs "cksum", JString true (bs "42")); (true, bs "features", JObject [(true, bs "printing", JArray [JString true (bs "quote")])]);
    (true, bs "yanked", JBool false); (true, bs "rust_version", rust)].
Definition index_entry2 (rust : option SemverModel.version) : entry :=
  mkentry (bs "syn") (SemverModel.mkver 2 0 0 [] []) [(bs "printing", [bs "quote"])] []
    [mkidep (bs "quote") None (SemverModel.mkreq pos_zero 7 [SemverModel.mkcomp 0 SemverModel.OpCr 1 (SemverModel.CPatch 1 0 25 None) None]) false [] INormal None true] false rust.
Theorem C69_example : de_entry Debug (index_line (JString true (bs "1.56.0"))) = Ok (index_entry2 (Some (SemverModel.mkver 1 56 0 [] []))) /\
  de_entry Debug (index_line JNull) = Ok (index_entry2 None).
Proof. split; vm_compute; reflexivity. Qed.
(** ... but the usual form of a [rust_version], without a patch number, makes
    the line unreadable, and so does an escape in the name of a feature. *)
Theorem C69_rust_version_refuted : forall e, ~ entry_of (index_line (JString true (bs "1.56"))) e.
Proof. intros e H. apply (entry_reads Debug _ _ (or_introl eq_refl)) in H. vm_compute in H. discriminate. Qed.
Theorem C69_escapes_refuted : forall ms e, entry_of (JObject ms) e -> forall fs, only ms (bs "features") (JObject fs) -> ~ exists k j, In (false, k, j) fs.
Proof.
  intros ms e H fs (a & x & b & E1 & N1 & N2) (k & j & I0). inversion H as [ms' e' _ _ (j1 & (a' & x' & b' & E2 & N3 & N4) & (fs' & -> & F & _)) _ _ _ _|]; subst ms' e'.
  assert (ES : fs' = fs).
  { rewrite E1 in E2. clear - E2 N1 N2 N3 N4. revert a' E2 N3. induction a as [|[[y k] i] a IH]; intros [|[[y' k'] i'] a'] E2 N3.
    - injection E2 as _ E _. congruence.
    - injection E2 as <- <- <- E. exfalso. apply N3. left. reflexivity.
    - injection E2 as E3 E4 E5 E6. exfalso. apply N1. left. exact E4.
    - injection E2 as <- <- <- E. apply (IH ltac:(intros X; apply N1; right; exact X) a' E). intros X. apply N3. right. exact X. }
  subst fs'. apply (proj1 (Forall_forall _ _) F) in I0. destruct I0 as [X _]. discriminate.
Qed.

(** ** C67: fetching a crate *)
Lemma directory_unique n d d' : directory n d -> directory n d' -> d = d'.
Proof. intros A B. inversion A; subst; inversion B; subst; reflexivity. Qed.
Section Fetch.
  Context (json : bytes -> option jval) (uri_ok : bytes -> bool) (send : bytes -> option (N * bytes)).
  Notation fetch := (fetch_crate Debug json uri_ok send).

  (** The crate, if there is one: the response is success and text; every line
      of it describes a version, all of the same name; the versions are those
      of the lines, in order. *)
  Theorem C67_crate name c : fetch CratesIo name = Ok c ->
    exists d status body ls js es vs, directory name d /\ send (bs "https://index.crates.io/" ++ d ++ name) = Some (status, body) /\
      200 <= status <= 299 /\ valid_utf8 body /\ file_lines body ls /\ ls <> [] /\
      Forall2 (fun l j => json l = Some j) ls js /\ Forall2 entry_of js es /\ Forall (fun e => en_name e = ic_name c) es /\ Forall2 version_for es vs /\
      Permutation (ic_versions c) vs /\
      sorted_by (fun a b => SemverModel.version_cmp (iv_vers a) (iv_vers b) <> Gt) (ic_versions c).
  Proof.
    unfold fetch_crate. destruct (sparse_index_url CratesIo name) as [u|[]|] eqn:U; [|discriminate]. apply C41_layout in U as (d & D & ->).
    unfold fetch_crate_from_url. destruct (uri_ok _); [|discriminate]. destruct (send _) as [[status body]|] eqn:S0; [|discriminate].
    destruct ((200 <=? status) && (status <? 300)) eqn:ST; [|destruct (status =? 404); discriminate]. destruct (from_utf8 body) eqn:UT; [|discriminate].
    destruct (parse_crate (decode Debug json) body) as [c'|x|] eqn:P; try discriminate. intros H. injection H as <-.
    destruct (C42_versions (decode Debug json)) with (s := body) (c := c') as (ls & es & vs & FL & NE & F1 & F2 & F3 & PM & SO & _); [|exact P|].
    { intros l e DE. apply C69_lines in DE as (j & _ & EO). exact (entry_of_ok _ _ EO). }
    assert (X : exists js, Forall2 (fun l j => json l = Some j) ls js /\ Forall2 entry_of js es).
    { clear - F1. induction F1 as [|l e ls es DE F1 (js & A & B)]; [exists []; split; constructor|]. apply C69_lines in DE as (j & J & EO). exists (j :: js). split; constructor; assumption. }
    destruct X as (js & A & B). exists d, status, body, ls, js, es, vs. apply from_utf8_ok in UT.
    split; [exact D|]. split; [exact S0|]. split; [lia|]. split; [exact UT|]. split; [exact FL|]. split; [intros ->; inversion F1; congruence|]. auto 10.
  Qed.
  (** What an error says: for which crate, from where, and why. *)
  Theorem C67_errors name e : fetch CratesIo name = Err e ->
    exists d u, directory name d /\ u = bs "https://index.crates.io/" ++ d ++ name /\ fe_name e = name /\ fe_url e = u /\
      match fe_kind e with
      | FRequest => send u = None
      | FNotFound => exists body, send u = Some (404, body)
      | FStatus n => n <> 404 /\ ~ 200 <= n <= 299 /\ exists body, send u = Some (n, body)
      | FUtf8 => exists n body, send u = Some (n, body) /\ 200 <= n <= 299 /\ ~ valid_utf8 body
      | FParse k => exists n body, send u = Some (n, body) /\ 200 <= n <= 299 /\ valid_utf8 body /\
          match k with
          | ENoVersion => body = []
          | EJson => exists ls a l b, file_lines body ls /\ ls = a ++ l :: b /\ forall j e, json l = Some j -> ~ entry_of j e
          | EMismatchedNames => exists ls l1 l2 j1 j2 e1 e2, file_lines body ls /\ In l1 ls /\ In l2 ls /\
              json l1 = Some j1 /\ json l2 = Some j2 /\ entry_of j1 e1 /\ entry_of j2 e2 /\ en_name e1 <> en_name e2
          end
      end.
  Proof.
    unfold fetch_crate. destruct (sparse_index_url CratesIo name) as [u|[]|] eqn:U; [|discriminate]. apply C41_layout in U as (d & D & EU).
    destruct (fetch_crate_from_url Debug json uri_ok send u) as [c|k|] eqn:F; try discriminate. intros H. injection H as <-. exists d, u. cbn [fe_name fe_url fe_kind].
    split; [exact D|]. split; [exact EU|]. split; [reflexivity|]. split; [reflexivity|]. clear EU D.
    unfold fetch_crate_from_url in F. destruct (uri_ok u); [|discriminate]. destruct (send u) as [[status body]|]; [|injection F as <-; reflexivity].
    destruct ((200 <=? status) && (status <? 300)) eqn:ST.
    - destruct (from_utf8 body) eqn:UT.
      + destruct (parse_crate (decode Debug json) body) as [c'|x|] eqn:P; try discriminate. injection F as <-. exists status, body. split; [reflexivity|]. split; [lia|]. split; [apply from_utf8_ok; exact UT|].
        destruct (C42_errors (decode Debug json)) with (s := body) as (E1 & E2 & E3 & _).
        { intros l e DE. apply C69_lines in DE as (j & _ & EO). exact (entry_of_ok _ _ EO). }
        destruct x.
        * apply E2 in P as (ls & a & l & b & es & n & FL & EL & _ & _ & DE). exists ls, a, l, b. split; [exact FL|]. split; [exact EL|]. intros j e J EO.
          assert (X : decode Debug json l = Ok (Some e)) by (apply C69_lines; eauto). congruence.
        * apply E1. exact P.
        * apply E3 in P as (ls & a & l & b & es & n & e & FL & EL & F1 & NE & F2 & DE & NN). apply C69_lines in DE as (j2 & J2 & EO2).
          destruct F1 as [|l1 e1 a es D1 F1]; [congruence|]. apply C69_lines in D1 as (j1 & J1 & EO1). apply Forall_inv in F2.
          exists ls, l1, l, j1, j2, e1, e. subst ls. split; [exact FL|]. split; [left; reflexivity|]. split; [right; apply in_or_app; right; left; reflexivity|]. split; [exact J1|]. split; [exact J2|]. split; [exact EO1|]. split; [exact EO2|congruence].
      + injection F as <-. exists status, body. split; [reflexivity|]. split; [lia|]. intros V. apply from_utf8_ok in V. congruence.
    - destruct (status =? 404) eqn:N4; injection F as <-.
      + apply N.eqb_eq in N4. subst status. eauto.
      + split; [lia|]. split; [lia|eauto].
  Qed.
  (** Conversely, every good response gives the crate. *)
  Theorem C67_good name d status body ls n : Forall (fun b => b < 128) name -> directory name d -> uri_ok (bs "https://index.crates.io/" ++ d ++ name) = true ->
    send (bs "https://index.crates.io/" ++ d ++ name) = Some (status, body) -> 200 <= status <= 299 -> valid_utf8 body ->
    file_lines body ls -> ls <> [] -> Forall (fun l => exists j e, json l = Some j /\ entry_of j e /\ en_name e = n) ls ->
    exists c, fetch CratesIo name = Ok c /\ ic_name c = n.
  Proof.
    intros AS D UO SE ST VU FL NE FE.
    assert (U : sparse_index_url CratesIo name = Ok (bs "https://index.crates.io/" ++ d ++ name)) by
      (destruct (C41_ascii_names name ltac:(intros ->; inversion D) AS) as (u & U); rewrite U; apply C41_layout in U as (d' & D' & ->); rewrite (directory_unique _ _ _ D D'); reflexivity).
    unfold fetch_crate. rewrite U. unfold fetch_crate_from_url. rewrite UO, SE. replace ((200 <=? status) && (status <? 300)) with true by (symmetry; apply andb_true_intro; lia).
    apply from_utf8_ok in VU. rewrite VU.
    assert (DE : Forall (fun l => exists e, decode Debug json l = Ok (Some e) /\ en_name e = n) ls).
    { eapply Forall_impl; [|exact FE]. intros l (j & e & J & EO & EN). exists e. split; [apply C69_lines; eauto|exact EN]. }
    assert (OKD : forall l e, decode Debug json l = Ok (Some e) -> entry_ok e).
    { intros l e X. apply C69_lines in X as (j & _ & EO). exact (entry_of_ok _ _ EO). }
    destruct (C42_errors (decode Debug json) OKD body) as (E1 & E2 & E3 & E4).
    assert (FU : forall ls', file_lines body ls' -> ls' = ls) by (intros ls' FL'; apply str_lines_spec in FL', FL; congruence).
    destruct (parse_crate (decode Debug json) body) as [c|[]|] eqn:P.
    - exists c. split; [reflexivity|]. destruct (C42_versions (decode Debug json) OKD body c P) as (ls' & es & vs & FL' & NE' & F1 & F2 & _). apply FU in FL'. subst ls'.
      destruct F1 as [|l e ls es D1 F1]; [congruence|]. apply Forall_inv in F2, DE. destruct DE as (e' & D2 & EN). congruence.
    - destruct (proj1 E2 eq_refl) as (ls' & a & l & b & es & m & FL' & -> & _ & _ & D1). apply FU in FL'. subst ls. apply Forall_app in DE as [_ DE]. apply Forall_inv in DE as (e & D2 & _). congruence.
    - destruct NE. symmetry. apply FU. rewrite (proj1 E1 eq_refl). constructor.
    - destruct (proj1 E3 eq_refl) as (ls' & a & l & b & es & m & e & FL' & -> & F1 & NN & F2 & D1 & N1). apply FU in FL'. subst ls. apply Forall_app in DE as [DE1 DE]. apply Forall_inv in DE as (e2 & D2 & EN2).
      destruct F1 as [|l1 e1 a es D3 F1]; [congruence|]. apply Forall_inv in F2, DE1. destruct DE1 as (e3 & D4 & EN3). congruence.
    - destruct (proj1 E4 eq_refl) as (ls' & a & l & b & es & m & FL' & -> & _ & _ & D1). apply FU in FL'. subst ls. apply Forall_app in DE as [_ DE]. apply Forall_inv in DE as (e & D2 & _). congruence.
  Qed.
  (** There is no other outcome for a name with an address, except for
      versions near 2^32. *)
  Theorem C67_outcomes name : name <> [] -> Forall (fun b => b < 128) name -> (forall u, uri_ok u = true) ->
    (forall l j s, json l = Some j -> mentions j s -> valid_utf8 s /\ ~ SemverSpec.contains_overflow s) ->
    fetch CratesIo name <> Panic.
  Proof.
    intros NE AS UO TX. unfold fetch_crate. destruct (C41_ascii_names name NE AS) as (u & ->). unfold fetch_crate_from_url. rewrite UO.
    destruct (send u) as [[status body]|]; [|discriminate]. destruct (_ && _); [|destruct (_ =? _); discriminate]. destruct (from_utf8 body); [|discriminate].
    destruct (C42_errors (decode Debug json)) with (s := body) as (_ & _ & _ & E4).
    { intros l e DE. apply C69_lines in DE as (j & _ & EO). exact (entry_of_ok _ _ EO). }
    destruct (parse_crate (decode Debug json) body); try discriminate. destruct (proj1 E4 eq_refl) as (ls & a & l & b & es & n & _ & _ & _ & _ & DE).
    apply C69_panics in DE as (_ & j & s & J & M & O); [|intros j s J M; exact (proj1 (TX _ _ _ J M))]. destruct (TX _ _ _ J M) as [_ X]. destruct (X O).
  Qed.
End Fetch.
(** It is not checked that the crate is the one that was asked for. *)
Theorem C67_name_refuted : exists json send name c, fetch_crate Debug json (fun _ => true) send CratesIo name = Ok c /\ ic_name c <> name.
Proof.
  exists (fun _ => Some (index_line JNull)), (fun _ => Some (200, bs "{}")), (bs "quote"). eexists. split; [vm_compute; reflexivity|]. discriminate.
Qed.
Theorem C67_example : forall json, json (bs "l1") = Some (index_line JNull) -> json (bs "l2") = None ->
  (exists c, fetch_crate Debug json (fun _ => true) (fun _ => Some (200, bs "l1" ++ [10])) CratesIo (bs "syn") = Ok c /\ ic_name c = bs "syn" /\ length (ic_versions c) = 1%nat) /\
  fetch_crate Debug json (fun _ => true) (fun _ => Some (404, [])) CratesIo (bs "syn") = Err (mkferror (bs "syn") (bs "https://index.crates.io/3/s/syn") FNotFound) /\
  fetch_crate Debug json (fun _ => true) (fun _ => Some (200, bs "l1" ++ [10] ++ bs "l2")) CratesIo (bs "syn") = Err (mkferror (bs "syn") (bs "https://index.crates.io/3/s/syn") (FParse EJson)).
Proof.
  intros json J1 J2.
  assert (E1 : str_lines (bs "l1" ++ [10]) = [bs "l1"]) by reflexivity. assert (E2 : str_lines (bs "l1" ++ [10] ++ bs "l2") = [bs "l1"; bs "l2"]) by reflexivity.
  unfold fetch_crate. change (sparse_index_url CratesIo (bs "syn")) with (@Ok Empty_set _ (bs "https://index.crates.io/3/s/syn")). cbv iota. unfold fetch_crate_from_url, parse_crate. cbv iota.
  change ((200 <=? 200) && (200 <? 300)) with true. cbv iota. rewrite E1, E2. cbn [read_lines]. unfold decode. rewrite J1, J2.
  split; [|split; [reflexivity|]].
  - eexists. split; [vm_compute; reflexivity|]. split; vm_compute; reflexivity.
  - vm_compute. reflexivity.
Qed.

Print Assumptions C67_crate.
Print Assumptions C67_errors.
Print Assumptions C67_good.
Print Assumptions C67_outcomes.
Print Assumptions C67_name_refuted.
Print Assumptions C68_version_roundtrip.
Print Assumptions C68_requirement_roundtrip.
Print Assumptions C68_version_read.
Print Assumptions C68_requirement_read.
Print Assumptions C68_messages.
Print Assumptions C69_lines.
Print Assumptions C69_lines_any_build.
Print Assumptions C69_panics.
Print Assumptions C69_rust_version_refuted.
Print Assumptions C69_escapes_refuted.
