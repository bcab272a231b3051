(** Theorems about manifests without problems (C75), and examples for C74 and
    C75.  Specification: ManifestSpec.v. *)
From Verif Require Import Base BaseProofs CommonModel TomlError LitModel LexModel LexSpec ParseModel ParseSpec ParsePlace PropParse
  MapModel MapSpec MapWf MapRel MapExt MapNice PropMap IdeModel IdeSpec IdeProofs PropIde CliModel MeanSpec MeanProofs CliSpec PropCli ManifestSpec ManifestProofs PropManifest ManifestFine.
From Coq Require Import Permutation.
From Verif Require SemverModel SemverSpec PropSemver SemverReq.

(** ** C75 *)
Lemma nothing_said ds : errors_of ds = [] -> warnings_of ds = [] -> ds = [].
Proof. destruct ds as [|[ls tx sp k|ls tx sp k|e] ds]; cbn; congruence. Qed.
(** For the map of a document without errors: nothing is reported exactly if
    the value of the document is a fine manifest. *)
Theorem C75_check prof text a m : lex_and_parse text = Ok (a, []) -> map_doc (as_asts a) = Ok (m, []) -> settled prof text (STable (map_simple m)) ->
  ((exists deps, check prof m = Ok (deps, [])) <-> fine_manifest (map_simple m)).
Proof.
  intros P M ST. assert (MAN : manifest text m) by (exists a, [], []; auto). destruct (manifest_wf _ _ MAN) as (dc & W). pose proof (manifest_nice _ _ MAN) as N0.
  assert (VALID : forall p x, node_at p (NTable m) = Some x -> datatype_of x <> DtInvalid).
  { destruct (C34_accepted_documents _ _ P) as (d & T & D). pose proof (map_means _ _ _ _ _ P D M) as ME. intros p x E X. specialize (ME p).
    change (STable (map_simple m)) with (map_simple_val (NTable m)) in ME. rewrite (simple_at _ _ _ _ N0), E in ME. cbn [option_map] in ME. destruct ME as (h & H & _).
    destruct x as [t|es|pa v es|v]; try discriminate X. destruct v; try discriminate X. discriminate H. }
  assert (C1 : forall q p t s, table_at dc m q p t -> str_field t "version" = Some s -> clear prof s).
  { intros q p t s A F. pose proof (table_node _ _ _ _ _ A) as NA. destruct (field_node _ _ _ _ _ NA F) as (l0 & sp & x & o & y & r & E & ->). exact (settled_clear _ _ _ _ _ _ _ _ _ _ MAN ST E). }
  assert (C2 : forall q p k l sp x o y r rs, keyed dc m q p k (mke (NScalar (VString l sp x o y)) (r :: rs)) -> clear prof (mksa r (mksv l sp x o y))).
  { intros q p k l0 sp x o y r rs K. exact (settled_clear _ _ _ _ _ _ _ _ _ _ MAN ST (keyed_node _ _ _ _ _ _ K)). }
  split.
  - intros (deps & E). apply (quiet_fine prof text m dc MAN W VALID C1 C2).
    + intros s R PA. assert (X : check prof m = Panic); [|congruence]. apply (C54_check_panics prof _ _ MAN). eauto.
    + intros d D. apply (C55_exact_diagnostics _ _ _ _ _ MAN E) in D. exact D.
  - intros F. destruct (fine_quiet prof text m dc MAN W VALID F) as [Q NP]. destruct (check prof m) as [[deps ds]|[]|] eqn:E.
    + exists deps. destruct ds as [|d ds]; [reflexivity|]. destruct (Q d). apply (C55_exact_diagnostics _ _ _ _ _ MAN E). left. reflexivity.
    + apply (C54_check_panics prof _ _ MAN) in E. destruct E as (s & R & PA). destruct (NP s R PA).
Qed.
(** The tool is silent on a manifest exactly if it is a valid document and its
    value is a fine manifest. *)
Theorem C75_silent_exactly_on_fine_manifests width prof text v : scalars text -> settled prof text (STable v) ->
  (ctoml width prof Check text = Ok (v, []) <-> exists d, toml_doc text d /\ consistent d /\ means d (STable v) /\ fine_manifest v).
Proof.
  intros SC ST. split.
  - intros E. destruct (C62_messages _ _ _ _ _ _ SC E) as (m & errs & warns & errs' & warns' & R & -> & B1 & B2 & F). apply forall2_nil_r in F.
    apply app_eq_nil in F. destruct F as [-> ->]. destruct B1 as (PM & _). apply Permutation_nil in PM. destruct B2 as (PW & _). apply Permutation_nil in PW.
    inversion R as [|t a es m0 es' deps ds P M CH E1 E2 E3 E4 E5]; subst. apply app_eq_nil in E4. destruct E4 as [E4 E6]. apply map_eq_nil in E4. apply app_eq_nil in E4. destruct E4 as [-> ->].
    apply map_eq_nil in E6. apply map_eq_nil in E5. pose proof (nothing_said _ E6 E5) as ->.
    destruct (C34_accepted_documents _ _ P) as (d & T & D). exists d. split; [exact T|]. split; [apply (consistent_iff _ _ _ _ _ P D _ M); reflexivity|].
    split; [exact (map_means _ _ _ _ _ P D M)|]. apply (C75_check prof text a m P M ST). eauto.
  - intros (d & T & C & ME & F). destruct (C64_meaning _ _ T) as (a & m & es' & P & M & CI & U). apply CI in C. subst es'. apply U in ME; [|apply CI; reflexivity]. injection ME as ->.
    destruct (proj2 (C75_check prof text a m P M ST) F) as (deps & E). unfold ctoml. rewrite P. cbn [bind]. rewrite M. cbn [bind]. rewrite E. reflexivity.
Qed.

(** ** Examples *)
Definition fine_example : list N :=
  bs "package.name = 'x'" ++ nl ++ bs "[dependencies]" ++ nl ++ bs "a = '1.2'" ++ nl ++ bs "b = { git = 'u', tag = 't', version = '>=1, <3', features = ['f', ""g""] }" ++ nl ++
  bs "[dependencies.c]" ++ nl ++ bs "path = 'p'" ++ nl ++ bs "optional = true" ++ nl ++
  bs "[target.'cfg(unix)'.dev-dependencies]" ++ nl ++ bs "d = { workspace = true, default-features = false }" ++ nl ++ bs "e = { version = '0', registry = 'r', package = 'q' }" ++ nl.
Definition req (op : SemverModel.op) (c : SemverModel.comp_ver) (o1 o2 : N) (comma : option N) : SemverModel.comparator := SemverModel.mkcomp o1 op o2 c comma.
Definition fine_deps : list mdep :=
  [mkmd ForAll None (bs "a") None (FromRegistry (mkmv (bs "1.2") (Some [req SemverModel.OpBl (SemverModel.CMinor 1 2 None) 0 0 None])) None) None [] None;
   mkmd ForAll None (bs "b") None (FromGit (bs "u") (RTag (bs "t"))
     (Some (mkmv (bs ">=1, <3") (Some [req SemverModel.OpGe (SemverModel.CMajor 1 None) 0 2 (Some 3); req SemverModel.OpLt (SemverModel.CMajor 3 None) 5 6 None])))) None [bs "f"; bs "g"] None;
   mkmd ForAll None (bs "c") None (FromPath (bs "p") None None) None [] (Some true);
   mkmd ForTests (Some (bs "cfg(unix)")) (bs "d") None FromWorkspace (Some false) [] None;
   mkmd ForTests (Some (bs "cfg(unix)")) (bs "e") (Some (bs "q")) (FromRegistry (mkmv (bs "0") (Some [req SemverModel.OpBl (SemverModel.CMajor 0 None) 0 0 None])) (Some (bs "r"))) None [] None].
(** What is read from a text. *)
Definition read_deps (text : list N) : run (list mdep * N) :=
  let? (a, _) := lex_and_parse text in let? (m, _) := map_doc (as_asts a) in let? (deps, ds) := check Debug m in Ok (map dep_data deps, N.of_nat (length ds)).
Example C74_example : read_deps fine_example = Ok (fine_deps, 0).
Proof. vm_compute. reflexivity. Qed.
Definition silent (r : run (list (list N * sval) * list (list N))) : bool := match r with Ok (_, []) => true | _ => false end.
Lemma is_silent r : silent r = true -> exists v, r = Ok (v, []).
Proof. destruct r as [[v [|x l]]|[]|]; try discriminate. eauto. Qed.
Example C75_example : exists v d, ctoml ascii Debug Check fine_example = Ok (v, []) /\ toml_doc fine_example d /\ consistent d /\ means d (STable v) /\ fine_manifest v.
Proof.
  assert (E : exists v, ctoml ascii Debug Check fine_example = Ok (v, [])) by (apply is_silent; vm_compute; reflexivity). destruct E as (v & E).
  destruct (proj1 (C75_silent_exactly_on_fine_manifests ascii Debug fine_example v ltac:(all_ascii) (or_introl eq_refl)) E) as (d & H). exists v, d. split; [exact E|]. exact H.
Qed.
(** Valid documents that are no fine manifests. *)
Definition valid_with_problems (text : list N) : bool :=
  match lex_and_parse text with
  | Ok (a, []) => match map_doc (as_asts a) with Ok (m, []) => match check Debug m with Ok (_, _ :: _) => true | _ => false end | _ => false end
  | _ => false
  end.
Lemma problems_exist text : valid_with_problems text = true ->
  exists a m deps x ds, lex_and_parse text = Ok (a, []) /\ map_doc (as_asts a) = Ok (m, []) /\ check Debug m = Ok (deps, x :: ds).
Proof.
  unfold valid_with_problems. destruct (lex_and_parse text) as [[a [|? ?]]|[]|] eqn:P; try discriminate. destruct (map_doc (as_asts a)) as [[m [|? ?]]|[]|] eqn:M; try discriminate.
  destruct (check Debug m) as [[deps [|x ds]]|[]|] eqn:E; try discriminate. intros _. exists a, m, deps, x, ds. auto.
Qed.
Example C75_problems text : In text
    [bs "[dependencies]" ++ nl ++ bs "a = '1.'"; bs "[dependencies]" ++ nl ++ bs "a = 1"; bs "[dependencies]" ++ nl ++ bs "a = { versio = '1' }"; bs "[dependencies]" ++ nl ++ bs "a = {}";
     bs "[dependencies]" ++ nl ++ bs "a = { git = 'u', tag = 't', rev = 'r' }"; bs "[dependencies]" ++ nl ++ bs "a = { version = '1', features = [true] }";
     bs "[dev_dependencies]"; bs "[[dependencies]]"; bs "dependency = {}"; bs "target.x.package = 1"] ->
  exists d v, toml_doc text d /\ consistent d /\ means d (STable v) /\ ~ fine_manifest v.
Proof.
  intros H. assert (E : valid_with_problems text = true) by (repeat (destruct H as [<-|H]; [vm_compute; reflexivity|]); destruct H).
  apply problems_exist in E.
  destruct E as (a & m & deps & x & ds & P & M & CH). destruct (C34_accepted_documents _ _ P) as (d & T & D). exists d, (map_simple m). split; [exact T|].
  split; [apply (consistent_iff _ _ _ _ _ P D _ M); reflexivity|]. split; [exact (map_means _ _ _ _ _ P D M)|]. intros F.
  destruct (proj2 (C75_check Debug text a m P M (or_introl eq_refl)) F) as (deps' & E). congruence.
Qed.
Lemma one_value w p mo w' p' mo' text v o v' o' : ctoml w p mo text = Ok (v, o) -> ctoml w' p' mo' text = Ok (v', o') -> v = v'.
Proof.
  unfold ctoml. destruct (lex_and_parse text) as [[a es]|[]|]; [|discriminate]. cbn [bind]. destruct (map_doc (as_asts a)) as [[m es']|[]|]; [|discriminate]. cbn [bind]. intros E1 E3.
  repeat match type of E1 with bind ?x _ = _ => destruct x as [?|[]|]; [cbn [bind] in E1|discriminate] end.
  repeat match type of E3 with bind ?x _ = _ => destruct x as [?|[]|]; [cbn [bind] in E3|discriminate] end. congruence.
Qed.
(** In release builds a number that is out of range may pass. *)
Definition wrapping_example : list N := bs "[dependencies]" ++ nl ++ bs "a = '4294967297'".
Theorem C75_release_refuted : exists v, ctoml ascii Release Check wrapping_example = Ok (v, []) /\ ~ fine_manifest v.
Proof.
  assert (E3 : silent (ctoml ascii Debug Validate wrapping_example) = true) by (vm_compute; reflexivity). apply is_silent in E3. destruct E3 as (v & E3).
  assert (E1 : silent (ctoml ascii Release Check wrapping_example) = true) by (vm_compute; reflexivity). apply is_silent in E1. destruct E1 as (v' & E1).
  assert (E2 : ctoml ascii Debug Check wrapping_example = Panic) by (vm_compute; reflexivity).
  rewrite (one_value _ _ _ _ _ _ _ _ _ _ _ E1 E3) in E1. clear v'.
  exists v. split; [exact E1|]. intros F. assert (SC : scalars wrapping_example) by all_ascii.
  destruct (proj1 (C65_silent_exactly_on_valid_toml ascii Debug _ v SC) E3) as (d & T & C & ME).
  rewrite (proj2 (C75_silent_exactly_on_fine_manifests ascii Debug _ v SC (or_introl eq_refl))) in E2; [discriminate|]. exists d. auto.
Qed.

Print Assumptions C74_dependencies.
Print Assumptions C74_documents.
Print Assumptions C74_one_reading.
Print Assumptions C75_check.
Print Assumptions C75_silent_exactly_on_fine_manifests.
Print Assumptions C75_release_refuted.
