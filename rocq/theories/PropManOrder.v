(** C74: the dependencies come in the order of the document. *)
From Verif Require Import Base BaseProofs CommonModel TomlError LitModel LexModel LexSpec ParseModel ParseSpec ParsePlace PropParse
  MapModel MapSpec MapWf MapRel MapExt MapNice PropMap IdeModel IdeSpec IdeProofs PropIde CliModel MeanSpec MeanProofs CliSpec PropCli ManifestSpec ManifestProofs PropManifest.

Definition who (d : dependency) : mkind * option (list N) * list N := (kind_data (dp_kind d), dp_target d, dp_name d).

Lemma wbind_ok {A B} (m : W A) (f : A -> W B) b ds : wbind m f = Ok (b, ds) -> exists a d1 d2, m = Ok (a, d1) /\ f a = Ok (b, d2).
Proof.
  unfold wbind. destruct m as [[a d1]|[]|]; cbn; [|discriminate]. destruct (f a) as [[b' d2]|[]|] eqn:E; cbn; [|discriminate]. intros H. injection H as <- <-. eauto.
Qed.
Lemma each_ok {A B} (f : A -> W B) l : forall ys ds, each f l = Ok (ys, ds) -> Forall2 (fun x y => exists d, f x = Ok (y, d)) l ys.
Proof.
  induction l as [|x l IH]; intros ys ds E; cbn [each] in E; [injection E as <- <-; constructor|].
  apply wbind_ok in E. destruct E as (y & d1 & d2 & E1 & E). apply wbind_ok in E. destruct E as (r & d3 & d4 & E2 & E). injection E as <- <-.
  constructor; [eauto|]. exact (IH _ _ E2).
Qed.
Lemma concat_who {A} (f : A -> list (mkind * option (list N) * list N)) l ys : Forall2 (fun x y => map who y = f x) l ys -> map who (concat ys) = flat_map f l.
Proof. intros H. induction H as [|x y l ys H F IH]; [reflexivity|]. cbn. rewrite map_app, H, IH. reflexivity. Qed.

Lemma Forall2_with {A B} (R S : A -> B -> Prop) l ys : (forall x y, In x l -> R x y -> S x y) -> Forall2 R l ys -> Forall2 S l ys.
Proof. intros H F. induction F as [|x y l ys R0 F IH]; constructor; [apply H; [left; reflexivity|exact R0]|]. apply IH. intros a b I0. apply H. right. exact I0. Qed.

Section Order.
Context (prof : profile).

Lemma entry_who p kind target name e deps ds : parse_entry prof p kind target name e = Ok (deps, ds) ->
  map who deps = match map_simple_val (e_node e) with SString _ | STable _ => [(kind_data kind, target, name)] | _ => [] end.
Proof.
  unfold parse_entry. destruct e as [n rs]. cbn [e_node e_reprs]. intros E.
  assert (N0 : (forall l sp t o q, n <> NScalar (VString l sp t o q)) -> as_string n = None) by (destruct n as [| | |v]; try reflexivity; destruct v; intros H; try reflexivity; exfalso; eapply H; reflexivity).
  destruct n as [t|es|pa v es|v].
  - rewrite N0 in E by discriminate. apply wbind_ok in E. destruct E as (b & d1 & d2 & _ & E). apply wbind_ok in E. destruct E as (d & d3 & d4 & E2 & E). injection E as <- <-.
    unfold try_build in E2. apply wbind_ok in E2. destruct E2 as (s & d5 & d6 & _ & E2). injection E2 as <- <-. reflexivity.
  - rewrite N0 in E by discriminate. apply wbind_ok in E. destruct E as (b & d1 & d2 & _ & E). injection E as <- <-. reflexivity.
  - rewrite N0 in E by discriminate. apply wbind_ok in E. destruct E as (b & d1 & d2 & _ & E). injection E as <- <-. reflexivity.
  - destruct v as [l sp t o q|l sp z|l sp f|sp b|l sp d|l sp x|l sp x y|l sp].
    1: { cbn [as_string] in E. destruct (first_of rs) as [r|[]|]; cbn [bind] in E; [|discriminate]. apply wbind_ok in E. destruct E as (b & d1 & d2 & _ & E). injection E as <- <-. reflexivity. }
    all: rewrite N0 in E by discriminate; cbn [is_invalid] in E.
    all: try (injection E as <- <-; reflexivity).
    all: destruct (first_of rs) as [r|[]|]; cbn [bind] in E; [|discriminate]; apply wbind_ok in E; destruct E as (b' & d1 & d2 & _ & E); injection E as <- <-; reflexivity.
Qed.
Context (P : value -> Prop) (Q : avalue -> Prop).
Lemma simple_node t : nice P Q (NTable t) -> map_simple_val (NTable t) = STable (simple_entries t).
Proof. intros H. change (map_simple_val (NTable t)) with (STable (map_simple t)). rewrite (simple_table _ _ _ H). reflexivity. Qed.
Lemma nice_entry t k e : nice P Q (NTable t) -> In (k, e) t -> nice P Q (e_node e).
Proof. intros H I0. apply nice_table in H. destruct H as [_ H]. rewrite Forall_forall in H. exact (H _ I0). Qed.
Lemma dependencies_who p t kind target deps ds : nice P Q (NTable t) -> parse_dependencies prof p t kind target = Ok (deps, ds) ->
  map who deps = map (fun name => (kind_data kind, target, name)) (entry_names (map_simple_val (NTable t))).
Proof.
  intros N0 E. rewrite (simple_node _ N0). unfold parse_dependencies in E. apply wbind_ok in E. destruct E as (l & d1 & d2 & E1 & E). injection E as <- <-. apply each_ok in E1.
  rewrite (concat_who (fun ke => match map_simple_val (e_node (snd ke)) with SString _ | STable _ => [(kind_data kind, target, fst ke)] | _ => [] end) t l).
  - unfold entry_names, simple_entries. clear. induction t as [|[k e] t IH]; [reflexivity|]. cbn. rewrite IH. destruct (map_simple_val (e_node e)); reflexivity.
  - revert E1. apply Forall2_with. intros [k e] y I0 (d & H). exact (entry_who _ _ _ _ _ _ _ H).
Qed.
Lemma expect_table_ok p e o ds : expect_table p e = Ok (o, ds) -> o = as_table (e_node e).
Proof.
  unfold expect_table, expect. destruct (as_table (e_node e)); [intros H; injection H as <- <-; reflexivity|]. destruct (is_invalid (e_node e)); [intros H; injection H as <- <-; reflexivity|].
  intros H. apply wbind_ok in H. destruct H as (a & d1 & d2 & _ & H). injection H as <- <-. reflexivity.
Qed.
Lemma no_table n : as_table n = None -> forall t, map_simple_val n <> STable t.
Proof. destruct n as [t|es|pa v es|v]; try discriminate. intros _ t. destruct v; discriminate. Qed.
Lemma names_none v : (forall t, v <> STable t) -> entry_names v = [] /\ members v = [].
Proof. intros H. destruct v; try (split; reflexivity). exfalso. eapply H. reflexivity. Qed.
Lemma section_who p e kind target deps ds : nice P Q (e_node e) -> parse_section prof p e kind target = Ok (deps, ds) ->
  map who deps = map (fun name => (kind_data kind, target, name)) (entry_names (map_simple_val (e_node e))).
Proof.
  intros N0 E. unfold parse_section in E. apply wbind_ok in E. destruct E as (o & d1 & d2 & E1 & E). apply expect_table_ok in E1. subst o.
  destruct (as_table (e_node e)) as [t|] eqn:A.
  - assert (T : e_node e = NTable t) by (destruct (e_node e); try discriminate; injection A as ->; reflexivity). rewrite T in *. exact (dependencies_who _ _ _ _ _ _ N0 E).
  - injection E as <- <-. rewrite (proj1 (names_none _ (no_table _ A))). reflexivity.
Qed.
Lemma deprecated_ignored p t old new e b ds : deprecated_underscore p t old new e = Ok (b, ds) -> b = match tget t new with Some _ => true | None => false end.
Proof.
  unfold deprecated_underscore. destruct (tget t new) as [n|].
  - destruct (first_of (e_reprs n)) as [r|[]|]; cbn [bind]; [|discriminate]. destruct (kind_span (r_kind r)) as [s|[]|]; cbn [bind]; [|discriminate].
    intros H. apply wbind_ok in H. destruct H as (a & d1 & d2 & _ & H). injection H as <- <-. reflexivity.
  - cbn [bind]. intros H. apply wbind_ok in H. destruct H as (a & d1 & d2 & _ & H). injection H as <- <-. reflexivity.
Qed.
Lemma key_is_dec k s : key_is k s = if list_eq_dec N.eq_dec k (bs s) then true else false.
Proof.
  unfold key_is. destruct (list_eq_dec N.eq_dec k (bs s)) as [-> |NE]; [apply MapWf.bytes_eqb_eq; reflexivity|].
  destruct (bytes_eqb k (bs s)) eqn:E; [apply MapWf.bytes_eqb_eq in E; contradiction|reflexivity].
Qed.
Lemma member_simple t s : nice P Q (NTable t) -> member (map_simple_val (NTable t)) s = option_map (fun e => map_simple_val (e_node e)) (tget t (bs s)).
Proof. intros N0. rewrite (simple_node _ N0). cbn [member]. apply simple_get. Qed.
Lemma old_section_who p t old new e kind target deps ds : nice P Q (NTable t) -> nice P Q (e_node e) ->
  parse_old_section prof p t (bs old) (bs new) e kind target = Ok (deps, ds) ->
  map who deps = if match member (map_simple_val (NTable t)) new with Some _ => false | None => true end
                 then map (fun name => (kind_data kind, target, name)) (entry_names (map_simple_val (e_node e))) else [].
Proof.
  intros N0 N1 E. rewrite (member_simple _ _ N0). unfold parse_old_section in E. apply wbind_ok in E. destruct E as (b & d1 & d2 & E1 & E). apply deprecated_ignored in E1. subst b.
  destruct (tget t (bs new)); cbn [option_map].
  - injection E as <- <-. reflexivity.
  - exact (section_who _ _ _ _ _ _ N1 E).
Qed.
Lemma any_section_who p t k e target : nice P Q (NTable t) -> nice P Q (e_node e) ->
  match dependency_section prof p t k e target with
  | Some m => forall deps ds, m = Ok (deps, ds) -> map who deps = section_order (map_simple_val (NTable t)) target (k, map_simple_val (e_node e))
  | None => section_order (map_simple_val (NTable t)) target (k, map_simple_val (e_node e)) = []
  end.
Proof.
  intros N0 N1. unfold dependency_section, section_order, section_kind. cbn [fst snd]. rewrite !key_is_dec.
  destruct (list_eq_dec N.eq_dec k (bs "dependencies")); [intros deps ds E; exact (section_who _ _ _ _ _ _ N1 E)|].
  destruct (list_eq_dec N.eq_dec k (bs "dev-dependencies")); [intros deps ds E; exact (section_who _ _ _ _ _ _ N1 E)|].
  destruct (list_eq_dec N.eq_dec k (bs "dev_dependencies")) as [-> |NE].
  { intros deps ds E. rewrite (old_section_who _ _ _ _ _ _ _ _ _ N0 N1 E). destruct (member (map_simple_val (NTable t)) "dev-dependencies"); cbn [andb]; [|reflexivity].
    destruct (list_eq_dec N.eq_dec (bs "dev_dependencies") (bs "build-dependencies")) as [X|_]; [discriminate X|]. destruct (list_eq_dec N.eq_dec (bs "dev_dependencies") (bs "build_dependencies")) as [X|_]; [discriminate X|]. reflexivity. }
  cbn [andb]. destruct (list_eq_dec N.eq_dec k (bs "build-dependencies")); [intros deps ds E; exact (section_who _ _ _ _ _ _ N1 E)|].
  destruct (list_eq_dec N.eq_dec k (bs "build_dependencies")) as [-> |NE'].
  { intros deps ds E. rewrite (old_section_who _ _ _ _ _ _ _ _ _ N0 N1 E). destruct (member (map_simple_val (NTable t)) "build-dependencies"); reflexivity. }
  reflexivity.
Qed.
Lemma simple_flat {A} (f : list N * sval -> list A) t : flat_map f (simple_entries t) = flat_map (fun ke => f (fst ke, map_simple_val (e_node (snd ke)))) t.
Proof. unfold simple_entries. induction t as [|x t IH]; [reflexivity|]. cbn. rewrite IH. reflexivity. Qed.
Lemma target_who p t target deps ds : nice P Q (NTable t) -> parse_target_dependencies prof p t target = Ok (deps, ds) ->
  map who deps = flat_map (section_order (map_simple_val (NTable t)) (Some target)) (members (map_simple_val (NTable t))).
Proof.
  intros N0 E. unfold parse_target_dependencies in E. apply wbind_ok in E. destruct E as (l & d1 & d2 & E1 & E). injection E as <- <-. apply each_ok in E1.
  rewrite (simple_node _ N0) at 2. cbn [members]. rewrite simple_flat. apply concat_who. revert E1. apply Forall2_with. intros [k e] y I0 (d & H). cbn [fst snd].
  pose proof (any_section_who p t k e (Some target) N0 (nice_entry _ _ _ N0 I0)) as X. destruct (dependency_section prof p t k e (Some target)) as [m|].
  - exact (X _ _ H).
  - apply wbind_ok in H. destruct H as (u & d3 & d4 & _ & H). injection H as <- <-. symmetry. exact X.
Qed.
Lemma targets_who p t deps ds : nice P Q (NTable t) -> parse_target prof p t = Ok (deps, ds) ->
  map who deps = flat_map (fun tg => flat_map (section_order (snd tg) (Some (fst tg))) (members (snd tg))) (members (map_simple_val (NTable t))).
Proof.
  intros N0 E. unfold parse_target in E. apply wbind_ok in E. destruct E as (l & d1 & d2 & E1 & E). injection E as <- <-. apply each_ok in E1.
  rewrite (simple_node _ N0). cbn [members]. rewrite simple_flat. apply concat_who. revert E1. apply Forall2_with. intros [k e] y I0 (d & H). cbn [fst snd].
  pose proof (nice_entry _ _ _ N0 I0) as N1. apply wbind_ok in H. destruct H as (o & d3 & d4 & E2 & H). apply expect_table_ok in E2. subst o. destruct (as_table (e_node e)) as [u|] eqn:A.
  - assert (T : e_node e = NTable u) by (destruct (e_node e); try discriminate; injection A as ->; reflexivity). rewrite T in *. exact (target_who _ _ _ _ _ N1 H).
  - injection H as <- <-. rewrite (proj2 (names_none _ (no_table _ A))). reflexivity.
Qed.
Lemma unchecked_other k : existsb (bytes_eqb k) unchecked = true -> k <> bs "target" /\ forall g, section_kind g k = None.
Proof.
  intros H. apply existsb_exists in H. destruct H as (x & I0 & E). apply MapWf.bytes_eqb_eq in E. subst x.
  unfold unchecked in I0. cbn [map In] in I0. repeat destruct I0 as [<- |I0]; try contradiction; (split; [vm_compute; discriminate|intros g; reflexivity]).
Qed.
Lemma check_key_who t k e deps ds : nice P Q (NTable t) -> nice P Q (e_node e) -> check_key prof t k e = Ok (deps, ds) ->
  map who deps = if list_eq_dec N.eq_dec k (bs "target")
    then flat_map (fun tg => flat_map (section_order (snd tg) (Some (fst tg))) (members (snd tg))) (members (map_simple_val (e_node e)))
    else section_order (map_simple_val (NTable t)) None (k, map_simple_val (e_node e)).
Proof.
  intros N0 N1 E. unfold check_key in E. destruct (existsb (bytes_eqb k) unchecked) eqn:U.
  { destruct (unchecked_other _ U) as [NT NS]. injection E as <- <-. destruct (list_eq_dec N.eq_dec k (bs "target")); [contradiction|]. unfold section_order. cbn [fst]. rewrite NS. reflexivity. }
  pose proof (any_section_who [] t k e None N0 N1) as X. fold (key_is k "target") in E. rewrite key_is_dec in E.
  destruct (list_eq_dec N.eq_dec k (bs "target")) as [-> |NT].
  - change (dependency_section prof [] t (bs "target") e None) with (@None (W (list dependency))) in E. apply wbind_ok in E. destruct E as (o & d3 & d4 & E2 & H). apply expect_table_ok in E2. subst o. destruct (as_table (e_node e)) as [u|] eqn:A.
    + assert (T : e_node e = NTable u) by (destruct (e_node e); try discriminate; injection A as ->; reflexivity). rewrite T in *. exact (targets_who _ _ _ _ N1 H).
    + injection H as <- <-. rewrite (proj2 (names_none _ (no_table _ A))). reflexivity.
  - destruct (dependency_section prof [] t k e None) as [m|]; [exact (X _ _ E)|]. apply wbind_ok in E. destruct E as (u & d3 & d4 & _ & E). injection E as <- <-. symmetry. exact X.
Qed.
Lemma check_who t deps ds : nice P Q (NTable t) -> check prof t = Ok (deps, ds) -> map who deps = in_order (map_simple_val (NTable t)).
Proof.
  intros N0 E. unfold check in E. apply wbind_ok in E. destruct E as (l & d1 & d2 & E1 & E). injection E as <- <-. apply each_ok in E1.
  unfold in_order. assert (MB : members (map_simple_val (NTable t)) = simple_entries t) by (rewrite (simple_node _ N0); reflexivity). rewrite MB, simple_flat. apply concat_who. revert E1. apply Forall2_with. intros [k e] y I0 (d & H). cbn [fst snd].
  exact (check_key_who _ _ _ _ _ N0 (nice_entry _ _ _ N0 I0) H).
Qed.
End Order.

(** The dependencies come in the order of the document, in debug and in
    release builds. *)
Theorem C74_order prof text m deps ds : manifest text m -> check prof m = Ok (deps, ds) ->
  map (fun d => (md_kind d, md_target d, md_name d)) (map dep_data deps) = in_order (STable (map_simple m)).
Proof.
  intros M E. rewrite map_map. exact (check_who prof _ _ m deps ds (manifest_nice _ _ M) E).
Qed.

(** No two dependencies have the same kind, target and name: those say which is
    which. *)
Lemma NoDup_app {A} (l r : list A) : NoDup l -> NoDup r -> (forall x, In x l -> ~ In x r) -> NoDup (l ++ r).
Proof.
  intros ND NR D. induction ND as [|x l NI ND IH]; [exact NR|]. cbn. constructor.
  - rewrite in_app_iff. intros [H|H]; [contradiction|]. exact (D x (or_introl eq_refl) H).
  - apply IH. intros y H. apply D. right. exact H.
Qed.
Lemma nodup_flat {A B} (f : A -> list B) (l : list A) : NoDup l -> (forall x, In x l -> NoDup (f x)) ->
  (forall x y b, In x l -> In y l -> In b (f x) -> In b (f y) -> x = y) -> NoDup (flat_map f l).
Proof.
  intros ND. induction ND as [|x l NI ND IH]; intros F D; [constructor|]. cbn. apply NoDup_app.
  - apply F. left. reflexivity.
  - apply IH; [intros y H; apply F; right; exact H|]. intros y z b Y Z. apply D; right; assumption.
  - intros b B1 B2. apply in_flat_map in B2. destruct B2 as (y & I0 & B2). assert (x = y) by (apply (D x y b); [left; reflexivity|right; exact I0|exact B1|exact B2]). subst y. contradiction.
Qed.
Lemma nodup_keys {A} (l : list (list N * A)) : NoDup (map fst l) -> NoDup l /\ forall x y, In x l -> In y l -> fst x = fst y -> x = y.
Proof.
  induction l as [|a l IH]; intros H; [split; [constructor|intros x y []]|]. cbn in H. inversion_clear H as [|? ? NI ND]. destruct (IH ND) as [N0 U]. split.
  - constructor; [|exact N0]. intros I0. apply NI, in_map. exact I0.
  - intros x y [<- |X] [<- |Y] E; [reflexivity| | |apply U; assumption]; exfalso; apply NI; [rewrite E|rewrite <- E]; apply in_map; assumption.
Qed.
Lemma nodup_filter {A} (f : list N * A -> bool) l : NoDup (map fst l) -> NoDup (map fst (filter f l)).
Proof.
  induction l as [|a l IH]; intros H; [constructor|]. cbn in H. inversion_clear H as [|? ? NI ND]. cbn. destruct (f a); [|exact (IH ND)]. cbn. constructor; [|exact (IH ND)].
  intros I0. apply NI. apply in_map_iff in I0. destruct I0 as (x & E & I0). apply filter_In in I0. apply in_map_iff. exists x. tauto.
Qed.
Lemma all_in {A} (P : A -> Prop) l x : All P l -> In x l -> P x.
Proof. induction l as [|a l IH]; [intros _ []|]. intros [H R] [<- |I0]; [exact H|exact (IH R I0)]. Qed.
Lemma sget_present t k v : In (k, v) t -> sget t k <> None.
Proof. induction t as [|[k' v'] t IH]; [intros []|]. cbn. destruct (list_eq_dec N.eq_dec k' k) as [-> |NE]; [discriminate|]. intros [E|I0]; [injection E as -> ->; contradiction|exact (IH I0)]. Qed.
Lemma same_section t kv kv' kind : In kv t -> In kv' t -> section_kind (STable t) (fst kv) = Some kind -> section_kind (STable t) (fst kv') = Some kind -> fst kv = fst kv'.
Proof.
  destruct kv as [k v], kv' as [k' v']. cbn [fst]. intros I0 I1. unfold section_kind. cbn [member].
  pose proof (sget_present _ _ _ I0) as S0. pose proof (sget_present _ _ _ I1) as S1.
  destruct (list_eq_dec N.eq_dec k (bs "dependencies")) as [-> |_];
  [|destruct (list_eq_dec N.eq_dec k (bs "dev-dependencies")) as [-> |_];
    [|destruct (list_eq_dec N.eq_dec k (bs "dev_dependencies")) as [-> |_];
      [|destruct (list_eq_dec N.eq_dec k (bs "build-dependencies")) as [-> |_]; [|destruct (list_eq_dec N.eq_dec k (bs "build_dependencies")) as [-> |_]]]]].
  all: destruct (list_eq_dec N.eq_dec k' (bs "dependencies")) as [-> |_];
  [|destruct (list_eq_dec N.eq_dec k' (bs "dev-dependencies")) as [-> |_];
    [|destruct (list_eq_dec N.eq_dec k' (bs "dev_dependencies")) as [-> |_];
      [|destruct (list_eq_dec N.eq_dec k' (bs "build-dependencies")) as [-> |_]; [|destruct (list_eq_dec N.eq_dec k' (bs "build_dependencies")) as [-> |_]]]]].
  all: try reflexivity.
  all: destruct (sget t (bs "dev-dependencies")); try contradiction; destruct (sget t (bs "build-dependencies")); try contradiction.
  all: cbn [andb]; intros; try congruence.
  all: repeat match goal with H : context [if list_eq_dec N.eq_dec ?a ?b then _ else _] |- _ => change (if list_eq_dec N.eq_dec a b then true else false) with false in H end; cbn in *; congruence.
Qed.
Lemma section_nodup g target kv : distinct_keys (snd kv) -> NoDup (section_order g target kv).
Proof.
  intros D. unfold section_order. destruct (section_kind g (fst kv)); [|constructor]. apply FinFun.Injective_map_NoDup; [intros x y E; injection E as ->; reflexivity|].
  unfold entry_names. destruct (snd kv) as [t| | | | | | |]; try constructor. apply nodup_filter. exact (proj1 D).
Qed.
Lemma section_who_is g target kv x : In x (section_order g target kv) -> snd (fst x) = target /\ section_kind g (fst kv) = Some (fst (fst x)).
Proof.
  unfold section_order. destruct (section_kind g (fst kv)); [|intros []]. intros H. apply in_map_iff in H. destruct H as (n & <- & _). split; reflexivity.
Qed.
Lemma group_nodup v target : distinct_keys v -> NoDup (flat_map (section_order v target) (members v)).
Proof.
  intros D. destruct v as [t| | | | | | |]; try constructor. cbn [members]. destruct D as [ND D]. destruct (nodup_keys _ ND) as [N0 U]. apply nodup_flat; [exact N0| |].
  - intros x I0. apply section_nodup. exact (all_in _ _ _ D I0).
  - intros x y b X Y BX BY. apply U; [exact X|exact Y|]. apply section_who_is in BX, BY. exact (same_section _ _ _ _ X Y (proj2 BX) (proj2 BY)).
Qed.
Lemma order_nodup doc : distinct_keys doc -> NoDup (in_order doc).
Proof.
  intros D. unfold in_order. destruct doc as [t| | | | | | |]; try constructor. cbn [members]. pose proof D as [ND DA]. destruct (nodup_keys _ ND) as [N0 U].
  assert (T : forall (kv : list N * sval) b, In b (flat_map (fun tg : list N * sval => flat_map (section_order (snd tg) (Some (fst tg))) (members (snd tg))) (members (snd kv))) -> snd (fst b) <> None).
  { intros kv b H. apply in_flat_map in H. destruct H as (tg & _ & H). apply in_flat_map in H. destruct H as (x & _ & H). apply section_who_is in H. destruct H as [-> _]. discriminate. }
  apply nodup_flat; [exact N0| |].
  - intros [k v] I0. cbn [fst snd]. pose proof (all_in _ _ _ DA I0) as DV. cbn [snd] in DV. destruct (list_eq_dec N.eq_dec k (bs "target")).
    + destruct v as [ts| | | | | | |]; try constructor. cbn [members]. destruct DV as [NT DT]. destruct (nodup_keys _ NT) as [N1 U1]. apply nodup_flat; [exact N1| |].
      * intros x X. apply group_nodup. exact (all_in _ _ _ DT X).
      * intros x y b X Y BX BY. apply U1; [exact X|exact Y|]. apply in_flat_map in BX, BY. destruct BX as (u & _ & BX), BY as (w & _ & BY). apply section_who_is in BX, BY. destruct BX as [BX _], BY as [BY _]. congruence.
    + apply section_nodup. exact DV.
  - intros x y b X Y BX BY. apply U; [exact X|exact Y|]. destruct (list_eq_dec N.eq_dec (fst x) (bs "target")) as [EX|NX], (list_eq_dec N.eq_dec (fst y) (bs "target")) as [EY|NY].
    + congruence.
    + apply T in BX. apply section_who_is in BY. destruct BY as [BY _]. contradiction.
    + apply T in BY. apply section_who_is in BX. destruct BX as [BX _]. contradiction.
    + apply section_who_is in BX, BY. exact (same_section _ _ _ _ X Y (proj2 BX) (proj2 BY)).
Qed.
Theorem C74_names_once prof text m deps ds : manifest text m -> check prof m = Ok (deps, ds) -> NoDup (map (fun d => (md_kind d, md_target d, md_name d)) (map dep_data deps)).
Proof.
  intros M E. rewrite (C74_order _ _ _ _ _ M E). apply order_nodup. exact (simple_distinct _ _ (NTable m) (manifest_nice _ _ M)).
Qed.

(** A manifest with sections out of order, an old name beside the new one and
    an entry that is no dependency. *)
Definition order_example : list N :=
  bs "build-dependencies.z = '1'" ++ [10] ++ bs "[target.x.dependencies]" ++ [10] ++ bs "y = '1'" ++ [10] ++ bs "[dependencies]" ++ [10] ++ bs "c = '1'" ++ [10] ++ bs "n = 3" ++ [10] ++ bs "a = {}" ++ [10] ++
  bs "[dev_dependencies]" ++ [10] ++ bs "o = '1'" ++ [10] ++ bs "[dev-dependencies]" ++ [10] ++ bs "b = '1'" ++ [10] ++ bs "[dependencies.b]" ++ [10] ++ bs "path = 'p'" ++ [10].
Definition order_of (text : list N) : option (list (mkind * option (list N) * list N)) :=
  match lex_and_parse text with
  | Ok (a, []) => match map_doc (as_asts a) with Ok (m, []) => match check Debug m with Ok (deps, _) => Some (map who deps) | _ => None end | _ => None end
  | _ => None
  end.
Example C74_order_example : order_of order_example =
  Some [(ForBuild, None, bs "z"); (ForAll, Some (bs "x"), bs "y"); (ForAll, None, bs "c"); (ForAll, None, bs "a"); (ForAll, None, bs "b"); (ForTests, None, bs "b")].
Proof. vm_compute. reflexivity. Qed.

(** The crate a dependency is about: the one named by its field [package], and
    otherwise the one with the name of the entry. *)
Theorem C74_crate prof text m deps ds d : manifest text m -> check prof m = Ok (deps, ds) -> settled prof text (STable (map_simple m)) -> In d deps ->
  exists p name v, sval_at (p ++ [SKey name]) (STable (map_simple m)) = Some v /\ declares (STable (map_simple m)) (p ++ [SKey name]) (dep_data d) /\
    package_name d = match text_at v "package" with Some s => s | None => name end.
Proof.
  intros M E ST I0. destruct (C74_dependencies _ _ _ _ _ M E ST) as (pl & EQ & _ & IN).
  assert (I1 : In (dep_data d) (map snd pl)) by (rewrite <- EQ; apply in_map; exact I0). apply in_map_iff in I1. destruct I1 as ([p x] & EX & I1). cbn in EX. subst x.
  apply IN in I1. pose proof I1 as DE. destruct I1 as (ta & b & g & k & key & t & n & v & G & SI & MG & SG & -> & D).
  exists (b ++ [SKey (bs key)]), n, v. rewrite <- app_assoc. cbn [app]. split; [|split; [exact DE|]].
  - apply group_at in G. destruct G as [B G]. change [SKey (bs key); SKey n] with ([SKey (bs key)] ++ [SKey n]). rewrite !sval_at_app, G, sval_at_app, <- member_at, MG. cbn. rewrite SG. reflexivity.
  - assert (P : package_name d = match md_package (dep_data d) with Some s => s | None => md_name (dep_data d) end) by (unfold package_name, dep_data; cbn; destruct (dp_package d); reflexivity).
    rewrite P. clear P. generalize (dep_data d) D. intros z Z. destruct Z; reflexivity.
Qed.
Definition crates_of (text : list N) : option (list (list N)) :=
  match lex_and_parse text with
  | Ok (a, []) => match map_doc (as_asts a) with Ok (m, []) => match check Debug m with Ok (deps, _) => Some (map package_name deps) | _ => None end | _ => None end
  | _ => None
  end.
Example C74_crate_example : crates_of (bs "[dependencies]" ++ [10] ++ bs "a = {package = 'b', version = '1'}" ++ [10] ++ bs "c = '1'" ++ [10]) = Some [bs "b"; bs "c"].
Proof. vm_compute. reflexivity. Qed.
