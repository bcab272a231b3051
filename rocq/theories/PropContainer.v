(** C72: containers and the memory they borrow. *)
From Verif Require Import Base BaseProofs CommonModel TomlError LexModel ParseModel MapModel PropMap ContainerModel ContainerSpec.

(** ** Lists with holes *)
Lemma get_put {A} (l : list (option A)) : forall i x j, (i < length l)%nat -> get (put l i x) j = if Nat.eq_dec j i then x else get l j.
Proof.
  induction l as [|y l IH]; intros i x j L; [cbn in L; lia|]. destruct i as [|i]; destruct j as [|j]; cbn [put].
  - unfold get. cbn. destruct x; reflexivity.
  - destruct (Nat.eq_dec (S j) 0); [lia|reflexivity].
  - destruct (Nat.eq_dec 0 (S i)); [lia|reflexivity].
  - cbn in L. unfold get in *. cbn [nth_error]. rewrite IH by lia. destruct (Nat.eq_dec j i), (Nat.eq_dec (S j) (S i)); try lia; reflexivity.
Qed.
Lemma get_lt {A} (l : list (option A)) i x : get l i = Some x -> (i < length l)%nat.
Proof. unfold get. intros H. apply nth_error_Some. destruct (nth_error l i); [discriminate|discriminate]. Qed.
Lemma get_app {A} (l : list (option A)) x i : get (l ++ [Some x]) i = if Nat.eq_dec i (length l) then Some x else get l i.
Proof.
  unfold get. destruct (Nat.eq_dec i (length l)) as [->|NE]; [rewrite nth_error_app2, Nat.sub_diag by lia; reflexivity|].
  destruct (Nat.lt_ge_cases i (length l)) as [L|L]; [rewrite nth_error_app1 by exact L; reflexivity|].
  rewrite (proj2 (nth_error_None (l ++ [Some x]) i)) by (rewrite app_length; cbn; lia). rewrite (proj2 (nth_error_None l i)) by lia. reflexivity.
Qed.
Lemma put_length {A} (l : list (option A)) : forall i x, length (put l i x) = length l.
Proof. induction l as [|y l IH]; intros i x; [reflexivity|]. destruct i; cbn; [reflexivity|rewrite IH; reflexivity]. Qed.
Notation held := (fun x => match x with Some _ => true | None => false end).
Lemma put_held {A} (l : list (option A)) : forall i x, get l i = Some x -> S (length (filter held (put l i None))) = length (filter held l).
Proof.
  induction l as [|y l IH]; intros i x G; [destruct i; discriminate|]. destruct i as [|i].
  - unfold get in G. cbn in G. destruct y; [|discriminate]. reflexivity.
  - cbn [put filter]. specialize (IH i x G). destruct y; cbn [length]; rewrite <- IH; reflexivity.
Qed.
Lemma count_app {A} (f : A -> bool) l x : length (filter f (l ++ [x])) = (length (filter f l) + if f x then 1 else 0)%nat.
Proof. rewrite filter_app, app_length. cbn. destruct (f x); reflexivity. Qed.

(** ** Histories *)
Lemma runs_snoc m os o es m'' : runs m (os ++ [o]) es m'' -> exists es' e m', runs m os es' m' /\ step_op m' o = Done m'' e /\ es = es' ++ [e].
Proof.
  revert m es. induction os as [|o0 os IH]; intros m es R; cbn [app] in R; inversion R as [|? ? e m1 ? es1 ? S0 R1]; subst.
  - inversion R1; subst. exists [], e, m. split; [constructor|]. auto.
  - destruct (IH _ _ R1) as (es' & e' & m' & H1 & H2 & ->). exists (e :: es'), e', m'. split; [econstructor; eassumption|]. auto.
Qed.
Lemma runs_length m os es m' : runs m os es m' -> length os = length es.
Proof. induction 1; cbn; congruence. Qed.

Record good (os : list op) (es : list event) (m : memory) : Prop := mkgood {
  g_cont : forall c x, get (containers m) c = Some x ->
    (exists ts, get (arenas m) (c_bump x) = Some ts) /\ ~ dropped os c /\
    (match t_input (c_toml x) with InArena r _ => r = c_bump x | InBuffer _ => False | InProgram _ => True end) /\
    exists t, made_of os es c t /\ deref m (t_input (c_toml x)) = Some t /\ parsed t (t_tokens (c_toml x)) (t_asts (c_toml x)) (t_map (c_toml x));
  g_made : forall c t, made_of os es c t -> ~ dropped os c -> exists x, get (containers m) c = Some x;
  g_own : forall c c' x x', get (containers m) c = Some x -> get (containers m) c' = Some x' -> c_bump x = c_bump x' -> c = c';
  g_count : (live m + drops os = creations es + failures es)%nat;
  g_len : length (containers m) = creations es;
  g_drop : forall c, dropped os c -> (c < length (containers m))%nat;
  g_new : forall c, (exists n, nth_error es n = Some (Created c)) -> (c < length (containers m))%nat
}.
Lemma made_more os es o e c t : length os = length es -> made_of os es c t -> made_of (os ++ [o]) (es ++ [e]) c t.
Proof.
  intros L (n & o0 & H1 & H2 & H3). exists n, o0. assert (n < length os)%nat by (apply nth_error_Some; congruence).
  rewrite !nth_error_app1 by lia. auto.
Qed.
Lemma made_last os es o e c t : length os = length es -> made_of (os ++ [o]) (es ++ [e]) c t -> made_of os es c t \/ (e = Created c /\ makes o t).
Proof.
  intros L (n & o0 & H1 & H2 & H3). destruct (Nat.lt_ge_cases n (length os)) as [B|B].
  - left. exists n, o0. rewrite nth_error_app1 in H1 by exact B. rewrite nth_error_app1 in H2 by lia. auto.
  - right. rewrite nth_error_app2 in H1 by exact B. rewrite nth_error_app2 in H2 by lia. destruct (n - length os)%nat eqn:E; [|destruct n0; discriminate].
    rewrite <- L, E in H2. cbn in H1, H2. injection H1 as <-. injection H2 as <-. auto.
Qed.
Lemma last_new (os : list op) es (o : op) e c : length os = length es -> (exists n, nth_error (es ++ [e]) n = Some (Created c)) -> (exists n, nth_error es n = Some (Created c)) \/ e = Created c.
Proof.
  intros L (n & H). destruct (Nat.lt_ge_cases n (length es)) as [B|B]; [left; exists n; rewrite nth_error_app1 in H by exact B; exact H|].
  right. rewrite nth_error_app2 in H by exact B. destruct (n - length es)%nat as [|k]; [cbn in H; congruence|destruct k; discriminate].
Qed.
Lemma dropped_last os o c : dropped (os ++ [o]) c <-> dropped os c \/ o = Drop c.
Proof. unfold dropped. rewrite in_app_iff. cbn. split; [intros [H|[H|[]]]; auto|intros [H|H]; auto]. Qed.

(** Building a container, in an arena of its own. *)
Lemma build_good os es m o ts input t : length os = length es -> good os es m -> makes o t -> (forall c, o <> Drop c) ->
  (match input with InArena r _ => r = length (arenas m) | InBuffer _ => False | InProgram _ => True end) ->
  deref (with_arena m ts) input = Some t ->
  exists m' e, build_container (with_arena m ts) (length (arenas m)) input = Done m' e /\ good (os ++ [o]) (es ++ [e]) m' /\
    (e = Created (length (containers m)) \/ e = Failed /\ lex_and_parse t = Panic).
Proof.
  intros L G MK ND IN D. unfold build_container. rewrite D.
  assert (B : (exists tk a es0 es1 mp es2, lex t = Ok (tk, es0) /\ parse t tk = Ok (a, es1) /\ map_doc (as_asts a) = Ok (mp, es2)) \/ (lex_and_parse t = Panic /\
    forall X (k : tokens -> asts -> mtable -> X), (let? (tk, es) := lex t in let? (a, es') := parse t tk in let? (t, es'') := map_doc (as_asts a) in Ok (E := Empty_set) (k tk a t)) = Panic)).
  { unfold lex_and_parse. destruct (lex t) as [[tk es0]|[]|] eqn:E1; [|right; split; reflexivity]. cbn [bind].
    destruct (parse t tk) as [[a es1]|[]|] eqn:E2; [|right; split; reflexivity]. left.
    assert (LP : lex_and_parse t = Ok (a, es0 ++ es1)) by (unfold lex_and_parse; rewrite E1; cbn [bind]; rewrite E2; reflexivity).
    destruct (C35_mapping_total _ _ _ LP) as (mp & es2 & E3). exists tk, a, es0, es1, mp, es2. auto. }
  assert (OLD : forall c x, get (containers m) c = Some x -> get (arenas m ++ [Some ts]) (c_bump x) = get (arenas m) (c_bump x) /\
     deref (with_arena m ts) (t_input (c_toml x)) = deref m (t_input (c_toml x))).
  { intros c x H. destruct (g_cont _ _ _ G _ _ H) as ((ts0 & A) & _ & P & _). pose proof (get_lt _ _ _ A) as LT.
    assert (GA : get (arenas m ++ [Some ts]) (c_bump x) = get (arenas m) (c_bump x)) by (rewrite get_app; destruct (Nat.eq_dec (c_bump x) (length (arenas m))); [lia|reflexivity]).
    split; [exact GA|]. destruct (t_input (c_toml x)) as [r i|b|t0]; [subst r; cbn [deref with_arena arenas]; rewrite GA; reflexivity|destruct P|reflexivity]. }
  assert (DR : forall c, dropped (os ++ [o]) c <-> dropped os c).
  { intros c. rewrite dropped_last. split; [intros [H|H]; [exact H|exfalso; exact (ND _ H)]|auto]. }
  assert (NDR : drops (os ++ [o]) = drops os).
  { unfold drops. rewrite count_app. destruct o; try (rewrite Nat.add_0_r; reflexivity). exfalso. exact (ND _ eq_refl). }
  assert (LV : live (with_arena m ts) = S (live m)) by (unfold live, with_arena; cbn [arenas]; rewrite count_app; lia).
  destruct B as [(tk & a & es0 & es1 & mp & es2 & E1 & E2 & E3)|(P1 & P2)].
  - rewrite E1. cbn [bind]. rewrite E2. cbn [bind]. rewrite E3. cbn [bind]. eexists _, _. split; [reflexivity|]. split; [|left; reflexivity].
    set (x0 := mkcont (mktoml input tk a mp) (length (arenas m))).
    split.
    + intros c x H. cbn [containers with_arena] in H. rewrite get_app in H. destruct (Nat.eq_dec c (length (containers m))) as [->|NE].
      * injection H as <-. split; [exists ts; cbn [arenas with_arena c_bump x0]; rewrite get_app; destruct (Nat.eq_dec _ _); [reflexivity|congruence]|].
        split; [intros H; apply DR in H; apply (g_drop _ _ _ G) in H; lia|]. split; [exact IN|]. exists t.
        split; [exists (length os), o; rewrite nth_error_app2, Nat.sub_diag by lia; split; [reflexivity|]; rewrite nth_error_app2, L, Nat.sub_diag by lia; split; [reflexivity|exact MK]|].
        split; [exact D|]. exists es0, es1, es2. auto.
      * destruct (g_cont _ _ _ G _ _ H) as ((ts0 & A) & ND0 & P & t0 & M0 & D0 & PA). destruct (OLD _ _ H) as (O1 & O2).
        split; [exists ts0; cbn [arenas with_arena]; rewrite O1; exact A|]. split; [rewrite DR; exact ND0|]. split; [exact P|].
        exists t0. split; [apply made_more; assumption|]. split; [|exact PA]. rewrite <- D0, <- O2. destruct (t_input (c_toml x)); reflexivity.
    + intros c t0 MM ND0. rewrite DR in ND0. cbn [containers with_arena]. rewrite get_app. apply made_last in MM; [|exact L]. destruct MM as [MM|(EC & _)].
      * destruct (g_made _ _ _ G _ _ MM ND0) as (x & X). destruct (Nat.eq_dec c (length (containers m))) as [->|NE]; [eauto|exists x; exact X].
      * injection EC as <-. destruct (Nat.eq_dec _ _); [eauto|congruence].
    + intros c c' x x' H H' EB. cbn [containers with_arena] in H, H'. rewrite get_app in H, H'.
      assert (FR : forall c1 x1, get (containers m) c1 = Some x1 -> c_bump x1 <> length (arenas m)).
      { intros c1 x1 H1. destruct (g_cont _ _ _ G _ _ H1) as ((ts0 & A) & _). apply get_lt in A. lia. }
      destruct (Nat.eq_dec c (length (containers m))) as [->|NE]; destruct (Nat.eq_dec c' (length (containers m))) as [->|NE'].
      * reflexivity.
      * exfalso. injection H as <-. apply (FR _ _ H'). symmetry. exact EB.
      * exfalso. injection H' as <-. apply (FR _ _ H). exact EB.
      * exact (g_own _ _ _ G _ _ _ _ H H' EB).
    + pose proof (g_count _ _ _ G) as GC. rewrite NDR. unfold creations, failures. rewrite !count_app. fold (creations es). fold (failures es).
      change (live (mkmem (arenas (with_arena m ts)) (buffers (with_arena m ts)) (containers (with_arena m ts) ++ [Some x0]))) with (live (with_arena m ts)). rewrite LV. lia.
    + cbn [containers with_arena]. rewrite app_length. unfold creations. rewrite count_app. fold (creations es). rewrite (g_len _ _ _ G). reflexivity.
    + intros c H. apply DR, (g_drop _ _ _ G) in H. cbn [containers with_arena]. rewrite app_length. lia.
    + intros c H. cbn [containers with_arena]. rewrite app_length. cbn [length]. apply (last_new os es o) in H; [|exact L]. destruct H as [H|H]; [apply (g_new _ _ _ G) in H; lia|injection H as ->; lia].
  - rewrite P2. eexists _, _. split; [reflexivity|]. split; [|right; auto]. split.
    + intros c x H. destruct (g_cont _ _ _ G _ _ H) as ((ts0 & A) & ND0 & P & t0 & M0 & D0 & PA). destruct (OLD _ _ H) as (O1 & O2).
      split; [exists ts0; cbn [arenas with_arena]; rewrite O1; exact A|]. split; [rewrite DR; exact ND0|]. split; [exact P|].
      exists t0. split; [apply made_more; assumption|]. split; [|exact PA]. rewrite O2. exact D0.
    + intros c t0 MM ND0. rewrite DR in ND0. apply made_last in MM; [|exact L]. destruct MM as [MM|(EC & _)]; [|discriminate]. exact (g_made _ _ _ G _ _ MM ND0).
    + exact (g_own _ _ _ G).
    + pose proof (g_count _ _ _ G) as GC. rewrite NDR. unfold creations, failures. rewrite !count_app. fold (creations es). fold (failures es). rewrite LV. lia.
    + unfold creations. rewrite count_app, Nat.add_0_r. exact (g_len _ _ _ G).
    + intros c H. apply DR, (g_drop _ _ _ G) in H. exact H.
    + intros c H. apply (last_new os es o) in H; [|exact L]. destruct H as [H|H]; [|discriminate]. exact (g_new _ _ _ G _ H).
Qed.
Lemma same_good os es m o e m' : length os = length es -> good os es m -> (forall c, o <> Drop c) -> (forall c, e <> Created c) -> e <> Failed ->
  arenas m' = arenas m -> containers m' = containers m -> good (os ++ [o]) (es ++ [e]) m'.
Proof.
  intros L G ND NC NF EA EC.
  assert (DR : forall c, dropped (os ++ [o]) c <-> dropped os c).
  { intros c. rewrite dropped_last. split; [intros [H|H]; [exact H|exfalso; exact (ND _ H)]|auto]. }
  assert (CE : creations (es ++ [e]) = creations es) by (unfold creations; rewrite count_app; destruct e; try (rewrite Nat.add_0_r; reflexivity); exfalso; exact (NC _ eq_refl)).
  assert (FE : failures (es ++ [e]) = failures es) by (unfold failures; rewrite count_app; destruct e; try (rewrite Nat.add_0_r; reflexivity); exfalso; exact (NF eq_refl)).
  assert (DE : drops (os ++ [o]) = drops os) by (unfold drops; rewrite count_app; destruct o; try (rewrite Nat.add_0_r; reflexivity); exfalso; exact (ND _ eq_refl)).
  split.
  - intros c x H. rewrite EC in H. destruct (g_cont _ _ _ G _ _ H) as ((ts0 & A) & ND0 & P & t0 & M0 & D0 & PA). rewrite EA.
    split; [eauto|]. split; [rewrite DR; exact ND0|]. split; [exact P|]. exists t0. split; [apply made_more; assumption|]. split; [|exact PA].
    destruct (t_input (c_toml x)) as [r i|b|t]; [|destruct P|exact D0]. cbn [deref] in *. rewrite EA. exact D0.
  - intros c t M0 ND0. rewrite EC. rewrite DR in ND0. apply made_last in M0; [|exact L]. destruct M0 as [M0|(H & _)]; [|exfalso; exact (NC _ H)]. exact (g_made _ _ _ G _ _ M0 ND0).
  - rewrite EC. exact (g_own _ _ _ G).
  - unfold live. rewrite EA, CE, FE, DE. exact (g_count _ _ _ G).
  - rewrite EC, CE. exact (g_len _ _ _ G).
  - intros c H. rewrite EC. apply DR in H. exact (g_drop _ _ _ G _ H).
  - intros c H. rewrite EC. apply (last_new os es o) in H; [|exact L]. destruct H as [H|H]; [exact (g_new _ _ _ G _ H)|exfalso; exact (NC _ H)].
Qed.
Lemma step_good os es m o : length os = length es -> good os es m -> honest o ->
  match step_op m o with Refused => True | Fault => False | Done m' e => good (os ++ [o]) (es ++ [e]) m' end.
Proof.
  intros L G HO. destruct o as [t|b|t|t|p|c|c]; cbn [step_op].
  - apply (same_good os es m); try assumption; try discriminate; reflexivity.
  - destruct (get (buffers m) b); [|exact I]. apply (same_good os es m); try assumption; try discriminate; reflexivity.
  - destruct (build_good os es m (Parse t) [t] (InArena (length (arenas m)) 0) t L G) as (m' & e & E & G' & _); try reflexivity; [constructor|discriminate| |rewrite E; exact G'].
    cbn [deref with_arena arenas]. rewrite get_app. destruct (Nat.eq_dec _ _); [reflexivity|congruence].
  - destruct (build_good os es m (ParseWithCopy t) [t] (InArena (length (arenas m)) 0) t L G) as (m' & e & E & G' & _); try reflexivity; [constructor|discriminate| |rewrite E; exact G'].
    cbn [deref with_arena arenas]. rewrite get_app. destruct (Nat.eq_dec _ _); [reflexivity|congruence].
  - destruct p as [r i|b|t]; [destruct HO|destruct HO|]. cbn [deref].
    destruct (build_good os es m (ParseWithRef (InProgram t)) [] (InProgram t) t L G) as (m' & e & E & G' & _); try reflexivity; [constructor|discriminate|]. rewrite E. exact G'.
  - destruct (get (containers m) c) as [x|] eqn:GC; [|exact I]. destruct (g_cont _ _ _ G _ _ GC) as ((ts & A) & ND & P & _). rewrite A.
    pose proof (get_lt _ _ _ A) as LA. pose proof (get_lt _ _ _ GC) as LC.
    assert (CE : creations (es ++ [Nothing]) = creations es) by (unfold creations; rewrite count_app, Nat.add_0_r; reflexivity).
    assert (FE : failures (es ++ [Nothing]) = failures es) by (unfold failures; rewrite count_app, Nat.add_0_r; reflexivity).
    assert (OTHER : forall c' x', c' <> c -> get (containers m) c' = Some x' -> c_bump x' <> c_bump x).
    { intros c' x' NE H EB. apply NE. exact (g_own _ _ _ G _ _ _ _ H GC EB). }
    split; cbn [containers arenas].
    + intros c' x' H. rewrite get_put in H by exact LC. destruct (Nat.eq_dec c' c) as [->|NE]; [discriminate|]. pose proof (OTHER _ _ NE H) as OB.
      destruct (g_cont _ _ _ G _ _ H) as ((ts0 & A0) & ND0 & P0 & t0 & M0 & D0 & PA).
      assert (GP : get (put (arenas m) (c_bump x) None) (c_bump x') = get (arenas m) (c_bump x')) by (rewrite get_put by exact LA; destruct (Nat.eq_dec _ _); [contradiction|reflexivity]).
      split; [exists ts0; rewrite GP; exact A0|]. split; [rewrite dropped_last; intros [X|X]; [exact (ND0 X)|congruence]|]. split; [exact P0|].
      exists t0. split; [apply made_more; assumption|]. split; [|exact PA]. destruct (t_input (c_toml x')) as [r i|b|t]; [|destruct P0|exact D0].
      subst r. cbn [deref arenas] in *. rewrite GP. exact D0.
    + intros c' t M0 ND0. rewrite dropped_last in ND0. apply made_last in M0; [|exact L]. destruct M0 as [M0|(H & _)]; [|discriminate].
      destruct (g_made _ _ _ G _ _ M0) as (x' & X); [tauto|]. exists x'. rewrite get_put by exact LC. destruct (Nat.eq_dec c' c) as [->|NE]; [exfalso; apply ND0; right; reflexivity|exact X].
    + intros c1 c2 x1 x2 H1 H2. rewrite get_put in H1, H2 by exact LC. destruct (Nat.eq_dec c1 c); [discriminate|]. destruct (Nat.eq_dec c2 c); [discriminate|].
      exact (g_own _ _ _ G _ _ _ _ H1 H2).
    + rewrite CE, FE. rewrite <- (g_count _ _ _ G). unfold live, drops. cbn [arenas]. rewrite count_app. rewrite <- (put_held _ _ _ A). lia.
    + rewrite put_length, CE. exact (g_len _ _ _ G).
    + intros c' H. rewrite put_length. apply dropped_last in H. destruct H as [H|H]; [exact (g_drop _ _ _ G _ H)|injection H as <-; exact LC].
    + intros c' H. rewrite put_length. apply (last_new os es (Drop c)) in H; [|exact L]. destruct H as [H|H]; [exact (g_new _ _ _ G _ H)|discriminate].
  - destruct (get (containers m) c) as [x|] eqn:GC; [|exact I]. destruct (g_cont _ _ _ G _ _ GC) as ((ts & A) & _ & _ & t & _ & D & _). rewrite A, D.
    apply (same_good os es m); try assumption; try discriminate; reflexivity.
Qed.
Lemma runs_good os es m : runs empty os es m -> Forall honest os -> good os es m.
Proof.
  revert es m. induction os as [|o os IH] using rev_ind; intros es m R H.
  - inversion R; subst. split.
    + intros c x G. destruct c; discriminate.
    + intros c t (n & o & X & _). destruct n; discriminate.
    + intros c c' x x' G. destruct c; discriminate.
    + reflexivity.
    + reflexivity.
    + intros c [].
    + intros c (n & X). destruct n; discriminate.
  - apply Forall_app in H. destruct H as [H1 H2]. apply Forall_inv in H2. destruct (runs_snoc _ _ _ _ _ R) as (es' & e & m' & R' & S0 & ->).
    pose proof (step_good os es' m' o (runs_length _ _ _ _ R') (IH _ _ R' H1) H2) as X. rewrite S0 in X. exact X.
Qed.

(** No operation touches memory that is gone. *)
Theorem C72_no_fault os es m o : runs empty os es m -> Forall honest os -> honest o -> step_op m o <> Fault.
Proof.
  intros R H HO E. pose proof (step_good os es m o (runs_length _ _ _ _ R) (runs_good _ _ _ R H) HO) as X. rewrite E in X. exact X.
Qed.
(** A container that was created and not dropped shows the text it was made of
    and what that is parsed to; no other can be looked at. *)
Theorem C72_reads os es m c : runs empty os es m -> Forall honest os ->
  (step_op m (Read c) <> Refused <-> (exists t, made_of os es c t) /\ ~ dropped os c) /\
  (forall m' e, step_op m (Read c) = Done m' e -> m' = m /\ exists t tk a mp, made_of os es c t /\ parsed t tk a mp /\ e = Saw t tk a mp).
Proof.
  intros R H. pose proof (runs_good _ _ _ R H) as G. cbn [step_op]. split.
  - split.
    + intros N0. destruct (get (containers m) c) as [x|] eqn:GC; [|congruence]. destruct (g_cont _ _ _ G _ _ GC) as (_ & ND & _ & t & M & _). eauto.
    + intros ((t & M) & ND). destruct (g_made _ _ _ G _ _ M ND) as (x & GC). rewrite GC. destruct (get (arenas m) (c_bump x)); [|discriminate]. destruct (deref m _); discriminate.
  - intros m' e E. destruct (get (containers m) c) as [x|] eqn:GC; [|discriminate]. destruct (g_cont _ _ _ G _ _ GC) as ((ts & A) & _ & _ & t & M & D & PA).
    rewrite A, D in E. injection E as <- <-. split; [reflexivity|]. exists t, (t_tokens (c_toml x)), (t_asts (c_toml x)), (t_map (c_toml x)). auto.
Qed.
(** Every arena is freed once, with its container: those left are of the
    containers that are left and of texts that parsing failed on. *)
Theorem C72_memory os es m : runs empty os es m -> Forall honest os -> (live m + drops os = creations es + failures es)%nat.
Proof. intros R H. exact (g_count _ _ _ (runs_good _ _ _ R H)). Qed.
(** Creating a container fails only if parsing panics. *)
Theorem C72_creates os es m o t : runs empty os es m -> Forall honest os -> makes o t ->
  exists m' e, step_op m o = Done m' e /\ ((exists c, e = Created c /\ forall t', ~ made_of os es c t') \/ (e = Failed /\ lex_and_parse t = Panic)).
Proof.
  intros R H MK. pose proof (runs_good _ _ _ R H) as G. pose proof (runs_length _ _ _ _ R) as L.
  assert (NEW : forall t', ~ made_of os es (length (containers m)) t').
  { intros t' (n & o0 & _ & X & _). assert (X' : (length (containers m) < length (containers m))%nat) by (apply (g_new _ _ _ G); eauto). lia. }
  destruct MK as [t|t|t]; cbn [step_op deref].
  - destruct (build_good os es m (Parse t) [t] (InArena (length (arenas m)) 0) t L G) as (m' & e & E & _ & C); try reflexivity; [constructor|discriminate| |].
    + cbn [deref with_arena arenas]. rewrite get_app. destruct (Nat.eq_dec _ _); [reflexivity|congruence].
    + exists m', e. split; [exact E|]. destruct C as [->|C]; [left; eauto|right; exact C].
  - destruct (build_good os es m (ParseWithCopy t) [t] (InArena (length (arenas m)) 0) t L G) as (m' & e & E & _ & C); try reflexivity; [constructor|discriminate| |].
    + cbn [deref with_arena arenas]. rewrite get_app. destruct (Nat.eq_dec _ _); [reflexivity|congruence].
    + exists m', e. split; [exact E|]. destruct C as [->|C]; [left; eauto|right; exact C].
  - destruct (build_good os es m (ParseWithRef (InProgram t)) [] (InProgram t) t L G) as (m' & e & E & _ & C); try reflexivity; [constructor|discriminate|].
    exists m', e. split; [exact E|]. destruct C as [->|C]; [left; eauto|right; exact C].
Qed.
(** With [parse_with] a program without unsafe code can read freed memory: the
    closure returns a buffer of the caller, which is then freed. *)
Theorem C72_parse_with_refuted : exists os es m, runs empty os es m /\ (forall o, In o os -> match o with Drop _ => False | _ => True end) /\ step_op m (Read 0) = Fault.
Proof.
  exists [NewBuffer (bs "a = 1"); ParseWithRef (InBuffer 0); FreeBuffer 0]. eexists _, _. split.
  - eapply runs_cons; [vm_compute; reflexivity|]. eapply runs_cons; [vm_compute; reflexivity|]. eapply runs_cons; [vm_compute; reflexivity|]. apply runs_nil.
  - split; [intros o [<-|[<-|[<-|[]]]]; exact I|vm_compute; reflexivity].
Qed.
Example C72_example : exists es m t tk a mp, runs empty [Parse (bs "a = 1"); ParseWithCopy (bs "b = 2"); Drop 0] es m /\
  step_op m (Read 0) = Refused /\ step_op m (Read 1) = Done m (Saw t tk a mp) /\ t = bs "b = 2" /\ live m = 1%nat.
Proof.
  eexists _, _, _, _, _, _. split.
  - eapply runs_cons; [vm_compute; reflexivity|]. eapply runs_cons; [vm_compute; reflexivity|]. eapply runs_cons; [vm_compute; reflexivity|]. apply runs_nil.
  - split; [vm_compute; reflexivity|]. split; [vm_compute; reflexivity|]. split; [vm_compute; reflexivity|vm_compute; reflexivity].
Qed.
Print Assumptions C72_no_fault.
Print Assumptions C72_reads.
Print Assumptions C72_memory.
Print Assumptions C72_creates.
Print Assumptions C72_parse_with_refuted.
