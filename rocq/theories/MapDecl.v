(** From the declarations of a document to its map. *)
From Verif Require Import Base BaseProofs CommonModel TomlError LitModel LexModel ParseModel MapModel MapSpec MapWf MapRel.

(** ** Declarations of assignments and values *)
Lemma key_decls_pre ks f d : (forall q, f q = pre q (f [])) -> forall p, key_decls p ks f = pre p (loc_decls ByAssign (fun _ => f []) d ks).
Proof.
  intros F. revert d. induction ks as [|k [|k2 r] IH]; intros d p; [reflexivity| |].
  - cbn [key_decls]. rewrite loc_one, F, <- pre_one, pre_pre. reflexivity.
  - rewrite loc_more. cbn [header_via andb]. change (key_decls p (k :: k2 :: r) f) with ((p ++ [SKey k], RSuper ByAssign) :: key_decls (p ++ [SKey k]) (k2 :: r) f).
    rewrite (IH (sub (SKey k) d)). rewrite <- pre_one, pre_pre. cbn [pre map fst snd]. rewrite app_nil_r. reflexivity.
Qed.
Definition array_decls (p : list step) : list avalue -> N -> list decl :=
  fix go (l : list avalue) (i : N) : list decl :=
    match l with
    | [] => []
    | a :: r => value_decls (av_val a) (p ++ [SIdx i]) ++ go r (i + 1)
    end.
Definition table_decls (p : list step) (l : list iassign) : list decl :=
  flat_map (fun a => key_decls p (key_texts (as_key (ia_assign a))) (value_decls (as_val (ia_assign a)))) l.
Lemma value_decls_pre v p : value_decls v p = pre p (value_decls v []).
Proof.
  revert p. induction v as [lp l e IH|cr lp l e IH|v SC] using value_ind2; intros p.
  - change (value_decls (VTable lp l e) p) with ((p, RValue (VTable lp l e)) :: table_decls p l).
    change (value_decls (VTable lp l e) []) with (([], RValue (VTable lp l e)) :: table_decls [] l).
    cbn [pre map fst snd]. rewrite app_nil_r. f_equal. fold (pre p (table_decls [] l)). induction IH as [|a l IH0 IH' IHl]; [reflexivity|].
    unfold table_decls in *. cbn [flat_map]. rewrite pre_app, <- IHl. f_equal.
    rewrite (key_decls_pre _ _ [] IH0 p), (key_decls_pre _ _ [] IH0 []), pre_nil. reflexivity.
  - change (value_decls (VArray cr lp l e) p) with ((p, RValue (VArray cr lp l e)) :: array_decls p l 0).
    change (value_decls (VArray cr lp l e) []) with (([], RValue (VArray cr lp l e)) :: array_decls [] l 0).
    cbn [pre map fst snd]. rewrite app_nil_r. f_equal. fold (pre p (array_decls [] l 0)). generalize 0. induction IH as [|a l IH0 IH' IHl]; intros i; [reflexivity|].
    cbn [array_decls]. rewrite pre_app, <- IHl. f_equal. rewrite (IH0 (p ++ [SIdx i])), (IH0 ([] ++ [SIdx i])), pre_pre. reflexivity.
  - destruct v; try contradiction; cbn; rewrite app_nil_r; reflexivity.
Qed.
Lemma assign_decls_pre p a d : assign_decls p a = pre p (loc_decls ByAssign (fun _ => value_decls (as_val (ta_assign a)) []) d (key_texts (as_key (ta_assign a)))).
Proof. apply key_decls_pre. apply value_decls_pre. Qed.
Lemma below_flat {A} (f : A -> list decl) l : (forall a, below (f a)) -> below (flat_map f l).
Proof. intros F. induction l as [|a l IH]; [apply below_nil|]. cbn. apply below_app; auto. Qed.
Lemma below_assigns l : below (flat_map (assign_decls []) l).
Proof. apply below_flat. intros a. rewrite (assign_decls_pre [] a []), pre_nil. apply below_loc. Qed.
Lemma below_table_decls l : below (table_decls [] l).
Proof. apply below_flat. intros a. rewrite (key_decls_pre _ _ [] (value_decls_pre _)), pre_nil. apply below_loc. Qed.
Lemma here_array_decls l i : here (array_decls [] l i) = [].
Proof. revert i. induction l as [|a l IH]; intros i; [reflexivity|]. cbn [array_decls]. rewrite here_app, IH, value_decls_pre. cbn [app]. rewrite pre_one, here_pre1. reflexivity. Qed.
Lemma here_value v : here (value_decls v []) = [RValue v].
Proof.
  destruct v as [| | | | |lp l e|cr lp l e|]; try reflexivity.
  - change (value_decls (VTable lp l e) []) with (([], RValue (VTable lp l e)) :: table_decls [] l). rewrite here_cons.
    destruct (below_table_decls l) as [-> _]. reflexivity.
  - change (value_decls (VArray cr lp l e) []) with (([], RValue (VArray cr lp l e)) :: array_decls [] l 0). rewrite here_cons, here_array_decls. reflexivity.
Qed.

(** ** Values *)
Lemma array_sub_out l : forall i s, (forall j, s = SIdx j -> j < i \/ i + N.of_nat (length l) <= j) -> sub s (array_decls [] l i) = [].
Proof.
  induction l as [|a l IH]; intros i s H; [reflexivity|]. cbn [array_decls length] in *. rewrite sub_app, value_decls_pre. cbn [app]. rewrite pre_one.
  rewrite sub_pre1_other, IH; [reflexivity| |].
  - intros j E. specialize (H j E). lia.
  - intros E. specialize (H i E). lia.
Qed.

Lemma noclash_sub a s x : (forall y, In y a -> exists q, fst y = s :: q) -> sub s x = [] -> noclash a x.
Proof.
  intros H HS [p r] [q r'] A X E. cbn in E. subst q. destruct (H _ A) as (q & Q). cbn in Q. subst p. apply sub_in in X. rewrite HS in X. destruct X.
Qed.
Lemma app_nil_iff {A} (a b : list A) : a ++ b = [] <-> a = [] /\ b = [].
Proof. split; [apply app_eq_nil|intros [-> ->]; reflexivity]. Qed.

Lemma map_value_rel v : forall p parent n es, map_value v p parent = Ok (n, es) ->
  (es = [] <-> valid (value_decls v [])) /\ (es = [] -> rel_node (value_decls v []) n).
Proof.
  induction v as [lp l e IH|cr lp l e IH|v SC] using value_ind2; intros p parent n es E.
  - cbn [map_value] in E.
    assert (L : forall d m m' es, (fix go (l : list iassign) (m : mtable) : run (mtable * list terror) :=
           match l with
           | [] => Ok (m, [])
           | a :: r =>
               let? (m, es) := insert_node_at_path p parent m (as_key (ia_assign a)) (IValue (map_value (as_val (ia_assign a)))) (MInl a) in
               let? (m, es') := go r m in
               Ok (m, es ++ es')
           end) l m = Ok (m', es) -> rel_table d m -> (es = [] <-> fits d (table_decls [] l)) /\ (es = [] -> rel_table (d ++ table_decls [] l) m')).
    { clear E n es. induction IH as [|a l IH0 IH' IHl]; intros d m m' es E RT.
      - injection E as <- <-. cbn. rewrite app_nil_r. split; [|auto]. split; [intros _; apply fits_nil|auto].
      - destruct (insert_node_at_path p parent m _ _ _) as [[m1 es1]|[]|] eqn:E1; [|discriminate]. cbn [bind] in E.
        assert (IV : iv_rel (MInl a) ByAssign (IValue (map_value (as_val (ia_assign a)))) (fun _ => value_decls (as_val (ia_assign a)) [])).
        { apply iv_value; [reflexivity|exact IH0|apply here_value]. }
        destruct (insert_at_path_ok _ _ _ _ _ _ _ _ _ _ _ E1 IV RT) as [V1 V2].
        match type of E with bind ?g _ = _ => destruct g as [[m2 es2]|[]|] eqn:E2 end; [|discriminate]. cbn [bind] in E. injection E as <- <-.
        unfold table_decls. cbn [flat_map]. fold (table_decls [] l). rewrite (key_decls_pre _ _ d (value_decls_pre _)), pre_nil.
        rewrite fits_app, app_nil_iff. split.
        + split.
          * intros [H1 H2]. subst es1 es2. specialize (V2 eq_refl). destruct (IHl _ _ _ _ E2 V2) as [W1 W2]. split; [apply V1; reflexivity|apply W1; reflexivity].
          * intros [H1 H2]. apply V1 in H1. subst es1. specialize (V2 eq_refl). destruct (IHl _ _ _ _ E2 V2) as [W1 W2]. split; [reflexivity|apply W1; exact H2].
        + intros [H1 H2]. subst es1 es2. specialize (V2 eq_refl). destruct (IHl _ _ _ _ E2 V2) as [W1 W2]. rewrite app_assoc. apply W2. reflexivity. }
    match type of E with bind ?g _ = _ => destruct g as [[m2 es2]|[]|] eqn:E2 end; [|discriminate]. cbn [bind] in E. injection E as <- <-.
    destruct (L _ _ _ _ E2 rel_table_nil) as [V1 V2]. rewrite fits_empty in V1.
    change (value_decls (VTable lp l e) []) with (([], RValue (VTable lp l e)) :: table_decls [] l).
    destruct (below_table_decls l) as [B1 B2]. split.
    + rewrite V1, valid_cons. pose proof (noclash_here_l (RValue (VTable lp l e)) _ B1). tauto.
    + intros H. apply rn_table; [apply rel_table_cons_here, V2; exact H|exact B2|discriminate|]. rewrite here_cons, B1. repeat constructor.
  - cbn [map_value] in E.
    assert (L : forall i ns es, (fix go (l : list avalue) (i : N) : run (list ientry * list terror) :=
           match l with
           | [] => Ok ([], [])
           | a :: r =>
               let? (n, es) := map_value (av_val a) (SegArray i :: p) parent in
               let? (ns, es') := go r (i + 1) in
               Ok (mkie n a :: ns, es ++ es')
           end) l i = Ok (ns, es) -> (es = [] <-> valid (array_decls [] l i)) /\ length ns = length l /\
        (es = [] -> forall j x, nth_error ns j = Some x -> rel_node (sub (SIdx (i + N.of_nat j)) (array_decls [] l i)) (ie_node x))).
    { clear E n es. induction IH as [|a l IH0 IH' IHl]; intros i ns es E.
      - injection E as <- <-. cbn. split; [split; [intros _; apply valid_nil|reflexivity]|]. split; [reflexivity|]. intros _ [|j]; discriminate.
      - destruct (map_value (av_val a) (SegArray i :: p) parent) as [[n es1]|[]|] eqn:E1; [|discriminate]. cbn [bind] in E.
        match type of E with bind ?g _ = _ => destruct g as [[ns2 es2]|[]|] eqn:E2 end; [|discriminate]. cbn [bind] in E. injection E as <- <-.
        destruct (IH0 _ _ _ _ E1) as [V1 V2]. destruct (IHl _ _ _ E2) as (W1 & W2 & W3). cbn [array_decls]. rewrite value_decls_pre. cbn [app]. rewrite pre_one.
        split; [|split].
        + rewrite app_nil_iff, V1, W1, valid_app, valid_pre1.
          assert (NC : noclash (pre1 (SIdx i) (value_decls (av_val a) [])) (array_decls [] l (i + 1))).
          { apply (noclash_sub _ (SIdx i)).
            - intros [q r] Y. apply pre1_in in Y. destruct Y as (q' & -> & _). exists q'. reflexivity.
            - apply array_sub_out. intros j H. injection H as <-. lia. }
          tauto.
        + cbn. congruence.
        + intros H. apply app_nil_iff in H. destruct H as [H1 H2]. intros [|j] x; cbn [nth_error]; intros X.
          * injection X as <-. cbn [ie_node]. rewrite N.add_0_r, sub_app, sub_pre1, array_sub_out, app_nil_r; [exact (V2 H1)|].
            intros j H. injection H as <-. lia.
          * specialize (W3 H2 _ _ X). rewrite sub_app, sub_pre1_other; [|intros Y; injection Y as Y; lia].
            replace (i + N.of_nat (S j)) with (i + 1 + N.of_nat j) by lia. exact W3. }
    match type of E with bind ?g _ = _ => destruct g as [[ns es2]|[]|] eqn:E2 end; [|discriminate]. cbn [bind] in E. injection E as <- <-.
    destruct (L _ _ _ E2) as (V1 & V2 & V3).
    change (value_decls (VArray cr lp l e) []) with (([], RValue (VArray cr lp l e)) :: array_decls [] l 0). split.
    + rewrite V1, valid_cons. pose proof (noclash_here_l (RValue (VArray cr lp l e)) _ (here_array_decls l 0)). tauto.
    + intros H. apply rn_inline.
      * rewrite here_cons, here_array_decls. reflexivity.
      * exact V2.
      * intros j x X. rewrite sub_cons_here. exact (V3 H j x X).
      * intros j X. apply nth_error_None in X. rewrite sub_cons_here. apply array_sub_out. intros q Q. injection Q as <-. lia.
      * intros k. rewrite sub_cons_here. apply array_sub_out. discriminate.
  - destruct v; try contradiction; cbn in E; injection E as <- <-; (split; [split; [intros _; apply valid_one|reflexivity]|intros _; apply rn_scalar; [reflexivity|exact I|reflexivity]]).
Qed.

Lemma iv_assign a : iv_rel (MTop a) ByAssign (IValue (map_value (as_val (ta_assign a)))) (fun _ => value_decls (as_val (ta_assign a)) []).
Proof. apply iv_value; [reflexivity|apply map_value_rel|apply here_value]. Qed.

Lemma insert_assigns_rel l : assigns_rel (insert_assigns l) (flat_map (assign_decls []) l).
Proof.
  induction l as [|a l IHl]; intros d m p parent m' es E RT.
  - injection E as <- <-. cbn. rewrite app_nil_r. split; [|auto]. split; [intros _; apply fits_nil|auto].
  - cbn [insert_assigns] in E. destruct (insert_node_at_path p parent m _ _ _) as [[m1 es1]|[]|] eqn:E1; [|discriminate]. cbn [bind] in E.
    destruct (insert_at_path_ok _ _ _ _ _ _ _ _ _ _ _ E1 (iv_assign a) RT) as [V1 V2].
    destruct (insert_assigns l p parent m1) as [[m2 es2]|[]|] eqn:E2; [|discriminate]. cbn [bind] in E. injection E as <- <-.
    cbn [flat_map]. rewrite (assign_decls_pre [] a d), pre_nil, fits_app, app_nil_iff. split.
    + split.
      * intros [H1 H2]. subst es1 es2. specialize (V2 eq_refl). destruct (IHl _ _ _ _ _ _ E2 V2) as [W1 W2]. split; [apply V1; reflexivity|apply W1; reflexivity].
      * intros [H1 H2]. apply V1 in H1. subst es1. specialize (V2 eq_refl). destruct (IHl _ _ _ _ _ _ E2 V2) as [W1 W2]. split; [reflexivity|apply W1; exact H2].
    + intros [H1 H2]. subst es1 es2. specialize (V2 eq_refl). destruct (IHl _ _ _ _ _ _ E2 V2) as [W1 W2]. rewrite app_assoc. apply W2. reflexivity.
Qed.

(** ** Declarations of headers *)
Definition subp (p : list step) (d : list decl) : list decl := fold_left (fun d s => sub s d) p d.
Lemma subp_snoc p s d : subp (p ++ [s]) d = sub s (subp p d). Proof. unfold subp. rewrite fold_left_app. reflexivity. Qed.
Lemma arrays_at_subp p d : arrays_at d p = narr (subp p d).
Proof.
  revert d. induction p as [|s p IH]; intros d.
  - unfold arrays_at, narr. cbn [subp fold_left]. f_equal. induction d as [|[q r] d IHd]; [reflexivity|]. cbn [filter fst snd]. destruct q as [|s q].
    + rewrite here_cons. cbn [filter]. destruct (list_eq_dec step_eq_dec [] []); [|congruence]. rewrite andb_true_r. destruct (is_array r); cbn [length]; congruence.
    + destruct (list_eq_dec step_eq_dec (s :: q) []); [discriminate|]. rewrite andb_false_r. exact IHd.
  - change (subp (s :: p) d) with (subp p (sub s d)). rewrite <- IH. unfold arrays_at. f_equal.
    induction d as [|[q r] d IHd]; [reflexivity|]. cbn [filter fst snd]. change ((q, r) :: d) with ([(q, r)] ++ d). rewrite sub_app, filter_app, app_length, <- IHd.
    destruct q as [|s' q].
    + destruct (list_eq_dec step_eq_dec [] (s :: p)); [discriminate|]. rewrite andb_false_r. reflexivity.
    + cbn [sub flat_map fst snd app]. destruct (step_eq_dec s s') as [<-|NE]; cbn [app filter fst snd length].
      * destruct (list_eq_dec step_eq_dec (s :: q) (s :: p)) as [E|E]; destruct (list_eq_dec step_eq_dec q p) as [E'|E']; try congruence; destruct (is_array r); reflexivity.
      * destruct (list_eq_dec step_eq_dec (s' :: q) (s :: p)) as [E|E]; [congruence|]. rewrite andb_false_r. reflexivity.
Qed.

Lemma header_decls h fin d : header_via h = true -> forall ks k p,
  supers d h p (removelast (k :: ks)) ++ pre (through d p (removelast (k :: ks)) ++ [SKey (last (k :: ks) [])])
     (fin (subp (through d p (removelast (k :: ks)) ++ [SKey (last (k :: ks) [])]) d)) =
  pre p (loc_decls h fin (subp p d) (k :: ks)).
Proof.
  intros HV. induction ks as [|k2 ks IH]; intros k p.
  - cbn [removelast last supers through app]. rewrite loc_one, <- pre_one, pre_pre, subp_snoc. reflexivity.
  - rewrite loc_more, HV. change (removelast (k :: k2 :: ks)) with (k :: removelast (k2 :: ks)). change (last (k :: k2 :: ks) []) with (last (k2 :: ks) []).
    cbn [supers through]. unfold enter. rewrite <- (subp_snoc p (SKey k) d), <- (arrays_at_subp (p ++ [SKey k]) d). set (q := p ++ [SKey k]) in *. cbn [andb].
    destruct (arrays_at d q =? 0) eqn:A.
    + apply N.eqb_eq in A. rewrite A. change (0 <? 0) with false. rewrite <- app_assoc, IH. unfold q. rewrite subp_snoc, <- pre_one, pre_pre.
      cbn [app pre map fst snd]. rewrite app_nil_r. reflexivity.
    + apply N.eqb_neq in A. replace (0 <? arrays_at d q) with true by (symmetry; apply N.ltb_lt; lia). cbn [app]. rewrite IH. rewrite subp_snoc.
      unfold q. rewrite <- !pre_one, !pre_pre, <- !app_assoc. reflexivity.
Qed.

Lemma map_ast_rel d m a m' es : map_ast m a = Ok (m', es) -> rel_table d m ->
  below (ast_decls d a) /\ (es = [] <-> fits d (ast_decls d a)) /\ (es = [] -> rel_table (d ++ ast_decls d a) m').
Proof.
  intros E RT. assert (SKIP : Ok (E := Empty_set) (m, @nil terror) = Ok (m', es) -> below [] /\ (es = [] <-> fits d []) /\ (es = [] -> rel_table (d ++ []) m')).
  { intros H. injection H as <- <-. rewrite app_nil_r. split; [apply below_nil|]. split; [|auto]. split; [intros _; apply fits_nil|reflexivity]. }
  destruct a as [a|t|t|c]; cbn [map_ast ast_decls] in *.
  - rewrite (assign_decls_pre [] a d), pre_nil. split; [apply below_loc|]. exact (insert_at_path_ok _ _ _ _ _ _ _ _ _ _ _ E (iv_assign a) RT).
  - destruct (th_key (tb_header t)) as [k|]; [|exact (SKIP E)].
    assert (NE : key_texts k <> []) by (intros H; destruct k as [i|[|o l]]; [discriminate H|discriminate E|discriminate H]).
    pose proof (below_assigns (tb_assigns t)) as BA.
    pose proof (insert_at_path_ok _ _ _ _ _ _ _ _ _ _ _ E (iv_assigns t _ _ BA (insert_assigns_rel _)) RT) as V.
    destruct (key_texts k) as [|k1 ks]; [congruence|]. cbv zeta.
    pose proof (header_decls ByTable (fun _ => ([], RHeader) :: flat_map (assign_decls []) (tb_assigns t)) d eq_refl ks k1 []) as HD.
    rewrite pre_nil in HD. cbn [subp fold_left] in HD. rewrite <- HD in V. cbn [pre map fst snd] in V. rewrite app_nil_r in V.
    set (q := through d [] (removelast (k1 :: ks)) ++ [SKey (last (k1 :: ks) [])]) in *.
    assert (FM : flat_map (assign_decls q) (tb_assigns t) = pre q (flat_map (assign_decls []) (tb_assigns t))).
    { clear. induction (tb_assigns t) as [|a l IH]; [reflexivity|]. cbn [flat_map]. rewrite pre_app, <- IH, (assign_decls_pre q a []), (assign_decls_pre [] a []), pre_nil. reflexivity. }
    rewrite FM. split; [|exact V].
    assert (B := below_loc ByTable (fun _ => ([], RHeader) :: flat_map (assign_decls []) (tb_assigns t)) d (k1 :: ks)). rewrite <- HD in B.
    cbn [pre map fst snd] in B. rewrite app_nil_r in B. exact B.
  - destruct (ah_key (ae_header t)) as [k|]; [|exact (SKIP E)].
    assert (NE : key_texts k <> []) by (intros H; destruct k as [i|[|o l]]; [discriminate H|discriminate E|discriminate H]).
    pose proof (below_assigns (ae_assigns t)) as BA.
    pose proof (insert_at_path_ok _ _ _ _ _ _ _ _ _ _ _ E (iv_entry t _ _ BA (insert_assigns_rel _)) RT) as V.
    destruct (key_texts k) as [|k1 ks]; [congruence|]. cbv zeta.
    pose proof (header_decls ByArray (fun d => ([], RArray) :: ([SIdx (narr d)], RElem) :: pre1 (SIdx (narr d)) (flat_map (assign_decls []) (ae_assigns t))) d eq_refl ks k1 []) as HD.
    rewrite pre_nil in HD. change (subp [] d) with d in HD. cbv beta in HD. rewrite <- HD in V.
    assert (B := below_loc ByArray (fun d => ([], RArray) :: ([SIdx (narr d)], RElem) :: pre1 (SIdx (narr d)) (flat_map (assign_decls []) (ae_assigns t))) d (k1 :: ks)). rewrite <- HD in B.
    set (q := through d [] (removelast (k1 :: ks)) ++ [SKey (last (k1 :: ks) [])]) in *. rewrite <- arrays_at_subp in V, B. set (e := q ++ [SIdx (arrays_at d q)]) in *.
    assert (FM : flat_map (assign_decls e) (ae_assigns t) = pre e (flat_map (assign_decls []) (ae_assigns t))).
    { clear. induction (ae_assigns t) as [|a l IH]; [reflexivity|]. cbn [flat_map]. rewrite pre_app, <- IH, (assign_decls_pre e a []), (assign_decls_pre [] a []), pre_nil. reflexivity. }
    assert (PE : pre q (([], RArray) :: ([SIdx (arrays_at d q)], RElem) :: pre1 (SIdx (arrays_at d q)) (flat_map (assign_decls []) (ae_assigns t))) =
      (q, RArray) :: (e, RElem) :: flat_map (assign_decls e) (ae_assigns t)).
    { rewrite FM. unfold e. rewrite <- pre_pre, pre_one. cbn [pre map fst snd]. rewrite app_nil_r. reflexivity. }
    rewrite PE in V, B. split; [exact B|exact V].
  - exact (SKIP E).
Qed.

Lemma decls_from_app l : forall d, exists x, decls_from d l = d ++ x.
Proof.
  induction l as [|a l IH]; intros d; [exists []; cbn; rewrite app_nil_r; reflexivity|]. cbn [decls_from].
  destruct (IH (d ++ ast_decls d a)) as (x & ->). eexists. rewrite <- app_assoc. reflexivity.
Qed.
Lemma map_asts_rel l : forall d m m' es, map_asts m l = Ok (m', es) -> rel_table d m -> below d -> valid d ->
  (es = [] <-> valid (decls_from d l)) /\ (es = [] -> rel_table (decls_from d l) m' /\ below (decls_from d l)).
Proof.
  induction l as [|a l IH]; intros d m m' es E RT B V.
  - injection E as <- <-. cbn [decls_from]. tauto.
  - cbn [map_asts] in E. destruct (map_ast m a) as [[m1 es1]|[]|] eqn:E1; [|discriminate]. cbn [bind] in E.
    destruct (map_asts m1 l) as [[m2 es2]|[]|] eqn:E2; [|discriminate]. cbn [bind] in E. injection E as <- <-.
    destruct (map_ast_rel _ _ _ _ _ E1 RT) as (B1 & V1 & V2). cbn [decls_from].
    destruct es1 as [|er es1].
    + assert (VD : valid (d ++ ast_decls d a)) by (apply valid_fits; split; [exact V|apply V1; reflexivity]).
      exact (IH _ _ _ _ E2 (V2 eq_refl) (below_app _ _ B B1) VD).
    + split; [|discriminate]. split; [discriminate|]. destruct (decls_from_app l (d ++ ast_decls d a)) as (x & ->). intros H.
      apply valid_app in H. destruct H as (H & _). apply valid_fits in H. destruct H as [_ H]. apply V1 in H. discriminate.
Qed.
Lemma map_doc_rel l m es : map_doc l = Ok (m, es) ->
  (es = [] <-> valid (doc_decls l)) /\ (es = [] -> rel_table (doc_decls l) m /\ below (doc_decls l)).
Proof. intros E. exact (map_asts_rel l [] [] m es E rel_table_nil below_nil valid_nil). Qed.

(** ** What is declared at a place *)
Lemma firsts_fun {A} (l u : list A) : firsts l u -> forall v, firsts l v -> u = v.
Proof.
  induction 1 as [|l u x F IH NI|l u x F IH NI]; intros v G.
  - inversion G as [E|l0 u0 x0 G0 N0 E|l0 u0 x0 G0 N0 E]; [reflexivity|destruct l0; discriminate..].
  - inversion G as [E|l0 u0 x0 G0 N0 E|l0 u0 x0 G0 N0 E]; [destruct l; discriminate|..]; apply app_inj_tail in E; destruct E as [-> ->].
    + f_equal. apply IH. exact G0.
    + rewrite <- (IH _ G0) in N0. contradiction.
  - inversion G as [E|l0 u0 x0 G0 N0 E|l0 u0 x0 G0 N0 E]; [destruct l; discriminate|..]; apply app_inj_tail in E; destruct E as [-> ->].
    + rewrite <- (IH _ G0) in N0. contradiction.
    + apply IH. exact G0.
Qed.
Lemma keys_below_here d l : keys_below [] d l <-> l = heads d.
Proof.
  split.
  - induction 1 as [|k r d l K IH|q r d l NQ K IH]; [reflexivity|cbn; f_equal; exact IH|].
    rewrite (heads_app [(q, r)] d : heads ((q, r) :: d) = _). rewrite <- IH. destruct q as [|[k|i] [|s q]]; try reflexivity. exfalso. exact (NQ k eq_refl).
  - intros ->. induction d as [|[q r] d IH]; [constructor|]. rewrite (heads_app [(q, r)] d : heads ((q, r) :: d) = _).
    destruct q as [|[k|i] [|s q]]; cbn [heads flat_map fst app]; try (apply kb_skip; [discriminate|exact IH]).
    apply (kb_key [] k r d _ IH).
Qed.
Lemma keys_below_sub s p d l : keys_below (s :: p) d l <-> keys_below p (sub s d) l.
Proof.
  split.
  - induction 1 as [|k r d l K IH|q r d l NQ K IH]; [constructor| |].
    + cbn. destruct (step_eq_dec s s); [|congruence]. cbn. constructor. exact IH.
    + destruct q as [|s' q]; [exact IH|]. cbn. destruct (step_eq_dec s s') as [<-|]; [|exact IH]. cbn. apply kb_skip; [|exact IH].
      intros k H. apply (NQ k). cbn. f_equal. exact H.
  - revert l. induction d as [|[q r] d IH]; intros l K.
    + cbn in K. inversion K. constructor.
    + destruct q as [|s' q]; [apply kb_skip; [discriminate|apply IH; exact K]|]. cbn in K. destruct (step_eq_dec s s') as [<-|NE].
      * cbn in K. fold (sub s d) in K. inversion K as [|k r0 d0 l0 K0 E1|q0 r0 d0 l0 NQ K0 E1]; subst.
        -- change (s :: p ++ [SKey k]) with ((s :: p) ++ [SKey k]). constructor. apply IH. exact K0.
        -- apply kb_skip; [|apply IH; exact K0]. intros k H. injection H as H. exact (NQ k H).
      * apply kb_skip; [|apply IH; exact K]. intros k H. injection H as H _. congruence.
Qed.

(** [declared] at a place that is declared *)
Inductive declared_at (d : list decl) (p : list step) : content -> Prop :=
| da_table l ks r : In (p, r) d -> table_role r -> keys_below p d l -> firsts l ks -> declared_at d p (CTable ks)
| da_tables : In (p, RArray) d -> declared_at d p (CArray (arrays_at d p))
| da_array c lp l e : In (p, RValue (VArray c lp l e)) d -> declared_at d p (CArray (N.of_nat (length l)))
| da_scalar v : In (p, RValue v) d -> is_scalar_val v -> declared_at d p (CScalar v).
Lemma declared_at_sub d s p c : declared_at d (s :: p) c <-> declared_at (sub s d) p c.
Proof.
  assert (AE : arrays_at (sub s d) p = arrays_at d (s :: p)) by (rewrite !arrays_at_subp; reflexivity).
  split; intros H; inversion H; subst.
  - eapply da_table; [apply sub_in; eassumption|assumption|apply keys_below_sub; eassumption|assumption].
  - rewrite <- AE. apply da_tables. apply sub_in. assumption.
  - eapply da_array. apply sub_in. eassumption.
  - apply da_scalar; [apply sub_in; assumption|assumption].
  - eapply da_table; [apply sub_in; eassumption|assumption|apply keys_below_sub; eassumption|assumption].
  - rewrite AE. apply da_tables. apply sub_in. assumption.
  - eapply da_array. apply sub_in. eassumption.
  - apply da_scalar; [apply sub_in; assumption|assumption].
Qed.
Lemma declared_at_nil p c : ~ declared_at [] p c.
Proof. intros H. inversion H; subst; match goal with X : In _ [] |- _ => destruct X end. Qed.
Lemma declared_at_iff d p c : here d = [] -> p <> [] -> (declared d p c <-> declared_at d p c).
Proof.
  intros H NE. split; intros D; inversion D; subst.
  - match goal with X : _ \/ _ |- _ => destruct X as [X|(r & R1 & R2)] end; [congruence|]. eapply da_table; [exact R1|exact R2|eassumption..].
  - apply da_tables. assumption.
  - eapply da_array. eassumption.
  - apply da_scalar; assumption.
  - eapply dc_table; [right; exists r; split; eassumption|eassumption..].
  - apply dc_tables. assumption.
  - eapply dc_array. eassumption.
  - apply dc_scalar; assumption.
Qed.

Lemma rel_content p : forall d n c, rel_node d n -> (option_map content_of (node_at p n) = Some c <-> declared_at d p c).
Proof.
  induction p as [|s p IH]; intros d n c RN.
  - cbn [node_at option_map]. assert (IN : forall r, In ([], r) d <-> In r (here d)) by (intros; symmetry; apply here_in). destruct RN as [d t RT ID NE TR|d es NE H EL OUT KE|d pa cr lp l e es H LE EL OUT KE|d v H SV SU].
    + inversion RT as [d0 m0 F _ _]; subst d0 m0. rewrite Forall_forall in TR. cbn [content_of]. split.
      * intros E. injection E as <-. destruct (here d) as [|r h] eqn:HD; [congruence|]. eapply (da_table d [] (heads d) _ r).
        -- apply IN. left. reflexivity.
        -- apply TR. left. reflexivity.
        -- apply keys_below_here. reflexivity.
        -- exact F.
      * intros D. inversion D as [l ks r I0 T K FF|I0|cc ll l ee I0|v I0 SV]; subst.
        -- apply keys_below_here in K. subst l. f_equal. f_equal. exact (firsts_fun _ _ F _ FF).
        -- apply IN, TR in I0. destruct I0.
        -- apply IN, TR in I0. destruct I0.
        -- apply IN, TR in I0. cbn in I0. destruct v; try contradiction.
    + cbn [content_of]. split.
      * intros E. injection E as <-. rewrite <- (narr_repeat _ _ H). rewrite <- (arrays_at_subp [] d : arrays_at d [] = narr d). apply da_tables. apply IN. rewrite H. destruct es; [congruence|left; reflexivity].
      * intros D. inversion D as [l ks r I0 T K FF|I0|cc ll l ee I0|v I0 SV]; subst.
        -- apply IN in I0. rewrite H in I0. apply repeat_spec in I0. subst r. destruct T.
        -- f_equal. f_equal. rewrite <- (narr_repeat _ _ H). symmetry. apply (arrays_at_subp [] d).
        -- apply IN in I0. rewrite H in I0. apply repeat_spec in I0. discriminate.
        -- apply IN in I0. rewrite H in I0. apply repeat_spec in I0. discriminate.
    + cbn [content_of]. rewrite LE. split.
      * intros E. injection E as <-. eapply da_array. apply IN. rewrite H. left. reflexivity.
      * intros D. inversion D as [l0 ks r I0 T K FF|I0|cc ll l0 ee I0|v I0 SV]; subst; apply IN in I0; rewrite H in I0; destruct I0 as [I0|[]].
        -- subst r. destruct T.
        -- discriminate.
        -- injection I0 as _ _ -> _. reflexivity.
        -- injection I0 as <-. destruct SV.
    + cbn [content_of]. split.
      * intros E. injection E as <-. apply da_scalar; [|exact SV]. apply IN. rewrite H. left. reflexivity.
      * intros D. inversion D as [l0 ks r I0 T K FF|I0|cc ll l0 ee I0|v0 I0 SV0]; subst; apply IN in I0; rewrite H in I0; destruct I0 as [I0|[]].
        -- subst r. destruct v; destruct SV; destruct T.
        -- discriminate.
        -- injection I0 as ->. destruct SV.
        -- injection I0 as ->. reflexivity.
  - rewrite declared_at_sub. assert (OUT : sub s d = [] -> node_at (s :: p) n = None -> (option_map content_of (node_at (s :: p) n) = Some c <-> declared_at (sub s d) p c)).
    { intros E1 E2. rewrite E1, E2. split; [discriminate|]. intros H. destruct (declared_at_nil _ _ H). }
    destruct RN as [d t RT ID NE TR|d es NE H EL OU KE|d pa cr lp l e es H LE EL OU KE|d v H SV SU].
    + destruct s as [k|i]; [|apply OUT; [apply ID|reflexivity]]. inversion RT as [d0 m0 F G1 G2]; subst d0 m0. cbn [node_at].
      destruct (tget t k) as [e|] eqn:T.
      * apply IH. apply (G1 _ _ T).
      * rewrite (G2 _ T). split; [discriminate|]. intros X. destruct (declared_at_nil _ _ X).
    + destruct s as [k|i]; [apply OUT; [apply KE|reflexivity]|]. cbn [node_at]. destruct (nth_error es (N.to_nat i)) as [e|] eqn:T.
      * destruct (EL _ _ T) as (M1 & M2 & M3). rewrite N2Nat.id in *. apply IH. apply rn_table; [exact M1|exact M3|rewrite M2; discriminate|rewrite M2; repeat constructor].
      * pose proof (OU _ T) as X. rewrite N2Nat.id in X. rewrite X. split; [discriminate|]. intros Y. destruct (declared_at_nil _ _ Y).
    + destruct s as [k|i]; [apply OUT; [apply KE|reflexivity]|]. cbn [node_at]. destruct (nth_error es (N.to_nat i)) as [x|] eqn:T.
      * pose proof (EL _ _ T) as X. rewrite N2Nat.id in X. apply IH. exact X.
      * pose proof (OU _ T) as X. rewrite N2Nat.id in X. rewrite X. split; [discriminate|]. intros Y. destruct (declared_at_nil _ _ Y).
    + apply OUT; [apply SU|]. destruct s; reflexivity.
Qed.

Lemma root_content d m p c : rel_table d m -> below d -> (option_map content_of (node_at p (NTable m)) = Some c <-> declared d p c).
Proof.
  intros RT [B1 B2]. inversion RT as [d0 m0 F G1 G2]; subst d0 m0. destruct p as [|s p].
  - cbn [node_at option_map content_of]. assert (IN : forall r, ~ In ([], r) d) by (intros r H; apply here_in in H; rewrite B1 in H; destruct H). split.
    + intros E. injection E as <-. eapply dc_table; [left; reflexivity|apply keys_below_here; reflexivity|exact F].
    + intros D. inversion D as [l ks _ K FF|I0|cc ll l ee I0|v I0 SV]; subst; try (destruct (IN _ I0)).
      apply keys_below_here in K. subst l. f_equal. f_equal. exact (firsts_fun _ _ F _ FF).
  - rewrite declared_at_iff by (assumption || discriminate). rewrite declared_at_sub. destruct s as [k|i].
    + cbn [node_at]. destruct (tget m k) as [e|] eqn:T.
      * apply rel_content. apply (G1 _ _ T).
      * rewrite (G2 _ T). split; [discriminate|]. intros X. destruct (declared_at_nil _ _ X).
    + cbn [node_at option_map]. rewrite B2. split; [discriminate|]. intros X. destruct (declared_at_nil _ _ X).
Qed.

Theorem map_doc_content l m es : map_doc l = Ok (m, es) ->
  (es = [] <-> valid (doc_decls l)) /\
  (es = [] -> forall p c, option_map content_of (node_at p (NTable m)) = Some c <-> declared (doc_decls l) p c).
Proof.
  intros E. destruct (map_doc_rel _ _ _ E) as [V1 V2]. split; [exact V1|]. intros E0 p c. destruct (V2 E0) as [R B]. apply root_content; assumption.
Qed.
