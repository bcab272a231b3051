(** The map of a document is what the document declares, and has no error
    exactly when the declarations are compatible. *)
From Verif Require Import Base BaseProofs CommonModel TomlError LitModel LexModel ParseModel MapModel MapSpec MapWf.

(** ** Declarations below a step *)
Definition sub (s : step) (d : list decl) : list decl :=
  flat_map (fun x => match fst x with s' :: p => if step_eq_dec s s' then [(p, snd x)] else [] | [] => [] end) d.
Definition here (d : list decl) : list role := flat_map (fun x => match fst x with [] => [snd x] | _ => [] end) d.
Definition heads (d : list decl) : list (list N) := flat_map (fun x => match fst x with [SKey k] => [k] | _ => [] end) d.
Definition pre1 (s : step) (d : list decl) : list decl := map (fun x => (s :: fst x, snd x)) d.
Definition pre (p : list step) (d : list decl) : list decl := map (fun x => (p ++ fst x, snd x)) d.

Lemma sub_app s a b : sub s (a ++ b) = sub s a ++ sub s b. Proof. apply flat_map_app. Qed.
Lemma here_app a b : here (a ++ b) = here a ++ here b. Proof. apply flat_map_app. Qed.
Lemma heads_app a b : heads (a ++ b) = heads a ++ heads b. Proof. apply flat_map_app. Qed.
Lemma pre1_app s a b : pre1 s (a ++ b) = pre1 s a ++ pre1 s b. Proof. apply map_app. Qed.
Lemma pre_app p a b : pre p (a ++ b) = pre p a ++ pre p b. Proof. apply map_app. Qed.
Lemma sub_pre1 s d : sub s (pre1 s d) = d.
Proof. induction d as [|[p r] d IH]; [reflexivity|]. cbn. destruct (step_eq_dec s s); [|congruence]. cbn. f_equal. exact IH. Qed.
Lemma sub_pre1_other s s' d : s <> s' -> sub s (pre1 s' d) = [].
Proof. intros N0. induction d as [|[p r] d IH]; [reflexivity|]. cbn. destruct (step_eq_dec s s'); [congruence|]. exact IH. Qed.
Lemma here_pre1 s d : here (pre1 s d) = []. Proof. induction d; [reflexivity|exact IHd]. Qed.
Lemma heads_pre1_key k d : heads (pre1 (SKey k) d) = map (fun _ => k) (here d).
Proof. induction d as [|[p r] d IH]; [reflexivity|]. destruct p; cbn; [f_equal|]; exact IH. Qed.
Lemma heads_pre1_idx i d : heads (pre1 (SIdx i) d) = [].
Proof. induction d as [|[p r] d IH]; [reflexivity|]. destruct p; exact IH. Qed.
Lemma pre_nil d : pre [] d = d.
Proof. induction d as [|[p r] d IH]; [reflexivity|]. cbn. f_equal. exact IH. Qed.
Lemma pre_cons s p d : pre (s :: p) d = pre1 s (pre p d).
Proof. unfold pre, pre1. rewrite map_map. reflexivity. Qed.
Lemma pre_one s d : pre [s] d = pre1 s d. Proof. reflexivity. Qed.
Lemma pre_pre p q d : pre p (pre q d) = pre (p ++ q) d.
Proof. unfold pre. rewrite map_map. apply map_ext. intros [a r]. cbn. rewrite app_assoc. reflexivity. Qed.
Lemma sub_in s d p r : In (p, r) (sub s d) <-> In (s :: p, r) d.
Proof.
  unfold sub. rewrite in_flat_map. split.
  - intros ([[|s' q] r'] & I0 & H); cbn in H; [destruct H|]. destruct (step_eq_dec s s') as [<-|]; [|destruct H].
    destruct H as [H|[]]. injection H as <- <-. exact I0.
  - intros I0. exists (s :: p, r). split; [exact I0|]. cbn. destruct (step_eq_dec s s); [left; reflexivity|congruence].
Qed.
Lemma here_in d r : In r (here d) <-> In ([], r) d.
Proof.
  unfold here. rewrite in_flat_map. split.
  - intros ([[|s q] r'] & I0 & H); cbn in H; [|destruct H]. destruct H as [<-|[]]. exact I0.
  - intros I0. exists ([], r). split; [exact I0|left; reflexivity].
Qed.
Lemma heads_in d k : In k (heads d) <-> exists r, In ([SKey k], r) d.
Proof.
  unfold heads. rewrite in_flat_map. split.
  - intros ([[|[k'|i] [|s q]] r'] & I0 & H); cbn in H; try destruct H as [<-|[]]; try destruct H. exists r'. exact I0.
  - intros (r & I0). exists ([SKey k], r). split; [exact I0|left; reflexivity].
Qed.
Lemma pre1_in s d p r : In (p, r) (pre1 s d) <-> exists q, p = s :: q /\ In (q, r) d.
Proof.
  unfold pre1. rewrite in_map_iff. split.
  - intros ([q r'] & H & I0). cbn in H. injection H as <- <-. exists q. auto.
  - intros (q & -> & I0). exists (q, r). auto.
Qed.

(** ** Compatible declarations *)
Definition noclash (a b : list decl) : Prop := forall x y, In x a -> In y b -> fst x = fst y -> clash (snd x) (snd y) = false.

Lemma before_in_app {A} (a b : list A) x y : before (a ++ b) x y <-> before a x y \/ before b x y \/ (In x a /\ In y b).
Proof.
  split.
  - intros (u & v & w & E). revert a E. induction u as [|z u IH]; intros [|c a] E; cbn in E.
    + right; left. exists [], v, w. exact E.
    + injection E as <- E. assert (Y : In y (a ++ b)) by (rewrite E; apply in_or_app; right; left; reflexivity).
      apply in_app_or in Y. destruct Y as [Y|Y].
      * left. apply in_split in Y. destruct Y as (p & q & ->). exists [], p, q. reflexivity.
      * right; right. split; [left; reflexivity|exact Y].
    + right; left. exists (z :: u), v, w. exact E.
    + injection E as <- E. destruct (IH _ E) as [(p & q & r & ->)|[H|[H1 H2]]].
      * left. exists (c :: p), q, r. reflexivity.
      * right; left. exact H.
      * right; right. split; [right; exact H1|exact H2].
  - intros [(u & v & w & ->)|[(u & v & w & ->)|[X Y]]].
    + exists u, v, (w ++ b). rewrite <- app_assoc. cbn. rewrite <- app_assoc. reflexivity.
    + exists (a ++ u), v, w. rewrite <- app_assoc. reflexivity.
    + apply before_app; assumption.
Qed.
Lemma valid_app a b : valid (a ++ b) <-> valid a /\ valid b /\ noclash a b.
Proof.
  unfold valid, noclash. split.
  - intros H. repeat split; intros x y; intros; apply H; try assumption; apply before_in_app; auto.
  - intros (H1 & H2 & H3) x y B E. apply before_in_app in B. destruct B as [B|[B|[X Y]]]; auto.
Qed.
Lemma noclash_app_l a b c : noclash (a ++ b) c <-> noclash a c /\ noclash b c.
Proof.
  unfold noclash. split.
  - intros H. split; intros x y X; apply H; apply in_or_app; auto.
  - intros [H1 H2] x y X. apply in_app_or in X. destruct X; auto.
Qed.
Lemma noclash_app_r a b c : noclash a (b ++ c) <-> noclash a b /\ noclash a c.
Proof.
  unfold noclash. split.
  - intros H. split; intros x y X Y; apply H; try assumption; apply in_or_app; auto.
  - intros [H1 H2] x y X Y. apply in_app_or in Y. destruct Y; auto.
Qed.
Lemma noclash_nil_l a : noclash [] a. Proof. intros x y []. Qed.
Lemma noclash_nil_r a : noclash a []. Proof. intros x y _ []. Qed.
Lemma noclash_pre1 s d y : noclash d (pre1 s y) <-> noclash (sub s d) y.
Proof.
  unfold noclash. split.
  - intros H [p r] [q r'] X Y E. cbn in E. subst q. apply sub_in in X. apply (H (s :: p, r) (s :: p, r') X); [|reflexivity].
    apply pre1_in. exists p. auto.
  - intros H [p r] [q r'] X Y E. cbn in E. subst q. apply pre1_in in Y. destruct Y as (q & -> & Y).
    apply (H (q, r) (q, r')); [apply sub_in; exact X|exact Y|reflexivity].
Qed.
Lemma valid_nil : valid [].
Proof. intros x y (a & b & c & E). destruct a; discriminate. Qed.
Lemma valid_one x : valid [x].
Proof. intros u v (a & b & c & E). destruct a as [|z [|w a]]; cbn in E; injection E as E; destruct b; discriminate. Qed.
Lemma valid_cons x l : valid (x :: l) <-> noclash [x] l /\ valid l.
Proof. change (x :: l) with ([x] ++ l). rewrite valid_app. pose proof (valid_one x). tauto. Qed.
Lemma valid_pre1 s y : valid (pre1 s y) <-> valid y.
Proof.
  induction y as [|[p r] y IH]; [split; intros; apply valid_nil|].
  change (pre1 s ((p, r) :: y)) with (pre1 s [(p, r)] ++ pre1 s y). change ((p, r) :: y) with ([(p, r)] ++ y).
  rewrite !valid_app, IH, noclash_pre1, sub_pre1. pose proof (valid_one (p, r)). pose proof (valid_one (s :: p, r)). tauto.
Qed.
Lemma noclash_here d r : noclash d [([], r)] <-> forall x, In x (here d) -> clash x r = false.
Proof.
  unfold noclash. split.
  - intros H x X. apply here_in in X. apply (H ([], x) ([], r) X); [left; reflexivity|reflexivity].
  - intros H [p x] y X [<-|[]] E. cbn in E. subst p. apply H. apply here_in. exact X.
Qed.
(** A declaration at the place itself and others below it *)
Lemma noclash_here_l r y : here y = [] -> noclash [([], r)] y.
Proof.
  intros H x [q r'] [<-|[]] Y E. cbn in E. subst q. apply here_in in Y. rewrite H in Y. destruct Y.
Qed.
(** One after the other *)
Definition fits (d x : list decl) : Prop := noclash d x /\ valid x.
Lemma fits_app d a b : fits d (a ++ b) <-> fits d a /\ fits (d ++ a) b.
Proof. unfold fits. rewrite noclash_app_r, valid_app, noclash_app_l. tauto. Qed.
Lemma fits_nil d : fits d []. Proof. split; [apply noclash_nil_r|apply valid_nil]. Qed.
Lemma fits_pre1 s d x : fits d (pre1 s x) <-> fits (sub s d) x.
Proof. unfold fits. rewrite noclash_pre1, valid_pre1. tauto. Qed.
Lemma fits_here d r y : here y = [] -> (fits d (([], r) :: y) <-> (forall x, In x (here d) -> clash x r = false) /\ fits d y).
Proof.
  intros H. change (([], r) :: y) with ([([], r)] ++ y). unfold fits. rewrite noclash_app_r, valid_app, noclash_here.
  pose proof (valid_one ([], r)). pose proof (noclash_here_l r y H). tauto.
Qed.
Lemma valid_fits d x : valid (d ++ x) <-> valid d /\ fits d x.
Proof. rewrite valid_app. unfold fits. tauto. Qed.

(** ** Keys by first appearance *)
Lemma firsts_in {A} (l u : list A) : firsts l u -> forall x, In x u <-> In x l.
Proof.
  induction 1 as [|l u x F IH NI|l u x F IH NI]; intros y; [tauto| |].
  - rewrite !in_app_iff, IH. tauto.
  - rewrite in_app_iff, <- IH. cbn. split; [tauto|]. intros [H|[<-|[]]]; [exact H|exact NI].
Qed.
Lemma firsts_same {A} (l u : list A) k n : firsts l u -> In k u -> firsts (l ++ repeat k n) u.
Proof.
  intros F I0. induction n as [|n IH]; [cbn; rewrite app_nil_r; exact F|].
  replace (l ++ repeat k (S n)) with ((l ++ repeat k n) ++ [k]).
  - apply fi_old; assumption.
  - rewrite <- app_assoc. f_equal. symmetry. apply repeat_cons.
Qed.
Lemma firsts_fresh {A} (l u : list A) k n : firsts l u -> ~ In k u -> firsts (l ++ k :: repeat k n) (u ++ [k]).
Proof.
  intros F I0. change (k :: repeat k n) with ([k] ++ repeat k n). rewrite app_assoc. apply firsts_same.
  - apply fi_new; assumption.
  - apply in_or_app. right. left. reflexivity.
Qed.
Lemma const_repeat {A B} (l : list A) (k : B) : map (fun _ => k) l = repeat k (length l).
Proof. induction l; cbn; congruence. Qed.

(** ** The relation *)
Definition role_of (r : mrepr) : role :=
  match r_kind r, is_last_ident (r_key r) with
  | MTable _, Ok false => RSuper ByTable
  | MTable _, _ => RHeader
  | MArrayEntry _, Ok false => RSuper ByArray
  | MArrayEntry _, _ => RArray
  | MTop _, Ok false | MInl _, Ok false => RSuper ByAssign
  | MTop a, _ => RValue (as_val (ta_assign a))
  | MInl a, _ => RValue (as_val (ia_assign a))
  end.
Definition table_role (r : role) : Prop := match r with RSuper _ | RHeader | RElem | RValue (VTable _ _ _) => True | _ => False end.
Definition reprs_rel (d : list decl) (e : mentry) : Prop :=
  match e_node e with
  | NTop _ => Forall (fun r => is_assignment (r_kind r) = false) (e_reprs e)
  | _ => here d = map role_of (e_reprs e) /\ Forall (fun r => is_last_ident (r_key r) <> Panic) (e_reprs e)
  end.
Inductive rel_node : list decl -> node -> Prop :=
| rn_table d t : rel_table d t -> (forall i, sub (SIdx i) d = []) -> here d <> [] -> Forall table_role (here d) -> rel_node d (NTable t)
| rn_top d es : es <> [] -> here d = repeat RArray (length es) ->
    (forall i e, nth_error es i = Some e -> rel_table (sub (SIdx (N.of_nat i)) d) (te_table e) /\
       here (sub (SIdx (N.of_nat i)) d) = [RElem] /\ forall j, sub (SIdx j) (sub (SIdx (N.of_nat i)) d) = []) ->
    (forall i, nth_error es i = None -> sub (SIdx (N.of_nat i)) d = []) ->
    (forall k, sub (SKey k) d = []) -> rel_node d (NTop es)
| rn_inline d parent c lp l e es : here d = [RValue (VArray c lp l e)] -> length es = length l ->
    (forall i x, nth_error es i = Some x -> rel_node (sub (SIdx (N.of_nat i)) d) (ie_node x)) ->
    (forall i, nth_error es i = None -> sub (SIdx (N.of_nat i)) d = []) ->
    (forall k, sub (SKey k) d = []) -> rel_node d (NInline parent (VArray c lp l e) es)
| rn_scalar d v : here d = [RValue v] -> is_scalar_val v -> (forall s, sub s d = []) -> rel_node d (NScalar v)
with rel_table : list decl -> mtable -> Prop :=
| rt_intro d m : firsts (heads d) (map fst m) ->
    (forall k e, tget m k = Some e -> rel_node (sub (SKey k) d) (e_node e) /\ reprs_rel (sub (SKey k) d) e) ->
    (forall k, tget m k = None -> sub (SKey k) d = []) -> rel_table d m.

Lemma tget_in m k : tget m k <> None <-> In k (map fst m).
Proof.
  induction m as [|[k' e] m IH]; cbn; [tauto|]. destruct (bytes_eqb k' k) eqn:E.
  - apply bytes_eqb_eq in E. split; [auto|discriminate].
  - rewrite IH. split; [auto|]. intros [H|H]; [|exact H]. subst k'. rewrite bytes_eqb_refl in E. discriminate.
Qed.
Lemma tget_tset m k e k' : tget (tset m k e) k' = if bytes_eqb k k' then (if tget m k then Some e else None) else tget m k'.
Proof.
  induction m as [|[k0 e0] m IH]; cbn; [destruct (bytes_eqb k k'); reflexivity|]. destruct (bytes_eqb k0 k) eqn:E.
  - apply bytes_eqb_eq in E. subst k0. cbn. destruct (bytes_eqb k k'); reflexivity.
  - cbn. destruct (bytes_eqb k0 k') eqn:E'; [|exact IH]. destruct (bytes_eqb k k') eqn:E2; [|reflexivity].
    apply bytes_eqb_eq in E', E2. subst. rewrite bytes_eqb_refl in E. discriminate.
Qed.
Lemma tget_tpush m k e k' : tget m k = None -> tget (tpush m k e) k' = if bytes_eqb k k' then Some e else tget m k'.
Proof.
  unfold tpush. induction m as [|[k0 e0] m IH]; cbn; intros H; [reflexivity|]. destruct (bytes_eqb k0 k) eqn:E; [discriminate|].
  destruct (bytes_eqb k0 k') eqn:E'; [|apply IH; exact H]. destruct (bytes_eqb k k') eqn:E2; [|reflexivity].
  apply bytes_eqb_eq in E', E2. subst. rewrite bytes_eqb_refl in E. discriminate.
Qed.
Lemma fst_tset m k e : map fst (tset m k e) = map fst m.
Proof. induction m as [|[k0 e0] m IH]; cbn; [reflexivity|]. destruct (bytes_eqb k0 k); cbn; congruence. Qed.
Lemma fst_tpush m k e : map fst (tpush m k e) = map fst m ++ [k].
Proof. unfold tpush. rewrite map_app. reflexivity. Qed.

(** Only what is below matters to a table. *)
Lemma rel_table_ext d d' m : heads d = heads d' -> (forall k, sub (SKey k) d = sub (SKey k) d') -> rel_table d m -> rel_table d' m.
Proof.
  intros H HS R. inversion R as [d0 m0 R1 R2 R3]; subst. constructor.
  - rewrite <- H. exact R1.
  - intros k e T. rewrite <- HS. exact (R2 k e T).
  - intros k T. rewrite <- HS. exact (R3 k T).
Qed.
Lemma rel_table_nil : rel_table [] [].
Proof. constructor; [constructor|discriminate|reflexivity]. Qed.

Lemma sub_key_other k k' x : bytes_eqb k k' = false -> sub (SKey k') (pre1 (SKey k) x) = [].
Proof. intros E. apply sub_pre1_other. intros H. injection H as ->. rewrite bytes_eqb_refl in E. discriminate. Qed.

Lemma rel_set d m k x e0 e : rel_table d m -> tget m k = Some e0 -> rel_node (sub (SKey k) d ++ x) (e_node e) -> reprs_rel (sub (SKey k) d ++ x) e ->
  rel_table (d ++ pre1 (SKey k) x) (tset m k e).
Proof.
  intros R T RN RR. inversion R as [d0 m0 R1 R2 R3]; subst. constructor.
  - rewrite fst_tset, heads_app, heads_pre1_key, const_repeat. apply firsts_same; [exact R1|]. apply tget_in. congruence.
  - intros k' e'. rewrite tget_tset, T, sub_app. destruct (bytes_eqb k k') eqn:E.
    + apply bytes_eqb_eq in E. subst k'. intros H. injection H as <-. rewrite sub_pre1. auto.
    + rewrite (sub_key_other _ _ _ E), app_nil_r. apply R2.
  - intros k'. rewrite tget_tset, T, sub_app. destruct (bytes_eqb k k') eqn:E; [discriminate|].
    rewrite (sub_key_other _ _ _ E), app_nil_r. apply R3.
Qed.
Lemma rel_push d m k x e : rel_table d m -> tget m k = None -> here x <> [] -> rel_node x (e_node e) -> reprs_rel x e ->
  rel_table (d ++ pre1 (SKey k) x) (tpush m k e).
Proof.
  intros R T HX RN RR. inversion R as [d0 m0 R1 R2 R3]; subst. constructor.
  - rewrite fst_tpush, heads_app, heads_pre1_key, const_repeat. destruct (here x) as [|a b]; [congruence|]. cbn [length repeat].
    apply firsts_fresh; [exact R1|]. rewrite <- tget_in. intros H. congruence.
  - intros k' e'. rewrite (tget_tpush _ _ _ _ T), sub_app. destruct (bytes_eqb k k') eqn:E.
    + apply bytes_eqb_eq in E. subst k'. intros H. injection H as <-. rewrite sub_pre1, (R3 _ T). auto.
    + rewrite (sub_key_other _ _ _ E), app_nil_r. apply R2.
  - intros k'. rewrite (tget_tpush _ _ _ _ T), sub_app. destruct (bytes_eqb k k') eqn:E; [discriminate|].
    rewrite (sub_key_other _ _ _ E), app_nil_r. apply R3.
Qed.

(** ** What a statement declares, from the table it is inserted into *)
Definition narr (d : list decl) : N := N.of_nat (length (filter is_array (here d))).
Definition header_via (h : via) : bool := match h with ByAssign => false | _ => true end.
Fixpoint loc_decls (h : via) (fin : list decl -> list decl) (d : list decl) (ks : list (list N)) : list decl :=
  match ks with
  | [] => []
  | k :: rest =>
      let d1 := sub (SKey k) d in
      pre1 (SKey k)
        match rest with
        | [] => fin d1
        | _ => if header_via h && (0 <? narr d1) then pre1 (SIdx (narr d1 - 1)) (loc_decls h fin (sub (SIdx (narr d1 - 1)) d1) rest)
               else ([], RSuper h) :: loc_decls h fin d1 rest
        end
  end.
Lemma loc_one h fin d k : loc_decls h fin d [k] = pre1 (SKey k) (fin (sub (SKey k) d)). Proof. reflexivity. Qed.
Lemma loc_more h fin d k k2 rest : loc_decls h fin d (k :: k2 :: rest) =
  pre1 (SKey k) (if header_via h && (0 <? narr (sub (SKey k) d))
     then pre1 (SIdx (narr (sub (SKey k) d) - 1)) (loc_decls h fin (sub (SIdx (narr (sub (SKey k) d) - 1)) (sub (SKey k) d)) (k2 :: rest))
     else ([], RSuper h) :: loc_decls h fin (sub (SKey k) d) (k2 :: rest)).
Proof. reflexivity. Qed.

Definition below (a : list decl) : Prop := here a = [] /\ forall i, sub (SIdx i) a = [].
Lemma below_app a b : below a -> below b -> below (a ++ b).
Proof. intros [A1 A2] [B1 B2]. split; [rewrite here_app, A1, B1; reflexivity|]. intros i. rewrite sub_app, A2, B2. reflexivity. Qed.
Lemma below_pre1 k x : below (pre1 (SKey k) x).
Proof. split; [apply here_pre1|]. intros i. apply sub_pre1_other. discriminate. Qed.
Lemma below_loc h fin d ks : below (loc_decls h fin d ks).
Proof. destruct ks as [|k r]; [split; reflexivity|]. apply below_pre1. Qed.
Lemma below_nil : below []. Proof. split; reflexivity. Qed.

Definition assigns_rel (f : path -> N -> mtable -> run (mtable * list terror)) (a : list decl) : Prop :=
  forall d m p parent m' es, f p parent m = Ok (m', es) -> rel_table d m -> (es = [] <-> fits d a) /\ (es = [] -> rel_table (d ++ a) m').
Inductive iv_rel : mkind -> via -> insert_value -> (list decl -> list decl) -> Prop :=
| iv_value kind v f : match kind with MTop a => as_val (ta_assign a) = v | MInl a => as_val (ia_assign a) = v | _ => False end ->
    (forall p parent n es, f p parent = Ok (n, es) -> (es = [] <-> valid (value_decls v [])) /\ (es = [] -> rel_node (value_decls v []) n)) ->
    here (value_decls v []) = [RValue v] ->
    iv_rel kind ByAssign (IValue f) (fun _ => value_decls v [])
| iv_assigns t f a : below a -> assigns_rel f a -> iv_rel (MTable t) ByTable (IAssigns f) (fun _ => ([], RHeader) :: a)
| iv_entry t f a : below a -> assigns_rel f a ->
    iv_rel (MArrayEntry t) ByArray (IEntry t f) (fun d => ([], RArray) :: ([SIdx (narr d)], RElem) :: pre1 (SIdx (narr d)) a).

Lemma role_super kind h v fin parent k : iv_rel kind h v fin -> is_last_ident k = Ok false -> role_of (mkrepr parent k kind) = RSuper h.
Proof. intros R L. unfold role_of. cbn. rewrite L. destruct R as [kind v f K _ _|t f a _ _|t f a _ _]; [destruct kind; try contradiction|..]; reflexivity. Qed.

Lemma here_cons r d : here (([], r) :: d) = r :: here d. Proof. reflexivity. Qed.
Lemma sub_cons_here s r d : sub s (([], r) :: d) = sub s d. Proof. reflexivity. Qed.
Lemma heads_cons_here r d : heads (([], r) :: d) = heads d. Proof. reflexivity. Qed.

Lemma rel_table_cons_here r d m : rel_table d m -> rel_table (([], r) :: d) m.
Proof. apply rel_table_ext; reflexivity. Qed.
Lemma fits_empty x : fits [] x <-> valid x.
Proof. unfold fits. pose proof (noclash_nil_l x). tauto. Qed.

Lemma map_insert_ok kind h v fin p parent r n es : iv_rel kind h v fin -> map_insert_value p parent v = Ok (n, es) ->
  is_last_ident (r_key r) = Ok true -> r_kind r = kind ->
  (es = [] <-> valid (fin [])) /\ (es = [] -> rel_node (fin []) n /\ reprs_rel (fin []) (mke n [r]) /\ here (fin []) <> []).
Proof.
  intros R E L K. destruct R as [kind v f K0 FV HV|t f a BA FA|t f a BA FA]; cbn in E.
  - destruct (FV _ _ _ _ E) as [F1 F2]. split; [exact F1|]. intros E0. specialize (F2 E0).
    assert (RO : role_of r = RValue v).
    { unfold role_of. rewrite L, K. destruct kind; try contradiction; congruence. }
    split; [exact F2|]. split; [|rewrite HV; discriminate]. unfold reprs_rel. cbn.
    assert (N0 : here (value_decls v []) = [role_of r] /\ Forall (fun r => is_last_ident (r_key r) <> Panic) [r]).
    { split; [rewrite HV, RO; reflexivity|]. constructor; [congruence|constructor]. }
    destruct n; try exact N0. inversion F2 as [| ? ? ? HH | |]; subst. exfalso. rewrite HV in HH. destruct es0; discriminate.
  - destruct (f p parent []) as [[m es0]|[]|] eqn:EF; [|discriminate]. injection E as <- <-.
    destruct (FA _ _ _ _ _ _ EF rel_table_nil) as [F1 F2]. rewrite fits_empty in F1. destruct BA as [B1 B2]. split.
    + rewrite F1, valid_cons. pose proof (noclash_here_l RHeader a B1). tauto.
    + intros E0. specialize (F2 E0). split; [|split].
      * apply rn_table; [exact (rel_table_cons_here _ _ _ F2)|exact B2|discriminate|].
        cbn. fold (here a). rewrite B1. repeat constructor.
      * split; [|constructor; [congruence|constructor]]. cbn. fold (here a). rewrite B1. unfold role_of. rewrite L, K. reflexivity.
      * discriminate.
  - destruct (f (SegArray 0 :: p) parent []) as [[m es0]|[]|] eqn:EF; [|discriminate]. injection E as <- <-.
    destruct (FA _ _ _ _ _ _ EF rel_table_nil) as [F1 F2]. rewrite fits_empty in F1. destruct BA as [B1 B2].
    change (narr []) with 0. split.
    + rewrite F1. rewrite valid_cons. change (([SIdx 0], RElem) :: pre1 (SIdx 0) a) with (pre1 (SIdx 0) (([], RElem) :: a)).
      rewrite valid_pre1, valid_cons. pose proof (noclash_here_l RElem a B1). pose proof (noclash_here_l RArray _ (here_pre1 (SIdx 0) (([], RElem) :: a))). tauto.
    + intros E0. specialize (F2 E0). change (([SIdx 0], RElem) :: pre1 (SIdx 0) a) with (pre1 (SIdx 0) (([], RElem) :: a)). split; [|split].
      * constructor.
        -- discriminate.
        -- rewrite here_cons, here_pre1. reflexivity.
        -- intros i e. destruct i as [|i]; [|destruct i; discriminate]. intros H. injection H as <-. cbn [N.of_nat]. rewrite sub_cons_here, sub_pre1. cbn.
           split; [exact (rel_table_cons_here _ _ _ F2)|]. fold (here a). rewrite B1. split; [reflexivity|]. exact B2.
        -- intros i H. rewrite sub_cons_here. apply sub_pre1_other. intros X. injection X as X. destruct i; [discriminate|discriminate].
        -- intros k. rewrite sub_cons_here. apply sub_pre1_other. discriminate.
      * unfold reprs_rel. cbn. constructor; [rewrite K; reflexivity|constructor].
      * discriminate.
Qed.

(** A clash with what is there *)
Lemma rel_node_here d n : rel_node d n -> here d <> [].
Proof.
  destruct 1 as [d t _ _ H _|d es NE H _ _ _|d pa c lp l e es H _ _ _ _|d v H _ _]; [exact H|..]; rewrite H; try discriminate.
  destruct es; [congruence|discriminate].
Qed.
Lemma fits_clash d x r : here x = [r] -> (exists y, In y (here d) /\ clash y r = true) -> ~ fits d x.
Proof.
  intros H (y & Y & C) [F _]. assert (I1 : In ([], y) d) by (apply here_in; exact Y).
  assert (I2 : In ([], r) x) by (apply here_in; rewrite H; left; reflexivity).
  pose proof (F _ _ I1 I2 eq_refl). cbn in H0. congruence.
Qed.
Lemma here_first d : here d <> [] -> forall r, (forall y, In y (here d) -> clash y r = true) -> exists y, In y (here d) /\ clash y r = true.
Proof. intros H r A. destruct (here d) as [|y l]; [congruence|]. exists y. split; [left; reflexivity|apply A; left; reflexivity]. Qed.

Lemma super_reprs_roles p r rs err : super_reprs p r rs = Ok err ->
  (err = None <-> forall x, In x rs -> clash (role_of x) RHeader = false).
Proof.
  revert err. induction rs as [|x rs IH]; cbn [super_reprs]; intros err E.
  - injection E as <-. split; [intros _ x []|reflexivity].
  - assert (FF : forall er, (let? err0 := duplicate_key_error p x r in Ok (Some err0)) = Ok er -> er <> None).
    { intros er H. destruct (duplicate_key_error p x r) as [?|[]|]; [|discriminate]. injection H as <-. discriminate. }
    assert (C : clash (role_of x) RHeader = false -> err = None \/ True -> True) by auto.
    unfold role_of in *. destruct (r_kind x) eqn:K.
    1,2: destruct (is_last_ident (r_key x)) as [[]|[]|] eqn:L; [|cbn in E|discriminate]; cbn in E.
    + apply FF in E. split; [congruence|]. intros H. specialize (H x (or_introl eq_refl)). rewrite K, L in H. discriminate.
    + rewrite (IH _ E). split; [intros H y [<-|Y]; [rewrite K, L; reflexivity|auto]|intros H y Y; apply H; right; exact Y].
    + apply FF in E. split; [congruence|]. intros H. specialize (H x (or_introl eq_refl)). rewrite K, L in H. discriminate.
    + rewrite (IH _ E). split; [intros H y [<-|Y]; [rewrite K, L; reflexivity|auto]|intros H y Y; apply H; right; exact Y].
    + apply FF in E. split; [congruence|]. intros H. specialize (H x (or_introl eq_refl)). rewrite K in H. destruct (is_last_ident (r_key x)) as [[]|[]|]; discriminate.
    + apply FF in E. split; [congruence|]. intros H. specialize (H x (or_introl eq_refl)). rewrite K in H. destruct (is_last_ident (r_key x)) as [[]|[]|]; discriminate.
Qed.
Lemma check_reprs_roles prev next all rs h err : check_reprs prev next all rs (negb (header_via h)) = Ok err ->
  Forall (fun r => table_role (role_of r)) rs ->
  (err = None <-> forall x, In x rs -> clash (role_of x) (RSuper h) = false).
Proof.
  revert err. induction rs as [|x rs IH]; cbn [check_reprs]; intros err E T.
  - injection E as <-. split; [intros _ x []|reflexivity].
  - cbv zeta in E. pose proof (Forall_inv T) as T1. pose proof (Forall_inv_tail T) as T2.
    assert (FF : forall mk er, (let? orig := first_of all in let? dupe := last_of all in
        let? ls := context_lines prev (r_parent orig) (r_parent dupe) in let? t := fmt_path next in
        let? sp := kind_span (r_kind orig) in let? i := repr_ident (r_key dupe) in Ok (Some (mk ls t sp (lit_span i)) : option terror)) = Ok er -> er <> None).
    { intros mk er H. repeat match type of H with bind ?a _ = _ => destruct a as [?|[]|]; [cbn [bind] in H|discriminate H] end. injection H as <-. discriminate. }
    assert (PASS : clash (role_of x) (RSuper h) = false -> check_reprs prev next all rs (negb (header_via h)) = Ok err ->
       (err = None <-> forall x0, In x0 (x :: rs) -> clash (role_of x0) (RSuper h) = false)).
    { intros C E'. rewrite (IH _ E' T2). split; [intros H y [<-|Y]; auto|intros H y Y; apply H; right; exact Y]. }
    assert (FAIL : clash (role_of x) (RSuper h) = true -> err <> None ->
       (err = None <-> forall x0, In x0 (x :: rs) -> clash (role_of x0) (RSuper h) = false)).
    { intros C E'. split; [congruence|]. intros H. specialize (H x (or_introl eq_refl)). congruence. }
    unfold role_of in T1, PASS, FAIL. destruct (r_kind x) eqn:K.
    + destruct h; cbn in E.
      * apply PASS; [|exact E]. destruct (is_last_ident (r_key x)) as [[]|[]|]; reflexivity.
      * apply PASS; [|exact E]. destruct (is_last_ident (r_key x)) as [[]|[]|]; reflexivity.
      * apply FAIL; [|exact (FF _ _ E)]. destruct (is_last_ident (r_key x)) as [[]|[]|]; reflexivity.
    + apply PASS; [|exact E]. destruct (is_last_ident (r_key x)) as [[]|[]|]; try contradiction. destruct h; reflexivity.
    + destruct (is_last_ident (r_key x)) as [[]|[]|] eqn:L; [| |discriminate]; cbn in E.
      * apply FAIL; [reflexivity|exact (FF _ _ E)].
      * apply PASS; [destruct h; reflexivity|exact E].
    + destruct (is_last_ident (r_key x)) as [[]|[]|] eqn:L; [| |discriminate]; cbn in E.
      * apply FAIL; [reflexivity|exact (FF _ _ E)].
      * apply PASS; [destruct h; reflexivity|exact E].
Qed.

Lemma forall_repeat {A} (x y : A) n : In y (repeat x n) -> y = x. Proof. apply repeat_spec. Qed.
Lemma narr_repeat d n : here d = repeat RArray n -> narr d = N.of_nat n.
Proof. intros H. unfold narr. rewrite H. clear H. f_equal. induction n; cbn; congruence. Qed.
Lemma narr_none d : (forall r, In r (here d) -> is_array r = false) -> narr d = 0.
Proof.
  unfold narr. induction (here d) as [|x l IH]; intros H; [reflexivity|]. cbn. rewrite (H x (or_introl eq_refl)).
  apply IH. intros r R. apply H. right. exact R.
Qed.
Lemma narr_table d t : rel_node d (NTable t) -> narr d = 0.
Proof.
  intros R. inversion R as [d0 t0 _ _ _ T| | |]; subst. apply narr_none. intros r I0. rewrite Forall_forall in T. specialize (T _ I0).
  destruct r; try reflexivity. destruct T.
Qed.
Lemma insert_rs_app d x rs r : here d = map role_of rs -> here x = [role_of r] -> here (d ++ x) = map role_of (rs ++ [r]).
Proof. intros H1 H2. rewrite here_app, map_app, H1, H2. reflexivity. Qed.

Lemma insert_node_ok kind h v fin d m k r p m' es : insert_node p m k v r = Ok (m', es) -> iv_rel kind h v fin -> rel_table d m ->
  is_last_ident (r_key r) = Ok true -> r_kind r = kind ->
  (es = [] <-> fits d (loc_decls h fin d [id_text k])) /\ (es = [] -> rel_table (d ++ loc_decls h fin d [id_text k]) m').
Proof.
  intros E R RT L K. rewrite loc_one. set (kt := id_text k) in *. rewrite fits_pre1. unfold insert_node in E. cbv zeta in E. fold kt in E.
  inversion RT as [d0 m0 _ RT2 RT3]; subst d0 m0. destruct (tget m kt) as [e|] eqn:T.
  2:{ destruct (map_insert_value _ 0 v) as [[n es0]|[]|] eqn:EM; [|discriminate]. cbn [bind] in E. injection E as <- <-.
      rewrite (RT3 _ T). destruct (map_insert_ok _ _ _ _ _ _ r _ _ R EM L K) as [V1 V2]. rewrite fits_empty. split; [exact V1|].
      intros E0. destruct (V2 E0) as (N1 & N2 & N3). apply rel_push; assumption. }
  destruct (RT2 _ _ T) as [RN RR]. set (d1 := sub (SKey kt) d) in *.
  assert (D0 : forall o mm ee, (let? err := duplicate_key_error p o r in Ok (m, [err])) = Ok (mm, ee) -> ee <> []).
  { intros o mm ee H. destruct (duplicate_key_error p o r) as [?|[]|]; [|discriminate]. injection H as <- <-. discriminate. }
  assert (D1 : forall mm ee, (let? o := first_of (e_reprs e) in let? err := duplicate_key_error p o r in Ok (m, [err])) = Ok (mm, ee) -> ee <> []).
  { intros mm ee H. destruct (first_of (e_reprs e)) as [?|[]|]; [|discriminate]. exact (D0 _ _ _ H). }
  assert (BAD : es <> [] -> ~ fits d1 (fin d1) -> (es = [] <-> fits d1 (fin d1)) /\ (es = [] -> rel_table (d ++ pre1 (SKey kt) (fin d1)) m')).
  { intros H1 H2. split; [tauto|]. intros H3. congruence. }
  pose proof (rel_node_here _ _ RN) as HN.
  destruct R as [kind v f K0 FV HV|t f a BA FA|t f a BA FA].
  - apply BAD; [exact (D1 _ _ E)|]. apply (fits_clash _ _ _ HV). apply here_first; [exact HN|]. intros y _. destruct y as [[]| | | |]; reflexivity.
  - assert (HF : here (([], RHeader) :: a) = [RHeader]) by (rewrite here_cons; destruct BA as [-> _]; reflexivity).
    assert (OTHER : (forall y, In y (here d1) -> clash y RHeader = true) -> ~ fits d1 (([], RHeader) :: a)).
    { intros H. apply (fits_clash _ _ _ HF). apply here_first; assumption. }
    destruct (e_node e) as [t0|l|pa rv l|sv] eqn:EN.
    + destruct (super_reprs p r (e_reprs e)) as [err|[]|] eqn:ES; [|discriminate]. cbn [bind] in E.
      pose proof (super_reprs_roles _ _ _ _ ES) as SR. unfold reprs_rel in RR. rewrite EN in RR. destruct RR as [RR1 RR2].
      assert (CL : err = None <-> forall x, In x (here d1) -> clash x RHeader = false).
      { rewrite SR, RR1. split; [intros H x X; apply in_map_iff in X; destruct X as (y & <- & Y); auto|].
        intros H x X. apply H. apply in_map. exact X. }
      destruct BA as [B1 B2]. rewrite (fits_here _ _ _ B1).
      destruct err as [err|].
      { injection E as <- <-. split; [|discriminate]. split; [discriminate|]. intros [H _]. apply CL in H. discriminate. }
      inversion RN as [dx tx N1 N2 N3 N4| | |]; subst dx tx. cbn [insert_repr] in E.
      destruct (f _ _ t0) as [[t' es0]|[]|] eqn:EF; [|discriminate]. cbn [bind] in E. injection E as <- <-.
      destruct (FA _ _ _ _ _ _ EF N1) as [F1 F2]. split; [tauto|]. intros E0. specialize (F2 E0).
      assert (CO : here (d1 ++ ([], RHeader) :: a) = here d1 ++ [RHeader]) by (rewrite here_app, HF; reflexivity).
      apply (rel_set _ _ _ _ e); [exact RT|exact T|..]; fold d1; cbn [e_node e_reprs].
      * apply rn_table.
        -- apply (rel_table_ext (d1 ++ a)); [rewrite !heads_app; reflexivity| |exact F2]. intros k'. rewrite !sub_app. reflexivity.
        -- intros i. rewrite sub_app, N2, sub_cons_here, B2. reflexivity.
        -- rewrite CO. destruct (here d1); discriminate.
        -- rewrite CO. apply Forall_app. split; [exact N4|repeat constructor].
      * unfold reprs_rel. cbn [e_node e_reprs]. split.
        -- apply insert_rs_app; [exact RR1|]. rewrite HF. unfold role_of. rewrite K, L. reflexivity.
        -- apply Forall_app. split; [exact RR2|]. constructor; [congruence|constructor].
    + apply BAD; [exact (D1 _ _ E)|]. apply OTHER. inversion RN as [|dx lx N1 N2 N3 N4 N5| |]; subst dx lx. intros y Y. rewrite N2 in Y. apply repeat_spec in Y. subst y. reflexivity.
    + apply BAD; [exact (D1 _ _ E)|]. apply OTHER. inversion RN as [| |dx px cx lpx lx ex esx N1| ]; subst. intros y Y. rewrite N1 in Y. destruct Y as [<-|[]]. reflexivity.
    + apply BAD; [exact (D1 _ _ E)|]. apply OTHER. inversion RN as [| | |dx vx N1]; subst. intros y Y. rewrite N1 in Y. destruct Y as [<-|[]]. reflexivity.
  - set (n := narr d1) in *. change (([SIdx n], RElem) :: pre1 (SIdx n) a) with (pre1 (SIdx n) (([], RElem) :: a)) in *.
    assert (HF : here (([], RArray) :: pre1 (SIdx n) (([], RElem) :: a)) = [RArray]) by (rewrite here_cons, here_pre1; reflexivity).
    assert (OTHER : (forall y, In y (here d1) -> clash y RArray = true) -> ~ fits d1 (([], RArray) :: pre1 (SIdx n) (([], RElem) :: a))).
    { intros H. apply (fits_clash _ _ _ HF). apply here_first; assumption. }
    destruct (e_node e) as [t0|l|pa rv l|sv] eqn:EN.
    + apply BAD; [exact (D1 _ _ E)|]. apply OTHER. inversion RN as [dx tx N1 N2 N3 N4| | |]; subst. intros y Y. rewrite Forall_forall in N4. specialize (N4 _ Y).
      destruct y as [[]| | | |]; try reflexivity; destruct N4.
    + inversion RN as [|dx lx N1 N2 N3 N4 N5| |]; subst dx lx. pose proof (narr_repeat _ _ N2) as NA. fold n in NA.
      cbn [insert_repr] in E. destruct (f _ _ []) as [[t' es0]|[]|] eqn:EF; [|discriminate]. cbn [bind] in E. injection E as <- <-.
      destruct (FA _ _ _ _ _ _ EF rel_table_nil) as [F1 F2]. rewrite fits_empty in F1. destruct BA as [B1 B2].
      assert (NS : sub (SIdx n) d1 = []). { rewrite NA. apply N4. apply nth_error_None. lia. }
      rewrite (fits_here _ _ _ (here_pre1 _ _)). rewrite fits_pre1, NS, fits_empty, valid_cons. split.
      { rewrite F1. pose proof (noclash_here_l RElem a B1). split; [|tauto]. intros V. split; [|tauto].
        intros x X. rewrite N2 in X. apply repeat_spec in X. subst x. reflexivity. }
      intros E0. specialize (F2 E0). apply (rel_set _ _ _ _ e); [exact RT|exact T|..]; fold d1; cbn [e_node e_reprs].
      * apply rn_top.
        -- destruct l; discriminate.
        -- rewrite here_app, N2, HF, app_length, repeat_app. reflexivity.
        -- intros i e'. destruct (Nat.lt_trichotomy i (length l)) as [LT|[EQ|GT]].
           ++ rewrite nth_error_app1 by exact LT. intros H. destruct (N3 _ _ H) as (M1 & M2 & M3).
              assert (SO : sub (SIdx (N.of_nat i)) (d1 ++ ([], RArray) :: pre1 (SIdx n) (([], RElem) :: a)) = sub (SIdx (N.of_nat i)) d1).
              { rewrite sub_app, sub_cons_here, sub_pre1_other, app_nil_r; [reflexivity|]. intros X. injection X as X. lia. }
              rewrite SO. auto.
           ++ subst i. rewrite nth_error_app2 by lia. rewrite Nat.sub_diag. cbn [nth_error]. intros H. injection H as <-. cbn [te_table].
              rewrite <- NA. rewrite sub_app, NS, sub_cons_here, sub_pre1. cbn [app]. split; [exact (rel_table_cons_here _ _ _ F2)|].
              rewrite here_cons, B1. split; [reflexivity|]. exact B2.
           ++ rewrite nth_error_app2 by lia. destruct (i - length l)%nat as [|j] eqn:J; [lia|]. cbn. destruct j; discriminate.
        -- intros i H. apply nth_error_None in H. rewrite app_length in H. cbn in H. rewrite sub_app, sub_cons_here, sub_pre1_other, app_nil_r.
           ++ apply N4. apply nth_error_None. lia.
           ++ intros X. injection X as X. lia.
        -- intros k'. rewrite sub_app, N5, sub_cons_here. apply sub_pre1_other. discriminate.
      * unfold reprs_rel in *. cbn [e_node e_reprs]. rewrite EN in RR. apply Forall_app. split; [exact RR|]. constructor; [rewrite K; reflexivity|constructor].
    + destruct (extend_error ECannotExtendInlineArray p e r) as [?|[]|]; [|discriminate]. cbn [bind] in E. injection E as <- <-.
      apply BAD; [discriminate|]. apply OTHER. inversion RN as [| |dx px cx lpx lx ex esx N1| ]; subst. intros y Y. rewrite N1 in Y. destruct Y as [<-|[]]. reflexivity.
    + apply BAD; [exact (D1 _ _ E)|]. apply OTHER. inversion RN as [| | |dx vx N1]; subst. intros y Y. rewrite N1 in Y. destruct Y as [<-|[]]. reflexivity.
Qed.

Lemma iv_assignment kind h v fin : iv_rel kind h v fin -> is_assignment kind = negb (header_via h).
Proof. destruct 1 as [kind v f K _ _| |]; [destruct kind; try contradiction|..]; reflexivity. Qed.
Lemma check_no_assign prev next all rs : Forall (fun r => is_assignment (r_kind r) = false) rs -> check_reprs prev next all rs false = Ok None.
Proof.
  induction 1 as [|x rs H HF IH]; [reflexivity|]. cbn [check_reprs]. cbv zeta. destruct (r_kind x); try discriminate; exact IH.
Qed.
Lemma last_of_some {A} (l : list A) x : last_of l = Ok x -> exists l', l = l' ++ [x].
Proof.
  induction l as [|a [|b r] IH]; cbn [last_of]; intros H; [discriminate| |].
  - injection H as <-. exists []. reflexivity.
  - destruct (IH H) as (l' & ->). exists (a :: l'). reflexivity.
Qed.

Lemma extend_ok kind h v fin d p e r x : get_table_to_extend p e r = Ok x -> iv_rel kind h v fin -> r_kind r = kind -> is_last_ident (r_key r) = Ok false ->
  rel_node d (e_node e) -> reprs_rel d e ->
  match x with
  | ExtErr _ _ => header_via h && (0 <? narr d) = false /\ exists y, In y (here d) /\ clash y (RSuper h) = true
  | ExtOk e' _ _ t => e' = mke (e_node e) (e_reprs e ++ [r]) /\
      ((e_node e = NTable t /\ forall y, In y (here d) -> clash y (RSuper h) = false) \/
       (header_via h = true /\ exists es l, e_node e = NTop (es ++ [l]) /\ t = te_table l))
  end.
Proof.
  intros E R K L RN RR. pose proof (iv_assignment _ _ _ _ R) as IA. unfold get_table_to_extend in E. cbv zeta in E.
  rewrite K, IA in E. unfold reprs_rel in RR. destruct (e_node e) as [t0|l|pa rv l|sv] eqn:EN.
  - destruct RR as [RR1 RR2]. cbn [insert_repr] in E. destruct (check_reprs _ _ _ _ _) as [err|[]|] eqn:EC; [|discriminate]. cbn [bind] in E. injection E as <-.
    pose proof (narr_table _ _ RN) as NA. inversion RN as [dx tx N1 N2 N3 N4| | |]; subst dx tx.
    pose proof (role_super _ _ _ _ (r_parent r) (r_key r) R L) as RS.
    assert (RR' : role_of r = RSuper h). { rewrite <- RS. destruct r; cbn in *. subst. reflexivity. }
    assert (CR := check_reprs_roles _ _ _ _ _ _ EC). assert (TR : Forall (fun r0 => table_role (role_of r0)) (e_reprs e ++ [r])).
    { apply Forall_app. split; [|constructor; [rewrite RR'; exact I|constructor]]. rewrite RR1 in N4. rewrite Forall_map in N4. exact N4. }
    specialize (CR TR). destruct err as [err|].
    + split; [rewrite NA; destruct h; reflexivity|].
      destruct (existsb (fun x => clash x (RSuper h)) (here d)) eqn:EX.
      * apply existsb_exists in EX. destruct EX as (y & Y & C). exists y. auto.
      * exfalso. assert (X : Some err = None); [|discriminate]. apply CR. intros x X. apply in_app_or in X. destruct X as [X|[<-|[]]].
        -- rewrite <- (not_true_iff_false) in EX. destruct (clash (role_of x) (RSuper h)) eqn:C; [|reflexivity].
           exfalso. apply EX. apply existsb_exists. exists (role_of x). split; [rewrite RR1; apply in_map; exact X|exact C].
        -- rewrite RR'. destruct h; reflexivity.
    + split; [reflexivity|]. left. split; [reflexivity|]. intros y Y. rewrite RR1 in Y. apply in_map_iff in Y. destruct Y as (z & <- & Z).
      apply (proj1 CR eq_refl). apply in_or_app. left. exact Z.
  - inversion RN as [|dx lx N1 N2 N3 N4 N5| |]; subst dx lx. destruct (header_via h) eqn:HV; cbn [negb] in E.
    + cbn [insert_repr] in E. destruct (usub _ 1) as [n|[]|]; [|discriminate]. cbn [bind] in E.
      destruct (last_of l) as [la|[]|] eqn:LA; [|discriminate]. cbn [bind] in E. rewrite check_no_assign in E.
      * injection E as <-. split; [reflexivity|]. right. split; [reflexivity|]. destruct (last_of_some _ _ LA) as (l' & ->). exists l', la. auto.
      * apply Forall_app. split; [exact RR|]. constructor; [rewrite K, IA; reflexivity|constructor].
    + destruct (extend_error _ _ _ _) as [?|[]|]; [|discriminate]. cbn in E. injection E as <-. split; [reflexivity|].
      exists RArray. split; [rewrite N2; destruct l; [congruence|left; reflexivity]|]. destruct h; try discriminate. reflexivity.
  - destruct (extend_error _ _ _ _) as [?|[]|]; [|discriminate]. cbn in E. injection E as <-.
    inversion RN as [| |dx px cx lpx lx ex esx N1| ]; subst. split.
    + rewrite (narr_none d); [destruct h; reflexivity|]. intros y Y. rewrite N1 in Y. destruct Y as [<-|[]]. reflexivity.
    + rewrite N1. eexists. split; [left; reflexivity|reflexivity].
  - destruct (first_of (e_reprs e)) as [o|[]|]; [|discriminate]. cbn [bind] in E. destruct (duplicate_key_error _ _ _) as [?|[]|]; [|discriminate]. cbn in E. injection E as <-.
    inversion RN as [| | |dx vx N1]; subst. split.
    + rewrite (narr_none d); [destruct h; reflexivity|]. intros y Y. rewrite N1 in Y. destruct Y as [<-|[]]. reflexivity.
    + rewrite N1. eexists. split; [left; reflexivity|reflexivity].
Qed.

Lemma last_ident_at idents done rest i o : idents = done ++ o :: rest -> i = N.of_nat (length done) ->
  is_last_ident (MDotted i idents) = Ok (match rest with [] => true | _ => false end).
Proof.
  intros -> ->. unfold is_last_ident, usub. rewrite app_length. cbn [length].
  destruct (1 <=? N.of_nat (length done + S (length rest))) eqn:E; [|apply N.leb_gt in E; lia]. cbn [bind]. f_equal.
  destruct rest; [apply N.eqb_eq; cbn [length]; lia|apply N.eqb_neq; cbn [length]; lia].
Qed.

Definition itext (o : dident) : list N := id_text (di_ident o).

(** Where nothing is below yet. *)
Lemma new_chain_ok kind h v fin idents : iv_rel kind h v fin -> forall rest done i p parent o e es,
  new_chain idents v kind (o :: rest) i p parent = Ok (e, es) -> idents = done ++ o :: rest -> i = N.of_nat (length done) ->
  let x := match rest with [] => fin [] | _ => ([], RSuper h) :: loc_decls h fin [] (map itext rest) end in
  (es = [] <-> valid x) /\ (es = [] -> rel_node x (e_node e) /\ reprs_rel x e /\ here x <> []).
Proof.
  intros R. induction rest as [|o2 rest IH]; intros done i p parent o e es E ID II; cbn zeta.
  - pose proof (last_ident_at _ _ _ _ _ ID II) as L. cbn [new_chain] in E. destruct (map_insert_value _ 0 v) as [[n es0]|[]|] eqn:EM; [|discriminate].
    cbn [bind] in E. injection E as <- <-. exact (map_insert_ok _ _ _ _ _ _ (mkrepr parent (MDotted i idents) kind) _ _ R EM L eq_refl).
  - pose proof (last_ident_at _ _ _ _ _ ID II) as L.
    change (new_chain idents v kind (o :: o2 :: rest) i p parent) with
      (let? (e, es) := new_chain idents v kind (o2 :: rest) (i + 1) (SegTable [mkrepr parent (MDotted i idents) kind] :: p) 0 in
       Ok (mke (NTable (tpush [] (itext o2) e)) [mkrepr parent (MDotted i idents) kind], es)) in E.
    destruct (new_chain idents v kind (o2 :: rest) _ _ 0) as [[e0 es0]|[]|] eqn:EN; [|discriminate]. cbn [bind] in E. injection E as <- <-.
    destruct (IH (done ++ [o]) _ _ _ _ _ _ EN) as [V1 V2]; [rewrite ID, <- app_assoc; reflexivity|rewrite app_length; cbn; lia|].
    set (y := match rest with [] => fin [] | _ => ([], RSuper h) :: loc_decls h fin [] (map itext rest) end) in *.
    assert (LE : loc_decls h fin [] (map itext (o2 :: rest)) = pre1 (SKey (itext o2)) y).
    { subst y. destruct rest as [|o3 rest]; [reflexivity|]. cbn [map]. rewrite loc_more. change (sub (SKey (itext o2)) []) with (@nil decl).
      change (narr []) with 0. rewrite andb_false_r. reflexivity. }
    rewrite LE. pose proof (below_pre1 (itext o2) y) as [B1 B2]. split.
    + rewrite V1, valid_cons, valid_pre1. pose proof (noclash_here_l (RSuper h) _ B1). tauto.
    + intros E0. destruct (V2 E0) as (N1 & N2 & N3). split; [|split; [|discriminate]]; cbn [e_node].
      * apply rn_table.
        -- apply rel_table_cons_here. apply (rel_push [] [] (itext o2) y e0); [apply rel_table_nil|reflexivity|assumption..].
        -- exact B2.
        -- discriminate.
        -- rewrite here_cons, B1. repeat constructor.
      * unfold reprs_rel. cbn [e_node e_reprs map]. split; [|constructor; [cbn [r_key]; rewrite L; discriminate|constructor]].
        rewrite here_cons, B1, (role_super _ _ _ _ _ _ R L). reflexivity.
Qed.

Lemma set_last_app es l t : set_last (es ++ [l]) t = es ++ [mkte t (te_parent l) (te_repr l)].
Proof. induction es as [|a [|b es] IH]; [reflexivity|reflexivity|]. change (set_last ((a :: b :: es) ++ [l]) t) with (a :: set_last ((b :: es) ++ [l]) t). rewrite IH. reflexivity. Qed.

Lemma insert_dotted_ok kind h v fin idents : iv_rel kind h v fin -> forall rest done i p parent o d m m' es,
  insert_dotted idents v kind (o :: rest) i p parent m = Ok (m', es) -> idents = done ++ o :: rest -> i = N.of_nat (length done) -> rel_table d m ->
  (es = [] <-> fits d (loc_decls h fin d (map itext (o :: rest)))) /\ (es = [] -> rel_table (d ++ loc_decls h fin d (map itext (o :: rest))) m').
Proof.
  intros R. induction rest as [|o2 rest IH]; intros done i p parent o d m m' es E ID II RT.
  - pose proof (last_ident_at _ _ _ _ _ ID II) as L. cbn [insert_dotted] in E.
    exact (insert_node_ok _ _ _ _ _ _ _ (mkrepr parent (MDotted i idents) kind) _ _ _ E R RT L eq_refl).
  - pose proof (last_ident_at _ _ _ _ _ ID II) as L. cbn beta iota in L. rewrite insert_dotted_eq in E. cbv zeta in E. fold (itext o) in E.
    inversion RT as [d0 m0 _ RT2 RT3]; subst d0 m0. cbn [map]. rewrite loc_more.
    change (itext o2 :: map itext rest) with (map itext (o2 :: rest)).
    destruct (tget m (itext o)) as [e|] eqn:T.
    2:{ destruct (new_chain idents v kind (o :: o2 :: rest) i p parent) as [[e es0]|[]|] eqn:EN; [|discriminate]. cbn [bind] in E. injection E as <- <-.
        destruct (new_chain_ok _ _ _ _ _ R _ _ _ _ _ _ _ _ EN ID II) as [V1 V2]. rewrite (RT3 _ T). change (narr []) with 0. rewrite andb_false_r.
        rewrite fits_pre1, (RT3 _ T), fits_empty. split; [exact V1|]. intros E0. destruct (V2 E0) as (N1 & N2 & N3). apply rel_push; assumption. }
    destruct (RT2 _ _ T) as [RN RR]. set (d1 := sub (SKey (itext o)) d) in *.
    destruct (get_table_to_extend p e (mkrepr parent (MDotted i idents) kind)) as [x|[]|] eqn:EX; [|discriminate]. cbn [bind] in E.
    pose proof (extend_ok _ _ _ _ _ _ _ _ _ EX R eq_refl L RN RR) as XO. rewrite fits_pre1. fold d1. destruct x as [e' np next t|e' err].
    2:{ injection E as <- <-. destruct XO as (-> & C). split; [|discriminate]. split; [discriminate|]. intros F. exfalso. revert F. apply (fits_clash _ _ (RSuper h)); [|exact C].
        rewrite here_cons. destruct (below_loc h fin d1 (map itext (o2 :: rest))) as [-> _]. reflexivity. }
    destruct XO as (-> & XO). destruct (insert_dotted idents v kind (o2 :: rest) (i + 1) next np t) as [[t' es0]|[]|] eqn:EI; [|discriminate]. cbn [bind e_node e_reprs] in E. injection E as <- <-.
    assert (ID' : idents = (done ++ [o]) ++ o2 :: rest) by (rewrite ID, <- app_assoc; reflexivity).
    assert (II' : i + 1 = N.of_nat (length (done ++ [o]))) by (rewrite app_length; cbn; lia).
    pose proof (fun dd => IH _ _ _ _ _ dd _ _ _ EI ID' II') as IH'. clear IH.
    destruct XO as [(EN & NC)|(HV & es & l & EN & ->)].
    + unfold reprs_rel in RR. rewrite EN in RN, RR |- *. rewrite (narr_table _ _ RN), andb_false_r.
      inversion RN as [dx tx N1 N2 N3 N4| | |]; subst dx tx. destruct (IH' _ N1) as [V1 V2]. set (y := loc_decls h fin d1 (map itext (o2 :: rest))) in *.
      assert (B : below y) by apply below_loc. destruct B as [B1 B2]. rewrite (fits_here _ _ _ B1). split; [tauto|]. intros E0. specialize (V2 E0).
      assert (CO : here (d1 ++ ([], RSuper h) :: y) = here d1 ++ [RSuper h]) by (rewrite here_app, here_cons, B1; reflexivity).
      apply (rel_set _ _ _ _ e); [exact RT|exact T|..]; fold d1; cbn [put_table e_node e_reprs].
      * apply rn_table.
        -- apply (rel_table_ext (d1 ++ y)); [rewrite !heads_app; reflexivity| |exact V2]. intros k'. rewrite !sub_app. reflexivity.
        -- intros j. rewrite sub_app, N2, sub_cons_here, B2. reflexivity.
        -- rewrite CO. destruct (here d1); discriminate.
        -- rewrite CO. apply Forall_app. split; [exact N4|repeat constructor].
      * unfold reprs_rel. cbn [e_node e_reprs]. destruct RR as [RR1 RR2]. split.
        -- rewrite CO, map_app, RR1. cbn [map]. rewrite (role_super _ _ _ _ _ _ R L). reflexivity.
        -- apply Forall_app. split; [exact RR2|]. constructor; [cbn [r_key]; rewrite L; discriminate|constructor].
    + unfold reprs_rel in RR. rewrite EN in RN, RR |- *. inversion RN as [|dx lx N1 N2 N3 N4 N5| |]; subst dx lx.
      pose proof (narr_repeat _ _ N2) as NA. rewrite app_length in NA. cbn [length] in NA. rewrite HV, NA. cbn [andb].
      replace (0 <? N.of_nat (length es + 1)) with true by (symmetry; apply N.ltb_lt; lia).
      replace (N.of_nat (length es + 1) - 1) with (N.of_nat (length es)) by lia. set (n := N.of_nat (length es)) in *.
      assert (NL : nth_error (es ++ [l]) (length es) = Some l) by (rewrite nth_error_app2, Nat.sub_diag by lia; reflexivity).
      destruct (N3 _ _ NL) as (M1 & M2 & M3). fold n in M1, M2, M3. destruct (IH' _ M1) as [V1 V2].
      set (y := loc_decls h fin (sub (SIdx n) d1) (map itext (o2 :: rest))) in *. assert (B : below y) by apply below_loc. destruct B as [B1 B2].
      rewrite fits_pre1. split; [exact V1|]. intros E0. specialize (V2 E0).
      apply (rel_set _ _ _ _ e); [exact RT|exact T|..]; fold d1; cbn [put_table e_node e_reprs]; rewrite set_last_app.
      * apply rn_top.
        -- destruct es; discriminate.
        -- rewrite here_app, here_pre1, app_nil_r, N2, !app_length. reflexivity.
        -- intros j e'. destruct (Nat.lt_trichotomy j (length es)) as [LT|[EQ|GT]].
           ++ rewrite nth_error_app1 by exact LT. intros H. assert (H' : nth_error (es ++ [l]) j = Some e') by (rewrite nth_error_app1 by exact LT; exact H).
              rewrite sub_app, sub_pre1_other, app_nil_r; [exact (N3 _ _ H')|]. intros X. injection X as X. subst n. lia.
           ++ subst j. rewrite nth_error_app2, Nat.sub_diag by lia. cbn [nth_error]. intros H. injection H as <-. cbn [te_table].
              fold n. rewrite sub_app, sub_pre1. split; [exact V2|]. rewrite here_app, M2, B1. split; [reflexivity|]. intros j. rewrite sub_app, M3, B2. reflexivity.
           ++ rewrite nth_error_app2 by lia. destruct (j - length es)%nat as [|q] eqn:J; [lia|]. cbn. destruct q; discriminate.
        -- intros j H. apply nth_error_None in H. rewrite app_length in H. cbn in H. rewrite sub_app, sub_pre1_other, app_nil_r.
           ++ apply N4. apply nth_error_None. rewrite app_length. cbn. lia.
           ++ intros X. injection X as X. subst n. lia.
        -- intros k'. rewrite sub_app, N5. apply sub_pre1_other. discriminate.
      * unfold reprs_rel. cbn [e_node e_reprs]. apply Forall_app. split; [exact RR|]. constructor; [|constructor]. cbn [r_kind].
        rewrite (iv_assignment _ _ _ _ R), HV. reflexivity.
Qed.

Lemma insert_at_path_ok kind h v fin p parent d m k m' es : insert_node_at_path p parent m k v kind = Ok (m', es) -> iv_rel kind h v fin -> rel_table d m ->
  (es = [] <-> fits d (loc_decls h fin d (key_texts k))) /\ (es = [] -> rel_table (d ++ loc_decls h fin d (key_texts k)) m').
Proof.
  intros E R RT. destruct k as [i|l]; cbn [insert_node_at_path] in E.
  - exact (insert_node_ok _ _ _ _ _ _ _ (mkrepr parent (MOne i) kind) _ _ _ E R RT eq_refl eq_refl).
  - unfold key_texts. cbn [key_idents]. rewrite map_map. fold itext. destruct l as [|o rest]; [discriminate|].
    exact (insert_dotted_ok _ _ _ _ _ R rest [] 0 _ _ _ _ _ _ _ E eq_refl eq_refl RT).
Qed.
