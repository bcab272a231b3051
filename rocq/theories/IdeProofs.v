(** Checking a manifest: what every function of the check reports and
    returns. *)
From Verif Require Import Base BaseProofs CommonModel TomlError LitModel LexModel ParseModel MapModel MapSpec MapWf MapRel MapExt MapNice IdeModel IdeSpec.
From Verif Require SemverModel.

(** ** Runs that report *)

(** [m] panics just when [bad] holds; otherwise its result satisfies [P] and
    it reports what [D] says. *)
Definition does {A} (m : W A) (bad : Prop) (P : A -> Prop) (D : diag -> Prop) : Prop :=
  (m = Panic /\ bad) \/ (~ bad /\ exists x ds, m = Ok (x, ds) /\ P x /\ forall d, In d ds <-> D d).

Lemma does_iff {A} (m : W A) b b' (P P' : A -> Prop) D D' : does m b P D -> (b <-> b') -> (forall x, P x -> P' x) -> (forall d, D d <-> D' d) -> does m b' P' D'.
Proof.
  intros [[E B]|(B & x & ds & E & X & I)] HB HP HD; [left; tauto|right]. split; [tauto|]. exists x, ds. split; [exact E|]. split; [auto|].
  intros d. rewrite I. apply HD.
Qed.
Lemma does_ret {A} (a : A) (P : A -> Prop) : P a -> does (wret a) False P (fun _ => False).
Proof. intros H. right. split; [tauto|]. exists a, []. split; [reflexivity|]. split; [exact H|]. cbn. tauto. Qed.
Lemma does_bind {A B} (m : W A) (f : A -> W B) b b' P Q D D' : does m b P D -> (forall x, P x -> does (f x) b' Q D') ->
  does (wbind m f) (b \/ b') Q (fun d => D d \/ D' d).
Proof.
  intros [[-> H]|(H & x & ds & -> & X & I)] F; [left; cbn; tauto|]. unfold wbind. cbn [bind].
  destruct (F x X) as [[-> G]|(G & y & ds' & -> & Y & J)]; [left; cbn; tauto|right]. split; [tauto|].
  cbn [bind]. exists y, (ds ++ ds'). split; [reflexivity|]. split; [exact Y|]. intros d. rewrite in_app_iff, I, J. reflexivity.
Qed.
(** The usual cases: the first part neither panics ... *)
Lemma does_then {A B} (m : W A) (f : A -> W B) b' P Q D D' : does m False P D -> (forall x, P x -> does (f x) b' Q D') ->
  does (wbind m f) b' Q (fun d => D d \/ D' d).
Proof. intros M F. apply (does_iff _ _ _ _ _ _ _ (does_bind _ _ _ _ _ _ _ _ M F)); tauto. Qed.
(** ... or the second part is pure. *)
Lemma does_map {A B} (m : W A) (f : A -> B) b P (Q : B -> Prop) D : does m b P D -> (forall x, P x -> Q (f x)) ->
  does (wbind m (fun x => wret (f x))) b Q D.
Proof.
  intros M F. apply (does_iff _ (b \/ False) b Q Q (fun d => D d \/ False) D); [|tauto|tauto|tauto].
  apply (does_bind _ _ _ _ _ _ _ _ M). intros x X. apply does_ret. apply F, X.
Qed.
Lemma does_say d : does (say (Ok d)) False (fun _ => True) (eq d).
Proof. right. split; [tauto|]. exists tt, [d]. split; [reflexivity|]. split; [exact I|]. cbn. tauto. Qed.

Lemma does_each {A B} (f : A -> W B) (bad : A -> Prop) (P : A -> B -> Prop) (D : A -> diag -> Prop) l :
  (forall a, In a l -> does (f a) (bad a) (P a) (D a)) ->
  does (each f l) (exists a, In a l /\ bad a) (fun ys => Forall2 P l ys) (fun d => exists a, In a l /\ D a d).
Proof.
  induction l as [|a l IH]; intros H; cbn [each].
  - apply (does_iff _ _ _ _ _ _ _ (does_ret [] (fun ys => Forall2 P [] ys) (Forall2_nil _))); [firstorder|auto|firstorder].
  - specialize (IH (fun x X => H x (or_intror X))). pose proof (H a (or_introl eq_refl)) as HA.
    eapply does_iff.
    + eapply (does_bind _ _ _ _ _ (fun ys => Forall2 P (a :: l) ys)); [exact HA|]. intros y Y.
      apply (does_map _ _ _ _ _ _ IH). intros ys YS. constructor; assumption.
    + cbn. split; [intros [X|(x & X1 & X2)]; eauto|]. intros (x & [<-|X1] & X2); eauto.
    + auto.
    + intros d. cbn. split; [intros [X|(x & X1 & X2)]; eauto|]. intros (x & [<-|X1] & X2); eauto.
Qed.
Lemma does_list {A B} (f : A -> W B) (P : A -> B -> Prop) (D : A -> diag -> Prop) l :
  (forall a, In a l -> does (f a) False (P a) (D a)) -> does (each f l) False (fun ys => Forall2 P l ys) (fun d => exists a, In a l /\ D a d).
Proof.
  intros H. apply (does_iff _ _ _ _ _ _ _ (does_each f (fun _ => False) P D l H)); [firstorder|auto|tauto].
Qed.
(** A loop whose results do not matter. *)
Lemma does_all {A B} (f : A -> W B) (D : A -> diag -> Prop) l :
  (forall a, In a l -> does (f a) False (fun _ => True) (D a)) -> does (each f l) False (fun _ => True) (fun d => exists a, In a l /\ D a d).
Proof.
  intros H. apply (does_iff _ _ _ _ _ _ _ (does_each f (fun _ => False) (fun _ _ => True) D l H)); [firstorder|auto|tauto].
Qed.

Lemma enumerate_in {A} (l : list A) i j x : In (j, x) (enumerate i l) <-> i <= j /\ nth_error l (N.to_nat (j - i)) = Some x.
Proof.
  revert i; induction l as [|a l IH]; intros i; cbn [enumerate In].
  - split; [tauto|]. intros [_ H]. destruct (N.to_nat (j - i)); discriminate.
  - rewrite IH. split.
    + intros [E|[L E]].
      * injection E as -> ->. split; [lia|]. replace (N.to_nat (j - j)) with O by lia. reflexivity.
      * split; [lia|]. replace (N.to_nat (j - i)) with (S (N.to_nat (j - (i + 1)))) by lia. exact E.
    + intros [L E]. destruct (N.eq_dec i j) as [->|NE].
      * left. replace (N.to_nat (j - j)) with O in E by lia. cbn in E. congruence.
      * right. split; [lia|]. replace (N.to_nat (j - i)) with (S (N.to_nat (j - (i + 1)))) in E by lia. exact E.
Qed.
Lemma enumerate_zero {A} (l : list A) j x : In (j, x) (enumerate 0 l) <-> nth_error l (N.to_nat j) = Some x.
Proof. rewrite enumerate_in, N.sub_0_r. split; [tauto|]. intros H. split; [lia|exact H]. Qed.

(** ** What is shown *)
Lemma shown_key_fun k a b : shown_key k a -> shown_key k b -> a = b.
Proof. intros A B. destruct A; destruct B; try reflexivity; contradiction. Qed.
Lemma shown_nonempty q a : shown q a -> q <> [].
Proof. intros H. destruct H; [discriminate| |]; intros E; apply app_eq_nil in E; destruct E; discriminate. Qed.
Lemma shown_fun q a b : shown q a -> shown q b -> a = b.
Proof.
  intros A. revert b. induction A as [k t K|p b0 k t A IH K|p b0 i A IH]; intros b B.
  - inversion B as [k' t' K'|p' b' k' t' B' K' EQ|p' b' i' B' EQ].
    + exact (shown_key_fun _ _ _ K K').
    + exfalso. apply (shown_nonempty _ _ B'). destruct p' as [|x [|y p']]; [reflexivity|discriminate EQ|discriminate EQ].
    + exfalso. apply (shown_nonempty _ _ B'). destruct p' as [|x [|y p']]; [reflexivity|discriminate EQ|discriminate EQ].
  - inversion B as [k' t' K' EQ|p' b' k' t' B' K' EQ|p' b' i' B' EQ].
    + exfalso. apply (shown_nonempty _ _ A). destruct p as [|x [|y p]]; [reflexivity|discriminate EQ|discriminate EQ].
    + apply app_inj_tail in EQ. destruct EQ as [-> EQ]. injection EQ as ->. rewrite (IH _ B'), (shown_key_fun _ _ _ K K'). reflexivity.
    + apply app_inj_tail in EQ. destruct EQ as [_ EQ]. discriminate.
  - inversion B as [k' t' K' EQ|p' b' k' t' B' K' EQ|p' b' i' B' EQ].
    + exfalso. apply (shown_nonempty _ _ A). destruct p as [|x [|y p]]; [reflexivity|discriminate EQ|discriminate EQ].
    + apply app_inj_tail in EQ. destruct EQ as [_ EQ]. discriminate.
    + apply app_inj_tail in EQ. destruct EQ as [-> EQ]. injection EQ as ->. rewrite (IH _ B'). reflexivity.
Qed.
Lemma increasing_fun a b : increasing a -> increasing b -> (forall n, In n a <-> In n b) -> a = b.
Proof.
  assert (L : forall x l y, increasing (x :: l) -> In y l -> x < y).
  { intros x l; revert x; induction l as [|z l IH]; intros x y H I0; [destruct I0|]. destruct H as [H1 H2]. destruct I0 as [<-|I0]; [exact H1|].
    specialize (IH _ _ H2 I0). lia. }
  assert (T : forall x l, increasing (x :: l) -> increasing l) by (intros x [|z l] H; [exact I|exact (proj2 H)]).
  revert b; induction a as [|x a IH]; intros [|y b] A B H; [reflexivity|exfalso; apply (H y); left; reflexivity|exfalso; apply (H x); left; reflexivity|].
  assert (E : x = y).
  { destruct (proj1 (H x) (or_introl eq_refl)) as [E|E]; [congruence|]. destruct (proj2 (H y) (or_introl eq_refl)) as [E2|E2]; [congruence|].
    pose proof (L _ _ _ B E). pose proof (L _ _ _ A E2). lia. }
  subst y. f_equal. apply (IH _ (T _ _ A) (T _ _ B)). intros n. split; intros I0.
  - destruct (proj1 (H n) (or_intror I0)) as [<-|I1]; [|exact I1]. pose proof (L _ _ _ A I0). lia.
  - destruct (proj2 (H n) (or_intror I0)) as [<-|I1]; [|exact I1]. pose proof (L _ _ _ B I0). lia.
Qed.
Lemma lines_fun a b ls ls' : lines_ok a b ls -> lines_ok a b ls' -> ls = ls'.
Proof. intros [A1 A2] [B1 B2]. apply increasing_fun; [exact A1|exact B1|]. intros n. rewrite A2, B2. reflexivity. Qed.
Lemma traced_fun acc : forall n s s', traced acc n s -> traced acc n s' -> s = s'.
Proof.
  induction acc as [|rs acc IH]; intros n s s' A B; inversion A; inversion B; [reflexivity|].
  match goal with H : nth_error rs _ = Some ?r, H' : nth_error rs _ = Some ?r' |- _ => assert (r = r') by congruence end. subst.
  f_equal; [eapply IH; eassumption|congruence].
Qed.
Lemma trail_app a b : forall acc n, trail acc (a ++ b) n = match trail acc a n with Some (acc', n') => trail acc' b n' | None => None end.
Proof.
  induction a as [|[k|i] a IH]; intros acc n; [reflexivity| |]; destruct n as [t|es|pa v es|v]; cbn [app trail]; try reflexivity.
  - destruct (tget t k); [apply IH|reflexivity].
  - destruct (nth_error es (N.to_nat i)); [apply IH|reflexivity].
  - destruct (nth_error es (N.to_nat i)); [apply IH|reflexivity].
Qed.
Lemma trail_node p : forall acc n, node_at p n = option_map snd (trail acc p n).
Proof.
  induction p as [|[k|i] p IH]; intros acc n; [reflexivity| |]; destruct n as [t|es|pa v es|v]; cbn [node_at trail]; try reflexivity.
  - destruct (tget t k); [apply IH|reflexivity].
  - destruct (nth_error es (N.to_nat i)); [apply IH|reflexivity].
  - destruct (nth_error es (N.to_nat i)); [apply IH|reflexivity].
Qed.
Lemma entry_at_last p k : forall n, entry_at (p ++ [SKey k]) n = match node_at p n with Some (NTable t) => tget t k | _ => None end.
Proof.
  induction p as [|[k'|i] p IH]; intros n.
  - cbn. destruct n; reflexivity.
  - destruct n as [t|es|pa v es|v]; cbn [app node_at]; try (destruct (p ++ [SKey k]) eqn:E; [destruct p; discriminate E|reflexivity]).
    destruct (p ++ [SKey k]) as [|x r] eqn:E; [destruct p; discriminate E|]. cbn [entry_at]. destruct (tget t k'); [apply IH|reflexivity].
  - destruct n as [t|es|pa v es|v]; cbn [app node_at entry_at]; try reflexivity; destruct (nth_error es (N.to_nat i)); try reflexivity; apply IH.
Qed.
Lemma entry_at_node p : forall n e, entry_at p n = Some e -> node_at p n = Some (e_node e).
Proof.
  induction p as [|[k|i] p IH]; intros n e; [destruct n; discriminate| |].
  - destruct n as [t| | |]; cbn [node_at]; [|destruct p; discriminate|destruct p; discriminate|destruct p; discriminate].
    destruct p as [|x p]; cbn [entry_at]; [intros ->; reflexivity|]. destruct (tget t k); [apply IH|discriminate].
  - destruct n as [|es|pa v es|]; cbn [node_at entry_at]; try discriminate; destruct (nth_error es (N.to_nat i)); try discriminate; apply IH.
Qed.

(** ** Places *)

(** A scalar is no table or array, and where its text starts is known if it
    is a string. *)
Definition leaf (v : value) : Prop :=
  match v with
  | VString _ sp _ off _ => exists s, apply_to off sp = Ok s
  | VTable _ _ _ | VArray _ _ _ _ => False
  | _ => True
  end.

Section Places.
  Variables (prof : profile) (dc : list spelling) (top : mtable).
  Notation root := (NTable top).

  Definition at_node (q : list step) (p : path) (acc : list (list mrepr)) (c : chains) (n : node) : Prop :=
    trail [] q root = Some (acc, n) /\ path_ok c p q /\ wf_node dc c n /\ nice leaf any_elem n /\
    (forall i s k, c i = Some (s, k) -> traced acc i s).
  (** [e] is at key [k] of the table at [q]. *)
  Definition keyed (q : list step) (p : path) (k : list N) (e : mentry) : Prop :=
    exists acc c t, at_node q p acc c (NTable t) /\ tget t k = Some e.
  Definition table_at (q : list step) (p : path) (t : mtable) : Prop := exists acc c, at_node q p acc c (NTable t).

  Lemma chain_next acc c rs : (forall i s k, c i = Some (s, k) -> traced acc i s) ->
    forall i s k, next c rs i = Some (s, k) -> traced (rs :: acc) i s.
  Proof.
    intros C i s k H. unfold next in H. destruct (nth_error rs (N.to_nat i)) as [r|] eqn:R; [|discriminate].
    destruct (c (r_parent r)) as [[s0 k0]|] eqn:CP; [|discriminate]. destruct (repr_ident (r_key r)) as [j|[]|] eqn:J; [|discriminate].
    injection H as <- <-. econstructor; [exact R|exact J|]. exact (C _ _ _ CP).
  Qed.
  Lemma keyed_inv q p acc c t k e : at_node q p acc c (NTable t) -> tget t k = Some e ->
    at_node (q ++ [SKey k]) (SegTable (e_reprs e) :: p) (e_reprs e :: acc) (next c (e_reprs e)) (e_node e) /\
    e_reprs e <> [] /\ Forall (repr_ok dc c k) (e_reprs e).
  Proof.
    intros (T & PO & WF & NI & C) G. apply wf_NTable in WF. destruct (tget_wf _ _ _ _ _ WF G) as (W1 & W2 & _ & W3).
    split; [|split; [exact W1|exact W2]]. split; [|split; [|split; [|split]]].
    - rewrite trail_app, T. cbn [trail]. rewrite G. reflexivity.
    - apply (path_ok_next dc); assumption.
    - exact W3.
    - exact (nice_get _ _ _ _ _ NI G).
    - apply chain_next. exact C.
  Qed.
  Lemma keyed_table q p k e t : keyed q p k e -> e_node e = NTable t -> table_at (q ++ [SKey k]) (SegTable (e_reprs e) :: p) t.
  Proof.
    intros (acc & c & t0 & A & G) E. destruct (keyed_inv _ _ _ _ _ _ _ A G) as (B & _). rewrite E in B. eexists. eexists. exact B.
  Qed.
  Lemma table_keyed q p t k e : table_at q p t -> tget t k = Some e -> keyed q p k e.
  Proof. intros (acc & c & A) G. exists acc, c, t. auto. Qed.
  Lemma table_node q p t : table_at q p t -> node_at q root = Some (NTable t).
  Proof. intros (acc & c & T & _). rewrite (trail_node q []), T. reflexivity. Qed.
  Lemma table_nodup q p t : table_at q p t -> NoDup (map fst t).
  Proof. intros (acc & c & _ & _ & _ & NI & _). apply nice_table in NI. apply NI. Qed.
  Lemma table_get q p t k e : table_at q p t -> In (k, e) t <-> tget t k = Some e.
  Proof.
    intros A. pose proof (table_nodup _ _ _ A) as ND. clear A. induction t as [|[k' e'] t IH]; cbn [In tget].
    - split; [tauto|discriminate].
    - cbn in ND. apply NoDup_cons_iff in ND. destruct ND as [N1 N2]. specialize (IH N2). destruct (bytes_eqb k' k) eqn:E.
      + apply bytes_eqb_eq in E. rewrite E in *. split; [|intros H; left; congruence]. intros [H|H]; [congruence|].
        exfalso. apply N1. apply in_map_iff. exists (k, e). auto.
      + rewrite <- IH. split; [|tauto]. intros [H|H]; [|exact H]. injection H as -> _. rewrite bytes_eqb_refl in E. discriminate.
  Qed.
  Lemma keyed_node q p k e : keyed q p k e -> node_at (q ++ [SKey k]) root = Some (e_node e).
  Proof. intros (acc & c & t & A & G). destruct (keyed_inv _ _ _ _ _ _ _ A G) as ((T & _) & _). rewrite (trail_node _ []), T. reflexivity. Qed.
  Lemma keyed_entry q p k e : keyed q p k e -> entry_at (q ++ [SKey k]) root = Some e.
  Proof. intros (acc & c & t & A & G). rewrite entry_at_last. rewrite (table_node q p t); [exact G|]. exists acc, c. exact A. Qed.
  Lemma keyed_leaf q p k e : keyed q p k e -> nice leaf any_elem (e_node e).
  Proof. intros (acc & c & t & A & G). destruct (keyed_inv _ _ _ _ _ _ _ A G) as ((_ & _ & _ & N0 & _) & _). exact N0. Qed.
  Lemma keyed_reprs q p k e : keyed q p k e -> exists r rs, e_reprs e = r :: rs.
  Proof. intros (acc & c & t & A & G). destruct (keyed_inv _ _ _ _ _ _ _ A G) as (_ & N0 & _). destruct (e_reprs e); [congruence|eauto]. Qed.
  Lemma absent q p t k : table_at q p t -> tget t k = None -> trail [] (q ++ [SKey k]) root = None.
  Proof. intros (acc & c & T & _) G. rewrite trail_app, T. cbn. rewrite G. reflexivity. Qed.
  Lemma table_get_at q p t k : table_at q p t -> node_at (q ++ [SKey k]) root = option_map e_node (tget t k).
  Proof. intros (acc & c & T & _). rewrite (trail_node _ []), trail_app, T. cbn. destruct (tget t k); reflexivity. Qed.
  Lemma table_text q p t : table_at q p t -> exists tx, match p with [] => Ok [] | _ => fmt_path p end = Ok tx /\ shown_or_empty q tx.
  Proof.
    intros (acc & c & _ & [_ PO] & _). destruct PO as [[-> ->]|(NE & tx & F & SH)].
    - exists []. split; [reflexivity|]. left. auto.
    - exists tx. split; [destruct p; [congruence|exact F]|right; exact SH].
  Qed.
  Lemma keyed_text q p k e : keyed q p k e -> exists tx, fmt_path (SegTable (e_reprs e) :: p) = Ok tx /\ shown (q ++ [SKey k]) tx.
  Proof.
    intros (acc & c & t & A & G). destruct (keyed_inv _ _ _ _ _ _ _ A G) as ((_ & [_ PO] & _) & _).
    destruct PO as [[_ E]|(_ & H)]; [destruct q; discriminate E|exact H].
  Qed.
  Lemma context_line_ok c p place a s k : path_ok c p place -> c a = Some (s, k) -> exists ls, context_line p a = Ok ls /\ lines_ok s [] ls.
  Proof.
    intros [P1 P2] A. destruct (P1 _ _ _ A) as [LA KA]. destruct p as [|x p].
    - destruct P2 as [[_ ->]|[? _]]; [|congruence]. cbn in KA. apply map_eq_nil in KA. subst. exists []. split; [reflexivity|]. split; [exact I|]. cbn. firstorder.
    - unfold context_line. rewrite LA. cbn [bind]. eexists. split; [reflexivity|]. split; [apply dedup_increasing, sort_by_weakly|].
      intros n. rewrite dedup_in, sort_by_in, in_map_iff, app_nil_r. split; intros (i & I1 & I2); exists i; rewrite <- in_rev in *; tauto.
  Qed.
  (** A definition of an entry, and what marks it. *)
  Lemma keyed_marks q p k e n r : keyed q p k e -> nth_error (e_reprs e) (N.to_nat n) = Some r ->
    exists ls sp, context_line p (r_parent r) = Ok ls /\ repr_span r = Ok sp /\ (exists i, repr_ident (r_key r) = Ok i /\ id_text i = k) /\
      forall ls' sp', marks root (q ++ [SKey k]) n ls' sp' <-> ls' = ls /\ sp' = sp.
  Proof.
    intros (acc & c & t & A & G) R. destruct (keyed_inv _ _ _ _ _ _ _ A G) as ((T & _ & _ & _ & C') & _ & F).
    rewrite Forall_forall in F. destruct (F _ (nth_error_In _ _ R)) as (s & k0 & i & sp & H1 & H2 & H3 & H4 & H5 & _).
    destruct A as (_ & PO & _ & _ & C). destruct (context_line_ok _ _ _ _ _ _ PO H1) as (ls & L1 & L2).
    exists ls, (mkspan (id_start i) (s_end sp)). split; [exact L1|]. split; [unfold repr_span; rewrite H2; cbn [bind]; rewrite H5; reflexivity|].
    split; [eauto|]. assert (TR : traced (e_reprs e :: acc) n (s ++ [i])) by (econstructor; [exact R|exact H2|exact (C _ _ _ H1)]).
    intros ls' sp'. split.
    - intros (r' & pre & i' & ksp & (rs & acc' & x & D1 & D2 & D3) & D4 & D5 & D6). rewrite T in D1. injection D1 as <- <- <-. rewrite R in D2. injection D2 as <-.
      pose proof (traced_fun _ _ _ _ TR D3) as E. apply app_inj_tail in E. destruct E as [-> ->]. rewrite H5 in D5. injection D5 as <-.
      split; [exact (lines_fun _ _ _ _ D4 L2)|exact D6].
    - intros [-> ->]. exists r, s, i, sp. split; [|auto]. exists (e_reprs e), acc, (e_node e). auto.
  Qed.
  Lemma marks_defined q p k e n ls sp : keyed q p k e -> marks root (q ++ [SKey k]) n ls sp -> exists r, nth_error (e_reprs e) (N.to_nat n) = Some r.
  Proof.
    intros (acc & c & t & A & G) (r' & pre & i' & ksp & (rs & acc' & x & D1 & D2 & D3) & _).
    destruct (keyed_inv _ _ _ _ _ _ _ A G) as ((T & _) & _). rewrite T in D1. injection D1 as <- <- <-. eauto.
  Qed.
  Lemma marks_keyed q p t k n ls sp : table_at q p t -> marks root (q ++ [SKey k]) n ls sp -> exists e, tget t k = Some e.
  Proof.
    intros A (r' & pre & i' & ksp & (rs & acc' & x & D1 & _) & _). destruct (tget t k) eqn:G; [eauto|].
    rewrite (absent _ _ _ _ A G) in D1. discriminate.
  Qed.

  (** Reporting every definition of a key. *)
  Lemma each_repr q p k e mk text tx : keyed q p k e -> text = Ok tx ->
    does (each (fun r => say (report mk (context_line p (r_parent r)) text (repr_span r))) (e_reprs e)) False (fun _ => True)
      (fun d => exists n ls sp, marks root (q ++ [SKey k]) n ls sp /\ d = mk ls tx sp).
  Proof.
    intros K ->. eapply does_iff.
    - apply (does_all _ (fun r d => exists n ls sp, nth_error (e_reprs e) (N.to_nat n) = Some r /\ marks root (q ++ [SKey k]) n ls sp /\ d = mk ls tx sp)).
      intros r R. apply In_nth_error in R. destruct R as [n R]. rewrite <- (Nat2N.id n) in R.
      destruct (keyed_marks _ _ _ _ _ _ K R) as (ls & sp & -> & -> & _ & M). cbn [report bind].
      apply (does_iff _ _ _ _ _ _ _ (does_say _)); [tauto|auto|]. intros d. split.
      + intros <-. exists (N.of_nat n), ls, sp. split; [exact R|]. split; [apply M; auto|reflexivity].
      + intros (n' & ls' & sp' & R' & M' & ->).
        destruct (keyed_marks _ _ _ _ _ _ K R') as (ls2 & sp2 & L2 & S2 & _ & M2). apply M2 in M'. destruct M' as [-> ->].
        destruct (keyed_marks _ _ _ _ _ _ K R) as (ls3 & sp3 & L3 & S3 & _ & M3). rewrite L3 in L2. rewrite S3 in S2.
        injection L2 as <-. injection S2 as <-. assert (ls = ls3 /\ sp = sp3) as [-> ->]; [|reflexivity]. apply M3. apply M. auto.
    - tauto.
    - auto.
    - intros d. split.
      + intros (r & _ & n & ls & sp & _ & M & ->). eauto.
      + intros (n & ls & sp & M & ->). destruct (marks_defined _ _ _ _ _ _ _ K M) as (r & R). exists r. split; [exact (nth_error_In _ _ R)|]. eauto 6.
  Qed.
  (** Reporting the first definition. *)
  Lemma say_first q p k e r rs mk text tx : keyed q p k e -> e_reprs e = r :: rs -> text = Ok tx ->
    does (say (report mk (context_line p (r_parent r)) text (repr_span r))) False (fun _ => True)
      (fun d => exists ls sp, marks root (q ++ [SKey k]) 0 ls sp /\ d = mk ls tx sp).
  Proof.
    intros K E ->. assert (R : nth_error (e_reprs e) (N.to_nat 0) = Some r) by (rewrite E; reflexivity).
    destruct (keyed_marks _ _ _ _ _ _ K R) as (ls & sp & -> & -> & _ & M). cbn [report bind].
    apply (does_iff _ _ _ _ _ _ _ (does_say _)); [tauto|auto|]. intros d. split.
    - intros <-. exists ls, sp. split; [apply M; auto|reflexivity].
    - intros (ls' & sp' & M' & ->). apply M in M'. destruct M' as [-> ->]. reflexivity.
  Qed.

  (** ** Values of a type *)
  Lemma invalid_type n : is_invalid n = true <-> datatype_of n = DtInvalid.
  Proof. destruct n as [| | |[]]; cbn; split; try discriminate; reflexivity. Qed.
  Definition typed {A} (want : datatype) (get : node -> option A) : Prop :=
    forall n, nice leaf any_elem n -> get n = None <-> datatype_of n <> want.
  Lemma table_typed : typed DtTable as_table.
  Proof. intros [| | |[]]; cbn; intros NI; split; try discriminate; try congruence; try tauto; reflexivity. Qed.
  Lemma array_typed : typed DtArray as_array.
  Proof. intros [| | |[]]; cbn; intros NI; split; try discriminate; try congruence; try tauto; reflexivity. Qed.
  Lemma string_typed : typed DtString as_string.
  Proof. intros [| | |[]]; cbn; intros NI; split; try discriminate; try congruence; try tauto; reflexivity. Qed.
  Lemma bool_typed : typed DtBool as_bool.
  Proof. intros [| | |[]]; cbn; intros NI; split; try discriminate; try congruence; try tauto; reflexivity. Qed.

  Lemma does_expect {A} want (get : node -> option A) q p k e : typed want get -> keyed q p k e ->
    does (expect want get (SegTable (e_reprs e) :: p) e) False (eq (get (e_node e))) (type_problem root (q ++ [SKey k]) want).
  Proof.
    intros TY K. pose proof (TY _ (keyed_leaf _ _ _ _ K)) as TN. pose proof (keyed_node _ _ _ _ K) as KN.
    unfold expect. destruct (get (e_node e)) as [a|] eqn:G.
    - apply (does_iff _ _ _ _ _ _ _ (does_ret _ (eq (Some a)) eq_refl)); [tauto|auto|]. intros d. split; [tauto|].
      intros (x & n & ls & sp & tx & N0 & T1 & T2 & _). rewrite KN in N0. injection N0 as <-. apply TN in T1. discriminate.
    - destruct (is_invalid (e_node e)) eqn:V.
      + apply (does_iff _ _ _ _ _ _ _ (does_ret _ (eq None) eq_refl)); [tauto|auto|]. intros d. split; [tauto|].
        intros (x & n & ls & sp & tx & N0 & T1 & T2 & _). rewrite KN in N0. injection N0 as <-. apply invalid_type in V. congruence.
      + destruct (keyed_text _ _ _ _ K) as (tx & TX & SH).
        eapply does_iff.
        * apply (does_map _ (fun _ => None) False (fun _ => True) (eq None)); [|reflexivity].
          exact (each_repr _ _ _ _ (fun l t s => DError l t s (WrongDatatype want (datatype_of (e_node e)))) _ tx K TX).
        * tauto.
        * auto.
        * intros d. split.
          -- intros (n & ls & sp & M & ->). exists (e_node e), n, ls, sp, tx. split; [exact KN|]. split; [apply TN; reflexivity|].
             split; [rewrite <- invalid_type; congruence|]. auto.
          -- intros (x & n & ls & sp & tx' & N0 & T1 & T2 & M & SH' & ->). rewrite KN in N0. injection N0 as <-. exists n, ls, sp. split; [exact M|].
             rewrite (shown_fun _ _ _ SH' SH). reflexivity.
  Qed.

  (** The value of a key, if it has the type. *)
  Definition str_of (e : mentry) : option strassign :=
    match e with mke (NScalar (VString l sp x o q)) (r :: _) => Some (mksa r (mksv l sp x o q)) | _ => None end.
  Definition bool_of (e : mentry) : option boolassign :=
    match e with mke (NScalar (VBool sp b)) (r :: _) => Some (mkba r (mkbv sp b)) | _ => None end.
  Lemma str_field_of t k : str_field t k = match tget t (bs k) with Some e => str_of e | None => None end.
  Proof. reflexivity. Qed.
  Lemma bool_field_of t k : bool_field t k = match tget t (bs k) with Some e => bool_of e | None => None end.
  Proof. reflexivity. Qed.
  Lemma does_string q p k e : keyed q p k e ->
    does (expect_string (SegTable (e_reprs e) :: p) e) False (eq (str_of e)) (type_problem root (q ++ [SKey k]) DtString).
  Proof.
    intros K. unfold expect_string. eapply does_iff.
    - eapply does_then; [exact (does_expect _ _ _ _ _ _ string_typed K)|]. intros x <-.
      instantiate (1 := fun _ => False). instantiate (1 := eq (str_of e)). instantiate (1 := False).
      destruct (keyed_reprs _ _ _ _ K) as (r & rs & E). destruct e as [n rs']. cbn in E. rewrite E. cbn [e_node e_reprs first_of bind str_of].
      destruct n as [| | |[]]; cbn [as_string]; apply does_ret; reflexivity.
    - tauto.
    - auto.
    - tauto.
  Qed.
  Lemma does_bool q p k e : keyed q p k e ->
    does (expect_bool (SegTable (e_reprs e) :: p) e) False (eq (bool_of e)) (type_problem root (q ++ [SKey k]) DtBool).
  Proof.
    intros K. unfold expect_bool. eapply does_iff.
    - eapply does_then; [exact (does_expect _ _ _ _ _ _ bool_typed K)|]. intros x <-.
      instantiate (1 := fun _ => False). instantiate (1 := eq (bool_of e)). instantiate (1 := False).
      destruct (keyed_reprs _ _ _ _ K) as (r & rs & E). destruct e as [n rs']. cbn in E. rewrite E. cbn [e_node e_reprs first_of bind bool_of].
      destruct n as [| | |[]]; cbn [as_bool]; apply does_ret; reflexivity.
    - tauto.
    - auto.
    - tauto.
  Qed.
  Lemma does_unused q p k e : keyed q p k e ->
    does (warn_unused (SegTable (e_reprs e) :: p) e) False (fun _ => True) (unknown_problem root (q ++ [SKey k])).
  Proof.
    intros K. destruct (keyed_text _ _ _ _ K) as (tx & TX & SH). unfold warn_unused. eapply does_iff.
    - apply (does_map _ (fun _ => tt) False (fun _ => True) (fun _ => True)); [|auto].
      exact (each_repr _ _ _ _ (fun l t s => DWarn l t s IgnoredUnknownKey) _ tx K TX).
    - tauto.
    - auto.
    - intros d. split; [intros (n & ls & sp & M & ->); exists n, ls, sp, tx; auto|]. intros (n & ls & sp & tx' & M & SH' & ->).
      exists n, ls, sp. split; [exact M|]. rewrite (shown_fun _ _ _ SH' SH). reflexivity.
  Qed.
  Lemma shown_or_empty_fun q a b : shown_or_empty q a -> shown_or_empty q b -> a = b.
  Proof.
    intros [[-> ->]|A] [[E ->]|B]; [reflexivity| | |exact (shown_fun _ _ _ A B)].
    - destruct (shown_nonempty _ _ B eq_refl).
    - destruct (shown_nonempty _ _ A E).
  Qed.
  Lemma does_old q p t old new e : table_at q p t -> tget t (bs old) = Some e ->
    does (deprecated_underscore p t (bs old) (bs new) e) False (fun b => b = match tget t (bs new) with Some _ => true | None => false end)
      (old_problem root q old new).
  Proof.
    intros A G. pose proof (table_keyed _ _ _ _ _ A G) as K. destruct (table_text _ _ _ A) as (tx & TX & SH). unfold deprecated_underscore, old_problem, at_key.
    rewrite entry_at_last, (table_node _ _ _ A), (table_get_at _ _ _ _ A). destruct (tget t (bs new)) as [en|] eqn:GN.
    - pose proof (table_keyed _ _ _ _ _ A GN) as KN. destruct (keyed_reprs _ _ _ _ KN) as (rn & rsn & EN).
      assert (RN : nth_error (e_reprs en) (N.to_nat 0) = Some rn) by (rewrite EN; reflexivity).
      destruct (keyed_marks _ _ _ _ _ _ KN RN) as (lsn & spn & _ & RS & _). unfold repr_span in RS.
      destruct (repr_ident (r_key rn)) as [i|[]|]; [|discriminate RS]. cbn [bind] in RS. destruct (kind_span (r_kind rn)) as [ks|[]|] eqn:KS; [|discriminate RS].
      rewrite EN. cbn [first_of bind]. rewrite KS. cbn [bind]. eapply does_iff.
      + apply (does_map _ (fun _ => true) False (fun _ => True) (eq true)); [|auto].
        exact (each_repr _ _ _ _ (fun l t s => DWarn l t s (RedundantDeprecatedUnderscore (bs old) (bs new) ks)) _ tx K TX).
      + tauto.
      + auto.
      + intros d. split.
        * intros (n & ls & sp & M & ->). exists n, ls, sp, tx. split; [exact M|]. split; [exact SH|]. right. exists en, rn, rsn, ks. auto.
        * intros (n & ls & sp & tx' & M & SH' & [[N0 _]|(e' & r & rs & nsp & E1 & E2 & E3 & ->)]); [discriminate N0|].
          injection E1 as <-. rewrite EN in E2. injection E2 as <- <-. rewrite KS in E3. injection E3 as <-.
          exists n, ls, sp. split; [exact M|]. rewrite (shown_or_empty_fun _ _ _ SH' SH). reflexivity.
    - cbn [bind]. eapply does_iff.
      + apply (does_map _ (fun _ => false) False (fun _ => True) (eq false)); [|auto].
        exact (each_repr _ _ _ _ (fun l t s => DWarn l t s (DeprecatedUnderscore (bs old) (bs new))) _ tx K TX).
      + tauto.
      + auto.
      + intros d. split.
        * intros (n & ls & sp & M & ->). exists n, ls, sp, tx. split; [exact M|]. split; [exact SH|]. left. auto.
        * intros (n & ls & sp & tx' & M & SH' & [[_ ->]|(e' & r & rs & nsp & E1 & _)]); [|discriminate E1].
          exists n, ls, sp. split; [exact M|]. rewrite (shown_or_empty_fun _ _ _ SH' SH). reflexivity.
  Qed.

  (** ** Features *)
  Definition elem_problem (q : list step) (d : diag) : Prop :=
    exists parent v es i x r s ls tx, node_at (q ++ [at_key "features"]) root = Some (NInline parent v es) /\
      nth_error es (N.to_nat i) = Some x /\ datatype_of (ie_node x) <> DtString /\ datatype_of (ie_node x) <> DtInvalid /\
      definition root (q ++ [at_key "features"]) parent r s /\ lines_ok s [] ls /\ shown (q ++ [at_key "features"] ++ [SIdx i]) tx /\
      d = DError ls tx (av_span (ie_repr x)) (WrongDatatype DtString (datatype_of (ie_node x))).
  Definition tables_problem (q : list step) (d : diag) : Prop :=
    exists es n ls sp tx, node_at (q ++ [at_key "features"]) root = Some (NTop es) /\
      marks root (q ++ [at_key "features"]) n ls sp /\ shown (q ++ [at_key "features"] ++ [SIdx n]) tx /\
      d = DError ls tx sp (WrongDatatype DtString DtTable).
  Definition features_of (e : mentry) : list strval := match e_node e with NInline _ _ es => strings_of es | _ => [] end.

  Lemma index_text q p k e i : keyed q p k e -> exists tx, fmt_path (SegArray i :: SegTable (e_reprs e) :: p) = Ok tx /\ shown (q ++ [SKey k] ++ [SIdx i]) tx.
  Proof.
    intros (acc & c & t & A & G). destruct (keyed_inv _ _ _ _ _ _ _ A G) as ((_ & PO & _) & _).
    destruct (path_ok_index _ _ _ i PO) as [_ [[H _]|(_ & H)]]; [discriminate|discriminate|]. rewrite app_assoc. exact H.
  Qed.
  Lemma strings_collect es : forall i ys, Forall2 (fun (a : N * ientry) y => y = as_string (ie_node (snd a))) (enumerate i es) ys -> flat_map opt_list ys = strings_of es.
  Proof.
    induction es as [|[n a] es IH]; intros i ys F; cbn [enumerate] in F; inversion F as [|? y ? ys' E F' E1 E2]; [reflexivity|].
    cbn [flat_map]. rewrite (IH _ _ F'). rewrite E. cbn [snd ie_node]. destruct n as [| | |[]]; reflexivity.
  Qed.
  Lemma does_features q p e : keyed q p (bs "features") e ->
    does (parse_dependency_features (SegTable (e_reprs e) :: p) e) False (eq (features_of e))
      (fun d => type_problem root (q ++ [at_key "features"]) DtArray d \/ elem_problem q d \/ tables_problem q d).
  Proof.
    intros K. pose proof (keyed_node _ _ _ _ K) as KN. unfold parse_dependency_features. eapply does_then; [exact (does_expect _ _ _ _ _ _ array_typed K)|].
    intros x <-. unfold elem_problem, tables_problem, at_key, features_of. rewrite KN. destruct (e_node e) as [t|es|pa v es|v] eqn:EN; cbn [as_array].
    - apply (does_iff _ _ _ _ _ _ _ (does_ret _ (eq []) eq_refl)); [tauto|auto|]. intros d. split; [tauto|]. intros [H|H]; decompose [ex and] H; discriminate.
    - eapply does_iff.
      + apply (does_map _ (fun _ => []) False (fun _ => True) (eq [])); [|auto].
        apply (does_all _ (fun a d => exists ls sp tx, marks root (q ++ [SKey (bs "features")]) (fst a) ls sp /\
          shown (q ++ [SKey (bs "features")] ++ [SIdx (fst a)]) tx /\ d = DError ls tx sp (WrongDatatype DtString DtTable))).
        intros [i r] R. apply enumerate_zero in R. destruct (keyed_marks _ _ _ _ _ _ K R) as (ls & sp & L & SP & _ & M).
        destruct (index_text _ _ _ _ i K) as (tx & TX & SH). cbn [tl fst]. unfold error_, report. rewrite L, TX, SP. cbn [bind].
        apply (does_iff _ _ _ _ _ _ _ (does_say _)); [tauto|auto|]. intros d. split.
        * intros <-. exists ls, sp, tx. split; [apply M; auto|auto].
        * intros (ls' & sp' & tx' & M' & SH' & ->). apply M in M'. destruct M' as [-> ->]. rewrite (shown_fun _ _ _ SH' SH). reflexivity.
      + tauto.
      + auto.
      + intros d. split.
        * intros ([i r] & _ & ls & sp & tx & M & SH & ->). right. exists es, i, ls, sp, tx. auto.
        * intros [H|(es' & n & ls & sp & tx & _ & M & SH & ->)]; [decompose [ex and] H; discriminate|].
          destruct (marks_defined _ _ _ _ _ _ _ K M) as (r & R). exists (n, r). split; [apply enumerate_zero; exact R|]. exists ls, sp, tx. auto.
    - destruct K as (acc & c & t & A & G). destruct (keyed_inv _ _ _ _ _ _ _ A G) as ((T & PO & WF & NI & C) & _). rewrite EN in *.
      apply wf_NInline in WF. destruct WF as [CP _]. apply nice_inline in NI. rewrite Forall_forall in NI.
      destruct (next c (e_reprs e) pa) as [[s kd]|] eqn:CN; [|congruence]. clear CP.
      destruct (context_line_ok _ _ _ _ _ _ PO CN) as (ls & L1 & L2). pose proof (C _ _ _ CN) as TR.
      assert (K : keyed q p (bs "features") e) by (exists acc, c, t; auto).
      assert (DF : exists r, nth_error (e_reprs e) (N.to_nat pa) = Some r) by (inversion TR; eauto). destruct DF as (r & R).
      eapply does_iff.
      + apply (does_map _ (fun l => flat_map opt_list l) False (fun ys => Forall2 (fun (a : N * ientry) y => y = as_string (ie_node (snd a))) (enumerate 0 es) ys) (eq (strings_of es))).
        2:{ intros ys F. symmetry. exact (strings_collect _ _ _ F). }
        apply (does_list _ (fun (a : N * ientry) y => y = as_string (ie_node (snd a))) (fun a d => datatype_of (ie_node (snd a)) <> DtString /\ datatype_of (ie_node (snd a)) <> DtInvalid /\
             exists tx, shown (q ++ [SKey (bs "features")] ++ [SIdx (fst a)]) tx /\
              d = DError ls tx (av_span (ie_repr (snd a))) (WrongDatatype DtString (datatype_of (ie_node (snd a)))))).
        intros [i x] X. apply enumerate_zero in X. cbn [fst snd]. unfold expect_string_in_array.
        pose proof (string_typed _ (proj2 (NI _ (nth_error_In _ _ X)))) as TY.
        destruct (as_string (ie_node x)) as [sv|] eqn:AS.
        * apply (does_iff _ _ _ _ _ _ _ (does_ret _ (fun y => y = Some sv) eq_refl)); [tauto|auto|]. intros d. split; [tauto|]. intros (H & _). apply TY in H. discriminate.
        * destruct (is_invalid (ie_node x)) eqn:V.
          -- apply (does_iff _ _ _ _ _ _ _ (does_ret _ (fun y => y = None) eq_refl)); [tauto|auto|]. intros d. split; [tauto|]. intros (_ & H & _). apply invalid_type in V. contradiction.
          -- destruct (index_text _ _ _ _ i K) as (tx & TX & SH). cbn [tl]. unfold error_, report. rewrite L1, TX. cbn [bind].
             apply (does_iff _ False False (fun y => y = None) _ (eq (DError ls tx (av_span (ie_repr x)) (WrongDatatype DtString (datatype_of (ie_node x)))))); [|tauto|auto|].
             ++ apply (does_map _ (fun _ => None) False (fun _ => True)); [|auto]. apply does_say.
             ++ intros d. split.
                ** intros <-. split; [apply TY; reflexivity|]. split; [rewrite <- invalid_type; congruence|]. eauto.
                ** intros (_ & _ & tx' & SH' & ->). rewrite (shown_fun _ _ _ SH' SH). reflexivity.
      + tauto.
      + auto.
      + intros d. split.
        * intros ([i x] & X & T1 & T2 & tx & SH & ->). cbn [fst snd] in *. apply enumerate_zero in X. left. exists pa, v, es, i, x, r, s, ls, tx.
          repeat (split; [first [assumption|reflexivity]|]). split; [|auto]. exists (e_reprs e), acc, (NInline pa v es). auto.
        * intros [(pa' & v' & es' & i & x & r' & s' & ls' & tx & E1 & X & T1 & T2 & (rs & acc' & n & D1 & D2 & D3) & LO & SH & ->)|H]; [|decompose [ex and] H; discriminate].
          injection E1 as <- <- <-. rewrite T in D1. injection D1 as <- <- <-. rewrite (traced_fun _ _ _ _ D3 TR) in LO. rewrite (lines_fun _ _ _ _ LO L2).
          exists (i, x). split; [apply enumerate_zero; exact X|]. cbn [fst snd]. eauto.
    - destruct v; (apply (does_iff _ _ _ _ _ _ _ (does_ret _ (eq []) eq_refl)); [tauto|auto|]; intros dg; split; [tauto|]; intros [H|H]; decompose [ex and] H; discriminate).
  Qed.

  (** ** Requirements *)
  Definition version_bad (o : option strassign) : Prop := exists s, o = Some s /\ requirement prof s Panic.
  Definition version_problem (o : option strassign) (d : diag) : Prop := exists s er, o = Some s /\ requirement prof s (Err er) /\ d = DSemver er.
  Lemma requirement_fun s a b : requirement prof s a -> requirement prof s b -> a = b.
  Proof. intros (x & X1 & X2) (y & Y1 & Y2). rewrite X1 in Y1. injection Y1 as <-. congruence. Qed.
  Lemma does_req s : (exists sp, text_span (sa_val s) = Ok sp) ->
    does (parse_version_req prof s) (version_bad (Some s)) (version_of prof s) (version_problem (Some s)).
  Proof.
    intros (sp & TS). unfold parse_version_req. rewrite TS. cbn [bind].
    assert (RQ : forall r, SemverModel.parse_requirement prof (utf8 (sv_text (sa_val s))) (s_start sp) = r -> requirement prof s r) by (intros r R; exists sp; auto).
    destruct (SemverModel.parse_requirement prof (utf8 (sv_text (sa_val s))) (s_start sp)) as [v|er|]; specialize (RQ _ eq_refl).
    - eapply does_iff.
      + apply (does_ret _ (version_of prof s)). constructor. exact RQ.
      + split; [tauto|]. intros (s' & E & R). injection E as <-. pose proof (requirement_fun _ _ _ RQ R). discriminate.
      + auto.
      + intros d. split; [tauto|]. intros (s' & er & E & R & _). injection E as <-. pose proof (requirement_fun _ _ _ RQ R). discriminate.
    - eapply does_iff.
      + apply (does_map _ (fun _ => mkdv s None) False (fun _ => True) (version_of prof s) (eq (DSemver er))); [apply does_say|]. intros _ _. econstructor. exact RQ.
      + split; [tauto|]. intros (s' & E & R). injection E as <-. pose proof (requirement_fun _ _ _ RQ R). discriminate.
      + auto.
      + intros d. split; [intros <-; exists s, er; auto|]. intros (s' & er' & E & R & ->). injection E as <-. pose proof (requirement_fun _ _ _ RQ R) as E. injection E as <-. reflexivity.
    - left. split; [reflexivity|]. exists s. auto.
  Qed.
  Lemma does_version o : (forall s, o = Some s -> exists sp, text_span (sa_val s) = Ok sp) ->
    does (map_version prof o) (version_bad o) (opt_version prof o) (version_problem o).
  Proof.
    intros H. destruct o as [s|]; cbn [map_version].
    - apply (does_map _ Some _ (version_of prof s)); [exact (does_req _ (H _ eq_refl))|]. intros x X. constructor. exact X.
    - apply (does_iff _ _ _ _ _ _ _ (does_ret None (opt_version prof None) (ov_none _))); [|auto|].
      + split; [tauto|]. intros (s & E & _). discriminate.
      + intros d. split; [tauto|]. intros (s & er & E & _). discriminate.
  Qed.

  (** ** The keys of a dependency *)
  Definition upd (t : mtable) (b : builder) (x : list N * mentry) : builder :=
    let (k, e) := x in
    if key_is k "workspace" then set_workspace b (bool_of e)
    else if key_is k "version" then set_version b (str_of e)
    else if key_is k "registry" then set_registry b (str_of e)
    else if key_is k "path" then set_path b (str_of e)
    else if key_is k "git" then set_git b (str_of e)
    else if key_is k "branch" then set_branch b (str_of e)
    else if key_is k "tag" then set_tag b (str_of e)
    else if key_is k "rev" then set_rev b (str_of e)
    else if key_is k "package" then set_package b (str_of e)
    else if key_is k "optional" then set_optional b (bool_of e)
    else if key_is k "default-features" then set_default b (bool_of e)
    else if key_is k "default_features" then
      match tget t (bs "default-features") with Some _ => b | None => set_default b (bool_of e) end
    else if key_is k "features" then add_features b (features_of e)
    else b.
  Lemma key_is_eq k s : key_is k s = true <-> k = bs s.
  Proof. apply bytes_eqb_eq. Qed.
  Lemma fold_field {X} (get : builder -> X) (name : string) (val : X -> mentry -> X) t : forall l b, NoDup (map fst l) ->
    (forall b k e, In (k, e) l -> get (upd t b (k, e)) = if key_is k name then val (get b) e else get b) ->
    get (fold_left (upd t) l b) = match tget l (bs name) with Some e => val (get b) e | None => get b end.
  Proof.
    induction l as [|[k e] l IH]; intros b ND H; [reflexivity|]. cbn [fold_left tget]. cbn in ND. apply NoDup_cons_iff in ND. destruct ND as [N1 N2].
    rewrite IH; [|exact N2|intros; apply H; right; assumption]. rewrite (H _ _ _ (or_introl eq_refl)). unfold key_is. destruct (bytes_eqb k (bs name)) eqn:E; [|reflexivity].
    apply bytes_eqb_eq in E. destruct (tget l (bs name)) eqn:G; [|reflexivity]. exfalso. apply N1. rewrite E. apply tget_in. congruence.
  Qed.
  Ltac closed_keys :=
    repeat match goal with
    | |- context [key_is (bs ?a) ?b] => let v := eval vm_compute in (key_is (bs a) b) in change (key_is (bs a) b) with v; cbv iota
    end.
  Ltac keys k :=
    repeat match goal with
    | |- context [key_is k ?s] =>
        let E := fresh "E" in destruct (key_is k s) eqn:E;
        [apply key_is_eq in E; try rewrite E; closed_keys; try reflexivity;
         try match goal with |- context [tget ?t (bs "default-features")] => destruct (tget t (bs "default-features")); reflexivity end|]
    end; try reflexivity.
  Definition built (t : mtable) : builder :=
    mkb (default_field t) (feature_list t) (str_field t "package") (bool_field t "workspace") (str_field t "version") (str_field t "registry")
      (str_field t "path") (str_field t "git") (str_field t "branch") (str_field t "tag") (str_field t "rev") (bool_field t "optional").
  Lemma fold_built t : NoDup (map fst t) -> fold_left (upd t) t no_builder = built t.
  Proof.
    intros ND. 
    assert (ST : forall (get : builder -> option strassign) name, get no_builder = None ->
      (forall b k e, get (upd t b (k, e)) = if key_is k name then str_of e else get b) -> get (fold_left (upd t) t no_builder) = str_field t name).
    { intros get name N0 H. rewrite (fold_field get name (fun _ => str_of) t t no_builder ND (fun b k e _ => H b k e)). rewrite str_field_of, N0. reflexivity. }
    assert (BO : forall (get : builder -> option boolassign) name, get no_builder = None ->
      (forall b k e, get (upd t b (k, e)) = if key_is k name then bool_of e else get b) -> get (fold_left (upd t) t no_builder) = bool_field t name).
    { intros get name N0 H. rewrite (fold_field get name (fun _ => bool_of) t t no_builder ND (fun b k e _ => H b k e)). rewrite bool_field_of, N0. reflexivity. }
    transitivity (let f := fold_left (upd t) t no_builder in
      mkb (b_default f) (b_list f) (b_package f) (b_workspace f) (b_version f) (b_registry f) (b_path f) (b_git f) (b_branch f) (b_tag f) (b_rev f) (b_optional f)).
    { destruct (fold_left (upd t) t no_builder); reflexivity. }
    cbv zeta. unfold built. f_equal.
    - unfold default_field. destruct (tget t (bs "default-features")) as [e0|] eqn:G.
      + apply BO; [reflexivity|]. intros b k e. unfold upd. rewrite G. keys k.
      + rewrite (fold_field b_default "default_features" (fun _ => bool_of) t t no_builder ND); [rewrite bool_field_of; reflexivity|].
        intros b k e I0. unfold upd. rewrite G. destruct (key_is k "default-features") eqn:E; [|keys k]. exfalso. apply key_is_eq in E. rewrite E in I0.
        apply (in_map fst) in I0. apply tget_in in I0. cbn [fst] in I0. congruence.
    - rewrite (fold_field b_list "features" (fun l e => l ++ features_of e) t t no_builder ND).
      + unfold feature_list, features_of. destruct (tget t (bs "features")) as [[[] ?]|]; reflexivity.
      + intros b k e _. unfold upd. keys k.
    - apply ST; [reflexivity|]. intros b k e. unfold upd. keys k.
    - apply BO; [reflexivity|]. intros b k e. unfold upd. keys k.
    - apply ST; [reflexivity|]. intros b k e. unfold upd. keys k.
    - apply ST; [reflexivity|]. intros b k e. unfold upd. keys k.
    - apply ST; [reflexivity|]. intros b k e. unfold upd. keys k.
    - apply ST; [reflexivity|]. intros b k e. unfold upd. keys k.
    - apply ST; [reflexivity|]. intros b k e. unfold upd. keys k.
    - apply ST; [reflexivity|]. intros b k e. unfold upd. keys k.
    - apply ST; [reflexivity|]. intros b k e. unfold upd. keys k.
    - apply BO; [reflexivity|]. intros b k e. unfold upd. keys k.
  Qed.

  Lemma bs_inj a b : bs a = bs b -> a = b.
  Proof.
    revert b; induction a as [|x a IH]; intros [|y b] E; cbn in E; try discriminate; [reflexivity|]. injection E as E1 E2. f_equal; [|exact (IH _ E2)].
    rewrite <- (Ascii.ascii_N_embedding x), <- (Ascii.ascii_N_embedding y). f_equal. exact E1.
  Qed.
  Definition key_problem (q : list step) (t : mtable) (k : list N) (d : diag) : Prop :=
    (exists name want, In (name, want) typed_keys /\ k = bs name /\ type_problem root (q ++ [SKey k]) want d) \/
    (k = bs "features" /\ (elem_problem q d \/ tables_problem q d)) \/
    (k = bs "default_features" /\ (old_problem root q "default_features" "default-features" d \/
       (tget t (bs "default-features") = None /\ type_problem root (q ++ [SKey k]) DtBool d))) \/
    (~ In k (map bs dependency_keys) /\ unknown_problem root (q ++ [SKey k]) d).
  Lemma typed_fun name w w' : In (name, w) typed_keys -> In (name, w') typed_keys -> w = w'.
  Proof. cbn. intros A B. repeat (destruct A as [A|A]; [injection A as <- <-; repeat (destruct B as [B|B]; [first [discriminate B|injection B as <-; reflexivity]|]); destruct B|]). destruct A. Qed.
  Lemma typed_in name w : In (name, w) typed_keys -> In (bs name) (map bs dependency_keys).
  Proof. intros H. apply in_map. apply in_app_iff. left. apply (in_map fst _ _ H). Qed.
  Lemma typed_old w : ~ In ("default_features"%string, w) typed_keys.
  Proof. cbn. intros H. repeat (destruct H as [H|H]; [discriminate H|]). destruct H. Qed.
  Lemma key_typed q t name want d : In (name, want) typed_keys ->
    key_problem q t (bs name) d <-> type_problem root (q ++ [SKey (bs name)]) want d \/ (name = "features"%string /\ (elem_problem q d \/ tables_problem q d)).
  Proof.
    intros TY. split.
    - intros [(n' & w' & TY' & E & H)|[(E & H)|[(E & H)|(E & H)]]].
      + apply bs_inj in E. rewrite <- E in TY'. rewrite (typed_fun _ _ _ TY TY'). left. exact H.
      + apply bs_inj in E. auto.
      + apply bs_inj in E. rewrite E in TY. destruct (typed_old _ TY).
      + destruct (E (typed_in _ _ TY)).
    - intros [H|[-> H]]; [left; eauto|]. right. left. auto.
  Qed.
  Lemma key_str q p t k e name (f : option strassign -> builder) : table_at q p t -> tget t k = Some e -> k = bs name -> In (name, DtString) typed_keys ->
    does (let! x := expect_string (SegTable (e_reprs e) :: p) e in wret (f x)) False (eq (f (str_of e))) (key_problem q t k).
  Proof.
    intros A G -> TY. eapply does_iff.
    - apply (does_map _ f _ _ (eq (f (str_of e))) _ (does_string _ _ _ _ (table_keyed _ _ _ _ _ A G))). intros x <-. reflexivity.
    - tauto.
    - auto.
    - intros d. rewrite (key_typed _ _ _ _ _ TY). split; [auto|]. intros [H|[-> _]]; [exact H|]. discriminate (typed_fun _ _ DtArray TY). cbn. tauto.
  Qed.
  Lemma key_bool q p t k e name (f : option boolassign -> builder) : table_at q p t -> tget t k = Some e -> k = bs name -> In (name, DtBool) typed_keys ->
    does (let! x := expect_bool (SegTable (e_reprs e) :: p) e in wret (f x)) False (eq (f (bool_of e))) (key_problem q t k).
  Proof.
    intros A G -> TY. eapply does_iff.
    - apply (does_map _ f _ _ (eq (f (bool_of e))) _ (does_bool _ _ _ _ (table_keyed _ _ _ _ _ A G))). intros x <-. reflexivity.
    - tauto.
    - auto.
    - intros d. rewrite (key_typed _ _ _ _ _ TY). split; [auto|]. intros [H|[-> _]]; [exact H|]. discriminate (typed_fun _ _ DtArray TY). cbn. tauto.
  Qed.
  Lemma does_key q p t b k e : table_at q p t -> tget t k = Some e ->
    does (dependency_key p t b k e) False (eq (upd t b (k, e))) (key_problem q t k).
  Proof.
    intros A G. pose proof (table_keyed _ _ _ _ _ A G) as K. unfold dependency_key, upd.
    destruct (key_is k "workspace") eqn:E1. { apply key_is_eq in E1. apply (key_bool q p t k e _ (set_workspace b) A G E1). cbn; tauto. }
    destruct (key_is k "version") eqn:E2. { apply key_is_eq in E2. apply (key_str q p t k e _ (set_version b) A G E2). cbn; tauto. }
    destruct (key_is k "registry") eqn:E3. { apply key_is_eq in E3. apply (key_str q p t k e _ (set_registry b) A G E3). cbn; tauto. }
    destruct (key_is k "path") eqn:E4. { apply key_is_eq in E4. apply (key_str q p t k e _ (set_path b) A G E4). cbn; tauto. }
    destruct (key_is k "git") eqn:E5. { apply key_is_eq in E5. apply (key_str q p t k e _ (set_git b) A G E5). cbn; tauto. }
    destruct (key_is k "branch") eqn:E6. { apply key_is_eq in E6. apply (key_str q p t k e _ (set_branch b) A G E6). cbn; tauto. }
    destruct (key_is k "tag") eqn:E7. { apply key_is_eq in E7. apply (key_str q p t k e _ (set_tag b) A G E7). cbn; tauto. }
    destruct (key_is k "rev") eqn:E8. { apply key_is_eq in E8. apply (key_str q p t k e _ (set_rev b) A G E8). cbn; tauto. }
    destruct (key_is k "package") eqn:E9. { apply key_is_eq in E9. apply (key_str q p t k e _ (set_package b) A G E9). cbn; tauto. }
    destruct (key_is k "optional") eqn:E10. { apply key_is_eq in E10. apply (key_bool q p t k e _ (set_optional b) A G E10). cbn; tauto. }
    destruct (key_is k "default-features") eqn:E11. { apply key_is_eq in E11. apply (key_bool q p t k e _ (set_default b) A G E11). cbn; tauto. }
    destruct (key_is k "default_features") eqn:E12.
    { apply key_is_eq in E12. rewrite E12 in G, K.
      assert (KP : forall d, key_problem q t k d <-> old_problem root q "default_features" "default-features" d \/
         (tget t (bs "default-features") = None /\ type_problem root (q ++ [SKey (bs "default_features")]) DtBool d)).
      { intros d. rewrite E12. split.
        - intros [(n' & w' & TY' & E & H)|[(E & H)|[(E & H)|(E & H)]]]; [|discriminate E|exact H|].
          + apply bs_inj in E. rewrite <- E in TY'. destruct (typed_old _ TY').
          + destruct E. apply in_map. cbn. tauto.
        - intros H. right. right. left. auto. }
      eapply does_iff.
      - eapply does_then; [exact (does_old _ _ _ "default_features" "default-features" _ A G)|]. intros x X.
        instantiate (1 := fun d => tget t (bs "default-features") = None /\ type_problem root (q ++ [SKey (bs "default_features")]) DtBool d).
        instantiate (1 := eq (match tget t (bs "default-features") with Some _ => b | None => set_default b (bool_of e) end)). instantiate (1 := False).
        destruct (tget t (bs "default-features")) as [e'|].
        + rewrite X. apply (does_iff _ _ _ _ _ _ _ (does_ret b (eq b) eq_refl)); [tauto|auto|]. intros d. split; [tauto|]. intros [H _]. discriminate H.
        + rewrite X. eapply does_iff.
          * apply (does_map _ (set_default b) _ _ (eq (set_default b (bool_of e))) _ (does_bool _ _ _ _ K)). intros y <-. reflexivity.
          * tauto.
          * auto.
          * tauto.
      - tauto.
      - auto.
      - intros d. rewrite KP. reflexivity. }
    destruct (key_is k "features") eqn:E13.
    { apply key_is_eq in E13. rewrite E13 in K |- *. eapply does_iff.
      - apply (does_map _ (add_features b) _ _ (eq (add_features b (features_of e))) _ (does_features _ _ _ K)). intros x <-. reflexivity.
      - tauto.
      - auto.
      - intros d. rewrite (key_typed q t "features" DtArray d) by (cbn; tauto). unfold at_key. tauto. }
    eapply does_iff.
    - apply (does_map _ (fun _ => b) _ _ (eq b) _ (does_unused _ _ _ _ K)). reflexivity.
    - tauto.
    - auto.
    - intros d. assert (NI : ~ In k (map bs dependency_keys)).
      { cbn [dependency_keys typed_keys source_keys ref_keys map app fst In]. intros H.
        repeat (destruct H as [H|H]; [symmetry in H; apply key_is_eq in H; congruence|]). destruct H. }
      split.
      + intros H. right. right. right. auto.
      + intros [(n' & w' & TY' & E & H)|[(E & H)|[(E & H)|(E & H)]]]; [| | |exact H].
        * destruct NI. rewrite E. exact (typed_in _ _ TY').
        * apply key_is_eq in E. congruence.
        * apply key_is_eq in E. congruence.
  Qed.
  Lemma does_keys q p t rest b : table_at q p t -> incl rest t ->
    does (parse_dependency p t rest b) False (eq (fold_left (upd t) rest b)) (fun d => exists k e, In (k, e) rest /\ key_problem q t k d).
  Proof.
    intros A. revert b; induction rest as [|[k e] rest IH]; intros b S0; cbn [parse_dependency fold_left].
    - apply (does_iff _ _ _ _ _ _ _ (does_ret b (eq b) eq_refl)); [tauto|auto|]. intros d. split; [tauto|]. intros (k & e & H & _). destruct H.
    - eapply does_iff.
      + eapply does_then.
        * apply (does_key q p t b k e A). apply (table_get _ _ _ _ _ A). apply S0. left. reflexivity.
        * intros x <-. apply IH. intros y Y. apply S0. right. exact Y.
      + tauto.
      + auto.
      + intros d. split.
        * intros [H|(k' & e' & H1 & H2)]; [exists k, e|exists k', e']; cbn; auto.
        * intros (k' & e' & [H|H] & H2); [injection H as <- <-; auto|]. right. eauto.
  Qed.

  (** ** The source of a dependency *)
  Lemma str_field_inv t k s : str_field t k = Some s -> exists e r rs, tget t (bs k) = Some e /\ e_reprs e = r :: rs /\ sa_repr s = r.
  Proof.
    unfold str_field. destruct (tget t (bs k)) as [[[| | |[]] [|r rs]]|]; try discriminate. intros E. injection E as <-.
    eexists. exists r, rs. split; [reflexivity|]. split; reflexivity.
  Qed.
  Lemma bool_field_inv t k s : bool_field t k = Some s -> exists e r rs, tget t (bs k) = Some e /\ e_reprs e = r :: rs /\ ba_repr s = r.
  Proof.
    unfold bool_field. destruct (tget t (bs k)) as [[[| | |[]] [|r rs]]|]; try discriminate. intros E. injection E as <-.
    eexists. exists r, rs. split; [reflexivity|]. split; reflexivity.
  Qed.
  Lemma str_field_span q p t k s : table_at q p t -> str_field t k = Some s -> exists sp, text_span (sa_val s) = Ok sp.
  Proof.
    intros A H. destruct (str_field_inv _ _ _ H) as (e & r & rs & G & _). pose proof (keyed_leaf _ _ _ _ (table_keyed _ _ _ _ _ A G)) as L.
    unfold str_field in H. rewrite G in H. destruct e as [[| | |[]] [|r' rs']]; try discriminate. injection H as <-. exact L.
  Qed.
  (** An error about the key [k] of the table at [q]. *)
  Definition key_says (q : list step) (kind : ekind) (k : string) (d : diag) : Prop :=
    exists ls sp tx, marks root (q ++ [at_key k]) 0 ls sp /\ shown q tx /\ d = DError ls tx sp kind.
  Lemma table_fmt q p t : table_at q p t -> p <> [] -> exists tx, fmt_path p = Ok tx /\ shown q tx.
  Proof. intros (acc & c & _ & [_ PO] & _) NE. destruct PO as [[-> ->]|(_ & tx & F & SH)]; [congruence|]. eauto. Qed.
  Lemma does_repr_error q p t k e r rs kind : table_at q p t -> p <> [] -> tget t (bs k) = Some e -> e_reprs e = r :: rs ->
    does (say (key_error p kind r)) False (fun _ => True) (key_says q kind k).
  Proof.
    intros A NE G R. destruct (table_fmt _ _ _ A NE) as (tx & TX & SH). eapply does_iff.
    - exact (say_first _ _ _ _ _ _ (fun l t s => DError l t s kind) _ tx (table_keyed _ _ _ _ _ A G) R TX).
    - tauto.
    - auto.
    - intros d. split; [intros (ls & sp & M & ->); exists ls, sp, tx; auto|]. intros (ls & sp & tx' & M & SH' & ->). exists ls, sp. split; [exact M|].
      rewrite (shown_fun _ _ _ SH' SH). reflexivity.
  Qed.
  Lemma does_key_error q p t k s kind : table_at q p t -> p <> [] -> str_field t k = Some s ->
    does (say (key_error p kind (sa_repr s))) False (fun _ => True) (key_says q kind k).
  Proof.
    intros A NE H. destruct (str_field_inv _ _ _ H) as (e & r & rs & G & R & ->). exact (does_repr_error _ _ _ _ _ _ _ _ A NE G R).
  Qed.
  Definition fields (t : mtable) (ks : list string) : list strassign := flat_map (fun k => opt_list (str_field t k)) ks.
  Lemma fields_in t ks s : In s (fields t ks) <-> exists k, In k ks /\ str_field t k = Some s.
  Proof.
    unfold fields. rewrite in_flat_map. split; intros (k & H1 & H2); exists k; (split; [exact H1|]); destruct (str_field t k); cbn in *; intuition congruence.
  Qed.
  (** One report for each of some keys. *)
  Lemma does_fields {B} (f : string * strassign -> W B) (D : string -> diag -> Prop) t ks :
    (forall k s, In k ks -> str_field t k = Some s -> does (f (k, s)) False (fun _ => True) (D k)) ->
    does (each f (flat_map (fun k => map (pair k) (opt_list (str_field t k))) ks)) False (fun _ => True)
      (fun d => exists k, In k ks /\ str_field t k <> None /\ D k d).
  Proof.
    intros H. eapply does_iff.
    - apply (does_all f (fun x d => D (fst x) d)). intros [k s] I0. apply in_flat_map in I0. destruct I0 as (k' & I1 & I2).
      destruct (str_field t k') as [s'|] eqn:F; [|destruct I2]. destruct I2 as [E|[]]. injection E as <- <-. exact (H _ _ I1 F).
    - tauto.
    - auto.
    - intros d. split.
      + intros ([k s] & I0 & HD). apply in_flat_map in I0. destruct I0 as (k' & I1 & I2). destruct (str_field t k') as [s'|] eqn:F; [|destruct I2].
        destruct I2 as [E|[]]. injection E as <- <-. exists k'. split; [exact I1|]. split; [congruence|exact HD].
      + intros (k & I1 & F & HD). destruct (str_field t k) as [s|] eqn:F'; [|congruence]. exists (k, s). split; [|exact HD].
        apply in_flat_map. exists k. split; [exact I1|]. rewrite F'. left. reflexivity.
  Qed.
  Lemma each_map {A B C} (g : A -> B) (f : B -> W C) l : each f (map g l) = each (fun x => f (g x)) l.
  Proof. induction l as [|x l IH]; [reflexivity|]. cbn [map each]. rewrite IH. reflexivity. Qed.
  Lemma fields_pairs t ks : fields t ks = map snd (flat_map (fun k => map (pair k) (opt_list (str_field t k))) ks).
  Proof.
    induction ks as [|k ks IH]; [reflexivity|]. cbn [fields flat_map]. rewrite map_app. f_equal; [|exact IH]. destruct (str_field t k); reflexivity.
  Qed.
  Lemma does_each_field {B} (f : strassign -> W B) (D : string -> diag -> Prop) t ks :
    (forall k s, In k ks -> str_field t k = Some s -> does (f s) False (fun _ => True) (D k)) ->
    does (each f (fields t ks)) False (fun _ => True) (fun d => exists k, In k ks /\ str_field t k <> None /\ D k d).
  Proof.
    intros H. rewrite fields_pairs, each_map. exact (does_fields (fun x => f (snd x)) D t ks H).
  Qed.

  Lemma does_git q p t : table_at q p t -> p <> [] ->
    does (git_spec (built t) p) False (git_of t)
      (fun d => git_of t GConflicting /\ exists k, In k ref_keys /\ str_field t k <> None /\ key_says q AmbigousGitSpec k d).
  Proof.
    intros A NE.
    assert (YES : (exists a b, In (a, b) [("branch", "tag"); ("branch", "rev"); ("tag", "rev")]%string /\ str_field t a <> None /\ str_field t b <> None) ->
      does (let! _ := each (fun a => say (key_error p AmbigousGitSpec (sa_repr a)))
                (opt_list (b_branch (built t)) ++ opt_list (b_tag (built t)) ++ opt_list (b_rev (built t))) in wret GConflicting) False (git_of t)
      (fun d => git_of t GConflicting /\ exists k, In k ref_keys /\ str_field t k <> None /\ key_says q AmbigousGitSpec k d)).
    { intros (a & b & H1 & H2 & H3). assert (GC : git_of t GConflicting) by (econstructor; eassumption). eapply does_iff.
      - apply (does_map _ (fun _ => GConflicting) False (fun _ => True) (git_of t)); [|intros; exact GC].
        replace (opt_list (b_branch (built t)) ++ opt_list (b_tag (built t)) ++ opt_list (b_rev (built t))) with (fields t ref_keys)
          by (cbn; rewrite app_nil_r; reflexivity).
        apply (does_each_field _ (key_says q AmbigousGitSpec)). intros k s _ F. exact (does_key_error _ _ _ _ _ _ A NE F).
      - tauto.
      - auto.
      - tauto. }
    assert (NO : forall g, git_of t g -> (forall a b, In (a, b) [("branch", "tag"); ("branch", "rev"); ("tag", "rev")]%string -> str_field t a = None \/ str_field t b = None) ->
      does (wret g) False (git_of t) (fun d => git_of t GConflicting /\ exists k, In k ref_keys /\ str_field t k <> None /\ key_says q AmbigousGitSpec k d)).
    { intros g G H. apply (does_iff _ _ _ _ _ _ _ (does_ret g (git_of t) G)); [tauto|auto|]. intros d. split; [tauto|]. intros [GC _].
      inversion GC as [| | | |a b I0 H1 H2]. destruct (H _ _ I0); contradiction. }
    unfold git_spec. cbn [built b_branch b_tag b_rev] in YES |- *.
    destruct (str_field t "branch") as [br|] eqn:EB; destruct (str_field t "tag") as [ta|] eqn:ET; destruct (str_field t "rev") as [re|] eqn:ER.
    all: cbn [is_some count filter length N.of_nat N.ltb]; cbv iota.
    1: apply YES; exists "branch"%string, "tag"%string; cbn; rewrite EB, ET; intuition discriminate.
    1: apply YES; exists "branch"%string, "tag"%string; cbn; rewrite EB, ET; intuition discriminate.
    1: apply YES; exists "branch"%string, "rev"%string; cbn; rewrite EB, ER; intuition discriminate.
    2: apply YES; exists "tag"%string, "rev"%string; cbn; rewrite ET, ER; intuition discriminate.
    all: apply NO; [constructor; assumption|]; intros a b I0; cbn in I0; repeat (destruct I0 as [I0|I0]; [injection I0 as <- <-; tauto|]); destruct I0.
  Qed.

  Definition reads_version (t : mtable) : option strassign := str_field t "version".
  Definition spec_bad (t : mtable) : Prop := bool_field t "workspace" = None /\ ~ conflicting t /\ version_bad (str_field t "version").
  Definition spec_says (q : list step) (t : mtable) (d : diag) : Prop :=
    source_problem root q t d \/ (bool_field t "workspace" = None /\ ~ conflicting t /\ version_problem (str_field t "version") d).

  Lemma does_ignored q p t k s ws : table_at q p t -> p <> [] -> str_field t k = Some s ->
    does (say (workspace_ignored p ws (sa_repr s))) False (fun _ => True)
      (fun d => exists ls sp tx, marks root (q ++ [at_key k]) 0 ls sp /\ shown (q ++ [at_key k]) tx /\ d = DWarn ls tx sp (WorkspaceDepIgnoredKey ws)).
  Proof.
    intros A NE H. destruct (str_field_inv _ _ _ H) as (e & r & rs & G & R & ->). pose proof (table_keyed _ _ _ _ _ A G) as K.
    assert (NR : nth_error (e_reprs e) (N.to_nat 0) = Some r) by (rewrite R; reflexivity).
    destruct (keyed_marks _ _ _ _ _ _ K NR) as (_ & _ & _ & _ & (i & I1 & I2) & _).
    destruct A as (acc & c & A). destruct (joined_shown _ _ _ i (proj1 (proj2 A))) as (tx & TX & SH). rewrite I2 in SH.
    unfold workspace_ignored. rewrite I1. cbn [bind]. eapply does_iff.
    - exact (say_first _ _ _ _ _ _ (fun l t s => DWarn l t s (WorkspaceDepIgnoredKey ws)) _ tx K R TX).
    - tauto.
    - auto.
    - intros d. split; [intros (ls & sp & M & ->); exists ls, sp, tx; auto|]. intros (ls & sp & tx' & M & SH' & ->). exists ls, sp. split; [exact M|].
      rewrite (shown_fun _ _ _ SH' SH). reflexivity.
  Qed.

  Lemma no_git_says q p t : table_at q p t -> p <> [] ->
    does (match b_git (built t) with
          | None => each (fun '(k, a) => say (key_error p (DepIgnoredGitKey k) (sa_repr a)))
                      (map (pair (bs "branch")) (opt_list (b_branch (built t))) ++ map (pair (bs "tag")) (opt_list (b_tag (built t))) ++
                       map (pair (bs "rev")) (opt_list (b_rev (built t))))
          | Some _ => wret []
          end) False (fun _ => True)
      (fun d => str_field t "git" = None /\ exists k, In k ref_keys /\ str_field t k <> None /\ key_says q (DepIgnoredGitKey (bs k)) k d).
  Proof.
    intros A NE. cbn [built b_git b_branch b_tag b_rev]. destruct (str_field t "git") as [g|].
    - apply (does_iff _ _ _ _ _ _ _ (does_ret [] (fun _ => True) I)); [tauto|auto|]. intros d. split; [tauto|]. intros [H _]. discriminate H.
    - replace (map (pair (bs "branch")) (opt_list (str_field t "branch")) ++ map (pair (bs "tag")) (opt_list (str_field t "tag")) ++
               map (pair (bs "rev")) (opt_list (str_field t "rev")))
        with (map (fun x : string * strassign => (bs (fst x), snd x)) (flat_map (fun k => map (pair k) (opt_list (str_field t k))) ref_keys)).
      2:{ cbn [ref_keys flat_map]. rewrite app_nil_r, !map_app, !map_map. reflexivity. }
      rewrite each_map. eapply does_iff.
      + apply (does_fields _ (fun k => key_says q (DepIgnoredGitKey (bs k)) k)). intros k s _ F. exact (does_key_error _ _ _ _ _ _ A NE F).
      + tauto.
      + auto.
      + tauto.
  Qed.
  Lemma does_two q p t a b sa sb kind sp : table_at q p t -> p <> [] -> str_field t a = Some sa -> str_field t b = Some sb -> spec_of prof t sp ->
    does (let! _ := say (key_error p kind (sa_repr sa)) in let! _ := say (key_error p kind (sa_repr sb)) in wret sp) False (spec_of prof t)
      (fun d => exists k, In k [a; b] /\ key_says q kind k d).
  Proof.
    intros A NE FA FB S0. eapply does_iff.
    - eapply does_then; [exact (does_key_error _ _ _ _ _ kind A NE FA)|]. intros _ _.
      apply (does_map _ (fun _ => sp) _ _ (spec_of prof t) _ (does_key_error _ _ _ _ _ kind A NE FB)). intros _ _. exact S0.
    - tauto.
    - auto.
    - intros d. cbn. split; [intros [H|H]; [exists a|exists b]; auto|]. intros (k & [<-|[<-|[]]] & H); auto.
  Qed.
  Ltac sp_inv H := inversion H; try congruence.
  Lemma key_says_mk q kind k ls sp tx : marks root (q ++ [at_key k]) 0 ls sp -> shown q tx -> key_says q kind k (DError ls tx sp kind).
  Proof. intros M SH. exists ls, sp, tx. auto. Qed.
  Lemma does_spec q0 p0 name e t : keyed q0 p0 name e -> e_node e = NTable t ->
    does (build_spec prof (built t) (SegTable (e_reprs e) :: p0) e) (spec_bad t) (spec_of prof t) (spec_says (q0 ++ [SKey name]) t).
  Proof.
    intros K EN. pose proof (keyed_table _ _ _ _ _ K EN) as A. set (q := q0 ++ [SKey name]) in *. set (p := SegTable (e_reprs e) :: p0) in *.
    assert (NE : p <> []) by discriminate. destruct (table_fmt _ _ _ A NE) as (txq & TXQ & SHQ).
    unfold build_spec. cbn [built b_workspace b_version b_registry b_path b_git b_branch b_tag b_rev]. unfold spec_bad, spec_says.
    destruct (bool_field t "workspace") as [w|] eqn:FW.
    - destruct (bv_val (ba_val w)) eqn:BV.
      + destruct (bool_field_inv _ _ _ FW) as (ew & rw & rsw & GW & RW & ->). pose proof (table_keyed _ _ _ _ _ A GW) as KW.
        assert (NR : nth_error (e_reprs ew) (N.to_nat 0) = Some rw) by (rewrite RW; reflexivity).
        destruct (keyed_marks _ _ _ _ _ _ KW NR) as (wls & wsp & _ & RS & _ & MW). rewrite RS. cbn [bind]. cbv zeta. eapply does_iff.
        * apply (does_map _ (fun _ => SWorkspace w) False (fun _ => True) (spec_of prof t)); [|intros; apply so_workspace; assumption].
          replace (opt_list (str_field t "version") ++ opt_list (str_field t "registry") ++ opt_list (str_field t "path") ++ opt_list (str_field t "git") ++
                   opt_list (str_field t "branch") ++ opt_list (str_field t "tag") ++ opt_list (str_field t "rev")) with (fields t source_keys).
          2:{ cbn [fields source_keys ref_keys app flat_map]. rewrite app_nil_r. reflexivity. }
          apply (does_each_field _ (fun k d => exists ls sp tx, marks root (q ++ [at_key k]) 0 ls sp /\ shown (q ++ [at_key k]) tx /\ d = DWarn ls tx sp (WorkspaceDepIgnoredKey wsp))).
          intros k s _ F. exact (does_ignored _ _ _ _ _ _ A NE F).
        * split; [tauto|]. intros [H _]. discriminate H.
        * auto.
        * intros d. split.
          -- intros (k & I0 & F & ls & sp & tx & M & SH & ->). left. apply (sp_workspace_key root q t w k wls wsp ls sp tx); try assumption. apply MW. auto.
          -- intros [H|[H _]]; [|discriminate H]. sp_inv H. match goal with H1 : marks root (q ++ [at_key "workspace"]) 0 _ _ |- _ => apply MW in H1; destruct H1 as [-> ->] end.
             exists k. split; [assumption|]. split; [assumption|]. exists ls, sp, tx. auto.
      + destruct (bool_field_inv _ _ _ FW) as (ew & rw & rsw & GW & RW & ->). eapply does_iff.
        * apply (does_map _ (fun _ => SInvalid) _ _ (spec_of prof t) _ (does_repr_error _ _ _ _ _ _ _ DepWorkspaceIsFalse A NE GW RW)).
          intros _ _. exact (so_no_workspace _ _ w FW BV).
        * split; [tauto|]. intros [H _]. discriminate H.
        * auto.
        * intros d. split.
          -- intros (ls & sp & tx & M & SH & ->). left. econstructor; eassumption.
          -- intros [H|[H _]]; [|discriminate H]. sp_inv H. apply key_says_mk; assumption.
    - assert (NG := no_git_says q p t A NE). cbn [built b_git b_branch b_tag b_rev] in NG.
      assert (VS : forall s, str_field t "version" = Some s -> exists sp, text_span (sa_val s) = Ok sp) by (intros s F; exact (str_field_span _ _ _ _ _ A F)).
      assert (CO : conflicting t <-> str_field t "git" <> None /\ (str_field t "registry" <> None \/ str_field t "path" <> None)) by reflexivity.
      destruct (str_field t "git") as [g|] eqn:FG.
      + destruct (str_field t "registry") as [r|] eqn:FR; [|destruct (str_field t "path") as [pa|] eqn:FP].
        * assert (C : conflicting t) by (apply CO; split; [discriminate|left; discriminate]).
          eapply does_iff.
          -- eapply does_then; [exact NG|]. intros _ _.
             replace (match str_field t "path" with Some _ | _ => let! _ := say (key_error p AmbigousDepSpecGitRegistry (sa_repr g)) in
                       let! _ := say (key_error p AmbigousDepSpecGitRegistry (sa_repr r)) in wret SConflicting end)
               with (let! _ := say (key_error p AmbigousDepSpecGitRegistry (sa_repr g)) in
                     let! _ := say (key_error p AmbigousDepSpecGitRegistry (sa_repr r)) in wret SConflicting) by (destruct (str_field t "path"); reflexivity).
             exact (does_two _ _ _ _ _ _ _ AmbigousDepSpecGitRegistry _ A NE FG FR (so_conflicting _ _ FW C)).
          -- split; [tauto|]. intros (_ & H & _). contradiction.
          -- auto.
          -- intros d. split.
             ++ intros [[H _]|(k & I0 & ls & sp & tx & M & SH & ->)]; [discriminate H|]. left. apply (sp_git_registry root q t k); try assumption; congruence.
             ++ intros [H|(_ & H & _)]; [|contradiction]. right. sp_inv H; try contradiction. exists k. split; [assumption|]. apply key_says_mk; assumption.
        * assert (C : conflicting t) by (apply CO; split; [discriminate|right; discriminate]).
          eapply does_iff.
          -- eapply does_then; [exact NG|]. intros _ _.
             exact (does_two _ _ _ _ _ _ _ AmbigousDepSpecGitRegistry _ A NE FG FP (so_conflicting _ _ FW C)).
          -- split; [tauto|]. intros (_ & H & _). contradiction.
          -- auto.
          -- intros d. split.
             ++ intros [[H _]|(k & I0 & ls & sp & tx & M & SH & ->)]; [discriminate H|]. left. apply (sp_git_path root q t k); try assumption; congruence.
             ++ intros [H|(_ & H & _)]; [|contradiction]. right. sp_inv H; try contradiction. exists k. split; [assumption|]. apply key_says_mk; assumption.
        * assert (C : ~ conflicting t) by (rewrite CO; intros [_ [H|H]]; congruence).
          eapply does_iff.
          -- eapply does_then; [exact NG|]. intros _ _. eapply does_then; [exact (does_git q p t A NE)|]. intros gs GS.
             apply (does_map _ (fun v => SGit g gs v) _ _ (spec_of prof t) _ (does_version _ VS)). intros v V. apply so_git; assumption.
          -- tauto.
          -- auto.
          -- intros d. split.
             ++ intros [[H _]|[(GC & k & I0 & F & ls & sp & tx & M & SH & ->)|H]]; [discriminate H| |auto]. left. apply (sp_refs root q t k); try assumption. congruence.
             ++ intros [H|(_ & _ & H)]; [|auto]. right. left. sp_inv H. split; [assumption|]. exists k. split; [assumption|]. split; [assumption|]. apply key_says_mk; assumption.
      + assert (C : ~ conflicting t) by (rewrite CO; tauto).
        destruct (str_field t "path") as [pa|] eqn:FP.
        * eapply does_iff.
          -- eapply does_then; [exact NG|]. intros _ _.
             apply (does_map _ (fun v => SPath pa v (str_field t "registry")) _ _ (spec_of prof t) _ (does_version _ VS)). intros v V. apply so_path; assumption.
          -- tauto.
          -- auto.
          -- intros d. split.
             ++ intros [[_ (k & I0 & F & ls & sp & tx & M & SH & ->)]|H]; [|auto]. left. apply (sp_no_git root q t k); assumption.
             ++ intros [H|(_ & _ & H)]; [|auto]. left. split; [reflexivity|]. sp_inv H. exists k. split; [assumption|]. split; [assumption|]. apply key_says_mk; assumption.
        * destruct (str_field t "version") as [v|] eqn:FV.
          -- eapply does_iff.
             ++ eapply does_then; [exact NG|]. intros _ _.
                apply (does_map _ (fun v => SRegistry v (str_field t "registry")) _ _ (spec_of prof t) _ (does_req _ (VS _ eq_refl))).
                intros x X. exact (so_registry _ _ v x FW FG FP FV X).
             ++ tauto.
             ++ auto.
             ++ intros d. split.
                ** intros [[_ (k & I0 & F & ls & sp & tx & M & SH & ->)]|H]; [|auto]. left. apply (sp_no_git root q t k); assumption.
                ** intros [H|(_ & _ & H)]; [|auto]. left. split; [reflexivity|]. sp_inv H. exists k. split; [assumption|]. split; [assumption|]. apply key_says_mk; assumption.
          -- eapply does_iff.
             ++ eapply does_then; [exact NG|]. intros _ _.
                apply (does_map _ (fun _ => SMissing (str_field t "registry")) False (fun _ => True) (spec_of prof t)).
                ** exact (each_repr _ _ _ _ (fun l t s => DWarn l t s MissingDepSpec) _ txq K TXQ).
                ** intros _ _. exact (so_missing _ _ FW FG FP FV).
             ++ split; [tauto|]. intros (_ & _ & s & H & _). discriminate H.
             ++ auto.
             ++ intros d. split.
                ** intros [[_ (k & I0 & F & ls & sp & tx & M & SH & ->)]|(n & ls & sp & M & ->)].
                   --- left. apply (sp_no_git root q t k); assumption.
                   --- left. apply (sp_missing root q t n); assumption.
                ** intros [H|(_ & _ & s & er & E & _)]; [|discriminate E]. sp_inv H.
                   --- left. split; [reflexivity|]. exists k. split; [assumption|]. split; [assumption|]. apply key_says_mk; assumption.
                   --- right. exists n, ls, sp. split; [assumption|]. match goal with H1 : shown q tx |- _ => rewrite (shown_fun _ _ _ H1 SHQ) end. reflexivity.
  Qed.

  (** ** One dependency *)
  Lemma version_fun s a b : version_of prof s a -> version_of prof s b -> a = b.
  Proof. intros A B. destruct A as [v A|er A]; destruct B as [v' B|er' B]; pose proof (requirement_fun _ _ _ A B) as E; congruence. Qed.
  Lemma opt_version_fun s a b : opt_version prof s a -> opt_version prof s b -> a = b.
  Proof. intros A B. destruct A as [|s v A]; inversion B as [|s' v' B']; [reflexivity|]. f_equal. exact (version_fun _ _ _ A B'). Qed.
  Lemma git_fun t a b : git_of t a -> git_of t b -> a = b.
  Proof.
    assert (X : forall a b, In (a, b) [("branch", "tag"); ("branch", "rev"); ("tag", "rev")]%string ->
      (str_field t "branch" = None \/ str_field t "tag" = None) -> (str_field t "branch" = None \/ str_field t "rev" = None) ->
      (str_field t "tag" = None \/ str_field t "rev" = None) -> str_field t a <> None -> str_field t b <> None -> False).
    { intros x y I0 H1 H2 H3 H4 H5. cbn in I0. repeat (destruct I0 as [I0|I0]; [injection I0 as <- <-; tauto|]). destruct I0. }
    intros A B. destruct A; inversion B; try congruence; exfalso; eapply X; try eassumption; auto.
  Qed.
  Lemma spec_fun t a b : spec_of prof t a -> spec_of prof t b -> a = b.
  Proof.
    intros A B. destruct A as [w H1 H2|w H1 H2|H1 H2|g s v H1 H2 H3 H4 H5|pa v H1 H2 H3 H4|s v H1 H2 H3 H4 H5|H1 H2 H3 H4];
      inversion B as [w' G1 G2|w' G1 G2|G1 G2|g' s' v' G1 G2 G3 G4 G5|pa' v' G1 G2 G3 G4|s' v' G1 G2 G3 G4 G5|G1 G2 G3 G4]; try congruence.
    all: try (exfalso; match goal with H : conflicting _ |- _ => destruct H; congruence end); try contradiction.
    - replace g' with g by congruence. rewrite (git_fun _ _ _ H4 G4), (opt_version_fun _ _ _ H5 G5). reflexivity.
    - replace pa' with pa by congruence. rewrite (opt_version_fun _ _ _ H4 G4). reflexivity.
    - replace s' with s in * by congruence. rewrite (version_fun _ _ _ H5 G5). reflexivity.
  Qed.
  Lemma dependency_fun kind target name e a b : dependency_of prof kind target name e a -> dependency_of prof kind target name e b -> a = b.
  Proof.
    intros A B. destruct A as [l sp x o q r rs v A|t rs s A].
    - inversion B as [l' sp' x' o' q' r' rs' v' B' E1 E2|]. rewrite (version_fun _ _ _ A B'). reflexivity.
    - inversion B as [|t' rs' s' B' E1 E2]. rewrite (spec_fun _ _ _ A B'). reflexivity.
  Qed.

  (** The dependencies of a list, each from its place. *)
  Definition holds (Q : list step -> dependency -> Prop) (l : list dependency) : Prop :=
    exists pl, l = map snd pl /\ NoDup (map fst pl) /\ forall p d, In (p, d) pl <-> Q p d.
  Lemma holds_iff (Q Q' : list step -> dependency -> Prop) l : holds Q l -> (forall p d, Q p d <-> Q' p d) -> holds Q' l.
  Proof. intros (pl & H1 & H2 & H3) H. exists pl. split; [exact H1|]. split; [exact H2|]. intros p d. rewrite H3. apply H. Qed.
  Lemma holds_nil (Q : list step -> dependency -> Prop) : (forall p d, ~ Q p d) -> holds Q [].
  Proof. intros H. exists []. split; [reflexivity|]. split; [constructor|]. intros p d. split; [intros []|]. intros X. exact (H _ _ X). Qed.
  Lemma holds_one q kind target name e d : dependency_of prof kind target name e d ->
    holds (fun p d => p = q /\ dependency_of prof kind target name e d) [d].
  Proof.
    intros H. exists [(q, d)]. split; [reflexivity|]. split; [constructor; [intros []|constructor]|]. intros p d'. split.
    - intros [E|[]]. injection E as <- <-. auto.
    - intros [-> H']. left. rewrite (dependency_fun _ _ _ _ _ _ H H'). reflexivity.
  Qed.

  Lemma marks_trail q n ls sp : marks root q n ls sp -> trail [] q root <> None.
  Proof. intros (r & pre & i & ksp & (rs & acc & x & T & _) & _). congruence. Qed.
  Lemma no_below q p k e k' : keyed q p k e -> (forall t, e_node e <> NTable t) -> trail [] ((q ++ [SKey k]) ++ [SKey k']) root = None.
  Proof.
    intros (acc & c & t & A & G) N0. destruct (keyed_inv _ _ _ _ _ _ _ A G) as ((T & _) & _). rewrite trail_app, T.
    destruct (e_node e) as [t'| | |]; [destruct (N0 t' eq_refl)| | |]; reflexivity.
  Qed.
  Definition entry_bad (q : list step) : Prop := exists s, reads root q s /\ requirement prof s Panic.
  Lemma type_trail q want d : type_problem root q want d -> trail [] q root <> None.
  Proof. intros (x & n & ls & sp & tx & _ & _ & _ & M & _). exact (marks_trail _ _ _ _ M). Qed.
  Lemma unknown_trail q d : unknown_problem root q d -> trail [] q root <> None.
  Proof. intros (n & ls & sp & tx & M & _). exact (marks_trail _ _ _ _ M). Qed.
  Lemma old_trail q old new d : old_problem root q old new d -> trail [] (q ++ [at_key old]) root <> None.
  Proof. intros (n & ls & sp & tx & M & _). exact (marks_trail _ _ _ _ M). Qed.
  Lemma node_trail q x : node_at q root = Some x -> trail [] q root <> None.
  Proof. rewrite (trail_node q []). intros H E. rewrite E in H. discriminate. Qed.

  (** What is no table has no keys. *)
  Lemma plain_problem q p k e d : keyed q p k e -> (forall t, e_node e <> NTable t) -> dep_problem prof root (q ++ [SKey k]) d <->
    (exists v ls sp tx, e_node e = NScalar v /\ datatype_of (NScalar v) <> DtString /\ datatype_of (NScalar v) <> DtInvalid /\
       marks root (q ++ [SKey k]) 0 ls sp /\ shown (q ++ [SKey k]) tx /\ d = DError ls tx sp (DepWrongDatatype (datatype_of (NScalar v)))) \/
    (exists n ls sp tx, datatype_of (e_node e) = DtArray /\ marks root (q ++ [SKey k]) n ls sp /\ shown (q ++ [SKey k]) tx /\
       d = DError ls tx sp (DepWrongDatatype DtArray)) \/
    (exists s er, reads root (q ++ [SKey k]) s /\ requirement prof s (Err er) /\ d = DSemver er).
  Proof.
    intros K N0. pose proof (keyed_node _ _ _ _ K) as KN. pose proof (fun k' => no_below _ _ _ _ k' K N0) as NB. split.
    - intros H. destruct H as [v ls sp tx H1 H2 H3 H4 H5|x n ls sp tx H1 H2 H3 H4|k' w d H1 H2|d H1 H2|d H1|k' d H1 H2|pa v es i x r s ls tx H1 H2 H3 H4 H5 H6 H7|es n ls sp tx H1 H2 H3|t d H1 H2|s er H1 H2].
      + left. rewrite KN in H1. injection H1 as H1. exists v, ls, sp, tx. auto 10.
      + right. left. rewrite KN in H1. injection H1 as <-. exists n, ls, sp, tx. auto.
      + destruct (type_trail _ _ _ H2 (NB _)).
      + destruct (type_trail _ _ _ H2 (NB _)).
      + destruct (old_trail _ _ _ _ H1 (NB _)).
      + destruct (unknown_trail _ _ H2 (NB _)).
      + destruct (node_trail _ _ H1 (NB _)).
      + destruct (node_trail _ _ H1 (NB _)).
      + rewrite KN in H1. injection H1 as H1. destruct (N0 _ H1).
      + right. right. eauto.
    - intros [(v & ls & sp & tx & E & H2 & H3 & H4 & H5 & ->)|[(n & ls & sp & tx & H2 & H3 & H4 & ->)|(s & er & H1 & H2 & ->)]].
      + rewrite E in KN. econstructor; eassumption.
      + eapply dp_array; eassumption.
      + eapply dp_version; eassumption.
  Qed.
  Lemma reads_string q p k e s : keyed q p k e -> (forall t, e_node e <> NTable t) -> reads root (q ++ [SKey k]) s <-> str_of e = Some s.
  Proof.
    intros K N0. pose proof (keyed_entry _ _ _ _ K) as KE. pose proof (keyed_node _ _ _ _ K) as KN. split.
    - intros H. destruct H as [l sp x o qu r rs H|t s H].
      + rewrite KE in H. injection H as ->. reflexivity.
      + rewrite KN in H. injection H as H. destruct (N0 _ H).
    - intros H. destruct e as [[| | |[]] [|r rs]]; try discriminate. injection H as <-. econstructor. exact KE.
  Qed.
  Lemma table_problem q p k e t d : keyed q p k e -> e_node e = NTable t -> dep_problem prof root (q ++ [SKey k]) d <->
    (exists k' e', In (k', e') t /\ key_problem (q ++ [SKey k]) t k' d) \/ spec_says (q ++ [SKey k]) t d.
  Proof.
    intros K EN. pose proof (keyed_table _ _ _ _ _ K EN) as A. pose proof (keyed_node _ _ _ _ K) as KN. rewrite EN in KN.
    assert (IN : forall k', trail [] ((q ++ [SKey k]) ++ [SKey k']) root <> None -> exists e', In (k', e') t).
    { intros k' H. destruct (tget t k') as [e'|] eqn:G; [|destruct (H (absent _ _ _ _ A G))]. exists e'. apply (table_get _ _ _ _ _ A). exact G. }
    split.
    - intros H. destruct H as [v ls sp tx H1 H2 H3 H4 H5|x n ls sp tx H1 H2 H3 H4|k' w d H1 H2|d H1 H2|d H1|k' d H1 H2|pa v es i x r s ls tx H1 H2 H3 H4 H5 H6 H7|es n ls sp tx H1 H2 H3|t' d H1 H2|s er H1 H2].
      + rewrite KN in H1. discriminate H1.
      + rewrite KN in H1. injection H1 as <-. discriminate H2.
      + left. destruct (IN _ (type_trail _ _ _ H2)) as (e' & I0). exists (bs k'), e'. split; [exact I0|]. left. exists k', w. auto.
      + left. destruct (IN _ (type_trail _ _ _ H2)) as (e' & I0). exists (bs "default_features"), e'. split; [exact I0|]. right. right. left. split; [reflexivity|].
        right. split; [|exact H2]. unfold at_key in H1. rewrite (table_get_at _ _ _ _ A) in H1. destruct (tget t (bs "default-features")); [discriminate H1|reflexivity].
      + left. destruct (IN _ (old_trail _ _ _ _ H1)) as (e' & I0). exists (bs "default_features"), e'. split; [exact I0|]. right. right. left. auto.
      + left. destruct (IN _ (unknown_trail _ _ H2)) as (e' & I0). exists k', e'. split; [exact I0|]. right. right. right. auto.
      + left. destruct (IN _ (node_trail _ _ H1)) as (e' & I0). exists (bs "features"), e'. split; [exact I0|]. right. left. split; [reflexivity|]. left.
        exists pa, v, es, i, x, r, s, ls, tx. auto 12.
      + left. destruct (IN _ (node_trail _ _ H1)) as (e' & I0). exists (bs "features"), e'. split; [exact I0|]. right. left. split; [reflexivity|]. right.
        exists es, n, ls, sp, tx. auto.
      + rewrite KN in H1. injection H1 as <-. right. left. exact H2.
      + right. right. destruct H1 as [l sp x o qu r rs H|t' s H G1 G2 G3].
        * apply entry_at_node in H. cbn [e_node] in H. rewrite KN in H. discriminate H.
        * rewrite KN in H. injection H as <-. split; [exact G1|]. split; [exact G2|]. exists s, er. auto.
    - intros [(k' & e' & I0 & [(n & w & TY & -> & H)|[(-> & H)|[(-> & H)|(NI & H)]]])|[H|(W0 & C & s & er & F & R & ->)]].
      + eapply dp_type; eassumption.
      + destruct H as [(pa & v & es & i & x & r & s & ls & tx & H1 & H2 & H3 & H4 & H5 & H6 & H7 & ->)|(es & n & ls & sp & tx & H1 & H2 & H3 & ->)].
        * eapply dp_feature; eassumption.
        * eapply dp_feature_tables; eassumption.
      + destruct H as [H|[G H]]; [apply dp_old; exact H|]. apply dp_old_type; [|exact H]. unfold at_key. rewrite (table_get_at _ _ _ _ A), G. reflexivity.
      + eapply dp_unknown; eassumption.
      + eapply dp_source; eassumption.
      + eapply dp_version; [|eassumption]. eapply rd_table; eassumption.
  Qed.
  Lemma reads_table q p k e t s : keyed q p k e -> e_node e = NTable t -> reads root (q ++ [SKey k]) s <->
    bool_field t "workspace" = None /\ ~ conflicting t /\ str_field t "version" = Some s.
  Proof.
    intros K EN. pose proof (keyed_node _ _ _ _ K) as KN. rewrite EN in KN. split.
    - intros H. destruct H as [l sp x o qu r rs H|t' s H G1 G2 G3].
      + apply entry_at_node in H. cbn [e_node] in H. rewrite KN in H. discriminate H.
      + rewrite KN in H. injection H as <-. auto.
    - intros (H1 & H2 & H3). eapply rd_table; eassumption.
  Qed.

  Lemma does_entry q p name e kind target : keyed q p name e ->
    does (parse_entry prof p kind target name e) (entry_bad (q ++ [SKey name]))
      (holds (fun x d => x = q ++ [SKey name] /\ dependency_of prof kind target name e d)) (dep_problem prof root (q ++ [SKey name])).
  Proof.
    intros K. pose proof (keyed_leaf _ _ _ _ K) as L. destruct (keyed_reprs _ _ _ _ K) as (r & rs & RS). destruct (keyed_text _ _ _ _ K) as (tx & TX & SH).
    unfold parse_entry. cbv zeta. destruct (as_string (e_node e)) as [sv|] eqn:AS.
    - assert (NT : forall t, e_node e <> NTable t) by (intros t E; rewrite E in AS; discriminate).
      assert (SO : str_of e = Some (mksa r sv)).
      { destruct e as [[| | |[]] rs']; try discriminate. cbn in RS, AS. rewrite RS. injection AS as <-. reflexivity. }
      assert (TS : exists sp, text_span (sa_val (mksa r sv)) = Ok sp).
      { destruct e as [[| | |[]] rs']; try discriminate. cbn in AS. injection AS as <-. exact L. }
      rewrite RS. cbn [first_of bind]. eapply does_iff.
      + apply (does_map _ (fun v => [mkdep name None kind target (SRegistry v None) (mkdf None []) None e]) _ _
          (holds (fun x d => x = q ++ [SKey name] /\ dependency_of prof kind target name e d)) _ (does_req _ TS)).
        intros v V. apply holds_one. destruct e as [[| | |[]] rs']; try discriminate. cbn in RS, AS. rewrite RS. injection AS as <-. constructor. exact V.
      + split.
        * intros (s & E & R). injection E as <-. exists (mksa r sv). split; [|exact R]. apply (reads_string _ _ _ _ _ K NT). exact SO.
        * intros (s & E & R). apply (reads_string _ _ _ _ _ K NT) in E. rewrite SO in E. injection E as <-. exists (mksa r sv). auto.
      + auto.
      + intros d. rewrite (plain_problem _ _ _ _ _ K NT). split.
        * intros (s & er & E & R & ->). injection E as <-. right. right. exists (mksa r sv), er. split; [|auto]. apply (reads_string _ _ _ _ _ K NT). exact SO.
        * intros [(v & ls & sp & tx' & E & H & _)|[(n & ls & sp & tx' & H & _)|(s & er & E & R & ->)]].
          -- exfalso. destruct e as [[| | |[]] rs']; try discriminate. cbn in E. injection E as <-. apply H. reflexivity.
          -- destruct e as [[| | |[]] rs']; discriminate.
          -- apply (reads_string _ _ _ _ _ K NT) in E. rewrite SO in E. injection E as <-. exists (mksa r sv), er. auto.
    - destruct (e_node e) as [t|es|pa v es|v] eqn:EN.
      + eapply does_iff.
        * eapply does_then; [exact (does_keys _ _ _ t no_builder (keyed_table _ _ _ _ _ K EN) (incl_refl t))|]. intros b <-.
          rewrite (fold_built t (table_nodup _ _ _ (keyed_table _ _ _ _ _ K EN))). unfold try_build.
          apply (does_map _ (fun d => [d]) _ (dependency_of prof kind target name e) (holds (fun x d => x = q ++ [SKey name] /\ dependency_of prof kind target name e d))).
          2:{ intros d D. apply holds_one. exact D. }
          apply (does_map _ (fun spec => mkdep name (b_package (built t)) kind target spec (mkdf (b_default (built t)) (b_list (built t))) (b_optional (built t)) e)
            _ _ (dependency_of prof kind target name e) _ (does_spec _ _ _ _ _ K EN)).
          intros s S0. destruct e as [n rs']. cbn in EN. rewrite EN. cbn [built b_package b_default b_list b_optional]. constructor. exact S0.
        * split.
          -- intros (H1 & H2 & s & H3 & H4). exists s. split; [|exact H4]. apply (reads_table _ _ _ _ _ _ K EN). auto.
          -- intros (s & H3 & H4). apply (reads_table _ _ _ _ _ _ K EN) in H3. destruct H3 as (H1 & H2 & H3). split; [exact H1|]. split; [exact H2|]. exists s. auto.
        * auto.
        * intros d. rewrite (table_problem _ _ _ _ _ _ K EN). reflexivity.
      + assert (NT : forall t, e_node e <> NTable t) by (intros t E; rewrite E in EN; discriminate).
        eapply does_iff.
        * apply (does_map _ (fun _ => []) False (fun _ => True) (holds (fun x d => x = q ++ [SKey name] /\ dependency_of prof kind target name e d))).
          -- exact (each_repr _ _ _ _ (fun l t s => DError l t s (DepWrongDatatype (datatype_of (NTop es)))) _ tx K TX).
          -- intros _ _. apply holds_nil. intros x d [_ D]. destruct D; discriminate EN.
        * split; [tauto|]. intros (s & E & R). apply (reads_string _ _ _ _ _ K NT) in E. destruct e as [n rs']. cbn in EN, E. rewrite EN in E. discriminate E.
        * auto.
        * intros d. rewrite (plain_problem _ _ _ _ _ K NT). rewrite EN. split.
          -- intros (n & ls & sp & M & ->). right. left. exists n, ls, sp, tx. auto.
          -- intros [(v & ls & sp & tx' & E & _)|[(n & ls & sp & tx' & _ & M & SH' & ->)|(s & er & E & R & ->)]].
             ++ discriminate E.
             ++ exists n, ls, sp. split; [exact M|]. rewrite (shown_fun _ _ _ SH' SH). reflexivity.
             ++ apply (reads_string _ _ _ _ _ K NT) in E. destruct e as [n rs']. cbn in EN, E. rewrite EN in E. discriminate E.
      + assert (NT : forall t, e_node e <> NTable t) by (intros t E; rewrite E in EN; discriminate).
        eapply does_iff.
        * apply (does_map _ (fun _ => []) False (fun _ => True) (holds (fun x d => x = q ++ [SKey name] /\ dependency_of prof kind target name e d))).
          -- exact (each_repr _ _ _ _ (fun l t s => DError l t s (DepWrongDatatype (datatype_of (NInline pa v es)))) _ tx K TX).
          -- intros _ _. apply holds_nil. intros x d [_ D]. destruct D; discriminate EN.
        * split; [tauto|]. intros (s & E & R). apply (reads_string _ _ _ _ _ K NT) in E. destruct e as [n rs']. cbn in EN, E. rewrite EN in E. discriminate E.
        * auto.
        * intros d. rewrite (plain_problem _ _ _ _ _ K NT). rewrite EN. split.
          -- intros (n & ls & sp & M & ->). right. left. exists n, ls, sp, tx. auto.
          -- intros [(v' & ls & sp & tx' & E & _)|[(n & ls & sp & tx' & _ & M & SH' & ->)|(s & er & E & R & ->)]].
             ++ discriminate E.
             ++ exists n, ls, sp. split; [exact M|]. rewrite (shown_fun _ _ _ SH' SH). reflexivity.
             ++ apply (reads_string _ _ _ _ _ K NT) in E. destruct e as [n rs']. cbn in EN, E. rewrite EN in E. discriminate E.
      + assert (NT : forall t, e_node e <> NTable t) by (intros t E; rewrite E in EN; discriminate).
        assert (NS : forall s, ~ reads root (q ++ [SKey name]) s).
        { intros s E. apply (reads_string _ _ _ _ _ K NT) in E. destruct e as [n rs']. cbn in EN, E. rewrite EN in E. destruct v; discriminate. }
        assert (NA : datatype_of (NScalar v) <> DtArray /\ datatype_of (NScalar v) <> DtString) by (destruct v; cbn in L |- *; split; try discriminate; try contradiction).
        assert (HN : holds (fun x d => x = q ++ [SKey name] /\ dependency_of prof kind target name e d) []).
        { apply holds_nil. intros x d [_ D]. destruct D; cbn in EN; [|discriminate EN]. injection EN as <-. discriminate AS. }
        destruct (is_invalid (NScalar v)) eqn:IV.
        * eapply does_iff.
          -- apply (does_ret [] (holds (fun x d => x = q ++ [SKey name] /\ dependency_of prof kind target name e d))). exact HN.
          -- split; [tauto|]. intros (s & E & R). exact (NS _ E).
          -- auto.
          -- intros d. rewrite (plain_problem _ _ _ _ _ K NT). rewrite EN. split; [tauto|]. apply invalid_type in IV.
             intros [(v' & ls & sp & tx' & E & _ & H & _)|[(n & ls & sp & tx' & H & _)|(s & er & E & R & ->)]].
             ++ injection E as <-. contradiction.
             ++ destruct NA. contradiction.
             ++ exact (NS _ E).
        * rewrite RS. cbn [first_of bind]. eapply does_iff.
          -- apply (does_map _ (fun _ => []) False (fun _ => True) (holds (fun x d => x = q ++ [SKey name] /\ dependency_of prof kind target name e d))); [|intros _ _; exact HN].
             apply (say_first _ _ _ _ _ rs (fun l t s => DError l t s (DepWrongDatatype (datatype_of (NScalar v)))) _ tx K RS). rewrite <- RS. exact TX.
          -- split; [tauto|]. intros (s & E & R). exact (NS _ E).
          -- auto.
          -- intros d. rewrite (plain_problem _ _ _ _ _ K NT). rewrite EN. split.
             ++ intros (ls & sp & M & ->). left. exists v, ls, sp, tx. split; [reflexivity|]. split; [apply NA|]. split; [rewrite <- invalid_type; congruence|]. auto.
             ++ intros [(v' & ls & sp & tx' & E & _ & _ & M & SH' & ->)|[(n & ls & sp & tx' & H & _)|(s & er & E & R & ->)]].
                ** injection E as <-. exists ls, sp. split; [exact M|]. rewrite (shown_fun _ _ _ SH' SH). reflexivity.
                ** destruct NA. contradiction.
                ** destruct (NS _ E).
  Qed.

  (** ** Sections *)
  Lemma holds_app (Q R : list step -> dependency -> Prop) l m : holds Q l -> holds R m -> (forall p d d', Q p d -> R p d' -> False) ->
    holds (fun p d => Q p d \/ R p d) (l ++ m).
  Proof.
    intros (a & -> & A1 & A2) (b & -> & B1 & B2) X. exists (a ++ b). split; [rewrite map_app; reflexivity|]. split.
    - rewrite map_app. assert (DJ : forall p, In p (map fst a) -> ~ In p (map fst b)).
      { intros p IA IB. apply in_map_iff in IA. apply in_map_iff in IB. destruct IA as ([p1 d1] & E1 & I1). destruct IB as ([p2 d2] & E2 & I2). cbn in E1, E2. subst.
        apply A2 in I1. apply B2 in I2. exact (X _ _ _ I1 I2). }
      revert A1 DJ. generalize (map fst a). clear -B1. induction l as [|x l IH]; intros A1 DJ; [exact B1|]. apply NoDup_cons_iff in A1. destruct A1 as [N1 N2].
      cbn. constructor; [|apply IH; [exact N2|intros p P; apply DJ; right; exact P]]. rewrite in_app_iff. intros [H|H]; [exact (N1 H)|]. exact (DJ x (or_introl eq_refl) H).
    - intros p d. rewrite in_app_iff, A2, B2. reflexivity.
  Qed.
  Lemma holds_concat {X} (key : X -> list N) (q : list step) (Q : X -> list step -> dependency -> Prop) : forall (t : list X) ls, NoDup (map key t) ->
    Forall2 (fun x l => holds (Q x) l) t ls -> (forall x p d, In x t -> Q x p d -> exists r, p = q ++ SKey (key x) :: r) ->
    holds (fun p d => exists x, In x t /\ Q x p d) (concat ls).
  Proof.
    induction t as [|x t IH]; intros ls ND F PL; inversion F as [|? l ? ls' H F' E1 E2].
    - apply holds_nil. intros p d (x & [] & _).
    - cbn in ND. apply NoDup_cons_iff in ND. destruct ND as [N1 N2]. cbn [concat]. eapply holds_iff.
      + apply holds_app; [exact H|apply (IH _ N2 F'); intros y p d Y; apply PL; right; exact Y|].
        intros p d d' H1 (y & Y & H2). destruct (PL _ _ _ (or_introl eq_refl) H1) as (r1 & ->). destruct (PL _ _ _ (or_intror Y) H2) as (r2 & EQ).
        apply app_inv_head in EQ. injection EQ as EQ _. apply N1. rewrite EQ. apply in_map. exact Y.
      + intros p d. cbn. split; [intros [HH|(y & Y & HH)]; eauto|]. intros (y & [YE|Y] & HH); [subst y; auto|eauto].
  Qed.

  Lemma dep_trail q d : dep_problem prof root q d -> trail [] q root <> None.
  Proof.
    assert (UP : forall k, trail [] (q ++ [SKey k]) root <> None -> trail [] q root <> None) by (intros k H E; apply H; rewrite trail_app, E; reflexivity).
    intros H. destruct H as [v ls sp tx H1 H2 H3 H4 H5|x n ls sp tx H1 H2 H3 H4|k' w d H1 H2|d H1 H2|d H1|k' d H1 H2|pa v es i x r s ls tx H1 H2 H3 H4 H5 H6 H7|es n ls sp tx H1 H2 H3|t' d H1 H2|s er H1 H2].
    - exact (node_trail _ _ H1).
    - exact (node_trail _ _ H1).
    - exact (UP _ (type_trail _ _ _ H2)).
    - exact (UP _ (type_trail _ _ _ H2)).
    - exact (UP _ (old_trail _ _ _ _ H1)).
    - exact (UP _ (unknown_trail _ _ H2)).
    - exact (UP _ (node_trail _ _ H1)).
    - exact (UP _ (node_trail _ _ H1)).
    - exact (node_trail _ _ H1).
    - destruct H1 as [l sp x o qu r rs H|t' s H _ _ _]; [exact (node_trail _ _ (entry_at_node _ _ _ H))|exact (node_trail _ _ H)].
  Qed.
  Lemma bad_trail q : entry_bad q -> trail [] q root <> None.
  Proof. intros (s & [l sp x o qu r rs H|t' s' H _ _ _] & _); [exact (node_trail _ _ (entry_at_node _ _ _ H))|exact (node_trail _ _ H)]. Qed.

  Definition sec_bad (s : list step) : Prop := exists name, entry_bad (s ++ [SKey name]).
  Definition sec_says (s : list step) (d : diag) : Prop := type_problem root s DtTable d \/ exists name, dep_problem prof root (s ++ [SKey name]) d.
  Definition sec_deps (kind : depkind) (target : option (list N)) (s x : list step) (d : dependency) : Prop :=
    exists name e, x = s ++ [SKey name] /\ entry_at x root = Some e /\ dependency_of prof kind target name e d.
  Lemma does_section q p k e kind target : keyed q p k e ->
    does (parse_section prof p e kind target) (sec_bad (q ++ [SKey k])) (holds (sec_deps kind target (q ++ [SKey k]))) (sec_says (q ++ [SKey k])).
  Proof.
    intros K. unfold parse_section. cbv zeta. pose proof (keyed_leaf _ _ _ _ K) as L. set (s := q ++ [SKey k]) in *.
    eapply does_then; [exact (does_expect _ _ _ _ _ _ table_typed K)|]. intros o <-. destruct (e_node e) as [t|es|pa v es|v] eqn:EN; cbn [as_table].
    1:{ pose proof (keyed_table _ _ _ _ _ K EN) as A. fold s in A. unfold parse_dependencies.
        assert (GE : forall name, trail [] (s ++ [SKey name]) root <> None -> exists e', In (name, e') t).
        { intros name H. destruct (tget t name) as [e'|] eqn:G; [|destruct (H (absent _ _ _ _ A G))]. exists e'. apply (table_get _ _ _ _ _ A). exact G. }
        eapply does_iff.
        - eapply (does_map _ (fun l => concat l)).
          + apply (does_each _ (fun x => entry_bad (s ++ [SKey (fst x)])) (fun x => holds (fun y d => y = s ++ [SKey (fst x)] /\ dependency_of prof kind target (fst x) (snd x) d))
              (fun x => dep_problem prof root (s ++ [SKey (fst x)]))).
            intros [name e'] I0. cbn [fst snd]. apply does_entry. apply (table_keyed _ _ _ _ _ A). apply (table_get _ _ _ _ _ A). exact I0.
          + intros ls F. apply (holds_concat fst s _ _ _ (table_nodup _ _ _ A) F). intros x y d _ [-> _]. exists []. reflexivity.
        - split.
          + intros ([name e'] & _ & B). exists name. exact B.
          + intros (name & B). destruct (GE _ (bad_trail _ B)) as (e' & I0). exists (name, e'). auto.
        - intros l. intros H. apply (holds_iff _ _ _ H). intros y d. split.
          + intros ([name e'] & I0 & -> & D). exists name, e'. split; [reflexivity|]. split; [|exact D]. cbn [fst].
            apply (keyed_entry _ _ _ _ (table_keyed _ _ _ _ _ A (proj1 (table_get _ _ _ _ _ A) I0))).
          + intros (name & e' & -> & E & D). exists (name, e'). cbn [fst snd]. split; [|auto].
            rewrite entry_at_last, (table_node _ _ _ A) in E. apply (table_get _ _ _ _ _ A). exact E.
        - intros d. split.
          + intros ([name e'] & _ & B). exists name. exact B.
          + intros (name & B). destruct (GE _ (dep_trail _ _ B)) as (e' & I0). exists (name, e'). auto. }
    all: assert (NT : forall t, e_node e <> NTable t) by (intros t E; rewrite E in EN; discriminate).
    all: eapply does_iff; [apply (does_ret [] (holds (sec_deps kind target s)))| | |].
    all: try (apply holds_nil; intros x d (name & e' & -> & E & _); apply entry_at_node, node_trail in E; exact (E (no_below _ _ _ _ _ K NT))).
    all: try (split; [tauto|]; intros (name & B); exact (bad_trail _ B (no_below _ _ _ _ _ K NT))).
    all: try (intros x X; exact X).
    all: intros d; split; [tauto|]; intros (name & B); exact (dep_trail _ _ B (no_below _ _ _ _ _ K NT)).
  Qed.
  Lemma does_old_section q p t old new e kind target : table_at q p t -> tget t (bs old) = Some e ->
    does (parse_old_section prof p t (bs old) (bs new) e kind target)
      (node_at (q ++ [at_key new]) root = None /\ sec_bad (q ++ [at_key old]))
      (holds (fun x d => node_at (q ++ [at_key new]) root = None /\ sec_deps kind target (q ++ [at_key old]) x d))
      (fun d => old_problem root q old new d \/ (node_at (q ++ [at_key new]) root = None /\ sec_says (q ++ [at_key old]) d)).
  Proof.
    intros A G. unfold parse_old_section. eapply does_then; [exact (does_old _ _ _ old new _ A G)|]. intros b ->.
    unfold at_key. rewrite (table_get_at _ _ _ _ A). destruct (tget t (bs new)) as [en|]; cbn [option_map].
    - eapply does_iff; [apply (does_ret [] (fun l => l = [])); reflexivity| | |].
      + split; [tauto|]. intros [H _]. discriminate H.
      + intros l ->. apply holds_nil. intros x d [H _]. discriminate H.
      + intros d. split; [tauto|]. intros [H _]. discriminate H.
    - eapply does_iff; [exact (does_section _ _ _ _ kind target (table_keyed _ _ _ _ _ A G))|tauto| |tauto].
      intros l H. apply (holds_iff _ _ _ H). tauto.
  Qed.

  (** The sections in the table at a place. *)
  Lemma section_key b kind k : section root b kind (b ++ [SKey k]) <->
    (k = bs "dependencies" /\ kind = Normal) \/ (k = bs "dev-dependencies" /\ kind = Dev) \/
    (k = bs "dev_dependencies" /\ kind = Dev /\ node_at (b ++ [at_key "dev-dependencies"]) root = None) \/
    (k = bs "build-dependencies" /\ kind = Build) \/
    (k = bs "build_dependencies" /\ kind = Build /\ node_at (b ++ [at_key "build-dependencies"]) root = None).
  Proof.
    split.
    - intros H. inversion H as [E1 E2|E1 E2|N0 E1 E2|E1 E2|N0 E1 E2]; apply app_inj_tail in E2; destruct E2 as [_ E2]; injection E2 as <-; tauto.
    - intros [(-> & ->)|[(-> & ->)|[(-> & -> & N0)|[(-> & ->)|(-> & -> & N0)]]]]; constructor; assumption.
  Qed.
  Lemma section_last b kind s : section root b kind s -> exists k, s = b ++ [SKey k].
  Proof. intros []; eexists; reflexivity. Qed.
  Definition kbad (b : list step) (k : list N) : Prop := exists kind, section root b kind (b ++ [SKey k]) /\ sec_bad (b ++ [SKey k]).
  Definition kdeps (target : option (list N)) (b : list step) (k : list N) (x : list step) (d : dependency) : Prop :=
    exists kind, section root b kind (b ++ [SKey k]) /\ sec_deps kind target (b ++ [SKey k]) x d.
  Definition ksays (b : list step) (k : list N) (d : diag) : Prop :=
    (exists kind, section root b kind (b ++ [SKey k]) /\ sec_says (b ++ [SKey k]) d) \/
    (k = bs "dev_dependencies" /\ old_problem root b "dev_dependencies" "dev-dependencies" d) \/
    (k = bs "build_dependencies" /\ old_problem root b "build_dependencies" "build-dependencies" d).
  Lemma does_section_key q p t k e target : table_at q p t -> tget t k = Some e ->
    match dependency_section prof p t k e target with
    | Some m => In k (map bs section_keys) /\ does m (kbad q k) (holds (kdeps target q k)) (ksays q k)
    | None => ~ In k (map bs section_keys)
    end.
  Proof.
    intros A G. pose proof (table_keyed _ _ _ _ _ A G) as K. unfold dependency_section.
    assert (NEW : forall name kind, k = bs name -> In name section_keys -> (forall kind', section root q kind' (q ++ [SKey (bs name)]) <-> kind' = kind) ->
      name <> "dev_dependencies"%string -> name <> "build_dependencies"%string ->
      In k (map bs section_keys) /\ does (parse_section prof p e kind target) (kbad q k) (holds (kdeps target q k)) (ksays q k)).
    { intros name kind -> IN SE N1 N2. split; [apply in_map; exact IN|]. eapply does_iff; [exact (does_section _ _ _ _ kind target K)| | |].
      - split; [intros B; exists kind; split; [apply SE; reflexivity|exact B]|]. intros (kind' & _ & B). exact B.
      - intros l H. apply (holds_iff _ _ _ H). intros x d. split; [intros B; exists kind; split; [apply SE; reflexivity|exact B]|].
        intros (kind' & S0 & B). apply SE in S0. rewrite S0 in B. exact B.
      - intros d. split; [intros B; left; exists kind; split; [apply SE; reflexivity|exact B]|].
        intros [(kind' & _ & B)|[(E & _)|(E & _)]]; [exact B| |]; apply bs_inj in E; contradiction. }
    assert (OLD : forall old new kind, k = bs old -> In (old, new) [("dev_dependencies", "dev-dependencies"); ("build_dependencies", "build-dependencies")]%string ->
      (forall kind', section root q kind' (q ++ [SKey (bs old)]) <-> kind' = kind /\ node_at (q ++ [at_key new]) root = None) ->
      In k (map bs section_keys) /\ does (parse_old_section prof p t (bs old) (bs new) e kind target) (kbad q k) (holds (kdeps target q k)) (ksays q k)).
    { intros old new kind -> IN SE. split. { apply in_map. cbn in IN. destruct IN as [E|[E|[]]]; injection E as <- <-; cbn; tauto. }
      eapply does_iff; [exact (does_old_section _ _ _ old new _ kind target A G)| | |].
      - split; [intros (N0 & B); exists kind; split; [apply SE; auto|exact B]|]. intros (kind' & S0 & B). apply SE in S0. split; [apply S0|exact B].
      - intros l H. apply (holds_iff _ _ _ H). intros x d. split; [intros (N0 & B); exists kind; split; [apply SE; auto|exact B]|].
        intros (kind' & S0 & B). apply SE in S0. destruct S0 as [-> N0]. auto.
      - intros d. split.
        + intros [B|(N0 & B)]; [|left; exists kind; split; [apply SE; auto|exact B]]. right.
          cbn in IN. destruct IN as [E|[E|[]]]; injection E as <- <-; auto.
        + intros [(kind' & S0 & B)|[(E & B)|(E & B)]].
          * apply SE in S0. destruct S0 as [-> N0]. auto.
          * apply bs_inj in E. cbn in IN. destruct IN as [E'|[E'|[]]]; injection E' as <- <-; [auto|discriminate E].
          * apply bs_inj in E. cbn in IN. destruct IN as [E'|[E'|[]]]; injection E' as <- <-; [discriminate E|auto]. }
    destruct (key_is k "dependencies") eqn:E1.
    { apply key_is_eq in E1. apply (NEW _ _ E1); [cbn; tauto| |discriminate|discriminate]. intros kind'. rewrite section_key.
      split; [intros [(E & H)|[(E & H)|[(E & H)|[(E & H)|(E & H)]]]]; try exact H; discriminate E|]. tauto. }
    destruct (key_is k "dev-dependencies") eqn:E2.
    { apply key_is_eq in E2. apply (NEW _ _ E2); [cbn; tauto| |discriminate|discriminate]. intros kind'. rewrite section_key.
      split; [intros [(E & H)|[(E & H)|[(E & H)|[(E & H)|(E & H)]]]]; try exact H; discriminate E|]. tauto. }
    destruct (key_is k "dev_dependencies") eqn:E3.
    { apply key_is_eq in E3. apply (OLD _ _ _ E3); [cbn; tauto|]. intros kind'. rewrite section_key.
      split; [intros [(E & H)|[(E & H)|[(E & H)|[(E & H)|(E & H)]]]]; try exact H; discriminate E|]. tauto. }
    destruct (key_is k "build-dependencies") eqn:E4.
    { apply key_is_eq in E4. apply (NEW _ _ E4); [cbn; tauto| |discriminate|discriminate]. intros kind'. rewrite section_key.
      split; [intros [(E & H)|[(E & H)|[(E & H)|[(E & H)|(E & H)]]]]; try exact H; discriminate E|]. tauto. }
    destruct (key_is k "build_dependencies") eqn:E5.
    { apply key_is_eq in E5. apply (OLD _ _ _ E5); [cbn; tauto|]. intros kind'. rewrite section_key.
      split; [intros [(E & H)|[(E & H)|[(E & H)|[(E & H)|(E & H)]]]]; try exact H; discriminate E|]. tauto. }
    cbn [section_keys map In]. intros H. repeat (destruct H as [H|H]; [symmetry in H; apply key_is_eq in H; congruence|]). destruct H.
  Qed.

  (** ** Targets and the manifest *)
  Lemma table_in q p t k : table_at q p t -> trail [] (q ++ [SKey k]) root <> None -> exists e, In (k, e) t.
  Proof.
    intros A H. destruct (tget t k) as [e'|] eqn:G; [|destruct (H (absent _ _ _ _ A G))]. exists e'. apply (table_get _ _ _ _ _ A). exact G.
  Qed.
  Lemma trail_up q r : trail [] (q ++ r) root <> None -> trail [] q root <> None.
  Proof. intros H E. apply H. rewrite trail_app, E. reflexivity. Qed.
  Lemma kbad_trail b k : kbad b k -> trail [] (b ++ [SKey k]) root <> None.
  Proof. intros (kind & _ & name & B). exact (trail_up _ _ (bad_trail _ B)). Qed.
  Lemma ksays_trail b k d : ksays b k d -> trail [] (b ++ [SKey k]) root <> None.
  Proof.
    intros [(kind & _ & [T|(name & D)])|[(-> & O)|(-> & O)]]; [exact (type_trail _ _ _ T)|exact (trail_up _ _ (dep_trail _ _ D))|exact (old_trail _ _ _ _ O)|exact (old_trail _ _ _ _ O)].
  Qed.
  Lemma kdeps_trail target b k x d : kdeps target b k x d -> trail [] (b ++ [SKey k]) root <> None.
  Proof. intros (kind & _ & name & e & -> & E & _). exact (trail_up _ _ (node_trail _ _ (entry_at_node _ _ _ E))). Qed.
  Lemma section_in b kind k : section root b kind (b ++ [SKey k]) -> In k (map bs section_keys).
  Proof. rewrite section_key. intros [(-> & _)|[(-> & _)|[(-> & _)|[(-> & _)|(-> & _)]]]]; apply in_map; cbn; tauto. Qed.
  Lemma ksays_in b k d : ksays b k d -> In k (map bs section_keys).
  Proof. intros [(kind & S0 & _)|[(-> & _)|(-> & _)]]; [exact (section_in _ _ _ S0)| |]; apply in_map; cbn; tauto. Qed.
  Lemma kdeps_place target b k x d : kdeps target b k x d -> exists r, x = b ++ SKey k :: r.
  Proof. intros (kind & _ & name & e & -> & _). rewrite <- app_assoc. eexists. reflexivity. Qed.

  Definition tbad (b : list step) : Prop := exists k, kbad b k.
  Definition tdeps (target : option (list N)) (b x : list step) (d : dependency) : Prop := exists k, kdeps target b k x d.
  Definition tsays (b : list step) (d : diag) : Prop :=
    (exists k, ksays b k d) \/ exists k, ~ In k (map bs section_keys) /\ unknown_problem root (b ++ [SKey k]) d.
  Lemma does_target_deps q p t tn : table_at q p t ->
    does (parse_target_dependencies prof p t tn) (tbad q) (holds (tdeps (Some tn) q)) (tsays q).
  Proof.
    intros A. unfold parse_target_dependencies. eapply does_iff.
    - eapply (does_map _ (fun l => concat l)).
      + apply (does_each _ (fun x => kbad q (fst x)) (fun x => holds (kdeps (Some tn) q (fst x)))
          (fun x d => ksays q (fst x) d \/ (~ In (fst x) (map bs section_keys) /\ unknown_problem root (q ++ [SKey (fst x)]) d))).
        intros [k e] I0. cbn [fst]. apply (table_get _ _ _ _ _ A) in I0. pose proof (does_section_key _ _ _ _ _ (Some tn) A I0) as DS.
        destruct (dependency_section prof p t k e (Some tn)) as [m|].
        * destruct DS as [IN DS]. apply (does_iff _ _ _ _ _ _ _ DS); [tauto|auto|tauto].
        * eapply does_iff.
          -- apply (does_map _ (fun _ => []) _ _ (fun l => l = []) _ (does_unused _ _ _ _ (table_keyed _ _ _ _ _ A I0))). reflexivity.
          -- split; [tauto|]. intros (kind & S0 & _). exact (DS (section_in _ _ _ S0)).
          -- intros l ->. apply holds_nil. intros x d (kind & S0 & _). exact (DS (section_in _ _ _ S0)).
          -- intros d. split; [tauto|]. intros [H|[_ H]]; [destruct (DS (ksays_in _ _ _ H))|exact H].
      + intros ls F. apply (holds_concat fst q _ _ _ (table_nodup _ _ _ A) F). intros x y d _. apply kdeps_place.
    - split; [intros (x & _ & B); exists (fst x); exact B|]. intros (k & B). destruct (table_in _ _ _ _ A (kbad_trail _ _ B)) as (e & I0). exists (k, e). auto.
    - intros l H. apply (holds_iff _ _ _ H). intros x d. split; [intros (y & _ & B); exists (fst y); exact B|].
      intros (k & B). destruct (table_in _ _ _ _ A (kdeps_trail _ _ _ _ _ B)) as (e & I0). exists (k, e). auto.
    - intros d. split.
      + intros (x & _ & [B|[N0 B]]); [left|right]; exists (fst x); auto.
      + intros [(k & B)|(k & N0 & B)].
        * destruct (table_in _ _ _ _ A (ksays_trail _ _ _ B)) as (e & I0). exists (k, e). auto.
        * destruct (table_in _ _ _ _ A (unknown_trail _ _ B)) as (e & I0). exists (k, e). auto.
  Qed.
  Lemma tbad_trail b : tbad b -> trail [] b root <> None.
  Proof. intros (k & B). exact (trail_up _ _ (kbad_trail _ _ B)). Qed.
  Lemma tdeps_trail target b x d : tdeps target b x d -> trail [] b root <> None.
  Proof. intros (k & B). exact (trail_up _ _ (kdeps_trail _ _ _ _ _ B)). Qed.
  Lemma tsays_trail b d : tsays b d -> trail [] b root <> None.
  Proof. intros [(k & B)|(k & _ & B)]; [exact (trail_up _ _ (ksays_trail _ _ _ B))|exact (trail_up _ _ (unknown_trail _ _ B))]. Qed.
  Lemma tdeps_place target b x d : tdeps target b x d -> exists r, x = b ++ r.
  Proof. intros (k & B). destruct (kdeps_place _ _ _ _ _ B) as (r & ->). eexists. reflexivity. Qed.
  (** What needs a table has none below anything else. *)
  Lemma tbad_below b : tbad b -> exists k, trail [] (b ++ [SKey k]) root <> None.
  Proof. intros (k & B). exists k. exact (kbad_trail _ _ B). Qed.
  Lemma tdeps_below target b x d : tdeps target b x d -> exists k, trail [] (b ++ [SKey k]) root <> None.
  Proof. intros (k & B). exists k. exact (kdeps_trail _ _ _ _ _ B). Qed.
  Lemma tsays_below b d : tsays b d -> exists k, trail [] (b ++ [SKey k]) root <> None.
  Proof. intros [(k & B)|(k & _ & B)]; exists k; [exact (ksays_trail _ _ _ B)|exact (unknown_trail _ _ B)]. Qed.

  (** A function of a table, on a key that should be one. *)
  Lemma does_if_table {A} (f : mtable -> W (list A)) q p k e bad (P : list A -> Prop) D : keyed q p k e ->
    (forall t, table_at (q ++ [SKey k]) (SegTable (e_reprs e) :: p) t -> does (f t) bad P D) ->
    (~ (exists k', trail [] ((q ++ [SKey k]) ++ [SKey k']) root <> None) -> ~ bad /\ P [] /\ forall d, ~ D d) ->
    does (let! o := expect_table (SegTable (e_reprs e) :: p) e in match o with Some t => f t | None => wret [] end) bad P
      (fun d => type_problem root (q ++ [SKey k]) DtTable d \/ D d).
  Proof.
    intros K F NO. eapply does_then; [exact (does_expect _ _ _ _ _ _ table_typed K)|]. intros o <-. destruct (as_table (e_node e)) as [t|] eqn:T.
    - apply F. apply (keyed_table _ _ _ _ _ K). destruct (e_node e); try discriminate. injection T as ->. reflexivity.
    - destruct NO as (N1 & N2 & N3).
      { intros (k' & H). apply H. apply (no_below _ _ _ _ k' K). intros t E. rewrite E in T. discriminate T. }
      apply (does_iff _ _ _ _ _ _ _ (does_ret [] P N2)); [tauto|auto|]. intros d. specialize (N3 d). tauto.
  Qed.
  Definition xbad : Prop := exists tn, tbad [at_key "target"; SKey tn].
  Definition xdeps (x : list step) (d : dependency) : Prop := exists tn, tdeps (Some tn) [at_key "target"; SKey tn] x d.
  Definition xsays (d : diag) : Prop := exists tn, type_problem root [at_key "target"; SKey tn] DtTable d \/ tsays [at_key "target"; SKey tn] d.
  Lemma does_target p t : table_at [at_key "target"] p t -> does (parse_target prof p t) xbad (holds xdeps) xsays.
  Proof.
    intros A. unfold parse_target. eapply does_iff.
    - eapply (does_map _ (fun l => concat l)).
      + apply (does_each _ (fun x => tbad [at_key "target"; SKey (fst x)]) (fun x => holds (tdeps (Some (fst x)) [at_key "target"; SKey (fst x)]))
          (fun x d => type_problem root [at_key "target"; SKey (fst x)] DtTable d \/ tsays [at_key "target"; SKey (fst x)] d)).
        intros [k e] I0. cbn [fst]. apply (table_get _ _ _ _ _ A) in I0. cbv zeta.
        apply (does_if_table (fun t => parse_target_dependencies prof (SegTable (e_reprs e) :: p) t k) [at_key "target"] p k e).
        * exact (table_keyed _ _ _ _ _ A I0).
        * intros t' A'. exact (does_target_deps _ _ _ k A').
        * intros NB. split; [intros B; apply NB; exact (tbad_below _ B)|]. split; [|intros d B; apply NB; exact (tsays_below _ _ B)].
          apply holds_nil. intros x d B. apply NB. exact (tdeps_below _ _ _ _ B).
      + intros ls F. apply (holds_concat fst [at_key "target"] _ _ _ (table_nodup _ _ _ A) F). intros x y d _ B.
        destruct (tdeps_place _ _ _ _ B) as (r & ->). exists r. reflexivity.
    - split; [intros (x & _ & B); exists (fst x); exact B|]. intros (k & B). destruct (table_in _ _ _ k A (tbad_trail _ B)) as (e & I0). exists (k, e). auto.
    - intros l H. apply (holds_iff _ _ _ H). intros x d. split; [intros (y & _ & B); exists (fst y); exact B|].
      intros (k & B). destruct (table_in _ _ _ k A (tdeps_trail _ _ _ _ B)) as (e & I0). exists (k, e). auto.
    - intros d. split; [intros (x & _ & B); exists (fst x); exact B|].
      intros (k & B). assert (T : trail [] [at_key "target"; SKey k] root <> None) by (destruct B as [B|B]; [exact (type_trail _ _ _ B)|exact (tsays_trail _ _ B)]).
      destruct (table_in _ _ _ k A T) as (e & I0). exists (k, e). auto.
  Qed.

  Hypothesis WF : wf_table dc root_chains top.
  Hypothesis NI : nice leaf any_elem (NTable top).
  Lemma top_table : table_at [] [] top.
  Proof.
    exists [], root_chains. split; [reflexivity|]. split; [exact path_ok_root|]. split; [apply wf_NTable; exact WF|]. split; [exact NI|].
    intros i s k H. injection H as <- <-. constructor.
  Qed.
  Definition cbad (k : list N) : Prop := kbad [] k \/ (k = bs "target" /\ xbad).
  Definition cdeps (k : list N) (x : list step) (d : dependency) : Prop := kdeps None [] k x d \/ (k = bs "target" /\ xdeps x d).
  Definition csays (k : list N) (d : diag) : Prop :=
    ksays [] k d \/ (k = bs "target" /\ (type_problem root [at_key "target"] DtTable d \/ xsays d)) \/
    (~ In k (map bs (section_keys ++ manifest_keys)) /\ unknown_problem root [SKey k] d).
  Lemma does_check_key k e : tget top k = Some e -> does (check_key prof top k e) (cbad k) (holds (cdeps k)) (csays k).
  Proof.
    intros G. pose proof top_table as A. pose proof (table_keyed _ _ _ _ _ A G) as K. unfold check_key. cbv zeta.
    assert (UN : unchecked = map bs (removelast manifest_keys)) by reflexivity.
    assert (MK : forall x, In x (map bs manifest_keys) <-> In x unchecked \/ x = bs "target").
    { intros x. rewrite UN. change manifest_keys with (removelast manifest_keys ++ ["target"%string]) at 1. rewrite map_app, in_app_iff. cbn [map In]. intuition congruence. }
    assert (DISJ : forall x, In x (map bs section_keys) -> ~ In x (map bs manifest_keys)).
    { intros x X Y. apply in_map_iff in X. destruct X as (a & <- & X). apply in_map_iff in Y. destruct Y as (b & E & Y). apply bs_inj in E. subst b.
      cbn in X, Y. repeat (destruct X as [X|X]; [subst a; repeat (destruct Y as [Y|Y]; [discriminate Y|]); destruct Y|]). destruct X. }
    destruct (existsb (bytes_eqb k) unchecked) eqn:EX.
    { apply existsb_exists in EX. destruct EX as (y & Y & E). apply bytes_eqb_eq in E. subst y.
      assert (NS : ~ In k (map bs section_keys)) by (intros S0; apply (DISJ _ S0); apply MK; auto).
      assert (NT : k <> bs "target"). { intros ->. rewrite UN in Y. apply in_map_iff in Y. destruct Y as (b & E & Y). apply bs_inj in E. subst b. cbn in Y.
        repeat (destruct Y as [Y|Y]; [discriminate Y|]). destruct Y. }
      eapply does_iff.
      - apply (does_ret [] (fun l => l = [])). reflexivity.
      - split; [tauto|]. intros [(kind & S0 & _)|[E _]]; [exact (NS (section_in _ _ _ S0))|exact (NT E)].
      - intros l ->. apply holds_nil. intros x d [(kind & S0 & _)|[E _]]; [exact (NS (section_in _ _ _ S0))|exact (NT E)].
      - intros d. split; [tauto|]. intros [H|[[E _]|[H _]]]; [exact (NS (ksays_in _ _ _ H))|exact (NT E)|]. apply H. rewrite map_app, in_app_iff. right. apply MK. auto. }
    assert (NU : ~ In k unchecked). { intros Y. enough (existsb (bytes_eqb k) unchecked = true) by congruence. apply existsb_exists. exists k. split; [exact Y|apply bytes_eqb_refl]. }
    pose proof (does_section_key _ _ _ _ _ None A G) as DS. destruct (dependency_section prof [] top k e None) as [m|].
    { destruct DS as [IN DS]. assert (NT : k <> bs "target") by (intros E; apply (DISJ _ IN); apply MK; auto).
      apply (does_iff _ _ _ _ _ _ _ DS).
      - unfold cbad. tauto.
      - intros l H. apply (holds_iff _ _ _ H). unfold cdeps. tauto.
      - intros d. unfold csays. rewrite map_app, in_app_iff. tauto. }
    destruct (bytes_eqb k (bs "target")) eqn:ET.
    { apply bytes_eqb_eq in ET. subst k. eapply does_iff.
      - apply (does_if_table (fun t => parse_target prof [SegTable (e_reprs e)] t) [] [] (bs "target") e xbad (holds xdeps) xsays K).
        + intros t' A'. exact (does_target _ _ A').
        + intros NB. split; [intros (tn & B); apply NB; exists tn; exact (tbad_trail _ B)|]. split.
          * apply holds_nil. intros x d (tn & B). apply NB. exists tn. exact (tdeps_trail _ _ _ _ B).
          * intros d (tn & [B|B]); apply NB; exists tn; [exact (type_trail _ _ _ B)|exact (tsays_trail _ _ B)].
      - unfold cbad. split; [auto|]. intros [(kind & S0 & _)|[_ B]]; [destruct (DS (section_in _ _ _ S0))|exact B].
      - intros l H. apply (holds_iff _ _ _ H). intros x d. unfold cdeps. split; [auto|]. intros [(kind & S0 & _)|[_ B]]; [destruct (DS (section_in _ _ _ S0))|exact B].
      - intros d. unfold csays. split; [intros H; right; left; auto|]. intros [H|[[_ H]|[H _]]]; [destruct (DS (ksays_in _ _ _ H))|exact H|].
        destruct H. rewrite map_app, in_app_iff. right. apply MK. auto. }
    assert (NT : k <> bs "target") by (intros ->; rewrite bytes_eqb_refl in ET; discriminate).
    eapply does_iff.
    - apply (does_map _ (fun _ => []) _ _ (fun l => l = []) _ (does_unused _ _ _ _ K)). reflexivity.
    - split; [tauto|]. intros [(kind & S0 & _)|[E _]]; [exact (DS (section_in _ _ _ S0))|exact (NT E)].
    - intros l ->. apply holds_nil. intros x d [(kind & S0 & _)|[E _]]; [exact (DS (section_in _ _ _ S0))|exact (NT E)].
    - intros d. split.
      + intros H. right. right. split; [|exact H]. rewrite map_app, in_app_iff, MK. tauto.
      + intros [H|[[E _]|[_ H]]]; [destruct (DS (ksays_in _ _ _ H))|destruct (NT E)|exact H].
  Qed.
  Lemma cdeps_place k x d : cdeps k x d -> exists r, x = SKey k :: r.
  Proof.
    intros [B|[-> (tn & B)]]; [destruct (kdeps_place _ _ _ _ _ B) as (r & ->); exists r; reflexivity|]. destruct (tdeps_place _ _ _ _ B) as (r & ->). eexists. reflexivity.
  Qed.
  Theorem does_check : does (check prof top) (exists s, any_reads root s /\ requirement prof s Panic) (holds (dep_at prof root)) (problem prof root).
  Proof.
    pose proof top_table as A. unfold check. eapply does_iff.
    - eapply (does_map _ (fun l => concat l)).
      + apply (does_each _ (fun x => cbad (fst x)) (fun x => holds (cdeps (fst x))) (fun x => csays (fst x))).
        intros [k e] I0. cbn [fst]. apply does_check_key. apply (table_get _ _ _ _ _ A). exact I0.
      + intros ls F. apply (holds_concat fst [] _ _ _ (table_nodup _ _ _ A) F). intros x y d _ B. exact (cdeps_place _ _ _ B).
    - split.
      + intros ([k e] & _ & [(kind & S0 & name & s & R & RQ)|[_ (tn & k' & kind & S0 & name & s & R & RQ)]]).
        * exists s. split; [|exact RQ]. eexists. split; [|exact R]. exists kind, None, name, [], ([] ++ [SKey k]). split; [constructor|]. auto.
        * exists s. split; [|exact RQ]. eexists. split; [|exact R]. exists kind, (Some tn), name. eexists. eexists. split; [constructor|]. split; [exact S0|reflexivity].
      + intros (s & (p & (kind & target & name & b & sec & BA & S0 & ->) & R) & RQ). destruct (section_last _ _ _ S0) as (k & ->).
        destruct BA as [|tn].
        * assert (B : cbad k) by (left; exists kind; split; [exact S0|]; exists name, s; auto).
          assert (T : trail [] ([] ++ [SKey k]) root <> None) by (destruct B as [B|[-> (tn & B)]]; [exact (kbad_trail _ _ B)|exact (trail_up [_] [_] (tbad_trail _ B))]).
          destruct (table_in _ _ _ k A T) as (e & I0). exists (k, e). auto.
        * assert (X : tbad [at_key "target"; SKey tn]) by (exists k, kind; split; [exact S0|]; exists name, s; auto).
          destruct (table_in _ _ _ (bs "target") A (trail_up [_] [_] (tbad_trail _ X))) as (e & I0). exists (bs "target", e). split; [exact I0|]. right. split; [reflexivity|]. exists tn. exact X.
    - intros l H. apply (holds_iff _ _ _ H). intros x d. split.
      + intros ([k e] & _ & [(kind & S0 & name & e' & -> & E & D)|[_ (tn & k' & kind & S0 & name & e' & -> & E & D)]]).
        * exists kind, None, name, e'. split; [|auto]. exists [], ([] ++ [SKey k]). split; [constructor|]. auto.
        * exists kind, (Some tn), name, e'. split; [|auto]. eexists. eexists. split; [constructor|]. split; [exact S0|reflexivity].
      + intros (kind & target & name & e & (b & sec & BA & S0 & ->) & E & D). destruct (section_last _ _ _ S0) as (k & ->). destruct BA as [|tn].
        * assert (B : kdeps None [] k (([] ++ [SKey k]) ++ [SKey name]) d) by (exists kind; split; [exact S0|]; exists name, e; auto).
          destruct (table_in _ _ _ k A (kdeps_trail _ _ _ _ _ B)) as (e' & I0). exists (k, e'). split; [exact I0|]. left. exact B.
        * assert (B : kdeps (Some tn) [at_key "target"; SKey tn] k (([at_key "target"; SKey tn] ++ [SKey k]) ++ [SKey name]) d) by (exists kind; split; [exact S0|]; exists name, e; auto).
          destruct (table_in _ _ _ (bs "target") A (trail_up [_] [_] (trail_up _ _ (kdeps_trail _ _ _ _ _ B)))) as (e' & I0). exists (bs "target", e'). split; [exact I0|]. right.
          split; [reflexivity|]. exists tn, k. exact B.
    - intros d. split.
      + intros ([k e] & _ & H). cbn [fst] in H.
        assert (KS : forall target b k, base target b -> ksays b k d -> problem prof root d).
        { intros target b k0 BA [(kind & S0 & [T|(name & D)])|[(-> & O)|(-> & O)]].
          - eapply pr_section; eassumption.
          - apply (pr_dep _ _ _ _ ) with (2 := D). exists kind, target, name, b, (b ++ [SKey k0]). auto.
          - eapply pr_dev; eassumption.
          - eapply pr_build; eassumption. }
        destruct H as [H|[[-> [H|(tn & [H|[(k' & H)|(k' & NN & H)]])]]|[NN H]]].
        * exact (KS None [] k base_all H).
        * apply pr_targets. exact H.
        * eapply pr_target. exact H.
        * exact (KS _ _ k' (base_target tn) H).
        * exact (pr_unknown_target _ _ tn k' d NN H).
        * exact (pr_unknown _ _ k d NN H).
      + assert (ROOT : forall k, csays k d -> exists x, In x top /\ csays (fst x) d).
        { intros k H. assert (T : trail [] ([] ++ [SKey k]) root <> None).
          { destruct H as [H|[[-> [H|(tn & [H|H])]]|[_ H]]]; [exact (ksays_trail _ _ _ H)|exact (type_trail _ _ _ H)|exact (trail_up [_] [_] (type_trail _ _ _ H))|exact (trail_up [_] [_] (tsays_trail _ _ H))|exact (unknown_trail _ _ H)]. }
          destruct (table_in _ _ _ k A T) as (e & I0). exists (k, e). auto. }
        assert (BASE : forall target b k, base target b -> ksays b k d -> exists x, In x top /\ csays (fst x) d).
        { intros target b k [|tn] H; [apply (ROOT k); left; exact H|]. apply (ROOT (bs "target")). right. left. split; [reflexivity|]. right. exists tn. right. left. exists k. exact H. }
        intros H. destruct H as [p d (kind & target & name & b & sec & BA & S0 & ->) D|kind target b sec d BA S0 T|target b d BA O|target b d BA O|d T|tn d T|k d NN U|tn k d NN U].
        * destruct (section_last _ _ _ S0) as (k & ->). apply (BASE target b k BA). left. exists kind. split; [exact S0|]. right. exists name. exact D.
        * destruct (section_last _ _ _ S0) as (k & ->). apply (BASE target b k BA). left. exists kind. split; [exact S0|]. left. exact T.
        * apply (BASE target b (bs "dev_dependencies") BA). right. left. auto.
        * apply (BASE target b (bs "build_dependencies") BA). right. right. auto.
        * apply (ROOT (bs "target")). right. left. auto.
        * apply (ROOT (bs "target")). right. left. split; [reflexivity|]. right. exists tn. auto.
        * apply (ROOT k). right. right. auto.
        * apply (ROOT (bs "target")). right. left. split; [reflexivity|]. right. exists tn. right. right. exists k. auto.
  Qed.
End Places.
