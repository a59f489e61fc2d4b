(** Preservation of the state invariant by every primitive transition. *)
From Verif Require Import Base UnionFind EGraphModel EGraphSteps EGraphInv.

(** Laws a [Language] implementation must satisfy ([Ord] is a total order compatible with
    the discriminant, src/language.rs:36-50 and the documentation there). *)
Record lang_ok {Op} (L : lang Op) : Prop := {
  lo_total : forall a b, l_leb L a b = true \/ l_leb L b a = true;
  lo_trans : forall a b c, l_leb L a b = true -> l_leb L b c = true -> l_leb L a c = true;
  lo_antisym : forall a b, l_leb L a b = true -> l_leb L b a = true -> a = b;
  lo_convex : forall a b c, l_leb L a b = true -> l_leb L b c = true ->
    l_disc L (nop a) = l_disc L (nop c) -> l_disc L (nop b) = l_disc L (nop a);
}.

Section pres.
Context {Op D : Type} `{Countable Op}.
Notation node := (node Op).
Notation egraph := (egraph Op D).
Notation eclass := (eclass Op D).
Notation explain := (explain Op).
Context (L : lang Op) (A : analysis Op D).

(** * [dedup], [sort_nodes] *)
Lemma elem_of_dedup_from (prev n : node) ns : n ∈ prev :: dedup_from prev ns <-> n ∈ prev :: ns.
Proof.
  revert prev. induction ns as [|m ns IH]; intros prev; cbn [dedup_from]; [done|].
  case_decide; subst.
  - rewrite IH. rewrite !elem_of_cons. tauto.
  - rewrite elem_of_cons. rewrite IH. rewrite !elem_of_cons. tauto.
Qed.
Lemma elem_of_dedup (n : node) ns : n ∈ dedup ns <-> n ∈ ns.
Proof. destruct ns; [done|]. cbn [dedup]. apply elem_of_dedup_from. Qed.

Lemma elem_of_sort_nodes (n : node) ns : n ∈ sort_nodes L ns <-> n ∈ ns.
Proof. unfold sort_nodes. by rewrite merge_sort_Permutation. Qed.

(** The normalised contents of a class after [rebuild_classes]. *)
Definition norm_nodes (f : nat -> nat) (ns : list node) : list node :=
  dedup (sort_nodes L (canonf f <$> ns)).
Lemma elem_of_norm_nodes f n ns : n ∈ norm_nodes f ns <-> exists m, n = canonf f m /\ m ∈ ns.
Proof.
  unfold norm_nodes. rewrite elem_of_dedup, elem_of_sort_nodes, elem_of_list_fmap. done.
Qed.
Lemma norm_nodes_ext f f' ns : (forall i, f i = f' i) -> norm_nodes f ns = norm_nodes f' ns.
Proof.
  intros He. unfold norm_nodes. do 2 f_equal. apply list_fmap_ext. intros. by apply canonf_ext.
Qed.

(** * The operator index *)
Definition by_op_mem (m : gmap nat (gset nat)) (d r : nat) : Prop :=
  exists s, m !! d = Some s /\ r ∈ s.

Lemma by_op_add_mem id m (n : node) d r :
  by_op_mem (by_op_add L id m n) d r <-> by_op_mem m d r \/ (r = id /\ l_disc L (nop n) = d).
Proof.
  unfold by_op_mem, by_op_add. destruct (decide (l_disc L (nop n) = d)) as [<-|Hne].
  - rewrite lookup_insert. split.
    + intros (s & [= <-] & Hr). apply elem_of_union in Hr as [Hr|Hr].
      * right. split; [set_solver|done].
      * left. destruct (m !! _); cbn in Hr; [eauto|set_solver].
    + intros [(s & Es & Hr)|[-> _]]; eexists; split; try done.
      * rewrite Es. cbn. set_solver.
      * set_solver.
  - rewrite lookup_insert_ne by done. split; [tauto|]. intros [?|[_ ?]]; [done|congruence].
Qed.

Lemma by_op_scan_mem id (prev : node) ns m d r :
  by_op_mem m (l_disc L (nop prev)) id ->
  by_op_mem (by_op_scan L id prev ns m) d r <->
    by_op_mem m d r \/ (r = id /\ exists n, n ∈ ns /\ l_disc L (nop n) = d).
Proof.
  revert prev m. induction ns as [|n ns IH]; intros prev m Hp; cbn [by_op_scan].
  { split; [tauto|]. intros [?|(_ & n & Hn & _)]; [done|]. by apply elem_of_nil in Hn. }
  destruct (node_matches prev n) eqn:Em.
  - rewrite IH by done. unfold node_matches in Em. apply andb_prop in Em as [Em _].
    apply bool_decide_eq_true in Em. split.
    + intros [?|(-> & n' & Hn' & En')]; [auto|]. right. split; [done|]. exists n'.
      split; [by right|done].
    + intros [?|(-> & n' & Hn' & En')]; [auto|]. apply elem_of_cons in Hn' as [->|Hn'].
      * left. rewrite <- En', <- Em. done.
      * right. eauto.
  - rewrite IH. 2:{ apply by_op_add_mem. auto. } rewrite by_op_add_mem. split.
    + intros [[?|[-> ?]]|(-> & n' & Hn' & En')]; [auto| |].
      * right. split; [done|]. exists n. split; [by left|done].
      * right. split; [done|]. exists n'. split; [by right|done].
    + intros [?|(-> & n' & Hn' & En')]; [auto|]. apply elem_of_cons in Hn' as [->|Hn'].
      * auto.
      * right. eauto.
Qed.

Lemma by_op_class_mem id (ns : list node) m d r :
  by_op_mem (by_op_class L id ns m) d r <->
    by_op_mem m d r \/ (r = id /\ exists n, n ∈ ns /\ l_disc L (nop n) = d).
Proof.
  destruct ns as [|n ns]; cbn [by_op_class].
  { split; [tauto|]. intros [?|(_ & n & Hn & _)]; [done|]. by apply elem_of_nil in Hn. }
  rewrite by_op_scan_mem. 2:{ apply by_op_add_mem. auto. } rewrite by_op_add_mem. split.
  - intros [[?|[-> ?]]|(-> & n' & Hn' & En')]; [auto| |].
    + right. split; [done|]. exists n. split; [by left|done].
    + right. split; [done|]. exists n'. split; [by right|done].
  - intros [?|(-> & n' & Hn' & En')]; [auto|]. apply elem_of_cons in Hn' as [->|Hn'].
    + auto.
    + right. eauto.
Qed.

(** * [rebuild_classes] *)
Lemma rebuild_fold_spec (l : list (nat * eclass)) u cs ops :
  uf_wf u -> NoDup l.*1 ->
  Forall (fun kc => Forall (fun n => Forall (fun c => c < length u) (nch n)) (c_nodes kc.2)) l ->
  exists u' cs' ops', foldl (rebuild_class L) (u, cs, ops) l = (u', cs', ops') /\
    uf_equiv u u' /\
    (forall k, cs' !! k = match (list_to_map l : gmap nat eclass) !! k with
                          | Some c => Some (c_set_nodes (norm_nodes (uf_find u) (c_nodes c)) c)
                          | None => cs !! k end) /\
    (forall d r, by_op_mem ops' d r <-> by_op_mem ops d r \/
       exists k c n, (k, c) ∈ l /\ c_id c = r /\ n ∈ norm_nodes (uf_find u) (c_nodes c) /\
         l_disc L (nop n) = d).
Proof.
  revert u cs ops. induction l as [|[k c] l IH]; intros u cs ops Hw Hnd Hall; cbn [foldl].
  { exists u, cs, ops. split_and!; auto.
    - by apply uf_equiv_refl.
    - intros d r. split; [tauto|]. intros [?|(k & c & n & Hk & _)]; [done|].
      by apply elem_of_nil in Hk. }
  cbn [fmap list_fmap fst] in Hnd. apply NoDup_cons in Hnd as [Hk Hnd].
  apply Forall_cons in Hall as [Hc Hall]. cbn in Hc.
  unfold rebuild_class at 2.
  destruct (canon_nodes_mut_spec u (c_nodes c) Hw Hc) as (u1 & -> & He).
  pose proof He as (Hw1 & Hl1 & Hf1). fold (norm_nodes (uf_find u) (c_nodes c)).
  destruct (IH u1 (<[k := c_set_nodes (norm_nodes (uf_find u) (c_nodes c)) c]> cs)
              (by_op_class L (c_id c) (norm_nodes (uf_find u) (c_nodes c)) ops))
    as (u' & cs' & ops' & -> & He' & Hcs & Hops); auto.
  { by rewrite Hl1. }
  exists u', cs', ops'. split_and!; auto.
  - by eapply uf_equiv_trans.
  - intros k'. rewrite Hcs. cbn [list_to_map foldr]. cbn.
    destruct (decide (k = k')) as [<-|Hne].
    + rewrite lookup_insert. rewrite not_elem_of_list_to_map_1 by done.
      by rewrite lookup_insert.
    + rewrite !lookup_insert_ne by done. destruct (list_to_map l !! k'); [|done].
      do 2 f_equal. by apply norm_nodes_ext.
  - intros d r. rewrite Hops, by_op_class_mem. split.
    + intros [[?|(-> & n & Hn & En)]|(k' & c' & n & Hk' & Ec & Hn & En)]; [auto| |].
      * right. exists k, c, n. split_and!; auto. by left.
      * right. exists k', c', n. rewrite (norm_nodes_ext _ (uf_find u1)) by done.
        split_and!; auto. by right.
    + intros [?|(k' & c' & n & Hk' & Ec & Hn & En)]; [auto|].
      apply elem_of_cons in Hk' as [[= -> ->]|Hk'].
      * left. right. eauto.
      * right. exists k', c', n. rewrite (norm_nodes_ext _ (uf_find u)) by done. auto.
Qed.

Lemma rebuild_classes_spec (g : egraph) :
  uf_wf (eg_uf g) ->
  (forall r c n i, eg_classes g !! r = Some c -> n ∈ c_nodes c -> i ∈ nch n -> i < length (eg_uf g)) ->
  exists u cls' ops',
    rebuild_classes L g = set_by_op ops' (set_classes cls' (set_uf u g)) /\
    uf_equiv (eg_uf g) u /\
    (forall r, cls' !! r = (fun c => c_set_nodes (norm_nodes (eg_find g) (c_nodes c)) c) <$> eg_classes g !! r) /\
    (forall d r, by_op_mem ops' d r <->
       exists k c n, eg_classes g !! k = Some c /\ c_id c = r /\
         n ∈ norm_nodes (eg_find g) (c_nodes c) /\ l_disc L (nop n) = d).
Proof.
  intros Hw Hch. unfold rebuild_classes.
  destruct (rebuild_fold_spec (map_to_list (eg_classes g)) (eg_uf g) (eg_classes g)
     ((fun _ => ∅) <$> eg_by_op g)) as (u' & cs' & ops' & -> & He & Hcs & Hops); auto.
  { apply NoDup_fst_map_to_list. }
  { apply Forall_forall. intros [k c] Hk. apply elem_of_map_to_list in Hk. cbn.
    apply Forall_forall. intros n Hn. apply Forall_forall. intros i Hi. eauto. }
  exists u', cs', ops'. split_and!; auto.
  - intros r. rewrite Hcs, list_to_map_to_list. unfold eg_find. by destruct (eg_classes g !! r).
  - intros d r. rewrite Hops. split.
    + intros [(s & Es & Hr)|(k & c & n & Hk & Hc)].
      * rewrite lookup_fmap in Es. destruct (eg_by_op g !! d); cbn in Es; [|done].
        injection Es as <-. set_solver.
      * exists k, c, n. by apply elem_of_map_to_list in Hk.
    + intros (k & c & n & Hk & Hc). right. exists k, c, n. by rewrite elem_of_map_to_list.
Qed.

(** * The queue *)
Definition uq_ok (q : uqueue) (n : nat) : Prop :=
  (forall t, t ∈ uq_set q <-> t ∈ uq_queue q) /\ NoDup (uq_queue q) /\
  Forall (fun t => t < n) (uq_queue q).

Lemma uq_insert_ok q n t : uq_ok q n -> t < n -> uq_ok (uq_insert q t) n.
Proof.
  intros (H1 & H2 & H3) Ht. unfold uq_insert. case_decide as Hd; [by split_and!|].
  unfold uq_ok. cbn. split_and!.
  - intros x. rewrite elem_of_union, elem_of_app, elem_of_singleton, elem_of_list_singleton, H1. tauto.
  - apply NoDup_app. split_and!; auto; [|apply NoDup_singleton].
    intros x Hx ->%elem_of_list_singleton. apply Hd. by apply H1.
  - apply Forall_app. split; [done|]. by constructor.
Qed.
Lemma uq_extend_ok q n ts : uq_ok q n -> Forall (fun t => t < n) ts -> uq_ok (uq_extend q ts) n.
Proof.
  unfold uq_extend. revert q. induction ts as [|t ts IH]; intros q Hq Ht; cbn [foldl]; [done|].
  inversion_clear Ht. apply IH; [|done]. by apply uq_insert_ok.
Qed.
Lemma uq_pop_ok q n t q' : uq_ok q n -> uq_pop q = Some (t, q') -> uq_ok q' n /\ t < n.
Proof.
  intros (H1 & H2 & H3). unfold uq_pop. destruct (uq_queue q) as [|x xs] eqn:Eq; [done|].
  intros [= -> <-]. apply NoDup_cons in H2 as [H2 H2']. apply Forall_cons in H3 as [H3 H3'].
  split; [|done]. unfold uq_ok. cbn. split_and!; auto.
  intros y. rewrite elem_of_difference, elem_of_singleton, H1, elem_of_cons. naive_solver.
Qed.
Lemma uq_ok_mono q n n' : n <= n' -> uq_ok q n -> uq_ok q n'.
Proof.
  intros Hn (H1 & H2 & H3). split_and!; auto. eapply Forall_impl; eauto. cbn. lia.
Qed.
Lemma uq_extend_mem q ts t : uq_ok q (S (max_list (t :: uq_queue q ++ ts))) ->
  t ∈ uq_queue (uq_extend q ts) <-> t ∈ uq_queue q \/ t ∈ ts.
Proof.
  intros (H1 & _). clear -H1. unfold uq_extend. revert q H1.
  induction ts as [|x xs IH]; intros q H1; cbn [foldl].
  { rewrite elem_of_nil. tauto. }
  rewrite IH.
  - rewrite elem_of_cons. unfold uq_insert. case_decide as Hd; cbn.
    + split; [tauto|]. intros [?|[->|?]]; auto. left. by apply H1.
    + rewrite elem_of_app, elem_of_list_singleton. tauto.
  - intros y. unfold uq_insert. case_decide as Hd; cbn; [done|].
    rewrite elem_of_union, elem_of_app, elem_of_singleton, elem_of_list_singleton, H1. tauto.
Qed.

(** * Explanation state: shape *)
Lemma make_leader_length fuel f n f' : make_leader fuel f n = Ok f' -> length f' = length f.
Proof.
  revert n f'. induction fuel as [|fuel IH]; intros n f' E; cbn [make_leader] in E; [done|].
  inv_res. case_decide; inv_res; [done|]. rewrite insert_length. eauto.
Qed.
Lemma ex_union_shape (x x' : explain) a b j :
  ex_union x a b j = Ok x' -> length (ex_find x') = length (ex_find x) /\ ex_memo x' = ex_memo x.
Proof.
  unfold ex_union. intros E. inv_res. cbn. rewrite !insert_length.
  split; [by eapply make_leader_length|done].
Qed.
Lemma alternate_rewrite_shape (x x' : explain) a b j :
  alternate_rewrite x a b j = Ok x' -> length (ex_find x') = length (ex_find x) /\ ex_memo x' = ex_memo x.
Proof.
  unfold alternate_rewrite. intros E. case_decide; [by inv_res|].
  destruct (ex_short x !! (a, b)) as [[[|[|c]] nx]|]; inv_res; cbn; rewrite ?insert_length; done.
Qed.
Lemma ex_add_shape (x x' : explain) n s :
  ex_add x n s = Ok x' -> length (ex_find x) = s /\ length (ex_find x') = S s /\
    ex_memo x' = <[n := s]> (ex_memo x).
Proof.
  unfold ex_add. intros E. inv_res. cbn. rewrite app_length. cbn.
  apply Nat.eqb_eq in H0. split_and!; auto. lia.
Qed.

(** * The invariant *)
Definition log_unions (h : list (event Op)) (a b : nat) : Prop := exists r, EUnion a b r ∈ h.

Definition ex_ok (ns : list node) (ox : option explain) : Prop :=
  match ox with
  | None => True
  | Some x => length (ex_find x) = length ns /\
              forall n i, ex_memo x !! n = Some i -> ns !! i = Some n
  end.

Record Inv (g : egraph) : Prop := {
  iv_wf : uf_wf (eg_uf g);
  iv_len : length (eg_nodes g) = length (eg_uf g);
  iv_c : cinv (log_unions (eg_log g)) (fun _ => False) (eg_find g) (eg_nodes g) (eg_memo g)
              (eg_pending g) (eg_classes g);
  iv_q : uq_ok (eg_apending g) (length (eg_nodes g));
  iv_ex : ex_ok (eg_nodes g) (eg_explain g);
  iv_log : forall a b, log_unions (eg_log g) a b -> a < length (eg_nodes g) /\ b < length (eg_nodes g);
}.

Lemma Inv_new ex : Inv (eg_new ex).
Proof.
  split; cbn.
  - apply uf_wf_nil.
  - done.
  - split; cbn; try done; try (intros; set_solver).
    + intros r. rewrite lookup_empty. split; [intros [? ?]; done|lia].
    + intros i. lia.
    + intros a b (r & Hr). by apply elem_of_nil in Hr.
  - unfold uq_ok. cbn. split_and!; auto; [set_solver|constructor].
  - destruct ex; cbn; [|done]. split; [done|]. by intros n i ?.
  - intros a b (r & Hr). by apply elem_of_nil in Hr.
Qed.

Lemma cinv_U (U U' : nat -> nat -> Prop) X f (ns : list node) memo pend (cls : gmap nat eclass) :
  (forall a b, U a b -> U' a b) -> (forall a b, U' a b -> f a = f b) ->
  cinv U X f ns memo pend cls -> cinv U' X f ns memo pend cls.
Proof.
  intros HU1 HU2 I. pose proof (ci_snd _ _ _ _ _ _ _ I) as Hsnd. destruct I. split; auto. intros i Hi.
  eapply congT_mono; [| |by apply Hsnd]; auto. intros. apply ct_union. auto.
Qed.

Lemma find_out (g : egraph) : Inv g -> forall i, eg_find g i = i \/ i < length (eg_nodes g).
Proof.
  intros I i. destruct (decide (i < length (eg_nodes g))); [auto|]. left.
  apply uf_find_oob. rewrite <- (iv_len _ I). lia.
Qed.

Lemma Inv_uf (g : egraph) u : Inv g -> uf_equiv (eg_uf g) u -> Inv (set_uf u g).
Proof.
  intros [I1 I2 I3 I4 I5 I6] (Hw & Hl & Hf). split; cbn; auto; [by rewrite Hl|].
  eapply cinv_ext; [|exact I3]. intros. unfold eg_find. cbn. apply Hf.
Qed.

Lemma Inv_classes (g : egraph) cls' :
  (forall r, match eg_classes g !! r, cls' !! r with
     | Some c, Some c' => c_id c' = c_id c /\ c_parents c' = c_parents c /\
          forall n', n' ∈ c_nodes c' -> exists n, n ∈ c_nodes c /\ canonf (eg_find g) n' = canonf (eg_find g) n
     | None, None => True | _, _ => False end) ->
  Inv g -> Inv (set_classes cls' g).
Proof.
  intros Hc [I1 I2 I3 I4 I5 I6]. split; cbn; auto. by eapply cinv_classes.
Qed.

Lemma Inv_class (g : egraph) r c c' :
  eg_classes g !! r = Some c -> c_id c' = c_id c -> c_parents c' = c_parents c ->
  (forall n, n ∈ c_nodes c' -> n ∈ c_nodes c) ->
  Inv g -> Inv (set_classes (<[r := c']> (eg_classes g)) g).
Proof.
  intros Hr E1 E2 E3. apply Inv_classes. intros r'. destruct (decide (r = r')) as [<-|Hne].
  - rewrite lookup_insert, Hr. split_and!; eauto.
  - rewrite lookup_insert_ne by done. destruct (eg_classes g !! r'); [|done]. eauto.
Qed.

Lemma Inv_apending (g : egraph) q : uq_ok q (length (eg_nodes g)) -> Inv g -> Inv (set_apending q g).
Proof. intros Hq [I1 I2 I3 I4 I5 I6]. split; cbn; auto. Qed.

Lemma Inv_clean (g : egraph) b : Inv g -> Inv (set_clean b g).
Proof. intros [I1 I2 I3 I4 I5 I6]. split; cbn; auto. Qed.

Lemma Inv_by_op (g : egraph) m : Inv g -> Inv (set_by_op m g).
Proof. intros [I1 I2 I3 I4 I5 I6]. split; cbn; auto. Qed.

Lemma log_unions_add n i h a b : log_unions (EAdd n i :: h) a b <-> log_unions h a b.
Proof. unfold log_unions. setoid_rewrite elem_of_cons. naive_solver. Qed.
Lemma log_unions_union x y r h a b :
  log_unions (EUnion x y r :: h) a b <-> log_unions h a b \/ (a = x /\ b = y).
Proof. unfold log_unions. setoid_rewrite elem_of_cons. naive_solver. Qed.

Lemma Inv_log (g : egraph) n i : Inv g -> Inv (add_log (EAdd n i) g).
Proof.
  intros [I1 I2 I3 I4 I5 I6]. split; cbn; auto.
  - eapply cinv_U; [| |exact I3].
    + intros. by apply log_unions_add.
    + intros a b Hab. rewrite log_unions_add in Hab. exact (ci_un _ _ _ _ _ _ _ I3 _ _ Hab).
  - intros a b Hab. rewrite log_unions_add in Hab. auto.
Qed.

Lemma parents_lt (g : egraph) r c :
  Inv g -> eg_classes g !! r = Some c -> Forall (fun t => t < length (eg_nodes g)) (c_parents c).
Proof. intros I Hr. apply Forall_forall. intros. eapply ci_par_lt; eauto. apply I. Qed.

(** ** Adding *)
Lemma Inv_add n (g g' : egraph) id o : Inv g -> add_core A n g = Ok (g', id, o) -> Inv g'.
Proof.
  intros I E. apply add_core_spec in E as [Hch Hs]; [|apply I].
  destruct I as [I1 I2 I3 I4 I5 I6]. pose proof (find_out g (Build_Inv _ I1 I2 I3 I4 I5 I6)) as Hout.
  assert (Hch' : forall i, i ∈ nch n -> i < length (eg_nodes g)).
  { rewrite I2. by apply Forall_forall. }
  destruct Hs as [e id He Hid|e x x1 x2 u He Hx Hxn Hxa Hxu ->|u cls' ex' Hm Hw Hl Hf Hcls Hex].
  - by split.
  - apply ex_add_shape in Hxa as (Ex1 & Ex2 & Ex3). apply ex_union_shape in Hxu as (Ex4 & Ex5).
    pose proof (make_set_wf _ I1) as Hw1.
    assert (Hel : e < length (eg_uf g)).
    { destruct (ci_memo _ _ _ _ _ _ _ I3 _ _ He) as (m & Hm & _). rewrite <- I2. by eapply lookup_lt_Some. }
    assert (Hfe : eg_find g e < length (eg_uf g)) by by apply uf_find_lt.
    assert (Hp1 : uf_parent (eg_uf g ++ [length (eg_uf g)]) (eg_find g e) = eg_find g e).
    { apply uf_find_root_iff; auto. rewrite make_set_find by done. by apply uf_find_idem. }
    assert (Hp2 : uf_parent (eg_uf g ++ [length (eg_uf g)]) (length (eg_uf g)) = length (eg_uf g)).
    { apply uf_find_root_iff; auto. rewrite make_set_find by done. by apply uf_find_oob. }
    assert (Hla : length (eg_uf g ++ [length (eg_uf g)]) = S (length (eg_uf g))).
    { rewrite app_length. cbn. lia. }
    split; cbn.
    + apply union_wf; auto; try lia.
    + rewrite insert_length, !app_length. cbn. lia.
    + eapply cinv_alias; eauto.
      intros j. unfold eg_find at 1. cbn. rewrite union_find; auto; try lia.
      rewrite make_set_find by done. rewrite I2.
      destruct (decide (j = length (eg_uf g))) as [->|Hne].
      * rewrite decide_True; [done|]. by apply uf_find_oob.
      * rewrite decide_False; [done|]. intros E. destruct (Hout j) as [E'|E'].
        -- unfold eg_find in E'. congruence.
        -- rewrite I2 in E'. pose proof (uf_find_lt _ _ I1 E'). unfold eg_find in E. lia.
    + rewrite app_length. eapply uq_ok_mono; [|done]. cbn. lia.
    + rewrite app_length. rewrite Ex4, Ex2, Ex5, Ex3. cbn. split; [lia|].
      rewrite Hx in I5. destruct I5 as [I5a I5b].
      intros m i Hm. apply lookup_insert_Some in Hm as [[<- <-]|[_ Hm]].
      * rewrite <- I2. by apply list_lookup_middle.
      * apply lookup_app_l_Some. auto.
    + intros a b Hab. rewrite app_length. apply I6 in Hab. lia.
  - split; cbn.
    + done.
    + rewrite app_length. cbn. lia.
    + eapply (cinv_ext _ _ (eg_find g)). { intros. unfold eg_find. cbn. apply Hf. }
      rewrite <- I2. eapply cinv_new; eauto. rewrite I2. exact Hcls.
    + rewrite app_length. eapply uq_ok_mono; [|done]. cbn. lia.
    + destruct (eg_explain g) as [x|] eqn:Ex; [|by subst].
      destruct Hex as (x' & Hxa & ->). apply ex_add_shape in Hxa as (Ex1 & Ex2 & Ex3).
      destruct I5 as [I5a I5b]. cbn. rewrite app_length, Ex2, Ex3. cbn. split; [lia|].
      intros m i Hm'. apply lookup_insert_Some in Hm' as [[<- <-]|[_ Hm']].
      * rewrite <- I2. by apply list_lookup_middle.
      * apply lookup_app_l_Some. auto.
    + intros a b Hab. rewrite app_length. apply I6 in Hab. lia.
Qed.

(** ** Union, generically in the excused set and in what justifies it *)
Lemma ex_ok_union (g : egraph) rule e1 e2 ex' :
  ex_ok (eg_nodes g) (eg_explain g) ->
  match eg_explain g with
  | None => ex' = None
  | Some x => exists j x', rule = Some j /\ ex_union x e1 e2 j = Ok x' /\ ex' = Some x'
  end -> ex_ok (eg_nodes g) ex'.
Proof.
  destruct (eg_explain g) as [x|]; [|by intros _ ->].
  intros [Ha Hb] (j & x' & _ & Hx & ->). apply ex_union_shape in Hx as [E1 E2].
  cbn. rewrite E1, E2. auto.
Qed.
Lemma ex_ok_same (g : egraph) rule e1 e2 ex' :
  ex_ok (eg_nodes g) (eg_explain g) ->
  match eg_explain g, rule with
  | Some x, Some (JRule r) => exists x', alternate_rewrite x e1 e2 (JRule r) = Ok x' /\ ex' = Some x'
  | _, _ => ex' = eg_explain g
  end -> ex_ok (eg_nodes g) ex'.
Proof.
  destruct (eg_explain g) as [x|]; [|by destruct rule as [[]|]; intros _ ->].
  destruct rule as [[r|]|]; try (by intros ? ->).
  intros [Ha Hb] (x' & Hx & ->). apply alternate_rewrite_shape in Hx as [E1 E2].
  cbn. rewrite E1, E2. auto.
Qed.

Lemma union_queue_ok q b1 b2 p1 p2 n :
  uq_ok q n -> Forall (fun t => t < n) p1 -> Forall (fun t => t < n) p2 ->
  uq_ok (union_queue q b1 b2 p1 p2) n.
Proof. intros. unfold union_queue. destruct b1, b2; auto using uq_extend_ok. Qed.

Lemma Inv_union a b r rule (g g' : egraph) o :
  Inv g -> perform_union_core A a b rule (add_log (EUnion a b r) g) = Ok (g', o) -> Inv g'.
Proof.
  intros I E. pose proof I as [I1 I2 I3 I4 I5 I6].
  apply perform_union_core_spec in E as (Ha & Hb & Hs); [|apply I]. cbn in Ha, Hb.
  destruct Hs as [u ex' Hsame He Hex|id1 id2 k1 k2 d did1 did2 u ex' Hids Hne E1 E2 Hlen Htie Hcid Hm Hw Hl Hf Hex].
  - cbn in *. destruct He as (Hw & Hl & Hf). split; cbn; auto.
    + by rewrite Hl.
    + eapply (cinv_ext _ _ (eg_find g)). { intros. unfold eg_find. cbn. apply Hf. }
      eapply cinv_U; [| |exact I3].
      * intros. apply log_unions_union. auto.
      * intros x y Hxy. rewrite log_unions_union in Hxy; destruct Hxy as [Hxy|[-> ->]]; [exact (ci_un _ _ _ _ _ _ _ I3 _ _ Hxy)|done].
    + apply (ex_ok_same (add_log (EUnion a b r) g) rule a b); cbn; auto.
    + intros x y Hxy. rewrite log_unions_union in Hxy; destruct Hxy as [Hxy|[-> ->]]; auto. lia.
  - cbn in *. change (eg_find (add_log (EUnion a b r) g)) with (eg_find g) in *.
    split; cbn; auto.
    + by rewrite Hl.
    + eapply cinv_union; eauto.
      * intros. apply log_unions_union. auto.
      * intros x y Hxy. rewrite log_unions_union in Hxy; destruct Hxy as [Hxy|[-> ->]]; [auto|].
        right. unfold eg_find. cbn. rewrite !Hf. destruct Hids as [[-> ->]|[-> ->]]; repeat case_decide; congruence.
      * assert (Hco : forall i, i < length (eg_nodes g) ->
          congT (eg_nodes g) (log_unions (EUnion a b r :: eg_log g)) i (eg_find g i)).
        { intros i Hi. eapply congT_mono; [| |by apply (ci_snd _ _ _ _ _ _ _ I3)]; auto.
          intros. apply ct_union. apply log_unions_union. auto. }
        assert (Hab : congT (eg_nodes g) (log_unions (EUnion a b r :: eg_log g)) (eg_find g a) (eg_find g b)).
        { apply ct_trans with a; [apply ct_sym, Hco; lia|]. apply ct_trans with b; [|apply Hco; lia].
          apply ct_union. apply log_unions_union. auto. }
        destruct Hids as [[-> ->]|[-> ->]]; [done|by apply ct_sym].
    + apply union_queue_ok; auto; by eapply parents_lt.
    + apply (ex_ok_union (add_log (EUnion a b r) g) rule a b); cbn; auto.
    + intros x y Hxy. rewrite log_unions_union in Hxy; destruct Hxy as [Hxy|[-> ->]]; auto. lia.
Qed.

(** ** One pending entry *)
Lemma Inv_pend c rest (g g' : egraph) o :
  Inv g -> eg_pending g = c :: rest -> pending_core A c (set_pending rest g) = Ok (g', o) -> Inv g'.
Proof.
  intros I Ep E. pose proof I as [I1 I2 I3 I4 I5 I6].
  unfold pending_core in E. inv_res. cbn in H0. rename x into n, H0 into Hn. cbn [eg_uf set_pending] in E.
  destruct (canon_mut_spec (eg_uf g) n I1) as (u & Eu & He).
  { apply Forall_forall. intros i Hi. pose proof (ci_ch _ _ _ _ _ _ _ I3 _ _ _ Hn Hi).
    pose proof (lookup_lt_Some _ _ _ Hn). lia. }
  rewrite Eu in E. cbn [eg_memo set_uf set_pending] in E.
  change (uf_find (eg_uf g)) with (eg_find g) in E.
  pose proof He as (Hw & Hl & Hf).
  rewrite Ep in I3. pose proof (cinv_pop_insert _ _ _ _ _ _ _ _ I3 Hn) as C1.
  assert (Hfx : forall i, eg_find (set_uf u g) i = eg_find g i) by (intros; unfold eg_find; cbn; apply Hf).
  destruct (eg_memo g !! canonf (eg_find g) n) as [mc|] eqn:Emc.
  2:{ inv_res. split; cbn; auto; [by rewrite Hl|].
      eapply (cinv_ext _ _ (eg_find g)); [exact Hfx|].
      eapply cinv_X; [|exact C1]. intros k m Hk (m' & j & _ & _ & ? & _). congruence. }
  destruct (ci_memo _ _ _ _ _ _ _ I3 _ _ Emc) as (mm & Hmm & Enn).
  rewrite canonf_canonf in Enn by apply I3.
  apply perform_union_core_spec in E as (Ha & Hb & Hs); [|done]. cbn in Ha, Hb.
  destruct Hs as [u' ex' Hsame He' Hex|id1 id2 k1 k2 d did1 did2 u' ex' Hids Hne E1 E2 Hlen Htie Hcid Hm Hw' Hl' Hf' Hex]; cbn in *.
  - destruct He' as (Hw' & Hl' & Hf').
    change (eg_find (set_uf u g) mc = eg_find (set_uf u g) c) in Hsame.
    rewrite !Hfx in Hsame.
    split; cbn; auto.
    + by rewrite Hl', Hl.
    + eapply (cinv_ext _ _ (eg_find g)). { intros. unfold eg_find. cbn. by rewrite Hf', Hf. }
      eapply cinv_X; [|exact C1]. intros k m Hk (m' & j & Hk' & En & Ej & Efk).
      assert (m' = m) by congruence. subst m'. assert (j = mc) by congruence. subst j.
      left. exists c. rewrite En, lookup_insert. split; [done|]. congruence.
    + destruct (eg_explain g); subst; auto.
  - assert (Hids' : (id1 = eg_find g mc ∧ id2 = eg_find g c) ∨ (id1 = eg_find g c ∧ id2 = eg_find g mc)).
    { rewrite <- !Hfx. exact Hids. }
    assert (Hf1 : forall j, uf_find u' j = if decide (eg_find g j = id2) then id1 else eg_find g j).
    { intros j. rewrite <- !Hfx. apply Hf'. }
    set (g1 := EGraph _ _ _ _ _ _ _ _ _ _).
    assert (Hg1 : forall j, eg_find g1 j = uf_find u' j) by done.
    assert (Hmc : eg_find g1 mc = eg_find g1 c).
    { rewrite !Hg1, !Hf1. destruct Hids' as [[-> ->]|[-> ->]]; repeat case_decide; congruence. }
    assert (Hco : congT (eg_nodes g) (log_unions (eg_log g)) mc c).
    { destruct (canonf_eq_inv _ _ _ Enn) as (Eop & El & Hpt).
      eapply ct_cong; eauto; try congruence.
      intros k x y Hx Hy.
      specialize (Hpt _ _ _ Hy Hx).
      pose proof (ci_snd _ _ _ _ _ _ _ I3) as Hsnd.
      assert (forall k n i z, eg_nodes g !! k = Some n -> nch n !! i = Some z -> z < length (eg_nodes g)) as Hz.
      { intros k' n' i z Hk' Hz. apply elem_of_list_lookup_2 in Hz.
        pose proof (ci_ch _ _ _ _ _ _ _ I3 _ _ _ Hk' Hz). apply lookup_lt_Some in Hk'. lia. }
      apply ct_trans with (eg_find g x); [eauto|]. rewrite <- Hpt. apply ct_sym. eauto. }
    assert (Hco' : congT (eg_nodes g) (log_unions (eg_log g)) id1 id2).
    { pose proof (ci_snd _ _ _ _ _ _ _ I3) as Hsnd.
      assert (Hq : congT (eg_nodes g) (log_unions (eg_log g)) (eg_find g mc) (eg_find g c)).
      { apply ct_trans with mc; [apply ct_sym, Hsnd; lia|]. apply ct_trans with c; [done|].
        apply Hsnd. lia. }
      destruct Hids' as [[-> ->]|[-> ->]]; [done|by apply ct_sym]. }
    split; auto.
    + cbn. by rewrite Hl', Hl.
    + unfold g1 at 1 3 4 5 6. cbn [eg_log eg_nodes eg_memo eg_pending eg_classes].
      eapply cinv_X; [|eapply (cinv_union _ _ _ (eg_find g) (eg_find g1)); [exact C1|exact Hne|exact E1|exact E2|..]]; auto.
      intros k m Hk (m' & j & Hk' & En & Ej & Efk).
      assert (m' = m) by congruence. subst m'. assert (j = mc) by congruence. subst j.
      destruct (union_canon_or_pending _ _ (eg_find g) (eg_find g1) _ _ _ _ id1 id2 k2 C1 E2 Hf1 k m Hk) as [Ec|?]; [|auto].
      left. exists c. rewrite Ec, En, lookup_insert. split; [done|].
      rewrite <- Hmc. symmetry. eapply coarser_eq; [|exact Efk].
      eapply union_coarser; [exact C1|exact Hf1].
    + cbn. apply union_queue_ok; auto; by eapply parents_lt.
    + cbn. apply (ex_ok_union g (Some JCong) mc c); auto.
Qed.

(** ** The others *)
Lemma set_uf_find_mut (g : egraph) i :
  Inv g -> i < length (eg_uf g) ->
  exists u, eg_find_mut g i = (set_uf u g, eg_find g i) /\ Inv (set_uf u g).
Proof.
  intros I Hi. destruct (eg_find_mut_spec g i) as (u & E & He); [apply I|done|].
  exists u. split; [done|]. by apply Inv_uf.
Qed.

Lemma Inv_setdata i d (g g' : egraph) r : Inv g -> set_data_core i d g = Ok (g', r) -> Inv g'.
Proof.
  intros I E. unfold set_data_core in E. destruct (valid_id g i) eqn:Hv; cbn [negb] in E; [|done].
  apply valid_id_lt in Hv. destruct (set_uf_find_mut g i I Hv) as (u & Eu & Iu). rewrite Eu in E.
  inv_res. apply Inv_apending.
  - cbn. apply uq_extend_ok; [apply I|]. by eapply parents_lt.
  - eapply (Inv_class (set_uf u g)); eauto; done.
Qed.
Lemma Inv_poke i d (g g' : egraph) : Inv g -> poke_data i d g = Ok g' -> Inv g'.
Proof.
  intros I E. unfold poke_data in E. destruct (valid_id g i) eqn:Hv; cbn [negb] in E; [|done].
  apply valid_id_lt in Hv. destruct (set_uf_find_mut g i I Hv) as (u & Eu & Iu). rewrite Eu in E.
  inv_res. eapply (Inv_class (set_uf u g)); eauto; done.
Qed.
Lemma Inv_retain i f (g g' : egraph) : Inv g -> retain_nodes i f g = Ok g' -> Inv g'.
Proof.
  intros I E. unfold retain_nodes in E. destruct (valid_id g i) eqn:Hv; cbn [negb] in E; [|done].
  apply valid_id_lt in Hv. destruct (set_uf_find_mut g i I Hv) as (u & Eu & Iu). rewrite Eu in E.
  inv_res. eapply (Inv_class (set_uf u g)); eauto; try done. cbn. intros n Hn. by apply elem_of_list_filter in Hn as [_ Hn].
Qed.
Lemma Inv_ana id q (g g' : egraph) o :
  Inv g -> uq_pop (eg_apending g) = Some (id, q) -> analysis_core A id (set_apending q g) = Ok (g', o) -> Inv g'.
Proof.
  intros I Eq E. unfold analysis_core in E.
  destruct (uq_pop_ok _ _ _ _ (iv_q _ I) Eq) as [Hq Hid].
  assert (I' : Inv (set_apending q g)) by by apply Inv_apending.
  inv_res. destruct (set_uf_find_mut _ id I') as (u & Eu & Iu).
  { cbn. rewrite <- (iv_len _ I). done. }
  rewrite Eu in E. inv_res.
  destruct (an_merge A _ _) as [d [did1 did2]]. destruct did1; inv_res.
  - apply Inv_apending.
    + cbn. apply uq_extend_ok; [done|]. by eapply parents_lt.
    + eapply (Inv_class (set_uf u (set_apending q g))); eauto; done.
  - eapply (Inv_class (set_uf u (set_apending q g))); eauto; done.
Qed.

Lemma class_children_lt (g : egraph) r c n i :
  Inv g -> eg_classes g !! r = Some c -> n ∈ c_nodes c -> i ∈ nch n -> i < length (eg_nodes g).
Proof.
  intros I Hr Hn Hi. destruct (ci_nodes _ _ _ _ _ _ _ (iv_c _ I) _ _ _ Hr Hn) as (k & m & Hk & _ & En).
  apply elem_of_list_lookup in Hi as [j Hj].
  destruct (canonf_eq_inv _ _ _ En) as (_ & El & Hpt).
  destruct (lookup_lt_is_Some_2 (nch m) j) as [z Hz]. { rewrite <- El. by eapply lookup_lt_Some. }
  specialize (Hpt _ _ _ Hj Hz).
  apply (ci_lt _ _ _ _ _ _ _ (iv_c _ I)). rewrite Hpt. apply (ci_lt _ _ _ _ _ _ _ (iv_c _ I)).
  apply elem_of_list_lookup_2 in Hz. pose proof (ci_ch _ _ _ _ _ _ _ (iv_c _ I) _ _ _ Hk Hz).
  apply lookup_lt_Some in Hk. lia.
Qed.

Lemma Inv_rebuilt (g : egraph) : Inv g -> Inv (rebuild_classes L g).
Proof.
  intros I. destruct (rebuild_classes_spec g) as (u & cls' & ops' & -> & He & Hcls & _).
  { apply I. }
  { intros. rewrite <- (iv_len _ I). by eapply class_children_lt. }
  apply Inv_by_op. apply Inv_classes; [|by apply Inv_uf].
  intros r. cbn. rewrite Hcls. destruct (eg_classes g !! r) as [c|]; cbn; [|done].
  split_and!; auto. intros n' Hn'. apply elem_of_norm_nodes in Hn' as (m & -> & Hm).
  exists m. split; [done|]. unfold eg_find at 1 3. cbn. destruct He as (_ & _ & Hf).
  rewrite !(canonf_ext (uf_find u) (eg_find g)) by done.
  apply canonf_canonf. apply (iv_c _ I).
Qed.

Lemma Inv_prim l g g' : prim L A l g g' -> Inv g -> Inv g'.
Proof.
  destruct 1 as [n g g' id o E|g|n i g|a b r rule g g' o Hr E|c rest g g' o Ep E|id q g g' o Eq E
    |i d g g' r E|i d g g' E|i f g g' E|g Ep Eq]; intros I.
  - by eapply Inv_add.
  - by apply Inv_clean.
  - by apply Inv_log.
  - by eapply Inv_union.
  - by eapply Inv_pend.
  - by eapply Inv_ana.
  - by eapply Inv_setdata.
  - by eapply Inv_poke.
  - by eapply Inv_retain.
  - apply Inv_clean. by apply Inv_rebuilt.
Qed.

Lemma Inv_prims P g g' : prims L A P g g' -> Inv g -> Inv g'.
Proof. apply prims_inv. intros. by eapply Inv_prim. Qed.

Lemma Inv_session fuel ex p g : session L A fuel ex p = Ok g -> Inv g.
Proof.
  intros E. eapply session_prims with (P := any) in E.
  - eapply Inv_prims; eauto. apply Inv_new.
  - intros. apply prog_in_any.
  - apply prog_in_any.
Qed.

End pres.
