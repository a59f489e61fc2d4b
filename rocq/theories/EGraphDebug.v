(** The debug-only consistency check of src/egraph.rs, and the shape of the proof forest
    on reachable e-graphs. *)
From Verif Require Import Base UnionFind EGraphModel EGraphSteps EGraphInv EGraphPres EGraphRuns Spec EGraphMain
  EGraphReach ExplainForest EGraphSafe EGraphNoPanic.

Section debug.
Context {Op D : Type} `{Countable Op}.
Notation node := (node Op).
Notation egraph := (egraph Op D).
Notation eclass := (eclass Op D).

(** src/egraph.rs:1317-1327: one node of one class is put in the test memo. *)
Definition tm_insert (g : egraph) (id : nat) (tm : gmap node nat) (n : node) : res (gmap node nat) :=
  _ ← match tm !! n with
      | Some old => assert (eg_find g old =? eg_find g id)
      | None => Ok tt
      end;
  Ok (<[n := id]> tm).
Fixpoint tm_nodes (g : egraph) (id : nat) (tm : gmap node nat) (ns : list node) : res (gmap node nat) :=
  match ns with
  | [] => Ok tm
  | n :: ns => tm ← tm_insert g id tm n; tm_nodes g id tm ns
  end.
(** src/egraph.rs:1314-1329 *)
Fixpoint tm_classes (g : egraph) (tm : gmap node nat) (cs : list (nat * eclass)) : res (gmap node nat) :=
  match cs with
  | [] => Ok tm
  | (id, c) :: cs =>
      _ ← assert (c_id c =? id);
      tm ← tm_nodes g id tm (c_nodes c);
      tm_classes g tm cs
  end.
(** src/egraph.rs:1331-1339 *)
Fixpoint tm_check (g : egraph) (es : list (node * nat)) : res bool :=
  match es with
  | [] => Ok true
  | (n, e) :: es =>
      _ ← assert (e =? eg_find g e);
      _ ← assert (bool_decide (Some e = eg_find g <$> eg_memo g !! n));
      tm_check g es
  end.
(** src/egraph.rs:1312-1343 [check_memo]; the hash maps are visited in [map_to_list] order
    (a panic in some order is a panic of one of the assertions below). *)
Definition check_memo (g : egraph) : res bool :=
  tm ← tm_classes g ∅ (map_to_list (eg_classes g));
  tm_check g (map_to_list tm).

Context (L : lang Op) (A : analysis Op D).

Definition tm_good (g : egraph) (tm : gmap node nat) : Prop :=
  forall n e, tm !! n = Some e -> exists c, eg_classes g !! e = Some c /\ n ∈ c_nodes c.

Lemma tm_nodes_ok (g : egraph) id c :
  (forall r r' c c' n, eg_classes g !! r = Some c -> n ∈ c_nodes c -> eg_classes g !! r' = Some c' -> n ∈ c_nodes c' -> r = r') ->
  eg_classes g !! id = Some c -> forall ns tm, (forall n, n ∈ ns -> n ∈ c_nodes c) -> tm_good g tm ->
  exists tm', tm_nodes g id tm ns = Ok tm' /\ tm_good g tm'.
Proof.
  intros Hd Hc. induction ns as [|n ns IH]; intros tm Hns Htm; cbn [tm_nodes]; [eauto|].
  unfold tm_insert.
  assert (Ha : match tm !! n with Some old => assert (eg_find g old =? eg_find g id) | None => Ok tt end = Ok tt).
  { destruct (tm !! n) as [old|] eqn:Eo; [|done]. destruct (Htm _ _ Eo) as (c' & Hc' & Hn').
    rewrite (Hd old id c' c n) by (auto using elem_of_list_here). by rewrite Nat.eqb_refl. }
  rewrite Ha. cbn [mbind res_bind]. apply IH; [intros; apply Hns; by right|].
  intros m e Hm. destruct (decide (m = n)) as [->|Hne].
  - rewrite lookup_insert in Hm. injection Hm as <-. exists c. split; [done|]. apply Hns. by left.
  - rewrite lookup_insert_ne in Hm by done. by apply Htm.
Qed.

Lemma check_memo_ok ex (g : egraph) : lang_ok L -> reachable L A ex g -> eg_clean g = true -> check_memo g = Ok true.
Proof.
  intros Lo R Ec. pose proof (reachable_Inv _ _ _ _ R) as I. pose proof (reachable_clean _ _ _ _ R Ec) as Ep.
  assert (Hd : forall r r' c c' n, eg_classes g !! r = Some c -> n ∈ c_nodes c -> eg_classes g !! r' = Some c' -> n ∈ c_nodes c' -> r = r').
  { intros. by eapply reach_disjoint. }
  assert (Hcs : forall cs tm, (forall id c, (id, c) ∈ cs -> eg_classes g !! id = Some c) -> tm_good g tm ->
     exists tm', tm_classes g tm cs = Ok tm' /\ tm_good g tm').
  { induction cs as [|[id c] cs IH]; intros tm Hin Htm; cbn [tm_classes]; [eauto|].
    pose proof (Hin id c ltac:(by left)) as Hc. rewrite (ci_cid _ _ _ _ _ _ _ (iv_c _ I) _ _ Hc), Nat.eqb_refl.
    cbn [assert mbind res_bind]. destruct (tm_nodes_ok g id c Hd Hc (c_nodes c) tm) as (tm' & -> & Htm'); [done|done|].
    cbn [mbind res_bind]. apply IH; [|done]. intros. apply Hin. by right. }
  destruct (Hcs (map_to_list (eg_classes g)) ∅) as (tm & Etm & Htm).
  { intros id c Hic. by apply elem_of_map_to_list in Hic. }
  { intros n e Hn. by rewrite lookup_empty in Hn. }
  unfold check_memo. rewrite Etm. cbn [mbind res_bind].
  assert (Hl : forall es, (forall n e, (n, e) ∈ es -> tm !! n = Some e) -> tm_check g es = Ok true).
  { induction es as [|[n e] es IH]; intros Hin; cbn [tm_check]; [done|].
    destruct (Htm n e) as (c & Hc & Hn); [apply Hin; by left|].
    assert (Hfe : eg_find g e = e) by (apply (ci_cls _ _ _ _ _ _ _ (iv_c _ I)); eauto).
    rewrite Hfe, Nat.eqb_refl. cbn [assert mbind res_bind].
    rewrite bool_decide_eq_true_2.
    - cbn [assert mbind res_bind]. apply IH. intros. apply Hin. by right.
    - symmetry. destruct (ci_nodes _ _ _ _ _ _ _ (iv_c _ I) _ _ _ Hc Hn) as (k & m & Hk & Hm & Em).
      pose proof (proj2 (Inv_memo_clean g n I Ep e)) as Hlk. unfold eg_lookup, lookup_internal in Hlk.
      rewrite canon_canonf in Hlk.
      pose proof (cl_canon _ _ (reach_canonical _ _ _ _ Lo R Ec) _ _ _ Hc Hn) as Hcn.
      rewrite Hcn in Hlk. apply Hlk. exists k, m. split_and!; [done|congruence|done]. }
  apply Hl. intros n e Hne. by apply elem_of_map_to_list in Hne.
Qed.

(** ** The proof forest *)
Lemma edges_ok_in (ns : list node) h es a b j :
  edges_ok ns h es -> (a, b, j) ∈ es ->
  match j with
  | JRule r => EUnion a b r ∈ h
  | JCong => exists n m, ns !! a = Some n /\ ns !! b = Some m /\ nop n = nop m /\ Forall2 (connected es) (nch n) (nch m)
  end.
Proof.
  induction 1 as [|a' b' r es Hnc Hr Hes IH|a' b' n m es Hnc Hn Hm Eo Hc Hes IH]; intros Hin.
  - by apply elem_of_nil in Hin.
  - apply elem_of_cons in Hin as [[= -> -> ->]|Hin]; [done|]. specialize (IH Hin). destruct j; [done|].
    destruct IH as (n & m & Hn & Hm & Eo & Hf). exists n, m. split_and!; auto.
    eapply Forall2_impl; [exact Hf|]. intros. eapply connected_mono; [|done]. intros. by right.
  - apply elem_of_cons in Hin as [[= -> -> ->]|Hin].
    + exists n, m. split_and!; auto. eapply Forall2_impl; [exact Hc|]. intros. eapply connected_mono; [|done]. intros. by right.
    + specialize (IH Hin). destruct j; [done|].
      destruct IH as (n' & m' & Hn' & Hm' & Eo' & Hf). exists n', m'. split_and!; auto.
      eapply Forall2_impl; [exact Hf|]. intros. eapply connected_mono; [|done]. intros. by right.
Qed.

Lemma flink_pl (x : explain Op) i : i < length (ex_find x) -> flink x i (uf_parent (pl (ex_find x)) i).
Proof.
  intros Hi. destruct (lookup_lt_is_Some_2 _ _ Hi) as [nd Hnd]. exists nd. split; [done|].
  unfold uf_parent, pl. rewrite list_lookup_fmap, Hnd. done.
Qed.
Lemma flink_fun (x : explain Op) i j j' : flink x i j -> flink x i j' -> j = j'.
Proof. intros (? & ? & <-) (? & ? & <-). congruence. Qed.
Lemma flink_parent (x : explain Op) i j : flink x i j -> uf_parent (pl (ex_find x)) i = j.
Proof. intros (nd & Hnd & <-). unfold uf_parent, pl. rewrite list_lookup_fmap, Hnd. done. Qed.

Lemma forest_reach ex (g : egraph) x :
  reachable L A ex g -> eg_explain g = Some x ->
  length (ex_find x) = length (eg_uf g) /\
  (forall a b, known g a -> known g b ->
     (eg_find g a = eg_find g b <-> exists r, froot x r /\ rtc (flink x) a r /\ rtc (flink x) b r)) /\
  (forall i nd, ex_find x !! i = Some nd ->
     let c := xn_parent nd in
     cn_next c = i \/ (if cn_fwd c then justified g i (cn_next c) (cn_just c) else justified g (cn_next c) i (cn_just c))) /\
  (forall i nd c, ex_find x !! i = Some nd -> c ∈ xn_neighbors nd ->
     cn_current c = i /\ if cn_fwd c then justified g i (cn_next c) (cn_just c) else justified g (cn_next c) i (cn_just c)).
Proof.
  intros R Ex. destruct (reachable_good _ _ _ _ R) as [I X]. destruct (X x Ex) as (es & X1 & X2 & X3 & X4 & X5).
  assert (Hj : forall a b j, (a, b, j) ∈ es -> justified g a b j).
  { intros a b j Hin. pose proof (edges_ok_in _ _ _ _ _ _ X3 Hin) as He. destruct j; [done|].
    destruct He as (n & m & Hn & Hm & Eo & Hf). exists n, m. split_and!; auto.
    pose proof (ci_ch _ _ _ _ _ _ _ (iv_c _ I)) as Hch. unfold same_children.
    apply Forall2_same_length_lookup_2; [by eapply Forall2_length|]. intros q c d Hc Hd.
    pose proof (Forall2_lookup_lr _ _ _ _ _ _ Hf Hc Hd) as Hcd.
    pose proof (Hch _ _ _ Hn (elem_of_list_lookup_2 _ _ _ Hc)). pose proof (lookup_lt_Some _ _ _ Hn).
    assert (c < length (eg_nodes g)) by lia.
    apply (X4 c d); [done| |done]. rewrite <- X1 in *. by eapply connected_lt. }
  assert (Ha : forall a b j, alt_of (eg_log g) a b j -> justified g a b j).
  { intros a b j (r & -> & Hr). done. }
  unfold known. rewrite <- (iv_len _ I). split_and!; [done| | |].
  - intros a b Ka Kb. rewrite <- X4 by done. rewrite (forest_connected _ _ _ _ _ X2) by lia.
    assert (Hw : forall i r, i < length (eg_nodes g) -> walks (pl (ex_find x)) i r -> froot x r /\ rtc (flink x) i r).
    { intros i r Hi Hw. rewrite <- X1 in Hi. induction Hw as [r Hr|i r Hne Hw IH].
      - split; [|done]. unfold froot. rewrite <- Hr at 2. by apply flink_pl.
      - destruct (fo_wf _ _ _ X2) as (rk & Hrk & Hb).
        assert (Hl : length (pl (ex_find x)) = length (ex_find x)) by (unfold pl; by rewrite fmap_length).
        destruct IH as [IH1 IH2].
        { rewrite <- Hl. apply uf_parent_lt; [by exists rk|]. by rewrite Hl. }
        split; [done|]. eapply rtc_l; [|done]. by apply flink_pl. }
    assert (Hl : length (pl (ex_find x)) = length (ex_find x)) by (unfold pl; by rewrite fmap_length).
    split.
    + intros Hfe. exists (uf_find (pl (ex_find x)) a).
      pose proof (uf_find_walks (pl (ex_find x)) a (fo_wf _ _ _ X2)) as W1.
      pose proof (uf_find_walks (pl (ex_find x)) b (fo_wf _ _ _ X2)) as W2.
      rewrite Hl in *. rewrite <- Hfe in W2. specialize (W1 ltac:(lia)). specialize (W2 ltac:(lia)).
      apply Hw in W1 as [? ?]; [|done]. apply Hw in W2 as [? ?]; [|done]. done.
    + intros (r & Hr & Hr1 & Hr2).
      assert (Hf : forall i, rtc (flink x) i r -> uf_find (pl (ex_find x)) i = r).
      { intros i Hi. induction Hi as [r|i j r Hij _ IH].
        - apply flink_parent in Hr. apply uf_find_root_iff; [apply X2|done].
        - rewrite <- IH by done. apply flink_parent in Hij. subst j. symmetry. apply uf_find_parent. apply X2. }
      by rewrite !Hf.
  - intros i nd Hnd. cbn. destruct (decide (cn_next (xn_parent nd) = i)) as [|Hne]; [by left|right].
    pose proof (fo_par _ _ _ X2 _ _ Hnd Hne) as Hp. cbn in Hp. destruct (cn_fwd _); auto.
  - intros i nd c Hnd Hc. destruct (fo_nb _ _ _ X2 _ _ _ Hnd Hc) as [Hcur Hp]. split; [done|].
    destruct (cn_fwd c); destruct Hp; auto.
Qed.
End debug.
