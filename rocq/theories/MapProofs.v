(** A translated e-graph is the e-graph of the translated client. *)
From stdpp Require Import pmap gmap sorting.
From Verif Require Import Base UnionFind EGraphModel EGraphSteps EGraphInv EGraphPres EGraphRuns Spec EGraphMain EGraphReach MapModel MapSpec.

(** ** Order of [map_to_list] *)
Lemma Pto_list_raw_fmap {A B} (f : A -> B) t : forall j acc,
  Pto_list_raw j (Pfmap_raw f t) (prod_map id f <$> acc) = prod_map id f <$> Pto_list_raw j t acc.
Proof.
  induction t as [|[x|] l IHl r IHr]; intros j acc; cbn; [done| |].
  - rewrite IHr, IHl. done.
  - by rewrite IHr, IHl.
Qed.
Lemma map_to_list_fmap_eq {K A B} `{Countable K} (f : A -> B) (m : gmap K A) : map_to_list (f <$> m) = prod_map id f <$> map_to_list m.
Proof.
  destruct m as [[t Ht] Hm]. unfold map_to_list. cbn. unfold gmap_to_list. cbn. unfold map_to_list, Pto_list. cbn.
  pose proof (Pto_list_raw_fmap f t 1 []) as E. cbn in E. unfold fmap at 2. rewrite E. clear. induction (Pto_list_raw 1 t []) as [|[i x] l IH]; [done|].
  cbn. destruct (decode i); cbn; by rewrite IH.
Qed.
(** ** Sorting *)
Section sort.
Context {A B : Type} (f : A -> B) (R : relation A) (S : relation B) `{!forall x y, Decision (R x y)} `{!forall x y, Decision (S x y)}.
Context (HRS : forall x y, R x y <-> S (f x) (f y)).
Lemma list_merge_fmap l1 : forall l2, list_merge S (f <$> l1) (f <$> l2) = f <$> list_merge R l1 l2.
Proof.
  induction l1 as [|x l1 IH1]; intros l2; [by destruct l2|]. induction l2 as [|y l2 IH2]; [done|].
  rewrite !fmap_cons. rewrite !list_merge_cons. destruct (decide (R x y)) as [Hr|Hr]; [rewrite decide_True by (by apply HRS)|rewrite decide_False by (by rewrite <- HRS)].
  - rewrite fmap_cons. f_equal. rewrite <- fmap_cons. apply IH1.
  - rewrite fmap_cons. f_equal. rewrite <- IH2. done.
Qed.
Notation fo := (fmap (M := list) (fmap (M := option) (fmap (M := list) f))).
Lemma merge_list_to_stack_fmap st : forall l, merge_list_to_stack S (fo st) (f <$> l) = fo (merge_list_to_stack R st l).
Proof.
  induction st as [|[l'|] st IH]; intros l; cbn; [done| |done]. f_equal. rewrite list_merge_fmap. apply IH.
Qed.
Lemma merge_stack_fmap st : merge_stack S (fo st) = f <$> merge_stack R st.
Proof. induction st as [|[l|] st IH]; cbn; [done| |done]. rewrite <- list_merge_fmap. by rewrite <- IH. Qed.
Lemma merge_sort_fmap l : merge_sort S (f <$> l) = f <$> merge_sort R l.
Proof.
  unfold merge_sort. change [] with (fo []) at 1. generalize (@nil (option (list A))). induction l as [|x l IH]; intros st; cbn.
  - apply merge_stack_fmap.
  - rewrite <- IH. f_equal. apply (merge_list_to_stack_fmap st [x]).
Qed.
End sort.

(** ** Simulation *)
Definition rsim {X Y} (R : X -> Y -> Prop) (r1 : res X) (r2 : res Y) : Prop :=
  match r1, r2 with Ok x, Ok y => R x y | Panic, Panic => True | OutOfFuel, OutOfFuel => True | _, _ => False end.
Lemma rsim_bind {X Y X' Y'} (R : X -> Y -> Prop) (S : X' -> Y' -> Prop) r1 r2 f k :
  rsim R r1 r2 -> (forall x y, R x y -> rsim S (f x) (k y)) -> rsim S (r1 ≫= f) (r2 ≫= k).
Proof. destruct r1, r2; cbn; try done. intros HR Hf. by apply Hf. Qed.
Lemma rsim_expect {X Y} (R : X -> Y -> Prop) o1 o2 : option_Forall2 R o1 o2 -> rsim R (expect o1) (expect o2).
Proof. by destruct 1. Qed.

Section sim.
Context {Op Op2 D D2 : Type} `{Countable Op, Countable Op2} (h : Op -> Op2) (hdisc : nat -> nat) (hd : D -> D2).
Context (Hh : Inj eq eq h) (Hdi : Inj eq eq hdisc).
Context (L : lang Op) (L2 : lang Op2) (Hleb : forall a b, l_leb L2 (map_node h a) (map_node h b) = l_leb L a b) (Hdisc : forall f, l_disc L2 (h f) = hdisc (l_disc L f)).
Notation mn := (map_node h).
Notation mg := (map_egraph h hdisc hd).
Instance mn_inj : Inj eq eq mn.
Proof. intros [f cs] [f' cs'] [= E ->]. apply (inj h) in E. by subst. Qed.
Instance hdisc_inj : Inj eq eq hdisc := Hdi.
Instance h_inj : Inj eq eq h := Hh.

Definition M (g : egraph Op D) (g2 : egraph Op2 D2) : Prop := eg_explain g = None /\ g2 = mg g.

Notation psim := (psim h hdisc hd).
Notation asim := (asim h hdisc hd).
Context (A : analysis Op D) (A2 : analysis Op2 D2) (HA : asim A A2).
Implicit Type g : egraph Op D.
Lemma M_mg g : eg_explain g = None -> M g (mg g). Proof. done. Qed.
Lemma find_sim g i : eg_find (mg g) i = eg_find g i. Proof. done. Qed.
Lemma find_mut_sim g i : eg_find_mut (mg g) i = (mg (eg_find_mut g i).1, (eg_find_mut g i).2).
Proof. unfold eg_find_mut. cbn. by destruct (uf_find_mut (eg_uf g) i). Qed.
Lemma find_mut_ex g i : eg_explain (eg_find_mut g i).1 = eg_explain g.
Proof. unfold eg_find_mut. by destruct (uf_find_mut (eg_uf g) i). Qed.
Lemma canon_sim g n : canon (mg g) (mn n) = mn (canon g n). Proof. done. Qed.
Lemma memo_sim g n : eg_memo (mg g) !! mn n = eg_memo g !! n. Proof. cbn. by rewrite (lookup_kmap mn). Qed.
Lemma class_sim g c : eg_classes (mg g) !! c = map_eclass h hd <$> eg_classes g !! c. Proof. cbn. apply lookup_fmap. Qed.
Lemma set_memo_sim g n i : set_memo (<[mn n := i]> (eg_memo (mg g))) (mg g) = mg (set_memo (<[n := i]> (eg_memo g)) g).
Proof. unfold set_memo, map_egraph. cbn. by rewrite (kmap_insert mn). Qed.
Lemma set_class_sim g c k : set_classes (<[c := map_eclass h hd k]> (eg_classes (mg g))) (mg g) = mg (set_classes (<[c := k]> (eg_classes g)) g).
Proof. unfold set_classes, map_egraph. cbn. by rewrite fmap_insert. Qed.
Lemma del_class_sim g c : set_classes (delete c (eg_classes (mg g))) (mg g) = mg (set_classes (delete c (eg_classes g)) g).
Proof. unfold set_classes, map_egraph. cbn. by rewrite fmap_delete. Qed.
Lemma expect_class_sim g c : rsim (fun k k2 => k2 = map_eclass h hd k) (expect (eg_classes g !! c)) (expect (eg_classes (mg g) !! c)).
Proof. rewrite class_sim. by destruct (eg_classes g !! c). Qed.
Definition MP {X} : egraph Op D * X -> egraph Op2 D2 * X -> Prop := fun p p2 => M p.1 p2.1 /\ p2.2 = p.2.

Lemma push_parents_sim id cs : forall g, eg_explain g = None -> rsim M (push_parents id g cs) (push_parents id (mg g) cs).
Proof.
  induction cs as [|c cs IH]; intros g E; cbn [push_parents]; [done|].
  eapply (rsim_bind M); [|intros g1 g2 [E1 ->]; by apply IH].
  unfold push_parent. rewrite find_mut_sim. pose proof (find_mut_ex g c) as Ex. destruct (eg_find_mut g c) as [g1 r]. cbn [fst snd] in *.
  eapply rsim_bind; [apply expect_class_sim|]. intros k k2 ->. split; [by rewrite <- Ex in E|]. exact (set_class_sim g1 r (c_set_parents (c_parents k ++ [id]) k)).
Qed.
Lemma make_new_sim n orig g : eg_explain g = None -> rsim MP (make_new_eclass A n orig g) (make_new_eclass A2 (mn n) (mn orig) (mg g)).
Proof.
  intros E. unfold make_new_eclass. change (eg_uf (mg g)) with (eg_uf g). destruct (uf_make_set (eg_uf g)) as [u id].
  change (set_uf u (mg g)) with (mg (set_uf u g)).
  rewrite (as_make _ _ _ _ _ HA) by done. set (d := an_make A _ _ _).
  assert (set_nodes (eg_nodes (mg (set_uf u g)) ++ [mn orig]) (mg (set_uf u g)) = mg (set_nodes (eg_nodes (set_uf u g) ++ [orig]) (set_uf u g))) as ->.
  { unfold set_nodes, map_egraph. cbn. by rewrite fmap_app. }
  eapply (rsim_bind M); [by apply push_parents_sim|]. intros g1 ? [E1 ->].
  set (g1' := set_pending (id :: eg_pending g1) g1). change (set_pending (id :: eg_pending (mg g1)) (mg g1)) with (mg g1').
  change (EClass id [mn n] (hd d) []) with (map_eclass h hd (EClass id [n] d [])). rewrite set_class_sim.
  set (g1'' := set_classes _ g1'). rewrite memo_sim. destruct (bool_decide _); cbn [assert mbind res_bind]; [|done]. split; [|done]. split; [done|]. exact (set_memo_sim g1'' n id).
Qed.
Definition MP2 {X Y} : egraph Op D * X * Y -> egraph Op2 D2 * X * Y -> Prop := fun p p2 => M p.1.1 p2.1.1 /\ p2.1.2 = p.1.2 /\ p2.2 = p.2.
Lemma add_core_sim n g : eg_explain g = None -> rsim MP2 (add_core A n g) (add_core A2 (mn n) (mg g)).
Proof.
  intros E. unfold add_core. change (forallb (valid_id (mg g)) (nch (mn n))) with (forallb (valid_id g) (nch n)). destruct (forallb _ _); [cbn [negb]|done].
  rewrite canon_sim, memo_sim, E. destruct (eg_memo g !! canon g n) as [ex|]; [done|].
  eapply rsim_bind; [by apply make_new_sim|]. intros [g1 i] [g2 i2] [[E1 E2] E3]. cbn in *. subst. rewrite E1. done.
Qed.
Section md.
Context (md : nat -> egraph Op D -> res (egraph Op D)) (md2 : nat -> egraph Op2 D2 -> res (egraph Op2 D2)).
Context (Hmd : forall i g, eg_explain g = None -> rsim M (md i g) (md2 i (mg g))).
Lemma hook_sim o g : eg_explain g = None -> rsim M (run_hook md o g) (run_hook md2 o (mg g)).
Proof. intros E. destruct o; [by apply Hmd|done]. Qed.
Lemma api_add_sim n g : eg_explain g = None -> rsim MP (api_add A md n g) (api_add A2 md2 (mn n) (mg g)).
Proof.
  intros E. unfold api_add, add_uncanonical. eapply (rsim_bind MP).
  - eapply rsim_bind; [by apply add_core_sim|]. intros [[g1 i] o] [[g2 i2] o2] ([E1 E2] & E3 & E4). cbn in *. subst. destruct o as [hid|]; [|done].
    eapply (rsim_bind M); [by apply Hmd|]. intros g3 ? [E3 ->]. done.
  - intros [g1 i] [g2 i2] [[E1 E2] E3]. cbn in *. by subst.
Qed.
Lemma uq_same g : eg_apending (mg g) = eg_apending g. Proof. done. Qed.
Lemma concat_vecs_sim l1 l2 : concat_vecs (mn <$> l1) (mn <$> l2) = mn <$> concat_vecs l1 l2.
Proof. unfold concat_vecs. rewrite !fmap_length. destruct (decide _); by rewrite fmap_app. Qed.
Lemma pu_core_sim a b j g : eg_explain g = None -> rsim MP (perform_union_core A a b j g) (perform_union_core A2 a b j (mg g)).
Proof.
  intros E. unfold perform_union_core. change (valid_id (mg g)) with (valid_id g). destruct (valid_id g a && valid_id g b); [cbn [negb]|done].
  change (set_clean false (mg g)) with (mg (set_clean false g)). rewrite find_mut_sim.
  pose proof (find_mut_ex (set_clean false g) a) as Ex1. destruct (eg_find_mut (set_clean false g) a) as [g1 id1]. cbn [fst snd] in *.
  rewrite find_mut_sim. pose proof (find_mut_ex g1 b) as Ex2. destruct (eg_find_mut g1 b) as [g3 id2]. cbn [fst snd] in *.
  assert (E3 : eg_explain g3 = None) by (rewrite Ex2, Ex1; done). clear Ex1 Ex2.
  destruct (decide (id1 = id2)) as [->|Hne].
  { rewrite E3. cbn. by destruct j as [[]|]. }
  eapply rsim_bind; [apply expect_class_sim|]. intros k1 ? ->. eapply rsim_bind; [apply expect_class_sim|]. intros k2 ? ->.
  cbn [map_eclass c_parents]. destruct (if length (c_parents k1) <? length (c_parents k2) then (id2, id1) else (id1, id2)) as [i1 i2].
  rewrite E3. change (eg_explain (mg g3)) with (@None (explain Op2)). cbn [mbind res_bind].
  change (set_uf (uf_union (eg_uf (mg g3)) i1 i2).1 (mg g3)) with (mg (set_uf (uf_union (eg_uf g3) i1 i2).1 g3)). set (g4 := set_uf _ g3).
  eapply rsim_bind; [apply expect_class_sim|]. intros c2 ? ->. rewrite del_class_sim. set (g5 := set_classes _ g4).
  eapply rsim_bind; [apply expect_class_sim|]. intros c1 ? ->. cbn [map_eclass c_id c_parents c_data c_nodes].
  destruct (i1 =? c_id c1); [cbn [assert mbind res_bind]|done]. rewrite (as_merge _ _ _ _ _ HA). destruct (an_merge A (c_data c1) (c_data c2)) as [d [d1 d2]]. cbn [fst snd].
  set (g6 := set_pending (reverse (c_parents c2) ++ eg_pending g5) g5).
  change (set_pending (reverse (c_parents c2) ++ eg_pending (mg g5)) (mg g5)) with (mg g6). rewrite uq_same. set (q := if d2 : bool then _ else _).
  set (g7 := set_apending q g6). change (set_apending q (mg g6)) with (mg g7). rewrite concat_vecs_sim.
  change (EClass (c_id c1) (mn <$> concat_vecs (c_nodes c1) (c_nodes c2)) (hd d) (concat_vecs (c_parents c1) (c_parents c2)))
    with (map_eclass h hd (EClass (c_id c1) (concat_vecs (c_nodes c1) (c_nodes c2)) d (concat_vecs (c_parents c1) (c_parents c2)))).
  rewrite set_class_sim. cbn. split; [|done]. split; [|done]. cbn. exact E3.
Qed.
Lemma pu_sim a b j g : eg_explain g = None -> rsim MP (perform_union A md a b j g) (perform_union A2 md2 a b j (mg g)).
Proof.
  intros E. unfold perform_union. eapply rsim_bind; [by apply pu_core_sim|]. intros [g1 o] [g2 o2] [[E1 E2] E3]. cbn in *. subst.
  eapply (rsim_bind M); [by apply hook_sim|]. intros g3 ? [E3 ->]. done.
Qed.
Lemma set_data_sim i d g : eg_explain g = None -> rsim M (set_analysis_data md i d g) (set_analysis_data md2 i (hd d) (mg g)).
Proof.
  intros E. unfold set_analysis_data. eapply (rsim_bind MP); [|intros [g1 r] [g2 r2] [[E1 E2] E3]; cbn in *; subst; by apply Hmd].
  unfold set_data_core. change (valid_id (mg g)) with (valid_id g). destruct (valid_id g i); [cbn [negb]|done]. rewrite find_mut_sim.
  pose proof (find_mut_ex g i) as Ex. destruct (eg_find_mut g i) as [g1 r]. cbn [fst snd] in *. eapply rsim_bind; [apply expect_class_sim|]. intros k ? ->.
  change (c_set_data (hd d) (map_eclass h hd k)) with (map_eclass h hd (c_set_data d k)). rewrite set_class_sim. cbn. split; [|done]. split; [|done]. cbn. by rewrite Ex.
Qed.
Lemma poke_sim i d g : eg_explain g = None -> rsim M (poke_data i d g) (poke_data i (hd d) (mg g)).
Proof.
  intros E. unfold poke_data. change (valid_id (mg g)) with (valid_id g). destruct (valid_id g i); [cbn [negb]|done]. rewrite find_mut_sim.
  pose proof (find_mut_ex g i) as Ex. destruct (eg_find_mut g i) as [g1 r]. cbn [fst snd] in *. eapply rsim_bind; [apply expect_class_sim|]. intros k ? ->.
  change (c_set_data (hd d) (map_eclass h hd k)) with (map_eclass h hd (c_set_data d k)). rewrite set_class_sim. cbn. split; [|done]. cbn. by rewrite Ex.
Qed.
Lemma filter_sim (f : node Op -> bool) (f2 : node Op2 -> bool) (ns : list (node Op)) : (forall n, f2 (mn n) = f n) -> filter (fun n => f2 n = true) (mn <$> ns) = mn <$> filter (fun n => f n = true) ns.
Proof.
  intros Hf. induction ns as [|n ns IH]; [done|]. rewrite fmap_cons, !filter_cons, Hf, IH. by destruct (decide (f n = true)).
Qed.
Lemma retain_sim i f f2 g : (forall n, f2 (mn n) = f n) -> eg_explain g = None -> rsim M (retain_nodes i f g) (retain_nodes i f2 (mg g)).
Proof.
  intros Hf E. unfold retain_nodes. change (valid_id (mg g)) with (valid_id g). destruct (valid_id g i); [cbn [negb]|done]. rewrite find_mut_sim.
  pose proof (find_mut_ex g i) as Ex. destruct (eg_find_mut g i) as [g1 r]. cbn [fst snd] in *. eapply rsim_bind; [apply expect_class_sim|]. intros k ? ->.
  cbn [map_eclass c_nodes]. rewrite (filter_sim f f2) by done.
  split; [by rewrite <- Ex in E|]. exact (set_class_sim g1 r (c_set_nodes (filter (fun n => f n = true) (c_nodes k)) k)).
Qed.
Lemma canon_mut_sim u n : canon_mut u (mn n) = ((canon_mut u n).1, mn (canon_mut u n).2).
Proof. unfold canon_mut. cbn. by destruct (map_find_mut u (nch n)). Qed.
Lemma pending_core_sim c g : eg_explain g = None -> rsim MP (pending_core A c g) (pending_core A2 c (mg g)).
Proof.
  intros E. unfold pending_core. change (eg_nodes (mg g)) with (mn <$> eg_nodes g). change (eg_uf (mg g)) with (eg_uf g). rewrite list_lookup_fmap. destruct (eg_nodes g !! c) as [orig|]; [|done]. cbn [fmap option_fmap option_map expect mbind res_bind].
  rewrite canon_mut_sim. destruct (canon_mut (eg_uf g) orig) as [u nd]. cbn [fst snd]. change (set_uf u (mg g)) with (mg (set_uf u g)). rewrite memo_sim, set_memo_sim.
  destruct (eg_memo _ !! nd) as [mc|]; [|done]. by apply pu_core_sim.
Qed.
Lemma drain_pending_sim fuel : forall k g, eg_explain g = None -> rsim MP (drain_pending A fuel md k g) (drain_pending A2 fuel md2 k (mg g)).
Proof.
  induction fuel as [|fuel IH]; intros k g E; cbn [drain_pending]; change (eg_pending (mg g)) with (eg_pending g); destruct (eg_pending g) as [|c rest]; try done.
  change (set_pending rest (mg g)) with (mg (set_pending rest g)). eapply rsim_bind; [by apply pending_core_sim|]. intros [g1 o] [g2 o2] [[E1 E2] E3]. cbn in E1, E2, E3. subst.
  eapply (rsim_bind M); [by apply hook_sim|]. intros g3 ? [E3 ->]. by apply IH.
Qed.
Lemma analysis_core_sim i g : eg_explain g = None -> rsim MP (analysis_core A i g) (analysis_core A2 i (mg g)).
Proof.
  intros E. unfold analysis_core. change (eg_nodes (mg g)) with (mn <$> eg_nodes g). rewrite list_lookup_fmap. destruct (eg_nodes g !! i) as [nd|]; [|done].
  cbn [fmap option_fmap option_map expect mbind res_bind]. rewrite find_mut_sim. pose proof (find_mut_ex g i) as Ex. destruct (eg_find_mut g i) as [g1 r]. cbn [fst snd] in *.
  rewrite (as_remake _ _ _ _ _ HA) by (by rewrite Ex). eapply rsim_bind; [apply expect_class_sim|]. intros k ? ->. cbn [map_eclass c_data c_parents].
  rewrite (as_merge _ _ _ _ _ HA). destruct (an_merge A (c_data k) _) as [d [d1 d2]]. cbn [fst snd].
  change (c_set_data (hd d) _) with (map_eclass h hd (c_set_data d k)). rewrite set_class_sim.
  destruct d1; cbn; (split; [|done]); (split; [|done]); cbn; by rewrite Ex.
Qed.
Lemma drain_analysis_sim fuel : forall g, eg_explain g = None -> rsim M (drain_analysis A fuel md g) (drain_analysis A2 fuel md2 (mg g)).
Proof.
  induction fuel as [|fuel IH]; intros g E; cbn [drain_analysis]; rewrite uq_same; destruct (uq_pop (eg_apending g)) as [[i q]|]; try done.
  change (set_apending q (mg g)) with (mg (set_apending q g)). eapply rsim_bind; [by apply analysis_core_sim|]. intros [g1 o] [g2 o2] [[E1 E2] E3]. cbn in E1, E2, E3. subst.
  eapply (rsim_bind M); [by apply hook_sim|]. intros g3 ? [E3 ->]. by apply IH.
Qed.
Lemma process_unions_sim fuel inner : forall k g, eg_explain g = None -> rsim MP (process_unions A fuel inner md k g) (process_unions A2 fuel inner md2 k (mg g)).
Proof.
  induction fuel as [|fuel IH]; intros k g E; cbn [process_unions]; change (eg_pending (mg g)) with (eg_pending g); rewrite uq_same; destruct (_ && _); try done.
  eapply rsim_bind; [by apply drain_pending_sim|]. intros [g1 n] [g2 n2] [[E1 E2] E3]. cbn in E1, E2, E3. subst.
  eapply (rsim_bind M); [by apply drain_analysis_sim|]. intros g3 ? [E3 ->]. by apply IH.
Qed.
Lemma dedup_from_sim ns : forall p, dedup_from (mn p) (mn <$> ns) = mn <$> dedup_from p ns.
Proof.
  induction ns as [|n ns IH]; intros p; [done|]. rewrite fmap_cons. cbn [dedup_from]. destruct (decide (n = p)) as [->|Hne]; [rewrite decide_True by done; apply IH|].
  rewrite decide_False by (by intros ?%mn_inj). rewrite fmap_cons. f_equal. apply IH.
Qed.
Lemma dedup_sim ns : dedup (mn <$> ns) = mn <$> dedup ns.
Proof. destruct ns as [|n ns]; [done|]. rewrite fmap_cons. cbn [dedup]. rewrite fmap_cons. f_equal. apply dedup_from_sim. Qed.
Lemma sort_sim ns : sort_nodes L2 (mn <$> ns) = mn <$> sort_nodes L ns.
Proof. apply merge_sort_fmap. intros a b. unfold node_le. by rewrite Hleb. Qed.
Lemma matches_sim a b : node_matches (mn a) (mn b) = node_matches a b.
Proof. unfold node_matches. cbn. f_equal. apply bool_decide_ext. split; [by intros ?%(inj h)|by intros ->]. Qed.
Lemma by_op_add_sim i m n : by_op_add L2 i (kmap hdisc m) (mn n) = kmap hdisc (by_op_add L i m n).
Proof. unfold by_op_add. cbn. rewrite Hdisc, (kmap_insert hdisc), (lookup_kmap hdisc). done. Qed.
Lemma by_op_scan_sim i ns : forall p m, by_op_scan L2 i (mn p) (mn <$> ns) (kmap hdisc m) = kmap hdisc (by_op_scan L i p ns m).
Proof.
  induction ns as [|n ns IH]; intros p m; [done|]. rewrite fmap_cons. cbn [by_op_scan]. rewrite matches_sim. destruct (node_matches p n); [apply IH|]. rewrite by_op_add_sim. apply IH.
Qed.
Lemma by_op_class_sim i ns m : by_op_class L2 i (mn <$> ns) (kmap hdisc m) = kmap hdisc (by_op_class L i ns m).
Proof. destruct ns as [|n ns]; [done|]. rewrite fmap_cons. cbn [by_op_class]. rewrite by_op_add_sim. apply by_op_scan_sim. Qed.
Lemma canon_nodes_sim ns : forall u, canon_nodes_mut u (mn <$> ns) = ((canon_nodes_mut u ns).1, mn <$> (canon_nodes_mut u ns).2).
Proof.
  induction ns as [|n ns IH]; intros u; [done|]. rewrite fmap_cons. cbn [canon_nodes_mut]. rewrite canon_mut_sim. destruct (canon_mut u n) as [u1 n1]. cbn [fst snd].
  rewrite IH. by destruct (canon_nodes_mut u1 ns).
Qed.
Lemma rebuild_class_sim l : forall u cs ops,
  foldl (rebuild_class L2) (u, map_eclass h hd <$> cs, kmap hdisc ops) (prod_map id (map_eclass h hd) <$> l) =
  let '(u, cs, ops) := foldl (rebuild_class L) (u, cs, ops) l in (u, map_eclass h hd <$> cs, kmap hdisc ops).
Proof.
  induction l as [|[c k] l IH]; intros u cs ops; [done|]. rewrite fmap_cons. cbn [foldl]. unfold rebuild_class at 2 4. cbn [prod_map fst snd id map_eclass c_nodes c_id].
  rewrite canon_nodes_sim. destruct (canon_nodes_mut u (c_nodes k)) as [u1 ns]. cbn [fst snd]. rewrite sort_sim, dedup_sim, by_op_class_sim.
  rewrite <- IH. f_equal. by rewrite fmap_insert.
Qed.
Lemma kmap_fmap_const (m : gmap nat (gset nat)) : (fun _ => (∅ : gset nat)) <$> kmap (M2 := gmap nat) hdisc m = kmap hdisc ((fun _ => (∅ : gset nat)) <$> m).
Proof. by rewrite (kmap_fmap hdisc). Qed.
Lemma rebuild_classes_sim g : rebuild_classes L2 (mg g) = mg (rebuild_classes L g).
Proof.
  unfold rebuild_classes. cbn [map_egraph eg_uf eg_classes eg_by_op]. rewrite kmap_fmap_const, map_to_list_fmap_eq, rebuild_class_sim.
  by destruct (foldl _ _ _) as [[u cs] ops].
Qed.
Lemma rebuild_classes_ex g : eg_explain (rebuild_classes L g) = eg_explain g.
Proof. unfold rebuild_classes. by destruct (foldl _ _ _) as [[u cs] ops]. Qed.
Lemma rebuild_sim fuel g : eg_explain g = None -> rsim MP (rebuild L A fuel md g) (rebuild L2 A2 fuel md2 (mg g)).
Proof.
  intros E. unfold rebuild. eapply rsim_bind; [by apply process_unions_sim|]. intros [g1 n] [g2 n2] [[E1 E2] E3]. cbn in E1, E2, E3. subst. cbn. rewrite rebuild_classes_sim.
  split; [|done]. split; [|done]. cbn. by rewrite rebuild_classes_ex.
Qed.
Lemma api_union_sim a b r g : eg_explain g = None -> rsim MP (api_union A md a b r g) (api_union A2 md2 a b r (mg g)).
Proof.
  intros E. unfold api_union, union. change (add_log (EUnion a b r) (mg g)) with (mg (add_log (EUnion a b r) g)).
  change (eg_explain (mg ?x)) with (@None (explain Op2)). cbn [eg_explain add_log]. rewrite E. by apply pu_sim.
Qed.
Lemma run_prog_sim fuel p p2 : psim p p2 -> forall g, eg_explain g = None -> rsim M (run_prog L A fuel md p g) (run_prog L2 A2 fuel md2 p2 (mg g)).
Proof.
  induction 1 as [|k k2 Hk IH|n k k2 Hk IH|a b r k k2 Hk IH|a b r k k2 Hk IH|i d k k2 Hk IH|i d k k2 Hk IH|i f f2 k k2 Hf Hk IH|k k2 Hk IH]; intros g E; cbn [run_prog].
  - done.
  - by apply IH.
  - eapply rsim_bind; [by apply api_add_sim|]. intros [g1 i] [g2 i2] [[E1 E2] E3]. cbn in E1, E2, E3. subst. by apply IH.
  - eapply rsim_bind; [by apply api_union_sim|]. intros [g1 i] [g2 i2] [[E1 E2] E3]. cbn in E1, E2, E3. subst. by apply IH.
  - eapply rsim_bind; [exact (pu_sim a b (Some (JRule r)) (add_log (EUnion a b r) g) E)|]. intros [g1 i] [g2 i2] [[E1 E2] E3]. cbn in E1, E2, E3. subst. by apply IH.
  - eapply (rsim_bind M); [by apply set_data_sim|]. intros g1 ? [E1 ->]. by apply IH.
  - eapply (rsim_bind M); [by apply poke_sim|]. intros g1 ? [E1 ->]. by apply IH.
  - eapply (rsim_bind M); [by apply retain_sim|]. intros g1 ? [E1 ->]. by apply IH.
  - eapply rsim_bind; [by apply rebuild_sim|]. intros [g1 i] [g2 i2] [[E1 E2] E3]. cbn in E1, E2, E3. subst. by apply IH.
Qed.
End md.
Lemma modify_sim fuel : forall i g, eg_explain g = None -> rsim M (modify_n L A fuel i g) (modify_n L2 A2 fuel i (mg g)).
Proof.
  induction fuel as [|fuel IH]; intros i g E; cbn [modify_n]; [done|]. apply run_prog_sim; [exact IH|apply HA|done].
Qed.
Lemma new_sim : mg (eg_new false) = eg_new false.
Proof. unfold map_egraph, eg_new. cbn. by rewrite (kmap_empty mn), (kmap_empty hdisc), fmap_empty. Qed.
Lemma session_sim fuel p p2 g : psim p p2 -> session L A fuel false p = Ok g -> session L2 A2 fuel false p2 = Ok (mg g).
Proof.
  intros Hp E. unfold session in *. rewrite <- new_sim. pose proof (run_prog_sim _ _ (modify_sim fuel) fuel p p2 Hp (eg_new false) eq_refl) as Hs.
  rewrite E in Hs. destruct (run_prog L2 A2 fuel (modify_n L2 A2 fuel) p2 (mg (eg_new false))); [|done|done]. by destruct Hs as [_ ->].
Qed.
Lemma run_prog_mapped fuel p p2 g g' : psim p p2 -> eg_explain g = None ->
  run_prog L A fuel (modify_n L A fuel) p g = Ok g' -> run_prog L2 A2 fuel (modify_n L2 A2 fuel) p2 (mg g) = Ok (mg g') /\ eg_explain g' = None.
Proof.
  intros Hp Ex E. pose proof (run_prog_sim _ _ (modify_sim fuel) fuel p p2 Hp g Ex) as Hs. rewrite E in Hs.
  destruct (run_prog L2 A2 fuel (modify_n L2 A2 fuel) p2 (mg g)); [|done|done]. by destruct Hs as [? ->].
Qed.
End sim.
