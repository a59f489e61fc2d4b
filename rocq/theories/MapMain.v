(** What a translated e-graph represents; translated e-graphs are reachable in the target
    language. *)
From Verif Require Import Base UnionFind EGraphModel EGraphSteps EGraphInv EGraphPres EGraphRuns Spec EGraphMain EGraphReach FromNodes MapModel MapSpec MapProofs.

Section main.
Context {Op Op2 D D2 : Type} `{Countable Op, Countable Op2} (h : Op -> Op2) (hdisc : nat -> nat) (hd : D -> D2).
Notation mn := (map_node h).
Notation mg := (map_egraph h hdisc hd).
Implicit Type g : egraph Op D.

Lemma mapped_content g c : eg_classes (mg g) !! c = (fun k => EClass (c_id k) (mn <$> c_nodes k) (hd (c_data k)) (c_parents k)) <$> eg_classes g !! c.
Proof. cbn. apply lookup_fmap. Qed.
Lemma mapped_Rep g t c : Rep g t c -> Rep (mg g) (tmap h t) c.
Proof.
  revert t c. apply (Rep_ind' g (fun t c => Rep (mg g) (tmap h t) c)). intros f ts cs r cl Hcl Hin _ IH. cbn [tmap].
  eapply Rep_node with (cs := cs); [rewrite mapped_content, Hcl; done| |].
  - cbn. apply elem_of_list_fmap. by exists (Node f cs).
  - apply Forall2_fmap_l. exact IH.
Qed.
Lemma mapped_Rep_inv g t2 c : Rep (mg g) t2 c -> exists t, t2 = tmap h t /\ Rep g t c.
Proof.
  revert t2 c. apply (Rep_ind' (mg g) (fun t2 c => exists t, t2 = tmap h t /\ Rep g t c)). intros f ts cs r cl Hcl Hin _ IH.
  rewrite mapped_content in Hcl. apply fmap_Some in Hcl as (k & Hk & ->). cbn in Hin. apply elem_of_list_fmap in Hin as ([f0 cs0] & [= -> ->] & Hin). cbn in IH.
  assert (exists ts0, ts = tmap h <$> ts0 /\ Forall2 (fun t x => Rep g t (eg_find g x)) ts0 cs0) as (ts0 & -> & Hts).
  { clear -IH. induction IH as [|t x ts xs (t0 & -> & Ht) _ (ts0 & -> & IH)]; [by exists []|]. exists (t0 :: ts0). split; [done|]. by constructor. }
  exists (TNode f0 ts0). split; [done|]. by eapply Rep_node.
Qed.
Lemma tmap_inj : (forall f f', h f = h f' -> f = f') -> forall t u, tmap h t = tmap h u -> t = u.
Proof.
  intros Hh. fix IH 1. intros [f ts] [f' us] [= Ef E]. apply Hh in Ef. subst. f_equal. revert us E.
  induction ts as [|t ts IHt]; intros [|u us] E; try done. injection E as E1 E2. f_equal; [by apply IH|by apply IHt].
Qed.
Lemma mapped_exact g : (forall f f', h f = h f' -> f = f') -> forall t c, Rep (mg g) (tmap h t) c <-> Rep g t c.
Proof.
  intros Hh t c. split; [|apply mapped_Rep]. intros (t0 & E & Hr)%mapped_Rep_inv. apply (tmap_inj Hh) in E. by subst.
Qed.
Lemma mapped_lookup g n : (forall f f', h f = h f' -> f = f') -> eg_lookup (mg g) (mn n) = eg_lookup g n.
Proof.
  intros Hh. unfold eg_lookup, lookup_internal. rewrite (canon_sim h hdisc hd). rewrite (memo_sim h hdisc hd Hh). done.
Qed.

Lemma mapped_all g :
  (forall i, eg_find (mg g) i = eg_find g i) /\ (forall i, known (mg g) i <-> known g i) /\ eg_clean (mg g) = eg_clean g /\
  (forall c k, eg_classes g !! c = Some k -> exists k2, eg_classes (mg g) !! c = Some k2 /\ c_id k2 = c_id k /\ c_data k2 = hd (c_data k) /\
    c_nodes k2 = (fun n => Node (h (nop n)) (nch n)) <$> c_nodes k) /\
  (forall c, eg_classes g !! c = None -> eg_classes (mg g) !! c = None) /\
  (forall t2 c, Rep (mg g) t2 c <-> exists t, t2 = tmap h t /\ Rep g t c) /\
  ((forall f f', h f = h f' -> f = f') -> (forall t c, Rep (mg g) (tmap h t) c <-> Rep g t c) /\
     forall f cs, eg_lookup (mg g) (Node (h f) cs) = eg_lookup g (Node f cs)).
Proof.
  split; [done|]. split; [done|]. split; [done|]. split; [|split; [|split]].
  - intros c k Hk. rewrite mapped_content, Hk. eexists. split; [done|]. done.
  - intros c Hk. by rewrite mapped_content, Hk.
  - intros t2 c. split; [apply mapped_Rep_inv|]. intros (t & -> & Hr). by apply mapped_Rep.
  - intros Hh. split; [by apply mapped_exact|]. intros f cs. by apply (mapped_lookup g (Node f cs)).
Qed.

(** ** Reachability, with inverses of the translations *)
Context (hinv : Op2 -> Op) (hdinv : D2 -> D) (dinv : nat -> nat).
Context (Hinv : forall f, hinv (h f) = f) (Hdinv : forall d, hdinv (hd d) = d) (Hddinv : forall d, dinv (hdisc d) = d).
Definition umap (g2 : egraph Op2 D2) : egraph Op D := map_egraph hinv dinv hdinv g2.
Lemma kmap_inv {K K2 V} `{Countable K, Countable K2} (f : K -> K2) (i : K2 -> K) (m : gmap K V) :
  (forall x, i (f x) = x) -> kmap (M2 := gmap K) i (kmap (M2 := gmap K2) f m) = m.
Proof.
  intros Hi. assert (Inj eq eq f) by (intros a b E; rewrite <- (Hi a), <- (Hi b); by rewrite E).
  unfold kmap at 1. rewrite <- (list_to_map_to_list m) at 2.
  assert (P : prod_map i id <$> map_to_list (kmap (M2 := gmap K2) f m) ≡ₚ map_to_list m).
  { unfold kmap. rewrite map_to_list_to_map by (rewrite <- list_fmap_compose; change (fst ∘ prod_map f id) with (f ∘ (fst (B := V) (A := K))); rewrite list_fmap_compose; apply NoDup_fmap_2, NoDup_fst_map_to_list; done).
    rewrite <- list_fmap_compose. erewrite list_fmap_ext; [by rewrite list_fmap_id|]. intros ? [x y] _. cbn. unfold id. by rewrite Hi. }
  apply list_to_map_proper; [|done]. rewrite P. apply NoDup_fst_map_to_list.
Qed.
Lemma umap_mg g : eg_explain g = None -> umap (mg g) = g.
Proof.
  intros E. unfold umap, map_egraph. cbn. rewrite !kmap_inv by (first [done|intros [f cs]; unfold map_node; cbn; by rewrite Hinv]).
  destruct g as [x u ns m pe ap cs by_op cl lg]. cbn in *. subst. f_equal.
  - rewrite <- list_fmap_compose. rewrite <- (list_fmap_id ns) at 2. apply list_fmap_ext. intros ? [f l] _. unfold map_node. cbn. by rewrite Hinv.
  - rewrite <- map_fmap_compose. rewrite <- (map_fmap_id cs) at 2. apply map_fmap_ext. intros c [i ns0 d ps] _. unfold map_eclass. cbn. rewrite Hdinv. unfold id. f_equal.
    rewrite <- list_fmap_compose. rewrite <- (list_fmap_id ns0) at 2. apply list_fmap_ext. intros ? [f l] _. unfold map_node. cbn. by rewrite Hinv.
  - rewrite <- list_fmap_compose. rewrite <- (list_fmap_id lg) at 2. apply list_fmap_ext. intros ? [[f l] i|a b r] _; unfold map_event, map_node; cbn; by rewrite ?Hinv.
Qed.
(** the same client in the target language *)
Fixpoint trans (p : prog Op D) : prog Op2 D2 :=
  match p with
  | PRet => PRet
  | PLook k => PLook (fun x => trans (k (umap x)))
  | PAdd n k => PAdd (mn n) (fun i => trans (k i))
  | PUnion a b r k => PUnion a b r (fun v => trans (k v))
  | PUnionTrusted a b r k => PUnionTrusted a b r (fun v => trans (k v))
  | PSetData i d k => PSetData i (hd d) (trans k)
  | PPoke i d k => PPoke i (hd d) (trans k)
  | PRetain i f k => PRetain i (fun n => f (map_node hinv n)) (trans k)
  | PRebuild k => PRebuild (fun n => trans (k n))
  end.
Lemma trans_sim p : psim h hdisc hd p (trans p).
Proof.
  induction p; cbn [trans]; constructor; auto.
  - intros g E. by rewrite umap_mg.
  - intros [f0 cs]. unfold map_node. cbn. by rewrite Hinv.
Qed.
Lemma trans_np p : no_prune p -> no_prune (trans p).
Proof. induction p; cbn; auto. Qed.
Context (L : lang Op) (L2 : lang Op2) (HL : lang_sim h hdisc L L2) (A : analysis Op D) (A2 : analysis Op2 D2) (HA : asim h hdisc hd A A2).
Lemma mapped_reach (Q : prog Op D -> Prop) (Q2 : prog Op2 D2 -> Prop) g : (forall p, Q p -> Q2 (trans p)) ->
  reach L A Q false g -> eg_explain g = None /\ reach L2 A2 Q2 false (mg g).
Proof.
  intros HQ. destruct HL as [H1 H2 H3 H4]. induction 1 as [|fuel p g g' _ [Ex IH] Hp E].
  - split; [done|]. rewrite (new_sim h hdisc hd). apply reach_new.
  - destruct (run_prog_mapped h hdisc hd H1 H2 L L2 H3 H4 A A2 HA fuel p (trans p) g g' (trans_sim p) Ex E) as [E2 Ex'].
    split; [done|]. eapply reach_run; [exact IH|by apply HQ|exact E2].
Qed.
Lemma mapped_reachable g : reachable L A false g -> reachable L2 A2 false (mg g).
Proof. intros R. by eapply mapped_reach in R as [_ R]. Qed.
Lemma mapped_reachable_np g : (forall i, no_prune (an_modify A2 i)) -> reachable_np L A false g -> reachable_np L2 A2 false (mg g).
Proof. intros Hn [_ R]. split; [done|]. eapply mapped_reach in R as [_ R]; [exact R|exact trans_np]. Qed.
End main.

Lemma mapped_session {Op Op2 D D2} `{Countable Op, Countable Op2} (h : Op -> Op2) hdisc (hd : D -> D2) (L : lang Op) (L2 : lang Op2) A A2 fuel p p2 g :
  lang_sim h hdisc L L2 -> asim h hdisc hd A A2 -> psim h hdisc hd p p2 ->
  session L A fuel false p = Ok g -> session L2 A2 fuel false p2 = Ok (map_egraph h hdisc hd g).
Proof. intros [H1 H2 H3 H4] HA Hp. exact (session_sim h hdisc hd H1 H2 L L2 H3 H4 A A2 HA fuel p p2 g Hp). Qed.
Lemma mapped_continue {Op Op2 D D2} `{Countable Op, Countable Op2} (h : Op -> Op2) hdisc (hd : D -> D2) (L : lang Op) (L2 : lang Op2) A A2 fuel p p2 (g : egraph Op D) :
  lang_sim h hdisc L L2 -> asim h hdisc hd A A2 -> psim h hdisc hd p p2 -> eg_explain g = None ->
  match run_prog L A fuel (modify_n L A fuel) p g, run_prog L2 A2 fuel (modify_n L2 A2 fuel) p2 (map_egraph h hdisc hd g) with
  | Ok g', Ok g2' => g2' = map_egraph h hdisc hd g'
  | Panic, Panic | OutOfFuel, OutOfFuel => True
  | _, _ => False
  end.
Proof.
  intros [H1 H2 H3 H4] HA Hp Ex.
  pose proof (run_prog_sim h hdisc hd H1 H2 L L2 H3 H4 A A2 HA _ _ (modify_sim h hdisc hd H1 H2 L L2 H3 H4 A A2 HA fuel) fuel p p2 Hp g Ex) as Hs.
  unfold rsim in Hs. destruct (run_prog L _ _ _ _ _), (run_prog L2 _ _ _ _ _); try done. exact (proj2 Hs).
Qed.
