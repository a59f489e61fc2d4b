(** The length optimiser shortens explanations. *)
From Verif Require Import Base UnionFind Spec EGraphModel EGraphSteps EGraphInv EGraphPres EGraphRuns EGraphMain EGraphReach EGraphSafe EGraphDirect EGraphNoPanic EGraphDebug ExplainForest Terms RecExprModel ExprModel
  ExplainModel ExplainSpec ExplainPath ExplainProofs ExplainMain ExplainFlat ExtractSpec MatchSpec UnionEqualities OptModel OptSpec OptNeighbours OptSolid OptDist OptPar OptSearch OptMemo OptExplain OptCong OptTarjan OptMono OptMain
  ExplainCount OptShort OptShortPath ShortSpec.

(** ** Equal terms are congruent *)
Section tree.
Context {Op : Type}.
Implicit Types (ns : list (node Op)) (h : list (event Op)).
Lemma tree_Cong ns h t : (forall i n, ns !! i = Some n -> EAdd n i ∈ h) -> forall i j, Tree ns i t -> Tree ns j t -> Cong h i j.
Proof.
  intros Ht. revert t. fix IH 1. intros [f ts] i j Hi Hj.
  inversion Hi as [i' f' cs ts' Gi Hcs]; subst. inversion Hj as [j' f' ds ts' Gj Hds]; subst.
  eapply Cong_cong; [by apply Ht|by apply Ht| |].
  - by rewrite (Forall2_length _ _ _ Hcs), (Forall2_length _ _ _ Hds).
  - clear Gi Gj Hi Hj i j. revert cs ds Hcs Hds. induction ts as [|t ts IHt]; intros cs ds Hcs Hds.
    + inversion Hcs; subst. intros k c d Hk. by rewrite lookup_nil in Hk.
    + inversion Hcs as [|c ? cs' ? Hc Hcs']; subst. inversion Hds as [|d ? ds' ? Hd Hds']; subst. intros [|k] c' d' Hc' Hd'; cbn in Hc', Hd'.
      * injection Hc' as <-. injection Hd' as <-. exact (IH t c d Hc Hd).
      * exact (IHt cs' ds' Hcs' Hds' k c' d' Hc' Hd').
Qed.
Lemma tree_kids ns h t i j : (forall i n, ns !! i = Some n -> EAdd n i ∈ h) -> Tree ns i t -> Tree ns j t ->
  exists f cs ds, EAdd (Node f cs) i ∈ h /\ EAdd (Node f ds) j ∈ h /\ Forall2 (Cong h) cs ds.
Proof.
  intros Ht Hi Hj. inversion Hi as [i' f cs ts Gi Hcs]; subst. inversion Hj as [j' f' ds ts' Gj Hds]; subst. exists f, cs, ds.
  split; [by apply Ht|]. split; [by apply Ht|]. apply Forall2_same_length_lookup. split; [by rewrite (Forall2_length _ _ _ Hcs), (Forall2_length _ _ _ Hds)|].
  intros k c d Hc Hd. destruct (Forall2_lookup_l _ _ _ _ _ Hcs Hc) as (t & Hk & Tc). destruct (Forall2_lookup_l _ _ _ _ _ Hds Hd) as (t' & Hk' & Td).
  rewrite Hk in Hk'. injection Hk' as <-. by eapply tree_Cong.
Qed.
Lemma Cong_mono h h' a b : (forall e, e ∈ h -> e ∈ h') -> Cong h a b -> Cong h' a b.
Proof.
  intros Hs. induction 1 as [i|i j _ IH|i j k _ IH1 _ IH2|a b r Hr|f cs ds i j Hi Hj El Hk IH].
  - apply Cong_refl.
  - by apply Cong_sym.
  - by eapply Cong_trans.
  - eapply Cong_union. eauto.
  - eapply Cong_cong; eauto.
Qed.
Lemma elem_of_adds h n i : EAdd n i ∈ adds h <-> EAdd n i ∈ h.
Proof. unfold adds. rewrite !elem_of_list_In, filter_In. tauto. Qed.
End tree.

(** ** Rule steps are recorded in both directions *)
Section sym.
Context {Op D : Type} `{Countable Op} (L : lang Op) (A : analysis Op D).
Notation egraph := (egraph Op D).
Notation explain := (explain Op).
Definition twoway (x : explain) : Prop := forall a b, rule_nb (x := x) a b -> rule_nb (x := x) b a.
Lemma twoway_pair (x x' : explain) n1 n2 j y z f : (forall i, nbs f i = nbs (ex_find x) i) -> f !! n1 = Some y -> <[n1 := xn_push (Conn n2 n1 j true) y]> f !! n2 = Some z ->
  (forall i, nbs (ex_find x') i = nbs (<[n2 := xn_push (Conn n1 n2 j false) z]> (<[n1 := xn_push (Conn n2 n1 j true) y]> f)) i) -> twoway x -> twoway x'.
Proof.
  intros Hf Hy Hz Hn Ht.
  assert (Hs : forall a b, rule_nb (x := x) a b -> rule_nb (x := x') a b).
  { intros a b (c & Hc & Hcc). exists c. split; [|done]. rewrite Hn. eapply push_pair_sub; eauto. by rewrite Hf. }
  assert (H1 : j <> JCong -> rule_nb (x := x') n1 n2).
  { intros Hj. eexists. split; [rewrite Hn; by eapply push_pair_new|]. done. }
  assert (H2 : j <> JCong -> rule_nb (x := x') n2 n1).
  { intros Hj. exists (Conn n1 n2 j false). split; [|done]. rewrite Hn, (push_pair f n1 n2 j y z n2 Hy Hz). rewrite decide_True by done. apply elem_of_app. right. by left. }
  intros a b (c & Hc & Ec & Ej). rewrite Hn, (push_pair f n1 n2 j y z a Hy Hz) in Hc.
  assert (Hcase : c ∈ nbs (ex_find x) a \/ (a = n1 /\ c = Conn n2 n1 j true) \/ (a = n2 /\ c = Conn n1 n2 j false)).
  { rewrite <- Hf. repeat case_decide; set_solver. }
  destruct Hcase as [Ho|[[-> ->]|[-> ->]]].
  - apply Hs, Ht. exists c. done.
  - cbn in Ec, Ej. subst b. auto.
  - cbn in Ec, Ej. subst b. auto.
Qed.
Lemma twoway_xstep (x x' : explain) : xstep x x' -> twoway x -> twoway x'.
Proof.
  intros S. destruct S as [x n k x' E|x n1 n2 j x' E|x n1 n2 r x' E].
  - unfold ex_add in E. destruct (_ =? k); [|done]. injection E as <-. intros Ht a b (c & Hc & Hcc).
    assert (Hn : forall i, nbs (ex_find x ++ [ExNode [] (Conn k k JCong false)]) i = nbs (ex_find x) i).
    { intros i. unfold nbs. destruct (ex_find x !! i) as [nd|] eqn:Hnd; [by rewrite (lookup_app_l_Some _ _ _ _ Hnd)|].
      destruct ((ex_find x ++ _) !! i) as [nd'|] eqn:Hnd'; [|done]. apply lookup_app_Some in Hnd' as [?|[_ Hl]]; [congruence|].
      by apply list_lookup_singleton_Some in Hl as [_ <-]. }
    cbn [ex_find] in Hc. rewrite Hn in Hc. destruct (Ht a b) as (c' & Hc' & Hcc'); [by exists c|]. exists c'. cbn [ex_find]. by rewrite Hn.
  - unfold ex_union in E. destruct (make_leader _ _ _) as [f0| |] eqn:El; try done. cbn [mbind res_bind] in E.
    pose proof (make_leader_nbs _ _ _ _ El) as Hl.
    destruct (f0 !! n1) as [y|] eqn:Hy; [|done]. cbn [expect mbind res_bind] in E.
    destruct (<[n1:=_]> f0 !! n2) as [z|] eqn:Hz; [|done]. cbn [expect mbind res_bind] in E.
    destruct (<[n2:=_]> _ !! n1) as [w|] eqn:Hw; [|done]. cbn [expect mbind res_bind] in E. injection E as <-.
    eapply (twoway_pair x _ n1 n2 j y z f0 Hl Hy Hz). intros i. cbn [ex_find]. by erewrite nbs_insert_same by eauto.
  - unfold alternate_rewrite in E. case_decide as Hd; [by injection E as <-|].
    destruct (ex_short x !! (n1, n2)) as [[[|[|k]] nx]|]; try (by injection E as <-);
    (destruct (ex_find x !! n1) as [y|] eqn:Hy; [|done]; cbn [expect mbind res_bind] in E;
     destruct (<[n1:=_]> (ex_find x) !! n2) as [z|] eqn:Hz; [|done]; cbn [expect mbind res_bind] in E; injection E as <-;
     by eapply (twoway_pair x _ n1 n2 (JRule r) y z (ex_find x))).
Qed.
Lemma reach_twoway g (x : explain) : reachable L A true g -> eg_explain g = Some x -> twoway x.
Proof.
  intros R%reachable_brun Hx. destruct (xrun_brun L A _ _ _ R (Inv_new _) _ eq_refl) as (x' & Hx' & S). rewrite Hx in Hx'. injection Hx' as <-.
  assert (H0 : twoway (ex_new (Op := Op))). { intros a b (c & Hc & _). unfold nbs in Hc. cbn in Hc. by apply elem_of_nil in Hc. }
  revert H0. clear -S. induction S as [|x y z S _ IH]; [done|]. intros H0. apply IH. by eapply twoway_xstep.
Qed.
End sym.

(** ** The optimised explanation is no longer than any path it could have taken *)
Section main.
Context {Op D : Type} `{Countable Op} (L : lang Op) (A : analysis Op D).
Notation node := (node Op).
Notation egraph := (egraph Op D).
Notation eclass := (eclass Op D).
Notation explain := (explain Op).
Implicit Types (g : egraph) (x : explain).
Context (it : gset nat -> list nat) (Hit : enumerates it) (cit : gmap nat eclass -> list nat).
Section graph.
Context (g : egraph) (R : solid g) (Hcit : traverses g (cit (eg_classes g))).
Context (x : explain) (Hx : eg_explain g = Some x) (es : list edge) (X : xforest (eg_nodes g) (eg_log g) (eg_find g) x es).
Notation ns := (eg_nodes g).
Notation N := (length (ex_find x)).
Notation f := (ex_find x).
Let Hlen : N = length ns := proj1 X.
Let F : forest (alt_of (eg_log g)) (ex_find x) es := proj1 (proj2 X).
Let Hfind : forall a b, a < length ns -> b < length ns -> (connected es a b <-> eg_find g a = eg_find g b) := proj1 (proj2 (proj2 (proj2 X))).
Let Hd : dag ns := solid_dag g R.
Let Hnl i c (Hc : c ∈ nbs (ex_find x) i) : cn_next c < N := proj1 (nb_facts g R x es X i c Hc).
Let Hnbp : nbp (ex_find x) := so_nbp _ R x Hx.

Lemma rule_nb_union a b : rule_nb (x := x) a b -> exists r, EUnion a b r ∈ eg_log g \/ EUnion b a r ∈ eg_log g.
Proof.
  intros (c & Hc & Hn & Hj). unfold nbs in Hc. destruct (f !! a) as [nd|] eqn:Hnd; [|by apply elem_of_nil in Hc]. cbn in Hc.
  destruct (fo_nb _ _ _ F a nd c Hnd Hc) as [_ Hnb]. rewrite Hn in Hnb. pose proof (proj1 (proj2 (proj2 X))) as X3. destruct (cn_just c) as [r|] eqn:Ej; [|done]. exists r.
  destruct (cn_fwd c).
  - left. destruct Hnb as [He|(r' & [= <-] & Hu)]; [|done]. exact (edges_ok_in _ _ _ _ _ _ X3 He).
  - right. destruct Hnb as [He|(r' & [= <-] & Hu)]; [|done]. exact (edges_ok_in _ _ _ _ _ _ X3 He).
Qed.
Context (Qb : forall i nd, f !! i = Some nd -> cn_next (xn_parent nd) <> i -> cn_just (xn_parent nd) = JCong ->
  ~ rule_nb (x := x) i (cn_next (xn_parent nd)) /\ ~ rule_nb (x := x) (cn_next (xn_parent nd)) i).
Context (Qa : forall a b t, rule_nb (x := x) a b -> Tree ns a t -> ~ Tree ns b t).
Context (cn : list (list nat)) (b0 : nat) (Hcn : cn_ok (ns := ns) (x := x) (es := es) cn).
Context (Hb0 : forall fuel x', b0 <= fuel -> ex_find x' = ex_find x -> find_congruence_neighbors it cit fuel x' ns (eg_classes g) (eg_uf g) = Ok cn).
Lemma opt_cost x1 pop fuel l r g2 p : good g x es cn x1 -> pops_min pop ->
  explain_id_equivalence_opt it cit pop fuel l r (set_explain (Some x1) g) = Ok (g2, p) ->
  l < N /\ r < N /\ connected es l r /\ pcount p <= Dst ns x es l r /\ forall cs, walk (x := x) cn l cs r -> pcount p <= sum_list (Cost ns x es <$> cs).
Proof.
  intros (E1 & E2 & Hm) Hpop E. destruct (opt_known it cit g R x es X x1 pop fuel l r _ E) as (Hl & Hr & Hlr).
  assert (Hc : connected es l r) by (apply Hfind; [lia|lia|done]). split; [done|]. split; [done|]. split; [done|].
  pose proof (explain_opt_okle it cit pop l r (set_explain (Some x1) g) fuel
    (Nat.max fuel (S (b0 + length es + N + S (S (sumf (wdeg (x := x1) cn) N))))) ltac:(lia) _ E) as E'. clear E. revert E'. generalize (Nat.le_max_r fuel (S (b0 + length es + N + S (S (sumf (wdeg (x := x1) cn) N))))).
  generalize (Nat.max fuel (S (b0 + length es + N + S (S (sumf (wdeg (x := x1) cn) N))))). clear fuel. intros fuel Hfu E.
  unfold explain_id_equivalence_opt in E. change (eg_find (set_explain (Some x1) g)) with (eg_find g) in E. rewrite bool_decide_eq_true_2 in E by done.
  cbn [eg_explain set_explain expect mbind res_bind eg_nodes eg_classes eg_uf] in E.
  destruct (shortest_first it Hit cit g R Hcit x Hx es X cn b0 Hcn Hb0 (memo_ok (ns := ns) (x := x) (es := es) cn) x1 pop l r (memo_populate (X_world Hd X) cn) E1 Hm Hpop Hl Hr Hlr fuel Hfu) as (sh & Es & Hsh & Hfst).
  rewrite Es in E. cbn [mbind res_bind] in E. set (x2 := Explain (ex_find x1) (ex_memo x1) sh) in *.
  destruct (explain_enodes fuel x2 ns l r ∅) as [[p' ca']| |] eqn:Ee; try done. cbn [mbind res_bind] in E. injection E as _ ->.
  destruct (enodes_count Hd X x2 E1 le Nat.le_refl Nat.le_trans Nat.add_le_mono) with (fuel := fuel) (l := l) (r := r) (ca := (∅ : gmap (nat * nat) (ttree Op))) (p := p) (ca' := ca') as (Hdst & _ & lc & rc & Ep & Hpth).
  { intros l' r' lc rc Hl' Hr' Hc' Ep. destruct (upper_path Hd X Hnl Hnbp Qb x2 E1 Qa cn Hcn Hsh l' r' lc rc Hl' Hr' Hc' Ep) as (H1 & H2 & _). done. }
  { done. } { done. } { done. }
  { intros a b t Ht. by rewrite lookup_empty in Ht. }
  { exact Ee. }
  split; [exact Hdst|]. intros cs Hw. destruct (upper_path Hd X Hnl Hnbp Qb x2 E1 Qa cn Hcn Hsh l r lc rc Hl Hr Hc Ep) as (_ & _ & H3).
  destruct Hfst as [(k & [_ Hk] & Hle)|Hfst].
  - specialize (Hk cs Hw). lia.
  - etrans; [exact Hpth|]. apply H3; [|exact Hw]. destruct Hfst as [?|[? Hs]]; [by right|]. left. cbn [ex_short x2]. by rewrite Hs.
Qed.
End graph.

Lemma solid_added g : solid g -> forall i n, eg_nodes g !! i = Some n -> EAdd n i ∈ eg_log g.
Proof. intros S i n Hn. by apply (so_exact _ S). Qed.
Lemma solid_Cong g a b : solid g -> a < length (eg_nodes g) -> b < length (eg_nodes g) -> eg_find g a = eg_find g b -> Cong (eg_log g) a b.
Proof.
  intros S Ha Hb Hab. pose proof (go_inv _ (so_good _ S)) as I. apply congT_Cong; [intros k m; by apply (so_exact _ S)|].
  apply ct_trans with (eg_find g a); [by apply (ci_snd _ _ _ _ _ _ _ (iv_c _ I))|].
  rewrite Hab. apply ct_sym. by apply (ci_snd _ _ _ _ _ _ _ (iv_c _ I)).
Qed.
Lemma Forall2_Cong_sym (h : list (event Op)) cs ds : Forall2 (Cong h) cs ds -> Forall2 (Cong h) ds cs.
Proof. intros Hf. apply Forall2_flip. eapply Forall2_impl; [exact Hf|]. intros. by apply Cong_sym. Qed.
Lemma informative_union (h : list (event Op)) a b r fo cs ds : informative h -> EUnion a b r ∈ h \/ EUnion b a r ∈ h ->
  EAdd (Node fo cs) a ∈ h -> EAdd (Node fo ds) b ∈ h -> Forall2 (Cong h) cs ds -> False.
Proof. intros Hi [Hu|Hu] Ha Hb Hf; [by eapply Hi|]. eapply Hi; [exact Hu|exact Hb|exact Ha|]. by apply Forall2_Cong_sym. Qed.
Lemma informative_terms g x es : solid g -> xforest (eg_nodes g) (eg_log g) (eg_find g) x es -> informative (eg_log g) ->
  forall a b t, rule_nb (x := x) a b -> Tree (eg_nodes g) a t -> ~ Tree (eg_nodes g) b t.
Proof.
  intros S X Hi a b t Hr Ha Hb. destruct (rule_nb_union g x es X a b Hr) as (r & Hu).
  destruct (tree_kids _ _ t a b (solid_added g S) Ha Hb) as (fo & cs & ds & Ea & Eb & Hf). by eapply informative_union.
Qed.
Lemma link_congruent g x es i nd : solid g -> xforest (eg_nodes g) (eg_log g) (eg_find g) x es ->
  ex_find x !! i = Some nd -> cn_next (xn_parent nd) <> i -> cn_just (xn_parent nd) = JCong ->
  exists fo cs ds, EAdd (Node fo cs) i ∈ eg_log g /\ EAdd (Node fo ds) (cn_next (xn_parent nd)) ∈ eg_log g /\ Forall2 (Cong (eg_log g)) cs ds.
Proof.
  intros S (Hlen & F & X3 & Hfind & _) Hnd Hne Hj. pose proof (fo_par _ _ _ F _ _ Hnd Hne) as He. cbn zeta in He. rewrite Hj in He.
  assert (Hkids : forall a b, (a, b, JCong) ∈ es -> exists fo cs ds, EAdd (Node fo cs) a ∈ eg_log g /\ EAdd (Node fo ds) b ∈ eg_log g /\ Forall2 (Cong (eg_log g)) cs ds).
  { intros a b Hin. destruct (edges_ok_in _ _ _ _ _ _ X3 Hin) as ([fo cs] & [fo' ds] & Hn & Hm & Eo & Hf). cbn in Eo, Hf. subst fo'. exists fo, cs, ds.
    split; [by apply (so_exact _ S)|]. split; [by apply (so_exact _ S)|]. pose proof (solid_dag _ S) as Hd.
    apply Forall2_same_length_lookup. split; [by eapply Forall2_length|]. intros k c d Hc Hdd.
    pose proof (Hd _ _ c Hn ltac:(by eapply elem_of_list_lookup_2)). pose proof (Hd _ _ d Hm ltac:(by eapply elem_of_list_lookup_2)).
    apply lookup_lt_Some in Hn, Hm. apply solid_Cong; [done|lia|lia|]. apply Hfind; [lia|lia|]. by eapply Forall2_lookup_lr. }
  destruct (cn_fwd (xn_parent nd)); [by apply Hkids|]. destruct (Hkids _ _ He) as (fo & cs & ds & Ha & Hb & Hf). exists fo, ds, cs.
  split; [done|]. split; [done|]. by apply Forall2_Cong_sym.
Qed.
Lemma informative_links g x es : solid g -> xforest (eg_nodes g) (eg_log g) (eg_find g) x es -> informative (eg_log g) ->
  forall i nd, ex_find x !! i = Some nd -> cn_next (xn_parent nd) <> i -> cn_just (xn_parent nd) = JCong ->
  ~ rule_nb (x := x) i (cn_next (xn_parent nd)) /\ ~ rule_nb (x := x) (cn_next (xn_parent nd)) i.
Proof.
  intros S X Hi i nd Hnd Hne Hj. destruct (link_congruent g x es i nd S X Hnd Hne Hj) as (fo & cs & ds & Ha & Hb & Hf).
  split; intros (r & Hu)%(rule_nb_union g x es X).
  - by eapply informative_union.
  - eapply informative_union; [exact Hi| |exact Ha|exact Hb|exact Hf]. destruct Hu; [right|left]; eassumption.
Qed.
Lemma union_rule_nb g x es a b r : reachable L A true g -> eg_explain g = Some x -> xforest (eg_nodes g) (eg_log g) (eg_find g) x es ->
  a <> b -> EUnion a b r ∈ eg_log g \/ EUnion b a r ∈ eg_log g -> rule_nb (x := x) a b.
Proof.
  intros R Hx X Hne Hu. destruct (reach_Cov L A true g R x Hx) as [Hcov _].
  assert (Hc : covered x a b) by (destruct Hu as [Hu|Hu]; [by eapply Hcov|]; apply covered_sym; by eapply Hcov).
  assert (Hor : forall a b r, (a, b, r) ∈ union_equalities x -> rule_nb (x := x) a b).
  { intros a' b' r' (i & Hi)%elem_of_ue. assert (i = a') as ->.
    { unfold nbs in Hi. destruct (ex_find x !! i) as [nd|] eqn:Hnd; [|by apply elem_of_nil in Hi]. cbn in Hi.
      destruct (fo_nb _ _ _ (proj1 (proj2 X)) i nd _ Hnd Hi) as [Ec _]. by cbn in Ec. }
    eexists. split; [exact Hi|]. done. }
  destruct Hc as (r' & [Hr|Hr]); [by eapply Hor|]. apply (reach_twoway L A g x R Hx). by eapply Hor.
Qed.
Lemma unions_walk g x es cn l r k : reachable L A true g -> eg_explain g = Some x -> xforest (eg_nodes g) (eg_log g) (eg_find g) x es ->
  informative (eg_log g) -> unions (eg_log g) l r k -> exists cs, walk (x := x) cn l cs r /\ sum_list (Cost (eg_nodes g) x es <$> cs) = k.
Proof.
  intros R Hx X Hi. pose proof (reachable_solid L A g R) as S. induction 1 as [a|a b c r k Hu _ (cs & Hw & Hk)]; [exists []; split; [constructor|done]|].
  destruct (decide (a = b)) as [->|Hne].
  { exfalso. assert (Hb : b < length (eg_nodes g)). { pose proof (go_inv _ (so_good _ S)) as I. destruct (iv_log _ I b b) as [? _]; [exists r; tauto|done]. }
    destruct (lookup_lt_is_Some_2 _ _ Hb) as [[fo cs0] Hn]. pose proof (solid_added g S _ _ Hn) as Ha.
    eapply informative_union; [exact Hi|exact Hu|exact Ha|exact Ha|]. apply Forall_Forall2_diag, Forall_true. intros. apply Cong_refl. }
  destruct (union_rule_nb g x es a b r R Hx X Hne Hu) as (cc & Hc & En & Ej). exists (cc :: cs). split.
  - econstructor; [left; split; [exact Hc|exact Ej]|]. by rewrite En.
  - rewrite fmap_cons. change (sum_list (?a :: ?l)) with (a + sum_list l). rewrite (Cost_rule cc Ej). lia.
Qed.
Theorem optimised_upper pop fuel g g1 g2 l r t u p fl k :
  reachable L A true g -> traverses g (cit (eg_classes g)) -> explained it cit g g1 -> pops_min pop ->
  AddedAs (eg_log g) l t -> AddedAs (eg_log g) r u -> informative (eg_log g) -> unions (eg_log g) l r k ->
  explain_id_equivalence_opt it cit pop fuel l r g1 = Ok (g2, p) -> make_flat p = Ok fl -> length fl <= S k.
Proof.
  intros R Hcit Hg1 Hpop Ht Hu Hi Hk E Ef. pose proof (reachable_solid L A _ R) as S. destruct (opt_congs it Hit cit g S Hcit) as (x & es & Hx & X & cn & b0 & Hcn & Hb0).
  destruct (explained_good it Hit cit g S Hcit x Hx es X cn b0 Hcn Hb0 g1 (reach_Direct L A true g R) Hg1) as (x1 & G1 & ->).
  destruct (opt_cost g S Hcit x Hx es X (informative_links g x es S X Hi) (informative_terms g x es S X Hi) cn b0 Hcn Hb0 x1 pop fuel l r g2 p G1 Hpop E) as (Hl & Hr & _ & _ & Hw).
  destruct (unions_walk g x es cn l r k R Hx X Hi Hk) as (cs & Hcs & Ecs). specialize (Hw cs Hcs).
  assert (Hlr : eg_find g l = eg_find g r) by (by destruct (opt_known it cit g S x es X x1 pop fuel l r _ E) as (_ & _ & ?)).
  destruct (opt_step it Hit cit g S Hcit x Hx es X cn b0 Hcn Hb0 x1 pop l r G1 Hpop Hl Hr Hlr) as [b Hb].
  destruct (Hb (Nat.max b fuel) ltac:(lia)) as (x2 & p2 & E2 & G2 & E3).
  pose proof (explain_opt_okle it cit pop l r (set_explain (Some x1) g) fuel (Nat.max b fuel) ltac:(lia) _ E) as E4. rewrite E2 in E4. injection E4 as _ ->.
  rewrite (flat_length _ p t u fl (explain_sound L A g x x2 _ l r p t u R Hx (proj1 G2) E3 Ht Hu) Ef). lia.
Qed.
End main.
