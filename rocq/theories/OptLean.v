(** Without redundant unions the rule steps recorded are the links of the proof forest, and the
    length optimiser never lengthens an explanation. *)
From Verif Require Import Base UnionFind Spec EGraphModel EGraphSteps EGraphInv EGraphPres EGraphRuns EGraphMain EGraphReach EGraphSafe EGraphDirect EGraphNoPanic EGraphDebug ExplainForest Terms RecExprModel ExprModel
  ExplainModel ExplainSpec ExplainPath ExplainProofs ExplainMain ExplainFlat ExtractSpec MatchSpec UnionEqualities OptModel OptSpec OptNeighbours OptSolid OptDist OptPar OptSearch OptMemo OptExplain OptCong OptTarjan OptMono OptMain
  ExplainCount OptShort OptShortPath ShortSpec OptShortMain.

Section lean.
Context {Op D : Type} `{Countable Op} (L : lang Op) (A : analysis Op D).
Notation egraph := (egraph Op D).
Notation explain := (explain Op).
Implicit Types (g : egraph) (x : explain) (f : list exnode).
(** a rule link of the forest, either way *)
Definition ulink f (a b : nat) : Prop := exists i nd, f !! i = Some nd /\ cn_next (xn_parent nd) <> i /\ cn_just (xn_parent nd) <> JCong /\
  ((a = i /\ b = cn_next (xn_parent nd)) \/ (a = cn_next (xn_parent nd) /\ b = i)).
Definition lean x : Prop := forall a b, rule_nb (x := x) a b -> ulink (ex_find x) a b.
Definition Lean g : Prop := forall x, eg_explain g = Some x -> lean x.
Definition redundant (h : list (event Op)) : Prop := exists h1 a b r h2, h = h1 ++ EUnion a b r :: h2 /\ Cong (adds h1 ++ h2) a b.

Lemma lean_add x n k x' : ex_add x n k = Ok x' -> lean x -> lean x'.
Proof.
  intros E. unfold ex_add in E. destruct (_ =? k); [|done]. injection E as <-. intros Ht a b (c & Hc & Hcc).
  assert (Hn : forall i, nbs (ex_find x ++ [ExNode [] (Conn k k JCong false)]) i = nbs (ex_find x) i).
  { intros i. unfold nbs. destruct (ex_find x !! i) as [nd|] eqn:Hnd; [by rewrite (lookup_app_l_Some _ _ _ _ Hnd)|].
    destruct ((ex_find x ++ _) !! i) as [nd'|] eqn:Hnd'; [|done]. apply lookup_app_Some in Hnd' as [?|[_ Hl]]; [congruence|].
    by apply list_lookup_singleton_Some in Hl as [_ <-]. }
  cbn [ex_find] in Hc. rewrite Hn in Hc. destruct (Ht a b) as (i & nd & Hi & Hr); [by exists c|]. exists i, nd. split; [|done].
  cbn [ex_find]. by rewrite (lookup_app_l_Some _ _ _ _ Hi).
Qed.
Lemma ulink_same f f' a b : (forall i nd, f !! i = Some nd -> exists nd', f' !! i = Some nd' /\ xn_parent nd' = xn_parent nd) -> ulink f a b -> ulink f' a b.
Proof. intros Hs (i & nd & Hi & Hr). destruct (Hs i nd Hi) as (nd' & Hi' & E). exists i, nd'. by rewrite E. Qed.
Lemma lean_union x n1 n2 j x' : uf_wf (pl (ex_find x)) -> n1 <> n2 -> ex_union x n1 n2 j = Ok x' -> lean x -> lean x'.
Proof.
  intros Hwf Hne E Ht. unfold ex_union in E. destruct (make_leader _ _ _) as [f0| |] eqn:El; try done. cbn [mbind res_bind] in E.
  pose proof (make_leader_nbs _ _ _ _ El) as Hl.
  destruct (f0 !! n1) as [y|] eqn:Hy; [|done]. cbn [expect mbind res_bind] in E.
  destruct (<[n1:=_]> f0 !! n2) as [z|] eqn:Hz; [|done]. cbn [expect mbind res_bind] in E.
  destruct (<[n2:=_]> _ !! n1) as [w|] eqn:Hw; [|done]. cbn [expect mbind res_bind] in E. injection E as <-.
  assert (Hlt : n1 < length (ex_find x)) by (cbn [make_leader] in El; destruct (ex_find x !! n1) eqn:En; [by eapply lookup_lt_Some|done]).
  destruct Hwf as (rk & Hr & Hb). assert (Hwf : uf_wf (pl (ex_find x))) by (by exists rk).
  destruct (make_leader_spec (S (length (ex_find x))) (ex_find x) rk n1 Hwf Hr Hb Hlt) as (f1 & E1 & Hled); [lia|].
  rewrite El in E1. injection E1 as <-.
  rewrite list_lookup_insert_ne in Hz by done. rewrite list_lookup_insert_ne in Hw by done. rewrite list_lookup_insert in Hw by (by eapply lookup_lt_Some). injection Hw as <-.
  set (f3 := <[n1:=xn_set_parent (Conn n2 n1 j true) (xn_push (Conn n2 n1 j true) y)]> (<[n2:=xn_push (Conn n1 n2 j false) z]> (<[n1:=xn_push (Conn n2 n1 j true) y]> f0))) in *.
  assert (P3 : forall k nd, f0 !! k = Some nd -> k <> n1 -> exists nd', f3 !! k = Some nd' /\ xn_parent nd' = xn_parent nd).
  { intros k nd Hk Hk1. unfold f3. rewrite list_lookup_insert_ne by done. destruct (decide (k = n2)) as [->|Hk2].
    - rewrite list_lookup_insert by (rewrite insert_length; by eapply lookup_lt_Some). eexists. split; [done|]. cbn. congruence.
    - rewrite !list_lookup_insert_ne by done. eauto. }
  assert (Hnew : j <> JCong -> ulink f3 n1 n2 /\ ulink f3 n2 n1).
  { intros Hj. assert (H3 : f3 !! n1 = Some (xn_set_parent (Conn n2 n1 j true) (xn_push (Conn n2 n1 j true) y))).
    { unfold f3. rewrite list_lookup_insert; [done|]. rewrite !insert_length. by eapply lookup_lt_Some. }
    split; (exists n1; eexists; split; [exact H3|]; cbn; split; [done|]; split; [done|]); [by left|by right]. }
  assert (Hold : forall a b, ulink (ex_find x) a b -> ulink f3 a b).
  { intros a b (i & nd & Hi & Hn & Hj & Hab). destruct (ld_edge _ _ _ _ Hled i nd _ Hi eq_refl Hn) as [[Hin (nd' & Hi' & E')]|[Hpn (nd' & Hi' & E')]].
    - destruct (P3 i nd' Hi' Hin) as (nd2 & Hi2 & E2). exists i, nd2. rewrite E2, E'. done.
    - destruct (P3 _ nd' Hi' Hpn) as (nd2 & Hi2 & E2). exists (cn_next (xn_parent nd)), nd2. rewrite E2, E'. cbn. split; [done|]. split; [congruence|]. split; [done|]. tauto. }
  intros a b (c & Hc & Ec & Ej). cbn [ex_find] in *.
  assert (Hcase : c ∈ nbs (ex_find x) a \/ (a = n1 /\ c = Conn n2 n1 j true) \/ (a = n2 /\ c = Conn n1 n2 j false)).
  { assert (Hw2 : (<[n2:=xn_push (Conn n1 n2 j false) z]> (<[n1:=xn_push (Conn n2 n1 j true) y]> f0)) !! n1 = Some (xn_push (Conn n2 n1 j true) y)).
    { rewrite list_lookup_insert_ne by done. rewrite list_lookup_insert; [done|]. by eapply lookup_lt_Some. }
    unfold f3 in Hc. rewrite (nbs_insert_same _ _ _ (xn_set_parent (Conn n2 n1 j true) (xn_push (Conn n2 n1 j true) y)) Hw2 eq_refl) in Hc.
    rewrite (push_pair f0 n1 n2 j y z a Hy) in Hc by (by rewrite list_lookup_insert_ne). rewrite Hl in Hc. repeat case_decide; set_solver. }
  destruct Hcase as [Ho|[[-> ->]|[-> ->]]].
  - apply Hold, Ht. exists c. done.
  - cbn in Ec, Ej. subst b. by apply Hnew.
  - cbn in Ec, Ej. subst b. by apply Hnew.
Qed.

Lemma Lean_same g g' : eg_explain g' = eg_explain g -> Lean g -> Lean g'.
Proof. intros Ee C x. rewrite Ee. apply C. Qed.
Lemma Lean_add n g g' id o : Inv g -> XInv g -> add_core A n g = Ok (g', id, o) -> Lean g -> Lean g'.
Proof.
  intros I X E C. apply add_core_spec in E as [_ Hs]; [|apply I].
  destruct Hs as [e id He Hid|e x x1 x2 u He Hx Hxn Hxa Hxu Hu|u cls' ex' Hm Hw Hl Hf Hcls Hex]; [done| |].
  - intros y Hy. cbn in Hy. injection Hy as <-. eapply lean_union; [| |done|].
    + eapply ex_add_wf; [done|]. by eapply XInv_wf.
    + destruct (ci_memo _ _ _ _ _ _ _ (iv_c _ I) _ _ He) as (m & Hm & _). apply lookup_lt_Some in Hm. rewrite (iv_len _ I) in Hm. lia.
    + eapply lean_add; [done|]. by apply C.
  - intros y Hy. cbn in Hy. destruct (eg_explain g) as [x|] eqn:Ex; [|by subst]. destruct Hex as (x' & Ex' & ->).
    injection Hy as ->. eapply lean_add; [done|]. by apply C.
Qed.
Lemma Lean_union_core a b rule g g' o : uf_wf (eg_uf g) -> (forall x, eg_explain g = Some x -> uf_wf (pl (ex_find x))) ->
  perform_union_core A a b rule g = Ok (g', o) -> Lean g ->
  Lean g' \/ (a < length (eg_uf g) /\ b < length (eg_uf g) /\ eg_find g a = eg_find g b /\ exists r, rule = Some (JRule r)).
Proof.
  intros I X E C. apply perform_union_core_spec in E as (Ha & Hb & Hs); [|done].
  destruct Hs as [u ex' Hsame He Hex|id1 id2 k1 k2 dd did1 did2 u ex' Hids Hne E1 E2 Hlen Htie Hcid Hm Hw' Hl Hf Hex].
  - destruct rule as [[r|]|]; [right; eauto|left|left]; (eapply Lean_same; [|exact C]; cbn; by destruct (eg_explain g)).
  - left. intros y Hy. cbn in Hy. destruct (eg_explain g) as [x|] eqn:Ex; [|by subst]. destruct Hex as (j & x' & _ & Eu & ->). injection Hy as ->.
    eapply lean_union; [by apply X| |exact Eu|by apply C]. intros ->. destruct Hids as [[-> ->]|[-> ->]]; done.
Qed.
Lemma redundant_at g h0 a b r : Inv g -> a < length (eg_uf g) -> b < length (eg_uf g) -> eg_find g a = eg_find g b ->
  (forall k n, eg_nodes g !! k = Some n -> EAdd n k ∈ h0 ++ EUnion a b r :: eg_log g) -> redundant (h0 ++ EUnion a b r :: eg_log g).
Proof.
  intros I Ha Hb Hab Hn. exists h0, a, b, r, (eg_log g). split; [done|]. rewrite <- (iv_len _ I) in Ha, Hb.
  assert (Hc : congT (eg_nodes g) (log_unions (eg_log g)) a b).
  { apply ct_trans with (eg_find g a); [by apply (ci_snd _ _ _ _ _ _ _ (iv_c _ I))|]. rewrite Hab. apply ct_sym. by apply (ci_snd _ _ _ _ _ _ _ (iv_c _ I)). }
  assert (Hn' : forall k n, eg_nodes g !! k = Some n -> EAdd n k ∈ adds h0 ++ eg_log g).
  { intros k n Hk. apply Hn in Hk. rewrite elem_of_app, elem_of_cons in Hk. rewrite elem_of_app, elem_of_adds. naive_solver. }
  clear -Hc Hn'. induction Hc as [i|i j _ IH|i j k _ IH1 _ IH2|a b (r & Hr)|i j [fa ca] [fb cb] Ha Hb Eo El Hk IH].
  - apply Cong_refl.
  - by apply Cong_sym.
  - by eapply Cong_trans.
  - eapply Cong_union. apply elem_of_app. right. exact Hr.
  - cbn in *. subst fb. eapply Cong_cong; eauto.
Qed.
Lemma Lean_brun P g0 g : brun L A P g0 g -> Inv g0 -> XInv g0 -> forall h0, (forall k n, eg_nodes g !! k = Some n -> EAdd n k ∈ h0 ++ eg_log g) -> Lean g0 ->
  Lean g \/ redundant (h0 ++ eg_log g).
Proof.
  induction 1 as [g|l g g1 Hpl HP Hp|g g1 g2 R1 IH1 R2 IH2|n g g1 id HP E|n g g1 id h g2 HP E R IH]; intros I X h0 Hn C.
  - by left.
  - destruct Hp as [n g g' id o E|g|n i g|a b r rule g g' o Hr E|c rest g g' o Ep E|id q g g' o Eq E
      |i d g g' r E|i d g g' E|i f g g' E|g Ep Eq]; try done; try (left; by apply (Lean_same g)).
    + pose proof (perform_union_core_spec _ _ _ _ _ _ _ (iv_wf _ I : uf_wf (eg_uf (add_log (EUnion a b r) g))) E) as (_ & _ & Hs).
      assert (El : eg_log g' = EUnion a b r :: eg_log g) by (by destruct Hs). assert (En : eg_nodes g' = eg_nodes g) by (by destruct Hs). rewrite El, En in Hn. rewrite El.
      destruct (Lean_union_core a b rule (add_log (EUnion a b r) g) g' o (iv_wf _ I)) as [?|(Ha & Hb & Hab & _)]; [intros x Hx; by apply (XInv_wf g)|exact E|by apply (Lean_same g)|by left|].
      right. by apply redundant_at.
    + unfold pending_core in E. inv_res. cbn in H0.
      destruct (canon_mut_spec (eg_uf g) x (iv_wf _ I)) as (u & Eu & He).
      { apply Forall_forall. intros k Hk. pose proof (ci_ch _ _ _ _ _ _ _ (iv_c _ I) _ _ _ H0 Hk).
        pose proof (lookup_lt_Some _ _ _ H0). rewrite <- (iv_len _ I). lia. }
      cbn in E. rewrite Eu in E. cbn in E. destruct (eg_memo g !! _); inv_res; [|left; by apply (Lean_same g)].
      apply Lean_union_core in E as [?|(_ & _ & _ & r & ?)]; [by left|done|apply He| |by apply (Lean_same g)]. intros y Hy. by apply (XInv_wf g).
    + unfold analysis_core, eg_find_mut in E. inv_res. cbn in *. destruct (uf_find_mut _ _). inv_res.
      destruct (an_merge A _ _) as [? [[] ?]]; inv_res; left; by apply (Lean_same g).
    + unfold set_data_core, eg_find_mut in E. destruct (negb _); [done|]. destruct (uf_find_mut _ _). inv_res. left. by apply (Lean_same g).
    + unfold poke_data, eg_find_mut in E. destruct (negb _); [done|]. destruct (uf_find_mut _ _). inv_res. left. by apply (Lean_same g).
    + unfold retain_nodes, eg_find_mut in E. destruct (negb _); [done|]. destruct (uf_find_mut _ _). inv_res. left. by apply (Lean_same g).
    + unfold rebuild_classes. destruct (foldl _ _ _) as [[? ?] ?]. left. by apply (Lean_same g).
  - pose proof (brun_Inv _ _ _ _ _ R1 I) as I1. destruct (grows_brun _ _ _ _ _ R2 I1) as [_ [ns' En] [h' El] _].
    destruct (IH1 I X (h0 ++ h')) as [C1|Hr]; [|done| |].
    + intros k m Hk. rewrite <- app_assoc, <- El. apply Hn. rewrite En. by apply lookup_app_l_Some.
    + apply IH2; [done|by eapply XInv_brun|done|done].
    + right. by rewrite <- app_assoc, <- El in Hr.
  - left. apply (Lean_same g1); [done|]. by eapply Lean_add.
  - cbn [add_log set_clean eg_nodes eg_log] in *. destruct (IH (Inv_add A _ _ _ _ _ I E) (XInv_add A _ _ _ _ _ E I X) (h0 ++ [EAdd n id])) as [C1|Hr].
    + intros k m Hk. rewrite <- app_assoc. by apply Hn.
    + by eapply Lean_add.
    + left. by apply (Lean_same g2).
    + right. by rewrite <- app_assoc in Hr.
Qed.
Lemma reach_lean g x : reachable L A true g -> eg_explain g = Some x -> irredundant (eg_log g) -> lean x.
Proof.
  intros R Hx Hi. pose proof (reachable_solid L A g R) as S. apply reachable_brun in R.
  destruct (Lean_brun _ _ _ R (Inv_new _) (XInv_new _ ) []) as [C|(h1 & a & b & r & h2 & E & Hc)].
  - intros k n Hk. by apply (so_exact _ S).
  - intros y Hy. injection Hy as <-. intros a b (c & Hc & _). unfold nbs in Hc. cbn in Hc. by apply elem_of_nil in Hc.
  - by apply C.
  - by destruct (Hi h1 a b r h2 E).
Qed.

(** ** Never longer *)
Lemma irredundant_terms g x es : solid g -> xforest (eg_nodes g) (eg_log g) (eg_find g) x es -> irredundant (eg_log g) ->
  forall a b t, rule_nb (x := x) a b -> Tree (eg_nodes g) a t -> ~ Tree (eg_nodes g) b t.
Proof.
  intros S X Hi a b t Hr Ha Hb. destruct (rule_nb_union g x es X a b Hr) as (r & Hu).
  assert (Hgo : forall a b, EUnion a b r ∈ eg_log g -> Tree (eg_nodes g) a t -> Tree (eg_nodes g) b t -> False).
  { clear a b Hr Ha Hb Hu. intros a b Hu Ha Hb. apply elem_of_list_split in Hu as (h1 & h2 & E). apply (Hi h1 a b r h2 E).
    eapply (tree_Cong (eg_nodes g)); [|exact Ha|exact Hb]. intros k n Hk. apply (so_exact _ S) in Hk. rewrite E in Hk. rewrite elem_of_app, elem_of_cons in Hk.
    rewrite elem_of_app, elem_of_adds. naive_solver. }
  destruct Hu as [Hu|Hu]; eauto.
Qed.
Lemma lean_links alt x es : forest alt (ex_find x) es -> lean x -> forall i nd, ex_find x !! i = Some nd -> cn_next (xn_parent nd) <> i -> cn_just (xn_parent nd) = JCong ->
  ~ rule_nb (x := x) i (cn_next (xn_parent nd)) /\ ~ rule_nb (x := x) (cn_next (xn_parent nd)) i.
Proof.
  intros F Hl i nd Hnd Hne Hj. destruct (fo_wf _ _ _ F) as (rk & Hr & Hb).
  assert (Hno : forall k nd', ex_find x !! k = Some nd' -> cn_next (xn_parent nd') <> k -> cn_just (xn_parent nd') <> JCong ->
    (i = k /\ cn_next (xn_parent nd) = cn_next (xn_parent nd')) \/ (i = cn_next (xn_parent nd') /\ cn_next (xn_parent nd) = k) -> False).
  { intros k nd' Hk Hnk Hjk [[-> E]|[-> E]]; [congruence|].
    assert (Q1 : pl (ex_find x) !! k = Some (cn_next (xn_parent nd'))) by (unfold pl; by rewrite list_lookup_fmap, Hk).
    assert (Q2 : pl (ex_find x) !! cn_next (xn_parent nd') = Some k) by (unfold pl; rewrite list_lookup_fmap, Hnd; cbn; by rewrite E).
    destruct (Hr _ _ Q1) as [_ R1]. destruct (Hr _ _ Q2) as [_ R2]. specialize (R1 Hnk). specialize (R2 ltac:(done)). lia. }
  split; intros (k & nd' & Hk & Hnk & Hjk & Hab)%Hl; (eapply (Hno k nd' Hk Hnk Hjk)); tauto.
Qed.
Lemma unopt_cost g x es fuel l r p : reachable L A true g -> eg_explain g = Some x -> xforest (eg_nodes g) (eg_log g) (eg_find g) x es -> irredundant (eg_log g) ->
  l < length (ex_find x) -> r < length (ex_find x) -> connected es l r -> explain_id_equivalence fuel l r g = Ok p -> pcount p = Dst (eg_nodes g) x es l r.
Proof.
  intros R Hx X Hi Hl Hr Hc E. pose proof (reachable_solid L A g R) as S. unfold explain_id_equivalence in E. case_bool_decide as Hlr; [|done].
  rewrite Hx in E. cbn [expect mbind res_bind] in E. destruct (explain_enodes fuel x (eg_nodes g) l r ∅) as [[p' ca']| |] eqn:Ee; try done. cbn [mbind res_bind] in E. injection E as ->.
  pose proof (reach_lean g x R Hx Hi) as Hlean. pose proof (proj1 (proj2 X)) as F.
  destruct (enodes_count (solid_dag g S) X x eq_refl eq (fun a => eq_refl) (fun a b c e1 e2 => eq_trans e1 e2) (fun a b c d e1 e2 => f_equal2 Nat.add e1 e2))
    with (fuel := fuel) (l := l) (r := r) (ca := (∅ : gmap (nat * nat) (ttree Op))) (p := p) (ca' := ca') as (Hdst & _); try done.
  intros l' r' lc rc Hl' Hr' Hc' Ep.
  refine (lean_path (solid_dag g S) X (so_nbp _ S x Hx) (lean_links _ x es F Hlean) x eq_refl _ _ l' r' lc rc Hl' Hr' Hc' Ep).
  - intros a b (i & nd & Hi' & Hn & Hj & Hab)%Hlean. exists (xn_parent nd). pose proof (fo_cur _ _ _ F _ _ Hi') as Ec. rewrite Ec.
    split; [exists nd; rewrite Ec; done|]. done.
  - intros a b k nx Hs. destruct (reach_Direct L A true g R x Hx a b k nx Hs) as (-> & c & Hcc). split; [done|]. by exists c.
Qed.
Theorem optimised_shorter it cit (Hit : enumerates it) pop fuel fuel' g g1 g2 l r t u p fl q fl' :
  reachable L A true g -> traverses g (cit (eg_classes g)) -> explained it cit g g1 -> pops_min pop ->
  AddedAs (eg_log g) l t -> AddedAs (eg_log g) r u -> irredundant (eg_log g) ->
  explain_id_equivalence_opt it cit pop fuel l r g1 = Ok (g2, p) -> make_flat p = Ok fl ->
  explain_id_equivalence fuel' l r g = Ok q -> make_flat q = Ok fl' -> length fl <= length fl'.
Proof.
  intros R Hcit Hg1 Hpop Ht Hu Hi E Ef Eq Eq'. pose proof (reachable_solid L A _ R) as S. destruct (opt_congs it Hit cit g S Hcit) as (x & es & Hx & X & cn & b0 & Hcn & Hb0).
  destruct (explained_good it Hit cit g S Hcit x Hx es X cn b0 Hcn Hb0 g1 (reach_Direct L A true g R) Hg1) as (x1 & G1 & ->).
  pose proof (reach_lean g x R Hx Hi) as Hlean.
  destruct (opt_cost it Hit cit g S Hcit x Hx es X (lean_links _ x es (proj1 (proj2 X)) Hlean) (irredundant_terms g x es S X Hi) cn b0 Hcn Hb0 x1 pop fuel l r g2 p G1 Hpop E) as (Hl & Hr & Hc & Hw & _).
  pose proof (unopt_cost g x es fuel' l r q R Hx X Hi Hl Hr Hc Eq) as Hq.
  assert (Hlr : eg_find g l = eg_find g r) by (by destruct (opt_known it cit g S x es X x1 pop fuel l r _ E) as (_ & _ & ?)).
  destruct (opt_step it Hit cit g S Hcit x Hx es X cn b0 Hcn Hb0 x1 pop l r G1 Hpop Hl Hr Hlr) as [b Hb].
  destruct (Hb (Nat.max b fuel) ltac:(lia)) as (x2 & p2 & E2 & G2 & E3).
  pose proof (explain_opt_okle it cit pop l r (set_explain (Some x1) g) fuel (Nat.max b fuel) ltac:(lia) _ E) as E4. rewrite E2 in E4. injection E4 as _ ->.
  rewrite (flat_length _ p t u fl (explain_sound L A g x x2 _ l r p t u R Hx (proj1 G2) E3 Ht Hu) Ef).
  rewrite <- (set_explain_same g x Hx) in Eq. rewrite (flat_length _ q t u fl' (explain_sound L A g x x _ l r q t u R Hx eq_refl Eq Ht Hu) Eq'). lia.
Qed.
End lean.
