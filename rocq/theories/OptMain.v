(** Explanations with the length optimiser exist and prove what they should. *)
From Verif Require Import Base UnionFind Spec EGraphModel EGraphSteps EGraphInv EGraphPres EGraphRuns EGraphMain EGraphReach EGraphSafe EGraphDirect EGraphNoPanic ExplainForest Terms RecExprModel ExprModel
  ExplainModel ExplainSpec ExplainPath ExplainProofs ExplainMain ExtractSpec MatchSpec OptModel OptSpec OptNeighbours OptSolid OptDist OptPar OptSearch OptMemo OptExplain OptCong OptTarjan OptMono.

(** ** The path memo of another forest with the same links *)
Section ext.
Context {Op : Type} `{Countable Op}.
Notation explain := (explain Op).
Context (ns : list (node Op)) (es : list edge) (x x' : explain) (E : ex_find x' = ex_find x) (cn : list (list nat)).
Lemma Cost_ext c : Cost ns x' es c = Cost ns x es c.
Proof.
  unfold Cost, lw. destruct (cn_just c); [done|]. destruct (ns !! cn_current c) as [n|]; [|done]. destruct (ns !! cn_next c) as [m|]; [|done]. f_equal.
  generalize (nch n), (nch m). intros a. induction a as [|i a IHa]; intros [|j b]; cbn [zip_with]; try done. rewrite IHa. f_equal. exact (dd_ext ns x x' E _ i j).
Qed.
Lemma costs_ext (cs : list conn) : Cost ns x' es <$> cs = Cost ns x es <$> cs.
Proof. apply list_fmap_ext. intros i c _. apply Cost_ext. Qed.
Lemma gstep_ext a c : gstep (x := x') cn a c <-> gstep (x := x) cn a c.
Proof. unfold gstep. by rewrite E. Qed.
Lemma walk_ext a cs b : walk (x := x') cn a cs b <-> walk (x := x) cn a cs b.
Proof. split; induction 1; econstructor; eauto; by apply gstep_ext. Qed.
Lemma chain_ext sh r a cs : chain (x := x') cn sh r a cs <-> chain (x := x) cn sh r a cs.
Proof. split; induction 1; econstructor; eauto; by apply gstep_ext. Qed.
Lemma Tight_ext a b k : Tight (ns := ns) (x := x') (es := es) cn a b k <-> Tight (ns := ns) (x := x) (es := es) cn a b k.
Proof.
  unfold Tight. split; intros [(cs & Hw & Hc) Hm].
  - split; [exists cs; rewrite <- costs_ext; split; [by apply walk_ext|done]|]. intros cs' Hw'. rewrite <- costs_ext. apply Hm. by apply walk_ext.
  - split; [exists cs; rewrite costs_ext; split; [by apply walk_ext|done]|]. intros cs' Hw'. rewrite costs_ext. apply Hm. by apply walk_ext.
Qed.
Lemma memo_ok_ext sh : memo_ok (ns := ns) (x := x') (es := es) cn sh <-> memo_ok (ns := ns) (x := x) (es := es) cn sh.
Proof.
  split; intros Hm a r k nx Hk; destruct (Hm a r k nx Hk) as [Hd|[Hd|(cs & Hc & Ht)]].
  - left. by rewrite E in Hd.
  - by right; left.
  - right. right. exists cs. rewrite costs_ext in Ht. split; [by apply chain_ext|by apply Tight_ext].
  - left. by rewrite E.
  - by right; left.
  - right. right. exists cs. rewrite costs_ext. split; [by apply chain_ext|by apply Tight_ext].
Qed.
End ext.

Section main.
Context {Op D : Type} `{Countable Op} (L : lang Op) (A : analysis Op D).
Notation node := (node Op).
Notation egraph := (egraph Op D).
Notation eclass := (eclass Op D).
Context (it : gset nat -> list nat) (Hit : enumerates it) (cit : gmap nat eclass -> list nat).
Lemma set_explain_same (g : egraph) x : eg_explain g = Some x -> set_explain (Some x) g = g.
Proof. intros <-. by destruct g. Qed.
Section graph.
Context (g : egraph) (R : solid g) (Hcit : traverses g (cit (eg_classes g))).
Context (x : explain Op) (Hx : eg_explain g = Some x) (es : list edge) (X : xforest (eg_nodes g) (eg_log g) (eg_find g) x es).
Notation ns := (eg_nodes g).
Notation N := (length (ex_find x)).
Let Hlen : N = length ns := proj1 X.
Let F : forest (alt_of (eg_log g)) (ex_find x) es := proj1 (proj2 X).
Let Hfind : forall a b, a < length ns -> b < length ns -> (connected es a b <-> eg_find g a = eg_find g b) := proj1 (proj2 (proj2 (proj2 X))).
Let Hd : dag ns := solid_dag g R.
Let W := X_world Hd X.

Lemma nb_facts i c : c ∈ nbs (ex_find x) i -> cn_next c < N /\ connected es i (cn_next c).
Proof.
  intros Hc. unfold nbs in Hc. destruct (ex_find x !! i) as [nd|] eqn:Hi; [|by apply elem_of_nil in Hc]. cbn in Hc.
  assert (Hun : forall a b, alt_of (eg_log g) a b (cn_just c) -> a < N /\ b < N /\ connected es a b).
  { intros a b (ru & _ & Hu). pose proof (go_inv _ (so_good _ R)) as I. destruct (iv_log _ I a b) as [Ha Hb]; [by exists ru|].
    rewrite Hlen. split; [done|]. split; [done|]. apply Hfind; [done|done|]. apply (ci_un _ _ _ _ _ _ _ (iv_c _ I)). by exists ru. }
  destruct (fo_nb _ _ _ F i nd c Hi Hc) as [_ Hnb]. destruct (cn_fwd c).
  - destruct Hnb as [He|Ha]; [|by destruct (Hun _ _ Ha) as (_ & ? & ?)]. destruct (fo_lt _ _ _ F _ _ _ He). split; [done|]. apply rtc_once. eexists. by left.
  - destruct Hnb as [He|Ha].
    + destruct (fo_lt _ _ _ F _ _ _ He). split; [done|]. apply rtc_once. eexists. by right.
    + destruct (Hun _ _ Ha) as (? & _ & ?). split; [done|]. by apply connected_sym.
Qed.
Let Hnl i c (Hc : c ∈ nbs (ex_find x) i) : cn_next c < N := proj1 (nb_facts i c Hc).
Let Hnc i c (Hc : c ∈ nbs (ex_find x) i) : connected es i (cn_next c) := proj2 (nb_facts i c Hc).
Let Hnbp : nbp (ex_find x) := so_nbp _ R x Hx.

Lemma keys_lt c : c ∈ cit (eg_classes g) -> c < N /\ eg_find g c = c.
Proof.
  intros Hc. apply Hcit in Hc. pose proof (go_inv _ (so_good _ R)) as I. apply (ci_cls _ _ _ _ _ _ _ (iv_c _ I)) in Hc as [Hl Hr].
  by rewrite Hlen.
Qed.

(** ** One explanation *)
Context (cn : list (list nat)) (b0 : nat) (Hcn : cn_ok (ns := ns) (x := x) (es := es) cn).
Context (Hb0 : forall fuel x', b0 <= fuel -> ex_find x' = ex_find x -> find_congruence_neighbors it cit fuel x' ns (eg_classes g) (eg_uf g) = Ok cn).
Definition good (x1 : explain Op) : Prop :=
  ex_find x1 = ex_find x /\ ex_memo x1 = ex_memo x /\ memo_ok (ns := ns) (x := x) (es := es) cn (ex_short x1).
Lemma good_start : Direct g -> good x.
Proof.
  intros Hdir'. split; [done|]. split; [done|]. pose proof (Hdir' x Hx) as Hdir. intros a r k nx Hk. left.
  destruct (Hdir a r k nx Hk) as (-> & c & Hc & Ec & Ej). split; [done|]. exists c. split; [done|]. done.
Qed.
(** the optimiser ends, keeps what writing a shortest path keeps, and leaves a shortest path
    between the ids asked for unless the path of the forest is one *)
Lemma shortest_first (P : smemo -> Prop) x1 pop l r :
  (forall r cs a sh sh', P sh -> Tight (ns := ns) (x := x) (es := es) cn a r (sum_list (Cost ns x es <$> cs)) -> chain (x := x) cn sh' r a cs ->
    (forall b r', sh' !! (b, r') = sh !! (b, r') \/ (r' = r /\ (b = r \/ b ∈ cn_current <$> cs))) -> P sh') ->
  ex_find x1 = ex_find x -> P (ex_short x1) -> pops_min pop -> l < N -> r < N -> eg_find g l = eg_find g r ->
  forall fuel, S (b0 + length es + N + S (S (sumf (wdeg (x := x1) cn) N))) <= fuel ->
  exists sh, calculate_shortest it cit pop fuel l r x1 ns (eg_classes g) (eg_uf g) = Ok (Explain (ex_find x1) (ex_memo x1) sh) /\ P sh /\
    ((exists k, Tight (ns := ns) (x := x) (es := es) cn l r k /\ Dst ns x es l r <= k) \/ l = r \/ is_Some (sh !! (l, r))).
Proof.
  intros HP E1 Hm Hpop Hl Hr Hlr fuel Hfu.
  assert (W1 : world (alt_of (eg_log g)) ns (eg_log g) x1 es) by (destruct W; split; [done|by rewrite E1|by rewrite E1|done]).
  assert (Hc : connected es l r) by (apply Hfind; [lia|lia|done]).
  assert (Hnl1 : forall i c, c ∈ nbs (ex_find x1) i -> cn_next c < length (ex_find x1)) by (rewrite E1; exact Hnl).
  assert (Hcn1 : cn_ok (ns := ns) (x := x1) (es := es) cn).
  { destruct Hcn as [C1 C2 C3]. split; [by rewrite E1|done|by rewrite E1]. }
  assert (Hwd : sumf (deg (x := x1)) (length (ex_find x1)) <= sumf (wdeg (x := x1) cn) (length (ex_find x1))).
  { apply sumf_le. intros i _. unfold wdeg. lia. }
  unfold calculate_shortest. rewrite (Hb0 fuel x1) by (done || lia). cbn [mbind res_bind].
  pose proof (fo_wf _ _ _ F) as (rk & Hrk & Hrb).
  destruct (common_ancestor_table W1 rk ltac:(by rewrite E1) ltac:(by rewrite E1) Hnl1 ltac:(by rewrite E1) ltac:(by rewrite E1) it Hit fuel
    ltac:(rewrite E1 in *; lia) ltac:(rewrite E1; lia) cit (eg_classes g) cn Hcn1) as (ca & -> & Hca).
  { apply Hcit. }
  { intros c Hcc. rewrite E1. by apply keys_lt. }
  { intros c d Hcc Hdd Hcd. destruct (keys_lt c Hcc) as [Hcl Ec]. destruct (keys_lt d Hdd) as [Hdl Ed]. apply Hfind in Hcd; [congruence|lia|lia]. }
  cbn [mbind res_bind].
  destruct (calculate_tree_depths_ok W1) as (dm & -> & Hdm). cbn [mbind res_bind].
  destruct (greedy_first W1 Hnl1 ltac:(by rewrite E1) cn Hcn1 ca dm Hca Hdm pop Hpop fuel ltac:(lia) ltac:(rewrite E1; lia) ltac:(rewrite E1; lia) P
    ltac:(intros r' cs a sh sh' Hsh Ht Hch; rewrite (costs_ext ns es x x1 E1) in Ht; apply (Tight_ext ns es x x1 E1) in Ht; apply (chain_ext x x1 E1) in Hch; exact (HP r' cs a sh sh' Hsh Ht Hch))
    (S (S (greedy_num_iters * length (ex_find x1)))) (greedy_num_iters * length (ex_find x1)) l r [] (ex_short x1)
    ((fun i => (i, 0)) <$> seq 0 (length (ex_find x1))) ltac:(lia) ltac:(unfold greedy_num_iters; lia)) as (sh & pd & -> & Hsh & Hfst).
  { constructor; [|constructor]. split; [rewrite E1; exact Hl|]. split; [rewrite E1; exact Hr|exact Hc]. }
  { exact Hm. }
  { apply (PD_init W1). }
  cbn [mbind res_bind]. exists sh. split; [done|]. split; [done|]. destruct Hfst as [(k & Hk1 & Hk2)|?]; [|by right]. left. exists k.
  split; [by apply (Tight_ext ns es x x1 E1)|]. pose proof (dd_ext ns x x1 E1 (S (length es)) l r) as Edd. unfold Dst in *. lia.
Qed.
Lemma shortest_step (P : smemo -> Prop) x1 pop l r :
  (forall r cs a sh sh', P sh -> Tight (ns := ns) (x := x) (es := es) cn a r (sum_list (Cost ns x es <$> cs)) -> chain (x := x) cn sh' r a cs ->
    (forall b r', sh' !! (b, r') = sh !! (b, r') \/ (r' = r /\ (b = r \/ b ∈ cn_current <$> cs))) -> P sh') ->
  ex_find x1 = ex_find x -> P (ex_short x1) -> pops_min pop -> l < N -> r < N -> eg_find g l = eg_find g r ->
  forall fuel, S (b0 + length es + N + S (S (sumf (wdeg (x := x1) cn) N))) <= fuel ->
  exists sh, calculate_shortest it cit pop fuel l r x1 ns (eg_classes g) (eg_uf g) = Ok (Explain (ex_find x1) (ex_memo x1) sh) /\ P sh.
Proof.
  intros HP E1 Hm Hpop Hl Hr Hlr fuel Hfu. destruct (shortest_first P x1 pop l r HP E1 Hm Hpop Hl Hr Hlr fuel Hfu) as (sh & E & Hsh & _). eauto.
Qed.
Lemma opt_step x1 pop l r : good x1 -> pops_min pop -> l < N -> r < N -> eg_find g l = eg_find g r ->
  exists bound, forall fuel, bound <= fuel -> exists x2 p, explain_id_equivalence_opt it cit pop fuel l r (set_explain (Some x1) g) = Ok (set_explain (Some x2) g, p) /\
    good x2 /\ explain_id_equivalence fuel l r (set_explain (Some x2) g) = Ok p.
Proof.
  intros (E1 & E2 & Hm) Hpop Hl Hr Hlr.
  assert (Hc : connected es l r) by (apply Hfind; [lia|lia|done]).
  destruct (dag_Tree ns l Hd) as [tl Htl]; [lia|].
  exists (S (b0 + length es + N + S (S (sumf (wdeg (x := x1) cn) N)) + emeasure (ns := ns) (x := x) (es := es) l r tl)). intros fuel Hfu.
  unfold explain_id_equivalence_opt. change (eg_find (set_explain (Some x1) g)) with (eg_find g). rewrite bool_decide_eq_true_2 by done.
  cbn [eg_explain set_explain expect mbind res_bind eg_nodes eg_classes eg_uf].
  destruct (shortest_step (memo_ok (ns := ns) (x := x) (es := es) cn) x1 pop l r (memo_populate W cn) E1 Hm Hpop Hl Hr Hlr fuel ltac:(lia)) as (sh & -> & Hsh).
  cbn [mbind res_bind].
  set (x2 := Explain (ex_find x1) (ex_memo x1) sh).
  destruct (explain_opt_total Hd X Hnl Hnbp cn Hcn x2 E1 Hsh fuel l r tl ∅ ltac:(lia) Hl Hr Hc Htl) as ([p ca'] & Ep).
  { intros a b q Hq. by rewrite lookup_empty in Hq. }
  rewrite Ep. cbn [mbind res_bind]. exists x2, p. split; [done|]. split; [split; [exact E1|]; split; [exact E2|exact Hsh]|].
  unfold explain_id_equivalence. change (eg_find (set_explain (Some x2) g)) with (eg_find g). rewrite bool_decide_eq_true_2 by done.
  cbn [eg_explain set_explain expect mbind res_bind eg_nodes]. by rewrite Ep.
Qed.
(** only known ids are explained *)
Lemma opt_known x1 pop fuel l r y : explain_id_equivalence_opt it cit pop fuel l r (set_explain (Some x1) g) = Ok y -> l < N /\ r < N /\ eg_find g l = eg_find g r.
Proof.
  unfold explain_id_equivalence_opt. change (eg_find (set_explain (Some x1) g)) with (eg_find g). case_bool_decide as Hlr; [|done].
  cbn [eg_explain set_explain expect mbind res_bind eg_nodes eg_classes eg_uf]. destruct (calculate_shortest _ _ _ _ _ _ _ _ _ _) as [x2| |]; try done.
  cbn [mbind res_bind]. destruct fuel as [|fuel]; [done|]. cbn [explain_enodes node_to_explanation]. intros Ey.
  destruct (ns !! l) as [n|] eqn:Hn; [|done]. apply lookup_lt_Some in Hn. pose proof (go_inv _ (so_good _ R)) as I.
  rewrite Hlen. split; [done|]. split; [|done].
  apply (ci_lt _ _ _ _ _ _ _ (iv_c _ I)). rewrite <- Hlr. by apply (ci_lt _ _ _ _ _ _ _ (iv_c _ I)).
Qed.
Lemma explained_good g1 : Direct g -> explained it cit g g1 -> exists x1, good x1 /\ g1 = set_explain (Some x1) g.
Proof.
  intros Hdir. induction 1 as [|g1 g2 pop fuel l r p _ (x1 & G1 & ->) Hpop E].
  - exists x. split; [by apply good_start|]. by rewrite (set_explain_same g x Hx).
  - destruct (opt_known x1 pop fuel l r _ E) as (Hl & Hr & Hlr). destruct (opt_step x1 pop l r G1 Hpop Hl Hr Hlr) as [b Hb].
    destruct (Hb (Nat.max b fuel) ltac:(lia)) as (x2 & p2 & E2 & G2 & _).
    pose proof (explain_opt_okle it cit pop l r (set_explain (Some x1) g) fuel (Nat.max b fuel) ltac:(lia) _ E) as E3. rewrite E2 in E3. injection E3 as <- _. eauto.
Qed.
End graph.

Lemma opt_congs g : solid g -> traverses g (cit (eg_classes g)) -> exists x es, eg_explain g = Some x /\ xforest (eg_nodes g) (eg_log g) (eg_find g) x es /\
  exists cn b0, cn_ok (ns := eg_nodes g) (x := x) (es := es) cn /\
    forall fuel x', b0 <= fuel -> ex_find x' = ex_find x -> find_congruence_neighbors it cit fuel x' (eg_nodes g) (eg_classes g) (eg_uf g) = Ok cn.
Proof.
  intros R Hcit. destruct (so_good _ R) as [I XI]. destruct (so_ex _ R) as [x Hx]. destruct (XI x Hx) as [es X]. exists x, es. split; [done|]. split; [done|].
  apply (find_congruence_neighbors_ok (solid_dag _ R) X); [|done|done|].
  - intros i c Hc. by apply (nb_facts g R x es X i c Hc).
  - intros c Hc. by apply (keys_lt g R Hcit x es X c Hc).
Qed.
Theorem optimised_explanations pop g g1 l r t u :
  reachable L A true g -> traverses g (cit (eg_classes g)) -> explained it cit g g1 -> pops_min pop ->
  AddedAs (eg_log g) l t -> AddedAs (eg_log g) r u -> eg_find g l = eg_find g r ->
  exists bound g2 p, (forall fuel, bound <= fuel -> explain_id_equivalence_opt it cit pop fuel l r g1 = Ok (g2, p)) /\
    proves (asserted (eg_log g)) p t u /\ same_but_memo g g2.
Proof.
  intros R Hcit Hg1 Hpop Ht Hu Hlr. pose proof (reachable_solid L A _ R) as Sd. destruct (opt_congs g Sd Hcit) as (x & es & Hx & X & cn & b0 & Hcn & Hb0).
  pose proof (added_known _ _ _ _ _ _ R Ht) as Hl. pose proof (added_known _ _ _ _ _ _ R Hu) as Hr. apply (known_nodes _ _ _ _ _ R) in Hl, Hr.
  destruct (explained_good g Sd Hcit x Hx es X cn b0 Hcn Hb0 g1 (reach_Direct L A true g R) Hg1) as (x1 & G1 & ->).
  pose proof (proj1 X) as Hlen.
  destruct (opt_step g Sd Hcit x Hx es X cn b0 Hcn Hb0 x1 pop l r G1 Hpop ltac:(lia) ltac:(lia) Hlr) as [b Hb].
  destruct (Hb b (le_n b)) as (x2 & p & E & G2 & E2). exists b, (set_explain (Some x2) g), p. split; [|split].
  - intros fuel Hfu. exact (explain_opt_okle it cit pop l r (set_explain (Some x1) g) b fuel Hfu _ E).
  - exact (explain_sound L A g x x2 b l r p t u R Hx (proj1 G2) E2 Ht Hu).
  - right. exists x, x2. destruct G2 as (? & ? & _). done.
Qed.
Lemma opt_unequal pop g l r fuel : eg_find g l <> eg_find g r -> explain_id_equivalence_opt it cit pop fuel l r g = Panic.
Proof. intros Hn. unfold explain_id_equivalence_opt. by rewrite bool_decide_eq_false_2. Qed.
Lemma num_congr_ok g : reachable L A true g -> traverses g (cit (eg_classes g)) -> exists n bound, forall fuel, bound <= fuel -> get_num_congr it cit fuel g = Ok n.
Proof.
  intros R Hcit. destruct (opt_congs g (reachable_solid L A _ R) Hcit) as (x & es & Hx & X & cn & b0 & Hcn & Hb0). eexists _, b0. intros fuel Hfu.
  unfold get_num_congr. rewrite Hx. cbn [expect mbind res_bind]. rewrite (Hb0 fuel x Hfu eq_refl). done.
Qed.
End main.
