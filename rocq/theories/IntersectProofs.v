(** [egraph_intersect]: the result has exactly the equalities that hold in both inputs. *)
From Verif Require Import Base UnionFind EGraphModel EGraphSteps EGraphInv EGraphPres EGraphRuns Spec EGraphMain EGraphReach EGraphOps EGraphSafe
  EGraphNoPanic EGraphTerm Terms RecExprModel RecExprProofs ExprModel PatSpec ExprProofs ExprSafe MachineModel MatchSpec RewriteModel RewriteProofs
  AlgSpec AlgProofs ExplainModel ExplainSpec ExplainPath ExplainProofs ExplainMain Still CopyProofs TotalOps UtilModel FromNodes.

Section product.
Context {Op D : Type} `{Countable Op}.
Notation egraph := (egraph Op D).
Notation node := (node Op).
Context (g1 g2 : egraph).
Notation pmap := (gmap (nat * nat) nat).
Implicit Types (pm : pmap) (es : list (node * nat)) (t u : term Op).

Definition pwf pm : Prop := (forall a b i, pm !! a = Some i -> pm !! b = Some i -> a = b) /\ forall a i, pm !! a = Some i -> i < base.size pm.
Lemma pwf_empty : pwf ∅.
Proof. split; [intros a b i Ha|intros a i Ha]; by rewrite lookup_empty in Ha. Qed.
Lemma product_id_spec c1 c2 pm pm' id : pwf pm -> get_product_id c1 c2 pm = (pm', id) -> pwf pm' /\ pm ⊆ pm' /\ pm' !! (c1, c2) = Some id.
Proof.
  intros [Hi Hl] E. unfold get_product_id in E. destruct (pm !! (c1, c2)) as [i|] eqn:Ei; injection E as <- <-.
  - done.
  - split_and!; [|by apply insert_subseteq|by rewrite lookup_insert]. split.
    + intros a b i Ha Hb. apply lookup_insert_Some in Ha as [[<- <-]|[? Ha]], Hb as [[<- Hb]|[? Hb]]; [done| | |by eapply Hi].
      * apply Hl in Hb. lia.
      * subst i. apply Hl in Ha. lia.
    + intros a i Ha. rewrite map_size_insert_None by done. apply lookup_insert_Some in Ha as [[<- <-]|[? Ha]]; [lia|]. apply Hl in Ha. lia.
Qed.
Inductive kids pm : list nat -> list nat -> list nat -> Prop :=
| kids_nil : kids pm [] [] []
| kids_cons c d p cs ds ps : pm !! (eg_find g1 c, eg_find g2 d) = Some p -> kids pm cs ds ps -> kids pm (c :: cs) (d :: ds) (p :: ps).
Lemma kids_mono pm pm' cs ds ps : pm ⊆ pm' -> kids pm cs ds ps -> kids pm' cs ds ps.
Proof. intros Hs. induction 1 as [|c d p cs ds ps Hp _ IH]; constructor; [exact (lookup_weaken _ _ _ _ Hp Hs)|done]. Qed.
Lemma product_children_spec cs : forall ds pm pm' ps, length cs = length ds -> pwf pm -> product_children g1 g2 cs ds pm = (pm', ps) ->
  pwf pm' /\ pm ⊆ pm' /\ kids pm' cs ds ps.
Proof.
  induction cs as [|c cs IH]; intros [|d ds] pm pm' ps Hl W E; try done; cbn [product_children] in E.
  { injection E as <- <-. split_and!; [done|done|constructor]. }
  destruct (get_product_id _ _ _) as [pm1 p] eqn:E1. apply product_id_spec in E1 as (W1 & S1 & H1); [|done].
  destruct (product_children _ _ _ _ _) as [pm2 ps2] eqn:E2. injection E as <- <-.
  apply IH in E2 as (W2 & S2 & K2); [|by injection Hl|done]. split_and!; [done|by etrans|]. constructor; [exact (lookup_weaken _ _ _ _ H1 S2)|done].
Qed.

(** an e-node of the product comes from two e-nodes *)
Definition from_pair pm (m : node) (id : nat) : Prop :=
  exists c1 c2 k1 k2 n1 n2, pm !! (c1, c2) = Some id /\ eg_classes g1 !! c1 = Some k1 /\ eg_classes g2 !! c2 = Some k2 /\
    n1 ∈ c_nodes k1 /\ n2 ∈ c_nodes k2 /\ nop n1 = nop m /\ nop n2 = nop m /\ kids pm (nch n1) (nch n2) (nch m).
Lemma from_pair_mono pm pm' m id : pm ⊆ pm' -> from_pair pm m id -> from_pair pm' m id.
Proof.
  intros Hs (c1 & c2 & k1 & k2 & n1 & n2 & Hid & H1 & H2 & Hn1 & Hn2 & O1 & O2 & K). exists c1, c2, k1, k2, n1, n2.
  split_and!; try done; [exact (lookup_weaken _ _ _ _ Hid Hs)|by eapply kids_mono].
Qed.
(** and every matching pair of e-nodes of the classes visited gives one *)
Definition pair_done pm es (id : nat) (n1 n2 : node) : Prop :=
  node_matches n1 n2 = true -> exists ps, (Node (nop n1) ps, id) ∈ es /\ kids pm (nch n1) (nch n2) ps.
Lemma pair_done_mono pm pm' es es' id n1 n2 : pm ⊆ pm' -> es ⊆ es' -> pair_done pm es id n1 n2 -> pair_done pm' es' id n1 n2.
Proof. intros Hs Hl Hd Hm. destruct (Hd Hm) as (ps & Hin & K). exists ps. split; [by apply Hl|by eapply kids_mono]. Qed.
Definition all_from pm es : Prop := forall m id, (m, id) ∈ es -> from_pair pm m id.
Lemma all_from_mono pm pm' es : pm ⊆ pm' -> all_from pm es -> all_from pm' es.
Proof. intros Hs Ha m id Hin. by eapply from_pair_mono, Ha. Qed.

Section classes.
Context (c1 c2 id : nat) (k1 k2 : eclass Op D) (Hk1 : eg_classes g1 !! c1 = Some k1) (Hk2 : eg_classes g2 !! c2 = Some k2).
Lemma product_row_spec n1 : n1 ∈ c_nodes k1 -> forall ns2 pm es pm' es', ns2 ⊆ c_nodes k2 -> pwf pm -> pm !! (c1, c2) = Some id -> all_from pm es ->
  product_row g1 g2 n1 ns2 id pm es = (pm', es') ->
  pwf pm' /\ pm ⊆ pm' /\ es ⊆ es' /\ all_from pm' es' /\ forall n2, n2 ∈ ns2 -> pair_done pm' es' id n1 n2.
Proof.
  intros Hn1. induction ns2 as [|n2 ns2 IH]; intros pm es pm' es' Hsub W Hid Ha E; cbn [product_row] in E.
  { injection E as <- <-. split_and!; try done. intros n2 Hn. by apply elem_of_nil in Hn. }
  assert (Hsub' : ns2 ⊆ c_nodes k2) by (intros x Hx; apply Hsub; by right). assert (Hn2 : n2 ∈ c_nodes k2) by (apply Hsub; left).
  destruct (node_matches n1 n2) eqn:Em.
  - destruct (product_children _ _ _ _ _) as [pm1 ps] eqn:E1.
    pose proof Em as Em'. unfold node_matches in Em'. apply andb_prop in Em' as [Eo El]. apply bool_decide_eq_true in Eo. apply Nat.eqb_eq in El.
    apply product_children_spec in E1 as (W1 & S1 & K1); [|done|done].
    assert (Hid1 : pm1 !! (c1, c2) = Some id) by exact (lookup_weaken _ _ _ _ Hid S1).
    apply IH in E as (W' & S' & L' & A' & D'); [|done|done|done|].
    + split_and!; [done|by etrans|intros x Hx; apply L', elem_of_app; by left|done|]. intros n [->|Hn]%elem_of_cons; [|by apply D'].
      intros _. exists ps. split; [apply L', elem_of_app; right; left|by eapply kids_mono].
    + intros m i [Hin|Hin]%elem_of_app; [by eapply all_from_mono|]. apply elem_of_list_singleton in Hin. injection Hin as -> ->.
      exists c1, c2, k1, k2, n1, n2. split_and!; done.
  - apply IH in E as (W' & S' & L' & A' & D'); try done. split_and!; try done. intros n [->|Hn]%elem_of_cons; [|by apply D']. intros Hm. congruence.
Qed.
Lemma product_rows_spec ns1 : forall pm es pm' es', ns1 ⊆ c_nodes k1 -> pwf pm -> pm !! (c1, c2) = Some id -> all_from pm es ->
  product_rows g1 g2 ns1 (c_nodes k2) id pm es = (pm', es') ->
  pwf pm' /\ pm ⊆ pm' /\ es ⊆ es' /\ all_from pm' es' /\ forall n1 n2, n1 ∈ ns1 -> n2 ∈ c_nodes k2 -> pair_done pm' es' id n1 n2.
Proof.
  induction ns1 as [|n1 ns1 IH]; intros pm es pm' es' Hsub W Hid Ha E; cbn [product_rows] in E.
  { injection E as <- <-. split_and!; try done. intros n1 n2 Hn. by apply elem_of_nil in Hn. }
  destruct (product_row _ _ _ _ _ _ _) as [pm1 es1] eqn:E1.
  apply product_row_spec in E1 as (W1 & S1 & L1 & A1 & D1); try done; [|apply Hsub; left].
  apply IH in E as (W' & S' & L' & A' & D'); [|intros x Hx; apply Hsub; by right|done|exact (lookup_weaken _ _ _ _ Hid S1)|done].
  split_and!; [done|by etrans|by etrans|done|]. intros n n2 [->|Hn]%elem_of_cons Hn2; [|by apply D']. by eapply pair_done_mono, D1.
Qed.
End classes.
Definition visited pm es (c1 c2 : nat) : Prop :=
  exists id, pm !! (c1, c2) = Some id /\ forall k1 k2 n1 n2, eg_classes g1 !! c1 = Some k1 -> eg_classes g2 !! c2 = Some k2 ->
    n1 ∈ c_nodes k1 -> n2 ∈ c_nodes k2 -> pair_done pm es id n1 n2.
Lemma visited_mono pm pm' es es' c1 c2 : pm ⊆ pm' -> es ⊆ es' -> visited pm es c1 c2 -> visited pm' es' c1 c2.
Proof.
  intros Hs Hl (id & Hid & Hd). exists id. split; [exact (lookup_weaken _ _ _ _ Hid Hs)|]. intros. eapply pair_done_mono; [done|done|]. by eapply Hd.
Qed.
Lemma intersect_all_spec cs : forall pm es, pwf pm -> all_from pm es ->
  (forall c1 c2, (c1, c2) ∈ cs -> is_Some (eg_classes g1 !! c1) /\ is_Some (eg_classes g2 !! c2)) ->
  exists pm' es', intersect_all g1 g2 cs pm es = Ok (pm', es') /\ pwf pm' /\ pm ⊆ pm' /\ es ⊆ es' /\ all_from pm' es' /\
    forall c1 c2, (c1, c2) ∈ cs -> visited pm' es' c1 c2.
Proof.
  induction cs as [|[c1 c2] cs IH]; intros pm es W Ha Hcs.
  { exists pm, es. split_and!; try done. intros c1 c2 Hn. by apply elem_of_nil in Hn. }
  destruct (Hcs c1 c2) as [[k1 Hk1] [k2 Hk2]]; [left|]. cbn [intersect_all]. unfold intersect_classes.
  destruct (get_product_id _ _ _) as [pm1 id] eqn:E1. apply product_id_spec in E1 as (W1 & S1 & H1); [|done].
  rewrite Hk1, Hk2. cbn [expect mbind res_bind].
  destruct (product_rows _ _ _ _ _ _ _) as [pm2 es2] eqn:E2.
  apply (product_rows_spec c1 c2 id k1 k2 Hk1 Hk2) in E2 as (W2 & S2 & L2 & A2 & D2); [|done|done|done|by eapply all_from_mono].
  destruct (IH pm2 es2 W2 A2) as (pm' & es' & E & W' & S' & L' & A' & D'); [intros; apply Hcs; by right|].
  exists pm', es'. split_and!; [done|done|etrans; [exact S1|by etrans]|by etrans|done|].
  intros d1 d2 [[= -> ->]|Hin]%elem_of_cons; [|by apply D']. eapply visited_mono; [exact S'|exact L'|]. exists id. split; [exact (lookup_weaken _ _ _ _ H1 S2)|].
  intros k1' k2' n1 n2 Hk1' Hk2' Hn1 Hn2. rewrite Hk1 in Hk1'. injection Hk1' as <-. rewrite Hk2 in Hk2'. injection Hk2' as <-. by apply D2.
Qed.

(** ** The names of the product *)
Context (pm : pmap) (es : list (node * nat)) (W : pwf pm) (Ha : all_from pm es).
Lemma derives_product t id : Derives es t id -> exists c1 c2, pm !! (c1, c2) = Some id /\ Rep g1 t c1 /\ Rep g2 t c2.
Proof.
  revert t id. apply (Derives_ind' es (fun t id => exists c1 c2, pm !! (c1, c2) = Some id /\ Rep g1 t c1 /\ Rep g2 t c2)).
  intros f ts ps id Hin _ IH. destruct (Ha _ _ Hin) as (c1 & c2 & k1 & k2 & [f1 cs] & [f2 ds] & Hid & Hk1 & Hk2 & Hn1 & Hn2 & O1 & O2 & K). cbn in *. subst f1 f2.
  assert (HR : Forall2 (fun t x => Rep g1 t (eg_find g1 x)) ts cs /\ Forall2 (fun t x => Rep g2 t (eg_find g2 x)) ts ds).
  { clear -IH K W. revert ts IH. induction K as [|c d p cs ds ps Hp _ IHk]; intros ts IH; inversion IH as [|t ? ts' ? (d1 & d2 & Hd & Hr1 & Hr2) Hts]; subst; [done|].
    destruct (IHk _ Hts). assert ((d1, d2) = (eg_find g1 c, eg_find g2 d)) as [= -> ->] by (by eapply W). split; by constructor. }
  exists c1, c2. split_and!; [done|..]; (econstructor; [eassumption..|]); apply HR.
Qed.
Context (Hv : forall c1 c2, is_Some (eg_classes g1 !! c1) -> is_Some (eg_classes g2 !! c2) -> visited pm es c1 c2).
Lemma product_derives t c1 c2 : Rep g1 t c1 -> Rep g2 t c2 -> exists id, pm !! (c1, c2) = Some id /\ Derives es t id.
Proof.
  intros H1. revert c2. revert t c1 H1. apply (Rep_ind' g1 (fun t c1 => forall c2, Rep g2 t c2 -> exists id, pm !! (c1, c2) = Some id /\ Derives es t id)).
  intros f ts cs c1 k1 Hk1 Hn1 _ IH c2 H2. inversion H2 as [? ? ds ? k2 Hk2 Hn2 Hts]; subst.
  destruct (Hv c1 c2) as (id & Hid & Hd); [eauto..|]. destruct (Hd k1 k2 _ _ Hk1 Hk2 Hn1 Hn2) as (ps & Hin & K).
  { unfold node_matches. cbn. rewrite bool_decide_true by done. cbn. apply Nat.eqb_eq. apply Forall2_length in IH, Hts. congruence. }
  exists id. split; [done|]. cbn in *. econstructor; [exact Hin|]. clear -K IH Hts. revert ts IH Hts.
  induction K as [|c d p cs ds ps Hp _ IHk]; intros ts IH Hts; inversion IH as [|t ? ts' ? Ht Hts']; subst; inversion Hts as [|? ? ? ? Hr Hrs]; subst; constructor; auto.
  destruct (Ht _ Hr) as (i & Hi & Hd). by rewrite Hp in Hi; injection Hi as <-.
Qed.
(** In e-graphs without congruent nodes in different classes names are unambiguous. *)
Definition uniq (g : egraph) : Prop := forall c c' k k' n n', eg_classes g !! c = Some k -> eg_classes g !! c' = Some k' -> n ∈ c_nodes k -> n' ∈ c_nodes k' ->
  canonf (eg_find g) n = canonf (eg_find g) n' -> c = c'.
Lemma product_fun : uniq g1 -> uniq g2 -> forall m k k', (m, k) ∈ es -> (m, k') ∈ es -> k = k'.
Proof.
  intros U1 U2 [f ps] i i' Hi Hi'. destruct (Ha _ _ Hi) as (c1 & c2 & k1 & k2 & [f1 cs] & [f2 ds] & Hid & Hk1 & Hk2 & Hn1 & Hn2 & O1 & O2 & K).
  destruct (Ha _ _ Hi') as (c1' & c2' & k1' & k2' & [f1' cs'] & [f2' ds'] & Hid' & Hk1' & Hk2' & Hn1' & Hn2' & O1' & O2' & K'). cbn in *. subst f1 f2 f1' f2'.
  assert (HE : eg_find g1 <$> cs = eg_find g1 <$> cs' /\ eg_find g2 <$> ds = eg_find g2 <$> ds').
  { clear -K K' W. revert cs' ds' K'. induction K as [|c d p cs ds ps Hp _ IHk]; intros cs' ds' K'; inversion K' as [|c' d' ? cs2 ds2 ? Hp' K2]; subst; [done|].
    destruct (IHk _ _ K2) as [E1 E2]. assert ((eg_find g1 c, eg_find g2 d) = (eg_find g1 c', eg_find g2 d')) as [= F1 F2] by (by eapply W).
    rewrite !fmap_cons. split; congruence. }
  destruct HE as [E1 E2]. assert (c1 = c1') as <- by (eapply (U1 _ _ _ _ _ _ Hk1 Hk1' Hn1 Hn1'); unfold canonf; cbn; congruence).
  assert (c2 = c2') as <- by (eapply (U2 _ _ _ _ _ _ Hk2 Hk2' Hn2 Hn2'); unfold canonf; cbn; congruence). congruence.
Qed.
End product.

Section rebuilt.
Context {Op D : Type} `{Countable Op} (L : lang Op) (A : analysis Op D).
Notation egraph := (egraph Op D).
Implicit Types (g : egraph) (t u : term Op).
Lemma clean_uniq ex g : reachable L A ex g -> eg_clean g = true -> uniq g.
Proof.
  intros R Ec c c' k k' n n' Hc Hc' Hn Hn' E. pose proof (reachable_Inv _ _ _ _ R) as I. pose proof (reachable_clean _ _ _ _ R Ec) as Ep.
  destruct (ci_nodes _ _ _ _ _ _ _ (iv_c _ I) _ _ _ Hc Hn) as (i & m & Hm & <- & Em).
  destruct (ci_nodes _ _ _ _ _ _ _ (iv_c _ I) _ _ _ Hc' Hn') as (j & m' & Hm' & <- & Em').
  eapply Inv_congruent; eauto. congruence.
Qed.
Context (Hh : hook_free A).
(** The result of [from_enodes] is closed under congruence before it is rebuilt. *)
Lemma fi_closed es ids g a b : fi L A es ids g -> Cong (eg_log g) a b -> eg_find g a = eg_find g b.
Proof.
  intros F Hc. pose proof (reachable_np_reachable _ _ _ _ (fi_np _ _ _ _ _ F)) as R. pose proof (reachable_Inv _ _ _ _ R) as I.
  apply reachable_hist in R as [_ Hl].
  assert (Hcan : forall k m, eg_nodes g !! k = Some m -> canonf (eg_find g) m = m).
  { intros k m Hk. apply (fi_own _ _ _ _ _ F) in Hk. destruct (fi_memo _ _ _ _ _ F _ _ Hk) as (m' & j & _ & Em & _).
    rewrite <- canon_canonf. by destruct (canon_ids L A es _ _ _ _ F Em). }
  induction Hc as [i|i j _ IH|i j k _ IH1 _ IH2|x y r Hr|f cs ds i j Hi Hj El Hk IH].
  - done.
  - done.
  - congruence.
  - apply (ci_un _ _ _ _ _ _ _ (iv_c _ I)). by exists r.
  - destruct (Hl _ _ Hi) as (m & Hm & Em). destruct (Hl _ _ Hj) as (m' & Hm' & Em').
    assert (m = m') as <-. { rewrite <- (Hcan _ _ Hm), <- (Hcan _ _ Hm'), <- Em, <- Em'. by apply canonf_eq_intro. }
    apply (fi_own _ _ _ _ _ F) in Hm, Hm'. congruence.
Qed.
Lemma from_rebuilt es ids g fuel g' n : fi L A es ids g -> rebuild L A fuel (modify_n L A fuel) g = Ok (g', n) ->
  reachable_np L A false g' /\ eg_clean g' = true /\ forall t u, (exists c, Rep g' t c /\ Rep g' u c) <-> (exists c, Rep g t c /\ Rep g u c).
Proof.
  intros F E. pose proof (fi_np _ _ _ _ _ F) as Rn. pose proof (reachable_np_reachable _ _ _ _ Rn) as R. pose proof (reachable_Inv _ _ _ _ R) as I.
  destruct Rn as [Hnp Rn]. destruct (rebuild_step L A no_prune false fuel g g' n calls_np Rn E) as (R1 & G & Ec).
  assert (Rn' : reachable_np L A false g') by (by split). split_and!; [done|done|].
  pose proof (reachable_np_reachable _ _ _ _ Rn') as R'. pose proof (reachable_Inv _ _ _ _ R') as I'.
  destruct (rebuild_quiet L A Hh false fuel g g' n R E) as (El & En & Eu).
  assert (Hrep : forall g, reachable_np L A false g -> forall v r, NRep g (fun _ => None) (embed v) r <-> Rep g v r).
  { intros g0 R0 v r. rewrite (Rep_PRep g0 (fun _ => None)). apply NRep_PRep; [by eapply reachable_Inv, reachable_np_reachable|]. by eapply reach_listed. }
  assert (Hsame : forall a b, known g' a -> known g' b -> eg_find g' a = eg_find g' b -> eg_find g a = eg_find g b).
  { intros a b Ka Kb Hab. eapply fi_closed; [exact F|]. rewrite <- El. by eapply reach_sound. }
  assert (Hback : forall v r, NRep g' (fun _ => None) v r -> exists k, known g' k /\ r = eg_find g' k /\ NRep g (fun _ => None) v (eg_find g k)).
  { intros v. induction v as [[f|x] ts IH] using term_sind; intros r Hr; inversion Hr as [|? ? cs k Hk Hcs]; subst; [|done].
    assert (Kk : known g' k) by (unfold known; rewrite <- (iv_len _ I'); by eapply lookup_lt_Some).
    exists k. split_and!; [done|done|]. rewrite En in Hk. econstructor; [exact Hk|].
    eapply Forall2_impl in Hcs; [|intros ?? Hx; exact Hx].
    assert (Hch : forall c, c ∈ cs -> known g' c).
    { intros c Hc. unfold known in *. rewrite <- (iv_len _ I') in *. rewrite <- En in Hk. pose proof (ci_ch _ _ _ _ _ _ _ (iv_c _ I') k _ c Hk Hc). lia. }
    clear Hr Hk Kk. revert IH Hch. induction Hcs as [|t1 c ts cs Ht _ IHc]; intros IH Hch; constructor.
    - inversion IH as [|? ? IH1 _]; subst. destruct (IH1 _ Ht) as (j & Kj & Hj & Hr). rewrite (Hsame c j); [done|apply Hch; left|done|done].
    - inversion IH; subst. apply IHc; [done|]. intros; apply Hch; by right. }
  intros t u. split.
  - intros (c & Ht & Hu). apply (Hrep g' Rn') in Ht, Hu. apply Hback in Ht as (k & Kk & -> & Ht), Hu as (k' & Kk' & Hkk & Hu).
    exists (eg_find g k). rewrite (Hsame k k' Kk Kk' Hkk) in Ht |- *. split; apply Hrep; done.
  - intros (c & Ht & Hu). exists (eg_find g' c). apply Hrep in Ht, Hu; [|done..]. split; apply Hrep; try done; by eapply NRep_grows.
Qed.
End rebuilt.

Section intersect.
Context {Op D : Type} `{Countable Op} (L : lang Op) (A A1 A2 : analysis Op D).
Notation egraph := (egraph Op D).
Implicit Types (g : egraph) (t u : term Op).
Notation md k := (modify_n L A (S k)).

(** The terms equal in an e-graph. *)
Definition equated g t u : Prop := exists c, Rep g t c /\ Rep g u c.

Lemma intersect_core ex1 ex2 g1 g2 o1 o2 : hook_free A -> reachable L A1 ex1 g1 -> reachable L A2 ex2 g2 -> eg_clean g1 = true -> eg_clean g2 = true ->
  (forall c, c ∈ o1 <-> is_Some (eg_classes g1 !! c)) -> (forall c, c ∈ o2 <-> is_Some (eg_classes g2 !! c)) ->
  exists pm es, intersect_all g1 g2 (list_prod o1 o2) ∅ [] = Ok (pm, es) /\ (forall m k k', (m, k) ∈ es -> (m, k') ∈ es -> k = k') /\
    forall t u, (exists k, Derives es t k /\ Derives es u k) <-> equated g1 t u /\ equated g2 t u.
Proof.
  intros Hh R1 R2 C1 C2 O1 O2.
  destruct (intersect_all_spec g1 g2 (list_prod o1 o2) ∅ [] pwf_empty) as (pm & es & E & W & _ & _ & Ha & Hv).
  { intros m id Hn. by apply elem_of_nil in Hn. }
  { intros c1 c2 Hin. apply elem_of_list_In, in_prod_iff in Hin as [H1 H2]. apply elem_of_list_In in H1, H2. by rewrite <- O1, <- O2. }
  assert (Hv' : forall c1 c2, is_Some (eg_classes g1 !! c1) -> is_Some (eg_classes g2 !! c2) -> visited g1 g2 pm es c1 c2).
  { intros c1 c2 H1 H2. apply Hv. apply elem_of_list_In, in_prod_iff. split; apply elem_of_list_In; by apply O1 || apply O2. }
  exists pm, es. split_and!; [done| |].
  - apply (product_fun g1 g2 pm es W Ha); by eapply clean_uniq.
  - intros t u. split.
    + intros (k & Ht & Hu). apply (derives_product g1 g2 pm es W Ha) in Ht as (c1 & c2 & Hk & Ht1 & Ht2).
      apply (derives_product g1 g2 pm es W Ha) in Hu as (d1 & d2 & Hk' & Hu1 & Hu2).
      assert ((c1, c2) = (d1, d2)) as [= <- <-] by (by eapply W). split; [by exists c1|by exists c2].
    + intros [(c1 & Ht1 & Hu1) (c2 & Ht2 & Hu2)].
      destruct (product_derives g1 g2 pm es Hv' _ _ _ Ht1 Ht2) as (k & Hk & Ht). destruct (product_derives g1 g2 pm es Hv' _ _ _ Hu1 Hu2) as (k' & Hk' & Hu).
      rewrite Hk in Hk'. injection Hk' as <-. eauto.
Qed.
Lemma intersect_exact ex1 ex2 fuel k here g1 g2 g o1 o2 : hook_free A -> reachable L A1 ex1 g1 -> reachable L A2 ex2 g2 -> eg_clean g1 = true -> eg_clean g2 = true ->
  (forall c, c ∈ o1 <-> is_Some (eg_classes g1 !! c)) -> (forall c, c ∈ o2 <-> is_Some (eg_classes g2 !! c)) ->
  egraph_intersect A (md k) here fuel o1 o2 g1 g2 = Ok g ->
  reachable_np L A false g /\ forall t u, equated g t u <-> equated g1 t u /\ equated g2 t u.
Proof.
  intros Hh R1 R2 C1 C2 O1 O2 E. destruct (intersect_core ex1 ex2 g1 g2 o1 o2 Hh R1 R2 C1 C2 O1 O2) as (pm & es & E1 & Hfun & HD).
  unfold egraph_intersect in E. rewrite E1 in E. cbn [mbind res_bind] in E.
  destruct (from_enodes_spec L A Hh k here fuel es g Hfun E) as [R HR]. split; [done|]. intros t u. unfold equated at 1. by rewrite HR, HD.
Qed.
Lemma intersect_rebuilt ex1 ex2 fuel k here g1 g2 g o1 o2 fuel' g' n : hook_free A -> reachable L A1 ex1 g1 -> reachable L A2 ex2 g2 ->
  eg_clean g1 = true -> eg_clean g2 = true ->
  (forall c, c ∈ o1 <-> is_Some (eg_classes g1 !! c)) -> (forall c, c ∈ o2 <-> is_Some (eg_classes g2 !! c)) ->
  egraph_intersect A (md k) here fuel o1 o2 g1 g2 = Ok g -> rebuild L A fuel' (modify_n L A fuel') g = Ok (g', n) ->
  reachable_np L A false g' /\ eg_clean g' = true /\ forall t u, equated g' t u <-> equated g1 t u /\ equated g2 t u.
Proof.
  intros Hh R1 R2 C1 C2 O1 O2 E E'. destruct (intersect_core ex1 ex2 g1 g2 o1 o2 Hh R1 R2 C1 C2 O1 O2) as (pm & es & E1 & Hfun & HD).
  destruct (intersect_exact ex1 ex2 fuel k here g1 g2 g o1 o2 Hh R1 R2 C1 C2 O1 O2 E) as [_ HX].
  unfold egraph_intersect in E. rewrite E1 in E. cbn [mbind res_bind] in E.
  destruct (from_loop_inv L A Hh es k here fuel ∅ (eg_new false) g (fi_new L A Hh es) E) as (ids & F & _).
  destruct (from_rebuilt L A Hh es ids g fuel' g' n F E') as (R' & C' & HR). split_and!; [done|done|].
  intros t u. rewrite <- HX. apply HR.
Qed.
Lemma intersect_total ex1 ex2 here g1 g2 o1 o2 : hook_free A -> reachable L A1 ex1 g1 -> reachable L A2 ex2 g2 -> eg_clean g1 = true -> eg_clean g2 = true ->
  (forall c, c ∈ o1 <-> is_Some (eg_classes g1 !! c)) -> (forall c, c ∈ o2 <-> is_Some (eg_classes g2 !! c)) ->
  exists bound, forall fuel k, bound <= fuel -> exists g, egraph_intersect A (md k) here fuel o1 o2 g1 g2 = Ok g.
Proof.
  intros Hh R1 R2 C1 C2 O1 O2. destruct (intersect_core ex1 ex2 g1 g2 o1 o2 Hh R1 R2 C1 C2 O1 O2) as (pm & es & E1 & Hfun & HD).
  exists (S (length es)). intros fuel k Hf. unfold egraph_intersect. rewrite E1. cbn [mbind res_bind]. by apply from_enodes_total.
Qed.
End intersect.
