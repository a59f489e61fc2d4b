(** Soundness of e-graphs whose analysis and hooks tell the truth. *)
From Verif Require Import Base UnionFind EGraphModel EGraphSteps EGraphInv EGraphPres EGraphRuns Spec EGraphMain EGraphReach EGraphAna AlgSpec AlgProofs TruthSpec.

Section truth.
Context {Op D V : Type} `{Countable Op} (L : lang Op) (A : analysis Op D).
Notation egraph := (egraph Op D).
Notation node := (node Op).
Notation prog := (prog Op D).
Context (F : Op -> list V -> V) (says : D -> V -> Prop).
Notation dat := (class_data (Op := Op) (D := D)).
Implicit Types (g : egraph) (nu : nat -> V).

Definition nodes_true nu g : Prop := forall k n, eg_nodes g !! k = Some n -> nu k = F (nop n) (nu <$> nch n).
Definition unions_true nu g : Prop := forall a b, log_unions (eg_log g) a b -> nu a = nu b.
Definition same_true nu g : Prop := forall i j, eg_find g i = eg_find g j -> nu i = nu j.
Record SI nu g : Prop := {
  si_inv : Inv g;
  si_nodes : nodes_true nu g;
  si_unions : unions_true nu g;
  si_data : data_true says nu g;
}.

Lemma fmap_pointwise {X} (f : nat -> X) (cs ds : list nat) : length cs = length ds ->
  (forall k c d, cs !! k = Some c -> ds !! k = Some d -> f c = f d) -> f <$> cs = f <$> ds.
Proof.
  revert ds. induction cs as [|c cs IH]; intros [|d ds] El Hk; try done. cbn. f_equal; [by apply (Hk 0)|].
  apply IH; [cbn in El; lia|]. intros k. apply (Hk (S k)).
Qed.
Lemma congT_true nu (ns : list node) (U : nat -> nat -> Prop) i j : (forall k n, ns !! k = Some n -> nu k = F (nop n) (nu <$> nch n)) ->
  (forall a b, U a b -> nu a = nu b) -> congT ns U i j -> nu i = nu j.
Proof.
  intros Hn Hu. induction 1 as [| | | |i j a b Hi Hj Eo El Hk IH]; try congruence; auto.
  rewrite (Hn i a Hi), (Hn j b Hj), Eo. f_equal. by apply fmap_pointwise.
Qed.
Lemma find_true nu g i : Inv g -> nodes_true nu g -> unions_true nu g -> nu (eg_find g i) = nu i.
Proof.
  intros I Hn Hu. destruct (decide (i < length (eg_nodes g))) as [Hi|Hi].
  - symmetry. eapply congT_true; [exact Hn|exact Hu|]. by apply (ci_snd _ _ _ _ _ _ _ (iv_c _ I)).
  - f_equal. apply uf_find_oob. rewrite <- (iv_len _ I). lia.
Qed.
Lemma same_find nu g : Inv g -> nodes_true nu g -> unions_true nu g -> same_true nu g.
Proof. intros I Hn Hu i j E. by rewrite <- (find_true nu g i), <- (find_true nu g j), E. Qed.
Lemma SI_same nu g : SI nu g -> same_true nu g.
Proof. intros [? ? ? _]. by apply same_find. Qed.
Lemma canon_true nu g n m : same_true nu g -> canonf (eg_find g) n = canonf (eg_find g) m -> F (nop n) (nu <$> nch n) = F (nop m) (nu <$> nch m).
Proof.
  intros Hs E. apply canonf_eq_inv in E as (Eo & El & Hk). rewrite Eo. f_equal. apply fmap_pointwise; [done|]. intros k c d Hc Hd. apply Hs. by eapply Hk.
Qed.
Lemma dat_known g i d : Inv g -> dat g i = Some d -> i < length (eg_nodes g).
Proof.
  intros I E. unfold class_data in E. destruct (eg_classes g !! eg_find g i) eqn:Ec; [|done].
  assert (Hr : eg_find g i < length (eg_nodes g)) by (apply (ci_cls _ _ _ _ _ _ _ (iv_c _ I)); by rewrite Ec).
  by apply (ci_lt _ _ _ _ _ _ _ (iv_c _ I)).
Qed.
Lemma SI_state nu g : SI nu g -> true_state F says nu g.
Proof.
  intros S. pose proof (SI_same _ _ S) as Hs. destruct S as [I Hn Hu Hd]. split; [done| |].
  - intros r c f cs Hr Hin. destruct (ci_nodes _ _ _ _ _ _ _ (iv_c _ I) _ _ _ Hr Hin) as (k & m & Hk & Ek & Em).
    assert (nu r = nu k) as -> by (apply Hs; rewrite <- Ek; by apply Inv_find_idem). rewrite (Hn k m Hk). symmetry. exact (canon_true nu g (Node f cs) m Hs Em).
  - intros i d E. split; [|by apply Hd]. unfold known. rewrite <- (iv_len _ I). by eapply dat_known.
Qed.

Hypothesis SA : sound_analysis A F says.

Lemma data_same nu (g g' : egraph) :
  (forall i, eg_find g' i = eg_find g i) -> (forall r, c_data <$> eg_classes g' !! r = c_data <$> eg_classes g !! r) -> data_true says nu g -> data_true says nu g'.
Proof. intros Hf Hd Hb i d Hdi. apply Hb. unfold class_data in *. by rewrite Hf, Hd in Hdi. Qed.
Lemma says_children nu g cs ds : data_true says nu g -> dat g <$> cs = Some <$> ds -> Forall2 says ds (nu <$> cs).
Proof.
  intros Hd. revert ds. induction cs as [|c cs IH]; intros [|d ds] E; [constructor|done|done|]. cbn in E. injection E as E1 E2. constructor; [by apply Hd|by apply IH].
Qed.
(** One class gets other data. *)
Lemma data_insert nu (g g' : egraph) r c d : Inv g -> same_true nu g -> (forall i, eg_find g' i = eg_find g i) -> eg_find g r = r ->
  eg_classes g' = <[r := c_set_data d c]> (eg_classes g) -> says d (nu r) -> data_true says nu g -> data_true says nu g'.
Proof.
  intros I Hs Hf Hr Ec Hsd Hd i di Hdi. unfold class_data in Hdi. rewrite Hf, Ec in Hdi. destruct (decide (eg_find g i = r)) as [E|E].
  - rewrite E, lookup_insert in Hdi. injection Hdi as <-. assert (nu i = nu r) as -> by (apply Hs; by rewrite Hr). done.
  - rewrite lookup_insert_ne in Hdi by done. by apply Hd.
Qed.
Lemma data_union nu l (g g' : egraph) : Inv g -> pview L A g g' l -> l = LUnion \/ l = LPend -> same_true nu g' -> data_true says nu g -> data_true says nu g'.
Proof.
  intros I Hv Hl Hcl Hb. destruct Hv as [l Hl' He En Ec Eb Ea Hcl'
      |l id1 id2 k1 k2 d did1 did2 Hl' Hne Hf1 Hf2 E1 E2 Hf Hlen En Hm Ec Eb Ea Hcl'|l r c d Hl'|l r c f Hl'|Hl']; try naive_solver.
  - eapply data_same; [apply He|by rewrite Ec|done].
  - intros i di Hdi. unfold class_data in Hdi. rewrite Hf, Ec in Hdi.
    assert (Hk : forall k kk, eg_find g k = k -> eg_classes g !! k = Some kk -> says (c_data kk) (nu k)).
    { intros k kk Hfk Hkk. apply Hb. unfold class_data. by rewrite Hfk, Hkk. }
    assert (Hv12 : nu id1 = nu id2).
    { apply Hcl. rewrite !Hf, Hf1, Hf2. rewrite decide_False by done. by rewrite decide_True. }
    assert (Hld : says d (nu id1)).
    { eapply (sa_merge _ _ _ SA); [exact Hm|by apply Hk|]. rewrite Hv12. by apply Hk. }
    case_decide as Hd2.
    + rewrite lookup_insert in Hdi. injection Hdi as <-. replace (nu i) with (nu id1); [done|].
      apply Hcl. rewrite !Hf, Hf1. rewrite decide_False by done. by rewrite decide_True.
    + destruct (decide (eg_find g i = id1)) as [Hd1|Hd1].
      * rewrite Hd1, lookup_insert in Hdi. injection Hdi as <-. replace (nu i) with (nu id1); [done|].
        apply Hcl. rewrite !Hf, Hf1, Hd1. done.
      * rewrite lookup_insert_ne, lookup_delete_ne in Hdi by congruence. by apply Hb.
Qed.

Lemma prim_nodes l g g' : plain l -> prim L A l g g' -> Inv g -> eg_nodes g' = eg_nodes g.
Proof. intros Hpl Hp I. pose proof (prim_view L A l g g' Hpl Hp I) as Hv. by destruct Hv. Qed.
Lemma nodes_eq nu g g' : eg_nodes g' = eg_nodes g -> nodes_true nu g -> nodes_true nu g'.
Proof. unfold nodes_true. by intros ->. Qed.

Lemma SI_ana nu g g' id q o : SI nu g -> uq_pop (eg_apending g) = Some (id, q) -> analysis_core A id (set_apending q g) = Ok (g', o) -> SI nu g'.
Proof.
  intros S Eq E. assert (Hp : prim L A LAna g g') by (econstructor; eauto). pose proof S as [I Hn Hu Hd]. pose proof (SI_same _ _ S) as Hs.
  assert (I' : Inv g') by (eapply Inv_prim; eauto; done). assert (En : eg_nodes g' = eg_nodes g) by (eapply prim_nodes; [|exact Hp|exact I]; done).
  assert (El : eg_log g' = eg_log g) by (refine (quiet_prim L A _ _ _ _ Hp I); by right; left).
  split; [done|by eapply nodes_eq|by intros a b; rewrite El; apply Hu|].
  unfold analysis_core in E. destruct (uq_pop_ok _ _ _ _ (iv_q _ I) Eq) as [Hq Hid].
  inv_res. cbn in H0. rename x into n, H0 into Hnd.
  destruct (eg_find_mut_spec (set_apending q g) id) as (u & Eu & He); [apply I|by cbn; rewrite <- (iv_len _ I)|].
  rewrite Eu in E. inv_res. rename x into c, H0 into Hc. cbn in Hc.
  change (eg_find (set_apending q g) id) with (eg_find g id) in *.
  destruct (dats_Some g (nch n) I (node_ch_lt g id n I Hnd)) as [ds Hds].
  destruct (an_merge A _ _) as [d [did1 did2]] eqn:Hm.
  assert (Hg : (forall i, eg_find g' i = eg_find g i) /\ eg_classes g' = <[eg_find g id := c_set_data d c]> (eg_classes g)).
  { destruct did1; inv_res; split_and!; try done; apply He. }
  destruct Hg as (Hf & Ec). eapply (data_insert nu g g' (eg_find g id) c d); auto; [by apply Inv_find_idem|].
  rewrite (find_true nu g id) by done. eapply (sa_merge _ _ _ SA); [exact Hm| |].
  - apply Hd. unfold class_data. by rewrite Hc.
  - rewrite (Hn id n Hnd). eapply (sa_remake _ _ _ SA).
    + etrans; [|exact Hds]. apply list_fmap_ext. intros. apply (dat_set_uf (set_apending q g)). apply He.
    + by eapply says_children.
Qed.
Lemma SI_pend nu g g' c rest o : SI nu g -> eg_pending g = c :: rest -> pending_core A c (set_pending rest g) = Ok (g', o) -> SI nu g'.
Proof.
  intros S Ep E. assert (Hp : prim L A LPend g g') by (econstructor; eauto). pose proof S as [I Hn Hu Hd].
  assert (I' : Inv g') by (eapply Inv_prim; eauto; done). assert (En : eg_nodes g' = eg_nodes g) by (eapply prim_nodes; [|exact Hp|exact I]; done).
  assert (El : eg_log g' = eg_log g) by (refine (quiet_prim L A _ _ _ _ Hp I); by left).
  assert (Hn' : nodes_true nu g') by (by eapply nodes_eq). assert (Hu' : unions_true nu g') by (intros a b; rewrite El; apply Hu).
  split; [done..|]. eapply data_union; [exact I|eapply prim_view; [|exact Hp|exact I]; done|by right|by apply same_find|done].
Qed.
Lemma SI_rebuilt nu g : SI nu g -> eg_pending g = [] -> uq_queue (eg_apending g) = [] -> SI nu (set_clean true (rebuild_classes L g)).
Proof.
  intros S Ep Eq. assert (Hp : prim L A LRebuild g (set_clean true (rebuild_classes L g))) by (by constructor). pose proof S as [I Hn Hu Hd].
  assert (I' : Inv (set_clean true (rebuild_classes L g))) by (eapply Inv_prim; eauto; done). assert (En : eg_nodes (set_clean true (rebuild_classes L g)) = eg_nodes g) by (eapply prim_nodes; [|exact Hp|exact I]; done).
  assert (El : eg_log (set_clean true (rebuild_classes L g)) = eg_log g) by (refine (quiet_prim L A _ _ _ _ Hp I); by right; right).
  split; [done|by eapply nodes_eq|by intros a b; rewrite El; apply Hu|].
  destruct (rebuild_classes_spec L g) as (u & cls' & ops' & -> & He & Hcls & _).
  { apply I. }
  { intros. rewrite <- (iv_len _ I). by eapply class_children_lt. }
  eapply data_same; [..|exact Hd]; auto; [apply He|]. intros r. cbn. rewrite Hcls. by destruct (eg_classes g !! r).
Qed.
Lemma SI_union nu g g' a b r rule o : SI nu g -> nu a = nu b -> (rule = None /\ eg_explain g = None) \/ rule = Some (JRule r) ->
  perform_union_core A a b rule (add_log (EUnion a b r) g) = Ok (g', o) -> SI nu g'.
Proof.
  intros S Hab Hr E. assert (Hp : prim L A LUnion g g') by (econstructor; eauto). pose proof S as [I Hn Hu Hd].
  assert (I' : Inv g') by (eapply Inv_prim; eauto; done). assert (En : eg_nodes g' = eg_nodes g) by (eapply prim_nodes; [|exact Hp|exact I]; done).
  assert (El : eg_log g' = EUnion a b r :: eg_log g).
  { apply perform_union_core_spec in E as (_ & _ & Hs); [|apply I]. by destruct Hs. }
  assert (Hn' : nodes_true nu g') by (by eapply nodes_eq). assert (Hu' : unions_true nu g').
  { intros x y. rewrite El. intros (r' & [[= -> -> ->]|Hin]%elem_of_cons); [done|]. apply Hu. by exists r'. }
  split; [done..|]. eapply data_union; [exact I|eapply prim_view; [|exact Hp|exact I]; done|by left|by apply same_find|done].
Qed.
Lemma SI_setdata nu g g' i d r : SI nu g -> says d (nu i) -> set_data_core i d g = Ok (g', r) -> SI nu g'.
Proof.
  intros S Hsd E. assert (Hp : prim L A LSetData g g') by (econstructor; eauto). pose proof S as [I Hn Hu Hd].
  assert (I' : Inv g') by (eapply Inv_prim; eauto; done). assert (En : eg_nodes g' = eg_nodes g) by (eapply prim_nodes; [|exact Hp|exact I]; done).
  unfold set_data_core in E. destruct (valid_id g i) eqn:Hv; cbn [negb] in E; [|done]. apply valid_id_lt in Hv.
  destruct (eg_find_mut_spec g i (iv_wf _ I) Hv) as (u & Eu & He). rewrite Eu in E. inv_res. cbn in H0.
  split; [done|done|done|]. eapply (data_insert nu g _ (eg_find g i) x d); auto; [by eapply SI_same|apply He|by apply Inv_find_idem|].
  by rewrite (find_true nu g i).
Qed.
Lemma SI_poke nu g g' i d : SI nu g -> says d (nu i) -> poke_data i d g = Ok g' -> SI nu g'.
Proof.
  intros S Hsd E. assert (Hp : prim L A LPoke g g') by (econstructor; eauto). pose proof S as [I Hn Hu Hd].
  assert (I' : Inv g') by (eapply Inv_prim; eauto; done). assert (En : eg_nodes g' = eg_nodes g) by (eapply prim_nodes; [|exact Hp|exact I]; done).
  unfold poke_data in E. destruct (valid_id g i) eqn:Hv; cbn [negb] in E; [|done]. apply valid_id_lt in Hv.
  destruct (eg_find_mut_spec g i (iv_wf _ I) Hv) as (u & Eu & He). rewrite Eu in E. inv_res. cbn in H0.
  split; [done|done|done|]. eapply (data_insert nu g _ (eg_find g i) x d); auto; [by eapply SI_same|apply He|by apply Inv_find_idem|].
  by rewrite (find_true nu g i).
Qed.
Lemma SI_retain nu g g' i f : SI nu g -> retain_nodes i f g = Ok g' -> SI nu g'.
Proof.
  intros S E. assert (Hp : prim L A LRetain g g') by (econstructor; eauto). pose proof S as [I Hn Hu Hd].
  assert (I' : Inv g') by (eapply Inv_prim; eauto; done). assert (En : eg_nodes g' = eg_nodes g) by (eapply prim_nodes; [|exact Hp|exact I]; done).
  unfold retain_nodes in E. destruct (valid_id g i) eqn:Hv; cbn [negb] in E; [|done]. apply valid_id_lt in Hv.
  destruct (eg_find_mut_spec g i (iv_wf _ I) Hv) as (u & Eu & He). rewrite Eu in E. inv_res. cbn in H0.
  split; [done|done|done|]. eapply data_same; [..|exact Hd]; auto; [apply He|]. intros r. cbn in *.
  destruct (decide (r = eg_find g i)) as [->|Hne]; [rewrite lookup_insert, H0; done|by rewrite lookup_insert_ne].
Qed.

(** Values of unknown ids do not matter. *)
Lemma SI_ext nu nu' g : SI nu g -> (forall k, k < length (eg_uf g) -> nu' k = nu k) -> SI nu' g.
Proof.
  intros [I Hn Hu Hd] Ha. rewrite <- (iv_len _ I) in Ha. split; [done| | |].
  - intros k n Hk. pose proof (lookup_lt_Some _ _ _ Hk) as Hlt. rewrite Ha by done. rewrite (Hn k n Hk). f_equal.
    apply fmap_agree. intros c Hc. symmetry. apply Ha. pose proof (ci_ch _ _ _ _ _ _ _ (iv_c _ I) _ _ _ Hk Hc). lia.
  - intros a b Hab. destruct (iv_log _ I _ _ Hab). rewrite !Ha by done. by apply Hu.
  - intros i d Hi. rewrite Ha by (by eapply dat_known). by apply Hd.
Qed.

(** [ext nu g g' nu']: the values [nu] true of [g] extend to [nu'] true of [g']. *)
Definition ext nu g g' nu' : Prop := SI nu' g' /\ (forall k, k < length (eg_uf g) -> nu' k = nu k) /\ length (eg_uf g) <= length (eg_uf g').
Lemma ext_refl nu g : SI nu g -> ext nu g g nu.
Proof. by unfold ext. Qed.
Lemma ext_trans nu1 nu2 nu3 g1 g2 g3 : ext nu1 g1 g2 nu2 -> ext nu2 g2 g3 nu3 -> ext nu1 g1 g3 nu3.
Proof. intros (S1 & K1 & N1) (S2 & K2 & N2). unfold ext. split_and!; [done| |lia]. intros k Hk. rewrite K2, K1; auto. lia. Qed.
Lemma ext_stay nu g g' : SI nu g -> SI nu g' -> eg_nodes g' = eg_nodes g -> ext nu g g' nu.
Proof. intros S S' E. split_and!; [done|done|]. by rewrite <- (iv_len _ (si_inv _ _ S)), <- (iv_len _ (si_inv _ _ S')), E. Qed.
Lemma SI_log_add nu g n i : SI nu g -> SI nu (add_log (EAdd n i) g).
Proof.
  intros [I Hn Hu Hd]. split; [by apply Inv_log|done| |done]. intros a b (r & [[=]|Hr]%elem_of_cons). apply Hu. by exists r.
Qed.
Lemma SI_clean nu g b : SI nu g -> SI nu (set_clean b g).
Proof. intros [I Hn Hu Hd]. split; [by apply Inv_clean|done|done|done]. Qed.

(** Adding: the new id, if any, gets the value of the e-node. *)
Lemma SI_add nu n g g' id o : SI nu g -> add_core A n g = Ok (g', id, o) ->
  exists nu', ext nu g g' nu' /\ id < length (eg_uf g') /\ nu' id = F (nop n) (nu' <$> nch n).
Proof.
  intros S E. pose proof S as [I Hn Hu Hd].
  pose proof (Inv_add _ _ _ _ _ _ I E) as I'. pose proof (add_core_node A n g g' id o I E) as [(m & Hm & Em) _].
  apply add_core_spec in E as [Hch Hs]; [|apply I]. rewrite Forall_forall in Hch.
  assert (Hid : id < length (eg_uf g')) by (rewrite <- (iv_len _ I'); by eapply lookup_lt_Some).
  assert (Hval : forall nu', SI nu' g' -> nu' id = F (nop n) (nu' <$> nch n)).
  { intros nu' S'. rewrite (si_nodes _ _ S' id m Hm). symmetry. eapply canon_true; [by apply SI_same|done]. }
  set (N := length (eg_uf g)). set (nu' := fun k => if decide (k = N) then F (nop n) (nu <$> nch n) else nu k).
  assert (Ho : forall k, k < N -> nu' k = nu k).
  { intros k Hk. unfold nu'. rewrite decide_False; [done|lia]. }
  assert (S1 : SI nu' g) by (eapply SI_ext; [exact S|exact Ho]).
  assert (Hnew : nu' N = F (nop n) (nu' <$> nch n)).
  { unfold nu' at 1. rewrite decide_True by done. f_equal. apply fmap_agree. intros c Hc. symmetry. by apply Ho, Hch. }
  assert (Hnodes : nodes_true nu' g -> eg_nodes g' = eg_nodes g ++ [n] -> nodes_true nu' g').
  { intros Hnt Eg k x Hk. rewrite Eg in Hk. apply lookup_app_Some in Hk as [Hk|[Hge Hk]]; [by apply Hnt|].
    destruct (k - length (eg_nodes g)) as [|q] eqn:Ek; [|done]. injection Hk as <-. assert (k = N) as ->; [|done].
    unfold N. rewrite <- (iv_len _ I). lia. }
  destruct Hs as [e id He Hid'|e x x1 x2 u He Hx Hxn Hxa Hxu Hu'|u cls' ex' Hmm Hw Hl Hf Hcls Hex].
  - exists nu. split; [by apply ext_refl|]. auto.
  - set (g' := set_explain _ _) in *. exists nu'. assert (S' : SI nu' g').
    { pose proof (Hnodes (si_nodes _ _ S1) eq_refl) as Hn'. assert (Hu2 : unions_true nu' g') by exact (si_unions _ _ S1).
      pose proof (same_find nu' g' I' Hn' Hu2) as Hcl. split; [done..|].
      destruct (ci_memo _ _ _ _ _ _ _ (iv_c _ I) _ _ He) as (m' & Hm' & Em').
      pose proof (lookup_lt_Some _ _ _ Hm') as Hel.
      assert (Hfg : forall i, eg_find g' i = if decide (eg_find g i = length (eg_uf g)) then eg_find g e else eg_find g i).
      { intros i. unfold eg_find at 1. cbn. subst u. by apply alias_find. }
      intros i d Hdi. unfold class_data in Hdi. change (eg_classes g') with (eg_classes g) in Hdi. rewrite Hfg in Hdi.
      case_decide as Hd1.
      + replace (nu' i) with (nu' e). { by apply (si_data _ _ S1). }
        apply Hcl. rewrite !Hfg. rewrite decide_False. { by rewrite decide_True. }
        pose proof (proj2 (ci_lt _ _ _ _ _ _ _ (iv_c _ I) e) Hel). rewrite <- (iv_len _ I). lia.
      + by apply (si_data _ _ S1). }
    split; [|by auto]. split_and!; [done|exact Ho|]. rewrite <- (iv_len _ I), <- (iv_len _ I'). cbn. rewrite app_length. lia.
  - set (g' := set_explain _ _) in *. exists nu'. assert (S' : SI nu' g').
    { pose proof (Hnodes (si_nodes _ _ S1) eq_refl) as Hn'. assert (Hu2 : unions_true nu' g') by exact (si_unions _ _ S1).
      split; [done..|]. intros i d Hdi.
      unfold class_data in Hdi. assert (Hf' : forall i, eg_find g' i = eg_find g i) by (intros; apply Hf). rewrite Hf' in Hdi.
      cbn [g' eg_classes set_explain set_memo set_classes] in Hdi. rewrite Hcls in Hdi.
      case_decide as Hdd.
      + cbn in Hdi. injection Hdi as <-.
        assert (i = N) as ->.
        { destruct (decide (i < N)) as [Hlt|Hge].
          - unfold N in *. rewrite <- (iv_len _ I) in *. pose proof (proj2 (ci_lt _ _ _ _ _ _ _ (iv_c _ I) i) Hlt). lia.
          - trans (eg_find g i); [symmetry; apply uf_find_oob; unfold N in *; lia|exact Hdd]. }
        rewrite Hnew. destruct (dats_Some g (nch n) I) as [ds Hds]; [apply Forall_forall; intros c Hc; rewrite (iv_len _ I); by apply Hch|].
        eapply (sa_make _ _ _ SA); [|eapply says_children; [exact (si_data _ _ S1)|exact Hds]].
        rewrite <- Hds. apply list_fmap_ext. intros. apply dat_set_uf. intros. apply make_set_find, I.
      + apply (si_data _ _ S1). unfold class_data. by destruct (eg_classes g !! eg_find g i). }
    split; [|by auto]. split_and!; [done|exact Ho|]. rewrite <- (iv_len _ I), <- (iv_len _ I'). cbn. rewrite app_length. lia.
Qed.

Definition md_true (md : nat -> egraph -> res egraph) : Prop := forall id g g' nu, SI nu g -> md id g = Ok g' -> exists nu', ext nu g g' nu'.
Lemma run_hook_true md o nu g g' : md_true md -> SI nu g -> run_hook md o g = Ok g' -> exists nu', ext nu g g' nu'.
Proof. destruct o; cbn; intros Hm S E; [by eapply Hm|]. inv_res. exists nu. by apply ext_refl. Qed.
Lemma perform_union_true md a b r rule nu g g' v : md_true md -> SI nu g -> nu a = nu b ->
  (rule = None /\ eg_explain g = None) \/ rule = Some (JRule r) ->
  perform_union A md a b rule (add_log (EUnion a b r) g) = Ok (g', v) -> exists nu', ext nu g g' nu'.
Proof.
  intros Hm S Hab Hr E. unfold perform_union in E. inv_res. destruct x as [g1 o]. inv_res.
  pose proof (SI_union _ _ _ _ _ _ _ _ S Hab Hr H0) as S1.
  assert (En : eg_nodes g1 = eg_nodes g) by (eapply (prim_nodes LUnion); [done|by econstructor|apply S]).
  destruct (run_hook_true _ _ _ _ _ Hm S1 H1) as [nu' X]. exists nu'. eapply ext_trans; [by apply ext_stay|exact X].
Qed.
Lemma api_add_true md n nu g g' i : md_true md -> SI nu g -> api_add A md n g = Ok (g', i) ->
  exists nu', ext nu g g' nu' /\ i < length (eg_uf g') /\ nu' i = F (nop n) (nu' <$> nch n).
Proof.
  intros Hm S E. unfold api_add, add_uncanonical in E. inv_res. destruct x as [g1 j]. inv_res.
  destruct x0 as [[g2 id] o].
  pose proof (add_core_spec A n g g2 id o (iv_wf _ (si_inv _ _ S)) H1) as [Hch _]. rewrite Forall_forall in Hch.
  destruct (SI_add _ _ _ _ _ _ S H1) as (nu1 & X1 & Hid & Hv). destruct o as [h|]; inv_res.
  - match goal with Hx : md _ _ = Ok _ |- _ => rename Hx into Emd end. destruct (Hm _ _ _ _ (proj1 X1) Emd) as (nu2 & S2 & K2 & N2). exists nu2. split_and!.
    + eapply ext_trans; [exact X1|]. split_and!; [by apply SI_log_add, SI_clean|done|done].
    + cbn. lia.
    + rewrite K2 by done. rewrite Hv. f_equal. apply fmap_agree. intros c Hc. symmetry. apply K2.
      destruct X1 as (_ & _ & N1). pose proof (Hch c Hc). lia.
  - exists nu1. split_and!; [|done|done]. destruct X1 as (S1 & K1 & N1). split_and!; [by apply SI_log_add|done|done].
Qed.
Lemma api_union_true md a b r nu g g' v : md_true md -> SI nu g -> nu a = nu b -> api_union A md a b r g = Ok (g', v) -> exists nu', ext nu g g' nu'.
Proof.
  intros Hm S Hab E. unfold api_union, union, union_trusted in *. cbn [eg_explain add_log] in *.
  destruct (eg_explain g) eqn:Ex; eapply perform_union_true in E; eauto.
Qed.
Lemma api_union_trusted_true md a b r nu g g' v : md_true md -> SI nu g -> nu a = nu b -> api_union_trusted A md a b r g = Ok (g', v) -> exists nu', ext nu g g' nu'.
Proof. intros Hm S Hab E. unfold api_union_trusted, union_trusted in *. eapply perform_union_true in E; eauto. Qed.
Lemma set_data_true md i d nu g g' : md_true md -> SI nu g -> says d (nu i) -> set_analysis_data md i d g = Ok g' -> exists nu', ext nu g g' nu'.
Proof.
  intros Hm S Hs E. unfold set_analysis_data in *. inv_res. destruct x as [g1 r].
  pose proof (SI_setdata _ _ _ _ _ _ S Hs H0) as S1.
  assert (En : eg_nodes g1 = eg_nodes g) by (eapply (prim_nodes LSetData); [done|by econstructor|apply S]).
  destruct (Hm _ _ _ _ S1 E) as [nu' X]. exists nu'. eapply ext_trans; [by apply ext_stay|exact X].
Qed.

Lemma drain_pending_true fuel md n nu g g' n' : md_true md -> SI nu g -> drain_pending A fuel md n g = Ok (g', n') -> exists nu', ext nu g g' nu'.
Proof.
  intros Hm. revert n nu g. induction fuel as [|fuel IH]; intros n nu g S; cbn [drain_pending];
    destruct (eg_pending g) eqn:Ep; intros E; inv_res; try (exists nu; by apply ext_refl).
  destruct x as [g1 o]. inv_res.
  pose proof (SI_pend _ _ _ _ _ _ S Ep H0) as S1.
  assert (En : eg_nodes g1 = eg_nodes g) by (eapply (prim_nodes LPend); [done|by econstructor|apply S]).
  destruct (run_hook_true _ _ _ _ _ Hm S1 H1) as [nu1 X1]. destruct (IH _ _ _ (proj1 X1) E) as [nu2 X2].
  exists nu2. eapply ext_trans; [by apply ext_stay|]. by eapply ext_trans.
Qed.
Lemma drain_analysis_true fuel md nu g g' : md_true md -> SI nu g -> drain_analysis A fuel md g = Ok g' -> exists nu', ext nu g g' nu'.
Proof.
  intros Hm. revert nu g. induction fuel as [|fuel IH]; intros nu g S; cbn [drain_analysis];
    destruct (uq_pop (eg_apending g)) as [[id q]|] eqn:Ep; intros E; inv_res; try (exists nu; by apply ext_refl).
  destruct x as [g1 o]. inv_res.
  pose proof (SI_ana _ _ _ _ _ _ S Ep H0) as S1.
  assert (En : eg_nodes g1 = eg_nodes g) by (eapply (prim_nodes LAna); [done|by econstructor|apply S]).
  destruct (run_hook_true _ _ _ _ _ Hm S1 H1) as [nu1 X1]. destruct (IH _ _ (proj1 X1) E) as [nu2 X2].
  exists nu2. eapply ext_trans; [by apply ext_stay|]. by eapply ext_trans.
Qed.
Lemma process_unions_true fuel inner md n nu g g' n' : md_true md -> SI nu g -> process_unions A fuel inner md n g = Ok (g', n') ->
  (exists nu', ext nu g g' nu') /\ eg_pending g' = [] /\ uq_queue (eg_apending g') = [].
Proof.
  intros Hm. revert n nu g. induction fuel as [|fuel IH]; intros n nu g S; cbn [process_unions]; intros E;
    (destruct ((match eg_pending g with [] => true | _ => false end) && uq_is_empty (eg_apending g)) eqn:Eb;
     [inv_res; apply andb_prop in Eb as [E1 E2]; unfold uq_is_empty in E2;
      destruct (eg_pending g') eqn:?; [|done]; destruct (uq_queue (eg_apending g')) eqn:?; [|done]; split; [exists nu; by apply ext_refl|done]|]); [done|].
  inv_res. destruct x as [g1 n1]. inv_res. destruct (drain_pending_true _ _ _ _ _ _ _ Hm S H0) as [nu1 X1].
  destruct (drain_analysis_true _ _ _ _ _ Hm (proj1 X1) H1) as [nu2 X2]. destruct (IH _ _ _ (proj1 X2) E) as [[nu3 X3] Hq]. split; [|done].
  exists nu3. eapply ext_trans; [exact X1|]. by eapply ext_trans.
Qed.
Lemma rebuild_true fuel md nu g g' n : md_true md -> SI nu g -> rebuild L A fuel md g = Ok (g', n) -> exists nu', ext nu g g' nu'.
Proof.
  intros Hm S E. unfold rebuild in E. inv_res. destruct x as [g1 n1]. inv_res.
  destruct (process_unions_true _ _ _ _ _ _ _ _ Hm S H0) as ([nu1 X1] & E1 & E2).
  exists nu1. eapply ext_trans; [exact X1|]. pose proof (proj1 X1) as S1. pose proof (SI_rebuilt _ _ S1 E1 E2) as S2.
  apply ext_stay; [done|done|]. eapply (prim_nodes LRebuild); [done|by constructor|apply S1].
Qed.

(** Programs. *)
Lemma run_prog_true fuel md p nu g g' : md_true md -> SI nu g -> truthful F says (length (eg_uf g)) nu p ->
  run_prog L A fuel md p g = Ok g' -> exists nu', ext nu g g' nu'.
Proof.
  intros Hm. revert nu g.
  induction p as [|k IH|n k IH|a b r k IH|a b r k IH|i d k IH|i d k IH|i f k IH|k IH];
    intros nu g S Hp E; cbn [run_prog truthful] in *.
  - inv_res. exists nu. by apply ext_refl.
  - eapply (IH g nu g); [done| |done]. apply Hp; [by apply SI_state|done].
  - inv_res. destruct x as [g1 i]. destruct (api_add_true _ _ _ _ _ _ Hm S H0) as (nu1 & X1 & Hi & Hv).
    destruct X1 as (S1 & K1 & N1). destruct (IH i nu1 g1 S1) as [nu2 X2]; [by apply Hp|done|]. exists nu2. by eapply ext_trans.
  - inv_res. destruct x as [g1 v]. destruct Hp as [Hab Hp]. destruct (api_union_true _ _ _ _ _ _ _ _ Hm S Hab H0) as (nu1 & S1 & K1 & N1).
    destruct (IH v nu1 g1 S1) as [nu2 X2]; [by apply Hp|done|]. exists nu2. by eapply ext_trans.
  - inv_res. destruct x as [g1 v]. destruct Hp as [Hab Hp]. destruct (api_union_trusted_true _ _ _ _ _ _ _ _ Hm S Hab H0) as (nu1 & S1 & K1 & N1).
    destruct (IH v nu1 g1 S1) as [nu2 X2]; [by apply Hp|done|]. exists nu2. by eapply ext_trans.
  - inv_res. rename x into g1. destruct Hp as [Hab Hp]. destruct (set_data_true _ _ _ _ _ _ Hm S Hab H0) as (nu1 & S1 & K1 & N1).
    destruct (IH nu1 g1 S1) as [nu2 X2]; [by apply Hp|done|]. exists nu2. by eapply ext_trans.
  - inv_res. rename x into g1. destruct Hp as [Hab Hp]. pose proof (SI_poke _ _ _ _ _ S Hab H0) as S1.
    assert (En : eg_nodes g1 = eg_nodes g) by (eapply (prim_nodes LPoke); [done|by econstructor|apply S]).
    destruct (ext_stay nu g g1 S S1 En) as (_ & K1 & N1).
    destruct (IH nu g1 S1) as [nu2 X2]; [by apply Hp|done|]. exists nu2. by eapply ext_trans.
  - inv_res. rename x into g1. pose proof (SI_retain _ _ _ _ _ S H0) as S1.
    assert (En : eg_nodes g1 = eg_nodes g) by (eapply (prim_nodes LRetain); [done|by econstructor|apply S]).
    destruct (ext_stay nu g g1 S S1 En) as (_ & K1 & N1).
    destruct (IH nu g1 S1) as [nu2 X2]; [by apply Hp|done|]. exists nu2. by eapply ext_trans.
  - inv_res. destruct x as [g1 v]. destruct (rebuild_true _ _ _ _ _ _ Hm S H0) as (nu1 & S1 & K1 & N1).
    destruct (IH v nu1 g1 S1) as [nu2 X2]; [by apply Hp|done|]. exists nu2. by eapply ext_trans.
Qed.
Hypothesis TH : truthful_hook A F says.
Lemma modify_n_true fuel : md_true (modify_n L A fuel).
Proof.
  induction fuel as [|fuel IH]; intros id g g' nu S E; cbn [modify_n] in E; [done|].
  eapply run_prog_true; [exact IH|exact S|apply TH|exact E].
Qed.

(** Between the invariant and the history. *)
Lemma SI_models ex nu g : reachable L A ex g -> SI nu g -> models F nu (eg_log g).
Proof.
  intros R S. split.
  - intros f cs i Hi. destruct (proj2 (reachable_hist L A ex g R) _ _ Hi) as (m & Hm & Em).
    rewrite (si_nodes _ _ S i m Hm). symmetry. exact (canon_true nu g (Node f cs) m (SI_same _ _ S) Em).
  - intros a b r Hr. apply (si_unions _ _ S). by exists r.
Qed.
Lemma models_SI ex nu g : reachable L A ex g -> models F nu (eg_log g) -> data_true says nu g -> SI nu g.
Proof.
  intros R M Hd. split; [by eapply reachable_Inv| | |done].
  - intros k [f cs] Hk. exact (models_node L A F nu ex g k f cs R M Hk).
  - intros a b (r & Hr). by eapply M.
Qed.
Lemma SI_new ex nu : SI nu (eg_new ex).
Proof.
  split; [apply Inv_new|by intros k n Hk|intros a b (r & Hr); by apply elem_of_nil in Hr|]. intros i d Hi. unfold class_data in Hi. cbn in Hi. done.
Qed.
End truth.
