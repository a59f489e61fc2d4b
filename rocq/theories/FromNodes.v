(** [from_enodes]: the e-graph built from a list of nodes with class names. *)
From Verif Require Import Base UnionFind EGraphModel EGraphSteps EGraphInv EGraphPres EGraphRuns Spec EGraphMain EGraphReach EGraphOps EGraphSafe
  EGraphNoPanic EGraphTerm Terms RecExprModel RecExprProofs ExprModel PatSpec ExprProofs ExprSafe MachineModel MatchSpec RewriteModel RewriteProofs
  AlgSpec AlgProofs ExplainModel ExplainSpec ExplainPath ExplainProofs ExplainMain Still CopyProofs TotalOps UtilModel.

(** The terms a list of nodes with class names gives each name. *)
Inductive Derives {Op} (es : list (node Op * nat)) : term Op -> nat -> Prop :=
| derives f ts cs k : (Node f cs, k) ∈ es -> Forall2 (Derives es) ts cs -> Derives es (TNode f ts) k.

Section from.
Context {Op D : Type} `{Countable Op} (L : lang Op) (A : analysis Op D) (Hh : hook_free A).
Notation egraph := (egraph Op D).
Notation node := (node Op).
Implicit Types (g : egraph) (t u : term Op).
Notation md k := (modify_n L A (S k)).
Notation amap := (gmap nat nat).

Lemma Derives_ind' (es : list (node * nat)) (P : term Op -> nat -> Prop) :
  (forall f ts cs k, (Node f cs, k) ∈ es -> Forall2 (Derives es) ts cs -> Forall2 P ts cs -> P (TNode f ts) k) ->
  forall t k, Derives es t k -> P t k.
Proof.
  intros Hs. fix F 3. intros t k [f ts cs k' Hin Hd]. apply (Hs f ts cs k' Hin Hd). clear Hin k'.
  revert ts cs Hd. fix G 3. intros ts cs [|x y xs ys Hx Hxs]; constructor; [by apply F|by apply G].
Qed.
Lemma Rep_ind' g (P : term Op -> nat -> Prop) :
  (forall f ts cs r c, eg_classes g !! r = Some c -> Node f cs ∈ c_nodes c -> Forall2 (fun t x => Rep g t (eg_find g x)) ts cs ->
    Forall2 (fun t x => P t (eg_find g x)) ts cs -> P (TNode f ts) r) ->
  forall t r, Rep g t r -> P t r.
Proof.
  intros Hs. fix F 3. intros t r [f ts cs r' c Hc Hin Hd]. apply (Hs f ts cs r' c Hc Hin Hd). clear Hin Hc r' c.
  revert ts cs Hd. fix G 3. intros ts cs [|x y xs ys Hx Hxs]; constructor; [by apply F|by apply G].
Qed.

(** ** The two operations *)
Lemma add_fresh k n g g' i : reachable L A false g -> eg_memo g !! canon g n = None -> api_add A (md k) n g = Ok (g', i) ->
  i = length (eg_uf g) /\ (forall j, eg_find g' j = eg_find g j) /\ eg_memo g' = <[canon g n := i]> (eg_memo g) /\
  (forall r, r <> i -> c_nodes <$> eg_classes g' !! r = c_nodes <$> eg_classes g !! r) /\
  (exists d, eg_classes g' !! i = Some (EClass i [canon g n] d [])) /\ eg_nodes g' = eg_nodes g ++ [n] /\ i = length (eg_nodes g).
Proof.
  intros R Hm E. pose proof (reachable_Inv _ _ _ _ R) as I. unfold api_add, add_uncanonical in E.
  destruct (add_core A n g) as [[[g1 i1] o]| |] eqn:Ec; [|done|done]. cbn [mbind res_bind] in E.
  apply add_core_spec in Ec as [_ Hs]; [|apply I].
  destruct Hs as [e id He Hid|e x x1 x2 u He Hx Hxn Hxa Hxu Hu|u cls' ex' Hmn Hw Hl Hf Hcls Hex]; [by rewrite Hm in He..|].
  rewrite (hook_free_md_ok L A Hh) in E. cbn [mbind res_bind] in E. injection E as <- <-. cbn.
  split_and!; [done|exact Hf|done| | | |].
  - intros r Hr. rewrite Hcls, decide_False by done. by destruct (eg_classes g !! r).
  - eexists. rewrite Hcls, decide_True by done. done.
  - done.
  - by rewrite (iv_len _ I).
Qed.
Lemma union_into k a b r g g' v ka kb : reachable L A false g -> eg_find g a = a -> eg_find g b = b -> a <> b ->
  eg_classes g !! a = Some ka -> eg_classes g !! b = Some kb -> c_parents kb = [] -> api_union A (md k) a b r g = Ok (g', v) ->
  (forall j, eg_find g' j = if decide (eg_find g j = b) then a else eg_find g j) /\ eg_memo g' = eg_memo g /\ eg_nodes g' = eg_nodes g /\
  exists k', eg_classes g' = <[a := k']> (delete b (eg_classes g)) /\ forall n, n ∈ c_nodes k' <-> n ∈ c_nodes ka \/ n ∈ c_nodes kb.
Proof.
  intros R Ha Hb Hne Ka Kb Hp E. pose proof (reachable_Inv _ _ _ _ R) as I. pose proof (reach_explain _ _ _ _ R) as Hx.
  assert (Hex : eg_explain g = None) by (destruct (eg_explain g); [by destruct (proj1 (bool_decide_eq_false _) Hx); eauto|done]).
  unfold api_union, union in E. cbn [eg_explain add_log] in E. rewrite Hex in E. unfold perform_union in E.
  destruct (perform_union_core _ _ _ _ _) as [[g1 o]| |] eqn:Ec; [|done|done]. cbn [mbind res_bind] in E.
  apply perform_union_core_spec in Ec as (_ & _ & Hs); [|apply I].
  change (eg_find (add_log (EUnion a b r) g)) with (eg_find g) in Hs.
  destruct Hs as [u ex' Hsame He _|id1 id2 k1 k2 dd did1 did2 u ex' Hids Hne' E1 E2 Hlen Htie Hcid Hm Hw' Hl Hf Hex'].
  { unfold eg_find in Hsame. cbn in Hsame. fold (eg_find g a) in Hsame. fold (eg_find g b) in Hsame. congruence. }
  unfold eg_find in Hids, Htie, Hf. cbn in Hids, Htie, Hf, E1, E2.
  change (uf_find (eg_uf g)) with (eg_find g) in *. rewrite Ha, Hb in Hids. rewrite Ha in Htie.
  assert (id1 = a /\ id2 = b) as [-> ->].
  { destruct Hids as [?|[-> ->]]; [done|]. rewrite Kb in E1. injection E1 as <-. rewrite Ka in E2. injection E2 as <-.
    rewrite Hp in *. cbn in *. assert (length (c_parents ka) = 0) as H0 by lia. rewrite H0 in Htie. by destruct Hne; rewrite Htie. }
  rewrite Ka in E1. injection E1 as <-. rewrite Kb in E2. injection E2 as <-.
  cbn [run_hook] in E. rewrite (hook_free_md_ok L A Hh) in E. cbn [mbind res_bind] in E. injection E as <- _. cbn.
  split_and!; [exact Hf|done|done|]. eexists. split; [done|]. intros n. cbn. apply elem_of_concat_vecs.
Qed.

(** ** The invariant *)
Section run.
Context (es : list (node * nat)).
Record fi (ids : amap) g : Prop := {
  fi_np : reachable_np L A false g;
  fi_inj : forall j k c, ids !! j = Some c -> ids !! k = Some c -> j = k;
  fi_dom : forall c, is_Some (eg_classes g !! c) <-> exists k, ids !! k = Some c;
  fi_nodes : forall c cl n, eg_classes g !! c = Some cl -> n ∈ c_nodes cl <-> exists e, eg_memo g !! n = Some e /\ eg_find g e = c;
  fi_memo : forall n e, eg_memo g !! n = Some e ->
    exists m k, (m, k) ∈ es /\ map_children_o (fun c => ids !! c) m = Ok n /\ ids !! k = Some (eg_find g e);
  fi_own : forall k m, eg_nodes g !! k = Some m -> eg_memo g !! m = Some k;
}.
Lemma fi_new : fi ∅ (eg_new false).
Proof.
  split.
  - split; [|apply reach_new]. intros i. by rewrite Hh.
  - intros j k c Hj. by rewrite lookup_empty in Hj.
  - intros c. split; [intros [x Hx]; cbn in Hx; by rewrite lookup_empty in Hx|intros [k Hk]; by rewrite lookup_empty in Hk].
  - intros c cl n Hx. cbn in Hx. by rewrite lookup_empty in Hx.
  - intros n e Hx. cbn in Hx. by rewrite lookup_empty in Hx.
  - intros k m Hx. done.
Qed.
Lemma fi_root ids g k c : fi ids g -> ids !! k = Some c -> known g c /\ eg_find g c = c.
Proof.
  intros F Hk. assert (Hs : is_Some (eg_classes g !! c)) by (apply (fi_dom _ _ F); eauto).
  pose proof (reachable_Inv _ _ _ _ (reachable_np_reachable _ _ _ _ (fi_np _ _ F))) as I.
  apply (ci_cls _ _ _ _ _ _ _ (iv_c _ I)) in Hs as [Hl Hf]. split; [|done]. unfold known. by rewrite <- (iv_len _ I).
Qed.
Lemma map_ids_mono (ids ids' : amap) (m n : node) : ids ⊆ ids' -> map_children_o (fun c => ids !! c) m = Ok n -> map_children_o (fun c => ids' !! c) m = Ok n.
Proof.
  intros Hs E. apply map_children_o_inv in E as [Eo Hc]. unfold map_children_o.
  assert (mapM (fun c => ids' !! c) (nch m) = Some (nch n)) as ->.
  { apply mapM_Some. eapply Forall2_impl; [exact Hc|]. intros x y Hx. exact (lookup_weaken ids ids' x y Hx Hs). }
  cbn. rewrite <- Eo. by destruct n.
Qed.
Lemma map_ids_inj (ids : amap) (m m' n : node) : (forall j k c, ids !! j = Some c -> ids !! k = Some c -> j = k) ->
  map_children_o (fun c => ids !! c) m = Ok n -> map_children_o (fun c => ids !! c) m' = Ok n -> m = m'.
Proof.
  intros Hi E1 E2. apply map_children_o_inv in E1 as [O1 C1]. apply map_children_o_inv in E2 as [O2 C2]. destruct m as [f cs], m' as [f' cs']. cbn in *.
  f_equal; [congruence|]. clear O1 O2. revert cs' C2. induction C1 as [|x y xs ys Hx _ IH]; intros cs' C2; inversion C2; subst; [done|].
  f_equal; [by eapply Hi|by apply IH].
Qed.
Lemma canon_ids ids g (m n : node) : fi ids g -> map_children_o (fun c => ids !! c) m = Ok n -> canon g n = n /\ forall c, c ∈ nch n -> known g c.
Proof.
  intros F E. apply map_children_o_inv in E as [_ Hc]. rewrite canon_canonf. destruct n as [f ds]. cbn in *. unfold canonf. cbn.
  split.
  - f_equal. induction Hc as [|x y xs ys Hx _ IH]; [done|]. rewrite fmap_cons, IH. f_equal. by eapply fi_root.
  - intros c Hin. apply elem_of_list_lookup in Hin as [i Hi]. eapply Forall2_lookup_r in Hc as (x & _ & Hx); [|exact Hi]. by eapply fi_root.
Qed.
Lemma api_union_np k a b r g g' v : reachable_np L A false g -> api_union A (md k) a b r g = Ok (g', v) -> reachable_np L A false g'.
Proof.
  intros [Hn R] E. split; [done|]. by destruct (union_step L A no_prune false (S k) a b r g g' v (cl_union _ calls_np) R E) as (R' & _).
Qed.
Lemma api_add_np k n g g' i : reachable_np L A false g -> api_add A (md k) n g = Ok (g', i) -> reachable_np L A false g'.
Proof.
  intros [Hn R] E. split; [done|]. by destruct (api_add_step L A no_prune false (S k) n g g' i (cl_add _ calls_np) R E) as (R' & _).
Qed.

(** one node *)
Definition from_one (k0 : nat) (here : nat) (m : node) (id : nat) (ids : amap) g : res (egraph * amap) :=
  '(g, i) ← api_add A (md k0) m g;
  match ids !! id with
  | Some existing => '(g, _) ← api_union A (md k0) existing (eg_find g i) here g; Ok (g, ids)
  | None => Ok (g, <[id := eg_find g i]> ids)
  end.
Lemma from_one_ok k0 here m n id ids g : fi ids g -> (m, id) ∈ es -> map_children_o (fun c => ids !! c) m = Ok n -> eg_memo g !! n = None ->
  exists g' ids', from_one k0 here n id ids g = Ok (g', ids') /\ fi ids' g' /\ ids ⊆ ids' /\ exists e, eg_memo g' = <[n := e]> (eg_memo g).
Proof.
  intros F Hin Em Hm. pose proof (reachable_np_reachable _ _ _ _ (fi_np _ _ F)) as R.
  destruct (canon_ids _ _ _ _ F Em) as [Hcn Hch].
  destruct (add_total L A Hh false k0 n g R Hch) as (g1 & i & Ea).
  assert (Hm' : eg_memo g !! canon g n = None) by (by rewrite Hcn).
  destruct (add_fresh k0 n g g1 i R Hm' Ea) as (Hi & Hf & Hme & Hcl & (d & Hci) & Hnod & Hilen). rewrite Hcn in Hme, Hci.
  pose proof (api_add_np _ _ _ _ _ (fi_np _ _ F) Ea) as R1. pose proof (reachable_np_reachable _ _ _ _ R1) as R1'.
  pose proof (reachable_Inv _ _ _ _ R) as I. pose proof (reachable_Inv _ _ _ _ R1') as I1.
  assert (Hfi : eg_find g1 i = i). { apply (ci_cls _ _ _ _ _ _ _ (iv_c _ I1)). eauto. }
  assert (Hnew : ~ known g i) by (unfold known; lia).
  assert (Hmk : forall n e, eg_memo g !! n = Some e -> known g e).
  { intros n0 e He. destruct (ci_memo _ _ _ _ _ _ _ (iv_c _ I) _ _ He) as (m0 & Hm0 & _). unfold known. rewrite <- (iv_len _ I). by eapply lookup_lt_Some. }
  assert (Hfk : forall e, known g e -> eg_find g e <> i).
  { intros e Ke Hfe. apply Hnew. unfold known in *. rewrite <- (iv_len _ I) in *. rewrite <- Hfe. by apply (ci_lt _ _ _ _ _ _ _ (iv_c _ I)). }
  assert (Hown : forall k m0, eg_nodes g1 !! k = Some m0 -> eg_memo g1 !! m0 = Some k).
  { intros k m0 Hk. rewrite Hnod in Hk. rewrite Hme. apply lookup_app_Some in Hk as [Hk|[Hl Hk]].
    - rewrite lookup_insert_ne; [by apply (fi_own _ _ F)|]. intros <-. apply (fi_own _ _ F) in Hk. congruence.
    - apply list_lookup_singleton_Some in Hk as [Hk <-]. rewrite lookup_insert. f_equal. rewrite Hilen. lia. }
  unfold from_one. rewrite Ea. cbn [mbind res_bind]. rewrite Hfi.
  destruct (ids !! id) as [a|] eqn:Hid.
  - (* the name has a class *)
    destruct (fi_root _ _ _ _ F Hid) as [Ka Ha].
    assert (Ka1 : known g1 a). { unfold known in *. destruct (api_add_step L A (fun _ => True) false (S k0) n g g1 i ltac:(done) R Ea) as (_ & G1 & _). by eapply (grows_known L A false g g1 a R R1' G1). }
    assert (Ki1 : known g1 i). { unfold known. rewrite <- (iv_len _ I1). apply (ci_cls _ _ _ _ _ _ _ (iv_c _ I1)). eauto. }
    assert (Hai : a <> i) by (intros ->; done).
    assert (Ha1 : eg_find g1 a = a) by (by rewrite Hf).
    destruct (proj2 (ci_cls _ _ _ _ _ _ _ (iv_c _ I1) a)) as [ka Hka]; [split; [|done]; by rewrite (iv_len _ I1)|].
    destruct (union_total L A Hh false k0 a i here g1 R1' Ka1 Ki1) as (g2 & v & Eu). rewrite Eu. cbn [mbind res_bind].
    destruct (union_into k0 a i here g1 g2 v ka _ R1' Ha1 Hfi Hai Hka Hci eq_refl Eu) as (Hf2 & Hm2 & Hnod2 & (k' & Hc2 & Hn2)).
    exists g2, ids. split_and!; [done| |done|exists i; by rewrite Hm2].
    assert (Hfind : forall e, known g e -> eg_find g2 e = eg_find g e).
    { intros e Ke. rewrite Hf2, Hf. by rewrite decide_False by (by apply Hfk). }
    assert (Hfind2 : eg_find g2 i = a). { rewrite Hf2, Hfi. by rewrite decide_True. }
    assert (Hold : exists ka0, eg_classes g !! a = Some ka0 /\ c_nodes ka0 = c_nodes ka).
    { specialize (Hcl a Hai). rewrite Hka in Hcl. cbn in Hcl. destruct (eg_classes g !! a) as [ka0|]; [|done]. injection Hcl as ->. eauto. }
    destruct Hold as (ka0 & Hka0 & Hnka).
    split.
    + by eapply api_union_np.
    + apply (fi_inj _ _ F).
    + intros c. rewrite <- (fi_dom _ _ F c), Hc2. destruct (decide (c = a)) as [->|Hca].
      * rewrite lookup_insert, Hka0. split; eauto.
      * rewrite lookup_insert_ne by done. destruct (decide (c = i)) as [->|Hci'].
        -- rewrite lookup_delete. split; [by intros []|]. intros Hs. exfalso. apply Hnew.
           apply (ci_cls _ _ _ _ _ _ _ (iv_c _ I)) in Hs as [Hs _]. unfold known. by rewrite <- (iv_len _ I).
        -- rewrite lookup_delete_ne by done. specialize (Hcl c Hci'). destruct (eg_classes g1 !! c), (eg_classes g !! c); try done; split; eauto.
    + intros c cl n0 Hc. rewrite Hc2 in Hc. rewrite Hm2, Hme.
      assert (Hmemo : (exists e, <[n:=i]> (eg_memo g) !! n0 = Some e /\ eg_find g2 e = c) <->
        (n0 = n /\ c = a) \/ exists e, eg_memo g !! n0 = Some e /\ eg_find g e = c).
      { destruct (decide (n0 = n)) as [->|Hnn].
        - rewrite lookup_insert. split; [intros (e & [= <-] & He); left; split; [done|congruence]|].
          intros [[_ ->]|(e & He & _)]; [eauto|by rewrite Hm in He].
        - rewrite lookup_insert_ne by done. split.
          + intros (e & He & Hfe). right. exists e. split; [done|]. rewrite <- Hfe. symmetry. eauto.
          + intros [[-> _]|(e & He & Hfe)]; [done|]. exists e. split; [done|]. rewrite Hfind by eauto. done. }
      rewrite Hmemo. apply lookup_insert_Some in Hc as [[<- <-]|[Hca Hc]].
      * rewrite Hn2. cbn. rewrite elem_of_list_singleton, <- Hnka, (fi_nodes _ _ F _ _ _ Hka0). naive_solver.
      * apply lookup_delete_Some in Hc as [Hci' Hc]. assert (Hni : c <> i) by done. specialize (Hcl c Hni). rewrite Hc in Hcl. cbn in Hcl.
        destruct (eg_classes g !! c) as [cl0|] eqn:Hc0; [|done]. injection Hcl as ->. rewrite (fi_nodes _ _ F _ _ _ Hc0). naive_solver.
    + intros n0 e He. rewrite Hm2, Hme in He. apply lookup_insert_Some in He as [[<- <-]|[Hnn He]].
      * exists m, id. by rewrite Hfind2.
      * destruct (fi_memo _ _ F _ _ He) as (m0 & k & ? & ? & ?). exists m0, k. rewrite Hfind by eauto. done.
    + rewrite Hnod2, Hm2. exact Hown.
  - (* a new class for the name *)
    exists g1, (<[id := i]> ids). split_and!; [done| |by apply insert_subseteq|eauto].
    assert (Hids : forall k c, ids !! k = Some c -> c <> i). { intros k c Hk ->. by destruct (fi_root _ _ _ _ F Hk). }
    split.
    + done.
    + intros j k c Hj Hk. apply lookup_insert_Some in Hj as [[<- <-]|[? Hj]], Hk as [[<- Hk]|[? Hk]]; [done| | |by eapply (fi_inj _ _ F)].
      * by destruct (Hids _ _ Hk).
      * subst c. by destruct (Hids _ _ Hj).
    + intros c. destruct (decide (c = i)) as [->|Hci'].
      * rewrite Hci. split; [|eauto]. intros _. exists id. apply lookup_insert.
      * specialize (Hcl c Hci').
        assert (is_Some (eg_classes g1 !! c) <-> is_Some (eg_classes g !! c)) as ->. { destruct (eg_classes g1 !! c), (eg_classes g !! c); try done; split; eauto. }
        rewrite (fi_dom _ _ F c). split; intros [k Hk]; exists k.
        -- rewrite lookup_insert_ne; [done|]. intros <-. congruence.
        -- apply lookup_insert_Some in Hk as [[_ Hk]|[_ Hk]]; [by subst|done].
    + intros c cl n0 Hc. rewrite Hme. destruct (decide (c = i)) as [->|Hci'].
      * rewrite Hci in Hc. injection Hc as <-. cbn. rewrite elem_of_list_singleton. destruct (decide (n0 = n)) as [->|Hnn].
        -- rewrite lookup_insert. split; eauto.
        -- rewrite lookup_insert_ne by done. split; [done|]. intros (e & He & Hfe). rewrite Hf in Hfe. by destruct (Hfk e (Hmk _ _ He)).
      * specialize (Hcl c Hci'). rewrite Hc in Hcl. cbn in Hcl. destruct (eg_classes g !! c) as [cl0|] eqn:Hc0; [|done]. injection Hcl as ->.
        rewrite (fi_nodes _ _ F _ _ _ Hc0). destruct (decide (n0 = n)) as [->|Hnn].
        -- rewrite lookup_insert, Hm. split; [by intros (e & He & _)|]. intros (e & [= <-] & He). congruence.
        -- rewrite lookup_insert_ne by done. by setoid_rewrite Hf.
    + intros n0 e He. rewrite Hme in He. apply lookup_insert_Some in He as [[<- <-]|[Hnn He]].
      * exists m, id. rewrite Hf, <- Hf, Hfi, lookup_insert. split_and!; [done| |done]. eapply map_ids_mono; [|exact Em]. by apply insert_subseteq.
      * destruct (fi_memo _ _ F _ _ He) as (m0 & k & ? & Hmm & Hkk). exists m0, k. split_and!; [done| |].
        -- eapply map_ids_mono; [|exact Hmm]. by apply insert_subseteq.
        -- rewrite Hf, lookup_insert_ne; [done|]. intros <-. congruence.
    + exact Hown.
Qed.

Definition ready (ids : amap) (m : node) : Prop := forall c, c ∈ nch m -> is_Some (ids !! c).
Lemma ready_map ids (m : node) : ready ids m -> exists n, map_children_o (fun c => ids !! c) m = Ok n.
Proof.
  intros Hr. unfold map_children_o. assert (Hm : exists cs, mapM (fun c => ids !! c) (nch m) = Some cs).
  { unfold ready in Hr. induction (nch m) as [|c cs IH]; [by exists []|]. destruct (Hr c) as [x Hx]; [left|]. destruct IH as [ds Hds]; [intros; apply Hr; by right|].
    cbn. rewrite Hx. cbn. rewrite Hds. eexists. done. }
  destruct Hm as [cs ->]. eexists. done.
Qed.
Lemma readyb ids (m : node) : forallb (fun c => bool_decide (is_Some (ids !! c))) (nch m) = true <-> ready ids m.
Proof.
  rewrite forallb_forall. unfold ready. split.
  - intros Hr c Hc. apply elem_of_list_In, Hr in Hc. by apply bool_decide_eq_true in Hc.
  - intros Hr c Hc. apply bool_decide_eq_true, Hr. by apply elem_of_list_In.
Qed.
Lemma from_pass_ok k0 here es' : es' ⊆ es -> forall ids g did, fi ids g ->
  exists g' ids' did', from_pass A (md k0) here es' ids g did = Ok (g', ids', did') /\ fi ids' g' /\
    base.size (eg_memo g) <= base.size (eg_memo g') /\
    (did' = false -> did = false /\ g' = g /\ ids' = ids /\
      forall m k n, (m, k) ∈ es' -> map_children_o (fun c => ids !! c) m = Ok n -> is_Some (eg_memo g !! n)) /\
    (did' = true -> did = true \/ base.size (eg_memo g) < base.size (eg_memo g')).
Proof.
  induction es' as [|[m id] es' IH]; intros Hsub ids g did F.
  { exists g, ids, did. cbn. split_and!; auto. intros ->. split_and!; auto. intros m k n Hin. by apply elem_of_nil in Hin. }
  assert (Hsub' : es' ⊆ es) by (intros x Hx; apply Hsub; by right). specialize (IH Hsub').
  cbn [from_pass]. destruct (forallb _ _) eqn:Er.
  - apply readyb in Er. destruct (ready_map _ _ Er) as [n En]. rewrite En. cbn [mbind res_bind].
    destruct (canon_ids _ _ _ _ F En) as [Hcn _]. rewrite Hcn. unfold eg_lookup, lookup_internal. rewrite Hcn.
    destruct (eg_memo g !! n) as [e|] eqn:Hm; cbn [fmap option_fmap option_map].
    + destruct (IH ids g did F) as (g' & ids' & did' & E & F' & Hs & Hf & Ht). exists g', ids', did'. split_and!; auto.
      intros Hd. destruct (Hf Hd) as (? & ? & ? & Hall). split_and!; auto.
      intros m' k' n' [[= -> ->]|Hin]%elem_of_cons En'; [|by eapply Hall]. rewrite En in En'. injection En' as <-. eauto.
    + destruct (from_one_ok k0 here m n id ids g F) as (g1 & ids1 & E1 & F1 & Hsub1 & (e & Hme)); [apply Hsub; left|done|done|].
      unfold from_one in E1. destruct (api_add A (md k0) n g) as [[g2 i]| |] eqn:Ea; [|done|done]. cbn [mbind res_bind] in E1 |- *.
      assert (Hgo : exists g' ids' did', from_pass A (md k0) here es' ids1 g1 true = Ok (g', ids', did') /\ fi ids' g' /\
         base.size (eg_memo g) < base.size (eg_memo g') /\ did' = true).
      { destruct (IH ids1 g1 true F1) as (g' & ids' & did' & E & F' & Hs & Hf & Ht). exists g', ids', did'. split_and!; auto.
        - rewrite Hme in Hs. rewrite map_size_insert_None in Hs by done. lia.
        - destruct did'; [done|]. by destruct (Hf eq_refl). }
      destruct Hgo as (g' & ids' & did' & E & F' & Hs & ->). exists g', ids', true. split_and!; [|done|lia|done|auto].
      destruct (ids !! id) as [a|].
      * destruct (api_union _ _ _ _ _ _) as [[g3 v]| |]; [|done|done]. cbn [mbind res_bind] in E1 |- *. by injection E1 as -> ->.
      * cbn [mbind res_bind] in E1 |- *. by injection E1 as -> ->.
  - destruct (IH ids g did F) as (g' & ids' & did' & E & F' & Hs & Hf & Ht). exists g', ids', did'. split_and!; auto.
    intros Hd. destruct (Hf Hd) as (? & ? & ? & Hall). split_and!; auto.
    intros m' k' n' [[= -> ->]|Hin]%elem_of_cons En'; [|by eapply Hall]. exfalso.
    assert (Hr : ready ids m). { apply map_children_o_inv in En' as [_ Hc]. intros c Hin. apply elem_of_list_lookup in Hin as [j Hj].
      eapply Forall2_lookup_l in Hc as (y & _ & Hy); [|exact Hj]. eauto. }
    apply readyb in Hr. congruence.
Qed.
(** each node is added at most once *)
Lemma memo_bound ids g : fi ids g -> base.size (eg_memo g) <= length es.
Proof.
  intros F. set (h := fun x : node * nat => match map_children_o (fun c => ids !! c) (fst x) with Ok n => [n] | _ => [] end).
  assert (Hsub : (map_to_list (eg_memo g)).*1 ⊆ (es ≫= h)).
  { intros n Hn. apply elem_of_list_fmap in Hn as ([n' e] & -> & Hin). apply elem_of_map_to_list in Hin.
    destruct (fi_memo _ _ F _ _ Hin) as (m & k & Hmk & Em & _). apply elem_of_list_bind. exists (m, k). split; [|done]. unfold h. cbn. rewrite Em. left. }
  pose proof (submseteq_length _ _ (NoDup_submseteq _ _ (NoDup_fst_map_to_list (eg_memo g)) Hsub)) as Hl. rewrite fmap_length in Hl.
  assert (length (es ≫= h) <= length es). { clear. induction es as [|x l IH]; [done|]. cbn. rewrite app_length. unfold h at 1. destruct (map_children_o _ _); cbn; lia. }
  unfold base.size, map_size. lia.
Qed.
Definition closed_ids (ids : amap) (g : egraph) : Prop := forall m k n, (m, k) ∈ es -> map_children_o (fun c => ids !! c) m = Ok n -> is_Some (eg_memo g !! n).
Lemma from_loop_ok k0 here fuel : forall ids g, fi ids g -> length es < fuel + base.size (eg_memo g) ->
  exists g' ids', from_loop A (md k0) here fuel es ids g = Ok g' /\ fi ids' g' /\ closed_ids ids' g'.
Proof.
  induction fuel as [|fuel IH]; intros ids g F Hl; [pose proof (memo_bound _ _ F); lia|]. cbn [from_loop].
  destruct (from_pass_ok k0 here es ltac:(done) ids g false F) as (g' & ids' & did & E & F' & Hs & Hf & Ht). rewrite E. cbn [mbind res_bind].
  destruct did.
  - destruct (Ht eq_refl) as [?|Hlt]; [done|]. apply IH; [done|lia].
  - destruct (Hf eq_refl) as (_ & -> & -> & Hc). exists g, ids. split_and!; auto.
Qed.
Lemma from_loop_inv k0 here fuel : forall ids g g', fi ids g -> from_loop A (md k0) here fuel es ids g = Ok g' -> exists ids', fi ids' g' /\ closed_ids ids' g'.
Proof.
  induction fuel as [|fuel IH]; intros ids g g' F E; [done|]. cbn [from_loop] in E.
  destruct (from_pass_ok k0 here es ltac:(done) ids g false F) as (g1 & ids' & did & E1 & F' & Hs & Hf & Ht). rewrite E1 in E. cbn [mbind res_bind] in E.
  destruct did; [by eapply IH|]. injection E as <-. destruct (Hf eq_refl) as (_ & -> & -> & Hc). eauto.
Qed.
(** ** What it represents *)
Context (Hfun : forall m k k', (m, k) ∈ es -> (m, k') ∈ es -> k = k').
Lemma from_rep ids g t c : fi ids g -> closed_ids ids g -> Rep g t c <-> exists k, Derives es t k /\ ids !! k = Some c.
Proof.
  intros F Hc. split.
  - revert t c. apply (Rep_ind' g (fun t c => exists k, Derives es t k /\ ids !! k = Some c)). intros f ts cs r cl Hcl Hin _ IH.
    apply (fi_nodes _ _ F _ _ _ Hcl) in Hin as (e & He & Hfe). destruct (fi_memo _ _ F _ _ He) as ([f' ds] & k & Hmk & Em & Hk). rewrite Hfe in Hk.
    exists k. split; [|done]. apply map_children_o_inv in Em as [Eo Hds]. cbn in Eo, Hds. subst f'. econstructor; [exact Hmk|].
    clear -IH Hds F. revert ds Hds. induction IH as [|t x ts cs (j & Hj & Hjx) _ IHf]; intros ds Hds; inversion Hds as [|? y ? ds' Hy Hds']; subst; constructor; auto.
    destruct (fi_root _ _ _ _ F Hy) as [_ Hfx]. rewrite Hfx in Hjx. by rewrite (fi_inj _ _ F _ _ _ Hy Hjx).
  - intros (k & Hd & Hk).
    assert (Hex : exists c', ids !! k = Some c' /\ Rep g t c').
    { clear Hk c. revert t k Hd. apply (Derives_ind' es (fun t k => exists c', ids !! k = Some c' /\ Rep g t c')). intros f ts cs k Hin _ IH.
      assert (Hm : exists ds, map_children_o (fun c => ids !! c) (Node f cs) = Ok (Node f ds) /\ Forall2 (fun t x => Rep g t x) ts ds).
      { unfold map_children_o. cbn [nch nop]. clear -IH. induction IH as [|t x ts cs (y & Hy & Ht) _ IHf]; [by exists []|].
        destruct IHf as (ds & E & Hds). exists (y :: ds). cbn [mapM]. rewrite Hy. cbn. destruct (mapM _ cs) as [es0|]; [|done]. cbn in E |- *. injection E as ->. split; [done|by constructor]. }
      destruct Hm as (ds & Em & Hds). destruct (Hc _ _ _ Hin Em) as [e He]. destruct (fi_memo _ _ F _ _ He) as (m' & k' & Hin' & Em' & Hk').
      assert (m' = Node f cs) as -> by (eapply map_ids_inj; [apply (fi_inj _ _ F)|done|done]). rewrite (Hfun _ _ _ Hin Hin'). exists (eg_find g e). split; [done|].
      destruct (proj2 (fi_dom _ _ F (eg_find g e))) as [cl Hcl]; [eauto|]. econstructor; [exact Hcl|apply (fi_nodes _ _ F _ _ _ Hcl); eauto|].
      assert (Hd2 : forall y, y ∈ ds -> eg_find g y = y).
      { intros y Hy. apply map_children_o_inv in Em as [_ Hcs]. cbn in Hcs. apply elem_of_list_lookup in Hy as [j Hj].
        eapply Forall2_lookup_r in Hcs as (x & _ & Hx); [|exact Hj]. by eapply fi_root. }
      clear -Hds Hd2. induction Hds as [|t y ts ds Ht _ IHf]; constructor; [rewrite Hd2 by left; done|]. apply IHf. intros; apply Hd2. by right. }
    destruct Hex as (c' & Hk' & Hr). by rewrite Hk in Hk'; injection Hk' as <-.
Qed.
(** Every name with a term has a class. *)
Lemma derives_named ids g t k : fi ids g -> closed_ids ids g -> Derives es t k -> is_Some (ids !! k).
Proof.
  intros F Hc. revert t k. apply (Derives_ind' es (fun t k => is_Some (ids !! k))). intros f ts cs k Hin _ IH.
  destruct (ready_map ids (Node f cs)) as [n En]. { intros c Hc'. cbn in Hc'. apply elem_of_list_lookup in Hc' as [j Hj]. by eapply Forall2_lookup_r in IH as (x & _ & Hx); [|exact Hj]. }
  destruct (Hc _ _ _ Hin En) as [e He]. destruct (fi_memo _ _ F _ _ He) as (m' & k' & Hin' & Em' & Hk').
  assert (m' = Node f cs) as -> by (eapply map_ids_inj; [apply (fi_inj _ _ F)|done|done]). rewrite (Hfun _ _ _ Hin Hin'). eauto.
Qed.
End run.

Lemma from_enodes_spec k0 here fuel es g : (forall m k k', (m, k) ∈ es -> (m, k') ∈ es -> k = k') ->
  from_enodes A (md k0) here fuel es = Ok g ->
  reachable_np L A false g /\ forall t u, (exists c, Rep g t c /\ Rep g u c) <-> exists k, Derives es t k /\ Derives es u k.
Proof.
  intros Hfun E. destruct (from_loop_inv es k0 here fuel ∅ (eg_new false) g (fi_new es) E) as (ids & F & Hc). split; [apply F|].
  intros t u. split.
  - intros (c & Ht & Hu). apply (from_rep es Hfun ids g t c F Hc) in Ht as (k & Ht & Hk). apply (from_rep es Hfun ids g u c F Hc) in Hu as (k' & Hu & Hk').
    rewrite (fi_inj _ _ _ F _ _ _ Hk' Hk) in Hu. eauto.
  - intros (k & Ht & Hu). destruct (derives_named es Hfun ids g t k F Hc Ht) as [c Hk]. exists c. split; eapply (from_rep es Hfun ids g); eauto.
Qed.
Lemma from_enodes_total k0 here fuel es : length es < fuel -> exists g, from_enodes A (md k0) here fuel es = Ok g.
Proof.
  intros Hl. destruct (from_loop_ok es k0 here fuel ∅ (eg_new false) (fi_new es)) as (g & ids & E & _); [lia|]. eauto.
Qed.
End from.
