(** Every link of the proof forest is listed among the neighbours of both its ends. *)
From Verif Require Import Base UnionFind EGraphModel EGraphSteps EGraphInv EGraphPres EGraphRuns Spec EGraphMain EGraphReach EGraphOps EGraphSafe
  EGraphNoPanic EGraphDebug ExplainForest ExplainModel UnionEqualities.

Section nb.
Context {Op D : Type} `{Countable Op} (L : lang Op) (A : analysis Op D).
Notation egraph := (egraph Op D).
Notation node := (node Op).
Notation explain := (explain Op).
Implicit Types (g : egraph) (x : explain) (f : list exnode).

Definition has_nb f (a b : nat) (j : justif) : Prop := exists c, c ∈ nbs f a /\ cn_next c = b /\ cn_just c = j.
Definition nbp f : Prop := forall i nd, f !! i = Some nd -> cn_next (xn_parent nd) <> i ->
  has_nb f i (cn_next (xn_parent nd)) (cn_just (xn_parent nd)) /\ has_nb f (cn_next (xn_parent nd)) i (cn_just (xn_parent nd)).
Definition NBP g : Prop := forall x, eg_explain g = Some x -> nbp (ex_find x).

Lemma has_nb_mono f f' a b j : (forall i c, c ∈ nbs f i -> c ∈ nbs f' i) -> has_nb f a b j -> has_nb f' a b j.
Proof. intros Hs (c & Hc & ?). exists c. auto. Qed.

Lemma nbp_leader f n f' : uf_wf (pl f) -> make_leader (S (length f)) f n = Ok f' -> nbp f -> nbp f'.
Proof.
  intros Hw E Hn. pose proof (make_leader_nbs _ _ _ _ E) as Hnb.
  assert (Hlt : n < length f) by (cbn [make_leader] in E; destruct (f !! n) eqn:En; [by eapply lookup_lt_Some|done]).
  destruct Hw as (rk & Hr & Hb). assert (Hw : uf_wf (pl f)) by (by exists rk).
  destruct (make_leader_spec (S (length f)) f rk n Hw Hr Hb Hlt) as (f1 & E1 & Hl); [lia|].
  rewrite E in E1. injection E1 as <-.
  assert (Hs : forall i c, c ∈ nbs f i -> c ∈ nbs f' i) by (intros i c; by rewrite Hnb).
  intros k y Hy Hne. destruct (ld_from _ _ _ _ Hl k y Hy) as [(z & Hz & Ez)|(i & z & Hz & Ek & Hki & Ez)]; rewrite Ez in *; cbn in *.
  - destruct (Hn k z Hz Hne) as [H1 H2]. split; by eapply has_nb_mono.
  - assert (Hne' : cn_next (xn_parent z) <> i) by congruence.
    destruct (Hn i z Hz Hne') as [H1 H2]. rewrite Ek in H1, H2. split; by eapply has_nb_mono.
Qed.
Lemma nbp_same f f' : (forall i c, c ∈ nbs f i -> c ∈ nbs f' i) ->
  (forall i nd, f' !! i = Some nd -> cn_next (xn_parent nd) <> i -> exists nd0, f !! i = Some nd0 /\ xn_parent nd0 = xn_parent nd) ->
  nbp f -> nbp f'.
Proof.
  intros Hs Hp Hn i nd Hnd Hne. destruct (Hp i nd Hnd Hne) as (nd0 & H0 & E0). destruct (Hn i nd0 H0) as [H1 H2]; [by rewrite E0|].
  rewrite E0 in *. split; by eapply has_nb_mono.
Qed.
Lemma nbp_add x n k x' : ex_add x n k = Ok x' -> nbp (ex_find x) -> nbp (ex_find x').
Proof.
  intros E. unfold ex_add in E. destruct (_ =? k) eqn:Ek; [|done]. injection E as <-. cbn [ex_find]. apply nbp_same.
  - intros i c. unfold nbs. destruct (ex_find x !! i) as [nd|] eqn:Hnd; cbn; [|by intros ?%elem_of_nil]. by rewrite (lookup_app_l_Some _ _ _ _ Hnd).
  - intros i nd Hi Hne. apply Nat.eqb_eq in Ek. apply lookup_app_Some in Hi as [Hi|[Hle Hi]]; [eauto|].
    apply list_lookup_singleton_Some in Hi as [Hi <-]. cbn in Hne. lia.
Qed.
Lemma push_pair_parent f n1 n2 j y z i nd : f !! n1 = Some y -> <[n1 := xn_push (Conn n2 n1 j true) y]> f !! n2 = Some z ->
  <[n2 := xn_push (Conn n1 n2 j false) z]> (<[n1 := xn_push (Conn n2 n1 j true) y]> f) !! i = Some nd ->
  exists nd0, f !! i = Some nd0 /\ xn_parent nd0 = xn_parent nd.
Proof.
  intros Hy Hz Hi.
  assert (H1 : forall k w, <[n1 := xn_push (Conn n2 n1 j true) y]> f !! k = Some w -> exists w0, f !! k = Some w0 /\ xn_parent w0 = xn_parent w).
  { intros k w Hk. apply list_lookup_insert_Some in Hk as [(-> & <- & _)|[_ Hk]]; eauto. }
  apply list_lookup_insert_Some in Hi as [(-> & <- & _)|[_ Hi]]; [|by apply H1]. apply H1 in Hz as (w0 & ? & ?). exists w0. split; [done|]. by rewrite H2.
Qed.
Lemma nbp_union x n1 n2 j x' : uf_wf (pl (ex_find x)) -> ex_union x n1 n2 j = Ok x' -> nbp (ex_find x) -> nbp (ex_find x').
Proof.
  intros Hwf E Hn. unfold ex_union in E. destruct (make_leader _ _ _) as [f0| |] eqn:El; [|done|done]. cbn [mbind res_bind] in E.
  destruct (f0 !! n1) as [y|] eqn:Hy; [|done]. cbn [expect mbind res_bind] in E.
  destruct (<[n1:=_]> f0 !! n2) as [z|] eqn:Hz; [|done]. cbn [expect mbind res_bind] in E.
  destruct (<[n2:=_]> _ !! n1) as [w|] eqn:Hw; [|done]. cbn [expect mbind res_bind] in E. injection E as <-. cbn [ex_find].
  apply (nbp_leader _ _ _ Hwf El) in Hn.
  set (f2 := <[n2:=_]> (<[n1:=xn_push _ y]> f0)) in *.
  assert (Hn2 : nbp f2).
  { eapply nbp_same; [| |exact Hn]; [intros; by eapply push_pair_sub|]. intros i nd Hi _. by eapply push_pair_parent. }
  assert (Hnb : forall i, nbs (<[n1:=xn_set_parent (Conn n2 n1 j true) w]> f2) i = nbs f2 i) by (by apply nbs_insert_same with w).
  assert (Hm : forall a b k, has_nb f2 a b k -> has_nb (<[n1:=xn_set_parent (Conn n2 n1 j true) w]> f2) a b k).
  { intros a b k. apply has_nb_mono. intros i c. by rewrite Hnb. }
  intros i nd Hi Hne. apply list_lookup_insert_Some in Hi as [(<- & <- & _)|[_ Hi]].
  - cbn in *. split; apply Hm.
    + eexists. split; [by eapply push_pair_new|done].
    + exists (Conn n1 n2 j false). split; [|done]. unfold f2. rewrite (push_pair f0 n1 n2 j y z n2 Hy Hz).
      rewrite decide_True by done. apply elem_of_app. right. by left.
  - destruct (Hn2 i nd Hi Hne). auto.
Qed.
Lemma nbp_alternate x n1 n2 j x' : alternate_rewrite x n1 n2 j = Ok x' -> nbp (ex_find x) -> nbp (ex_find x').
Proof.
  intros E Hn. unfold alternate_rewrite in E. case_decide as Hd; [by inv_res|].
  destruct (ex_short x !! (n1, n2)) as [[[|[|k]] nx]|] eqn:Es; try (by inv_res);
  (destruct (ex_find x !! n1) as [y|] eqn:Hy; [|done]; cbn [expect mbind res_bind] in E;
   destruct (<[n1:=_]> (ex_find x) !! n2) as [z|] eqn:Hz; [|done]; cbn [expect mbind res_bind] in E; injection E as <-; cbn [ex_find];
   (eapply nbp_same; [| |exact Hn]; [intros; by eapply push_pair_sub|intros i nd Hi _; by eapply push_pair_parent])).
Qed.

Lemma XInv_wf g x : XInv g -> eg_explain g = Some x -> uf_wf (pl (ex_find x)).
Proof. intros X E. destruct (X x E) as (es & _ & F & _). exact (fo_wf _ _ _ F). Qed.
Lemma ex_add_wf x n k x' : ex_add x n k = Ok x' -> uf_wf (pl (ex_find x)) -> uf_wf (pl (ex_find x')).
Proof.
  intros E Hw. unfold ex_add in E. destruct (_ =? k) eqn:Ek; [|done]. injection E as <-. cbn [ex_find].
  apply Nat.eqb_eq in Ek. unfold pl. rewrite fmap_app. cbn. fold (pl (ex_find x)). rewrite <- Ek, <- pl_length. by apply make_set_wf.
Qed.
Lemma NBP_same g g' : eg_explain g' = eg_explain g -> NBP g -> NBP g'.
Proof. intros Ee C x. rewrite Ee. apply C. Qed.
Lemma NBP_add n g g' id o : Inv g -> XInv g -> add_core A n g = Ok (g', id, o) -> NBP g -> NBP g'.
Proof.
  intros I X E C. apply add_core_spec in E as [_ Hs]; [|apply I].
  destruct Hs as [e id He Hid|e x x1 x2 u He Hx Hxn Hxa Hxu Hu|u cls' ex' Hm Hw Hl Hf Hcls Hex]; [done| |].
  - intros y Hy. cbn in Hy. injection Hy as <-. eapply nbp_union; [|done|].
    + eapply ex_add_wf; [done|]. by eapply XInv_wf.
    + eapply nbp_add; [done|]. by apply C.
  - intros y Hy. cbn in Hy. destruct (eg_explain g) as [x|] eqn:Ex; [|by subst]. destruct Hex as (x' & Ex' & ->).
    injection Hy as ->. eapply nbp_add; [done|]. by apply C.
Qed.
Lemma NBP_union_core a b rule g g' o : uf_wf (eg_uf g) -> (forall x, eg_explain g = Some x -> uf_wf (pl (ex_find x))) ->
  perform_union_core A a b rule g = Ok (g', o) -> NBP g -> NBP g'.
Proof.
  intros I X E C. apply perform_union_core_spec in E as (_ & _ & Hs); [|done].
  destruct Hs as [u ex' Hsame He Hex|id1 id2 k1 k2 dd did1 did2 u ex' Hids Hne E1 E2 Hlen Htie Hcid Hm Hw' Hl Hf Hex]; intros y Hy; cbn in Hy, Hex.
  - destruct (eg_explain g) as [x|] eqn:Ex; [|by subst]. destruct rule as [[r|]|].
    + destruct Hex as (x' & Ea & ->). injection Hy as ->. eapply nbp_alternate; [done|]. by apply C.
    + subst. injection Hy as ->. by apply C.
    + subst. injection Hy as ->. by apply C.
  - destruct (eg_explain g) as [x|] eqn:Ex; [|by subst]. destruct Hex as (j & x' & _ & Eu & ->). injection Hy as ->.
    eapply nbp_union; [|done|by apply C]. by apply X.
Qed.
Lemma NBP_brun P g0 g : brun L A P g0 g -> Inv g0 -> XInv g0 -> NBP g0 -> NBP g.
Proof.
  induction 1 as [g|l g g1 Hpl HP Hp|g g1 g2 R1 IH1 R2 IH2|n g g1 id HP E|n g g1 id h g2 HP E R IH]; intros I X C.
  - done.
  - destruct Hp as [n g g' id o E|g|n i g|a b r rule g g' o Hr E|c rest g g' o Ep E|id q g g' o Eq E
      |i d g g' r E|i d g g' E|i f g g' E|g Ep Eq]; try done; try (by apply (NBP_same g)).
    + eapply (NBP_union_core _ _ _ (add_log (EUnion a b r) g)); [apply I| |exact E|by apply (NBP_same g)]. intros x Hx. by apply (XInv_wf g).
    + unfold pending_core in E. inv_res. cbn in H0.
      destruct (canon_mut_spec (eg_uf g) x (iv_wf _ I)) as (u & Eu & He).
      { apply Forall_forall. intros k Hk. pose proof (ci_ch _ _ _ _ _ _ _ (iv_c _ I) _ _ _ H0 Hk).
        pose proof (lookup_lt_Some _ _ _ H0). rewrite <- (iv_len _ I). lia. }
      cbn in E. rewrite Eu in E. cbn in E. destruct (eg_memo g !! _); inv_res; [|by apply (NBP_same g)].
      eapply NBP_union_core in E; [exact E|apply He| |by apply (NBP_same g)]. intros y Hy. by apply (XInv_wf g).
    + unfold analysis_core, eg_find_mut in E. inv_res. cbn in *. destruct (uf_find_mut _ _). inv_res.
      destruct (an_merge A _ _) as [? [[] ?]]; inv_res; by apply (NBP_same g).
    + unfold set_data_core, eg_find_mut in E. destruct (negb _); [done|]. destruct (uf_find_mut _ _). inv_res. by apply (NBP_same g).
    + unfold poke_data, eg_find_mut in E. destruct (negb _); [done|]. destruct (uf_find_mut _ _). inv_res. by apply (NBP_same g).
    + unfold retain_nodes, eg_find_mut in E. destruct (negb _); [done|]. destruct (uf_find_mut _ _). inv_res. by apply (NBP_same g).
    + unfold rebuild_classes. destruct (foldl _ _ _) as [[? ?] ?]. by apply (NBP_same g).
  - apply IH2; [by eapply brun_Inv|by eapply XInv_brun|]. by apply IH1.
  - apply (NBP_same g1); [done|]. by eapply NBP_add.
  - apply (NBP_same g2); [done|]. apply IH; [by eapply Inv_add|by eapply XInv_add|by eapply NBP_add].
Qed.
Lemma reach_NBP ex g : reachable L A ex g -> NBP g.
Proof.
  intros R%reachable_brun. eapply NBP_brun; [exact R|apply Inv_new|apply XInv_new|]. intros x Hx. destruct ex; [|done]. injection Hx as <-.
  intros i nd Hi. done.
Qed.
End nb.
