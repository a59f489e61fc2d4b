(** Paths in the proof forest: lowest common ancestors, and why the path between two ids
    that older edges already connected uses older edges only. *)
From Verif Require Import Base UnionFind EGraphModel ExplainForest EGraphSafe ExplainModel.

Section path.
Context {Op : Type} `{Countable Op}.
Notation node := (node Op).
Notation explain := (explain Op).
Implicit Types (x : explain) (u : list nat).

(** ** Ancestors *)
Definition anc (u : list nat) : nat -> nat -> Prop := rtc (pstep u).

Lemma anc_rank u rk i j : uf_ranked u rk -> anc u i j -> i = j \/ rk i < rk j.
Proof.
  intros Hr. induction 1 as [i|i k j Hs _ IH]; [by left|]. unfold pstep in Hs.
  destruct (decide (uf_parent u i = i)) as [E|E]; [congruence|].
  pose proof (uf_parent_rank u rk i Hr E). subst k. right. destruct IH as [<-|IH]; lia.
Qed.
Lemma anc_antisym u i j : uf_wf u -> anc u i j -> anc u j i -> i = j.
Proof.
  intros (rk & Hr & _) H1 H2. destruct (anc_rank _ _ _ _ Hr H1) as [?|?]; [done|].
  destruct (anc_rank _ _ _ _ Hr H2) as [?|?]; [done|]. lia.
Qed.
Lemma anc_lt u i j : uf_wf u -> anc u i j -> i < length u -> j < length u.
Proof.
  intros Hw. induction 1 as [i|i k j Hs _ IH]; intros Hi; [done|]. apply IH. rewrite <- Hs. by apply uf_parent_lt.
Qed.
Lemma anc_inv u i j : anc u i j -> i = j \/ anc u (uf_parent u i) j.
Proof. intros [->|(k & <- & Hr)]%rtc_inv; [by left|by right]. Qed.
Lemma anc_parent u i : anc u i (uf_parent u i).
Proof. by apply rtc_once. Qed.
Lemma anc_find u i : uf_wf u -> i < length u -> anc u i (uf_find u i).
Proof. intros Hw Hi. apply walks_pstep. by apply uf_find_walks. Qed.
Lemma anc_find_eq u i j : uf_wf u -> anc u i j -> uf_find u i = uf_find u j.
Proof. intros Hw. induction 1 as [|i k j Hs _ IH]; [done|]. rewrite <- IH, <- Hs. by rewrite uf_find_parent. Qed.

Definition lca (u : list nat) (l r a : nat) : Prop :=
  anc u l a /\ anc u r a /\ forall i, anc u l i -> anc u r i -> anc u a i.

Lemma xparent_ok x i : i < length (ex_find x) -> xparent x i = Ok (uf_parent (pl (ex_find x)) i).
Proof.
  intros Hi. destruct (lookup_lt_is_Some_2 _ _ Hi) as [nd Hnd]. unfold xparent. rewrite Hnd. cbn.
  by rewrite (pl_parent _ _ _ Hnd).
Qed.

Lemma common_ancestor_lca_gen x l0 r0 : let u := pl (ex_find x) in
  uf_wf u -> l0 < length (ex_find x) -> r0 < length (ex_find x) -> uf_find u l0 = uf_find u r0 ->
  forall fuel (sl sr : gset nat) l r,
    length (ex_find x) < fuel + (base.size sl + base.size sr) -> sl ## sr -> (l ∉ sl \/ r ∉ sr) ->
    anc u l0 l -> anc u r0 r ->
    (forall i, i ∈ sl -> anc u l0 i /\ anc u i l) -> (forall i, i ∈ sr -> anc u r0 i /\ anc u i r) ->
    (forall i, anc u l0 i -> i ∈ sl \/ anc u l i) -> (forall i, anc u r0 i -> i ∈ sr \/ anc u r i) ->
    exists a, common_ancestor fuel x sl sr l r = Ok a /\ lca u l0 r0 a.
Proof.
  intros u Hw Hl0 Hr0 Hf. assert (Hlen : length u = length (ex_find x)) by apply pl_length.
  assert (Hb : forall sl sr : gset nat, sl ## sr -> (forall i, i ∈ sl \/ i ∈ sr -> i < length u) -> base.size sl + base.size sr <= length u).
  { intros sl sr Hd Hi. rewrite <- size_union by done.
    rewrite <- (size_set_seq (C := gset nat) 0 (length u)). apply subseteq_size. intros i Hin. apply elem_of_set_seq.
    apply elem_of_union in Hin. specialize (Hi i Hin). lia. }
  induction fuel as [|fuel IH]; intros sl sr l r Hfu Hd Hnew Al Ar Sl Sr Cl Cr.
  { exfalso. specialize (Hb sl sr Hd). rewrite Hlen in Hb. apply (Nat.lt_irrefl (length (ex_find x))).
    eapply Nat.lt_le_trans; [exact Hfu|]. apply Hb. intros i Hi.
    rewrite <- Hlen. destruct Hi as [Hi|Hi]; [apply Sl in Hi as [Hi _]|apply Sr in Hi as [Hi _]];
      (eapply anc_lt; [done|exact Hi|]); rewrite Hlen; done. }
  cbn [common_ancestor]. case_bool_decide as H1.
  { exists l. split; [done|]. destruct (Sr _ H1) as [Hrl Hlr]. split_and!; [done|done|].
    intros i Hli Hri. destruct (Cl i Hli) as [Hin|?]; [|done]. destruct (Cr i Hri) as [Hin'|?]; [set_solver|].
    by etrans. }
  case_bool_decide as H2.
  { exists r. split; [done|]. assert (Hrl : anc u r l).
    { apply elem_of_union in H2 as [->%elem_of_singleton|Hin]; [apply rtc_refl|by apply Sl]. }
    assert (Hlr : anc u l0 r).
    { apply elem_of_union in H2 as [->%elem_of_singleton|Hin]; [done|by apply Sl]. }
    split_and!; [done|done|]. intros i Hli Hri. destruct (Cr i Hri) as [Hin|?]; [|done].
    destruct (Cl i Hli) as [Hin'|?]; [set_solver|]. by etrans. }
  assert (Ll : l < length (ex_find x)) by (rewrite <- Hlen in *; by eapply anc_lt).
  assert (Lr : r < length (ex_find x)) by (rewrite <- Hlen in *; by eapply anc_lt).
  rewrite !xparent_ok by done. cbn [mbind res_bind]. fold u.
  destruct (bool_decide (uf_parent u l = l) && bool_decide (uf_parent u r = r)) eqn:Ert.
  { exfalso. apply andb_true_iff in Ert as [E1%bool_decide_eq_true E2%bool_decide_eq_true].
    apply (anc_find_eq _ _ _ Hw) in Al. apply (anc_find_eq _ _ _ Hw) in Ar.
    rewrite (uf_find_root u l Hw E1) in Al. rewrite (uf_find_root u r Hw E2) in Ar. set_solver. }
  apply andb_false_iff in Ert.
  assert (Hgl : l ∉ sl -> base.size ({[l]} ∪ sl) = S (base.size sl)) by (intros; rewrite size_union by set_solver; by rewrite size_singleton).
  assert (Hgr : r ∉ sr -> base.size ({[r]} ∪ sr) = S (base.size sr)) by (intros; rewrite size_union by set_solver; by rewrite size_singleton).
  assert (Hle : base.size sl <= base.size ({[l]} ∪ sl)) by (apply subseteq_size; set_solver).
  assert (Hre : base.size sr <= base.size ({[r]} ∪ sr)) by (apply subseteq_size; set_solver).
  apply IH.
  - destruct Hnew as [Hn|Hn]; [specialize (Hgl Hn)|specialize (Hgr Hn)]; lia.
  - set_solver.
  - destruct Ert as [E%bool_decide_eq_false|E%bool_decide_eq_false].
    + left. intros Hin. apply E. apply (anc_antisym u); [done| |apply anc_parent].
      apply elem_of_union in Hin as [->%elem_of_singleton|Hin]; [apply rtc_refl|by apply Sl].
    + right. intros Hin. apply E. apply (anc_antisym u); [done| |apply anc_parent].
      apply elem_of_union in Hin as [->%elem_of_singleton|Hin]; [apply rtc_refl|by apply Sr].
  - eapply rtc_r; [exact Al|]. done.
  - eapply rtc_r; [exact Ar|]. done.
  - intros i [->%elem_of_singleton|Hin]%elem_of_union; [split; [done|apply anc_parent]|].
    destruct (Sl _ Hin). split; [done|]. eapply rtc_r; [done|]. done.
  - intros i [->%elem_of_singleton|Hin]%elem_of_union; [split; [done|apply anc_parent]|].
    destruct (Sr _ Hin). split; [done|]. eapply rtc_r; [done|]. done.
  - intros i Hi. destruct (Cl i Hi) as [?|[->|?]%anc_inv]; [set_solver|set_solver|by right].
  - intros i Hi. destruct (Cr i Hi) as [?|[->|?]%anc_inv]; [set_solver|set_solver|by right].
Qed.
Lemma common_ancestor_lca x l r : let u := pl (ex_find x) in
  uf_wf u -> l < length (ex_find x) -> r < length (ex_find x) -> uf_find u l = uf_find u r ->
  exists a, common_ancestor (S (length (ex_find x))) x ∅ ∅ l r = Ok a /\ lca u l r a.
Proof.
  intros u Hw Hl Hr Hf. eapply common_ancestor_lca_gen; eauto; try set_solver; try apply rtc_refl.
  rewrite size_empty. lia.
Qed.

(** ** The connections up to an ancestor *)
Fixpoint linked (a : nat) (cs : list conn) (b : nat) : Prop :=
  match cs with [] => a = b | c :: cs => cn_current c = a /\ linked (cn_next c) cs b end.
Lemma linked_app a cs b cs' c : linked a cs b -> linked b cs' c -> linked a (cs ++ cs') c.
Proof. revert a. induction cs as [|k cs IH]; cbn; [by intros a ->|]. intros a [? ?] ?. split; auto. Qed.
Lemma linked_flip a cs b : linked a cs b -> linked b (flip_conn <$> reverse cs) a.
Proof.
  revert a. induction cs as [|k cs IH]; intros a; [by intros ->|]. cbn [linked]. intros [<- Hl].
  rewrite reverse_cons, fmap_app. eapply linked_app; [by apply IH|]. done.
Qed.

(** [c] is the parent link of an id strictly below [a] on the way from [i] to [a]. *)
Definition up_link x (i a : nat) (c : conn) : Prop :=
  exists v nd, ex_find x !! v = Some nd /\ c = xn_parent nd /\ anc (pl (ex_find x)) i v /\ anc (pl (ex_find x)) v a /\
    v <> a /\ cn_next c <> v.

Lemma get_connections_ok alt x es i a : forest alt (ex_find x) es ->
  i < length (ex_find x) -> anc (pl (ex_find x)) i a ->
  exists cs, get_connections x i a = Ok cs /\ linked i cs a /\ Forall (up_link x i a) cs.
Proof.
  intros F Hi Ha. pose proof (fo_wf _ _ _ F) as Hw. set (u := pl (ex_find x)) in *.
  unfold get_connections. case_bool_decide as Hia; [exists []; split_and!; [done|done|constructor]|].
  pose proof Hw as (rk & Hr & Hb). unfold u in Hb; rewrite pl_length in Hb; fold u in Hb.
  assert (Hgo : forall fuel v, v < length (ex_find x) -> v <> a -> anc u i v -> anc u v a ->
    length (ex_find x) <= fuel + rk v ->
    exists cs, get_connections_loop fuel x v a = Ok cs /\ linked v cs a /\ Forall (up_link x i a) cs).
  { induction fuel as [|fuel IH]; intros v Hv Hne Hiv Hva Hfu; [specialize (Hb v Hv); lia|].
    cbn [get_connections_loop]. destruct (lookup_lt_is_Some_2 _ _ Hv) as [nd Hnd]. rewrite Hnd. cbn [expect mbind res_bind].
    pose proof (pl_parent _ _ _ Hnd) as Ep. fold u in Ep. rewrite <- Ep.
    destruct (anc_inv _ _ _ Hva) as [?|Hpa]; [done|].
    assert (Hpv : uf_parent u v <> v).
    { intros E. assert (uf_find u v = v) by (by apply uf_find_root). apply Hne.
      clear -Hva E. induction Hva as [|v k a Hs _ IH]; [done|]. unfold pstep in Hs. rewrite E in Hs. subst k. auto. }
    assert (Hup : up_link x i a (xn_parent nd)).
    { exists v, nd. split_and!; auto. by rewrite <- Ep. }
    case_bool_decide as Hpa'.
    - eexists. split_and!; [done| |by repeat constructor]. cbn. split; [by eapply fo_cur|]. by rewrite <- Ep.
    - rewrite bool_decide_eq_false_2 by done.
      pose proof (uf_parent_rank u rk v Hr Hpv).
      destruct (IH (uf_parent u v)) as (cs & -> & Hl & Hc); [| | |done| |].
      + rewrite <- (pl_length (ex_find x)). apply uf_parent_lt; [done|]. by rewrite pl_length.
      + done.
      + eapply rtc_r; [exact Hiv|]. done.
      + lia.
      + cbn [mbind res_bind]. eexists. split_and!; [done| |by constructor]. cbn. split; [by eapply fo_cur|]. by rewrite <- Ep. }
  apply Hgo; auto; [apply rtc_refl|lia].
Qed.

(** ** Paths use old edges *)
Lemma cut_edge alt x es es' l r v : forest alt (ex_find x) es -> (forall e, e ∈ es' -> e ∈ es) ->
  anc (pl (ex_find x)) l v -> ~ anc (pl (ex_find x)) r v -> connected es' l r ->
  adj es' v (uf_parent (pl (ex_find x)) v).
Proof.
  intros F Hsub Hlv Hrv Hc. set (u := pl (ex_find x)) in *.
  induction Hc as [l|l k r Hadj _ IH]; [done|].
  assert (Hpar : uf_parent u l = k \/ uf_parent u k = l).
  { destruct Hadj as (j & [Hj|Hj]); apply Hsub, (fo_edge _ _ _ F) in Hj; unfold u; tauto. }
  destruct Hpar as [E|E].
  - destruct (decide (l = v)) as [->|Hne]; [by rewrite E|]. apply IH; [|done].
    destruct (anc_inv _ _ _ Hlv) as [?|Hp]; [done|]. by rewrite E in Hp.
  - destruct (decide (k = v /\ uf_parent u v = l)) as [[-> E']|Hne].
    + rewrite E'. by apply adj_sym.
    + apply IH; [|done]. eapply rtc_l; [|exact Hlv]. done.
Qed.

Lemma edge_unique (ns : list node) h es a b j j' a' b' :
  edges_ok ns h es -> (a, b, j) ∈ es -> (a', b', j') ∈ es -> (a' = a /\ b' = b) \/ (a' = b /\ b' = a) ->
  (a', b', j') = (a, b, j).
Proof.
  intros Ho H1 H2 Hab.
  assert (Hc : forall (es : list edge) a b j a' b', (a, b, j) ∈ es -> (a' = a /\ b' = b) \/ (a' = b /\ b' = a) -> connected es a' b').
  { clear. intros es a b j a' b' Hin [[-> ->]|[-> ->]]; apply rtc_once; exists j; auto. }
  induction Ho as [|c d r es Hnc Hr Ho IH|c d n m es Hnc Hn Hm Eo Hf Ho IH]; [by apply elem_of_nil in H1| |];
  (apply elem_of_cons in H1 as [[= -> -> ->]|H1]; apply elem_of_cons in H2 as [[= -> -> ->]|H2];
    [done|exfalso; apply Hnc; eapply Hc; [exact H2|]; naive_solver|exfalso; apply Hnc; eapply Hc; [exact H1|]; naive_solver|by apply IH]).
Qed.

(** The edge a connection stands for. *)
Definition edge_of (c : conn) : edge :=
  if cn_fwd c then (cn_current c, cn_next c, cn_just c) else (cn_next c, cn_current c, cn_just c).
Lemma edge_of_flip c : edge_of (flip_conn c) = edge_of c.
Proof. destruct c as [a b j []]; done. Qed.

Lemma path_old alt x (ns : list node) h es es' l r :
  forest alt (ex_find x) es -> edges_ok ns h es -> (forall e, e ∈ es' -> e ∈ es) ->
  l < length (ex_find x) -> r < length (ex_find x) -> connected es' l r ->
  exists lc rc, get_path_unoptimized x l r = Ok (lc, rc) /\ linked l (lc ++ (flip_conn <$> reverse rc)) r /\
    Forall (fun c => edge_of c ∈ es') (lc ++ (flip_conn <$> reverse rc)).
Proof.
  intros F Ho Hsub Hl Hr Hc. set (u := pl (ex_find x)) in *. pose proof (fo_wf _ _ _ F) as Hw.
  assert (Hf : uf_find u l = uf_find u r).
  { apply (forest_connected _ _ _ _ _ F Hl Hr). by eapply connected_mono. }
  destruct (common_ancestor_lca x l r Hw Hl Hr Hf) as (a & Ea & Hla & Hra & Hlow).
  destruct (get_connections_ok _ _ _ l a F Hl Hla) as (lc & El & Ll & Cl).
  destruct (get_connections_ok _ _ _ r a F Hr Hra) as (rc & Er & Lr & Cr).
  exists lc, rc. unfold get_path_unoptimized. rewrite Ea. cbn [mbind res_bind]. rewrite El. cbn [mbind res_bind].
  rewrite Er. cbn [mbind res_bind]. split_and!; [done|eapply linked_app; [done|by apply linked_flip]|].
  assert (Hold : forall p q c, (p = l /\ q = r) \/ (p = r /\ q = l) -> up_link x p a c -> edge_of c ∈ es').
  { intros p q c Hpq (v & nd & Hnd & -> & Hpv & Hva & Hne & Hnv).
    assert (Hadj : adj es' v (uf_parent u v)).
    { eapply (cut_edge _ _ _ _ p q); [exact F|done|done| |].
      - intros Hqv. apply Hne. apply (anc_antisym u); [done..|].
        destruct Hpq as [[-> ->]|[-> ->]]; by apply Hlow.
      - destruct Hpq as [[-> ->]|[-> ->]]; [done|by apply connected_sym]. }
    pose proof (fo_cur _ _ _ F _ _ Hnd) as Ecur. pose proof (pl_parent _ _ _ Hnd) as Ep. fold u in Ep.
    assert (Hin : edge_of (xn_parent nd) ∈ es).
    { pose proof (fo_par _ _ _ F _ _ Hnd Hnv) as Hpar. cbv zeta in Hpar. unfold edge_of. rewrite Ecur. by destruct (cn_fwd _). }
    destruct Hadj as (j & Hj). rewrite Ep in Hj.
    destruct (edge_of (xn_parent nd)) as [[c1 c2] cj] eqn:Ee.
    assert (Hcc : (v = c1 /\ cn_next (xn_parent nd) = c2) \/ (v = c2 /\ cn_next (xn_parent nd) = c1)).
    { unfold edge_of in Ee. rewrite Ecur in Ee. destruct (cn_fwd _); injection Ee as <- <- <-; auto. }
    destruct Hj as [Hj|Hj]; rewrite <- (edge_unique _ _ _ _ _ _ _ _ _ Ho Hin (Hsub _ Hj)); auto; naive_solver. }
  apply Forall_app. split.
  - eapply Forall_impl; [exact Cl|]. intros c. apply (Hold l r). auto.
  - apply Forall_fmap, Forall_reverse. eapply Forall_impl; [exact Cr|]. intros c Hu. cbn. rewrite edge_of_flip.
    apply (Hold r l); auto.
Qed.
End path.
