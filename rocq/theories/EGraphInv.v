(** The state invariant of the e-graph model and its preservation by every primitive
    transition. *)
From Verif Require Import Base UnionFind EGraphModel EGraphSteps.

(** Congruence over a table of nodes (id [i] is node [ns !! i]) and a relation of
    asserted unions. *)
Section congT.
Context {Op : Type}.
Inductive congT (ns : list (node Op)) (U : nat -> nat -> Prop) : nat -> nat -> Prop :=
| ct_refl i : congT ns U i i
| ct_sym i j : congT ns U i j -> congT ns U j i
| ct_trans i j k : congT ns U i j -> congT ns U j k -> congT ns U i k
| ct_union a b : U a b -> congT ns U a b
| ct_cong i j a b :
    ns !! i = Some a -> ns !! j = Some b -> nop a = nop b -> length (nch a) = length (nch b) ->
    (forall k c d, nch a !! k = Some c -> nch b !! k = Some d -> congT ns U c d) ->
    congT ns U i j.

Lemma congT_mono (ns ns' : list (node Op)) (U U' : nat -> nat -> Prop) i j :
  (forall k n, ns !! k = Some n -> ns' !! k = Some n) ->
  (forall a b, U a b -> congT ns' U' a b) -> congT ns U i j -> congT ns' U' i j.
Proof.
  intros Hn HU. induction 1.
  - apply ct_refl.
  - by apply ct_sym.
  - by eapply ct_trans.
  - auto.
  - eapply ct_cong; eauto.
Qed.
End congT.

Section inv.
Context {Op D : Type} `{Countable Op}.
Notation node := (node Op).
Notation egraph := (egraph Op D).
Notation eclass := (eclass Op D).
Notation explain := (explain Op).
Context (L : lang Op) (A : analysis Op D).

Implicit Types (f : nat -> nat) (ns : list node) (n m : node) (U : nat -> nat -> Prop).

Lemma canonf_canonf f n : (forall i, f (f i) = f i) -> canonf f (canonf f n) = canonf f n.
Proof.
  intros Hf. unfold canonf. cbn. f_equal. rewrite <- list_fmap_compose.
  apply list_fmap_ext. intros. cbn. auto.
Qed.

(** [f'] coarsens [f]. *)
Definition coarser f f' : Prop := forall i, f' (f i) = f' i.
Lemma canonf_coarser f f' n : coarser f f' -> canonf f' (canonf f n) = canonf f' n.
Proof.
  intros Hc. unfold canonf. cbn. f_equal. rewrite <- list_fmap_compose.
  apply list_fmap_ext. intros. cbn. apply Hc.
Qed.
Lemma canonf_coarser_eq f f' n m :
  coarser f f' -> canonf f n = canonf f m -> canonf f' n = canonf f' m.
Proof. intros Hc E. rewrite <- (canonf_coarser f f' n), <- (canonf_coarser f f' m); auto. by rewrite E. Qed.

Lemma coarser_eq f f' i j : coarser f f' -> f i = f j -> f' i = f' j.
Proof. intros Hc E. rewrite <- (Hc i), <- (Hc j). by rewrite E. Qed.

Lemma canonf_eq_inv f n m :
  canonf f n = canonf f m ->
  nop n = nop m /\ length (nch n) = length (nch m) /\
  forall k c d, nch n !! k = Some c -> nch m !! k = Some d -> f c = f d.
Proof.
  unfold canonf. intros E. injection E as E1 E2. split; [done|]. split.
  - apply (f_equal length) in E2. by rewrite !fmap_length in E2.
  - intros k c d Hc Hd. apply (f_equal (.!! k)) in E2.
    rewrite !list_lookup_fmap, Hc, Hd in E2. cbn in E2. congruence.
Qed.

Lemma canonf_eq_intro f n m :
  nop n = nop m -> length (nch n) = length (nch m) ->
  (forall k c d, nch n !! k = Some c -> nch m !! k = Some d -> f c = f d) ->
  canonf f n = canonf f m.
Proof.
  intros E1 E2 Hk. unfold canonf. f_equal; [done|]. apply list_eq. intros k.
  rewrite !list_lookup_fmap.
  destruct (nch n !! k) as [c|] eqn:Ec; destruct (nch m !! k) as [d|] eqn:Ed; cbn; auto.
  - f_equal. eauto.
  - apply lookup_lt_Some in Ec. apply lookup_ge_None in Ed. lia.
  - apply lookup_lt_Some in Ed. apply lookup_ge_None in Ec. lia.
Qed.

(** Two ids whose nodes are canonically equal and which are in the same class. *)
Definition sim f ns (a b : nat) : Prop :=
  f a = f b /\ exists n m, ns !! a = Some n /\ ns !! b = Some m /\ canonf f n = canonf f m.

Lemma sim_coarser f f' ns a b : coarser f f' -> sim f ns a b -> sim f' ns a b.
Proof.
  intros Hc (E & n & m & Ha & Hb & En). split; [by eapply coarser_eq|].
  exists n, m. split_and!; auto. by eapply canonf_coarser_eq.
Qed.
Lemma sim_refl f ns a n : ns !! a = Some n -> sim f ns a a.
Proof. intros. split; [done|]. eauto 10. Qed.
Lemma sim_trans f ns a b c : sim f ns a b -> sim f ns b c -> sim f ns a c.
Proof.
  intros (E1 & n & m & Ha & Hb & En) (E2 & n' & m' & Ha' & Hb' & En').
  split; [congruence|]. exists n, m'. split_and!; auto. congruence.
Qed.
Lemma sim_sym f ns a b : sim f ns a b -> sim f ns b a.
Proof. intros (E1 & n & m & Ha & Hb & En). split; [done|]. exists m, n. auto. Qed.
Lemma sim_app f ns ns' a b : sim f ns a b -> sim f (ns ++ ns') a b.
Proof.
  intros (E1 & n & m & Ha & Hb & En). split; [done|]. exists n, m.
  split_and!; auto; by apply lookup_app_l_Some.
Qed.

(** The core invariant, as a property of the [find] function and the tables.
    [X] is a set of ids temporarily excused from the hash-cons completeness clause. *)
Record cinv U (X : nat -> Prop) f ns (memo : gmap node nat) (pend : list nat)
    (cls : gmap nat eclass) : Prop := {
  ci_idem : forall i, f (f i) = f i;
  ci_lt : forall i, f i < length ns <-> i < length ns;
  ci_ch : forall i n c, ns !! i = Some n -> c ∈ nch n -> c < i;
  ci_cls : forall r, is_Some (cls !! r) <-> r < length ns /\ f r = r;
  ci_cid : forall r c, cls !! r = Some c -> c_id c = r;
  ci_par_lt : forall r c p, cls !! r = Some c -> p ∈ c_parents c -> p < length ns;
  ci_pend_lt : forall p, p ∈ pend -> p < length ns;
  ci_memo : forall n i, memo !! n = Some i -> exists m, ns !! i = Some m /\ canonf f n = canonf f m;
  ci_par : forall k m c, ns !! k = Some m -> c ∈ nch m ->
    exists cl q, cls !! f c = Some cl /\ q ∈ c_parents cl /\ sim f ns q k;
  ci_mem : forall k m, ns !! k = Some m ->
    (exists j, memo !! canonf f m = Some j /\ f j = f k) \/
    (exists q, q ∈ pend /\ sim f ns q k) \/ X k;
  ci_snd : forall i, i < length ns -> congT ns U i (f i);
  ci_un : forall a b, U a b -> f a = f b;
  ci_nodes : forall r c n, cls !! r = Some c -> n ∈ c_nodes c ->
    exists k m, ns !! k = Some m /\ f k = r /\ canonf f n = canonf f m;
}.

Lemma cinv_ext U X f f' ns memo pend cls :
  (forall i, f' i = f i) -> cinv U X f ns memo pend cls -> cinv U X f' ns memo pend cls.
Proof.
  intros He I.
  assert (Hcn : forall n, canonf f' n = canonf f n) by (intros; by apply canonf_ext).
  assert (Hs : forall a b, sim f' ns a b <-> sim f ns a b).
  { intros. unfold sim. rewrite !He. setoid_rewrite Hcn. done. }
  destruct I as [I1 I2 I3 I4 I5 I6 I7 I8 I9 I10 I11 I12 I13]. split.
  - intros. rewrite !He. auto.
  - intros. rewrite He. auto.
  - auto.
  - intros. rewrite He. auto.
  - auto.
  - auto.
  - auto.
  - intros n i Hn. destruct (I8 n i Hn) as (m & ? & ?). exists m. rewrite !Hcn. auto.
  - intros k m c Hk Hc. destruct (I9 k m c Hk Hc) as (cl & q & ? & ? & ?). exists cl, q.
    rewrite He, Hs. auto.
  - intros k m Hk. rewrite Hcn. destruct (I10 k m Hk) as [(j & ? & ?)|[(q & ? & ?)|?]].
    + left. exists j. rewrite !He. auto.
    + right. left. exists q. rewrite Hs. auto.
    + auto.
  - intros. rewrite He. auto.
  - intros. rewrite !He. auto.
  - intros r c n Hr Hn. destruct (I13 r c n Hr Hn) as (k & m & ? & ? & ?). exists k, m.
    rewrite He, !Hcn. auto.
Qed.

Lemma cinv_X (U : nat -> nat -> Prop) (X X' : nat -> Prop) f ns memo pend cls :
  (forall k m, ns !! k = Some m -> X k ->
    (exists j, memo !! canonf f m = Some j /\ f j = f k) \/
    (exists q, q ∈ pend /\ sim f ns q k) \/ X' k) ->
  cinv U X f ns memo pend cls -> cinv U X' f ns memo pend cls.
Proof.
  intros HX I. destruct I. split; auto.
  intros k m Hk. destruct (ci_mem0 k m Hk) as [?|[?|?]]; auto.
Qed.

(** Changing class data and contents, not ids or parents. *)
Lemma cinv_classes U X f ns memo pend (cls cls' : gmap nat eclass) :
  (forall r, match cls !! r, cls' !! r with
     | Some c, Some c' => c_id c' = c_id c /\ c_parents c' = c_parents c /\
          forall n', n' ∈ c_nodes c' -> exists n, n ∈ c_nodes c /\ canonf f n' = canonf f n
     | None, None => True | _, _ => False end) ->
  cinv U X f ns memo pend cls -> cinv U X f ns memo pend cls'.
Proof.
  intros Hr I.
  assert (H1 : forall r c', cls' !! r = Some c' -> exists c, cls !! r = Some c /\
     c_id c' = c_id c /\ c_parents c' = c_parents c /\
          forall n', n' ∈ c_nodes c' -> exists n, n ∈ c_nodes c /\ canonf f n' = canonf f n).
  { intros r c' E. specialize (Hr r). rewrite E in Hr. destruct (cls !! r); [eauto|done]. }
  assert (H2 : forall r c, cls !! r = Some c -> exists c', cls' !! r = Some c' /\
     c_parents c' = c_parents c).
  { intros r c E. specialize (Hr r). rewrite E in Hr. destruct (cls' !! r); [|done]. naive_solver. }
  destruct I. split; auto.
  - intros r. rewrite <- ci_cls0. split; intros [c Hc].
    + apply H1 in Hc as (? & ? & _). eauto.
    + apply H2 in Hc as (? & ? & _). eauto.
  - intros r c' E. apply H1 in E as (c & E & Ei & _). rewrite Ei. eauto.
  - intros r c' p E. apply H1 in E as (c & E & _ & Ep & _). rewrite Ep. eauto.
  - intros k m c Hk Hc. destruct (ci_par0 k m c Hk Hc) as (cl & q & E & Hq & Hs).
    apply H2 in E as (c' & E & Ep). exists c', q. rewrite Ep. auto.
  - intros r c' n' E Hn. apply H1 in E as (c & E & _ & _ & HN).
    apply HN in Hn as (n & Hn & En). destruct (ci_nodes0 r c n E Hn) as (k & m & ? & ? & ?).
    exists k, m. split_and!; auto. congruence.
Qed.

Lemma elem_of_concat_vecs {B} (l1 l2 : list B) x : x ∈ concat_vecs l1 l2 <-> x ∈ l1 \/ x ∈ l2.
Proof. unfold concat_vecs. case_decide; rewrite elem_of_app; tauto. Qed.

(** Merging class [id2] into [id1]. *)
Section union.
Context (U U' : nat -> nat -> Prop) (X : nat -> Prop) (f f' : nat -> nat) (ns : list node)
  (memo : gmap node nat) (pend : list nat) (cls : gmap nat eclass) (id1 id2 : nat)
  (k1 k2 : eclass) (d : D).
Hypothesis (Hc : cinv U X f ns memo pend cls).
Hypothesis (Hne : id1 <> id2).
Hypothesis (E1 : cls !! id1 = Some k1) (E2 : cls !! id2 = Some k2).
Hypothesis (Hf' : forall j, f' j = if decide (f j = id2) then id1 else f j).

Let Hr1 : f id1 = id1.
Proof. destruct Hc. apply ci_cls0. eauto. Qed.
Let Hr2 : f id2 = id2.
Proof. destruct Hc. apply ci_cls0. eauto. Qed.
Let Hl1 : id1 < length ns.
Proof. destruct Hc. apply ci_cls0. eauto. Qed.
Let Hl2 : id2 < length ns.
Proof. destruct Hc. apply ci_cls0. eauto. Qed.

Lemma union_coarser : coarser f f'.
Proof. intros i. rewrite !Hf'. rewrite (ci_idem _ _ _ _ _ _ _ Hc). done. Qed.

(** A node either keeps its canonical form or is scheduled for repair. *)
Lemma union_canon_or_pending k m :
  ns !! k = Some m ->
  canonf f' m = canonf f m \/
  exists q, q ∈ reverse (c_parents k2) ++ pend /\ sim f' ns q k.
Proof.
  intros Hk. destruct (decide (Exists (fun c => f c = id2) (nch m))) as [Hex|Hall].
  - right. apply Exists_exists in Hex as (c & Hcm & Ec).
    destruct (ci_par _ _ _ _ _ _ _ Hc k m c Hk Hcm) as (cl & q & Ecl & Hq & Hs).
    rewrite Ec, E2 in Ecl. injection Ecl as <-. exists q. split.
    + rewrite elem_of_app, elem_of_reverse. auto.
    + eapply sim_coarser; [apply union_coarser|done].
  - left. unfold canonf. f_equal. apply list_fmap_ext. intros i c Hi.
    rewrite Hf'. rewrite decide_False; [done|]. intros Ec. apply Hall.
    apply Exists_exists. exists c. split; [|done]. by eapply elem_of_list_lookup_2.
Qed.

Lemma cinv_union :
  (forall a b, U a b -> U' a b) ->
  (forall a b, U' a b -> U a b \/ f' a = f' b) ->
  congT ns U' id1 id2 ->
  cinv U' X f' ns memo (reverse (c_parents k2) ++ pend)
    (<[id1 := EClass (c_id k1) (concat_vecs (c_nodes k1) (c_nodes k2)) d
                     (concat_vecs (c_parents k1) (c_parents k2))]> (delete id2 cls)).
Proof.
  intros HU HU' Hcong. pose proof union_coarser as Hco.
  pose proof Hc as Hc'. destruct Hc' as [I1 I2 I3 I4 I5 I6 I7 I8 I9 I10 I11 I12 I13].
  assert (Hf'1 : f' id1 = id1). { rewrite Hf', Hr1. by rewrite decide_False. }
  set (cls' := <[id1 := _]> (delete id2 cls)).
  assert (L1 : cls' !! id1 = Some (EClass (c_id k1) (concat_vecs (c_nodes k1) (c_nodes k2)) d
                     (concat_vecs (c_parents k1) (c_parents k2)))) by apply lookup_insert.
  assert (Lo : forall r, r <> id1 -> r <> id2 -> cls' !! r = cls !! r).
  { intros. unfold cls'. rewrite lookup_insert_ne, lookup_delete_ne; auto. }
  assert (L2 : cls' !! id2 = None).
  { unfold cls'. rewrite lookup_insert_ne by done. by rewrite lookup_delete. }
  assert (Hfix : forall r, f' r = r <-> (f r = r /\ r <> id2)).
  { intros r. rewrite Hf'. case_decide as Hd; split.
    - intros ->. congruence.
    - intros [? ?]. congruence.
    - intros. split; [done|]. intros ->. congruence.
    - by intros [? _]. }
  split.
  - intros i. rewrite (Hf' i). case_decide; [done|]. rewrite Hf', I1. by rewrite decide_False.
  - intros i. rewrite <- (I2 i), Hf'. case_decide as Hd; [|done]. split; intros _; [rewrite Hd; exact Hl2|exact Hl1].
  - auto.
  - intros r. rewrite Hfix. destruct (decide (r = id1)) as [->|Hn1].
    { rewrite L1. split; [|eauto]. eauto. }
    destruct (decide (r = id2)) as [->|Hn2].
    { rewrite L2. split; [intros [? ?]; done|naive_solver]. }
    rewrite Lo by done. rewrite I4. naive_solver.
  - intros r c. destruct (decide (r = id1)) as [->|Hn1].
    { rewrite L1. intros [= <-]. cbn. eauto. }
    destruct (decide (r = id2)) as [->|Hn2]; [by rewrite L2|]. rewrite Lo by done. eauto.
  - intros r c p. destruct (decide (r = id1)) as [->|Hn1].
    { rewrite L1. intros [= <-]. cbn. rewrite elem_of_concat_vecs. intros [?|?]; eauto. }
    destruct (decide (r = id2)) as [->|Hn2]; [by rewrite L2|]. rewrite Lo by done. eauto.
  - intros p. rewrite elem_of_app, elem_of_reverse. intros [?|?]; eauto.
  - intros n i Hn. apply I8 in Hn as (m & Hm & En). exists m. split; [done|].
    by eapply canonf_coarser_eq.
  - intros k m c Hk Hcm. destruct (I9 k m c Hk Hcm) as (cl & q & Ecl & Hq & Hs).
    apply (sim_coarser _ _ _ _ _ Hco) in Hs.
    rewrite Hf'. case_decide as Hd.
    + exists (EClass (c_id k1) (concat_vecs (c_nodes k1) (c_nodes k2)) d
                     (concat_vecs (c_parents k1) (c_parents k2))), q.
      split_and!; auto. cbn. apply elem_of_concat_vecs. right. congruence.
    + destruct (decide (f c = id1)) as [Hd1|Hd1].
      * exists (EClass (c_id k1) (concat_vecs (c_nodes k1) (c_nodes k2)) d
                     (concat_vecs (c_parents k1) (c_parents k2))), q.
        rewrite Hd1. split_and!; auto. cbn. apply elem_of_concat_vecs. left. congruence.
      * exists cl, q. rewrite Lo by done. auto.
  - intros k m Hk. destruct (union_canon_or_pending k m Hk) as [En|Hp]; [|auto].
    destruct (I10 k m Hk) as [(j & Hj & Ej)|[(q & Hq & Hs)|HX]].
    + left. exists j. rewrite En. split; [done|]. by eapply coarser_eq.
    + right. left. exists q. split; [by apply elem_of_app; right|].
      by eapply sim_coarser.
    + auto.
  - intros i Hi. apply ct_trans with (f i).
    + eapply congT_mono; [| |by apply I11]; auto. intros. apply ct_union. auto.
    + rewrite Hf'. case_decide as Hd; [|apply ct_refl]. rewrite Hd. by apply ct_sym.
  - intros a b Hab. apply HU' in Hab as [Hab|Hab]; [|done]. apply I12 in Hab.
    by eapply coarser_eq.
  - intros r c n. destruct (decide (r = id1)) as [->|Hn1].
    + rewrite L1. intros [= <-]. cbn. rewrite elem_of_concat_vecs. intros [Hn|Hn].
      * destruct (I13 _ _ _ E1 Hn) as (k & m & Hk & Ek & En). exists k, m. split_and!; auto.
        -- rewrite Hf', Ek. by rewrite decide_False.
        -- by eapply canonf_coarser_eq.
      * destruct (I13 _ _ _ E2 Hn) as (k & m & Hk & Ek & En). exists k, m. split_and!; auto.
        -- rewrite Hf', Ek. by rewrite decide_True.
        -- by eapply canonf_coarser_eq.
    + destruct (decide (r = id2)) as [->|Hn2]; [by rewrite L2|]. rewrite Lo by done.
      intros E Hn. destruct (I13 _ _ _ E Hn) as (k & m & Hk & Ek & En). exists k, m.
      split_and!; auto.
      * rewrite Hf', Ek. by rewrite decide_False.
      * by eapply canonf_coarser_eq.
Qed.
End union.

(** Adding an alias id (explanations on, node already present). *)
Lemma cinv_alias U X f f' ns memo pend (cls : gmap nat eclass) n e :
  cinv U X f ns memo pend cls ->
  (forall i, i ∈ nch n -> i < length ns) ->
  memo !! canonf f n = Some e ->
  (forall i, f i = i \/ i < length ns) ->
  (forall j, f' j = if decide (j = length ns) then f e else f j) ->
  (forall a b, U a b -> a < length ns /\ b < length ns) ->
  cinv U X f' (ns ++ [n]) memo pend cls.
Proof.
  intros Hc Hch He Hout Hf' HU.
  pose proof Hc as [I1 I2 I3 I4 I5 I6 I7 I8 I9 I10 I11 I12 I13].
  destruct (I8 _ _ He) as (me & Hme & Ene).
  pose proof (lookup_lt_Some _ _ _ Hme) as Hel.
  assert (Hsm : forall j, j < length ns -> f' j = f j).
  { intros. rewrite Hf'. rewrite decide_False; [done|lia]. }
  assert (Hfe : f e < length ns) by by apply I2.
  assert (Hnf : f (length ns) = length ns).
  { destruct (Hout (length ns)); [done|lia]. }
  assert (Hfn : f' (length ns) = f e) by (rewrite Hf'; by rewrite decide_True).
  assert (Hcm : forall m, (forall i, i ∈ nch m -> i < length ns) -> canonf f' m = canonf f m).
  { intros m Hm. unfold canonf. f_equal. apply list_fmap_ext. intros i c Hi.
    apply Hsm, Hm. by eapply elem_of_list_lookup_2. }
  assert (Hnch : forall k m, ns !! k = Some m -> forall i, i ∈ nch m -> i < length ns).
  { intros k m Hk i Hi. pose proof (lookup_lt_Some _ _ _ Hk). specialize (I3 _ _ _ Hk Hi). lia. }
  assert (Hco : coarser f f').
  { intros i. destruct (decide (i = length ns)) as [->|Hn].
    - by rewrite Hnf.
    - rewrite !Hf'. rewrite (decide_False (P := i = _)) by done.
      rewrite decide_False; [apply I1|]. intros E. destruct (Hout i); [congruence|].
      apply I2 in H0. lia. }
  assert (Hlk : forall k m, (ns ++ [n]) !! k = Some m -> (ns !! k = Some m) \/ (k = length ns /\ m = n)).
  { intros k m Hk. apply lookup_app_Some in Hk as [Hk|[Hl Hk]]; [auto|].
    apply list_lookup_singleton_Some in Hk as [? <-]. right. split; [lia|done]. }
  assert (Hlk' : forall k m, ns !! k = Some m -> (ns ++ [n]) !! k = Some m).
  { intros. by apply lookup_app_l_Some. }
  assert (Hlkn : (ns ++ [n]) !! length ns = Some n) by by apply list_lookup_middle.
  assert (Hsim : forall a b, sim f ns a b -> sim f' (ns ++ [n]) a b).
  { intros. apply sim_app. by eapply sim_coarser. }
  (* the canonical node of the alias is the one of e *)
  assert (Hnn : canonf f n = canonf f me).
  { rewrite <- Ene. symmetry. by apply canonf_canonf. }
  assert (Hsime : sim f' (ns ++ [n]) e (length ns)).
  { split; [rewrite Hfn; by apply Hsm|]. exists me, n. split_and!; auto.
    eapply canonf_coarser_eq; eauto. }
  split.
  - intros i. destruct (decide (i = length ns)) as [->|Hn].
    + rewrite Hfn. rewrite Hsm by done. apply I1.
    + rewrite (Hf' i), decide_False by done. rewrite Hco. rewrite Hf', decide_False by done. done.
  - intros i. rewrite app_length. cbn. rewrite Hf'. case_decide; [lia|].
    destruct (Hout i) as [E|E]; [rewrite E; lia|]. apply I2 in E as E'. lia.
  - intros i m c Hi Hm. apply Hlk in Hi as [Hi|[-> ->]]; eauto.
  - intros r. rewrite I4. rewrite app_length. cbn. rewrite Hf'. split.
    + intros [? ?]. rewrite decide_False by lia. split; [lia|done].
    + intros [? ?]. case_decide; [lia|]. split; [lia|done].
  - auto.
  - intros. rewrite app_length. assert (p < length ns) by eauto. lia.
  - intros. rewrite app_length. assert (p < length ns) by eauto. lia.
  - intros m i Hm. apply I8 in Hm as (m' & Hm' & Em). exists m'. split; [auto|].
    by eapply canonf_coarser_eq.
  - intros k m c Hk Hcm'. apply Hlk in Hk as [Hk|[-> ->]].
    + destruct (I9 k m c Hk Hcm') as (cl & q & Ecl & Hq & Hs). exists cl, q.
      rewrite Hsm by eauto. auto.
    + (* alias: use e's corresponding child *)
      apply elem_of_list_lookup in Hcm' as [i Hi].
      destruct (canonf_eq_inv _ _ _ Hnn) as (_ & Hlen & Hpt).
      destruct (lookup_lt_is_Some_2 (nch me) i) as [c' Hc'].
      { rewrite <- Hlen. by eapply lookup_lt_Some. }
      specialize (Hpt _ _ _ Hi Hc').
      assert (c' ∈ nch me) by by eapply elem_of_list_lookup_2.
      destruct (I9 e me c' Hme) as (cl & q & Ecl & Hq & Hs); auto.
      exists cl, q. rewrite Hsm.
      2:{ apply Hch. by eapply elem_of_list_lookup_2. }
      rewrite Hpt. split_and!; auto. eapply sim_trans; [by apply Hsim|done].
  - intros k m Hk. apply Hlk in Hk as [Hk|[-> ->]].
    + rewrite Hcm by eauto. destruct (I10 k m Hk) as [(j & Hj & Ej)|[(q & Hq & Hs)|HXk]]; auto.
      * left. exists j. split; [done|].
        apply I8 in Hj as (mj & Hmj & _). rewrite !Hsm; auto; by eapply lookup_lt_Some.
      * right. left. exists q. auto.
    + rewrite Hcm by done. left. exists e. split; [done|]. rewrite Hfn. by apply Hsm.
  - assert (Hold : forall i j, congT ns U i j -> congT (ns ++ [n]) U i j).
    { intros i j. apply congT_mono; auto. intros. by apply ct_union. }
    intros i. rewrite app_length. cbn. intros Hi. destruct (decide (i = length ns)) as [->|Hn].
    + rewrite Hfn. apply ct_trans with e; [|by apply Hold, I11].
      destruct (canonf_eq_inv _ _ _ Hnn) as (Eop & Hlen & Hpt).
      eapply ct_cong; eauto.
      intros k c c' Hcc Hcc'.
      specialize (Hpt _ _ _ Hcc Hcc').
      assert (c ∈ nch n) by by eapply elem_of_list_lookup_2.
      assert (c' ∈ nch me) by by eapply elem_of_list_lookup_2.
      apply ct_trans with (f c); [apply Hold, I11; auto|].
      rewrite Hpt. apply ct_sym. apply Hold, I11. eauto.
    + rewrite Hsm by lia. apply Hold, I11. lia.
  - intros a b Hab. destruct (HU _ _ Hab). rewrite !Hsm by done. auto.
  - intros r c m Hr Hm. destruct (I13 r c m Hr Hm) as (k & m' & Hk & Ek & Em).
    exists k, m'. split_and!; auto.
    + rewrite Hsm; [done|]. by eapply lookup_lt_Some.
    + by eapply canonf_coarser_eq.
Qed.

(** Adding a new class. *)
Lemma cinv_new U X f ns memo pend (cls cls' : gmap nat eclass) n dta :
  cinv U X f ns memo pend cls ->
  (forall i, i ∈ nch n -> i < length ns) ->
  memo !! canonf f n = None ->
  (forall i, f i = i \/ i < length ns) ->
  (forall r, cls' !! r =
     if decide (r = length ns) then Some (EClass (length ns) [canonf f n] dta [])
     else (fun c => c_set_parents (c_parents c ++ new_parents f (length ns) (nch (canonf f n)) r) c)
            <$> cls !! r) ->
  cinv U X f (ns ++ [n]) (<[canonf f n := length ns]> memo) (length ns :: pend) cls'.
Proof.
  intros Hc Hch Hmn Hout Hcls.
  pose proof Hc as [I1 I2 I3 I4 I5 I6 I7 I8 I9 I10 I11 I12 I13].
  assert (Hnf : f (length ns) = length ns).
  { destruct (Hout (length ns)); [done|lia]. }
  assert (Hlk : forall k m, (ns ++ [n]) !! k = Some m -> (ns !! k = Some m) \/ (k = length ns /\ m = n)).
  { intros k m Hk. apply lookup_app_Some in Hk as [Hk|[Hl Hk]]; [auto|].
    apply list_lookup_singleton_Some in Hk as [? <-]. right. split; [lia|done]. }
  assert (Hlk' : forall k m, ns !! k = Some m -> (ns ++ [n]) !! k = Some m).
  { intros. by apply lookup_app_l_Some. }
  assert (Hlkn : (ns ++ [n]) !! length ns = Some n) by by apply list_lookup_middle.
  assert (Hcl_old : forall r c, cls !! r = Some c -> r <> length ns /\
     cls' !! r = Some (c_set_parents (c_parents c ++ new_parents f (length ns) (nch (canonf f n)) r) c)).
  { intros r c Hr. assert (r < length ns) by (apply I4; eauto). split; [lia|].
    rewrite Hcls, decide_False by lia. by rewrite Hr. }
  assert (Hcl_new : forall r c, cls' !! r = Some c ->
     (r = length ns /\ c = EClass (length ns) [canonf f n] dta []) \/
     exists c0, cls !! r = Some c0 /\
       c = c_set_parents (c_parents c0 ++ new_parents f (length ns) (nch (canonf f n)) r) c0).
  { intros r c Hr. rewrite Hcls in Hr. case_decide; [naive_solver|].
    destruct (cls !! r); cbn in Hr; naive_solver. }
  assert (Hsim : forall a b, sim f ns a b -> sim f (ns ++ [n]) a b) by (intros; by apply sim_app).
  split.
  - auto.
  - intros i. rewrite app_length. cbn. destruct (Hout i) as [E|E]; [rewrite E; lia|].
    pose proof E as E'. apply I2 in E'. lia.
  - intros i m c Hi Hm. apply Hlk in Hi as [Hi|[-> ->]]; eauto.
  - intros r. rewrite app_length. cbn. split.
    + intros [c Hr]. apply Hcl_new in Hr as [[-> _]|(c0 & Hr & _)].
      * split; [lia|done].
      * assert (is_Some (cls !! r)) as Hs by eauto. apply I4 in Hs. split; [lia|]. naive_solver.
    + intros [Hl Hr]. destruct (decide (r = length ns)) as [->|Hn].
      * rewrite Hcls. rewrite decide_True by done. eauto.
      * assert (is_Some (cls !! r)) as [c Hcr] by (apply I4; split; [lia|done]).
        apply Hcl_old in Hcr as [_ Hcr]. eauto.
  - intros r c Hr. apply Hcl_new in Hr as [[-> ->]|(c0 & Hr & ->)]; [done|]. cbn. eauto.
  - intros r c p Hr. rewrite app_length. cbn.
    apply Hcl_new in Hr as [[-> ->]|(c0 & Hr & ->)]; cbn.
    + by intros ?%elem_of_nil.
    + rewrite elem_of_app. intros [Hp|Hp].
      * assert (p < length ns) by eauto. lia.
      * unfold new_parents in Hp. apply elem_of_list_fmap in Hp as (? & -> & _). lia.
  - intros p. rewrite app_length, elem_of_cons. cbn. intros [->|Hp]; [lia|].
    assert (p < length ns) by eauto. lia.
  - intros m i Hm. apply lookup_insert_Some in Hm as [[<- <-]|[_ Hm]].
    + exists n. split; [done|]. by apply canonf_canonf.
    + apply I8 in Hm as (m' & Hm' & Em). eauto.
  - intros k m c Hk Hcm. apply Hlk in Hk as [Hk|[-> ->]].
    + destruct (I9 k m c Hk Hcm) as (cl & q & Ecl & Hq & Hs).
      apply Hcl_old in Ecl as [_ Ecl]. eexists _, q. split; [exact Ecl|]. split.
      * cbn. apply elem_of_app. auto.
      * auto.
    + assert (is_Some (cls !! f c)) as [c0 Hc0].
      { apply I4. split; [apply I2; auto|apply I1]. }
      apply Hcl_old in Hc0 as [_ Hc0]. eexists _, (length ns). split; [exact Hc0|]. split.
      * cbn. apply elem_of_app. right. unfold new_parents. apply elem_of_list_fmap.
        exists (f c). split; [done|]. apply elem_of_list_filter. split; [apply I1|].
        apply elem_of_list_fmap. eauto.
      * by eapply sim_refl.
  - intros k m Hk. apply Hlk in Hk as [Hk|[-> ->]].
    + destruct (I10 k m Hk) as [(j & Hj & Ej)|[(q & Hq & Hs)|HXk]]; auto.
      * left. exists j. split; [|done]. rewrite lookup_insert_ne; [done|]. congruence.
      * right. left. exists q. split; [by apply elem_of_cons; right|auto].
    + left. exists (length ns). by rewrite lookup_insert.
  - intros i. rewrite app_length. cbn. intros Hi.
    destruct (decide (i = length ns)) as [->|Hn]; [rewrite Hnf; apply ct_refl|].
    eapply congT_mono; [| |apply I11; lia]; auto. intros. by apply ct_union.
  - auto.
  - intros r c m Hr Hm. apply Hcl_new in Hr as [[-> ->]|(c0 & Hr & ->)]; cbn in Hm.
    + apply elem_of_list_singleton in Hm as ->. exists (length ns), n.
      split_and!; auto. by apply canonf_canonf.
    + destruct (I13 r c0 m Hr Hm) as (k & m' & Hk & Ek & Em). eauto 10.
Qed.

(** Popping a pending id and (re-)inserting its node: afterwards, only nodes whose old
    hash-cons entry was displaced are excused. *)
Lemma cinv_pop_insert U f ns memo class rest (cls : gmap nat eclass) n :
  cinv U (fun _ => False) f ns memo (class :: rest) cls ->
  ns !! class = Some n ->
  cinv U (fun k => exists m j, ns !! k = Some m /\ canonf f m = canonf f n /\
            memo !! canonf f n = Some j /\ f k = f j)
       f ns (<[canonf f n := class]> memo) rest cls.
Proof.
  intros Hc Hn.
  pose proof Hc as [I1 I2 I3 I4 I5 I6 I7 I8 I9 I10 I11 I12 I13].
  split; auto.
  - intros p Hp. apply I7. by apply elem_of_cons; right.
  - intros m i Hm. apply lookup_insert_Some in Hm as [[<- <-]|[_ Hm]]; [|auto].
    exists n. split; [done|]. by apply canonf_canonf.
  - intros k m Hk. destruct (decide (canonf f m = canonf f n)) as [En|Hne].
    + destruct (I10 k m Hk) as [(j & Hj & Ej)|[(q & Hq & Hs)|[]]].
      * right. right. exists m, j. rewrite <- En. split_and!; auto.
      * apply elem_of_cons in Hq as [->|Hq]; [|eauto].
        left. exists class. rewrite En, lookup_insert. split; [done|]. apply Hs.
    + destruct (I10 k m Hk) as [(j & Hj & Ej)|[(q & Hq & Hs)|[]]].
      * left. exists j. by rewrite lookup_insert_ne.
      * apply elem_of_cons in Hq as [->|Hq]; [|eauto].
        exfalso. destruct Hs as (_ & n' & m' & Hn' & Hm' & En). congruence.
Qed.

End inv.
