(** Settled e-graphs are closed under rewriting. *)
From Verif Require Import Base UnionFind EGraphModel EGraphSteps EGraphInv EGraphPres Spec EGraphReach EGraphSafe EGraphNoPanic Terms RecExprModel RecExprProofs
  ExprModel PatSpec ExprProofs MachineModel MatchSpec RewriteModel AlgSpec RuleSpec RunnerModel RunnerSpec QueryProofs FromNodes OptimumSpec.

Section opt.
Context {Op D : Type} `{Countable Op} (L : lang Op) (A : analysis Op D).
Notation egraph := (egraph Op D).
Notation rewrite := (rewrite Op D).
Context (Lo : lang_ok L) (ex : bool) (g : egraph) (R : reachable_np L A ex g) (Ec : eg_clean g = true).

Lemma pick_classes th (l : term (pop Op)) : forall c, Rep g (tsubst th l) c ->
  exists m : gmap nat nat, (forall v i, m !! v = Some i -> Rep g (th v) i) /\ (forall v, occurs v l -> is_Some (m !! v)).
Proof.
  induction l as [[f|v] ts IH] using term_sind; intros c Hr; cbn in Hr.
  - inversion Hr as [? ? cs ? cl _ _ Hcs]; subst.
    assert (Hm : exists m : gmap nat nat, (forall v i, m !! v = Some i -> Rep g (th v) i) /\ (forall t v, t ∈ ts -> occurs v t -> is_Some (m !! v))).
    { clear Hr. revert cs Hcs. induction IH as [|t ts Ht _ IHts]; intros cs Hcs.
      - exists ∅. split; [intros v i Hv; by rewrite lookup_empty in Hv|]. intros t v Ht. by apply elem_of_nil in Ht.
      - cbn in Hcs. inversion Hcs as [|? x ? xs Hx Hxs]; subst. destruct (Ht _ Hx) as (m1 & S1 & C1). destruct (IHts _ Hxs) as (m2 & S2 & C2).
        exists (m1 ∪ m2). split.
        + intros v i Hv. apply lookup_union_Some_raw in Hv as [Hv|[_ Hv]]; eauto.
        + intros u v Hu Ho. apply elem_of_cons in Hu as [->|Hu].
          * destruct (C1 v Ho) as [i Hi]. exists i. apply lookup_union_Some_raw. by left.
          * destruct (m1 !! v) as [i|] eqn:E1; [exists i; apply lookup_union_Some_raw; by left|].
            destruct (C2 u v Hu Ho) as [i Hi]. exists i. apply lookup_union_Some_raw. by right. }
    destruct Hm as (m & S & C). exists m. split; [exact S|]. intros v Ho. inversion Ho; subst. eauto.
  - exists {[v := c]}. split.
    + intros u i Hu. apply lookup_singleton_Some in Hu as [-> ->]. done.
    + intros u Ho. inversion Ho; subst. rewrite lookup_singleton. eauto.
Qed.
Lemma tsubst_PRep th sg (l : term (pop Op)) :
  (forall v, occurs v l -> exists i, sg v = Some i /\ Rep g (th v) i) -> forall c, Rep g (tsubst th l) c -> PRep g sg l c.
Proof using R Ec Lo.
  induction l as [[f|v] ts IH] using term_sind; intros Hsg c Hr; cbn in Hr.
  - inversion Hr as [? ? cs ? cl Hcl Hn Hcs]; subst. econstructor; [exact Hcl|exact Hn|].
    assert (Hsg' : forall t, t ∈ ts -> forall v, occurs v t -> exists i, sg v = Some i /\ Rep g (th v) i).
    { intros t Ht v Ho. apply Hsg. by econstructor. }
    clear -IH Hcs Hsg'. revert cs Hcs Hsg'. induction IH as [|t ts Ht _ IHts]; intros cs Hcs Hsg'; cbn in Hcs; inversion Hcs; subst; constructor.
    + apply Ht; [|done]. apply Hsg'. left.
    + apply IHts; [done|]. intros u Hu. apply Hsg'. by right.
  - destruct (Hsg v) as (i & Hi & Hri); [constructor|]. rewrite (Rep_fun_clean L A ex g (th v) c i R Ec Hr Hri).
    rewrite <- (proj2 (Rep_canon L A Lo ex g R Ec (th v) i Hri)). by constructor.
Qed.

(** A settled applier whose conditions hold. *)
Lemma settled_guarded sg c a conds r : guarded a conds r -> settled_for g sg c a ->
  (forall t1 t2 x1 x2, (t1, t2) ∈ conds -> PRep g sg t1 x1 -> PRep g sg t2 x2 -> x1 = x2) -> PRep g sg r c.
Proof.
  induction 1 as [p r Hr|p1 p2 t1 t2 a conds r H1 H2 Ha IH]; intros Hs Hc; cbn in Hs.
  - by apply Hs.
  - destruct Hs as [Hex Hs]. apply IH.
    + apply Hs. destruct (Hex t1) as [x1 Hx1]; [by left|]. destruct (Hex t2) as [x2 Hx2]; [by right|].
      pose proof (Hc t1 t2 x1 x2 ltac:(left) Hx1 Hx2) as ->. exists x2. intros t [Ht|Ht].
      * by rewrite (TreeOf_fun _ _ _ _ (proj2 Ht) (proj2 H1)).
      * by rewrite (TreeOf_fun _ _ _ _ (proj2 Ht) (proj2 H2)).
    + intros u1 u2 x1 x2 Hin. apply Hc. by right.
Qed.

Theorem settled_closed (rules : list rewrite) : all_settled rules g -> forall t u, rewrites rules t u -> forall c, Rep g t c -> Rep g u c.
Proof using R Ec Lo.
  intros Hset. induction 1 as [t|t u v _ IH1 _ IH2|f ts us Hl _ IH|rw p l conds r th w Hrw Hp Hl Hg _ IH1 _ IH2]; intros c Hr.
  - done.
  - auto.
  - inversion Hr as [? ? cs ? cl Hcl Hn Hcs]; subst. econstructor; [exact Hcl|exact Hn|].
    apply Forall2_same_length_lookup in Hcs as [Hlen Hcs]. apply Forall2_same_length_lookup. split; [congruence|].
    intros k u x Hu Hx. destruct (lookup_lt_is_Some_2 ts k) as [t Ht]; [rewrite Hl; by eapply lookup_lt_Some|].
    exact (IH k t u Ht Hu _ (Hcs k t x Ht Hx)).
  - destruct (pick_classes th l c Hr) as (m & Sm & Cm). set (sg := fun v => m !! v).
    assert (Hsg : forall v i, sg v = Some i -> known g i).
    { intros v i Hv. exact (proj1 (Rep_canon L A Lo ex g R Ec _ _ (Sm v i Hv))). }
    assert (Hm : matched g (rw_searcher rw) sg c).
    { rewrite Hp. cbn. intros t Ht. rewrite (TreeOf_fun _ _ _ _ (proj2 Ht) (proj2 Hl)). apply (tsubst_PRep th); [|done].
      intros v Ho. destruct (Cm v Ho) as [i Hi]. exists i. split; [exact Hi|by apply Sm]. }
    assert (Hback : forall t x, PRep g sg t x -> Rep g (tsubst th t) x).
    { intros t x. apply PRep_tsubst. intros v i Hv _. pose proof (Sm v i Hv) as Hri.
      rewrite (proj2 (Rep_canon L A Lo ex g R Ec _ _ Hri)). exact Hri. }
    apply Hback. apply (settled_guarded sg c (rw_applier rw) conds r Hg); [exact (Hset rw sg c Hrw Hsg Hm)|].
    intros t1 t2 x1 x2 Hin P1 P2. apply elem_of_list_lookup in Hin as [k Hk].
    exact (Rep_fun_clean L A ex g (w k) x1 x2 R Ec (IH1 k t1 t2 Hk x1 (Hback t1 x1 P1)) (IH2 k t1 t2 Hk x2 (Hback t2 x2 P2))).
Qed.
End opt.

Lemma both_reversible {Op D} `{Countable Op} (rules : list (rewrite Op D)) :
  (forall rw p q, rw ∈ rules -> rw_searcher rw = SPattern p -> rw_applier rw = APattern q ->
    exists rw' p', rw' ∈ rules /\ rw_searcher rw' = SPattern p' /\ pt_ast p' = q /\ rw_applier rw' = APattern (pt_ast p)) ->
  reversible rules.
Proof.
  intros Hb rw p q l r th Hin Hp Hq Hl Hr. destruct (Hb rw p q Hin Hp Hq) as (rw' & p' & Hin' & Hp' & <- & Hq').
  apply (rewrites_rule rules rw' p' r [] l th (fun _ => tsubst th l) Hin' Hp' Hr); [rewrite Hq'; by constructor|by intros k ? ? Hk..].
Qed.
