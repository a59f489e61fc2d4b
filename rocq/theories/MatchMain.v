(** E-matching on reachable e-graphs. *)
From Verif Require Import Base UnionFind EGraphModel EGraphSteps EGraphInv EGraphPres EGraphRuns Spec EGraphMain
  EGraphReach Terms RecExprModel RecExprProofs ExprModel PatSpec ExprProofs MachineModel MatchSpec MatchProofs MachineProofs CompileProofs
  CompileMain SearchProofs SearchMain MultiProofs.

Section main.
Context {Op D : Type} `{Countable Op}.
Notation node := (node Op).
Notation pnode := (EGraphModel.node (pop Op)).
Notation egraph := (egraph Op D).
Context (L : lang Op) (A : analysis Op D) (Lo : lang_ok L) (it : gset nat -> list nat) (Hit : enumerates it)
  (ord : gmap (nat * nat) node -> list (nat * nat)) (Hord : enumerates_keys ord) (ex : bool) (g : egraph).
Context (R : reachable_np L A ex g) (Ec : eg_clean g = true).

Lemma reach_settled : settled L g.
Proof.
  pose proof (reachable_np_reachable _ _ _ _ R) as R'. split.
  - by eapply reachable_Inv.
  - by eapply reachable_clean.
  - by eapply reach_listed.
  - by eapply reach_canonical.
Qed.

Context (fuel : nat) (ast : list pnode) (Ha : good_ast ast).
Section one.
Context (p : pattern) (E : pattern_new ord fuel ast = Ok p) (t : term (pop Op)) (Ht : ExprTree (pt_ast p) t) (cycles : bool).

Lemma match_sound c k m : known g c -> search_eclass_with_limit L it cycles p g c k = Ok (Some m) ->
  sm_class m = c /\ forall s, s ∈ sm_substs m ->
    (forall v, is_Some (subst_get s v) <-> occurs v t) /\ PRep g (subst_get s) t (eg_find g c).
Proof.
  intros Hc Es. destruct Ha as (Hd & Hok & Hne). pose proof reach_settled as G.
  destruct (pattern_class ord Hord L Lo it Hit g G cycles fuel ast p t c Ec Hd Hok Hne E Ht Hc) as (all & Hk & _ & _ & Hs & _).
  rewrite Hk in Es. injection Es as Es. destruct (take k all) as [|s0 ss] eqn:Et; [done|]. injection Es as <-. split; [done|].
  intros s Hin. cbn [sm_substs] in Hin. rewrite <- Et in Hin. assert (Hin' : s ∈ all) by (rewrite <- (take_drop k all); apply elem_of_app; by left).
  destruct (Hs s Hin') as (_ & ? & _ & ?). done.
Qed.
Lemma match_sound_ground c k m s th : known g c -> search_eclass_with_limit L it cycles p g c k = Ok (Some m) -> s ∈ sm_substs m ->
  (forall v i, subst_get s v = Some i -> Rep g (th v) (eg_find g i)) -> Rep g (tsubst th t) (eg_find g c).
Proof.
  intros Hc Es Hs Hth. destruct (match_sound c k m Hc Es) as [_ Hm]. destruct (Hm s Hs) as [_ Hp].
  eapply PRep_tsubst; [|exact Hp]. eauto.
Qed.
Lemma search_sound k ms m s : search_with_limit L it cycles p g k = Ok ms -> m ∈ ms -> s ∈ sm_substs m ->
  known g (sm_class m) /\ eg_find g (sm_class m) = sm_class m /\
  (forall v, is_Some (subst_get s v) <-> occurs v t) /\ (forall v i, subst_get s v = Some i -> known g i /\ eg_find g i = i) /\
  PRep g (subst_get s) t (sm_class m).
Proof.
  intros Es Hm Hs. destruct Ha as (Hd & Hok & Hne). pose proof reach_settled as G.
  destruct (pattern_search ord Hord L Lo it Hit g G cycles fuel ast p t Ec (reach_indexed L A ex g R Ec) Hd Hok Hne E Ht) as (all & Hk & _ & Hsound & _).
  destruct (Hk k) as (ms' & E' & Hp & _). rewrite Es in E'. injection E' as <-.
  assert (Hin : (sm_class m, s) ∈ all).
  { rewrite <- (take_drop k all). apply elem_of_app. left. rewrite <- Hp. apply elem_of_concat.
    exists ((fun s => (sm_class m, s)) <$> sm_substs m). split; apply elem_of_list_fmap; eauto. }
  destruct (Hsound _ _ Hin) as ([? ?] & _ & ? & ? & ?). split_and!; auto.
Qed.
Lemma match_complete c : cycles = true -> known g c ->
  exists N, forall k sg, N <= k -> (forall v i, sg v = Some i -> known g i) -> PRep g sg t (eg_find g c) ->
  exists m s, search_eclass_with_limit L it cycles p g c k = Ok (Some m) /\ s ∈ sm_substs m /\
    forall v, occurs v t -> eg_find g <$> subst_get s v = eg_find g <$> sg v.
Proof.
  intros Hcy Hc. destruct Ha as (Hd & Hok & Hne). pose proof reach_settled as G.
  destruct (pattern_class ord Hord L Lo it Hit g G cycles fuel ast p t c Ec Hd Hok Hne E Ht Hc) as (all & Hk & _ & _ & _ & Hcomp).
  exists (length all). intros k sg Hl Hsg Hp. destruct (Hcomp Hcy sg Hsg Hp) as (s & Hs & Heq).
  rewrite Hk, take_ge by done. destruct all as [|s0 all]; [by apply elem_of_nil in Hs|]. cbn [wrap]. by exists (SMatch c (s0 :: all)), s.
Qed.
Lemma search_complete : cycles = true ->
  exists N, forall k, N <= k -> exists ms, search_with_limit L it cycles p g k = Ok ms /\
    forall sg x, (forall v i, sg v = Some i -> known g i) -> PRep g sg t x ->
      exists m s, m ∈ ms /\ sm_class m = x /\ s ∈ sm_substs m /\ forall v, occurs v t -> subst_get s v = eg_find g <$> sg v.
Proof.
  intros Hcy. destruct Ha as (Hd & Hok & Hne). pose proof reach_settled as G.
  destruct (pattern_search ord Hord L Lo it Hit g G cycles fuel ast p t Ec (reach_indexed L A ex g R Ec) Hd Hok Hne E Ht) as (all & Hk & _ & _ & Hcomp).
  exists (length all). intros k Hl. destruct (Hk k) as (ms & E' & Hp & _). exists ms. split; [done|]. intros sg x Hsg Hx.
  destruct (Hcomp Hcy sg x Hsg Hx) as (s & Hs & Heq). rewrite take_ge in Hp by done. rewrite <- Hp in Hs.
  apply elem_of_concat in Hs as (l & Hl' & (m & -> & Hm)%elem_of_list_fmap). apply elem_of_list_fmap in Hl' as (s' & [= -> ->] & Hs').
  by exists m, s'.
Qed.
Lemma match_nodup c k m : known g c -> search_eclass_with_limit L it cycles p g c k = Ok (Some m) ->
  NoDup (sm_substs m) /\ forall s1 s2, s1 ∈ sm_substs m -> s2 ∈ sm_substs m -> same_sub g s1 s2 -> s1 = s2.
Proof.
  intros Hc Es. destruct Ha as (Hd & Hok & Hne). pose proof reach_settled as G.
  destruct (pattern_class ord Hord L Lo it Hit g G cycles fuel ast p t c Ec Hd Hok Hne E Ht Hc) as (all & Hk & Hnd & Hsame & _).
  rewrite Hk in Es. injection Es as Es. destruct (take k all) as [|s0 ss] eqn:Et; [done|]. injection Es as <-. cbn [sm_substs]. rewrite <- Et.
  assert (Hsub : forall s, s ∈ take k all -> s ∈ all) by (intros s Hs; rewrite <- (take_drop k all); apply elem_of_app; by left).
  split; [|eauto]. rewrite <- (take_drop k all) in Hnd. by apply NoDup_app in Hnd as (? & _).
Qed.
Lemma search_nodup k ms : search_with_limit L it cycles p g k = Ok ms -> NoDup (sm_class <$> ms) /\ NoDup (pairs ms).
Proof.
  intros Es. destruct Ha as (Hd & Hok & Hne). pose proof reach_settled as G.
  destruct (pattern_search ord Hord L Lo it Hit g G cycles fuel ast p t Ec (reach_indexed L A ex g R Ec) Hd Hok Hne E Ht) as (all & Hk & Hnd & _).
  destruct (Hk k) as (ms' & E' & Hp & Hc & _). rewrite Es in E'. injection E' as <-. split; [done|]. rewrite Hp.
  rewrite <- (take_drop k all) in Hnd. by apply NoDup_app in Hnd as (? & _).
Qed.
Lemma match_limit c : known g c ->
  exists all, forall k, search_eclass_with_limit L it cycles p g c k = Ok (wrap c (take k all)).
Proof.
  intros Hc. destruct Ha as (Hd & Hok & Hne). pose proof reach_settled as G.
  destruct (pattern_class ord Hord L Lo it Hit g G cycles fuel ast p t c Ec Hd Hok Hne E Ht Hc) as (all & Hk & _). eauto.
Qed.
Lemma search_limit :
  exists all, forall k, exists ms, search_with_limit L it cycles p g k = Ok ms /\ pairs ms = take k all /\ Forall (fun m => sm_substs m <> []) ms.
Proof.
  destruct Ha as (Hd & Hok & Hne). pose proof reach_settled as G.
  destruct (pattern_search ord Hord L Lo it Hit g G cycles fuel ast p t Ec (reach_indexed L A ex g R Ec) Hd Hok Hne E Ht) as (all & Hk & _).
  exists all. intros k. destruct (Hk k) as (ms & ? & ? & _ & ?). eauto.
Qed.
End one.
End main.

Section make.
Context {Op : Type} `{Countable Op}.
Notation pnode := (EGraphModel.node (pop Op)).
Lemma pattern_made (ord : gmap (nat * nat) (node Op) -> list (nat * nat)) (ast : list pnode) : enumerates_keys ord -> good_ast ast ->
  (exists N p, forall fuel, N <= fuel -> pattern_new ord fuel ast = Ok p) /\
  forall fuel p, pattern_new ord fuel ast = Ok p ->
    (exists t, ExprTree (pt_ast p) t) /\ (rooted ast -> forall t, ExprTree ast t -> ExprTree (pt_ast p) t).
Proof.
  intros Hord (Hd & Hok & Hne). split; [by apply pattern_new_total|]. intros fuel p E.
  destruct (pattern_new_ast ord fuel ast p Hd Hok Hne E) as (Hd' & _ & Hne' & _ & Hr). split; [|done]. by apply dag_ExprTree.
Qed.
End make.
