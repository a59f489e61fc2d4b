(** [copy_without_unions]. *)
From Verif Require Import Base UnionFind EGraphModel EGraphSteps EGraphInv EGraphPres EGraphRuns Spec EGraphMain EGraphReach EGraphOps EGraphSafe
  EGraphNoPanic Terms RecExprModel RecExprProofs ExprModel PatSpec ExprProofs ExprSafe MachineModel MatchSpec RewriteModel RewriteProofs AlgSpec AlgProofs
  ExplainModel ExplainSpec ExplainMain ExplainModes UtilModel.

Section copy.
Context {Op D : Type} `{Countable Op} (L : lang Op) (A : analysis Op D) (Hh : hook_free A).
Notation egraph := (egraph Op D).
Notation node := (node Op).
Implicit Types (g : egraph) (t u : term Op).

Lemma hook_free_md_ok fuel i g : modify_n L A (S fuel) i g = Ok g.
Proof. cbn [modify_n]. by rewrite Hh. Qed.
Lemma add_total ex fuel n g : reachable L A ex g -> (forall c, c ∈ nch n -> known g c) ->
  exists g' i, api_add A (modify_n L A (S fuel)) n g = Ok (g', i).
Proof.
  intros R Hch. destruct (reachable_good _ _ _ _ R) as [I X].
  destruct (add_core_safe A n g I X) as (g1 & i & o & E & _).
  { apply Forall_forall. intros c Hc%Hch. by rewrite (iv_len _ I). }
  unfold api_add, add_uncanonical. rewrite E. cbn [mbind res_bind]. destruct o as [h|]; [|by eexists _, _].
  rewrite hook_free_md_ok. by eexists _, _.
Qed.
Lemma add_shape fuel n g g' i : reachable L A false g -> api_add A (modify_n L A fuel) n g = Ok (g', i) ->
  (forall k, eg_find g' k = eg_find g k) /\
  ((known g i /\ eg_nodes g' = eg_nodes g) \/ (i = length (eg_uf g) /\ eg_nodes g' = eg_nodes g ++ [n])).
Proof.
  intros R E. pose proof (reachable_Inv _ _ _ _ R) as I. pose proof (reach_explain _ _ _ _ R) as Hx. apply bool_decide_eq_false in Hx.
  unfold api_add in E. inv_res. destruct x as [g1 k]. inv_res.
  apply add_uncanonical_inv in H0 as (g4 & o & Ea & Hg). apply add_core_spec in Ea as [Hch Hsp]; [|apply I].
  destruct Hsp as [e' id He' Hid|e' x x1 x2 u He' Hx' Hxn Hxa Hxu Hu|u cls' ex' Hmn Hw Hl' Hf Hcls Hex].
  - destruct Hg as [[_ ->]|(h & g3 & [=] & _)]. split; [done|]. left. split; [|done].
    destruct Hid as [[_ ->]|(x & Hx' & _)]; [|by rewrite Hx' in Hx; destruct Hx].
    destruct (ci_memo _ _ _ _ _ _ _ (iv_c _ I) _ _ He') as (? & Hlt & _). unfold known. rewrite <- (iv_len _ I). by eapply lookup_lt_Some.
  - rewrite Hx' in Hx. by destruct Hx.
  - destruct Hg as [[[=] _]|(h & g3 & [= <-] & Hmd & ->)]. apply hook_free_md in Hmd as ->; [|done]. split; [exact Hf|]. by right.
Qed.

(** nothing merged yet *)
Definition discrete g : Prop := (forall k, eg_find g k = k) /\ forall a b r, EUnion a b r ∉ eg_log g.
Lemma canonf_id (f : nat -> nat) (n : node) : (forall k, f k = k) -> canonf f n = n.
Proof. intros Hf. destruct n as [o cs]. unfold canonf. cbn. f_equal. induction cs; cbn; congruence. Qed.
Lemma add_all_fresh fuel ns pre g : reachable_np L A false g -> discrete g -> eg_nodes g = pre -> dag (pre ++ ns) -> NoDup (pre ++ ns) ->
  exists g', add_all A (modify_n L A (S fuel)) ns g = Ok g' /\ reachable_np L A false g' /\ discrete g' /\ eg_nodes g' = pre ++ ns.
Proof.
  revert pre g. induction ns as [|n ns IH]; intros pre g R [Hf Hu] En Hd Hn; cbn [add_all].
  { exists g. rewrite app_nil_r. split_and!; done. }
  pose proof (reachable_np_reachable _ _ _ _ R) as Rr. pose proof (reachable_Inv _ _ _ _ Rr) as I.
  assert (Hk : forall c, c ∈ nch n -> known g c).
  { intros c Hc. unfold known. rewrite <- (iv_len _ I), En. apply (Hd (length pre) n c); [by apply list_lookup_middle|done]. }
  destruct (add_total false fuel n g Rr Hk) as (g1 & i & E). rewrite E. cbn [mbind res_bind].
  destruct R as [Rn R]. destruct (api_add_step L A no_prune false (S fuel) n g g1 i ltac:(done) R E) as (R1 & G & m & Hm & Em).
  destruct (add_shape _ _ _ _ _ Rr E) as [Hf1 Hs]. destruct (add_hook_free L A Hh false _ _ _ _ _ Rr E) as (El & _).
  assert (Hf' : forall k, eg_find g1 k = k) by (intros k; by rewrite Hf1).
  rewrite !(canonf_id _ _ Hf') in Em. subst m.
  destruct Hs as [[Hi En1]|[-> En1]].
  { exfalso. rewrite En1, En in Hm. apply NoDup_app in Hn as (_ & Hn & _). eapply Hn; [by eapply elem_of_list_lookup_2|]. left. }
  destruct (IH (pre ++ [n]) g1) as (g' & E' & R' & D' & N').
  - by split.
  - split; [done|]. intros a b r. rewrite El. intros [[=]|Hab]%elem_of_cons. by eapply Hu.
  - by rewrite En1, En.
  - by rewrite <- app_assoc.
  - by rewrite <- app_assoc.
  - exists g'. rewrite <- app_assoc in N'. split_and!; done.
Qed.

(** no two ids stand for the same term *)
Definition distinct_terms g : Prop := forall i j t, AddedAs (eg_log g) i t -> AddedAs (eg_log g) j t -> i = j.
Section source.
Context (A0 : analysis Op D).
Lemma distinct_nodup g : reachable L A0 true g -> distinct_terms g -> NoDup (eg_nodes g).
Proof.
  intros R Hd. apply NoDup_alt. intros i j [f cs] Hi Hj.
  destruct (known_added L A0 true g i R) as [t Ht].
  { apply (known_nodes L A0 true g i R). by eapply lookup_lt_Some. }
  apply (Hd i j t); [done|]. inversion Ht as [f' cs' ts ? Ha Hc]; subst. apply (reach_exact L A0) in Ha; [|done].
  rewrite Hi in Ha. injection Ha as <- <-. econstructor; [|done]. by apply (reach_exact L A0).
Qed.
Lemma nodup_distinct g : reachable L A0 true g -> NoDup (eg_nodes g) -> distinct_terms g.
Proof.
  intros R Hn i j t Hi. revert i t Hi j. apply (AddedAs_ind' _ (fun i t => forall j, AddedAs (eg_log g) j t -> i = j)).
  intros i f cs ts Ha Hc IH j Hj. inversion Hj as [f' ds ts' ? Hb Hd']; subst.
  apply (reach_exact L A0) in Ha; [|done]. apply (reach_exact L A0) in Hb; [|done].
  assert (cs = ds) as <-.
  { clear -IH Hd'. revert ds Hd'. induction IH as [|c t cs ts Hct _ IH]; intros ds Hd'; inversion Hd'; subst; [done|]. f_equal; auto. }
  by eapply NoDup_lookup.
Qed.
Lemma discrete_adds g n i : reachable L A false g -> discrete g -> EAdd n i ∈ eg_log g <-> eg_nodes g !! i = Some n.
Proof.
  intros R [Hf _]. destruct (reachable_hist _ _ _ _ R) as [Ht Hl]. split; [|apply Ht].
  intros (m & Hm & Em)%Hl. rewrite !(canonf_id _ _ Hf) in Em. by subst.
Qed.
Lemma discrete_rep g t c : reachable_np L A false g -> discrete g -> Rep g t c <-> AddedAs (eg_log g) c t.
Proof.
  intros R Dg. pose proof (reachable_np_reachable _ _ _ _ R) as Rr. pose proof Dg as [Hf _]. split.
  - revert c. induction t as [f ts IH] using term_sind. intros c Hr. inversion Hr as [? ? cs ? k Hk Hn Hc]; subst.
    destruct (reach_contents_sound L A false g c k _ Rr Hk Hn) as (ds & i & Hi & Hs & Hci). rewrite !Hf in Hci.
    assert (cs = ds) as <-.
    { clear -Hs Hf. cbn in Hs. induction Hs as [|x y xs ys E _ IH]; [done|]. rewrite !Hf in E. congruence. }
    cbn in Hi. subst c. econstructor; [done|]. clear -IH Hc Hf. apply Forall2_flip.
    induction Hc as [|t x ts cs Hx _ IHc]; [constructor|]. apply Forall_cons in IH as [IH1 IH2]. rewrite Hf in Hx. constructor; [by apply IH1|by apply IHc].
  - intros Ha. rewrite <- (Hf c). by apply (added_rep L A false).
Qed.
Lemma copy_ok fuel g : reachable L A0 true g -> distinct_terms g ->
  exists g', copy_without_unions A (modify_n L A (S fuel)) g = Ok g' /\ reachable_np L A false g' /\ (forall i, eg_find g' i = i) /\ (forall i, known g' i <-> known g i) /\
    (forall i t, AddedAs (eg_log g') i t <-> AddedAs (eg_log g) i t) /\ (forall t c, Rep g' t c <-> AddedAs (eg_log g) c t).
Proof.
  intros R Hd. unfold copy_without_unions. pose proof (reach_explain _ _ _ _ R) as Hx. apply bool_decide_eq_true in Hx as [x ->].
  destruct (add_all_fresh fuel (eg_nodes g) [] (eg_new false)) as (g' & E & R' & D' & N').
  - split; [|apply reach_new]. intros i. by rewrite Hh.
  - split; [|intros a b r Hab; by apply elem_of_nil in Hab]. intros k. apply uf_find_oob. cbn. lia.
  - done.
  - by apply (reach_dag L A0 true).
  - by apply distinct_nodup.
  - pose proof (reachable_np_reachable _ _ _ _ R') as Rr. cbn [app] in N'.
    assert (Ha : forall i t, AddedAs (eg_log g') i t <-> AddedAs (eg_log g) i t).
    { assert (He : forall n i, EAdd n i ∈ eg_log g' <-> EAdd n i ∈ eg_log g).
      { intros n i. by rewrite (discrete_adds g' n i Rr D'), (reach_exact L A0 g n i R), N'. }
      intros i t. split; revert i t; apply AddedAs_ind'; intros i f cs ts Hi _ Hc; econstructor; try done; by apply He. }
    exists g'. split_and!; [done|done|apply D'| |done|].
    + intros i. by rewrite (known_nodes L A false g' i Rr), (known_nodes L A0 true g i R), N'.
    + intros t c. by rewrite (discrete_rep g' t c R' D'), Ha.
Qed.
End source.
End copy.
