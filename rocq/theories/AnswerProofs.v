(** Applying rules made of patterns: the answered ids count the unions that merged two
    classes. *)
From Verif Require Import Base UnionFind EGraphModel EGraphSteps EGraphInv EGraphPres EGraphRuns Spec EGraphMain EGraphReach EGraphOps
  Terms RecExprModel ExprModel PatSpec ExprProofs MachineModel MatchSpec RewriteModel RewriteProofs RuleSpec RunnerModel.

Section answers.
Context {Op D : Type} `{Countable Op} (L : lang Op) (A : analysis Op D) (Hh : hook_free A) (ex : bool) (fuel here : nat).
Notation egraph := (egraph Op D).
Notation pnode := (EGraphModel.node (pop Op)).
Notation md := (modify_n L A fuel).
Notation reach := (reachable L A ex).
Implicit Types (g : egraph).

(** [k] merges happened; every new e-node made one class (and one id, without explanations) *)
Definition merges (k : nat) g g' : Prop :=
  reach g' /\ number_of_classes g' + k + total_size g = number_of_classes g + total_size g' /\
  (ex = false -> length (eg_uf g') + total_size g = length (eg_uf g) + total_size g').
Lemma merges_refl g : reach g -> merges 0 g g.
Proof. intros R. split; [done|]. split; [lia|done]. Qed.
Lemma merges_trans j k g1 g2 g3 : merges j g1 g2 -> merges k g2 g3 -> merges (j + k) g1 g3.
Proof. intros (R1 & E1 & F1) (R2 & E2 & F2). split; [done|]. split; [lia|]. intros He. specialize (F1 He). specialize (F2 He). lia. Qed.

Lemma add_merges n g g' i : reach g -> api_add A md n g = Ok (g', i) -> merges 0 g g'.
Proof.
  intros R E. pose proof (reachable_Inv _ _ _ _ R) as I.
  destruct (api_add_step L A (fun _ => True) ex fuel n g g' i ltac:(done) R E) as (R' & _). split; [done|]. clear R'.
  unfold api_add in E. apply bind_Ok in E as ([g1 k] & E1 & [= <- _]).
  apply add_uncanonical_inv in E1 as (g4 & o & Ea & Hg). apply add_core_spec in Ea as [_ Hsp]; [|apply I].
  destruct Hsp as [e' id He' Hid|e' x x1 x2 u He' Hx Hxn Hxa Hxu Hu|u cls' ex' Hmn Hw Hl' Hf Hcls Hex].
  - destruct Hg as [[_ ->]|(h & g3 & [=] & _)]. unfold number_of_classes, total_size. cbn. split; [lia|done].
  - destruct Hg as [[_ ->]|(h & g3 & [=] & _)]. split; [unfold number_of_classes, total_size; cbn; lia|].
    intros He. pose proof (reach_explain _ _ _ _ R) as Hx'. rewrite He in Hx'. apply bool_decide_eq_false in Hx'. rewrite Hx in Hx'.
    destruct Hx'. by eexists.
  - destruct Hg as [[[=] _]|(h & g3 & [= <-] & Hmd & ->)]. apply hook_free_md in Hmd as ->; [|done].
    split; [|intros _; unfold total_size; cbn; rewrite map_size_insert_None by done; rewrite Hl'; lia].
    unfold number_of_classes, total_size. cbn. rewrite map_size_insert_None by done.
    assert (Hn : eg_classes g !! length (eg_uf g) = None).
    { destruct (eg_classes g !! length (eg_uf g)) eqn:Ec; [|done]. destruct (ci_cls _ _ _ _ _ _ _ (iv_c _ I) (length (eg_uf g))) as [K _].
      destruct K as [K _]; [by eexists|]. rewrite (iv_len _ I) in K. lia. }
    assert (base.size cls' = S (base.size (eg_classes g))) as ->; [|lia].
    rewrite <- (size_dom (D := gset nat) cls'), <- (size_dom (D := gset nat) (eg_classes g)).
    assert (dom cls' = {[length (eg_uf g)]} ∪ dom (eg_classes g)) as ->.
    { apply set_eq. intros r. rewrite elem_of_union, elem_of_singleton, !elem_of_dom, Hcls. destruct (decide (r = length (eg_uf g))) as [->|Hr].
      - split; [by left|]. intros _. by eexists.
      - rewrite fmap_is_Some. tauto. }
    rewrite size_union; [by rewrite size_singleton|]. intros r ->%elem_of_singleton Hr. apply elem_of_dom in Hr. rewrite Hn in Hr. by destruct Hr.
Qed.
Lemma core_merges a b rule g g' o : uf_wf (eg_uf g) -> perform_union_core A a b rule g = Ok (g', o) ->
  number_of_classes g' + (if o then 1 else 0) = number_of_classes g /\ total_size g' = total_size g /\ length (eg_uf g') = length (eg_uf g).
Proof.
  intros Hw E. apply perform_union_core_spec in E as (_ & _ & Hs); [|done].
  destruct Hs as [u ex' Ef (_ & He & _) Hx|id1 id2 k1 k2 d did1 did2 u ex' Hids Hne H1 H2 _ _ _ _ _ Hlu _ _]; unfold number_of_classes, total_size; cbn; [split; [lia|done]|].
  split; [|done]. rewrite map_size_insert_Some by (rewrite lookup_delete_ne by done; by eexists).
  rewrite map_size_delete_Some by (by eexists).
  assert (base.size (eg_classes g) <> 0); [|lia]. intros Ez%map_size_empty_iff. rewrite Ez, lookup_empty in H1. done.
Qed.
Lemma union_merges a b r g g' (v : bool) : reach g -> api_union A md a b r g = Ok (g', v) -> merges (if v then 1 else 0) g g'.
Proof.
  intros R E. destruct (union_step L A (fun _ => True) ex fuel a b r g g' v) as (R' & _); [done|done|done|]. split; [done|]. clear R'.
  pose proof (reachable_Inv _ _ _ _ R) as I. apply api_union_inv in E as (rule & g1 & o & _ & E1 & E2 & ->).
  apply hook_free_run_hook in E2 as ->; [|done]. apply core_merges in E1 as (E1 & E2 & E3); [|apply I].
  change (number_of_classes (add_log (EUnion a b r) g)) with (number_of_classes g) in E1. change (total_size (add_log (EUnion a b r) g)) with (total_size g) in E2.
  change (length (eg_uf (add_log (EUnion a b r) g))) with (length (eg_uf g)) in E3. split; [destruct o; cbn in *; lia|]. intros _. lia.
Qed.
Lemma trusted_merges a b r g g' (v : bool) : reach g -> api_union_trusted A md a b r g = Ok (g', v) -> merges (if v then 1 else 0) g g'.
Proof.
  intros R E. destruct (trusted_step L A (fun _ => True) ex fuel a b r g g' v) as (R' & _); [done|done|done|]. split; [done|]. clear R'.
  pose proof (reachable_Inv _ _ _ _ R) as I. unfold api_union_trusted, union_trusted, perform_union in E.
  apply bind_Ok in E as ([g1 o] & E1 & E). apply bind_Ok in E as (g2 & E2 & [= <- <-]).
  apply hook_free_run_hook in E2 as ->; [|done]. apply core_merges in E1 as (E1 & E2 & E3); [|apply I].
  change (number_of_classes (add_log (EUnion a b r) g)) with (number_of_classes g) in E1. change (total_size (add_log (EUnion a b r) g)) with (total_size g) in E2.
  change (length (eg_uf (add_log (EUnion a b r) g))) with (length (eg_uf g)) in E3. split; [destruct o; cbn in *; lia|]. intros _. lia.
Qed.
Lemma apply_pat_merges (p : list pnode) s g g' i : reach g -> apply_pat A md p s g = Ok (g', i) -> merges 0 g g'.
Proof.
  intros R E. unfold apply_pat in E. apply bind_Ok in E as ([g1 ids] & E1 & E). apply bind_Ok in E as (? & _ & [= <- _]).
  revert E1. generalize (@nil nat). revert g R. induction p as [|n p IH]; intros g R ids0 E; cbn [apply_pat_loop] in E; [injection E as <- _; by apply merges_refl|].
  destruct (nop n).
  - apply bind_Ok in E as (m & _ & E). apply bind_Ok in E as ([h k] & E1 & E). apply add_merges in E1; [|done].
    eapply (merges_trans 0 0); [exact E1|]. eapply IH; [apply E1|exact E].
  - apply bind_Ok in E as (k & _ & E). by eapply IH.
Qed.
Lemma inst_merges (p : list pnode) s g g' i : reach g -> add_instantiation_noncanonical A md p s g = Ok (g', i) -> merges 0 g g'.
Proof.
  intros R E. unfold add_instantiation_noncanonical in E. apply bind_Ok in E as ([g1 ids] & E1 & E). apply bind_Ok in E as (? & _ & [= <- _]).
  revert E1. generalize (@nil nat). revert g R. induction p as [|n p IH]; intros g R ids0 E; cbn [add_inst_loop] in E; [injection E as <- _; by apply merges_refl|].
  destruct (nop n).
  - apply bind_Ok in E as (m & _ & E). apply bind_Ok in E as ([h k] & E1 & E). apply add_merges in E1; [|done].
    eapply (merges_trans 0 0); [exact E1|]. eapply IH; [apply E1|exact E].
  - apply bind_Ok in E as (k & _ & E). apply bind_Ok in E as (k' & _ & E). by eapply IH.
Qed.
Lemma union_inst_merges (p1 p2 : list pnode) s r g g' i (v : bool) : reach g -> union_instantiations A md p1 p2 s r g = Ok (g', (i, v)) ->
  merges (if v then 1 else 0) g g'.
Proof.
  intros R E. unfold union_instantiations in E. apply bind_Ok in E as ([g1 i1] & E1 & E). apply bind_Ok in E as ([g2 i2] & E2 & E).
  apply bind_Ok in E as ([g3 did] & E3 & [= <- _ <-]). apply inst_merges in E1; [|done]. apply inst_merges in E2; [|apply E1].
  apply trusted_merges in E3; [|apply E2]. exact (merges_trans 0 _ _ _ _ E1 (merges_trans 0 _ _ _ _ E2 E3)).
Qed.
Lemma check_merges c e s g g' b : (exists a, pattern_applier (D := D) (ACond c a)) -> reach g ->
  check L A fuel c e s g = Ok (g', b) -> merges 0 g g'.
Proof.
  intros Hc R E. destruct c as [p1 p2|vars body test]; cbn [check] in E.
  - apply bind_Ok in E as ([g1 a1] & E1 & E). apply bind_Ok in E as ([g2 a2] & E2 & [= <- _]). apply apply_pat_merges in E1; [|done].
    apply apply_pat_merges in E2; [|apply E1]. exact (merges_trans 0 0 _ _ _ E1 E2).
  - assert (Hb : forall e s, body e s = PRet) by (destruct Hc as (a & Hc & _); exact Hc).
    rewrite Hb in E. cbn [run_prog mbind res_bind] in E. injection E as <- _. by apply merges_refl.
Qed.
Lemma apply_one_merges sast a rule c s g g' l : pattern_applier a -> reach g -> apply_one L A fuel here a c s sast rule g = Ok (g', l) ->
  merges (length l) g g'.
Proof.
  revert g. induction a as [p|asts|cnd a IH|vars body ret]; intros g Ha R E; cbn [apply_one] in E; [|done| |done].
  - unfold pattern_apply_one in E. apply bind_Ok in E as ([g1 i] & E1 & E). apply apply_pat_merges in E1; [|done]. destruct sast as [ast|].
    + apply bind_Ok in E as ([g2 [from did]] & E2 & [= <- <-]). apply union_inst_merges in E2; [|apply E1].
      pose proof (merges_trans 0 _ _ _ _ E1 E2) as K. by destruct did.
    + apply bind_Ok in E as ([g2 did] & E2 & [= <- <-]). apply union_merges in E2; [|apply E1].
      pose proof (merges_trans 0 _ _ _ _ E1 E2) as K. by destruct did.
  - apply bind_Ok in E as ([g1 b] & E1 & E). apply check_merges in E1; [|by exists a|done].
    destruct b; [|injection E as <- <-; exact E1]. eapply (merges_trans 0); [exact E1|]. eapply IH; [|apply E1|exact E].
    destruct cnd; apply Ha.
Qed.
Lemma pattern_apply_merges p sast rule c s g g' l : reach g -> pattern_apply L A fuel here p sast rule c s g = Ok (g', l) -> merges (length l) g g'.
Proof.
  intros R E. unfold pattern_apply in E. destruct (explaining g).
  - apply bind_Ok in E as (ast & _ & E). apply bind_Ok in E as ([g1 [i did]] & E1 & [= <- <-]). apply union_inst_merges in E1; [|done]. by destruct did.
  - apply bind_Ok in E as ([g1 i] & E1 & E). apply bind_Ok in E as ([g2 did] & E2 & [= <- <-]). apply apply_pat_merges in E1; [|done].
    apply union_merges in E2; [|apply E1]. pose proof (merges_trans 0 _ _ _ _ E1 E2) as K. by destruct did.
Qed.
Lemma each_merges {X} (f : X -> egraph -> res (egraph * list nat)) xs g g' l :
  (forall x h h' k, reach h -> f x h = Ok (h', k) -> merges (length k) h h') -> reach g -> each f xs g = Ok (g', l) -> merges (length l) g g'.
Proof.
  intros Hf. revert g l. induction xs as [|x xs IH]; intros g l R E; cbn [each] in E; [injection E as <- <-; by apply merges_refl|].
  apply bind_Ok in E as ([g1 l1] & E1 & E). apply bind_Ok in E as ([g2 l2] & E2 & [= <- <-]). rewrite app_length. apply Hf in E1; [|done].
  eapply merges_trans; [exact E1|]. eapply IH; [apply E1|exact E2].
Qed.
Lemma apply_merging a sast rule ms g g' l : pattern_applier a -> reach g -> apply_matches L A fuel here a sast rule ms g = Ok (g', l) ->
  merges (length l) g g'.
Proof.
  intros Ha R E.
  destruct a as [p|asts|cnd a|vars body ret]; [|done| |done]; cbn [apply_matches] in E; unfold default_apply, for_matches in E.
  - revert E. apply each_merges; [|done]. intros m h h' k Rh. apply each_merges; [|done]. intros s h1 h2 j. apply pattern_apply_merges.
  - revert E. apply each_merges; [|done]. intros m h h' k Rh. apply each_merges; [|done]. intros s h1 h2 j R1. by apply apply_one_merges.
Qed.
Lemma apply_merges a sast rule ms g g' l : pattern_applier a -> reach g -> apply_matches L A fuel here a sast rule ms g = Ok (g', l) ->
  number_of_classes g' + length l + total_size g = number_of_classes g + total_size g'.
Proof. intros Ha R E. by apply apply_merging in E as (_ & E & _). Qed.
End answers.
