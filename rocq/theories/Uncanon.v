(** Every node ever added is in the memo of the explanations; clients that rebuild before
    they add more never get two ids for one term. *)
From Verif Require Import Base UnionFind EGraphModel EGraphSteps EGraphInv EGraphPres EGraphRuns Spec EGraphMain EGraphReach EGraphOps EGraphSafe
  EGraphNoPanic Terms RecExprModel RecExprProofs ExprModel PatSpec ExprProofs ExprSafe MachineModel MatchSpec RewriteModel RewriteProofs AlgSpec AlgProofs
  ExplainModel ExplainSpec ExplainMain ExplainModes UtilModel CopyProofs.

Section memo.
Context {Op D : Type} `{Countable Op} (L : lang Op) (A : analysis Op D).
Notation egraph := (egraph Op D).
Notation node := (node Op).
Implicit Types (g : egraph).

Definition memoed g : Prop := forall x n, eg_explain g = Some x -> n ∈ eg_nodes g -> is_Some (ex_memo x !! n).
Lemma memoed_new ex : memoed (eg_new ex).
Proof. intros x n _ Hn. by apply elem_of_nil in Hn. Qed.
Lemma memoed_same g g' : eg_nodes g' = eg_nodes g -> (ex_memo <$> eg_explain g') = (ex_memo <$> eg_explain g) -> memoed g -> memoed g'.
Proof.
  intros En Ee M x n Hx Hn. rewrite Hx in Ee. cbn in Ee. destruct (eg_explain g) as [y|] eqn:Ey; [|done].
  cbn in Ee. injection Ee as ->. apply (M y); [done|]. by rewrite <- En.
Qed.
Lemma memoed_add n g g' id o : Inv g -> add_core A n g = Ok (g', id, o) -> memoed g -> memoed g'.
Proof.
  intros I E M. apply add_core_spec in E as [_ Hs]; [|apply I].
  assert (Ha : forall x x' k m, ex_add x n k = Ok x' -> (m ∈ eg_nodes g -> is_Some (ex_memo x !! m)) -> m ∈ eg_nodes g ++ [n] -> is_Some (ex_memo x' !! m)).
  { intros x x' k m Ex Hm Hin. unfold ex_add in Ex. inv_res. cbn. destruct (decide (m = n)) as [->|Hne].
    - rewrite lookup_insert. eauto.
    - rewrite lookup_insert_ne by done. apply Hm. by apply elem_of_app in Hin as [?|?%elem_of_list_singleton]. }
  destruct Hs as [e id He Hid|e x x1 x2 u He Hx Hxn Hxa Hxu Hu|u cls' ex' Hm Hw Hl Hf Hcls Hex]; [done| |].
  - intros y m Hy Hin. cbn in Hy, Hin. injection Hy as <-. apply ex_union_shape in Hxu as [_ ->].
    eapply Ha; eauto.
  - intros y m Hy Hin. cbn in Hy, Hin. destruct (eg_explain g) as [x|] eqn:Ex; [|by subst]. destruct Hex as (x' & Ex' & ->).
    injection Hy as ->. eapply Ha; eauto.
Qed.
Lemma memoed_brun P g0 g : brun L A P g0 g -> Inv g0 -> memoed g0 -> memoed g.
Proof.
  intros R.
  assert (Hpu : forall a b rule (g g' : egraph) o, uf_wf (eg_uf g) -> perform_union_core A a b rule g = Ok (g', o) ->
    eg_nodes g' = eg_nodes g /\ (ex_memo <$> eg_explain g') = (ex_memo <$> eg_explain g)).
  { clear. intros a b rule g g' o I E. apply perform_union_core_spec in E as (_ & _ & Hs); auto.
    destruct Hs as [u ex' Hsame He Hex|id1 id2 k1 k2 dd did1 did2 u ex' Hids Hne E1 E2 Hlen Htie Hcid Hm Hw Hl Hf Hex]; cbn; (split; [done|]).
    - destruct (eg_explain g); [|by subst]. destruct rule as [[]|]; [|by subst|by subst]. destruct Hex as (? & Ea & ->).
      cbn. by apply alternate_rewrite_shape in Ea as [_ ->].
    - destruct (eg_explain g); [|by subst]. destruct Hex as (? & ? & ? & Ea & ->). cbn. by apply ex_union_shape in Ea as [_ ->]. }
  induction R as [g|l g g1 Hpl HP Hp|g g1 g2 R1 IH1 R2 IH2|n g g1 id HP E|n g g1 id h g2 HP E R IH]; intros I M.
  - done.
  - destruct Hp as [n g g' id o E|g|n i g|a b r rule g g' o Hr E|c rest g g' o Ep E|id q g g' o Eq E
      |i d g g' r E|i d g g' E|i f g g' E|g Ep Eq]; try done; try (by apply (memoed_same g)).
    + eapply Hpu in E as [E1 E2]; [by apply (memoed_same g)|apply I].
    + unfold pending_core in E. inv_res. cbn in H0.
      destruct (canon_mut_spec (eg_uf g) x (iv_wf _ I)) as (u & Eu & He).
      { apply Forall_forall. intros k Hk. pose proof (ci_ch _ _ _ _ _ _ _ (iv_c _ I) _ _ _ H0 Hk).
        pose proof (lookup_lt_Some _ _ _ H0). rewrite <- (iv_len _ I). lia. }
      cbn in E. rewrite Eu in E. cbn in E. destruct (eg_memo g !! _); inv_res; [|by apply (memoed_same g)].
      eapply Hpu in E as [E1 E2]; [by apply (memoed_same g)|]. apply He.
    + unfold analysis_core, eg_find_mut in E. inv_res. cbn in *. destruct (uf_find_mut _ _). inv_res.
      destruct (an_merge A _ _) as [? [[] ?]]; inv_res; by apply (memoed_same g).
    + unfold set_data_core, eg_find_mut in E. destruct (negb _); [done|]. destruct (uf_find_mut _ _). inv_res. by apply (memoed_same g).
    + unfold poke_data, eg_find_mut in E. destruct (negb _); [done|]. destruct (uf_find_mut _ _). inv_res. by apply (memoed_same g).
    + unfold retain_nodes, eg_find_mut in E. destruct (negb _); [done|]. destruct (uf_find_mut _ _). inv_res. by apply (memoed_same g).
    + unfold rebuild_classes. destruct (foldl _ _ _) as [[? ?] ?]. by apply (memoed_same g).
  - apply IH2; [by eapply brun_Inv|]. by apply IH1.
  - assert (memoed g1) by (by eapply memoed_add). revert H0. by apply (memoed_same g1).
  - assert (memoed g2) as M2 by (apply IH; [by eapply Inv_add|by eapply memoed_add]). revert M2. by apply (memoed_same g2).
Qed.
Lemma reach_memoed ex g : reachable L A ex g -> memoed g.
Proof. intros R%reachable_brun. eapply memoed_brun; [exact R|apply Inv_new|apply memoed_new]. Qed.
End memo.

(** ** Clients that rebuild before adding *)
(** after stating an equality, the next thing is a rebuild *)
Fixpoint rebuilds_before_adding {Op} (ready : bool) (cs : list (tcmd Op)) : Prop :=
  match cs with
  | [] => True
  | TAdd _ :: cs => ready = true /\ rebuilds_before_adding true cs
  | TSame _ _ _ :: cs => ready = true /\ rebuilds_before_adding false cs
  | TRebuild :: cs => rebuilds_before_adding true cs
  end.

Section distinct.
Context {Op D : Type} `{Countable Op} (L : lang Op) (A : analysis Op D) (Hh : hook_free A).
Notation egraph := (egraph Op D).
Notation node := (node Op).
Implicit Types (g : egraph).

Definition all_memo g : Prop := forall n, n ∈ eg_nodes g -> is_Some (eg_memo g !! canonf (eg_find g) n).
Definition single g : Prop := NoDup (eg_nodes g) /\ all_memo g.
Lemma canonf_known (f f' : nat -> nat) (n : node) : (forall c, c ∈ nch n -> f' c = f c) -> canonf f' n = canonf f n.
Proof.
  destruct n as [o cs]. unfold canonf. cbn [nop nch]. intros Hc. f_equal. induction cs as [|c cs IH]; [done|].
  rewrite !fmap_cons. f_equal; [apply Hc; left|apply IH; intros; apply Hc; by right].
Qed.
Lemma add_single ex fuel n g g' i : reachable L A ex g -> ex = true -> single g -> api_add A (modify_n L A fuel) n g = Ok (g', i) -> single g'.
Proof.
  intros R Hex [Hn Ha] E. pose proof (reachable_Inv _ _ _ _ R) as I. pose proof (reach_memoed L A _ _ R) as Me.
  assert (Hkn : forall m c, m ∈ eg_nodes g -> c ∈ nch m -> known g c).
  { intros m c [k Hk]%elem_of_list_lookup Hc. pose proof (ci_ch _ _ _ _ _ _ _ (iv_c _ I) _ _ c Hk Hc). unfold known. rewrite <- (iv_len _ I).
    pose proof (lookup_lt_Some _ _ _ Hk). lia. }
  unfold api_add in E. inv_res. destruct x as [g1 k]. inv_res.
  apply add_uncanonical_inv in H0 as (g4 & o & Ea & Hg). apply add_core_spec in Ea as [Hch Hsp]; [|apply I]. rewrite Forall_forall in Hch.
  destruct Hsp as [e' id He' Hid|e' x x1 x2 u He' Hx' Hxn Hxa Hxu Hu|u cls' ex' Hmn Hw Hl' Hf Hcls Hexx].
  - destruct Hg as [[_ ->]|(h & g3 & [=] & _)]. done.
  - destruct Hg as [[_ ->]|(h & g3 & [=] & _)]. split; cbn.
    + apply NoDup_app. split_and!; [done| |apply NoDup_singleton]. intros m Hm ->%elem_of_list_singleton.
      destruct (Me _ _ Hx' Hm) as [? Hs]. congruence.
    + intros m Hm. unfold eg_find. cbn. subst u.
      assert (Hc : forall c, c ∈ nch m -> known g c).
      { apply elem_of_app in Hm as [Hm| ->%elem_of_list_singleton]; [by intros c; apply Hkn|done]. }
      rewrite (canonf_known (eg_find g)) by (intros c Hcc; eapply alias_old; [done|done|by apply Hc]).
      apply elem_of_app in Hm as [Hm| ->%elem_of_list_singleton]; [by apply Ha|]. rewrite <- canon_canonf. eauto.
  - destruct Hg as [[[=] _]|(h & g3 & [= <-] & Hmd & ->)]. apply hook_free_md in Hmd as ->; [|done]. split; cbn.
    + apply NoDup_app. split_and!; [done| |apply NoDup_singleton]. intros m Hm ->%elem_of_list_singleton.
      destruct (Ha _ Hm) as [? Hs]. rewrite <- canon_canonf in Hs. congruence.
    + intros m Hm. unfold eg_find. cbn. rewrite (canonf_known (eg_find g)) by (intros; apply Hf). rewrite canon_canonf.
      destruct (decide (canonf (eg_find g) m = canonf (eg_find g) n)) as [->|Hne]; [rewrite lookup_insert; eauto|].
      rewrite lookup_insert_ne by done. apply elem_of_app in Hm as [Hm| ->%elem_of_list_singleton]; [by apply Ha|done].
Qed.
Lemma add_loop_single fuel (e : list node) ids g g' ids' : reachable L A true g -> single g ->
  add_expr_loop A (modify_n L A fuel) e ids g = Ok (g', ids') -> single g' /\ reachable L A true g'.
Proof.
  revert ids g. induction e as [|n e IH]; intros ids g R S E; cbn [add_expr_loop] in E; [by injection E as <- <-|].
  destruct (map_children_o _ _) as [m| |]; [|done|done]. cbn [mbind res_bind] in E.
  destruct (api_add A (modify_n L A fuel) m g) as [[g1 i]| |] eqn:Ea; [|done|done]. cbn [mbind res_bind] in E.
  destruct (api_add_step L A (fun _ => True) true fuel m g g1 i ltac:(done) R Ea) as (R1 & G1 & _).
  eapply (IH _ g1 R1); [|exact E]. exact (add_single true fuel m g g1 i R eq_refl S Ea).
Qed.
Lemma add_expr_single fuel (e : list node) g g' i : reachable L A true g -> single g ->
  add_expr_uncanonical A (modify_n L A fuel) e g = Ok (g', i) -> single g' /\ reachable L A true g'.
Proof.
  intros R S E. unfold add_expr_uncanonical in E. destruct (add_expr_loop _ _ _ _ _) as [[g1 ids]| |] eqn:El; [|done|done].
  cbn [mbind res_bind] in E. destruct (last ids) as [k|]; [|done]. cbn in E. injection E as -> ->. by eapply add_loop_single.
Qed.
Lemma union_nodes fuel a b r g g' v : reachable L A true g -> api_union A (modify_n L A fuel) a b r g = Ok (g', v) -> eg_nodes g' = eg_nodes g.
Proof.
  intros R E. pose proof (reachable_Inv _ _ _ _ R) as I. unfold api_union, union, union_trusted in E. cbn [eg_explain add_log] in E.
  assert (Hg : forall rule, perform_union A (modify_n L A fuel) a b rule (add_log (EUnion a b r) g) = Ok (g', v) -> eg_nodes g' = eg_nodes g).
  { clear E. intros rule E. unfold perform_union in E. inv_res. destruct x as [g1 o]. inv_res. apply hook_free_run_hook in H1 as ->; [|done].
    apply perform_union_core_spec in H0 as (Ha & Hb & Hs); [|apply I]. by destruct Hs. }
  destruct (eg_explain g); by eapply Hg.
Qed.
Lemma clean_single ex g : reachable L A ex g -> eg_clean g = true -> NoDup (eg_nodes g) -> single g.
Proof.
  intros R Ec Hn. split; [done|]. intros n [k Hk]%elem_of_list_lookup. pose proof (reachable_Inv _ _ _ _ R) as I.
  pose proof (reachable_clean _ _ _ _ R Ec) as Ep.
  assert (Hl : eg_lookup g n = Some (eg_find g k)) by (apply Inv_memo_clean; [done|done|]; by exists k, n).
  unfold eg_lookup, lookup_internal in Hl. rewrite canon_canonf in Hl. apply fmap_Some in Hl as (e & He & _). eauto.
Qed.
Lemma run_tcmds_single fuel cs : forall ready g g', reachable L A true g -> NoDup (eg_nodes g) -> (ready = true -> single g) ->
  rebuilds_before_adding ready cs -> run_tcmds L A fuel cs g = Ok g' -> reachable L A true g' /\ NoDup (eg_nodes g').
Proof.
  induction cs as [|c cs IH]; intros ready g g' R Hn Hs Hr E; cbn [run_tcmds] in E; [by injection E as <-|].
  destruct (run_tcmd L A fuel c g) as [g1| |] eqn:E1; [|done|done]. cbn [mbind res_bind] in E.
  destruct c as [e|e1 e2 r|]; cbn [run_tcmd] in E1; cbn [rebuilds_before_adding] in Hr.
  - destruct Hr as [-> Hr]. destruct (add_expr_uncanonical _ _ e g) as [[g2 i]| |] eqn:E2; [|done|done]. cbn in E1. injection E1 as ->.
    destruct (add_expr_single _ _ _ _ _ R (Hs eq_refl) E2) as [S1 R1]. eapply (IH true); [exact R1|apply S1|done|exact Hr|exact E].
  - destruct Hr as [-> Hr]. destruct (add_expr_uncanonical _ _ e1 g) as [[g2 i]| |] eqn:E2; [|done|done]. cbn [mbind res_bind] in E1.
    destruct (add_expr_uncanonical _ _ e2 g2) as [[g3 j]| |] eqn:E3; [|done|done]. cbn [mbind res_bind] in E1.
    destruct (api_union _ _ _ _ _ _) as [[g4 v]| |] eqn:E4; [|done|done]. cbn in E1. injection E1 as ->.
    destruct (add_expr_single _ _ _ _ _ R (Hs eq_refl) E2) as [S1 R1]. destruct (add_expr_single _ _ _ _ _ R1 S1 E3) as [S2 R2].
    destruct (union_step L A (fun _ => True) true fuel i j r g3 g1 v ltac:(done) R2 E4) as (R4 & _).
    eapply (IH false); [exact R4|rewrite (union_nodes _ _ _ _ _ _ _ R2 E4); apply S2|done|exact Hr|exact E].
  - destruct (rebuild _ _ _ _ _) as [[g2 k]| |] eqn:E2; [|done|done]. cbn in E1. injection E1 as ->.
    destruct (rebuild_step L A (fun _ => True) true fuel g g1 k calls_any R E2) as (R1 & _ & Ec).
    destruct (rebuild_quiet L A Hh true fuel g g1 k R E2) as (_ & En & _).
    eapply (IH true); [exact R1|by rewrite En|intros _; eapply clean_single; [done|done|by rewrite En]|exact Hr|exact E].
Qed.
Lemma distinct_clients fuel cs g : run_tcmds L A fuel cs (eg_new true) = Ok g -> rebuilds_before_adding true cs -> distinct_terms g.
Proof.
  intros E Hr. destruct (run_tcmds_single fuel cs true (eg_new true) g) as [R Hn]; auto.
  - apply reach_new.
  - apply NoDup_nil_2.
  - intros _. split; [apply NoDup_nil_2|]. intros n Hn. by apply elem_of_nil in Hn.
  - by eapply nodup_distinct.
Qed.
End distinct.
