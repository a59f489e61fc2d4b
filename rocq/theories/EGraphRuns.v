(** Bracketed runs: like [prims] of EGraphSteps.v, but keeping each [add] call together
    with the hook it triggers and its entry in the ghost history. *)
From Verif Require Import Base UnionFind EGraphModel EGraphSteps EGraphInv EGraphPres.

Section runs.
Context {Op D : Type} `{Countable Op}.
Notation node := (node Op).
Notation egraph := (egraph Op D).
Notation eclass := (eclass Op D).
Notation prog := (prog Op D).
Context (L : lang Op) (A : analysis Op D).

Definition plain (l : lbl) : Prop :=
  match l with LAdd | LClean | LLog => False | _ => True end.

Inductive brun (P : lbl -> Prop) : egraph -> egraph -> Prop :=
| br_refl g : brun P g g
| br_prim l g g1 : plain l -> P l -> prim L A l g g1 -> brun P g g1
| br_trans g g1 g2 : brun P g g1 -> brun P g1 g2 -> brun P g g2
| br_hit n g g1 id :
    P LAdd -> add_core A n g = Ok (g1, id, None) -> brun P g (add_log (EAdd n id) g1)
| br_new n g g1 id h g2 :
    P LAdd -> add_core A n g = Ok (g1, id, Some h) -> brun P g1 g2 ->
    brun P g (add_log (EAdd n id) (set_clean false g2)).

Definition md_runs P (md : nat -> egraph -> res egraph) : Prop :=
  forall id g1 g2, md id g1 = Ok g2 -> brun P g1 g2.

Lemma run_hook_runs P md o g g' :
  md_runs P md -> run_hook md o g = Ok g' -> brun P g g'.
Proof. destruct o; cbn; intros Hm E; [by eapply Hm|]. inv_res. apply br_refl. Qed.

Lemma perform_union_runs P md a b r rule g g' v :
  md_runs P md -> P LUnion -> (rule = None /\ eg_explain g = None) \/ rule = Some (JRule r) ->
  perform_union A md a b rule (add_log (EUnion a b r) g) = Ok (g', v) -> brun P g g'.
Proof.
  intros Hm Pu Hr E. unfold perform_union in E. inv_res. destruct x as [g1 o]. inv_res.
  eapply br_trans; [eapply (br_prim _ LUnion); [done|done|]; econstructor; eauto|].
  by eapply run_hook_runs.
Qed.

Lemma drain_pending_runs P fuel md n g g' n' :
  md_runs P md -> P LPend -> drain_pending A fuel md n g = Ok (g', n') ->
  brun P g g' /\ eg_pending g' = [].
Proof.
  intros Hm Pp. revert n g. induction fuel as [|fuel IH]; intros n g; cbn [drain_pending];
    destruct (eg_pending g) eqn:Ep; intros E; inv_res; try (split; [apply br_refl|done]).
  destruct x as [g1 o]. inv_res. apply IH in E as [S1 S2]. split; [|done].
  eapply br_trans; [eapply (br_prim _ LPend); [done|done|]; econstructor; eauto|].
  eapply br_trans; [by eapply run_hook_runs|done].
Qed.

Lemma drain_analysis_runs P fuel md g g' :
  md_runs P md -> P LAna -> drain_analysis A fuel md g = Ok g' -> brun P g g'.
Proof.
  intros Hm Pa. revert g. induction fuel as [|fuel IH]; intros g; cbn [drain_analysis];
    destruct (uq_pop (eg_apending g)) as [[id q]|] eqn:Ep; intros E; inv_res; try apply br_refl.
  destruct x as [g1 o]. inv_res. apply IH in E.
  eapply br_trans; [eapply (br_prim _ LAna); [done|done|]; econstructor; eauto|].
  eapply br_trans; [by eapply run_hook_runs|done].
Qed.

Lemma process_unions_runs P fuel inner md n g g' n' :
  md_runs P md -> P LPend -> P LAna -> process_unions A fuel inner md n g = Ok (g', n') ->
  brun P g g' /\ eg_pending g' = [] /\ uq_queue (eg_apending g') = [].
Proof.
  intros Hm Pp Pa. revert n g. induction fuel as [|fuel IH]; intros n g; cbn [process_unions];
    intros E.
  - destruct (eg_pending g) eqn:E1; cbn in E; [|done]. unfold uq_is_empty in E.
    destruct (uq_queue (eg_apending g)) eqn:E2; inv_res. split; [apply br_refl|done].
  - destruct ((match eg_pending g with [] => true | _ => false end)
              && uq_is_empty (eg_apending g)) eqn:Eb.
    + inv_res. apply andb_prop in Eb as [E1 E2]. unfold uq_is_empty in E2.
      destruct (eg_pending g') eqn:?; [|done]. destruct (uq_queue (eg_apending g')) eqn:?; [|done].
      split; [apply br_refl|done].
    + inv_res. destruct x as [g1 n1]. inv_res. apply IH in E as [S1 S2]. split; [|done].
      apply drain_pending_runs with (P := P) in H0 as [S3 _]; auto.
      eapply drain_analysis_runs in H1; eauto.
      eapply br_trans; [exact S3|]. eapply br_trans; [exact H1|done].
Qed.

Lemma rebuild_runs P fuel md g g' n :
  md_runs P md -> P LPend -> P LAna -> P LRebuild -> rebuild L A fuel md g = Ok (g', n) ->
  brun P g g'.
Proof.
  intros Hm Pp Pa Pr E. unfold rebuild in E. inv_res. destruct x as [g1 n1]. inv_res.
  apply process_unions_runs with (P := P) in H0 as (S1 & E1 & E2); auto.
  eapply br_trans; [exact S1|]. eapply (br_prim _ LRebuild); [done|done|]. by constructor.
Qed.

Lemma api_add_runs P md n g g' i :
  md_runs P md -> P LAdd -> api_add A md n g = Ok (g', i) -> brun P g g'.
Proof.
  intros Hm Pa E. unfold api_add, add_uncanonical in E. inv_res. destruct x as [g1 j]. inv_res.
  destruct x0 as [[g2 id] o]. destruct o as [h|]; inv_res.
  - eapply br_new; eauto.
  - by eapply br_hit.
Qed.

Lemma run_prog_runs P fuel md p g g' :
  md_runs P md -> prog_in P p -> run_prog L A fuel md p g = Ok g' -> brun P g g'.
Proof.
  intros Hm. revert g.
  induction p as [|k IH|n k IH|a b r k IH|a b r k IH|i d k IH|i d k IH|i f k IH|k IH];
    intros g Hp E; cbn [run_prog prog_in] in *.
  - inv_res. apply br_refl.
  - by eapply IH.
  - inv_res. destruct x as [g1 i]. destruct Hp as [(Pa & Pc & Pl) Hk].
    eapply br_trans; [by eapply api_add_runs|by eapply IH].
  - inv_res. destruct x as [g1 v]. destruct Hp as [Pu Hk].
    eapply br_trans; [|by eapply IH]. unfold api_union, union, union_trusted in *. cbn [eg_explain add_log] in *.
    destruct (eg_explain g) eqn:Ex; eapply perform_union_runs in H0; eauto.
  - inv_res. destruct x as [g1 v]. destruct Hp as [Pu Hk].
    eapply br_trans; [|by eapply IH]. unfold api_union_trusted, union_trusted in *.
    eapply perform_union_runs in H0; eauto.
  - inv_res. destruct Hp as [Ps Hk]. eapply br_trans; [|by eapply IH].
    unfold set_analysis_data in *. inv_res. destruct x0 as [g1 r].
    eapply br_trans; [|by eapply Hm]. eapply (br_prim _ LSetData); [done|done|]. econstructor; eauto.
  - inv_res. destruct Hp as [Ps Hk]. eapply br_trans; [|by eapply IH].
    eapply (br_prim _ LPoke); [done|done|]. econstructor; eauto.
  - inv_res. destruct Hp as [Ps Hk]. eapply br_trans; [|by eapply IH].
    eapply (br_prim _ LRetain); [done|done|]. econstructor; eauto.
  - inv_res. destruct x as [g1 n]. destruct Hp as [(Pr & Pp & Pa) Hk].
    eapply br_trans; [|by eapply IH]. eapply rebuild_runs; eauto.
Qed.

Lemma modify_n_runs P fuel :
  (forall id, prog_in P (an_modify A id)) -> md_runs P (modify_n L A fuel).
Proof.
  intros Hp. induction fuel as [|fuel IH]; intros id g1 g2 E; cbn [modify_n] in E; [done|].
  eapply run_prog_runs; eauto.
Qed.

Lemma session_runs P fuel ex p g :
  (forall id, prog_in P (an_modify A id)) -> prog_in P p ->
  session L A fuel ex p = Ok g -> brun P (eg_new ex) g.
Proof. intros Hm Hp E. eapply run_prog_runs; eauto. by apply modify_n_runs. Qed.

Lemma brun_Inv P g g' : brun P g g' -> Inv g -> Inv g'.
Proof.
  induction 1; intros I; auto.
  - by eapply Inv_prim.
  - apply Inv_log. by eapply Inv_add.
  - apply Inv_log, Inv_clean. apply IHbrun. by eapply Inv_add.
Qed.

(** * Growth: what a run never takes away *)
(** [find] only gets coarser, nodes and history are only appended, hash-cons keys stay. *)
Record grows (g g' : egraph) : Prop := {
  gr_find : coarser (eg_find g) (eg_find g');
  gr_nodes : exists l, eg_nodes g' = eg_nodes g ++ l;
  gr_log : exists h, eg_log g' = h ++ eg_log g;
  gr_memo : dom (eg_memo g) ⊆ dom (eg_memo g');
}.
Lemma grows_refl g : Inv g -> grows g g.
Proof.
  intros I. split; [|by exists []; rewrite app_nil_r|by exists []|done]. intros i.
  apply (ci_idem _ _ _ _ _ _ _ (iv_c _ I)).
Qed.
Lemma grows_trans g1 g2 g3 : grows g1 g2 -> grows g2 g3 -> grows g1 g3.
Proof.
  intros [F1 (l1 & N1) (h1 & O1) M1] [F2 (l2 & N2) (h2 & O2) M2]. split; [| | |set_solver].
  - intros i. rewrite <- (F2 (eg_find g1 i)), <- (F2 i). by rewrite F1.
  - exists (l1 ++ l2). by rewrite N2, N1, app_assoc.
  - exists (h2 ++ h1). by rewrite O2, O1, app_assoc.
Qed.
Lemma grows_same g g' :
  Inv g -> (forall i, eg_find g' i = eg_find g i) -> eg_nodes g' = eg_nodes g -> eg_log g' = eg_log g ->
  dom (eg_memo g) ⊆ dom (eg_memo g') -> grows g g'.
Proof.
  intros I Hf Hn Hl Hm. split; [| | |done].
  - intros i. rewrite !Hf. apply (ci_idem _ _ _ _ _ _ _ (iv_c _ I)).
  - exists []. by rewrite app_nil_r.
  - by exists [].
Qed.

Lemma merged_coarser (f f' : nat -> nat) id1 id2 :
  (forall i, f (f i) = f i) ->
  (forall j, f' j = if decide (f j = id2) then id1 else f j) -> coarser f f'.
Proof. intros Hi Hf i. by rewrite !Hf, Hi. Qed.

Lemma grows_union_core a b rule (g g' : egraph) o :
  Inv g -> perform_union_core A a b rule g = Ok (g', o) -> grows g g'.
Proof.
  intros I E. apply perform_union_core_spec in E as (_ & _ & Hs); [|apply I].
  destruct Hs as [u ex' Hsame He Hex|id1 id2 k1 k2 d did1 did2 u ex' Hids Hne E1 E2 Hlen Htie Hcid Hm Hw Hl Hf Hex].
  - apply grows_same; auto. intros. apply He.
  - split; cbn; [|by exists []; rewrite app_nil_r|by exists []|done].
    eapply merged_coarser; [|exact Hf]. apply (ci_idem _ _ _ _ _ _ _ (iv_c _ I)).
Qed.

Lemma Inv_find_idem (g : egraph) i : Inv g -> eg_find g (eg_find g i) = eg_find g i.
Proof. intros I. apply (ci_idem _ _ _ _ _ _ _ (iv_c _ I)). Qed.

Lemma grows_add_core n (g g' : egraph) id o :
  Inv g -> add_core A n g = Ok (g', id, o) -> grows g g'.
Proof.
  intros I E. pose proof (Inv_add _ _ _ _ _ _ I E) as I'.
  apply add_core_spec in E as [Hch Hs]; [|apply I].
  destruct Hs as [e id He Hid|e x x1 x2 u He Hx Hxn Hxa Hxu Hu|u cls' ex' Hm Hw Hl Hf Hcls Hex].
  - by apply grows_refl.
  - split; cbn; [|by eexists|by exists []|done].
    set (g' := set_explain _ _).
    pose proof (make_set_wf _ (iv_wf _ I)) as Hw1.
    assert (Hel : e < length (eg_uf g)).
    { destruct (ci_memo _ _ _ _ _ _ _ (iv_c _ I) _ _ He) as (m & Hm & _).
      rewrite <- (iv_len _ I). by eapply lookup_lt_Some. }
    assert (Hfe : eg_find g e < length (eg_uf g)) by (apply uf_find_lt; [apply I|done]).
    assert (Hp1 : uf_parent (eg_uf g ++ [length (eg_uf g)]) (eg_find g e) = eg_find g e).
    { apply uf_find_root_iff; auto. rewrite make_set_find by apply I. by apply Inv_find_idem. }
    assert (Hp2 : uf_parent (eg_uf g ++ [length (eg_uf g)]) (length (eg_uf g)) = length (eg_uf g)).
    { apply uf_find_root_iff; auto. rewrite make_set_find by apply I. by apply uf_find_oob. }
    assert (Hla : length (eg_uf g ++ [length (eg_uf g)]) = S (length (eg_uf g))).
    { rewrite app_length. cbn. lia. }
    apply (merged_coarser _ _ (eg_find g e) (length (eg_uf g))).
    { intros. by apply Inv_find_idem. }
    intros j. unfold g', eg_find at 1. cbn. subst u. rewrite union_find; auto; try lia.
    by rewrite make_set_find by apply I.
  - split; cbn; [|by eexists|by exists []|set_solver]. intros i. unfold eg_find at 1 3. cbn. rewrite !Hf.
    by apply Inv_find_idem.
Qed.

Lemma grows_log (g : egraph) e : Inv g -> grows g (add_log e g).
Proof.
  intros I. split; cbn; [intros i; exact (Inv_find_idem g i I)|by exists []; rewrite app_nil_r|by exists [e]|done].
Qed.

Lemma grows_ctx (g g1 : egraph) g2 :
  (forall i, eg_find g1 i = eg_find g i) -> eg_nodes g1 = eg_nodes g -> eg_log g1 = eg_log g -> eg_memo g1 = eg_memo g ->
  grows g1 g2 -> grows g g2.
Proof.
  intros Hf Hn Hl Hm [F N O M]. rewrite Hn in N. rewrite Hl in O. rewrite Hm in M. split; auto.
  intros i. rewrite <- Hf. apply F.
Qed.

Lemma grows_prim l g g' : plain l -> prim L A l g g' -> Inv g -> grows g g'.
Proof.
  intros Hpl; destruct 1 as [n g g' id o E|g|n i g|a b r rule g g' o Hr E|c rest g g' o Ep E|id q g g' o Eq E
    |i d g g' r E|i d g g' E|i f g g' E|g Ep Eq]; intros I; try done.
  - (* union *)
    pose proof (Inv_union _ _ _ _ _ _ _ _ I E) as I'.
    apply perform_union_core_spec in E as (_ & _ & Hs); [|apply I].
    destruct Hs as [u ex' Hsame He Hex|id1 id2 k1 k2 dd did1 did2 u ex' Hids Hne E1 E2 Hlen Htie Hcid Hm Hw Hl Hf Hex].
    + split; cbn; [|by exists []; rewrite app_nil_r|by exists [EUnion a b r]|done].
      intros i. destruct He as (_ & _ & Hf). unfold eg_find at 1 3. cbn. rewrite !Hf. cbn. by apply Inv_find_idem.
    + split; cbn; [|by exists []; rewrite app_nil_r|by exists [EUnion a b r]|done].
      eapply merged_coarser; [|exact Hf]. intros i. by apply Inv_find_idem.
  - (* pending *)
    unfold pending_core in E. inv_res. cbn in H0. rename x into n, H0 into Hn. cbn [eg_uf set_pending] in E.
    pose proof I as [I1 I2 I3 I4 I5 I6].
    destruct (canon_mut_spec (eg_uf g) n I1) as (u & Eu & He).
    { apply Forall_forall. intros i Hi. pose proof (ci_ch _ _ _ _ _ _ _ I3 _ _ _ Hn Hi).
      pose proof (lookup_lt_Some _ _ _ Hn). lia. }
    rewrite Eu in E. cbn [eg_memo set_uf set_pending] in E. destruct He as (Hw & Hl & Hf).
    destruct (eg_memo g !! _) as [mc|].
    + apply perform_union_core_spec in E as (_ & _ & Hs); [|done].
      destruct Hs as [u' ex' Hsame He Hex|id1 id2 k1 k2 dd did1 did2 u' ex' Hids Hne E1 E2 Hlen Htie Hcid Hm Hw' Hl' Hf' Hex].
      * apply grows_same; auto; [|cbn; set_solver]. intros. destruct He as (_ & _ & Hf'). unfold eg_find. cbn. rewrite Hf'. cbn. apply Hf.
      * split; cbn; [|by exists []; rewrite app_nil_r|by exists []|set_solver].
        apply (merged_coarser _ _ id1 id2). { intros. by apply Inv_find_idem. }
        intros j. unfold eg_find at 1. cbn. rewrite Hf'. unfold eg_find. cbn. by rewrite Hf.
    + inv_res. apply grows_same; auto. cbn. set_solver.
  - unfold analysis_core in E.
    destruct (uq_pop_ok _ _ _ _ (iv_q _ I) Eq) as [Hq Hid].
    assert (I' : Inv (set_apending q g)) by by apply Inv_apending.
    inv_res. destruct (eg_find_mut_spec (set_apending q g) id) as (u & Eu & Hw & Hl & Hf); [apply I|by cbn; rewrite <- (iv_len _ I)|].
    rewrite Eu in E. inv_res. destruct (an_merge A _ _) as [dd [did1 did2]].
    destruct did1; inv_res; apply grows_same; auto.
  - unfold set_data_core in E. destruct (valid_id g i) eqn:Hv; cbn [negb] in E; [|done].
    apply valid_id_lt in Hv. destruct (eg_find_mut_spec g i (iv_wf _ I) Hv) as (u & Eu & Hw & Hl & Hf).
    rewrite Eu in E. inv_res. apply grows_same; auto.
  - unfold poke_data in E. destruct (valid_id g i) eqn:Hv; cbn [negb] in E; [|done].
    apply valid_id_lt in Hv. destruct (eg_find_mut_spec g i (iv_wf _ I) Hv) as (u & Eu & Hw & Hl & Hf).
    rewrite Eu in E. inv_res. apply grows_same; auto.
  - unfold retain_nodes in E. destruct (valid_id g i) eqn:Hv; cbn [negb] in E; [|done].
    apply valid_id_lt in Hv. destruct (eg_find_mut_spec g i (iv_wf _ I) Hv) as (u & Eu & Hw & Hl & Hf).
    rewrite Eu in E. inv_res. apply grows_same; auto.
  - destruct (rebuild_classes_spec L g) as (u & cls' & ops' & -> & (Hw & Hl & Hf) & Hcls & _).
    { apply I. }
    { intros. rewrite <- (iv_len _ I). by eapply class_children_lt. }
    apply grows_same; auto.
Qed.

Lemma grows_brun P g g' : brun P g g' -> Inv g -> grows g g'.
Proof.
  induction 1 as [g|l g g1 Hpl HP Hp|g g1 g2 R1 IH1 R2 IH2|n g g1 id HP E|n g g1 id h g2 HP E R IH]; intros I.
  - by apply grows_refl.
  - by eapply grows_prim.
  - eapply grows_trans; [by apply IH1|]. apply IH2. by eapply brun_Inv.
  - eapply grows_trans; [by eapply grows_add_core|]. apply grows_log. by eapply Inv_add.
  - pose proof (Inv_add _ _ _ _ _ _ I E) as I1. pose proof (brun_Inv _ _ _ R I1) as I2.
    eapply grows_trans; [by eapply grows_add_core|].
    eapply grows_trans; [by apply IH|]. eapply grows_trans; [|apply grows_log; by apply Inv_clean].
    by apply grows_same.
Qed.

(** * The node table and the history of adds agree *)
Record hist (g g' : egraph) : Prop := {
  hi_tbl : forall k m, length (eg_nodes g) <= k -> eg_nodes g' !! k = Some m -> EAdd m k ∈ eg_log g';
  hi_log : forall h n i, eg_log g' = h ++ eg_log g -> EAdd n i ∈ h ->
    exists m, eg_nodes g' !! i = Some m /\ canonf (eg_find g') n = canonf (eg_find g') m;
}.

Lemma add_core_node n (g g' : egraph) id o :
  Inv g -> add_core A n g = Ok (g', id, o) ->
  (exists m, eg_nodes g' !! id = Some m /\ canonf (eg_find g') n = canonf (eg_find g') m) /\
  (eg_nodes g' = eg_nodes g \/ (eg_nodes g' = eg_nodes g ++ [n] /\ id = length (eg_nodes g))).
Proof.
  intros I E. apply add_core_spec in E as [Hch Hs]; [|apply I].
  destruct Hs as [e id He Hid|e x x1 x2 u He Hx Hxn Hxa Hxu Hu|u cls' ex' Hm Hw Hl Hf Hcls Hex]; cbn.
  - split; [|auto]. destruct Hid as [[_ ->]|(x & Hx & Hxn)].
    + destruct (ci_memo _ _ _ _ _ _ _ (iv_c _ I) _ _ He) as (m & Hm & Em). exists m. split; [done|].
      rewrite <- Em. symmetry. apply canonf_canonf. intros. by apply Inv_find_idem.
    + exists n. split; [|done]. pose proof (iv_ex _ I) as Hex. rewrite Hx in Hex. by apply Hex.
  - rewrite <- (iv_len _ I). split; [|auto]. exists n. split; [|done]. by apply list_lookup_middle.
  - rewrite <- (iv_len _ I). split; [|auto]. exists n. split; [|done]. by apply list_lookup_middle.
Qed.

Lemma prim_nodes l g g' : plain l -> prim L A l g g' -> eg_nodes g' = eg_nodes g.
Proof.
  assert (Hpu : forall a b rule (g g' : egraph) o, perform_union_core A a b rule g = Ok (g', o) -> eg_nodes g' = eg_nodes g).
  { clear. intros a b rule g g' o E. unfold perform_union_core in E.
    destruct (negb _); [done|].
    unfold eg_find_mut in E. cbn in E. destruct (uf_find_mut (eg_uf g) a) as [u1 r1]. cbn in E.
    destruct (uf_find_mut u1 b) as [u2 r2].
    case_decide.
    - destruct rule as [[]|]; cbn in E; destruct (eg_explain g); inv_res; done.
    - inv_res. match type of E with (let '(_, _) := ?p in _) = _ => destruct p as [i1 i2] end. inv_res.
      destruct (an_merge A _ _) as [? [? ?]]. inv_res. cbn.
      destruct (eg_explain (set_uf _ _)); inv_res; done. }
  intros Hpl; destruct 1 as [n g g' id o E|g|n i g|a b r rule g g' o Hr E|c rest g g' o Ep E|id q g g' o Eq E
    |i d g g' r E|i d g g' E|i f g g' E|g Ep Eq]; try done.
  - apply Hpu in E. done.
  - unfold pending_core in E. inv_res. destruct (canon_mut _ _) as [u nd]. cbn in E.
    destruct (eg_memo g !! nd); inv_res; [|done]. apply Hpu in E. done.
  - unfold analysis_core, eg_find_mut in E. inv_res. cbn in *. destruct (uf_find_mut _ _). inv_res.
    destruct (an_merge A _ _) as [? [[] ?]]; inv_res; done.
  - unfold set_data_core, eg_find_mut in E. destruct (negb _); [done|]. destruct (uf_find_mut _ _). inv_res. done.
  - unfold poke_data, eg_find_mut in E. destruct (negb _); [done|]. destruct (uf_find_mut _ _). inv_res. done.
  - unfold retain_nodes, eg_find_mut in E. destruct (negb _); [done|]. destruct (uf_find_mut _ _). inv_res. done.
  - unfold rebuild_classes. destruct (foldl _ _ _) as [[? ?] ?]. done.
Qed.

Lemma prim_log l g g' : plain l -> prim L A l g g' -> Inv g ->
  forall h n i, eg_log g' = h ++ eg_log g -> EAdd n i ∉ h.
Proof.
  intros Hpl Hp I h n i E.
  assert (Hl : eg_log g' = eg_log g \/ exists a b r, eg_log g' = EUnion a b r :: eg_log g).
  { revert Hp. clear E h. intros Hp.
    destruct Hp as [? g g' id o E|g|? ? g|a b r rule g g' o Hr E|c rest g g' o Ep E|id q g g' o Eq E
      |j d g g' r E|j d g g' E|j f g g' E|g Ep Eq]; try done.
    - apply perform_union_core_spec in E as (_ & _ & Hs); [|apply I]. right. exists a, b, r.
      by destruct Hs.
    - left. unfold pending_core in E. inv_res. cbn in H0.
      destruct (canon_mut_spec (eg_uf g) x (iv_wf _ I)) as (u & Eu & He).
      { apply Forall_forall. intros k Hk. pose proof (ci_ch _ _ _ _ _ _ _ (iv_c _ I) _ _ _ H0 Hk).
        pose proof (lookup_lt_Some _ _ _ H0). rewrite <- (iv_len _ I). lia. }
      cbn in E. rewrite Eu in E. cbn in E. destruct (eg_memo g !! _); inv_res; [|done].
      apply perform_union_core_spec in E as (_ & _ & Hs); [|apply He].
      by destruct Hs.
    - left. unfold analysis_core, eg_find_mut in E. inv_res. cbn in *. destruct (uf_find_mut _ _). inv_res.
      destruct (an_merge A _ _) as [? [[] ?]]; inv_res; done.
    - left. unfold set_data_core, eg_find_mut in E. destruct (negb _); [done|]. destruct (uf_find_mut _ _). inv_res. done.
    - left. unfold poke_data, eg_find_mut in E. destruct (negb _); [done|]. destruct (uf_find_mut _ _). inv_res. done.
    - left. unfold retain_nodes, eg_find_mut in E. destruct (negb _); [done|]. destruct (uf_find_mut _ _). inv_res. done.
    - left. unfold rebuild_classes. destruct (foldl _ _ _) as [[? ?] ?]. done. }
  destruct Hl as [Hl|(a & b & r & Hl)]; rewrite Hl in E.
  - apply (f_equal length) in E as E'. rewrite app_length in E'. destruct h; [|cbn in E'; lia].
    by intros ?%elem_of_nil.
  - change (EUnion a b r :: eg_log g) with ([EUnion a b r] ++ eg_log g) in E.
    apply app_inv_tail in E. subst h. intros Hi%elem_of_list_singleton. done.
Qed.

Lemma log_split {B} (h h1 h2 l : list B) : h ++ l = h2 ++ h1 ++ l -> h = h2 ++ h1.
Proof. rewrite app_assoc. apply app_inv_tail. Qed.

Lemma hist_later (g g' : egraph) n i m :
  grows g g' -> eg_nodes g !! i = Some m -> canonf (eg_find g) n = canonf (eg_find g) m ->
  eg_nodes g' !! i = Some m /\ canonf (eg_find g') n = canonf (eg_find g') m.
Proof.
  intros [F (l & N) _] Hi Hc. split.
  - rewrite N. by apply lookup_app_l_Some.
  - by eapply canonf_coarser_eq.
Qed.

Lemma hist_trans g g1 g2 :
  grows g g1 -> grows g1 g2 -> hist g g1 -> hist g1 g2 -> hist g g2.
Proof.
  intros G1 G2 [T1 L1] [T2 L2]. pose proof G1 as [_ (l1 & N1) (h1 & O1)].
  pose proof G2 as [_ (l2 & N2) (h2 & O2)]. split.
  - intros k m Hk Hm. destruct (decide (k < length (eg_nodes g1))) as [Hlt|Hge].
    + rewrite O2. apply elem_of_app. right. eapply T1; eauto.
      rewrite N2 in Hm. by rewrite lookup_app_l in Hm.
    + eapply T2; eauto. lia.
  - intros h n i Eh Hi. rewrite O2, O1 in Eh. symmetry in Eh. apply log_split in Eh. subst h.
    apply elem_of_app in Hi as [Hi|Hi].
    + eapply L2; eauto.
    + destruct (L1 h1 n i O1 Hi) as (m & Hm & Em). exists m. by eapply hist_later.
Qed.

Lemma app_self {B} (h l : list B) : l = h ++ l -> h = [].
Proof.
  intros E. apply (f_equal length) in E. rewrite app_length in E. destruct h; [done|]. cbn in E. lia.
Qed.

Lemma hist_same g g' : eg_nodes g' = eg_nodes g ->
  (forall h n i, eg_log g' = h ++ eg_log g -> EAdd n i ∉ h) -> hist g g'.
Proof.
  intros N Hl. split.
  - intros k m Hk Hm. rewrite N in Hm. apply lookup_lt_Some in Hm. lia.
  - intros h n i Eh Hi. exfalso. by eapply Hl.
Qed.

Lemma hist_brun P g g' : brun P g g' -> Inv g -> hist g g'.
Proof.
  induction 1 as [g|l g g1 Hpl HP Hp|g g1 g2 R1 IH1 R2 IH2|n g g1 id HP E|n g g1 id h g2 HP E R IH]; intros I.
  - apply hist_same; [done|]. intros h n i Eh. apply app_self in Eh. subst. by intros ?%elem_of_nil.
  - apply hist_same; [by eapply prim_nodes|by eapply prim_log].
  - pose proof (brun_Inv _ _ _ R1 I) as I1. eapply hist_trans; eauto using grows_brun.
  - pose proof (add_core_node _ _ _ _ _ I E) as (Hn & HN).
    pose proof (grows_add_core _ _ _ _ _ I E) as G. pose proof (gr_log _ _ G) as (h & Oh).
    assert (Hh : h = []).
    { apply add_core_spec in E as [_ Hs]; [|apply I]. destruct Hs; cbn in Oh; by apply app_self in Oh. }
    subst h. cbn in Oh. split; cbn.
    + intros k m Hk Hm. destruct HN as [HN|[HN ->]].
      * rewrite HN in Hm. apply lookup_lt_Some in Hm. lia.
      * rewrite HN in Hm. apply lookup_app_Some in Hm as [Hm|[_ Hm]]; [apply lookup_lt_Some in Hm; lia|].
        apply list_lookup_singleton_Some in Hm as [Hk' <-].
        assert (k = length (eg_nodes g)) as -> by lia. by left.
    + intros h n' i Eh Hi. rewrite Oh in Eh. change (EAdd n id :: eg_log g) with ([EAdd n id] ++ eg_log g) in Eh.
      apply app_inv_tail in Eh. subst h. apply elem_of_list_singleton in Hi. injection Hi as -> ->.
      exact Hn.
  - pose proof (Inv_add _ _ _ _ _ _ I E) as I1. specialize (IH I1).
    pose proof (add_core_node _ _ _ _ _ I E) as ((mm & Hmm & Emm) & HN).
    pose proof (grows_add_core _ _ _ _ _ I E) as G. pose proof (gr_log _ _ G) as (h1 & Oh).
    assert (Hh : h1 = []).
    { apply add_core_spec in E as [_ Hs]; [|apply I]. destruct Hs; cbn in Oh; by apply app_self in Oh. }
    subst h1. cbn in Oh. pose proof (grows_brun _ _ _ R I1) as G2.
    pose proof G2 as [_ (l2 & N2) (h2 & O2)]. destruct IH as [T L2].
    split; cbn.
    + intros k m Hk Hm. destruct (decide (length (eg_nodes g1) <= k)) as [Hle|Hlt].
      { right. by apply T. }
      rewrite N2 in Hm. rewrite lookup_app_l in Hm by lia.
      destruct HN as [HN|[HN ->]].
      * rewrite HN in Hm. apply lookup_lt_Some in Hm. lia.
      * rewrite HN in Hm. apply lookup_app_Some in Hm as [Hm|[_ Hm]]; [apply lookup_lt_Some in Hm; lia|].
        apply list_lookup_singleton_Some in Hm as [Hk' <-].
        assert (k = length (eg_nodes g)) as -> by lia. by left.
    + intros hh n' i Eh Hi. rewrite O2, Oh in Eh.
      change (EAdd n id :: h2 ++ eg_log g) with ((EAdd n id :: h2) ++ eg_log g) in Eh.
      apply app_inv_tail in Eh. subst hh. apply elem_of_cons in Hi as [Hi|Hi].
      * injection Hi as -> ->. exists mm. change (eg_find (set_clean false g2)) with (eg_find g2).
        exact (hist_later _ _ _ _ _ G2 Hmm Emm).
      * eapply L2; eauto.
Qed.

(** The global statement for sessions. *)
Lemma hist_session fuel ex p g :
  session L A fuel ex p = Ok g ->
  (forall k m, eg_nodes g !! k = Some m -> EAdd m k ∈ eg_log g) /\
  (forall n i, EAdd n i ∈ eg_log g ->
    exists m, eg_nodes g !! i = Some m /\ canonf (eg_find g) n = canonf (eg_find g) m).
Proof.
  intros E. eapply session_runs with (P := any) in E.
  - pose proof (hist_brun _ _ _ E (Inv_new ex)) as [T Lg]. split.
    + intros k m Hk. eapply T; eauto. cbn. lia.
    + intros n i Hi. eapply Lg; eauto. cbn. by rewrite app_nil_r.
  - intros. apply prog_in_any.
  - apply prog_in_any.
Qed.

(** * The [clean] flag *)
Definition clean_pending (g : egraph) : Prop := eg_clean g = true -> eg_pending g = [].

Lemma clean_pending_brun P g g' : brun P g g' -> Inv g -> clean_pending g -> clean_pending g'.
Proof.
  assert (Hpu : forall a b rule (g g' : egraph) o, uf_wf (eg_uf g) -> perform_union_core A a b rule g = Ok (g', o) -> clean_pending g').
  { clear. intros a b rule g g' o I E. apply perform_union_core_spec in E as (_ & _ & Hs); auto.
    unfold clean_pending. by destruct Hs. }
  induction 1 as [g|l g g1 Hpl HP Hp|g g1 g2 R1 IH1 R2 IH2|n g g1 id HP E|n g g1 id h g2 HP E R IH]; intros I Hc.
  - done.
  - destruct Hp as [n g g' id o E|g|n i g|a b r rule g g' o Hr E|c rest g g' o Ep E|id q g g' o Eq E
      |i d g g' r E|i d g g' E|i f g g' E|g Ep Eq]; try done.
    + eapply Hpu; eauto. apply I.
    + unfold pending_core in E. inv_res. cbn in H0.
      destruct (canon_mut_spec (eg_uf g) x (iv_wf _ I)) as (u & Eu & He).
      { apply Forall_forall. intros k Hk. pose proof (ci_ch _ _ _ _ _ _ _ (iv_c _ I) _ _ _ H0 Hk).
        pose proof (lookup_lt_Some _ _ _ H0). rewrite <- (iv_len _ I). lia. }
      cbn in E. rewrite Eu in E. cbn in E. destruct (eg_memo g !! _); inv_res.
      * eapply Hpu; [|eauto]. apply He.
      * unfold clean_pending in *. cbn. intros Ec. apply Hc in Ec. congruence.
    + unfold analysis_core, eg_find_mut in E. inv_res. cbn in *. destruct (uf_find_mut _ _). inv_res.
      destruct (an_merge A _ _) as [? [[] ?]]; inv_res; done.
    + unfold set_data_core, eg_find_mut in E. destruct (negb _); [done|]. destruct (uf_find_mut _ _). inv_res. done.
    + unfold poke_data, eg_find_mut in E. destruct (negb _); [done|]. destruct (uf_find_mut _ _). inv_res. done.
    + unfold retain_nodes, eg_find_mut in E. destruct (negb _); [done|]. destruct (uf_find_mut _ _). inv_res. done.
    + unfold rebuild_classes. destruct (foldl _ _ _) as [[? ?] ?]. intros _. exact Ep.
  - apply IH2; [by eapply brun_Inv|]. by apply IH1.
  - apply add_core_spec in E as [_ Hs]; [|apply I]. unfold clean_pending in *. cbn.
    inversion Hs; subst; done.
  - done.
Qed.

Lemma clean_pending_session fuel ex p g : session L A fuel ex p = Ok g -> clean_pending g.
Proof.
  intros E. eapply session_runs with (P := any) in E.
  - eapply clean_pending_brun; [done|apply Inv_new|]. done.
  - intros. apply prog_in_any.
  - apply prog_in_any.
Qed.

End runs.
