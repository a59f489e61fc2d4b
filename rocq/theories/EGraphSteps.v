(** Primitive transitions of the e-graph model, lifting of arbitrary client programs and
    hooks to sequences of primitive transitions, and exact descriptions of what each
    primitive transition does. *)
From Verif Require Import Base UnionFind EGraphModel.

(** Labels of primitive transitions. *)
Inductive lbl := LAdd | LUnion | LPend | LAna | LSetData | LPoke | LRetain | LRebuild | LClean | LLog.

Section steps.
Context {Op D : Type} `{Countable Op}.
Notation node := (node Op).
Notation egraph := (egraph Op D).
Notation eclass := (eclass Op D).
Notation explain := (explain Op).
Notation prog := (prog Op D).
Context (L : lang Op) (A : analysis Op D).

Inductive prim : lbl -> egraph -> egraph -> Prop :=
| pr_add n g g' id o : add_core A n g = Ok (g', id, o) -> prim LAdd g g'
| pr_clean g : prim LClean g (set_clean false g)
| pr_log n i g : prim LLog g (add_log (EAdd n i) g)
| pr_union a b r rule g g' o :
    (rule = None /\ eg_explain g = None) \/ rule = Some (JRule r) ->
    perform_union_core A a b rule (add_log (EUnion a b r) g) = Ok (g', o) ->
    prim LUnion g g'
| pr_pend c rest g g' o :
    eg_pending g = c :: rest -> pending_core A c (set_pending rest g) = Ok (g', o) ->
    prim LPend g g'
| pr_ana id q g g' o :
    uq_pop (eg_apending g) = Some (id, q) -> analysis_core A id (set_apending q g) = Ok (g', o) ->
    prim LAna g g'
| pr_setdata i d g g' r : set_data_core i d g = Ok (g', r) -> prim LSetData g g'
| pr_poke i d g g' : poke_data i d g = Ok g' -> prim LPoke g g'
| pr_retain i f g g' : retain_nodes i f g = Ok g' -> prim LRetain g g'
| pr_rebuilt g :
    eg_pending g = [] -> uq_queue (eg_apending g) = [] ->
    prim LRebuild g (set_clean true (rebuild_classes L g)).

Definition prims (P : lbl -> Prop) : egraph -> egraph -> Prop :=
  rtc (fun g g' => exists l, P l /\ prim l g g').

(** Which primitive transitions a program may directly cause. *)
Fixpoint prog_in (P : lbl -> Prop) (p : prog) : Prop :=
  match p with
  | PRet => True
  | PLook k => forall g, prog_in P (k g)
  | PAdd _ k => (P LAdd /\ P LClean /\ P LLog) /\ forall i, prog_in P (k i)
  | PUnion _ _ _ k | PUnionTrusted _ _ _ k => P LUnion /\ forall v, prog_in P (k v)
  | PSetData _ _ k => P LSetData /\ prog_in P k
  | PPoke _ _ k => P LPoke /\ prog_in P k
  | PRetain _ _ k => P LRetain /\ prog_in P k
  | PRebuild k => (P LRebuild /\ P LPend /\ P LAna) /\ forall n, prog_in P (k n)
  end.

Definition any (l : lbl) : Prop := True.
Lemma prog_in_any p : prog_in any p.
Proof. induction p; cbn; unfold any; auto. Qed.

Lemma prims_one (P : lbl -> Prop) l g g' : P l -> prim l g g' -> prims P g g'.
Proof. intros. apply rtc_once. eauto. Qed.
Lemma prims_trans P g1 g2 g3 : prims P g1 g2 -> prims P g2 g3 -> prims P g1 g3.
Proof. apply rtc_transitive. Qed.

Definition md_prims P (md : nat -> egraph -> res egraph) : Prop :=
  forall id g1 g2, md id g1 = Ok g2 -> prims P g1 g2.

Lemma run_hook_prims P md o g g' :
  md_prims P md -> run_hook md o g = Ok g' -> prims P g g'.
Proof. destruct o; cbn; intros Hm E; [by eapply Hm|]. inv_res. apply rtc_refl. Qed.

Lemma add_uncanonical_prims P md n g g' i :
  md_prims P md -> P LAdd -> P LClean -> add_uncanonical A md n g = Ok (g', i) -> prims P g g'.
Proof.
  intros Hm Pa Pc E. unfold add_uncanonical in E. inv_res. destruct x as [[g1 id] o].
  pose proof (prims_one P _ _ _ Pa (pr_add _ _ _ _ _ H0)) as S1.
  destruct o; inv_res; [|done].
  eapply prims_trans; [exact S1|]. eapply prims_trans; [by eapply Hm|].
  eapply prims_one; [exact Pc|]. constructor.
Qed.

Lemma perform_union_prims P md a b r rule g g' v :
  md_prims P md -> P LUnion -> (rule = None /\ eg_explain g = None) \/ rule = Some (JRule r) ->
  perform_union A md a b rule (add_log (EUnion a b r) g) = Ok (g', v) -> prims P g g'.
Proof.
  intros Hm Pu Hr E. unfold perform_union in E. inv_res. destruct x as [g1 o]. inv_res.
  eapply prims_trans; [eapply prims_one; [exact Pu|]; econstructor; eauto|].
  by eapply run_hook_prims.
Qed.

Lemma drain_pending_prims P fuel md n g g' n' :
  md_prims P md -> P LPend -> drain_pending A fuel md n g = Ok (g', n') ->
  prims P g g' /\ eg_pending g' = [].
Proof.
  intros Hm Pp. revert n g. induction fuel as [|fuel IH]; intros n g; cbn [drain_pending];
    destruct (eg_pending g) eqn:Ep; intros E; inv_res; try (split; [apply rtc_refl|done]).
  destruct x as [g1 o]. inv_res. apply IH in E as [S1 S2]. split; [|done].
  eapply prims_trans; [eapply prims_one; [exact Pp|]; econstructor; eauto|].
  eapply prims_trans; [by eapply run_hook_prims|done].
Qed.

Lemma drain_analysis_prims P fuel md g g' :
  md_prims P md -> P LAna -> drain_analysis A fuel md g = Ok g' -> prims P g g'.
Proof.
  intros Hm Pa. revert g. induction fuel as [|fuel IH]; intros g; cbn [drain_analysis];
    destruct (uq_pop (eg_apending g)) as [[id q]|] eqn:Ep; intros E; inv_res; try apply rtc_refl.
  destruct x as [g1 o]. inv_res. apply IH in E.
  eapply prims_trans; [eapply prims_one; [exact Pa|]; econstructor; eauto|].
  eapply prims_trans; [by eapply run_hook_prims|done].
Qed.

Lemma process_unions_prims P fuel inner md n g g' n' :
  md_prims P md -> P LPend -> P LAna -> process_unions A fuel inner md n g = Ok (g', n') ->
  prims P g g' /\ eg_pending g' = [] /\ uq_queue (eg_apending g') = [].
Proof.
  intros Hm Pp Pa. revert n g. induction fuel as [|fuel IH]; intros n g; cbn [process_unions];
    intros E.
  - destruct (eg_pending g) eqn:E1; cbn in E; [|done]. unfold uq_is_empty in E.
    destruct (uq_queue (eg_apending g)) eqn:E2; inv_res. split; [apply rtc_refl|done].
  - destruct ((match eg_pending g with [] => true | _ => false end)
              && uq_is_empty (eg_apending g)) eqn:Eb.
    + inv_res. apply andb_prop in Eb as [E1 E2]. unfold uq_is_empty in E2.
      destruct (eg_pending g') eqn:?; [|done]. destruct (uq_queue (eg_apending g')) eqn:?; [|done].
      split; [apply rtc_refl|done].
    + inv_res. destruct x as [g1 n1]. inv_res. apply IH in E as [S1 S2]. split; [|done].
      apply drain_pending_prims with (P := P) in H0 as [S3 _]; auto.
      eapply drain_analysis_prims in H1; eauto.
      eapply prims_trans; [exact S3|]. eapply prims_trans; [exact H1|done].
Qed.

Lemma rebuild_prims P fuel md g g' n :
  md_prims P md -> P LPend -> P LAna -> P LRebuild -> rebuild L A fuel md g = Ok (g', n) ->
  prims P g g'.
Proof.
  intros Hm Pp Pa Pr E. unfold rebuild in E. inv_res. destruct x as [g1 n1]. inv_res.
  apply process_unions_prims with (P := P) in H0 as (S1 & E1 & E2); auto.
  eapply prims_trans; [exact S1|]. eapply prims_one; [exact Pr|]. by constructor.
Qed.

Lemma run_prog_prims P fuel md p g g' :
  md_prims P md -> prog_in P p -> run_prog L A fuel md p g = Ok g' -> prims P g g'.
Proof.
  intros Hm. revert g.
  induction p as [|k IH|n k IH|a b r k IH|a b r k IH|i d k IH|i d k IH|i f k IH|k IH];
    intros g Hp E; cbn [run_prog prog_in] in *.
  - inv_res. apply rtc_refl.
  - by eapply IH.
  - inv_res. destruct x as [g1 i]. destruct Hp as [(Pa & Pc & Pl) Hk].
    unfold api_add in *. inv_res. destruct x as [g2 j]. inv_res.
    eapply add_uncanonical_prims in H1; eauto.
    eapply prims_trans; [exact H1|]. eapply prims_trans; [|by eapply IH].
    eapply prims_one; [exact Pl|]. constructor.
  - inv_res. destruct x as [g1 v]. destruct Hp as [Pu Hk].
    eapply prims_trans; [|by eapply IH]. unfold api_union, union, union_trusted in *. cbn [eg_explain add_log] in *.
    destruct (eg_explain g) eqn:Ex; eapply perform_union_prims in H0; eauto.
  - inv_res. destruct x as [g1 v]. destruct Hp as [Pu Hk].
    eapply prims_trans; [|by eapply IH]. unfold api_union_trusted, union_trusted in *.
    eapply perform_union_prims in H0; eauto.
  - inv_res. destruct Hp as [Ps Hk]. eapply prims_trans; [|by eapply IH].
    unfold set_analysis_data in *. inv_res. destruct x0 as [g1 r].
    eapply prims_trans; [|by eapply Hm]. eapply prims_one; [exact Ps|]. econstructor; eauto.
  - inv_res. destruct Hp as [Ps Hk]. eapply prims_trans; [|by eapply IH].
    eapply prims_one; [exact Ps|]. econstructor; eauto.
  - inv_res. destruct Hp as [Ps Hk]. eapply prims_trans; [|by eapply IH].
    eapply prims_one; [exact Ps|]. econstructor; eauto.
  - inv_res. destruct x as [g1 n]. destruct Hp as [(Pr & Pp & Pa) Hk].
    eapply prims_trans; [|by eapply IH]. eapply rebuild_prims; eauto.
Qed.

Lemma modify_n_prims P fuel :
  (forall id, prog_in P (an_modify A id)) -> md_prims P (modify_n L A fuel).
Proof.
  intros Hp. induction fuel as [|fuel IH]; intros id g1 g2 E; cbn [modify_n] in E; [done|].
  eapply run_prog_prims; eauto.
Qed.

(** Any session is a sequence of primitive transitions from the empty e-graph. *)
Lemma session_prims P fuel ex p g :
  (forall id, prog_in P (an_modify A id)) -> prog_in P p ->
  session L A fuel ex p = Ok g -> prims P (eg_new ex) g.
Proof. intros Hm Hp E. eapply run_prog_prims; eauto. by apply modify_n_prims. Qed.

(** Induction principle: a predicate preserved by every primitive transition. *)
Lemma prims_inv (P : lbl -> Prop) (I : egraph -> Prop) g g' :
  (forall l g g', P l -> prim l g g' -> I g -> I g') -> prims P g g' -> I g -> I g'.
Proof. intros Hs. induction 1 as [|x y z (l & Hl & Hp) _ IH]; eauto. Qed.

(** * Exact descriptions *)
Lemma eg_find_mut_spec (g : egraph) i :
  uf_wf (eg_uf g) -> i < length (eg_uf g) ->
  exists u, eg_find_mut g i = (set_uf u g, eg_find g i) /\ uf_equiv (eg_uf g) u.
Proof.
  intros Hw Hi. unfold eg_find_mut. destruct (find_mut_spec (eg_uf g) i Hw Hi) as [He Hf].
  destruct (uf_find_mut (eg_uf g) i) as [u r]. cbn in *. subst. eauto.
Qed.

Lemma map_find_mut_spec u cs :
  uf_wf u -> Forall (fun c => c < length u) cs ->
  exists u', map_find_mut u cs = (u', uf_find u <$> cs) /\ uf_equiv u u'.
Proof.
  revert u. induction cs as [|c cs IH]; intros u Hw Hc; cbn [map_find_mut].
  { exists u. split; [done|]. by apply uf_equiv_refl. }
  inversion_clear Hc as [|? ? Hc1 Hc2].
  destruct (find_mut_spec u c Hw Hc1) as [He Hf].
  destruct (uf_find_mut u c) as [u1 r]. cbn in He, Hf. subst r.
  pose proof He as (Hw1 & Hl1 & Hf1).
  destruct (IH u1) as (u2 & E2 & He2); auto.
  { eapply Forall_impl; eauto. cbn. intros. lia. }
  rewrite E2. exists u2. split; [|by eapply uf_equiv_trans].
  f_equal. cbn. f_equal. apply list_fmap_ext. auto.
Qed.

(** Canonicalisation as a function of [find] alone. *)
Definition canonf (f : nat -> nat) (n : node) : node := Node (nop n) (f <$> nch n).

Lemma canon_canonf (g : egraph) n : canon g n = canonf (eg_find g) n.
Proof. done. Qed.

Lemma canonf_ext f f' n : (forall i, f i = f' i) -> canonf f n = canonf f' n.
Proof. intros He. unfold canonf. f_equal. apply list_fmap_ext. auto. Qed.

Lemma canon_mut_spec u (n : node) :
  uf_wf u -> Forall (fun c => c < length u) (nch n) ->
  exists u', canon_mut u n = (u', canonf (uf_find u) n) /\ uf_equiv u u'.
Proof.
  intros Hw Hc. unfold canon_mut.
  destruct (map_find_mut_spec u (nch n) Hw Hc) as (u' & -> & He). eauto.
Qed.

Lemma canon_nodes_mut_spec u (ns : list node) :
  uf_wf u -> Forall (fun n => Forall (fun c => c < length u) (nch n)) ns ->
  exists u', canon_nodes_mut u ns = (u', canonf (uf_find u) <$> ns) /\ uf_equiv u u'.
Proof.
  revert u. induction ns as [|n ns IH]; intros u Hw Hc; cbn [canon_nodes_mut].
  { exists u. split; [done|]. by apply uf_equiv_refl. }
  inversion_clear Hc as [|? ? Hc1 Hc2].
  destruct (canon_mut_spec u n Hw Hc1) as (u1 & -> & He). pose proof He as (Hw1 & Hl1 & Hf1).
  destruct (IH u1) as (u2 & E2 & He2); auto.
  { eapply Forall_impl; eauto. cbn. intros. eapply Forall_impl; eauto. cbn. intros. lia. }
  rewrite E2. exists u2. split; [|by eapply uf_equiv_trans].
  f_equal. cbn. f_equal. apply list_fmap_ext. intros. by apply canonf_ext.
Qed.

(** Parents pushed for a new node. *)
Definition new_parents (f : nat -> nat) (id : nat) (cs : list nat) (r : nat) : list nat :=
  (fun _ => id) <$> filter (fun c => f c = r) cs.

Arguments new_parents : simpl never.
Lemma new_parents_ext f f' id cs r :
  (forall i, f i = f' i) -> new_parents f id cs r = new_parents f' id cs r.
Proof.
  intros He. unfold new_parents. f_equal. apply list_filter_iff. intros. by rewrite He.
Qed.
Lemma new_parents_cons f id c cs r :
  new_parents f id (c :: cs) r =
    (if decide (f c = r) then [id] else []) ++ new_parents f id cs r.
Proof.
  unfold new_parents. case_decide.
  - by rewrite filter_cons_True.
  - by rewrite filter_cons_False.
Qed.

Lemma push_parents_spec id (g g' : egraph) cs :
  uf_wf (eg_uf g) -> Forall (fun c => c < length (eg_uf g)) cs ->
  push_parents id g cs = Ok g' ->
  exists u cls', g' = set_classes cls' (set_uf u g) /\ uf_equiv (eg_uf g) u /\
    forall r, cls' !! r =
      (fun c => c_set_parents (c_parents c ++ new_parents (eg_find g) id cs r) c) <$> eg_classes g !! r.
Proof.
  revert g. induction cs as [|c cs IH]; intros g Hw Hc E; cbn [push_parents] in E.
  - inv_res. exists (eg_uf g'), (eg_classes g'). split_and!.
    + by destruct g'.
    + by apply uf_equiv_refl.
    + intros r. unfold new_parents. cbn. rewrite <- map_fmap_id at 1.
      destruct (eg_classes g' !! r) as [k|] eqn:Ek; rewrite lookup_fmap, Ek; [|done].
      cbn. f_equal. unfold c_set_parents. rewrite app_nil_r. by destruct k.
  - inversion_clear Hc as [|? ? Hc1 Hc2]. inv_res.
    unfold push_parent in H0.
    destruct (eg_find_mut_spec g c Hw Hc1) as (u1 & E1 & He1). rewrite E1 in H0.
    inv_res. rename x0 into k.
    pose proof He1 as (Hw1 & Hl1 & Hf1).
    apply IH in E as (u2 & cls2 & -> & He2 & Hcls); cbn; auto; cycle 1.
    { eapply Forall_impl; eauto. cbn. intros. lia. }
    exists u2, cls2. split_and!; [by destruct g|by eapply uf_equiv_trans|].
    intros r. rewrite Hcls. cbn [eg_classes set_classes set_uf] in *.
    rewrite (new_parents_ext _ (eg_find g)) by (intros; unfold eg_find; cbn; apply Hf1).
    rewrite new_parents_cons.
    destruct (decide (eg_find g c = r)) as [Heq|Hne].
    + subst r. rewrite lookup_insert, H1. cbn. f_equal.
      unfold c_set_parents. cbn. f_equal. by rewrite <- app_assoc.
    + by rewrite lookup_insert_ne by done.
Qed.

(** What [add_core] does when a new class is made. *)
Lemma make_new_eclass_spec n orig (g g' : egraph) id :
  uf_wf (eg_uf g) -> Forall (fun c => c < length (eg_uf g)) (nch n) ->
  make_new_eclass A n orig g = Ok (g', id) ->
  exists u cls',
    id = length (eg_uf g) /\
    g' = set_memo (<[n := id]> (eg_memo g)) (set_classes cls'
          (set_pending (id :: eg_pending g) (set_nodes (eg_nodes g ++ [orig]) (set_uf u g)))) /\
    eg_memo g !! n = None /\
    uf_wf u /\ length u = S (length (eg_uf g)) /\ (forall j, uf_find u j = eg_find g j) /\
    (forall r, cls' !! r =
       if decide (r = id) then
         Some (EClass id [n] (an_make A (set_uf (eg_uf g ++ [id]) g) orig id) [])
       else (fun c => c_set_parents (c_parents c ++ new_parents (eg_find g) id (nch n) r) c)
              <$> eg_classes g !! r).
Proof.
  intros Hw Hc E. unfold make_new_eclass in E. cbn [uf_make_set] in E. inv_res.
  pose proof (make_set_wf _ Hw) as Hw'.
  rename H1 into Hass.
  apply push_parents_spec in H0 as (u & cls & -> & (Hu1 & Hu2 & Hu3) & Hcls); cbn; auto; cycle 1.
  { eapply Forall_impl; eauto. cbn. intros. rewrite app_length. cbn. lia. }
  cbn in *. apply bool_decide_eq_true in Hass.
  rewrite app_length in Hu2. cbn in Hu2.
  exists u. eexists. split_and!; [done|by destruct g|done|done|lia| |].
  - intros. rewrite Hu3. by rewrite make_set_find.
  - intros r. case_decide as Hd; subst.
    + by rewrite lookup_insert.
    + rewrite lookup_insert_ne by done. rewrite Hcls.
      destruct (eg_classes g !! r); cbn; [|done]. do 3 f_equal.
      apply new_parents_ext. intros j. unfold eg_find. cbn. by rewrite make_set_find.
Qed.

Lemma valid_id_lt (g : egraph) i : valid_id g i = true <-> i < length (eg_uf g).
Proof. unfold valid_id. apply Nat.ltb_lt. Qed.

Lemma forallb_valid (g : egraph) cs :
  forallb (valid_id g) cs = true <-> Forall (fun c => c < length (eg_uf g)) cs.
Proof.
  rewrite forallb_forall, Forall_forall. setoid_rewrite elem_of_list_In.
  setoid_rewrite valid_id_lt. done.
Qed.

Inductive add_spec (n : node) (g : egraph) : egraph -> nat -> option nat -> Prop :=
| as_hit e id :
    eg_memo g !! canon g n = Some e ->
    (eg_explain g = None /\ id = e) \/
      (exists x, eg_explain g = Some x /\ ex_memo x !! n = Some id) ->
    add_spec n g g id None
| as_alias e x x1 x2 u :
    eg_memo g !! canon g n = Some e ->
    eg_explain g = Some x -> ex_memo x !! n = None ->
    ex_add x n (length (eg_uf g)) = Ok x1 ->
    ex_union x1 e (length (eg_uf g)) JCong = Ok x2 ->
    u = <[length (eg_uf g) := eg_find g e]> (eg_uf g ++ [length (eg_uf g)]) ->
    add_spec n g (set_explain (Some x2) (set_nodes (eg_nodes g ++ [n]) (set_uf u g)))
             (length (eg_uf g)) None
| as_new u cls' ex' :
    eg_memo g !! canon g n = None ->
    uf_wf u -> length u = S (length (eg_uf g)) -> (forall j, uf_find u j = eg_find g j) ->
    (forall r, cls' !! r =
       if decide (r = length (eg_uf g)) then
         Some (EClass (length (eg_uf g)) [canon g n]
                 (an_make A (set_uf (eg_uf g ++ [length (eg_uf g)]) g) n (length (eg_uf g))) [])
       else (fun c => c_set_parents
              (c_parents c ++ new_parents (eg_find g) (length (eg_uf g)) (nch (canon g n)) r) c)
              <$> eg_classes g !! r) ->
    match eg_explain g with
    | None => ex' = None
    | Some x => exists x', ex_add x n (length (eg_uf g)) = Ok x' /\ ex' = Some x'
    end ->
    add_spec n g
      (set_explain ex' (set_memo (<[canon g n := length (eg_uf g)]> (eg_memo g))
        (set_classes cls' (set_pending (length (eg_uf g) :: eg_pending g)
          (set_nodes (eg_nodes g ++ [n]) (set_uf u g))))))
      (length (eg_uf g)) (Some (length (eg_uf g))).

Lemma add_core_spec n (g g' : egraph) id o :
  uf_wf (eg_uf g) -> add_core A n g = Ok (g', id, o) ->
  Forall (fun c => c < length (eg_uf g)) (nch n) /\ add_spec n g g' id o.
Proof.
  intros Hw E. unfold add_core in E.
  destruct (forallb (valid_id g) (nch n)) eqn:Ev; cbn [negb] in E; [|done].
  apply forallb_valid in Ev. split; [done|].
  destruct (eg_memo g !! canon g n) as [e|] eqn:Em.
  - destruct (eg_explain g) as [x|] eqn:Ex.
    + destruct (ex_memo x !! n) as [e'|] eqn:Ee.
      * inv_res. eapply as_hit; eauto.
      * cbn [uf_make_set uf_union] in E. inv_res. eapply as_alias; eauto.
    + inv_res. eapply as_hit; eauto.
  - inv_res. destruct x as [g1 id1].
    apply make_new_eclass_spec in H0 as (u & cls & -> & -> & _ & Hu1 & Hu2 & Hu3 & Hcls); auto.
    2:{ cbn. apply Forall_fmap. eapply Forall_impl; eauto. intros. cbn. by apply uf_find_lt. }
    cbn in E. destruct (eg_explain g) as [x|] eqn:Ex.
    + inv_res. apply as_new; auto. rewrite Ex. eauto.
    + inv_res.
      replace (set_memo _ _) with (set_explain None (set_memo (<[canon g n:=length (eg_uf g)]> (eg_memo g))
         (set_classes cls (set_pending (length (eg_uf g) :: eg_pending g)
             (set_nodes (eg_nodes g ++ [n]) (set_uf u g)))))).
      * apply as_new; auto. by rewrite Ex.
      * unfold set_explain, set_memo, set_classes, set_pending, set_nodes, set_uf. cbn. by rewrite Ex.
Qed.

(** What [perform_union_core] does. *)
Definition union_queue (q : uqueue) (did1 did2 : bool) (p1 p2 : list nat) : uqueue :=
  let q := if did1 then uq_extend q p1 else q in
  if did2 then uq_extend q p2 else q.

Inductive union_spec (e1 e2 : nat) (rule : option justif) (g : egraph) : egraph -> option nat -> Prop :=
| us_same u ex' :
    eg_find g e1 = eg_find g e2 -> uf_equiv (eg_uf g) u ->
    match eg_explain g, rule with
    | Some x, Some (JRule r) => exists x', alternate_rewrite x e1 e2 (JRule r) = Ok x' /\ ex' = Some x'
    | _, _ => ex' = eg_explain g
    end ->
    union_spec e1 e2 rule g (set_explain ex' (set_clean false (set_uf u g))) None
| us_union id1 id2 k1 k2 d did1 did2 u ex' :
    (id1 = eg_find g e1 /\ id2 = eg_find g e2) \/ (id1 = eg_find g e2 /\ id2 = eg_find g e1) ->
    id1 <> id2 ->
    eg_classes g !! id1 = Some k1 -> eg_classes g !! id2 = Some k2 ->
    length (c_parents k2) <= length (c_parents k1) ->
    (length (c_parents k1) = length (c_parents k2) -> id1 = eg_find g e1) ->
    c_id k1 = id1 ->
    an_merge A (c_data k1) (c_data k2) = (d, (did1, did2)) ->
    uf_wf u -> length u = length (eg_uf g) ->
    (forall j, uf_find u j = if decide (eg_find g j = id2) then id1 else eg_find g j) ->
    match eg_explain g with
    | None => ex' = None
    | Some x => exists j x', rule = Some j /\ ex_union x e1 e2 j = Ok x' /\ ex' = Some x'
    end ->
    union_spec e1 e2 rule g
      (EGraph ex' u (eg_nodes g) (eg_memo g) (reverse (c_parents k2) ++ eg_pending g)
         (union_queue (eg_apending g) did1 did2 (c_parents k1) (c_parents k2))
         (<[id1 := EClass (c_id k1) (concat_vecs (c_nodes k1) (c_nodes k2)) d
                          (concat_vecs (c_parents k1) (c_parents k2))]> (delete id2 (eg_classes g)))
         (eg_by_op g) false (eg_log g))
      (Some id1).

Lemma perform_union_core_spec e1 e2 rule (g g' : egraph) o :
  uf_wf (eg_uf g) -> perform_union_core A e1 e2 rule g = Ok (g', o) ->
  e1 < length (eg_uf g) /\ e2 < length (eg_uf g) /\ union_spec e1 e2 rule g g' o.
Proof.
  intros Hw E. unfold perform_union_core in E.
  destruct (valid_id g e1 && valid_id g e2) eqn:Ev; cbn [negb] in E; [|done].
  apply andb_prop in Ev as [V1 V2]. apply valid_id_lt in V1, V2.
  split; [done|]. split; [done|].
  destruct (eg_find_mut_spec (set_clean false g) e1 Hw V1) as (u1 & E1 & He1).
  rewrite E1 in E. clear E1. pose proof He1 as (Hw1 & Hl1 & Hf1). cbn in Hl1, Hf1.
  destruct (eg_find_mut_spec (set_uf u1 (set_clean false g)) e2) as (u2 & E2 & He2); cbn; auto; [lia|].
  rewrite E2 in E. clear E2. pose proof He2 as (Hw2 & Hl2 & Hf2). cbn in Hl2, Hf2.
  assert (He : uf_equiv (eg_uf g) u2) by (by eapply uf_equiv_trans).
  cbn in He.
  change (eg_find (set_clean false g) e1) with (eg_find g e1) in E.
  assert (EF : eg_find (set_uf u1 (set_clean false g)) e2 = eg_find g e2).
  { unfold eg_find. cbn. by rewrite Hf1. }
  rewrite EF in E.
  case_decide as Hd.
  - cbn in E. destruct rule as [[r|]|]; destruct (eg_explain g) as [x|] eqn:Ex; inv_res;
    try (replace (set_uf u2 (set_uf u1 (set_clean false g))) with
      (set_explain (eg_explain g) (set_clean false (set_uf u2 g))) by (by destruct g);
      apply us_same; auto; rewrite Ex; auto).
    eauto.
  - cbn [eg_classes set_uf set_clean] in E. inv_res.
    rename x into k1, x0 into k2, H1 into Ek1, H0 into Ek2.
    set (a := eg_find g e1) in *. set (b := eg_find g e2) in *.
    assert (Hpa : uf_parent u2 a = a).
    { apply uf_find_root_iff; auto. rewrite (proj2 (proj2 He)). by apply uf_find_idem. }
    assert (Hpb : uf_parent u2 b = b).
    { apply uf_find_root_iff; auto. rewrite (proj2 (proj2 He)). by apply uf_find_idem. }
    assert (Hla : a < length u2).
    { destruct He as (_ & -> & _). by apply uf_find_lt. }
    assert (Hlb : b < length u2).
    { destruct He as (_ & -> & _). by apply uf_find_lt. }
    cbn [eg_explain set_uf set_clean] in E.
    destruct (length (c_parents k1) <? length (c_parents k2)) eqn:Esw.
    + apply Nat.ltb_lt in Esw. inv_res.
      assert (Hx : exists ex', x = set_explain ex' (set_uf u2 (set_uf u1 (set_clean false g))) /\
        match eg_explain g with
        | None => ex' = None
        | Some x => exists j x', rule = Some j /\ ex_union x e1 e2 j = Ok x' /\ ex' = Some x'
        end).
      { destruct (eg_explain g) as [x'|] eqn:Ex; inv_res.
        - eexists. split; [done|]. eauto.
        - exists None. split; [|done]. destruct g; cbn in *; subst. done. }
      destruct Hx as (ex' & -> & Hex).
      cbn in *.
      destruct (an_merge A (c_data x1) (c_data x0)) as [d [did1 did2]] eqn:Em. inv_res.
      rewrite lookup_delete_ne in H2 by congruence. 
      assert (x0 = k1) by congruence. assert (x1 = k2) by congruence. subst.
      rename H3 into H4; apply Nat.eqb_eq in H4.
      cbn. rewrite <- H4.
      replace (set_classes _ _) with
        (EGraph ex' (<[a := b]> u2) (eg_nodes g) (eg_memo g) (reverse (c_parents k1) ++ eg_pending g)
         (union_queue (eg_apending g) did1 did2 (c_parents k2) (c_parents k1))
         (<[b := EClass (c_id k2) (concat_vecs (c_nodes k2) (c_nodes k1)) d
                          (concat_vecs (c_parents k2) (c_parents k1))]> (delete a (eg_classes g)))
         (eg_by_op g) false (eg_log g)) by (rewrite <- H4; by destruct g).
      apply us_union; auto; try lia; try congruence.
      * apply union_wf; auto.
      * rewrite insert_length. by destruct He as (_ & -> & _).
      * intros j. rewrite union_find; auto. destruct He as (_ & _ & HF). by rewrite !HF.
    + apply Nat.ltb_ge in Esw. inv_res.
      assert (Hx : exists ex', x = set_explain ex' (set_uf u2 (set_uf u1 (set_clean false g))) /\
        match eg_explain g with
        | None => ex' = None
        | Some x => exists j x', rule = Some j /\ ex_union x e1 e2 j = Ok x' /\ ex' = Some x'
        end).
      { destruct (eg_explain g) as [x'|] eqn:Ex; inv_res.
        - eexists. split; [done|]. eauto.
        - exists None. split; [|done]. destruct g; cbn in *; subst. done. }
      destruct Hx as (ex' & -> & Hex).
      cbn in *.
      destruct (an_merge A (c_data x1) (c_data x0)) as [d [did1 did2]] eqn:Em. inv_res.
      rewrite lookup_delete_ne in H2 by congruence.
      assert (x0 = k2) by congruence. assert (x1 = k1) by congruence. subst.
      rename H3 into H4; apply Nat.eqb_eq in H4.
      cbn.
      replace (set_classes _ _) with
        (EGraph ex' (<[b := a]> u2) (eg_nodes g) (eg_memo g) (reverse (c_parents k2) ++ eg_pending g)
         (union_queue (eg_apending g) did1 did2 (c_parents k1) (c_parents k2))
         (<[a := EClass (c_id k1) (concat_vecs (c_nodes k1) (c_nodes k2)) d
                          (concat_vecs (c_parents k1) (c_parents k2))]> (delete b (eg_classes g)))
         (eg_by_op g) false (eg_log g)) by (by destruct g).
      apply us_union; auto; try lia; try congruence.
      * apply union_wf; auto.
      * rewrite insert_length. by destruct He as (_ & -> & _).
      * intros j. rewrite union_find; auto. destruct He as (_ & _ & HF). by rewrite !HF.
Qed.

End steps.
