(** Adding and looking up expressions and pattern instances. *)
From Verif Require Import Base UnionFind EGraphModel EGraphSteps EGraphInv EGraphPres EGraphRuns Spec EGraphMain EGraphReach
  EGraphOps Terms RecExprModel RecExprProofs ExprModel PatSpec.

Section terms.
Context {Op : Type}.
Lemma Forall2_Forall_impl {X Y} (P Q : X -> Y -> Prop) xs ys :
  Forall2 P xs ys -> Forall (fun x => forall y, P x y -> Q x y) xs -> Forall2 Q xs ys.
Proof. induction 1; intros Hf; inversion Hf; subst; constructor; auto. Qed.

(** Size of a term. *)
Fixpoint tsize (t : term Op) : nat := match t with TNode _ ts => S (sum_list_with tsize ts) end.
Lemma tsize_child f ts (t : term Op) : t ∈ ts -> tsize t < tsize (TNode f ts).
Proof.
  intros Ht. cbn. assert (tsize t <= sum_list_with tsize ts); [|lia].
  induction Ht as [|t u ts _ IH]; cbn; lia.
Qed.

(** In a rooted expression all nodes are below the root. *)
Lemma rooted_below (e : list (node Op)) t : dag e -> rooted e -> ExprTree e t ->
  forall i u, Tree e i u -> i < length e - 1 -> tsize u < tsize t.
Proof.
  intros Hd Hr [Hne Ht] i. remember (length e - i) as k eqn:Ek. revert i Ek.
  induction (lt_wf k) as [k _ IH]. intros i Ek u Hu Hi.
  destruct (Hr i) as (j & n & Hj & Hin); [lia|]. pose proof (Hd _ _ _ Hj Hin) as Hij.
  pose proof (lookup_lt_Some _ _ _ Hj) as Hjl. destruct (dag_Tree e j Hd Hjl) as [w Hw].
  assert (Huw : tsize u < tsize w).
  { inversion Hw as [? f cs ts Hj' Hcs]; subst. rewrite Hj in Hj'. injection Hj' as ->. cbn in Hin.
    destruct (elem_of_list_lookup_1 _ _ Hin) as [q Hq]. destruct (Forall2_lookup_l _ _ _ _ _ Hcs Hq) as (u' & Hq' & Hu').
    rewrite (TreeOf_fun _ _ _ _ Hu Hu'). apply tsize_child. by eapply elem_of_list_lookup_2. }
  destruct (decide (j = length e - 1)) as [->|Hne'].
  - by rewrite (TreeOf_fun _ _ _ _ Ht Hw).
  - assert (tsize w < tsize t); [|lia]. eapply IH; [|reflexivity|exact Hw|]; lia.
Qed.
Lemma rooted_compact `{Countable Op} (e : list (node Op)) t : dag e -> rooted e -> ExprTree e t ->
  forall i, i < length e - 1 -> ~ Tree e i t.
Proof. intros Hd Hr Ht i Hi Hu. pose proof (rooted_below e t Hd Hr Ht i t Hu Hi). lia. Qed.

(** Represented root means represented nodes. *)
Lemma rooted_sub (P : term Op -> Prop) (e : list (node Op)) t :
  (forall f ts, P (TNode f ts) -> Forall P ts) -> dag e -> rooted e -> ExprTree e t -> P t ->
  forall i u, Tree e i u -> P u.
Proof.
  intros HP Hd Hr [Hne Ht] Pt i. remember (length e - i) as k eqn:Ek. revert i Ek.
  induction (lt_wf k) as [k _ IH]. intros i Ek u Hu. pose proof (Tree_lt _ _ _ Hu) as Hlt.
  destruct (decide (i = length e - 1)) as [->|Hne'].
  { by rewrite (TreeOf_fun _ _ _ _ Hu Ht). }
  destruct (Hr i) as (j & n & Hj & Hin); [lia|]. pose proof (Hd _ _ _ Hj Hin) as Hij.
  pose proof (lookup_lt_Some _ _ _ Hj) as Hjl. destruct (dag_Tree e j Hd Hjl) as [w Hw].
  assert (Pw : P w) by (eapply IH; [|reflexivity|exact Hw]; lia).
  inversion Hw as [? f cs ts Hj' Hcs]; subst. rewrite Hj in Hj'. injection Hj' as ->. cbn in Hin.
  destruct (elem_of_list_lookup_1 _ _ Hin) as [q Hq]. destruct (Forall2_lookup_l _ _ _ _ _ Hcs Hq) as (u' & Hq' & Hu').
  rewrite (TreeOf_fun _ _ _ _ Hu Hu'). specialize (HP _ _ Pw). rewrite Forall_forall in HP. apply HP.
  by eapply elem_of_list_lookup_2.
Qed.
End terms.

Section expr.
Context {Op D : Type} `{Countable Op}.
Notation node := (node Op).
Notation pnode := (pnode Op).
Notation egraph := (egraph Op D).
Notation prog := (prog Op D).
Implicit Types (t : term (pop Op)) (s : nat -> option nat) (g : egraph).

(** Representation read off the table of all nodes ever added. *)
Inductive NRep g s : term (pop Op) -> nat -> Prop :=
| NRep_var v ts i : s v = Some i -> NRep g s (TNode (PVar v) ts) (eg_find g i)
| NRep_node f ts cs k :
    eg_nodes g !! k = Some (Node f cs) ->
    Forall2 (fun t x => NRep g s t (eg_find g x)) ts cs ->
    NRep g s (TNode (POp f) ts) (eg_find g k).

(** Children equal up to [find] are interchangeable. *)
Lemma Forall2_canon {X} (R : X -> nat -> Prop) (f : nat -> nat) (n m : node) ts :
  canonf f n = canonf f m -> Forall2 (fun y x => R y (f x)) ts (nch n) -> Forall2 (fun y x => R y (f x)) ts (nch m).
Proof.
  intros E Hf. apply canonf_eq_inv in E as (_ & El & Hk). apply Forall2_same_length_lookup in Hf as [Hl Hf].
  apply Forall2_same_length_lookup. split; [congruence|]. intros k t d Ht Hd.
  destruct (lookup_lt_is_Some_2 (nch n) k) as [c Hc]; [rewrite El; by eapply lookup_lt_Some|].
  rewrite <- (Hk k c d Hc Hd). by eapply Hf.
Qed.

Lemma NRep_grows g g' s t r : grows g g' -> NRep g s t r -> NRep g' s t (eg_find g' r).
Proof.
  intros G. destruct G as [Hco [l Hn] _]. revert r. induction t as [[f|v] ts IH] using term_sind; intros r Hr.
  - inversion Hr as [|? ? cs k Hk Hcs]; subst.
    rewrite (Hco k). econstructor; [rewrite Hn; by apply lookup_app_l_Some|].
    eapply Forall2_Forall_impl; [exact Hcs|]. eapply Forall_impl; [exact IH|].
    cbn. intros t Ht x Hx. rewrite <- (Hco x). by apply Ht.
  - inversion Hr; subst. rewrite (Hco i). by constructor.
Qed.

(** Agreement with the listed e-nodes. *)
Lemma NRep_PRep g s t r : Inv g -> listed g -> (NRep g s t r <-> PRep g s t r).
Proof.
  intros I Ls. revert r. induction t as [[f|v] ts IH] using term_sind; intros r; split; intros Hr.
  - inversion Hr as [|? ? cs k Hk Hcs]; subst.
    destruct (Ls _ _ Hk) as (c & [f' ds] & Hc & Hn & En). assert (f' = f) as -> by (by apply canonf_eq_inv in En as (? & _)).
    econstructor; [exact Hc|exact Hn|].
    eapply (Forall2_canon (PRep g s) (eg_find g) (Node f cs) (Node f ds)); [done|]. cbn.
    eapply Forall2_Forall_impl; [exact Hcs|]. eapply Forall_impl; [exact IH|]. cbn. intros t Ht x Hx. by apply Ht.
  - inversion Hr as [|? ? cs r' c Hc Hn Hcs]; subst.
    destruct (ci_nodes _ _ _ _ _ _ _ (iv_c _ I) _ _ _ Hc Hn) as (k & [f' ds] & Hm & <- & Em).
    assert (f' = f) as -> by (by apply canonf_eq_inv in Em as (? & _)).
    econstructor; [done|].
    eapply (Forall2_canon (NRep g s) (eg_find g) (Node f cs) (Node f ds)); [done|]. cbn.
    eapply Forall2_Forall_impl; [exact Hcs|]. eapply Forall_impl; [exact IH|]. cbn. intros t Ht x Hx. by apply Ht.
  - inversion Hr; subst. by constructor.
  - inversion Hr; subst. by constructor.
Qed.

(** Ground terms. *)
Lemma Rep_PRep g s (t : term Op) r : Rep g t r <-> PRep g s (embed t) r.
Proof.
  revert r. induction t as [f ts IH] using term_sind. intros r. cbn. split; intros Hr.
  - inversion Hr as [? ? cs ? c Hc Hn Hcs]; subst. econstructor; [exact Hc|exact Hn|].
    clear -IH Hcs. revert IH. induction Hcs; intros IH; inversion IH; subst; cbn; constructor; auto.
    match goal with HH : forall r, Rep _ _ r <-> _ |- _ => by apply HH end.
  - inversion Hr as [|? ? cs ? c Hc Hn Hcs]; subst. econstructor; [exact Hc|exact Hn|].
    clear -IH Hcs. revert cs Hcs. induction IH; intros cs Hcs; inversion Hcs; subst; constructor; auto.
    match goal with HH : forall r, Rep _ _ r <-> _ |- _ => by apply HH end.
Qed.
Lemma PRep_tsubst g s th t r : (forall v i, s v = Some i -> occurs v t -> Rep g (th v) (eg_find g i)) ->
  PRep g s t r -> Rep g (tsubst th t) r.
Proof.
  revert r. induction t as [[f|v] ts IH] using term_sind; intros r Hth Hr; cbn.
  - inversion Hr as [|? ? cs ? c Hc Hn Hcs]; subst. econstructor; [exact Hc|exact Hn|].
    assert (Hth' : forall t, t ∈ ts -> forall v i, s v = Some i -> occurs v t -> Rep g (th v) (eg_find g i)).
    { intros t Ht v i Hv Ho. eapply Hth; eauto. by econstructor. }
    clear -IH Hcs Hth'. revert IH Hth'. induction Hcs; intros IH Hth'; inversion IH; subst; cbn; constructor.
    + match goal with HH : forall r, _ -> PRep _ _ x r -> _ |- _ => apply HH; [|done] end. apply Hth'. left.
    + apply IHHcs; [done|]. intros. eapply Hth'; eauto. by right.
  - inversion Hr; subst. apply Hth; [done|constructor].
Qed.
Lemma PRep_canon g s t r : Inv g -> PRep g s t r -> eg_find g r = r.
Proof.
  intros I Hr. destruct Hr as [v ts i Hi|f ts cs r c Hc _ _]; [by apply Inv_find_idem|].
  assert (Hs : is_Some (eg_classes g !! r)) by eauto.
  apply (ci_cls _ _ _ _ _ _ _ (iv_c _ I)) in Hs. apply Hs.
Qed.

(** ** Runs of the add loops *)
Section run.
Context (L : lang Op) (A : analysis Op D).

Definition ids_ok g (p0 : list pnode) s (ids : list nat) : Prop :=
  forall j i, ids !! j = Some i -> exists t, Tree p0 j t /\ NRep g s t (eg_find g i).
Lemma ids_ok_grows g g' p0 s ids : grows g g' -> ids_ok g p0 s ids -> ids_ok g' p0 s ids.
Proof.
  intros G Hi j i Hj. destruct (Hi j i Hj) as (t & Ht & Hr). exists t. split; [done|].
  rewrite <- (gr_find _ _ G i). by eapply NRep_grows.
Qed.
Lemma ids_ok_snoc g p0 s ids i t : ids_ok g p0 s ids -> Tree p0 (length ids) t -> NRep g s t (eg_find g i) ->
  ids_ok g p0 s (ids ++ [i]).
Proof.
  intros Hi Ht Hr j k Hj. apply lookup_app_Some in Hj as [Hj|[Hge Hj]]; [by apply Hi|].
  apply list_lookup_singleton_Some in Hj as [E <-]. assert (j = length ids) as -> by lia. eauto.
Qed.

Lemma map_children_o_inv (f : nat -> option nat) (n m : node) : map_children_o f n = Ok m ->
  nop m = nop n /\ Forall2 (fun c d => f c = Some d) (nch n) (nch m).
Proof.
  unfold map_children_o. intros E. inv_res. cbn. split; [done|]. by apply mapM_Some_1.
Qed.
Lemma api_add_prog fuel n g : (fst <$> api_add A (modify_n L A fuel) n g) =
  run_prog L A fuel (modify_n L A fuel) (PAdd n (fun _ => PRet)) g.
Proof. cbn [run_prog]. by destruct (api_add A (modify_n L A fuel) n g) as [[]| |]. Qed.

(** The effect of one [add] in terms of the table. *)
Lemma api_add_step (Q : prog -> Prop) ex fuel n g g' i :
  (forall n, Q (PAdd n (fun _ => PRet))) -> reach L A Q ex g ->
  api_add A (modify_n L A fuel) n g = Ok (g', i) ->
  reach L A Q ex g' /\ grows g g' /\
  exists m, eg_nodes g' !! i = Some m /\ canonf (eg_find g') n = canonf (eg_find g') m.
Proof.
  intros HQ R E. pose proof (api_add_prog fuel n g) as Ep. rewrite E in Ep. cbn [fmap res_fmap fst] in Ep. symmetry in Ep.
  assert (R' : reach L A Q ex g') by (by eapply reach_run).
  split_and!; [done|eapply run_grows; [|exact Ep]; by eapply reach_mono|].
  apply (reachable_hist L A ex); [by eapply reach_mono|].
  unfold api_add in E. inv_res. destruct x as [g1 k]. inv_res. cbn. left.
Qed.
Lemma add_node_step (Q : prog -> Prop) ex fuel f cs m g g' i p0 s ids :
  (forall n, Q (PAdd n (fun _ => PRet))) -> reach L A Q ex g -> ids_ok g p0 s ids ->
  p0 !! length ids = Some (Node (POp f) cs) ->
  map_children_o (fun c => ids !! c) (Node f cs) = Ok m ->
  api_add A (modify_n L A fuel) m g = Ok (g', i) ->
  reach L A Q ex g' /\ grows g g' /\ ids_ok g' p0 s ids /\
  exists t, Tree p0 (length ids) t /\ NRep g' s t (eg_find g' i).
Proof.
  intros HQ R Hids Hp Em E. destruct (api_add_step Q ex fuel m g g' i HQ R E) as (R' & G & [f' ds] & Hi & Ec).
  pose proof (ids_ok_grows _ _ _ _ _ G Hids) as Hids'. split_and!; auto.
  apply map_children_o_inv in Em as [Eo Hcs]. cbn in Eo, Hcs.
  assert (f' = f) as -> by (apply canonf_eq_inv in Ec as (E1 & _); cbn in E1; congruence).
  assert (Hts : exists ts, Forall2 (Tree p0) cs ts /\ Forall2 (fun t x => NRep g' s t (eg_find g' x)) ts (nch m)).
  { clear -Hcs Hids'. induction Hcs as [|c d cs ds Hc _ (ts & H1 & H2)]; [by exists []|].
    destruct (Hids' _ _ Hc) as (t & Ht & Hr). exists (t :: ts). split; by constructor. }
  destruct Hts as (ts & Ht1 & Ht2). exists (TNode (POp f) ts). split; [by econstructor|].
  econstructor; [exact Hi|]. by eapply (Forall2_canon (NRep g' s) (eg_find g') m (Node f ds)).
Qed.

Lemma subst_fun (s : subst) v i : subst_index s v = Ok i -> subst_get s v = Some i.
Proof. unfold subst_index. destruct (subst_get s v); cbn; intros E; by inv_res. Qed.

Lemma add_inst_loop_ok (Q : prog -> Prop) ex fuel p0 p (s : subst) ids g g' ids' :
  (forall n, Q (PAdd n (fun _ => PRet))) -> pat_ok p0 -> reach L A Q ex g ->
  (exists pre, p0 = pre ++ p /\ length pre = length ids) -> ids_ok g p0 (subst_get s) ids ->
  add_inst_loop A (modify_n L A fuel) p s ids g = Ok (g', ids') ->
  reach L A Q ex g' /\ grows g g' /\ ids_ok g' p0 (subst_get s) ids' /\ length ids' = length p0.
Proof.
  intros HQ Hok. revert ids g. induction p as [|[o cs] p IH]; intros ids g R (pre & Hpre & Hl) Hids E; cbn [add_inst_loop] in E.
  - inv_res. split_and!; auto.
    + apply grows_refl. eapply (reachable_Inv L A). by eapply reach_mono.
    + subst. by rewrite app_nil_r.
  - assert (Hp : p0 !! length ids = Some (Node o cs)) by (rewrite Hpre, <- Hl; by apply list_lookup_middle).
    assert (Hpre' : forall i, exists pre0, p0 = pre0 ++ p /\ length pre0 = length (ids ++ [i])).
    { intros i. exists (pre ++ [Node o cs]). rewrite <- app_assoc, !app_length. cbn. split; [done|lia]. }
    cbn [nop nch] in E. destruct o as [f|v].
    + inv_res. destruct x0 as [g1 i].
      destruct (add_node_step Q ex fuel f cs x g g1 i p0 _ ids HQ R Hids Hp H0 H1) as (R1 & G1 & Hids1 & t & Ht & Hr).
      destruct (IH (ids ++ [i]) g1 R1 (Hpre' i)) as (R' & G' & Hids' & Hl'); auto.
      { by eapply ids_ok_snoc. }
      split_and!; auto. by eapply grows_trans.
    + inv_res. unfold find_res in H1. destruct (valid_id g x); [|done]. inv_res.
      assert (I : Inv g) by (eapply (reachable_Inv L A); by eapply reach_mono).
      destruct (IH (ids ++ [eg_find g x]) g R (Hpre' _)) as (R' & G' & Hids' & Hl'); auto.
      eapply ids_ok_snoc; [done| |].
      * econstructor; [done|]. unfold pat_ok in Hok. rewrite Forall_lookup in Hok. specialize (Hok _ _ Hp). cbn in Hok. subst.
        constructor.
      * rewrite Inv_find_idem by done. constructor. by apply subst_fun.
Qed.
Lemma apply_pat_loop_ok (Q : prog -> Prop) ex fuel p0 p (s : subst) ids g g' ids' :
  (forall n, Q (PAdd n (fun _ => PRet))) -> pat_ok p0 -> reach L A Q ex g ->
  (exists pre, p0 = pre ++ p /\ length pre = length ids) -> ids_ok g p0 (subst_get s) ids ->
  apply_pat_loop A (modify_n L A fuel) p s ids g = Ok (g', ids') ->
  reach L A Q ex g' /\ grows g g' /\ ids_ok g' p0 (subst_get s) ids' /\ length ids' = length p0.
Proof.
  intros HQ Hok. revert ids g. induction p as [|[o cs] p IH]; intros ids g R (pre & Hpre & Hl) Hids E; cbn [apply_pat_loop] in E.
  - inv_res. split_and!; auto.
    + apply grows_refl. eapply (reachable_Inv L A). by eapply reach_mono.
    + subst. by rewrite app_nil_r.
  - assert (Hp : p0 !! length ids = Some (Node o cs)) by (rewrite Hpre, <- Hl; by apply list_lookup_middle).
    assert (Hpre' : forall i, exists pre0, p0 = pre0 ++ p /\ length pre0 = length (ids ++ [i])).
    { intros i. exists (pre ++ [Node o cs]). rewrite <- app_assoc, !app_length. cbn. split; [done|lia]. }
    cbn [nop nch] in E. destruct o as [f|v].
    + inv_res. destruct x0 as [g1 i].
      destruct (add_node_step Q ex fuel f cs x g g1 i p0 _ ids HQ R Hids Hp H0 H1) as (R1 & G1 & Hids1 & t & Ht & Hr).
      assert (I : Inv g1) by (eapply (reachable_Inv L A); by eapply reach_mono).
      destruct (IH (ids ++ [eg_find g1 i]) g1 R1 (Hpre' _)) as (R' & G' & Hids' & Hl'); auto.
      { eapply ids_ok_snoc; eauto. by rewrite Inv_find_idem. }
      split_and!; auto. by eapply grows_trans.
    + inv_res.
      destruct (IH (ids ++ [x]) g R (Hpre' _)) as (R' & G' & Hids' & Hl'); auto.
      eapply ids_ok_snoc; [done| |].
      * econstructor; [done|]. unfold pat_ok in Hok. rewrite Forall_lookup in Hok. specialize (Hok _ _ Hp). cbn in Hok. subst.
        constructor.
      * constructor. by apply subst_fun.
Qed.

Lemma ids_ok_nil g p0 s : ids_ok g p0 s [].
Proof. intros j i Hj. done. Qed.
Lemma ids_ok_last g p0 s ids i : ids_ok g p0 s ids -> length ids = length p0 -> last ids = Some i ->
  exists t, ExprTree p0 t /\ NRep g s t (eg_find g i).
Proof.
  intros Hi Hl E. rewrite last_lookup in E. destruct (Hi _ _ E) as (t & Ht & Hr). exists t. split; [|done].
  split; [by destruct p0, ids|]. rewrite Hl in Ht. rewrite Nat.sub_1_r. exact Ht.
Qed.

Lemma add_inst_ok (Q : prog -> Prop) ex fuel p (s : subst) g g' i :
  (forall n, Q (PAdd n (fun _ => PRet))) -> pat_ok p -> reach L A Q ex g ->
  add_instantiation_noncanonical A (modify_n L A fuel) p s g = Ok (g', i) ->
  reach L A Q ex g' /\ grows g g' /\ exists t, ExprTree p t /\ NRep g' (subst_get s) t (eg_find g' i).
Proof.
  intros HQ Hok R E. unfold add_instantiation_noncanonical in E. inv_res. destruct x as [g1 ids]. inv_res.
  apply (add_inst_loop_ok Q ex fuel p p s [] g) in H0 as (R' & G & Hids & Hl); auto.
  - split_and!; auto. by eapply ids_ok_last.
  - by exists [].
  - apply ids_ok_nil.
Qed.
Lemma apply_pat_ok (Q : prog -> Prop) ex fuel p (s : subst) g g' i :
  (forall n, Q (PAdd n (fun _ => PRet))) -> pat_ok p -> reach L A Q ex g ->
  apply_pat A (modify_n L A fuel) p s g = Ok (g', i) ->
  reach L A Q ex g' /\ grows g g' /\ exists t, ExprTree p t /\ NRep g' (subst_get s) t (eg_find g' i).
Proof.
  intros HQ Hok R E. unfold apply_pat in E. inv_res. destruct x as [g1 ids]. inv_res.
  apply (apply_pat_loop_ok Q ex fuel p p s [] g) in H0 as (R' & G & Hids & Hl); auto.
  - split_and!; auto. by eapply ids_ok_last.
  - by exists [].
  - apply ids_ok_nil.
Qed.

(** Expressions are patterns without variables. *)
Lemma add_expr_loop_inst md (e : list node) (s : subst) ids g :
  add_expr_loop A md e ids g = add_inst_loop A md (embed_node <$> e) s ids g.
Proof.
  revert ids g. induction e as [|[f cs] e IH]; intros ids g; [done|]. cbn.
  destruct (map_children_o _ _) as [m| |]; [|done..]. cbn. destruct (api_add A md m g) as [[g1 i]| |]; [|done..]. cbn. apply IH.
Qed.
Lemma embed_tree (e : list node) i t : Tree (embed_node <$> e) i t <-> exists u, t = embed u /\ Tree e i u.
Proof.
  split.
  - revert i t. apply (TreeOf_ind' _ (fun i t => exists u, t = embed u /\ Tree e i u)).
    intros i o cs ts Hi _ IH. rewrite list_lookup_fmap in Hi. destruct (e !! i) as [[f ds]|] eqn:Ei; [|done].
    cbn in Hi. injection Hi as <- <-.
    assert (Hu : exists us, ts = embed <$> us /\ Forall2 (Tree e) ds us).
    { clear -IH. induction IH as [|d t ds ts (u & -> & Hu) _ (us & -> & Hus)]; [by exists []|].
      exists (u :: us). split; [done|by constructor]. }
    destruct Hu as (us & -> & Hus). exists (TNode f us). split; [done|]. by econstructor.
  - intros (u & -> & Hu). revert i u Hu. apply (TreeOf_ind' _ (fun i u => Tree (embed_node <$> e) i (embed u))).
    intros i f cs ts Hi _ IH. cbn. econstructor; [by rewrite list_lookup_fmap, Hi|].
    clear -IH. cbn. induction IH; cbn; constructor; auto.
Qed.
Lemma embed_exprtree (e : list node) t : ExprTree (embed_node <$> e) t <-> exists u, t = embed u /\ ExprTree e u.
Proof.
  unfold ExprTree. rewrite fmap_length, embed_tree. split.
  - intros (Hne & u & -> & Hu). exists u. split_and!; auto. by intros ->.
  - intros (u & -> & Hne & Hu). split; [|eauto]. by destruct e.
Qed.
Lemma embed_ok (e : list node) : pat_ok (embed_node <$> e).
Proof. unfold pat_ok. apply Forall_fmap, Forall_true. intros []. done. Qed.

Lemma no_prune_add n : no_prune (Op := Op) (D := D) (PAdd n (fun _ => PRet)).
Proof. done. Qed.

Lemma add_expr_rep ex fuel (e : list node) (t : term Op) g g' i :
  reachable_np L A ex g -> ExprTree e t -> add_expr A (modify_n L A fuel) e g = Ok (g', i) ->
  reachable_np L A ex g' /\ grows g g' /\ Rep g' t i.
Proof.
  intros [Hm R] Ht E. unfold add_expr, add_expr_uncanonical in E. inv_res. destruct x as [g1 k]. inv_res.
  rewrite (add_expr_loop_inst _ _ []) in H1.
  destruct (add_inst_ok no_prune ex fuel (embed_node <$> e) [] g g' k) as (R' & G & t' & Ht' & Hr); [done|apply embed_ok|done| |].
  { unfold add_instantiation_noncanonical. rewrite H1. cbn. done. }
  assert (Rn : reachable_np L A ex g') by done. split_and!; auto.
  apply embed_exprtree in Ht' as (u & -> & Hu). rewrite (ExprTree_fun _ _ _ Ht Hu).
  apply (Rep_PRep _ (subst_get [])). apply NRep_PRep; [|by eapply reach_listed|done].
  eapply reachable_Inv. by apply reachable_np_reachable.
Qed.

(** ** Lookup *)
Lemma NRep_fun_clean g s t r r' : Inv g -> eg_pending g = [] -> NRep g s t r -> NRep g s t r' -> r = r'.
Proof.
  intros I Ep. revert r r'. induction t as [[f|v] ts IH] using term_sind; intros r r' H1 H2.
  - inversion H1 as [|? ? cs k Hk Hcs]; subst. inversion H2 as [|? ? ds k' Hk' Hds]; subst.
    eapply Inv_congruent; eauto. apply canonf_eq_intro; cbn.
    + done.
    + by rewrite <- (Forall2_length _ _ _ Hcs), <- (Forall2_length _ _ _ Hds).
    + intros q c d Hc Hd. destruct (Forall2_lookup_r _ _ _ _ _ Hcs Hc) as (t & Ht & Hr).
      pose proof (Forall2_lookup_lr _ _ _ _ _ _ Hds Ht Hd) as Hr'. cbn in Hr, Hr'.
      rewrite Forall_lookup in IH. by eapply IH.
  - inversion H1; subst. inversion H2; subst. congruence.
Qed.
Lemma lookup_NRep g s f cs ts r : Inv g -> eg_pending g = [] ->
  Forall2 (fun t x => NRep g s t (eg_find g x)) ts cs ->
  (eg_lookup g (Node f cs) = Some r <-> NRep g s (TNode (POp f) ts) r).
Proof.
  intros I Ep Hts. rewrite Inv_memo_clean by done. split.
  - intros (k & [f' ds] & Hk & Em & ->). assert (f' = f) as -> by (by apply canonf_eq_inv in Em as (? & _)).
    econstructor; [exact Hk|]. by eapply (Forall2_canon (NRep g s) (eg_find g) (Node f cs) (Node f ds)).
  - intros Hr. inversion Hr as [|? ? ds k Hk Hds]; subst. exists k, (Node f ds). split_and!; auto.
    apply canonf_eq_intro; cbn.
    + done.
    + by rewrite <- (Forall2_length _ _ _ Hts), <- (Forall2_length _ _ _ Hds).
    + intros q c d Hc Hd. destruct (Forall2_lookup_r _ _ _ _ _ Hts Hd) as (t & Ht & Hr1).
      pose proof (Forall2_lookup_lr _ _ _ _ _ _ Hds Ht Hc) as Hr2. cbn in Hr1, Hr2.
      by eapply NRep_fun_clean.
Qed.
Lemma NRep_lt g s t r : Inv g -> (forall v i, s v = Some i -> i < length (eg_uf g)) -> NRep g s t r -> r < length (eg_uf g).
Proof.
  intros I Hs Hr. destruct Hr as [v ts i Hi|f ts cs k Hk _]; apply uf_find_lt; try apply I; [by eapply Hs|].
  rewrite <- (iv_len _ I). by eapply lookup_lt_Some.
Qed.

Implicit Types u : term Op.
(** [ids] are exactly the classes of the first trees of [e0]. *)
Definition ids_exact g (e0 : list node) (ids : list nat) : Prop :=
  forall j i, ids !! j = Some i -> exists u, Tree e0 j u /\ NRep g (fun _ => None) (embed u) i.
Lemma lookup_expr_loop_spec g e0 e ids :
  Inv g -> eg_pending g = [] -> dag e0 -> (exists pre, e0 = pre ++ e /\ length pre = length ids) -> ids_exact g e0 ids ->
  (exists ids', lookup_expr_loop g e ids = Ok (Some ids') /\ ids_exact g e0 ids' /\ length ids' = length e0) \/
  (lookup_expr_loop g e ids = Ok None /\ exists j u, Tree e0 j u /\ forall r, ~ NRep g (fun _ => None) (embed u) r).
Proof.
  intros I Ep Hd. revert ids. induction e as [|[f cs] e IH]; intros ids (pre & Hpre & Hl) Hids; cbn [lookup_expr_loop].
  - left. exists ids. split_and!; auto. rewrite app_nil_r in Hpre. by subst.
  - assert (Hp : e0 !! length ids = Some (Node f cs)) by (rewrite Hpre, <- Hl; by apply list_lookup_middle).
    destruct (mapM_Some_2' (fun c => ids !! c) cs) as (ds & Em & Hf).
    { intros c Hc. apply lookup_lt_is_Some_2. by eapply Hd. }
    unfold map_children_o. cbn [nop nch]. rewrite Em. cbn [expect mbind res_bind].
    assert (Hts : exists ts, Forall2 (Tree e0) cs ts /\ Forall2 (fun u x => NRep g (fun _ => None) (embed u) x) ts ds).
    { clear -Hf Hids. induction Hf as [|c d cs ds Hc _ (ts & H1 & H2)]; [by exists []|].
      destruct (Hids _ _ Hc) as (t & Ht & Hr). exists (t :: ts). split; by constructor. }
    destruct Hts as (ts & Ht1 & Ht2).
    assert (Hlt : forall d, d ∈ ds -> d < length (eg_uf g) /\ eg_find g d = d).
    { intros d Hin. destruct (elem_of_list_lookup_1 _ _ Hin) as [q Hq].
      destruct (Forall2_lookup_r _ _ _ _ _ Ht2 Hq) as (t & _ & Hr). split; [eapply NRep_lt; [done| |exact Hr]; done|].
      inversion Hr; subst; by apply Inv_find_idem. }
    assert (forallb (valid_id g) ds = true) as Hv.
    { apply forallb_forall. intros d Hin%elem_of_list_In. apply Nat.ltb_lt. by apply Hlt. }
    unfold lookup_res. cbn [nch]. rewrite Hv. cbn [mbind res_bind].
    assert (Ht3 : Forall2 (fun t x => NRep g (fun _ => None) t (eg_find g x)) (embed <$> ts) ds).
    { apply Forall2_fmap_l. apply Forall2_same_length_lookup in Ht2 as [El Ht2].
      apply Forall2_same_length_lookup. split; [done|]. intros q t d Ht Hdq. cbn.
      rewrite (proj2 (Hlt d (elem_of_list_lookup_2 _ _ _ Hdq))). by eapply Ht2. }
    assert (HT : Tree e0 (length ids) (TNode f ts)) by (by econstructor).
    pose proof (fun r => lookup_NRep g (fun _ => None) f ds _ r I Ep Ht3) as HL.
    destruct (eg_lookup g (Node f ds)) as [i|] eqn:El.
    + destruct (IH (ids ++ [i])) as [R|R]; [| |by left|by right].
      * exists (pre ++ [Node f cs]). rewrite <- app_assoc, !app_length. cbn. split; [done|lia].
      * intros j k Hj. apply lookup_app_Some in Hj as [Hj|[Hge Hj]]; [by apply Hids|].
        apply list_lookup_singleton_Some in Hj as [E <-]. assert (j = length ids) as -> by lia.
        exists (TNode f ts). split; [done|]. by apply HL.
    + right. split; [done|]. exists (length ids), (TNode f ts). split; [done|]. intros r Hr. by apply HL in Hr.
Qed.

Lemma clean_rep ex g : reachable_np L A ex g -> eg_clean g = true ->
  Inv g /\ eg_pending g = [] /\ forall u r, NRep g (fun _ => None) (embed u) r <-> Rep g u r.
Proof.
  intros R Ec. pose proof (reachable_np_reachable _ _ _ _ R) as R0. pose proof (reachable_Inv _ _ _ _ R0) as I. split_and!; auto.
  - by eapply reachable_clean.
  - intros t r. rewrite (Rep_PRep g (fun _ => None)). apply NRep_PRep; [done|]. by eapply reach_listed.
Qed.
Lemma lookup_expr_ids_spec ex g e : reachable_np L A ex g -> eg_clean g = true -> dag e ->
  (exists ids, lookup_expr_ids g e = Ok (Some ids) /\ length ids = length e /\
     forall j i, ids !! j = Some i -> exists u, Tree e j u /\ Rep g u i) \/
  (lookup_expr_ids g e = Ok None /\ exists j u, Tree e j u /\ forall r, ~ Rep g u r).
Proof.
  intros R Ec Hd. destruct (clean_rep ex g R Ec) as (I & Ep & HR).
  destruct (lookup_expr_loop_spec g e e [] I Ep Hd) as [(ids & E & Hids & Hl)|(E & j & t & Ht & Hno)].
  - by exists [].
  - intros j i Hj. done.
  - left. exists ids. split_and!; auto. intros j i Hj. destruct (Hids j i Hj) as (t & Ht & Hr). exists t. by rewrite <- HR.
  - right. split; [done|]. exists j, t. split; [done|]. intros r Hr. by apply (Hno r), HR.
Qed.
Lemma Rep_fun_clean ex g (t : term Op) r r' : reachable_np L A ex g -> eg_clean g = true -> Rep g t r -> Rep g t r' -> r = r'.
Proof.
  intros R Ec H1 H2. destruct (clean_rep ex g R Ec) as (I & Ep & HR). apply HR in H1, H2. by eapply NRep_fun_clean.
Qed.
Lemma Rep_subterms g f ts : (exists r, Rep g (TNode (Op := Op) f ts) r) -> Forall (fun u => exists r, Rep g u r) ts.
Proof.
  intros [r Hr]. inversion Hr as [? ? cs ? c Hc Hn Hcs]; subst. clear -Hcs. induction Hcs; constructor; eauto.
Qed.
Lemma lookup_expr_spec ex g e (t : term Op) : reachable_np L A ex g -> eg_clean g = true -> dag e -> rooted e -> ExprTree e t ->
  (forall r, lookup_expr g e = Ok (Some r) <-> Rep g t r) /\ (lookup_expr g e = Ok None <-> forall r, ~ Rep g t r).
Proof.
  intros R Ec Hd Hr Ht. unfold lookup_expr.
  destruct (lookup_expr_ids_spec ex g e R Ec Hd) as [(ids & E & Hl & Hids)|(E & j & u & Hu & Hno)]; rewrite E; cbn.
  - assert (Hlast : exists i, last ids = Some i /\ Rep g t i).
    { destruct Ht as [Hne Ht]. destruct (lookup_lt_is_Some_2 ids (length e - 1)) as [i Hi]; [destruct e; cbn in *; [done|lia]|].
      exists i. split; [rewrite last_lookup; by replace (pred (length ids)) with (length e - 1) by lia|].
      destruct (Hids _ _ Hi) as (t' & Ht' & Hr'). by rewrite (TreeOf_fun _ _ _ _ Ht Ht'). }
    destruct Hlast as (i & -> & Hi). split.
    + intros r. split; [intros [= <-]; done|]. intros Hr'. f_equal. f_equal. by eapply Rep_fun_clean.
    + split; [done|]. intros Hn. by destruct (Hn i).
  - assert (Hn : forall r, ~ Rep g t r).
    { intros r Hr'. destruct (rooted_sub (fun u => exists r, Rep g u r) e t) with (i := j) (u := u) as [r' Hr'']; eauto.
      - apply Rep_subterms.
      - by apply (Hno r'). }
    split; [|done]. intros r. split; [done|]. intros Hr'. by destruct (Hn r).
Qed.
Lemma Rep_run ex g fuel p g' (t : term Op) r :
  reachable_np L A ex g -> no_prune p -> run_prog L A fuel (modify_n L A fuel) p g = Ok g' ->
  Rep g t r -> reachable_np L A ex g' /\ Rep g' t (eg_find g' r).
Proof.
  intros R Hp E Hr. assert (R' : reachable_np L A ex g').
  { destruct R as [Hm R]. split; [done|]. by eapply reach_run. }
  split; [done|]. pose proof (reachable_np_reachable _ _ _ _ R) as R0. pose proof (reachable_np_reachable _ _ _ _ R') as R0'.
  apply (Rep_PRep _ (fun _ => None)). apply NRep_PRep; [by eapply reachable_Inv|by eapply reach_listed|].
  eapply NRep_grows; [exact (run_grows L A ex g fuel p g' R0 E)|]. apply NRep_PRep; [by eapply reachable_Inv|by eapply reach_listed|].
  by apply Rep_PRep.
Qed.

(** ** Lookup right after adding (no explanations, hook-free), rebuilt or not *)
Lemma plain_add_step fuel n g g' i :
  reachable L A false g -> hook_free A -> api_add A (modify_n L A fuel) n g = Ok (g', i) ->
  reachable L A false g' /\ known g' i /\ (forall k, known g k -> known g' k) /\
  eg_lookup g' n = Some (eg_find g' i) /\ (forall k, eg_find g' k = eg_find g k) /\
  (forall m r, eg_lookup g m = Some r -> eg_lookup g' m = Some r).
Proof.
  intros R Hh E. destruct (api_add_step (fun _ => True) false fuel n g g' i ltac:(done) R E) as (R' & G & m & Hm & _).
  pose proof (reachable_Inv _ _ _ _ R) as I. pose proof (reachable_Inv _ _ _ _ R') as I'.
  split_and!; auto.
  - unfold known. rewrite <- (iv_len _ I'). by eapply lookup_lt_Some.
  - destruct (gr_nodes _ _ G) as [l Hl]. intros k. unfold known. rewrite <- (iv_len _ I'), <- (iv_len _ I), Hl, app_length. lia.
  - unfold api_add in E. inv_res. destruct x as [g1 k]. inv_res.
    apply (lookup_after_add L A g n fuel g1 (eg_find g1 i) R Hh). unfold add. by rewrite H0.
  - pose proof (reach_explain _ _ _ _ R) as Hex. apply bool_decide_eq_false in Hex.
    assert (Hex' : eg_explain g = None) by (destruct (eg_explain g); [destruct Hex; eauto|done]). clear Hex.
    unfold api_add in E. inv_res. destruct x as [g1 k]. inv_res.
    apply add_uncanonical_inv in H0 as (g4 & o & Ea & Hg).
    apply add_core_spec in Ea as [Hch Hsp]; [|apply I].
    destruct Hsp as [e' id He' Hid|e' x x1 x2 u He' Hx Hxn Hxa Hxu Hu|u cls' ex' Hmn Hw Hl' Hf Hcls Hex].
    + destruct Hg as [[_ ->]|(h & g3 & [=] & _)]. done.
    + congruence.
    + destruct Hg as [[[=] _]|(h & g3 & [= <-] & Hmd & ->)]. apply hook_free_md in Hmd as ->; [|done]. apply Hf.
  - intros q r Hq. pose proof (reach_explain _ _ _ _ R) as Hex. apply bool_decide_eq_false in Hex.
    assert (Hex' : eg_explain g = None) by (destruct (eg_explain g); [destruct Hex; eauto|done]). clear Hex.
    unfold api_add in E. inv_res. destruct x as [g1 k]. inv_res.
    apply add_uncanonical_inv in H0 as (g4 & o & Ea & Hg).
    apply add_core_spec in Ea as [Hch Hsp]; [|apply I].
    destruct Hsp as [e' id He' Hid|e' x x1 x2 u He' Hx Hxn Hxa Hxu Hu|u cls' ex' Hmn Hw Hl' Hf Hcls Hex].
    + destruct Hg as [[_ ->]|(h & g3 & [=] & _)]. done.
    + congruence.
    + destruct Hg as [[[=] _]|(h & g3 & [= <-] & Hmd & ->)]. apply hook_free_md in Hmd as ->; [|done].
      unfold eg_lookup, lookup_internal in *. set (g2 := add_log _ _).
      assert (Ec : canon g2 q = canon g q) by (apply canonf_ext; intros; apply Hf).
      rewrite Ec. apply fmap_Some in Hq as (e & He & ->). unfold g2 at 2. cbn [eg_memo add_log set_clean set_explain set_memo].
      rewrite lookup_insert_ne by (intros E; rewrite E in Hmn; congruence). rewrite He. cbn. f_equal. apply Hf.
Qed.
Definition looked g (e0 : list node) (ids : list nat) : Prop :=
  forall j i f cs, ids !! j = Some i -> e0 !! j = Some (Node f cs) ->
    exists ds, Forall2 (fun c d => c < j /\ ids !! c = Some d) cs ds /\ Forall (known g) ds /\ eg_lookup g (Node f ds) = Some (eg_find g i).
Lemma looked_snoc_mono g g' e0 ids i : looked g e0 ids ->
  (forall k, known g k -> known g' k) -> (forall k, eg_find g' k = eg_find g k) ->
  (forall m r, eg_lookup g m = Some r -> eg_lookup g' m = Some r) ->
  forall j k f cs, ids !! j = Some k -> e0 !! j = Some (Node f cs) ->
    exists ds, Forall2 (fun c d => c < j /\ (ids ++ [i]) !! c = Some d) cs ds /\ Forall (known g') ds /\ eg_lookup g' (Node f ds) = Some (eg_find g' k).
Proof.
  intros Hl Hk Hf Hm j k f cs Hj He. destruct (Hl j k f cs Hj He) as (ds & H1 & H2 & H3). exists ds. split_and!.
  - eapply Forall2_impl; [exact H1|]. cbn. intros c d [? ?]. split; [done|]. by apply lookup_app_l_Some.
  - eapply Forall_impl; [exact H2|]. done.
  - rewrite Hf. by apply Hm.
Qed.
Lemma add_expr_loop_looked fuel e0 e ids g g' ids' :
  reachable L A false g -> hook_free A -> (exists pre, e0 = pre ++ e /\ length pre = length ids) ->
  looked g e0 ids -> Forall (known g) ids ->
  add_expr_loop A (modify_n L A fuel) e ids g = Ok (g', ids') ->
  looked g' e0 ids' /\ length ids' = length e0.
Proof.
  intros R Hh. revert ids g R. induction e as [|[f cs] e IH]; intros ids g R (pre & Hpre & Hl) Hlk Hkn E; cbn [add_expr_loop] in E.
  - inv_res. split; [done|]. by rewrite app_nil_r.
  - inv_res. destruct x0 as [g1 i].
    assert (Hp : e0 !! length ids = Some (Node f cs)) by (rewrite Hpre, <- Hl; by apply list_lookup_middle).
    destruct (plain_add_step fuel x g g1 i R Hh H1) as (R1 & Hi & Hk & Hlook & Hf & Hm).
    apply map_children_o_inv in H0 as [Eo Hcs]. destruct x as [f' ds]. cbn in Eo, Hcs. subst f'.
    eapply IH; [exact R1| | | |exact E].
    + exists (pre ++ [Node f cs]). rewrite <- app_assoc, !app_length. cbn. split; [done|lia].
    + intros j k f1 cs1 Hj He. apply lookup_app_Some in Hj as [Hj|[Hge Hj]].
      * by eapply looked_snoc_mono.
      * apply list_lookup_singleton_Some in Hj as [Ej <-]. assert (j = length ids) as -> by lia.
        rewrite Hp in He. injection He as <- <-. exists ds. split_and!; [| |done].
        -- eapply Forall2_impl; [exact Hcs|]. cbn. intros c d Hc. split; [by eapply lookup_lt_Some|]. by apply lookup_app_l_Some.
        -- apply Forall_forall. intros d Hd. apply Hk. rewrite Forall_forall in Hkn.
           destruct (elem_of_list_lookup_1 _ _ Hd) as [q Hq]. destruct (Forall2_lookup_r _ _ _ _ _ Hcs Hq) as (c & _ & Hc).
           apply Hkn. by eapply elem_of_list_lookup_2.
    + apply Forall_app. split; [|by constructor]. eapply Forall_impl; [exact Hkn|]. done.
Qed.
Lemma lookup_expr_loop_looked g e0 e ids0 ids :
  Inv g -> looked g e0 ids -> length ids = length e0 ->
  (exists pre post, e0 = pre ++ e /\ length pre = length ids0 /\ (eg_find g <$> ids) = ids0 ++ post) ->
  lookup_expr_loop g e ids0 = Ok (Some (eg_find g <$> ids)).
Proof.
  intros I Hlk Hl. revert ids0. induction e as [|[f cs] e IH]; intros ids0 (pre & post & Hpre & Hl0 & Eids); cbn [lookup_expr_loop].
  - do 2 f_equal. rewrite Eids. apply (f_equal length) in Eids. rewrite app_length, fmap_length, Hl, Hpre, app_length in Eids.
    cbn in Eids. assert (length post = 0) as ->%nil_length_inv by lia. by rewrite app_nil_r.
  - assert (Hp : e0 !! length ids0 = Some (Node f cs)) by (rewrite Hpre, <- Hl0; by apply list_lookup_middle).
    assert (Hlt : length ids0 < length ids) by (rewrite Hl; by eapply lookup_lt_Some).
    destruct (lookup_lt_is_Some_2 _ _ Hlt) as [i Hi].
    destruct (Hlk _ _ _ _ Hi Hp) as (ds & Hds & Hkn & Hlook).
    assert (Hfi : forall j, j < length ids0 -> ids0 !! j = eg_find g <$> ids !! j).
    { intros j Hj. rewrite <- list_lookup_fmap, Eids. by rewrite lookup_app_l. }
    assert (Em : mapM (fun c => ids0 !! c) cs = Some (eg_find g <$> ds)).
    { apply mapM_Some_2. apply Forall2_fmap_r. eapply Forall2_impl; [exact Hds|]. cbn. intros c d [Hc Hd].
      rewrite Hfi by done. by rewrite Hd. }
    unfold map_children_o. cbn [nop nch]. rewrite Em. cbn [expect mbind res_bind]. unfold lookup_res. cbn [nch].
    assert (forallb (valid_id g) (eg_find g <$> ds) = true) as ->.
    { apply forallb_forall. intros d Hd%elem_of_list_In. apply elem_of_list_fmap in Hd as (d' & -> & Hd').
      apply Nat.ltb_lt. rewrite Forall_forall in Hkn. apply uf_find_lt; [apply I|]. by apply Hkn. }
    cbn [mbind res_bind].
    assert (eg_lookup g (Node f (eg_find g <$> ds)) = Some (eg_find g i)) as ->.
    { rewrite <- Hlook. unfold eg_lookup, lookup_internal. do 2 f_equal. rewrite !canon_canonf.
      apply (canonf_canonf (eg_find g) (Node f ds)). intros. by apply Inv_find_idem. }
    apply IH. exists (pre ++ [Node f cs]), (drop 1 post). rewrite <- app_assoc, !app_length. cbn. split_and!; [done|lia|].
    rewrite Eids, <- app_assoc. f_equal.
    assert (Hpost : post !! 0 = Some (eg_find g i)).
    { assert (Hq : (eg_find g <$> ids) !! length ids0 = Some (eg_find g i)) by (by rewrite list_lookup_fmap, Hi).
      rewrite Eids, lookup_app_r, Nat.sub_diag in Hq by lia. done. }
    destruct post; [done|]. cbn in Hpost. injection Hpost as ->. cbn. by rewrite drop_0.
Qed.
Lemma lookup_after_add_expr fuel e g g' i :
  reachable L A false g -> hook_free A -> add_expr A (modify_n L A fuel) e g = Ok (g', i) -> lookup_expr g' e = Ok (Some i).
Proof.
  intros R Hh E. unfold add_expr, add_expr_uncanonical in E. inv_res. destruct x as [g1 k]. inv_res. destruct x0 as [g2 ids].
  inv_res.
  assert (R' : reachable L A false g').
  { rewrite (add_expr_loop_inst _ _ []) in H1.
    apply (add_inst_loop_ok (fun _ => True) false fuel (embed_node <$> e) (embed_node <$> e) [] []) in H1 as (R' & _); auto.
    - apply embed_ok.
    - by exists [].
    - apply ids_ok_nil. }
  destruct (add_expr_loop_looked fuel e e [] g g' ids R Hh) as [Hlk Hl]; auto.
  { by exists []. }
  { intros j q ? ? Hj. done. }
  unfold lookup_expr, lookup_expr_ids. rewrite (lookup_expr_loop_looked g' e e [] ids); auto.
  - cbn. rewrite last_lookup, list_lookup_fmap, fmap_length. rewrite last_lookup in H2. by rewrite H2.
  - by eapply reachable_Inv.
  - by exists [], (eg_find g' <$> ids).
Qed.
End run.
End expr.
