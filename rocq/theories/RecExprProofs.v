(** Facts about [RecExpr] functions. *)
From Verif Require Import Base EGraphModel Spec Terms RecExprModel.

Section rx.
Context {Op : Type} `{Countable Op}.
Notation node := (node Op).
Implicit Types (e s : list node) (t : term Op).

Lemma rx_is_dag_dag e : rx_is_dag e = true <-> dag e.
Proof.
  unfold rx_is_dag, dag. rewrite forallb_forall. setoid_rewrite <- elem_of_list_In. split.
  - intros Hf i n c Hi Hc.
    assert (Hb : forallb (fun c => c <? i) (nch n) = true).
    { apply Hf. apply elem_of_list_lookup. exists i. by rewrite list_lookup_imap, Hi. }
    rewrite forallb_forall in Hb. apply elem_of_list_In, Hb, Nat.ltb_lt in Hc. done.
  - intros Hd b Hb. apply elem_of_list_lookup in Hb as [i Hb]. rewrite list_lookup_imap in Hb.
    destruct (e !! i) as [n|] eqn:Hi; [|done]. cbn in Hb. injection Hb as <-. cbn.
    apply forallb_forall. intros c Hc%elem_of_list_In. apply Nat.ltb_lt. by eapply Hd.
Qed.

Lemma index_insert_spec s n s' i : index_insert s n = (s', i) ->
  s' !! i = Some n /\ i < length s' /\ ((s' = s /\ n ∈ s) \/ (n ∉ s /\ s' = s ++ [n] /\ i = length s)).
Proof.
  unfold index_insert. destruct (list_find (fun m => m = n) s) as [[j m]|] eqn:E.
  - intros [= <- <-]. apply list_find_Some in E as (Hj & -> & _). split_and!; [done|by eapply lookup_lt_Some|].
    left. split; [done|by eapply elem_of_list_lookup_2].
  - intros [= <- <-]. apply list_find_None in E. rewrite app_length. cbn. split_and!; [by apply list_lookup_middle|lia|].
    right. split_and!; auto. intros Hin. rewrite Forall_forall in E. by apply (E n).
Qed.
Lemma index_insert_pre s n s' i : index_insert s n = (s', i) -> exists l, s' = s ++ l.
Proof. intros E. apply index_insert_spec in E as (_ & _ & [[-> _]|(_ & -> & _)]); [exists []; by rewrite app_nil_r|eauto]. Qed.

Lemma mapM_Some_2' {A B} (f : A -> option B) (l : list A) :
  (forall x, x ∈ l -> is_Some (f x)) -> exists k, mapM f l = Some k /\ Forall2 (fun x y => f x = Some y) l k.
Proof.
  induction l as [|x l IH]; intros Hx; [by exists []|].
  destruct (Hx x) as [y Hy]; [left|]. destruct IH as (k & Hk & Hf); [intros; apply Hx; by right|].
  exists (y :: k). cbn. rewrite Hy. cbn. rewrite Hk. cbn. split; [done|]. by constructor.
Qed.

Lemma rx_add_ok e n : (forall c, c ∈ nch n -> c < length e) -> rx_add e n = Ok (e ++ [n], length e).
Proof.
  intros Hc. unfold rx_add. assert (rx_add_check e n = true) as ->; [|done].
  unfold rx_add_check. apply forallb_forall. intros c Hin%elem_of_list_In. specialize (Hc c Hin).
  destruct e; cbn in *; [lia|]. apply Nat.leb_le. lia.
Qed.

(** A hash-consed table [s] and a map from ids of the source to positions. *)
Record cmap (get : nat -> option node) (s : list node) (ids : gmap nat nat) : Prop := {
  cm_dag : dag s;
  cm_nodup : NoDup s;
  cm_tree : forall i j, ids !! i = Some j -> exists t, TreeOf get i t /\ Tree s j t;
}.
Lemma cmap_nil get : cmap get [] ∅.
Proof. split; [apply dag_nil|constructor|]. intros i j. by rewrite lookup_empty. Qed.
Lemma cmap_map get s ids (f : Op) cs :
  cmap get s ids -> (forall c, c ∈ cs -> is_Some (ids !! c)) ->
  exists ds ts, map_children_o (fun c => ids !! c) (Node f cs) = Ok (Node f ds) /\
    Forall2 (TreeOf get) cs ts /\ Forall2 (Tree s) ds ts.
Proof.
  intros C Hcs. destruct (mapM_Some_2' (fun c => ids !! c) cs Hcs) as (ds & Hm & Hf).
  exists ds. unfold map_children_o. cbn [nch nop]. rewrite Hm. cbn.
  clear Hm Hcs. induction Hf as [|c d cs ds Hcd _ (ts & _ & H1 & H2)]; [exists []; done|].
  destruct (cm_tree _ _ _ C _ _ Hcd) as (t & Ht1 & Ht2). exists (t :: ts). split_and!; [done|by constructor..].
Qed.
Lemma cmap_insert get s ids i f cs ds ts s' j :
  cmap get s ids -> get i = Some (Node f cs) -> Forall2 (TreeOf get) cs ts -> Forall2 (Tree s) ds ts ->
  index_insert s (Node f ds) = (s', j) -> cmap get s' (<[i := j]> ids) /\ Tree s' j (TNode f ts).
Proof.
  intros C Hi Hcs Hds E. destruct (index_insert_pre _ _ _ _ E) as [l El]. apply index_insert_spec in E as (Hj & _ & Hor).
  assert (HT : Tree s' j (TNode f ts)).
  { econstructor; [exact Hj|]. subst s'. eapply Forall2_impl; [exact Hds|]. intros. by apply Tree_app. }
  split; [|done]. split.
  - destruct Hor as [[-> _]|(_ & -> & _)]; [apply C|]. apply dag_snoc; [apply C|]. cbn. intros c Hc.
    destruct (elem_of_list_lookup_1 _ _ Hc) as [q Hq]. destruct (Forall2_lookup_l _ _ _ _ _ Hds Hq) as (t & _ & Ht).
    by eapply Tree_lt.
  - destruct Hor as [[-> _]|(Hn & -> & _)]; [apply C|]. apply NoDup_app. split_and!; [apply C| |apply NoDup_singleton].
    intros x Hx ->%elem_of_list_singleton. done.
  - intros k v Hk. apply lookup_insert_Some in Hk as [[<- <-]|[Hne Hk]].
    + exists (TNode f ts). split; [by econstructor|done].
    + destruct (cm_tree _ _ _ C _ _ Hk) as (t & H1 & H2). exists t. subst s'. split; [done|by apply Tree_app].
Qed.

(** ** compact *)
Lemma compact_loop_spec e0 e i ids s :
  (forall k n, e !! k = Some n -> e0 !! (i + k) = Some n) -> dag e0 -> length e0 = i + length e ->
  cmap (fun i => e0 !! i) s ids -> (forall k, k < i -> is_Some (ids !! k)) ->
  exists s' ids', compact_loop i e ids s = Ok s' /\ (exists l, s' = s ++ l) /\
    cmap (fun i => e0 !! i) s' ids' /\ (forall k, k < length e0 -> is_Some (ids' !! k)) /\
    (forall k, k < i -> ids' !! k = ids !! k) /\
    (forall k n j, ids' !! (i + k) = Some j -> e !! k = Some n -> S k = length e ->
       (forall q t, q < i + k -> Tree e0 q t -> ~ Tree e0 (i + k) t) -> Forall (fun x => exists q, q < i /\ ids !! q = Some x) (seq 0 (length s)) -> S j = length s').
Proof.
  revert i ids s. induction e as [|[f cs] e IH]; intros i ids s He Hd Hlen C Hids.
  - exists s, ids. cbn in *. split_and!; [done|exists []; by rewrite app_nil_r|done| |done|done].
    intros k Hk. apply Hids. lia.
  - pose proof (He 0 _ eq_refl) as Hi. rewrite Nat.add_0_r in Hi.
    destruct (cmap_map _ s ids f cs C) as (ds & ts & Em & Hcs & Hds).
    { intros c Hc. apply Hids. by eapply Hd. }
    cbn [compact_loop]. rewrite Em. cbn [mbind res_bind].
    destruct (index_insert s (Node f ds)) as [s1 j] eqn:Ej.
    destruct (cmap_insert _ _ _ i _ _ _ _ _ _ C Hi Hcs Hds Ej) as [C1 HT].
    destruct (index_insert_pre _ _ _ _ Ej) as [l1 El1].
    destruct (IH (S i) (<[i := j]> ids) s1) as (s' & ids' & Es & [l El] & C' & Hall & Hold & Hlast); auto.
    { intros k n Hk. specialize (He (S k) n Hk). by rewrite Nat.add_succ_r in He. }
    { cbn in Hlen. lia. }
    { intros k Hk. destruct (decide (k = i)) as [->|Hne]; [rewrite lookup_insert; eauto|].
      rewrite lookup_insert_ne by done. apply Hids. lia. }
    exists s', ids'. split_and!; auto.
    + exists (l1 ++ l). by rewrite El, El1, app_assoc.
    + intros k Hk. rewrite Hold by lia. rewrite lookup_insert_ne by lia. done.
    + intros k n jk Hjk Hk Hkl Hno Hcov.
      destruct k as [|k].
      * cbn in Hkl. assert (e = []) as -> by (destruct e; [done|cbn in Hkl; lia]). cbn in Es. injection Es as <-.
        rewrite Nat.add_0_r in *. rewrite Hold, lookup_insert in Hjk by lia. injection Hjk as <-.
        pose proof Ej as Ej0. apply index_insert_spec in Ej as (Hjj & _ & [[-> Hin]|(Hnin & -> & ->)]).
        -- exfalso. assert (Hjs : j < length s) by (by eapply lookup_lt_Some).
           rewrite Forall_forall in Hcov. destruct (Hcov j) as (q & Hq & Hqj); [apply elem_of_seq; lia|].
           destruct (cm_tree _ _ _ C _ _ Hqj) as (t & Ht1 & Ht2).
           assert (t = TNode f ts) as -> by (by eapply TreeOf_fun).
           apply (Hno q _ Hq Ht1). by econstructor.
        -- rewrite app_length. cbn. lia.
      * eapply (Hlast k n jk); auto.
        -- by rewrite Nat.add_succ_r in Hjk.
        -- intros q t Hq Ht. replace (S i + k) with (i + S k) by lia. apply (Hno q); [lia|done].
        -- rewrite Forall_forall in Hcov |- *. intros x Hx. apply elem_of_seq in Hx.
           destruct (decide (x < length s)) as [Hxs|Hxs].
           ++ destruct (Hcov x) as (q & Hq & Hqx); [apply elem_of_seq; lia|]. exists q. split; [lia|].
              rewrite lookup_insert_ne by lia. done.
           ++ apply index_insert_spec in Ej as (Hjj & _ & [[-> Hin]|(Hnin & -> & ->)]); [lia|].
              rewrite app_length in Hx. cbn in Hx. exists i. split; [lia|]. rewrite lookup_insert. f_equal. lia.
Qed.

Lemma rx_compact_spec e : dag e ->
  exists e', rx_compact e = Ok e' /\ dag e' /\ NoDup e' /\
    (forall i t, Tree e i t -> exists j, Tree e' j t) /\
    (forall t, ExprTree e t -> (forall i, i < length e - 1 -> ~ Tree e i t) -> ExprTree e' t).
Proof.
  intros Hd. destruct (compact_loop_spec e e 0 ∅ []) as (s' & ids' & Es & _ & C & Hall & _ & Hlast); auto.
  { apply cmap_nil. }
  { lia. }
  exists s'. unfold rx_compact. split_and!; [done|apply C|apply C| |].
  - intros i t Ht. destruct (Hall i (Tree_lt _ _ _ Ht)) as [j Hj]. destruct (cm_tree _ _ _ C _ _ Hj) as (t' & H1 & H2).
    exists j. by rewrite (TreeOf_fun _ _ _ _ Ht H1).
  - intros t [Hne Ht] Hno. pose proof (Tree_lt _ _ _ Ht) as Hlt.
    destruct (Hall _ Hlt) as [j Hj]. destruct (cm_tree _ _ _ C _ _ Hj) as (t' & H1 & H2).
    rewrite <- (TreeOf_fun _ _ _ _ Ht H1) in H2.
    destruct (lookup_lt_is_Some_2 _ _ Hlt) as [n Hn].
    assert (Hjl : S j = length s').
    { eapply (Hlast (length e - 1) n j); auto; [lia| |constructor]. cbn [plus].
      intros q t2 Hq Ht2 Ht3. apply (Hno q); [done|]. by rewrite (TreeOf_fun _ _ _ _ Ht Ht3). }
    split; [by destruct s'|]. replace (length s' - 1) with j by lia. done.
Qed.

(** ** build_recexpr *)
Lemma build_loop_one get : forall i t, TreeOf get i t ->
  forall s ids todo, cmap get s ids -> exists k s' ids',
    (forall fuel, build_loop (k + fuel) get s ids (i :: todo) = build_loop fuel get s' ids' todo) /\
    cmap get s' ids' /\ (forall j, is_Some (ids !! j) -> is_Some (ids' !! j)) /\ is_Some (ids' !! i).
Proof.
  apply (TreeOf_ind' get (fun i t => forall s ids todo, cmap get s ids -> exists k s' ids',
    (forall fuel, build_loop (k + fuel) get s ids (i :: todo) = build_loop fuel get s' ids' todo) /\
    cmap get s' ids' /\ (forall j, is_Some (ids !! j) -> is_Some (ids' !! j)) /\ is_Some (ids' !! i))).
  intros i f cs ts Hi Hcs IH s ids todo C.
  destruct (decide (is_Some (ids !! i))) as [Hin|Hout].
  { exists 1, s, ids. split_and!; auto. intros fuel. cbn [build_loop plus]. by rewrite decide_True. }
  (* a state in which all children are done *)
  assert (Hfin : forall s ids, cmap get s ids -> ids !! i = None -> filter (fun c => ids !! c = None) cs = [] ->
    exists s' ids', (forall fuel, build_loop (S fuel) get s ids (i :: todo) = build_loop fuel get s' ids' todo) /\
      cmap get s' ids' /\ (forall j, is_Some (ids !! j) -> is_Some (ids' !! j)) /\ is_Some (ids' !! i)).
  { clear -Hi. intros s ids C Hn Hf. destruct (cmap_map get s ids f cs C) as (ds & ts & Em & Hcs & Hds).
    { intros c Hc. apply not_eq_None_Some. intros E.
      assert (Hx : c ∈ filter (fun c => ids !! c = None) cs) by (apply elem_of_list_filter; done).
      rewrite Hf in Hx. by apply elem_of_nil in Hx. }
    destruct (index_insert s (Node f ds)) as [s1 j] eqn:Ej.
    destruct (cmap_insert _ _ _ i _ _ _ _ _ _ C Hi Hcs Hds Ej) as [C1 _].
    exists s1, (<[i := j]> ids). split_and!; auto.
    - intros fuel. cbn [build_loop]. rewrite decide_False by (rewrite Hn; by intros [? ?]). rewrite Hi. cbn [expect mbind res_bind nch].
      rewrite Hf, Em. cbn [mbind res_bind]. by rewrite Ej.
    - intros k Hk. destruct (decide (k = i)) as [->|]; [rewrite lookup_insert; eauto|by rewrite lookup_insert_ne].
    - rewrite lookup_insert. eauto. }
  assert (Hn : ids !! i = None) by (by apply eq_None_not_Some).
  destruct (filter (fun c => ids !! c = None) cs) as [|m0 ms] eqn:Ef.
  { destruct (Hfin s ids C Hn Ef) as (s' & ids' & E & R). exists 1, s', ids'. done. }
  (* push the missing children and process them *)
  assert (Hpush : forall fuel, build_loop (S fuel) get s ids (i :: todo) =
    build_loop fuel get s ids (reverse (m0 :: ms) ++ i :: todo)).
  { intros fuel. cbn [build_loop]. rewrite decide_False by done. rewrite Hi. cbn [expect mbind res_bind nch]. by rewrite Ef. }
  assert (Hmany : forall l, (forall c, c ∈ l -> c ∈ cs) -> forall s ids rest, cmap get s ids -> exists k s' ids',
    (forall fuel, build_loop (k + fuel) get s ids (l ++ rest) = build_loop fuel get s' ids' rest) /\
    cmap get s' ids' /\ (forall j, is_Some (ids !! j) -> is_Some (ids' !! j)) /\ (forall c, c ∈ l -> is_Some (ids' !! c))).
  { clear -IH. induction l as [|c l IHl]; intros Hl s ids rest C.
    - exists 0, s, ids. split_and!; auto. intros c Hc%elem_of_nil. done.
    - assert (Hc : c ∈ cs) by (apply Hl; left). destruct (elem_of_list_lookup_1 _ _ Hc) as [q Hq].
      destruct (Forall2_lookup_l _ _ _ _ _ IH Hq) as (t & _ & IHc).
      destruct (IHc s ids (l ++ rest) C) as (k1 & s1 & ids1 & E1 & C1 & M1 & H1).
      destruct (IHl ltac:(intros; apply Hl; by right) s1 ids1 rest C1) as (k2 & s2 & ids2 & E2 & C2 & M2 & H2).
      exists (k1 + k2), s2, ids2. split_and!; auto.
      + intros fuel. rewrite <- Nat.add_assoc. cbn [app]. by rewrite E1, E2.
      + intros x [->|Hx]%elem_of_cons; auto. }
  destruct (Hmany (reverse (m0 :: ms)) ltac:(intros c Hc; rewrite elem_of_reverse, <- Ef in Hc; by apply elem_of_list_filter in Hc as [_ ?])
    s ids (i :: todo) C) as (k1 & s1 & ids1 & E1 & C1 & M1 & H1).
  destruct (decide (is_Some (ids1 !! i))) as [Hdone|Hnd].
  - exists (S (k1 + 1)), s1, ids1. split_and!; auto. intros fuel. cbn [plus]. rewrite Hpush, <- Nat.add_assoc, E1.
    cbn [build_loop plus]. by rewrite decide_True.
  - destruct (Hfin s1 ids1 C1) as (s2 & ids2 & E2 & C2 & M2 & H2).
    { by apply eq_None_not_Some. }
    { destruct (filter (fun c => ids1 !! c = None) cs) as [|x xs] eqn:Ex; [done|]. exfalso.
      assert (Hx : x ∈ filter (fun c => ids1 !! c = None) cs) by (rewrite Ex; left).
      apply elem_of_list_filter in Hx as [Hx Hxc].
      destruct (decide (is_Some (ids !! x))) as [Hy|Hy].
      - apply M1 in Hy as [? Hy]. congruence.
      - assert (x ∈ reverse (m0 :: ms)) as Hz.
        { rewrite elem_of_reverse, <- Ef. apply elem_of_list_filter. split; [by apply eq_None_not_Some|done]. }
        apply H1 in Hz as [? Hz]. congruence. }
    exists (S (k1 + 1)), s2, ids2. split_and!; auto. intros fuel. cbn [plus]. rewrite Hpush, <- Nat.add_assoc, E1. apply E2.
Qed.

Lemma build_loop_all get l : (forall c, c ∈ l -> exists t, TreeOf get c t) -> forall s ids rest, cmap get s ids ->
  exists k s' ids', (forall fuel, build_loop (k + fuel) get s ids (l ++ rest) = build_loop fuel get s' ids' rest) /\
    cmap get s' ids' /\ (forall j, is_Some (ids !! j) -> is_Some (ids' !! j)) /\ (forall c, c ∈ l -> is_Some (ids' !! c)).
Proof.
  induction l as [|c l IHl]; intros Hl s ids rest C.
  - exists 0, s, ids. split_and!; auto. intros c Hc%elem_of_nil. done.
  - destruct (Hl c) as [t Ht]; [left|].
    destruct (build_loop_one get c t Ht s ids (l ++ rest) C) as (k1 & s1 & ids1 & E1 & C1 & M1 & H1).
    destruct (IHl ltac:(intros; apply Hl; by right) s1 ids1 rest C1) as (k2 & s2 & ids2 & E2 & C2 & M2 & H2).
    exists (k1 + k2), s2, ids2. split_and!; auto.
    + intros fuel. rewrite <- Nat.add_assoc. cbn [app]. by rewrite E1, E2.
    + intros x [->|Hx]%elem_of_cons; auto.
Qed.

Lemma build_recexpr_spec get (f : Op) cs ts : Forall2 (TreeOf get) cs ts ->
  exists k e, (forall fuel, k <= fuel -> build_recexpr fuel (Node f cs) get = Ok e) /\
    dag e /\ ExprTree e (TNode f ts).
Proof.
  intros Hcs. destruct (build_loop_all get (reverse cs)) with (s := ([] : list node)) (ids := (∅ : gmap nat nat)) (rest := ([] : list nat))
    as (k & s & ids & E & C & _ & Hin).
  { intros c Hc. rewrite elem_of_reverse in Hc. destruct (elem_of_list_lookup_1 _ _ Hc) as [q Hq].
    destruct (Forall2_lookup_l _ _ _ _ _ Hcs Hq) as (t & _ & Ht). eauto. }
  { apply cmap_nil. }
  destruct (cmap_map get s ids f cs C) as (ds & ts' & Em & Hcs' & Hds).
  { intros c Hc. apply Hin. by rewrite elem_of_reverse. }
  assert (ts' = ts) as ->.
  { clear -Hcs Hcs'. revert ts' Hcs'. induction Hcs; intros ts' Hcs'; inversion Hcs'; subst; f_equal; auto. by eapply TreeOf_fun. }
  assert (Hlt : forall c, c ∈ nch (Node f ds) -> c < length s).
  { cbn. intros c Hc. destruct (elem_of_list_lookup_1 _ _ Hc) as [q Hq].
    destruct (Forall2_lookup_l _ _ _ _ _ Hds Hq) as (t & _ & Ht). by eapply Tree_lt. }
  exists k, (s ++ [Node f ds]). split_and!.
  - intros fuel Hk. unfold build_recexpr. cbn [nch]. rewrite app_nil_r in E. replace fuel with (k + (fuel - k)) by lia.
    rewrite E. assert (build_loop (fuel - k) get s ids [] = Ok (s, ids)) as -> by (by destruct (fuel - k)).
    cbn [mbind res_bind]. rewrite Em. cbn [mbind res_bind]. rewrite rx_add_ok; [done|]. exact Hlt.
  - apply dag_snoc; [apply C|done].
  - by apply ExprTree_snoc.
Qed.
Lemma rx_extract_spec e i t : Tree e i t ->
  exists k e', (forall fuel, k <= fuel -> rx_extract fuel e i = Ok e') /\ dag e' /\ ExprTree e' t.
Proof.
  intros Ht. inversion Ht as [? f cs ts Hi Hcs]; subst. destruct (build_recexpr_spec _ f cs ts Hcs) as (k & e' & Ek & R).
  exists k, e'. split; [|done]. intros fuel Hf. unfold rx_extract. rewrite Hi. cbn. auto.
Qed.

(** ** join_recexprs *)
Definition extends (e e' : list node) : Prop := exists l, e' = e ++ l.
Lemma extends_refl e : extends e e.
Proof. exists []. by rewrite app_nil_r. Qed.
Lemma extends_trans e1 e2 e3 : extends e1 e2 -> extends e2 e3 -> extends e1 e3.
Proof. intros [l ->] [l' ->]. exists (l ++ l'). by rewrite app_assoc. Qed.
Lemma extends_Tree e e' i t : extends e e' -> Tree e i t -> Tree e' i t.
Proof. intros [l ->]. apply Tree_app. Qed.

Lemma map_children_m_spec (f : nat -> list node -> res (list node * nat)) cs ts (op : Op) :
  Forall2 (fun c t => forall to, dag to -> exists to' j, f c to = Ok (to', j) /\ extends to to' /\ dag to' /\ Tree to' j t) cs ts ->
  forall to, dag to -> exists to' ds, map_children_m f (Node op cs) to = Ok (to', Node op ds) /\ extends to to' /\ dag to' /\
    Forall2 (Tree to') ds ts.
Proof.
  intros Hf to Hd. unfold map_children_m. cbn [nch nop].
  assert (HH : exists to' ds, mapM_list f cs to = Ok (to', ds) /\ extends to to' /\ dag to' /\ Forall2 (Tree to') ds ts).
  { revert to Hd. induction Hf as [|c t cs ts Hc _ IH]; intros to Hd.
    - exists to, []. cbn. split_and!; auto. apply extends_refl.
    - destruct (Hc to Hd) as (to1 & j & E1 & X1 & D1 & T1). destruct (IH to1 D1) as (to2 & ds & E2 & X2 & D2 & T2).
      exists to2, (j :: ds). cbn [mapM_list]. rewrite E1. cbn [mbind res_bind]. rewrite E2. cbn. split_and!; auto.
      + by eapply extends_trans.
      + constructor; [by eapply extends_Tree|done]. }
  destruct HH as (to' & ds & -> & HH). exists to', ds. done.
Qed.
Lemma Tree_children_lt e cs ts c : Forall2 (Tree e) cs ts -> c ∈ cs -> c < length e.
Proof.
  intros Hf Hc. destruct (elem_of_list_lookup_1 _ _ Hc) as [q Hq].
  destruct (Forall2_lookup_l _ _ _ _ _ Hf Hq) as (t & _ & Ht). by eapply Tree_lt.
Qed.
Lemma finish_add to (f : Op) ds ts : dag to -> Forall2 (Tree to) ds ts ->
  rx_add to (Node f ds) = Ok (to ++ [Node f ds], length to) /\ dag (to ++ [Node f ds]) /\ Tree (to ++ [Node f ds]) (length to) (TNode f ts).
Proof.
  intros Hd Hf. split_and!.
  - apply rx_add_ok. intros c Hc. by eapply Tree_children_lt.
  - apply dag_snoc; [done|]. intros c Hc. by eapply Tree_children_lt.
  - by apply Tree_snoc.
Qed.
Lemma take_dag e k : dag e -> dag (take k e).
Proof. intros Hd i n c Hi. apply lookup_take_Some in Hi as [Hi _]. by apply (Hd i n c). Qed.
Lemma Tree_take e c t : dag e -> Tree e c t -> Tree (take (S c) e) c t.
Proof.
  intros Hd Ht. assert (HH : forall i t, Tree e i t -> i <= c -> Tree (take (S c) e) i t); [|by apply HH].
  clear t Ht. apply (TreeOf_ind' _ (fun i t => i <= c -> Tree (take (S c) e) i t)).
  intros i f cs ts Hi Hcs IH Hic. econstructor; [by rewrite lookup_take by lia|].
  apply Forall2_same_length_lookup. split; [by eapply Forall2_length|].
  intros q x y Hx Hy. rewrite Forall2_lookup in IH. specialize (IH q). rewrite Hx, Hy in IH. inversion IH as [? ? HI|]; subst.
  apply HI. pose proof (Hd _ _ _ Hi (elem_of_list_lookup_2 _ _ _ Hx)). lia.
Qed.
Lemma join_build_spec fuel from t : dag from -> ExprTree from t -> length from <= fuel ->
  forall to, dag to -> exists to' j, join_build fuel from to = Ok (to', j) /\ extends to to' /\ dag to' /\ Tree to' j t.
Proof.
  revert from t. induction fuel as [|fuel IH]; intros from t Hd [Hne Ht] Hl to Hto; [destruct from; [done|cbn in Hl; lia]|].
  inversion Ht as [? f cs ts Hi Hcs]; subst. cbn [join_build].
  rewrite last_lookup. replace (pred (length from)) with (length from - 1) by lia. rewrite Hi. cbn [expect mbind res_bind].
  destruct (map_children_m_spec (fun c to => if S c <=? length from then join_build fuel (take (S c) from) to else Panic) cs ts f) with (to := to)
    as (to1 & ds & E1 & X1 & D1 & T1); auto.
  { apply Forall2_same_length_lookup. split; [by eapply Forall2_length|].
    intros q c tc Hc Htc. rewrite Forall2_lookup in Hcs. specialize (Hcs q). rewrite Hc, Htc in Hcs.
    inversion Hcs as [? ? HT|]; subst. pose proof (Hd _ _ _ Hi (elem_of_list_lookup_2 _ _ _ Hc)) as Hlt.
    pose proof (Tree_lt _ _ _ HT) as Hcl. rewrite (proj2 (Nat.leb_le _ _)) by lia.
    apply IH; [by apply take_dag| |rewrite take_length; lia].
    split; [by destruct from|]. rewrite take_length. replace (S c `min` length from - 1) with c by lia. by apply Tree_take. }
  rewrite E1. cbn [mbind res_bind]. destruct (finish_add to1 f ds ts D1 T1) as (E2 & D2 & T2).
  exists (to1 ++ [Node f ds]), (length to1). split_and!; auto. eapply extends_trans; [done|]. by eexists.
Qed.
Lemma join_recexprs_spec fuel (f : Op) cs ts sub :
  Forall2 (fun c t => dag (sub c) /\ ExprTree (sub c) t /\ length (sub c) <= fuel) cs ts ->
  exists e, join_recexprs fuel (Node f cs) sub = Ok e /\ dag e /\ ExprTree e (TNode f ts).
Proof.
  intros Hf. unfold join_recexprs.
  destruct (map_children_m_spec (fun c e => join_build fuel (sub c) e) cs ts f) with (to := ([] : list node))
    as (e1 & ds & E1 & X1 & D1 & T1).
  { eapply Forall2_impl; [exact Hf|]. intros c t (D & E & Hl) to Hto. by apply join_build_spec. }
  { apply dag_nil. }
  rewrite E1. cbn [mbind res_bind]. destruct (finish_add e1 f ds ts D1 T1) as (E2 & D2 & T2). rewrite E2. cbn.
  exists (e1 ++ [Node f ds]). split_and!; auto. by apply ExprTree_snoc.
Qed.
End rx.
