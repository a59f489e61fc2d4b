(** The table of common ancestors built by [calculate_common_ancestor] is right. *)
From Verif Require Import Base UnionFind EGraphModel EGraphSafe ExplainForest Terms RecExprModel ExprModel ExplainModel ExplainSpec ExplainPath
  ExplainProofs MatchSpec OptModel OptDist OptPar OptNeighbours OptSearch OptExplain OptCong.

Section tarjan.
Context {Op D : Type} `{Countable Op}.
Notation node := (node Op).
Notation explain := (explain Op).
Notation eclass := (eclass Op D).
Context {alt : nat -> nat -> justif -> Prop} {ns : list node} {h : list (event Op)} {x : explain} {es : list edge}.
Context (W : world alt ns h x es).
Let Hlen : length (ex_find x) = length ns := w_len _ _ _ _ _ W.
Let F : forest alt (ex_find x) es := w_for _ _ _ _ _ W.
Notation N := (length (ex_find x)).
Notation u := (pl (ex_find x)).
Notation f := (ex_find x).
Let wf : uf_wf u := fo_wf _ _ _ F.
Context (rk : nat -> nat) (Hrk : uf_ranked u rk) (Hrb : forall j, j < length u -> rk j < length u).

(** the union-find holds part of the links of the forest *)
Definition part (v : list nat) : Prop := length v = N /\ forall i, i < N -> uf_parent v i = i \/ uf_parent v i = uf_parent u i.
Definition lk (v : list nat) (i : nat) : Prop := uf_parent v i <> i.
Lemma lk_lt v i : part v -> lk v i -> i < N.
Proof. intros [Hl _] Hk. destruct (decide (i < N)); [done|]. exfalso. apply Hk. unfold uf_parent. rewrite lookup_ge_None_2; [done|lia]. Qed.
Lemma lk_parent v i : part v -> lk v i -> uf_parent v i = uf_parent u i.
Proof. intros Hp Hk. pose proof (lk_lt v i Hp Hk) as Hi. destruct Hp as [_ Hp]. by destruct (Hp i Hi). Qed.
Lemma lk_dec v i : lk v i \/ uf_parent v i = i.
Proof. unfold lk. destruct (decide (uf_parent v i = i)); auto. Qed.
Lemma part_wf v : part v -> uf_wf v.
Proof.
  intros Hp. pose proof Hp as [Hl _]. exists rk. split; [|intros j Hj; rewrite Hl, <- (pl_length f) in *; by apply Hrb].
  intros i p Hi. destruct (lk_dec v i) as [Hk|Hk].
  - pose proof (lk_parent v i Hp Hk) as E. unfold uf_parent at 1 in E. rewrite Hi in E. cbn in E. subst p.
    pose proof (lk_lt v i Hp Hk) as Hlt. destruct (lookup_lt_is_Some_2 u i) as [q Hq]; [by rewrite pl_length|].
    pose proof (Hrk i q Hq) as Hr. assert (Eq : uf_parent u i = q) by (unfold uf_parent; by rewrite Hq).
    assert (Ei : length v = length u) by (by rewrite pl_length). rewrite Ei, Eq. exact Hr.
  - unfold uf_parent in Hk. rewrite Hi in Hk. cbn in Hk. subst p. split; [by apply lookup_lt_Some in Hi|done].
Qed.
Lemma find_part v k : forall i, part v -> i < N -> N <= k + rk i ->
  anc u i (uf_find v i) /\ ~ lk v (uf_find v i) /\ (uf_find v i = i \/ exists w, lk v w /\ anc u i w /\ uf_parent u w = uf_find v i) /\
  (forall b, anc u i b -> anc u b (uf_find v i) -> b <> uf_find v i -> lk v b).
Proof.
  induction k as [|k IH]; intros i Hp Hi Hk; [rewrite pl_length in Hrb; specialize (Hrb i Hi); lia|].
  pose proof (part_wf v Hp) as Hw. destruct (lk_dec v i) as [Hl|Hr].
  - pose proof (lk_parent v i Hp Hl) as E. assert (Hne : uf_parent u i <> i) by (rewrite <- E; exact Hl).
    rewrite <- (uf_find_parent v i Hw), E.
    destruct (IH (uf_parent u i) Hp) as (I1 & I2 & I3 & I4).
    { apply (u_lt W i); [apply anc_parent|done]. }
    { pose proof (uf_parent_rank u rk i Hrk Hne). lia. }
    split; [eapply rtc_transitive; [apply anc_parent|done]|]. split; [done|]. split.
    + right. destruct I3 as [I3|(w & H1 & H2 & H3)]; [exists i; split; [done|]; split; [apply rtc_refl|by rewrite I3]|].
      exists w. split; [done|]. split; [eapply rtc_transitive; [apply anc_parent|done]|done].
    + intros b Hb Hb2 Hb3. destruct (anc_inv _ _ _ Hb) as [<-|Hb']; [done|]. by apply I4.
  - rewrite (uf_find_root v i Hw Hr). split; [apply rtc_refl|]. split; [intros Hl; by apply Hl|]. split; [by left|].
    intros b Hb Hb2 Hb3. destruct Hb3. by apply (anc_antisym u b i wf).
Qed.

Definition same_tree (a b : nat) : Prop := uf_find u a = uf_find u b.
Record tinv (e : nat) (st : tstate) : Prop := {
  ti_anc : ts_anc st = seq 0 N;
  ti_part : part (ts_uf st);
  ti_link : forall v, lk (ts_uf st) v -> same_tree v e -> lk (ts_uf st) (uf_parent u v) \/ anc u e (uf_parent u v);
  ti_stack : forall a, anc u e a -> ~ lk (ts_uf st) a;
  ti_tab : forall l r a, ts_tab st !! (l, r) = Some a -> lca u l r a;
  ti_black : forall o, o ∈ ts_black st -> o < N /\ same_tree o e;
}.
Definition black_in (st : tstate) (e : nat) : Prop := forall o, o ∈ ts_black st -> lk (ts_uf st) o \/ o = e.
Definition black_lk (st : tstate) : Prop := forall o, o ∈ ts_black st -> lk (ts_uf st) o.
Definition fresh_below (st : tstate) (c : nat) : Prop := forall v, anc u v c -> ~ lk (ts_uf st) v.
Definition grown (e : nat) (st st' : tstate) : Prop :=
  (forall v, lk (ts_uf st) v -> lk (ts_uf st') v) /\ (forall v, lk (ts_uf st') v -> lk (ts_uf st) v \/ (anc u v e /\ v <> e)).
Lemma grown_refl e st : grown e st st.
Proof. split; auto. Qed.

(** ** Answering the queries *)
Lemma lca_swap l r a : lca u l r a -> lca u r l a.
Proof. intros (H1 & H2 & H3). split; [done|]. split; [done|]. auto. Qed.
Lemma query_lca e st o : e < N -> tinv e st -> black_in st e -> o ∈ ts_black st -> lca u o e (uf_find (ts_uf st) o) /\ uf_find (ts_uf st) o < N.
Proof.
  intros He I Hb Ho. destruct (ti_black _ _ I o Ho) as [Hol Hot].
  destruct (find_part (ts_uf st) N o (ti_part _ _ I) Hol ltac:(lia)) as (F1 & F2 & F3 & F4).
  assert (Hae : anc u e (uf_find (ts_uf st) o)).
  { destruct F3 as [E|(w & Hw & Haw & Ew)].
    - rewrite E. rewrite E in F2. destruct (Hb o Ho) as [?| ->]; [done|apply rtc_refl].
    - destruct (ti_link _ _ I w Hw) as [Hl|Ha].
      + unfold same_tree in *. by rewrite <- Hot, (anc_find_eq u o w wf Haw).
      + by rewrite Ew in Hl.
      + by rewrite <- Ew. }
  split; [|exact (u_lt W _ _ F1 Hol)]. split; [done|]. split; [done|]. intros b Hob Heb.
  destruct (anc_total o (uf_find (ts_uf st) o) b F1 Hob) as [?|Hba]; [done|].
  destruct (decide (b = uf_find (ts_uf st) o)) as [->|Hne]; [apply rtc_refl|].
  exfalso. by apply (ti_stack _ _ I b Heb), F4.
Qed.
Lemma queries_ok e os : e < N -> forall st, tinv e st -> black_in st e ->
  exists st', foldM (tarjan_query e) os st = Ok st' /\ tinv e st' /\ ts_uf st' = ts_uf st /\ ts_black st' = ts_black st.
Proof.
  intros He. induction os as [|o os IH]; intros st I Hb; cbn [foldM]; [by exists st|]. destruct (decide (o ∈ ts_black st)) as [Ho|Ho].
  - destruct (query_lca e st o He I Hb Ho) as [Hl Hlt].
    replace (tarjan_query e st o) with (Ok (TState (ts_black st) (ts_uf st) (ts_anc st)
      (<[(o, e) := uf_find (ts_uf st) o]> (<[(e, o) := uf_find (ts_uf st) o]> (ts_tab st))))).
    2:{ unfold tarjan_query. rewrite bool_decide_true by done. rewrite (ti_anc _ _ I), lookup_seq_lt by done. done. }
    cbn [mbind res_bind].
    match goal with |- context [foldM _ os ?s] => destruct (IH s) as (st' & E & I' & E1 & E2) end.
    + destruct I. split; auto. cbn [ts_tab]. intros l r a Ha. apply lookup_insert_Some in Ha as [[[= <- <-] <-]|[_ Ha]]; [done|].
      apply lookup_insert_Some in Ha as [[[= <- <-] <-]|[_ Ha]]; [by apply lca_swap|eauto].
    + exact Hb.
    + exists st'. split; [exact E|]. split; [done|]. done.
  - replace (tarjan_query e st o) with (Ok st) by (unfold tarjan_query; by rewrite bool_decide_false).
    cbn [mbind res_bind]. apply IH; done.
Qed.

(** ** The traversal *)
Definition kids_ok (km : gmap nat (list nat)) (S : gset nat) : Prop := forall e, e ∈ S ->
  exists l, km !! e = Some l /\ NoDup l /\ forall c, c ∈ l -> c ∈ S /\ uf_parent u c = e /\ c <> e.
Lemma parent_insert_ne (v : list nat) i j k : i <> j -> uf_parent (<[i := k]> v) j = uf_parent v j.
Proof. intros Hne. unfold uf_parent. by rewrite list_lookup_insert_ne. Qed.
Lemma parent_insert_eq (v : list nat) i k : i < length v -> uf_parent (<[i := k]> v) i = k.
Proof. intros Hi. unfold uf_parent. by rewrite list_lookup_insert. Qed.
Lemma siblings a b e : uf_parent u a = e -> uf_parent u b = e -> b <> e -> anc u a b -> a = b.
Proof.
  intros Ha Hb Hne Hab. destruct (anc_inv _ _ _ Hab) as [?|Hab']; [done|]. rewrite Ha in Hab'. destruct Hne.
  apply (anc_antisym u b e wf); [rewrite <- Hb; apply anc_parent|done].
Qed.
Lemma tarjan_ok km q S : kids_ok km S -> (forall i, i ∈ S -> i < N) -> forall fuel e st, e ∈ S -> rk e < fuel ->
  tinv e st -> black_lk st -> fresh_below st e ->
  exists st', tarjan fuel km q e st = Ok st' /\ tinv e st' /\ black_in st' e /\ grown e st st'.
Proof.
  intros Hkm HS. induction fuel as [|fuel IH]; intros e st He Hfu I Hb Hfr; [lia|]. cbn [tarjan].
  pose proof (HS e He) as Hel.
  rewrite (ti_anc _ _ I), lookup_seq_lt by done. cbn [expect mbind res_bind].
  replace (<[e := e]> (seq 0 N)) with (ts_anc st).
  2:{ rewrite (ti_anc _ _ I). symmetry. apply list_insert_id. by rewrite lookup_seq_lt. }
  destruct (Hkm e He) as (cs & -> & Hnd & Hcs). cbn [expect mbind res_bind].
  replace (TState (ts_black st) (ts_uf st) (ts_anc st) (ts_tab st)) with st by (by destruct st).
  match goal with |- context [foldM ?g cs st] => assert (Hloop : forall cs st0, NoDup cs -> (forall c, c ∈ cs -> c ∈ S /\ uf_parent u c = e /\ c <> e) ->
    tinv e st0 -> black_lk st0 -> (forall c, c ∈ cs -> fresh_below st0 c) ->
    exists st', foldM g cs st0 = Ok st' /\ tinv e st' /\ black_lk st' /\ grown e st0 st') end.
  { clear cs st I Hb Hfr Hnd Hcs. induction cs as [|c cs IHc]; intros st Hnd Hcs I Hb Hfr; cbn [foldM].
    { exists st. split; [done|]. split; [done|]. split; [done|apply grown_refl]. }
    apply NoDup_cons in Hnd as [Hcn Hnd]. destruct (Hcs c) as (HcS & Ecp & Hce); [by left|]. pose proof (HS c HcS) as Hcl.
    assert (Hanc : anc u c e) by (rewrite <- Ecp; apply anc_parent).
    assert (Hst : same_tree c e) by (exact (anc_find_eq u c e wf Hanc)).
    destruct (IH c st HcS) as (st1 & -> & I1 & B1 & G1).
    { assert (uf_parent u c <> c) as Hnc by (by rewrite Ecp). pose proof (uf_parent_rank u rk c Hrk Hnc) as Hr. rewrite Ecp in Hr. lia. }
    { split; try apply I.
      - intros v Hv Hvc. destruct (ti_link _ _ I v Hv) as [?|Ha]; [unfold same_tree in *; congruence|by left|].
        right. exact (rtc_transitive _ _ _ Hanc Ha).
      - intros a Ha. destruct (anc_inv _ _ _ Ha) as [<-|Ha']; [apply (Hfr c); [by left|apply rtc_refl]|].
        rewrite Ecp in Ha'. by apply (ti_stack _ _ I).
      - intros o Ho. destruct (ti_black _ _ I o Ho) as [? Hot]. split; [done|]. unfold same_tree in *. congruence. }
    { done. }
    { apply Hfr. by left. }
    cbn [mbind res_bind]. unfold uf_union. cbn [fst].
    set (uf2 := <[c := e]> (ts_uf st1)).
    pose proof (ti_part _ _ I1) as P1. pose proof (proj1 P1) as L1.
    assert (P2 : part uf2).
    { split; [unfold uf2; by rewrite insert_length|]. intros i Hi. unfold uf2. destruct (decide (c = i)) as [<-|Hne].
      - right. rewrite parent_insert_eq by lia. done.
      - rewrite parent_insert_ne by done. by apply P1. }
    assert (K2 : lk uf2 c) by (unfold lk, uf2; rewrite parent_insert_eq by lia; done).
    assert (Kne : forall v, v <> c -> lk uf2 v <-> lk (ts_uf st1) v) by (intros v Hv; unfold lk, uf2; by rewrite parent_insert_ne).
    assert (Kmono : forall v, lk (ts_uf st1) v -> lk uf2 v) by (intros v Hv; destruct (decide (v = c)) as [->|Hne]; [done|by apply Kne]).
    assert (Hroot : ~ lk uf2 e).
    { intros Hl. apply Kne in Hl; [|done]. by apply (ti_stack _ _ I1 e Hanc). }
    assert (Efe : uf_find uf2 e = e). { apply uf_find_root; [by apply part_wf|]. destruct (lk_dec uf2 e); [done|done]. }
    rewrite Efe, (ti_anc _ _ I1), lookup_seq_lt by done. cbn [expect mbind res_bind].
    replace (<[e := e]> (seq 0 N)) with (seq 0 N).
    2:{ symmetry. apply list_insert_id. by rewrite lookup_seq_lt. }
    destruct (IHc (TState (ts_black st1) uf2 (seq 0 N) (ts_tab st1)) Hnd) as (st' & E & I' & B' & G').
    - intros c' Hc'. apply Hcs. by right.
    - split; cbn [ts_black ts_uf ts_anc ts_tab]; try done.
      + intros v Hv Hve. destruct (decide (v = c)) as [->|Hne]; [right; rewrite Ecp; apply rtc_refl|]. apply Kne in Hv; [|done].
        destruct (ti_link _ _ I1 v Hv) as [Hl|Ha]; [unfold same_tree in *; congruence|left; by apply Kmono|].
        destruct (anc_inv _ _ _ Ha) as [<-|Ha']; [by left|]. rewrite Ecp in Ha'. by right.
      + intros a Ha Hl. destruct (decide (a = c)) as [->|Hne]; [destruct Hce; by apply (anc_antisym u c e wf)|].
        apply Kne in Hl; [|done]. apply (ti_stack _ _ I1 a); [exact (rtc_transitive _ _ _ Hanc Ha)|done].
      + apply I1.
      + intros o Ho. destruct (ti_black _ _ I1 o Ho) as [? Hot]. split; [done|]. unfold same_tree in *. congruence.
    - intros o Ho. cbn [ts_black ts_uf] in *. destruct (B1 o Ho) as [Hl| ->]; [by apply Kmono|done].
    - intros c' Hc' v Hv Hl. cbn [ts_uf] in Hl. destruct (Hcs c') as (_ & Ecp' & Hce'); [by right|].
      assert (Hcc : c <> c') by (intros ->; done).
      destruct (decide (v = c)) as [->|Hne]; [by apply Hcc, (siblings c c' e)|]. apply Kne in Hl; [|done].
      destruct (proj2 G1 v Hl) as [Hl0|[Hvc _]]; [by apply (Hfr c' ltac:(by right) v)|].
      destruct (anc_total v c c' Hvc Hv) as [Ha|Ha]; [by apply Hcc, (siblings c c' e)|]. apply Hcc. symmetry. by apply (siblings c' c e).
    - exists st'. split; [exact E|]. split; [done|]. split; [done|]. destruct G1 as [M1 R1]. destruct G' as [M2 R2]. cbn [ts_uf] in *. split.
      + intros v Hv. by apply M2, Kmono, M1.
      + intros v Hv. destruct (R2 v Hv) as [Hl|?]; [|by right]. destruct (decide (v = c)) as [->|Hne]; [by right|].
        apply Kne in Hl; [|done]. destruct (R1 v Hl) as [?|[Ha Hn]]; [by left|]. right. split; [exact (rtc_transitive _ _ _ Ha Hanc)|].
        intros ->. apply Hce. by apply (anc_antisym u c e wf). }
  destruct (Hloop cs st Hnd Hcs I Hb) as (st1 & -> & I1 & B1 & G1).
  { intros c Hc v Hv. apply Hfr. destruct (Hcs c Hc) as (_ & Ecp & _). eapply rtc_transitive; [exact Hv|]. unfold anc in *. rewrite <- Ecp. apply anc_parent. }
  cbn [mbind res_bind]. destruct (q !! e) as [os|].
  - destruct (queries_ok e os Hel (TState ({[e]} ∪ ts_black st1) (ts_uf st1) (ts_anc st1) (ts_tab st1))) as (st' & E & I' & Eu & Eb).
    + destruct I1. split; auto. cbn [ts_black]. intros o [->%elem_of_singleton|Ho]%elem_of_union; auto. done.
    + intros o [->%elem_of_singleton|Ho]%elem_of_union; [by right|left; by apply B1].
    + exists st'. split; [done|]. split; [done|]. split.
      * intros o. rewrite Eu, Eb. cbn. intros [->%elem_of_singleton|Ho]%elem_of_union; [by right|left; by apply B1].
      * unfold grown in *. rewrite Eu. exact G1.
  - exists st1. split; [done|]. split; [done|]. split; [|done]. intros o Ho. left. by apply B1.
Qed.

(** ** The whole table *)
Context (Hnl : forall i c, c ∈ nbs f i -> cn_next c < N) (Hnbp : nbp f) (Hnc : forall i c, c ∈ nbs f i -> connected es i (cn_next c)).
Context (it : gset nat -> list nat) (Hit : enumerates it).
Lemma collected_parent c s i : collected (x := x) c s -> i ∈ s -> uf_parent u i ∈ s.
Proof.
  intros Hs Hi. pose proof (co_lt _ _ Hs i Hi) as Hil. destruct (lookup_lt_is_Some_2 f i Hil) as [nd Hnd]. rewrite (pl_parent _ _ _ Hnd).
  destruct (decide (cn_next (xn_parent nd) = i)) as [->|Hne]; [done|]. destruct (Hnbp i nd Hnd Hne) as [(k & Hk & Ek & _) _].
  apply (co_closed _ _ Hs i); [done|]. by exists k.
Qed.
Lemma forest_kids_ok c s : collected (x := x) c s -> exists km, forest_kids it x s = Ok km /\ kids_ok km s.
Proof.
  intros Hs. unfold forest_kids.
  match goal with |- context [foldM ?g _ _] => assert (Hgo : forall l dn km, NoDup (dn ++ l) -> (forall e, e ∈ l -> e ∈ s) ->
    (forall e, e ∈ s -> is_Some (km !! e)) ->
    (forall p k, km !! p = Some k -> NoDup k /\ forall c, c ∈ k -> c ∈ dn /\ c ∈ s /\ uf_parent u c = p /\ c <> p) ->
    exists km', foldM g l km = Ok km' /\ kids_ok km' s) end.
  { induction l as [|e l IH]; intros dn km Hnd Hl Hkm Hok; cbn [foldM].
    { exists km. split; [done|]. intros e He. destruct (Hkm e He) as [k Hk]. exists k. split; [done|]. destruct (Hok _ _ Hk) as [H1 H2].
      split; [done|]. intros c' Hc'. destruct (H2 c' Hc') as (_ & ?). done. }
    assert (Hes : e ∈ s) by (apply Hl; by left). rewrite (xparent_ok x e (co_lt _ _ Hs e Hes)). cbn [mbind res_bind].
    assert (Hnd' : NoDup ((dn ++ [e]) ++ l)) by (rewrite <- app_assoc; exact Hnd).
    case_bool_decide as Hp; cbn [mbind res_bind].
    - apply (IH (dn ++ [e]) km Hnd'); [intros; apply Hl; by right|done|]. intros p k Hk. destruct (Hok p k Hk) as [H1 H2]. split; [done|].
      intros c' Hc'. destruct (H2 c' Hc') as (? & ?). split; [apply elem_of_app; by left|done].
    - destruct (Hkm (uf_parent u e)) as [k Hk]; [by eapply collected_parent|]. rewrite Hk. cbn [expect mbind res_bind].
      apply (IH (dn ++ [e]) _ Hnd'); [intros; apply Hl; by right| |].
      + intros i Hi. destruct (decide (uf_parent u e = i)) as [<-|Hne]; [rewrite lookup_insert; eauto|rewrite lookup_insert_ne by done; by apply Hkm].
      + intros p k' Hk'. apply lookup_insert_Some in Hk' as [[<- <-]|[_ Hk']].
        * destruct (Hok _ _ Hk) as [H1 H2]. split.
          -- apply NoDup_app. split; [done|]. split; [|apply NoDup_singleton]. intros c' Hc' ->%elem_of_list_singleton.
             destruct (H2 e Hc') as [Hin _]. apply NoDup_app in Hnd as (_ & Hnd & _). apply (Hnd e Hin). by left.
          -- intros c' [Hc'| ->%elem_of_list_singleton]%elem_of_app.
             ++ destruct (H2 c' Hc') as (? & ?). split; [apply elem_of_app; by left|done].
             ++ split; [apply elem_of_app; right; by left|]. split; [done|]. split; [done|congruence].
        * destruct (Hok p k' Hk') as [H1 H2]. split; [done|]. intros c' Hc'. destruct (H2 c' Hc') as (? & ?). split; [apply elem_of_app; by left|done]. }
  apply (Hgo (it s) []).
  - cbn. rewrite (Hit s). apply NoDup_elements.
  - intros e He. by apply (it_elem it Hit).
  - intros e He. exists []. by apply lookup_gset_to_gmap_Some.
  - intros p k Hk. apply lookup_gset_to_gmap_Some in Hk as [_ <-]. split; [constructor|]. intros c' Hc'. by apply elem_of_nil in Hc'.
Qed.
Lemma climb_root_ok fuel : forall i, i < N -> N <= fuel + rk i -> climb_root fuel x i = Ok (uf_find u i).
Proof.
  induction fuel as [|fuel IH]; intros i Hi Hfu; [rewrite pl_length in Hrb; specialize (Hrb i Hi); lia|]. cbn [climb_root].
  rewrite (xparent_ok x i Hi). cbn [mbind res_bind]. case_bool_decide as Hp; [by rewrite (uf_find_root u i wf Hp)|].
  rewrite IH; [by rewrite (uf_find_parent u i wf)|apply (u_lt W i); [apply anc_parent|done]|].
  pose proof (uf_parent_rank u rk i Hrk Hp). lia.
Qed.
Lemma collected_tree c s i : c < N -> collected (x := x) c s -> i ∈ s -> same_tree i c.
Proof.
  intros Hc Hs Hi. pose proof (co_reach _ _ Hs i Hi) as Hr. pose proof (co_lt _ _ Hs i Hi) as Hil.
  unfold same_tree. symmetry. apply (forest_connected _ _ _ _ _ F Hc Hil).
  clear -Hr Hnc. induction Hr as [a|a b d (k & Hk & <-) _ IH]; [apply rtc_refl|]. eapply rtc_transitive; [exact (Hnc a k Hk)|done].
Qed.
Lemma collected_root c s i k : collected (x := x) c s -> i ∈ s -> N <= k + rk i -> uf_find u i ∈ s.
Proof.
  intros Hs. revert i. induction k as [|k IH]; intros i Hi Hk.
  { pose proof (co_lt _ _ Hs i Hi). rewrite pl_length in Hrb. specialize (Hrb i). lia. }
  destruct (decide (uf_parent u i = i)) as [E|E]; [by rewrite (uf_find_root u i wf E)|].
  rewrite <- (uf_find_parent u i wf). apply IH; [by eapply collected_parent|]. pose proof (uf_parent_rank u rk i Hrk E). lia.
Qed.
Record cinv (dn : list nat) (st : tstate) : Prop := {
  ci_anc : ts_anc st = seq 0 N;
  ci_part : part (ts_uf st);
  ci_done : forall v, lk (ts_uf st) v -> exists c, c ∈ dn /\ same_tree v c;
  ci_tab : forall l r a, ts_tab st !! (l, r) = Some a -> lca u l r a;
}.
Lemma ancestor_queries_ok cn : cn_ok (ns := ns) (x := x) (es := es) cn -> exists q, ancestor_queries ns cn = Ok q.
Proof.
  intros Hcn. unfold ancestor_queries.
  assert (Hl : Forall (fun p : nat * list nat => forall o, o ∈ p.2 -> is_Some (ns !! p.1) /\ is_Some (ns !! o)) (imap (fun i o => (i, o)) cn)).
  { apply Forall_lookup. intros i [s os] Hi. rewrite list_lookup_imap in Hi. destruct (cn !! i) as [os'|] eqn:Ei; [|done]. cbn in Hi. injection Hi as <- <-.
    cbn. intros o Ho. destruct (cn_cong cn Hcn _ _ _ Ei Ho) as (n & m & Hn & Hm & _). eauto. }
  generalize (∅ : gmap nat (list nat)). induction Hl as [|[s os] l Hp _ IH]; intros q; cbn [foldM]; [eauto|]. cbn [fst snd] in Hp.
  match goal with |- context [foldM ?g os q] => assert (Hin : forall os' q', (forall o, o ∈ os' -> o ∈ os) -> exists q'', foldM g os' q' = Ok q'') end.
  { induction os' as [|o os' IHo]; intros q' Ho; cbn [foldM]; [eauto|]. destruct (Hp o) as [[n Hn] [m Hm]]; [apply Ho; by left|].
    rewrite Hn in IHo |- *. rewrite Hm. refine (IHo _ _). intros; apply Ho; by right. }
  destruct (Hin os q ltac:(auto)) as [q' E]. rewrite E. cbn [mbind res_bind]. apply IH.
Qed.
Context (fuel : nat) (Hfuel : S (sumf (deg (x := x)) N) < fuel) (HfuelN : N < fuel).
Lemma common_ancestor_table (cit : gmap nat eclass -> list nat) cl cn : cn_ok (ns := ns) (x := x) (es := es) cn ->
  NoDup (cit cl) -> (forall c, c ∈ cit cl -> c < N) -> (forall c d, c ∈ cit cl -> d ∈ cit cl -> connected es c d -> c = d) ->
  exists ca, calculate_common_ancestor it cit fuel x ns cl cn = Ok ca /\ forall l r a, ca !! (l, r) = Some a -> lca u l r a.
Proof.
  intros Hcn Hnd Hlt Hcan. unfold calculate_common_ancestor. destruct (ancestor_queries_ok cn Hcn) as [q ->]. cbn [mbind res_bind].
  match goal with |- context [foldM ?g _ _] => assert (Hgo : forall l dn st, NoDup (dn ++ l) -> (forall c, c ∈ dn ++ l -> c ∈ cit cl) -> cinv dn st ->
    exists st', foldM g l st = Ok st' /\ forall l r a, ts_tab st' !! (l, r) = Some a -> lca u l r a) end.
  { induction l as [|c l IH]; intros dn st Hn Hin I; cbn [foldM]; [exists st; split; [done|apply I]|].
    assert (Hcl : c < N) by (apply Hlt, Hin; set_solver).
    destruct (find_all_enodes_ok W Hnl fuel c Hcl Hfuel) as (s & -> & Hs). cbn [mbind res_bind].
    destruct (forest_kids_ok c s Hs) as (km & -> & Hkm). cbn [mbind res_bind].
    destruct (it s) as [|e0 its] eqn:Eit.
    { exfalso. pose proof (co_start _ _ Hs) as Hc0. apply (it_elem it Hit) in Hc0. rewrite Eit in Hc0. by apply elem_of_nil in Hc0. }
    cbn [head expect mbind res_bind]. assert (He0 : e0 ∈ s) by (apply (it_elem it Hit); rewrite Eit; by left).
    pose proof (co_lt _ _ Hs e0 He0) as He0l. rewrite climb_root_ok by (done || lia). cbn [mbind res_bind].
    pose proof (collected_tree c s e0 Hcl Hs He0) as Ht0. unfold same_tree in Ht0.
    pose proof (collected_root c s e0 N Hs He0 ltac:(lia)) as HrS. set (root := uf_find u e0) in *.
    assert (Hroot : uf_parent u root = root) by (apply (uf_find_is_root u e0 wf)).
    assert (Hfree : forall v, same_tree v root -> ~ lk (ts_uf st) v).
    { intros v Hv Hl. destruct (ci_done _ _ I v Hl) as (d & Hd & Htd). unfold same_tree in *.
      assert (Erc : uf_find u root = uf_find u c) by (unfold root; rewrite (uf_find_idem u e0 wf); exact Ht0).
      assert (c = d) as <-.
      { apply Hcan; [apply Hin; set_solver|apply Hin; set_solver|]. apply (forest_connected _ _ _ _ _ F Hcl); [apply Hlt, Hin; set_solver|]. congruence. }
      apply NoDup_app in Hn as (_ & Hn & _). apply (Hn c Hd). by left. }
    destruct (tarjan_ok km q s Hkm (co_lt _ _ Hs) fuel root (TState ∅ (ts_uf st) (ts_anc st) (ts_tab st)) HrS) as (st1 & -> & I1 & _ & G1).
    { pose proof (co_lt _ _ Hs _ HrS) as Hrl. rewrite pl_length in Hrb. specialize (Hrb root Hrl). lia. }
    { split; cbn [ts_black ts_uf ts_anc ts_tab]; try apply I.
      - intros v Hv Ht. exfalso. by apply (Hfree v Ht).
      - intros a Ha. apply Hfree. symmetry. exact (anc_find_eq u root a wf Ha).
      - intros o Ho. by apply not_elem_of_empty in Ho. }
    { intros o Ho. by apply not_elem_of_empty in Ho. }
    { intros v Hv. apply Hfree. exact (anc_find_eq u v root wf Hv). }
    cbn [mbind res_bind]. apply (IH (dn ++ [c])); [by rewrite <- app_assoc|by rewrite <- app_assoc|]. split; [apply I1|apply I1| |apply I1].
    intros v Hv. destruct (proj2 G1 v Hv) as [Hl|[Ha _]].
    - destruct (ci_done _ _ I v Hl) as (d & Hd & Htd). exists d. split; [set_solver|done].
    - exists c. split; [set_solver|]. unfold same_tree. rewrite (anc_find_eq u v root wf Ha). unfold root. rewrite (uf_find_idem u e0 wf). exact Ht0. }
  destruct (Hgo (cit cl) [] (TState ∅ (seq 0 N) (seq 0 N) ∅)) as (st & -> & Htab); [done|auto| |].
  { assert (Hpar : forall i, uf_parent (seq 0 N) i = i).
    { intros i. unfold uf_parent. destruct (seq 0 N !! i) eqn:E; [|done]. apply lookup_seq in E as [-> _]. cbn. lia. }
    split; cbn [ts_anc ts_uf ts_tab].
    - done.
    - split; [apply seq_length|]. intros i _. left. apply Hpar.
    - intros v Hv. destruct Hv. apply Hpar.
    - intros l r a Ha. by rewrite lookup_empty in Ha. }
  cbn [mbind res_bind]. eauto.
Qed.
End tarjan.
