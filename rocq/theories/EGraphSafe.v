(** The proof forest is kept in step with the classes, and no operation panics. *)
From Verif Require Import Base UnionFind EGraphModel EGraphSteps EGraphInv EGraphPres EGraphRuns ExplainForest.

Section safe.
Context {Op D : Type} `{Countable Op}.
Notation node := (node Op).
Notation egraph := (egraph Op D).
Notation eclass := (eclass Op D).
Notation explain := (explain Op).
Context (L : lang Op) (A : analysis Op D).

(** Edges of the forest, newest first: asserted unions, and congruences between nodes
    whose children are connected by older edges. *)
Inductive edges_ok (ns : list node) (h : list (event Op)) : list edge -> Prop :=
| eo_nil : edges_ok ns h []
| eo_rule a b r es :
    ~ connected es a b -> EUnion a b r ∈ h -> edges_ok ns h es -> edges_ok ns h ((a, b, JRule r) :: es)
| eo_cong a b n m es :
    ~ connected es a b ->
    ns !! a = Some n -> ns !! b = Some m -> nop n = nop m ->
    Forall2 (connected es) (nch n) (nch m) ->
    edges_ok ns h es -> edges_ok ns h ((a, b, JCong) :: es).

Lemma edges_ok_mono ns ns' h h' es :
  (forall k n, ns !! k = Some n -> ns' !! k = Some n) -> (forall e, e ∈ h -> e ∈ h') ->
  edges_ok ns h es -> edges_ok ns' h' es.
Proof. intros Hn Hh. induction 1; econstructor; eauto. Qed.

(** Neighbour edges that are not in the forest come from asserted unions too. *)
Definition alt_of (h : list (event Op)) (a b : nat) (j : justif) : Prop :=
  exists r, j = JRule r /\ EUnion a b r ∈ h.

(** Until the length optimiser runs, the path memo holds exactly direct rule steps. *)
Definition nbs (f : list exnode) (i : nat) : list conn := default [] (xn_neighbors <$> f !! i).
Definition direct (x : explain) : Prop :=
  forall a b c n, ex_short x !! (a, b) = Some (c, n) ->
    n = b /\ exists k, k ∈ nbs (ex_find x) a /\ cn_next k = b /\ cn_just k <> JCong.

Lemma nbs_insert_same f i y z : f !! i = Some y -> xn_neighbors z = xn_neighbors y -> forall k, nbs (<[i := z]> f) k = nbs f k.
Proof.
  intros Hi E k. unfold nbs. destruct (decide (k = i)) as [->|Hne]; [|by rewrite list_lookup_insert_ne].
  rewrite list_lookup_insert by (by eapply lookup_lt_Some). rewrite Hi. cbn. by rewrite E.
Qed.
Lemma nbs_push f i y c k :
  f !! i = Some y -> nbs (<[i := xn_push c y]> f) k = (if decide (k = i) then nbs f k ++ [c] else nbs f k).
Proof.
  intros Hi. unfold nbs. case_decide as Hk; [subst k|by rewrite list_lookup_insert_ne].
  rewrite list_lookup_insert by (by eapply lookup_lt_Some). by rewrite Hi.
Qed.
Lemma make_leader_nbs fuel f n f' : make_leader fuel f n = Ok f' -> forall i, nbs f' i = nbs f i.
Proof.
  revert f n f'. induction fuel as [|fuel IH]; intros f n f' E i; [done|]. cbn [make_leader] in E.
  inv_res. case_decide; [by inv_res|]. inv_res. erewrite nbs_insert_same; [by eapply IH|eassumption|done].
Qed.
Lemma direct_union x n1 n2 j x' : direct x -> ex_union x n1 n2 j = Ok x' -> direct x'.
Proof.
  intros Hd E. unfold ex_union in E. inv_res.
  assert (Hn : forall i, nbs (<[n1:=xn_set_parent (Conn n2 n1 j true) x3]> (<[n2:=xn_push (Conn n1 n2 j false) x2]>
      (<[n1:=xn_push (Conn n2 n1 j true) x1]> x0))) i =
      (if decide (i = n2) then (if decide (i = n1) then nbs (ex_find x) i ++ [Conn n2 n1 j true] else nbs (ex_find x) i) ++ [Conn n1 n2 j false]
       else if decide (i = n1) then nbs (ex_find x) i ++ [Conn n2 n1 j true] else nbs (ex_find x) i)).
  { intros i. erewrite nbs_insert_same by eauto. erewrite nbs_push by eauto. erewrite nbs_push by eauto.
    by erewrite make_leader_nbs by eauto. }
  intros a b c n. cbn [ex_short ex_find]. intros Hs.
  assert (Hold : ex_short x !! (a, b) = Some (c, n) -> n = b /\ exists k, k ∈ nbs (<[n1:=xn_set_parent (Conn n2 n1 j true) x3]> (<[n2:=xn_push (Conn n1 n2 j false) x2]>
      (<[n1:=xn_push (Conn n2 n1 j true) x1]> x0))) a /\ cn_next k = b /\ cn_just k <> JCong).
  { intros Ho. destruct (Hd _ _ _ _ Ho) as (-> & k & Hk & Ek & Jk). split; [done|]. exists k. split_and!; auto.
    rewrite Hn. repeat case_decide; set_solver. }
  destruct j as [r|]; [|by apply Hold].
  apply lookup_insert_Some in Hs as [[[= <- <-] [= _ <-]]|[_ Hs]].
  { split; [done|]. eexists. split_and!; [rewrite Hn; rewrite decide_True by done; apply elem_of_app; right; by left|done|done]. }
  apply lookup_insert_Some in Hs as [[[= <- <-] [= _ <-]]|[_ Hs]]; [|by apply Hold].
  split; [done|]. exists (Conn n2 n1 (JRule r) true). split_and!; [|done|done].
  rewrite Hn. repeat case_decide; try done; set_solver.
Qed.
Lemma direct_push x n1 n2 r x' :
  direct x -> n1 <> n2 ->
  (a ← expect (ex_find x !! n1);
      let f1 := <[n1:=xn_push (Conn n2 n1 (JRule r) true) a]> (ex_find x) in
      b ← expect (f1 !! n2);
      let f2 := <[n2:=xn_push (Conn n1 n2 (JRule r) false) b]> f1 in
      Ok (Explain f2 (ex_memo x) (<[(n2, n1):=(1, n1)]> (<[(n1, n2):=(1, n2)]> (ex_short x))))) = Ok x' -> direct x'.
Proof.
  intros Hd Hne E. destruct (ex_find x !! n1) as [x0|] eqn:Ha; [|done]. cbn [expect mbind res_bind] in E.
  destruct (<[n1:=_]> (ex_find x) !! n2) as [x1|] eqn:Hb; [|done]. cbn [expect mbind res_bind] in E. injection E as <-.
  intros a b c n. cbn [ex_short ex_find]. intros Hs.
  assert (Hn : forall i, nbs (<[n2:=xn_push (Conn n1 n2 (JRule r) false) x1]> (<[n1:=xn_push (Conn n2 n1 (JRule r) true) x0]> (ex_find x))) i =
      (if decide (i = n2) then (if decide (i = n1) then nbs (ex_find x) i ++ [Conn n2 n1 (JRule r) true] else nbs (ex_find x) i) ++ [Conn n1 n2 (JRule r) false]
       else if decide (i = n1) then nbs (ex_find x) i ++ [Conn n2 n1 (JRule r) true] else nbs (ex_find x) i)).
  { intros i. erewrite nbs_push by eauto. by erewrite nbs_push by eauto. }
  apply lookup_insert_Some in Hs as [[[= <- <-] [= _ <-]]|[_ Hs]].
  { split; [done|]. eexists. split_and!; [rewrite Hn; rewrite decide_True by done; apply elem_of_app; right; by left|done|done]. }
  apply lookup_insert_Some in Hs as [[[= <- <-] [= _ <-]]|[_ Hs]].
  { split; [done|]. exists (Conn n2 n1 (JRule r) true). split_and!; [|done|done].
    rewrite Hn. repeat case_decide; try done; set_solver. }
  destruct (Hd _ _ _ _ Hs) as (-> & k & Hk & Ek & Jk). split; [done|]. exists k. split_and!; auto.
  rewrite Hn. repeat case_decide; set_solver.
Qed.
Lemma direct_alternate x n1 n2 r x' : alternate_rewrite x n1 n2 (JRule r) = Ok x' -> direct x -> direct x'.
Proof.
  intros E Hd. unfold alternate_rewrite in E. case_decide as Hn; [by injection E as <-|].
  destruct (ex_short x !! (n1, n2)) as [[[|[|k]] nx]|]; try (by injection E as <-); by eapply (direct_push x n1 n2 r).
Qed.
Lemma direct_add x n k x' : ex_add x n k = Ok x' -> direct x -> direct x'.
Proof.
  intros E Hd. unfold ex_add in E. destruct (_ =? k); [|done]. injection E as <-.
  intros a b c d Hs. destruct (Hd _ _ _ _ Hs) as (-> & m & Hm & Ek & Jk). split; [done|]. exists m. split_and!; auto.
  unfold nbs in *. cbn [ex_find]. destruct (ex_find x !! a) as [nd|] eqn:Hnd; [|by apply elem_of_nil in Hm].
  by rewrite (lookup_app_l_Some _ _ _ _ Hnd).
Qed.

Definition xforest (ns : list node) (h : list (event Op)) (f : nat -> nat) (x : explain) (es : list edge) : Prop :=
  length (ex_find x) = length ns /\ forest (alt_of h) (ex_find x) es /\ edges_ok ns h es /\
  (forall a b, a < length ns -> b < length ns -> (connected es a b <-> f a = f b)) /\
  (forall n i, ex_memo x !! n = Some i -> ns !! i = Some n).
Definition XInv (g : egraph) : Prop :=
  forall x, eg_explain g = Some x -> exists es, xforest (eg_nodes g) (eg_log g) (eg_find g) x es.

Lemma connected_lt alt f es a b : forest alt f es -> connected es a b -> a < length f -> b < length f.
Proof.
  intros F Hc. induction Hc as [a|a c b (j & Hj) _ IH]; intros Ha; [done|]. apply IH.
  destruct Hj as [Hj|Hj]; destruct (fo_lt _ _ _ F _ _ _ Hj); done.
Qed.

Lemma xforest_ext ns h f f' x es : (forall i, f' i = f i) -> xforest ns h f x es -> xforest ns h f' x es.
Proof. intros He (X1 & X2 & X3 & X4 & X5). split_and!; auto. intros. rewrite !He. auto. Qed.
Lemma alt_of_mono h h' a b j : (forall e, e ∈ h -> e ∈ h') -> alt_of h a b j -> alt_of h' a b j.
Proof. intros Hh (r & -> & Hr). exists r. auto. Qed.
Lemma xforest_log ns h f x es e : xforest ns h f x es -> xforest ns (e :: h) f x es.
Proof.
  intros (X1 & X2 & X3 & X4 & X5). split_and!; auto.
  - eapply forest_alt; [|exact X2]. intros a b j. apply alt_of_mono. intros. by right.
  - eapply edges_ok_mono; [| |exact X3]; [done|]. intros. by right.
Qed.

Lemma XInv_new ex : XInv (eg_new ex).
Proof.
  intros x Hx. destruct ex; [|done]. injection Hx as <-. exists []. unfold xforest. cbn. split_and!.
  - done.
  - apply forest_nil.
  - constructor.
  - intros. lia.
  - intros n i Hi. by rewrite lookup_empty in Hi.
Qed.

Lemma XInv_same (g g' : egraph) :
  eg_explain g' = eg_explain g -> eg_nodes g' = eg_nodes g -> eg_log g' = eg_log g ->
  (forall i, eg_find g' i = eg_find g i) -> XInv g -> XInv g'.
Proof.
  intros E1 E2 E3 Hf X x Hx. rewrite E1 in Hx. destruct (X x Hx) as (es & Hes). exists es.
  rewrite E2, E3. by eapply xforest_ext.
Qed.
Lemma XInv_log (g : egraph) e : XInv g -> XInv (add_log e g).
Proof. intros X x Hx. destruct (X x Hx) as (es & Hes). exists es. by apply xforest_log. Qed.

(** ** Unions *)
Lemma xforest_union ns h f f' x es n1 n2 j :
  xforest ns h f x es -> n1 < length ns -> n2 < length ns -> f n1 <> f n2 ->
  (forall a b, f' a = f' b <-> f a = f b \/ (f a = f n1 /\ f b = f n2) \/ (f a = f n2 /\ f b = f n1)) ->
  match j with
  | JRule r => EUnion n1 n2 r ∈ h
  | JCong => exists n m, ns !! n1 = Some n /\ ns !! n2 = Some m /\ canonf f n = canonf f m /\
      Forall (fun c => c < length ns) (nch n) /\ Forall (fun c => c < length ns) (nch m)
  end ->
  exists x', ex_union x n1 n2 j = Ok x' /\ xforest ns h f' x' ((n1, n2, j) :: es).
Proof.
  intros (X1 & X2 & X3 & X4 & X5) H1 H2 Hne Hf' Hj.
  destruct (ex_union_forest (alt_of h) x es n1 n2 j X2) as (x' & E & F'); [lia|lia|by rewrite X4|].
  exists x'. split; [done|]. pose proof (ex_union_shape _ _ _ _ _ E) as [El Em].
  split_and!; auto.
  - lia.
  - assert (Hnc : ~ connected es n1 n2) by (by rewrite X4).
    destruct j as [r|]; [by constructor|]. destruct Hj as (n & m & Hn & Hm & Ec & Ln & Lm).
    apply canonf_eq_inv in Ec as (Eo & Elen & Hk).
    eapply eo_cong; eauto. apply Forall2_same_length_lookup_2; [done|]. intros k c d Hc Hd.
    apply (proj2 (X4 c d (Forall_lookup_1 _ _ _ _ Ln Hc) (Forall_lookup_1 _ _ _ _ Lm Hd))). by eapply Hk.
  - intros a b Ha Hb. rewrite connected_cons_iff, Hf'.
    assert (Hx : forall p q, p < length ns -> (connected es p q <-> q < length ns /\ f p = f q)).
    { intros p q Hp. split.
      - intros Hc. assert (q < length ns) by (rewrite <- X1 in *; by eapply connected_lt). split; [done|]. by apply (X4 p q).
      - intros [? ?]. by apply (X4 p q). }
    rewrite !Hx by auto. naive_solver.
  - by rewrite Em.
Qed.

Lemma xforest_alternate ns h f x es n1 n2 r :
  xforest ns h f x es -> n1 < length ns -> n2 < length ns -> EUnion n1 n2 r ∈ h ->
  exists x', alternate_rewrite x n1 n2 (JRule r) = Ok x' /\ xforest ns h f x' es.
Proof.
  intros X H1 H2 Hr. pose proof X as (X1 & X2 & X3 & X4 & X5). unfold alternate_rewrite.
  case_decide as Hd; [eauto|].
  assert (Hgo : exists x', (a ← expect (ex_find x !! n1);
      let f1 := <[n1:=xn_push (Conn n2 n1 (JRule r) true) a]> (ex_find x) in
      b ← expect (f1 !! n2);
      let f2 := <[n2:=xn_push (Conn n1 n2 (JRule r) false) b]> f1 in
      Ok (Explain f2 (ex_memo x) (<[(n2, n1):=(1, n1)]> (<[(n1, n2):=(1, n2)]> (ex_short x))))) = Ok x' /\ xforest ns h f x' es).
  { destruct (lookup_lt_is_Some_2 (ex_find x) n1) as [a Ha]; [lia|]. rewrite Ha. cbn [expect mbind res_bind].
    destruct (lookup_lt_is_Some_2 (ex_find x) n2) as [b Hb]; [lia|].
    rewrite list_lookup_insert_ne by done. rewrite Hb. cbn [expect mbind res_bind].
    eexists. split; [done|].
    set (f2 := <[n2 := _]> _).
    assert (Hl2 : length f2 = length (ex_find x)) by (unfold f2; by rewrite !insert_length).
    assert (Hlk : forall i y, f2 !! i = Some y -> exists y0, ex_find x !! i = Some y0 /\ xn_parent y = xn_parent y0 /\
       forall c, c ∈ xn_neighbors y -> c ∈ xn_neighbors y0 \/ (i = n1 /\ c = Conn n2 n1 (JRule r) true) \/
           (i = n2 /\ c = Conn n1 n2 (JRule r) false)).
    { intros i y Hy. unfold f2 in Hy. destruct (decide (i = n2)) as [->|Hi2].
      - rewrite list_lookup_insert in Hy by (rewrite insert_length; lia). injection Hy as <-. exists b.
        split_and!; auto. cbn. intros c Hc. apply elem_of_app in Hc as [?| ->%elem_of_list_singleton]; auto.
      - rewrite list_lookup_insert_ne in Hy by done. destruct (decide (i = n1)) as [->|Hi1].
        + rewrite list_lookup_insert in Hy by lia. injection Hy as <-. exists a.
          split_and!; auto. cbn. intros c Hc. apply elem_of_app in Hc as [?| ->%elem_of_list_singleton]; auto.
        + rewrite list_lookup_insert_ne in Hy by done. exists y. split_and!; auto. }
    assert (Hpl : pl f2 = pl (ex_find x)).
    { apply list_eq. intros i. unfold pl. rewrite !list_lookup_fmap.
      destruct (f2 !! i) as [y|] eqn:Ey.
      - destruct (Hlk _ _ Ey) as (y0 & -> & Ep & _). cbn. by rewrite Ep.
      - apply lookup_ge_None in Ey. rewrite lookup_ge_None_2 by lia. done. }
    destruct X2 as [F1 F2 Fne F3 F4 F5 F6].
    unfold xforest. cbn [ex_find ex_memo]. split_and!; auto; [lia|].
    split; rewrite ?Hpl, ?Hl2; auto.
    - intros i y Hy. destruct (Hlk _ _ Hy) as (y0 & Hy0 & -> & _). eauto.
    - intros i y Hy. destruct (Hlk _ _ Hy) as (y0 & Hy0 & -> & _). by apply F4.
    - intros i y c Hy Hc. destruct (Hlk _ _ Hy) as (y0 & Hy0 & _ & Hcs).
      destruct (Hcs c Hc) as [Hc0|[[-> ->]|[-> ->]]]; [eauto| |]; cbn; (split; [done|]); right; exists r; auto. }
  destruct (ex_short x !! (n1, n2)) as [[[|[|k]] nx]|]; eauto.
Qed.

Lemma perform_union_core_safe e1 e2 rule (g : egraph) :
  uf_wf (eg_uf g) -> length (eg_nodes g) = length (eg_uf g) ->
  (forall i, is_Some (eg_classes g !! i) <-> i < length (eg_nodes g) /\ eg_find g i = i) ->
  (forall r c, eg_classes g !! r = Some c -> c_id c = r) ->
  XInv g -> e1 < length (eg_nodes g) -> e2 < length (eg_nodes g) ->
  (is_Some (eg_explain g) -> eg_find g e1 <> eg_find g e2 -> is_Some rule) ->
  match rule with
  | None => True
  | Some (JRule r) => EUnion e1 e2 r ∈ eg_log g
  | Some JCong => exists n m, eg_nodes g !! e1 = Some n /\ eg_nodes g !! e2 = Some m /\
      canonf (eg_find g) n = canonf (eg_find g) m /\
      Forall (fun c => c < length (eg_nodes g)) (nch n) /\ Forall (fun c => c < length (eg_nodes g)) (nch m)
  end ->
  exists g' o, perform_union_core A e1 e2 rule g = Ok (g', o) /\ XInv g'.
Proof.
  intros Hwf Hlen Hcls Hcid X He1 He2 Hrule Hj. unfold perform_union_core.
  assert (V1 : valid_id g e1 = true) by (apply valid_id_lt; lia).
  assert (V2 : valid_id g e2 = true) by (apply valid_id_lt; lia).
  rewrite V1, V2. cbn [andb negb].
  destruct (eg_find_mut_spec (set_clean false g) e1) as (u1 & -> & E1); [done|cbn; lia|].
  pose proof E1 as (W1 & L1 & F1). cbn in W1, L1, F1.
  destruct (eg_find_mut_spec (set_uf u1 (set_clean false g)) e2) as (u2 & -> & E2); [done|cbn; lia|].
  pose proof E2 as (W2 & L2 & F2). cbn in W2, L2, F2.
  change (eg_find (set_clean false g) e1) with (eg_find g e1).
  assert (Hfe2 : eg_find (set_uf u1 (set_clean false g)) e2 = eg_find g e2) by (apply F1). rewrite Hfe2.
  assert (Fg : forall i, uf_find u2 i = eg_find g i) by (intros; rewrite F2, F1; done).
  cbn [eg_explain set_uf set_clean].
  case_decide as Hd.
  - destruct rule as [[r|]|]; [destruct (eg_explain g) as [x|] eqn:Ex|destruct (eg_explain g) as [x|] eqn:Ex|].
    + destruct (X x Ex) as (es & Hes).
      destruct (xforest_alternate _ _ _ _ _ e1 e2 r Hes He1 He2 Hj) as (x' & -> & X').
      cbn. eexists _, _. split; [done|]. intros y Hy. cbn in Hy. injection Hy as <-. exists es.
      eapply xforest_ext; [|exact X']. exact Fg.
    + eexists _, _. split; [done|]. eapply XInv_same; [..|exact X]; auto.
    + eexists _, _. split; [done|]. eapply XInv_same; [..|exact X]; auto.
    + eexists _, _. split; [done|]. eapply XInv_same; [..|exact X]; auto.
    + destruct (eg_explain g); eexists _, _; (split; [done|]); (eapply XInv_same; [..|exact X]); auto.
  - cbn [eg_classes set_uf set_clean].
    assert (Hi : forall e, e < length (eg_nodes g) -> is_Some (eg_classes g !! eg_find g e)).
    { intros e He. apply Hcls. split; [rewrite Hlen in *; by apply uf_find_lt|]. by apply uf_find_idem. }
    destruct (Hi e1 He1) as [k1 Hk1]. destruct (Hi e2 He2) as [k2 Hk2]. rewrite Hk1, Hk2. cbn [expect mbind res_bind].
    set (sw := length (c_parents k1) <? length (c_parents k2)).
    assert (Hp : exists id1 id2 k1' k2', (if sw then (eg_find g e2, eg_find g e1) else (eg_find g e1, eg_find g e2)) = (id1, id2) /\
        id1 <> id2 /\ eg_classes g !! id1 = Some k1' /\ eg_classes g !! id2 = Some k2' /\
        uf_find (eg_uf g) id1 = id1 /\ uf_find (eg_uf g) id2 = id2 /\ id1 < length (eg_nodes g) /\ id2 < length (eg_nodes g) /\
        ((id1 = eg_find g e1 /\ id2 = eg_find g e2) \/ (id1 = eg_find g e2 /\ id2 = eg_find g e1))).
    { destruct sw; eexists _, _, _, _; (split; [done|]); split_and!; eauto; try (by apply uf_find_idem);
        rewrite Hlen; apply uf_find_lt; auto; lia. }
    destruct Hp as (id1 & id2 & k1' & k2' & -> & Hne & Hk1' & Hk2' & Hr1 & Hr2 & Hl1 & Hl2 & Hids).
    set (f' := fun j => if decide (eg_find g j = id2) then id1 else eg_find g j).
    assert (Hfr : forall a b, f' a = f' b <-> eg_find g a = eg_find g b \/
        (eg_find g a = eg_find g e1 /\ eg_find g b = eg_find g e2) \/ (eg_find g a = eg_find g e2 /\ eg_find g b = eg_find g e1)).
    { intros a b. unfold f'. destruct Hids as [[-> ->]|[-> ->]]; repeat case_decide; naive_solver congruence. }
    assert (Hx : exists ex', match eg_explain g with
        | Some x => j ← expect rule; x0 ← ex_union x e1 e2 j; Ok (set_explain (Some x0) (set_uf u2 (set_uf u1 (set_clean false g))))
        | None => Ok (set_uf u2 (set_uf u1 (set_clean false g))) end = Ok (set_explain ex' (set_uf u2 (set_uf u1 (set_clean false g)))) /\
        (forall x, ex' = Some x -> exists es, xforest (eg_nodes g) (eg_log g) f' x es)).
    { destruct (eg_explain g) as [x|] eqn:Ex.
      - destruct (Hrule ltac:(eauto) Hd) as [j ->]. cbn [expect mbind res_bind].
        destruct (X x Ex) as (es & Hes).
        destruct (xforest_union _ _ _ f' _ _ e1 e2 j Hes He1 He2 Hd Hfr) as (x' & -> & X').
        { destruct j; auto. }
        cbn. exists (Some x'). split; [done|]. intros y [= <-]. eauto.
      - exists None. split; [|done]. cbn. f_equal. unfold set_explain. by rewrite <- Ex. }
    destruct Hx as (ex' & Exq & Hex). cbn [eg_explain set_uf set_clean] in Exq |- *.
    rewrite Exq. cbn [mbind res_bind eg_classes set_explain set_uf set_clean eg_uf].
    rewrite Hk2'. cbn [expect mbind res_bind set_classes eg_classes].
    rewrite lookup_delete_ne by done. rewrite Hk1'. cbn [expect mbind res_bind].
    rewrite (Hcid _ _ Hk1'), Nat.eqb_refl. cbn [assert mbind res_bind].
    destruct (an_merge A _ _) as [d [did1 did2]]. eexists _, _. split; [done|].
    intros x Hx. cbn in Hx. destruct (Hex x Hx) as (es & Hes). exists es. cbn [eg_nodes eg_log set_classes set_apending set_pending].
    eapply xforest_ext; [|exact Hes]. intros i. unfold eg_find. cbn.
    rewrite union_find; [|done|lia|lia|done| |].
    + unfold f'. rewrite Fg. done.
    + apply uf_find_root_iff; [done|]. by rewrite Fg.
    + apply uf_find_root_iff; [done|]. by rewrite Fg.
Qed.

(** ** Adding *)
Lemma xforest_add ns h f x es n x' :
  xforest ns h f x es -> (forall i, f i = i \/ i < length ns) -> (forall i, f i < length ns <-> i < length ns) ->
  ex_add x n (length ns) = Ok x' -> xforest (ns ++ [n]) h f x' es.
Proof.
  intros (X1 & X2 & X3 & X4 & X5) Hout Hlt E. unfold ex_add in E. rewrite X1, Nat.eqb_refl in E. cbn in E. inv_res.
  unfold xforest. cbn [ex_find ex_memo]. rewrite !app_length. cbn. split_and!.
  - lia.
  - rewrite <- X1. by apply forest_add.
  - eapply edges_ok_mono; [| |exact X3]; [|done]. intros. by apply lookup_app_l_Some.
  - intros a b Ha Hb.
    assert (Hcl : forall p q, connected es p q -> p < length ns <-> q < length ns).
    { intros p q Hc. rewrite <- X1. split; [by eapply connected_lt|]. eapply connected_lt; [done|]. by apply connected_sym. }
    destruct (decide (a < length ns)) as [Ha'|Ha'], (decide (b < length ns)) as [Hb'|Hb']; [auto| | |].
    + split; [intros Hc%Hcl; tauto|]. intros E. rewrite <- Hlt, E, Hlt in Ha'. done.
    + split; [intros Hc%Hcl; tauto|]. intros E. rewrite <- Hlt, <- E, Hlt in Hb'. done.
    + assert (a = length ns) as -> by lia. assert (b = length ns) as -> by lia. split; [done|]. intros _. apply rtc_refl.
  - intros m i Hm. destruct (decide (m = n)) as [->|Hne].
    + rewrite lookup_insert in Hm. injection Hm as <-. by rewrite list_lookup_middle.
    + rewrite lookup_insert_ne in Hm by done. apply lookup_app_l_Some. auto.
Qed.

Lemma add_core_safe n (g : egraph) :
  Inv g -> XInv g -> Forall (fun c => c < length (eg_nodes g)) (nch n) ->
  exists g' id o, add_core A n g = Ok (g', id, o) /\ XInv g'.
Proof.
  intros I X Hch. unfold add_core.
  assert (Hv : forallb (valid_id g) (nch n) = true).
  { apply forallb_valid. by rewrite <- (iv_len _ I). }
  rewrite Hv. cbn [negb].
  pose proof (find_out g I) as Hout. pose proof (ci_lt _ _ _ _ _ _ _ (iv_c _ I)) as Hlt.
  destruct (eg_memo g !! canon g n) as [e|] eqn:Em.
  - destruct (eg_explain g) as [x|] eqn:Ex; [|eauto 10].
    destruct (ex_memo x !! n) as [k|] eqn:Exm; [eauto 10|].
    destruct (X x Ex) as (es & Hes). unfold uf_make_set. rewrite <- (iv_len _ I).
    assert (Hadd : exists x1, ex_add x n (length (eg_nodes g)) = Ok x1).
    { unfold ex_add. destruct Hes as (-> & _). rewrite Nat.eqb_refl. cbn. eauto. }
    destruct Hadd as [x1 Hx1]. rewrite Hx1. cbn [mbind res_bind].
    pose proof (xforest_add _ _ _ _ _ _ _ Hes Hout Hlt Hx1) as Hes1.
    destruct (ci_memo _ _ _ _ _ _ _ (iv_c _ I) _ _ Em) as (m & Hm & Emc).
    pose proof (lookup_lt_Some _ _ _ Hm) as Hel.
    rewrite canon_canonf, canonf_canonf in Emc by apply (iv_c _ I).
    set (f' := fun j => if decide (j = length (eg_nodes g)) then eg_find g e else eg_find g j).
    assert (Hfn : eg_find g (length (eg_nodes g)) = length (eg_nodes g)) by (destruct (Hout (length (eg_nodes g))); [done|lia]).
    assert (Hfne : forall i, i <> length (eg_nodes g) -> eg_find g i <> length (eg_nodes g)).
    { intros i Hi E. destruct (Hout i) as [E'|E']; [congruence|]. apply Hlt in E'. lia. }
    destruct (xforest_union (eg_nodes g ++ [n]) (eg_log g) (eg_find g) f' x1 es e (length (eg_nodes g)) JCong Hes1) as (x2 & Hx2 & Hes2).
    + rewrite app_length. lia.
    + rewrite app_length. cbn. lia.
    + rewrite Hfn. apply Hfne. lia.
    + intros a b. unfold f'. repeat case_decide; subst; rewrite ?Hfn; [naive_solver|..].
      * pose proof (Hfne b). naive_solver.
      * pose proof (Hfne a). naive_solver.
      * pose proof (Hfne a). pose proof (Hfne b). naive_solver.
    + exists m, n. rewrite app_length. cbn [length]. split_and!; auto.
      * by apply lookup_app_l_Some.
      * by apply list_lookup_middle.
      * apply Forall_forall. intros c Hc. pose proof (ci_ch _ _ _ _ _ _ _ (iv_c _ I) _ _ _ Hm Hc). lia.
      * eapply Forall_impl; [exact Hch|]. cbn. lia.
    + cbn [uf_union]. rewrite Hx2. cbn [mbind res_bind]. eexists _, _, _. split; [done|].
      intros y [= <-]. exists ((e, length (eg_nodes g), JCong) :: es). cbn [eg_nodes eg_log set_explain set_nodes set_uf].
      eapply xforest_ext; [|exact Hes2]. intros i. unfold eg_find at 1. cbn [eg_uf set_explain set_nodes set_uf uf_union fst].
      pose proof (iv_wf _ I) as Hwf. rewrite (iv_len _ I) in *. fold (eg_find g e).
      assert (Hel' : eg_find g e < length (eg_uf g)) by (apply Hlt; lia).
      rewrite union_find; [|by apply make_set_wf|rewrite app_length; lia|rewrite app_length; cbn; lia|lia| |].
      * rewrite make_set_find by done. fold (eg_find g i). unfold f'. rewrite (iv_len _ I). repeat case_decide; subst; try done; try congruence.
        exfalso. by eapply Hfne.
      * rewrite make_set_parent. by apply uf_find_is_root.
      * rewrite make_set_parent. unfold uf_parent. by rewrite lookup_ge_None_2.
  - unfold make_new_eclass, uf_make_set.
    set (g1 := set_nodes _ _).
    assert (Hpp : forall cs (g1 : egraph), uf_wf (eg_uf g1) -> Forall (fun c => c < length (eg_uf g1) /\ is_Some (eg_classes g1 !! eg_find g1 c)) cs ->
       exists g2, push_parents (length (eg_uf g)) g1 cs = Ok g2).
    { clear. induction cs as [|c cs IH]; intros g1 Hw Hc; cbn [push_parents]; [eauto|].
      inversion_clear Hc as [|? ? [Hc1 [k Hk]] Hc2]. unfold push_parent.
      destruct (eg_find_mut_spec g1 c Hw Hc1) as (u & -> & Hu & Hl & Hf). cbn [eg_classes set_uf]. rewrite Hk.
      cbn [expect mbind res_bind]. apply IH; [done|]. cbn. rewrite Hl. eapply Forall_impl; [exact Hc2|].
      intros c' [? ?]. split; [done|]. unfold eg_find. cbn. rewrite Hf. fold (eg_find g1 c').
      destruct (decide (eg_find g1 c' = eg_find g1 c)) as [->|Hne]; [rewrite lookup_insert; eauto|by rewrite lookup_insert_ne]. }
    assert (Hwf1 : uf_wf (eg_uf g ++ [length (eg_uf g)])) by apply make_set_wf, I.
    destruct (Hpp (nch (canon g n)) g1) as [g2 Hg2]; [done| |].
    { apply Forall_forall. intros c Hc. apply elem_of_list_fmap in Hc as (c0 & -> & Hc0).
      rewrite Forall_forall in Hch. specialize (Hch c0 Hc0). cbn. rewrite app_length.
      assert (Hlc : eg_find g c0 < length (eg_uf g)) by (rewrite <- (iv_len _ I); by apply Hlt).
      split; [lia|]. unfold eg_find at 1. cbn. rewrite make_set_find by apply I. fold (eg_find g (eg_find g c0)).
      apply (ci_cls _ _ _ _ _ _ _ (iv_c _ I)). rewrite !(Inv_find_idem g c0 I). split; [by apply Hlt|done]. }
    rewrite Hg2. cbn [mbind res_bind].
    apply push_parents_spec in Hg2 as (u & cls' & -> & Hu & Hcl); [|done|].
    2:{ apply Forall_forall. intros c Hc. apply elem_of_list_fmap in Hc as (c0 & -> & Hc0).
      rewrite Forall_forall in Hch. specialize (Hch c0 Hc0). cbn. rewrite app_length.
      assert (Hlc : eg_find g c0 < length (eg_uf g)) by (rewrite <- (iv_len _ I); by apply Hlt). lia. }
    cbn [eg_memo set_classes set_pending set_uf set_nodes g1]. rewrite Em. rewrite bool_decide_eq_true_2 by done.
    cbn [assert mbind res_bind eg_explain set_memo set_classes set_pending set_uf set_nodes g1].
    assert (Hfin : forall i, uf_find u i = eg_find g i).
    { intros i. destruct Hu as (_ & _ & Hf). rewrite Hf. cbn. apply make_set_find, I. }
    destruct (eg_explain g) as [x|] eqn:Ex.
    + destruct (X x Ex) as (es & Hes).
      assert (Hadd : exists x1, ex_add x n (length (eg_uf g)) = Ok x1).
      { unfold ex_add. destruct Hes as (-> & _). rewrite (iv_len _ I), Nat.eqb_refl. cbn. eauto. }
      destruct Hadd as [x1 Hx1]. rewrite Hx1. cbn [mbind res_bind]. eexists _, _, _. split; [done|].
      intros y [= <-]. exists es. cbn [eg_nodes eg_log set_explain set_memo set_classes set_pending set_uf set_nodes].
      eapply xforest_ext; [exact Hfin|]. rewrite <- (iv_len _ I) in Hx1. by eapply xforest_add.
    + cbn. eexists _, _, _. split; [done|]. intros y Hy. cbn in Hy. congruence.
Qed.

(** ** The other primitive steps *)
Lemma pending_core_safe c rest (g : egraph) :
  Inv g -> XInv g -> eg_pending g = c :: rest ->
  exists g' o, pending_core A c (set_pending rest g) = Ok (g', o) /\ XInv g'.
Proof.
  intros I X Ep. assert (Hc : c < length (eg_nodes g)).
  { apply (ci_pend_lt _ _ _ _ _ _ _ (iv_c _ I)). rewrite Ep. by left. }
  destruct (lookup_lt_is_Some_2 _ _ Hc) as [n Hn]. unfold pending_core.
  cbn [eg_nodes set_pending eg_uf]. rewrite Hn. cbn [expect mbind res_bind].
  destruct (canon_mut_spec (eg_uf g) n (iv_wf _ I)) as (u & -> & He).
  { apply Forall_forall. intros k Hk. pose proof (ci_ch _ _ _ _ _ _ _ (iv_c _ I) _ _ _ Hn Hk). rewrite <- (iv_len _ I). lia. }
  pose proof He as (Hw & Hl & Hf). cbn [eg_memo set_uf set_pending].
  change (canonf (uf_find (eg_uf g)) n) with (canonf (eg_find g) n).
  destruct (eg_memo g !! canonf (eg_find g) n) as [mc|] eqn:Emc.
  2:{ eexists _, _. split; [done|]. eapply XInv_same; [..|exact X]; auto. }
  destruct (ci_memo _ _ _ _ _ _ _ (iv_c _ I) _ _ Emc) as (m & Hm & Em).
  rewrite canonf_canonf in Em by apply (iv_c _ I).
  assert (Hfe : forall i, eg_find (set_memo (<[canonf (eg_find g) n:=c]> (eg_memo g)) (set_uf u (set_pending rest g))) i = eg_find g i).
  { intros. apply Hf. }
  apply perform_union_core_safe.
  - done.
  - cbn. by rewrite Hl, (iv_len _ I).
  - intros i. rewrite Hfe. apply (ci_cls _ _ _ _ _ _ _ (iv_c _ I)).
  - apply (ci_cid _ _ _ _ _ _ _ (iv_c _ I)).
  - eapply XInv_same; [..|exact X]; auto.
  - cbn. by eapply lookup_lt_Some.
  - cbn. done.
  - eauto.
  - exists m, n. cbn [eg_nodes set_memo set_uf set_pending]. split_and!; auto.
    + rewrite (canonf_ext _ _ m Hfe), (canonf_ext _ _ n Hfe). done.
    + apply Forall_forall. intros k Hk. pose proof (ci_ch _ _ _ _ _ _ _ (iv_c _ I) _ _ _ Hm Hk).
      apply lookup_lt_Some in Hm. lia.
    + apply Forall_forall. intros k Hk. pose proof (ci_ch _ _ _ _ _ _ _ (iv_c _ I) _ _ _ Hn Hk). lia.
Qed.

Lemma class_at (g : egraph) i : Inv g -> i < length (eg_nodes g) -> is_Some (eg_classes g !! eg_find g i).
Proof.
  intros I Hi. apply (ci_cls _ _ _ _ _ _ _ (iv_c _ I)). rewrite Inv_find_idem by done.
  split; [|done]. by apply (ci_lt _ _ _ _ _ _ _ (iv_c _ I)).
Qed.

Lemma analysis_core_safe id q (g : egraph) :
  Inv g -> XInv g -> uq_pop (eg_apending g) = Some (id, q) ->
  exists g' o, analysis_core A id (set_apending q g) = Ok (g', o) /\ XInv g'.
Proof.
  intros I X Eq. destruct (uq_pop_ok _ _ _ _ (iv_q _ I) Eq) as [Hq Hid]. unfold analysis_core.
  destruct (lookup_lt_is_Some_2 _ _ Hid) as [n Hn]. cbn [eg_nodes set_apending]. rewrite Hn. cbn [expect mbind res_bind].
  destruct (eg_find_mut_spec (set_apending q g) id) as (u & -> & He); [apply I|cbn; rewrite <- (iv_len _ I); done|].
  change (eg_find (set_apending q g) id) with (eg_find g id). cbn [eg_classes set_uf set_apending].
  destruct (class_at g id I Hid) as [c Hc]. rewrite Hc. cbn [expect mbind res_bind].
  destruct (an_merge A _ _) as [d [[] did2]]; eexists _, _; (split; [done|]); (eapply XInv_same; [..|exact X]); auto; apply He.
Qed.
Lemma set_data_core_safe i d (g : egraph) :
  Inv g -> XInv g -> i < length (eg_nodes g) -> exists g' r, set_data_core i d g = Ok (g', r) /\ XInv g' /\ r = eg_find g i.
Proof.
  intros I X Hi. unfold set_data_core. assert (V : valid_id g i = true) by (apply valid_id_lt; rewrite <- (iv_len _ I); done).
  rewrite V. cbn [negb]. destruct (eg_find_mut_spec g i) as (u & -> & He); [apply I|rewrite <- (iv_len _ I); done|].
  cbn [eg_classes set_uf]. destruct (class_at g i I Hi) as [c Hc]. rewrite Hc. cbn [expect mbind res_bind].
  eexists _, _. split; [done|]. split; [|done]. eapply XInv_same; [..|exact X]; auto. apply He.
Qed.
Lemma poke_data_safe i d (g : egraph) :
  Inv g -> XInv g -> i < length (eg_nodes g) -> exists g', poke_data i d g = Ok g' /\ XInv g'.
Proof.
  intros I X Hi. unfold poke_data. assert (V : valid_id g i = true) by (apply valid_id_lt; rewrite <- (iv_len _ I); done).
  rewrite V. cbn [negb]. destruct (eg_find_mut_spec g i) as (u & -> & He); [apply I|rewrite <- (iv_len _ I); done|].
  cbn [eg_classes set_uf]. destruct (class_at g i I Hi) as [c Hc]. rewrite Hc. cbn [expect mbind res_bind].
  eexists. split; [done|]. eapply XInv_same; [..|exact X]; auto. apply He.
Qed.
Lemma retain_nodes_safe i f (g : egraph) :
  Inv g -> XInv g -> i < length (eg_nodes g) -> exists g', retain_nodes i f g = Ok g' /\ XInv g'.
Proof.
  intros I X Hi. unfold retain_nodes. assert (V : valid_id g i = true) by (apply valid_id_lt; rewrite <- (iv_len _ I); done).
  rewrite V. cbn [negb]. destruct (eg_find_mut_spec g i) as (u & -> & He); [apply I|rewrite <- (iv_len _ I); done|].
  cbn [eg_classes set_uf]. destruct (class_at g i I Hi) as [c Hc]. rewrite Hc. cbn [expect mbind res_bind].
  eexists. split; [done|]. eapply XInv_same; [..|exact X]; auto. apply He.
Qed.
Lemma api_union_core_safe a b r rule (g : egraph) :
  Inv g -> XInv g -> a < length (eg_nodes g) -> b < length (eg_nodes g) ->
  rule = Some (JRule r) \/ (rule = None /\ eg_explain g = None) ->
  exists g' o, perform_union_core A a b rule (add_log (EUnion a b r) g) = Ok (g', o) /\ XInv g'.
Proof.
  intros I X Ha Hb Hr. apply perform_union_core_safe; auto.
  - apply I.
  - apply I.
  - apply (ci_cls _ _ _ _ _ _ _ (iv_c _ I)).
  - apply (ci_cid _ _ _ _ _ _ _ (iv_c _ I)).
  - by apply XInv_log.
  - destruct Hr as [->|[-> Ex]]; [eauto|]. cbn. rewrite Ex. by intros [? ?].
  - destruct Hr as [->|[-> Ex]]; [|done]. by left.
Qed.
Lemma XInv_rebuilt (g : egraph) : Inv g -> XInv g -> XInv (set_clean true (rebuild_classes L g)).
Proof.
  intros I X. destruct (rebuild_classes_spec L g) as (u & cls' & ops' & -> & He & Hcls & _).
  { apply I. }
  { intros. rewrite <- (iv_len _ I). by eapply class_children_lt. }
  eapply XInv_same; [..|exact X]; auto. apply He.
Qed.

(** Since each step is a function, [XInv] holds along every run. *)
Lemma XInv_prim l g g' : plain l -> prim L A l g g' -> Inv g -> XInv g -> XInv g'.
Proof.
  intros Hpl Hp I X.
  destruct Hp as [n g g' id o E|g|n i g|a b r rule g g' o Hr E|c rest g g' o Ep E|id q g g' o Eq E
    |i d g g' r E|i d g g' E|i f g g' E|g Ep Eq]; try done.
  - pose proof E as E'. apply perform_union_core_spec in E' as (Ha & Hb & Hs); [|apply I]. cbn in Ha, Hb.
    rewrite <- (iv_len _ I) in Ha, Hb.
    destruct Hr as [[-> Ex]| ->].
    + destruct (api_union_core_safe a b r None g) as (g1 & o1 & E1 & X1); auto.
      rewrite E in E1. by inv_res.
    + destruct (api_union_core_safe a b r (Some (JRule r)) g) as (g1 & o1 & E1 & X1); auto.
      rewrite E in E1. by inv_res.
  - destruct (pending_core_safe c rest g) as (g1 & o1 & E1 & X1); auto. rewrite E in E1. by inv_res.
  - destruct (analysis_core_safe id q g) as (g1 & o1 & E1 & X1); auto. rewrite E in E1. by inv_res.
  - assert (Hi : i < length (eg_nodes g)).
    { unfold set_data_core in E. destruct (valid_id g i) eqn:V; [|done]. apply valid_id_lt in V. by rewrite (iv_len _ I). }
    destruct (set_data_core_safe i d g) as (g1 & o1 & E1 & X1 & _); auto. rewrite E in E1. by inv_res.
  - assert (Hi : i < length (eg_nodes g)).
    { unfold poke_data in E. destruct (valid_id g i) eqn:V; [|done]. apply valid_id_lt in V. by rewrite (iv_len _ I). }
    destruct (poke_data_safe i d g) as (g1 & E1 & X1); auto. rewrite E in E1. by inv_res.
  - assert (Hi : i < length (eg_nodes g)).
    { unfold retain_nodes in E. destruct (valid_id g i) eqn:V; [|done]. apply valid_id_lt in V. by rewrite (iv_len _ I). }
    destruct (retain_nodes_safe i f g) as (g1 & E1 & X1); auto. rewrite E in E1. by inv_res.
  - by apply XInv_rebuilt.
Qed.

Lemma XInv_add n g g' id o : add_core A n g = Ok (g', id, o) -> Inv g -> XInv g -> XInv g'.
Proof.
  intros E I X. pose proof E as E'. apply add_core_spec in E' as [Hch _]; [|apply I]. rewrite <- (iv_len _ I) in Hch.
  destruct (add_core_safe n g I X Hch) as (g1 & id1 & o1 & E1 & X1). rewrite E in E1. by inv_res.
Qed.

Lemma XInv_brun P g g' : brun L A P g g' -> Inv g -> XInv g -> XInv g'.
Proof.
  induction 1 as [g|l g g1 Hpl HP Hp|g g1 g2 R1 IH1 R2 IH2|n g g1 id HP E|n g g1 id h g2 HP E R IH]; intros I X.
  - done.
  - by eapply XInv_prim.
  - apply IH2; [by eapply brun_Inv|]. by apply IH1.
  - apply XInv_log. by eapply XInv_add.
  - apply XInv_log. eapply XInv_same; [..|apply IH; [by eapply Inv_add|by eapply XInv_add]]; auto.
Qed.
End safe.
