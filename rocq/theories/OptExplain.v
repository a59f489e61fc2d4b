(** Explanations read from the optimised path memo exist. *)
From Verif Require Import Base UnionFind Spec EGraphModel EGraphSafe ExplainForest Terms RecExprModel ExprModel ExplainModel ExplainSpec ExplainPath
  ExplainProofs ExtractSpec ExtractMain OptModel OptDist OptPar OptNeighbours OptSearch OptMemo.

Section ext.
Context {Op : Type} `{Countable Op}.
Notation explain := (explain Op).
Lemma common_ancestor_ext (x x' : explain) : ex_find x' = ex_find x -> forall fuel sl sr l r, common_ancestor fuel x' sl sr l r = common_ancestor fuel x sl sr l r.
Proof.
  intros E. induction fuel as [|fuel IH]; intros sl sr l r; [done|]. cbn [common_ancestor]. unfold xparent. rewrite E.
  repeat case_bool_decide; try done; destruct (ex_find x !! l); try done; cbn [expect mbind res_bind]; destruct (ex_find x !! r); try done; cbn [expect mbind res_bind];
    repeat (destruct (bool_decide _)); cbn; auto.
Qed.
Lemma get_connections_ext (x x' : explain) : ex_find x' = ex_find x -> forall i a, get_connections x' i a = get_connections x i a.
Proof.
  intros E i a. unfold get_connections. case_bool_decide; [done|]. rewrite E. generalize (S (length (ex_find x))). intros fuel.
  revert i H0. induction fuel as [|fuel IH]; intros i Hi; [done|]. cbn [get_connections_loop]. rewrite E.
  destruct (ex_find x !! i) as [nd|]; [|done]. cbn [expect mbind res_bind]. case_bool_decide; [done|]. case_bool_decide; [done|]. by rewrite IH.
Qed.
Lemma unopt_ext (x x' : explain) l r : ex_find x' = ex_find x -> get_path_unoptimized x' l r = get_path_unoptimized x l r.
Proof.
  intros E. unfold get_path_unoptimized. rewrite (common_ancestor_ext x x' E), E. destruct (common_ancestor _ _ _ _ _ _); [|done|done].
  cbn [mbind res_bind]. by rewrite !(get_connections_ext x x' E).
Qed.
Lemma dd_ext ns (x x' : explain) : ex_find x' = ex_find x -> forall fuel l r, dd ns x' fuel l r = dd ns x fuel l r.
Proof.
  intros E. induction fuel as [|fuel IH]; intros l r; [done|]. cbn [dd]. rewrite (unopt_ext x x' l r E).
  destruct (get_path_unoptimized x l r) as [[lc rc]| |]; try done. f_equal. apply list_fmap_ext. intros i c _. unfold lw.
  destruct (cn_just c); [done|]. destruct (ns !! cn_current c) as [n|]; [|done]. destruct (ns !! cn_next c) as [m|]; [|done]. f_equal.
  generalize (nch n), (nch m). intros a. induction a as [|? a IHa]; intros [|? b]; cbn; try done. by rewrite IH, IHa.
Qed.
End ext.

Section explain.
Context {Op : Type} `{Countable Op}.
Notation node := (node Op).
Notation explain := (explain Op).
Context {ns : list node} {h : list (event Op)} {fnd : nat -> nat} {x : explain} {es : list edge}.
Context (Hd : dag ns) (X : xforest ns h fnd x es).
Lemma X_world : world (alt_of h) ns h x es.
Proof. destruct X as (H1 & H2 & H3 & _). by split. Qed.
Let W := X_world.
Let Hlen : length (ex_find x) = length ns := w_len _ _ _ _ _ W.
Notation N := (length (ex_find x)).
Notation f := (ex_find x).
Notation Dst := (Dst ns x es).
Notation Cost := (Cost ns x es).
Notation wcost cs := (sum_list (Cost <$> cs)).
Context (Hnl : forall i c, c ∈ nbs f i -> cn_next c < N) (Hnbp : nbp f).
Context (cn : list (list nat)) (Hcn : cn_ok (ns := ns) (x := x) (es := es) cn).
Notation kids_conn := (kids_conn (ns := ns) (es := es)).

(** ** Distance zero means the same term *)
Lemma Cost_flip c : kids_conn c -> Cost (flip_conn c) = Cost c.
Proof.
  intros Hk. unfold OptDist.Cost, lw. cbn [flip_conn cn_just cn_current cn_next]. destruct (cn_just c) eqn:Ej; [done|].
  destruct (Hk Ej) as (n & m & Hn & Hm & _ & Hf). rewrite Hn, Hm. pose proof (Forall2_lt W _ _ _ _ _ Hn Hm Hf) as Hf'. clear -Hf' W.
  induction Hf' as [|a b l k (Ha & Hb & Hab) _ IH]; cbn; [done|]. rewrite IH. f_equal. symmetry. by apply (Dst_sym W).
Qed.
Lemma kids_flip c : kids_conn c -> kids_conn (flip_conn c).
Proof.
  intros Hk Ej. cbn in *. destruct (Hk Ej) as (n & m & Hn & Hm & Eo & Hf). exists m, n. split; [done|]. split; [done|]. split; [done|].
  apply Forall2_flip. eapply Forall2_impl; [exact Hf|]. intros. by apply connected_sym.
Qed.
Lemma tree_path l r : l < N -> r < N -> connected es l r -> exists lc rc, get_path_unoptimized x l r = Ok (lc, rc) /\
  linked l (lc ++ (flip_conn <$> reverse rc)) r /\ Forall kids_conn (lc ++ (flip_conn <$> reverse rc)) /\ wcost (lc ++ (flip_conn <$> reverse rc)) = Dst l r.
Proof.
  intros Hl Hr Hc. destruct (path_old _ x ns h es es l r (w_for _ _ _ _ _ W) (w_edg _ _ _ _ _ W) ltac:(auto) Hl Hr Hc) as (lc & rc & E & Hk & _).
  destruct (Dst_path W l r Hl Hr Hc) as (lc' & rc' & E' & Hf & ->). rewrite E in E'. injection E' as <- <-.
  exists lc, rc. split; [done|]. split; [done|].
  assert (Hkid : Forall kids_conn (lc ++ rc)).
  { eapply Forall_impl; [exact Hf|]. intros c Hc' Ej. exact (cong_kids W c Hc' Ej). }
  apply Forall_app in Hkid as [K1 K2]. split.
  - apply Forall_app. split; [done|]. apply Forall_fmap, Forall_reverse. eapply Forall_impl; [exact K2|]. intros c. apply kids_flip.
  - rewrite !fmap_app, !sum_app. f_equal. clear -K2 W. induction K2 as [|c rc Hc _ IH]; [done|].
    rewrite reverse_cons, !fmap_app, sum_app, IH. cbn. rewrite (Cost_flip c Hc). lia.
Qed.

Lemma linked_tree cs : forall l r t, linked l cs r -> Forall kids_conn cs -> wcost cs = 0 ->
  (forall a b t', theight t' < theight t -> a < N -> b < N -> connected es a b -> Dst a b = 0 -> Tree ns a t' -> Tree ns b t') ->
  Tree ns l t -> Tree ns r t.
Proof.
  induction cs as [|c cs IH]; intros l r t Hl Hk Hw Hz Ht; [cbn in Hl; by subst|]. destruct Hl as [<- Hl]. apply Forall_cons in Hk as [Hk1 Hk].
  rewrite wcost_cons in Hw. eapply (IH (cn_next c)); [done|done|lia|done|].
  assert (Hc0 : Cost c = 0) by lia. unfold OptDist.Cost, lw in Hc0. destruct (cn_just c) eqn:Ej; [done|].
  destruct (Hk1 Ej) as (n & m & Hn & Hm & Eo & Hf). rewrite Hn, Hm in Hc0. pose proof (Forall2_lt W _ _ _ _ _ Hn Hm Hf) as Hf'.
  inversion Ht as [? g ks ts Hg Hts]; subst. rewrite Hn in Hg. injection Hg as ->. cbn [nop nch] in *.
  destruct m as [g' ks']. cbn [nop nch] in *. subst g'. econstructor; [exact Hm|].
  assert (Hz' : forall a b t', t' ∈ ts -> a < N -> b < N -> connected es a b -> Dst a b = 0 -> Tree ns a t' -> Tree ns b t').
  { intros a b t' Ht'. apply Hz. by apply theight_child. }
  clear -Hc0 Hf' Hts Hz'. revert ts Hts Hz'. induction Hf' as [|a b l k (Ha & Hb & Hab) _ IH]; intros ts Hts Hz'; inversion Hts as [|? t' ? ts' Ht1 Ht2]; subst; constructor.
  - assert (E : Dst a b + sum_list (zip_with Dst l k) = 0) by exact Hc0. apply (Hz' a); auto; [by left|lia].
  - assert (E : Dst a b + sum_list (zip_with Dst l k) = 0) by exact Hc0. apply IH; [lia|done|]. intros a' b' t2 Hin. apply Hz'. by right.
Qed.
Lemma Dst_zero t : forall a b, a < N -> b < N -> connected es a b -> Dst a b = 0 -> Tree ns a t -> Tree ns b t.
Proof.
  remember (theight t) as k eqn:Ek. revert t Ek. induction (lt_wf k) as [k _ IH]. intros t -> a b Ha Hb Hab Hz Ht.
  destruct (tree_path a b Ha Hb Hab) as (lc & rc & _ & Hl & Hk & Hw). eapply linked_tree; [exact Hl|exact Hk|lia| |exact Ht].
  intros a' b' t' Hlt. by apply (IH _ Hlt).
Qed.

(** ** The paths taken *)
Context (x' : explain) (Ex : ex_find x' = f) (Hm : memo_ok (ns := ns) (x := x) (es := es) cn (ex_short x')).

Lemma neighbor_gstep a c : gstep (x := x) cn a c -> a < N ->
  exists c', get_neighbor x' a (cn_next c) = Ok c' /\ (cn_just c' = JCong -> c' = c).
Proof.
  intros Hg Ha. unfold get_neighbor. rewrite Ex. destruct (lookup_lt_is_Some_2 f a Ha) as [nd Hnd]. rewrite Hnd. cbn [expect mbind res_bind].
  destruct (list_find _ _) as [[k c']|] eqn:Ef.
  - exists c'. split; [done|]. apply list_find_Some in Ef as (_ & [_ Hj] & _). done.
  - eexists. split; [done|]. intros _. destruct Hg as [[Hc Hj]|(os & b & _ & _ & ->)]; [|done].
    unfold nbs in Hc. rewrite Hnd in Hc. cbn in Hc. apply list_find_None in Ef. rewrite Forall_forall in Ef. by destruct (Ef c Hc).
Qed.
Lemma get_path_chain r a cs : chain (x := x) cn (ex_short x') r a cs -> a < N -> forall fuel, length cs < fuel ->
  exists lc, get_path fuel x' a r = Ok (lc, []) /\ forall c, c ∈ lc -> cn_just c = JCong -> c ∈ cs.
Proof.
  induction 1 as [|a c cs k Hne Hs Hg Hc IH]; intros Ha fuel Hfu; (destruct fuel as [|fuel]; [cbn in Hfu; lia|]); cbn [get_path].
  - rewrite bool_decide_eq_true_2 by done. exists []. split; [done|]. intros c Hc. by apply elem_of_nil in Hc.
  - rewrite bool_decide_eq_false_2 by done. rewrite Hs. destruct (neighbor_gstep a c Hg Ha) as (c' & -> & Hc'). cbn [mbind res_bind].
    destruct (IH (gstep_lt W Hnl cn Hcn _ _ Hg) fuel) as (lc & -> & Hlc); [cbn in Hfu; lia|]. cbn [mbind res_bind]. eexists. split; [done|].
    intros c1 [->|Hin]%elem_of_cons Hj; [rewrite (Hc' Hj); by left|right; by apply Hlc].
Qed.
Lemma walk_linked a cs b : walk (x := x) cn a cs b -> linked a cs b.
Proof. induction 1 as [|a c cs b Hg _ IH]; [done|]. split; [exact (gstep_cur W cn _ _ Hg)|done]. Qed.
Lemma get_path_ok l r : l < N -> r < N -> connected es l r -> exists lc rc, get_path (S N) x' l r = Ok (lc, rc) /\
  exists cs, linked l cs r /\ Forall kids_conn cs /\ wcost cs <= Dst l r /\ forall c, c ∈ lc ++ (flip_conn <$> reverse rc) -> cn_just c = JCong -> c ∈ cs.
Proof.
  intros Hl Hr Hc. destruct (tree_path l r Hl Hr Hc) as (lc & rc & E & Hk & Hkid & Hw). cbn [get_path].
  case_bool_decide as Elr.
  { exists [], []. split; [done|]. eexists. split; [exact Hk|]. split; [done|]. split; [lia|]. intros c Hc'. by apply elem_of_nil in Hc'. }
  destruct (ex_short x' !! (l, r)) as [[k nx]|] eqn:Es.
  2:{ rewrite (unopt_ext x x' l r Ex). exists lc, rc. split; [done|]. eexists. split; [exact Hk|]. split; [done|]. split; [lia|done]. }
  destruct (Hm _ _ _ _ Es) as [(-> & c & Hc1 & Hc2 & Hc3)|[?|(cs & Hch & Ht)]]; [|done|].
  - unfold get_neighbor. rewrite Ex. destruct (lookup_lt_is_Some_2 f l Hl) as [nd Hnd]. rewrite Hnd. cbn [expect mbind res_bind].
    unfold nbs in Hc1. rewrite Hnd in Hc1. cbn in Hc1.
    destruct (list_find _ _) as [[q c']|] eqn:Ef.
    2:{ apply list_find_None in Ef. rewrite Forall_forall in Ef. by destruct (Ef c Hc1). }
    apply list_find_Some in Ef as (_ & [_ Hj] & _). cbn [mbind res_bind].
    assert (Eg : get_path N x' r r = Ok ([], [])). { assert (Hpos : 0 < N) by lia. revert Hpos. generalize N. intros [|n] Hpos; [lia|]. cbn [get_path]. by rewrite bool_decide_eq_true_2. }
    rewrite Eg. cbn [mbind res_bind]. exists [c'], []. split; [done|]. eexists. split; [exact Hk|]. split; [done|]. split; [lia|].
    intros c1 Hin. cbn in Hin. apply elem_of_list_singleton in Hin as ->. done.
  - destruct (get_path_chain r l cs Hch Hl (S N)) as (lc' & Eg & Hlc).
    { pose proof (chain_short W Hnl cn Hcn _ _ _ _ Hl Hch). lia. }
    cbn [get_path] in Eg. rewrite bool_decide_eq_false_2, Es in Eg by done. rewrite Eg. exists lc', []. split; [done|].
    pose proof (chain_walk cn _ _ _ _ Hch) as Hwk. exists cs. split; [by apply walk_linked|]. split; [|split].
    + apply Forall_forall. intros c Hin. eapply (gstep_kids cn Hcn). by eapply (walk_gstep W).
    + destruct (tree_walk W Hnbp cn Hcn l r Hl Hr Hc) as (ws & Hws & Ews). destruct Ht as [_ Hmin]. specialize (Hmin ws Hws). lia.
    + intros c Hin. rewrite app_nil_r in Hin. by apply Hlc.
Qed.

(** ** Termination *)
Lemma theight_le i : i < length ns -> forall t, Tree ns i t -> theight t <= S i.
Proof.
  induction (lt_wf i) as [i _ IH]. intros Hi t Ht. inversion Ht as [? g ks ts Hg Hts]; subst. apply theight_node.
  intros t Hin. apply elem_of_list_lookup in Hin as [q Hq]. destruct (Forall2_lookup_r _ _ _ _ _ Hts Hq) as (k & Hk & Htk).
  apply elem_of_list_lookup_2 in Hk. pose proof (Hd i _ k Hg Hk) as Hki. pose proof (IH k Hki ltac:(lia) t Htk). lia.
Qed.
Let Hlk : links_ok ns (hist_rl ns h) x' := links_ok_forest ns h x es fnd X x' Ex.
Definition emeasure (l r : nat) (t : Spec.term Op) : nat := Dst l r * S N + theight t.
Lemma split_cost cs c cs1 cs2 : cs = cs1 ++ c :: cs2 -> wcost cs = wcost cs1 + Cost c + wcost cs2.
Proof. intros ->. rewrite wcost_app, wcost_cons. lia. Qed.
Lemma zip_le {B} (g : B -> B -> nat) l : forall k i a b, l !! i = Some a -> k !! i = Some b -> g a b <= sum_list (zip_with g l k).
Proof.
  induction l as [|a' l IH]; intros [|b' k] [|i] a b Ha Hb; try done; cbn in *.
  - injection Ha as ->. injection Hb as ->. lia.
  - specialize (IH k i a b Ha Hb). lia.
Qed.
Lemma explain_opt_total fuel : forall l r tl ca, emeasure l r tl < fuel -> l < N -> r < N -> connected es l r -> Tree ns l tl ->
  cache_ok ns (hist_rl ns h) ca -> exists p, explain_enodes fuel x' ns l r ca = Ok p.
Proof.
  induction fuel as [|fuel IH]; intros l r tl ca Hfu Hl Hr Hc Htl Hca; [lia|]. cbn [explain_enodes].
  destruct (node_to_explanation_ok ns Hd (hist_rl ns h) (S (length ns)) _ _ Htl) as (n & kids & ts & _ & -> & Etl & _); [lia|].
  cbn [mbind res_bind]. rewrite Ex. destruct (get_path_ok l r Hl Hr Hc) as (lc & rc & Ep & cs & Hlink & Hkid & Hw & Hsub). rewrite Ep. cbn [mbind res_bind].
  pose proof Ep as Ep0. apply (get_path_sound ns Hd (hist_rl ns h)) in Ep0 as [_ Hro]; [|done|lia].
  assert (Hne : forall fuel, enodes_ok ns (hist_rl ns h) (explain_enodes fuel x' ns)) by (intros; by apply explain_enodes_sound).
  destruct (explain_along_ok ns Hd (hist_rl ns h) (explain_enodes fuel x' ns) (lc ++ (flip_conn <$> reverse rc)) ca) as [[p ca'] E]; auto.
  2:{ rewrite E. cbn. eauto. }
  rewrite Forall_forall in Hro. apply Forall_forall. intros c Hin ca0 Hca0. destruct (Hro c Hin) as [_ Hcn'].
  unfold explain_adjacent. destruct (ca0 !! _); [eauto|]. destruct (cn_just c) as [ru|] eqn:Ej.
  - destruct (dag_Tree ns _ Hd Hcn') as [tb Htb].
    destruct (node_to_explanation_ok ns Hd (hist_rl ns h) (S (length ns)) _ _ Htb) as (? & ? & ? & _ & -> & _ & _); [lia|]. cbn. eauto.
  - specialize (Hsub c Hin Ej). apply elem_of_list_split in Hsub as (cs1 & cs2 & Ecs).
    pose proof (split_cost cs c cs1 cs2 Ecs) as Hsum.
    assert (Hkc : kids_conn c) by (rewrite Forall_forall in Hkid; apply Hkid; rewrite Ecs; set_solver).
    destruct (Hkc Ej) as (n1 & n2 & Hn1 & Hn2 & Eo & Hcc). rewrite Hn1, Hn2. cbn [expect mbind res_bind].
    assert (Hmt : node_matches n1 n2 = true).
    { unfold node_matches. rewrite bool_decide_eq_true_2 by done. cbn. apply Nat.eqb_eq. by eapply Forall2_length. }
    rewrite Hmt.
    destruct (dag_Tree ns (cn_current c) Hd) as [t1 Ht1]; [by eapply lookup_lt_Some|].
    destruct (dag_Tree ns (cn_next c) Hd) as [t2 Ht2]; [by eapply lookup_lt_Some|].
    pose proof Ht1 as Ht10.
    inversion Ht1 as [? g1 ks1 ts1 Hg1 Hf1]; subst. inversion Ht2 as [? g2 ks2 us1 Hg2 Hf2]; subst.
    rewrite Hn1 in Hg1. rewrite Hn2 in Hg2. injection Hg1 as ->. injection Hg2 as ->. cbn [nop nch] in *.
    destruct (explain_children_ok ns (hist_rl ns h) (explain_enodes fuel x' ns) ks1 ks2 ca0 ts1 us1) as [[ks ca1] Ek]; auto.
    { by eapply Forall2_length. }
    2:{ rewrite Ek. cbn. eauto. }
    apply Forall2_same_length_lookup_2; [by eapply Forall2_length|]. intros k c1 c2 Hc1 Hc2 ca2 Hca2.
    destruct (Forall2_lookup_l _ _ _ _ _ Hf1 Hc1) as (tc & Htc & Htree).
    assert (Hc1l : c1 < N) by (rewrite Hlen; by eapply Tree_lt).
    assert (Hc2l : c2 < N). { destruct (Forall2_lookup_l _ _ _ _ _ Hf2 Hc2) as (? & _ & Ht). rewrite Hlen. by eapply Tree_lt. }
    apply (IH c1 c2 tc); auto; [|by eapply Forall2_lookup_lr].
    assert (Hle : Dst c1 c2 <= Cost c).
    { unfold OptDist.Cost, lw. rewrite Ej, Hn1, Hn2. cbn [nch]. by eapply zip_le. }
    assert (Hth : theight tc <= N) by (rewrite Hlen; pose proof (theight_le c1 ltac:(lia) tc Htree); lia).
    destruct (decide (Dst c1 c2 = Dst l r)) as [Eq|Hlt].
    + assert (Hz : wcost cs1 = 0) by lia.
      assert (Ht0 : Tree ns (cn_current c) (TNode (nop n) ts)).
      { eapply (linked_tree cs1 l); [|by apply Forall_app in Hkid as [? _]|done| |exact Htl].
        - clear -Hlink. revert l Hlink. induction cs1 as [|c' cs1 IH]; intros l; cbn; [intros [<- _]; done|].
          intros [<- Hk]. split; [done|]. by apply IH.
        - intros a b t' _. apply Dst_zero. }
      assert (E1 := TreeOf_fun _ _ _ _ Ht10 Ht0). assert (Hch : theight tc < theight (TNode (nop n) ts)).
      { rewrite <- E1. apply theight_child. by eapply elem_of_list_lookup_2. }
      unfold emeasure in *. rewrite Eq. lia.
    + unfold emeasure in *. assert (Dst c1 c2 < Dst l r) by lia. assert (Dst c1 c2 * S N + S N <= Dst l r * S N) by nia. lia.
Qed.
End explain.
