(** The paths explanations take cost no more than those of the forest. *)
From Verif Require Import Base UnionFind Spec EGraphModel EGraphSafe ExplainForest Terms RecExprModel ExprModel ExplainModel ExplainSpec ExplainPath
  ExplainProofs ExtractSpec ExtractMain OptModel OptDist OptPar OptNeighbours OptSearch OptMemo OptExplain ExplainCount OptShort.

Section short.
Context {Op : Type} `{Countable Op}.
Notation node := (node Op).
Notation explain := (explain Op).
Notation ttree := (ttree Op).
Context {ns : list node} {h : list (event Op)} {fnd : nat -> nat} {x : explain} {es : list edge}.
Context (Hd : dag ns) (X : xforest ns h fnd x es).
Let W := X_world Hd X.
Let Hlen : length (ex_find x) = length ns := w_len _ _ _ _ _ W.
Let F : forest (alt_of h) (ex_find x) es := w_for _ _ _ _ _ W.
Notation N := (length (ex_find x)).
Notation f := (ex_find x).
Notation Dst := (Dst ns x es).
Notation Cost := (Cost ns x es).
Notation wcost cs := (sum_list (Cost <$> cs)).
Notation kids_conn := (kids_conn (ns := ns) (es := es)).
Notation path_of lc rc := (lc ++ (flip_conn <$> reverse rc)).
Notation rule_nb := (rule_nb (x := x)).
Notation hop := (hop (ns := ns) (x := x) (es := es)).
Notation chop := (chop (ns := ns) (x := x) (es := es)).
Notation hop_ok := (hop_ok (ns := ns) (x := x) (es := es)).
Context (Hnl : forall i c, c ∈ nbs f i -> cn_next c < N) (Hnbp : nbp f).
(** no rule step is recorded beside a congruence of the forest *)
Context (Qb : forall i nd, f !! i = Some nd -> cn_next (xn_parent nd) <> i -> cn_just (xn_parent nd) = JCong ->
  ~ rule_nb i (cn_next (xn_parent nd)) /\ ~ rule_nb (cn_next (xn_parent nd)) i).
Context (x' : explain) (Ex : ex_find x' = f).

(** ** Paths of the forest *)
Definition link (c : conn) : Prop := exists nd, f !! cn_current c = Some nd /\ c = xn_parent nd /\ cn_next c <> cn_current c.
Lemma climb_link v cs a : climb x v cs a -> Forall link cs.
Proof.
  induction 1 as [|v nd cs a Hnd Hne _ IH]; constructor; [|done]. pose proof (fo_cur _ _ _ F _ _ Hnd) as Ec. exists nd. rewrite Ec. done.
Qed.
Lemma unopt_links l r lc rc : get_path_unoptimized x l r = Ok (lc, rc) -> Forall link lc /\ Forall link rc.
Proof.
  unfold get_path_unoptimized. intros E. destruct (common_ancestor _ _ _ _ _ _) as [a| |]; try done. cbn [mbind res_bind] in E.
  destruct (get_connections x l a) as [l1| |] eqn:E1; try done. cbn [mbind res_bind] in E. destruct (get_connections x r a) as [r1| |] eqn:E2; try done.
  cbn [mbind res_bind] in E. injection E as <- <-.
  assert (Hg : forall v cs, get_connections x v a = Ok cs -> Forall link cs).
  { intros v cs E. unfold get_connections in E. case_bool_decide; [injection E as <-; constructor|]. eapply climb_link. by eapply loop_climb. }
  eauto.
Qed.
Lemma link_rule c : link c -> cn_just c <> JCong -> rule_nb (cn_current c) (cn_next c) /\ rule_nb (cn_next c) (cn_current c).
Proof.
  intros (nd & Hnd & -> & Hne) Hj. destruct (Hnbp _ _ Hnd Hne) as [(c1 & H1 & N1 & J1) (c2 & H2 & N2 & J2)].
  split; [exists c1|exists c2]; (split; [done|split; [done|congruence]]).
Qed.
Lemma link_cong c : link c -> cn_just c = JCong -> ~ rule_nb (cn_current c) (cn_next c) /\ ~ rule_nb (cn_next c) (cn_current c).
Proof. intros (nd & Hnd & -> & Hne) Hj. exact (Qb _ nd Hnd Hne Hj). Qed.
Lemma link_chop c : link c -> chop c = Cost c.
Proof.
  intros Hl. unfold OptShort.chop. destruct (decide (cn_just c = JCong)) as [Ej|Ej].
  - rewrite (hop_cong _ _ (proj1 (link_cong c Hl Ej))). symmetry. by apply Cost_cong.
  - rewrite (hop_rule1 _ _ (proj1 (link_rule c Hl Ej))). symmetry. by apply Cost_rule.
Qed.
Lemma link_chop_flip c : link c -> kids_conn c -> chop (flip_conn c) = Cost (flip_conn c).
Proof.
  intros Hl Hk. unfold OptShort.chop. cbn [flip_conn cn_current cn_next]. destruct (decide (cn_just c = JCong)) as [Ej|Ej].
  - rewrite (hop_cong _ _ (proj2 (link_cong c Hl Ej))). symmetry. rewrite (Cost_cong (flip_conn c)) by done. done.
  - rewrite (hop_rule1 _ _ (proj2 (link_rule c Hl Ej))). symmetry. by apply Cost_rule.
Qed.
Lemma hop_ok_of c : kids_conn c -> chop c = Cost c -> hop_ok c.
Proof. intros Hk Hc. unfold OptShort.hop_ok. destruct (cn_just c) eqn:Ej; [|done]. rewrite Hc. apply Cost_rule. congruence. Qed.
Lemma tree_hops l r : l < N -> r < N -> connected es l r -> exists lc rc, get_path_unoptimized x l r = Ok (lc, rc) /\
  sum_list (chop <$> path_of lc rc) = Dst l r /\ Forall hop_ok (path_of lc rc).
Proof.
  intros Hl Hr Hc. destruct (tree_path Hd X l r Hl Hr Hc) as (lc & rc & E & _ & Hk & Hw). exists lc, rc. split; [done|].
  destruct (unopt_links _ _ _ _ E) as [L1 L2].
  assert (Hall : forall c, c ∈ path_of lc rc -> chop c = Cost c).
  { intros c [Hin|Hin]%elem_of_app.
    - rewrite Forall_forall in L1. by apply link_chop, L1.
    - apply elem_of_list_fmap in Hin as (c' & -> & Hin). rewrite elem_of_reverse in Hin. rewrite Forall_forall in L2. apply link_chop_flip; [by apply L2|].
      rewrite Forall_forall in Hk. assert (Hk' : kids_conn (flip_conn c')).
      { apply Hk. apply elem_of_app. right. apply elem_of_list_fmap. exists c'. split; [done|]. by rewrite elem_of_reverse. }
      apply kids_flip in Hk'. intros Ej. exact (Hk' Ej). }
  split.
  - rewrite <- Hw. f_equal. apply list_fmap_ext. intros i c Hi. apply Hall. by eapply elem_of_list_lookup_2.
  - rewrite Forall_forall in *. intros c Hin. apply hop_ok_of; auto.
Qed.

(** ** Paths read from the memo *)
Section upper.
(** rule steps are between different terms *)
Context (Qa : forall a b t, rule_nb a b -> Tree ns a t -> ~ Tree ns b t).
Context (cn : list (list nat)) (Hcn : cn_ok (ns := ns) (x := x) (es := es) cn).
Context (Hm : memo_ok (ns := ns) (x := x) (es := es) cn (ex_short x')).
Notation walk := (walk (x := x) cn).
Notation gstep := (gstep (x := x) cn).
Lemma gstep_hop a c : gstep a c -> a < N -> chop c <= Cost c.
Proof.
  intros Hg Ha. pose proof (gstep_cur W cn _ _ Hg) as Ec. destruct Hg as [[Hc Hj]|(os & b & Hos & Hb & ->)].
  - rewrite (Cost_rule c Hj). unfold OptShort.chop. rewrite Ec. rewrite hop_rule1; [lia|]. exists c. done.
  - unfold OptShort.chop. cbn [cn_current cn_next]. destruct (rule_nb_dec (x := x) a b) as [Hr|Hr]; [|by rewrite (hop_cong _ _ Hr)].
    rewrite (hop_rule1 _ _ Hr). destruct (decide (Cost (Conn b a JCong true) = 0)) as [E0|]; [|lia]. exfalso.
    destruct (dag_Tree ns a Hd) as [t Ht]; [lia|]. apply (Qa a b t Hr Ht). apply (linked_tree Hd X [Conn b a JCong true] a b t); auto.
    + done.
    + constructor; [|constructor]. intros _. cbn. by apply (cn_cong cn Hcn a os b).
    + change (Cost (Conn b a JCong true) + 0 = 0). lia.
    + intros a' b' t' _. by apply (Dst_zero Hd X).
Qed.
Lemma rule_Dst a b : a < N -> b < N -> connected es a b -> rule_nb a b -> 1 <= Dst a b.
Proof.
  intros Ha Hb Hc Hr. destruct (decide (Dst a b = 0)) as [E0|]; [|lia]. exfalso. destruct (dag_Tree ns a Hd) as [t Ht]; [lia|].
  apply (Qa a b t Hr Ht). by apply (Dst_zero Hd X t a b).
Qed.
Lemma neighbor_hop a nx c' : a < N -> get_neighbor x' a nx = Ok c' -> cn_current c' = a /\ cn_next c' = nx /\ (cn_just c' = JCong -> ~ rule_nb a nx) /\ (cn_just c' <> JCong -> rule_nb a nx).
Proof.
  intros Ha. unfold get_neighbor. rewrite Ex. destruct (f !! a) as [nd|] eqn:Hnd; [|done]. cbn [expect mbind res_bind].
  assert (En : nbs f a = xn_neighbors nd) by (unfold nbs; by rewrite Hnd).
  destruct (list_find _ _) as [[i c]|] eqn:Ef; intros [= <-].
  - apply list_find_Some in Ef as (Hi & [Hn Hj] & _). apply elem_of_list_lookup_2 in Hi.
    split; [exact (proj1 (fo_nb _ _ _ F a nd c Hnd Hi))|]. split; [done|]. split; [done|]. intros _. exists c. by rewrite En.
  - split; [done|]. split; [done|]. split; [|done]. intros _ (c & Hc & Hn & Hj). rewrite En in Hc. apply list_find_None in Ef. rewrite Forall_forall in Ef. by destruct (Ef c Hc).
Qed.
Lemma chain_hops r a cs : chain (x := x) cn (ex_short x') r a cs -> a < N -> forall fuel lc rc, get_path fuel x' a r = Ok (lc, rc) ->
  rc = [] /\ sum_list (chop <$> lc) <= wcost cs /\ Forall hop_ok lc.
Proof.
  induction 1 as [|a c cs k Hne Hs Hg Hc IH]; intros Ha fuel lc rc E; (destruct fuel as [|fuel]; [done|]); cbn [get_path] in E.
  - rewrite bool_decide_eq_true_2 in E by done. injection E as <- <-. split; [done|]. split; [cbn; lia|constructor].
  - rewrite bool_decide_eq_false_2 in E by done. rewrite Hs in E. destruct (get_neighbor x' a (cn_next c)) as [c'| |] eqn:En; try done. cbn [mbind res_bind] in E.
    destruct (get_path fuel x' (cn_next c) r) as [[lc' rc']| |] eqn:Ep; try done. cbn [mbind res_bind] in E. injection E as <- <-.
    destruct (IH (gstep_lt W Hnl cn Hcn _ _ Hg) _ _ _ Ep) as (-> & Hle & Hok). split; [done|].
    destruct (neighbor_hop _ _ _ Ha En) as (E1 & E2 & N1 & N2). pose proof (gstep_cur W cn _ _ Hg) as Ec.
    assert (Eh : chop c' = chop c) by (unfold OptShort.chop; by rewrite E1, E2, Ec). pose proof (gstep_hop a c Hg Ha) as Hh.
    split.
    + rewrite !fmap_cons. change (sum_list (?a :: ?l)) with (a + sum_list l). lia.
    + constructor; [|done]. unfold OptShort.hop_ok. destruct (cn_just c') eqn:Ej.
      * unfold OptShort.chop. rewrite E1, E2. apply hop_rule1. apply N2. congruence.
      * assert (Ec' : c' = c). { destruct (neighbor_gstep cn x' Ex a c Hg Ha) as (c2 & E3 & H3). rewrite En in E3. injection E3 as <-. auto. }
        subst c'. split; [by eapply (gstep_kids cn Hcn)|]. rewrite (Cost_cong c Ej). unfold OptShort.chop. apply hop_cong. rewrite Ec. by apply N1.
Qed.
Lemma upper_path l r lc rc : l < N -> r < N -> connected es l r -> get_path (S N) x' l r = Ok (lc, rc) ->
  sum_list (chop <$> path_of lc rc) <= Dst l r /\ Forall hop_ok (path_of lc rc) /\
  ((ex_short x' !! (l, r) <> None \/ l = r) -> forall cs, walk l cs r -> sum_list (chop <$> path_of lc rc) <= wcost cs).
Proof.
  intros Hl Hr Hc E. destruct (decide (l = r)) as [->|Hne].
  { cbn [get_path] in E. rewrite bool_decide_eq_true_2 in E by done. injection E as <- <-. cbn. split; [lia|]. split; [constructor|]. intros; lia. }
  destruct (ex_short x' !! (l, r)) as [[k nx]|] eqn:Es.
  2:{ cbn [get_path] in E. rewrite bool_decide_eq_false_2, Es in E by done. rewrite (unopt_ext x x' l r Ex) in E.
      destruct (tree_hops l r Hl Hr Hc) as (lc' & rc' & E' & Hs & Ho). rewrite E in E'. injection E' as <- <-. split; [lia|]. split; [done|]. intros [?|?]; done. }
  destruct (tree_walk W Hnbp cn Hcn l r Hl Hr Hc) as (ws & Hws & Ews).
  destruct (Hm _ _ _ _ Es) as [(-> & Hrn)|[?|(cs & Hch & [_ Hmin])]]; [|done|].
  - assert (Hrn' : rule_nb l r) by exact Hrn. cbn [get_path] in E. rewrite bool_decide_eq_false_2, Es in E by done.
    destruct (get_neighbor x' l r) as [c'| |] eqn:En; try done. cbn [mbind res_bind] in E.
    assert (Eg : get_path N x' r r = Ok ([], [])). { assert (Hpos : 0 < N) by lia. revert Hpos. generalize N. intros [|n] Hpos; [lia|]. cbn [get_path]. by rewrite bool_decide_eq_true_2. }
    rewrite Eg in E. cbn [mbind res_bind] in E. injection E as <- <-. destruct (neighbor_hop _ _ _ Hl En) as (E1 & E2 & N1 & N2).
    assert (Eh : chop c' = 1) by (unfold OptShort.chop; rewrite E1, E2; by apply hop_rule1).
    rewrite reverse_nil. cbn [app fmap list_fmap]. change (sum_list [chop c']) with (chop c' + 0). split; [pose proof (rule_Dst l r Hl Hr Hc Hrn'); lia|]. split.
    + constructor; [|constructor]. unfold OptShort.hop_ok. destruct (cn_just c') eqn:Ej; [done|]. by destruct (N1 eq_refl).
    + intros _ cs Hw. destruct (decide (wcost cs = 0)) as [E0|]; [|lia]. exfalso. destruct (dag_Tree ns l Hd) as [t Ht]; [lia|]. apply (Qa l r t Hrn' Ht).
      apply (linked_tree Hd X cs l r t); auto.
      * by apply (walk_linked Hd X cn).
      * apply Forall_forall. intros c Hin. eapply (gstep_kids cn Hcn). by eapply (walk_gstep W).
      * intros a' b' t' _. by apply (Dst_zero Hd X).
  - destruct (chain_hops r l cs Hch Hl _ _ _ E) as (-> & Hle & Hok). rewrite reverse_nil. cbn [fmap list_fmap]. rewrite app_nil_r.
    split; [pose proof (Hmin ws Hws); lia|]. split; [done|]. intros _ cs' Hw'. pose proof (Hmin cs' Hw'). lia.
Qed.
End upper.

(** ** Paths before the optimiser has run *)
Lemma link_Dst c : link c -> Dst (cn_current c) (cn_next c) = Cost c /\ Dst (cn_next c) (cn_current c) = Cost c.
Proof.
  intros (nd & Hnd & E & Hne). pose proof (lookup_lt_Some _ _ _ Hnd) as Hlt. rewrite E in Hne at 1.
  assert (Hpar : uf_parent (pl f) (cn_current c) = cn_next c) by (rewrite (pl_parent _ _ _ Hnd); by rewrite E).
  assert (Ha : anc (pl f) (cn_current c) (cn_next c)) by (rewrite <- Hpar; apply anc_parent).
  pose proof (u_lt W _ _ Ha Hlt) as Hlt2.
  assert (Hl : lca (pl f) (cn_current c) (cn_next c) (cn_next c)) by (split; [done|]; split; [apply rtc_refl|]; intros b _ Hb; exact Hb).
  pose proof (Dst_hgt W _ _ _ Hlt Hlt2 Hl) as H1. pose proof (Dst_hgt W _ _ _ Hlt2 Hlt (lca_sym _ _ _ Hl)) as H2.
  pose proof (Hgt_step W _ _ Hnd) as H3. rewrite <- E in H3, Hne. specialize (H3 Hne).
  lia.
Qed.
Section lean.
(** rule steps recorded are those of the forest *)
Context (Hlean : forall a b, rule_nb a b -> exists c, link c /\ cn_just c <> JCong /\ ((a = cn_current c /\ b = cn_next c) \/ (a = cn_next c /\ b = cn_current c))).
Context (Hdir : forall a b k nx, ex_short x' !! (a, b) = Some (k, nx) -> nx = b /\ rule_nb a b).
Lemma lean_path l r lc rc : l < N -> r < N -> connected es l r -> get_path (S N) x' l r = Ok (lc, rc) ->
  sum_list (chop <$> path_of lc rc) = Dst l r /\ Forall hop_ok (path_of lc rc).
Proof.
  intros Hl Hr Hc E. destruct (decide (l = r)) as [->|Hne].
  { cbn [get_path] in E. rewrite bool_decide_eq_true_2 in E by done. injection E as <- <-. split; [by rewrite (Dst_refl W _ Hr)|constructor]. }
  cbn [get_path] in E. rewrite bool_decide_eq_false_2 in E by done. destruct (ex_short x' !! (l, r)) as [[k nx]|] eqn:Es.
  2:{ rewrite (unopt_ext x x' l r Ex) in E.
      destruct (tree_hops l r Hl Hr Hc) as (lc' & rc' & E' & Hs & Ho). rewrite E in E'. injection E' as <- <-. done. }
  destruct (Hdir _ _ _ _ Es) as [-> Hrn].
  destruct (get_neighbor x' l r) as [c'| |] eqn:En; try done. cbn [mbind res_bind] in E.
  assert (Eg : get_path N x' r r = Ok ([], [])). { assert (Hpos : 0 < N) by lia. revert Hpos. generalize N. intros [|n] Hpos; [lia|]. cbn [get_path]. by rewrite bool_decide_eq_true_2. }
  rewrite Eg in E. cbn [mbind res_bind] in E. injection E as <- <-. destruct (neighbor_hop _ _ _ Hl En) as (E1 & E2 & N1 & N2).
  assert (Eh : chop c' = 1) by (unfold OptShort.chop; rewrite E1, E2; by apply hop_rule1).
  rewrite reverse_nil. cbn [app fmap list_fmap]. change (sum_list [chop c']) with (chop c' + 0). split.
  - destruct (Hlean _ _ Hrn) as (c & Hlk & Hj & Hab). destruct (link_Dst c Hlk) as [D1 D2]. pose proof (Cost_rule (ns := ns) (x := x) (es := es) c Hj) as C1.
    destruct Hab as [[-> ->]|[-> ->]]; lia.
  - constructor; [|constructor]. unfold OptShort.hop_ok. destruct (cn_just c') eqn:Ej; [done|]. by destruct (N1 eq_refl).
Qed.
End lean.
End short.
