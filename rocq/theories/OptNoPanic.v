(** Explanations interleaved with other operations never panic. *)
From Verif Require Import Base UnionFind Spec EGraphModel EGraphSteps EGraphInv EGraphPres EGraphRuns EGraphMain EGraphReach EGraphSafe EGraphDirect EGraphNoPanic ExplainForest Terms RecExprModel ExprModel
  ExplainModel ExplainSpec ExplainPath ExplainProofs ExplainMain ExtractSpec MatchSpec OptModel OptSpec OptNeighbours OptSolid OptDist OptPar OptSearch OptMemo OptExplain OptCong OptTarjan OptMono OptMain OptInterleave.

Section hops.
Context {Op D : Type} `{Countable Op} (L : lang Op) (A : analysis Op D).
Notation node := (node Op).
Notation egraph := (egraph Op D).
Notation eclass := (eclass Op D).
Notation explain := (explain Op).
Implicit Types g : egraph.

(** an entry of the memo is a step one can explain, and there is an entry to go on from *)
Definition congruent_in g (a b : nat) : Prop :=
  exists n m, eg_nodes g !! a = Some n /\ eg_nodes g !! b = Some m /\ nop n = nop m /\ Forall2 (fun c d => eg_find g c = eg_find g d) (nch n) (nch m).
Definition hops g (x : explain) (sh : smemo) : Prop := forall a r k nx, sh !! (a, r) = Some (k, nx) ->
  a = r \/ ((hop_rule x a nx \/ congruent_in g a nx) /\ (nx = r \/ is_Some (sh !! (nx, r)))).
Definition Hops g : Prop := forall x, eg_explain g = Some x -> hops g x (ex_short x).

Lemma Hops_brun g g' : brun L A any g g' -> Inv g -> is_Some (eg_explain g) -> Hops g -> Hops g'.
Proof.
  intros R I [x Hx] Hh y Hy. destruct (xrun_brun L A _ _ _ R I x Hx) as (y' & Hy' & S). rewrite Hy in Hy'. injection Hy' as <-.
  apply gained_xsteps in S as [Sn So Sw]. pose proof (grows_brun _ _ _ _ _ R I) as [Hco (l & Hl) _ _].
  intros a r k nx Hk. destruct (Sw _ _ _ _ Hk) as [Hold|[-> Hr]]; [|by right; auto].
  destruct (Hh x Hx _ _ _ _ Hold) as [->|[Hhop Hnx]]; [by left|]. right. split.
  - destruct Hhop as [Hr|(n & m & Hn & Hm & Eo & Hf)]; [left; by eapply hop_rule_mono|]. right. exists n, m. rewrite Hl.
    split; [by apply lookup_app_l_Some|]. split; [by apply lookup_app_l_Some|]. split; [done|]. eapply Forall2_impl; [exact Hf|].
    intros c d. by apply coarser_eq.
  - destruct Hnx as [?|Hs]; [by left|right; by apply So].
Qed.

Section graph.
Context (g : egraph) (R : solid g) (x : explain) (Hx : eg_explain g = Some x) (es : list edge) (X : xforest (eg_nodes g) (eg_log g) (eg_find g) x es).
Notation ns := (eg_nodes g).
Notation N := (length (ex_find x)).
Let Hlen : N = length ns := proj1 X.
Let Hfind : forall a b, a < length ns -> b < length ns -> (connected es a b <-> eg_find g a = eg_find g b) := proj1 (proj2 (proj2 (proj2 X))).
Let Hd : dag ns := solid_dag g R.
Let W := X_world Hd X.
Notation kids_conn := (kids_conn (ns := ns) (es := es)).

Lemma congruent_kids a b c : congruent_in g a b -> cn_current c = a -> cn_next c = b -> kids_conn c.
Proof.
  intros (n & m & Hn & Hm & Eo & Hf) <- <- _. exists n, m. split; [done|]. split; [done|]. split; [done|].
  apply Forall2_same_length_lookup_2; [by eapply Forall2_length|]. intros i c1 c2 H1 H2. pose proof (Forall2_lookup_lr _ _ _ _ _ _ Hf H1 H2) as E.
  assert (Hlt : forall j n' c', ns !! j = Some n' -> c' ∈ nch n' -> c' < length ns).
  { intros j n' c' Hj Hc'. pose proof (Hd j n' c' Hj Hc'). apply lookup_lt_Some in Hj. lia. }
  apply Hfind; [eapply Hlt; [exact Hn|]|eapply Hlt; [exact Hm|]|exact E]; by eapply elem_of_list_lookup_2.
Qed.
Lemma kids_congruent c : kids_conn c -> cn_just c = JCong -> congruent_in g (cn_current c) (cn_next c).
Proof.
  intros Hk Ej. destruct (Hk Ej) as (n & m & Hn & Hm & Eo & Hf). exists n, m. split; [done|]. split; [done|]. split; [done|].
  pose proof (Forall2_lt W _ _ _ _ _ Hn Hm Hf) as Hf'. eapply Forall2_impl; [exact Hf'|]. intros c1 c2 (H1 & H2 & Hc). apply Hfind; [lia|lia|done].
Qed.
Lemma hops_populate cn : cn_ok (ns := ns) (x := x) (es := es) cn -> forall r cs a sh sh', hops g x sh -> chain (x := x) cn sh' r a cs ->
  (forall b r', sh' !! (b, r') = sh !! (b, r') \/ (r' = r /\ (b = r \/ b ∈ cn_current <$> cs))) -> hops g x sh'.
Proof.
  intros Hcn r cs a sh sh' Hh Hc Hs.
  assert (Hin : forall b, b ∈ cn_current <$> cs -> exists c k, sh' !! (b, r) = Some (k, cn_next c) /\ gstep (x := x) cn b c /\ (cn_next c = r \/ is_Some (sh' !! (cn_next c, r)))).
  { intros b (c & -> & Hb)%elem_of_list_fmap. apply elem_of_list_split in Hb as (p & q & E).
    pose proof (chain_suffix W cn _ _ _ _ _ _ _ Hc E) as Hq. inversion Hq as [|? ? ? k Hne Hk Hg Hq']; subst. exists c, k. split; [done|]. split; [done|].
    inversion Hq'; [by left|right; eauto]. }
  intros b r' k nx Hk. destruct (Hs b r') as [Es|[-> [->|Hb]]].
  - rewrite Es in Hk. destruct (Hh _ _ _ _ Hk) as [->|[Hhop Hnx]]; [by left|]. right. split; [done|]. destruct Hnx as [?|[e He]]; [by left|].
    destruct (Hs nx r') as [->|[-> [->|Hb]]]; [eauto|by left|]. right. destruct (Hin nx Hb) as (c & k' & -> & _). eauto.
  - by left.
  - right. destruct (Hin b Hb) as (c & k' & Hc' & Hg & Hnx). rewrite Hk in Hc'. injection Hc' as _ ->. split; [|done].
    pose proof (gstep_cur W cn _ _ Hg) as Ec. pose proof (gstep_kids cn Hcn _ _ Hg) as Hkid.
    destruct Hg as [[Hn Hj]|(os & d & _ & _ & ->)]; [left; exists c; done|]. right. exact (kids_congruent _ Hkid eq_refl).
Qed.

(** ** Reading the memo *)
Context (x' : explain) (Ex : ex_find x' = ex_find x) (Hh : hops g x (ex_short x')).
Let Hlk : links_ok ns (hist_rl ns (eg_log g)) x' := links_ok_forest ns (eg_log g) x es (eg_find g) X x' Ex.
Lemma get_path_hops r fuel : forall l, l < N -> l = r \/ is_Some (ex_short x' !! (l, r)) \/ (r < N /\ connected es l r) ->
  match get_path fuel x' l r with
  | Ok (lc, rc) => Forall kids_conn (lc ++ (flip_conn <$> reverse rc))
  | Panic => False
  | OutOfFuel => True
  end.
Proof.
  induction fuel as [|fuel IH]; intros l Hl Hlr; [done|]. cbn [get_path]. case_bool_decide as Elr; [cbn; constructor|].
  destruct (ex_short x' !! (l, r)) as [[k nx]|] eqn:Es.
  - destruct (Hh _ _ _ _ Es) as [?|[Hhop Hnx]]; [done|]. unfold get_neighbor. rewrite Ex.
    destruct (lookup_lt_is_Some_2 (ex_find x) l Hl) as [nd Hnd]. rewrite Hnd. cbn [expect mbind res_bind].
    assert (Hc : exists c, match list_find (fun c => cn_next c = nx /\ cn_just c <> JCong) (xn_neighbors nd) with
        | Some (_, c) => Ok c | None => Ok (Conn nx l JCong true) end = Ok c /\ kids_conn c).
    { destruct (list_find _ _) as [[q c]|] eqn:Ef.
      - exists c. split; [done|]. apply list_find_Some in Ef as (_ & [_ Hj] & _). by intros ?.
      - eexists. split; [done|]. destruct Hhop as [(c & Hc & En & Hj)|Hcg].
        + unfold nbs in Hc. rewrite Hnd in Hc. cbn in Hc. apply list_find_None in Ef. rewrite Forall_forall in Ef. by destruct (Ef c Hc).
        + by apply (congruent_kids l nx). }
    destruct Hc as (c & -> & Hkid). cbn [mbind res_bind].
    assert (Hnl : nx < N).
    { destruct Hhop as [(c' & Hc' & <- & _)|(n & m & _ & Hm & _)]; [by apply (nb_facts g R x es X l c')|]. apply lookup_lt_Some in Hm. lia. }
    specialize (IH nx Hnl ltac:(destruct Hnx; auto)). destruct (get_path fuel x' nx r) as [[lc rc]| |]; [|done|done]. cbn [mbind res_bind].
    cbn. by constructor.
  - destruct Hlr as [?|[[? Hs]|[Hr Hc]]]; [done|congruence|]. rewrite (unopt_ext x x' l r Ex).
    destruct (tree_path Hd X l r Hl Hr Hc) as (lc & rc & -> & _ & Hk & _). done.
Qed.
Lemma children_no_panic rec cs : forall ds (ca : gmap (nat * nat) (ttree Op)), Forall2 (fun c d => forall ca, rec c d ca <> Panic) cs ds -> explain_children rec cs ds ca <> Panic.
Proof.
  induction cs as [|c cs IH]; intros ds ca Hf; inversion Hf as [|? d ? ds' Hr Hf']; subst; [done|]. cbn [explain_children].
  specialize (Hr ca). destruct (rec c d ca) as [[p ca1]| |]; [|done|done]. cbn [mbind res_bind].
  specialize (IH _ ca1 Hf'). by destruct (explain_children rec cs ds' ca1) as [[ps ca2]| |].
Qed.
Lemma along_no_panic rec cs : Forall (fun c => forall ca, explain_adjacent rec ns c ca <> Panic) cs -> forall ca, explain_along rec ns cs ca <> Panic.
Proof.
  induction 1 as [|c cs Hc _ IH]; intros ca; [done|]. cbn [explain_along]. specialize (Hc ca).
  destruct (explain_adjacent rec ns c ca) as [[t ca1]| |]; [|done|done]. cbn [mbind res_bind]. specialize (IH ca1).
  by destruct (explain_along rec ns cs ca1) as [[ts ca2]| |].
Qed.
Lemma explain_no_panic fuel : forall l r ca, l < N -> r < N -> connected es l r -> explain_enodes fuel x' ns l r ca <> Panic.
Proof.
  induction fuel as [|fuel IH]; intros l r ca Hl Hr Hc; [done|]. cbn [explain_enodes].
  destruct (dag_Tree ns l Hd ltac:(lia)) as [tl Htl].
  destruct (node_to_explanation_ok ns Hd (hist_rl ns (eg_log g)) (S (length ns)) _ _ Htl) as (n & kids & ts & _ & -> & _); [lia|].
  cbn [mbind res_bind]. pose proof (get_path_hops r (S (length (ex_find x'))) l Hl ltac:(auto)) as Hp.
  destruct (get_path _ x' l r) as [[lc rc]| |] eqn:Ep; [|done|done]. cbn [mbind res_bind].
  apply (get_path_sound ns Hd (hist_rl ns (eg_log g))) in Ep as [_ Hro]; [|done|lia].
  assert (Ha : forall ca, explain_along (explain_enodes fuel x' ns) ns (lc ++ (flip_conn <$> reverse rc)) ca <> Panic).
  2:{ specialize (Ha ca). by destruct (explain_along _ _ _ _) as [[? ?]| |]. }
  apply along_no_panic. rewrite Forall_forall in Hp, Hro. apply Forall_forall. intros c Hin ca0. destruct (Hro c Hin) as [_ Hcn]. specialize (Hp c Hin).
  unfold explain_adjacent. destruct (ca0 !! _); [done|]. destruct (cn_just c) as [ru|] eqn:Ej.
  - destruct (dag_Tree ns _ Hd Hcn) as [tb Htb].
    destruct (node_to_explanation_ok ns Hd (hist_rl ns (eg_log g)) (S (length ns)) _ _ Htb) as (? & ? & ? & _ & -> & _ & _); [lia|]. done.
  - destruct (Hp Ej) as (n1 & n2 & Hn1 & Hn2 & Eo & Hcc). rewrite Hn1, Hn2. cbn [expect mbind res_bind].
    assert (Hmt : node_matches n1 n2 = true).
    { unfold node_matches. rewrite bool_decide_eq_true_2 by done. cbn. apply Nat.eqb_eq. by eapply Forall2_length. }
    rewrite Hmt. pose proof (Forall2_lt W _ _ _ _ _ Hn1 Hn2 Hcc) as Hcc'.
    pose proof (children_no_panic (explain_enodes fuel x' ns) (nch n1) (nch n2) ca0) as Hk.
    destruct (explain_children _ _ _ _) as [[ks ca1]| |]; [done|exfalso|done]. apply Hk; [|done].
    eapply Forall2_impl; [exact Hcc'|]. intros c1 c2 (H1 & H2 & H3) ca2. by apply IH.
Qed.
End graph.

(** ** The claims *)
Context (it : gset nat -> list nat) (Hit : enumerates it) (cit : gmap nat eclass -> list nat) (Hcit : forall g, traverses g (cit (eg_classes g))).
(** one explanation *)
Lemma hops_step g x pop l r : solid g -> eg_explain g = Some x -> hops g x (ex_short x) -> pops_min pop -> l < length (eg_nodes g) -> r < length (eg_nodes g) -> eg_find g l = eg_find g r ->
  exists bound, forall fuel, bound <= fuel -> exists sh, hops g x sh /\
    explain_id_equivalence_opt it cit pop fuel l r g =
      ('(p, _) ← explain_enodes fuel (Explain (ex_find x) (ex_memo x) sh) (eg_nodes g) l r ∅; Ok (set_explain (Some (Explain (ex_find x) (ex_memo x) sh)) g, p)) /\
    explain_enodes fuel (Explain (ex_find x) (ex_memo x) sh) (eg_nodes g) l r ∅ <> Panic.
Proof.
  intros Sd Hx Hh Hpop Hl Hr Hlr. destruct (opt_congs it Hit cit g Sd (Hcit g)) as (x0 & es & Hx0 & X & cn & b0 & Hcn & Hb0).
  rewrite Hx in Hx0. injection Hx0 as <-. pose proof (proj1 X) as Hlen. rewrite <- Hlen in Hl, Hr. eexists. intros fuel Hfu.
  destruct (shortest_step it Hit cit g Sd (Hcit g) x Hx es X cn b0 Hcn Hb0 (hops g x) x pop l r) with (fuel := fuel) as (sh & E & Hsh); auto; [|exact Hfu|].
  { intros r' cs a sh sh' H1 _ H2 H3. exact (hops_populate g Sd x es X cn Hcn r' cs a sh sh' H1 H2 H3). }
  exists sh. split; [done|]. split.
  - unfold explain_id_equivalence_opt. rewrite bool_decide_eq_true_2 by done. rewrite Hx. cbn [expect mbind res_bind]. rewrite E. done.
  - apply (explain_no_panic g Sd x es X (Explain (ex_find x) (ex_memo x) sh) eq_refl Hsh); [done|done|].
    apply (proj1 (proj2 (proj2 (proj2 X)))); [lia|lia|done].
Qed.
Lemma reach_opt_hops g : reach_opt L A it cit g -> Hops g.
Proof.
  induction 1 as [|fuel p g g' Hro IH E|pop fuel l r g g' p Hro IH Hpop E].
  - intros x [= <-] a r k nx Hk. cbn in Hk. by rewrite lookup_empty in Hk.
  - pose proof (reach_opt_solid L A it cit g Hro) as Sd. eapply Hops_brun; [|apply Sd|apply Sd|exact IH].
    eapply run_prog_runs; [|apply prog_in_any|exact E]. apply modify_n_runs. intros. apply prog_in_any.
  - pose proof (reach_opt_solid L A it cit g Hro) as Sd. destruct (so_ex _ Sd) as [x Hx].
    destruct (so_good _ Sd) as [I XI]. destruct (XI x Hx) as [es X].
    assert (Eg : set_explain (Some x) g = g) by (by apply set_explain_same).
    pose proof E as E0. rewrite <- Eg in E0. destruct (opt_known it cit g Sd x es X x pop fuel l r _ E0) as (Hl & Hr & Hlr).
    rewrite (proj1 X) in Hl, Hr.
    destruct (hops_step g x pop l r Sd Hx (IH x Hx) Hpop Hl Hr Hlr) as [b Hb]. destruct (Hb (Nat.max b fuel) ltac:(lia)) as (sh & Hsh & E1 & _).
    pose proof (explain_opt_okle it cit pop l r g fuel (Nat.max b fuel) ltac:(lia) _ E) as E3. rewrite E1 in E3.
    destruct (explain_enodes _ _ _ _ _ _) as [[q ca]| |]; try done. cbn [mbind res_bind] in E3. injection E3 as <- _.
    intros y [= <-]. exact Hsh.
Qed.
Theorem interleaved_answers g pop l r : reach_opt L A it cit g -> pops_min pop -> known g l -> known g r -> eg_find g l = eg_find g r ->
  (exists bound, forall fuel, bound <= fuel -> explain_id_equivalence_opt it cit pop fuel l r g <> Panic) /\
  forall fuel, explain_id_equivalence fuel l r g <> Panic.
Proof.
  intros Hro Hpop Hl Hr Hlr. pose proof (reach_opt_solid L A it cit g Hro) as Sd. destruct (so_ex _ Sd) as [x Hx]. destruct (so_good _ Sd) as [I XI].
  pose proof (reach_opt_hops g Hro x Hx) as Hh. unfold known in Hl, Hr. rewrite <- (iv_len _ I) in Hl, Hr. split.
  - destruct (hops_step g x pop l r Sd Hx Hh Hpop Hl Hr Hlr) as [b Hb]. exists b. intros fuel Hfu.
    destruct (Hb fuel Hfu) as (sh & _ & -> & Hn). by destruct (explain_enodes _ _ _ _ _ _) as [[q ca]| |].
  - intros fuel. unfold explain_id_equivalence. rewrite bool_decide_eq_true_2 by done. rewrite Hx. cbn [expect mbind res_bind].
    destruct (XI x Hx) as [es X]. pose proof (explain_no_panic g Sd x es X x eq_refl Hh fuel l r ∅) as Hn.
    destruct (explain_enodes fuel x (eg_nodes g) l r ∅) as [[q ca]| |]; [done| |done]. exfalso. apply Hn; [rewrite (proj1 X); lia|rewrite (proj1 X); lia| |done].
    apply (proj1 (proj2 (proj2 (proj2 X)))); [lia|lia|done].
Qed.
End hops.
