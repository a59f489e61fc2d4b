(** Which variables rules mention, and why accepted rules do not panic on their matches. *)
From Verif Require Import Base UnionFind EGraphModel EGraphSteps EGraphInv EGraphPres EGraphRuns Spec EGraphMain EGraphReach EGraphOps EGraphSafe
  EGraphNoPanic Terms RecExprModel RecExprProofs ExprModel PatSpec ExprProofs ExprSafe MachineModel MatchSpec MatchProofs MachineProofs CompileProofs
  CompileMain SearchProofs SearchMain MultiProofs MatchMain MatchProps RewriteModel RewriteProofs AlgSpec AlgProofs AlgRules RewriteMain RuleSpec.

(** ** Variables *)
Section vars.
Context {Op : Type} `{Countable Op}.
Notation pnode := (EGraphModel.node (pop Op)).
Implicit Types p : list pnode.

Lemma vars_loop_elem p l v : v ∈ vars_loop p l <-> v ∈ l \/ exists cs, Node (PVar v) cs ∈ p.
Proof.
  revert l. induction p as [|[o cs] p IH]; intros l; cbn [vars_loop].
  - split; [auto|]. intros [?|(? & Hin%elem_of_nil)]; done.
  - destruct o as [f|w]; cbn [pview nop].
    + rewrite IH. split; (intros [?|(ds & Hin)]; [auto|right; exists ds]); [by right|]. by apply elem_of_cons in Hin as [[=]|?].
    + rewrite IH. split.
      * intros [Hin|(ds & Hin)]; [|right; exists ds; by right]. case_bool_decide; [auto|].
        apply elem_of_app in Hin as [?|Hin%elem_of_list_singleton]; [auto|]. subst. right. exists cs. left.
      * intros [Hin|(ds & Hin)]; [left; case_bool_decide; [done|apply elem_of_app; auto]|].
        apply elem_of_cons in Hin as [[= -> ->]|Hin]; [left|eauto].
        case_bool_decide; [done|]. apply elem_of_app. right. by apply elem_of_list_singleton.
Qed.
Lemma ast_vars_elem p v : v ∈ ast_vars p <-> exists cs, Node (PVar v) cs ∈ p.
Proof. unfold ast_vars. rewrite vars_loop_elem. split; [|auto]. intros [Hin%elem_of_nil|?]; done. Qed.

Lemma occurs_node p v i u : Tree p i u -> occurs v u -> exists cs, Node (PVar v) cs ∈ p.
Proof.
  revert i. induction u as [f ts IH] using term_sind. intros i Ht Ho. inversion Ht as [? ? cs ? Hg Hts]; subst.
  inversion Ho as [|? ? t Hin Ho']; subst; [exists cs; by eapply elem_of_list_lookup_2|].
  rewrite Forall_forall in IH. destruct (elem_of_list_lookup_1 _ _ Hin) as [q Hq].
  destruct (Forall2_lookup_r _ _ _ _ _ Hts Hq) as (c & _ & HT). by eapply IH.
Qed.
Lemma rooted_vars p t v : good_ast p -> rooted p -> ExprTree p t -> (v ∈ ast_vars p <-> occurs v t).
Proof.
  intros (Hd & Hok & Hne) Hr Ht. rewrite ast_vars_elem. split; [|intros Ho; destruct Ht as [_ Ht]; by eapply occurs_node].
  intros (cs & Hin). apply elem_of_list_lookup in Hin as [j Hj].
  assert (cs = []) as -> by exact (Forall_lookup_1 _ _ _ _ Hok Hj).
  assert (Hu : Tree p j (TNode (PVar v) [])) by (econstructor; [exact Hj|constructor]).
  refine (proj2 (rooted_sub (fun u => (exists i, Tree p i u) /\ forall w, occurs w u -> occurs w t) p t _ Hd Hr Ht _ j _ Hu) v (occurs_here v [])).
  - intros f ts [[i Hi] Ho]. inversion Hi as [? ? cs ? Hg Hts]; subst. apply Forall_forall. intros u Hin.
    destruct (elem_of_list_lookup_1 _ _ Hin) as [q Hq]. destruct (Forall2_lookup_r _ _ _ _ _ Hts Hq) as (c & Hc & HT). split; [eauto|].
    intros w Hw. apply Ho. destruct f as [f|x]; [by econstructor|].
    pose proof (Forall_lookup_1 _ _ _ _ Hok Hg) as Hn. cbn in Hn. subst. done.
  - split; [|done]. destruct Ht as [_ Ht]. eauto.
Qed.
Lemma compact_loop_ops (e : list pnode) i ids (s e' : list pnode) o ds : compact_loop i e ids s = Ok e' ->
  Node o ds ∈ e' -> Node o ds ∈ s \/ exists cs, Node o cs ∈ e.
Proof.
  revert i ids s. induction e as [|[o' cs'] e IH]; intros i ids s E Hin; cbn [compact_loop] in E.
  - injection E as <-. auto.
  - destruct (map_children_o _ _) as [m| |] eqn:Em; [|done|done]. cbn [mbind res_bind] in E.
    destruct (index_insert s m) as [s2 id] eqn:Ei. apply IH in E as [Hs|[cs Hs]]; [| |done].
    + assert (Node o ds ∈ s \/ Node o ds = m) as [?|<-].
      { unfold index_insert in Ei. destruct (list_find _ s) as [[j m']|]; injection Ei as <- _; [auto|].
        apply elem_of_app in Hs as [?|Hs%elem_of_list_singleton]; auto. }
      * auto.
      * apply map_children_o_inv in Em as [Eo _]. cbn in Eo. subst o'. right. exists cs'. left.
    + right. exists cs. by right.
Qed.
Lemma pattern_new_vars (ord : gmap (nat * nat) (node Op) -> list (nat * nat)) fuel (ast : list pnode) pt t v : good_ast ast -> rooted ast -> pattern_new ord fuel ast = Ok pt -> ExprTree (pt_ast pt) t ->
  (v ∈ ast_vars (pt_ast pt) <-> occurs v t).
Proof.
  intros Hg Hr E Ht. split.
  - intros (cs & Hin)%ast_vars_elem. destruct (good_ast_tree ast Hg) as [_ [t0 Ht0]]. pose proof Hg as (Hd & Hok & Hne).
    destruct (pattern_new_ast ord fuel ast pt Hd Hok Hne E) as (_ & _ & _ & _ & Hsame).
    specialize (Hsame Hr t0 Ht0). rewrite (ExprTree_fun _ _ _ Ht Hsame). apply (rooted_vars ast t0 v Hg Hr Ht0). apply ast_vars_elem.
    unfold pattern_new in E. destruct (rx_compact ast) as [e| |] eqn:Ec; [|done|done]. cbn [mbind res_bind] in E.
    destruct (compile_from_pat _ _ _); [|done|done]. cbn [mbind res_bind] in E. injection E as <-. cbn [pt_ast] in Hin.
    destruct (compact_loop_ops _ _ _ _ _ _ _ Ec Hin) as [Hn%elem_of_nil|Hn]; done.
  - intros Ho. apply ast_vars_elem. destruct Ht as [_ Ht]. by eapply occurs_node.
Qed.
Lemma multi_applier_vars_elem (asts : list (nat * list pnode)) bnd v : v ∈ multi_applier_vars bnd asts <->
  exists pre bv p post, asts = pre ++ (bv, p) :: post /\ v ∈ ast_vars p /\ v ∉ bnd /\ v ∉ pre.*1.
Proof.
  revert bnd. induction asts as [|[bv p] asts IH]; intros bnd; cbn [multi_applier_vars].
  - split; [intros Hn%elem_of_nil; done|]. intros ([] & ? & ? & ? & ? & _); done.
  - rewrite elem_of_app, elem_of_list_filter, IH. split.
    + intros [[Hb Hv]|(pre & bw & q & post & -> & Hv & Hb & Hp)].
      * exists [], bv, p, asts. split_and!; auto. cbn. apply not_elem_of_nil.
      * apply not_elem_of_cons in Hb as [Hne Hb]. exists ((bv, p) :: pre), bw, q, post. split_and!; auto. cbn. by apply not_elem_of_cons.
    + intros ([|[bw q] pre] & bx & r & post & E & Hv & Hb & Hp); cbn in E; injection E as -> -> ->.
      * auto.
      * cbn in Hp. apply not_elem_of_cons in Hp as [Hne Hp]. right. exists pre, bx, r, post. split_and!; auto. by apply not_elem_of_cons.
Qed.
Lemma multi_vars_elem (asts : list (nat * list pnode)) v : v ∈ multi_vars asts <-> exists bv p, (bv, p) ∈ asts /\ (v = bv \/ v ∈ ast_vars p).
Proof.
  unfold multi_vars. rewrite elem_of_list_to_set, elem_of_concat. split.
  - intros (l & Hv & Hl). apply elem_of_list_fmap in Hl as ([bv p] & -> & Hin). exists bv, p. split; [done|]. by apply elem_of_cons in Hv.
  - intros (bv & p & Hin & Hv). exists (bv :: ast_vars p). split; [by apply elem_of_cons|]. apply elem_of_list_fmap. by exists (bv, p).
Qed.
End vars.

(** ** Safety *)
Section safe.
Context {Op D : Type} `{Countable Op} (L : lang Op) (A : analysis Op D).
Notation egraph := (egraph Op D).
Notation prog := (prog Op D).
Notation pnode := (EGraphModel.node (pop Op)).
Implicit Types (g : egraph) (p : list pnode).
Notation next := (next L A).

Notation ready := match_ids.
Definition shaped p : Prop := dag p /\ p <> [].
(** Conditions and appliers given by code may use the ids of a match with their variables. *)
Definition cond_safe (c : condition Op D) : Prop :=
  match c with
  | CEqual p1 p2 => shaped p1 /\ shaped p2
  | CFn vars body _ => forall e s N, ready N vars e s -> uses_known N (body e s)
  end.
Fixpoint one_safe (a : applier Op D) : Prop :=
  match a with
  | APattern p => shaped p
  | AMulti _ => False
  | ACond c a => cond_safe c /\ one_safe a
  | AFn vars body _ => forall e s N, ready N vars e s -> uses_known N (body e s)
  end.
Definition applier_safe (a : applier Op D) : Prop :=
  match a with AMulti asts => Forall (fun cl => shaped cl.2) asts | _ => one_safe a end.

Section run.
Context (Hhook : forall id N, id < N -> uses_known N (an_modify A id)) (fuel here : nat).
Notation md := (modify_n L A fuel).
Lemma md_ok : md_good L A md.
Proof. by apply modify_n_good. Qed.

Lemma ready_mono N M vars vars' c s : N <= M -> (forall v, v ∈ vars' -> v ∈ vars) -> ready N vars c s -> ready M vars' c s.
Proof. intros Hle Hsub (Hc & Hi & Hv). split_and!; [lia|intros v i E; specialize (Hi v i E); lia|auto]. Qed.
Lemma ready_bound g vars c s p : ready (size g) vars c s -> (forall v, v ∈ ast_vars p -> v ∈ vars) -> bound_in g s p.
Proof.
  intros (_ & Hi & Hv) Hsub j v cs Hj. destruct (Hv v) as [i Ei].
  { apply Hsub, ast_vars_elem. exists cs. by eapply elem_of_list_lookup_2. }
  exists i. split; [done|]. exact (Hi v i Ei).
Qed.
Lemma next_ready g g' vars c s : good g -> next g g' -> ready (size g) vars c s -> ready (size g') vars c s.
Proof. intros G N. apply ready_mono; [by eapply next_size|done]. Qed.
Lemma next_ids g g' (i : nat) : good g -> next g g' -> i < size g -> i < size g'.
Proof. intros G N Hi. pose proof (next_size L A g g' G N). lia. Qed.

Lemma api_union_good a b r g : good g -> a < size g -> b < size g -> okP (api_union A md a b r g) (fun '(g', _) => next g g').
Proof.
  intros G Ha Hb. assert (U : uses_known (size g) (PUnion a b r (fun _ => PRet) : prog)) by (cbn; auto).
  pose proof (run_prog_good L A fuel md _ g md_ok G U) as Hok. cbn [run_prog] in Hok.
  destruct (api_union A md a b r g) as [[g1 v]| |]; [|done|done]. exact Hok.
Qed.
Lemma api_trusted_good a b r g : good g -> a < size g -> b < size g -> okP (api_union_trusted A md a b r g) (fun '(g', _) => next g g').
Proof.
  intros G Ha Hb. assert (U : uses_known (size g) (PUnionTrusted a b r (fun _ => PRet) : prog)) by (cbn; auto).
  pose proof (run_prog_good L A fuel md _ g md_ok G U) as Hok. cbn [run_prog] in Hok.
  destruct (api_union_trusted A md a b r g) as [[g1 v]| |]; [|done|done]. exact Hok.
Qed.
Lemma union_inst_good p1 p2 s r g : shaped p1 -> shaped p2 -> good g -> bound_in g s p1 -> bound_in g s p2 ->
  okP (union_instantiations A md p1 p2 s r g) (fun '(g', _) => next g g').
Proof.
  intros [Hd1 Hn1] [Hd2 Hn2] G B1 B2. unfold union_instantiations. eapply okP_bind; [by apply (add_inst_good L A md md_ok)|].
  intros [g1 i1] [N1 Hi1]. eapply okP_bind; [apply (add_inst_good L A md md_ok); [done|done|apply N1|by eapply bound_in_next]|].
  intros [g2 i2] [N2 Hi2]. eapply okP_bind; [apply api_trusted_good; [apply N2|by eapply next_ids; [apply N1|exact N2|]|done]|].
  intros [g3 v] N3. cbn. eapply next_trans; [exact N1|]. by eapply next_trans.
Qed.
Lemma check_good cnd vars c s g : cond_safe cnd -> (forall v, v ∈ condition_vars cnd -> v ∈ vars) -> good g -> ready (size g) vars c s ->
  okP (check L A fuel cnd c s g) (fun '(g', _) => next g g').
Proof.
  intros Hc Hsub G Hr. destruct cnd as [p1 p2|vs body test]; cbn [check cond_safe condition_vars] in *.
  - destruct Hc as [[Hd1 Hn1] [Hd2 Hn2]].
    assert (B1 : bound_in g s p1) by (eapply ready_bound; [done|]; intros v Hv; apply Hsub, elem_of_app; auto).
    assert (B2 : bound_in g s p2) by (eapply ready_bound; [done|]; intros v Hv; apply Hsub, elem_of_app; auto).
    eapply okP_bind; [by apply (apply_pat_good L A md md_ok)|]. intros [g1 i1] [N1 Hi1].
    eapply okP_bind; [apply (apply_pat_good L A md md_ok); [done|done|apply N1|by eapply bound_in_next]|]. intros [g2 i2] [N2 Hi2].
    cbn. by eapply next_trans.
  - eapply okP_bind; [apply (run_prog_good L A); [apply md_ok|done|]|].
    + apply Hc. eapply ready_mono; [done|exact Hsub|exact Hr].
    + intros g1 N1. exact N1.
Qed.
Section one.
Context (sast : option (list pnode)) (Hsast : forall ast, sast = Some ast -> shaped ast).
Definition sast_vars : list nat := match sast with Some ast => ast_vars ast | None => [] end.

Lemma pattern_one_good p sast' vars rule c s g : shaped p -> sast' = sast \/ sast' = None -> good g ->
  ready (size g) vars c s -> (forall v, v ∈ ast_vars p ++ sast_vars -> v ∈ vars) ->
  okP (pattern_apply_one L A fuel here p c s sast' rule g) (fun '(g', _) => next g g').
Proof.
  intros Hp Hs G Hr Hsub. unfold pattern_apply_one.
  assert (B : bound_in g s p) by (eapply ready_bound; [done|]; intros v Hv; apply Hsub, elem_of_app; auto).
  eapply okP_bind; [apply (apply_pat_good L A md md_ok); [apply Hp|apply Hp|done|done]|]. intros [g1 i1] [N1 Hi1].
  destruct sast' as [ast|].
  - destruct Hs as [Hs|]; [|done]. assert (Ba : bound_in g s ast).
    { eapply ready_bound; [done|]. intros v Hv. apply Hsub, elem_of_app. right. unfold sast_vars. by rewrite <- Hs. }
    eapply okP_bind; [apply union_inst_good; [by apply Hsast|done|apply N1|by eapply bound_in_next|by eapply bound_in_next]|].
    intros [g2 [from did]] N2. cbn. by eapply next_trans.
  - eapply okP_bind; [apply api_union_good; [apply N1|by eapply next_ids; [exact G|exact N1|apply Hr]|done]|].
    intros [g2 did] N2. cbn. by eapply next_trans.
Qed.
Lemma apply_one_good a sast' vars rule c s g : one_safe a -> sast' = sast \/ sast' = None -> good g ->
  ready (size g) vars c s -> (forall v, v ∈ applier_vars a ++ sast_vars -> v ∈ vars) ->
  okP (apply_one L A fuel here a c s sast' rule g) (fun '(g', _) => next g g').
Proof.
  intros Ha Hs. revert g. induction a as [p|asts|cnd a IH|vs body ret]; intros g G Hr Hsub; cbn [apply_one one_safe applier_vars] in *.
  - by eapply pattern_one_good.
  - done.
  - destruct Ha as [Hc Ha]. eapply okP_bind; [eapply (check_good cnd vars); [done| |done|done]|].
    + intros v Hv. apply Hsub. rewrite !elem_of_app. auto.
    + intros [g1 b] N1. destruct b; [|exact N1]. eapply okP_impl; [apply IH; [done|apply N1|by eapply next_ready|]|].
      * intros v Hv. apply Hsub. rewrite !elem_of_app in *. tauto.
      * intros [g2 l] N2. by eapply next_trans.
  - eapply okP_bind; [apply (run_prog_good L A); [apply md_ok|done|]|].
    + apply Ha. eapply ready_mono; [done| |exact Hr]. intros v Hv. apply Hsub. rewrite !elem_of_app. auto.
    + intros g1 N1. exact N1.
Qed.
Lemma pattern_good p vars rule c s g : shaped p -> (explaining g = true -> is_Some sast) -> good g ->
  ready (size g) vars c s -> (forall v, v ∈ ast_vars p ++ sast_vars -> v ∈ vars) ->
  okP (pattern_apply L A fuel here p sast rule c s g) (fun '(g', _) => next g g').
Proof.
  intros Hp He G Hr Hsub. unfold pattern_apply.
  assert (B : bound_in g s p) by (eapply ready_bound; [done|]; intros v Hv; apply Hsub, elem_of_app; auto).
  destruct (explaining g) eqn:Ex.
  - destruct (He eq_refl) as [ast Es]. rewrite Es. cbn [expect mbind res_bind].
    assert (Ba : bound_in g s ast).
    { eapply ready_bound; [done|]. intros v Hv. apply Hsub, elem_of_app. right. unfold sast_vars. by rewrite Es. }
    eapply okP_bind; [apply union_inst_good; [by apply Hsast|done|done|done|done]|].
    intros [g2 [from did]] N2. exact N2.
  - eapply okP_bind; [apply (apply_pat_good L A md md_ok); [apply Hp|apply Hp|done|done]|]. intros [g1 i1] [N1 Hi1].
    eapply okP_bind; [apply api_union_good; [apply N1|done|by eapply next_ids; [exact G|exact N1|apply Hr]]|].
    intros [g2 did] N2. cbn. by eapply next_trans.
Qed.
End one.
Lemma multi_clauses_good asts bnd (s : subst) g : Forall (fun cl => shaped cl.2) asts -> good g ->
  (forall v i, subst_get s v = Some i -> i < size g) -> (forall v, v ∈ bnd -> is_Some (subst_get s v)) ->
  (forall v, v ∈ multi_applier_vars bnd asts -> is_Some (subst_get s v)) ->
  okP (multi_clauses L A fuel here asts s g) (fun '(g', _) => next g g').
Proof.
  revert bnd s g. induction asts as [|[v p] asts IH]; intros bnd s g Hf G Hi Hb Hv; cbn [multi_clauses].
  - cbn. by apply next_refl.
  - inversion Hf as [|? ? Hp Hf']; subst. cbn [multi_applier_vars] in Hv.
    assert (B : bound_in g s p).
    { intros j w cs Hj. assert (is_Some (subst_get s w)) as [i Ei].
      { destruct (decide (w ∈ bnd)) as [?|Hn]; [auto|]. apply Hv, elem_of_app. left. apply elem_of_list_filter. split; [done|].
        apply ast_vars_elem. exists cs. by eapply elem_of_list_lookup_2. }
      exists i. split; [done|]. exact (Hi w i Ei). }
    eapply okP_bind; [apply (apply_pat_good L A md md_ok); [apply Hp|apply Hp|done|done]|]. intros [g1 i1] [N1 Hi1].
    destruct (subst_insert s v i1) as [s1 old] eqn:Es.
    assert (Hs1 : forall w, subst_get s1 w = if decide (w = v) then Some i1 else subst_get s w).
    { intros w. pose proof (subst_insert_get s v i1 w) as Hg. by rewrite Es in Hg. }
    assert (Hold : forall k, old = Some k -> k < size g).
    { intros k ->. apply (Hi v). pose proof (subst_insert_old s v i1) as Ho. by rewrite Es in Ho. }
    eapply okP_bind with (P := fun g2 => next g1 g2).
    + destruct old as [k|]; [|cbn; by apply next_refl, N1].
      eapply okP_bind; [apply api_union_good; [apply N1|done|by eapply next_ids; [exact G|exact N1|auto]]|]. intros [g2 b] N2. exact N2.
    + intros g2 N2. assert (N : next g g2) by (by eapply next_trans).
      eapply okP_bind; [apply (IH (v :: bnd)); [done|apply N2| | |]|].
      * intros w k Hw. rewrite Hs1 in Hw. destruct (decide (w = v)); [injection Hw as <-; by eapply next_ids; [apply N1|exact N2|]|].
        eapply next_ids; [exact G|exact N|eauto].
      * intros w [->|Hw]%elem_of_cons; rewrite Hs1; destruct (decide _); eauto. done.
      * intros w Hw. rewrite Hs1. destruct (decide (w = v)); [eauto|]. apply Hv, elem_of_app. by right.
      * intros [g3 l] N3. cbn. by eapply next_trans.
Qed.
Lemma each_good {X} (f : X -> egraph -> res (egraph * list nat)) xs (Pre : X -> egraph -> Prop) g :
  (forall x g, x ∈ xs -> good g -> Pre x g -> okP (f x g) (fun '(g', _) => next g g')) ->
  (forall x g g', good g -> next g g' -> Pre x g -> Pre x g') ->
  good g -> (forall x, x ∈ xs -> Pre x g) -> okP (each f xs g) (fun '(g', _) => next g g').
Proof.
  intros Hf Hm. revert g. induction xs as [|x xs IH]; intros g G Hp; cbn [each]; [by apply next_refl|].
  eapply okP_bind; [apply Hf; [left|done|apply Hp; left]|]. intros [g1 l1] N1.
  eapply okP_bind; [apply IH; [|apply N1|]|].
  - intros y g0 Hy. apply Hf. by right.
  - intros y Hy. eapply Hm; [exact G|exact N1|]. apply Hp. by right.
  - intros [g2 l2] N2. cbn. by eapply next_trans.
Qed.
Lemma apply_matches_good a sast rule ms g : (forall ast, sast = Some ast -> shaped ast) -> applier_safe a ->
  (explaining g = true -> forall p, a = APattern p -> is_Some sast) -> good g ->
  (forall c s, (c, s) ∈ pairs ms -> ready (size g) (applier_vars a ++ sast_vars sast) c s) ->
  okP (apply_matches L A fuel here a sast rule ms g) (fun '(g', _) => next g g').
Proof.
  intros Hs Ha He G Hr.
  assert (K : forall f, (forall c s g0, good g0 -> explaining g0 = explaining g -> ready (size g0) (applier_vars a ++ sast_vars sast) c s ->
      okP (f c s g0) (fun '(g', _) => next g0 g')) -> okP (for_matches f ms g) (fun '(g', _) => next g g')).
  { intros f Hf. rewrite for_matches_pairs.
    eapply (each_good _ _ (fun x g0 => explaining g0 = explaining g /\ ready (size g0) (applier_vars a ++ sast_vars sast) x.1 x.2)); [| |done|].
    - intros [c s] g0 _ G0 [E0 R0]. by apply Hf.
    - intros x g0 g1 G0 N0 [E0 R0]. split; [|by eapply next_ready]. rewrite <- E0. apply (brun_explain L A any); [apply N0|apply G0].
    - intros [c s] Hin. split; [done|]. by apply Hr. }
  destruct a as [p|asts|cnd a|vs body ret]; cbn [apply_matches applier_safe] in *; apply K; intros c s g0 G0 E0 R0.
  - eapply pattern_good; [done|done| |done|done|done]. rewrite E0. intros Ex. by eapply He.
  - unfold multi_apply. eapply okP_bind; [eapply (multi_clauses_good asts []); [done|done|apply R0| |]|].
    + intros v Hn%elem_of_nil. done.
    + intros v Hv. apply R0, elem_of_app. by left.
    + intros [g1 l] N1. exact N1.
  - eapply (apply_one_good sast); [done|done| |done|done|done]. destruct (explaining g0); auto.
  - eapply (apply_one_good sast); [done|done| |done|done|done]. destruct (explaining g0); auto.
Qed.
End run.
End safe.
