(** Proofs about [equivs] and [check_goals]. *)
From Verif Require Import Base UnionFind EGraphModel EGraphSteps EGraphInv EGraphPres EGraphRuns Spec EGraphMain
  EGraphReach Terms RecExprModel RecExprProofs ExprModel PatSpec ExprProofs MachineModel MatchSpec MatchProofs MachineProofs CompileProofs
  CompileMain SearchProofs SearchMain MultiProofs MatchMain
  ExtractModel ExtractSpec ExtractProofs ExtractMain TextModel QueryModel QuerySpec.

Lemma filter_all {X} (P Q : X -> bool) (l : list X) : (forall x, x ∈ l -> P x = Q x) ->
  filter (fun x => P x = true) l = filter (fun x => Q x = true) l.
Proof.
  induction l as [|x l IH]; intros Hl; [done|]. rewrite !filter_cons, IH by (intros y Hy; apply Hl; by right). rewrite (Hl x) by left.
  by destruct (Q x).
Qed.

Section ground.
Context {Op D : Type} `{Countable Op}.
Notation node := (node Op).
Notation pnode := (EGraphModel.node (pop Op)).
Notation egraph := (egraph Op D).
Context (ord : gmap (nat * nat) node -> list (nat * nat)) (Hord : enumerates_keys ord).

Lemma embed_closed v (t : term Op) : ~ occurs v (embed t).
Proof.
  induction t as [f ts IH] using term_sind. cbn [embed]. rewrite occurs_op. intros (u & Hu & Ho).
  apply elem_of_list_fmap in Hu as (u' & -> & Hu'). rewrite Forall_forall in IH. by eapply IH.
Qed.
Definition simple_code (code : list (instr Op)) : Prop :=
  (exists tm, code = [ILookup tm 0]) \/ exists f, code = [IBind (Node f []) 0 1].
Lemma next_one s k n : cs_todo s = {[k := n]} ->
  next_todo ord s = Ok None \/ next_todo ord s = Panic \/ next_todo ord s = Ok (Some (k.1, k.2, n, set_todo ∅ s)).
Proof.
  intros E. unfold next_todo. rewrite E. pose proof (Hord {[k := n]}) as Hp. rewrite map_to_list_singleton in Hp. cbn in Hp.
  apply Permutation_singleton_r in Hp. rewrite Hp. cbn [mapM mbind option_bind]. destruct (todo_key s k) as [x|]; [|by right; left].
  right; right. cbn. destruct k as [a b]. rewrite lookup_singleton. cbn. by rewrite delete_singleton.
Qed.
Lemma next_none s : cs_todo s = ∅ -> next_todo ord s = Ok None.
Proof.
  intros E. unfold next_todo. rewrite E. pose proof (Hord ∅) as Hp. rewrite map_to_list_empty in Hp. apply Permutation_nil_r in Hp. by rewrite Hp.
Qed.
Lemma loop_none fuel p n (s : cstate) r : cs_todo s = ∅ -> compile_loop ord fuel p n s = Ok r -> r = (s, n).
Proof. intros E. destruct fuel; [done|]. cbn. rewrite next_none by done. cbn. congruence. Qed.
Lemma ground_compile fuel (p : list pnode) t s : dag p -> pat_ok p -> ExprTree p (embed t) ->
  compile ord fuel None p cs_new = Ok s -> simple_code (cs_code s).
Proof.
  intros Hd Hok Ht E. destruct (load_pattern_ok p cs_new Hd Hok) as (free & size & El & Hl).
  unfold compile in E. rewrite El in E. cbn [mbind res_bind] in E. destruct Ht as [Hne Ht]. rewrite rx_root_ok in E by done. cbn [mbind res_bind] in E.
  unfold add_new_pattern in E. cbn [cs_code set_load cs_new cs_next] in E. unfold add_todo in E.
  destruct t as [f ts]. cbn [embed] in Ht. pose proof Ht as Ht0. inversion Ht as [? g cs us Hg Hc]; subst. 
  unfold ExprModel.pnode in *. rewrite Hg in E. cbn [expect mbind res_bind pview nop nch] in E.
  set (s0 := set_todo _ _) in E.
  destruct (compile_loop _ _ _ _ _) as [[s2 n2]| |] eqn:Ec; [|done|done]. cbn [mbind res_bind] in E. injection E as <-. cbn [set_next cs_code].
  destruct fuel as [|fuel]; [done|]. cbn [compile_loop] in Ec.
  assert (E0 : cs_todo s0 = {[(length p - 1, 0) := Node f cs]}) by (unfold s0; cbn; by rewrite insert_empty).
  destruct (next_one s0 _ _ E0) as [En|[En|En]]; rewrite En in Ec; cbn [mbind res_bind fst snd] in Ec; [|done|].
  { exfalso. revert En. unfold next_todo. rewrite E0. pose proof (Hord {[(length p - 1, 0) := Node f cs]}) as Hp. rewrite map_to_list_singleton in Hp. cbn in Hp.
    apply Permutation_singleton_r in Hp. rewrite Hp. cbn [mapM mbind option_bind]. destruct (todo_key _ _) as [x|]; [|done]. cbn. rewrite lookup_singleton. done. }
  unfold is_ground_now in Ec. cbn [set_todo cs_free s0] in Ec.
  destruct (free !! (length p - 1)) as [fv|] eqn:Ef; cbn [set_load cs_free] in Ec; rewrite Ef in Ec; [|done]. cbn [expect mbind res_bind] in Ec.
  assert (Efv : elements fv = []).
  { apply elements_empty_iff. intros v. rewrite elem_of_empty. split; [|done]. intros Hv. 
    rewrite (lo_free _ _ _ Hl _ _ _ v Ht0 Ef) in Hv. by apply (embed_closed v (TNode f ts)). }
  rewrite Efv in Ec. cbn [forallb] in Ec. destruct cs as [|c0 cs].
  - cbn [nch length Nat.eqb negb andb nop fmap list_fmap add_todos mbind res_bind] in Ec. right. exists f. apply loop_none in Ec; [|done]. injection Ec as -> ->. done.
  - cbn [nch length Nat.eqb negb andb] in Ec. destruct (rx_extract _ _ _) as [e| |]; [|done|done]. cbn [mbind res_bind] in Ec.
    destruct (lookup_code _ _) as [tm| |]; [|done|done]. cbn [mbind res_bind] in Ec. left. exists tm. apply loop_none in Ec; [|done]. injection Ec as -> ->. done.
Qed.

Context (L : lang Op) (Lo : lang_ok L) (it : gset nat -> list nat) (Hit : enumerates it) (g : egraph) (G : settled L g) (Ec : eg_clean g = true).
Lemma ground_cycles cycles fuel (ast : list pnode) p (t : term Op) c k : dag ast -> pat_ok ast -> ast <> [] ->
  pattern_new ord fuel ast = Ok p -> ExprTree (pt_ast p) (embed t) -> known g c ->
  search_eclass_with_limit L it cycles p g c k = search_eclass_with_limit L it true p g c k.
Proof.
  intros Hd Hok Hne E Ht Hc. unfold search_eclass_with_limit, search_eclass_program.
  destruct (pattern_exact ord Hord L it Hit g G fuel ast p (embed t) Hd Hok Hne E Ht) as (_ & _ & nf & Hx).
  pose proof (ex_wf _ _ _ _ _ _ _ Hx) as Hw. pose proof (ex_vf _ _ _ _ _ _ _ Hx) as Hv.
  assert (Hnf : nf = 1).
  { destruct (pattern_new_ast _ _ _ _ Hd Hok Hne E) as (Hd' & Hok' & Hne' & _ & _).
    unfold pattern_new in E. destruct (rx_compact ast) as [e'| |]; [|done|done]. cbn [mbind res_bind] in E.
    unfold compile_from_pat in E. destruct (compile _ _ _ _ _) as [s| |] eqn:Es; [|done|done]. cbn in E. injection E as <-. cbn [pt_ast pt_prog] in *.
    destruct (ground_compile fuel e' t s Hd' Hok' Ht Es) as [[tm Eq]|[f Eq]]; cbn [cs_extract pg_code] in Hw; rewrite Eq in Hw; cbn in Hw.
    - by destruct Hw as (_ & _ & <-).
    - by destruct Hw as (_ & _ & _ & <-). }
  rewrite (run_with_limit_ok L Lo it Hit g G cycles (pt_prog p) c nf k Ec Hc Hw Hv), (run_with_limit_ok L Lo it Hit g G true (pt_prog p) c nf k Ec Hc Hw Hv).
  cbn [mbind res_bind]. assert (Hfd : found cycles (pg_subst (pt_prog p)) (outs it g (pg_code (pt_prog p)) [c]) = found true (pg_subst (pt_prog p)) (outs it g (pg_code (pt_prog p)) [c])).
  { unfold found. f_equal. apply filter_all. intros r Hr. 
    destruct (outs_len L it Hit g G nf (pg_code (pt_prog p)) [c] r) as (Hl & _); [by repeat constructor|done|done|]. rewrite Hnf in Hl.
    destruct r as [|x [|y r]]; [done| |done]. unfold keep. rewrite bool_decide_eq_false_2 by (intros Hn; by apply elem_of_nil in Hn). by rewrite orb_true_r. }
  by rewrite Hfd.
Qed.
End ground.

Lemma search_eclasses_cong (se se' : nat -> nat -> res (option smatch)) cs : (forall c, c ∈ cs -> forall k, se c k = se' c k) ->
  forall k, search_eclasses se cs k = search_eclasses se' cs k.
Proof.
  induction cs as [|c cs IH]; intros Hc k; [done|]. cbn [search_eclasses]. destruct (k =? 0); [done|]. rewrite Hc by left.
  assert (IH' : forall k, search_eclasses se cs k = search_eclasses se' cs k) by (apply IH; intros x Hx; apply Hc; by right).
  destruct (se' c k) as [[m|]| |]; cbn [mbind res_bind]; [|apply IH'|done|done]. destruct (assert _); [|done|done]. cbn [mbind res_bind]. by rewrite IH'.
Qed.
Lemma pairs_nil ms : Forall (fun m => sm_substs m <> []) ms -> pairs ms = [] -> ms = [].
Proof. intros [|m ms' Hm _] E; [done|]. unfold pairs in E. cbn in E. destruct (sm_substs m); [done|]. done. Qed.
Lemma pairs_one ms c : Forall (fun m => sm_substs m <> []) ms -> pairs ms = [(c, [])] -> ms = [SMatch c [[]]].
Proof.
  intros [|[c' ss] ms' Hm Hms] E; [done|]. unfold pairs in E. cbn in E, Hm. destruct ss as [|s ss]; [done|]. cbn in E. injection E as -> -> E.
  apply app_eq_nil in E as [E1 E2]. apply fmap_nil_inv in E1 as ->. f_equal. by apply (pairs_nil ms').
Qed.

Section main.
Context {Op D : Type} `{Countable Op}.
Notation node := (node Op).
Notation egraph := (egraph Op D).
Context (L : lang Op) (A : analysis Op D) (Lo : lang_ok L) (it : gset nat -> list nat) (Hit : enumerates it)
  (ord : gmap (nat * nat) node -> list (nat * nat)) (Hord : enumerates_keys ord) (cycles ex : bool) (g : egraph).
Context (R : reachable_np L A ex g) (Ec : eg_clean g = true).

Lemma embed_good (e : list node) : dag e -> e <> [] -> good_ast (embed_node <$> e).
Proof.
  intros Hd Hne. split; [|split; [apply embed_ok|by destruct e]].
  intros i n c Hi Hc. rewrite list_lookup_fmap in Hi. destruct (e !! i) as [m|] eqn:Em; [|done]. cbn in Hi. injection Hi as <-. cbn in Hc. eauto.
Qed.
Lemma embed_rooted (e : list node) : rooted e -> rooted (embed_node <$> e).
Proof.
  intros Hr i Hi. rewrite fmap_length in Hi. destruct (Hr i Hi) as (j & n & Hj & Hin). exists j, (embed_node n).
  by rewrite list_lookup_fmap, Hj.
Qed.
Lemma ground_pattern (e : list node) t : dag e -> rooted e -> ExprTree e t ->
  (exists N p, forall fuel, N <= fuel -> pattern_from ord fuel e = Ok p) /\
  forall fuel p, pattern_from ord fuel e = Ok p -> ExprTree (pt_ast p) (embed t).
Proof.
  intros Hd Hr Ht. destruct (pattern_made ord (embed_node <$> e) Hord) as [H1 H2]; [apply embed_good; [done|by destruct Ht]|].
  split; [exact H1|]. intros fuel p E. apply (H2 fuel p E); [by apply embed_rooted|]. apply embed_exprtree. by exists t.
Qed.
Lemma ground_search (e : list node) t fuel p : dag e -> rooted e -> ExprTree e t -> pattern_from ord fuel e = Ok p ->
  exists o : option nat, (forall c, o = Some c <-> Rep g t c) /\
    forall k, 1 <= k -> search_with_limit L it cycles p g k = Ok (match o with Some c => [SMatch c [[]]] | None => [] end).
Proof.
  intros Hd Hr Ht E. pose proof (proj2 (ground_pattern e t Hd Hr Ht) fuel p E) as Ht'.
  destruct (embed_good e Hd) as (Hd1 & Hok & Hne); [by destruct Ht|].
  pose proof (reach_settled L A Lo ex g R Ec) as G. pose proof (reach_indexed L A ex g R Ec) as Hix.
  assert (Hcy : forall k, search_with_limit L it cycles p g k = search_with_limit L it true p g k).
  { intros k. unfold search_with_limit. destruct (last (pt_ast p)) as [n|] eqn:El; [|done]. cbn [expect mbind res_bind].
    destruct Ht' as [Hne' Htr]. pose proof Htr as Htr0. destruct t as [f ts]. cbn [embed] in Htr. inversion Htr as [? ? cs ? Hlast Hch]; subst.
    assert (El' : last (pt_ast p) = Some (Node (POp f) cs)).
    { unfold ExprModel.pnode in *. rewrite last_lookup. rewrite <- Hlast. f_equal. lia. }
    rewrite El' in El. injection El as <-. cbn [pview nop nch]. destruct (eg_by_op g !! l_disc L f) as [ids|] eqn:Ei; [|done].
    apply search_eclasses_cong. intros c Hc k'. apply (ground_cycles ord Hord L Lo it Hit g G Ec cycles fuel _ p (TNode f ts) c k' Hd1 Hok Hne E); [done|].
    rewrite (Hit ids), elem_of_elements in Hc. destruct (proj1 (Hix (l_disc L f) c)) as (cl & m & Hcl & _); [by exists ids|].
    unfold known. rewrite <- (iv_len _ (se_inv _ _ G)). apply (ci_cls _ _ _ _ _ _ _ (iv_c _ (se_inv _ _ G))). eauto. }
  destruct (pattern_search ord Hord L Lo it Hit g G true fuel _ p (embed t) Ec Hix Hd1 Hok Hne E Ht') as (all & Hk & Hnd & Hs & Hc).
  assert (Hs' : forall c s, (c, s) ∈ all -> s = [] /\ Rep g t c).
  { intros c s Hin. destruct (Hs c s Hin) as (_ & _ & Hv & _ & Hp). split.
    - destruct s as [|[v i] s]; [done|]. exfalso. apply (embed_closed v t), Hv. cbn. rewrite decide_True by done. by eexists.
    - by apply (Rep_PRep g (subst_get s)). }
  assert (Hc' : forall c, Rep g t c -> (c, []) ∈ all).
  { intros c Hr'. destruct (Hc eq_refl (fun _ => None) c) as (s & Hin & _); [done|by apply Rep_PRep|]. by destruct (Hs' _ _ Hin) as [-> _]. }
  destruct all as [|[c s] all].
  - exists None. split.
    + intros c. split; [done|]. intros Hr'. by apply Hc', elem_of_nil in Hr'.
    + intros k Hk1. destruct (Hk k) as (ms & E1 & E2 & _ & E3). rewrite Hcy, E1. rewrite take_nil in E2. by rewrite (pairs_nil ms).
  - destruct (Hs' c s) as [-> Hrc]; [left|].
    assert (Hall : all = []).
    { destruct all as [|[c' s'] all]; [done|]. destruct (Hs' c' s') as [-> Hrc']; [right; left|].
      rewrite (Rep_fun_clean L A ex g t c' c R Ec Hrc' Hrc) in Hnd. apply NoDup_cons in Hnd as [[] _]. left. }
    subst all. exists (Some c). split.
    + intros c'. split; [by intros [= <-]|]. intros Hr'. f_equal. exact (Rep_fun_clean L A ex g t c c' R Ec Hrc Hr').
    + intros k Hk1. destruct (Hk k) as (ms & E1 & E2 & _ & E3). rewrite Hcy, E1. rewrite take_ge in E2 by (cbn; lia). by rewrite (pairs_one ms c).
Qed.
Lemma Rep_canon (t : term Op) c : Rep g t c -> known g c /\ eg_find g c = c.
Proof.
  pose proof (reach_settled L A Lo ex g R Ec) as G. intros [f ts cs r cl Hcl _ _]. unfold known. rewrite <- (iv_len _ (se_inv _ _ G)).
  apply (ci_cls _ _ _ _ _ _ _ (iv_c _ (se_inv _ _ G))). eauto.
Qed.
Lemma equivs_exact (e1 e2 : list node) t1 t2 : dag e1 -> rooted e1 -> ExprTree e1 t1 -> dag e2 -> rooted e2 -> ExprTree e2 t2 ->
  exists N, forall fuel limit, N <= fuel -> 1 <= limit ->
    (forall c, Rep g t1 c -> Rep g t2 c -> equivs L it cycles ord fuel limit g e1 e2 = Ok [c]) /\
    ((forall c, Rep g t1 c -> ~ Rep g t2 c) -> equivs L it cycles ord fuel limit g e1 e2 = Ok []).
Proof.
  intros Hd1 Hr1 Ht1 Hd2 Hr2 Ht2. destruct (ground_pattern e1 t1 Hd1 Hr1 Ht1) as [(N1 & p1 & E1) _]. destruct (ground_pattern e2 t2 Hd2 Hr2 Ht2) as [(N2 & p2 & E2) _].
  exists (N1 + N2). intros fuel limit Hf Hl. specialize (E1 fuel ltac:(lia)). specialize (E2 fuel ltac:(lia)).
  destruct (ground_search e1 t1 fuel p1 Hd1 Hr1 Ht1 E1) as (o1 & Ho1 & S1). destruct (ground_search e2 t2 fuel p2 Hd2 Hr2 Ht2 E2) as (o2 & Ho2 & S2).
  unfold equivs. rewrite E1, E2. cbn [mbind res_bind]. rewrite S1, S2 by done. cbn [mbind res_bind].
  assert (Hfind : forall t c, Rep g t c -> find_res g c = Ok c).
  { intros t c Hr. destruct (Rep_canon t c Hr) as [Hk Hfc]. unfold find_res, valid_id. unfold known in Hk.
    destruct (Nat.ltb_spec c (length (eg_uf g))); [by rewrite Hfc|lia]. }
  split.
  - intros c H1 H2. apply Ho1 in H1 as E3. apply Ho2 in H2 as E4. subst o1 o2. cbn [pair_up same_as sm_class]. rewrite (Hfind t1 c H1). cbn [mbind res_bind].
    by rewrite Nat.eqb_refl.
  - intros Hno. destruct o1 as [c1|]; [|done]. destruct o2 as [c2|]; [|done]. pose proof (proj1 (Ho1 c1) eq_refl) as H1. pose proof (proj1 (Ho2 c2) eq_refl) as H2.
    cbn [pair_up same_as sm_class]. rewrite (Hfind t1 c1 H1), (Hfind t2 c2 H2). cbn [mbind res_bind].
    destruct (Nat.eqb_spec c1 c2) as [->|]; [|done]. by destruct (Hno c2).
Qed.
End main.

Section goals.
Context {Op D : Type} `{Countable Op}.
Notation node := (node Op).
Notation egraph := (egraph Op D).
Context (L : lang Op) (A : analysis Op D) (Lo : lang_ok L) (it : gset nat -> list nat) (Hit : enumerates it)
  (ord : gmap (nat * nat) node -> list (nat * nat)) (Hord : enumerates_keys ord) (cycles ex : bool) (g : egraph).
Context (R : reachable_np L A ex g).

(** every class holds a finite term *)
Lemma class_term i : known g i -> exists t, Rep g t (eg_find g i).
Proof.
  intros Hi. pose proof (reachable_np_reachable _ _ _ _ R) as R'. pose proof (reachable_Inv L A ex g R') as I. pose proof (reach_listed L A ex g R) as Hl.
  assert (Hn : i < length (eg_nodes g)) by (unfold known in Hi; by rewrite (iv_len _ I)).
  clear Hi. induction (lt_wf i) as [i _ IH]. destruct (lookup_lt_is_Some_2 _ _ Hn) as [[f cs] Em].
  destruct (Hl i _ Em) as (c & [f' cs'] & Hc & Hin & Eq). unfold canonf in Eq. cbn in Eq. injection Eq as -> Ecs.
  assert (Hts : exists ts, Forall2 (fun t x => Rep g t (eg_find g x)) ts cs').
  { assert (Hall : forall x, x ∈ eg_find g <$> cs -> exists t, Rep g t x).
    { intros x (y & -> & Hy)%elem_of_list_fmap. pose proof (ci_ch _ _ _ _ _ _ _ (iv_c _ I) _ _ _ Em Hy) as Hlt. apply IH; [done|lia]. }
    rewrite <- Ecs in Hall. clear -Hall. induction cs' as [|x cs' IHc]; [by exists []|].
    destruct IHc as [ts Hts]; [intros y Hy; apply Hall; cbn; by right|]. destruct (Hall (eg_find g x)) as [t Ht]; [cbn; left|].
    exists (t :: ts). by constructor. }
  destruct Hts as [ts Hts]. exists (TNode f ts). by econstructor.
Qed.
Lemma best_size_ok w order id : traverses g order -> known g id -> exists N, forall fuel, N <= fuel -> best_size w fuel g order id = Ok tt.
Proof.
  intros Ho Hk. pose proof (reachable_np_reachable _ _ _ _ R) as R'. pose proof (np_inhabited L A ex g R) as Hi.
  destruct (extract_terminates_wf L A ex usize_pcmp (ast_size w) (usize_orders w) g order R' Hi (usize_wf w)) as (f0 & cs & E).
  destruct (extract_total L A ex usize_pcmp (ast_size w) (usize_orders w) g order R' Hi Ho f0 cs id (ast_size_superior w) E (class_term id Hk)) as (v & e & _ & k & Hk' & _).
  exists (f0 + k). intros fuel Hf. unfold best_size. unfold extractor_new in *.
  rewrite (find_costs_mono usize_pcmp (ast_size w) g f0 fuel _ _ cs ltac:(lia) E). cbn [mbind res_bind]. rewrite Hk' by lia. done.
Qed.
Context (Ec : eg_clean g = true).
Lemma goal_search p t id : stands_for ord p t -> known g id ->
  exists N b, (forall k, N <= k -> exists o, search_eclass_with_limit L it cycles p g id k = Ok o /\ (is_Some o <-> b = true)) /\
    (b = true -> has_instance g t (eg_find g id)) /\ (cycles = true -> has_instance g t (eg_find g id) -> b = true).
Proof.
  intros (fuel & ast & Ha & E & Ht) Hk. pose proof Ha as (Hd & Hok & Hne). pose proof (reach_settled L A Lo ex g R Ec) as G.
  destruct (pattern_class ord Hord L Lo it Hit g G cycles fuel ast p t id Ec Hd Hok Hne E Ht Hk) as (all & Hs & _ & _ & Hsound & Hcomp).
  exists 1, (match all with [] => false | _ => true end). split; [|split].
  - intros k Hk1. exists (wrap id (take k all)). split; [apply Hs|]. destruct all; [rewrite take_nil; cbn; split; [by intros [? ?]|done]|].
    destruct k; [lia|]. cbn. split; [done|]. by eexists.
  - destruct all as [|s all]; [done|]. intros _. destruct (Hsound s) as (_ & _ & Hv & Hp); [left|]. exists (subst_get s). split; [|done].
    intros v i Hi. exact (proj1 (Hv v i Hi)).
  - intros Hcy (sg & Hsg & Hp). destruct (Hcomp Hcy sg Hsg Hp) as (s & Hin & _). destruct all; [by apply elem_of_nil in Hin|done].
Qed.
Lemma goals_loop_ok best id ps ts : best = Ok tt -> Forall2 (stands_for ord) ps ts -> known g id ->
  exists N b, (forall k, N <= k -> goals_loop L it cycles k g best id ps = if (b : bool) then Ok tt else Panic) /\
    (b = true -> Forall (fun t => has_instance g t (eg_find g id)) ts) /\ (cycles = true -> Forall (fun t => has_instance g t (eg_find g id)) ts -> b = true).
Proof.
  intros -> Hps Hk. induction Hps as [|p t ps ts Hp _ (N & b & IH1 & IH2 & IH3)].
  { exists 0, true. split; [done|]. split; [by constructor|done]. }
  destruct (goal_search p t id Hp Hk) as (N' & b' & H1 & H2 & H3). exists (N + N'), (b' && b). split; [|split].
  - intros k Hk'. cbn [goals_loop]. destruct (H1 k ltac:(lia)) as (o & -> & Ho). cbn [mbind res_bind].
    destruct b'; cbn [andb].
    + destruct (proj2 Ho eq_refl) as [m ->]. apply IH1. lia.
    + destruct o as [m|]; [|done]. discriminate (proj1 Ho ltac:(eauto)).
  - intros [-> ->]%andb_true_iff. constructor; auto.
  - intros Hcy Hall. apply Forall_cons in Hall as [Ha Hb]. rewrite (H3 Hcy Ha), (IH3 Hcy Hb). done.
Qed.
Lemma check_goals_ok w order order' id ps ts : traverses g order -> traverses g order' -> Forall2 (stands_for ord) ps ts -> known g id ->
  exists N b, (forall fuel k, N <= fuel -> N <= k -> check_goals L it cycles w fuel k g order order' id ps = if (b : bool) then Ok tt else Panic) /\
    (b = true -> Forall (fun t => has_instance g t (eg_find g id)) ts) /\ (cycles = true -> Forall (fun t => has_instance g t (eg_find g id)) ts -> b = true).
Proof.
  intros Ho Ho' Hps Hk. destruct (best_size_ok w order id Ho Hk) as [N1 H1]. destruct (best_size_ok w order' id Ho' Hk) as [N2 H2].
  destruct (goals_loop_ok (Ok tt) id ps ts eq_refl Hps Hk) as (N3 & b & H3 & H4). exists (N1 + N2 + N3), b. split; [|done].
  intros fuel k Hf Hl. unfold check_goals. rewrite H1, H2 by lia. cbn [mbind res_bind]. apply H3. lia.
Qed.
End goals.

Lemma check_goals_exact {Op D} `{Countable Op} (L : lang Op) (A : analysis Op D) (Lo : lang_ok L) (it : gset nat -> list nat) (Hit : enumerates it)
    (ord : gmap (nat * nat) (node Op) -> list (nat * nat)) (Hord : enumerates_keys ord) ex (g : egraph Op D) (R : reachable_np L A ex g) (Ec : eg_clean g = true)
    w order order' id ps ts : traverses g order -> traverses g order' -> Forall2 (stands_for ord) ps ts -> known g id ->
  exists N, forall fuel limit, N <= fuel -> N <= limit ->
    (Forall (fun t => has_instance g t (eg_find g id)) ts -> check_goals L it true w fuel limit g order order' id ps = Ok tt) /\
    (~ Forall (fun t => has_instance g t (eg_find g id)) ts -> forall cycles, check_goals L it cycles w fuel limit g order order' id ps = Panic).
Proof.
  intros Ho Ho' Hps Hk.
  destruct (check_goals_ok L A Lo it Hit ord Hord true ex g R Ec w order order' id ps ts Ho Ho' Hps Hk) as (N1 & b1 & E1 & S1 & C1).
  destruct (check_goals_ok L A Lo it Hit ord Hord false ex g R Ec w order order' id ps ts Ho Ho' Hps Hk) as (N2 & b2 & E2 & S2 & _).
  exists (N1 + N2). intros fuel limit Hf Hl. split.
  - intros Hall. rewrite E1 by lia. by rewrite (C1 eq_refl Hall).
  - intros Hn [|]; [rewrite E1 by lia; destruct b1|rewrite E2 by lia; destruct b2]; try done; exfalso; auto.
Qed.
