(** Results of searches: soundness, completeness, no duplicates, limits. *)
From Verif Require Import Base UnionFind EGraphModel EGraphSteps EGraphInv EGraphPres EGraphRuns Spec EGraphMain
  EGraphReach Terms RecExprModel RecExprProofs ExprModel PatSpec ExprProofs MachineModel MatchSpec MatchProofs MachineProofs CompileProofs CompileMain
  SearchProofs.

Section run.
Context {Op D : Type} `{Countable Op}.
Notation node := (node Op).
Notation pnode := (EGraphModel.node (pop Op)).
Notation egraph := (egraph Op D).
Context (L : lang Op) (Lo : lang_ok L) (it : gset nat -> list nat) (Hit : enumerates it) (g : egraph) (G : settled L g) (cycles : bool).

Lemma outs_ext nf code reg r : Forall (known g) reg -> wf_code (length reg) code nf -> r ∈ outs it g code reg ->
  exists ext, r = reg ++ ext /\ Forall (settled_id g) ext.
Proof.
  revert reg. induction code as [|c code IH]; intros reg Hk Hw Hr; cbn [outs wf_code] in *.
  { apply elem_of_list_singleton in Hr as ->. exists []. by rewrite app_nil_r. }
  destruct c as [n i out|i j|tm i|out].
  - destruct Hw as (Hi & -> & Hz & Hw). apply elem_of_concat in Hr as (l & Hr & Hl).
    apply elem_of_list_fmap in Hl as (m & -> & [Hm Hin]%elem_of_list_filter). apply andb_true_iff in Hm as [_ El%Nat.eqb_eq].
    assert (Hs : Forall (settled_id g) (nch m)) by (apply Forall_forall; intros d Hd; by eapply cls_known).
    destruct (IH (reg ++ nch m)) as (ext & -> & Hext); auto.
    + apply Forall_app. split; [done|]. eapply Forall_impl; [exact Hs|]. by intros x [? _].
    + by rewrite app_length, <- El.
    + exists (nch m ++ ext). rewrite app_assoc. split; [done|]. by apply Forall_app.
  - destruct Hw as (Hi & Hj & Hw). destruct (_ =? _); [by apply IH|by apply elem_of_nil in Hr].
  - destruct Hw as (Hi & Hj & Hw). destruct (lookup_term _ _ _ _) as [[ids|]| |]; try by apply elem_of_nil in Hr.
    destruct (bool_decide _); [by apply IH|by apply elem_of_nil in Hr].
  - destruct Hw as (-> & Hw). apply elem_of_concat in Hr as (l & Hr & Hl).
    apply elem_of_list_fmap in Hl as (m & -> & Hin%(class_ids_elem L it Hit g G)).
    destruct (IH (reg ++ [m])) as (ext & -> & Hext); auto.
    + apply Forall_app. split; [done|]. repeat constructor. apply Hin.
    + by rewrite app_length, Nat.add_1_r.
    + exists (m :: ext). split; [by rewrite <- app_assoc|]. by constructor.
Qed.

Definition keep (reg : list nat) : bool :=
  cycles || negb match reg with [] => false | x :: reg => bool_decide (x ∈ reg) end.
Definition found (vf : subst) (rs : list (list nat)) : list subst := read_sub vf <$> filter (fun r => keep r = true) rs.

Lemma read_ok (vf : subst) r : Forall (fun '(v, k) => k < length r) vf ->
  mapM (fun '(v, k) => x ← r !! k; Some (v, x)) vf = Some (read_sub vf r).
Proof.
  intros Hv. apply mapM_Some. unfold read_sub. apply Forall2_fmap_r. apply Forall_Forall2_diag.
  eapply Forall_impl; [exact Hv|]. intros [v k] Hk. cbn. destruct (lookup_lt_is_Some_2 _ _ Hk) as [x Hx]. rewrite Hx. cbn.
  by rewrite (list_lookup_total_correct _ _ _ Hx).
Qed.
Lemma yield_match_ok (vf : subst) r ms l : Forall (fun '(v, k) => k < length r) vf ->
  yield_match cycles vf r (ms, S l) = Ok (if keep r then (ms ++ [read_sub vf r], l, l =? 0) else (ms, S l, false)).
Proof.
  intros Hr. unfold yield_match, keep. destruct cycles; cbn [negb andb orb].
  - rewrite read_ok by done. cbn [expect mbind res_bind]. by rewrite Nat.sub_succ, Nat.sub_0_r.
  - destruct (match r with [] => false | x :: reg => bool_decide (x ∈ reg) end); cbn [negb]; [done|].
    rewrite read_ok by done. cbn [expect mbind res_bind]. by rewrite Nat.sub_succ, Nat.sub_0_r.
Qed.
Lemma yields_match (vf : subst) rs ms l : Forall (fun r => Forall (fun '(v, k) => k < length r) vf) rs ->
  exists l' b, yields (yield_match cycles vf) rs (ms, S l) = Ok ((ms ++ take (S l) (found vf rs), l'), b).
Proof.
  intros Hrs. revert ms l. induction Hrs as [|r rs Hr Hrs IH]; intros ms l; cbn [yields].
  { eexists _, _. cbn. by rewrite app_nil_r. }
  rewrite yield_match_ok by done. unfold found. rewrite filter_cons. cbn [mbind res_bind].
  destruct (keep r) eqn:Hk.
  - rewrite decide_True by done. destruct l as [|l].
    + cbn. eexists _, _. done.
    + cbn [Nat.eqb]. destruct (IH (ms ++ [read_sub vf r]) l) as (l' & b & E). rewrite E. exists l', b.
      rewrite <- app_assoc. done.
  - rewrite decide_False by done. apply IH.
Qed.
Lemma run_with_limit_ok pg c nf limit : eg_clean g = true -> known g c -> wf_code 1 (pg_code pg) nf ->
  Forall (fun '(v, k) => k < nf) (pg_subst pg) ->
  run_with_limit L it cycles pg g c limit = Ok (take limit (found (pg_subst pg) (outs it g (pg_code pg) [c]))).
Proof.
  intros Ec Hk Hw Hv. unfold run_with_limit. rewrite Ec. cbn [assert mbind res_bind]. destruct limit as [|l]; [done|]. cbn [Nat.eqb].
  assert (Hk1 : Forall (known g) [c]) by (by repeat constructor).
  destruct (run_outs L Lo it Hit g G (yield_match cycles (pg_subst pg)) nf (pg_code pg) [c] ([], S l) Hk1 Hw) as [E _].
  destruct (yields_match (pg_subst pg) (outs it g (pg_code pg) [c]) [] l) as (l' & b & Ey).
  { apply Forall_forall. intros r Hr. destruct (outs_len L it Hit g G nf _ _ _ Hk1 Hw Hr) as (Hl & _). by rewrite Hl. }
  rewrite Ey in E. destruct (run _ _ _ _ _ _ _) as [[[reg' [ms l2]] b2]| |]; [|done|done]. cbn in E. injection E as -> -> ->. done.
Qed.

(** ** Substitutions modulo classes *)
Lemma PRep_ext (sg sg' : nat -> option nat) (t : term (pop Op)) x :
  (forall v, occurs v t -> eg_find g <$> sg v = eg_find g <$> sg' v) -> PRep g sg t x -> PRep g sg' t x.
Proof.
  revert x. induction t as [[f|v] ts IH] using term_sind; intros x Hs Hr.
  - inversion Hr as [|? ? cs ? c Hc Hn Hf]; subst. econstructor; [exact Hc|exact Hn|].
    eapply Forall2_Forall_impl; [exact Hf|]. apply Forall_forall. intros u Hu y Hy. rewrite Forall_forall in IH.
    apply (IH u Hu); [|done]. intros v Hv. apply Hs. by econstructor.
  - inversion Hr as [? ? i Hi|]; subst. specialize (Hs v (occurs_here _ _)). rewrite Hi in Hs. cbn in Hs.
    destruct (sg' v) as [j|] eqn:Ej; [|done]. cbn in Hs. injection Hs as ->. by constructor.
Qed.
Lemma read_get (vf : subst) r v : subst_get (read_sub vf r) v = (fun k => r !!! k) <$> subst_get vf v.
Proof.
  induction vf as [|[w k] vf IH]; cbn; [done|]. by destruct (decide (w = v)).
Qed.
Lemma sub_of_read vf r nf v : Forall (fun '(v, k) => k < nf) vf -> length r = nf ->
  sub_of g vf r v = eg_find g <$> subst_get (read_sub vf r) v.
Proof.
  intros Hv Hl. rewrite read_get. unfold sub_of. destruct (subst_get vf v) as [k|] eqn:Ek; [|done]. cbn.
  rewrite Forall_forall in Hv. specialize (Hv _ (subst_get_elem _ _ _ Ek)). cbn in Hv.
  destruct (lookup_lt_is_Some_2 r k) as [x Hx]; [lia|]. rewrite Hx. cbn. by rewrite (list_lookup_total_correct _ _ _ Hx).
Qed.

(** Two register files of one search with the same classes are the same. *)
Lemma read_same c vf nf code r1 r2 : known g c -> wf_code 1 code nf -> Forall (fun '(v, k) => k < nf) vf -> NoDup vf.*1 ->
  r1 ∈ outs it g code [c] -> r2 ∈ outs it g code [c] -> same_sub g (read_sub vf r1) (read_sub vf r2) ->
  read_sub vf r1 = read_sub vf r2.
Proof.
  intros Hk Hw Hv Hn H1 H2 Hs. assert (Hk1 : Forall (known g) [c]) by (by repeat constructor).
  destruct (outs_ext nf code [c] r1 Hk1 Hw H1) as (e1 & E1 & F1). destruct (outs_ext nf code [c] r2 Hk1 Hw H2) as (e2 & E2 & F2).
  destruct (outs_len L it Hit g G nf _ _ _ Hk1 Hw H1) as (L1 & _). destruct (outs_len L it Hit g G nf _ _ _ Hk1 Hw H2) as (L2 & _).
  unfold read_sub. apply list_fmap_ext. intros q [v k] Hq. f_equal.
  assert (Hget : subst_get vf v = Some k).
  { clear -Hq Hn. revert q Hq. induction vf as [|[w j] vf IH]; intros q Hq; [done|]. cbn in *. apply NoDup_cons in Hn as [Hni Hn].
    destruct q as [|q]; cbn in Hq.
    - injection Hq as -> ->. by rewrite decide_True.
    - rewrite decide_False; [by eapply IH|]. intros ->. apply Hni. apply elem_of_list_fmap. exists (v, k). split; [done|]. by eapply elem_of_list_lookup_2. }
  specialize (Hs v). rewrite !read_get, Hget in Hs. cbn in Hs. injection Hs as Hs.
  assert (Hkn : k < nf) by (apply (Forall_lookup_1 _ _ _ _ Hv Hq)).
  destruct k as [|k]; [by rewrite E1, E2|].
  assert (Hset : forall e, length ([c] ++ e) = nf -> Forall (settled_id g) e -> eg_find g (([c] ++ e) !!! S k) = ([c] ++ e) !!! S k).
  { intros e Hle Fe. rewrite lookup_total_app_r by (cbn; lia). cbn [length]. replace (S k - 1) with k by lia. cbn in Hle.
    destruct (lookup_lt_is_Some_2 e k) as [x Hx]; [lia|]. rewrite (list_lookup_total_correct _ _ _ Hx).
    apply (Forall_lookup_1 _ _ _ _ Fe Hx). }
  subst r1 r2. rewrite (Hset e1), (Hset e2) in Hs by done. done.
Qed.

(** What a program with exact code returns for one class. *)
Lemma search_exact (C : (nat -> option nat) -> list nat -> Prop) pg nf c : eg_clean g = true -> known g c ->
  exact it g C 1 (pg_code pg) (pg_subst pg) nf -> NoDup (pg_subst pg).*1 ->
  exists all, (forall limit, run_with_limit L it cycles pg g c limit = Ok (take limit all)) /\
    NoDup all /\ (forall s1 s2, s1 ∈ all -> s2 ∈ all -> same_sub g s1 s2 -> s1 = s2) /\
    (forall s, s ∈ all -> s.*1 = (pg_subst pg).*1 /\ (forall v i, subst_get s v = Some i -> known g i /\ (settled_id g c -> settled_id g i)) /\
       C (fun v => eg_find g <$> subst_get s v) [c]) /\
    (cycles = true -> forall sg, csub g sg -> C sg [c] -> exists s, s ∈ all /\
       forall v, is_Some (subst_get (pg_subst pg) v) -> sg v = eg_find g <$> subst_get s v).
Proof.
  intros Ec Hk E Hn. assert (Hk1 : Forall (known g) [c]) by (by repeat constructor).
  pose proof (ex_wf _ _ _ _ _ _ _ E) as Hw. pose proof (ex_vf _ _ _ _ _ _ _ E) as Hv.
  exists (found (pg_subst pg) (outs it g (pg_code pg) [c])). split_and!.
  - intros limit. by apply (run_with_limit_ok pg c nf).
  - unfold found. pose proof (ex_nodup _ _ _ _ _ _ _ E [c] eq_refl Hk1) as Hnd. clear -Hnd.
    induction (outs it g (pg_code pg) [c]) as [|r rs IH]; [constructor|]. cbn in Hnd. apply NoDup_cons in Hnd as [Hni Hnd].
    rewrite filter_cons. destruct (decide _); [|auto]. cbn. apply NoDup_cons. split; [|auto]. intros Hin. apply Hni.
    apply elem_of_list_fmap in Hin as (r' & Er & Hin). apply elem_of_list_filter in Hin as [_ Hin].
    apply elem_of_list_fmap. eauto.
  - intros s1 s2 (r1 & -> & [_ H1]%elem_of_list_filter)%elem_of_list_fmap (r2 & -> & [_ H2]%elem_of_list_filter)%elem_of_list_fmap Hs.
    by eapply read_same.
  - intros s (r & -> & [_ Hr]%elem_of_list_filter)%elem_of_list_fmap.
    destruct (outs_len L it Hit g G nf _ _ _ Hk1 Hw Hr) as (Hl & Hkr & _). split_and!.
    + unfold read_sub. rewrite <- list_fmap_compose. apply list_fmap_ext. by intros _ [v k] _.
    + intros v i Hi. rewrite read_get in Hi. destruct (subst_get (pg_subst pg) v) as [k|] eqn:Ek; [|done]. cbn in Hi. injection Hi as <-.
      rewrite Forall_forall in Hv. specialize (Hv _ (subst_get_elem _ _ _ Ek)). cbn in Hv.
      destruct (lookup_lt_is_Some_2 r k) as [x Hx]; [lia|]. rewrite (list_lookup_total_correct _ _ _ Hx).
      split; [by apply (Forall_lookup_1 _ _ _ _ Hkr Hx)|]. intros Hsc. destruct (outs_ext nf _ _ _ Hk1 Hw Hr) as (ext & -> & Hext).
      apply lookup_app_Some in Hx as [[_ <-]%list_lookup_singleton_Some|[_ Hx]]; [done|by apply (Forall_lookup_1 _ _ _ _ Hext Hx)].
    + eapply (ex_sound _ _ _ _ _ _ _ E [c] r); auto.
      * intros v i Hi. rewrite <- (sub_of_read _ _ nf) in Hi by done. by eapply (sub_of_csub L g G _ _ Hkr).
      * intros v k Hvk. destruct (sub_of_agrees g (pg_subst pg) nf r Hv Hl v k Hvk) as (x & Hx & Hs).
        exists x. split; [done|]. by rewrite <- (sub_of_read _ _ nf).
  - intros Hcy sg Hcs HC. destruct (ex_complete _ _ _ _ _ _ _ E [c] sg eq_refl Hk1 Hcs HC) as (r & Hr & Ha).
    exists (read_sub (pg_subst pg) r). split.
    + apply elem_of_list_fmap. exists r. split; [done|]. apply elem_of_list_filter. split; [|done]. unfold keep. by rewrite Hcy.
    + intros v [k Hvk]. destruct (Ha v k Hvk) as (x & Hx & ->). rewrite read_get, Hvk. cbn.
      by rewrite (list_lookup_total_correct _ _ _ Hx).
Qed.
End run.

(** ** Searching several classes *)
Lemma sublist_elem {X} (l k : list X) x : sublist l k -> x ∈ l -> x ∈ k.
Proof. induction 1; intros Hx; [done| |right; auto]. apply elem_of_cons in Hx as [->|Hx]; [left|right; auto]. Qed.
Lemma sublist_nodup {X} (l k : list X) : sublist l k -> NoDup k -> NoDup l.
Proof.
  induction 1 as [|x l k Hs IH|x l k Hs IH]; intros Hn; [done| |]; apply NoDup_cons in Hn as [Hni Hn]; [|by auto].
  apply NoDup_cons. split; [|by auto]. intros Hin. apply Hni. by eapply sublist_elem.
Qed.
Lemma elem_of_zip_pairs {X Y} (cs : list X) (alls : list (list Y)) c s :
  (c, s) ∈ concat (zip_with (fun c all => (fun s => (c, s)) <$> all) cs alls) <->
  exists q all, cs !! q = Some c /\ alls !! q = Some all /\ s ∈ all.
Proof.
  rewrite elem_of_concat. split.
  - intros (l & Hl & Hin). apply elem_of_list_lookup in Hin as [q Hq].
    apply lookup_zip_with_Some in Hq as (c' & all & -> & H1 & H2).
    apply elem_of_list_fmap in Hl as (s' & Es & Hx). injection Es as -> ->; eauto.
  - intros (q & all & H1 & H2 & H3). exists ((fun s => (c, s)) <$> all).
    split; [apply elem_of_list_fmap; eauto|]. apply elem_of_list_lookup. exists q. apply lookup_zip_with_Some. eauto 6.
Qed.
Lemma zip_pairs_nodup {X Y} (cs : list X) (alls : list (list Y)) : NoDup cs ->
  (forall q c all, cs !! q = Some c -> alls !! q = Some all -> NoDup all) ->
  NoDup (concat (zip_with (fun c all => (fun s => (c, s)) <$> all) cs alls)).
Proof.
  intros Hcs. revert alls. induction Hcs as [|c cs Hni Hcs IH]; intros [|all alls] Ha; cbn; try constructor.
  apply NoDup_app. split_and!.
  - apply NoDup_fmap_2; [|by apply (Ha 0 c)]. by intros ?? [=].
  - intros [c' s] (s' & [= -> ->] & _)%elem_of_list_fmap (q & all' & H1 & _)%elem_of_zip_pairs.
    apply Hni. by eapply elem_of_list_lookup_2.
  - apply IH. intros q. apply (Ha (S q)).
Qed.
Lemma search_eclasses_ok (se : nat -> nat -> res (option smatch)) cs alls :
  Forall2 (fun c all => forall k, se c k = Ok (wrap c (take k all))) cs alls ->
  forall k, exists ms, search_eclasses se cs k = Ok ms /\
    pairs ms = take k (concat (zip_with (fun c all => (fun s => (c, s)) <$> all) cs alls)) /\
    sublist (sm_class <$> ms) cs /\ Forall (fun m => sm_substs m <> []) ms.
Proof.
  induction 1 as [|c all cs alls Hc Hall IH]; intros k; cbn [search_eclasses].
  { exists []. cbn. rewrite take_nil. split_and!; constructor. }
  destruct (Nat.eqb_spec k 0) as [->|Hk].
  { exists []. cbn. rewrite take_0. split_and!; [done|done|apply sublist_nil_l|constructor]. }
  rewrite Hc. cbn [mbind res_bind zip_with concat]. rewrite firstn_app.
  destruct (take k all) as [|s0 ss0] eqn:Et; cbn [wrap].
  - destruct all as [|a all]; [|by destruct k]. destruct (IH k) as (ms & E & Hp & Hs & Hn). exists ms. rewrite E, Hp. cbn.
    rewrite Nat.sub_0_r, take_nil. split_and!; [done|done|by constructor|done].
  - assert (Hlen : length (s0 :: ss0) = k `min` length all) by (rewrite <- Et; apply take_length).
    cbn [sm_substs]. rewrite (proj2 (Nat.leb_le _ _)) by lia. cbn [assert mbind res_bind].
    destruct (IH (k - length (s0 :: ss0))) as (ms & E & Hp & Hs & Hn). rewrite E. cbn [mbind res_bind].
    exists (SMatch c (s0 :: ss0) :: ms). split_and!.
    + done.
    + unfold pairs in *. cbn [fmap list_fmap concat]. rewrite Hp. cbn [sm_class sm_substs]. rewrite <- Et, <- fmap_take, fmap_length.
      f_equal. rewrite take_length. destruct (Nat.min_spec k (length all)) as [[? ->]|[? ->]]; [|done].
      replace (k - k) with 0 by lia. replace (k - length all) with 0 by lia. done.
    + cbn. by constructor.
    + by constructor.
Qed.

Section pattern.
Context {Op : Type} `{Countable Op}.
Notation node := (node Op).
Notation pnode := (EGraphModel.node (pop Op)).
Context (ord : gmap (nat * nat) node -> list (nat * nat)) (Hord : enumerates_keys ord).

Lemma compact_loop_pat (e : list pnode) i ids (s e' : list pnode) : pat_ok e -> pat_ok s -> compact_loop i e ids s = Ok e' ->
  pat_ok e' /\ length s <= length e' /\ (e <> [] -> e' <> []).
Proof.
  unfold pat_ok, ExprModel.pnode. intros He. revert i ids s e'. induction He as [|n e Hn He IH]; intros i ids s e' Hs E; cbn in E.
  { injection E as <-. done. }
  unfold map_children_o in E. destruct (mapM _ (nch n)) as [cs|] eqn:Em; [|done]. cbn in E.
  assert (Hm : pnode_ok (Node (nop n) cs)).
  { unfold pnode_ok in *. cbn. destruct (nop n); [done|]. rewrite Hn in Em. cbn in Em. by injection Em as <-. }
  unfold index_insert in E. destruct (list_find (fun m : pnode => m = Node (nop n) cs) s) as [[j m]|] eqn:Ef.
  - assert (s <> []) by (by intros ->). apply IH in E as (H1 & H2 & _); [|done]. split_and!; [done|done|]. intros _ ->. cbn in H2. destruct s; [done|cbn in H2; lia].
  - apply IH in E as (H1 & H2 & _); [|apply Forall_app; by repeat constructor]. rewrite app_length in H2. cbn in H2.
    split_and!; [done|lia|]. intros _ ->. cbn in H2. lia.
Qed.
Lemma compact_pat (e e' : list pnode) : pat_ok e -> e <> [] -> rx_compact e = Ok e' -> pat_ok e' /\ e' <> [].
Proof. intros He Hne E. apply compact_loop_pat in E as (H1 & _ & H2); [auto|done|constructor]. Qed.

(** [Pattern::new] succeeds on every well-formed pattern. *)
Lemma pattern_new_total (ast : list pnode) : dag ast -> pat_ok ast -> ast <> [] ->
  exists k p, forall fuel, k <= fuel -> pattern_new ord fuel ast = Ok p.
Proof.
  intros Hd Hok Hne. destruct (rx_compact_spec ast Hd) as (e' & Ec & Hd' & _). destruct (compact_pat _ _ Hok Hne Ec) as [Hok' Hne'].
  destruct (compile_total ord Hord e' None cs_new Hd' Hok' Hne' stage_new) as (k & s & Hs).
  exists k, (Pattern e' (cs_extract s)). intros fuel Hf. unfold pattern_new. rewrite Ec. cbn [mbind res_bind]. unfold compile_from_pat.
  by rewrite Hs.
Qed.
Lemma pattern_new_ast fuel (ast : list pnode) p : dag ast -> pat_ok ast -> ast <> [] -> pattern_new ord fuel ast = Ok p ->
  dag (pt_ast p) /\ pat_ok (pt_ast p) /\ pt_ast p <> [] /\ NoDup (pt_ast p) /\
  (rooted ast -> forall t, ExprTree ast t -> ExprTree (pt_ast p) t).
Proof.
  intros Hd Hok Hne E. destruct (rx_compact_spec ast Hd) as (e' & Ec & Hd' & Hn & _ & Hr). destruct (compact_pat _ _ Hok Hne Ec) as [Hok' Hne'].
  unfold pattern_new in E. rewrite Ec in E. cbn [mbind res_bind] in E. destruct (compile_from_pat _ _ _); [|done|done]. cbn in E. injection E as <-.
  cbn. split_and!; auto. intros Hro t Ht. apply Hr; [done|]. by apply rooted_compact.
Qed.

Context {D : Type}.
Notation egraph := (egraph Op D).
Context (L : lang Op) (Lo : lang_ok L) (it : gset nat -> list nat) (Hit : enumerates it) (g : egraph) (G : settled L g).

Lemma pattern_exact fuel (ast : list pnode) p t : dag ast -> pat_ok ast -> ast <> [] -> pattern_new ord fuel ast = Ok p ->
  ExprTree (pt_ast p) t ->
  NoDup (pg_subst (pt_prog p)).*1 /\ (forall v, is_Some (subst_get (pg_subst (pt_prog p)) v) <-> occurs v t) /\
  exists nf, exact it g (fun sg r => PRep g sg t (eg_find g (r !!! 0))) 1 (pg_code (pt_prog p)) (pg_subst (pt_prog p)) nf.
Proof.
  intros Hd Hok Hne E Ht. destruct (pattern_new_ast _ _ _ Hd Hok Hne E) as (Hd' & Hok' & Hne' & _ & _).
  unfold pattern_new in E. destruct (rx_compact ast) as [e'| |]; [|done|done]. cbn [mbind res_bind] in E.
  unfold compile_from_pat in E. destruct (compile _ _ _ _ _) as [s| |] eqn:Es; [|done|done]. cbn in E. injection E as <-. cbn [pt_ast pt_prog] in *.
  destruct (compile_first ord Hord L it Hit g G fuel None e' s Hd' Hok' Hne' Es) as (Hs & Hv & Hx).
  cbn [cs_extract pg_subst pg_code]. rewrite subst_copy by apply Hs. split_and!.
  - apply Hs.
  - intros v. rewrite Hv. split.
    + intros [Hb|(t' & Ht1 & Ho)]; [done|]. by rewrite (ExprTree_fun _ _ _ Ht Ht1).
    + intros Ho. right. by exists t.
  - exists (cs_next s). specialize (Hx (fun _ => True) [] (cs_v2r s) (cs_next s)). rewrite app_nil_r in Hx.
    eapply (exact_iff it g); [|apply Hx].
    + intros sg r. cbn. split.
      * intros (_ & (t' & Ht1 & Hp) & _). by rewrite (ExprTree_fun _ _ _ Ht Ht1).
      * intros Hr. split_and!; [done| |done]. by exists t.
    + eapply (exact_iff it g); [|apply exact_nil, Hs]. intros. cbn. tauto.
Qed.

Lemma PRep_settled (sg : nat -> option nat) (t : term (pop Op)) x : (forall v i, sg v = Some i -> known g i) -> PRep g sg t x -> settled_id g x.
Proof.
  intros Hk Hp. pose proof (se_inv _ _ G) as I. destruct Hp as [v ts i Hi|f ts cs r c Hc _ _].
  - apply (find_settled L g G). by eapply Hk.
  - unfold settled_id, known. rewrite <- (iv_len _ I). apply (ci_cls _ _ _ _ _ _ _ (iv_c _ I)). eauto.
Qed.

(** All results of a pattern in one class. *)
Lemma pattern_class cycles fuel (ast : list pnode) p t c : eg_clean g = true -> dag ast -> pat_ok ast -> ast <> [] ->
  pattern_new ord fuel ast = Ok p -> ExprTree (pt_ast p) t -> known g c ->
  exists all : list subst,
    (forall k, search_eclass_with_limit L it cycles p g c k = Ok (wrap c (take k all))) /\
    NoDup all /\ (forall s1 s2, s1 ∈ all -> s2 ∈ all -> same_sub g s1 s2 -> s1 = s2) /\
    (forall s, s ∈ all -> NoDup s.*1 /\ (forall v, is_Some (subst_get s v) <-> occurs v t) /\
      (forall v i, subst_get s v = Some i -> known g i /\ (settled_id g c -> settled_id g i)) /\
      PRep g (subst_get s) t (eg_find g c)) /\
    (cycles = true -> forall sg, (forall v i, sg v = Some i -> known g i) -> PRep g sg t (eg_find g c) ->
      exists s, s ∈ all /\ forall v, occurs v t -> eg_find g <$> subst_get s v = eg_find g <$> sg v).
Proof.
  intros Ec Hd Hok Hne E Ht Hc. destruct (pattern_exact _ _ _ _ Hd Hok Hne E Ht) as (Hn & Hv & nf & Hx).
  pose proof (se_inv _ _ G) as I.
  destruct (search_exact L Lo it Hit g G cycles _ (pt_prog p) nf c Ec Hc Hx Hn) as (all & Hrun & Hnd & Hsame & Hsound & Hcomp).
  assert (Hkeys : forall (s s' : subst) v, s.*1 = s'.*1 -> is_Some (subst_get s v) <-> is_Some (subst_get s' v)).
  { induction s as [|[w k] s IH]; intros [|[w' k'] s'] v Es; try done. cbn in *. injection Es as -> Es. destruct (decide _); [|by apply IH].
    split; eauto. }
  exists all. split_and!; auto.
  - intros k. unfold search_eclass_with_limit, search_eclass_program. by rewrite Hrun.
  - intros s Hs. destruct (Hsound s Hs) as (Hk & Hkn & Hp). split_and!; [by rewrite Hk| |done|].
    + intros v. rewrite <- Hv. by apply Hkeys.
    + cbn in Hp. eapply PRep_ext; [|exact Hp]. intros v _. cbn. destruct (subst_get s v); cbn; [|done]. by rewrite Inv_find_idem.
  - intros Hcy sg Hk Hp. destruct (Hcomp Hcy (fun v => eg_find g <$> sg v)) as (s & Hs & Heq).
    + intros v i Hi. destruct (sg v) as [j|] eqn:Ej; [|done]. cbn in Hi. injection Hi as <-. apply (find_settled L g G). by eapply Hk.
    + cbn. eapply PRep_ext; [|exact Hp]. intros v _. cbn. destruct (sg v); cbn; [|done]. by rewrite Inv_find_idem.
    + exists s. split; [done|]. intros v Hv'. symmetry. apply Heq. by apply Hv.
Qed.

(** ... and in the whole e-graph. *)
Lemma pattern_search cycles fuel (ast : list pnode) p t : eg_clean g = true -> indexed L g -> dag ast -> pat_ok ast -> ast <> [] ->
  pattern_new ord fuel ast = Ok p -> ExprTree (pt_ast p) t ->
  exists all : list (nat * subst),
    (forall k, exists ms, search_with_limit L it cycles p g k = Ok ms /\ pairs ms = take k all /\
       NoDup (sm_class <$> ms) /\ Forall (fun m => sm_substs m <> []) ms) /\
    NoDup all /\ (forall c s, (c, s) ∈ all -> settled_id g c /\ NoDup s.*1 /\ (forall v, is_Some (subst_get s v) <-> occurs v t) /\
      (forall v i, subst_get s v = Some i -> settled_id g i) /\ PRep g (subst_get s) t c) /\
    (cycles = true -> forall sg x, (forall v i, sg v = Some i -> known g i) -> PRep g sg t x ->
      exists s, (x, s) ∈ all /\ forall v, occurs v t -> subst_get s v = eg_find g <$> sg v).
Proof.
  intros Ec Hix Hd Hok Hne E Ht. pose proof (se_inv _ _ G) as I. destruct (pattern_new_ast _ _ _ Hd Hok Hne E) as (Hd' & Hok' & Hne' & _ & _).
  assert (Hmain : forall cs, NoDup cs -> (forall c, c ∈ cs -> settled_id g c) ->
    (forall sg x, (forall v i, sg v = Some i -> known g i) -> PRep g sg t x -> x ∈ cs) ->
    exists all : list (nat * subst),
    (forall k, exists ms, search_eclasses (search_eclass_with_limit L it cycles p g) cs k = Ok ms /\ pairs ms = take k all /\
       NoDup (sm_class <$> ms) /\ Forall (fun m => sm_substs m <> []) ms) /\
    NoDup all /\ (forall c s, (c, s) ∈ all -> settled_id g c /\ NoDup s.*1 /\ (forall v, is_Some (subst_get s v) <-> occurs v t) /\
      (forall v i, subst_get s v = Some i -> settled_id g i) /\ PRep g (subst_get s) t c) /\
    (cycles = true -> forall sg x, (forall v i, sg v = Some i -> known g i) -> PRep g sg t x ->
      exists s, (x, s) ∈ all /\ forall v, occurs v t -> subst_get s v = eg_find g <$> sg v)).
  { intros cs Hcs Hset Hall.
    destruct (Forall2_exists (fun c all => (forall k, search_eclass_with_limit L it cycles p g c k = Ok (wrap c (take k all))) /\
      NoDup all /\ (forall s, s ∈ all -> NoDup s.*1 /\ (forall v, is_Some (subst_get s v) <-> occurs v t) /\
        (forall v i, subst_get s v = Some i -> settled_id g i) /\ PRep g (subst_get s) t c) /\
      (cycles = true -> forall sg, (forall v i, sg v = Some i -> known g i) -> PRep g sg t c ->
        exists s, s ∈ all /\ forall v, occurs v t -> subst_get s v = eg_find g <$> sg v)) cs) as [alls Halls].
    { intros c Hc. destruct (Hset c Hc) as [Hkc Hfc].
      destruct (pattern_class cycles _ _ _ _ c Ec Hd Hok Hne E Ht Hkc) as (all & H1 & H2 & _ & H3 & H4).
      rewrite Hfc in *. exists all. split_and!; auto.
      - intros s Hs. destruct (H3 s Hs) as (? & ? & H5 & ?). split_and!; auto. intros v i Hi. eapply H5; eauto.
      - intros Hcy sg Hk Hp. destruct (H4 Hcy sg Hk Hp) as (s & Hs & Heq). exists s. split; [done|]. intros v Hv. rewrite <- Heq by done.
        destruct (subst_get s v) as [i|] eqn:Ei; [|done]. cbn. f_equal. symmetry. eapply (H3 s Hs); eauto. }
    exists (concat (zip_with (fun c all => (fun s => (c, s)) <$> all) cs alls)).
    assert (Hel : forall c s, (c, s) ∈ concat (zip_with (fun c all => (fun s => (c, s)) <$> all) cs alls) <->
      exists q all, cs !! q = Some c /\ alls !! q = Some all /\ s ∈ all).
    { intros. apply elem_of_zip_pairs. }
    split_and!.
    - intros k. destruct (search_eclasses_ok (search_eclass_with_limit L it cycles p g) cs alls) with (k := k) as (ms & E1 & E2 & E3 & E4).
      { eapply Forall2_impl; [exact Halls|]. by intros c all (Hrun & _). }
      exists ms. split_and!; auto. by eapply sublist_nodup.
    - apply zip_pairs_nodup; [done|]. intros q c all H1 H2. apply (Forall2_lookup_lr _ _ _ _ _ _ Halls H1 H2).
    - intros c s (q & all & H1 & H2 & H3)%Hel. destruct (Forall2_lookup_lr _ _ _ _ _ _ Halls H1 H2) as (_ & _ & Hs & _).
      destruct (Hs s H3) as (? & ? & ? & ?). split_and!; auto. eapply Hset, elem_of_list_lookup_2, H1.
    - intros Hcy sg x Hk Hp. pose proof (Hall sg x Hk Hp) as [q Hq]%elem_of_list_lookup.
      destruct (Forall2_lookup_l _ _ _ _ _ Halls Hq) as (all & H2 & _ & _ & _ & Hcomp). destruct (Hcomp Hcy sg Hk Hp) as (s & Hs & Heq).
      exists s. split; [|done]. apply Hel. eauto. }
  unfold search_with_limit.
  destruct Ht as [_ Ht]. inversion Ht as [? f cs ts Hlast Hch]; subst.
  assert (last (pt_ast p) = Some (Node f cs)) as ->.
  { unfold ExprModel.pnode in *. rewrite last_lookup. rewrite <- Hlast. f_equal. lia. }
  cbn [expect mbind res_bind].
  destruct f as [f|v].
  - cbn [pview nop nch]. destruct (eg_by_op g !! l_disc L f) as [ids|] eqn:Ei.
    + apply Hmain.
      * rewrite (Hit ids). apply NoDup_elements.
      * intros c Hc. rewrite (Hit ids), elem_of_elements in Hc. destruct (proj1 (Hix (l_disc L f) c)) as (cl & n & Hcl & _); [by exists ids|].
        unfold settled_id, known. rewrite <- (iv_len _ I). apply (ci_cls _ _ _ _ _ _ _ (iv_c _ I)). eauto.
      * intros sg x Hk Hp. inversion Hp as [|? ? cs' ? cl Hcl Hn Hf]; subst. rewrite (Hit ids), elem_of_elements.
        destruct (proj2 (Hix (l_disc L f) x)) as (ids' & E1 & E2); [by exists cl, (Node f cs')|]. rewrite Ei in E1. by injection E1 as <-.
    + exists []. split_and!.
      * intros k. exists []. cbn. rewrite take_nil. split_and!; constructor.
      * constructor.
      * intros c s Hcs. by apply elem_of_nil in Hcs.
      * intros Hcy sg x Hk Hp. inversion Hp as [|? ? cs' ? cl Hcl Hn Hf]; subst.
        destruct (proj2 (Hix (l_disc L f) x)) as (ids' & E1 & E2); [by exists cl, (Node f cs')|]. by rewrite Ei in E1.
  - cbn [pview nop nch]. apply Hmain.
    + by apply (class_ids_nodup L it Hit g G).
    + intros c Hc. by apply (class_ids_elem L it Hit g G).
    + intros sg x Hk Hp. apply (class_ids_elem L it Hit g G). by eapply PRep_settled.
Qed.
End pattern.
