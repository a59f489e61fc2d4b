(** Multi-patterns: conjunctions of clauses. *)
From Verif Require Import Base UnionFind EGraphModel EGraphSteps EGraphInv EGraphPres EGraphRuns Spec EGraphMain
  EGraphReach Terms RecExprModel RecExprProofs ExprModel PatSpec ExprProofs MachineModel MatchSpec MatchProofs MachineProofs CompileProofs CompileMain
  SearchProofs SearchMain.

Section multi.
Context {Op : Type} `{Countable Op}.
Notation node := (node Op).
Notation pnode := (EGraphModel.node (pop Op)).
Notation cstate := (@cstate Op).
Context (ord : gmap (nat * nat) node -> list (nat * nat)) (Hord : enumerates_keys ord).

Lemma add_todo_code (p : list pnode) id reg (s s' : cstate) : add_todo p id reg s = Ok s' -> exists l, cs_code s' = cs_code s ++ l.
Proof.
  unfold add_todo. intros E. destruct (p !! id) as [n|] eqn:En; unfold ExprModel.pnode in *; rewrite En in E; [|done]. cbn in E.
  destruct (pview n); [injection E as <-; cbn; exists []; by rewrite app_nil_r|].
  destruct (subst_get _ _); injection E as <-; cbn; eauto. exists []; by rewrite app_nil_r.
Qed.
Lemma add_todos_code (p : list pnode) cs reg (s s' : cstate) : add_todos p cs reg s = Ok s' -> exists l, cs_code s' = cs_code s ++ l.
Proof.
  revert reg s. induction cs as [|c cs IH]; intros reg s E; cbn in E.
  - injection E as <-. exists []; by rewrite app_nil_r.
  - destruct (add_todo p c reg s) as [s1| |] eqn:E1; [|done|done]. cbn in E. apply IH in E as [l ->]. apply add_todo_code in E1 as [l' ->].
    exists (l' ++ l). by rewrite app_assoc.
Qed.
Lemma compile_loop_code fuel (p : list pnode) n (s s' : cstate) n' : compile_loop ord fuel p n s = Ok (s', n') ->
  (cs_todo s <> ∅ \/ cs_code s <> []) -> cs_code s' <> [].
Proof.
  revert n s. induction fuel as [|fuel IH]; intros n s E Hs; [done|]. cbn [compile_loop] in E.
  destruct (next_todo ord s) as [[[[[id reg] m] s1]|]| |] eqn:En; [| |done|done]; cbn [mbind res_bind] in E.
  - destruct (is_ground_now s1 id) as [gr| |]; [|done|done]. cbn [mbind res_bind] in E. destruct (gr && _).
    + destruct (rx_extract _ _ _) as [e| |]; [|done|done]. cbn [mbind res_bind] in E. destruct (lookup_code _ _) as [tm| |]; [|done|done].
      cbn [mbind res_bind] in E. apply IH in E; [done|]. right. cbn. by destruct (cs_code s1).
    + destruct (add_todos p (nch m) n _) as [s2| |] eqn:Ea; [|done|done]. cbn [mbind res_bind] in E.
      apply IH in E; [done|]. right. apply add_todos_code in Ea as [l ->]. cbn. by destruct (cs_code s1).
  - injection E as <- <-. destruct Hs as [Hs|Hs]; [|done]. exfalso. apply Hs.
    unfold next_todo in En. destruct (mapM _ (ord (cs_todo s))) as [ks|] eqn:Em; [|done]. cbn [expect mbind res_bind] in En.
    destruct ks as [|k ks].
    + apply mapM_length in Em. cbn in Em. apply map_to_list_empty_iff. specialize (Hord (cs_todo s)). apply Permutation_length in Hord.
      rewrite fmap_length in Hord. rewrite <- Hord in Em || rewrite Hord in Em. by destruct (map_to_list (cs_todo s)).
    + destruct (max_by k ks) as [id reg]. destruct (cs_todo s !! (id, reg)); done.
Qed.

Lemma compile_first_code fuel v (p : list pnode) (s : cstate) : op_root p -> compile ord fuel (Some v) p cs_new = Ok s -> cs_code s <> [].
Proof.
  intros (f & cs & Hl) E. unfold compile in E. destruct (load_pattern p cs_new) as [s0| |] eqn:El; [|done|done]. cbn [mbind res_bind] in E.
  assert (E0 : cs_v2r s0 = [] /\ cs_code s0 = []).
  { unfold load_pattern in El. destruct (load_loop p [] []) as [[f0 z0]| |]; [|done|done]. cbn in El. by injection El as <-. }
  destruct E0 as [E0 E0c].
  rewrite last_lookup in Hl.
  assert (Hr : rx_root p = Ok (length p - 1)) by (by destruct p). rewrite Hr in E. cbn [mbind res_bind] in E.
  rewrite E0 in E. cbn [subst_get] in E. unfold add_new_pattern in E. rewrite E0c in E. unfold add_todo in E.
  replace (length p - 1) with (Nat.pred (length p)) in E by lia. unfold ExprModel.pnode in *. rewrite Hl in E. cbn [expect mbind res_bind pview nop nch] in E.
  destruct (compile_loop _ _ _ _ _) as [[s2 n2]| |] eqn:Ec; [|done|done]. cbn in E. injection E as <-. cbn.
  eapply compile_loop_code; [exact Ec|]. left. cbn. apply insert_non_empty.
Qed.

Definition clauses_ok (ps : list (nat * list pnode)) : Prop := Forall (fun cl => good_ast cl.2) ps.
Context {D : Type}.
Notation egraph := (egraph Op D).
Context (L : lang Op) (Lo : lang_ok L) (it : gset nat -> list nat) (Hit : enumerates it) (g : egraph) (G : settled L g).
Implicit Types (sg : nat -> option nat).

Lemma compile_all_exact fuel (ps : list (nat * list pnode)) (s s' : cstate) : clauses_ok ps -> stage s (cs_next s) -> cs_code s <> [] ->
  compile_all ord fuel ps s = Ok s' ->
  stage s' (cs_next s') /\
  (forall w, is_Some (subst_get (cs_v2r s') w) <-> is_Some (subst_get (cs_v2r s) w) \/ exists cl, cl ∈ ps /\ (w = cl.1 \/ has_var cl.2 w)) /\
  exists suf, cs_code s' = cs_code s ++ suf /\
  forall K code vf n', exact it g (fun sg r => agrees g (cs_v2r s') r sg /\ K sg) (cs_next s') code vf n' ->
    exact it g (fun sg r => agrees g (cs_v2r s) r sg /\ Forall (fun cl => clause g sg cl.1 cl.2) ps /\ K sg) (cs_next s) (suf ++ code) vf n'.
Proof.
  intros Hps. revert s. induction Hps as [|[v p] ps (Hd & Hok & Hne) Hps IH]; intros s Hs Hc E; cbn [compile_all] in E.
  - injection E as <-. split_and!; [done| |].
    + intros w. split; [auto|]. intros [?|(cl & Hcl & _)]; [done|]. by apply elem_of_nil in Hcl.
    + exists []. rewrite app_nil_r. split; [done|]. intros K code vf n' Hx. cbn. eapply (exact_iff it g); [|exact Hx].
      intros sg r. cbn. split; [intros [? ?]; split_and!; [done|constructor|done]|intros (? & _ & ?); done].
  - destruct (compile ord fuel (Some v) p s) as [s1| |] eqn:E1; [|done|done]. cbn [mbind res_bind] in E. cbn [fst snd] in *.
    destruct (compile_next ord Hord L it Hit g G fuel v p s s1 Hd Hok Hne Hs Hc E1) as (Hs1 & Hc1 & Hv1 & suf1 & Es1 & Hx1).
    destruct (IH s1 Hs1 Hc1 E) as (Hs2 & Hv2 & suf2 & Es2 & Hx2). split_and!; [done| |].
    + intros w. rewrite Hv2, Hv1. split.
      * intros [[?|Hw]|(cl & Hcl & Hw)]; [auto| |]; right; [exists (v, p); split; [left|done]|exists cl; split; [by right|done]].
      * intros [?|(cl & [->|Hcl]%elem_of_cons & Hw)]; [auto|cbn in Hw; auto|eauto].
    + exists (suf1 ++ suf2). rewrite Es2, Es1, app_assoc. split; [done|]. intros K code vf n' Hx. rewrite <- app_assoc.
      specialize (Hx2 K code vf n' Hx). specialize (Hx1 (fun sg => Forall (fun cl => clause g sg cl.1 cl.2) ps /\ K sg) _ _ _ Hx2).
      eapply (exact_iff it g); [|exact Hx1]. intros sg r. cbn. rewrite Forall_cons. cbn. tauto.
Qed.

Lemma compile_all_total (ps : list (nat * list pnode)) (s : cstate) : clauses_ok ps -> stage s (cs_next s) -> cs_code s <> [] ->
  exists k r, forall fuel, k <= fuel -> compile_all ord fuel ps s = Ok r.
Proof.
  intros Hps. revert s. induction Hps as [|[v p] ps (Hd & Hok & Hne) Hps IH]; intros s Hs Hc; cbn [compile_all].
  - by exists 0, s.
  - destruct (compile_total ord Hord p (Some v) s Hd Hok Hne Hs) as (k & s1 & E1).
    destruct (compile_next ord Hord L it Hit g G k v p s s1 Hd Hok Hne Hs Hc (E1 k (le_n _))) as (Hs1 & Hc1 & _).
    destruct (IH s1 Hs1 Hc1) as (k' & r & E). exists (k `max` k'), r. intros fuel Hf. rewrite E1 by lia. cbn [mbind res_bind]. apply E. lia.
Qed.

Lemma multi_exact fuel v1 p1 (ps : list (nat * list pnode)) mp : clauses_ok ((v1, p1) :: ps) -> op_root p1 ->
  multipattern_new ord fuel ((v1, p1) :: ps) = Ok mp ->
  mp_asts mp = (v1, p1) :: ps /\ NoDup (pg_subst (mp_prog mp)).*1 /\
  (forall w, is_Some (subst_get (pg_subst (mp_prog mp)) w) <-> exists cl, cl ∈ (v1, p1) :: ps /\ (w = cl.1 \/ has_var cl.2 w)) /\
  exists nf, exact it g (fun sg r => sg v1 = Some (eg_find g (r !!! 0)) /\ Forall (fun cl => clause g sg cl.1 cl.2) ((v1, p1) :: ps))
    1 (pg_code (mp_prog mp)) (pg_subst (mp_prog mp)) nf.
Proof.
  intros Hcl Hop E. apply Forall_cons in Hcl as [(Hd & Hok & Hne) Hps]. cbn [fst snd] in *.
  unfold multipattern_new, compile_from_multi_pat in E. cbn [compile_all] in E.
  destruct (compile ord fuel (Some v1) p1 cs_new) as [s1| |] eqn:E1; [|done|done]. cbn [mbind res_bind] in E.
  destruct (compile_all ord fuel ps s1) as [s2| |] eqn:E2; [|done|done]. cbn [mbind res_bind] in E. injection E as <-. cbn [mp_asts mp_prog cs_extract pg_code pg_subst].
  destruct (compile_first ord Hord L it Hit g G fuel (Some v1) p1 s1 Hd Hok Hne E1) as (Hs1 & Hv1 & Hx1).
  pose proof (compile_first_code fuel v1 p1 s1 Hop E1) as Hc1.
  destruct (compile_all_exact fuel ps s1 s2 Hps Hs1 Hc1 E2) as (Hs2 & Hv2 & suf & Es2 & Hx2).
  rewrite subst_copy by apply Hs2. split_and!; [done|apply Hs2| |].
  - intros w. rewrite Hv2, Hv1. split.
    + intros [[[= ->]|Hw]|(cl & Hcl & Hw)]; [exists (v1, p1); split; [left|by left]|exists (v1, p1); split; [left|by right]|exists cl; split; [by right|done]].
    + intros (cl & [->|Hcl]%elem_of_cons & Hw); [|by eauto]. cbn in Hw. destruct Hw as [->|?]; auto.
  - exists (cs_next s2). rewrite Es2. specialize (Hx2 (fun _ => True) [] (cs_v2r s2) (cs_next s2)). rewrite app_nil_r in Hx2.
    eapply (exact_iff it g); [|apply (Hx1 (fun sg => Forall (fun cl => clause g sg cl.1 cl.2) ps /\ True)), Hx2].
    + intros sg r. cbn. rewrite Forall_cons. cbn. split.
      * intros (Ha & Hb & Hc & _). specialize (Ha v1 eq_refl). split_and!; auto. eexists. split; [exact Ha|done].
      * intros (Ha & (x & Hx & Hb) & Hc). rewrite Hx in Ha. injection Ha as ->. split_and!; auto. by intros ? [= <-].
    + eapply (exact_iff it g); [|apply exact_nil, Hs2]. intros. cbn. tauto.
Qed.
Lemma multi_new_total v1 p1 (ps : list (nat * list pnode)) : clauses_ok ((v1, p1) :: ps) -> op_root p1 ->
  exists k mp, forall fuel, k <= fuel -> multipattern_new ord fuel ((v1, p1) :: ps) = Ok mp.
Proof.
  intros Hcl Hop. apply Forall_cons in Hcl as [(Hd & Hok & Hne) Hps]. cbn [fst snd] in *.
  destruct (compile_total ord Hord p1 (Some v1) cs_new Hd Hok Hne stage_new) as (k & s1 & E1).
  pose proof (compile_first_code k v1 p1 s1 Hop (E1 k (le_n _))) as Hc1.
  destruct (compile_first ord Hord L it Hit g G k (Some v1) p1 s1 Hd Hok Hne (E1 k (le_n _))) as (Hs1 & _).
  destruct (compile_all_total ps s1 Hps Hs1 Hc1) as (k' & s2 & E2).
  exists (k `max` k'), (MultiPattern ((v1, p1) :: ps) (cs_extract s2)). intros fuel Hf. unfold multipattern_new, compile_from_multi_pat. cbn [compile_all].
  rewrite E1 by lia. cbn [mbind res_bind]. rewrite E2 by lia. done.
Qed.

Lemma clause_holds sg sg' cl : (forall v, eg_find g <$> sg v = eg_find g <$> sg' v) -> (forall v i, sg v = Some i -> eg_find g i = i) ->
  clause g sg cl.1 cl.2 <-> holds g sg' cl.
Proof.
  intros He Hf. pose proof (se_inv _ _ G) as I. unfold clause, holds, root_in. split.
  - intros (x & Hx & t & Ht & Hp). pose proof (He cl.1) as Hv. rewrite Hx in Hv. destruct (sg' cl.1) as [i|]; [|done]. cbn in Hv. injection Hv as Hv.
    exists i, t. split_and!; auto. rewrite <- Hv, (Hf _ _ Hx). eapply PRep_ext; [|exact Hp]. auto.
  - intros (i & t & Hi & Ht & Hp). pose proof (He cl.1) as Hv. rewrite Hi in Hv. destruct (sg cl.1) as [x|] eqn:Ex; [|done]. cbn in Hv. injection Hv as Hv.
    exists x. split; [done|]. exists t. split; [done|]. rewrite <- (Hf _ _ Ex), Hv. eapply PRep_ext; [|exact Hp]. done.
Qed.

(** All results of a multi-pattern in one class. *)
Lemma multi_class cycles fuel v1 p1 (ps : list (nat * list pnode)) mp c : eg_clean g = true -> clauses_ok ((v1, p1) :: ps) -> op_root p1 ->
  multipattern_new ord fuel ((v1, p1) :: ps) = Ok mp -> known g c ->
  exists all : list subst,
    (forall k, multi_search_eclass L it cycles mp g c k = Ok (wrap c (take k all))) /\
    NoDup all /\ (forall s1 s2, s1 ∈ all -> s2 ∈ all -> same_sub g s1 s2 -> s1 = s2) /\
    (forall s, s ∈ all -> NoDup s.*1 /\ (forall w, is_Some (subst_get s w) <-> exists cl, cl ∈ (v1, p1) :: ps /\ (w = cl.1 \/ has_var cl.2 w)) /\
      (forall v i, subst_get s v = Some i -> known g i /\ (settled_id g c -> settled_id g i)) /\
      eg_find g <$> subst_get s v1 = Some (eg_find g c) /\ Forall (holds g (subst_get s)) ((v1, p1) :: ps)) /\
    (cycles = true -> forall sg, (forall v i, sg v = Some i -> known g i) ->
      eg_find g <$> sg v1 = Some (eg_find g c) -> Forall (holds g sg) ((v1, p1) :: ps) ->
      exists s, s ∈ all /\ forall w cl, cl ∈ (v1, p1) :: ps -> w = cl.1 \/ has_var cl.2 w -> eg_find g <$> subst_get s w = eg_find g <$> sg w).
Proof.
  intros Ec Hcl Hop E Hc. destruct (multi_exact _ _ _ _ _ Hcl Hop E) as (Ha & Hn & Hv & nf & Hx).
  pose proof (se_inv _ _ G) as I.
  destruct (search_exact L Lo it Hit g G cycles _ (mp_prog mp) nf c Ec Hc Hx Hn) as (all & Hrun & Hnd & Hsame & Hsound & Hcomp).
  assert (Hkeys : forall (s s' : subst) v, s.*1 = s'.*1 -> is_Some (subst_get s v) <-> is_Some (subst_get s' v)).
  { induction s as [|[w k] s IH]; intros [|[w' k'] s'] v Es; try done. cbn in *. injection Es as -> Es. destruct (decide _); [|by apply IH].
    split; eauto. }
  assert (Hfi : forall (sg : nat -> option nat) v, eg_find g <$> (eg_find g <$> sg v) = eg_find g <$> sg v).
  { intros sg v. destruct (sg v); cbn; [|done]. by rewrite Inv_find_idem. }
  assert (Hff : forall (sg : nat -> option nat) v i, eg_find g <$> sg v = Some i -> eg_find g i = i).
  { intros sg v i Hi. destruct (sg v); [|done]. cbn in Hi. injection Hi as <-. by apply Inv_find_idem. }
  exists all. split_and!; auto.
  - intros k. unfold multi_search_eclass. rewrite Ha. destruct Hop as (f & cs & Hl). unfold ExprModel.pnode in *.
    assert (Hg : search_eclass_program L it cycles (mp_prog mp) g c k = Ok (wrap c (take k all))).
    { unfold search_eclass_program. by rewrite Hrun. }
    destruct p1 as [|n [|n' p1]]; [done| |done]. cbn in Hl. by injection Hl as ->.
  - intros s Hs. destruct (Hsound s Hs) as (Hk & Hkn & Hp1 & Hp2). split_and!; [by rewrite Hk| |done|done|].
    + intros v. rewrite <- Hv. by apply Hkeys.
    + eapply Forall_impl; [exact Hp2|]. intros cl Hcl'. cbn in Hcl'.
      apply (clause_holds (fun v => eg_find g <$> subst_get s v) (subst_get s)) in Hcl'; [done|intros v; apply Hfi|intros v i; apply Hff].
  - intros Hcy sg Hk H1 Hp. destruct (Hcomp Hcy (fun v => eg_find g <$> sg v)) as (s & Hs & Heq).
    + intros v i Hi. destruct (sg v) as [j|] eqn:Ej; [|done]. cbn in Hi. injection Hi as <-. apply (find_settled L g G). by eapply Hk.
    + cbn beta. split; [done|]. eapply Forall_impl; [exact Hp|]. intros cl Hcl'. cbn.
      apply (clause_holds (fun v => eg_find g <$> sg v) sg); [intros v; apply Hfi|intros v i; apply Hff|done].
    + exists s. split; [done|]. intros w cl Hin Hw. symmetry. apply Heq. apply Hv. eauto.
Qed.

Lemma holds_settled sg cl : (forall v i, sg v = Some i -> known g i) -> holds g sg cl -> exists i, sg cl.1 = Some i /\ settled_id g (eg_find g i).
Proof. intros Hk (i & t & Hi & _). exists i. split; [done|]. apply (find_settled L g G). by eapply Hk. Qed.

(** ... and in the whole e-graph. *)
Lemma multi_search_all cycles fuel v1 p1 (ps : list (nat * list pnode)) mp : eg_clean g = true -> clauses_ok ((v1, p1) :: ps) -> op_root p1 ->
  multipattern_new ord fuel ((v1, p1) :: ps) = Ok mp ->
  exists all : list (nat * subst),
    (forall k, exists ms, multi_search L it cycles mp g k = Ok ms /\ pairs ms = take k all /\
       NoDup (sm_class <$> ms) /\ Forall (fun m => sm_substs m <> []) ms) /\
    NoDup all /\ (forall c s, (c, s) ∈ all -> settled_id g c /\ NoDup s.*1 /\
      (forall w, is_Some (subst_get s w) <-> exists cl, cl ∈ (v1, p1) :: ps /\ (w = cl.1 \/ has_var cl.2 w)) /\
      (forall v i, subst_get s v = Some i -> settled_id g i) /\
      subst_get s v1 = Some c /\ Forall (holds g (subst_get s)) ((v1, p1) :: ps)) /\
    (cycles = true -> forall sg, (forall v i, sg v = Some i -> known g i) -> Forall (holds g sg) ((v1, p1) :: ps) ->
      exists c s, (c, s) ∈ all /\ forall w cl, cl ∈ (v1, p1) :: ps -> w = cl.1 \/ has_var cl.2 w -> subst_get s w = eg_find g <$> sg w).
Proof.
  intros Ec Hcl Hop E. pose proof (se_inv _ _ G) as I.
  set (cs := class_ids it g). assert (Hcs : NoDup cs) by (by apply (class_ids_nodup L it Hit g G)).
  assert (Hset : forall c, c ∈ cs <-> settled_id g c) by (intros c; by apply (class_ids_elem L it Hit g G)).
  destruct (Forall2_exists (fun c all => (forall k, multi_search_eclass L it cycles mp g c k = Ok (wrap c (take k all))) /\
    NoDup all /\ (forall s, s ∈ all -> NoDup s.*1 /\
      (forall w, is_Some (subst_get s w) <-> exists cl, cl ∈ (v1, p1) :: ps /\ (w = cl.1 \/ has_var cl.2 w)) /\
      (forall v i, subst_get s v = Some i -> settled_id g i) /\ subst_get s v1 = Some c /\ Forall (holds g (subst_get s)) ((v1, p1) :: ps)) /\
    (cycles = true -> forall sg, (forall v i, sg v = Some i -> known g i) ->
      eg_find g <$> sg v1 = Some c -> Forall (holds g sg) ((v1, p1) :: ps) ->
      exists s, s ∈ all /\ forall w cl, cl ∈ (v1, p1) :: ps -> w = cl.1 \/ has_var cl.2 w -> subst_get s w = eg_find g <$> sg w)) cs) as [alls Halls].
  { intros c Hc. destruct (proj1 (Hset c) Hc) as [Hkc Hfc].
    destruct (multi_class cycles _ _ _ _ _ c Ec Hcl Hop E Hkc) as (all & H1 & H2 & _ & H3 & H4).
    assert (Hcan : forall s, s ∈ all -> forall v, eg_find g <$> subst_get s v = subst_get s v).
    { intros s Hs v. destruct (subst_get s v) as [i|] eqn:Ei; [|done]. cbn. f_equal. eapply (H3 s Hs); [exact Ei|by split]. }
    rewrite Hfc in *. exists all. split_and!; auto.
    - intros s Hs. destruct (H3 s Hs) as (? & ? & H5 & Hv & ?). split_and!; auto.
      + intros v i Hi. eapply H5; [exact Hi|by split].
      + by rewrite <- (Hcan s Hs).
    - intros Hcy sg Hk Hv Hp. destruct (H4 Hcy sg Hk Hv Hp) as (s & Hs & Heq). exists s. split; [done|]. intros w cl Hin Hw.
      rewrite <- (Heq w cl) by done. symmetry. by apply Hcan. }
  exists (concat (zip_with (fun c all => (fun s => (c, s)) <$> all) cs alls)).
  assert (Hel : forall c s, (c, s) ∈ concat (zip_with (fun c all => (fun s => (c, s)) <$> all) cs alls) <->
    exists q all, cs !! q = Some c /\ alls !! q = Some all /\ s ∈ all) by (intros; apply elem_of_zip_pairs).
  split_and!.
  - intros k. destruct (search_eclasses_ok (multi_search_eclass L it cycles mp g) cs alls) with (k := k) as (ms & E1 & E2 & E3 & E4).
    { eapply Forall2_impl; [exact Halls|]. by intros c all (Hrun & _). }
    exists ms. split_and!; auto. by eapply sublist_nodup.
  - apply zip_pairs_nodup; [done|]. intros q c all H1 H2. apply (Forall2_lookup_lr _ _ _ _ _ _ Halls H1 H2).
  - intros c s (q & all & H1 & H2 & H3)%Hel. destruct (Forall2_lookup_lr _ _ _ _ _ _ Halls H1 H2) as (_ & _ & Hs & _).
    destruct (Hs s H3) as (? & ? & ? & ? & ?). split_and!; auto. eapply Hset, elem_of_list_lookup_2, H1.
  - intros Hcy sg Hk Hp. pose proof Hp as Hp1. apply Forall_cons in Hp1 as [Hp1 _].
    destruct (holds_settled sg _ Hk Hp1) as (i & Hi & Hsi). cbn in Hi.
    pose proof (proj2 (Hset _) Hsi) as [q Hq]%elem_of_list_lookup.
    destruct (Forall2_lookup_l _ _ _ _ _ Halls Hq) as (all & H2 & _ & _ & _ & Hcomp). destruct (Hcomp Hcy sg Hk) as (s & Hs & Heq); [by rewrite Hi|done|].
    exists (eg_find g i), s. split; [|done]. apply Hel. eauto.
Qed.
End multi.
