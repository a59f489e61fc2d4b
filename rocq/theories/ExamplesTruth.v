(** Concrete data for PropertiesTruth.v: constant folding. *)
From Verif Require Import Base UnionFind EGraphModel Spec EGraphReach Terms RecExprModel RecExprProofs ExprModel PatSpec ExprProofs MachineModel MatchSpec RewriteModel RewriteProofs
  AlgSpec RuleSpec RunnerModel RunnerSpec TruthSpec Examples ExamplesExpr ExamplesMatch ExamplesRewrite ExamplesRun TruthProofs.

(** Operator 2 is successor, 5 addition, 10+v the constant v, 0 a variable of value 3. *)
Definition foldF (f : nat) (vs : list nat) : nat :=
  match vs with
  | [] => if f <? 10 then 3 else f - 10
  | [a] => if f =? 2 then S a else 0
  | [a; b] => if f =? 5 then a + b else 0
  | _ => 0
  end.
(** [Some v] says that the value is [v]. *)
Definition is_const (d : option nat) (x : nat) : Prop := forall v, d = Some v -> x = v.
Lemma cf_data_class g i d : class_data g i = Some d -> cf_data g i = d.
Proof. unfold class_data, cf_data. destruct (eg_classes g !! eg_find g i); [|done]. cbn. congruence. Qed.
Lemma cf_make_sound g n i ds xs : class_data g <$> nch n = Some <$> ds -> Forall2 is_const ds xs -> is_const (cf_make g n i) (foldF (nop n) xs).
Proof.
  intros Hds Hx v. unfold cf_make. destruct n as [f cs]. cbn [nop nch] in *.
  destruct cs as [|c cs]; [destruct ds; [|done]; inversion Hx; subst; cbn|].
  - assert (E : (match f with 2 => if f <? 10 then None else Some (f - 10) | _ => if f <? 10 then None else Some (f - 10) end) = (if f <? 10 then None else Some (f - 10))) by (by destruct f as [|[|[|f]]]).
    destruct f as [|[|[|f]]]; cbn; try done. destruct (f <=? 6); congruence.
  - destruct cs as [|c' cs]; [|by destruct f as [|[|[|f]]]].
    destruct ds as [|d [|]]; [done| |done]. injection Hds as Hd. apply cf_data_class in Hd.
    inversion Hx as [|? x ? ? Hx1 Hx2]; subst. inversion Hx2; subst.
    destruct f as [|[|[|f]]]; try done. cbn. destruct (cf_data g c) as [u|]; [|done]. cbn. intros [= <-]. f_equal. by apply Hx1.
Qed.
Lemma foldan_sound : sound_analysis foldan foldF is_const.
Proof.
  split; [exact cf_make_sound|exact cf_make_sound|]. intros a b d fl x E Ha Hb. unfold foldan, cf_merge in E. cbn in E.
  destruct a, b; injection E as <- <-; auto.
Qed.
Lemma foldan_hook : truthful_hook foldan foldF is_const.
Proof.
  intros id N nu g S HN. cbn [foldan an_modify cf_modify truthful]. destruct (cf_data g id) as [v|] eqn:E; [|done].
  assert (Hd : class_data g id = Some (Some v)).
  { unfold cf_data in E. unfold class_data. destruct (eg_classes g !! eg_find g id) as [c|]; [|done]. cbn in *. by rewrite E. }
  destruct (ts_data _ _ _ _ S id _ Hd) as [Hk Hs]. intros M nu' HM Ha i Hi Hv. split; [|done].
  rewrite Ha by exact Hk. rewrite (Hs v eq_refl), Hv. cbn. by destruct v.
Qed.

(** x, 3, and x = 3; a look at the data, trusted: 4 is the successor of x. *)
Lemma foldp_true nu : truthful foldF is_const 0 nu foldp.
Proof.
  intros M1 nu1 _ _ x Hx Ex. intros M2 nu2 H2 A2 sx Hsx _. intros M3 nu3 H3 A3 ssx Hssx _. intros M4 nu4 H4 A4 c Hc Ec. split; [|done].
  rewrite A4, A3, A2 by lia. rewrite Ex, Ec. done.
Qed.

(** f(?0,?1) => ?0 if the data of ?1 is the constant 0; f(?0,?1) folded by a custom applier. *)
Definition zero_rule : rewrite nat (option nat) :=
  Rewrite 1 (SPattern (compiled pat_f01))
    (ACond (CFn [1] (fun _ _ => PRet) (fun _ s g => match subst_get s 1 with Some i => bool_decide (cf_data g i = Some 0) | None => false end))
           (APattern [Node (PVar 0) []])).
Definition fold_body (e : nat) (s : subst) : prog nat (option nat) :=
  PLook (fun g => match subst_get s 0 ≫= cf_data g, subst_get s 1 ≫= cf_data g with
                  | Some a, Some b => PAdd (Node (10 + (a + b)) []) (fun j => PUnion e j 2 (fun _ => PRet))
                  | _, _ => PRet end).
Definition fold_rule : rewrite nat (option nat) :=
  Rewrite 2 (SPattern (compiled pat_f01)) (AFn [0; 1] fold_body (fun e _ _ => [e])).
Definition fold_rules : list (rewrite nat (option nat)) := [zero_rule; fold_rule].
Lemma const_class nu g i v : true_state foldF is_const nu g -> cf_data g i = Some v -> nu i = v.
Proof.
  intros S E. assert (Hd : class_data g i = Some (Some v)).
  { unfold cf_data in E. unfold class_data. destruct (eg_classes g !! eg_find g i) as [c|]; [|done]. cbn in *. by rewrite E. }
  destruct (ts_data _ _ _ _ S i _ Hd) as [_ Hs]. by apply Hs.
Qed.
Lemma var0_tree : ExprTree [Node (PVar (Op := nat) 0) []] (TNode (PVar 0) []).
Proof. et. Qed.
Lemma fold_rules_true : Forall (rule_true foldF is_const) fold_rules.
Proof.
  assert (Ht : ExprTree (pt_ast (compiled pat_f01)) pat_f01_t).
  { assert (pt_ast (compiled pat_f01) = pat_f01) as -> by (vm_compute; reflexivity). apply pat_f01_tree'. }
  constructor; [|constructor; [|constructor]]; unfold rule_true; cbn [applier_true rw_applier rw_searcher zero_rule fold_rule premise].
  - exists (fun _ th => th 1 = 0). split.
    + split; [done|]. intros e s g nu S _ _. destruct (subst_get s 1) as [i|] eqn:E1; [|done]. intros Hd%bool_decide_eq_true.
      unfold value_of. rewrite E1. by eapply const_class.
    + intros t x th Hp [Hx H1]. rewrite (Hx _ Ht), (ExprTree_fun _ _ _ Hp var0_tree). cbn. lia.
  - intros e s N nu Hkn Hx g S HN. destruct (subst_get s 0) as [i|] eqn:E0; cbn; [|done]. destruct (cf_data g i) as [a|] eqn:Ea; [|done].
    destruct (subst_get s 1) as [j|] eqn:E1; cbn; [|done]. destruct (cf_data g j) as [b|] eqn:Eb; [|done].
    intros M nu' HM Ha k Hk Ek. split; [|done]. rewrite Ek, Ha by (destruct Hkn; lia). specialize (Hx _ Ht). cbn in Hx. unfold value_of in Hx. rewrite E0, E1 in Hx.
    rewrite Hx. rewrite (const_class nu g i a S Ea), (const_class nu g j b S Eb). cbn. by destruct (a + b).
Qed.
Lemma var0_good : good_ast [Node (PVar (Op := nat) 0) []].
Proof. good. Qed.
Lemma fold_rules_built : Forall (rule_built ord0) fold_rules.
Proof.
  constructor; [|constructor; [|constructor]]; (split; [apply pat_f01_built|]).
  - split; [done|apply var0_good].
  - intros e s. cbn. intros g. destruct (subst_get s 0 ≫= cf_data g); [|done]. destruct (subst_get s 1 ≫= cf_data g); [|done]. done.
Qed.
(** x, 0, 3, f(x,0), f(3,3), 6 *)
Definition truthp : prog nat (option nat) :=
  PAdd (Node 0 []) (fun x => PAdd (Node 10 []) (fun z => PAdd (Node 13 []) (fun c =>
  PAdd (Node 5 [x; z]) (fun _ => PAdd (Node 5 [c; c]) (fun _ => PAdd (Node 16 []) (fun _ => PRebuild (fun _ => PRet))))))).
Definition truth_g : egraph nat (option nat) := ok_of (eg_new false) (session natlang foldan 20 false truthp).
Lemma truth_g_session : session natlang foldan 20 false truthp = Ok truth_g.
Proof. apply is_ok_eq. vm_compute. reflexivity. Qed.
Lemma foldan_np i : no_prune (an_modify foldan i).
Proof. cbn. intros g. by destruct (cf_data g i). Qed.
Lemma truth_g_np : reachable_np natlang foldan false truth_g.
Proof. apply (session_reachable_np _ _ 20 _ truthp); [exact foldan_np|done|apply truth_g_session]. Qed.
Definition truth_nu (i : nat) : nat := match i with 0 => 3 | 1 => 0 | 2 => 3 | 3 => 3 | _ => 6 end.
Lemma truth_g_log : eg_log truth_g =
  [EAdd (Node 16 []) 5; EUnion 5 5 0; EAdd (Node 16 []) 5; EAdd (Node 5 [2; 2]) 4; EAdd (Node 5 [0; 1]) 3; EAdd (Node 13 []) 2; EUnion 2 2 0;
   EAdd (Node 13 []) 2; EAdd (Node 10 []) 1; EUnion 1 1 0; EAdd (Node 10 []) 1; EAdd (Node 0 []) 0].
Proof. vm_compute. reflexivity. Qed.
Lemma truth_g_models : models foldF truth_nu (eg_log truth_g).
Proof.
  rewrite truth_g_log. split.
  - intros f cs i Hi. repeat (apply elem_of_cons in Hi as [Hi|Hi]; [first [injection Hi as -> -> ->; reflexivity|discriminate Hi]|]). by apply elem_of_nil in Hi.
  - intros a b r Hi. repeat (apply elem_of_cons in Hi as [Hi|Hi]; [first [injection Hi as -> -> ->; reflexivity|discriminate Hi]|]). by apply elem_of_nil in Hi.
Qed.
Lemma truth_g_dats : class_data truth_g <$> [0; 1; 2; 3; 4; 5] = Some <$> [None; Some 0; Some 3; None; None; Some 6].
Proof. vm_compute. reflexivity. Qed.
Lemma truth_g_len : length (eg_uf truth_g) = 6.
Proof. vm_compute. reflexivity. Qed.
Lemma dats_true nu n (g : egraph nat (option nat)) ds : reachable natlang foldan false g -> length (eg_uf g) = n ->
  class_data g <$> seq 0 n = Some <$> ds -> Forall2 is_const ds (nu <$> seq 0 n) -> data_true is_const nu g.
Proof.
  intros R Hn Hds Hf i d Hd. pose proof (reachable_Inv _ _ _ _ R) as I.
  pose proof (dat_known g i d I Hd) as Hi. rewrite (EGraphPres.iv_len _ I), Hn in Hi.
  assert (Hs : seq 0 n !! i = Some i) by (by apply lookup_seq).
  assert (Hl : (class_data g <$> seq 0 n) !! i = Some (Some d)) by (rewrite list_lookup_fmap, Hs; cbn; by rewrite Hd).
  rewrite Hds, list_lookup_fmap in Hl. destruct (ds !! i) as [d'|] eqn:Ed; [|done]. cbn in Hl. injection Hl as ->.
  destruct (Forall2_lookup_l _ _ _ _ _ Hf Ed) as (x & Hx & Hc). rewrite list_lookup_fmap, Hs in Hx. cbn in Hx. by injection Hx as <-.
Qed.
Lemma truth_g_data : data_true is_const truth_nu truth_g.
Proof.
  eapply (dats_true truth_nu 6); [by eapply reachable_np_reachable, truth_g_np|exact truth_g_len|exact truth_g_dats|].
  repeat constructor; intros v; cbn; congruence.
Qed.
Definition fold_sch : scheduler nat (option nat) unit := simple_scheduler natlang it0 true 8.
Definition fold_run : res (option (runner nat (option nat) unit unit)) :=
  run natlang foldan (fun k => k) fold_sch li0 fold_rules 20 9 [] 6 [] truth_g () ().
Definition fold_idle : runner nat (option nat) unit unit := Runner (eg_new false) [] [] None () () 0.
Definition fold_r : runner nat (option nat) unit unit := run_of fold_idle fold_run.
Lemma fold_run_eq : fold_run = Ok (Some fold_r).
Proof. apply run_of_eq. vm_compute. reflexivity. Qed.
