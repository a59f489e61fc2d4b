(** Runs and rewrites used by the examples in PropertiesOptimum.v. *)
From Verif Require Import Base UnionFind EGraphModel EGraphPres Spec EGraphReach Terms RecExprModel RecExprProofs
  ExprModel PatSpec ExprProofs MachineModel MatchSpec RewriteModel AlgSpec RuleSpec RuleProps RunnerModel RunnerSpec BackoffSpec BackoffProofs
  ExplainModel ExplainSpec ExplainMain CheckModel CheckSpec ExtractModel ExtractSpec OptimumSpec
  Examples ExamplesExpr ExamplesMatch ExamplesRewrite ExamplesRun ExamplesExtract ExamplesCheck.

Definition xt : term nat := TNode 0 [].
Definition yt : term nat := TNode 1 [].
Definition ft (a b : term nat) : term nat := TNode 5 [a; b].
Definition gt (a : term nat) : term nat := TNode 6 [a].
Definition two (a b : term nat) (v : nat) : term nat := match v with 0 => a | _ => b end.

Lemma comm_rewrites (rules : list (rewrite nat unit)) a b : comm ∈ rules -> rewrites rules (ft a b) (ft b a).
Proof.
  intros Hin. apply (rewrites_rule rules comm (compiled pat_f01) pat_f01_t [] pat_f10_t (two a b) (fun _ => a) Hin eq_refl pat_f01_tree).
  - constructor. apply pat_f10_tree.
  - intros k t1 t2 Hk. done.
  - intros k t1 t2 Hk. done.
Qed.
Lemma inside_g (rules : list (rewrite nat unit)) a b : rewrites rules a b -> rewrites rules (gt a) (gt b).
Proof. intros Ha. apply rewrites_inside; [done|]. intros [|k] t u Ht Hu; [|done]. injection Ht as <-. injection Hu as <-. exact Ha. Qed.
Lemma comm_in : comm ∈ rules0.
Proof. left. Qed.
(** The condition f(?0,?1) = f(?1,?0) holds by the first rule. *)
Lemma cond_rewrites a b : rewrites rules0 (ft a b) (gt (ft a b)).
Proof.
  apply (rewrites_rule rules0 cond_rule (compiled pat_f01) pat_f01_t [(pat_f01_t, pat_f10_t)] pat_gf_t (two a b) (fun _ => ft b a)).
  - right. left.
  - reflexivity.
  - apply pat_f01_tree.
  - constructor; [apply pat_f01_tree'|apply pat_f10_tree|]. constructor. apply pat_gf_tree'.
  - intros [|k] t1 t2 Hk; [|done]. injection Hk as <- <-. apply comm_rewrites, comm_in.
  - intros [|k] t1 t2 Hk; [|done]. injection Hk as <- <-. apply rewrites_refl.
Qed.
Lemma chain : rewrites rules0 (gt (ft xt yt)) (gt (gt (ft yt xt))).
Proof.
  eapply rewrites_trans; [apply inside_g, cond_rewrites|]. apply inside_g, inside_g, comm_rewrites, comm_in.
Qed.

Lemma added_log (ex : bool) : eg_log (rw_g ex) = rev [EAdd (Node 0 []) 0; EAdd (Node 1 []) 1; EAdd (Node 5 [0; 1]) 2; EAdd (Node 5 [1; 0]) 3; EAdd (Node 6 [2]) 4; EAdd (Node 6 [3]) 5].
Proof. destruct ex; vm_compute; reflexivity. Qed.
Lemma rw_added ex : AddedAs (eg_log (rw_g ex)) 2 (ft xt yt) /\ AddedAs (eg_log (rw_g ex)) 4 (gt (ft xt yt)) /\ AddedAs (eg_log (rw_g ex)) 5 (gt (ft yt xt)).
Proof.
  rewrite (added_log ex). cbn [rev app].
  assert (X : AddedAs [EAdd (Node 6 [3]) 5; EAdd (Node 6 [2]) 4; EAdd (Node 5 [1; 0]) 3; EAdd (Node 5 [0; 1]) 2; EAdd (Node 1 []) 1; EAdd (Node 0 []) 0] 0 xt) by (eapply added; [do 5 right; left|constructor]).
  assert (Y : AddedAs [EAdd (Node 6 [3]) 5; EAdd (Node 6 [2]) 4; EAdd (Node 5 [1; 0]) 3; EAdd (Node 5 [0; 1]) 2; EAdd (Node 1 []) 1; EAdd (Node 0 []) 0] 1 yt) by (eapply added; [do 4 right; left|constructor]).
  assert (XY : AddedAs [EAdd (Node 6 [3]) 5; EAdd (Node 6 [2]) 4; EAdd (Node 5 [1; 0]) 3; EAdd (Node 5 [0; 1]) 2; EAdd (Node 1 []) 1; EAdd (Node 0 []) 0] 2 (ft xt yt)).
  { eapply added; [do 3 right; left|]. repeat constructor; assumption. }
  assert (YX : AddedAs [EAdd (Node 6 [3]) 5; EAdd (Node 6 [2]) 4; EAdd (Node 5 [1; 0]) 3; EAdd (Node 5 [0; 1]) 2; EAdd (Node 1 []) 1; EAdd (Node 0 []) 0] 3 (ft yt xt)).
  { eapply added; [do 2 right; left|]. repeat constructor; assumption. }
  split; [exact XY|]. split.
  - eapply added; [do 1 right; left|]. repeat constructor; assumption.
  - eapply added; [left|]. repeat constructor; assumption.
Qed.
Lemma rw_rep : Rep (rw_g false) (gt (ft xt yt)) (eg_find (rw_g false) 4).
Proof. exact (added_rep natlang unitan false (rw_g false) 4 _ (rw_g_np false) (proj1 (proj2 (rw_added false)))). Qed.

(** Sizes after the run, on a machine with 8 bits. *)
Definition sat_sizes := ok_of ∅ (extractor_new usize_pcmp (@ast_size nat 8) 9 (r_eg sat_r) (keys (r_eg sat_r))).
Lemma sat_sizes_eq : extractor_new usize_pcmp (@ast_size nat 8) 9 (r_eg sat_r) (keys (r_eg sat_r)) = Ok sat_sizes.
Proof. apply is_ok_eq. vm_compute. reflexivity. Qed.

(** Commutativity alone, with explanations. *)
Definition comm_run : res (option (runner nat unit unit unit)) :=
  run natlang unitan (fun k => k) simple8 li0 [comm] 20 9 [] 6 [5] (rw_g true) () ().
Definition comm_r : runner nat unit unit unit := run_of (idle_runner ()) comm_run.
Lemma comm_run_eq : comm_run = Ok (Some comm_r).
Proof. apply run_of_eq. vm_compute. reflexivity. Qed.
Lemma comm_reversible : reversible [comm].
Proof.
  intros rw p q l r th Hin Hp Hq Hl Hr. apply elem_of_list_singleton in Hin as ->.
  assert (Ep : pt_ast p = pt_ast (compiled pat_f01)) by (cbn [rw_searcher comm] in Hp; congruence). rewrite Ep in Hl.
  assert (Eq : q = pat_f10) by (cbn [rw_applier comm] in Hq; congruence). rewrite Eq in Hr.
  rewrite (ExprTree_fun _ _ _ Hl pat_f01_tree), (ExprTree_fun _ _ _ Hr pat_f10_tree).
  cbn [tsubst pat_f01_t pat_f10_t fmap list_fmap]. apply comm_rewrites. left.
Qed.
Lemma comm_accepted : Forall (accepted_rule (D := unit)) [comm].
Proof. pose proof rules0_accepted as Hall. inversion Hall as [|? ? Hc _]. constructor; [exact Hc|constructor]. Qed.
Lemma comm_built : Forall (rule_built (D := unit) ord0) [comm].
Proof. pose proof rules0_built as Hall. inversion Hall as [|? ? Hc _]. constructor; [exact Hc|constructor]. Qed.
Lemma comm_one : one_per_name [comm].
Proof. intros rw rw' H1 H2 _. apply elem_of_list_singleton in H1 as ->. apply elem_of_list_singleton in H2 as ->. done. Qed.
Lemma comm_plain : Forall plain_rule [comm].
Proof. constructor; [|constructor]. by exists (compiled pat_f01), pat_f10. Qed.
Lemma comm_not_here : not_a_rule [comm] 9.
Proof. intros rw lhs rhs Hin _. apply elem_of_list_singleton in Hin as ->. done. Qed.
Lemma rw_g_no_unions a b q : EUnion a b q ∉ eg_log (rw_g true).
Proof.
  rewrite (added_log true). cbn [rev app]. intros Hi. repeat (apply elem_of_cons in Hi as [Hi|Hi]; [discriminate Hi|]). by apply elem_of_nil in Hi.
Qed.
