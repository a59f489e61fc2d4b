(** Runs and rules used by the examples in PropertiesDerive.v. *)
From Verif Require Import Base UnionFind EGraphModel EGraphPres Spec EGraphReach Terms RecExprModel RecExprProofs
  ExprModel PatSpec ExprProofs MachineModel MatchSpec RewriteModel AlgSpec RuleSpec RuleProps RunnerModel RunnerSpec BackoffSpec BackoffProofs
  ExplainModel ExplainSpec ExplainMain OptimumSpec OptimumRun DeriveSpec
  Examples ExamplesExpr ExamplesMatch ExamplesRewrite ExamplesRun ExamplesExtract ExamplesCheck ExamplesOptimum.

(** g(f(?0,?1)) => f(?0,?1), undoing the conditional rule. *)
Definition uncond : rewrite nat unit := Rewrite 3 (SPattern (compiled pat_gf)) (APattern pat_f01).
Definition rules1 : list (rewrite nat unit) := [comm; cond_rule; uncond].
Lemma pat_gf_rooted : rooted pat_gf.
Proof.
  intros [|[|[|i]]] Hi; cbn in Hi; [exists 2, (Node (POp 5) [0; 1])|exists 2, (Node (POp 5) [0; 1])|exists 3, (Node (POp 6) [2])|lia];
    (split; [reflexivity|]); cbn; repeat constructor.
Qed.
Lemma pat_gf_built : searcher_built ord0 (SPattern (compiled pat_gf)).
Proof. exists 50, pat_gf. split; [apply pat_gf_good|]. split; [apply pat_gf_rooted|apply pat_gf_new]. Qed.
Lemma rules1_built : Forall (rule_built ord0) rules1.
Proof.
  pose proof rules0_built as Hall. inversion Hall as [|? ? H1 Hall']. inversion Hall' as [|? ? H2 _].
  constructor; [exact H1|]. constructor; [exact H2|]. constructor; [|constructor]. split; [apply pat_gf_built|apply pat_f01_good].
Qed.
Lemma rules1_standard : Forall (fun rw => standard_applier (rw_applier rw)) rules1.
Proof.
  pose proof rules0_standard as Hall. inversion Hall as [|? ? H1 Hall']. inversion Hall' as [|? ? H2 _].
  constructor; [exact H1|]. constructor; [exact H2|]. constructor; [|constructor]. apply pat_f01_good.
Qed.
Lemma comm_pattern : pattern_rule comm.
Proof. exists (compiled pat_f01), [], pat_f10_t. split; [reflexivity|]. constructor. apply pat_f10_tree. Qed.
Lemma cond_pattern : pattern_rule cond_rule.
Proof.
  exists (compiled pat_f01), [(pat_f01_t, pat_f10_t)], pat_gf_t. split; [reflexivity|].
  constructor; [apply pat_f01_tree'|apply pat_f10_tree|]. constructor. apply pat_gf_tree'.
Qed.
Lemma uncond_pattern : pattern_rule uncond.
Proof. exists (compiled pat_gf), [], pat_f01_t. split; [reflexivity|]. constructor. apply pat_f01_tree'. Qed.
Lemma rules0_pattern : Forall pattern_rule rules0.
Proof. constructor; [apply comm_pattern|]. constructor; [apply cond_pattern|constructor]. Qed.
Lemma rules1_pattern : Forall pattern_rule rules1.
Proof. constructor; [apply comm_pattern|]. constructor; [apply cond_pattern|]. constructor; [apply uncond_pattern|constructor]. Qed.

Lemma guarded_pat (p : list (node (pop nat))) conds r : guarded (Op := nat) (D := unit) (APattern p) conds r -> conds = [] /\ ExprTree p r.
Proof. inversion 1; subst; done. Qed.
Lemma guarded_two (p1 p2 p : list (node (pop nat))) conds r : guarded (Op := nat) (D := unit) (ACond (CEqual p1 p2) (APattern p)) conds r -> ExprTree p r.
Proof. inversion 1 as [|? ? ? ? ? ? ? ? ? Hg]; subst. by apply guarded_pat in Hg as [_ Hg]. Qed.
Lemma comm_rewrites1 a b : rewrites rules1 (ft a b) (ft b a).
Proof. apply comm_rewrites. left. Qed.
Lemma cond_rewrites1 a b : rewrites rules1 (ft a b) (gt (ft a b)).
Proof.
  apply (rewrites_rule rules1 cond_rule (compiled pat_f01) pat_f01_t [(pat_f01_t, pat_f10_t)] pat_gf_t (two a b) (fun _ => ft b a)).
  - right. left.
  - reflexivity.
  - apply pat_f01_tree.
  - constructor; [apply pat_f01_tree'|apply pat_f10_tree|]. constructor. apply pat_gf_tree'.
  - intros [|k] t1 t2 Hk; [|done]. injection Hk as <- <-. apply comm_rewrites1.
  - intros [|k] t1 t2 Hk; [|done]. injection Hk as <- <-. apply rewrites_refl.
Qed.
Lemma uncond_rewrites1 a b : rewrites rules1 (gt (ft a b)) (ft a b).
Proof.
  apply (rewrites_rule rules1 uncond (compiled pat_gf) pat_gf_t [] pat_f01_t (two a b) (fun _ => a)).
  - right. right. left.
  - reflexivity.
  - apply pat_gf_tree.
  - constructor. apply pat_f01_tree'.
  - intros k t1 t2 Hk. done.
  - intros k t1 t2 Hk. done.
Qed.
Lemma rules1_undoable : undoable rules1.
Proof.
  intros rw p l conds r th w Hin Hp Hl Hg _.
  apply elem_of_cons in Hin as [->|Hin]; [|apply elem_of_cons in Hin as [->|Hin]; [|apply elem_of_list_singleton in Hin as ->]].
  - assert (Ep : pt_ast p = pt_ast (compiled pat_f01)) by (cbn [rw_searcher comm] in Hp; congruence). rewrite Ep in Hl.
    apply guarded_pat in Hg as [_ Hr]. rewrite (ExprTree_fun _ _ _ Hl pat_f01_tree), (ExprTree_fun _ _ _ Hr pat_f10_tree).
    cbn [tsubst pat_f01_t pat_f10_t fmap list_fmap]. apply comm_rewrites1.
  - assert (Ep : pt_ast p = pt_ast (compiled pat_f01)) by (cbn [rw_searcher cond_rule] in Hp; congruence). rewrite Ep in Hl.
    apply guarded_two in Hg. rewrite (ExprTree_fun _ _ _ Hl pat_f01_tree), (ExprTree_fun _ _ _ Hg pat_gf_tree').
    cbn [tsubst pat_f01_t pat_gf_t fmap list_fmap]. apply uncond_rewrites1.
  - assert (Ep : pt_ast p = pt_ast (compiled pat_gf)) by (cbn [rw_searcher uncond] in Hp; congruence). rewrite Ep in Hl.
    apply guarded_pat in Hg as [_ Hr]. rewrite (ExprTree_fun _ _ _ Hl pat_gf_tree), (ExprTree_fun _ _ _ Hr pat_f01_tree').
    cbn [tsubst pat_f01_t pat_gf_t fmap list_fmap]. apply cond_rewrites1.
Qed.

Definition undo_run : res (option (runner nat unit unit unit)) :=
  run natlang unitan (fun k => k) simple8 li0 rules1 20 9 [] 6 [5] (rw_g false) () ().
Definition undo_r : runner nat unit unit unit := run_of (idle_runner ()) undo_run.
Lemma undo_run_eq : undo_run = Ok (Some undo_r).
Proof. apply run_of_eq. vm_compute. reflexivity. Qed.
Lemma rw_g_new a b q : EUnion a b q ∉ eg_log (rw_g false).
Proof.
  rewrite (added_log false). cbn [rev app]. intros Hi. repeat (apply elem_of_cons in Hi as [Hi|Hi]; [discriminate Hi|]). by apply elem_of_nil in Hi.
Qed.
Lemma rw_reps : Rep (rw_g false) (ft xt yt) (eg_find (rw_g false) 2) /\ Rep (rw_g false) (gt (ft yt xt)) (eg_find (rw_g false) 5).
Proof.
  destruct (rw_added false) as (H1 & _ & H3). split.
  - exact (added_rep natlang unitan false (rw_g false) 2 _ (rw_g_np false) H1).
  - exact (added_rep natlang unitan false (rw_g false) 5 _ (rw_g_np false) H3).
Qed.
Lemma rw_rep_x : Rep (rw_g false) xt (eg_find (rw_g false) 0).
Proof.
  refine (added_rep natlang unitan false (rw_g false) 0 _ (rw_g_np false) _). rewrite (added_log false). cbn [rev app].
  eapply added; [do 5 right; left|constructor].
Qed.
(** After the run with commutativity and the conditional rule, one class has f(x,y) and g(f(y,x)). *)
Lemma sat_reps : Rep (r_eg sat_r) (ft xt yt) (eg_find (r_eg sat_r) 2) /\ Rep (r_eg sat_r) (gt (ft yt xt)) (eg_find (r_eg sat_r) 5).
Proof.
  split; (eapply (run_represents natlang unitan ord0 (fun k => k) simple8 li0 rules0 20 9 ([] : list (hook nat unit unit)) false rules0_built (Forall_nil_2 _) 6 [5] (rw_g false) () () sat_r
    (rw_g_np false) sat_run_eq); apply rw_reps).
Qed.
Lemma sat_same : eg_find (r_eg sat_r) 2 = eg_find (r_eg sat_r) 5.
Proof. vm_compute. reflexivity. Qed.
Lemma sat_together : Rep (r_eg sat_r) (ft xt yt) (eg_find (r_eg sat_r) 2) /\ Rep (r_eg sat_r) (gt (ft yt xt)) (eg_find (r_eg sat_r) 2).
Proof. split; [apply sat_reps|]. rewrite sat_same. apply sat_reps. Qed.
