(** Examples for PropertiesQuery.v. *)
From Coq Require Import NArith String.
From Verif Require Import Base EGraphModel Spec EGraphReach Terms RecExprModel RecExprProofs ExprModel PatSpec ExprProofs MachineModel MatchSpec ExtractModel TextModel TextSpec TextMain
  QueryModel QuerySpec QueryAlpha Examples ExamplesExpr ExamplesMatch ExamplesText.

(** f(x,y) and f(y,x), equal in [match_g]; f(x,g(x)) is not there *)
Definition e_fxy : list (node nat) := [Node 0 []; Node 1 []; Node 5 [0; 1]].
Definition e_fyx : list (node nat) := [Node 1 []; Node 0 []; Node 5 [0; 1]].
Definition t_fxy : term nat := TNode 5 [TNode 0 []; TNode 1 []].
Definition t_fyx : term nat := TNode 5 [TNode 1 []; TNode 0 []].
Lemma e_fxy_ok : dag e_fxy /\ rooted e_fxy /\ ExprTree e_fxy t_fxy.
Proof.
  split; [apply rx_is_dag_dag; reflexivity|]. split; [|unfold e_fxy, t_fxy; et].
  intros [|[|i]] Hi; [exists 2, (Node 5 [0; 1]); split; [done|left]|exists 2, (Node 5 [0; 1]); split; [done|right; left]|cbn in Hi; lia].
Qed.
Lemma e_fyx_ok : dag e_fyx /\ rooted e_fyx /\ ExprTree e_fyx t_fyx.
Proof.
  split; [apply rx_is_dag_dag; reflexivity|]. split; [|unfold e_fyx, t_fyx; et].
  intros [|[|i]] Hi; [exists 2, (Node 5 [0; 1]); split; [done|left]|exists 2, (Node 5 [0; 1]); split; [done|right; left]|cbn in Hi; lia].
Qed.
Lemma equivs_run : equivs natlang it0 true ord0 50 50 match_g e_fxy e_fyx = Ok [2].
Proof. vm_compute. reflexivity. Qed.
Lemma equivs_run_none : equivs natlang it0 true ord0 50 50 match_g e_fxy [Node 6 [1]; Node 0 []] = Panic.
Proof. vm_compute. reflexivity. Qed.
Lemma equivs_run_empty : equivs natlang it0 true ord0 50 50 match_g e_fxy [Node 0 []] = Ok [].
Proof. vm_compute. reflexivity. Qed.

(** Goals f(?0,?1) and g(f(?0,?1)) for the classes of f(x,y) and g(f(x,y)). *)
Lemma pat_f01_stands : stands_for ord0 (compiled pat_f01) pat_f01_t.
Proof. exists 50, pat_f01. exact (conj pat_f01_good (conj pat_f01_new pat_f01_tree)). Qed.
Lemma pat_f00_stands : stands_for ord0 (compiled pat_f00) pat_f00_t.
Proof. exists 50, pat_f00. exact (conj pat_f00_good (conj pat_f00_new pat_f00_tree)). Qed.
Lemma pat_gf_stands : stands_for ord0 (compiled pat_gf) pat_gf_t.
Proof. exists 50, pat_gf. exact (conj pat_gf_good (conj pat_gf_new pat_gf_tree)). Qed.
Lemma goals_met : check_goals natlang it0 true 64 50 50 match_g (map_to_list (eg_classes match_g)).*1 (map_to_list (eg_classes match_g)).*1 2 [compiled pat_f01; compiled pat_f00] = Ok tt.
Proof. vm_compute. reflexivity. Qed.
Lemma goals_missed : check_goals natlang it0 true 64 50 50 match_g (map_to_list (eg_classes match_g)).*1 (map_to_list (eg_classes match_g)).*1 2 [compiled pat_f01; compiled pat_gf] = Panic.
Proof. vm_compute. reflexivity. Qed.

(** (+ ?b ?a) twice: the variables listed in the order of occurrence, and in the other order *)
Definition v_a : var := VSym (txt "?a").
Definition v_b : var := VSym (txt "?b").
Definition v_x : var := VSym (txt "?x").
Definition v_y : var := VSym (txt "?y").
Definition ast_ab : list (node (vop nat)) := [Node (VVar v_a) []; Node (VVar v_b) []; Node (VOp 5) [0; 1]].
Definition ast_ba : list (node (vop nat)) := [Node (VVar v_b) []; Node (VVar v_a) []; Node (VOp 5) [1; 0]].
Definition ast_xy : list (node (vop nat)) := [Node (VVar v_x) []; Node (VVar v_y) []; Node (VOp 5) [0; 1]].
Definition ast_yx : list (node (vop nat)) := [Node (VVar v_x) []; Node (VVar v_y) []; Node (VOp 5) [1; 0]].
Definition term_ab : term (vop nat) := TNode (VOp 5) [TNode (VVar v_a) []; TNode (VVar v_b) []].
Lemma ast_ab_ok : pattern_ast ast_ab.
Proof. split; [apply rx_is_dag_dag; reflexivity|]. unfold ast_ab. constructor; [done|]. constructor; [done|]. constructor; [|done]. cbn. intros [v Hv]. discriminate Hv. Qed.
Lemma ast_ba_ok : pattern_ast ast_ba.
Proof. split; [apply rx_is_dag_dag; reflexivity|]. unfold ast_ba. constructor; [done|]. constructor; [done|]. constructor; [|done]. cbn. intros [v Hv]. discriminate Hv. Qed.
Lemma alpha_ab : alpha_rename ast_ab = Ok ast_xy.
Proof. vm_compute. reflexivity. Qed.
Lemma alpha_ba : alpha_rename ast_ba = Ok ast_yx.
Proof. vm_compute. reflexivity. Qed.
Lemma ast_ab_tree : ExprTree ast_ab term_ab.
Proof. unfold ast_ab, term_ab. et. Qed.
Lemma ast_ba_tree : ExprTree ast_ba term_ab.
Proof. unfold ast_ba, term_ab. et. Qed.
Lemma ab_variant : variant ast_ab ast_xy.
Proof. destruct (alpha_total ast_ab ast_ab_ok) as (q & E & V & _). rewrite alpha_ab in E. injection E as <-. exact V. Qed.
Lemma terms_refuted : exists (p q : list (node (vop nat))) (t : term (vop nat)), pattern_ast p /\ pattern_ast q /\ ExprTree p t /\ ExprTree q t /\ alpha_rename p <> alpha_rename q.
Proof.
  exists ast_ab, ast_ba, term_ab. split; [exact ast_ab_ok|]. split; [exact ast_ba_ok|]. split; [exact ast_ab_tree|]. split; [exact ast_ba_tree|].
  rewrite alpha_ab, alpha_ba. discriminate.
Qed.
(** Texts of patterns. *)
Definition parsed (s : string) := match parse_expr (vfrom_op sym_from_op) 50 (txt s) with Ok (inr e) => rx_compact e | _ => Panic end.
Lemma parse_same : (e ← parsed "(+ ?b (mul ?a ?a))"; alpha_rename e) = (e ← parsed "(+ ?p (mul ?q ?q))"; alpha_rename e) /\
  (e ← parsed "(+ ?b (mul ?a ?a))"; alpha_rename e) <> (e ← parsed "(+ ?p (mul ?q ?p))"; alpha_rename e) /\ exists e, (e ← parsed "(+ ?b (mul ?a ?a))"; alpha_rename e) = Ok e.
Proof. split; [vm_compute; reflexivity|]. split; [vm_compute; discriminate|]. eexists. vm_compute. reflexivity. Qed.
Lemma mkvars : mkvar <$> [0; 1; 2; 3; 4; 5; 16] = [Ok v_x; Ok v_y; Ok (VSym (txt "?z")); Ok (VSym (txt "?w")); Ok (VSym (txt "?v0")); Ok (VSym (txt "?v1")); Ok (VSym (txt "?v12"))].
Proof. vm_compute. reflexivity. Qed.

(** A pattern with a variable, one without, classes with one leaf and with two *)
Lemma try_from_runs : expr_from [Node (POp 0) []; Node (PVar 7) []; Node (PVar 8) []; Node (POp 5) [0; 1]] = inr 7 /\
  expr_from (embed_node <$> e_fxy) = inl e_fxy.
Proof. split; vm_compute; reflexivity. Qed.
Lemma leaves_run : assert_unique_leaves (EClass 0 [Node 0 []; Node 5 [0; 0]; Node 0 []] tt []) = Ok tt /\
  assert_unique_leaves (EClass 0 [Node 0 []; Node 5 [0; 0]; Node 1 []] tt []) = Panic.
Proof. split; vm_compute; reflexivity. Qed.
