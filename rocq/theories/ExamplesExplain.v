(** Concrete e-graphs for the non-vacuity examples about explanations. *)
From Verif Require Import Base EGraphModel Spec EGraphReach EGraphNoPanic PatSpec Terms RecExprModel ExprModel ExplainModel ExplainSpec ExplainMain ExplainModes Examples.

(** x = y for reason 7, z = y for reason 8, and the terms h(f(x), x), h(f(z), z) *)
Definition hx : list (node nat) := [Node 0 []; Node 4 [0]; Node 5 [1; 0]].
Definition hz : list (node nat) := [Node 2 []; Node 4 [0]; Node 5 [1; 0]].
Definition exp_cmds : list (tcmd nat) :=
  [TSame [Node 0 []] [Node 1 []] 7; TSame [Node 2 []] [Node 1 []] 8; TAdd hx; TAdd hz; TRebuild].
Definition exp_g (ex : bool) : egraph nat unit := ok_of (eg_new ex) (run_tcmds natlang unitan 20 exp_cmds (eg_new ex)).
Lemma exp_g_run ex : run_tcmds natlang unitan 20 exp_cmds (eg_new ex) = Ok (exp_g ex).
Proof. apply is_ok_eq. destruct ex; vm_compute; reflexivity. Qed.
Definition xt : term nat := TNode 0 [].
Definition zt : term nat := TNode 2 [].
Definition hxt : term nat := TNode 5 [TNode 4 [xt]; xt].
Definition hzt : term nat := TNode 5 [TNode 4 [zt]; zt].
Lemma one_tree (f : nat) : ExprTree [Node f []] (TNode f []).
Proof. split; [done|]. econstructor; [reflexivity|constructor]. Qed.
Lemma hx_tree : ExprTree hx hxt.
Proof.
  split; [done|]. econstructor; [reflexivity|]. constructor; [|constructor; [|constructor]].
  - econstructor; [reflexivity|]. constructor; [|constructor]. econstructor; [reflexivity|constructor].
  - econstructor; [reflexivity|constructor].
Qed.
Lemma hz_tree : ExprTree hz hzt.
Proof.
  split; [done|]. econstructor; [reflexivity|]. constructor; [|constructor; [|constructor]].
  - econstructor; [reflexivity|]. constructor; [|constructor]. econstructor; [reflexivity|constructor].
  - econstructor; [reflexivity|constructor].
Qed.
Lemma exp_exprs : Forall exprs_ok exp_cmds.
Proof. repeat constructor; cbn; eauto using one_tree, hx_tree, hz_tree. Qed.
Lemma exp_mentioned : mentioned exp_cmds hxt /\ mentioned exp_cmds hzt.
Proof.
  split; eexists; (split; [apply hx_tree || apply hz_tree|]); left; [right; right; left|right; right; right; left].
Qed.
Lemma exp_clean ex : eg_clean (exp_g ex) = true.
Proof. destruct ex; vm_compute; reflexivity. Qed.
Lemma exp_reachable ex : reachable natlang unitan ex (exp_g ex).
Proof. eapply run_tcmds_follows; [done|apply reach_new|apply exp_exprs|apply follows_new|apply exp_g_run]. Qed.
Lemma exp_log : eg_log (exp_g true) = [EAdd (Node 5 [5; 2]) 6; EAdd (Node 4 [2]) 5; EAdd (Node 2 []) 2; EAdd (Node 5 [3; 0]) 4;
  EAdd (Node 4 [0]) 3; EAdd (Node 0 []) 0; EUnion 2 1 8; EAdd (Node 1 []) 1; EAdd (Node 2 []) 2; EUnion 0 1 7; EAdd (Node 1 []) 1; EAdd (Node 0 []) 0].
Proof. vm_compute. reflexivity. Qed.
Lemma exp_added : AddedAs (eg_log (exp_g true)) 4 hxt /\ AddedAs (eg_log (exp_g true)) 6 hzt.
Proof.
  rewrite exp_log. unfold hxt, hzt, xt, zt.
  split; repeat (first [apply Forall2_nil_2 | apply Forall2_cons_2
    | match goal with |- AddedAs _ ?i (TNode ?f _) => match i with
        | 4 => eapply (added _ 5 [3; 0]) | 3 => eapply (added _ 4 [0]) | 0 => eapply (added _ 0 [])
        | 6 => eapply (added _ 5 [5; 2]) | 5 => eapply (added _ 4 [2]) | 2 => eapply (added _ 2 []) end end
    | by (apply elem_of_list_In; cbn; tauto)]).
Qed.
Lemma exp_same : eg_find (exp_g true) 4 = eg_find (exp_g true) 6.
Proof. vm_compute. reflexivity. Qed.
(** the proof found: rewrite the first child by 7, then backwards by 8; then the second child *)
Definition exp_flat : list (fterm nat) :=
  let h a b := FT (Node 5 [3; 0]) None None [FT (Node 4 [0]) None None [a]; b] in
  let x := FT (Node 0 []) None None [] in let z := FT (Node 2 []) None None [] in
  let y7 := FT (Node 1 []) None (Some 7) [] in let z8 := FT (Node 2 []) (Some 8) None [] in
  [h x x; h y7 x; h z8 x; h z y7; h z z8].
Lemma exp_flat_eq : (p ← explain_id_equivalence 10 4 6 (exp_g true); make_flat p) = Ok exp_flat.
Proof. vm_compute. reflexivity. Qed.
Lemma exp_proof : exists p, explain_id_equivalence 10 4 6 (exp_g true) = Ok p /\ proves (asserted (eg_log (exp_g true))) p hxt hzt /\ make_flat p = Ok exp_flat.
Proof.
  pose proof exp_flat_eq as E. destruct (explain_id_equivalence 10 4 6 (exp_g true)) as [p| |] eqn:Ep; [|done|done].
  exists p. split_and!; [done| |exact E].
  pose proof (reach_explain _ _ _ _ (exp_reachable true)) as Hx. apply bool_decide_eq_true in Hx as [x Ex].
  refine (explain_sound natlang unitan (exp_g true) x x 10 4 6 p hxt hzt (exp_reachable true) Ex eq_refl _ (proj1 exp_added) (proj2 exp_added)).
  replace (set_explain (Some x) (exp_g true)) with (exp_g true); [done|]. unfold set_explain. rewrite <- Ex. by destruct (exp_g true).
Qed.
Lemma exp_id_to_expr : exists g1 i, add_expr_uncanonical unitan (modify_n natlang unitan 5) hz (exp_g true) = Ok (g1, i) /\
  id_to_expr i g1 = Ok hz /\ eg_find g1 i <> i.
Proof.
  set (r := add_expr_uncanonical unitan (modify_n natlang unitan 5) hz (exp_g true)).
  assert (Hr : ('(g1, i) ← r; e ← id_to_expr i g1; Ok (e, bool_decide (eg_find g1 i <> i))) = Ok (hz, true)) by (vm_compute; reflexivity).
  destruct r as [[g1 i]| |]; [|done|done]. exists g1, i. split; [done|]. cbn [mbind res_bind] in Hr.
  destruct (id_to_expr i g1) as [e| |]; [|done|done]. cbn [mbind res_bind] in Hr. injection Hr as -> Hb.
  split; [done|]. by apply bool_decide_eq_true in Hb.
Qed.
