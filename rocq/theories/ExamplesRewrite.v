(** Rules and e-graphs used by the examples in PropertiesRewrite.v. *)
From Verif Require Import Base UnionFind EGraphModel EGraphPres Spec EGraphReach Terms RecExprModel RecExprProofs
  ExprModel PatSpec ExprProofs MachineModel MatchSpec RewriteModel AlgSpec RuleSpec RuleProps Examples ExamplesExpr ExamplesMatch.

(** x, y, f(x,y), f(y,x), g(f(x,y)), g(f(y,x)); nothing is equal yet. *)
Definition rwp : prog nat unit :=
  PAdd (Node 0 []) (fun x => PAdd (Node 1 []) (fun y =>
  PAdd (Node 5 [x; y]) (fun fxy => PAdd (Node 5 [y; x]) (fun fyx =>
  PAdd (Node 6 [fxy]) (fun _ => PAdd (Node 6 [fyx]) (fun _ => PRebuild (fun _ => PRet))))))).
Definition rw_g (ex : bool) : egraph nat unit := ok_of (eg_new ex) (session natlang unitan 20 ex rwp).
Lemma rw_g_session ex : session natlang unitan 20 ex rwp = Ok (rw_g ex).
Proof. apply is_ok_eq. destruct ex; vm_compute; reflexivity. Qed.
Lemma rw_g_np ex : reachable_np natlang unitan ex (rw_g ex).
Proof. apply (session_reachable_np _ _ 20 _ rwp), rw_g_session; done. Qed.
Lemma rw_g_clean ex : eg_clean (rw_g ex) = true.
Proof. destruct ex; vm_compute; reflexivity. Qed.

(** f(?1,?0) *)
Definition pat_f10 : list (node (pop nat)) := [Node (PVar 1) []; Node (PVar 0) []; Node (POp 5) [0; 1]].
Definition pat_f10_t : term (pop nat) := TNode (POp 5) [TNode (PVar 1) []; TNode (PVar 0) []].
Lemma pat_f10_good : good_ast pat_f10.
Proof. good. Qed.
Lemma pat_f10_tree : ExprTree pat_f10 pat_f10_t.
Proof. et. Qed.
Lemma pat_f01_rooted : rooted pat_f01.
Proof. intros [|[|[|i]]] Hi; cbn in *; try lia; exists 2, (Node (POp 5) [0; 1]); cbn; (split; [done|]); repeat constructor. Qed.
(** The rule f(?0,?1) => f(?1,?0) and its matches. *)
Definition comm : rewrite nat unit := Rewrite 1 (SPattern (compiled pat_f01)) (APattern pat_f10).
Definition comm_ms : list smatch := [SMatch 3 [[(0, 1); (1, 0)]]; SMatch 2 [[(0, 0); (1, 1)]]].
Lemma comm_ms_found : search_with_limit natlang it0 true (compiled pat_f01) (rw_g false) 9 = Ok comm_ms.
Proof. vm_compute. reflexivity. Qed.
Definition fst_ok {B C} (d : B) (c : C) (r : res (B * C)) : B := fst (ok_of (d, c) r).
Lemma fst_ok_eq {B C} (d : B) (r : res (B * C)) c : (snd <$> r) = Ok c -> r = Ok (fst_ok d c r, c).
Proof. apply is_ok_fst. Qed.
Definition comm_g1 : egraph nat unit := fst_ok (eg_new false) [2] (rewrite_apply natlang unitan 20 9 comm comm_ms (rw_g false)).
Lemma comm_g1_eq : rewrite_apply natlang unitan 20 9 comm comm_ms (rw_g false) = Ok (comm_g1, [2]).
Proof. apply fst_ok_eq. vm_compute. reflexivity. Qed.
Definition comm_g2 : egraph nat unit := fst_ok (eg_new false) 1 (rebuild natlang unitan 20 (modify_n natlang unitan 20) comm_g1).
Lemma comm_g2_eq : rebuild natlang unitan 20 (modify_n natlang unitan 20) comm_g1 = Ok (comm_g2, 1).
Proof. apply fst_ok_eq. vm_compute. reflexivity. Qed.
(** f(?0,?1) => f(?1,?0) once more: nothing to do. *)
Definition comm_ms' : list smatch := [SMatch 2 [[(0, 0); (1, 1)]; [(0, 1); (1, 0)]]].
Definition comm_g3 : egraph nat unit := fst_ok (eg_new false) [] (rewrite_apply natlang unitan 20 9 comm comm_ms' comm_g2).
Definition comm_g4 : egraph nat unit := fst_ok (eg_new false) 0 (rebuild natlang unitan 20 (modify_n natlang unitan 20) comm_g3).

Lemma comm_ms'_found : search_with_limit natlang it0 true (compiled pat_f01) comm_g2 9 = Ok comm_ms'.
Proof. vm_compute. reflexivity. Qed.
Lemma comm_g3_eq : rewrite_apply natlang unitan 20 9 comm comm_ms' comm_g2 = Ok (comm_g3, []).
Proof. apply fst_ok_eq. vm_compute. reflexivity. Qed.
Lemma comm_g4_eq : rebuild natlang unitan 20 (modify_n natlang unitan 20) comm_g3 = Ok (comm_g4, 0).
Proof. apply fst_ok_eq. vm_compute. reflexivity. Qed.
Lemma comm_g2_clean : eg_clean comm_g2 = true.
Proof. vm_compute. reflexivity. Qed.
(** The e-graph of [comm_g2] again, as a session. *)
Definition rwp2 : prog nat unit :=
  PAdd (Node 0 []) (fun x => PAdd (Node 1 []) (fun y =>
  PAdd (Node 5 [x; y]) (fun fxy => PAdd (Node 5 [y; x]) (fun fyx =>
  PAdd (Node 6 [fxy]) (fun _ => PAdd (Node 6 [fyx]) (fun _ => PUnion fxy fyx 3 (fun _ => PRebuild (fun _ => PRet)))))))).
Definition eq_g : egraph nat unit := ok_of (eg_new false) (session natlang unitan 20 false rwp2).
Lemma eq_g_session : session natlang unitan 20 false rwp2 = Ok eq_g.
Proof. apply is_ok_eq. vm_compute; reflexivity. Qed.
Lemma eq_g_np : reachable_np natlang unitan false eq_g.
Proof. apply (session_reachable_np _ _ 20 _ rwp2), eq_g_session; done. Qed.
Lemma eq_g_clean : eg_clean eq_g = true.
Proof. vm_compute; reflexivity. Qed.
(** if f(?0,?1) = f(?1,?0) then f(?0,?1) => g(f(?0,?1)) *)
Definition cond_rule : rewrite nat unit := Rewrite 2 (SPattern (compiled pat_f01)) (ACond (CEqual pat_f01 pat_f10) (APattern pat_gf)).
Lemma pat_gf_tree' : ExprTree pat_gf pat_gf_t.
Proof. et. Qed.
Lemma pat_f01_tree' : ExprTree pat_f01 pat_f01_t.
Proof. et. Qed.
Lemma pat_f10_rooted : rooted pat_f10.
Proof. intros [|[|[|i]]] Hi; cbn in *; try lia; exists 2, (Node (POp 5) [0; 1]); cbn; (split; [done|]); repeat constructor. Qed.
Lemma eq_g_found : search_with_limit natlang it0 true (compiled pat_f01) eq_g 9 = Ok comm_ms'.
Proof. vm_compute. reflexivity. Qed.
Definition cond_g1 : egraph nat unit := fst_ok (eg_new false) [2] (rewrite_apply natlang unitan 20 9 cond_rule [SMatch 2 [[(0, 0); (1, 1)]]] eq_g).
Lemma cond_g1_eq : rewrite_apply natlang unitan 20 9 cond_rule [SMatch 2 [[(0, 0); (1, 1)]]] eq_g = Ok (cond_g1, [2]).
Proof. apply fst_ok_eq. vm_compute. reflexivity. Qed.
Definition cond_g2 : egraph nat unit := fst_ok (eg_new false) 0 (rebuild natlang unitan 20 (modify_n natlang unitan 20) cond_g1).
Lemma cond_g2_eq : rebuild natlang unitan 20 (modify_n natlang unitan 20) cond_g1 = Ok (cond_g2, 0).
Proof. apply fst_ok_eq. vm_compute. reflexivity. Qed.
(** ... and where they are not equal. *)
Definition cond_g1' : egraph nat unit := fst_ok (eg_new false) [] (rewrite_apply natlang unitan 20 9 cond_rule comm_ms (rw_g false)).
Lemma cond_g1'_eq : rewrite_apply natlang unitan 20 9 cond_rule comm_ms (rw_g false) = Ok (cond_g1', []).
Proof. apply fst_ok_eq. vm_compute. reflexivity. Qed.

(** Rule ?0 = f(?1,?2), ?3 = g(?0)  =>  ?3 = f(?2,?1), ?4 = g(?3). *)
Definition mapp : list (nat * list (node (pop nat))) :=
  [(3, [Node (PVar 2) []; Node (PVar 1) []; Node (POp 5) [0; 1]]); (4, [Node (PVar 3) []; Node (POp 6) [0]])].
Lemma mapp_good : Forall (fun cl => good_ast cl.2) mapp.
Proof. constructor; [good|]. constructor; [good|]. constructor. Qed.
Lemma mpat_built : searcher_built ord0 (SMulti mpat).
Proof.
  exists 50, 0, [Node (PVar 1) []; Node (PVar 2) []; Node (POp 5) [0; 1]], [(3, [Node (PVar 0) []; Node (POp 6) [0]])].
  split_and!; [|by exists 5, [0; 1]|apply mpat_new].
  constructor; [split; [good|]|constructor; [split; [good|]|constructor]]; cbn [snd].
  - intros [|[|[|i]]] Hi; cbn in *; try lia; exists 2, (Node (POp 5) [0; 1]); cbn; (split; [done|]); repeat constructor.
  - intros [|[|i]] Hi; cbn in *; try lia; exists 1, (Node (POp 6) [0]); cbn; (split; [done|]); repeat constructor.
Qed.
Definition multi_ms : list smatch := [SMatch 3 [[(0, 3); (1, 1); (2, 0); (3, 5)]]; SMatch 2 [[(0, 2); (1, 0); (2, 1); (3, 4)]]].
Lemma multi_ms_found ex : searcher_search natlang it0 true (SMulti mpat) (rw_g ex) 9 = Ok multi_ms.
Proof. destruct ex; vm_compute; reflexivity. Qed.
Definition multi_rule : rewrite nat unit := Rewrite 3 (SMulti mpat) (AMulti mapp).
Definition multi_g1 (ex : bool) : egraph nat unit := fst_ok (eg_new ex) [2; 3] (rewrite_apply natlang unitan 20 9 multi_rule multi_ms (rw_g ex)).
Definition multi_g2 (ex : bool) : egraph nat unit := fst_ok (eg_new ex) 0 (rebuild natlang unitan 20 (modify_n natlang unitan 20) (multi_g1 ex)).
Lemma multi_g1_eq : rewrite_apply natlang unitan 20 9 multi_rule multi_ms (rw_g false) = Ok (multi_g1 false, [2; 3]).
Proof. apply fst_ok_eq. vm_compute. reflexivity. Qed.
Lemma multi_g2_eq : rebuild natlang unitan 20 (modify_n natlang unitan 20) (multi_g1 false) = Ok (multi_g2 false, 0).
Proof. apply fst_ok_eq. vm_compute. reflexivity. Qed.

(** The pattern x with an unused node for ?0, as searcher; it does not bind ?0. *)
Definition pat_unused : list (node (pop nat)) := [Node (PVar 0) []; Node (POp 0) []].
Definition bare : list (node (pop nat)) := [Node (PVar 0) []].
Definition bare1 : list (node (pop nat)) := [Node (PVar 1) []].
Definition unused_rule : rewrite nat unit := Rewrite 1 (SPattern (compiled pat_unused)) (APattern bare).
Lemma pat_unused_good : good_ast pat_unused.
Proof. good. Qed.
Lemma pat_unused_new : pattern_new ord0 50 pat_unused = Ok (compiled pat_unused).
Proof. vm_compute. reflexivity. Qed.
Lemma bare_good : good_ast bare.
Proof. good. Qed.
Lemma bare1_good : good_ast bare1.
Proof. good. Qed.
Lemma pat_f01_built : searcher_built ord0 (SPattern (compiled pat_f01)).
Proof. exists 50, pat_f01. split_and!; [apply pat_f01_good..|apply pat_f01_rooted|apply pat_f01_new]. Qed.
(** x and y were asserted equal, the ids 0 and 1 are still those handed out at first. *)
Definition stale_s : subst := [(0, 0); (1, 1)].
Lemma comm_g2_reachable : reachable natlang unitan false comm_g2.
Proof.
  destruct (pattern_rule_main natlang unitan natlang_ok it0 it0_ok ord0 ord0_ok false (rw_g false) (rw_g_np false) (rw_g_clean false) 50 pat_f01 (compiled pat_f01) pat_f01_t
    pat_f10 pat_f10_t true 9 comm_ms 1 20 9 comm_g1 [2] 20 comm_g2 1 pat_f01_good pat_f01_new pat_f01_tree pat_f10_good pat_f10_tree comm_ms_found comm_g1_eq comm_g2_eq)
    as (R & _). by eapply reachable_np_reachable.
Qed.
