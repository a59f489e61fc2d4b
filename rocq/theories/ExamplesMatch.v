(** E-graph and patterns used by the examples in PropertiesMatch.v. *)
From Verif Require Import Base UnionFind EGraphModel EGraphPres Spec EGraphReach Terms RecExprModel RecExprProofs
  ExprModel PatSpec ExprProofs MachineModel MatchSpec Examples ExamplesExpr.

Definition it0 : gset nat -> list nat := elements.
Definition ord0 : gmap (nat * nat) (node nat) -> list (nat * nat) := fun m => (map_to_list m).*1.
Lemma it0_ok : enumerates it0.
Proof. by intros s. Qed.
Lemma ord0_ok : enumerates_keys ord0.
Proof. by intros m. Qed.

(** x, y, f(x,y), f(y,x), g(f(x,y)), f(g(f(x,y)),x); union x y; rebuild.  Four classes remain. *)
Definition matchp : prog nat unit :=
  PAdd (Node 0 []) (fun x => PAdd (Node 1 []) (fun y =>
  PAdd (Node 5 [x; y]) (fun fxy => PAdd (Node 5 [y; x]) (fun fyx =>
  PAdd (Node 6 [fxy]) (fun gf => PAdd (Node 5 [gf; x]) (fun _ =>
  PUnion x y 7 (fun _ => PRebuild (fun _ => PRet)))))))).
Definition match_g : egraph nat unit := ok_of (eg_new false) (session natlang unitan 20 false matchp).
Lemma match_g_session : session natlang unitan 20 false matchp = Ok match_g.
Proof. apply is_ok_eq. vm_compute. reflexivity. Qed.
Lemma match_g_np : reachable_np natlang unitan false match_g.
Proof. apply (session_reachable_np _ _ 20 _ matchp), match_g_session; done. Qed.
Lemma match_g_clean : eg_clean match_g = true.
Proof. vm_compute. reflexivity. Qed.

(** f(?0,?1), f(?0,?0) and g(f(?0,?1)) *)
Definition pat_f01 : list (node (pop nat)) := [Node (PVar 0) []; Node (PVar 1) []; Node (POp 5) [0; 1]].
Definition pat_f00 : list (node (pop nat)) := [Node (PVar 0) []; Node (POp 5) [0; 0]].
Definition pat_gf : list (node (pop nat)) := [Node (PVar 0) []; Node (PVar 1) []; Node (POp 5) [0; 1]; Node (POp 6) [2]].
Ltac good := split_and!; [apply rx_is_dag_dag; reflexivity|repeat constructor|done].
Lemma pat_f01_good : good_ast pat_f01.
Proof. good. Qed.
Lemma pat_f00_good : good_ast pat_f00.
Proof. good. Qed.
Lemma pat_gf_good : good_ast pat_gf.
Proof. good. Qed.
Definition pat_f01_t : term (pop nat) := TNode (POp 5) [TNode (PVar 0) []; TNode (PVar 1) []].
Definition pat_f00_t : term (pop nat) := TNode (POp 5) [TNode (PVar 0) []; TNode (PVar 0) []].
Definition pat_gf_t : term (pop nat) := TNode (POp 6) [pat_f01_t].
Definition compiled (ast : list (node (pop nat))) : pattern := ok_of (Pattern [] (Program [] [])) (pattern_new ord0 50 ast).
Lemma pat_f01_new : pattern_new ord0 50 pat_f01 = Ok (compiled pat_f01).
Proof. vm_compute. reflexivity. Qed.
Lemma pat_f00_new : pattern_new ord0 50 pat_f00 = Ok (compiled pat_f00).
Proof. vm_compute. reflexivity. Qed.
Lemma pat_gf_new : pattern_new ord0 50 pat_gf = Ok (compiled pat_gf).
Proof. vm_compute. reflexivity. Qed.
Lemma pat_f01_tree : ExprTree (pt_ast (compiled pat_f01)) pat_f01_t.
Proof. change (pt_ast (compiled pat_f01)) with pat_f01. et. Qed.
Lemma pat_f00_tree : ExprTree (pt_ast (compiled pat_f00)) pat_f00_t.
Proof. change (pt_ast (compiled pat_f00)) with pat_f00. et. Qed.
Lemma pat_gf_tree : ExprTree (pt_ast (compiled pat_gf)) pat_gf_t.
Proof. change (pt_ast (compiled pat_gf)) with pat_gf. et. Qed.

(** A class of 61 e-nodes. *)
Fixpoint bigp (n : nat) : prog nat unit :=
  match n with
  | 0 => PRebuild (fun _ => PRet)
  | S n => PAdd (Node (n mod 20) (repeat 0 (n / 20))) (fun i => PUnion 0 i 3 (fun _ => bigp n))
  end.
Definition big_g : egraph nat unit := ok_of (eg_new false) (session natlang unitan 100 false (PAdd (Node 20 []) (fun _ => bigp 60))).
Lemma big_g_session : session natlang unitan 100 false (PAdd (Node 20 []) (fun _ => bigp 60)) = Ok big_g.
Proof. apply is_ok_eq. vm_compute. reflexivity. Qed.
Lemma big_g_reachable : reachable natlang unitan false big_g.
Proof. apply (session_reachable _ _ 100 _ (PAdd (Node 20 []) (fun _ => bigp 60))), big_g_session. Qed.

(** Clauses ?0 = f(?1,?2), ?3 = g(?0). *)
Definition clauses : list (nat * list (node (pop nat))) :=
  [(0, [Node (PVar 1) []; Node (PVar 2) []; Node (POp 5) [0; 1]]); (3, [Node (PVar 0) []; Node (POp 6) [0]])].
Definition mpat : multipattern := ok_of (MultiPattern [] (Program [] [])) (multipattern_new ord0 50 clauses).
Lemma mpat_new : multipattern_new ord0 50 clauses = Ok mpat.
Proof. vm_compute. reflexivity. Qed.
Lemma clauses_good : Forall (fun cl => good_ast cl.2) clauses.
Proof. constructor; [good|]. constructor; [good|]. constructor. Qed.
(** The bare variable ?9 under an unused node, as first clause. *)
Definition bad_clauses : list (nat * list (node (pop nat))) :=
  [(0, [Node (PVar 3) []; Node (PVar 9) []]); (1, [Node (PVar 2) []; Node (POp 6) [0]])].
Lemma bad_clauses_good : Forall (fun cl => good_ast cl.2) bad_clauses.
Proof. constructor; [good|]. constructor; [good|]. constructor. Qed.
