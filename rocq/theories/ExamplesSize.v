(** E-graphs and runs used by the examples in PropertiesSize.v. *)
From Verif Require Import Base UnionFind EGraphModel EGraphPres Spec EGraphReach MachineModel RewriteModel RuleSpec RunnerModel RunnerSpec SizeModel SizeSpec
  Examples ExamplesMatch ExamplesRewrite ExamplesRun.

(** x, y, f(x), h(y); union x y; rebuild: the index keeps h(y) beside h(x). *)
Definition stalep : prog nat unit :=
  PAdd (Node 0 []) (fun x => PAdd (Node 1 []) (fun y =>
  PAdd (Node 2 [x]) (fun fx => PAdd (Node 3 [y]) (fun hy =>
  PUnion x y 7 (fun _ => PRebuild (fun _ => PRet)))))).
Definition stale_g : egraph nat unit := ok_of (eg_new false) (session natlang unitan 20 false stalep).
Lemma stale_session : session natlang unitan 20 false stalep = Ok stale_g.
Proof. apply is_ok_eq. vm_compute. reflexivity. Qed.
Lemma stale_np : reachable_np natlang unitan false stale_g.
Proof. apply (session_reachable_np _ _ 20 _ stalep), stale_session; [done|]. cbn. tauto. Qed.
(** A run without rules on it, with the node limit 4. *)
Definition stale_run : res (option (runner nat unit unit unit)) :=
  run natlang unitan (fun k => k) simple8 (Limits 6 4 90) [] 20 9 [] 6 [] stale_g () ().
Definition stale_r : runner nat unit unit unit := run_of (idle_runner ()) stale_run.
Lemma stale_run_eq : stale_run = Ok (Some stale_r).
Proof. apply run_of_eq. vm_compute. reflexivity. Qed.

Lemma rules0_patterns : Forall (fun rw => pattern_applier (rw_applier rw)) rules0.
Proof.
  constructor; [|constructor; [|constructor]]; cbn; [apply pat_f10_good|].
  split; [apply pat_f01_good|]. split; [apply pat_f10_good|apply pat_gf_good].
Qed.
