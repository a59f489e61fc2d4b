(** Runs used by the examples in PropertiesCounts.v. *)
From Verif Require Import Base UnionFind EGraphModel MachineModel RewriteModel RunnerModel RunnerSpec BackoffSpec CountSpec
  Examples ExamplesMatch ExamplesRewrite ExamplesRun.

(** One iteration with two rules of the same name. *)
Definition cnt_rules : list (rewrite nat unit) := [comm; Rewrite (rw_name comm) (rw_searcher cond_rule) (rw_applier cond_rule)].
Definition cnt_it : iteration :=
  snd (ok_of (idle_runner (), Iteration 0 0 [] 0 None)
    (run_one natlang unitan (fun k => k) simple8 li0 cnt_rules 20 9 [] (Runner (rw_g false) [] [] None () () 0))).
Definition cnt_applied : list (nat * nat) := [(1, 2)].

(** The backoff scheduler with limit 1, but rule 1 not banned, after a search with two matches. *)
Definition nb_b0 : backoff := configure 8 1 3 [SNoBan 1].
Definition nb_b1 : backoff := snd_ok comm_ms nb_b0 (backoff_search natlang it0 true 8 true 0 (rw_g false) comm nb_b0).
Definition nb_b2 : backoff := snd_ok comm_ms nb_b0 (backoff_search natlang it0 true 8 true 1 (rw_g false) comm nb_b1).
Lemma nb_used : used (D := unit) natlang it0 true 8 true nb_b0 nb_b1.
Proof.
  apply (used_search natlang it0 true 8 true nb_b0 0 (rw_g false) comm comm_ms nb_b1 nb_b1); [|apply used_refl].
  apply snd_ok_eq. vm_compute. reflexivity.
Qed.
