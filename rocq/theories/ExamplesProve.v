(** Goals and runs used by the examples in PropertiesProve.v. *)
From Verif Require Import Base UnionFind EGraphModel EGraphPres Spec EGraphReach Terms RecExprModel RecExprProofs ExprModel PatSpec MachineModel MatchSpec RewriteModel RunnerModel RunnerSpec
  ExtractModel ExtractSpec OptimumSpec DeriveSpec QueryModel QuerySpec SimplifyModel ProveModel
  Examples ExamplesExpr ExamplesMatch ExamplesRewrite ExamplesRun ExamplesExtract ExamplesOptimum ExamplesDerive ExamplesQuery ExamplesSimplify.

(** The start is g(f(g(f(x,y)),y)); one goal is f(?0,?1), the other f(?0,?0). *)
Definition prv (goals : list (@pattern nat)) : res (option (runner nat unit unit unit)) :=
  prove natlang unitan it0 true 50 (fun k => k) simple8 li0 rules1 9 8 keys keys false 20 6 4 () smp_e goals.
Definition prv_ok : list (@pattern nat) := [compiled pat_f01].
Definition prv_r : runner nat unit unit unit := run_of (idle_runner ()) (prv prv_ok).
Lemma prv_ok_eq : prv prv_ok = Ok (Some prv_r).
Proof. apply run_of_eq. vm_compute. reflexivity. Qed.
Lemma prv_ok_stands : Forall2 (stands_for ord0) prv_ok [pat_f01_t].
Proof. constructor; [exact pat_f01_stands|constructor]. Qed.
Lemma prv_ok_stop : r_stop prv_r = Some (Other 4).
Proof. vm_compute. reflexivity. Qed.

Definition prv_all : list (@pattern nat) := [compiled pat_f01; compiled pat_f00].
Lemma prv_all_panics : prv prv_all = Panic.
Proof. vm_compute. reflexivity. Qed.
Lemma prv_all_stands : Forall2 (stands_for ord0) prv_all [pat_f01_t; pat_f00_t].
Proof. constructor; [exact pat_f01_stands|]. constructor; [exact pat_f00_stands|constructor]. Qed.
Definition prv_w : res (egraph nat unit * list nat) := with_expr natlang unitan 20 smp_e (eg_new false, []).
Definition prv_g : egraph nat unit := fst_ok (eg_new false) [5] prv_w.
Lemma prv_w_eq : prv_w = Ok (prv_g, [5]).
Proof. apply fst_ok_eq. vm_compute. reflexivity. Qed.
Definition prv_run (goals : list (@pattern nat)) : res (option (runner nat unit unit unit)) :=
  run natlang unitan (fun k => k) simple8 li0 rules1 20 9 [goal_hook natlang it0 true 50 goals (eg_find prv_g 5) 4] 6 [5] prv_g () tt.
Definition prv_s : runner nat unit unit unit := run_of (idle_runner ()) (prv_run prv_all).
Definition prv_t : runner nat unit unit unit := run_of (idle_runner ()) (prv_run prv_ok).
Lemma prv_s_eq : prv_run prv_all = Ok (Some prv_s).
Proof. apply run_of_eq. vm_compute. reflexivity. Qed.
Lemma prv_s_stop : r_stop prv_s = Some Saturated.
Proof. vm_compute. reflexivity. Qed.
Lemma prv_t_eq : prv_run prv_ok = Ok (Some prv_t).
Proof. apply run_of_eq. vm_compute. reflexivity. Qed.
Lemma prv_t_stop : r_stop prv_t = Some (Other 4).
Proof. vm_compute. reflexivity. Qed.
Lemma prv_s_checks : check_goals natlang it0 true 8 20 50 (r_eg prv_s) (keys (r_eg prv_s)) (keys (r_eg prv_s)) (eg_find prv_g 5) prv_ok = Ok tt /\
  check_goals natlang it0 true 8 20 50 (r_eg prv_s) (keys (r_eg prv_s)) (keys (r_eg prv_s)) (eg_find prv_g 5) prv_all = Panic.
Proof. split; vm_compute; reflexivity. Qed.
