(** Runs and e-graphs used by the examples in PropertiesCheckEach.v. *)
From Verif Require Import Base EGraphModel Spec EGraphReach Terms RecExprModel ExprModel MachineModel RewriteModel RunnerModel ExplainModel ExplainSpec CheckModel CheckSpec
  CheckRun CheckEachModel CheckEach Examples ExamplesExpr ExamplesMatch ExamplesRewrite ExamplesRun ExamplesCheck.

Lemma chk_each : check_each_explain rules0 (r_eg chk_r) = Ok true.
Proof. vm_compute. reflexivity. Qed.
Lemma chk_reach : reachable natlang unitan true (r_eg chk_r) /\ rule_steps rules0 (asserted (eg_log (r_eg chk_r))).
Proof.
  destruct (runner_W natlang unitan 20 9 (steady_no_union natlang unitan (fun _ => I)) rules0 rules0_one rules0_accepted rules0_here (fun _ => I)
    (fun k => k) simple8 li0 [] (rules0_reasons _) (Forall_nil_2 _) 6 [5] (rw_g true) () () chk_r (rw_g_reach true) chk_run_eq) as (R & _ & K).
  exact (conj R (K (rw_g_steps _))).
Qed.
Lemma chk_named : forall a b r, EUnion a b r ∈ eg_log (r_eg chk_r) -> exists rw lhs rhs, rw ∈ rules0 /\ rw_name rw = r /\ between rw lhs rhs.
Proof.
  assert (K : forall h : list (event nat), forallb (fun e => match e with EUnion _ _ r => (r =? 1) || (r =? 2) | _ => true end) h = true ->
    forall a b r, EUnion a b r ∈ h -> r = 1 \/ r = 2).
  { intros h Hh a b r Hin. rewrite forallb_forall in Hh. apply elem_of_list_In in Hin. apply Hh in Hin. apply orb_true_iff in Hin as [?%Nat.eqb_eq|?%Nat.eqb_eq]; auto. }
  assert (K1 : forallb (fun e => match e with EUnion _ _ r => (r =? 1) || (r =? 2) | _ => true end) (eg_log (r_eg chk_r)) = true) by (vm_compute; reflexivity).
  intros a b r Hin. destruct (K _ K1 a b r Hin) as [->| ->].
  - exists comm, pat_f01, pat_f10. split; [left|]. split; [done|]. split; [|done]. exists (compiled pat_f01). split; [done|apply f01_ast].
  - exists cond_rule, pat_f01, pat_gf. split; [right; left|]. split; [done|]. split; [|done]. exists (compiled pat_f01). split; [done|apply f01_ast].
Qed.
Lemma grow_each : check_each_explain [grow_rule] (r_eg grow_r) = Ok false.
Proof. vm_compute. reflexivity. Qed.
Lemma panic_eq {X} (r : res X) : (match r with Panic => true | _ => false end) = true -> r = Panic.
Proof. by destruct r. Qed.
Lemma grow_debug : run_debug natlang foldan (fun k => k) fsimple (Limits 1 60 90) [grow_rule] 20 9 ([] : list (hook nat (option nat) unit)) 6 [0] cst_g () () = Panic.
Proof. apply panic_eq. vm_compute. reflexivity. Qed.
