(** Runs used by the examples in PropertiesRun.v. *)
From Verif Require Import Base UnionFind EGraphModel EGraphPres Spec EGraphReach Terms RecExprModel RecExprProofs
  ExprModel PatSpec ExprProofs MachineModel MatchSpec RewriteModel AlgSpec RuleSpec RuleProps RunnerModel RunnerSpec BackoffSpec BackoffProofs
  Examples ExamplesExpr ExamplesMatch ExamplesRewrite.

Definition run_of {X} (d : X) (x : res (option X)) : X := match x with Ok (Some r) => r | _ => d end.
Definition ran {X} (x : res (option X)) : bool := match x with Ok (Some _) => true | _ => false end.
Lemma run_of_eq {X} (d : X) (x : res (option X)) : ran x = true -> x = Ok (Some (run_of d x)).
Proof. by destruct x as [[r|]| |]. Qed.

Definition li0 : limits := Limits 6 60 90.
Definition idle_runner {St} (st : St) : runner nat unit St unit := Runner (eg_new false) [] [] None st () 0.
(** f(?0,?1) => f(?1,?0) and: if f(?0,?1) = f(?1,?0) then f(?0,?1) => g(f(?0,?1)) *)
Definition rules0 : list (rewrite nat unit) := [comm; cond_rule].
Lemma rules0_built : Forall (rule_built ord0) rules0.
Proof.
  constructor; [|constructor; [|constructor]]; (split; [apply pat_f01_built|]).
  - apply pat_f10_good.
  - split; [split; [apply pat_f01_good|apply pat_f10_good]|apply pat_gf_good].
Qed.
Lemma rules0_standard : Forall (fun rw => standard_applier (rw_applier rw)) rules0.
Proof.
  constructor; [|constructor; [|constructor]]; cbn; [apply pat_f10_good|].
  split_and!; [apply pat_f01_good|apply pat_f01_rooted|apply pat_f10_good|apply pat_f10_rooted|apply pat_gf_good].
Qed.
(** Every search of every rule. *)
Definition simple8 : scheduler nat unit unit := simple_scheduler natlang it0 true 8.
Definition sat_run : res (option (runner nat unit unit unit)) :=
  run natlang unitan (fun k => k) simple8 li0 rules0 20 9 [] 6 [5] (rw_g false) () ().
Definition sat_r : runner nat unit unit unit := run_of (idle_runner ()) sat_run.
Lemma sat_run_eq : sat_run = Ok (Some sat_r).
Proof. apply run_of_eq. vm_compute. reflexivity. Qed.

(** An algebra with a commutative binary operation in which both rules are valid. *)
Definition addF (f : nat) (vs : list nat) : nat := match f, vs with 5, [a; b] => a + b | 6, [a] => a | _, _ => 3 + f end.
Lemma rules0_valid : Forall (rule_valid natlang unitan addF false) rules0.
Proof.
  assert (Ht : ExprTree (pt_ast (compiled pat_f01)) pat_f01_t).
  { assert (pt_ast (compiled pat_f01) = pat_f01) as -> by (vm_compute; reflexivity). apply pat_f01_tree'. }
  constructor; [|constructor; [|constructor]]; unfold rule_valid; cbn [applier_valid rw_applier rw_searcher comm cond_rule premise].
  - intros t x th Hp Hx. rewrite (Hx _ Ht), (ExprTree_fun _ _ _ Hp pat_f10_tree). cbn. lia.
  - exists (fun _ _ => True). split; [done|]. intros t x th Hp [Hx _]. rewrite (Hx _ Ht), (ExprTree_fun _ _ _ Hp pat_gf_tree'). reflexivity.
Qed.
Definition addF_nu (i : nat) : nat := match i with 0 => 3 | 1 => 4 | _ => 7 end.
Lemma rw_g_log : eg_log (rw_g false) =
  EAdd (Node 6 [3]) 5 :: EAdd (Node 6 [2]) 4 :: EAdd (Node 5 [1; 0]) 3 :: EAdd (Node 5 [0; 1]) 2 :: EAdd (Node 1 []) 1 :: EAdd (Node 0 []) 0 :: [].
Proof. vm_compute. reflexivity. Qed.
Lemma rw_g_models : models addF addF_nu (eg_log (rw_g false)).
Proof.
  rewrite rw_g_log. split.
  - intros f cs i Hi. repeat (apply elem_of_cons in Hi as [Hi|Hi]; [injection Hi as -> -> ->; reflexivity|]). by apply elem_of_nil in Hi.
  - intros a b r Hi. repeat (apply elem_of_cons in Hi as [Hi|Hi]; [done|]). by apply elem_of_nil in Hi.
Qed.

(** With a backoff scheduler: limit 1, ban length 3. *)
Definition back8 : scheduler nat unit backoff := backoff_scheduler natlang it0 true 8 true.
Definition back_run : res (option (runner nat unit backoff unit)) :=
  run natlang unitan (fun k => k) back8 li0 rules0 20 9 [] 6 [5] (rw_g false) (backoff_default 1 3) ().
Definition back_r : runner nat unit backoff unit := run_of (idle_runner (backoff_default 1 3)) back_run.
Lemma back_run_eq : back_run = Ok (Some back_r).
Proof. apply run_of_eq. vm_compute. reflexivity. Qed.
(** ... and ban length 0 *)
Definition zero_run : res (option (runner nat unit backoff unit)) :=
  run natlang unitan (fun k => k) back8 li0 rules0 20 9 [] 6 [5] (rw_g false) (backoff_default 1 0) ().
Definition zero_r : runner nat unit backoff unit := run_of (idle_runner (backoff_default 1 0)) zero_run.
Lemma zero_run_eq : zero_run = Ok (Some zero_r).
Proof. apply run_of_eq. vm_compute. reflexivity. Qed.
(** A hook that stops the run in iteration 1. *)
Definition stop_hook : hook nat unit unit := Hook (fun _ _ => PRet) (fun cl i _ => (cl, if i =? 1 then Some 7 else None)).
Definition lim_run (li : limits) (hooks : list (hook nat unit unit)) : res (option (runner nat unit unit unit)) :=
  run natlang unitan (fun k => k) simple8 li rules0 20 9 hooks 6 [5] (rw_g false) () ().
Definition lim_r li hooks : runner nat unit unit unit := run_of (idle_runner ()) (lim_run li hooks).
Lemma rules0_shaped : Forall (rule_shaped (D := unit)) rules0.
Proof.
  constructor; [|constructor; [|constructor]]; (split; [intros ast [= <-]; apply (built_sast ord0 (SPattern (compiled pat_f01))); [apply pat_f01_built|done]|]).
  - apply pat_f10_good.
  - split; [split; [apply pat_f01_good|apply pat_f10_good]|apply pat_gf_good].
Qed.
Definition zero_g1 : egraph nat unit := fst_ok (eg_new false) [2] (rewrite_apply natlang unitan 20 9 comm comm_ms (r_eg zero_r)).
Definition zero_g2 : egraph nat unit := fst_ok (eg_new false) 1 (rebuild natlang unitan 20 (modify_n natlang unitan 20) zero_g1).
Lemma zero_ban_unsound : exists r ms g1 g2,
  run natlang unitan (fun k => k) back8 li0 rules0 20 9 ([] : list (hook nat unit unit)) 6 [5] (rw_g false) (backoff_default 1 0) () = Ok (Some r) /\
  r_stop r = Some Saturated /\
  rewrite_search natlang it0 true 8 (r_eg r) comm 9 = Ok ms /\ rewrite_apply natlang unitan 20 9 comm ms (r_eg r) = Ok (g1, [2]) /\
  rebuild natlang unitan 20 (modify_n natlang unitan 20) g1 = Ok (g2, 1) /\
  eg_find (r_eg r) 2 <> eg_find (r_eg r) 3 /\ eg_find g2 2 = eg_find g2 3.
Proof.
  exists zero_r, comm_ms, zero_g1, zero_g2. split_and!; [exact zero_run_eq|vm_compute; reflexivity|vm_compute; reflexivity| | | |].
  - apply fst_ok_eq. vm_compute. reflexivity.
  - apply fst_ok_eq. vm_compute. reflexivity.
  - vm_compute. lia.
  - vm_compute. reflexivity.
Qed.
(** The rule [comm] banned in iteration 0, asked for in iteration 2, found in iteration 3,
    and unbanned early. *)
Definition snd_ok {B C} (b : B) (d : C) (r : res (B * C)) : C := snd (ok_of (b, d) r).
Lemma snd_ok_eq {B C} (d : C) (r : res (B * C)) b : (fst <$> r) = Ok b -> r = Ok (b, snd_ok b d r).
Proof. destruct r as [[x y]| |]; cbn; congruence. Qed.
Definition back_b1 : backoff := snd_ok [] (backoff_default 1 3) (backoff_search natlang it0 true 8 true 0 (rw_g false) comm (backoff_default 1 3)).
Definition back_b2 : backoff := snd_ok [] (backoff_default 1 3) (backoff_search natlang it0 true 8 true 2 (rw_g false) comm back_b1).
Definition back_b3 : backoff := snd_ok comm_ms (backoff_default 1 3) (backoff_search natlang it0 true 8 true 3 (rw_g false) comm back_b2).
Definition back_b4 : backoff := snd_ok false (backoff_default 1 3) (backoff_can_stop 0 back_b1).
Definition back_b5 : backoff := snd_ok true (backoff_default 1 3) (backoff_can_stop 0 back_b4).
Lemma banned_bool b name i : (i <? rs_until (rule_stats name b)) = true -> banned b name i.
Proof. intros E%Nat.ltb_lt. by apply banned_stats. Qed.
Lemma not_banned_bool b name i : (i <? rs_until (rule_stats name b)) = false -> ~ banned b name i.
Proof. intros E%Nat.ltb_ge Hb%banned_stats. lia. Qed.
