(** Saturated runs with reversible rules decide equality. *)
From Verif Require Import Base UnionFind EGraphModel EGraphSteps EGraphInv EGraphPres EGraphRuns Spec EGraphReach EGraphSafe EGraphNoPanic Terms RecExprModel RecExprProofs
  ExprModel PatSpec ExprProofs MachineModel MatchSpec MatchProps RewriteModel RewriteProofs AlgSpec RuleSpec RunnerModel RunnerSpec RunnerProofs RunnerSound Saturation SaturationRun
  ExplainModel ExplainSpec ExplainMain CheckModel CheckSpec CheckProofs CheckRun OptimumSpec OptimumProofs OptimumRun.

Section decide.
Context {Op D : Type} `{Countable Op} (L : lang Op) (A : analysis Op D) (Hh : hook_free A) (fuel here : nat).
Notation egraph := (egraph Op D).
Notation pnode := (node (pop Op)).
Notation reach := (reachable L A true).
Notation md := (modify_n L A fuel).
Implicit Types (g : egraph).
Context (rules : list (rewrite Op D)) (Hone : one_per_name rules) (Hacc : Forall accepted_rule rules).
Context (Hhere : not_a_rule rules here) (Hplain : Forall plain_rule rules).

Lemma free_reasons (S : nat -> Prop) i : reasons S (an_modify A i).
Proof using Hh. by rewrite Hh. Qed.
Lemma free_steady : steady L A.
Proof using Hh. apply steady_no_union. intros i. by rewrite Hh. Qed.
Definition rule_name (r : nat) : Prop := exists rw, rw ∈ rules /\ rw_name rw = r.

Lemma inst_only (S : nat -> Prop) (p : list pnode) s h h' j : add_instantiation_noncanonical A md p s h = Ok (h', j) -> only S h h'.
Proof using Hh.
  intros Ej. unfold add_instantiation_noncanonical in Ej. apply bind_Ok in Ej as ([h1 ids] & Ej1 & Ej). apply bind_Ok in Ej as (? & _ & [= <- _]).
  clear -Ej1 Hh. revert Ej1. generalize (@nil nat). revert h. induction p as [|n p IH]; intros h ids0 E; cbn [add_inst_loop] in E; [injection E as <- _; apply only_refl|].
  destruct (nop n).
  - apply bind_Ok in E as (m & _ & E). apply bind_Ok in E as ([h2 k] & E1 & E). eapply only_trans; [eapply add_only; [apply (modify_only L A S fuel); intros i; by apply free_reasons|exact E1]|by eapply IH].
  - apply bind_Ok in E as (k & _ & E). apply bind_Ok in E as (k' & _ & E). by eapply IH.
Qed.
Lemma union_inst_only rw lhs rhs s g g' x : rw ∈ rules -> union_instantiations A md lhs rhs s (rw_name rw) g = Ok (g', x) -> only rule_name g g'.
Proof using Hh.
  intros Hin E. unfold union_instantiations in E. apply bind_Ok in E as ([g1 i1] & E1 & E). apply bind_Ok in E as ([g2 i2] & E2 & E).
  apply bind_Ok in E as ([g3 did] & E3 & [= <- <-]). eapply only_trans; [exact (inst_only _ _ _ _ _ _ E1)|]. eapply only_trans; [exact (inst_only _ _ _ _ _ _ E2)|].
  intros a b r Hu. destruct (trusted_only A rule_name md (modify_only L A _ fuel (free_reasons _)) _ _ _ _ _ _ E3 _ _ _ Hu) as [(-> & -> & ->)|[Ho|Ho]]; [|auto|auto].
  right. by exists rw.
Qed.
Definition step_only g g' : Prop := reach g' /\ only rule_name g g'.
Lemma each_only {X} (f : X -> egraph -> res (egraph * list nat)) xs g g' l : (forall x h h' k, reach h -> f x h = Ok (h', k) -> step_only h h') -> reach g ->
  each f xs g = Ok (g', l) -> step_only g g'.
Proof.
  intros Hf. revert g l. induction xs as [|x xs IH]; intros g l R E; cbn [each] in E; [injection E as <- _; split; [done|apply only_refl]|].
  apply bind_Ok in E as ([g1 l1] & E1 & E). apply bind_Ok in E as ([g2 l2] & E2 & [= <- _]). apply Hf in E1 as [R1 O1]; [|done].
  destruct (IH _ _ R1 E2) as [R2 O2]. split; [done|]. by eapply only_trans.
Qed.
Lemma rule_only rw ms g g' l : rw ∈ rules -> reach g -> rewrite_apply L A fuel here rw ms g = Ok (g', l) -> only rule_name g g'.
Proof using Hh Hone Hacc Hhere Hplain.
  intros Hin R E. destruct (proj1 (Forall_forall _ _) Hplain rw Hin) as (p & q & Es & Ea). unfold rewrite_apply, apply_matches in E. rewrite Ea, Es in E.
  assert (Hb : between rw (pt_ast p) q) by (split; [by exists p|by rewrite Ea]).
  assert (Hs : forall m s h1 h2 k, reach h1 -> pattern_apply L A fuel here q (searcher_ast (SPattern p)) (rw_name rw) m s h1 = Ok (h2, k) -> step_only h1 h2).
  { intros m s h1 h2 k R1 E1. unfold pattern_apply in E1. rewrite (reach_ex _ _ _ _ _ R1) in E1. apply bind_Ok in E1 as (ast & [= <-]%expect_Ok & E1).
    apply bind_Ok in E1 as ([h3 [i did]] & E1 & [= <- _]). split.
    - apply (union_inst_W L A fuel free_steady rules Hone Hacc (free_reasons _) _ _ _ _ _ _ _ Hin Hb R1 E1).
    - exact (union_inst_only _ _ _ _ _ _ _ Hin E1). }
  unfold for_matches in E. apply each_only in E; [apply E| |done]. intros m h h' k Rh. apply each_only; [|done]. intros s. apply Hs.
Qed.

Context (Lo : lang_ok L) (it : gset nat -> list nat) (Hit : enumerates it) (ord : gmap (nat * nat) (node Op) -> list (nat * nat)) (Hord : enumerates_keys ord).
Context (clock : nat -> nat) {St Cl : Type} (sch : scheduler Op D St) (li : limits) (hooks : list (hook Op D Cl)) (w : nat) (J : St -> Prop).
Context (Hr : Forall (rule_built ord) rules) (Ht : Forall (hook_tidy L A true) hooks) (Hsch : thorough L it true w li sch J).
Context (Hhk : Forall (fun h : hook Op D Cl => forall cl i, no_prune (hk_body h cl i) /\ reasons (fun _ => False) (hk_body h cl i)) hooks).
Context (rounds : nat) (roots : list nat) (g : egraph) (st : St) (cl : Cl) (r : runner Op D St Cl).
Context (R : reachable_np L A true g) (HJ : J st) (Hnew : forall a b q, EUnion a b q ∉ eg_log g).
Context (E : run L A clock sch li rules fuel here hooks rounds roots g st cl = Ok (Some r)) (Es : r_stop r = Some Saturated).

Lemma reasons_mono (S S' : nat -> Prop) (p : prog Op D) : (forall q, S q -> S' q) -> reasons S p -> reasons S' p.
Proof.
  intros HS. induction p; cbn; try done; try (intros Hp *; eauto; fail); try (by intuition eauto).
Qed.
Lemma hooks_np : Forall hook_np hooks.
Proof using Hhk. eapply Forall_impl; [exact Hhk|]. intros h Hx cl0 i. apply Hx. Qed.
Lemma run_names a b q : EUnion a b q ∈ eg_log (r_eg r) -> rule_name q.
Proof using All.
  intros Hu. assert (O : step_only g (r_eg r)).
  { eapply (run_T L A clock sch li rules fuel here hooks reach step_only); [..|exact (reachable_np_reachable _ _ _ _ R)|exact E].
    - intros h Rh. split; [done|apply only_refl].
    - intros h1 h2 h3 [_ O1] [R3 O2]. split; [done|by eapply only_trans].
    - by intros h h' _ [Rh _].
    - intros h cl0 i h1 h2 Hin Rh Eh. split; [by eapply reach_run|]. eapply run_only; [apply modify_only, free_reasons| |exact Eh].
      rewrite Forall_forall in Hhk. eapply reasons_mono; [|apply Hhk, Hin]. done.
    - intros h h' n Rh Eh. destruct (rebuild_step L A (fun _ => True) true fuel h h' n calls_any Rh Eh) as (R' & _). split; [done|].
      eapply rebuild_only; [|exact Eh]. apply modify_only, free_reasons.
    - intros i h rw st0 ms st1 h1 h2 ids Hin Rh _ [R1 _] Ea. split; [|by eapply rule_only].
      destruct (rule_W L A fuel here free_steady rules Hone Hacc Hhere (free_reasons _) rw ms h1 h2 ids Hin) as [R2 _]; [|done|done|done].
      destruct (proj1 (Forall_forall _ _) Hplain rw Hin) as (p & q0 & _ & ->). done. }
  apply O in Hu as [Hu|Hu]; [|done]. by apply Hnew in Hu.
Qed.
Lemma step_both : reversible rules -> forall q t u, asserted (eg_log (r_eg r)) q t u -> rewrites rules t u /\ rewrites rules u t.
Proof using All.
  intros Hrev q t u (a & b & Hu & Ha & Hb). destruct (run_names _ _ _ Hu) as (rw & Hin & <-).
  destruct (runner_W L A fuel here free_steady rules Hone Hacc Hhere (free_reasons _) clock sch li hooks) with (rounds := rounds) (roots := roots) (g := g) (st := st) (cl := cl) (r := r) as (_ & _ & K).
  - rewrite Forall_forall. intros rw' Hin'. destruct (proj1 (Forall_forall _ _) Hplain rw' Hin') as (p & q0 & _ & ->). done.
  - eapply Forall_impl; [exact Hhk|]. cbn. intros h Hx cl0 i. eapply reasons_mono; [|apply Hx]. done.
  - by eapply reachable_np_reachable.
  - exact E.
  - destruct (proj1 (Forall_forall _ _) Hplain rw Hin) as (p & q0 & E1 & E2).
    destruct (K (fun rw' lhs rhs t' u' _ _ '(ex_intro _ a' (ex_intro _ b' (conj Hx _))) => False_ind _ (Hnew _ _ _ Hx)) rw (pt_ast p) q0 t u Hin) as (tl & tr & th & T1 & T2 & -> & ->).
    + split; [by exists p|by rewrite E2].
    + by exists a, b.
    + split; [|exact (Hrev rw p q0 tl tr th Hin E1 E2 T1 T2)].
      apply (rewrites_rule rules rw p tl [] tr th (fun _ => tsubst th tl) Hin E1 T1); [rewrite E2; by constructor|by intros k ? ? Hk..].
Qed.
Lemma teq_rewrites (Rl : nat -> term Op -> term Op -> Prop) : (forall q t u, Rl q t u -> rewrites rules t u /\ rewrites rules u t) ->
  forall t u, teq Rl t u -> rewrites rules t u /\ rewrites rules u t.
Proof.
  intros HR. apply teq_ind'.
  - exact HR.
  - intros t. split; apply rewrites_refl.
  - intros t u _ [H1 H2]. done.
  - intros t u v _ [H1 H2] _ [H3 H4]. split; by eapply rewrites_trans.
  - intros f ts us _ HF. apply Forall2_same_length_lookup in HF as [Hl HF]. split; apply rewrites_inside; [exact Hl|intros k t u Hk Hk'; exact (proj1 (HF k t u Hk Hk'))|symmetry; exact Hl|intros k t u Hk Hk'; exact (proj2 (HF k u t Hk' Hk))].
Qed.
Theorem run_decides (t u : term Op) i j : reversible rules -> AddedAs (eg_log g) i t -> AddedAs (eg_log g) j u ->
  eg_find (r_eg r) i = eg_find (r_eg r) j <-> rewrites rules t u.
Proof using All.
  intros Hrev Hi Hj. assert (Ha : Forall (fun rw => standard_applier (rw_applier rw)) rules).
  { rewrite Forall_forall. intros rw Hin. destruct (proj1 (Forall_forall _ _) Hplain rw Hin) as (p & q & _ & Ea).
    destruct (proj1 (Forall_forall _ _) Hr rw Hin) as [_ Hw]. rewrite Ea in *. exact Hw. }
  split.
  - intros Eq. destruct (run_sat L A Hh Lo it Hit ord Hord clock sch li rules fuel here hooks true w J Hr Ha hooks_np Ht Hsch rounds roots g st cl r R HJ E Es) as (R' & Ec & _).
    destruct (run_onward L A clock sch li rules fuel here hooks ord true Hr hooks_np rounds roots g st cl r R E) as [_ G].
    apply (teq_iff L A true (r_eg r) i j t u (reachable_np_reachable _ _ _ _ R') Ec (added_grows _ _ _ _ G Hi) (added_grows _ _ _ _ G Hj)) in Eq.
    exact (proj1 (teq_rewrites _ (step_both Hrev) t u Eq)).
  - intros Hu. exact (run_joined L A Hh Lo it Hit ord Hord clock sch li rules fuel here hooks true w J Hr Ha hooks_np Ht Hsch rounds roots g st cl r R HJ E Es t u u i j
      (added_rep L A true g i t R Hi) (added_rep L A true g j u R Hj) Hu (rewrites_refl rules u)).
Qed.
End decide.
