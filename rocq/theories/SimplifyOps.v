(** A run does not invent operators. *)
From Verif Require Import Base UnionFind EGraphModel EGraphSteps EGraphInv EGraphPres EGraphRuns Spec EGraphReach EGraphSafe EGraphNoPanic Terms RecExprModel RecExprProofs
  ExprModel PatSpec ExprProofs MachineModel MatchSpec MatchProps RewriteModel RewriteProofs AlgSpec AlgProofs RuleSpec RuleProps RunnerModel RunnerSpec RunnerProofs SimplifySpec SimplifyModel.

Section ops.
Context {Op D : Type} `{Countable Op} (L : lang Op) (A : analysis Op D) (Hh : hook_free A) (S : Op -> nat -> Prop) (ex : bool) (fuel here : nat).
Notation egraph := (egraph Op D).
Notation node := (node Op).
Notation pnode := (pnode Op).
Notation md := (modify_n L A fuel).
Implicit Types (g : egraph).

Definition uses g : Prop := reachable L A ex g /\ forall n i, EAdd n i ∈ eg_log g -> S (nop n) (length (nch n)).
Lemma new_uses : uses (eg_new ex).
Proof. split; [constructor|]. intros n i Hin. by apply elem_of_nil in Hin. Qed.
Lemma add_uses n g g' i : uses g -> S (nop n) (length (nch n)) -> api_add A md n g = Ok (g', i) -> uses g'.
Proof using Hh.
  intros [R U] Hn E. destruct (api_add_step L A (fun _ => True) ex fuel n g g' i ltac:(done) R E) as (R' & _).
  destruct (add_hook_free L A Hh ex fuel n g g' i R E) as (El & _). split; [exact R'|]. intros m k. rewrite El.
  intros [[= -> ->]|Hin]%elem_of_cons; [exact Hn|by eapply U].
Qed.
Lemma union_uses a b r g g' v : uses g -> api_union A md a b r g = Ok (g', v) -> uses g'.
Proof using Hh.
  intros [R U] E. destruct (union_step L A (fun _ => True) ex fuel a b r g g' v ltac:(done) R E) as (R' & _).
  apply (api_union_log L A Hh ex) in E as (El & _); [|exact R]. split; [exact R'|]. intros m k. rewrite El. intros [[=]|Hin]%elem_of_cons. by eapply U.
Qed.
Lemma trusted_uses a b r g g' v : uses g -> api_union_trusted A md a b r g = Ok (g', v) -> uses g'.
Proof using Hh.
  intros [R U] E. destruct (trusted_step L A (fun _ => True) ex fuel a b r g g' v ltac:(done) R E) as (R' & _).
  unfold api_union_trusted, union_trusted in E. apply union_log_gen in E as (El & _); [|by apply hook_free_idle_hook|by eapply reachable_Inv].
  split; [exact R'|]. intros m k. rewrite El. intros [[=]|Hin]%elem_of_cons. by eapply U.
Qed.
Lemma rebuild_uses g g' n : uses g -> rebuild L A fuel md g = Ok (g', n) -> uses g'.
Proof using Hh.
  intros [R U] E. destruct (rebuild_step L A (fun _ => True) ex fuel g g' n) as (R' & _); [apply calls_any|exact R|exact E|].
  apply (rebuild_quiet L A Hh ex) in E as (El & _); [|exact R]. split; [exact R'|]. intros m k. rewrite El. by apply U.
Qed.
Lemma children_length (f : nat -> option nat) (n m : node) : map_children_o f n = Ok m -> nop m = nop n /\ length (nch m) = length (nch n).
Proof. intros [E Hf]%map_children_o_inv. split; [exact E|]. symmetry. by eapply Forall2_length. Qed.
Lemma expr_uses (e : list node) ids g g' ids' : uses g -> (forall n, n ∈ e -> S (nop n) (length (nch n))) -> add_expr_loop A md e ids g = Ok (g', ids') -> uses g'.
Proof using Hh.
  revert ids g. induction e as [|n e IH]; intros ids g U Hn E; cbn [add_expr_loop] in E; [by injection E as <- _|].
  apply bind_Ok in E as (m & [E1 E2]%children_length & E). apply bind_Ok in E as ([g1 i] & Ea & E).
  apply IH in E; [done| |intros k Hk; apply Hn; by right]. eapply add_uses; [exact U| |exact Ea]. rewrite E1, E2. apply Hn. left.
Qed.
Lemma inst_uses (p : list pnode) s g g' i : uses g -> pattern_over S p -> add_instantiation_noncanonical A md p s g = Ok (g', i) -> uses g'.
Proof using Hh.
  intros U Hp E. unfold add_instantiation_noncanonical in E. apply bind_Ok in E as ([g1 ids] & E & E'). apply bind_Ok in E' as (k & _ & [= <- _]).
  revert E. generalize (@nil nat) as ids0. revert g U. induction p as [|[o cs] p IH]; intros g U ids0 E; cbn [add_inst_loop nop nch] in E; [by injection E as <- _|].
  assert (Hp' : pattern_over S p) by (intros f ds Hin; apply Hp; by right).
  destruct o as [f|v].
  - apply bind_Ok in E as (m & [E1 E2]%children_length & E). apply bind_Ok in E as ([g2 j] & Ea & E). cbn [nop nch] in E1, E2.
    eapply IH; [exact Hp'| |exact E]. eapply add_uses; [exact U| |exact Ea]. rewrite E1, E2. apply Hp. left.
  - apply bind_Ok in E as (j & _ & E). apply bind_Ok in E as (j' & _ & E). by eapply IH.
Qed.
Lemma apply_pat_uses (p : list pnode) s g g' i : uses g -> pattern_over S p -> apply_pat A md p s g = Ok (g', i) -> uses g'.
Proof using Hh.
  intros U Hp E. unfold apply_pat in E. apply bind_Ok in E as ([g1 ids] & E & E'). apply bind_Ok in E' as (k & _ & [= <- _]).
  revert E. generalize (@nil nat) as ids0. revert g U. induction p as [|[o cs] p IH]; intros g U ids0 E; cbn [apply_pat_loop nop nch] in E; [by injection E as <- _|].
  assert (Hp' : pattern_over S p) by (intros f ds Hin; apply Hp; by right).
  destruct o as [f|v].
  - apply bind_Ok in E as (m & [E1 E2]%children_length & E). apply bind_Ok in E as ([g2 j] & Ea & E). cbn [nop nch] in E1, E2.
    eapply IH; [exact Hp'| |exact E]. eapply add_uses; [exact U| |exact Ea]. rewrite E1, E2. apply Hp. left.
  - apply bind_Ok in E as (j & _ & E). by eapply IH.
Qed.
Lemma union_inst_uses p1 p2 s r g g' b : uses g -> pattern_over S p1 -> pattern_over S p2 -> union_instantiations A md p1 p2 s r g = Ok (g', b) -> uses g'.
Proof using Hh.
  intros U H1 H2 E. unfold union_instantiations in E. apply bind_Ok in E as ([g1 i1] & E1 & E). apply bind_Ok in E as ([g2 i2] & E2 & E).
  apply bind_Ok in E as ([g3 did] & E3 & [= <- _]). eapply trusted_uses; [|exact E3]. eapply inst_uses; [|exact H2|exact E2]. exact (inst_uses _ _ _ _ _ U H1 E1).
Qed.
Definition sast_over (sast : option (list pnode)) : Prop := forall ast, sast = Some ast -> pattern_over S ast.
Lemma one_uses a c s sast rule g g' l : uses g -> applier_over S a -> sast_over sast -> apply_one L A fuel here a c s sast rule g = Ok (g', l) -> uses g'.
Proof using Hh.
  revert g. induction a as [p|asts|co a IH|vars body ret]; intros g U Ha Hs E; cbn [apply_one applier_over] in *; [|done| |done].
  - unfold pattern_apply_one in E. apply bind_Ok in E as ([g1 id] & E1 & E). eapply apply_pat_uses in E1; [|exact U|exact Ha].
    destruct sast as [ast|].
    + apply bind_Ok in E as ([g2 [fr did]] & E2 & [= <- _]). eapply union_inst_uses; [exact E1|by apply Hs|exact Ha|exact E2].
    + apply bind_Ok in E as ([g2 did] & E2 & [= <- _]). exact (union_uses _ _ _ _ _ _ E1 E2).
  - destruct co as [p1 p2|]; [|done]. destruct Ha as (H1 & H2 & Ha). apply bind_Ok in E as ([g1 b] & E1 & E). cbn [check] in E1.
    apply bind_Ok in E1 as ([g2 a1] & E2 & E1). apply bind_Ok in E1 as ([g3 a2] & E3 & [= <- <-]).
    eapply apply_pat_uses in E2; [|exact U|exact H1]. eapply apply_pat_uses in E3; [|exact E2|exact H2].
    destruct (a1 =? a2); [exact (IH _ E3 Ha Hs E)|by injection E as <- _].
Qed.
Lemma each_uses {X} (f : X -> egraph -> res (egraph * list nat)) xs g g' l : (forall x h h' k, uses h -> f x h = Ok (h', k) -> uses h') -> uses g ->
  each f xs g = Ok (g', l) -> uses g'.
Proof.
  intros Hf. revert g l. induction xs as [|x xs IH]; intros g l U E; cbn [each] in E; [by injection E as <- _|].
  apply bind_Ok in E as ([g1 l1] & E1 & E). apply bind_Ok in E as ([g2 l2] & E2 & [= <- _]). exact (IH _ _ (Hf _ _ _ _ U E1) E2).
Qed.
Lemma clauses_uses asts s g g' l : uses g -> (forall v p, (v, p) ∈ asts -> pattern_over S p) -> multi_clauses L A fuel here asts s g = Ok (g', l) -> uses g'.
Proof using Hh.
  revert s g l. induction asts as [|[v p] asts IH]; intros s g l U Ha E; cbn [multi_clauses] in E; [by injection E as <- _|].
  apply bind_Ok in E as ([g1 i1] & E1 & E). eapply apply_pat_uses in E1; [|exact U|apply (Ha v); left].
  destruct (subst_insert s v i1) as [s' old]. apply bind_Ok in E as (g2 & E2 & E). apply bind_Ok in E as ([g3 l3] & E3 & [= <- _]).
  assert (Ha' : forall v p, (v, p) ∈ asts -> pattern_over S p) by (intros v' p' Hin; apply (Ha v'); by right).
  eapply IH; [|exact Ha'|exact E3]. destruct old as [i2|]; [|by injection E2 as <-].
  apply bind_Ok in E2 as ([g4 did] & E4 & [= <-]). exact (union_uses _ _ _ _ _ _ E1 E4).
Qed.
Lemma rule_uses rw ms g g' l : uses g -> rule_over S rw -> rewrite_apply L A fuel here rw ms g = Ok (g', l) -> uses g'.
Proof using Hh.
  intros U [Hs Ha] E. unfold rewrite_apply in E.
  assert (Hsa : sast_over (searcher_ast (rw_searcher rw))).
  { intros ast. destruct (rw_searcher rw) as [p|m]; [|done]. intros [= <-]. by apply Hs. }
  unfold apply_matches in E. destruct (rw_applier rw) as [p|asts|co a|vars body ret] eqn:Er; [| | |done].
  - unfold for_matches in E. eapply each_uses; [|exact U|exact E]. intros m h h' k Uh Eh. eapply each_uses; [|exact Uh|exact Eh].
    intros s h1 h2 k1 U1 E1. unfold pattern_apply in E1. destruct (explaining h1).
    + apply bind_Ok in E1 as (ast & Ex%expect_Ok & E1). apply bind_Ok in E1 as ([h3 [i did]] & E1 & [= <- _]).
      eapply union_inst_uses; [exact U1|by apply Hsa|exact Ha|exact E1].
    + apply bind_Ok in E1 as ([h3 i] & E1 & E2). apply bind_Ok in E2 as ([h4 did] & E2 & [= <- _]). exact (union_uses _ _ _ _ _ _ (apply_pat_uses _ _ _ _ _ U1 Ha E1) E2).
  - unfold for_matches in E. eapply each_uses; [|exact U|exact E]. intros m h h' k Uh Eh. eapply each_uses; [|exact Uh|exact Eh].
    intros s h1 h2 k1 U1 E1. unfold multi_apply in E1. apply bind_Ok in E1 as ([h3 l3] & E1 & [= <- _]). exact (clauses_uses _ _ _ _ _ U1 Ha E1).
  - unfold default_apply, for_matches in E. eapply each_uses; [|exact U|exact E]. intros m h h' k Uh Eh. eapply each_uses; [|exact Uh|exact Eh].
    intros s h1 h2 k1 U1 E1. eapply one_uses; [exact U1|exact Ha| |exact E1]. intros ast. destruct (explaining h1); [apply Hsa|done].
Qed.
Lemma uses_term g t c : reachable_np L A ex g -> uses g -> Rep g t c -> term_over S t.
Proof.
  intros Rn [R U] Hr. pose proof (reachable_Inv _ _ _ _ R) as I. apply (Rep_PRep _ (fun _ => None)) in Hr. apply NRep_PRep in Hr; [|exact I|by eapply reach_listed].
  revert c Hr. induction t as [f ts IH] using term_sind; intros c Hr. cbn [embed] in Hr. inversion Hr as [|? us cs k Hk Hcs]; subst.
  constructor.
  - apply (proj1 (reachable_hist L A ex g R)) in Hk. apply U in Hk. cbn [nop nch] in Hk. apply Forall2_length in Hcs. rewrite fmap_length in Hcs. by rewrite Hcs.
  - rewrite Forall_forall in IH |- *. intros u Hu. apply elem_of_list_lookup in Hu as [q Hq].
    destruct (Forall2_lookup_l _ _ _ q (embed u) Hcs) as (x & _ & Hx); [by rewrite list_lookup_fmap, Hq|].
    eapply IH; [by eapply elem_of_list_lookup_2|exact Hx].
Qed.

Context (clock : nat -> nat) {St Cl : Type} (sch : scheduler Op D St) (li : limits) (rules : list (rewrite Op D)) (Hr : Forall (rule_over S) rules).
Lemma run_uses rounds roots g st cl r : uses g -> run L A clock sch li rules fuel here ([] : list (hook Op D Cl)) rounds roots g st cl = Ok (Some r) -> uses (r_eg r).
Proof using Hh Hr.
  intros U E. refine (run_T L A clock sch li rules fuel here [] uses (fun g g' => uses g -> uses g') _ _ _ _ _ _ rounds roots g st cl r U E U).
  - done.
  - intros g1 g2 g3 T1 T2 U1. by apply T2, T1.
  - intros g1 g2 U1 T1. by apply T1.
  - intros h cl0 i g0 g1 Hin. by apply elem_of_nil in Hin.
  - intros g0 g1 n _ E0 U0. exact (rebuild_uses _ _ _ U0 E0).
  - intros i g0 rw s0 ms s1 g1 g2 ids Hrw U0 _ T0 E1 U1. rewrite Forall_forall in Hr. eapply rule_uses; [exact U1|by apply Hr|exact E1].
Qed.
End ops.
