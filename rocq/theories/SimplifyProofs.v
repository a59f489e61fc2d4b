(** Simplifying: the roots of a runner, what is answered for them, and that an answer comes. *)
From Verif Require Import Base UnionFind EGraphModel EGraphSteps EGraphInv EGraphPres EGraphRuns Spec EGraphReach EGraphSafe EGraphNoPanic Terms RecExprModel RecExprProofs
  ExprModel PatSpec ExprProofs MachineModel MatchSpec MatchProps RewriteModel AlgSpec RuleSpec RuleProps RunnerModel RunnerSpec RunnerProofs RunnerLimits RunnerSound
  ExtractModel ExtractSpec ExtractProofs ExtractMain ExplainModel ExplainSpec ExplainMain ExplainModes CheckSpec OptimumSpec OptimumProofs OptimumRun DeriveSpec DeriveProofs DeriveRun
  TotalSpec TotalProofs TotalOps RunTotal CompileProofs TextModel SimplifyModel.

Section add.
Context {Op D : Type} `{Countable Op} (L : lang Op) (A : analysis Op D) (Hh : hook_free A).
Notation egraph := (egraph Op D).
Notation node := (node Op).
Implicit Types (g : egraph).

Lemma free_new ex : reachable_np L A ex (eg_new ex).
Proof using Hh. split; [|constructor]. intros i. by rewrite (Hh i). Qed.
Definition plain g : Prop := forall a b q, EUnion a b q ∉ eg_log g.
Definition stands g (t : term Op) i : Prop := Rep g t (eg_find g i).
Lemma stands_grows ex g g' t i : reachable_np L A ex g -> reachable_np L A ex g' -> grows g g' -> stands g t i -> stands g' t i.
Proof.
  intros R R' G Hi. unfold stands in *. rewrite <- (gr_find _ _ G i). apply (Rep_PRep _ (fun _ => None)).
  apply NRep_PRep; [by eapply reachable_Inv, reachable_np_reachable|by eapply reach_listed|].
  eapply NRep_grows; [exact G|]. apply NRep_PRep; [by eapply reachable_Inv, reachable_np_reachable|by eapply reach_listed|]. by apply Rep_PRep.
Qed.
Lemma add_stands ex fuel e t g g' i : reachable_np L A ex g -> plain g -> ExprTree e t -> add_expr A (modify_n L A fuel) e g = Ok (g', i) ->
  reachable_np L A ex g' /\ grows g g' /\ plain g' /\ stands g' t i.
Proof using Hh.
  intros R Hp Ht E. destruct (add_expr_rep L A ex fuel e t g g' i R Ht E) as (R' & G & Hr). split; [exact R'|]. split; [exact G|].
  unfold add_expr, add_expr_uncanonical in E. destruct (add_expr_loop _ _ _ _ _) as [[g1 ids]| |] eqn:El; [|done|done].
  cbn [mbind res_bind] in E. destruct (last ids) as [k|]; [|done]. cbn in E. injection E as -> <-.
  split.
  - intros a b q Hab. by apply (add_loop_unions L A Hh ex fuel e [] g g' ids (reachable_np_reachable _ _ _ _ R) El), Hp in Hab.
  - unfold stands. rewrite (Inv_find_idem g' k (reachable_Inv _ _ _ _ (reachable_np_reachable _ _ _ _ R'))). exact Hr.
Qed.
Lemma withs_stand ex fuel es ts g roots g' roots' : reachable_np L A ex g -> plain g -> Forall2 ExprTree es ts -> with_exprs L A fuel es (g, roots) = Ok (g', roots') ->
  reachable_np L A ex g' /\ grows g g' /\ plain g' /\ exists ids, roots' = roots ++ ids /\ Forall2 (stands g') ts ids.
Proof using Hh.
  intros R Hp Hf. revert g roots R Hp. induction Hf as [|e t es ts Ht _ IH]; intros g roots R Hp E; cbn [with_exprs] in E.
  - injection E as <- <-. split; [exact R|]. split; [by eapply grows_refl, reachable_Inv, reachable_np_reachable|]. split; [exact Hp|]. exists []. by rewrite app_nil_r.
  - unfold with_expr in E. cbn [fst snd] in E. destruct (add_expr A _ e g) as [[g1 i]| |] eqn:Ea; [|done|done]. cbn [mbind res_bind] in E.
    destruct (add_stands ex fuel e t g g1 i R Hp Ht Ea) as (R1 & G1 & P1 & S1).
    destruct (IH g1 (roots ++ [i]) R1 P1 E) as (R2 & G2 & P2 & ids & -> & F2).
    split; [exact R2|]. split; [by eapply grows_trans|]. split; [exact P2|]. exists (i :: ids). rewrite <- app_assoc. split; [done|].
    constructor; [|exact F2]. exact (stands_grows ex g1 g' t i R1 R2 G2 S1).
Qed.
Lemma with_total ex e : dag e -> e <> [] -> exists g i, forall fuel, 1 <= fuel -> with_expr L A fuel e (eg_new ex, []) = Ok (g, [i]).
Proof using Hh.
  intros Hd Hne. destruct (add_expr_total L A Hh ex 0 e (eg_new ex) Hd Hne (reachable_np_reachable _ _ _ _ (free_new ex))) as (g & i & E & _).
  exists g, (eg_find g i). intros [|fuel] Hf; [lia|]. unfold with_expr, add_expr. cbn [fst snd].
  rewrite (add_expr_any L A Hh fuel 0), E. reflexivity.
Qed.
End add.

Lemma find_best_mono {Op D C} `{Countable Op} (g : egraph Op D) (cs : gmap nat (C * node Op)) i k k' x :
  find_best k g cs i = Ok x -> k <= k' -> find_best k' g cs i = Ok x.
Proof.
  unfold find_best, build_recexpr. intros E Hk. destruct (cs !! eg_find g i) as [[v root]|]; [|done]. cbn [expect mbind res_bind] in E |- *.
  destruct (build_loop k _ _ _ _) as [p| |] eqn:Eb; [|done|done]. by rewrite (build_loop_mono _ _ _ _ _ _ _ Eb Hk).
Qed.

Section front.
Context {Op D : Type} `{Countable Op} (L : lang Op) (A : analysis Op D) (Hh : hook_free A) (Lo : lang_ok L).
Context (it : gset nat -> list nat) (Hit : enumerates it) (ord : gmap (nat * nat) (node Op) -> list (nat * nat)) (Hord : enumerates_keys ord).
Context (clock : nat -> nat) {St Cl : Type} (sch : scheduler Op D St) (li : limits) (rules : list (rewrite Op D)) (fuel here : nat).
Context (hooks : list (hook Op D Cl)) (ex : bool) (cycles : bool) (w : nat).
Context (Hr : Forall (rule_built ord) rules) (Hp : Forall pattern_rule rules) (Hon : honest L it cycles w sch).
Context (Hhk : Forall (fun h : hook Op D Cl => forall cl i, no_prune (hk_body h cl i) /\ reasons (fun _ => False) (hk_body h cl i)) hooks).
Context (es : list (list (node Op))) (ts : list (term Op)) (Hes : Forall2 ExprTree es ts) (fuel0 : nat) (g : egraph Op D) (roots : list nat).
Context (Eg : with_exprs L A fuel0 es (eg_new ex, []) = Ok (g, roots)).
Context (rounds : nat) (st : St) (cl : Cl) (r : runner Op D St Cl).
Context (Er : run L A clock sch li rules fuel here hooks rounds roots g st cl = Ok (Some r)).
Notation eq := (derivable rules (fun _ _ => False)).

Lemma front_hooks : Forall hook_np hooks.
Proof using Hhk. eapply Forall_impl; [exact Hhk|]. intros h Hx cl0 k. apply Hx. Qed.
Lemma front_start : reachable_np L A ex g /\ plain g /\ Forall2 (stands g) ts roots.
Proof using Hh Hes Eg.
  destruct (withs_stand L A Hh ex fuel0 es ts (eg_new ex) [] g roots (free_new L A Hh ex)) as (R & _ & Pg & ids & Ei & F); [|exact Hes|exact Eg|].
  - intros a b q Hab. by apply elem_of_nil in Hab.
  - cbn in Ei. split; [exact R|]. split; [exact Pg|]. rewrite Ei. exact F.
Qed.
Lemma front_roots : r_roots r = roots /\ reachable_np L A ex (r_eg r) /\ Forall2 (fun t i => Rep (r_eg r) t (eg_find (r_eg r) i)) ts (r_roots r).
Proof using Hh Hr Hhk Hes Eg Er.
  destruct front_start as (R & _ & F).
  destruct (run_onward L A clock sch li rules fuel here hooks ord ex Hr front_hooks rounds roots g st cl r R Er) as [R' _].
  assert (E : r_roots r = roots).
  { assert (Hsh : Forall rule_shaped rules).
    { eapply Forall_impl; [exact Hr|]. intros rw [Hb Ha0]. split; [intros ast; by apply (built_sast ord)|]. by eapply within_mono; [|exact Ha0]. }
    by destruct (run_kept L A clock sch li rules fuel here hooks ex Hsh rounds roots g st cl r (reachable_np_reachable _ _ _ _ R) Er) as (_ & _ & E & _). }
  split; [exact E|]. split; [exact R'|]. rewrite E. eapply Forall2_impl; [exact F|]. intros t i Hi.
  exact (run_represents L A ord clock sch li rules fuel here hooks ex Hr front_hooks rounds roots g st cl r R Er t i Hi).
Qed.
Context {C : Type} (pcmp : C -> C -> option comparison) (cf : node Op -> list C -> C) (F : Op -> list C -> C) (Ho : orders pcmp).
Context (HF : by_operator cf F) (Hm : monotone pcmp cf) (Hs : superior pcmp cf).
Context (order : list nat) (Htr : traverses (r_eg r) order) (fuel' : nat) (cs : gmap nat (C * node Op)) (Ecs : extractor_new pcmp cf fuel' (r_eg r) order = Ok cs).
Lemma front_best k t : ts !! k = Some t ->
  exists root v e s n, r_roots r !! k = Some root /\ (forall fuel1, n <= fuel1 -> find_best fuel1 (r_eg r) cs root = Ok (v, e)) /\
    dag e /\ ExprTree e s /\ eq t s /\ pcmp (geval F s) v = Some Eq /\
    (forall u, Rep (r_eg r) u (eg_find (r_eg r) root) -> cle pcmp v (geval F u)) /\ Rep (r_eg r) t (eg_find (r_eg r) root).
Proof using All.
  intros Hk. destruct front_start as (R & Pg & _). destruct front_roots as (_ & R' & Fr).
  destruct (Forall2_lookup_l _ _ _ _ _ Fr Hk) as (root & Hroot & Hrep).
  destruct (extract_optimal L A ex pcmp cf Ho (r_eg r) order (reachable_np_reachable _ _ _ _ R') (np_inhabited _ _ _ _ R') Htr F fuel' cs root HF Hm Hs Ecs) as
    (v & e & s & n & H1 & _ & H3 & H4 & H5 & _ & H7 & H8); [by exists t|].
  exists root, v, e, s, n. split; [exact Hroot|]. split; [exact H1|]. split; [exact H3|]. split; [exact H4|]. split.
  { exact (run_derivable_new L A Hh Lo it Hit ord Hord clock sch li rules fuel here hooks ex cycles w Hr Hp Hon Hhk rounds roots g st cl r R Er t s _ Pg Hrep H5). }
  split; [exact H7|]. split; [exact H8|exact Hrep].
Qed.
(** Saturated. *)
Context (J : St -> Prop) (Ha : Forall (fun rw => standard_applier (rw_applier rw)) rules) (Ht : Forall (hook_tidy L A ex) hooks) (Hth : thorough L it true w li sch J) (HJ : J st) (Es : r_stop r = Some Saturated).
Lemma front_closed t u c : Rep (r_eg r) t c -> rewrites rules t u -> Rep (r_eg r) u c.
Proof using All.
  destruct front_start as (R & _).
  exact (run_closed L A Hh Lo it Hit ord Hord clock sch li rules fuel here hooks ex w J Hr Ha front_hooks Ht Hth rounds roots g st cl r R HJ Er Es t u c).
Qed.
Lemma front_decides j k t u a b : undoable rules -> ts !! j = Some t -> ts !! k = Some u -> r_roots r !! j = Some a -> r_roots r !! k = Some b ->
  (eg_find (r_eg r) a = eg_find (r_eg r) b <-> eq t u).
Proof using Hh Lo Hit Hord Hr Hp Hon Hhk Hes Eg Er Ha Ht Hth HJ Es.
  intros Hun Ht1 Hu1 Ea Eb. destruct front_start as (R & Pg & Fr). destruct front_roots as (Eroots & _). rewrite Eroots in Ea, Eb.
  destruct (Forall2_lookup_l _ _ _ _ _ Fr Ht1) as (a' & Ea' & H1). destruct (Forall2_lookup_l _ _ _ _ _ Fr Hu1) as (b' & Eb' & H2).
  rewrite Ea in Ea'. injection Ea' as <-. rewrite Eb in Eb'. injection Eb' as <-.
  destruct (run_decides_equality L A Hh Lo it Hit ord Hord clock sch li rules fuel here hooks ex cycles w Hr Hp Hon Hhk rounds roots g st cl r R Er J Ha Ht Hth HJ Es t u a b Hun Pg H1 H2) as [K1 K2].
  by rewrite K1, K2.
Qed.
End front.
