(** Clients that state equalities between expressions: the equalities of the rebuilt e-graph
    depend on what they stated only, not on whether explanations are recorded. *)
From Verif Require Import Base UnionFind EGraphModel EGraphSteps EGraphInv EGraphPres EGraphRuns Spec EGraphMain EGraphReach EGraphOps EGraphSafe
  EGraphNoPanic Terms RecExprModel RecExprProofs ExprModel PatSpec ExprProofs ExprSafe MachineModel MatchSpec RewriteModel RewriteProofs AlgSpec AlgProofs
  ExplainModel ExplainSpec ExplainMain.

(** A client in terms of expressions: it adds them, states that two are equal (adding both
    and joining the ids, under a name for the reason), and rebuilds. *)
Inductive tcmd (Op : Type) :=
| TAdd (e : list (node Op))
| TSame (e1 e2 : list (node Op)) (r : nat)
| TRebuild.
Arguments TAdd {Op}. Arguments TSame {Op}. Arguments TRebuild {Op}.
Definition run_tcmd {Op D} `{Countable Op} (L : lang Op) (A : analysis Op D) (fuel : nat) (c : tcmd Op) (g : egraph Op D) : res (egraph Op D) :=
  match c with
  | TAdd e => '(g, _) ← add_expr_uncanonical A (modify_n L A fuel) e g; Ok g
  | TSame e1 e2 r =>
    '(g, a) ← add_expr_uncanonical A (modify_n L A fuel) e1 g;
    '(g, b) ← add_expr_uncanonical A (modify_n L A fuel) e2 g;
    '(g, _) ← api_union A (modify_n L A fuel) a b r g;
    Ok g
  | TRebuild => '(g, _) ← rebuild L A fuel (modify_n L A fuel) g; Ok g
  end.
Fixpoint run_tcmds {Op D} `{Countable Op} (L : lang Op) (A : analysis Op D) (fuel : nat) (cs : list (tcmd Op)) (g : egraph Op D) : res (egraph Op D) :=
  match cs with
  | [] => Ok g
  | c :: cs => g ← run_tcmd L A fuel c g; run_tcmds L A fuel cs g
  end.
(** the equations stated, and the terms added *)
Definition stated {Op} (cs : list (tcmd Op)) (r : nat) (t u : term Op) : Prop :=
  exists e1 e2, TSame e1 e2 r ∈ cs /\ ExprTree e1 t /\ ExprTree e2 u.
Definition mentioned {Op} (cs : list (tcmd Op)) (t : term Op) : Prop :=
  exists e, ExprTree e t /\ (TAdd e ∈ cs \/ exists e' r, TSame e e' r ∈ cs \/ TSame e' e r ∈ cs).

Section modes.
Context {Op D : Type} `{Countable Op} (L : lang Op) (A : analysis Op D) (Hh : hook_free A).
Notation egraph := (egraph Op D).
Notation node := (node Op).
Implicit Types (g : egraph) (t u : term Op).

Lemma Tree_grows_back ex g g' i t v : reachable L A ex g -> grows g g' -> known g i -> Tree (eg_nodes g') i t -> Tree (eg_nodes g) i v -> t = v.
Proof. intros R [_ (l & E) _] Hi Ht Hv. eapply TreeOf_fun; [exact Ht|]. rewrite E. by apply Tree_app. Qed.

Lemma add_loop_unions ex fuel (e : list node) ids g g' ids' : reachable L A ex g ->
  add_expr_loop A (modify_n L A fuel) e ids g = Ok (g', ids') -> forall a b r, EUnion a b r ∈ eg_log g' -> EUnion a b r ∈ eg_log g.
Proof.
  revert ids g. induction e as [|n e IH]; intros ids g R E; cbn [add_expr_loop] in E; [by injection E as <- <-|].
  destruct (map_children_o _ _) as [m| |]; [|done|done]. cbn [mbind res_bind] in E.
  destruct (api_add A (modify_n L A fuel) m g) as [[g1 i]| |] eqn:Ea; [|done|done]. cbn [mbind res_bind] in E.
  destruct (api_add_step L A (fun _ => True) ex fuel m g g1 i ltac:(done) R Ea) as (R1 & G1 & _).
  destruct (add_hook_free L A Hh ex fuel m g g1 i R Ea) as (El & _).
  intros a b r Hab. eapply (IH _ g1 R1 E) in Hab. rewrite El in Hab. by apply elem_of_cons in Hab as [[=]|?].
Qed.
Lemma add_expr_unions Rl ex fuel (e : list node) t g g' i : reachable L A ex g -> ExprTree e t -> unions_in Rl g ->
  add_expr_uncanonical A (modify_n L A fuel) e g = Ok (g', i) -> unions_in Rl g'.
Proof.
  intros R Ht HU E. destruct (add_expr_added L A ex fuel e t g g' i R Ht E) as (R' & G & _).
  unfold add_expr_uncanonical in E. destruct (add_expr_loop _ _ _ _ _) as [[g1 ids]| |] eqn:El; try done.
  cbn [mbind res_bind] in E. destruct (last ids) as [k|]; [|done]. cbn in E. injection E as -> ->.
  intros a b r v w Hab Hv Hw. pose proof (add_loop_unions _ _ _ _ _ _ _ R El _ _ _ Hab) as Hab'.
  destruct (log_known L A ex g R) as [_ Hk]. destruct (Hk _ _ _ Hab') as [Ka Kb].
  pose proof Ka as Na. pose proof Kb as Nb. apply (known_nodes _ _ _ _ _ R) in Na, Nb.
  destruct (dag_Tree _ _ (reach_dag _ _ _ _ R) Na) as [v' Hv']. destruct (dag_Tree _ _ (reach_dag _ _ _ _ R) Nb) as [w' Hw'].
  rewrite (Tree_grows_back _ _ _ _ _ _ R G Ka Hv Hv'), (Tree_grows_back _ _ _ _ _ _ R G Kb Hw Hw'). eapply HU; eauto.
Qed.
Lemma union_unions Rl ex fuel a b r v g g' t u : reachable L A ex g -> unions_in Rl g -> AddedAs (eg_log g) a t -> AddedAs (eg_log g) b u ->
  teq Rl t u -> api_union A (modify_n L A fuel) a b r g = Ok (g', v) -> unions_in Rl g' /\ eg_nodes g' = eg_nodes g.
Proof.
  intros R HU Ha Hb He E.
  destruct (union_step L A (fun _ => True) ex fuel a b r g g' v) as (R' & G' & _); [done|done|done|].
  destruct (api_union_log L A Hh ex fuel a b r g g' v R E) as (El & Hl & Ka & Kb).
  assert (En : eg_nodes g' = eg_nodes g).
  { pose proof (gr_nodes _ _ G') as (l & Hn). pose proof (iv_len _ (reachable_Inv _ _ _ _ R)). pose proof (iv_len _ (reachable_Inv _ _ _ _ R')).
    rewrite Hn in *. rewrite app_length in *. destruct l; [by rewrite app_nil_r|]. cbn in *. lia. }
  split; [|done]. intros a' b' r' v1 w1 Hab Hv Hw. rewrite En in *. rewrite El in Hab. apply elem_of_cons in Hab as [[= -> -> ->]|Hab]; [|by eapply HU].
  eapply teq_trans; [eapply teq_sym, (added_teq L A Rl ex g a t R HU Ha); exact Hv|].
  eapply teq_trans; [exact He|]. by eapply (added_teq L A Rl ex g b u R HU Hb).
Qed.

Definition exprs_ok (c : tcmd Op) : Prop :=
  match c with
  | TAdd e => exists t, ExprTree e t
  | TSame e1 e2 _ => (exists t, ExprTree e1 t) /\ exists t, ExprTree e2 t
  | TRebuild => True
  end.
Definition follows (cs : list (tcmd Op)) g : Prop :=
  unions_in (stated cs) g /\
  (forall r t u, stated cs r t u -> asserted (eg_log g) r t u) /\
  (forall t, mentioned cs t -> exists i, AddedAs (eg_log g) i t).
Lemma stated_app_l cs ds r t u : stated cs r t u -> stated (cs ++ ds) r t u.
Proof. intros (e1 & e2 & ? & ? & ?). exists e1, e2. split_and!; auto. set_solver. Qed.
Lemma unions_mono (R R' : nat -> term Op -> term Op -> Prop) g : (forall r t u, R r t u -> R' r t u) -> unions_in R g -> unions_in R' g.
Proof. intros HR HU a b r t u Hab Ha Hb. eapply teq_mono; [|by eapply HU]. intros. eapply teq_rule; eauto. Qed.

Lemma run_tcmd_follows ex fuel c cs g g' : reachable L A ex g -> exprs_ok c -> follows cs g -> run_tcmd L A fuel c g = Ok g' ->
  reachable L A ex g' /\ grows g g' /\ follows (cs ++ [c]) g'.
Proof.
  intros R Hc (HU & HS & HM) E. destruct c as [e|e1 e2 r|]; cbn [run_tcmd exprs_ok] in *.
  - destruct Hc as [t Ht]. destruct (add_expr_uncanonical _ _ _ _) as [[g1 i]| |] eqn:Ea; try done. cbn in E. injection E as ->.
    destruct (add_expr_added L A ex fuel e t g g' i R Ht Ea) as (R' & G & Hi). split_and!; auto. split_and!.
    + eapply (unions_mono (stated cs)); [|exact (add_expr_unions (stated cs) ex fuel e t g g' i R Ht HU Ea)]. intros r t0 u0. apply stated_app_l.
    + intros r t' u' (a1 & a2 & [Hin|[=]%elem_of_list_singleton]%elem_of_app & H1 & H2).
      eapply asserted_mono; [|apply HS; exists a1, a2; eauto]. destruct G as [_ _ (h & ->)]. set_solver.
    + intros t' (e' & Ht' & Hm).
      assert (Hor : mentioned cs t' \/ e' = e).
      { destruct Hm as [[Hm|Hm%elem_of_list_singleton]%elem_of_app|(e2 & r2 & [[Hm|Hm%elem_of_list_singleton]%elem_of_app|[Hm|Hm%elem_of_list_singleton]%elem_of_app])];
          simplify_eq; [left; exists e'; eauto 8|by right|left; exists e'; eauto 8..]. }
      destruct Hor as [Hmn| ->].
      * destruct (HM _ Hmn) as [k Hk]. exists k. by eapply added_grows.
      * exists i. by rewrite (ExprTree_fun _ _ _ Ht' Ht).
  - destruct Hc as [[t1 Ht1] [t2 Ht2]].
    destruct (add_expr_uncanonical _ _ e1 g) as [[g1 a]| |] eqn:E1; try done. cbn [mbind res_bind] in E.
    destruct (add_expr_uncanonical _ _ e2 g1) as [[g2 b]| |] eqn:E2; try done. cbn [mbind res_bind] in E.
    destruct (api_union A _ a b r g2) as [[g3 v]| |] eqn:E3; try done. cbn in E. injection E as ->.
    destruct (add_expr_added L A ex fuel e1 t1 g g1 a R Ht1 E1) as (R1 & G1 & A1).
    destruct (add_expr_added L A ex fuel e2 t2 g1 g2 b R1 Ht2 E2) as (R2 & G2 & A2).
    destruct (union_step L A (fun _ => True) ex fuel a b r g2 g' v) as (R' & G' & _); [done|done|done|].
    destruct (api_union_log L A Hh ex fuel a b r g2 g' v R2 E3) as (El & _).
    pose proof (grows_trans _ _ _ (grows_trans _ _ _ G1 G2) G') as GG. pose proof (added_grows _ _ _ _ G2 A1) as A1'.
    assert (Hst : stated (cs ++ [TSame e1 e2 r]) r t1 t2) by (exists e1, e2; split_and!; auto; set_solver).
    assert (HU' : unions_in (stated (cs ++ [TSame e1 e2 r])) g2).
    { eapply (add_expr_unions _ ex fuel e2 t2 g1 g2 b R1 Ht2); [|exact E2]. eapply (add_expr_unions _ ex fuel e1 t1 g g1 a R Ht1); [|exact E1].
      eapply unions_mono; [|exact HU]. intros. by apply stated_app_l. }
    split_and!; auto. split_and!.
    + eapply (union_unions _ ex fuel a b r v g2 g' t1 t2 R2); eauto. by eapply teq_rule.
    + intros r' t' u' (a1 & a2 & [Hin|Hin%elem_of_list_singleton]%elem_of_app & H1 & H2).
      * eapply asserted_mono; [|apply HS; exists a1, a2; eauto]. destruct GG as [_ _ (h & ->)]. set_solver.
      * injection Hin as -> -> ->. rewrite (ExprTree_fun _ _ _ H1 Ht1), (ExprTree_fun _ _ _ H2 Ht2). exists a, b. split_and!.
        -- rewrite El. left.
        -- exact (added_grows _ _ _ _ G' A1').
        -- exact (added_grows _ _ _ _ G' A2).
    + intros t' (e' & Ht' & Hm).
      assert (Hor : mentioned cs t' \/ e' = e1 \/ e' = e2).
      { destruct Hm as [[Hm|Hm%elem_of_list_singleton]%elem_of_app|(e3 & r2 & [[Hm|Hm%elem_of_list_singleton]%elem_of_app|[Hm|Hm%elem_of_list_singleton]%elem_of_app])];
          simplify_eq; eauto; left; exists e'; eauto 8. }
      destruct Hor as [Hmn|[->| ->]].
      * destruct (HM _ Hmn) as [k Hk]. exists k. by eapply added_grows.
      * exists a. rewrite (ExprTree_fun _ _ _ Ht' Ht1). eapply added_grows; [exact G'|exact A1'].
      * exists b. rewrite (ExprTree_fun _ _ _ Ht' Ht2). eapply added_grows; [exact G'|exact A2].
  - destruct (rebuild _ _ _ _ _) as [[g1 n]| |] eqn:Er; try done. cbn in E. injection E as ->.
    destruct (rebuild_step L A (fun _ => True) ex fuel g g' n) as (R' & G & _); auto; [apply calls_any|].
    destruct (rebuild_quiet L A Hh ex fuel g g' n R Er) as (El & En & _).
    split_and!; auto. split_and!.
    + intros a b r t u Hab Ha Hb. rewrite El in Hab. rewrite En in Ha, Hb. eapply teq_mono; [|by eapply HU].
      intros. eapply teq_rule. by apply stated_app_l.
    + intros r t' u' (a1 & a2 & [Hin|[=]%elem_of_list_singleton]%elem_of_app & H1 & H2). rewrite El. apply HS. exists a1, a2. eauto.
    + intros t' (e' & Ht' & Hm). rewrite El. apply HM. exists e'. split; [done|].
      destruct Hm as [[Hm|Hm%elem_of_list_singleton]%elem_of_app|(e3 & r2 & [[Hm|Hm%elem_of_list_singleton]%elem_of_app|[Hm|Hm%elem_of_list_singleton]%elem_of_app])];
          simplify_eq; eauto 8.
Qed.
Lemma run_tcmds_follows ex fuel ds cs g g' : reachable L A ex g -> Forall exprs_ok ds -> follows cs g -> run_tcmds L A fuel ds g = Ok g' ->
  reachable L A ex g' /\ follows (cs ++ ds) g'.
Proof.
  revert cs g. induction ds as [|d ds IH]; intros cs g R Hc Hf E; cbn [run_tcmds] in E.
  { injection E as <-. by rewrite app_nil_r. }
  destruct (run_tcmd L A fuel d g) as [g1| |] eqn:E1; [|done|done]. cbn [mbind res_bind] in E. apply Forall_cons in Hc as [Hd Hc].
  destruct (run_tcmd_follows ex fuel d cs g g1 R Hd Hf E1) as (R1 & _ & F1).
  change (d :: ds) with ([d] ++ ds). rewrite app_assoc. eapply IH; eauto.
Qed.
Lemma follows_new ex : follows [] (eg_new ex).
Proof.
  split_and!.
  - intros a b r t u Hab. by apply elem_of_nil in Hab.
  - intros r t u (e1 & e2 & Hin & _). by apply elem_of_nil in Hin.
  - intros t (e & _ & [Hin|(e' & r & [Hin|Hin])]); by apply elem_of_nil in Hin.
Qed.

Lemma stated_equal ex fuel cs g t u : Forall exprs_ok cs -> run_tcmds L A fuel cs (eg_new ex) = Ok g -> eg_clean g = true ->
  mentioned cs t -> mentioned cs u ->
  exists i j, AddedAs (eg_log g) i t /\ AddedAs (eg_log g) j u /\ (eg_find g i = eg_find g j <-> teq (stated cs) t u).
Proof.
  intros Hc E Ec Ht Hu. destruct (run_tcmds_follows ex fuel cs [] (eg_new ex) g) as (R & HU & HS & HM); auto; [apply reach_new|apply follows_new|].
  cbn in *. destruct (HM _ Ht) as [i Hi]. destruct (HM _ Hu) as [j Hj]. exists i, j. split_and!; auto. split.
  - by eapply equal_teq'.
  - intros He. eapply teq_equal; eauto. eapply teq_mono; [|exact He]. intros r v w Hvw. eapply teq_rule. by apply HS.
Qed.
(** for all ids of the terms *)
Lemma stated_all ex fuel cs g t u i j : Forall exprs_ok cs -> run_tcmds L A fuel cs (eg_new ex) = Ok g -> eg_clean g = true ->
  AddedAs (eg_log g) i t -> AddedAs (eg_log g) j u -> eg_find g i = eg_find g j <-> teq (stated cs) t u.
Proof.
  intros Hc E Ec Hi Hj. destruct (run_tcmds_follows ex fuel cs [] (eg_new ex) g) as (R & HU & HS & HM); auto; [apply reach_new|apply follows_new|].
  cbn in *. split.
  - by eapply equal_teq'.
  - intros He. eapply teq_equal; eauto. eapply teq_mono; [|exact He]. intros r v w Hvw. eapply teq_rule. by apply HS.
Qed.
End modes.
