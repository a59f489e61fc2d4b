(** For analyses whose hook does nothing, the operations used to build e-graphs succeed on
    known ids, and the result does not depend on the fuel given to hooks. *)
From Verif Require Import Base UnionFind EGraphModel EGraphSteps EGraphInv EGraphPres EGraphRuns Spec EGraphMain EGraphReach EGraphOps EGraphSafe
  EGraphNoPanic EGraphTerm Terms RecExprModel RecExprProofs ExprModel PatSpec ExprProofs ExprSafe MachineModel MatchSpec RewriteModel RewriteProofs ExplainModel ExplainSpec ExplainPath ExplainProofs ExplainMain Still CopyProofs.

Section total.
Context {Op D : Type} `{Countable Op} (L : lang Op) (A : analysis Op D) (Hh : hook_free A).
Notation egraph := (egraph Op D).
Notation node := (node Op).
Implicit Types (g : egraph).
Notation md k := (modify_n L A (S k)).

Lemma add_any k k' n g : api_add A (md k) n g = api_add A (md k') n g.
Proof.
  unfold api_add, add_uncanonical. destruct (add_core A n g) as [[[g1 i] [h|]]| |]; [|done..]. cbn [mbind res_bind].
  by rewrite !(hook_free_md_ok L A Hh).
Qed.
Lemma perform_any k k' a b rule g : perform_union A (md k) a b rule g = perform_union A (md k') a b rule g.
Proof.
  unfold perform_union. destruct (perform_union_core A a b rule g) as [[g1 [h|]]| |]; [|done..]. cbn [mbind res_bind run_hook].
  by rewrite !(hook_free_md_ok L A Hh).
Qed.
Lemma trusted_any k k' a b r g : api_union_trusted A (md k) a b r g = api_union_trusted A (md k') a b r g.
Proof. apply perform_any. Qed.
Lemma union_any k k' a b r g : api_union A (md k) a b r g = api_union A (md k') a b r g.
Proof. unfold api_union, union. destruct (eg_explain _); apply perform_any. Qed.
Lemma add_loop_any k k' e ids g : add_expr_loop A (md k) e ids g = add_expr_loop A (md k') e ids g.
Proof.
  revert ids g. induction e as [|n e IH]; intros ids g; [done|]. cbn [add_expr_loop]. destruct (map_children_o _ n) as [m| |]; [|done..].
  cbn [mbind res_bind]. rewrite (add_any k k'). destruct (api_add A (md k') m g) as [[g1 i]| |]; [|done..]. apply IH.
Qed.
Lemma add_expr_any k k' e g : add_expr_uncanonical A (md k) e g = add_expr_uncanonical A (md k') e g.
Proof. unfold add_expr_uncanonical. by rewrite (add_loop_any k k'). Qed.

Lemma perform_total ex k a b r rule g : reachable L A ex g -> known g a -> known g b -> rule = Some (JRule r) \/ (rule = None /\ eg_explain g = None) ->
  exists g' v, perform_union A (md k) a b rule (add_log (EUnion a b r) g) = Ok (g', v).
Proof.
  intros R Ka Kb Hr. destruct (reachable_good _ _ _ _ R) as [I X]. unfold known in *. rewrite <- (iv_len _ I) in Ka, Kb.
  destruct (api_union_core_safe A a b r rule g I X Ka Kb Hr) as (g1 & o & E & _).
  unfold perform_union. rewrite E. cbn [mbind res_bind]. destruct o as [h|]; cbn [run_hook]; [rewrite (hook_free_md_ok L A Hh)|]; by eexists _, _.
Qed.
Lemma trusted_total ex k a b r g : reachable L A ex g -> known g a -> known g b -> exists g' v, api_union_trusted A (md k) a b r g = Ok (g', v).
Proof. intros. unfold api_union_trusted, union_trusted. eapply perform_total; eauto. Qed.
Lemma union_total ex k a b r g : reachable L A ex g -> known g a -> known g b -> exists g' v, api_union A (md k) a b r g = Ok (g', v).
Proof.
  intros R Ka Kb. unfold api_union, union. cbn [eg_explain add_log]. destruct (eg_explain g) eqn:E; [by eapply trusted_total|].
  eapply perform_total; eauto.
Qed.
Lemma add_loop_total ex k (e0 e : list node) ids g : dag e0 -> reachable L A ex g -> (exists pre, e0 = pre ++ e /\ length pre = length ids) ->
  Forall (known g) ids -> exists g' ids', add_expr_loop A (md k) e ids g = Ok (g', ids') /\ reachable L A ex g' /\ Forall (known g') ids' /\ length ids' = length e0.
Proof.
  intros Hd. revert ids g. induction e as [|[f cs] e IH]; intros ids g R (pre & Hpre & Hl) Hk; cbn [add_expr_loop].
  { exists g, ids. split_and!; auto. rewrite Hpre, app_nil_r. done. }
  assert (Hcs : forall c, c ∈ cs -> c < length ids).
  { intros c Hc. rewrite <- Hl. apply (Hd (length pre) (Node f cs)); [|exact Hc]. rewrite Hpre. by apply list_lookup_middle. }
  assert (Hm : exists ds, map_children_o (fun c => ids !! c) (Node f cs) = Ok (Node f ds) /\ Forall (known g) ds).
  { unfold map_children_o. cbn [nch nop]. clear -Hcs Hk. revert Hcs. induction cs as [|c cs IHc]; intros Hcs; [by exists []|].
    destruct IHc as (ds & E & Hds); [intros c' Hc'; apply Hcs; by right|].
    destruct (lookup_lt_is_Some_2 ids c) as [i Hi]; [apply Hcs; left|]. exists (i :: ds).
    cbn [mapM]. rewrite Hi. cbn. destruct (mapM _ cs) as [es|] eqn:Em; [|done]. cbn in E |- *. injection E as ->. split; [done|].
    constructor; [|done]. rewrite Forall_forall in Hk. apply Hk. by eapply elem_of_list_lookup_2. }
  destruct Hm as (ds & -> & Hds). cbn [mbind res_bind].
  destruct (add_total L A Hh ex k (Node f ds) g R) as (g1 & i & E); [intros c Hc; rewrite Forall_forall in Hds; by apply Hds|].
  rewrite E. cbn [mbind res_bind].
  destruct (api_add_step L A (fun _ => True) ex (S k) (Node f ds) g g1 i ltac:(done) R E) as (R1 & G1 & (m & Hm & _)).
  apply IH; [exact R1| |].
  - exists (pre ++ [Node f cs]). rewrite <- app_assoc. split; [done|]. rewrite !app_length. cbn. lia.
  - apply Forall_app. split; [|constructor; [|constructor]].
    + eapply Forall_impl; [exact Hk|]. intros j. exact (grows_known L A ex g g1 j R R1 G1).
    + apply (known_nodes L A ex g1 i R1). by eapply lookup_lt_Some.
Qed.
Lemma add_expr_total ex k e g : dag e -> e <> [] -> reachable L A ex g -> exists g' i, add_expr_uncanonical A (md k) e g = Ok (g', i) /\ reachable L A ex g' /\ known g' i.
Proof.
  intros Hd Hne R. unfold add_expr_uncanonical. destruct (add_loop_total ex k e e [] g Hd R) as (g1 & ids & -> & R1 & Hk & Hl); [by exists []|done|].
  cbn [mbind res_bind]. destruct (last ids) as [i|] eqn:El.
  - cbn. exists g1, i. split_and!; [done|exact R1|]. rewrite Forall_forall in Hk. apply Hk. by apply last_Some_elem_of.
  - apply last_None in El. subst. by destruct e.
Qed.
End total.
