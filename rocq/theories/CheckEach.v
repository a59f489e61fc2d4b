(** The check of the recorded steps succeeds, and its success means something. *)
From Verif Require Import Base UnionFind EGraphModel EGraphSteps EGraphInv EGraphPres EGraphRuns Spec EGraphMain EGraphReach EGraphOps EGraphAna EGraphSafe
  EGraphDebug EGraphNoPanic Terms RecExprModel RecExprProofs ExprModel PatSpec ExprProofs ExprSafe MachineModel MatchSpec RewriteModel RewriteProofs RuleSpec
  RuleSafe RuleProps RunnerModel RunnerSpec RunnerProofs Still ExplainForest ExplainModel ExplainSpec ExplainFlat ExplainPath ExplainMain CheckModel CheckSpec
  CheckProofs CheckRun CheckSound CheckEachModel.

Section each.
Context {Op D : Type} `{Countable Op}.
Notation egraph := (egraph Op D).
Notation node := (node Op).
Notation fterm := (fterm Op).
Implicit Types (g : egraph).

Lemma node_to_flat_ok (ns : list node) fuel i t : dag ns -> Tree ns i t -> i < fuel ->
  exists ft, node_to_flat fuel ns i = Ok ft /\ arity_ok ft /\ erase ft = t.
Proof.
  intros Hd. revert i t. induction fuel as [|fuel IH]; intros i t Ht Hi; [lia|].
  inversion Ht as [? f cs ts Hn Hts]; subst. cbn [node_to_flat]. rewrite Hn. cbn [expect mbind res_bind nch].
  assert (Hk : exists ks, mapM (node_to_flat fuel ns) cs = Ok ks /\ Forall arity_ok ks /\ erase <$> ks = ts /\ length cs = length ks).
  { assert (Hlt : forall c, c ∈ cs -> c < fuel) by (intros c Hc; pose proof (Hd _ _ _ Hn Hc); lia).
    clear Hn Ht. induction Hts as [|c t cs ts Hc Hts IHts]; [by exists []|].
    destruct (IH c t Hc) as (k & Ek & Ak & Tk); [apply Hlt; left|].
    destruct IHts as (ks & Eks & Aks & Tks & Ll); [intros; apply Hlt; by right|].
    exists (k :: ks). cbn. rewrite Ek. cbn [mbind res_bind]. rewrite Eks. cbn. rewrite Tk, Tks, Ll. split; [done|]. split; [by constructor|done]. }
  destruct Hk as (ks & -> & Ak & Tk & Ll). cbn [mbind res_bind]. exists (FT (Node f cs) None None ks). split; [done|].
  split; [by constructor|]. cbn. by rewrite Tk.
Qed.
Lemma check_links_all rules (ns : list node) f : forall k,
  (forall i x, f !! i = Some x -> check_link rules ns (k + i) (xn_parent x) = Ok true) -> check_links (D := D) rules ns k f = Ok true.
Proof.
  induction f as [|x f IH]; intros k Hf; [done|]. cbn [check_links]. pose proof (Hf 0 x eq_refl) as H0. rewrite Nat.add_0_r in H0. rewrite H0.
  cbn [mbind res_bind]. apply IH. intros i y Hy. rewrite Nat.add_succ_l, <- Nat.add_succ_r. by apply Hf.
Qed.
Lemma check_links_each rules (ns : list node) f : forall k, check_links (D := D) rules ns k f = Ok true ->
  forall i x, f !! i = Some x -> check_link rules ns (k + i) (xn_parent x) = Ok true.
Proof.
  induction f as [|y f IH]; intros k E i x Hx; [done|]. cbn [check_links] in E. apply bind_Ok in E as (ok & E1 & E). destruct ok; [|done].
  destruct i as [|i]; cbn in Hx; [injection Hx as <-; by rewrite Nat.add_0_r|]. rewrite Nat.add_succ_r, <- Nat.add_succ_l. by apply IH.
Qed.

Context (L : lang Op) (A : analysis Op D).
Lemma recorded_pass rules g : reachable L A true g -> Forall accepted_rule rules -> rule_steps rules (asserted (eg_log g)) ->
  check_each_explain rules g = Ok true.
Proof.
  intros R Hacc Hs. unfold check_each_explain. pose proof (reach_explain _ _ _ _ R) as Hx. apply bool_decide_eq_true in Hx as [x Hx]. rewrite Hx.
  destruct (go_x _ (reachable_good L A true g R) x Hx) as (es & X1 & X2 & X3 & _). pose proof (reach_dag L A true g R) as Hd.
  apply check_links_all. intros i nd Hi. cbn [Nat.add]. unfold check_link. destruct (decide (cn_next (xn_parent nd) = i)) as [|Hne]; [done|].
  pose proof (fo_par _ _ _ X2 i nd Hi Hne) as He. cbn zeta in He. set (c := xn_parent nd) in *.
  assert (Hlt : i < length (eg_nodes g) /\ cn_next c < length (eg_nodes g)).
  { rewrite <- X1. destruct (cn_fwd c); destruct (fo_lt _ _ _ X2 _ _ _ He); done. }
  destruct Hlt as [Li Ln]. destruct (dag_Tree _ _ Hd Li) as [t Ht]. destruct (dag_Tree _ _ Hd Ln) as [u Hu].
  destruct (node_to_flat_ok _ (S (length (eg_nodes g))) i t Hd Ht) as (cur & -> & Ac & Tc); [lia|].
  destruct (node_to_flat_ok _ (S (length (eg_nodes g))) (cn_next c) u Hd Hu) as (next & -> & An & Tn); [lia|]. cbn [mbind res_bind].
  destruct (cn_just c) as [r|] eqn:Ej; [|done].
  destruct (cn_fwd c); pose proof (edges_ok_in _ _ _ _ _ _ X3 He) as Hev; apply (check_named_ok rules _ Hacc Hs); try done; rewrite Tc, Tn.
  - exists i, (cn_next c). split; [done|]. split; by eapply Tree_AddedAs.
  - exists (cn_next c), i. split; [done|]. split; by eapply Tree_AddedAs.
Qed.

(** Success of the check, if the reasons are names of rules: equal ids have terms equal by the rules. *)
Lemma recorded_prove rules g i j t u : reachable L A true g -> Forall accepted_rule rules -> one_per_name rules ->
  (forall a b r, EUnion a b r ∈ eg_log g -> exists rw lhs rhs, rw ∈ rules /\ rw_name rw = r /\ between rw lhs rhs) ->
  check_each_explain rules g = Ok true -> AddedAs (eg_log g) i t -> AddedAs (eg_log g) j u -> eg_find g i = eg_find g j ->
  teq (rule_eqs rules) t u.
Proof.
  intros R Hacc Hone Hn E Ht Hu Ef. unfold check_each_explain in E. destruct (eg_explain g) as [x|] eqn:Hx; [|done].
  destruct (go_x _ (reachable_good L A true g R) x Hx) as (es & X1 & X2 & X3 & X4 & _). pose proof (reach_dag L A true g R) as Hd.
  pose proof (check_links_each _ _ _ _ E) as Hl. cbn [Nat.add] in Hl.
  apply (AddedAs_Tree L A _ _ _ R) in Ht. apply (AddedAs_Tree L A _ _ _ R) in Hu.
  (* a rule edge is an instance of its rule *)
  assert (Hr : forall a b r ta tb, (a, b, JRule r) ∈ es -> Tree (eg_nodes g) a ta -> Tree (eg_nodes g) b tb -> teq (rule_eqs rules) ta tb).
  { assert (K : forall p q r (fwd : bool) tp tq nd, ex_find x !! p = Some nd -> xn_parent nd = Conn q p (JRule r) fwd -> p <> q ->
      (exists a b, EUnion a b r ∈ eg_log g) -> Tree (eg_nodes g) p tp -> Tree (eg_nodes g) q tq -> teq (rule_eqs rules) tp tq).
    { intros p q r fwd tp tq nd Hp Ec Hne (a & b & Hev) Tp Tq. pose proof (Hl p nd Hp) as Ek. rewrite Ec in Ek. unfold check_link in Ek. cbn [cn_next cn_just cn_fwd] in Ek.
      destruct (decide (q = p)) as [->|_]; [done|]. 
      assert (Lp : p < length (eg_nodes g)) by (inversion Tp; subst; by eapply lookup_lt_Some). assert (Lq : q < length (eg_nodes g)) by (inversion Tq; subst; by eapply lookup_lt_Some).
      destruct (node_to_flat_ok _ (S (length (eg_nodes g))) p tp Hd Tp) as (cur & Ecur & Ac & Tc); [lia|].
      destruct (node_to_flat_ok _ (S (length (eg_nodes g))) q tq Hd Tq) as (next & Enext & An & Tn); [lia|].
      rewrite Ecur, Enext in Ek. cbn [mbind res_bind] in Ek. rewrite <- Tc, <- Tn. destruct fwd.
      - eapply teq_rule. eapply (check_named_inv rules Hacc Hone); [done|done|by eapply Hn|exact Ek].
      - eapply teq_sym, teq_rule. eapply (check_named_inv rules Hacc Hone); [done|done|by eapply Hn|exact Ek]. }
    intros a b r ta tb Hin Ta Tb. pose proof (edges_ok_in _ _ _ _ _ _ X3 Hin) as Hev. cbn in Hev. pose proof (fo_ne _ _ _ X2 _ _ _ Hin) as Hab.
    destruct (fo_lt _ _ _ X2 _ _ _ Hin) as [La Lb].
    assert (Hpar : forall p q, p < length (ex_find x) -> uf_parent (pl (ex_find x)) p = q -> p <> q -> (p = a /\ q = b) \/ (p = b /\ q = a) ->
      exists nd fwd, ex_find x !! p = Some nd /\ xn_parent nd = Conn q p (JRule r) fwd).
    { intros p q Lp Eq Hpq Hor. destruct (lookup_lt_is_Some_2 _ _ Lp) as [nd Hnd]. exists nd.
      assert (En : cn_next (xn_parent nd) = q).
      { rewrite <- Eq. unfold uf_parent, pl. by rewrite list_lookup_fmap, Hnd. }
      pose proof (fo_cur _ _ _ X2 _ _ Hnd) as Ecur. assert (Hne : cn_next (xn_parent nd) <> p) by congruence.
      pose proof (fo_par _ _ _ X2 _ _ Hnd Hne) as He. cbn zeta in He. rewrite En in He.
      destruct (xn_parent nd) as [nx cu ju fw] eqn:Exn. cbn in *. subst nx cu. exists fw. split; [done|]. f_equal.
      destruct fw.
      - assert (EE : (p, q, ju) = (a, b, JRule r)) by (eapply edge_unique; [exact X3|exact Hin|exact He|tauto]). congruence.
      - assert (EE : (q, p, ju) = (a, b, JRule r)) by (eapply edge_unique; [exact X3|exact Hin|exact He|tauto]). congruence. }
    destruct (fo_edge _ _ _ X2 _ _ _ Hin) as [Ep|Ep].
    - destruct (Hpar a b La Ep Hab) as (nd & fwd & Hnd & Ec); [by left|]. eapply K; [exact Hnd|exact Ec|exact Hab|by exists a, b|done|done].
    - destruct (Hpar b a Lb Ep) as (nd & fwd & Hnd & Ec); [done|by right|]. apply teq_sym. eapply K; [exact Hnd|exact Ec|done|by exists a, b|done|done]. }
  (* so connected ids have equal terms *)
  assert (Hc : forall es', edges_ok (eg_nodes g) (eg_log g) es' -> (forall e, e ∈ es' -> e ∈ es) ->
    forall a b ta tb, connected es' a b -> Tree (eg_nodes g) a ta -> Tree (eg_nodes g) b tb -> teq (rule_eqs rules) ta tb).
  { assert (Step : forall es', (forall a b jj ta tb, (a, b, jj) ∈ es' -> Tree (eg_nodes g) a ta -> Tree (eg_nodes g) b tb -> teq (rule_eqs rules) ta tb) ->
      (forall e, e ∈ es' -> e ∈ es) ->
      forall a b ta tb, connected es' a b -> Tree (eg_nodes g) a ta -> Tree (eg_nodes g) b tb -> teq (rule_eqs rules) ta tb).
    { intros es' Hst Hsub a b ta tb Hab. revert ta. induction Hab as [a|a c b (jj & Hj) _ IH]; intros ta Ta Tb.
      - rewrite (TreeOf_fun _ _ _ _ Ta Tb). apply teq_refl.
      - assert (Lc : c < length (eg_nodes g)).
        { rewrite <- X1. destruct Hj as [Hj|Hj]; destruct (fo_lt _ _ _ X2 _ _ _ (Hsub _ Hj)); done. }
        destruct (dag_Tree _ _ Hd Lc) as [tc Tc]. eapply teq_trans; [|exact (IH tc Tc Tb)].
        destruct Hj as [Hj|Hj]; [by eapply Hst|]. apply teq_sym. by eapply Hst. }
    induction 1 as [|a' b' r es' Hnc Hev Hes IH|a' b' n m es' Hnc Hna Hmb Eo Hch Hes IH]; intros Hsub; apply Step; try done.
    - intros a b jj ta tb Hin. by apply elem_of_nil in Hin.
    - intros a b jj ta tb Hin Ta Tb. apply elem_of_cons in Hin as [[= -> -> ->]|Hin].
      + eapply Hr; [apply Hsub; left|done|done].
      + eapply (IH (fun e He => Hsub e (elem_of_list_further _ _ _ He))); [apply rtc_once; exists jj; by left|done|done].
    - intros a b jj ta tb Hin Ta Tb. apply elem_of_cons in Hin as [[= -> -> ->]|Hin].
      + inversion Ta as [? fa ca tsa Ga Fa]; subst. inversion Tb as [? fb cb tsb Gb Fb]; subst. rewrite Hna in Ga. rewrite Hmb in Gb. injection Ga as ->. injection Gb as ->.
        cbn in Eo, Hch. subst fb. apply teq_cong.
        specialize (IH (fun e He => Hsub e (elem_of_list_further _ _ _ He))). clear -Hch Fa Fb IH.
        revert tsa tsb Fa Fb. induction Hch as [|p q ps qs Hpq _ IHc]; intros tsa tsb Fa Fb; inversion Fa; inversion Fb; subst; constructor; [by eapply IH|by apply IHc].
      + eapply (IH (fun e He => Hsub e (elem_of_list_further _ _ _ He))); [apply rtc_once; exists jj; by left|done|done]. }
  assert (Li : i < length (eg_nodes g)) by (inversion Ht; subst; by eapply lookup_lt_Some). assert (Lj : j < length (eg_nodes g)) by (inversion Hu; subst; by eapply lookup_lt_Some).
  eapply (Hc es X3 (fun _ He => He)); [by apply (proj2 (X4 i j Li Lj))|done|done].
Qed.
End each.

(** * Debug and release builds agree *)
Section debug.
Context {Op D : Type} `{Countable Op} (L : lang Op) (A : analysis Op D) (fuel here : nat) (Hst : steady L A) (rules : list (rewrite Op D))
  (Hone : one_per_name rules) (Hacc : Forall accepted_rule rules) (Hh : not_a_rule rules here) (Hm : forall i, reasons (not_a_rule rules) (an_modify A i))
  (clock : nat -> nat) {St Cl : Type} (sch : scheduler Op D St) (li : limits) (hooks : list (hook Op D Cl))
  (Hap : Forall (fun rw => applier_reasons (not_a_rule rules) (rw_applier rw)) rules)
  (Hhk : Forall (fun h : hook Op D Cl => forall cl i, reasons (not_a_rule rules) (hk_body h cl i)) hooks).
Lemma debug_passes g : reachable L A true g -> rule_steps rules (asserted (eg_log g)) -> debug_check rules g = Ok tt.
Proof. intros R Hs. unfold debug_check. destruct (explaining g); [|done]. by rewrite (recorded_pass L A rules g R Hacc Hs). Qed.
Lemma loop_debug rounds r : reachable L A true (r_eg r) -> rule_steps rules (asserted (eg_log (r_eg r))) ->
  run_loop_debug L A clock sch li rules fuel here hooks rounds r = run_loop L A clock sch li rules fuel here hooks rounds r.
Proof.
  revert r. induction rounds as [|rounds IH]; intros r R Hs; [done|]. cbn [run_loop_debug run_loop]. unfold run_one_debug.
  destruct (run_one L A clock sch li rules fuel here hooks r) as [[r1 itn]| |] eqn:E1; [|done|done]. cbn [mbind res_bind].
  destruct (one_W L A fuel here Hst rules Hone Hacc Hh Hm clock sch li hooks Hap Hhk r r1 itn R E1) as (R1 & _ & K). pose proof (K Hs) as Hs1.
  rewrite (debug_passes _ R1 Hs1). cbn [mbind res_bind]. destruct (it_stop itn); [done|]. destruct (check_limits _ _ _ _ _); [done|]. by apply IH.
Qed.
Lemma debug_run rounds roots g st cl : reachable L A true g -> rule_steps rules (asserted (eg_log g)) ->
  run_debug L A clock sch li rules fuel here hooks rounds roots g st cl = run L A clock sch li rules fuel here hooks rounds roots g st cl.
Proof.
  intros R Hs. unfold run_debug, run. destruct (rebuild L A fuel (modify_n L A fuel) g) as [[g1 n]| |] eqn:E1; [|done|done]. cbn [mbind res_bind].
  destruct (rebuild_W L A fuel rules Hm g g1 n R E1) as (R1 & _ & K). by apply loop_debug; [|apply K].
Qed.
End debug.
(** without explanations there is nothing to check *)
Section off.
Context {Op D : Type} `{Countable Op} (L : lang Op) (A : analysis Op D) (clock : nat -> nat) {St Cl : Type} (sch : scheduler Op D St) (li : limits)
  (rules : list (rewrite Op D)) (fuel here : nat) (hooks : list (hook Op D Cl)) (Hr : Forall rule_shaped rules).
Lemma debug_off g : reachable L A false g -> debug_check rules g = Ok tt.
Proof. intros R. unfold debug_check, explaining. by rewrite (reach_explain _ _ _ _ R). Qed.
Lemma rebuild_off g g' n : reachable L A false g -> rebuild L A fuel (modify_n L A fuel) g = Ok (g', n) -> reachable L A false g'.
Proof. intros R E. by destruct (rebuild_step L A (fun _ => True) false fuel g g' n calls_any R E). Qed.
Lemma one_off r r' itn : reachable L A false (r_eg r) -> run_one L A clock sch li rules fuel here hooks r = Ok (r', itn) -> reachable L A false (r_eg r').
Proof.
  intros R E. eapply (one_T L A clock sch li rules fuel here hooks (reachable L A false) (fun _ g => reachable L A false g)); eauto using rebuild_off.
  - intros h cl i g g' _ Rg Eg. eapply reach_run; [exact Rg|done|exact Eg].
  - intros i g rw st ms st' g1 g2 ids Hin _ _ R1 E1. rewrite Forall_forall in Hr. destruct (Hr rw Hin) as [Hs Ha].
    eapply (apply_matches_step L A (fun _ => True) false fuel here); [apply calls_any|exact Ha|exact Hs|exact R1|exact E1].
Qed.
Lemma debug_run_off rounds roots g st cl : reachable L A false g ->
  run_debug L A clock sch li rules fuel here hooks rounds roots g st cl = run L A clock sch li rules fuel here hooks rounds roots g st cl.
Proof.
  intros R. unfold run_debug, run. destruct (rebuild L A fuel (modify_n L A fuel) g) as [[g1 n]| |] eqn:E1; [|done|done]. cbn [mbind res_bind].
  apply rebuild_off in E1; [|done]. set (r := Runner g1 [] roots None st cl 0). assert (Rr : reachable L A false (r_eg r)) by done. clearbody r. clear -Rr Hr.
  revert r Rr. induction rounds as [|rounds IH]; intros r R; [done|]. cbn [run_loop_debug run_loop]. unfold run_one_debug.
  destruct (run_one L A clock sch li rules fuel here hooks r) as [[r1 itn]| |] eqn:E1; [|done|done]. cbn [mbind res_bind].
  pose proof (one_off r r1 itn R E1) as R1. rewrite (debug_off _ R1). cbn [mbind res_bind]. destruct (it_stop itn); [done|].
  destruct (check_limits _ _ _ _ _); [done|]. by apply IH.
Qed.
End off.
