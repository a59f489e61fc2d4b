(** Rule applications that answer no id and add no e-node leave the e-graph as it is, up to
    extra names for its classes. *)
From Verif Require Import Base UnionFind EGraphModel EGraphSteps EGraphInv EGraphPres EGraphRuns Spec EGraphMain EGraphReach EGraphOps EGraphSafe
  EGraphNoPanic Terms RecExprModel RecExprProofs ExprModel PatSpec ExprProofs ExprSafe MachineModel MatchSpec MatchProofs MachineProofs CompileProofs
  CompileMain SearchProofs SearchMain MultiProofs MatchMain MatchProps RewriteModel RewriteProofs AlgSpec AlgProofs AlgRules RewriteMain RuleSpec
  Completion RuleSafe RuleProps CondProps RunnerModel RunnerSpec EGraphAna.

Section still.
Context {Op D : Type} `{Countable Op} (L : lang Op) (A : analysis Op D) (Hh : hook_free A) (ex : bool) (fuel here : nat).
Notation egraph := (egraph Op D).
Notation md := (modify_n L A fuel).
Implicit Types (g : egraph).

(** No memo entry added: then nothing happened to classes. *)
Definition frozen g g' : Prop :=
  eg_memo g' = eg_memo g /\ eg_pending g' = eg_pending g /\ forall k, known g k -> eg_find g' k = eg_find g k.
Definition still g g' : Prop :=
  reachable L A ex g' /\ grows g g' /\ (forall k, known g k -> known g' k) /\ (dom (eg_memo g') ⊆ dom (eg_memo g) -> frozen g g').
Lemma still_refl g : reachable L A ex g -> still g g.
Proof. intros R. split_and!; auto; [by eapply grows_refl, reachable_Inv|]. by split. Qed.
Lemma still_trans g1 g2 g3 : still g1 g2 -> still g2 g3 -> still g1 g3.
Proof.
  intros (R1 & G1 & K1 & F1) (R2 & G2 & K2 & F2). split_and!; auto; [by eapply grows_trans|]. intros Hd.
  pose proof (gr_memo _ _ G1). pose proof (gr_memo _ _ G2). destruct F1 as (M1 & P1 & N1); [set_solver|].
  destruct F2 as (M2 & P2 & N2); [set_solver|]. split_and!; [congruence|congruence|]. intros k Hk. rewrite N2 by auto. auto.
Qed.
Lemma grows_known g g' k : reachable L A ex g -> reachable L A ex g' -> grows g g' -> known g k -> known g' k.
Proof.
  intros R R' [_ [l Hl] _ _] Hk. unfold known in *. pose proof (iv_len _ (reachable_Inv _ _ _ _ R)) as E. pose proof (iv_len _ (reachable_Inv _ _ _ _ R')) as E'.
  rewrite <- E' , Hl, app_length, E. lia.
Qed.
Lemma still_add n g g' i : reachable L A ex g -> api_add A md n g = Ok (g', i) -> still g g'.
Proof.
  intros R E. pose proof (reachable_Inv _ _ _ _ R) as I.
  destruct (api_add_step L A (fun _ => True) ex fuel n g g' i) as (R' & G' & _); auto.
  split_and!; auto; [intros k Hk; exact (grows_known g g' k R R' G' Hk)|]. intros Hd.
  unfold api_add in E. destruct (add_uncanonical _ _ n g) as [[g1 i1]| |] eqn:E1; [|done|done]. cbn [mbind res_bind] in E. injection E as <- <-.
  change (frozen g g1). change (dom (eg_memo g1) ⊆ dom (eg_memo g)) in Hd.
  apply add_uncanonical_inv in E1 as (g2 & o & Ea & Hg). apply add_core_spec in Ea as [Hch Hsp]; [|apply I].
  destruct Hsp as [e id He Hid|e x x1 x2 u He Hx Hxn Hxa Hxu Hu|u cls' ex' Hmn Hw Hl' Hf Hcls Hex].
  - destruct Hg as [[_ ->]|(h & g3 & [=] & _)]. by split.
  - destruct Hg as [[_ ->]|(h & g3 & [=] & _)]. split_and!; [done|done|]. intros k Hk.
    destruct (ci_memo _ _ _ _ _ _ _ (iv_c _ I) _ _ He) as (? & Hlt & _). apply lookup_lt_Some in Hlt.
    pose proof (alias_find g e k I Hlt) as Ea. unfold eg_find at 1. cbn. subst u. rewrite Ea, decide_False; [done|].
    pose proof (uf_find_lt _ _ (iv_wf _ I) Hk). unfold eg_find. lia.
  - exfalso. assert (Hm : canon g n ∈ dom (eg_memo g1)); [|apply Hd, elem_of_dom in Hm as [? ?]; congruence].
    destruct Hg as [[[=] _]|(h & g3 & _ & Em & ->)]. apply hook_free_md in Em as ->; [|done]. cbn. apply elem_of_dom. rewrite lookup_insert. eauto.
Qed.
Lemma frozen_union a b rule g g' o : uf_wf (eg_uf g) -> perform_union A md a b rule g = Ok (g', o) -> o = false -> frozen g g'.
Proof.
  intros W E ->. unfold perform_union in E.
  destruct (perform_union_core A a b rule g) as [[g1 o]| |] eqn:E1; [|done|done]. cbn [mbind res_bind] in E.
  destruct (run_hook _ o g1) as [g2| |] eqn:E2; [|done|done]. cbn [mbind res_bind] in E. injection E as <- Eo.
  destruct o as [o|]; [by rewrite bool_decide_true in Eo by eauto|]. injection E2 as <-.
  apply perform_union_core_spec in E1 as (_ & _ & E1); [|done].
  inversion E1 as [u ex' Hab Hu Hex|]; subst. split_and!; [done|done|]. intros k _. unfold eg_find. cbn. by apply Hu.
Qed.
Lemma frozen_log e g g' : frozen (add_log e g) g' -> frozen g g'.
Proof. done. Qed.
Lemma still_union a b r g g' : reachable L A ex g -> api_union A md a b r g = Ok (g', false) -> still g g'.
Proof.
  intros R E. destruct (union_step L A (fun _ => True) ex fuel a b r g g' false) as (R' & G' & _); auto.
  split_and!; auto; [intros k Hk; exact (grows_known g g' k R R' G' Hk)|]. intros _.
  pose proof (iv_wf _ (reachable_Inv _ _ _ _ R)) as W. unfold api_union, union in E. apply (frozen_log (EUnion a b r)).
  destruct (eg_explain _); (eapply frozen_union; [exact W|exact E|done]).
Qed.
Lemma still_trusted a b r g g' : reachable L A ex g -> api_union_trusted A md a b r g = Ok (g', false) -> still g g'.
Proof.
  intros R E. destruct (trusted_step L A (fun _ => True) ex fuel a b r g g' false) as (R' & G' & _); auto.
  split_and!; auto; [intros k Hk; exact (grows_known g g' k R R' G' Hk)|]. intros _.
  pose proof (iv_wf _ (reachable_Inv _ _ _ _ R)) as W. apply (frozen_log (EUnion a b r)).
  eapply frozen_union; [exact W|exact E|done].
Qed.
Lemma still_reach g g' : still g g' -> reachable L A ex g'.
Proof. by intros (? & _). Qed.

Lemma still_inst_loop (p : list (EGraphModel.node (pop Op))) s ids g g' ids' : reachable L A ex g -> add_inst_loop A md p s ids g = Ok (g', ids') -> still g g'.
Proof.
  revert ids g. induction p as [|n p IH]; intros ids g R E; cbn [add_inst_loop] in E; [injection E as <- _; by apply still_refl|].
  destruct (nop n) as [f|v].
  - destruct (map_children_o _ _) as [m| |]; [|done|done]. cbn [mbind res_bind] in E.
    destruct (api_add _ _ m g) as [[g1 i]| |] eqn:E1; [|done|done]. cbn [mbind res_bind] in E.
    apply still_add in E1; [|done]. apply IH in E; [|by eapply still_reach]. by eapply still_trans.
  - destruct (subst_index s v) as [i| |]; [|done|done]. cbn [mbind res_bind] in E.
    destruct (find_res g i) as [j| |]; [|done|done]. cbn [mbind res_bind] in E. by apply IH in E.
Qed.
Lemma still_inst (p : list (EGraphModel.node (pop Op))) s g g' i : reachable L A ex g -> add_instantiation_noncanonical A md p s g = Ok (g', i) -> still g g'.
Proof.
  intros R E. unfold add_instantiation_noncanonical in E. destruct (add_inst_loop _ _ _ _ _ _) as [[g1 ids]| |] eqn:E1; [|done|done].
  cbn [mbind res_bind] in E. destruct (expect _); [|done|done]. injection E as <- _. by eapply still_inst_loop.
Qed.
Lemma still_pat_loop (p : list (EGraphModel.node (pop Op))) s ids g g' ids' : reachable L A ex g -> apply_pat_loop A md p s ids g = Ok (g', ids') -> still g g'.
Proof.
  revert ids g. induction p as [|n p IH]; intros ids g R E; cbn [apply_pat_loop] in E; [injection E as <- _; by apply still_refl|].
  destruct (nop n) as [f|v].
  - destruct (map_children_o _ _) as [m| |]; [|done|done]. cbn [mbind res_bind] in E.
    destruct (api_add _ _ m g) as [[g1 i]| |] eqn:E1; [|done|done]. cbn [mbind res_bind] in E.
    apply still_add in E1; [|done]. apply IH in E; [|by eapply still_reach]. by eapply still_trans.
  - destruct (subst_index s v) as [i| |]; [|done|done]. cbn [mbind res_bind] in E. by apply IH in E.
Qed.
Lemma still_pat (p : list (EGraphModel.node (pop Op))) s g g' i : reachable L A ex g -> apply_pat A md p s g = Ok (g', i) -> still g g'.
Proof.
  intros R E. unfold apply_pat in E. destruct (apply_pat_loop _ _ _ _ _ _) as [[g1 ids]| |] eqn:E1; [|done|done].
  cbn [mbind res_bind] in E. destruct (expect _); [|done|done]. injection E as <- _. by eapply still_pat_loop.
Qed.
Lemma still_union_inst (p1 p2 : list (EGraphModel.node (pop Op))) s r g g' i : reachable L A ex g -> union_instantiations A md p1 p2 s r g = Ok (g', (i, false)) -> still g g'.
Proof.
  intros R E. unfold union_instantiations in E.
  destruct (add_instantiation_noncanonical _ _ p1 s g) as [[g1 i1]| |] eqn:E1; [|done|done]. cbn [mbind res_bind] in E.
  destruct (add_instantiation_noncanonical _ _ p2 s g1) as [[g2 i2]| |] eqn:E2; [|done|done]. cbn [mbind res_bind] in E.
  destruct (api_union_trusted _ _ _ _ _ _) as [[g3 did]| |] eqn:E3; [|done|done]. cbn [mbind res_bind] in E. injection E as <- _ ->.
  apply still_inst in E1; [|done]. apply still_inst in E2; [|by eapply still_reach]. apply still_trusted in E3; [|by eapply still_reach].
  eapply still_trans; [exact E1|]. by eapply still_trans.
Qed.
Lemma still_pattern p sast rule c s g g' : reachable L A ex g -> pattern_apply L A fuel here p sast rule c s g = Ok (g', []) -> still g g'.
Proof.
  intros R E. unfold pattern_apply in E. destruct (explaining g).
  - destruct sast as [ast|]; [|done]. cbn [expect mbind res_bind] in E.
    destruct (union_instantiations _ _ _ _ _ _ _) as [[g1 [id did]]| |] eqn:E1; [|done|done]. cbn [mbind res_bind] in E.
    destruct did; [done|]. injection E as <-. by eapply still_union_inst.
  - destruct (apply_pat _ _ _ _ _) as [[g1 id]| |] eqn:E1; [|done|done]. cbn [mbind res_bind] in E.
    destruct (api_union _ _ _ _ _ _) as [[g2 did]| |] eqn:E2; [|done|done]. cbn [mbind res_bind] in E.
    destruct did; [done|]. injection E as <-. apply still_pat in E1; [|done]. apply still_union in E2; [|by eapply still_reach]. by eapply still_trans.
Qed.
Lemma still_pattern_one p sast rule c s g g' : reachable L A ex g -> pattern_apply_one L A fuel here p c s sast rule g = Ok (g', []) -> still g g'.
Proof.
  intros R E. unfold pattern_apply_one in E. destruct (apply_pat _ _ _ _ _) as [[g1 id]| |] eqn:E1; [|done|done]. cbn [mbind res_bind] in E.
  apply still_pat in E1; [|done]. destruct sast as [ast|].
  - destruct (union_instantiations _ _ _ _ _ _ _) as [[g2 [from did]]| |] eqn:E2; [|done|done]. cbn [mbind res_bind] in E.
    destruct did; [done|]. injection E as <-. apply still_union_inst in E2; [|by eapply still_reach]. by eapply still_trans.
  - destruct (api_union _ _ _ _ _ _) as [[g2 did]| |] eqn:E2; [|done|done]. cbn [mbind res_bind] in E.
    destruct did; [done|]. injection E as <-. apply still_union in E2; [|by eapply still_reach]. by eapply still_trans.
Qed.
Lemma still_check p1 p2 c s g g' b : reachable L A ex g -> check L A fuel (CEqual p1 p2) c s g = Ok (g', b) -> still g g'.
Proof.
  intros R E. cbn [check] in E. destruct (apply_pat _ _ p1 _ _) as [[g1 a1]| |] eqn:E1; [|done|done]. cbn [mbind res_bind] in E.
  destruct (apply_pat _ _ p2 _ _) as [[g2 a2]| |] eqn:E2; [|done|done]. cbn [mbind res_bind] in E. injection E as <- _.
  apply still_pat in E1; [|done]. apply still_pat in E2; [|by eapply still_reach]. by eapply still_trans.
Qed.
End still.
