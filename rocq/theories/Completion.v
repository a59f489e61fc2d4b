(** The e-graph completed to an algebra: a model of the history in which different classes
    have different values.  Rule applications that answer no id merge nothing. *)
From Verif Require Import Base UnionFind EGraphModel EGraphSteps EGraphInv EGraphPres EGraphRuns Spec EGraphMain EGraphReach EGraphOps EGraphSafe
  EGraphNoPanic Terms RecExprModel RecExprProofs ExprModel PatSpec ExprProofs ExprSafe MachineModel MatchSpec MatchProofs MachineProofs CompileProofs
  CompileMain SearchProofs SearchMain MultiProofs MatchMain MatchProps RewriteModel RewriteProofs AlgSpec AlgProofs AlgRules RewriteMain RuleSpec.

Inductive cval (Op : Type) := CId (r : nat) | CNode (f : Op) (l : list (cval Op)).
Arguments CId {Op} r.
Arguments CNode {Op} f l.

Section completion.
Context {Op D : Type} `{Countable Op} (L : lang Op) (A : analysis Op D) (Hh : hook_free A).
Notation egraph := (egraph Op D).
Implicit Types (g : egraph).

Definition cid (v : cval Op) : option nat := match v with CId r => Some r | CNode _ _ => None end.
Definition complete g (f : Op) (vs : list (cval Op)) : cval Op :=
  match mapM cid vs with
  | Some cs => match eg_lookup g (Node f cs) with Some e => CId e | None => CNode f vs end
  | None => CNode f vs
  end.
Lemma complete_models ex g : reachable L A ex g -> eg_pending g = [] -> models (complete g) (fun i => CId (eg_find g i)) (eg_log g).
Proof.
  intros R Ep. pose proof (reachable_Inv _ _ _ _ R) as I. split.
  - intros f cs i Hi. destruct (reachable_hist _ _ _ _ R) as [_ Hl]. destruct (Hl _ _ Hi) as (m & Hm & Em).
    unfold complete. assert (mapM cid ((fun i => CId (eg_find g i)) <$> cs) = Some (eg_find g <$> cs)) as ->.
    { clear. induction cs as [|c cs IH]; [done|]. cbn in *. by rewrite IH. }
    assert (eg_lookup g (Node f (eg_find g <$> cs)) = Some (eg_find g i)) as ->; [|done].
    apply Inv_memo_clean; [done|done|]. exists i, m. split_and!; auto. rewrite <- Em. unfold canonf. cbn. f_equal.
    rewrite <- list_fmap_compose. apply list_fmap_ext. intros. cbn. symmetry. by apply Inv_find_idem.
  - intros a b r Hr. f_equal. by eapply reach_dirty_union.
Qed.

Section idle.
Context {V : Type} (F : Op -> list V -> V) (ex : bool) (fuel here : nat).
Notation carries := (carries (D := D) F).
Lemma union_idle a b r g g' nu : reachable L A ex g -> models F nu (eg_log g) -> api_union A (modify_n L A fuel) a b r g = Ok (g', false) ->
  carries nu g g' nu.
Proof.
  intros R M E. eapply (union_models L A Hh F ex); [done|done| |exact E]. eapply models_same; [done|done|].
  apply (api_union_effect L A ex) in E as (_ & Hv & _); [|done]. destruct (decide (eg_find g a = eg_find g b)) as [?|Hn]; [done|].
  by apply Hv in Hn.
Qed.
Lemma trusted_idle a b r g g' nu : reachable L A ex g -> models F nu (eg_log g) -> api_union_trusted A (modify_n L A fuel) a b r g = Ok (g', false) ->
  carries nu g g' nu.
Proof.
  intros R M E. eapply (trusted_models L A Hh F ex); [done|done| |exact E]. eapply models_same; [done|done|].
  pose proof (reachable_Inv _ _ _ _ R) as I.
  unfold api_union_trusted, union_trusted, perform_union in E.
  destruct (perform_union_core _ _ _ _ _) as [[g1 o]| |] eqn:E1; [|done|done]. cbn [mbind res_bind] in E.
  destruct (run_hook _ _ _) as [g2| |]; [|done|done]. cbn [mbind res_bind] in E. injection E as _ Ev.
  apply union_core_effect in E1 as [_ H2]; [|apply I|intros; exact (Inv_find_idem g i I)].
  change (eg_find (add_log _ g)) with (eg_find g) in H2.
  destruct (decide (eg_find g a = eg_find g b)) as [?|Hn]; [done|]. exfalso. apply H2 in Hn as [x ->]. done.
Qed.
Lemma union_inst_idle p1 p2 s r g g' i nu : reachable L A ex g -> models F nu (eg_log g) ->
  union_instantiations A (modify_n L A fuel) p1 p2 s r g = Ok (g', (i, false)) -> pat_ok p1 -> pat_ok p2 ->
  (exists t, ExprTree p1 t) -> (exists t, ExprTree p2 t) -> reachable L A ex g' /\ exists nu', carries nu g g' nu'.
Proof.
  intros R M E Hp1 Hp2 [t1 Ht1] [t2 Ht2]. unfold union_instantiations in E.
  destruct (add_instantiation_noncanonical _ _ p1 s g) as [[g1 i1]| |] eqn:E1; [|done|done]. cbn [mbind res_bind] in E.
  destruct (add_instantiation_noncanonical _ _ p2 s g1) as [[g2 i2]| |] eqn:E2; [|done|done]. cbn [mbind res_bind] in E.
  destruct (api_union_trusted _ _ _ _ _ _) as [[g3 did]| |] eqn:E3; [|done|done]. cbn [mbind res_bind] in E. injection E as <- _ ->.
  destruct (add_inst_models L A Hh F ex fuel p1 s g g1 i1 nu R M E1) as (nu1 & C1).
  destruct (add_inst_step L A (fun _ => True) ex fuel p1 s g g1 i1 t1) as (R1 & G1 & A1); auto; [apply calls_any|].
  destruct (add_inst_models L A Hh F ex fuel p2 s g1 g2 i2 nu1 R1 (proj1 C1) E2) as (nu2 & C2).
  destruct (add_inst_step L A (fun _ => True) ex fuel p2 s g1 g2 i2 t2) as (R2 & G2 & A2); auto; [apply calls_any|].
  split.
  - by destruct (trusted_step L A (fun _ => True) ex fuel i1 i2 r g2 g3 false) as (R3 & _).
  - exists nu2. eapply carries_trans; [exact C1|]. eapply carries_trans; [exact C2|]. eapply trusted_idle; [exact R2|apply C2|exact E3].
Qed.
End idle.

Notation plain_applier := pattern_applier.
Section idle2.
Context {V : Type} (F : Op -> list V -> V) (ex : bool) (fuel here : nat).
Notation carries := (carries (D := D) F).
Context (sast : option (list (node (pop Op)))) (Hsast : forall p, sast = Some p -> good_ast p).

Lemma pattern_idle p rule c s g g' nu : good_ast p -> reachable L A ex g -> models F nu (eg_log g) ->
  pattern_apply L A fuel here p sast rule c s g = Ok (g', []) -> reachable L A ex g' /\ exists nu', carries nu g g' nu'.
Proof.
  intros Hp R M E. destruct (good_ast_tree p Hp) as [Hok Ht]. unfold pattern_apply in E. destruct (explaining g).
  - destruct sast as [ast|] eqn:Es; [|done]. cbn [expect mbind res_bind] in E.
    destruct (good_ast_tree ast (Hsast ast eq_refl)) as [Hok' Htl].
    destruct (union_instantiations _ _ _ _ _ _ _) as [[g1 [id did]]| |] eqn:E1; [|done|done]. cbn [mbind res_bind] in E.
    destruct did; [done|]. injection E as <-. by eapply union_inst_idle.
  - destruct (apply_pat _ _ _ _ _) as [[g1 id]| |] eqn:E1; [|done|done]. cbn [mbind res_bind] in E.
    destruct (api_union _ _ _ _ _ _) as [[g2 did]| |] eqn:E2; [|done|done]. cbn [mbind res_bind] in E.
    destruct did; [done|]. injection E as <-. destruct Ht as [t Ht].
    destruct (apply_pat_models L A Hh F ex fuel p s g g1 id nu) as (nu1 & C1); [done|done|done|].
    destruct (apply_pat_step L A (fun _ => True) ex fuel p s g g1 id t) as (R1 & G1 & A1); auto; [apply calls_any|].
    split; [by destruct (union_step L A (fun _ => True) ex fuel id c here g1 g2 false) as (? & _)|].
    exists nu1. eapply carries_trans; [exact C1|]. eapply union_idle; [exact R1|apply C1|exact E2].
Qed.
Lemma pattern_one_idle sast' p rule c s g g' nu : sast' = sast \/ sast' = None -> good_ast p -> reachable L A ex g -> models F nu (eg_log g) ->
  pattern_apply_one L A fuel here p c s sast' rule g = Ok (g', []) -> reachable L A ex g' /\ exists nu', carries nu g g' nu'.
Proof.
  intros Hs' Hp R M E. destruct (good_ast_tree p Hp) as [Hok [t Ht]]. unfold pattern_apply_one in E.
  destruct (apply_pat _ _ _ _ _) as [[g1 id]| |] eqn:E1; [|done|done]. cbn [mbind res_bind] in E.
  destruct (apply_pat_models L A Hh F ex fuel p s g g1 id nu) as (nu1 & C1); [done|done|done|].
  destruct (apply_pat_step L A (fun _ => True) ex fuel p s g g1 id t) as (R1 & G1 & A1); auto; [apply calls_any|].
  destruct sast' as [ast|].
  - destruct (union_instantiations _ _ _ _ _ _ _) as [[g2 [from did]]| |] eqn:E2; [|done|done]. cbn [mbind res_bind] in E.
    destruct did; [done|]. injection E as <-.
    destruct Hs' as [Hs'|Hs']; [|done]. destruct (good_ast_tree ast (Hsast ast (eq_sym Hs'))) as [Hok' Htl].
    destruct (union_inst_idle F ex fuel ast p s rule g1 g2 from nu1) as (R2 & nu2 & C2); eauto; [apply C1|].
    split; [done|]. exists nu2. by eapply carries_trans.
  - destruct (api_union _ _ _ _ _ _) as [[g2 did]| |] eqn:E2; [|done|done]. cbn [mbind res_bind] in E.
    destruct did; [done|]. injection E as <-.
    split; [by destruct (union_step L A (fun _ => True) ex fuel c id here g1 g2 false) as (? & _)|].
    exists nu1. eapply carries_trans; [exact C1|]. eapply union_idle; [exact R1|apply C1|exact E2].
Qed.
Lemma apply_one_idle sast' a rule c s g g' nu : sast' = sast \/ sast' = None -> plain_applier a -> reachable L A ex g -> models F nu (eg_log g) ->
  apply_one L A fuel here a c s sast' rule g = Ok (g', []) -> reachable L A ex g' /\ exists nu', carries nu g g' nu'.
Proof.
  intros Hs'. revert g nu. induction a as [p|asts|cnd a IH|vars body ret]; intros g nu Ha R M E; cbn [apply_one plain_applier] in *; try done.
  - by eapply pattern_one_idle.
  - destruct cnd as [p1 p2|vars body test]; cbn [check] in E.
    + destruct Ha as (Hg1 & Hg2 & Ha).
      destruct (apply_pat _ _ p1 _ _) as [[g1 a1]| |] eqn:E1; [|done|done]. cbn [mbind res_bind] in E.
      destruct (apply_pat _ _ p2 _ _) as [[g2 a2]| |] eqn:E2; [|done|done]. cbn [mbind res_bind] in E.
      destruct (good_ast_tree p1 Hg1) as [Hok1 [t1 Ht1]]. destruct (good_ast_tree p2 Hg2) as [Hok2 [t2 Ht2]].
      destruct (apply_pat_models L A Hh F ex fuel p1 s g g1 a1 nu) as (nu1 & C1); [done|done|done|].
      destruct (apply_pat_step L A (fun _ => True) ex fuel p1 s g g1 a1 t1) as (R1 & G1 & A1); auto; [apply calls_any|].
      destruct (apply_pat_models L A Hh F ex fuel p2 s g1 g2 a2 nu1) as (nu2 & C2); [done|apply C1|done|].
      destruct (apply_pat_step L A (fun _ => True) ex fuel p2 s g1 g2 a2 t2) as (R2 & G2 & A2); auto; [apply calls_any|].
      assert (C : carries nu g g2 nu2) by (by eapply carries_trans).
      destruct (a1 =? a2); [|injection E as <-; eauto].
      destruct (IH g2 nu2) as (R3 & nu3 & C3); auto; [apply C2|]. split; [done|]. exists nu3. by eapply carries_trans.
    + destruct Ha as [Hb Ha]. rewrite Hb in E. cbn [run_prog mbind res_bind] in E.
      destruct (test c s g); [by eapply IH|]. injection E as <-. split; [done|]. exists nu. by apply carries_refl.
Qed.
Lemma each_idle {X} (f : X -> egraph -> res (egraph * list nat)) xs g g' nu :
  (forall x g g' nu, reachable L A ex g -> models F nu (eg_log g) -> f x g = Ok (g', []) -> reachable L A ex g' /\ exists nu', carries nu g g' nu') ->
  reachable L A ex g -> models F nu (eg_log g) -> each f xs g = Ok (g', []) -> reachable L A ex g' /\ exists nu', carries nu g g' nu'.
Proof.
  intros Hf. revert g nu. induction xs as [|x xs IH]; intros g nu R M E; cbn [each] in E.
  - injection E as <-. split; [done|]. exists nu. by apply carries_refl.
  - destruct (f x g) as [[g1 l1]| |] eqn:E1; [|done|done]. cbn [mbind res_bind] in E.
    destruct (each f xs g1) as [[g2 l2]| |] eqn:E2; [|done|done]. cbn [mbind res_bind] in E. injection E as <- Enil.
    apply app_eq_nil in Enil as [-> ->]. destruct (Hf x g g1 nu) as (R1 & nu1 & C1); auto.
    destruct (IH g1 nu1) as (R2 & nu2 & C2); auto; [apply C1|]. split; [done|]. exists nu2. by eapply carries_trans.
Qed.
Lemma apply_idle a rule ms g g' nu : plain_applier a -> reachable L A ex g -> models F nu (eg_log g) ->
  apply_matches L A fuel here a sast rule ms g = Ok (g', []) -> reachable L A ex g' /\ exists nu', carries nu g g' nu'.
Proof.
  intros Ha R M E. destruct a as [p|asts|cnd a|vars body ret]; try done; cbn [apply_matches] in E.
  - rewrite for_matches_pairs in E. eapply each_idle; [|exact R|exact M|exact E]. intros [c s] g0 g0' nu0 R0 M0 E0. by eapply pattern_idle.
  - unfold default_apply in E. rewrite for_matches_pairs in E. eapply each_idle; [|exact R|exact M|exact E].
    intros [c s] g0 g0' nu0 R0 M0 E0. eapply (apply_one_idle (if explaining g0 then sast else None)); [|exact Ha|exact R0|exact M0|exact E0].
    destruct (explaining g0); auto.
Qed.
End idle2.

Lemma plain_in (a : applier Op D) : plain_applier a -> applier_in (fun _ => True) a.
Proof.
  induction a as [p|asts|[p1 p2|vars body test] a IH|vars body ret]; cbn; try done.
  - intros (? & ? & ?). auto.
  - intros (? & ?). auto.
Qed.
(** If the classes of a rebuilt e-graph survive in its completion, rebuilding merges none of them. *)
Lemma unmerged ex g g1 nu1 fuel' g2 n : reachable L A ex g -> eg_pending g = [] -> reachable L A ex g1 -> grows g g1 ->
  carries (complete g) (fun i => CId (eg_find g i)) g g1 nu1 -> rebuild L A fuel' (modify_n L A fuel') g1 = Ok (g2, n) ->
  forall i j, known g i -> known g j -> (eg_find g2 i = eg_find g2 j <-> eg_find g i = eg_find g j).
Proof.
  intros R Ep R1 G1 C1 E2 i j Hi Hj.
  pose proof (rebuild_models L A Hh (complete g) ex fuel' g1 g2 n nu1 R1 (proj1 C1) E2) as C2.
  destruct (rebuild_step L A (fun _ => True) ex fuel' g1 g2 n) as (R2 & G2 & _); [apply calls_any|exact R1|exact E2|].
  destruct C1 as (M1 & K1 & N1). destruct C2 as (M2 & K2 & N2). split; intros E.
  - pose proof (models_same L A (complete g) nu1 ex g2 i j R2 M2 E) as En. rewrite (K1 i Hi), (K1 j Hj) in En. by injection En.
  - eapply coarser_eq; [apply G2|]. eapply coarser_eq; [apply G1|done].
Qed.
(** A rule application that answers no id merges no two classes, even after rebuilding. *)
Lemma idle_application ex fuel here a sast rule ms g g1 fuel' g2 n :
  (forall p, sast = Some p -> good_ast p) -> plain_applier a -> reachable L A ex g -> eg_pending g = [] ->
  apply_matches L A fuel here a sast rule ms g = Ok (g1, []) -> rebuild L A fuel' (modify_n L A fuel') g1 = Ok (g2, n) ->
  forall i j, known g i -> known g j -> (eg_find g2 i = eg_find g2 j <-> eg_find g i = eg_find g j).
Proof.
  intros Hs Ha R Ep E1 E2.
  destruct (apply_idle (complete g) ex fuel here sast Hs a rule ms g g1 (fun i => CId (eg_find g i)) Ha R) as (R1 & nu1 & C1);
    [by eapply complete_models|exact E1|].
  destruct (apply_matches_step L A (fun _ => True) ex fuel here a sast rule ms g g1 []) as [_ G1]; auto; [apply calls_any|by apply plain_in|].
  by eapply unmerged.
Qed.
End completion.
