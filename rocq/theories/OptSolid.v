(** What holds of an e-graph with explanations on, whatever its memo of paths. *)
From Verif Require Import Base UnionFind Spec EGraphModel EGraphSteps EGraphInv EGraphPres EGraphRuns EGraphMain EGraphReach EGraphSafe EGraphNoPanic ExplainForest Terms RecExprModel ExprModel
  ExplainModel ExplainSpec ExplainPath ExplainProofs ExplainMain OptNeighbours.

Section solid.
Context {Op D : Type} `{Countable Op} (L : lang Op) (A : analysis Op D).
Notation node := (node Op).
Notation egraph := (egraph Op D).
Notation term := (term Op).
Notation explain := (explain Op).
Implicit Types g : egraph.

(** what does not depend on the memo of paths *)
Record solid g : Prop := {
  so_good : EGraphNoPanic.good g;
  so_ex : is_Some (eg_explain g);
  so_exact : forall n i, EAdd n i ∈ eg_log g <-> eg_nodes g !! i = Some n;
  so_clean : clean_pending g;
  so_nbp : NBP g;
}.
Lemma solid_new : solid (eg_new true).
Proof.
  split.
  - split; [apply Inv_new|apply XInv_new].
  - by eexists.
  - intros n i. cbn. split; [by intros ?%elem_of_nil|done].
  - by intros _.
  - intros x [= <-]. intros i nd Hi. done.
Qed.
Lemma solid_brun g g' : brun L A any g g' -> solid g -> solid g'.
Proof.
  intros R [[I X] Hex Hx Hc Hn]. pose proof (grows_brun _ _ _ _ _ R I) as [_ (l & N1) (h & O1)]. split.
  - apply (next_good L A g g'); [by split|done].
  - pose proof (brun_explain L A _ _ _ R I) as Ee. eapply bool_decide_eq_true_1. rewrite Ee. by eapply bool_decide_eq_true_2.
  - intros n i. split.
    + rewrite O1. intros [Hi|Hi]%elem_of_app.
      * by eapply (hist_exact L A any g g' R I Hex h).
      * apply Hx in Hi. rewrite N1. by apply lookup_app_l_Some.
    + intros Hi. destruct (decide (i < length (eg_nodes g))) as [Hlt|Hge].
      * rewrite N1, lookup_app_l in Hi by done. apply Hx in Hi. rewrite O1. apply elem_of_app. by right.
      * destruct (hist_brun _ _ _ _ _ R I) as [T _]. apply (T i n); [lia|done].
  - by eapply (clean_pending_brun L A any g g').
  - by eapply (NBP_brun L A any g g').
Qed.
Lemma solid_memo g x x' : eg_explain g = Some x -> ex_find x' = ex_find x -> ex_memo x' = ex_memo x -> solid g -> solid (set_explain (Some x') g).
Proof.
  intros Ex Ef Em [[I X] Hex Hx Hc Hn]. split.
  - split.
    + destruct I as [I1 I2 I3 I4 I5 I6]. split; try done. unfold ex_ok in *. cbn [eg_explain set_explain eg_nodes]. rewrite Ex in I5. by rewrite Ef, Em.
    + intros y [= <-]. destruct (X x Ex) as (es & Hes). exists es. unfold xforest in *. cbn [eg_explain set_explain eg_nodes eg_log].
      rewrite Ef, Em. exact Hes.
  - by eexists.
  - exact Hx.
  - exact Hc.
  - intros y [= <-]. rewrite Ef. by apply Hn.
Qed.
Lemma reachable_solid g : reachable L A true g -> solid g.
Proof. intros R%reachable_brun. exact (solid_brun _ _ R solid_new). Qed.
Lemma solid_dag g : solid g -> dag (eg_nodes g).
Proof. intros S i n c Hn Hc. by eapply (ci_ch _ _ _ _ _ _ _ (iv_c _ (go_inv _ (so_good _ S)))). Qed.
Lemma solid_Tree g i t : solid g -> AddedAs (eg_log g) i t <-> Tree (eg_nodes g) i t.
Proof.
  intros S. split.
  - revert i t. apply AddedAs_ind'. intros i f cs ts Hi _ IH. econstructor; [|exact IH]. by apply (so_exact _ S).
  - revert i t. apply TreeOf_ind'. intros i f cs ts Hi _ IH. econstructor; [|exact IH]. by apply (so_exact _ S).
Qed.
End solid.
