(** Explanations of reachable e-graphs, the terms of ids, and equality of terms. *)
From Verif Require Import Base UnionFind EGraphModel EGraphSteps EGraphInv EGraphPres EGraphRuns Spec EGraphMain EGraphReach EGraphOps EGraphSafe EGraphDirect
  EGraphNoPanic ExplainForest Terms RecExprModel RecExprProofs ExprModel PatSpec ExprProofs ExprSafe MachineModel RewriteModel RewriteProofs AlgSpec AlgProofs Completion ExplainModel ExplainSpec ExplainPath ExplainProofs ExplainFlat.

Section log.
Context {Op : Type}.
Implicit Types (h : list (event Op)) (t u : term Op).
Lemma AddedAs_ind' h (P : nat -> term Op -> Prop) :
  (forall i f cs ts, EAdd (Node f cs) i ∈ h -> Forall2 (AddedAs h) cs ts -> Forall2 P cs ts -> P i (TNode f ts)) ->
  forall i t, AddedAs h i t -> P i t.
Proof.
  intros HP i t. revert i. induction t as [f ts IH] using term_sind. intros i Ht.
  inversion Ht as [? cs ? ? Hg Hf]; subst. eapply HP; eauto. clear Hg Ht.
  revert ts IH Hf. induction cs as [|c cs IHc]; intros ts IH Hf; inversion Hf; subst; constructor;
    inversion IH; subst; auto.
Qed.
Lemma AddedAs_mono h h' i t : h ⊆ h' -> AddedAs h i t -> AddedAs h' i t.
Proof. intros Hh. revert i t. apply AddedAs_ind'. intros i f cs ts Hi _ IH. econstructor; eauto. Qed.
Lemma asserted_mono h h' r t u : h ⊆ h' -> asserted h r t u -> asserted h' r t u.
Proof. intros Hh (a & b & ? & ? & ?). exists a, b. split_and!; eauto using AddedAs_mono. Qed.
Lemma teq_ind' (Rl : nat -> term Op -> term Op -> Prop) (P : term Op -> term Op -> Prop) :
  (forall r t u, Rl r t u -> P t u) -> (forall t, P t t) -> (forall t u, teq Rl t u -> P t u -> P u t) ->
  (forall t u v, teq Rl t u -> P t u -> teq Rl u v -> P u v -> P t v) ->
  (forall f ts us, Forall2 (teq Rl) ts us -> Forall2 P ts us -> P (TNode f ts) (TNode f us)) ->
  forall t u, teq Rl t u -> P t u.
Proof.
  intros H1 H2 H3 H4 H5. fix IH 3. intros t u [r t0 u0 Hr|t0|t0 u0 Ht|t0 u0 v0 Ha Hb|f ts us Hf].
  - by eapply H1.
  - apply H2.
  - apply H3; [done|by apply IH].
  - eapply H4; [exact Ha|by apply IH|exact Hb|by apply IH].
  - apply H5; [done|]. induction Hf; constructor; auto.
Qed.
Lemma teq_mono (R R' : nat -> term Op -> term Op -> Prop) t u :
  (forall r t u, R r t u -> teq R' t u) -> teq R t u -> teq R' t u.
Proof. intros HR. revert t u. apply teq_ind'; eauto using teq_refl, teq_sym, teq_trans, teq_cong. Qed.
Lemma proves_teq (Rl : nat -> term Op -> term Op -> Prop) p t u : proves Rl p t u -> teq Rl t u.
Proof.
  revert p t u. assert (Hall : (forall p t u, steps Rl p t u -> teq Rl t u) /\ (forall p t u, proves Rl p t u -> teq Rl t u) /\
    (forall kids ts us, kids_prove Rl kids ts us -> Forall2 (teq Rl) ts us)); [|apply Hall].
  apply (proof_mind Rl (fun p t u _ => teq Rl t u) (fun p t u _ => teq Rl t u) (fun k ts us _ => Forall2 (teq Rl) ts us));
    intros; eauto using teq_refl, teq_trans, teq_cong.
  - eapply teq_trans; [by eapply teq_rule|]. eapply teq_trans; [by apply teq_cong|done].
  - eapply teq_trans; [by eapply teq_sym, teq_rule|]. eapply teq_trans; [by apply teq_cong|done].
Qed.
(** a congruence on terms is sound in every algebra where the rules hold *)
Lemma teq_geval {V} (F : Op -> list V -> V) (Rl : nat -> term Op -> term Op -> Prop) t u :
  (forall r t u, Rl r t u -> geval F t = geval F u) -> teq Rl t u -> geval F t = geval F u.
Proof.
  intros HR. revert t u. apply teq_ind'; eauto; [congruence|]. intros f ts us _ IH. cbn. f_equal.
  induction IH; cbn; f_equal; auto.
Qed.
Lemma AddedAs_geval {V} (F : Op -> list V -> V) nu h i t : models F nu h -> AddedAs h i t -> geval F t = nu i.
Proof.
  intros [Ha _]. revert i t. apply AddedAs_ind'. intros i f cs ts Hi _ IH. rewrite (Ha _ _ _ Hi). cbn. f_equal.
  clear Hi. induction IH; cbn; f_equal; auto.
Qed.
End log.

Section main.
Context {Op D : Type} `{Countable Op} (L : lang Op) (A : analysis Op D).
Notation node := (node Op).
Notation egraph := (egraph Op D).
Notation term := (term Op).
Implicit Types (g : egraph) (t u : term).

(** ** The nodes of ids, with explanations *)
Lemma hist_exact P (g g' : egraph) : brun L A P g g' -> Inv g -> is_Some (eg_explain g) ->
  forall h n i, eg_log g' = h ++ eg_log g -> EAdd n i ∈ h -> eg_nodes g' !! i = Some n.
Proof.
  induction 1 as [g|l g g1 Hpl HP Hp|g g1 g2 R1 IH1 R2 IH2|n g g1 id HP E|n g g1 id h g2 HP E R IH]; intros I Hx h0 m i Eh Hi.
  - apply app_self in Eh. subst. by apply elem_of_nil in Hi.
  - exfalso. by eapply (prim_log L A l g g1).
  - pose proof (brun_Inv _ _ _ _ _ R1 I) as I1. pose proof (grows_brun _ _ _ _ _ R1 I) as [_ (l1 & N1) (h1 & O1)].
    pose proof (grows_brun _ _ _ _ _ R2 I1) as [_ (l2 & N2) (h2 & O2)].
    rewrite O2, O1 in Eh. symmetry in Eh. apply log_split in Eh. subst h0. apply elem_of_app in Hi as [Hi|Hi].
    + eapply IH2; eauto. pose proof (brun_explain L A _ _ _ R1 I) as Ee. eapply bool_decide_eq_true_1. rewrite Ee. by eapply bool_decide_eq_true_2.
    + rewrite N2. apply lookup_app_l_Some. eapply IH1; eauto.
  - assert (Hn : eg_nodes g1 !! id = Some n /\ eg_log g1 = eg_log g).
    { apply add_core_spec in E as [_ Hs]; [|apply I]. inversion Hs as [e ? He Hid|e x x1 x2 u He Hxs Hxn Hxa Hxu Hu|]; subst; cbn.
      - split; [|done]. destruct Hx as [x Hx]. destruct Hid as [[Hn _]|(x' & Hx' & Hid)]; [congruence|].
        pose proof (iv_ex _ I) as Hex. rewrite Hx' in Hex. by apply Hex.
      - split; [|done]. rewrite <- (iv_len _ I). by apply list_lookup_middle. }
    destruct Hn as [Hn Hlg]. cbn in Eh. rewrite Hlg in Eh. change (EAdd n id :: eg_log g) with ([EAdd n id] ++ eg_log g) in Eh.
    apply app_inv_tail in Eh. subst h0. apply elem_of_list_singleton in Hi. injection Hi as -> ->. done.
  - pose proof (Inv_add _ _ _ _ _ _ I E) as I1.
    assert (Hn : eg_nodes g1 !! id = Some n /\ eg_log g1 = eg_log g /\ is_Some (eg_explain g1)).
    { apply add_core_spec in E as [_ Hs]; [|apply I]. inversion Hs as [| |u cls' ex' Hm Hw Hl Hf Hcls Hex]; subst; cbn.
      split_and!; [|done|].
      - rewrite <- (iv_len _ I). by apply list_lookup_middle.
      - destruct Hx as [x Hx]. rewrite Hx in Hex. destruct Hex as (x' & _ & ->). eauto. }
    destruct Hn as (Hn & Hlg & Hx1). pose proof (grows_brun _ _ _ _ _ R I1) as [_ (l2 & N2) (h2 & O2)].
    cbn in Eh. rewrite O2, Hlg in Eh. change (EAdd n id :: h2 ++ eg_log g) with ((EAdd n id :: h2) ++ eg_log g) in Eh.
    apply app_inv_tail in Eh. subst h0. cbn. apply elem_of_cons in Hi as [Hi|Hi].
    + injection Hi as -> ->. rewrite N2. by apply lookup_app_l_Some.
    + eapply (IH I1 Hx1); eauto.
Qed.
Lemma reach_exact g n i : reachable L A true g -> EAdd n i ∈ eg_log g <-> eg_nodes g !! i = Some n.
Proof.
  intros R. split.
  - intros Hi. apply reachable_brun in R. eapply (hist_exact _ _ _ R (Inv_new true)); [by eexists| |exact Hi].
    cbn. by rewrite app_nil_r.
  - intros Hi. by apply (reachable_hist _ _ _ _ R).
Qed.
Lemma reach_dag ex g : reachable L A ex g -> dag (eg_nodes g).
Proof. intros R%reachable_Inv i n c Hn Hc. by eapply (ci_ch _ _ _ _ _ _ _ (iv_c _ R)). Qed.
Lemma Tree_AddedAs ex g i t : reachable L A ex g -> Tree (eg_nodes g) i t -> AddedAs (eg_log g) i t.
Proof.
  intros R. revert i t. apply TreeOf_ind'. intros i f cs ts Hi _ IH. econstructor; [|exact IH]. by apply (reachable_hist _ _ _ _ R).
Qed.
Lemma AddedAs_Tree g i t : reachable L A true g -> AddedAs (eg_log g) i t <-> Tree (eg_nodes g) i t.
Proof.
  intros R. split; [|by eapply Tree_AddedAs]. revert i t. apply AddedAs_ind'. intros i f cs ts Hi _ IH.
  econstructor; [|exact IH]. by apply (reach_exact _ _ _ R).
Qed.
Lemma known_nodes ex g i : reachable L A ex g -> known g i <-> i < length (eg_nodes g).
Proof. intros R%reachable_Inv. unfold known. by rewrite (iv_len _ R). Qed.
(** every id was added as some term; with explanations as exactly one *)
Lemma known_added ex g i : reachable L A ex g -> known g i -> exists t, AddedAs (eg_log g) i t.
Proof.
  intros R Hi. apply (known_nodes _ _ _ R) in Hi. destruct (dag_Tree _ _ (reach_dag _ _ R) Hi) as [t Ht].
  exists t. by eapply Tree_AddedAs.
Qed.
Lemma added_known ex g i t : reachable L A ex g -> AddedAs (eg_log g) i t -> known g i.
Proof.
  intros R Ht. apply (known_nodes _ _ _ R). destruct Ht as [f cs ts i Hi _].
  destruct (reachable_hist _ _ _ _ R) as [_ Hl]. destruct (Hl _ _ Hi) as (m & Hm & _). by eapply lookup_lt_Some.
Qed.
Lemma added_unique g i t u : reachable L A true g -> AddedAs (eg_log g) i t -> AddedAs (eg_log g) i u -> t = u.
Proof. intros R Ht%AddedAs_Tree Hu%AddedAs_Tree; [|done..]. by eapply TreeOf_fun. Qed.

(** ** Explanations *)
Lemma hist_rl_asserted g r t u : reachable L A true g -> hist_rl (eg_nodes g) (eg_log g) r t u <-> asserted (eg_log g) r t u.
Proof.
  intros R. split; intros (a & b & Hu & Ha & Hb); exists a, b; split_and!; auto; by (apply AddedAs_Tree || apply (AddedAs_Tree _ _ _ R)).
Qed.
Lemma fproves_mono (R R' : nat -> term -> term -> Prop) p t u : (forall r t u, R r t u -> R' r t u) -> proves R p t u -> proves R' p t u.
Proof.
  intros HR. revert p t u. assert (Hall : (forall p t u, steps R p t u -> steps R' p t u) /\ (forall p t u, proves R p t u -> proves R' p t u) /\
    (forall kids ts us, kids_prove R kids ts us -> kids_prove R' kids ts us)); [|apply Hall].
  apply (proof_mind R (fun p t u _ => steps R' p t u) (fun p t u _ => proves R' p t u) (fun k ts us _ => kids_prove R' k ts us));
    intros; econstructor; eauto.
Qed.

(** Whatever the path memo contains, an explanation is valid. *)
Lemma explain_sound g x x' fuel l r p t u :
  reachable L A true g -> eg_explain g = Some x -> ex_find x' = ex_find x ->
  explain_id_equivalence fuel l r (set_explain (Some x') g) = Ok p ->
  AddedAs (eg_log g) l t -> AddedAs (eg_log g) r u -> proves (asserted (eg_log g)) p t u.
Proof.
  intros R Hx Ef E Ht Hu. apply (AddedAs_Tree _ _ _ R) in Ht, Hu. unfold explain_id_equivalence in E.
  case_bool_decide; [|done]. cbn [eg_explain set_explain expect mbind res_bind eg_nodes] in E.
  destruct (explain_enodes _ _ _ _ _ _) as [[p' ca']| |] eqn:Ee; try done. cbn in E. injection E as ->.
  destruct (reachable_good _ _ _ _ R) as [I X]. destruct (X x Hx) as [es Hes].
  pose proof (links_ok_forest _ _ _ _ _ Hes x' Ef) as Hlk.
  destruct (explain_enodes_sound _ (reach_dag _ _ R) _ _ fuel Hlk _ _ _ _ _ _ _ Ee Ht Hu) as [_ Hp].
  { intros a b q Hq. by rewrite lookup_empty in Hq. }
  eapply fproves_mono; [|exact Hp]. intros. by apply hist_rl_asserted.
Qed.
Lemma explain_complete g l r : reachable L A true g -> known g l -> known g r -> eg_find g l = eg_find g r ->
  exists bound, forall fuel, bound <= fuel -> exists p, explain_id_equivalence fuel l r g = Ok p.
Proof.
  intros R Hl Hr Hf. destruct (reachable_good _ _ _ _ R) as [I X]. pose proof (reach_explain _ _ _ _ R) as Hx.
  apply bool_decide_eq_true in Hx as [x Hx]. destruct (X x Hx) as [es Hes]. pose proof Hes as (X1 & X2 & X3 & X4 & X5).
  apply (known_nodes _ _ _ R) in Hl, Hr.
  exists (S (length es)). intros fuel Hb. unfold explain_id_equivalence. rewrite bool_decide_eq_true_2 by done. rewrite Hx.
  cbn [expect mbind res_bind].
  destruct (explain_total _ _ _ _ (reach_dag _ _ R) _ Hes (reach_Direct L A true g R x Hx) es [] eq_refl fuel l r ∅) as [[p ca] Ep]; auto.
  - by apply X4.
  - intros a b q Hq. by rewrite lookup_empty in Hq.
  - rewrite Ep. by exists p.
Qed.
Lemma explain_valid g l r t u : reachable L A true g -> AddedAs (eg_log g) l t -> AddedAs (eg_log g) r u -> eg_find g l = eg_find g r ->
  exists bound, forall fuel, bound <= fuel -> exists p, explain_id_equivalence fuel l r g = Ok p /\ proves (asserted (eg_log g)) p t u.
Proof.
  intros R Ht Hu Hf. destruct (explain_complete g l r R) as [b Hb]; [by eapply added_known..|done|].
  exists b. intros fuel Hfu. destruct (Hb fuel Hfu) as [p Hp]. exists p. split; [done|].
  pose proof (reach_explain _ _ _ _ R) as Hx. apply bool_decide_eq_true in Hx as [x Hx].
  apply (explain_sound g x x fuel l r p t u R Hx eq_refl); [|done|done].
  replace (set_explain (Some x) g) with g; [done|]. unfold set_explain. rewrite <- Hx. by destruct g.
Qed.
Lemma explain_unequal g fuel l r : eg_find g l <> eg_find g r -> explain_id_equivalence fuel l r g = Panic.
Proof. intros Hn. unfold explain_id_equivalence. by rewrite bool_decide_eq_false_2. Qed.

(** ** Terms of ids *)
Section id_to_expr.
Context (ns : list node) (Hd : dag ns).
Notation T := (Tree ns).
Definition ie_ok (st : list node * gmap nat nat) : Prop :=
  dag (fst st) /\ forall j k, snd st !! j = Some k -> exists t, T j t /\ Tree (fst st) k t.
Definition ie_post (i : nat) (st st' : list node * gmap nat nat) (k : nat) : Prop :=
  ie_ok st' /\ fst st `prefix_of` fst st' /\ (forall t, T i t -> Tree (fst st') k t) /\
  (forall j, is_Some (snd st' !! j) -> is_Some (snd st !! j) \/ j <= i) /\
  (snd st !! i = None -> S k = length (fst st')).
Lemma Tree_prefix (e e' : list node) k t : e `prefix_of` e' -> Tree e k t -> Tree e' k t.
Proof. intros [l ->]. apply Tree_app. Qed.

Lemma id_to_expr_loop_ok fuel i st : i < fuel -> i < length ns -> ie_ok st ->
  exists st' k, id_to_expr_loop fuel ns i st = Ok (st', k) /\ ie_post i st st' k.
Proof.
  revert i st. induction fuel as [|fuel IH]; intros i st Hi Hlt Hst; [lia|]. cbn [id_to_expr_loop].
  destruct (snd st !! i) as [k|] eqn:Ek.
  { exists st, k. split; [done|]. split_and!; [done|done| |auto|by rewrite Ek]. intros t Ht.
    destruct (proj2 Hst _ _ Ek) as (t' & Ht' & Hk). by rewrite (TreeOf_fun _ _ _ _ Ht Ht'). }
  destruct (lookup_lt_is_Some_2 _ _ Hlt) as [[f cs] Hn]. rewrite Hn. cbn [expect mbind res_bind nch nop].
  match goal with |- exists _ _, (?go cs st ≫= _) = _ /\ _ => set (gof := go) end.
  assert (Hgo : forall cs st, (forall c, c ∈ cs -> c < i) -> ie_ok st -> exists st' ks, gof cs st = Ok (st', ks) /\ ie_ok st' /\
    fst st `prefix_of` fst st' /\ (forall ts, Forall2 T cs ts -> Forall2 (Tree (fst st')) ks ts) /\
    (forall j, is_Some (snd st' !! j) -> is_Some (snd st !! j) \/ j < i) /\ Forall (fun k => k < length (fst st')) ks).
  { clear -IH Hi Hlt Hd. induction cs as [|c cs IHc]; intros st Hc Hst.
    { exists st, []. split_and!; auto. intros ts Hts. inversion Hts. constructor. }
    assert (Hci : c < i) by (apply Hc; left).
    destruct (IH c st ltac:(lia) ltac:(lia) Hst) as (st1 & k & E1 & Hst1 & Hp1 & Ht1 & Hj1 & _).
    destruct (IHc st1) as (st2 & ks & E2 & Hst2 & Hp2 & Ht2 & Hj2 & Hl2); [intros; apply Hc; by right|done|].
    exists st2, (k :: ks). split_and!.
    - change (gof (c :: cs) st) with ('(st, k) ← id_to_expr_loop fuel ns c st; '(st, ks) ← gof cs st; Ok (st, k :: ks)).
      rewrite E1. cbn [mbind res_bind]. rewrite E2. done.
    - done.
    - by etrans.
    - intros ts Hts. inversion Hts; subst. constructor; [|auto]. eapply Tree_prefix; eauto.
    - intros j Hj. destruct (Hj2 j Hj) as [Hj'|?]; [|auto]. destruct (Hj1 j Hj') as [?|?]; [auto|]. right. lia.
    - constructor; [|done]. destruct (dag_Tree ns c Hd) as [tc Htc]; [lia|]. specialize (Ht1 _ Htc).
      eapply Tree_lt, Tree_prefix; eauto. }
  destruct (Hgo cs st) as ([e ca] & ks & Eg & [Hde Hca] & Hp & Hts & Hj & Hl); [intros c Hc; by eapply (Hd i)|done|].
  rewrite Eg. cbn [mbind res_bind fst snd] in *.
  assert (Hck : rx_add_check e (Node f ks) = true).
  { unfold rx_add_check. apply forallb_forall. intros k Hk%elem_of_list_In. rewrite Forall_forall in Hl. specialize (Hl k Hk). cbn in Hk.
    unfold rx_root. destruct e as [|m e]; [cbn in Hl; lia|]. cbn. apply Nat.leb_le. cbn in Hl. lia. }
  unfold rx_add. rewrite Hck. cbn [assert mbind res_bind].
  eexists _, _. split; [done|]. split_and!; cbn [fst snd].
  - split; cbn [fst snd].
    + apply dag_snoc; [done|]. cbn. intros k Hk. rewrite Forall_forall in Hl. by apply Hl.
    + intros j k. rewrite lookup_insert_Some. intros [[<- <-]|[_ Hk]].
      * destruct (dag_Tree ns i Hd Hlt) as [t Ht]. exists t. split; [done|]. inversion Ht as [? f' cs' ts Hn' Hf']; subst.
        rewrite Hn in Hn'. injection Hn' as <- <-. by apply Tree_snoc, Hts.
      * destruct (Hca _ _ Hk) as (t & ? & ?). exists t. split; [done|]. by apply Tree_app.
  - etrans; [exact Hp|]. by apply prefix_app_r.
  - intros t Ht. inversion Ht as [? f' cs' ts Hn' Hf']; subst. rewrite Hn in Hn'. injection Hn' as <- <-. by apply Tree_snoc, Hts.
  - intros j. rewrite lookup_insert_is_Some. intros [->|[_ Hk]]; [right; lia|]. destruct (Hj j Hk); [by left|right; lia].
  - intros _. rewrite app_length. cbn. lia.
Qed.
End id_to_expr.

Lemma id_to_expr_ok ex g i : reachable L A ex g -> known g i ->
  exists e, id_to_expr i g = Ok e /\ dag e /\ forall t, Tree (eg_nodes g) i t -> ExprTree e t.
Proof.
  intros R Hi. apply (known_nodes _ _ _ R) in Hi. unfold id_to_expr.
  destruct (id_to_expr_loop_ok (eg_nodes g) (reach_dag _ _ R) (S (length (eg_nodes g))) i ([], ∅)) as ([e ca] & k & E & [Hde _] & _ & Ht & _ & Hk);
    [lia|done| |].
  - split; [apply dag_nil|]. intros j k Hj. cbn in Hj. by rewrite lookup_empty in Hj.
  - rewrite E. cbn. exists e. split_and!; auto. intros t Htt. specialize (Ht t Htt). cbn in *. rewrite lookup_empty in Hk.
    specialize (Hk eq_refl). split; [by intros ->|]. by replace (length e - 1) with k by lia.
Qed.

(** ** Adding an expression *)
Lemma api_add_logs fuel n g g' i : api_add A (modify_n L A fuel) n g = Ok (g', i) -> EAdd n i ∈ eg_log g'.
Proof.
  unfold api_add. destruct (add_uncanonical _ _ _ _) as [[g1 k]| |]; try done. cbn. intros [= <- <-]. cbn. left.
Qed.
Lemma add_expr_loop_added ex fuel (e0 e : list node) ids g g' ids' :
  reachable L A ex g -> (exists pre, e0 = pre ++ e /\ length pre = length ids) ->
  (forall k i t, ids !! k = Some i -> Tree e0 k t -> AddedAs (eg_log g) i t) ->
  add_expr_loop A (modify_n L A fuel) e ids g = Ok (g', ids') ->
  reachable L A ex g' /\ grows g g' /\ length ids' = length e0 /\ (forall k i t, ids' !! k = Some i -> Tree e0 k t -> AddedAs (eg_log g') i t).
Proof.
  revert ids g. induction e as [|[f cs] e IH]; intros ids g R (pre & Hpre & Hl) Hids E; cbn [add_expr_loop] in E.
  { injection E as <- <-. rewrite app_nil_r in Hpre. subst. split; [exact R|]. split; [apply grows_refl; by eapply reachable_Inv|]. split; [by symmetry|exact Hids]. }
  destruct (map_children_o _ _) as [m| |] eqn:Em; [|done|done]. cbn [mbind res_bind] in E.
  destruct (api_add A (modify_n L A fuel) m g) as [[g1 i]| |] eqn:Ea; try done. cbn [mbind res_bind] in E.
  destruct (api_add_step L A (fun _ => True) ex fuel m g g1 i ltac:(done) R Ea) as (R1 & G1 & _).
  pose proof (api_add_logs _ _ _ _ _ Ea) as Hev.
  apply IH in E as (R' & G' & Hlen & Hk); auto.
  - split_and!; auto. by eapply grows_trans.
  - exists (pre ++ [Node f cs]). rewrite <- app_assoc. split; [done|]. rewrite !app_length. cbn. lia.
  - assert (Hsub : eg_log g ⊆ eg_log g1). { destruct G1 as [_ _ (h & ->)]. set_solver. }
    intros k j t Hk Ht. apply lookup_app_Some in Hk as [Hk|[Hge Hk]]; [by eapply AddedAs_mono, Hids|].
    apply list_lookup_singleton_Some in Hk as [Hk <-]. assert (k = length pre) as -> by lia.
    inversion Ht as [? f' cs' ts Hn Hf]; subst. cbn in Hn. rewrite list_lookup_middle in Hn by done. injection Hn as <- <-.
    apply map_children_o_inv in Em as (Eo & Hds). cbn in *. destruct m as [fm ds]. cbn in *. subst fm. econstructor; [exact Hev|].
    clear -Hds Hf Hids Hsub. rename cs into cs0, ts into ts0. revert ds Hds. induction Hf as [|c t cs ts Hc _ IHf]; intros ds Hds; inversion Hds; subst; constructor; auto.
    eapply AddedAs_mono; [done|]. eapply Hids; eauto.
Qed.
Lemma add_expr_added ex fuel (e : list node) t g g' i : reachable L A ex g -> ExprTree e t ->
  add_expr_uncanonical A (modify_n L A fuel) e g = Ok (g', i) ->
  reachable L A ex g' /\ grows g g' /\ AddedAs (eg_log g') i t.
Proof.
  intros R [Hne Ht] E. unfold add_expr_uncanonical in E. destruct (add_expr_loop _ _ _ _ _) as [[g1 ids]| |] eqn:El; try done.
  cbn [mbind res_bind] in E. destruct (last ids) as [k|] eqn:Els; [|done]. cbn in E. injection E as -> ->.
  destruct (add_expr_loop_added ex fuel e e [] g g' ids R) as (R' & G' & Hl & Hk); auto.
  - by exists [].
  - intros k j t0 Hk. done.
  - split_and!; auto. apply (Hk (length e - 1)); [|done]. rewrite last_lookup in Els. rewrite <- Els. rewrite Hl. f_equal. lia.
Qed.
(** The expression and all its later ids keep their terms. *)
Lemma added_grows g g' i t : grows g g' -> AddedAs (eg_log g) i t -> AddedAs (eg_log g') i t.
Proof. intros [_ _ (h & ->)]. apply AddedAs_mono. set_solver. Qed.

Lemma explain_equivalence_ok fuel fuel' e1 e2 t u g g' p : reachable L A true g -> ExprTree e1 t -> ExprTree e2 u ->
  explain_equivalence A (modify_n L A fuel) fuel' e1 e2 g = Ok (g', p) ->
  reachable L A true g' /\ grows g g' /\ proves (asserted (eg_log g')) p t u.
Proof.
  intros R Ht Hu E. unfold explain_equivalence in E.
  destruct (add_expr_uncanonical _ _ e1 g) as [[g1 l]| |] eqn:E1; try done. cbn [mbind res_bind] in E.
  destruct (add_expr_uncanonical _ _ e2 g1) as [[g2 r]| |] eqn:E2; try done. cbn [mbind res_bind] in E.
  destruct (explain_id_equivalence _ _ _ _) as [p'| |] eqn:E3; try done. cbn in E. injection E as <- <-.
  destruct (add_expr_added _ _ _ _ _ _ _ R Ht E1) as (R1 & G1 & A1). destruct (add_expr_added _ _ _ _ _ _ _ R1 Hu E2) as (R2 & G2 & A2).
  split_and!; [done|by eapply grows_trans|].
  pose proof (reach_explain _ _ _ _ R2) as Hx. apply bool_decide_eq_true in Hx as [x Hx].
  apply (explain_sound g2 x x fuel' l r p' t u R2 Hx eq_refl); [|by eapply added_grows|done].
  replace (set_explain (Some x) g2) with g2; [done|]. unfold set_explain. rewrite <- Hx. by destruct g2.
Qed.

Lemma explain_equivalence_total fuel e1 e2 t u g g1 g2 l r : reachable L A true g -> ExprTree e1 t -> ExprTree e2 u ->
  add_expr_uncanonical A (modify_n L A fuel) e1 g = Ok (g1, l) -> add_expr_uncanonical A (modify_n L A fuel) e2 g1 = Ok (g2, r) ->
  eg_find g2 l = eg_find g2 r ->
  exists bound, forall fuel', bound <= fuel' -> exists p, explain_equivalence A (modify_n L A fuel) fuel' e1 e2 g = Ok (g2, p) /\
    proves (asserted (eg_log g2)) p t u.
Proof.
  intros R Ht Hu E1 E2 Hf.
  destruct (add_expr_added _ _ _ _ _ _ _ R Ht E1) as (R1 & G1 & A1). destruct (add_expr_added _ _ _ _ _ _ _ R1 Hu E2) as (R2 & G2 & A2).
  destruct (explain_valid g2 l r t u R2) as [b Hb]; [by eapply added_grows|done|done|].
  exists b. intros fuel' Hfu. destruct (Hb fuel' Hfu) as (p & Ep & Hp). exists p. split; [|done].
  unfold explain_equivalence. rewrite E1. cbn [mbind res_bind]. rewrite E2. cbn [mbind res_bind]. by rewrite Ep.
Qed.

(** ** Equality of terms *)
Lemma congT_range (ns : list node) (U : nat -> nat -> Prop) i j : (forall a b, U a b -> a < length ns /\ b < length ns) ->
  congT ns U i j -> i = j \/ (i < length ns /\ j < length ns).
Proof.
  intros HU. induction 1 as [i|i j _ IH|i j k _ IH1 _ IH2|a b Hab|i j a b Hi Hj _ _ _ _]; auto.
  - naive_solver.
  - naive_solver.
  - right. split; by eapply lookup_lt_Some.
Qed.
Section rl.
Context (Rl : nat -> term -> term -> Prop).
(** every union asserted so far follows from [Rl], by the terms of the ids *)
Definition unions_in g : Prop := forall a b r t u, EUnion a b r ∈ eg_log g -> Tree (eg_nodes g) a t -> Tree (eg_nodes g) b u -> teq Rl t u.
Lemma congT_teq ex g i j : reachable L A ex g -> unions_in g -> congT (eg_nodes g) (log_unions (eg_log g)) i j ->
  forall t u, Tree (eg_nodes g) i t -> Tree (eg_nodes g) j u -> teq Rl t u.
Proof.
  intros R HUn. pose proof (reachable_Inv _ _ _ _ R) as I. pose proof (iv_log _ I) as HU.
  induction 1 as [i|i j _ IH|i j k H1 IH1 _ IH2|a b [r Hab]|i j a b Hi Hj Ho El _ IH]; intros t u Ht Hu.
  - rewrite (TreeOf_fun _ _ _ _ Ht Hu). apply teq_refl.
  - apply teq_sym. auto.
  - destruct (congT_range _ _ _ _ HU H1) as [->|[_ Hj]]; [auto|].
    destruct (dag_Tree _ _ (reach_dag _ _ R) Hj) as [v Hv]. eapply teq_trans; eauto.
  - eapply HUn; eauto.
  - inversion Ht as [? f cs ts Hn Hts]; subst. inversion Hu as [? f' ds us Hn' Hus]; subst.
    cbn in Hn, Hn'. rewrite Hi in Hn. rewrite Hj in Hn'. injection Hn as ->. injection Hn' as ->. cbn in Ho, El, IH. subst f'.
    apply teq_cong. apply Forall2_same_length_lookup_2.
    + rewrite <- (Forall2_length _ _ _ Hts), <- (Forall2_length _ _ _ Hus). done.
    + intros k tk uk Htk Huk. destruct (Forall2_lookup_r _ _ _ _ _ Hts Htk) as (c & Hc & Hct).
      destruct (Forall2_lookup_r _ _ _ _ _ Hus Huk) as (d & Hd & Hdu). eapply IH; eauto.
Qed.
Lemma find_teq ex g i j t u : reachable L A ex g -> unions_in g -> eg_find g i = eg_find g j ->
  Tree (eg_nodes g) i t -> Tree (eg_nodes g) j u -> teq Rl t u.
Proof.
  intros R HUn Hf Ht Hu. pose proof (reachable_Inv _ _ _ _ R) as I. eapply congT_teq; eauto.
  pose proof (Tree_lt _ _ _ Ht). pose proof (Tree_lt _ _ _ Hu).
  apply ct_trans with (eg_find g i); [by apply (ci_snd _ _ _ _ _ _ _ (iv_c _ I))|].
  rewrite Hf. apply ct_sym. by apply (ci_snd _ _ _ _ _ _ _ (iv_c _ I)).
Qed.
(** the terms an id was added as are equal to the term of its node *)
Lemma added_teq ex g i t : reachable L A ex g -> unions_in g -> AddedAs (eg_log g) i t ->
  forall u, Tree (eg_nodes g) i u -> teq Rl t u.
Proof.
  intros R HUn. pose proof (reachable_Inv _ _ _ _ R) as I. revert i t. apply (AddedAs_ind' _ (fun i t => forall u, Tree (eg_nodes g) i u -> teq Rl t u)). intros i f cs ts Hi _ IH u Hu.
  destruct (reachable_hist _ _ _ _ R) as [_ Hl]. destruct (Hl _ _ Hi) as (m & Hm & Em).
  inversion Hu as [? f' ds us Hn Hus]; subst. cbn in Hn. rewrite Hm in Hn. injection Hn as ->.
  apply canonf_eq_inv in Em as (Eo & El & Hk). cbn in *. subst f'. apply teq_cong. apply Forall2_same_length_lookup_2.
  - rewrite <- (Forall2_length _ _ _ IH), <- (Forall2_length _ _ _ Hus). done.
  - intros k tk uk Htk Huk. destruct (Forall2_lookup_r _ _ _ _ _ IH Htk) as (c & Hc & Hct).
    destruct (Forall2_lookup_r _ _ _ _ _ Hus Huk) as (d & Hd & Hdu).
    pose proof (Hk _ _ _ Hc Hd) as Ef.
    assert (Hcl : c < length (eg_nodes g)).
    { destruct (log_known L A ex g R) as [Hlk _]. destruct (Hlk _ _ Hi) as [_ Hch]. apply (known_nodes _ _ _ R). apply Hch. cbn. by eapply elem_of_list_lookup_2. }
    destruct (dag_Tree _ _ (reach_dag _ _ R) Hcl) as [v Hv].
    eapply teq_trans; [by apply Hct|]. eapply find_teq; eauto.
Qed.
End rl.
Lemma asserted_unions ex g : reachable L A ex g -> unions_in (asserted (eg_log g)) g.
Proof. intros R a b r t u Hab Ha Hb. eapply teq_rule. exists a, b. split_and!; [done|by eapply Tree_AddedAs..]. Qed.
Lemma equal_teq' Rl ex g i j t u : reachable L A ex g -> unions_in Rl g -> AddedAs (eg_log g) i t -> AddedAs (eg_log g) j u ->
  eg_find g i = eg_find g j -> teq Rl t u.
Proof.
  intros R HU Ht Hu Hf. pose proof (added_known _ _ _ _ R Ht) as Ki. pose proof (added_known _ _ _ _ R Hu) as Kj.
  apply (known_nodes _ _ _ R) in Ki, Kj.
  destruct (dag_Tree _ _ (reach_dag _ _ R) Ki) as [v Hv]. destruct (dag_Tree _ _ (reach_dag _ _ R) Kj) as [w Hw].
  eapply teq_trans; [by eapply added_teq|]. eapply teq_trans; [by eapply find_teq|]. apply teq_sym. by eapply added_teq.
Qed.
Lemma equal_teq ex g i j t u : reachable L A ex g -> AddedAs (eg_log g) i t -> AddedAs (eg_log g) j u ->
  eg_find g i = eg_find g j -> teq (asserted (eg_log g)) t u.
Proof. intros R. eapply equal_teq'; [done|by eapply asserted_unions]. Qed.
Lemma teq_equal ex g i j t u : reachable L A ex g -> eg_clean g = true -> AddedAs (eg_log g) i t -> AddedAs (eg_log g) j u ->
  teq (asserted (eg_log g)) t u -> eg_find g i = eg_find g j.
Proof.
  intros R Ec Ht Hu He. pose proof (complete_models L A ex g R (reachable_clean _ _ _ _ R Ec)) as M.
  apply (teq_geval (complete g)) in He.
  - rewrite (AddedAs_geval _ _ _ _ _ M Ht), (AddedAs_geval _ _ _ _ _ M Hu) in He. by injection He.
  - intros r v w (a & b & Hab & Ha & Hb). rewrite (AddedAs_geval _ _ _ _ _ M Ha), (AddedAs_geval _ _ _ _ _ M Hb). by eapply M.
Qed.
Lemma teq_iff ex g i j t u : reachable L A ex g -> eg_clean g = true -> AddedAs (eg_log g) i t -> AddedAs (eg_log g) j u ->
  eg_find g i = eg_find g j <-> teq (asserted (eg_log g)) t u.
Proof. intros R Ec Ht Hu. split; [by eapply equal_teq|by eapply teq_equal]. Qed.
(** the term of an id is represented in its class *)
Lemma added_rep ex g i t : reachable_np L A ex g -> AddedAs (eg_log g) i t -> Rep g t (eg_find g i).
Proof.
  intros R. revert i t. apply AddedAs_ind'. intros i f cs ts Hi _ IH.
  destruct (reach_contents_complete L A ex g _ _ R Hi) as (c & [f' ds] & Hc & Hn & Eo & Hs). cbn in *. subst f'.
  econstructor; [exact Hc|exact Hn|]. clear -Hs IH. revert cs Hs ts IH.
  induction ds as [|d ds IHd]; intros cs Hs ts IH; inversion Hs; subst; inversion IH; subst; constructor; eauto. congruence.
Qed.
(** ** The expression of an id, later *)
Lemma id_to_expr_added ex g i t : reachable L A ex g -> AddedAs (eg_log g) i t ->
  exists e u, id_to_expr i g = Ok e /\ dag e /\ ExprTree e u /\ AddedAs (eg_log g) i u /\ teq (asserted (eg_log g)) t u.
Proof.
  intros R Ht. pose proof (added_known _ _ _ _ R Ht) as Hi. destruct (id_to_expr_ok ex g i R Hi) as (e & Ee & Hd & He).
  apply (known_nodes _ _ _ R) in Hi. destruct (dag_Tree _ _ (reach_dag _ _ R) Hi) as [u Hu].
  exists e, u. split_and!; auto; [by eapply Tree_AddedAs|]. eapply added_teq; eauto using asserted_unions.
Qed.
Lemma id_to_expr_later fuel fuel' e t g g1 g2 i p : reachable L A true g -> ExprTree e t ->
  add_expr_uncanonical A (modify_n L A fuel) e g = Ok (g1, i) -> run_prog L A fuel' (modify_n L A fuel') p g1 = Ok g2 ->
  exists e', id_to_expr i g2 = Ok e' /\ dag e' /\ ExprTree e' t.
Proof.
  intros R Ht E1 E2. destruct (add_expr_added _ _ _ _ _ _ _ R Ht E1) as (R1 & G1 & A1).
  assert (R2 : reachable L A true g2) by (by eapply reach_run). pose proof (run_grows _ _ _ _ _ _ _ R1 E2) as G2.
  pose proof (added_grows _ _ _ _ G2 A1) as A2. destruct (id_to_expr_ok true g2 i R2) as (e' & Ee & Hd & He); [by eapply added_known|].
  exists e'. split_and!; auto. apply He. by apply AddedAs_Tree.
Qed.
End main.
