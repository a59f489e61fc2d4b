(** The invariants hold for whole lives of e-graphs. *)
From Verif Require Import Base UnionFind EGraphModel EGraphSteps EGraphInv EGraphPres EGraphRuns Spec EGraphMain EGraphReach EGraphOps EGraphSafe EGraphDirect
  EGraphNoPanic EGraphTerm ExplainForest Terms RecExprModel RecExprProofs ExplainModel ExplainSpec ExplainPath ExplainProofs ExplainMain RunnerModel SizeModel SizeSpec SizeProofs
  SerdeModel LifeModel LifeSpec.

Section life.
Context {Op D : Type} `{Countable Op} (L : lang Op) (A : analysis Op D).
Notation egraph := (egraph Op D).
Notation node := (node Op).
Implicit Types (g : egraph).

Record sane g : Prop := {
  sa_good : good g;
  sa_tbl : forall k m, eg_nodes g !! k = Some m -> EAdd m k ∈ eg_log g;
  sa_log : forall n i, EAdd n i ∈ eg_log g -> exists m, eg_nodes g !! i = Some m /\ canonf (eg_find g) n = canonf (eg_find g) m;
  sa_pend : clean_pending g;
  sa_canon : lang_ok L -> eg_clean g = true -> canonical L g;
  sa_dir : Direct g;
  sa_exact : is_Some (eg_explain g) -> forall n i, EAdd n i ∈ eg_log g -> eg_nodes g !! i = Some n;
  sa_empty : eg_nodes g = [] \/ is_empty g = false;
}.
Definition np g : Prop := listed g /\ (eg_clean g = true -> indexed L g).

Lemma sane_new ex : sane (eg_new ex).
Proof.
  split; [split; [apply Inv_new|apply XInv_new]|done|by intros n i Hi%elem_of_nil|done|done| |by intros _ n i Hi%elem_of_nil|by left].
  intros x Hx. destruct ex; [|done]. injection Hx as <-. intros a b c n Hn. cbn in Hn. by rewrite lookup_empty in Hn.
Qed.
Lemma sane_brun g g' : brun L A any g g' -> sane g -> sane g'.
Proof.
  intros B [G T Lg P C X E Em]. pose proof (go_inv _ G) as I. pose proof (grows_brun _ _ _ _ _ B I) as Gr.
  pose proof (hist_brun _ _ _ _ _ B I) as [T2 L2]. pose proof Gr as [_ (l1 & N1) (h1 & O1) _]. split.
  - by apply (next_good L A g g').
  - intros k m Hm. destruct (decide (k < length (eg_nodes g))) as [Hlt|Hge]; [|eapply T2; [lia|done]].
    rewrite O1. apply elem_of_app. right. apply T. rewrite N1 in Hm. by rewrite lookup_app_l in Hm.
  - intros n i Hi. rewrite O1 in Hi. apply elem_of_app in Hi as [Hi|Hi]; [by eapply L2|].
    destruct (Lg n i Hi) as (m & Hm & Ec). exists m. by eapply hist_later.
  - exact (clean_pending_brun _ _ _ _ _ B I P).
  - intros Lo. exact (clean_canonical_brun L A any _ _ Lo B I (C Lo)).
  - intros y Hy. pose proof (brun_explain L A _ _ _ B I) as Ee. rewrite Hy in Ee. rewrite bool_decide_eq_true_2 in Ee by eauto.
    symmetry in Ee. apply bool_decide_eq_true in Ee as [x Hx].
    destruct (xrun_brun L A _ _ _ B I _ Hx) as (x' & Hx' & S). rewrite Hy in Hx'. injection Hx' as <-.
    eapply direct_xsteps; [exact S|]. by apply X.
  - intros Hs n i Hi. pose proof (brun_explain L A _ _ _ B I) as Ee. rewrite bool_decide_eq_true_2 in Ee by done. symmetry in Ee. apply bool_decide_eq_true in Ee.
    rewrite O1 in Hi. apply elem_of_app in Hi as [Hi|Hi]; [by eapply (hist_exact L A any g g' B I Ee)|].
    rewrite N1. apply lookup_app_l_Some. by apply E.
  - by apply (empty_brun L A any g g' B I).
Qed.
Lemma no_nodes g : sane g -> eg_nodes g = [] -> forall e, e ∉ eg_log g.
Proof.
  intros S En [n i|a b r] Hi.
  - destruct (sa_log _ S _ _ Hi) as (m & Hm & _). by rewrite En in Hm.
  - destruct (iv_log _ (go_inv _ (sa_good _ S)) a b) as [Hl _]; [by exists r|]. rewrite En in Hl. cbn in Hl. lia.
Qed.
Lemma with_explain g x : Inv g -> ex_ok (eg_nodes g) x -> Inv (set_explain x g).
Proof. intros [I1 I2 I3 I4 I5 I6] Hx. by split. Qed.
Lemma sane_on g g' : sane g -> with_explanations_enabled g = Ok g' -> sane g'.
Proof.
  intros S E. unfold with_explanations_enabled in E. destruct (eg_explain g) as [x|] eqn:Ex; [by injection E as <-|].
  destruct (0 <? total_size g) eqn:Ez; [done|]. injection E as <-.
  assert (En : eg_nodes g = []).
  { destruct (sa_empty _ S) as [En|En]; [done|]. unfold is_empty in En. apply Nat.ltb_ge in Ez. apply Nat.eqb_neq in En. lia. }
  pose proof (no_nodes g S En) as Hl. destruct S as [[I X] T Lg P C Dr E Em]. split; cbn; try done.
  - split; [apply with_explain; [done|]; cbn; rewrite En; split; [done|]; by intros n i Hi|].
    intros x Hx. cbn in Hx. injection Hx as <-. exists []. unfold xforest. cbn. rewrite En. split; [done|]. split; [apply forest_nil|]. split; [constructor|]. split; [cbn; lia|].
    intros n i Hi. by rewrite lookup_empty in Hi.
  - intros Lo Ec. destruct (C Lo Ec) as [C1 C2 C3]. by split.
  - intros x Hx. cbn in Hx. injection Hx as <-. intros a b c n Hn. cbn in Hn. by rewrite lookup_empty in Hn.
  - intros _ n i Hi. by destruct (Hl _ Hi).
Qed.
Lemma sane_off g : sane g -> sane (with_explanations_disabled g).
Proof.
  intros [[I X] T Lg P C Dr E Em]. split; cbn; try done; [split; [by apply with_explain|done]| |by intros [? ?]].
  intros Lo Ec. destruct (C Lo Ec) as [C1 C2 C3]. by split.
Qed.
Lemma sane_loaded g : sane g -> sane (load (save g)).
Proof.
  intros [[I X] T Lg P C Dr E Em]. split; cbn; try done.
  - split.
    + destruct I as [I1 I2 I3 I4 I5 I6]. split; cbn; try done; [by rewrite list_to_map_to_list|]. destruct (eg_explain g) as [x|]; [|done]. cbn. by rewrite list_to_map_to_list.
    + intros y Hy. cbn in Hy. destruct (eg_explain g) as [x|] eqn:Ex; [|done]. cbn in Hy. injection Hy as <-. destruct (X x Ex) as [es Hes]. exists es.
      unfold xforest in *. cbn. by rewrite list_to_map_to_list.
  - intros y Hy. cbn in Hy. destruct (eg_explain g) as [x|]; [|done]. cbn in Hy. injection Hy as <-. intros a b c n Hn. cbn in Hn. by rewrite lookup_empty in Hn.
  - intros [y Hy]. apply E. destruct (eg_explain g); [by eexists|done].
  - unfold is_empty, total_size in *. cbn. by rewrite list_to_map_to_list.
Qed.
Lemma lived_sane Q g : lived L A Q g -> sane g.
Proof.
  induction 1 as [ex|fuel p g g' _ IH Hp E|g g' _ IH E|g _ IH|g _ IH]; [apply sane_new| |by eapply sane_on|by apply sane_off|by apply sane_loaded].
  eapply sane_brun; [|exact IH]. eapply run_prog_runs; [|apply prog_in_any|exact E]. apply modify_n_runs. intros. apply prog_in_any.
Qed.
Lemma lives_np_lives g : lives_np L A g -> lives L A g.
Proof.
  intros [_ R]. unfold lives. induction R as [ex|fuel p g g' _ IH Hp E|g g' _ IH E|g _ IH|g _ IH];
    [apply lived_new|by eapply lived_run|by eapply lived_on|by apply lived_off|by apply lived_loaded].
Qed.
Lemma lives_np_np g : lives_np L A g -> np g.
Proof.
  intros [Hm R]. induction R as [ex|fuel p g g' R IH Hp E|g g' R IH E|g R IH|g R IH].
  - split; [|done]. intros k m Hk. done.
  - destruct IH as [I1 I2]. pose proof (go_inv _ (sa_good _ (lived_sane _ _ R))) as I.
    assert (B : brun L A unpruned g g').
    { eapply run_prog_runs; [|by apply no_prune_in|exact E]. apply modify_n_runs. intros. by apply no_prune_in. }
    split; [eapply (listed_brun L A unpruned); [by intros Hx|exact B|done|done]|].
    eapply (clean_indexed_brun L A unpruned); [by intros Hx|exact B|done|done].
  - unfold with_explanations_enabled in E. destruct (eg_explain g); [by injection E as <-|]. destruct (0 <? total_size g); [done|]. by injection E as <-.
  - exact IH.
  - split; [exact (proj1 IH)|done].
Qed.

(** ** Properties *)
Lemma life_sound g a b : lives L A g -> known g a -> known g b -> eg_find g a = eg_find g b -> Cong (eg_log g) a b.
Proof.
  unfold known. intros S%lived_sane Ha Hb Hab. pose proof (go_inv _ (sa_good _ S)) as I.
  apply congT_Cong; [apply S|]. rewrite <- (iv_len _ I) in Ha, Hb.
  apply ct_trans with (eg_find g a); [by apply (ci_snd _ _ _ _ _ _ _ (iv_c _ I))|].
  rewrite Hab. apply ct_sym. by apply (ci_snd _ _ _ _ _ _ _ (iv_c _ I)).
Qed.
Lemma life_complete g a b : lives L A g -> eg_clean g = true -> Cong (eg_log g) a b -> eg_find g a = eg_find g b.
Proof.
  intros S%lived_sane Ec Hc. pose proof (go_inv _ (sa_good _ S)) as I. pose proof (sa_pend _ S Ec) as Ep. pose proof (sa_log _ S) as Hl.
  induction Hc as [i|i j _ IH|i j k _ IH1 _ IH2|x y r Hr|f cs ds i j Hi Hj El Hk IH].
  - done.
  - done.
  - congruence.
  - apply (ci_un _ _ _ _ _ _ _ (iv_c _ I)). by exists r.
  - destruct (Hl _ _ Hi) as (m & Hm & Em). destruct (Hl _ _ Hj) as (m' & Hm' & Em').
    eapply Inv_congruent; eauto. rewrite <- Em, <- Em'. by apply canonf_eq_intro.
Qed.
Lemma life_lookup g n r : lives L A g -> eg_clean g = true ->
  eg_lookup g n = Some r <-> exists cs i, EAdd (Node (nop n) cs) i ∈ eg_log g /\ same_children g (nch n) cs /\ r = eg_find g i.
Proof.
  intros S%lived_sane Ec. pose proof (go_inv _ (sa_good _ S)) as I. pose proof (sa_pend _ S Ec) as Ep.
  rewrite Inv_memo_clean by done. split.
  - intros (k & m & Hk & Em & ->). assert (Eo : nop m = nop n) by (by apply canonf_eq_inv in Em as (? & _)).
    exists (nch m), k. split; [|split; [by apply (canonf_children g n m)|done]]. rewrite <- Eo. destruct m. by apply S.
  - intros (cs & i & Hi & Hs & ->). destruct (sa_log _ S _ _ Hi) as (m & Hm & Em). exists i, m. split; [done|]. split; [|done].
    rewrite <- Em. symmetry. by apply canonf_children.
Qed.
Lemma life_canonical g : lang_ok L -> lives L A g -> eg_clean g = true ->
  (forall r, is_Some (eg_classes g !! r) <-> known g r /\ eg_find g r = r) /\
  (forall r c, eg_classes g !! r = Some c ->
     NoDup (c_nodes c) /\ StronglySorted (node_le L) (c_nodes c) /\ forall n x, n ∈ c_nodes c -> x ∈ nch n -> eg_find g x = x) /\
  (forall r r' c c' n, eg_classes g !! r = Some c -> n ∈ c_nodes c -> eg_classes g !! r' = Some c' -> n ∈ c_nodes c' -> r = r') /\
  (forall r c n, eg_classes g !! r = Some c -> n ∈ c_nodes c ->
     exists cs i, EAdd (Node (nop n) cs) i ∈ eg_log g /\ same_children g (nch n) cs /\ eg_find g i = r).
Proof.
  intros Lo S%lived_sane Ec. pose proof (go_inv _ (sa_good _ S)) as I. pose proof (sa_pend _ S Ec) as Ep. destruct (sa_canon _ S Lo Ec) as [C1 C2 C3].
  split; [|split; [|split]].
  - intros r. rewrite (ci_cls _ _ _ _ _ _ _ (iv_c _ I)). unfold known. by rewrite (iv_len _ I).
  - intros r c Hr. split; [eauto|]. split; [eauto|]. intros n x Hn Hx. pose proof (C1 _ _ _ Hr Hn) as E.
    apply (f_equal nch) in E. cbn in E. apply elem_of_list_lookup in Hx as (k & Hk).
    apply (f_equal (.!! k)) in E. rewrite list_lookup_fmap, Hk in E. cbn in E. congruence.
  - intros r r' c c' n Hr Hn Hr' Hn'.
    destruct (ci_nodes _ _ _ _ _ _ _ (iv_c _ I) _ _ _ Hr Hn) as (k & m & Hk & Hm & Em).
    destruct (ci_nodes _ _ _ _ _ _ _ (iv_c _ I) _ _ _ Hr' Hn') as (k' & m' & Hk' & Hm' & Em').
    rewrite <- Hm, <- Hm'. eapply Inv_congruent; eauto. congruence.
  - intros r c n Hr Hn. destruct (ci_nodes _ _ _ _ _ _ _ (iv_c _ I) _ _ _ Hr Hn) as (k & m & Hk & Hm & Em).
    assert (Eo : nop n = nop m) by (by apply canonf_eq_inv in Em as (? & _)).
    exists (nch m), k. split; [|split; [by apply (canonf_children g n m)|done]]. rewrite Eo. destruct m. by apply S.
Qed.
Lemma life_cover g m i : lives_np L A g -> EAdd m i ∈ eg_log g ->
  exists c n, eg_classes g !! eg_find g i = Some c /\ n ∈ c_nodes c /\ nop n = nop m /\ same_children g (nch n) (nch m).
Proof.
  intros R Hi. pose proof (lived_sane _ _ (lives_np_lives _ R)) as S. destruct (lives_np_np _ R) as [Hls _].
  destruct (sa_log _ S _ _ Hi) as (m' & Hm' & Em). destruct (Hls _ _ Hm') as (c & n & Hc & Hn & En).
  exists c, n. rewrite <- Em in En. assert (Eo : nop n = nop m) by (by apply canonf_eq_inv in En as (? & _)).
  split; [done|]. split; [done|]. split; [done|]. by apply canonf_children.
Qed.
Lemma life_index g d r : lives_np L A g -> eg_clean g = true ->
  (exists s, eg_by_op g !! d = Some s /\ r ∈ s) <-> exists c n, eg_classes g !! r = Some c /\ n ∈ c_nodes c /\ l_disc L (nop n) = d.
Proof. intros R Ec. destruct (lives_np_np _ R) as [_ Hi]. exact (Hi Ec d r). Qed.
Lemma life_no_panic fuel p g : lives L A g -> (forall id N, id < N -> uses_known N (an_modify A id)) ->
  uses_known (length (eg_uf g)) p -> run_prog L A fuel (modify_n L A fuel) p g <> Panic.
Proof.
  intros S%lived_sane Hh U E. pose proof (run_prog_good L A fuel _ p g (modify_n_good L A fuel Hh) (sa_good _ S) U) as Hok. by rewrite E in Hok.
Qed.
Lemma life_on g : lives L A g -> with_explanations_enabled g = Panic <-> eg_explain g = None /\ handed_out g <> 0.
Proof.
  intros S%lived_sane. pose proof (go_inv _ (sa_good _ S)) as I. unfold with_explanations_enabled, handed_out. rewrite <- (iv_len _ I).
  destruct (eg_explain g) as [x|]; [split; [done|intros [? _]; done]|].
  assert (Hz : total_size g = 0 <-> eg_nodes g = []).
  { destruct (sa_empty _ S) as [E|E]; split; intros Hx; try done.
    - unfold total_size. apply map_size_empty_iff. apply map_eq. intros n. rewrite lookup_empty.
      destruct (eg_memo g !! n) as [e|] eqn:Em; [|done]. destruct (ci_memo _ _ _ _ _ _ _ (iv_c _ I) _ _ Em) as (m & Hm & _). by rewrite E in Hm.
    - unfold is_empty in E. apply Nat.eqb_neq in E. by destruct E.
    - unfold is_empty in E. apply Nat.eqb_neq in E. exfalso. apply E. unfold total_size. apply map_size_empty_iff. apply map_eq. intros n. rewrite lookup_empty.
      destruct (eg_memo g !! n) as [e|] eqn:Em; [|done]. destruct (ci_memo _ _ _ _ _ _ _ (iv_c _ I) _ _ Em) as (m & Hm & _). by rewrite Hx in Hm. }
  destruct (0 <? total_size g) eqn:E; split; intros Hx; try done.
  - apply Nat.ltb_lt in E. split; [done|]. intros En%nil_length_inv%Hz. lia.
  - apply Nat.ltb_ge in E. destruct Hx as [_ []]. assert (Ez : total_size g = 0) by lia. apply Hz in Ez. by rewrite Ez.
Qed.
Lemma life_explain g l r t u : lives L A g -> is_Some (eg_explain g) -> AddedAs (eg_log g) l t -> AddedAs (eg_log g) r u -> eg_find g l = eg_find g r ->
  exists bound, forall fuel, bound <= fuel -> exists p, explain_id_equivalence fuel l r g = Ok p /\ proves (asserted (eg_log g)) p t u.
Proof.
  intros S%lived_sane Hs Ht Hu Hf. pose proof (go_inv _ (sa_good _ S)) as I.
  assert (Hd : dag (eg_nodes g)) by (intros i n c Hn Hc; by eapply (ci_ch _ _ _ _ _ _ _ (iv_c _ I))).
  assert (HT : forall i t, AddedAs (eg_log g) i t <-> Tree (eg_nodes g) i t).
  { intros i w. split; revert i w.
    - apply AddedAs_ind'. intros i f cs ts Hi _ IH. econstructor; [|exact IH]. by apply (sa_exact _ S).
    - apply TreeOf_ind'. intros i f cs ts Hi _ IH. econstructor; [|exact IH]. by apply (sa_tbl _ S). }
  destruct Hs as [x Hx]. destruct (go_x _ (sa_good _ S) x Hx) as [es Hes]. pose proof Hes as (X1 & X2 & X3 & X4 & X5).
  apply HT in Ht, Hu.
  assert (Hl : l < length (eg_nodes g)) by (destruct Ht; by eapply lookup_lt_Some).
  assert (Hr : r < length (eg_nodes g)) by (destruct Hu; by eapply lookup_lt_Some).
  exists (Datatypes.S (length es)). intros fuel Hb. unfold explain_id_equivalence. rewrite bool_decide_eq_true_2 by done. rewrite Hx. cbn [expect mbind res_bind].
  destruct (explain_total _ _ _ _ Hd _ Hes (sa_dir _ S x Hx) es [] eq_refl fuel l r ∅) as [[p ca] Ep]; [lia|done|done|by apply X4| |].
  { intros a b q Hq. by rewrite lookup_empty in Hq. }
  rewrite Ep. cbn. exists p. split; [done|].
  pose proof (links_ok_forest _ _ _ _ _ Hes x eq_refl) as Hlk.
  destruct (explain_enodes_sound _ Hd _ _ fuel Hlk _ _ _ _ _ _ _ Ep Ht Hu) as [_ Hp].
  { intros a b q Hq. by rewrite lookup_empty in Hq. }
  eapply fproves_mono; [|exact Hp]. intros ru w w' (a & b & Hab & Ha & Hb'). exists a, b. split; [done|]. split; by apply HT.
Qed.
Lemma life_switched g :
  (forall g', with_explanations_enabled g = Ok g' -> are_explanations_enabled g' = true /\ eg_log g' = eg_log g /\ forall i, eg_find g' i = eg_find g i) /\
  (are_explanations_enabled g = true -> with_explanations_enabled g = Ok g) /\
  are_explanations_enabled (with_explanations_disabled g) = false /\ eg_log (with_explanations_disabled g) = eg_log g /\
  (forall i, eg_find (with_explanations_disabled g) i = eg_find g i) /\
  (are_explanations_enabled g = false -> forall fuel l r, explain_id_equivalence fuel l r g = Panic).
Proof.
  split; [|split; [|split; [|split; [|split]]]].
  - intros g' E. unfold with_explanations_enabled in E. destruct (eg_explain g) as [x|] eqn:Ex.
    + injection E as <-. split; [|done]. apply bool_decide_eq_true_2. by exists x.
    + destruct (0 <? total_size g); [done|]. injection E as <-. split; [|done]. apply bool_decide_eq_true_2. by eexists.
  - intros [x Ex]%bool_decide_eq_true_1. unfold with_explanations_enabled. by rewrite Ex.
  - apply bool_decide_eq_false_2. intros [x Hx]. done.
  - done.
  - done.
  - intros Hn%bool_decide_eq_false_1 fuel l r. unfold explain_id_equivalence. destruct (bool_decide _); [|done].
    destruct (eg_explain g) as [x|]; [|done]. exfalso. apply Hn. by exists x.
Qed.
End life.
