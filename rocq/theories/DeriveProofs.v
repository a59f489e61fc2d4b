(** Values of ids among terms up to an equivalence that is a congruence, through API calls
    (hook-free): AlgProofs.v and AlgRules.v for the term algebra modulo provable equality. *)
From Verif Require Import Base UnionFind EGraphModel EGraphSteps EGraphInv EGraphPres EGraphRuns Spec EGraphMain EGraphReach EGraphOps EGraphSafe
  EGraphNoPanic Terms RecExprModel RecExprProofs ExprModel PatSpec ExprProofs ExprSafe MachineModel MatchSpec RewriteModel RewriteProofs AlgSpec AlgProofs
  CheckSpec OptimumSpec.

Section alg.
Context {Op D : Type} `{Countable Op} (L : lang Op) (A : analysis Op D) (Hh : hook_free A) (E : term Op -> term Op -> Prop).
Context (Eeq : Equivalence E) (Econg : forall f ts us, Forall2 E ts us -> E (TNode f ts) (TNode f us)).
Notation egraph := (egraph Op D).
Notation prog := (prog Op D).
Notation pnode := (node (pop Op)).
Implicit Types (g : egraph) (p : list pnode) (nu : nat -> term Op).

Definition means nu (h : list (event Op)) : Prop :=
  (forall f cs i, EAdd (Node f cs) i ∈ h -> E (nu i) (TNode f (nu <$> cs))) /\
  (forall a b r, EUnion a b r ∈ h -> E (nu a) (nu b)).
Lemma Econg_map {X} f (k k' : X -> term Op) (l l' : list X) : length l = length l' ->
  (forall q x y, l !! q = Some x -> l' !! q = Some y -> E (k x) (k' y)) -> E (TNode f (k <$> l)) (TNode f (k' <$> l')).
Proof using Econg.
  intros El Hk. apply Econg. apply Forall2_same_length_lookup. rewrite !fmap_length. split; [done|].
  intros q x y Hx Hy. rewrite list_lookup_fmap in Hx, Hy. apply fmap_Some in Hx as (x1 & Hx & ->). apply fmap_Some in Hy as (y1 & Hy & ->). by eapply Hk.
Qed.
Lemma Cong_means nu h i j : means nu h -> Cong h i j -> E (nu i) (nu j).
Proof using Eeq Econg.
  intros [Ha Hu]. induction 1 as [i|i j _ IH|i j k _ IH1 _ IH2|x y r Hr|f cs ds i j Hi Hj El Hk IH].
  - reflexivity.
  - by symmetry.
  - by etrans.
  - by eapply Hu.
  - rewrite (Ha _ _ _ Hi), (Ha _ _ _ Hj). apply Econg_map; [done|]. intros q c d Hc Hd. by eapply IH.
Qed.
Lemma means_find nu ex g i : reachable L A ex g -> means nu (eg_log g) -> E (nu (eg_find g i)) (nu i).
Proof using Eeq Econg.
  intros R M. pose proof (reachable_Inv _ _ _ _ R) as I. destruct (decide (i < length (eg_uf g))) as [Hi|Hi].
  - eapply Cong_means; [exact M|]. eapply reach_sound; [exact R| |done|by apply Inv_find_idem].
    apply uf_find_lt; [apply I|done].
  - assert (eg_find g i = i) as -> by (apply uf_find_oob; lia). reflexivity.
Qed.
Lemma means_same nu ex g i j : reachable L A ex g -> means nu (eg_log g) -> eg_find g i = eg_find g j -> E (nu i) (nu j).
Proof using Eeq Econg. intros R M Ef. rewrite <- (means_find nu ex g i R M), Ef. by eapply means_find. Qed.
Lemma means_node nu ex g k f cs : reachable L A ex g -> means nu (eg_log g) -> eg_nodes g !! k = Some (Node f cs) -> E (nu k) (TNode f (nu <$> cs)).
Proof. intros R M Hk. apply M. by apply (reachable_hist L A ex g R). Qed.

(** A represented instance is equal to its class. *)
Lemma NRep_means nu ex g (s : nat -> option nat) th t r : reachable L A ex g -> means nu (eg_log g) ->
  (forall v i, s v = Some i -> E (th v) (nu i)) -> NRep g s t r -> E (nu r) (tsubst th t).
Proof using Eeq Econg.
  intros R M Hs. revert r. induction t as [[f|v] ts IH] using term_sind; intros r Hr.
  - inversion Hr as [|? ? cs k Hk Hcs]; subst. rewrite (means_find nu ex g) by done.
    rewrite (means_node nu ex g k f cs) by done. cbn. apply Econg. clear Hk Hr. revert IH.
    induction Hcs as [|t c ts cs Hc Hcs IHcs]; intros IH; [constructor|]. apply Forall_cons in IH as [IH1 IH2]. constructor; [|by apply IHcs].
    rewrite <- (IH1 _ Hc). symmetry. by eapply means_find.
  - inversion Hr as [? ? i Hi|]; subst. rewrite (means_find nu ex g) by done. cbn. symmetry. by apply Hs.
Qed.

(** Adding keeps old values and allows one for the new id. *)
Lemma add_means ex fuel n g g' i nu : reachable L A ex g -> means nu (eg_log g) -> api_add A (modify_n L A fuel) n g = Ok (g', i) ->
  exists nu', means nu' (eg_log g') /\ forall k, known g k -> nu' k = nu k.
Proof using Hh Eeq Econg.
  intros R M Ea. destruct (add_hook_free L A Hh ex fuel n g g' i R Ea) as (El & Hch & Hf & Hkn & Hi).
  destruct (api_add_step L A (fun _ => True) ex fuel n g g' i ltac:(done) R Ea) as (R' & G & m & Hm & Em).
  destruct (log_known L A ex g R) as [Hla Hlu]. rewrite El. destruct Hi as [Hi| ->].
  - exists nu. split; [|done]. split.
    + intros f cs j [[= <- <-]|Hj]%elem_of_cons; [|by apply M].
      pose proof (reachable_Inv _ _ _ _ R) as I. pose proof (reachable_Inv _ _ _ _ R') as I'.
      destruct (lookup_lt_is_Some_2 (eg_nodes g) j) as [m0 Hm0]; [rewrite (iv_len _ I); exact Hi|].
      assert (m0 = m) as ->.
      { destruct (gr_nodes _ _ G) as [l Hl]. rewrite Hl in Hm. rewrite (lookup_app_l_Some _ _ _ _ Hm0) in Hm. by injection Hm. }
      destruct m as [f' ds]. rewrite (means_node nu ex g j f' ds R M Hm0).
      apply canonf_eq_inv in Em as (Eo & Eln & Hk). cbn [nop nch] in *. subst f'. apply Econg_map; [done|].
      intros q d c Ed Ec. pose proof (Hk q c d Ec Ed) as Ecd.
      assert (known g c) by (apply Hch; by eapply elem_of_list_lookup_2).
      assert (known g d).
      { pose proof (ci_ch _ _ _ _ _ _ _ (iv_c _ I) _ _ d Hm0 ltac:(by eapply elem_of_list_lookup_2)) as Hdl. unfold known in *. lia. }
      rewrite !Hf in Ecd by done. exact (means_same nu ex g d c R M (eq_sym Ecd)).
    + intros a b r [[=]|Hr]%elem_of_cons. by eapply M.
  - set (N := length (eg_uf g)). destruct n as [f0 cs0].
    set (nu' := fun k => if decide (k = N) then TNode f0 (nu <$> cs0) else nu k).
    assert (Ho : forall k, known g k -> nu' k = nu k).
    { intros k Hk. unfold nu'. rewrite decide_False; [done|]. unfold known in Hk. lia. }
    exists nu'. split; [|done]. split.
    + intros f cs j [[= -> -> ->]|Hj]%elem_of_cons.
      * unfold nu' at 1. rewrite decide_True by done. rewrite (fmap_agree nu' nu cs0); [reflexivity|]. intros c Hc. by apply Ho, Hch.
      * destruct (Hla _ _ Hj) as [Hj1 Hj2]. rewrite Ho by done. rewrite (fmap_agree nu' nu cs); [by apply M|]. intros c Hc. by apply Ho, Hj2.
    + intros a b r [[=]|Hr]%elem_of_cons. destruct (Hlu _ _ _ Hr). rewrite !Ho by done. by eapply M.
Qed.

(** Values for [g] extend to values for [g']. *)
Definition brings nu g g' nu' : Prop := means nu' (eg_log g') /\ (forall k, known g k -> nu' k = nu k) /\ (forall k, known g k -> known g' k).
Lemma brings_refl nu g : means nu (eg_log g) -> brings nu g g nu.
Proof. unfold brings. auto. Qed.
Lemma brings_trans nu1 nu2 nu3 g1 g2 g3 : brings nu1 g1 g2 nu2 -> brings nu2 g2 g3 nu3 -> brings nu1 g1 g3 nu3.
Proof. intros (M1 & K1 & N1) (M2 & K2 & N2). unfold brings. split_and!; auto. intros k Hk. rewrite K2, K1; auto. Qed.
Lemma brings_same nu g g' : means nu (eg_log g) -> eg_log g' = eg_log g -> length (eg_uf g') = length (eg_uf g) -> brings nu g g' nu.
Proof. intros M El Hl. unfold brings, known. by rewrite El, Hl. Qed.
Lemma add_brings ex fuel n g g' i nu : reachable L A ex g -> means nu (eg_log g) -> api_add A (modify_n L A fuel) n g = Ok (g', i) ->
  exists nu', brings nu g g' nu'.
Proof using Hh Eeq Econg.
  intros R M Ea. destruct (add_means ex fuel n g g' i nu R M Ea) as (nu1 & M1 & K1).
  destruct (add_hook_free L A Hh ex fuel n g g' i R Ea) as (_ & _ & _ & Hkn & _). exists nu1. unfold brings. auto.
Qed.
Lemma apply_pat_means ex fuel p s g g' i nu : reachable L A ex g -> means nu (eg_log g) ->
  apply_pat A (modify_n L A fuel) p s g = Ok (g', i) -> exists nu', brings nu g g' nu'.
Proof using Hh Eeq Econg.
  intros R M Ea. unfold apply_pat in Ea. inv_res. destruct x as [g1 ids]. inv_res. clear H1. revert H0. generalize (@nil nat) as ids0.
  revert g nu R M. induction p as [|[o cs] p IH]; intros g nu R M ids0 Ea; cbn [apply_pat_loop] in Ea.
  - inv_res. exists nu. by apply brings_refl.
  - cbn [nop nch] in Ea. destruct o as [f|v].
    + inv_res. destruct x0 as [g1 k].
      destruct (api_add_step L A (fun _ => True) ex fuel x g g1 k ltac:(done) R H1) as (R1 & _ & _).
      destruct (add_brings ex fuel x g g1 k nu R M H1) as (nu1 & C1).
      apply (IH g1 nu1 R1 (proj1 C1)) in Ea as (nu2 & C2). exists nu2. by eapply brings_trans.
    + inv_res. by eapply IH.
Qed.
Lemma add_inst_means ex fuel p s g g' i nu : reachable L A ex g -> means nu (eg_log g) ->
  add_instantiation_noncanonical A (modify_n L A fuel) p s g = Ok (g', i) -> exists nu', brings nu g g' nu'.
Proof using Hh Eeq Econg.
  intros R M Ea. unfold add_instantiation_noncanonical in Ea. inv_res. destruct x as [g1 ids]. inv_res. clear H1. revert H0. generalize (@nil nat) as ids0.
  revert g nu R M. induction p as [|[o cs] p IH]; intros g nu R M ids0 Ea; cbn [add_inst_loop] in Ea.
  - inv_res. exists nu. by apply brings_refl.
  - cbn [nop nch] in Ea. destruct o as [f|v].
    + inv_res. destruct x0 as [g1 k].
      destruct (api_add_step L A (fun _ => True) ex fuel x g g1 k ltac:(done) R H1) as (R1 & _ & _).
      destruct (add_brings ex fuel x g g1 k nu R M H1) as (nu1 & C1).
      apply (IH g1 nu1 R1 (proj1 C1)) in Ea as (nu2 & C2). exists nu2. by eapply brings_trans.
    + inv_res. by eapply IH.
Qed.

(** Unions between equal ids, and rebuilding. *)
Lemma log_union nu g g' a b r : means nu (eg_log g) -> E (nu a) (nu b) -> eg_log g' = EUnion a b r :: eg_log g -> length (eg_uf g') = length (eg_uf g) ->
  brings nu g g' nu.
Proof.
  intros M Hab El Hl. split_and!; [|done|].
  - rewrite El. split.
    + intros f cs i [[=]|Hi]%elem_of_cons. by apply M.
    + intros a' b' r' [[= -> -> ->]|Hi]%elem_of_cons; [done|by eapply M].
  - intros k. unfold known. by rewrite Hl.
Qed.
Lemma union_means ex fuel a b r g g' v nu : reachable L A ex g -> means nu (eg_log g) -> E (nu a) (nu b) ->
  api_union A (modify_n L A fuel) a b r g = Ok (g', v) -> brings nu g g' nu.
Proof using Hh. intros R M Hab Ea. apply (api_union_log L A Hh ex) in Ea as (El & Hl & _ & _); [|done]. by eapply log_union. Qed.
Lemma trusted_means ex fuel a b r g g' v nu : reachable L A ex g -> means nu (eg_log g) -> E (nu a) (nu b) ->
  api_union_trusted A (modify_n L A fuel) a b r g = Ok (g', v) -> brings nu g g' nu.
Proof using Hh.
  intros R M Hab Ea. unfold api_union_trusted, union_trusted in Ea.
  apply union_log_gen in Ea as (El & Hl & _ & _); [|by apply hook_free_idle_hook|by eapply reachable_Inv]. by eapply log_union.
Qed.
Lemma rebuild_means ex fuel g g' n nu : reachable L A ex g -> means nu (eg_log g) ->
  rebuild L A fuel (modify_n L A fuel) g = Ok (g', n) -> brings nu g g' nu.
Proof using Hh. intros R M Ea. apply (rebuild_quiet L A Hh ex) in Ea as (El & _ & Hl); [|done]. by apply brings_same. Qed.
Lemma brings_nodes ex nu g g' : reachable L A ex g -> reachable L A ex g' -> means nu (eg_log g) -> eg_log g' = eg_log g -> eg_nodes g' = eg_nodes g -> brings nu g g' nu.
Proof.
  intros R R' M El En. apply brings_same; [done|done|]. by rewrite <- (iv_len _ (reachable_Inv _ _ _ _ R)), <- (iv_len _ (reachable_Inv _ _ _ _ R')), En.
Qed.
(** Programs without unions. *)
Lemma prog_means ex fuel (p : prog) g g' nu : reasons (fun _ => False) p -> reachable L A ex g -> means nu (eg_log g) ->
  run_prog L A fuel (modify_n L A fuel) p g = Ok g' -> exists nu', brings nu g g' nu'.
Proof using Hh Eeq Econg.
  revert g nu. induction p as [|k IH|n k IH|a b r k IH|a b r k IH|i d k IH|i d k IH|i f k IH|k IH]; intros g nu Hq R M Ea; cbn [run_prog reasons] in *.
  - injection Ea as <-. exists nu. by apply brings_refl.
  - by eapply IH.
  - apply bind_Ok in Ea as ([g1 i] & E1 & Ea). destruct (add_brings ex fuel n g g1 i nu R M E1) as (nu1 & C1).
    destruct (api_add_step L A (fun _ => True) ex fuel n g g1 i ltac:(done) R E1) as (R1 & _ & _).
    destruct (IH i g1 nu1 (Hq i) R1 (proj1 C1) Ea) as (nu2 & C2). exists nu2. by eapply brings_trans.
  - by destruct Hq.
  - by destruct Hq.
  - apply bind_Ok in Ea as (g1 & E1 & Ea). assert (R1 : reachable L A ex g1).
    { eapply (reach_run L A _ ex fuel (PSetData i d PRet)); [exact R|done|]. cbn [run_prog]. by rewrite E1. }
    assert (C1 : brings nu g g1 nu).
    { unfold set_analysis_data in E1. apply bind_Ok in E1 as ([g2 i2] & E1 & E2). apply hook_free_md in E2 as ->; [|done].
      unfold set_data_core, eg_find_mut in E1. destruct (negb _); [done|]. destruct (uf_find_mut _ _) as [u r]. apply bind_Ok in E1 as (c & _ & [= <- _]). by eapply brings_nodes. }
    destruct (IH g1 nu Hq R1 (proj1 C1) Ea) as (nu2 & C2). exists nu2. by eapply brings_trans.
  - apply bind_Ok in Ea as (g1 & E1 & Ea). assert (R1 : reachable L A ex g1).
    { eapply (reach_run L A _ ex fuel (PPoke i d PRet)); [exact R|done|]. cbn [run_prog]. by rewrite E1. }
    assert (C1 : brings nu g g1 nu).
    { unfold poke_data, eg_find_mut in E1. destruct (negb _); [done|]. destruct (uf_find_mut _ _) as [u r]. apply bind_Ok in E1 as (c & _ & [= <-]). by eapply brings_nodes. }
    destruct (IH g1 nu Hq R1 (proj1 C1) Ea) as (nu2 & C2). exists nu2. by eapply brings_trans.
  - apply bind_Ok in Ea as (g1 & E1 & Ea). assert (R1 : reachable L A ex g1).
    { eapply (reach_run L A _ ex fuel (PRetain i f PRet)); [exact R|done|]. cbn [run_prog]. by rewrite E1. }
    assert (C1 : brings nu g g1 nu).
    { unfold retain_nodes, eg_find_mut in E1. destruct (negb _); [done|]. destruct (uf_find_mut _ _) as [u r]. apply bind_Ok in E1 as (c & _ & [= <-]). by eapply brings_nodes. }
    destruct (IH g1 nu Hq R1 (proj1 C1) Ea) as (nu2 & C2). exists nu2. by eapply brings_trans.
  - apply bind_Ok in Ea as ([g1 n] & E1 & Ea). assert (R1 : reachable L A ex g1).
    { eapply (reach_run L A _ ex fuel (PRebuild (fun _ => PRet))); [exact R|done|]. cbn [run_prog]. by rewrite E1. }
    pose proof (rebuild_means ex fuel g g1 n nu R M E1) as C1.
    destruct (IH n g1 nu (Hq n) R1 (proj1 C1) Ea) as (nu2 & C2). exists nu2. by eapply brings_trans.
Qed.

(** ** Appliers *)
Lemma at_id_means nu ex g s t c : reachable L A ex g -> means nu (eg_log g) -> at_id g s t c -> E (nu c) (tsubst (value_of nu s) t).
Proof using Eeq Econg.
  intros R M Ha. rewrite <- (means_find nu ex g c R M). eapply NRep_means; [exact R|exact M| |exact Ha]. intros v i Hv. rewrite (vals_get nu s v i Hv). reflexivity.
Qed.
Lemma joined_means nu ex g s t1 t2 : reachable L A ex g -> means nu (eg_log g) -> joined g s t1 t2 ->
  E (tsubst (value_of nu s) t1) (tsubst (value_of nu s) t2).
Proof using Eeq Econg.
  intros R M (i1 & i2 & H1 & H2 & Ef). rewrite <- (at_id_means nu ex g s t1 i1), <- (at_id_means nu ex g s t2 i2); auto.
  by eapply means_same.
Qed.

Context (ex : bool) (fuel here : nat).
Notation reach := (reach L A no_prune ex).
Lemma rr_np g : reach g -> reachable L A ex g.
Proof. apply reach_reachable. Qed.
(** The premise holds for the match (c, s) in all extensions of [g] and its values. *)
Definition upholds (P : term Op -> (nat -> term Op) -> Prop) nu g (c : nat) (s : subst) : Prop :=
  forall g1 nu1, grows g g1 -> reach g1 -> brings nu g g1 nu1 -> P (nu1 c) (value_of nu1 (subst_get s)).
Lemma upholds_grows P nu nu' g g' c s : grows g g' -> brings nu g g' nu' -> upholds P nu g c s -> upholds P nu' g' c s.
Proof. intros G C He g1 nu1 G1 R1 C1. refine (He g1 nu1 _ R1 _); [by eapply grows_trans|by eapply brings_trans]. Qed.
Lemma union_inst_means p1 p2 s r g g' b t1 t2 nu : pat_ok p1 -> pat_ok p2 -> ExprTree p1 t1 -> ExprTree p2 t2 ->
  (forall g1 nu1, grows g g1 -> reach g1 -> brings nu g g1 nu1 ->
     E (tsubst (value_of nu1 (subst_get s)) t1) (tsubst (value_of nu1 (subst_get s)) t2)) ->
  reach g -> means nu (eg_log g) -> union_instantiations A (modify_n L A fuel) p1 p2 s r g = Ok (g', b) -> exists nu', brings nu g g' nu'.
Proof using Hh Eeq Econg.
  intros Hp1 Hp2 Ht1 Ht2 Hv R M Ea. unfold union_instantiations in Ea.
  apply bind_Ok in Ea as ([g1 i1] & E1 & Ea). apply bind_Ok in Ea as ([g2 i2] & E2 & Ea). apply bind_Ok in Ea as ([g3 did] & E3 & [= <- <-]).
  destruct (add_inst_means ex fuel p1 s g g1 i1 nu (rr_np _ R) M E1) as (nu1 & C1).
  destruct (add_inst_step L A no_prune ex fuel p1 s g g1 i1 t1) as (R1 & G1 & A1); auto; [apply calls_np|].
  destruct (add_inst_means ex fuel p2 s g1 g2 i2 nu1 (rr_np _ R1) (proj1 C1) E2) as (nu2 & C2).
  destruct (add_inst_step L A no_prune ex fuel p2 s g1 g2 i2 t2) as (R2 & G2 & A2); auto; [apply calls_np|].
  assert (C3 : brings nu2 g2 g3 nu2).
  { eapply (trusted_means ex); [by apply rr_np|apply C2| |exact E3].
    rewrite (at_id_means nu2 ex g2 (subst_get s) t1 i1); [|by apply rr_np|apply C2|by eapply at_grows].
    rewrite (at_id_means nu2 ex g2 (subst_get s) t2 i2); [|by apply rr_np|apply C2|done].
    eapply Hv; [by eapply grows_trans|done|by eapply brings_trans]. }
  exists nu2. eapply brings_trans; [exact C1|]. by eapply brings_trans.
Qed.

Section one.
Context (sast : list pnode) (Hsast : good_ast sast).
Definition says (P : term Op -> (nat -> term Op) -> Prop) (p : list pnode) : Prop := forall t x th, ExprTree p t -> P x th -> E x (tsubst th t).

Lemma pattern_means P p rule c s g g' l nu : good_ast p -> says P sast -> says P p -> upholds P nu g c s ->
  reach g -> means nu (eg_log g) -> pattern_apply L A fuel here p (Some sast) rule c s g = Ok (g', l) -> exists nu', brings nu g g' nu'.
Proof using Hh Eeq Econg Hsast.
  intros Hp Hs Hv He R M Ea. destruct (good_ast_tree p Hp) as [Hok [t Ht]].
  unfold pattern_apply in Ea. destruct (explaining g).
  - cbn [expect mbind res_bind] in Ea. destruct (good_ast_tree sast Hsast) as [Hok' [tl Htl]].
    apply bind_Ok in Ea as ([g1 [id did]] & E1 & [= <- _]).
    eapply (union_inst_means sast p s rule g g1 _ tl t nu); eauto.
    intros g2 nu2 G2 R2 C2. specialize (He g2 nu2 G2 R2 C2). rewrite <- (Hs tl _ _ Htl He). by apply Hv.
  - apply bind_Ok in Ea as ([g1 id] & E1 & Ea). apply bind_Ok in Ea as ([g2 did] & E2 & [= <- _]).
    destruct (apply_pat_means ex fuel p s g g1 id nu) as (nu1 & C1); [by apply rr_np|done|done|].
    destruct (apply_pat_step L A no_prune ex fuel p s g g1 id t) as (R1 & G1 & A1); auto; [apply calls_np|].
    exists nu1. eapply brings_trans; [exact C1|].
    eapply (union_means ex); [by apply rr_np|apply C1| |exact E2].
    rewrite (at_id_means nu1 ex g1 (subst_get s) t id); [|by apply rr_np|apply C1|done].
    symmetry. apply Hv; [done|]. exact (He g1 nu1 G1 R1 C1).
Qed.
Lemma pattern_one_means P sast' p rule c s g g' l nu : sast' = Some sast \/ sast' = None -> good_ast p -> says P sast -> says P p -> upholds P nu g c s ->
  reach g -> means nu (eg_log g) -> pattern_apply_one L A fuel here p c s sast' rule g = Ok (g', l) -> exists nu', brings nu g g' nu'.
Proof using Hh Eeq Econg Hsast.
  intros Hs' Hp Hs Hv He R M Ea. destruct (good_ast_tree p Hp) as [Hok [t Ht]].
  unfold pattern_apply_one in Ea. apply bind_Ok in Ea as ([g1 id] & E1 & Ea).
  destruct (apply_pat_means ex fuel p s g g1 id nu) as (nu1 & C1); [by apply rr_np|done|done|].
  destruct (apply_pat_step L A no_prune ex fuel p s g g1 id t) as (R1 & G1 & A1); auto; [apply calls_np|].
  apply (upholds_grows _ _ _ _ _ _ _ G1 C1) in He.
  destruct Hs' as [-> | ->].
  - apply bind_Ok in Ea as ([g2 [from did]] & E2 & [= <- _]). destruct (good_ast_tree sast Hsast) as [Hok' [tl Htl]].
    destruct (union_inst_means sast p s rule g1 g2 (from, did) tl t nu1 Hok' Hok Htl Ht) as (nu2 & C2); [|done|apply C1|done|].
    + intros g3 nu3 G3 R3 C3. specialize (He g3 nu3 G3 R3 C3). rewrite <- (Hs tl _ _ Htl He). by apply Hv.
    + exists nu2. by eapply brings_trans.
  - apply bind_Ok in Ea as ([g2 did] & E2 & [= <- _]).
    exists nu1. eapply brings_trans; [exact C1|].
    eapply (union_means ex); [by apply rr_np|apply C1| |exact E2].
    rewrite (at_id_means nu1 ex g1 (subst_get s) t id); [|by apply rr_np|apply C1|done].
    apply Hv; [done|]. refine (He g1 nu1 _ R1 _); [by eapply grows_refl, reach_Inv|apply brings_refl, C1].
Qed.
Lemma check_means P p1 p2 t1 t2 c s g g' b nu : good_ast p1 -> good_ast p2 -> ExprTree p1 t1 -> ExprTree p2 t2 -> reach g -> means nu (eg_log g) ->
  upholds P nu g c s -> check L A fuel (CEqual p1 p2) c s g = Ok (g', b) ->
  reach g' /\ grows g g' /\ exists nu', brings nu g g' nu' /\ (b = true -> upholds (fun x th => P x th /\ E (tsubst th t1) (tsubst th t2)) nu' g' c s).
Proof using Hh Eeq Econg.
  intros Hg1 Hg2 Ht1 Ht2 R M He Ea. destruct (good_ast_tree p1 Hg1) as [Hok1 _]. destruct (good_ast_tree p2 Hg2) as [Hok2 _].
  destruct (check_step L A no_prune ex fuel (CEqual p1 p2) c s g g' b) as [R' G]; auto; [apply calls_np|by split|]. split_and!; [done|done|].
  cut (exists nu', brings nu g g' nu').
  { intros (nu' & C). exists nu'. split; [done|]. intros -> g1 nu1 G1 R1 C1. pose proof (proj1 C1) as M1.
    split; [refine (He g1 nu1 _ R1 _); [by eapply grows_trans|by eapply brings_trans]|].
    eapply joined_means; [by apply rr_np|done|]. eapply joined_grows; [exact G1|].
    eapply (check_equal_joined L A no_prune ex fuel p1 p2 c s g g'); eauto. apply calls_np. }
  cbn [check] in Ea. apply bind_Ok in Ea as ([g1 a1] & E1 & Ea). apply bind_Ok in Ea as ([g2 a2] & E2 & [= <- _]).
  destruct (apply_pat_means ex fuel p1 s g g1 a1 nu) as (nu1 & C1); [by apply rr_np|done|done|].
  destruct (apply_pat_step L A no_prune ex fuel p1 s g g1 a1 t1) as (R1 & G1 & A1); auto; [apply calls_np|].
  destruct (apply_pat_means ex fuel p2 s g1 g2 a2 nu1) as (nu2 & C2); [by apply rr_np|apply C1|done|].
  exists nu2. by eapply brings_trans.
Qed.
Definition concludes (P : term Op -> (nat -> term Op) -> Prop) (conds : list (term (pop Op) * term (pop Op))) (r : term (pop Op)) : Prop :=
  forall x th, P x th -> (forall t1 t2, (t1, t2) ∈ conds -> E (tsubst th t1) (tsubst th t2)) -> E x (tsubst th r).
Lemma apply_one_means sast' a conds r P rule c s g g' l nu : sast' = Some sast \/ sast' = None ->
  applier_in no_prune a -> says P sast -> guarded a conds r -> concludes P conds r -> upholds P nu g c s -> reach g -> means nu (eg_log g) ->
  apply_one L A fuel here a c s sast' rule g = Ok (g', l) -> exists nu', brings nu g g' nu'.
Proof using Hh Eeq Econg Hsast.
  intros Hs' Ha Hs Hg. revert P g nu Ha Hs. induction Hg as [p r Hp|p1 p2 t1 t2 a conds r H1 H2 Hg IH]; intros P g nu Ha Hs Hv He R M Ea; cbn [apply_one applier_in] in *.
  - eapply (pattern_one_means P sast' p rule c s g g' l nu); eauto. intros t x th Ht Hx. rewrite (ExprTree_fun _ _ _ Ht Hp). apply Hv; [done|].
    intros t1 t2 Hin. by apply elem_of_nil in Hin.
  - apply bind_Ok in Ea as ([g1 b] & E1 & Ea). destruct Ha as [[Hg1 Hg2] Ha].
    destruct (check_means P p1 p2 t1 t2 c s g g1 b nu) as (R1 & G1 & nu1 & C1 & He1); auto.
    destruct b; [|injection Ea as <- _; eauto].
    destruct (IH (fun x th => P x th /\ E (tsubst th t1) (tsubst th t2)) g1 nu1) as (nu2 & C2); auto.
    + intros t x th Ht [Hx _]. by apply Hs.
    + intros x th [Hx Hc] Hcs. apply Hv; [done|]. intros u1 u2 [[= -> ->]|Hin]%elem_of_cons; [done|by apply Hcs].
    + apply C1.
    + exists nu2. by eapply brings_trans.
Qed.
Lemma each_means {X} (f : X -> egraph -> res (egraph * list nat)) (Pre : X -> (nat -> term Op) -> egraph -> Prop) xs g g' l nu :
  (forall x g g' l nu, x ∈ xs -> Pre x nu g -> reach g -> means nu (eg_log g) -> f x g = Ok (g', l) ->
     reach g' /\ grows g g' /\ exists nu', brings nu g g' nu') ->
  (forall x nu nu' g g', grows g g' -> brings nu g g' nu' -> reach g -> reach g' -> Pre x nu g -> Pre x nu' g') ->
  reach g -> means nu (eg_log g) -> (forall x, x ∈ xs -> Pre x nu g) -> each f xs g = Ok (g', l) -> exists nu', brings nu g g' nu'.
Proof.
  intros Hf Hm. revert g l nu. induction xs as [|x xs IH]; intros g l nu R M Hpre Ea; cbn [each] in Ea.
  - injection Ea as <- _. exists nu. by apply brings_refl.
  - apply bind_Ok in Ea as ([g1 l1] & E1 & Ea). apply bind_Ok in Ea as ([g2 l2] & E2 & [= <- _]).
    destruct (Hf x g g1 l1 nu) as (R1 & G1 & nu1 & C1); auto; [left|apply Hpre; left|].
    destruct (IH (fun y gg gg' ll nn Hy => Hf y gg gg' ll nn (elem_of_list_further _ _ _ Hy)) g1 l2 nu1) as (nu2 & C2); auto.
    + apply C1.
    + intros y Hy. eapply Hm; [exact G1|exact C1|done|done|]. apply Hpre. by right.
    + exists nu2. by eapply brings_trans.
Qed.
Lemma apply_matches_means a conds r P rule ms g g' l nu :
  applier_in no_prune a -> says P sast -> guarded a conds r -> concludes P conds r -> reach g -> means nu (eg_log g) ->
  (forall c s, (c, s) ∈ pairs ms -> upholds P nu g c s) ->
  apply_matches L A fuel here a (Some sast) rule ms g = Ok (g', l) -> exists nu', brings nu g g' nu'.
Proof using Hh Eeq Econg Hsast.
  intros Ha Hs Hg Hv R M Hms Ea.
  set (Pre := fun (x : nat * subst) nu g => upholds P nu g x.1 x.2).
  assert (K : forall f, for_matches f ms g = Ok (g', l) ->
    (forall c s g g' l nu, Pre (c, s) nu g -> reach g -> means nu (eg_log g) -> f c s g = Ok (g', l) ->
       reach g' /\ grows g g' /\ exists nu', brings nu g g' nu') -> exists nu', brings nu g g' nu').
  { intros f Ef Hf. rewrite for_matches_pairs in Ef.
    eapply (each_means _ Pre); [| |exact R|exact M| |exact Ef].
    - intros [c s] g0 g1 l0 nu0 _ Hp R0 M0 E0. by eapply (Hf c s).
    - intros [c s] nu0 nu1 g0 g1 G0 C0 R0 R1 Hp1. by eapply upholds_grows.
    - intros [c s] Hin. by apply Hms. }
  destruct Hg as [p r Hp|p1 p2 t1 t2 a conds r H1 H2 Hg]; cbn [apply_matches] in Ea; (eapply K; [exact Ea|]); clear K Ea; intros c s g0 g1 l0 nu0 Hp1 R0 M0 E0.
  - destruct (good_ast_tree p Ha) as [Hp' [t Ht]].
    destruct (pattern_apply_step L A no_prune ex fuel here p (Some sast) rule c s g0 g1 l0 t) as (? & ? & _); auto; [apply calls_np| |].
    { intros ast _ [= <-]. by apply good_ast_tree. }
    split; [done|]. split; [done|]. eapply (pattern_means P p rule c s g0 g1 l0 nu0); try done. intros t' x th Ht' Hx. rewrite (ExprTree_fun _ _ _ Ht' Hp). apply Hv; [done|].
    intros t1 t2 Hin. by apply elem_of_nil in Hin.
  - assert (Hor : (if explaining g0 then Some sast else None) = Some sast \/ (if explaining g0 then Some sast else None) = None) by (destruct (explaining g0); auto).
    destruct (apply_one_step L A no_prune ex fuel here (ACond (CEqual p1 p2) a) c s (if explaining g0 then Some sast else None) rule g0 g1 l0) as [? ?]; auto; [apply calls_np| |].
    { intros ast. destruct (explaining g0); [intros [= <-]; auto|done]. }
    split; [done|]. split; [done|]. eapply (apply_one_means (if explaining g0 then Some sast else None) (ACond (CEqual p1 p2) a) ((t1, t2) :: conds) r P rule c s g0 g1 l0 nu0); try done. by constructor.
Qed.
End one.
End alg.
