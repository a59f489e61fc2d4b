(** Values of ids in an algebra, through API calls (hook-free). *)
From Verif Require Import Base UnionFind EGraphModel EGraphSteps EGraphInv EGraphPres EGraphRuns Spec EGraphMain EGraphReach EGraphOps EGraphSafe
  EGraphNoPanic Terms RecExprModel RecExprProofs ExprModel PatSpec ExprProofs ExprSafe MachineModel MatchSpec RewriteModel RewriteProofs AlgSpec.

Lemma fmap_agree {X Y} (f f' : X -> Y) (l : list X) : (forall x, x ∈ l -> f x = f' x) -> f <$> l = f' <$> l.
Proof. intros Hf. apply list_fmap_ext. intros i x Hx. apply Hf. by eapply elem_of_list_lookup_2. Qed.

Section alg.
Context {Op D V : Type} `{Countable Op} (L : lang Op) (A : analysis Op D) (Hh : hook_free A) (F : Op -> list V -> V).
Notation egraph := (egraph Op D).
Notation node := (node Op).
Notation prog := (prog Op D).
Notation pnode := (EGraphModel.node (pop Op)).
Implicit Types (g : egraph) (p : list pnode) (nu : nat -> V).

Lemma Cong_models nu h i j : models F nu h -> Cong h i j -> nu i = nu j.
Proof.
  intros [Ha Hu]. induction 1 as [i|i j _ IH|i j k _ IH1 _ IH2|x y r Hr|f cs ds i j Hi Hj El Hk IH].
  - done.
  - done.
  - congruence.
  - by eapply Hu.
  - rewrite (Ha _ _ _ Hi), (Ha _ _ _ Hj). f_equal. apply list_eq. intros q. rewrite !list_lookup_fmap.
    destruct (cs !! q) as [c|] eqn:Ec, (ds !! q) as [d|] eqn:Ed; cbn.
    + f_equal. by eapply IH.
    + apply lookup_ge_None in Ed. apply lookup_lt_Some in Ec. lia.
    + apply lookup_ge_None in Ec. apply lookup_lt_Some in Ed. lia.
    + done.
Qed.
Lemma models_find nu ex g i : reachable L A ex g -> models F nu (eg_log g) -> nu (eg_find g i) = nu i.
Proof.
  intros R M. pose proof (reachable_Inv _ _ _ _ R) as I. destruct (decide (i < length (eg_uf g))) as [Hi|Hi].
  - eapply Cong_models; [exact M|]. eapply reach_sound; [exact R| |done|by apply Inv_find_idem].
    apply uf_find_lt; [apply I|done].
  - f_equal. apply uf_find_oob. lia.
Qed.
Lemma models_same nu ex g i j : reachable L A ex g -> models F nu (eg_log g) -> eg_find g i = eg_find g j -> nu i = nu j.
Proof. intros R M E. rewrite <- (models_find nu ex g i R M), E. by eapply models_find. Qed.
Lemma models_node nu ex g k f cs : reachable L A ex g -> models F nu (eg_log g) -> eg_nodes g !! k = Some (Node f cs) -> nu k = F f (nu <$> cs).
Proof. intros R M Hk. apply M. by apply (reachable_hist L A ex g R). Qed.

(** A represented instance has the value of its class. *)
Lemma NRep_eval nu ex g (s : nat -> option nat) th t r : reachable L A ex g -> models F nu (eg_log g) ->
  (forall v i, s v = Some i -> th v = nu i) -> NRep g s t r -> nu r = peval F th t.
Proof.
  intros R M Hs. revert r. induction t as [[f|v] ts IH] using term_sind; intros r Hr.
  - inversion Hr as [|? ? cs k Hk Hcs]; subst. rewrite (models_find nu ex g) by done.
    rewrite (models_node nu ex g k f cs) by done. cbn. f_equal.
    clear Hk Hr. revert IH. induction Hcs as [|t c ts cs Hc Hcs IHcs]; intros IH; [done|]. cbn.
    apply Forall_cons in IH as [IH1 IH2]. rewrite <- (IH1 _ Hc), (models_find nu ex g) by done. f_equal. by apply IHcs.
  - inversion Hr as [? ? i Hi|]; subst. rewrite (models_find nu ex g) by done. cbn. symmetry. by apply Hs.
Qed.

(** Ids mentioned in the history are known. *)
Lemma log_known ex g : reachable L A ex g ->
  (forall n i, EAdd n i ∈ eg_log g -> known g i /\ forall c, c ∈ nch n -> known g c) /\
  (forall a b r, EUnion a b r ∈ eg_log g -> known g a /\ known g b).
Proof.
  intros R. pose proof (reachable_Inv _ _ _ _ R) as I. unfold known. rewrite <- (iv_len _ I). split.
  - intros n i Hi. destruct (reachable_hist _ _ _ _ R) as [_ Hl]. destruct (Hl _ _ Hi) as (m & Hm & Em).
    pose proof (lookup_lt_Some _ _ _ Hm) as Hlt. split; [done|]. intros c Hc.
    destruct (decide (c < length (eg_nodes g))) as [?|Hn]; [done|]. exfalso.
    destruct (elem_of_list_lookup_1 _ _ Hc) as [q Hq]. apply canonf_eq_inv in Em as (_ & El & Hk).
    destruct (lookup_lt_is_Some_2 (nch m) q) as [d Hd]; [rewrite <- El; by eapply lookup_lt_Some|].
    pose proof (Hk q c d Hq Hd) as Ef.
    pose proof (ci_ch _ _ _ _ _ _ _ (iv_c _ I) _ _ d Hm ltac:(by eapply elem_of_list_lookup_2)) as Hdl.
    assert (eg_find g c = c) as Ec by (apply uf_find_oob; rewrite <- (iv_len _ I); lia).
    assert (eg_find g d < length (eg_uf g)) by (apply uf_find_lt; [apply I|rewrite <- (iv_len _ I); lia]).
    rewrite (iv_len _ I) in Hn. lia.
  - intros a b r Hr. apply (iv_log _ I). by exists r.
Qed.

(** Adding keeps old classes and allows a value for the new id. *)
Lemma add_hook_free ex fuel n g g' i : reachable L A ex g -> api_add A (modify_n L A fuel) n g = Ok (g', i) ->
  eg_log g' = EAdd n i :: eg_log g /\ (forall c, c ∈ nch n -> known g c) /\
  (forall k, known g k -> eg_find g' k = eg_find g k) /\ (forall k, known g k -> known g' k) /\
  (known g i \/ i = length (eg_uf g)).
Proof.
  intros R E. pose proof (reachable_Inv _ _ _ _ R) as I.
  destruct (api_add_step L A (fun _ => True) ex fuel n g g' i ltac:(done) R E) as (R' & G & m & Hm & _).
  pose proof (reachable_Inv _ _ _ _ R') as I'.
  assert (Hkn : forall k, known g k -> known g' k).
  { destruct (gr_nodes _ _ G) as [l Hl]. intros k. unfold known. rewrite <- (iv_len _ I'), <- (iv_len _ I), Hl, app_length. lia. }
  unfold api_add in E. inv_res. destruct x as [g1 k]. inv_res.
  apply add_uncanonical_inv in H0 as (g4 & o & Ea & Hg).
  apply add_core_spec in Ea as [Hch Hsp]; [|apply I]. rewrite Forall_forall in Hch.
  assert (Hold : forall e, eg_memo g !! canon g n = Some e -> known g e).
  { intros e He. destruct (ci_memo _ _ _ _ _ _ _ (iv_c _ I) _ _ He) as (? & Hlt & _). unfold known. rewrite <- (iv_len _ I). by eapply lookup_lt_Some. }
  destruct Hsp as [e' id He' Hid|e' x x1 x2 u He' Hx Hxn Hxa Hxu Hu|u cls' ex' Hmn Hw Hl' Hf Hcls Hex].
  - destruct Hg as [[_ ->]|(h & g3 & [=] & _)]. split_and!; auto. left.
    destruct Hid as [[_ ->]|(x & Hx & Hid)]; [auto|].
    pose proof (iv_ex _ I) as Hio. rewrite Hx in Hio. destruct Hio as [_ Hio]. apply Hio in Hid.
    unfold known. rewrite <- (iv_len _ I). by eapply lookup_lt_Some.
  - destruct Hg as [[_ ->]|(h & g3 & [=] & _)]. split_and!; auto. intros q Hq. unfold eg_find. cbn. subst u. by eapply alias_old.
  - destruct Hg as [[[=] _]|(h & g3 & [= <-] & Hmd & ->)]. apply hook_free_md in Hmd as ->; [|done]. split_and!; auto.
    intros q _. apply Hf.
Qed.
Lemma add_models ex fuel n g g' i nu : reachable L A ex g -> models F nu (eg_log g) -> api_add A (modify_n L A fuel) n g = Ok (g', i) ->
  exists nu', models F nu' (eg_log g') /\ forall k, known g k -> nu' k = nu k.
Proof.
  intros R M E. destruct (add_hook_free ex fuel n g g' i R E) as (El & Hch & Hf & Hkn & Hi).
  destruct (api_add_step L A (fun _ => True) ex fuel n g g' i ltac:(done) R E) as (R' & G & m & Hm & Em).
  destruct (log_known ex g R) as [Hla Hlu]. rewrite El. destruct Hi as [Hi| ->].
  - exists nu. split; [|done]. split.
    + intros f cs j [[= <- <-]|Hj]%elem_of_cons; [|by apply M].
      pose proof (reachable_Inv _ _ _ _ R) as I. pose proof (reachable_Inv _ _ _ _ R') as I'.
      destruct (lookup_lt_is_Some_2 (eg_nodes g) j) as [m0 Hm0]; [rewrite (iv_len _ I); exact Hi|].
      assert (m0 = m) as ->.
      { destruct (gr_nodes _ _ G) as [l Hl]. rewrite Hl in Hm. rewrite (lookup_app_l_Some _ _ _ _ Hm0) in Hm. by injection Hm. }
      destruct m as [f' ds]. rewrite (models_node nu ex g j f' ds R M Hm0).
      apply canonf_eq_inv in Em as (Eo & Eln & Hk). cbn [nop nch] in *. subst f'. f_equal.
      apply list_eq. intros q. rewrite !list_lookup_fmap.
      destruct (cs !! q) as [c|] eqn:Ec, (ds !! q) as [d|] eqn:Ed; cbn.
      * f_equal. pose proof (Hk q c d Ec Ed) as Ecd.
        assert (known g c) by (apply Hch; by eapply elem_of_list_lookup_2).
        assert (known g d).
        { pose proof (ci_ch _ _ _ _ _ _ _ (iv_c _ I) _ _ d Hm0 ltac:(by eapply elem_of_list_lookup_2)) as Hdl. unfold known in *. lia. }
        rewrite !Hf in Ecd by done. symmetry. exact (models_same nu ex g c d R M Ecd).
      * apply lookup_ge_None in Ed. apply lookup_lt_Some in Ec. lia.
      * apply lookup_ge_None in Ec. apply lookup_lt_Some in Ed. lia.
      * done.
    + intros a b r [[=]|Hr]%elem_of_cons. by eapply M.
  - set (N := length (eg_uf g)). destruct n as [f0 cs0].
    set (nu' := fun k => if decide (k = N) then F f0 (nu <$> cs0) else nu k).
    assert (Ho : forall k, known g k -> nu' k = nu k).
    { intros k Hk. unfold nu'. rewrite decide_False; [done|]. unfold known in Hk. lia. }
    exists nu'. split; [|done]. split.
    + intros f cs j [[= -> -> ->]|Hj]%elem_of_cons.
      * unfold nu' at 1. rewrite decide_True by done. f_equal. apply fmap_agree. intros c Hc. symmetry. by apply Ho, Hch.
      * destruct (Hla _ _ Hj) as [Hj1 Hj2]. rewrite Ho by done. destruct M as [M1 _]. rewrite (M1 _ _ _ Hj). f_equal.
        apply fmap_agree. intros c Hc. symmetry. by apply Ho, Hj2.
    + intros a b r [[=]|Hr]%elem_of_cons. destruct (Hlu _ _ _ Hr). rewrite !Ho by done. by eapply M.
Qed.

(** [steps nu g g']: values for [g] extend to values for [g']. *)
Definition carries nu g g' nu' : Prop := models F nu' (eg_log g') /\ (forall k, known g k -> nu' k = nu k) /\ (forall k, known g k -> known g' k).
Lemma carries_refl nu g : models F nu (eg_log g) -> carries nu g g nu.
Proof. unfold carries. auto. Qed.
Lemma carries_trans nu1 nu2 nu3 g1 g2 g3 : carries nu1 g1 g2 nu2 -> carries nu2 g2 g3 nu3 -> carries nu1 g1 g3 nu3.
Proof. intros (M1 & K1 & N1) (M2 & K2 & N2). unfold carries. split_and!; auto. intros k Hk. rewrite K2, K1; auto. Qed.
Lemma reach_reachable Q ex g : reach L A Q ex g -> reachable L A ex g.
Proof. by apply reach_mono. Qed.

Lemma apply_pat_models ex fuel p s g g' i nu : reachable L A ex g -> models F nu (eg_log g) ->
  apply_pat A (modify_n L A fuel) p s g = Ok (g', i) -> exists nu', carries nu g g' nu'.
Proof.
  intros R M E. unfold apply_pat in E. inv_res. destruct x as [g1 ids]. inv_res. clear H1. revert H0. generalize (@nil nat) as ids0.
  revert g nu R M. induction p as [|[o cs] p IH]; intros g nu R M ids0 E; cbn [apply_pat_loop] in E.
  - inv_res. exists nu. by apply carries_refl.
  - cbn [nop nch] in E. destruct o as [f|v].
    + inv_res. destruct x0 as [g1 k].
      destruct (api_add_step L A (fun _ => True) ex fuel x g g1 k ltac:(done) R H1) as (R1 & _ & _).
      destruct (add_models ex fuel x g g1 k nu R M H1) as (nu1 & M1 & K1).
      destruct (add_hook_free ex fuel x g g1 k R H1) as (_ & _ & _ & Hkn & _).
      apply (IH g1 nu1 R1 M1) in E as (nu2 & C2). exists nu2. eapply carries_trans; [|exact C2]. unfold carries. auto.
    + inv_res. by eapply IH.
Qed.
Lemma add_inst_models ex fuel p s g g' i nu : reachable L A ex g -> models F nu (eg_log g) ->
  add_instantiation_noncanonical A (modify_n L A fuel) p s g = Ok (g', i) -> exists nu', carries nu g g' nu'.
Proof.
  intros R M E. unfold add_instantiation_noncanonical in E. inv_res. destruct x as [g1 ids]. inv_res. clear H1. revert H0. generalize (@nil nat) as ids0.
  revert g nu R M. induction p as [|[o cs] p IH]; intros g nu R M ids0 E; cbn [add_inst_loop] in E.
  - inv_res. exists nu. by apply carries_refl.
  - cbn [nop nch] in E. destruct o as [f|v].
    + inv_res. destruct x0 as [g1 k].
      destruct (api_add_step L A (fun _ => True) ex fuel x g g1 k ltac:(done) R H1) as (R1 & _ & _).
      destruct (add_models ex fuel x g g1 k nu R M H1) as (nu1 & M1 & K1).
      destruct (add_hook_free ex fuel x g g1 k R H1) as (_ & _ & _ & Hkn & _).
      apply (IH g1 nu1 R1 M1) in E as (nu2 & C2). exists nu2. eapply carries_trans; [|exact C2]. unfold carries. auto.
    + inv_res. by eapply IH.
Qed.

(** Unions between ids of the same value, and rebuilding. *)
Lemma union_log_gen md a b r rule g g' v : (forall o g g', run_hook md o g = Ok g' -> g' = g) -> Inv g ->
  perform_union A md a b rule (add_log (EUnion a b r) g) = Ok (g', v) ->
  eg_log g' = EUnion a b r :: eg_log g /\ length (eg_uf g') = length (eg_uf g) /\ known g a /\ known g b.
Proof.
  intros Hmd I E. unfold perform_union in E. inv_res. destruct x as [g1 o]. inv_res. apply Hmd in H1 as ->.
  apply perform_union_core_spec in H0 as (Ha & Hb & Hs); [|apply I]. cbn in Ha, Hb. split_and!; [| |done|done].
  - by destruct Hs.
  - destruct Hs as [u x' _ (_ & Hl & _) _|]; cbn in *; done.
Qed.
Lemma hook_free_idle_hook fuel o g g' : run_hook (modify_n L A fuel) o g = Ok g' -> g' = g.
Proof. by apply hook_free_run_hook. Qed.
Lemma api_union_log ex fuel a b r g g' v : reachable L A ex g -> api_union A (modify_n L A fuel) a b r g = Ok (g', v) ->
  eg_log g' = EUnion a b r :: eg_log g /\ length (eg_uf g') = length (eg_uf g) /\ known g a /\ known g b.
Proof.
  intros R E. pose proof (reachable_Inv _ _ _ _ R) as I. unfold api_union, union, union_trusted in E. cbn [eg_explain add_log] in E.
  destruct (eg_explain g); (eapply union_log_gen; [apply hook_free_idle_hook|exact I|exact E]).
Qed.
Lemma union_models ex fuel a b r g g' v nu : reachable L A ex g -> models F nu (eg_log g) -> nu a = nu b ->
  api_union A (modify_n L A fuel) a b r g = Ok (g', v) -> carries nu g g' nu.
Proof.
  intros R M Hab E. apply (api_union_log ex) in E as (El & Hl & _ & _); [|done]. split_and!; [|done|].
  - rewrite El. split.
    + intros f cs i [[=]|Hi]%elem_of_cons. by apply M.
    + intros a' b' r' [[= -> -> ->]|Hi]%elem_of_cons; [done|by eapply M].
  - intros k. unfold known. by rewrite Hl.
Qed.
Lemma trusted_models ex fuel a b r g g' v nu : reachable L A ex g -> models F nu (eg_log g) -> nu a = nu b ->
  api_union_trusted A (modify_n L A fuel) a b r g = Ok (g', v) -> carries nu g g' nu.
Proof.
  intros R M Hab E. unfold api_union_trusted, union_trusted in E.
  apply union_log_gen in E as (El & Hl & _ & _); [|apply hook_free_idle_hook|by eapply reachable_Inv]. split_and!; [|done|].
  - rewrite El. split.
    + intros f cs i [[=]|Hi]%elem_of_cons. by apply M.
    + intros a' b' r' [[= -> -> ->]|Hi]%elem_of_cons; [done|by eapply M].
  - intros k. unfold known. by rewrite Hl.
Qed.
(** Rebuilding asserts nothing. *)
Definition quiet (l : lbl) : Prop := l = LPend \/ l = LAna \/ l = LRebuild.
Lemma quiet_prim l g g' : quiet l -> prim L A l g g' -> Inv g -> eg_log g' = eg_log g.
Proof.
  intros Hl Hp I. destruct Hp as [? g g' id o E|g|? ? g|a b r rule g g' o Hr E|c rest g g' o Ep E|id q g g' o Eq E
      |j d g g' r E|j d g g' E|j f g g' E|g Ep Eq]; try (by destruct Hl as [?|[?|?]]).
  - unfold pending_core in E. inv_res. cbn in H0.
    destruct (canon_mut_spec (eg_uf g) x (iv_wf _ I)) as (u & Eu & He).
    { apply Forall_forall. intros k Hk. pose proof (ci_ch _ _ _ _ _ _ _ (iv_c _ I) _ _ _ H0 Hk).
      pose proof (lookup_lt_Some _ _ _ H0). rewrite <- (iv_len _ I). lia. }
    cbn in E. rewrite Eu in E. cbn in E. destruct (eg_memo g !! _); inv_res; [|done].
    apply perform_union_core_spec in E as (_ & _ & Hs); [|apply He]. by destruct Hs.
  - unfold analysis_core, eg_find_mut in E. inv_res. cbn in *. destruct (uf_find_mut _ _). inv_res.
    destruct (an_merge A _ _) as [? [[] ?]]; inv_res; done.
  - unfold rebuild_classes. destruct (foldl _ _ _) as [[? ?] ?]. done.
Qed.
Lemma quiet_log g g' : prims L A quiet g g' -> Inv g -> Inv g' /\ eg_log g' = eg_log g /\ eg_nodes g' = eg_nodes g.
Proof.
  induction 1 as [g|g1 g2 g3 (l & Hl & Hp) _ IH]; intros I; [done|].
  assert (plain l) as Hpl by (by destruct Hl as [->|[->| ->]]).
  assert (I2 : Inv g2) by (eapply Inv_prim; eauto).
  destruct (IH I2) as (I3 & E3 & N3). split_and!; [done| |].
  - rewrite E3. by eapply quiet_prim.
  - rewrite N3. by eapply prim_nodes.
Qed.
Lemma rebuild_quiet ex fuel g g' n : reachable L A ex g -> rebuild L A fuel (modify_n L A fuel) g = Ok (g', n) ->
  eg_log g' = eg_log g /\ eg_nodes g' = eg_nodes g /\ length (eg_uf g') = length (eg_uf g).
Proof.
  intros R E. pose proof (reachable_Inv _ _ _ _ R) as I.
  apply (rebuild_prims L A quiet) in E; [|intros id g1 g2 Em; apply hook_free_md in Em as ->; [apply rtc_refl|done]|by left|by right; left|by right; right].
  apply quiet_log in E as (I' & El & En); [|done]. split_and!; [done|done|]. by rewrite <- (iv_len _ I), <- (iv_len _ I'), En.
Qed.
Lemma rebuild_models ex fuel g g' n nu : reachable L A ex g -> models F nu (eg_log g) ->
  rebuild L A fuel (modify_n L A fuel) g = Ok (g', n) -> carries nu g g' nu.
Proof.
  intros R M E. apply (rebuild_quiet ex) in E as (El & _ & Hl); [|done]. unfold carries, known. by rewrite El, Hl.
Qed.

(** ** Appliers *)
(** Values of variables given by ids. *)
Notation vals := value_of.
Lemma vals_get nu s v i : s v = Some i -> vals nu s v = nu i.
Proof. unfold value_of. by intros ->. Qed.
Lemma at_id_eval nu ex g s t c : reachable L A ex g -> models F nu (eg_log g) -> at_id g s t c -> nu c = peval F (vals nu s) t.
Proof.
  intros R M Ha. rewrite <- (models_find nu ex g c R M). eapply NRep_eval; [exact R|exact M| |exact Ha]. intros. by apply vals_get.
Qed.
Lemma joined_eval nu ex g s t1 t2 : reachable L A ex g -> models F nu (eg_log g) -> joined g s t1 t2 ->
  peval F (vals nu s) t1 = peval F (vals nu s) t2.
Proof.
  intros R M (i1 & i2 & H1 & H2 & E). rewrite <- (at_id_eval nu ex g s t1 i1), <- (at_id_eval nu ex g s t2 i2); auto.
  by eapply models_same.
Qed.

(** Only the values of occurring variables matter. *)
Lemma peval_agree th th' t : (forall v, occurs v t -> th v = th' v) -> peval F th t = peval F th' t.
Proof.
  induction t as [[f|v] ts IH] using term_sind; intros Ho; cbn.
  - f_equal. apply fmap_agree. intros t Ht. rewrite Forall_forall in IH. apply IH; [done|]. intros v Hv. apply Ho. by econstructor.
  - apply Ho. constructor.
Qed.
End alg.
