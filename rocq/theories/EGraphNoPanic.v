(** Clients that pass only known ids never see a panic. *)
From Verif Require Import Base UnionFind EGraphModel EGraphSteps EGraphInv EGraphPres EGraphRuns Spec EGraphMain
  EGraphReach EGraphSafe.

Section nopanic.
Context {Op D : Type} `{Countable Op}.
Notation node := (node Op).
Notation egraph := (egraph Op D).
Notation eclass := (eclass Op D).
Notation prog := (prog Op D).
Context (L : lang Op) (A : analysis Op D).

Definition okP {X} (r : res X) (P : X -> Prop) : Prop :=
  match r with Ok a => P a | Panic => False | OutOfFuel => True end.
Lemma okP_bind {X Y} (r : res X) (k : X -> res Y) P Q :
  okP r P -> (forall a, P a -> okP (k a) Q) -> okP (r ≫= k) Q.
Proof. destruct r; cbn; auto. Qed.
Lemma okP_impl {X} (r : res X) (P Q : X -> Prop) : okP r P -> (forall a, P a -> Q a) -> okP r Q.
Proof. destruct r; cbn; auto. Qed.
Lemma okP_eq {X} (r : res X) P : okP r P -> okP r (fun a => P a /\ r = Ok a).
Proof. destruct r; cbn; auto. Qed.

Record good (g : egraph) : Prop := { go_inv : Inv g; go_x : XInv g }.
Definition size (g : egraph) : nat := length (eg_uf g).
(** Reached from [g], still good. *)
Definition next (g g' : egraph) : Prop := good g' /\ brun L A any g g'.

Lemma brun_size P (g g' : egraph) : Inv g -> brun L A P g g' -> size g <= size g'.
Proof.
  intros I R. pose proof (brun_Inv _ _ _ _ _ R I) as I'. unfold size. rewrite <- (iv_len _ I), <- (iv_len _ I').
  destruct (gr_nodes _ _ (grows_brun _ _ _ _ _ R I)) as (l & ->). rewrite app_length. lia.
Qed.
Lemma next_good g g' : good g -> brun L A any g g' -> next g g'.
Proof. intros [I X] R. split; [|done]. split; [by eapply brun_Inv|by eapply XInv_brun]. Qed.
Lemma next_trans g1 g2 g3 : next g1 g2 -> next g2 g3 -> next g1 g3.
Proof. intros [G1 R1] [G2 R2]. split; [done|]. by eapply br_trans. Qed.
Lemma next_refl g : good g -> next g g.
Proof. intros G. split; [done|apply br_refl]. Qed.
Lemma next_size g g' : good g -> next g g' -> size g <= size g'.
Proof. intros [I _] [_ R]. by eapply brun_size. Qed.

Definition md_good (md : nat -> egraph -> res egraph) : Prop :=
  forall id g, good g -> id < size g -> okP (md id g) (next g).

Lemma class_lt (g : egraph) i : Inv g -> is_Some (eg_classes g !! i) -> i < size g.
Proof. intros I Hi. apply (ci_cls _ _ _ _ _ _ _ (iv_c _ I)) in Hi as [? _]. unfold size. by rewrite <- (iv_len _ I). Qed.

Lemma union_core_hook a b rule (g g' : egraph) h :
  uf_wf (eg_uf g) -> perform_union_core A a b rule g = Ok (g', Some h) -> is_Some (eg_classes g' !! h).
Proof.
  intros Hw E. apply perform_union_core_spec in E as (_ & _ & Hs); auto.
  inversion Hs; subst. cbn. rewrite lookup_insert. eauto.
Qed.

Lemma run_hook_good md o (g : egraph) :
  md_good md -> good g -> (forall h, o = Some h -> h < size g) -> okP (run_hook md o g) (next g).
Proof. intros Hm G Ho. destruct o as [h|]; cbn; [by apply Hm; auto|by apply next_refl]. Qed.

Lemma brun_prim1 l (g g' : egraph) : plain l -> prim L A l g g' -> brun L A any g g'.
Proof. intros. by eapply br_prim. Qed.

Lemma perform_union_good md a b r rule (g : egraph) :
  md_good md -> good g -> a < size g -> b < size g ->
  rule = Some (JRule r) \/ (rule = None /\ eg_explain g = None) ->
  okP (perform_union A md a b rule (add_log (EUnion a b r) g)) (fun '(g', _) => next g g').
Proof.
  intros Hm [I X] Ha Hb Hr. unfold size in *. rewrite <- (iv_len _ I) in Ha, Hb.
  destruct (api_union_core_safe A a b r rule g I X Ha Hb Hr) as (g1 & o & E & X1).
  unfold perform_union. rewrite E. cbn [mbind res_bind].
  assert (R : brun L A any g g1).
  { eapply (brun_prim1 LUnion); [done|]. econstructor; [|exact E]. destruct Hr as [->|[-> ?]]; auto. }
  assert (G1 : good g1) by (apply (next_good g g1); [by split|done]).
  eapply okP_bind; [apply run_hook_good; [done|exact G1|]|].
  - intros h ->. apply class_lt; [apply G1|]. eapply union_core_hook; [|exact E]. apply I.
  - intros g2 N2. cbn. eapply next_trans; [|exact N2]. by split.
Qed.

Lemma api_add_good md n (g : egraph) :
  md_good md -> good g -> (forall c, c ∈ nch n -> c < size g) ->
  okP (api_add A md n g) (fun '(g', i) => next g g' /\ i < size g').
Proof.
  intros Hm [I X] Hc.
  destruct (add_core_safe A n g I X) as (g1 & id & o & E & X1).
  { apply Forall_forall. intros c Hi. rewrite (iv_len _ I). by apply Hc. }
  pose proof (Inv_add _ _ _ _ _ _ I E) as I1.
  assert (Hid : id < size g1 /\ forall h, o = Some h -> h = id).
  { pose proof E as E'. apply add_core_node in E' as [(m & Hm' & _) _]; [|done]. split.
    - unfold size. rewrite <- (iv_len _ I1). by eapply lookup_lt_Some.
    - apply add_core_spec in E as [_ Hs]; [|apply I]. intros h ->. by inversion Hs. }
  destruct Hid as [Hid Ho].
  assert (Hr : okP (api_add A md n g) (fun '(g', i) => size g1 <= size g' /\ i = id)).
  { unfold api_add, add_uncanonical. rewrite E. cbn [mbind res_bind]. destruct o as [h|]; cbn; [|done].
    rewrite (Ho h) by done. specialize (Hm id g1 (Build_good _ I1 X1) Hid).
    destruct (md id g1) as [g2| |]; cbn in *; [|done|done]. split; [|done].
    apply (next_size g1 g2); [by split|done]. }
  assert (Hrun : forall g' i, api_add A md n g = Ok (g', i) -> brun L A any g g').
  { intros g' i Er. unfold api_add, add_uncanonical in Er. rewrite E in Er. cbn [mbind res_bind] in Er.
    destruct o as [h|]; [|inv_res; by eapply br_hit].
    specialize (Hm id g1 (Build_good _ I1 X1) Hid). rewrite (Ho h) in * by done.
    destruct (md id g1) as [g2| |] eqn:Eh; cbn in *; [|done|done]. inv_res.
    eapply br_new; [done|exact E|]. apply Hm. }
  destruct (api_add A md n g) as [[g' i]| |]; cbn in *; auto.
  destruct Hr as [Hs ->]. split; [|lia]. apply next_good; [by split|]. by eapply Hrun.
Qed.

Lemma drain_pending_good fuel md n (g : egraph) :
  md_good md -> good g -> okP (drain_pending A fuel md n g) (fun '(g', _) => next g g').
Proof.
  intros Hm. revert n g. induction fuel as [|fuel IH]; intros n g G; cbn [drain_pending];
    destruct (eg_pending g) as [|c rest] eqn:Ep; cbn; try (by apply next_refl); [done|].
  destruct (pending_core_safe A c rest g) as (g1 & o & E & X1); [apply G..|done|]. rewrite E. cbn [mbind res_bind].
  assert (R : brun L A any g g1) by (eapply (brun_prim1 LPend); [done|]; econstructor; eauto).
  pose proof (next_good _ _ G R) as N1.
  eapply okP_bind; [apply run_hook_good; [done|apply N1|]|].
  - intros h ->. apply class_lt; [apply N1|]. unfold pending_core in E. inv_res.
    destruct (canon_mut_spec (eg_uf g) x) as (u & Eu & He); [apply G| |].
    { cbn in *. apply Forall_forall. intros k Hk. pose proof (ci_ch _ _ _ _ _ _ _ (iv_c _ (go_inv _ G)) _ _ _ H0 Hk).
      apply lookup_lt_Some in H0. rewrite <- (iv_len _ (go_inv _ G)). lia. }
    cbn in E. rewrite Eu in E. cbn in E. destruct (eg_memo g !! _); [|done].
    eapply union_core_hook; [|exact E]. apply He.
  - intros g2 N2. eapply okP_impl; [apply IH; apply N2|]. intros [g3 n3] N3.
    eapply next_trans; [exact N1|]. by eapply next_trans.
Qed.

Lemma drain_analysis_good fuel md (g : egraph) :
  md_good md -> good g -> okP (drain_analysis A fuel md g) (next g).
Proof.
  intros Hm. revert g. induction fuel as [|fuel IH]; intros g G; cbn [drain_analysis];
    destruct (uq_pop (eg_apending g)) as [[id q]|] eqn:Ep; cbn; try (by apply next_refl); [done|].
  destruct (analysis_core_safe A id q g) as (g1 & o & E & X1); [apply G..|done|]. rewrite E. cbn [mbind res_bind].
  assert (R : brun L A any g g1) by (eapply (brun_prim1 LAna); [done|]; econstructor; eauto).
  pose proof (next_good _ _ G R) as N1.
  eapply okP_bind; [apply run_hook_good; [done|apply N1|]|].
  - intros h ->. apply class_lt; [apply N1|]. unfold analysis_core, eg_find_mut in E. inv_res.
    cbn in E. destruct (uf_find_mut (eg_uf g) id) as [u r]. inv_res. cbn in *.
    destruct (an_merge A _ _) as [d [[] ?]]; inv_res; [|done]. cbn. rewrite lookup_insert. eauto.
  - intros g2 N2. eapply okP_impl; [apply IH; apply N2|]. intros g3 N3.
    eapply next_trans; [exact N1|]. by eapply next_trans.
Qed.

Lemma process_unions_good fuel inner md n (g : egraph) :
  md_good md -> good g ->
  okP (process_unions A fuel inner md n g) (fun '(g', _) => next g g' /\ eg_pending g' = [] /\ uq_queue (eg_apending g') = []).
Proof.
  intros Hm G. apply okP_impl with (P := fun '(g', n') => next g g' /\ process_unions A fuel inner md n g = Ok (g', n')).
  - assert (Hgo : okP (process_unions A fuel inner md n g) (fun '(g', _) => next g g')).
    { revert n g G. induction fuel as [|fuel IH]; intros n g G; cbn [process_unions].
      - destruct (_ && _); cbn; [by apply next_refl|done].
      - destruct (_ && _); cbn; [by apply next_refl|].
        eapply okP_bind; [by apply drain_pending_good|]. intros [g1 n1] N1.
        eapply okP_bind; [apply drain_analysis_good; [done|apply N1]|]. intros g2 N2.
        eapply okP_impl; [apply IH; apply N2|]. intros [g3 n3] N3.
        eapply next_trans; [exact N1|]. by eapply next_trans. }
    destruct (process_unions A fuel inner md n g) as [[g' n']| |]; cbn in *; auto.
  - intros [g' n'] [N E]. split; [done|].
    clear -E. revert n g E. induction fuel as [|fuel IH]; intros n g; cbn [process_unions]; intros E.
    + destruct (eg_pending g) eqn:E1; cbn in E; [|done]. unfold uq_is_empty in E.
      destruct (uq_queue (eg_apending g)) eqn:E2; inv_res. done.
    + destruct ((match eg_pending g with [] => true | _ => false end)
              && uq_is_empty (eg_apending g)) eqn:Eb.
      * inv_res. apply andb_prop in Eb as [E1 E2]. unfold uq_is_empty in E2.
        destruct (eg_pending g') eqn:?; [|done]. by destruct (uq_queue (eg_apending g')) eqn:?.
      * inv_res. destruct x as [g1 n1]. inv_res. by apply IH in E.
Qed.

Lemma rebuild_good fuel md (g : egraph) :
  md_good md -> good g -> okP (rebuild L A fuel md g) (fun '(g', _) => next g g').
Proof.
  intros Hm G. unfold rebuild. eapply okP_bind; [by apply process_unions_good|].
  intros [g1 n1] (N1 & E1 & E2). cbn. eapply next_trans; [exact N1|]. apply next_good; [apply N1|].
  eapply (brun_prim1 LRebuild); [done|]. by constructor.
Qed.

Lemma good_ids g : good g -> ids_known g.
Proof.
  intros [I X]. unfold known. split.
  - intros r c Hc. split_and!.
    + apply class_lt; [done|]. eauto.
    + by apply (ci_cid _ _ _ _ _ _ _ (iv_c _ I)).
    + apply (ci_cls _ _ _ _ _ _ _ (iv_c _ I)). eauto.
  - intros r c n i Hc Hn Hi. unfold known. rewrite <- (iv_len _ I). by eapply class_children_lt.
  - intros i Hi. split; [apply uf_find_lt; [apply I|done]|]. apply class_at; [done|]. by rewrite (iv_len _ I).
Qed.

Lemma uses_known_mono N M (p : prog) : N <= M -> uses_known N p -> uses_known M p.
Proof.
  revert N M. induction p as [|k IH|n k IH|a b r k IH|a b r k IH|i d k IH|i d k IH|i f k IH|k IH];
    cbn [uses_known]; intros N M HNM.
  - done.
  - intros Hk g Hg Hs. apply Hk; [done|lia].
  - intros [Hc Hk]. split; [intros c Hi; specialize (Hc c Hi); lia|]. intros. apply Hk; lia.
  - intros (Ha & Hb & Hk). split_and!; [lia..|]. intros. apply Hk; lia.
  - intros (Ha & Hb & Hk). split_and!; [lia..|]. intros. apply Hk; lia.
  - intros (Ha & Hk). split_and!; [lia..|]. intros. apply Hk; lia.
  - intros (Ha & Hk). split_and!; [lia..|]. eapply IH; eauto.
  - intros (Ha & Hk). split_and!; [lia..|]. eapply IH; eauto.
  - intros Hk ???. apply Hk; lia.
Qed.

Lemma run_prog_good fuel md p (g : egraph) :
  md_good md -> good g -> uses_known (size g) p -> okP (run_prog L A fuel md p g) (next g).
Proof.
  intros Hm. revert g. induction p as [|k IH|n k IH|a b r k IH|a b r k IH|i d k IH|i d k IH|i f k IH|k IH];
    intros g G U; cbn [run_prog uses_known] in *.
  - by apply next_refl.
  - apply IH; [done|]. apply U; [by apply good_ids|done].
  - destruct U as [Hc Hk]. eapply okP_bind; [by apply api_add_good|]. intros [g1 i] [N1 Hi].
    eapply okP_impl; [apply IH; [apply N1|]|intros; by eapply next_trans].
    apply Hk; [by apply next_size|done].
  - destruct U as (Ha & Hb & Hk). eapply okP_bind with (P := fun '(g', _) => next g g').
    + unfold api_union, union, union_trusted. cbn [eg_explain add_log].
      destruct (eg_explain g) eqn:Ex; apply perform_union_good; auto.
    + intros [g1 v] N1. eapply okP_impl; [apply IH; [apply N1|]|intros; by eapply next_trans].
      apply Hk. by apply next_size.
  - destruct U as (Ha & Hb & Hk). eapply okP_bind with (P := fun '(g', _) => next g g').
    + unfold api_union_trusted, union_trusted. apply perform_union_good; auto.
    + intros [g1 v] N1. eapply okP_impl; [apply IH; [apply N1|]|intros; by eapply next_trans].
      apply Hk. by apply next_size.
  - destruct U as (Hi & Hk). eapply okP_bind with (P := next g).
    + unfold set_analysis_data.
      destruct (set_data_core_safe i d g) as (g1 & r & E & X1 & ->); [apply G..|unfold size in Hi; rewrite (iv_len _ (go_inv _ G)); done|].
      rewrite E. cbn [mbind res_bind].
      assert (R : brun L A any g g1) by (eapply (brun_prim1 LSetData); [done|]; econstructor; eauto).
      pose proof (next_good _ _ G R) as N1. eapply okP_impl; [apply Hm; [apply N1|]|intros; by eapply next_trans].
      eapply Nat.lt_le_trans; [|by apply next_size]. apply uf_find_lt; [apply G|done].
    + intros g1 N1. eapply okP_impl; [apply IH; [apply N1|]|intros; by eapply next_trans]. apply Hk. by apply next_size.
  - destruct U as (Hi & Hk).
    destruct (poke_data_safe i d g) as (g1 & E & X1); [apply G..|unfold size in Hi; rewrite (iv_len _ (go_inv _ G)); done|].
    rewrite E. cbn [mbind res_bind].
    assert (R : brun L A any g g1) by (eapply (brun_prim1 LPoke); [done|]; econstructor; eauto).
    pose proof (next_good _ _ G R) as N1. eapply okP_impl; [apply IH; [apply N1|]|intros; by eapply next_trans].
    eapply uses_known_mono; [|done]. by apply next_size.
  - destruct U as (Hi & Hk).
    destruct (retain_nodes_safe i f g) as (g1 & E & X1); [apply G..|unfold size in Hi; rewrite (iv_len _ (go_inv _ G)); done|].
    rewrite E. cbn [mbind res_bind].
    assert (R : brun L A any g g1) by (eapply (brun_prim1 LRetain); [done|]; econstructor; eauto).
    pose proof (next_good _ _ G R) as N1. eapply okP_impl; [apply IH; [apply N1|]|intros; by eapply next_trans].
    eapply uses_known_mono; [|done]. by apply next_size.
  - eapply okP_bind; [by apply rebuild_good|]. intros [g1 n] N1.
    eapply okP_impl; [apply IH; [apply N1|]|intros; by eapply next_trans]. apply U. by apply next_size.
Qed.

Lemma modify_n_good fuel :
  (forall id N, id < N -> uses_known N (an_modify A id)) -> md_good (modify_n L A fuel).
Proof.
  intros Hh. induction fuel as [|fuel IH]; intros id g G Hi; cbn [modify_n]; [done|].
  apply run_prog_good; auto.
Qed.

Lemma reachable_good ex g : reachable L A ex g -> good g.
Proof.
  intros R%reachable_brun. apply (next_good (eg_new ex) g); [|done]. split; [apply Inv_new|apply XInv_new].
Qed.

Lemma no_panic fuel ex p (g : egraph) :
  reachable L A ex g -> (forall id N, id < N -> uses_known N (an_modify A id)) ->
  uses_known (length (eg_uf g)) p -> run_prog L A fuel (modify_n L A fuel) p g <> Panic.
Proof.
  intros R Hh U E. pose proof (run_prog_good fuel _ p g (modify_n_good fuel Hh) (reachable_good _ _ R) U) as Hok.
  by rewrite E in Hok.
Qed.
End nopanic.
