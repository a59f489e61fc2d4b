(** [egraph_union] imports the equalities of the other e-graph. *)
From Verif Require Import Base UnionFind EGraphModel EGraphSteps EGraphInv EGraphPres EGraphRuns Spec EGraphMain EGraphReach EGraphOps EGraphSafe
  EGraphNoPanic EGraphTerm EGraphDebug ExplainForest Terms RecExprModel RecExprProofs ExprModel PatSpec ExprProofs ExprSafe MachineModel MatchSpec RewriteModel RewriteProofs
  RuleSafe AlgSpec AlgProofs ExplainModel ExplainSpec ExplainPath ExplainProofs ExplainMain ExplainModes CopyProofs Still TotalOps UtilModel UnionEqualities.

Section union.
Context {Op D : Type} `{Countable Op} (L : lang Op) (A : analysis Op D).
Notation egraph := (egraph Op D).
Notation node := (node Op).
Notation pnode := (EGraphModel.node (pop Op)).
Implicit Types (g : egraph) (t u : term Op).

Notation emb := (@fmap list list_fmap node pnode embed_node).
(** without given variables, [id_to_pattern] is [id_to_expr] *)
Definition lift_st (s : subst) (r : res (list node * gmap nat nat * nat)) : res (list pnode * subst * gmap nat nat * nat) :=
  match r with Ok (e, ca, k) => Ok (emb e, s, ca, k) | Panic => Panic | OutOfFuel => OutOfFuel end.
Lemma rx_add_embed (e : list node) (f : Op) cs : rx_add (emb e) (Node (POp f) cs) = match rx_add e (Node f cs) with Ok (e, k) => Ok (emb e, k) | Panic => Panic | OutOfFuel => OutOfFuel end.
Proof.
  unfold rx_add. replace (rx_add_check (emb e) (Node (POp f) cs)) with (rx_add_check e (Node f cs)).
  - destruct (rx_add_check _ _); [|done]. cbn [assert mbind res_bind]. by rewrite fmap_app, fmap_length.
  - unfold rx_add_check, rx_root. cbn [nch]. by destruct e as [|n e]; [|cbn; rewrite fmap_length].
Qed.
Lemma id_to_pattern_loop_empty vname fuel (ns : list node) i e s ca :
  id_to_pattern_loop vname fuel ns ∅ i (emb e, s, ca) = lift_st s (id_to_expr_loop fuel ns i (e, ca)).
Proof.
  revert i e ca. induction fuel as [|fuel IH]; intros i e ca; [done|]. cbn [id_to_pattern_loop id_to_expr_loop]. cbn [snd].
  destruct (ca !! i) as [k|] eqn:Ek; [done|]. rewrite lookup_empty. destruct (ns !! i) as [[f cs]|]; [|done]. cbn [expect mbind res_bind nch nop].
  match goal with |- context[?go cs (emb e, s, ca)] => set (gof := go) end.
  match goal with |- context[?go cs (e, ca)] => set (gof' := go) end.
  assert (Hgo : forall cs e ca, gof cs (emb e, s, ca) = match gof' cs (e, ca) with Ok (e, ca, ks) => Ok (emb e, s, ca, ks) | Panic => Panic | OutOfFuel => OutOfFuel end).
  { clear -IH. induction cs as [|c cs IHc]; intros e ca; [done|].
    change (gof (c :: cs) (emb e, s, ca)) with
      ('(st, k) ← id_to_pattern_loop vname fuel ns ∅ c (emb e, s, ca); '(st, ks) ← gof cs st; Ok (st, k :: ks)).
    change (gof' (c :: cs) (e, ca)) with ('(st, k) ← id_to_expr_loop fuel ns c (e, ca); '(st, ks) ← gof' cs st; Ok (st, k :: ks)).
    rewrite IH. destruct (id_to_expr_loop fuel ns c (e, ca)) as [[[e1 ca1] k]| |]; [|done..]. cbn [lift_st mbind res_bind].
    rewrite IHc. by destruct (gof' cs (e1, ca1)) as [[[e2 ca2] ks]| |]. }
  rewrite Hgo. destruct (gof' cs (e, ca)) as [[[e1 ca1] ks]| |]; [|done..]. cbn [mbind res_bind].
  rewrite rx_add_embed. destruct (rx_add e1 (Node f ks)) as [[e2 k]| |]; done.
Qed.
Lemma id_to_pattern_empty vname i g : id_to_pattern vname i ∅ g = match id_to_expr i g with Ok e => Ok (emb e, []) | Panic => Panic | OutOfFuel => OutOfFuel end.
Proof.
  unfold id_to_pattern, id_to_expr. change (@nil pnode) with (emb []). rewrite id_to_pattern_loop_empty.
  unfold lift_st. by destruct (id_to_expr_loop _ _ _ _) as [[[e ca] k]| |].
Qed.
Lemma add_embedded md (e : list node) g : add_instantiation_noncanonical A md (emb e) [] g = add_expr_uncanonical A md e g.
Proof. unfold add_instantiation_noncanonical, add_expr_uncanonical. by rewrite (add_expr_loop_inst A md e []). Qed.

(** ** One imported union *)
Lemma trusted_log ex fuel a b r g g' v : hook_free A -> reachable L A ex g -> api_union_trusted A (modify_n L A fuel) a b r g = Ok (g', v) ->
  eg_log g' = EUnion a b r :: eg_log g /\ length (eg_uf g') = length (eg_uf g) /\ known g a /\ known g b.
Proof.
  intros Hh R E. pose proof (reachable_Inv _ _ _ _ R) as I. unfold api_union_trusted, union_trusted in E.
  eapply union_log_gen; [by apply hook_free_idle_hook|exact I|exact E].
Qed.
Lemma trusted_logged ex fuel a b r g g' v : reachable L A ex g -> api_union_trusted A (modify_n L A fuel) a b r g = Ok (g', v) ->
  EUnion a b r ∈ eg_log g' /\ known g a /\ known g b.
Proof.
  intros R E. pose proof (reachable_Inv _ _ _ _ R) as I. unfold api_union_trusted, union_trusted, perform_union in E. inv_res. destruct x as [g1 o]. inv_res.
  pose proof (Inv_union _ _ _ _ _ _ _ _ I H0) as I1.
  pose proof (grows_brun _ _ _ _ _ (hook_brun _ _ _ _ _ _ H1) I1) as [_ _ (h & Hlog)].
  apply perform_union_core_spec in H0 as (Ha & Hb & Hs); [|apply I]. split; [|done].
  rewrite Hlog. apply elem_of_app. right. destruct Hs; cbn; left.
Qed.

Lemma reach_tree ex g i : reachable L A ex g -> known g i -> exists t, Tree (eg_nodes g) i t.
Proof. intros R Hi. apply (known_nodes _ _ _ _ _ R) in Hi. by apply dag_Tree; [eapply reach_dag|]. Qed.
Lemma import_one vname ex fuel other l r why us g g' : reachable L A true other -> known other l -> known other r -> reachable L A ex g ->
  import_unions A (modify_n L A fuel) vname other ((l, r, why) :: us) g = Ok g' ->
  exists g1 t u, import_unions A (modify_n L A fuel) vname other us g1 = Ok g' /\ reachable L A ex g1 /\ grows g g1 /\
    Tree (eg_nodes other) l t /\ Tree (eg_nodes other) r u /\ asserted (eg_log g1) why t u /\
    (hook_free A -> forall Rl, unions_in Rl g -> teq Rl t u -> unions_in Rl g1).
Proof.
  intros Ro Kl Kr R E. cbn [import_unions] in E. rewrite !id_to_pattern_empty in E.
  destruct (reach_tree _ _ _ Ro Kl) as [t Ht]. destruct (reach_tree _ _ _ Ro Kr) as [u Hu].
  destruct (id_to_expr_ok L A true other l Ro Kl) as (e1 & E1 & _ & T1). destruct (id_to_expr_ok L A true other r Ro Kr) as (e2 & E2 & _ & T2).
  rewrite E1, E2 in E. cbn [mbind res_bind] in E. specialize (T1 t Ht). specialize (T2 u Hu).
  destruct (union_instantiations _ _ _ _ _ _ _) as [[g1 v]| |] eqn:Eu; [|done|done]. cbn [mbind res_bind] in E.
  unfold union_instantiations in Eu. rewrite !add_embedded in Eu.
  destruct (add_expr_uncanonical A _ e1 g) as [[ga a]| |] eqn:Ea; [|done|done]. cbn [mbind res_bind] in Eu. rewrite add_embedded in Eu.
  destruct (add_expr_uncanonical A _ e2 ga) as [[gb b]| |] eqn:Eb; [|done|done]. cbn [mbind res_bind] in Eu.
  destruct (api_union_trusted A _ a b why gb) as [[gc did]| |] eqn:Ec; [|done|done]. cbn in Eu. injection Eu as -> _.
  destruct (add_expr_added L A ex fuel e1 t g ga a R T1 Ea) as (R1 & G1 & A1).
  destruct (add_expr_added L A ex fuel e2 u ga gb b R1 T2 Eb) as (R2 & G2 & A2).
  destruct (trusted_step L A (fun _ => True) ex fuel a b why gb g1 did ltac:(done) R2 Ec) as (R3 & G3 & _).
  destruct (trusted_logged ex fuel a b why gb g1 did R2 Ec) as (Hlog & _).
  pose proof (added_grows _ _ _ _ G2 A1) as A1'.
  exists g1, t, u. split_and!; auto.
  - eapply grows_trans; [exact G1|]. by eapply grows_trans.
  - exists a, b. split_and!; [done|by eapply added_grows..].
  - intros Hh Rl HU He.
    pose proof (add_expr_unions L A Hh Rl ex fuel e1 t g ga a R T1 HU Ea) as HU1.
    pose proof (add_expr_unions L A Hh Rl ex fuel e2 u ga gb b R1 T2 HU1 Eb) as HU2.
    destruct (trusted_log ex fuel a b why gb g1 did Hh R2 Ec) as (El & Hl & _).
    assert (En : eg_nodes g1 = eg_nodes gb).
    { pose proof (gr_nodes _ _ G3) as (l' & Hn). pose proof (iv_len _ (reachable_Inv _ _ _ _ R2)). pose proof (iv_len _ (reachable_Inv _ _ _ _ R3)).
      rewrite Hn in *. rewrite app_length in *. destruct l'; [by rewrite app_nil_r|]. cbn in *. lia. }
    intros a' b' r' v1 w1 Hab Hv Hw. rewrite En in *. rewrite El in Hab. apply elem_of_cons in Hab as [[= -> -> ->]|Hab]; [|by eapply HU2].
    eapply teq_trans; [eapply teq_sym, (added_teq L A Rl ex gb a t R2 HU2 A1'); exact Hv|].
    eapply teq_trans; [exact He|]. by eapply (added_teq L A Rl ex gb b u R2 HU2 A2).
Qed.

Lemma import_all vname ex fuel other us : reachable L A true other -> (forall l r why, (l, r, why) ∈ us -> known other l /\ known other r) ->
  forall g g', reachable L A ex g -> import_unions A (modify_n L A fuel) vname other us g = Ok g' ->
  reachable L A ex g' /\ grows g g' /\
  (forall l r why t u, (l, r, why) ∈ us -> Tree (eg_nodes other) l t -> Tree (eg_nodes other) r u -> asserted (eg_log g') why t u) /\
  (hook_free A -> forall Rl, unions_in Rl g -> (forall l r why t u, (l, r, why) ∈ us -> Tree (eg_nodes other) l t -> Tree (eg_nodes other) r u -> teq Rl t u) -> unions_in Rl g').
Proof.
  intros Ro. induction us as [|[[l r] why] us IH]; intros Hk g g' R E.
  { cbn in E. injection E as <-. split_and!; [done|apply grows_refl; by eapply reachable_Inv| |done]. intros l r why t u Hin. by apply elem_of_nil in Hin. }
  destruct (Hk l r why) as [Kl Kr]; [left|].
  destruct (import_one _ _ _ _ _ _ _ _ _ _ Ro Kl Kr R E) as (g1 & t & u & E1 & R1 & G1 & Ht & Hu & Has & HU1).
  destruct (IH ltac:(intros; eapply Hk; by right) g1 g' R1 E1) as (R2 & G2 & Has2 & HU2).
  split_and!; [done|by eapply grows_trans| |].
  - intros l' r' w' t' u' [[= -> -> ->]|Hin]%elem_of_cons Ht' Hu'; [|by eapply Has2].
    rewrite (TreeOf_fun _ _ _ _ Ht' Ht), (TreeOf_fun _ _ _ _ Hu' Hu). eapply asserted_mono; [|exact Has]. destruct G2 as [_ _ (h & ->)]. set_solver.
  - intros Hh Rl HU Hall. apply HU2; [done| |]. 
    + apply HU1; [done|done|]. eapply (Hall l r why); [left|done|done].
    + intros l' r' w' t' u' Hin. eapply (Hall l' r' w'). by right.
Qed.

(** ** The whole operation *)
Lemma ue_known ex g x l r why : reachable L A ex g -> eg_explain g = Some x -> (l, r, why) ∈ union_equalities x -> known g l /\ known g r.
Proof.
  intros R Hx Hin. apply (reach_ue_sound L A ex g x l r why R Hx) in Hin. destruct (log_known L A ex g R) as [_ Hk]. by eapply Hk.
Qed.
Lemma asserted_ue other x r t u : reachable L A true other -> eg_explain other = Some x -> asserted (eg_log other) r t u ->
  t = u \/ exists l r' why, Tree (eg_nodes other) l t /\ Tree (eg_nodes other) r' u /\ ((l, r', why) ∈ union_equalities x \/ (r', l, why) ∈ union_equalities x).
Proof.
  intros R Hx (a & b & Hab & Ha & Hb). pose proof (proj1 (AddedAs_Tree L A other a t R) Ha) as Ta. pose proof (proj1 (AddedAs_Tree L A other b u R) Hb) as Tb.
  destruct (decide (a = b)) as [->|Hne]; [left; by eapply TreeOf_fun|]. right.
  destruct (reach_Cov L A true other R x Hx) as [Hc _]. destruct (Hc a b r Hab Hne) as (why & Hin). exists a, b, why. auto.
Qed.
Lemma union_imports vname ex fuel other g g' : reachable L A true other -> reachable L A ex g ->
  egraph_union L A (modify_n L A fuel) vname fuel other g = Ok g' ->
  reachable L A ex g' /\ grows g g' /\ eg_clean g' = true /\
  (forall r t u, asserted (eg_log other) r t u -> t = u \/ exists r', asserted (eg_log g') r' t u \/ asserted (eg_log g') r' u t) /\
  (hook_free A -> unions_in (fun r t u => asserted (eg_log g) r t u \/ asserted (eg_log other) r t u) g').
Proof.
  intros Ro R E. unfold egraph_union in E. destruct (eg_explain other) as [x|] eqn:Hx; [|done]. cbn [expect mbind res_bind] in E.
  destruct (import_unions _ _ _ _ _ _) as [g1| |] eqn:Ei; [|done|done]. cbn [mbind res_bind] in E.
  destruct (rebuild _ _ _ _ _) as [[g2 n]| |] eqn:Er; [|done|done]. cbn in E. injection E as ->.
  destruct (import_all vname ex fuel other (union_equalities x) Ro ltac:(intros l r why; by eapply ue_known) g g1 R Ei) as (R1 & G1 & Has & HU).
  destruct (rebuild_step L A (fun _ => True) ex fuel g1 g' n calls_any R1 Er) as (R2 & G2 & Hc).
  split_and!; [done|by eapply grows_trans|done| |].
  - intros r t u Ha. destruct (asserted_ue other x r t u Ro Hx Ha) as [->|(l & r' & why & Tl & Tr & Hin)]; [by left|right].
    assert (Hm : forall w v1 v2, asserted (eg_log g1) w v1 v2 -> asserted (eg_log g') w v1 v2).
    { intros w v1 v2. apply asserted_mono. destruct G2 as [_ _ (h & ->)]. set_solver. }
    exists why. destruct Hin as [Hin|Hin]; [left|right]; apply Hm; by eapply Has.
  - intros Hh. destruct (rebuild_quiet L A Hh ex fuel g1 g' n R1 Er) as (El & En & _).
    assert (HU1 : unions_in (fun r t u => asserted (eg_log g) r t u \/ asserted (eg_log other) r t u) g1).
    { apply HU; [done| |].
      - eapply unions_mono; [|by eapply asserted_unions]. intros; by left.
      - intros l r why t u Hin Tl Tr. pose proof (reach_ue_sound L A true other x l r why Ro Hx Hin) as Hlog.
        destruct (log_known L A true other Ro) as [_ Hk]. destruct (Hk _ _ _ Hlog) as [Kl Kr].
        destruct (known_added L A true other l Ro Kl) as [t1 H1]. destruct (known_added L A true other r Ro Kr) as [u1 H2].
        rewrite (TreeOf_fun _ _ _ _ Tl (proj1 (AddedAs_Tree L A other l t1 Ro) H1)), (TreeOf_fun _ _ _ _ Tr (proj1 (AddedAs_Tree L A other r u1 Ro) H2)).
        eapply teq_rule. right. exists l, r. eauto. }
    intros a b r t u Hab Ha Hb. rewrite El in Hab. rewrite En in Ha, Hb. by eapply HU1.
Qed.
Lemma union_imported vname ex fuel other g g' r t u : reachable L A true other -> reachable L A ex g ->
  egraph_union L A (modify_n L A fuel) vname fuel other g = Ok g' -> asserted (eg_log other) r t u ->
  t = u \/ exists i j, AddedAs (eg_log g') i t /\ AddedAs (eg_log g') j u /\ eg_find g' i = eg_find g' j.
Proof.
  intros Ro R E Ha. destruct (union_imports _ _ _ _ _ _ Ro R E) as (R' & G & Hc & Hi & _).
  destruct (Hi r t u Ha) as [->|(r' & [Hr|Hr])]; [by left|right..].
  - destruct Hr as (i & j & Hij & H1 & H2). exists i, j. split_and!; auto. eapply (teq_equal L A ex g' i j t u); eauto.
    eapply teq_rule. exists i, j. eauto.
  - destruct Hr as (i & j & Hij & H1 & H2). exists j, i. split_and!; auto. eapply (teq_equal L A ex g' j i t u); eauto.
    eapply teq_sym, teq_rule. exists i, j. eauto.
Qed.
Lemma union_keeps vname ex fuel other g g' : reachable L A true other -> reachable L A ex g ->
  egraph_union L A (modify_n L A fuel) vname fuel other g = Ok g' ->
  reachable L A ex g' /\ eg_clean g' = true /\ (forall i t, AddedAs (eg_log g) i t -> AddedAs (eg_log g') i t) /\
  (forall i j, eg_find g i = eg_find g j -> eg_find g' i = eg_find g' j).
Proof.
  intros Ro R E. destruct (union_imports _ _ _ _ _ _ Ro R E) as (R' & G & Hc & _).
  split_and!; [done|done|intros i t; by apply added_grows|]. intros i j. apply coarser_eq. apply G.
Qed.
Lemma union_exact vname ex fuel other g g' i j t u : hook_free A -> reachable L A true other -> reachable L A ex g ->
  egraph_union L A (modify_n L A fuel) vname fuel other g = Ok g' -> AddedAs (eg_log g') i t -> AddedAs (eg_log g') j u ->
  eg_find g' i = eg_find g' j <-> teq (fun r t u => asserted (eg_log g) r t u \/ asserted (eg_log other) r t u) t u.
Proof.
  intros Hh Ro R E Ht Hu. destruct (union_imports _ _ _ _ _ _ Ro R E) as (R' & G & Hc & Hi & HU). split.
  - apply (equal_teq' L A _ ex g' i j t u R' (HU Hh) Ht Hu).
  - intros He. apply (teq_equal L A ex g' i j t u); auto. eapply teq_mono; [|exact He].
    intros r v w [Ha|Ha].
    + eapply teq_rule. eapply asserted_mono; [|exact Ha]. destruct G as [_ _ (h & ->)]. set_solver.
    + destruct (Hi r v w Ha) as [->|(r' & [Hr|Hr])]; [apply teq_refl|by eapply teq_rule|by eapply teq_sym, teq_rule].
Qed.

(** ** It succeeds *)
Lemma import_total vname ex (k : nat) other us : hook_free A -> reachable L A true other -> (forall l r why, (l, r, why) ∈ us -> known other l /\ known other r) ->
  forall g, reachable L A ex g -> exists g', reachable L A ex g' /\ forall k', import_unions A (modify_n L A (S k')) vname other us g = Ok g'.
Proof.
  intros Hh Ro. induction us as [|[[l r] why] us IH]; intros Hk g R; [by exists g|].
  destruct (Hk l r why) as [Kl Kr]; [left|].
  destruct (id_to_expr_ok L A true other l Ro Kl) as (e1 & E1 & D1 & T1). destruct (id_to_expr_ok L A true other r Ro Kr) as (e2 & E2 & D2 & T2).
  destruct (reach_tree _ _ _ Ro Kl) as [t Ht]. destruct (reach_tree _ _ _ Ro Kr) as [u Hu].
  destruct (T1 t Ht) as [N1 _]. destruct (T2 u Hu) as [N2 _].
  destruct (add_expr_total L A Hh ex k e1 g D1 N1 R) as (ga & a & Ea & Ra & Ka).
  destruct (add_expr_total L A Hh ex k e2 ga D2 N2 Ra) as (gb & b & Eb & Rb & Kb).
  pose proof (add_expr_added L A ex (S k) e2 u ga gb b Ra (T2 u Hu) Eb) as (_ & Gb & _).
  pose proof (grows_known L A ex ga gb a Ra Rb Gb Ka) as Ka'.
  destruct (trusted_total L A Hh ex k a b why gb Rb Ka' Kb) as (gc & v & Ec).
  destruct (trusted_step L A (fun _ => True) ex (S k) a b why gb gc v ltac:(done) Rb Ec) as (Rc & _).
  destruct (IH ltac:(intros; eapply Hk; by right) gc Rc) as (g' & R' & E'). exists g'. split; [exact R'|].
  intros k'. cbn [import_unions]. rewrite !id_to_pattern_empty, E1, E2. cbn [mbind res_bind].
  unfold union_instantiations. rewrite add_embedded, (add_expr_any L A Hh k' k), Ea. cbn [mbind res_bind].
  rewrite add_embedded, (add_expr_any L A Hh k' k), Eb. cbn [mbind res_bind].
  rewrite (trusted_any L A Hh k' k), Ec. cbn [mbind res_bind]. apply E'.
Qed.
Lemma union_terminates vname Rd ex other g : hook_free A -> merge_climbs A Rd -> reachable L A true other -> reachable L A ex g ->
  exists bound g', forall fuel, bound <= fuel -> egraph_union L A (modify_n L A fuel) vname fuel other g = Ok g'.
Proof.
  intros Hh Hm Ro R. pose proof (reach_explain _ _ _ _ Ro) as Hx. apply bool_decide_eq_true in Hx as [x Hx].
  destruct (import_total vname ex 0 other (union_equalities x) Hh Ro ltac:(intros l r why; by eapply ue_known) g R) as (g1 & R1 & E1).
  destruct (rebuild_term L A Rd g1 Hh Hm (reachable_good _ _ _ _ R1)) as (f0 & g' & n & Hf & _).
  exists (S f0), g'. intros [|fuel] Hle; [lia|]. unfold egraph_union. rewrite Hx. cbn [expect mbind res_bind]. rewrite E1. cbn [mbind res_bind].
  rewrite Hf by lia. done.
Qed.
Lemma union_needs_explanations vname ex fuel other g : reachable L A false other -> reachable L A ex g ->
  egraph_union L A (modify_n L A fuel) vname fuel other g = Panic.
Proof.
  intros Ro R. pose proof (reach_explain _ _ _ _ Ro) as Hx. apply bool_decide_eq_false in Hx. unfold egraph_union.
  destruct (eg_explain other); [exfalso; apply Hx; eauto|done].
Qed.
End union.
