(** Applying rules that tell the truth, in the presence of an analysis and hooks. *)
From Verif Require Import Base UnionFind EGraphModel EGraphSteps EGraphInv EGraphPres EGraphRuns Spec EGraphMain EGraphReach EGraphOps EGraphSafe
  EGraphNoPanic Terms RecExprModel RecExprProofs ExprModel PatSpec ExprProofs ExprSafe MachineModel MatchSpec RewriteModel RewriteProofs AlgSpec AlgProofs
  TruthSpec TruthProofs.

Section rules.
Context {Op D V : Type} `{Countable Op} (L : lang Op) (A : analysis Op D) (F : Op -> list V -> V) (says : D -> V -> Prop).
Context (SA : sound_analysis A F says) (TH : truthful_hook A F says).
Notation egraph := (egraph Op D).
Notation prog := (prog Op D).
Notation pnode := (EGraphModel.node (pop Op)).
Implicit Types (g : egraph) (p : list pnode) (nu : nat -> V).
Notation SI := (SI F says).
Notation ext := (ext F says).
Context (Q : prog -> Prop) (HQ : calls Q) (ex : bool) (fuel here : nat).
Notation reach := (reach L A Q ex).
Notation md := (modify_n L A fuel).

Lemma md_ok : md_true F says md.
Proof. by apply modify_n_true. Qed.
Lemma rr g : reach g -> reachable L A ex g.
Proof. apply reach_reachable. Qed.
Lemma sm g nu : reach g -> SI nu g -> models F nu (eg_log g).
Proof. intros R S. eapply SI_models; [by apply rr|done]. Qed.
Lemma at_value g nu s t i : reach g -> SI nu g -> at_id g s t i -> nu i = peval F (value_of nu s) t.
Proof. intros R S Ha. eapply at_id_eval; [by apply rr|by apply sm|done]. Qed.

Lemma apply_pat_ext p s g g' i nu : SI nu g -> apply_pat A md p s g = Ok (g', i) -> exists nu', ext nu g g' nu'.
Proof.
  intros S E. unfold apply_pat in E. inv_res. destruct x as [g1 ids]. inv_res. clear H1. revert H0. generalize (@nil nat) as ids0.
  revert g nu S. induction p as [|[o cs] p IH]; intros g nu S ids0 E; cbn [apply_pat_loop] in E.
  - inv_res. exists nu. by apply ext_refl.
  - cbn [nop nch] in E. destruct o as [f|v].
    + inv_res. destruct x0 as [g1 k].
      destruct (api_add_true A F says SA md x nu g g1 k md_ok S H1) as (nu1 & X1 & _).
      destruct (IH g1 nu1 (proj1 X1) _ E) as (nu2 & X2). exists nu2. by eapply ext_trans.
    + inv_res. by eapply IH.
Qed.
Lemma add_inst_ext p s g g' i nu : SI nu g -> add_instantiation_noncanonical A md p s g = Ok (g', i) -> exists nu', ext nu g g' nu'.
Proof.
  intros S E. unfold add_instantiation_noncanonical in E. inv_res. destruct x as [g1 ids]. inv_res. clear H1. revert H0. generalize (@nil nat) as ids0.
  revert g nu S. induction p as [|[o cs] p IH]; intros g nu S ids0 E; cbn [add_inst_loop] in E.
  - inv_res. exists nu. by apply ext_refl.
  - cbn [nop nch] in E. destruct o as [f|v].
    + inv_res. destruct x0 as [g1 k].
      destruct (api_add_true A F says SA md x nu g g1 k md_ok S H1) as (nu1 & X1 & _).
      destruct (IH g1 nu1 (proj1 X1) _ E) as (nu2 & X2). exists nu2. by eapply ext_trans.
    + inv_res. by eapply IH.
Qed.

(** The premise holds for the match (c, s) in all extensions of [g] and its values. *)
Definition entails_at (P : V -> (nat -> V) -> Prop) nu g (c : nat) (s : subst) : Prop :=
  match_known (length (eg_uf g)) c s /\
  forall g1 nu1, grows g g1 -> reach g1 -> ext nu g g1 nu1 -> P (nu1 c) (value_of nu1 (subst_get s)).
Lemma entails_grows P nu nu' g g' c s : grows g g' -> ext nu g g' nu' -> entails_at P nu g c s -> entails_at P nu' g' c s.
Proof.
  intros G C [[Hc Hs] He]. split.
  - destruct C as (_ & _ & N). split; [lia|]. intros v i Hv. pose proof (Hs v i Hv). lia.
  - intros g1 nu1 G1 R1 C1. refine (He g1 nu1 _ R1 _); [by eapply grows_trans|by eapply ext_trans].
Qed.
Lemma entails_now P nu g c s : reach g -> SI nu g -> entails_at P nu g c s -> P (nu c) (value_of nu (subst_get s)).
Proof. intros R S [_ He]. refine (He g nu _ R _); [by eapply grows_refl, S|by apply ext_refl]. Qed.

Lemma union_inst_ext p1 p2 s r g g' b t1 t2 nu : pat_ok p1 -> pat_ok p2 -> ExprTree p1 t1 -> ExprTree p2 t2 ->
  (forall g1 nu1, grows g g1 -> reach g1 -> ext nu g g1 nu1 ->
     peval F (value_of nu1 (subst_get s)) t1 = peval F (value_of nu1 (subst_get s)) t2) ->
  reach g -> SI nu g -> union_instantiations A md p1 p2 s r g = Ok (g', b) -> exists nu', ext nu g g' nu'.
Proof.
  intros Hp1 Hp2 Ht1 Ht2 Hv R S E. unfold union_instantiations in E.
  destruct (add_instantiation_noncanonical _ _ p1 s g) as [[g1 i1]| |] eqn:E1; [|done|done]. cbn [mbind res_bind] in E.
  destruct (add_instantiation_noncanonical _ _ p2 s g1) as [[g2 i2]| |] eqn:E2; [|done|done]. cbn [mbind res_bind] in E.
  destruct (api_union_trusted _ _ _ _ _ _) as [[g3 did]| |] eqn:E3; [|done|done]. cbn [mbind res_bind] in E. injection E as <- <-.
  destruct (add_inst_ext p1 s g g1 i1 nu S E1) as (nu1 & C1).
  destruct (add_inst_step L A Q ex fuel p1 s g g1 i1 t1) as (R1 & G1 & A1); auto.
  destruct (add_inst_ext p2 s g1 g2 i2 nu1 (proj1 C1) E2) as (nu2 & C2).
  destruct (add_inst_step L A Q ex fuel p2 s g1 g2 i2 t2) as (R2 & G2 & A2); auto.
  assert (C3 : exists nu3, ext nu2 g2 g3 nu3).
  { eapply (api_union_trusted_true L A F says SA); [apply md_ok|apply C2| |exact E3].
    rewrite (at_value g2 nu2 (subst_get s) t1 i1); [|done|apply C2|by eapply at_grows].
    rewrite (at_value g2 nu2 (subst_get s) t2 i2); [|done|apply C2|done].
    eapply Hv; [by eapply grows_trans|done|by eapply ext_trans]. }
  destruct C3 as [nu3 C3]. exists nu3. eapply ext_trans; [exact C1|]. by eapply ext_trans.
Qed.

Section one.
Context (sast : option (list pnode)) (Hsast : forall ast, sast = Some ast -> good_ast ast).
Definition sast_says (P : V -> (nat -> V) -> Prop) : Prop :=
  forall ast t x th, sast = Some ast -> ExprTree ast t -> P x th -> x = peval F th t.

Lemma pattern_ext P p rule c s g g' l nu : good_ast p -> sast_says P ->
  (forall t x th, ExprTree p t -> P x th -> x = peval F th t) -> entails_at P nu g c s ->
  reach g -> SI nu g -> pattern_apply L A fuel here p sast rule c s g = Ok (g', l) -> exists nu', ext nu g g' nu'.
Proof.
  intros Hp Hs Hv [_ He] R M E. destruct (good_ast_tree p Hp) as [Hok [t Ht]].
  unfold pattern_apply in E. destruct (explaining g).
  - destruct sast as [ast|] eqn:Es; [|done]. cbn [expect mbind res_bind] in E.
    destruct (good_ast_tree ast (Hsast ast eq_refl)) as [Hok' [tl Htl]].
    destruct (union_instantiations _ _ _ _ _ _ _) as [[g1 [id did]]| |] eqn:E1; [|done|done]. cbn [mbind res_bind] in E. injection E as <- _.
    eapply (union_inst_ext ast p s rule g g1 _ tl t nu); eauto.
    intros g2 nu2 G2 R2 C2. specialize (He g2 nu2 G2 R2 C2). rewrite <- (Hs ast tl _ _ Es Htl He). by apply Hv.
  - destruct (apply_pat _ _ _ _ _) as [[g1 id]| |] eqn:E1; [|done|done]. cbn [mbind res_bind] in E.
    destruct (api_union _ _ _ _ _ _) as [[g2 did]| |] eqn:E2; [|done|done]. cbn [mbind res_bind] in E. injection E as <- _.
    destruct (apply_pat_ext p s g g1 id nu) as (nu1 & C1); [done|done|].
    destruct (apply_pat_step L A Q ex fuel p s g g1 id t) as (R1 & G1 & A1); auto.
    assert (C2 : exists nu2, ext nu1 g1 g2 nu2).
    { eapply (api_union_true L A F says SA); [apply md_ok|apply C1| |exact E2].
      rewrite (at_value g1 nu1 (subst_get s) t id); [|done|apply C1|done].
      symmetry. apply Hv; [done|]. exact (He g1 nu1 G1 R1 C1). }
    destruct C2 as [nu2 C2]. exists nu2. by eapply ext_trans.
Qed.
Lemma pattern_one_ext P sast' p rule c s g g' l nu : sast' = sast \/ sast' = None -> good_ast p -> sast_says P ->
  (forall t x th, ExprTree p t -> P x th -> x = peval F th t) -> entails_at P nu g c s ->
  reach g -> SI nu g -> pattern_apply_one L A fuel here p c s sast' rule g = Ok (g', l) -> exists nu', ext nu g g' nu'.
Proof.
  intros Hs' Hp Hs Hv He R M E. destruct (good_ast_tree p Hp) as [Hok [t Ht]].
  unfold pattern_apply_one in E.
  destruct (apply_pat _ _ _ _ _) as [[g1 id]| |] eqn:E1; [|done|done]. cbn [mbind res_bind] in E.
  destruct (apply_pat_ext p s g g1 id nu) as (nu1 & C1); [done|done|].
  destruct (apply_pat_step L A Q ex fuel p s g g1 id t) as (R1 & G1 & A1); auto.
  apply (entails_grows _ _ _ _ _ _ _ G1 C1) in He.
  destruct sast' as [ast|].
  - destruct (union_instantiations _ _ _ _ _ _ _) as [[g2 [from did]]| |] eqn:E2; [|done|done]. cbn [mbind res_bind] in E. injection E as <- _.
    destruct Hs' as [Hs'|Hs']; [|done]. destruct (good_ast_tree ast (Hsast ast (eq_sym Hs'))) as [Hok' [tl Htl]].
    destruct (union_inst_ext ast p s rule g1 g2 (from, did) tl t nu1 Hok' Hok Htl Ht) as (nu2 & C2); [|done|apply C1|done|].
    + intros g3 nu3 G3 R3 C3. pose proof (proj2 He g3 nu3 G3 R3 C3) as He3. rewrite <- (Hs ast tl _ _ (eq_sym Hs') Htl He3). by apply Hv.
    + exists nu2. by eapply ext_trans.
  - destruct (api_union _ _ _ _ _ _) as [[g2 did]| |] eqn:E2; [|done|done]. cbn [mbind res_bind] in E. injection E as <- _.
    assert (C2 : exists nu2, ext nu1 g1 g2 nu2).
    { eapply (api_union_true L A F says SA); [apply md_ok|apply C1| |exact E2].
      rewrite (at_value g1 nu1 (subst_get s) t id); [|done|apply C1|done].
      apply Hv; [done|]. eapply entails_now; [exact R1|apply C1|exact He]. }
    destruct C2 as [nu2 C2]. exists nu2. by eapply ext_trans.
Qed.

Lemma check_ext P cnd phi c s g g' b nu : cond_in Q cnd -> condition_true F says P cnd phi -> reach g -> SI nu g ->
  entails_at P nu g c s -> check L A fuel cnd c s g = Ok (g', b) ->
  reach g' /\ grows g g' /\ exists nu', ext nu g g' nu' /\ (b = true -> entails_at (fun x th => P x th /\ phi x th) nu' g' c s).
Proof.
  intros Hc Hm R S He E. destruct (check_step L A Q ex fuel cnd c s g g' b) as [R' G]; auto. split_and!; [done|done|].
  cut (exists nu', ext nu g g' nu').
  { intros (nu' & C). exists nu'. split; [done|]. intros ->. pose proof (entails_grows _ _ _ _ _ _ _ G C He) as He'.
    split; [apply He'|]. intros g1 nu1 G1 R1 C1. pose proof (proj1 C1) as M1.
    assert (HP : P (nu1 c) (value_of nu1 (subst_get s))) by (by apply (proj2 He' g1 nu1)).
    split; [exact HP|].
    destruct cnd as [p1 p2|vars body test]; cbn [condition_true] in Hm.
    - destruct Hc as [Hg1 Hg2]. destruct (good_ast_tree p1 Hg1) as [Hok1 [t1 Ht1]]. destruct (good_ast_tree p2 Hg2) as [Hok2 [t2 Ht2]].
      apply (Hm t1 t2); [done|done|done|]. eapply joined_eval; [by apply rr|by apply sm|]. eapply joined_grows; [exact G1|].
      by eapply (check_equal_joined L A Q ex fuel p1 p2 c s g g').
    - destruct Hm as [Hb Hm]. cbn [check] in E. inv_res.
      assert (S1 : SI nu1 g') by (eapply SI_ext; [apply C|apply C1]).
      apply (Hm c s g' nu1); [by apply SI_state|apply He'|exact HP|done]. }
  destruct cnd as [p1 p2|vars body test]; cbn [check] in E.
  - destruct (apply_pat _ _ p1 _ _) as [[g1 a1]| |] eqn:E1; [|done|done]. cbn [mbind res_bind] in E.
    destruct (apply_pat _ _ p2 _ _) as [[g2 a2]| |] eqn:E2; [|done|done]. cbn [mbind res_bind] in E. injection E as <- _.
    destruct (apply_pat_ext p1 s g g1 a1 nu) as (nu1 & C1); [done|done|].
    destruct (apply_pat_ext p2 s g1 g2 a2 nu1) as (nu2 & C2); [apply C1|done|].
    exists nu2. by eapply ext_trans.
  - inv_res. eapply (run_prog_true L A F says SA); [apply md_ok|exact S| |eassumption].
    apply (proj1 Hm); [apply He|]. exact (entails_now P nu g c s R S He).
Qed.

Lemma apply_one_ext sast' a bnd P rule c s g g' l nu : sast' = sast \/ sast' = None ->
  applier_in Q a -> sast_says P -> applier_true F says bnd P a ->
  entails_at P nu g c s -> reach g -> SI nu g -> apply_one L A fuel here a c s sast' rule g = Ok (g', l) ->
  exists nu', ext nu g g' nu'.
Proof.
  intros Hs'. revert P g nu. induction a as [p|asts|cnd a IH|vars body ret]; intros P g nu Ha Hs Hv He R M E; cbn [apply_one applier_in applier_true] in *.
  - eapply (pattern_one_ext P sast' p rule c s g g' l nu); eauto.
  - done.
  - destruct (check L A fuel cnd c s g) as [[g1 b]| |] eqn:E1; [|done|done]. cbn [mbind res_bind] in E.
    destruct Ha as [Hc Ha]. destruct Hv as (phi & Hm & Hv).
    destruct (check_ext P cnd phi c s g g1 b nu) as (R1 & G1 & nu1 & C1 & He1); auto.
    destruct b; [|injection E as <- _; eauto].
    destruct (IH (fun x th => P x th /\ phi x th) g1 nu1) as (nu2 & C2); auto.
    + intros ast t x th Hast Ht [Hp _]. by eapply Hs.
    + apply C1.
    + exists nu2. by eapply ext_trans.
  - inv_res. eapply (run_prog_true L A F says SA); [apply md_ok|exact M| |eassumption].
    apply Hv; [apply He|]. exact (entails_now P nu g c s R M He).
Qed.

Lemma multi_clauses_ext asts th (s : subst) g g' l nu : Forall (fun cl => good_ast cl.2) asts -> Forall (clause_true F th) asts ->
  (forall v i, subst_get s v = Some i -> known g i /\ nu i = th v) ->
  reach g -> SI nu g -> multi_clauses L A fuel here asts s g = Ok (g', l) -> exists nu', ext nu g g' nu'.
Proof.
  intros Hf. revert s g l nu. induction Hf as [|[v p] asts Hp Hf IH]; intros s g l nu Ht Hs R M E; cbn [multi_clauses] in E.
  - injection E as <- _. exists nu. by apply ext_refl.
  - cbn [snd] in Hp. apply Forall_cons in Ht as [Ht1 Ht2]. destruct (good_ast_tree p Hp) as [Hok [t Ht]].
    destruct (apply_pat A (modify_n L A fuel) p s g) as [[g1 id1]| |] eqn:E1; [|done|done]. cbn [mbind res_bind] in E.
    destruct (apply_pat_ext p s g g1 id1 nu) as (nu1 & C1); [done|done|].
    apply (apply_pat_step L A Q ex _ _ _ _ _ _ t) in E1 as (R1 & G1 & A1); auto.
    assert (Hs1 : forall w i, subst_get s w = Some i -> known g1 i /\ nu1 i = th w).
    { intros w i Hw. destruct C1 as (_ & K1 & N1). destruct (Hs w i Hw) as [Hk <-]. unfold known in *. split; [lia|auto]. }
    assert (Hid : nu1 id1 = th v).
    { change (th v) with (th (v, p).1). rewrite (Ht1 t Ht).
      rewrite <- (models_find L A F nu1 ex g1 id1 (rr _ R1) (sm _ _ R1 (proj1 C1))).
      eapply NRep_eval; [by apply rr|apply sm; [done|apply C1]| |exact A1]. intros w i Hw. symmetry. by apply Hs1. }
    assert (Hkid : known g1 id1).
    { pose proof (reach_Inv _ _ _ _ _ R1) as I1. destruct (decide (id1 < length (eg_uf g1))) as [?|Hn]; [done|].
      assert (Efi : eg_find g1 id1 = id1) by (apply uf_find_oob; lia). unfold at_id in A1. rewrite Efi in A1.
      exfalso. apply Hn. eapply NRep_lt; [exact I1| |exact A1]. intros w i Hw. exact (proj1 (Hs1 w i Hw)). }
    pose proof (subst_insert_get s v id1) as Eg. pose proof (subst_insert_old s v id1) as Eo.
    destruct (subst_insert s v id1) as [s1 old]. cbn [fst snd] in Eg, Eo. subst old.
    assert (St : exists g2 nu2, reach g2 /\ ext nu1 g1 g2 nu2 /\ ('(g, l) ← multi_clauses L A fuel here asts s1 g2; Ok (g, id1 :: l)) = Ok (g', l)).
    { destruct (subst_get s v) as [id2|] eqn:Ev.
      - destruct (api_union A (modify_n L A fuel) id1 id2 here g1) as [[g2 did]| |] eqn:Eu; [|done|done]. cbn [mbind res_bind] in E.
        destruct (api_union_true L A F says SA md id1 id2 here nu1 g1 g2 did md_ok (proj1 C1)) as [nu2 C2]; [|exact Eu|].
        { rewrite Hid. symmetry. by apply Hs1. }
        exists g2, nu2. split_and!; [by eapply (union_step L A Q ex) in Eu as (R2 & _); [|apply HQ|done]|exact C2|exact E].
      - cbn [mbind res_bind] in E. exists g1, nu1. split_and!; [done|apply ext_refl, C1|exact E]. }
    destruct St as (g2 & nu2 & R2 & C2 & E'). clear E. destruct (multi_clauses L A fuel here asts s1 g2) as [[g3 l']| |] eqn:E3; [|done|done].
    cbn [mbind res_bind] in E'. injection E' as <- _.
    destruct (IH s1 g2 l' nu2) as (nu3 & C3); auto.
    + destruct C2 as (_ & K2 & N2). intros w i. rewrite Eg. unfold known in *. case_decide as Ew.
      * intros [= <-]. subst w. rewrite K2 by done. split; [lia|done].
      * intros Hw. destruct (Hs1 w i Hw). rewrite K2 by done. split; [lia|done].
    + apply C2.
    + exists nu3. eapply ext_trans; [exact C1|]. by eapply ext_trans.
Qed.

(** All matches of a list. *)
Lemma each_ext {X} (f : X -> egraph -> res (egraph * list nat)) (Pre : X -> (nat -> V) -> egraph -> Prop) xs g g' l nu :
  (forall x g g' l nu, x ∈ xs -> Pre x nu g -> reach g -> SI nu g -> f x g = Ok (g', l) ->
     reach g' /\ grows g g' /\ exists nu', ext nu g g' nu') ->
  (forall x nu nu' g g', grows g g' -> ext nu g g' nu' -> reach g -> reach g' -> Pre x nu g -> Pre x nu' g') ->
  reach g -> SI nu g -> (forall x, x ∈ xs -> Pre x nu g) -> each f xs g = Ok (g', l) -> exists nu', ext nu g g' nu'.
Proof.
  intros Hf Hm. revert g l nu. induction xs as [|x xs IH]; intros g l nu R M Hpre E; cbn [each] in E.
  - injection E as <- _. exists nu. by apply ext_refl.
  - destruct (f x g) as [[g1 l1]| |] eqn:E1; [|done|done]. cbn [mbind res_bind] in E.
    destruct (each f xs g1) as [[g2 l2]| |] eqn:E2; [|done|done]. cbn [mbind res_bind] in E. injection E as <- _.
    destruct (Hf x g g1 l1 nu) as (R1 & G1 & nu1 & C1); auto; [left|apply Hpre; left|].
    destruct (IH (fun y gg gg' ll nn Hy => Hf y gg gg' ll nn (elem_of_list_further _ _ _ Hy)) g1 l2 nu1) as (nu2 & C2); auto.
    + apply C1.
    + intros y Hy. eapply Hm; [exact G1|exact C1|done|done|]. apply Hpre. by right.
    + exists nu2. by eapply ext_trans.
Qed.
Lemma apply_matches_ext a bnd P rule ms g g' l nu :
  applier_in Q a -> sast_says P -> applier_true F says bnd P a -> reach g -> SI nu g ->
  (forall c s, (c, s) ∈ pairs ms -> entails_at P nu g c s /\ forall v i, subst_get s v = Some i -> bnd v /\ known g i) ->
  apply_matches L A fuel here a sast rule ms g = Ok (g', l) -> exists nu', ext nu g g' nu'.
Proof.
  intros Ha Hs Hv R M Hms E.
  set (Pre := fun (x : nat * subst) nu g => entails_at P nu g x.1 x.2 /\ forall v i, subst_get x.2 v = Some i -> bnd v /\ known g i).
  assert (K : forall f, for_matches f ms g = Ok (g', l) ->
    (forall c s g g' l nu, Pre (c, s) nu g -> reach g -> SI nu g -> f c s g = Ok (g', l) ->
       reach g' /\ grows g g' /\ exists nu', ext nu g g' nu') -> exists nu', ext nu g g' nu').
  { intros f Ef Hf. rewrite for_matches_pairs in Ef.
    eapply (each_ext _ Pre); [| |exact R|exact M| |exact Ef].
    - intros [c s] g0 g1 l0 nu0 _ Hp R0 M0 E0. by eapply (Hf c s).
    - intros [c s] nu0 nu1 g0 g1 G0 C0 R0 R1 [Hp1 Hp2]. split; [by eapply entails_grows|]. intros v i Hv'. destruct (Hp2 v i Hv') as [? Hk]. split; [done|].
      destruct C0 as (_ & _ & N0). unfold known in *. lia.
    - intros [c s] Hin. by apply Hms. }
  assert (Kone : forall c s g0 g1 l0 nu0, Pre (c, s) nu0 g0 -> reach g0 -> SI nu0 g0 ->
    apply_one L A fuel here a c s (if explaining g0 then sast else None) rule g0 = Ok (g1, l0) ->
    reach g1 /\ grows g0 g1 /\ exists nu', ext nu0 g0 g1 nu').
  { intros c s g0 g1 l0 nu0 [Hp1 Hp2] R0 M0 E0.
    assert (Hor : (if explaining g0 then sast else None) = sast \/ (if explaining g0 then sast else None) = None) by (destruct (explaining g0); auto).
    destruct (apply_one_step L A Q ex fuel here a c s (if explaining g0 then sast else None) rule g0 g1 l0) as [? ?]; auto.
    { intros ast. destruct (explaining g0); [auto|done]. }
    split_and!; auto. eapply (apply_one_ext (if explaining g0 then sast else None) a bnd P); eauto. }
  destruct a as [p|asts|cnd a|vars body ret]; cbn [apply_matches] in E; (eapply K; [exact E|]); clear K E; intros c s g0 g1 l0 nu0 HPre R0 M0 E0.
  - destruct HPre as [Hp1 Hp2]. destruct (good_ast_tree p Ha) as [Hp [t Ht]].
    destruct (pattern_apply_step L A Q ex fuel here p sast rule c s g0 g1 l0 t) as (? & ? & _); auto.
    { intros ast _ Hast. by apply good_ast_tree, Hsast. }
    split_and!; auto. eapply (pattern_ext P); eauto.
  - destruct HPre as [Hp1 Hp2]. destruct (multi_apply_step L A Q ex fuel here asts c s g0 g1 l0) as (? & ? & _); auto. split_and!; auto.
    unfold multi_apply in E0. destruct (multi_clauses L A fuel here asts s g0) as [[g2 l2]| |] eqn:E2; [|done|done].
    cbn [mbind res_bind] in E0. injection E0 as <- _.
    destruct (Hv (nu0 c) (value_of nu0 (subst_get s))) as (th' & Hth & Hcl); [exact (entails_now P nu0 g0 c s R0 M0 Hp1)|].
    eapply (multi_clauses_ext asts th'); eauto. intros v i Hi. destruct (Hp2 v i Hi) as [Hb Hk]. split; [done|].
    rewrite Hth by done. symmetry. by apply vals_get.
  - by eapply Kone.
  - by eapply Kone.
Qed.
End one.
End rules.
