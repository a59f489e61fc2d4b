(** Runs record rule instances: what the runner unites under a rule's name is an instance of
    the rule's two patterns, as terms. *)
From Verif Require Import Base UnionFind EGraphModel EGraphSteps EGraphInv EGraphPres EGraphRuns Spec EGraphMain EGraphReach EGraphOps EGraphAna EGraphSafe
  EGraphNoPanic Terms RecExprModel RecExprProofs ExprModel PatSpec ExprProofs ExprSafe MachineModel MatchSpec RewriteModel RewriteProofs RuleSpec RuleSafe RuleProps
  RunnerModel RunnerSpec RunnerProofs Still ExplainModel ExplainSpec ExplainFlat ExplainMain CheckModel CheckSpec CheckProofs.

(** * The history *)
Section log.
Context {Op D : Type} `{Countable Op} (L : lang Op) (A : analysis Op D).
Notation egraph := (egraph Op D).
Notation prog := (prog Op D).
Implicit Types (g : egraph).

Lemma find_mut_log g i : eg_log (eg_find_mut g i).1 = eg_log g.
Proof. unfold eg_find_mut. by destruct (uf_find_mut _ _). Qed.
Lemma push_parents_log id cs g g' : push_parents id g cs = Ok g' -> eg_log g' = eg_log g.
Proof.
  revert g. induction cs as [|c cs IH]; intros g E; cbn [push_parents] in E; [by injection E as <-|].
  apply bind_Ok in E as (g1 & E1 & E). rewrite (IH _ E). unfold push_parent in E1. pose proof (find_mut_log g c) as Hl.
  destruct (eg_find_mut g c) as [g2 r]. apply bind_Ok in E1 as (cl & _ & [= <-]). done.
Qed.
Lemma add_core_log n g g' i o : add_core A n g = Ok (g', i, o) -> eg_log g' = eg_log g.
Proof.
  unfold add_core. destruct (negb _); [done|]. destruct (eg_memo g !! _) as [e|].
  - destruct (eg_explain g) as [x|]; [|by intros [= <- _ _]]. destruct (ex_memo x !! n); [by intros [= <- _ _]|].
    destruct (uf_make_set _) as [u j]. intros E. apply bind_Ok in E as (x1 & _ & E). destruct (uf_union u _ j) as [u1 ?].
    apply bind_Ok in E as (x2 & _ & [= <- _ _]). done.
  - intros E. apply bind_Ok in E as ([g1 id] & E1 & E). apply bind_Ok in E as (g2 & E2 & [= <- _ _]).
    assert (Eg : eg_log g2 = eg_log g1) by (destruct (eg_explain g1) as [x|]; [apply bind_Ok in E2 as (x1 & _ & [= <-]); done|by injection E2 as <-]).
    rewrite Eg. clear -E1. unfold make_new_eclass in E1. destruct (uf_make_set _) as [u j]. apply bind_Ok in E1 as (g3 & Ep & E1).
    apply bind_Ok in E1 as (_ & _ & [= <- _]). apply push_parents_log in Ep. cbn in *. done.
Qed.
Lemma union_core_log a b r g g' o : perform_union_core A a b r g = Ok (g', o) -> eg_log g' = eg_log g.
Proof.
  unfold perform_union_core. destruct (negb _); [done|]. pose proof (find_mut_log (set_clean false g) a) as H1. destruct (eg_find_mut (set_clean false g) a) as [g1 i1].
  pose proof (find_mut_log g1 b) as H2. destruct (eg_find_mut g1 b) as [g2 i2]. cbn [fst] in *. assert (Eg : eg_log g2 = eg_log g) by (rewrite H2, H1; done). clear H1 H2.
  case_decide.
  - destruct r as [[r|]|]; [destruct (eg_explain g2)| |]; intros E; try (by injection E as <- _). apply bind_Ok in E as (x & _ & [= <- _]). done.
  - intros E. apply bind_Ok in E as (k1 & _ & E). apply bind_Ok in E as (k2 & _ & E). destruct (if _ <? _ then _ else _) as [j1 j2].
    apply bind_Ok in E as (g3 & E3 & E).
    assert (Eg3 : eg_log g3 = eg_log g2).
    { destruct (eg_explain g2); [|by injection E3 as <-]. apply bind_Ok in E3 as (? & _ & E3). apply bind_Ok in E3 as (? & _ & [= <-]). done. }
    apply bind_Ok in E as (c2 & _ & E). apply bind_Ok in E as (c1 & _ & E). apply bind_Ok in E as (_ & _ & E).
    destruct (an_merge A _ _) as [d [d1 d2]]. injection E as <- _. cbn. by rewrite Eg3.
Qed.
Lemma pending_core_log c g g' o : pending_core A c g = Ok (g', o) -> eg_log g' = eg_log g.
Proof.
  unfold pending_core. intros E. apply bind_Ok in E as (n & _ & E). destruct (canon_mut _ _) as [u nd]. cbn [eg_memo set_uf] in E.
  destruct (eg_memo g !! nd); [|by injection E as <- _]. apply union_core_log in E. done.
Qed.
Lemma analysis_core_log c g g' o : analysis_core A c g = Ok (g', o) -> eg_log g' = eg_log g.
Proof.
  unfold analysis_core. intros E. apply bind_Ok in E as (n & _ & E). pose proof (find_mut_log g c) as Hl. destruct (eg_find_mut g c) as [g1 r]. cbn in Hl.
  apply bind_Ok in E as (k & _ & E). destruct (an_merge A _ _) as [d [d1 d2]]. destruct d1; injection E as <- _; done.
Qed.

(** every union recorded in between has a reason in [S] *)
Definition only (S : nat -> Prop) g g' : Prop := forall a b r, EUnion a b r ∈ eg_log g' -> EUnion a b r ∈ eg_log g \/ S r.
Definition md_only (S : nat -> Prop) (md : nat -> egraph -> res egraph) : Prop := forall i g g', md i g = Ok g' -> only S g g'.
Lemma only_refl S g : only S g g.
Proof. intros a b r. auto. Qed.
Lemma only_log S g g' : eg_log g' = eg_log g -> only S g g'.
Proof. intros E a b r. rewrite E. auto. Qed.
Lemma only_trans S g1 g2 g3 : only S g1 g2 -> only S g2 g3 -> only S g1 g3.
Proof. intros O1 O2 a b r [Hi|?]%O2; auto. Qed.
Section md.
Context (S : nat -> Prop) (md : nat -> egraph -> res egraph) (Hmd : md_only S md).
Lemma hook_only o g g' : run_hook md o g = Ok g' -> only S g g'.
Proof. destruct o; cbn; [apply Hmd|]. intros [= <-]. apply only_refl. Qed.
Lemma add_only n g g' i : api_add A md n g = Ok (g', i) -> only S g g'.
Proof.
  intros E. unfold api_add, add_uncanonical in E. apply bind_Ok in E as ([g1 j] & E & [= <- <-]). apply bind_Ok in E as ([[g2 k] o] & Ec & E).
  apply add_core_log in Ec. assert (O : only S g2 g1).
  { destruct o as [h|]; [|by injection E as <- _; apply only_refl]. apply bind_Ok in E as (g3 & E3 & [= <- _]). apply Hmd in E3.
    eapply only_trans; [exact E3|]. by apply only_log. }
  intros a b r [[=]|Hi]%elem_of_cons. apply O in Hi as [Hi|?]; [|by right]. left. by rewrite <- Ec.
Qed.
Lemma perform_only a b r g g' v : perform_union A md a b r g = Ok (g', v) -> only S g g'.
Proof.
  unfold perform_union. intros E. apply bind_Ok in E as ([g1 o] & E1 & E). apply bind_Ok in E as (g2 & E2 & [= <- _]).
  eapply only_trans; [apply only_log; by eapply union_core_log|by eapply hook_only].
Qed.
Lemma trusted_only a b r g g' v : api_union_trusted A md a b r g = Ok (g', v) ->
  forall x y q, EUnion x y q ∈ eg_log g' -> (x = a /\ y = b /\ q = r) \/ EUnion x y q ∈ eg_log g \/ S q.
Proof.
  unfold api_union_trusted, union_trusted. intros E x y q Hi. apply (perform_only _ _ _ _ _ _ E) in Hi as [Hi|?]; [|auto].
  apply elem_of_cons in Hi as [[= -> -> ->]|Hi]; auto.
Qed.
Lemma union_only a b r g g' v : S r -> api_union A md a b r g = Ok (g', v) -> only S g g'.
Proof.
  intros Hs E. assert (O : only S (add_log (EUnion a b r) g) g').
  { unfold api_union, union, union_trusted in E. destruct (eg_explain _); by eapply perform_only. }
  intros x y q Hi%O. destruct Hi as [Hi|?]; [|auto]. apply elem_of_cons in Hi as [[= -> -> ->]|Hi]; auto.
Qed.
Lemma rebuild_only fuel g g' n : rebuild L A fuel md g = Ok (g', n) -> only S g g'.
Proof.
  assert (Hp : forall f n g g' n', drain_pending A f md n g = Ok (g', n') -> only S g g').
  { intros f. induction f as [|f IH]; intros n0 g0 g1 n1 E; cbn [drain_pending] in E; (destruct (eg_pending g0) as [|c rest]; [injection E as <- _; apply only_refl|]); [done|].
    apply bind_Ok in E as ([g2 o] & E2 & E). apply bind_Ok in E as (g3 & E3 & E). apply pending_core_log in E2.
    eapply only_trans; [by apply (only_log _ _ g2)|]. eapply only_trans; [by eapply hook_only|by eapply IH]. }
  assert (Ha : forall f g g', drain_analysis A f md g = Ok g' -> only S g g').
  { intros f. induction f as [|f IH]; intros g0 g1 E; cbn [drain_analysis] in E; (destruct (uq_pop _) as [[c q]|]; [|injection E as <-; apply only_refl]); [done|].
    apply bind_Ok in E as ([g2 o] & E2 & E). apply bind_Ok in E as (g3 & E3 & E). apply analysis_core_log in E2.
    eapply only_trans; [by apply (only_log _ _ g2)|]. eapply only_trans; [by eapply hook_only|by eapply IH]. }
  assert (Hu : forall f inner n g g' n', process_unions A f inner md n g = Ok (g', n') -> only S g g').
  { intros f inner. induction f as [|f IH]; intros n0 g0 g1 n1 E; cbn [process_unions] in E; (destruct (_ && _); [injection E as <- _; apply only_refl|]); [done|].
    apply bind_Ok in E as ([g2 n2] & E2 & E). apply bind_Ok in E as (g3 & E3 & E).
    eapply only_trans; [by eapply Hp|]. eapply only_trans; [by eapply Ha|by eapply IH]. }
  unfold rebuild. intros E. apply bind_Ok in E as ([g1 n1] & E1 & [= <- _]). apply Hu in E1. eapply only_trans; [exact E1|]. apply only_log.
  unfold rebuild_classes. by destruct (foldl _ _ _) as [[? ?] ?].
Qed.
Lemma run_only fuel p g g' : reasons S p -> run_prog L A fuel md p g = Ok g' -> only S g g'.
Proof.
  revert g. induction p as [|k IH|n k IH|a b r k IH|a b r k IH|i d k IH|i d k IH|i f k IH|k IH]; intros g Hp E; cbn [run_prog reasons] in *.
  - injection E as <-. apply only_refl.
  - by eapply IH.
  - apply bind_Ok in E as ([g1 i] & E1 & E). eapply only_trans; [by eapply add_only|by eapply IH].
  - destruct Hp as [Hs Hk]. apply bind_Ok in E as ([g1 i] & E1 & E). eapply only_trans; [by eapply union_only|by eapply IH].
  - destruct Hp as [Hs Hk]. apply bind_Ok in E as ([g1 i] & E1 & E). eapply only_trans; [|by eapply IH].
    intros x y q Hi. destruct (trusted_only _ _ _ _ _ _ E1 _ _ _ Hi) as [(_ & _ & ->)|[?|?]]; auto.
  - apply bind_Ok in E as (g1 & E1 & E). eapply only_trans; [|by eapply IH]. unfold set_analysis_data in E1. apply bind_Ok in E1 as ([g2 r] & E2 & E1).
    eapply only_trans; [|by eapply Hmd]. apply only_log. unfold set_data_core in E2. destruct (negb _); [done|]. pose proof (find_mut_log g i) as Hl.
    destruct (eg_find_mut g i) as [g3 j]. apply bind_Ok in E2 as (c & _ & [= <- _]). done.
  - apply bind_Ok in E as (g1 & E1 & E). eapply only_trans; [|by eapply IH]. apply only_log. unfold poke_data in E1. destruct (negb _); [done|]. pose proof (find_mut_log g i) as Hl.
    destruct (eg_find_mut g i) as [g3 j]. apply bind_Ok in E1 as (c & _ & [= <-]). done.
  - apply bind_Ok in E as (g1 & E1 & E). eapply only_trans; [|by eapply IH]. apply only_log. unfold retain_nodes in E1. destruct (negb _); [done|]. pose proof (find_mut_log g i) as Hl.
    destruct (eg_find_mut g i) as [g3 j]. apply bind_Ok in E1 as (c & _ & [= <-]). done.
  - apply bind_Ok in E as ([g1 n] & E1 & E). eapply only_trans; [by eapply rebuild_only|by eapply IH].
Qed.
End md.
Lemma modify_only S fuel : (forall i, reasons S (an_modify A i)) -> md_only S (modify_n L A fuel).
Proof.
  intros Hm. induction fuel as [|fuel IH]; intros i g g' E; cbn [modify_n] in E; [done|]. by eapply run_only.
Qed.
End log.

(** * Hooks without unions *)
Section steady.
Context {Op D : Type} `{Countable Op} (L : lang Op) (A : analysis Op D).
Notation egraph := (egraph Op D).
Notation prog := (prog Op D).
Implicit Types (g : egraph).

Definition nou (l : lbl) : Prop := l <> LUnion /\ l <> LPend /\ l <> LAna /\ l <> LRebuild.
Lemma no_union_in (p : prog) : no_union p -> prog_in nou p.
Proof. induction p; cbn; unfold nou; try done; intros; repeat split; auto; naive_solver. Qed.
(** old ids keep their representatives *)
Definition keep g g' : Prop := length (eg_uf g) <= length (eg_uf g') /\ forall k, known g k -> eg_find g' k = eg_find g k.
Lemma keep_refl g : keep g g.
Proof. by split. Qed.
Lemma keep_trans g1 g2 g3 : keep g1 g2 -> keep g2 g3 -> keep g1 g3.
Proof. intros [L1 K1] [L2 K2]. split; [lia|]. intros k Hk. rewrite K2; [by apply K1|]. unfold known in *. lia. Qed.
Lemma keep_find_mut g i : uf_wf (eg_uf g) -> i < length (eg_uf g) -> length (eg_uf (eg_find_mut g i).1) = length (eg_uf g) /\ forall k, eg_find (eg_find_mut g i).1 k = eg_find g k.
Proof.
  intros W Hi. destruct (eg_find_mut_spec g i W Hi) as (u & -> & (_ & Hl & Hf)). cbn. split; [done|]. intros k. apply Hf.
Qed.
Lemma keep_core n g g1 i o : Inv g -> add_core A n g = Ok (g1, i, o) -> keep g g1.
Proof.
  intros I Ea. apply add_core_spec in Ea as [Hch Hsp]; [|apply I].
  destruct Hsp as [e id He Hid|e x x1 x2 u He Hx Hxn Hxa Hxu Hu|u cls' ex' Hmn Hw Hl' Hf Hcls Hex].
  - apply keep_refl.
  - destruct (ci_memo _ _ _ _ _ _ _ (iv_c _ I) _ _ He) as (? & Hlt & _). apply lookup_lt_Some in Hlt. split.
    + cbn. subst u. rewrite insert_length, app_length. lia.
    + intros k Hk. pose proof (alias_find g e k I Hlt) as Ea. unfold eg_find at 1. cbn. subst u. rewrite Ea, decide_False; [done|].
      pose proof (uf_find_lt _ _ (iv_wf _ I) Hk). unfold eg_find. lia.
  - split; [cbn; lia|]. intros k _. apply Hf.
Qed.
Lemma keep_prim l g g' : Inv g -> EGraphRuns.plain l -> nou l -> prim L A l g g' -> keep g g'.
Proof.
  intros I Hp (H1 & H2 & H3 & H4) E. destruct E as [? g g' id o E|g|? ? g|a b r rule g g' o Hr E|c rest g g' o Ep E|id q g g' o Eq E
      |j d g g' r E|j d g g' E|j f g g' E|g Ep Eq]; try done.
  - unfold set_data_core in E. destruct (valid_id g j) eqn:Ev; [|done]. cbn in E. apply Nat.ltb_lt in Ev.
    destruct (keep_find_mut g j (iv_wf _ I) Ev) as [Hl Hk]. destruct (eg_find_mut g j) as [g1 r1]. apply bind_Ok in E as (c & _ & [= <- _]).
    split; [cbn; cbn in Hl; lia|]. intros k _. apply Hk.
  - unfold poke_data in E. destruct (valid_id g j) eqn:Ev; [|done]. cbn in E. apply Nat.ltb_lt in Ev.
    destruct (keep_find_mut g j (iv_wf _ I) Ev) as [Hl Hk]. destruct (eg_find_mut g j) as [g1 r1]. apply bind_Ok in E as (c & _ & [= <-]).
    split; [cbn; cbn in Hl; lia|]. intros k _. apply Hk.
  - unfold retain_nodes in E. destruct (valid_id g j) eqn:Ev; [|done]. cbn in E. apply Nat.ltb_lt in Ev.
    destruct (keep_find_mut g j (iv_wf _ I) Ev) as [Hl Hk]. destruct (eg_find_mut g j) as [g1 r1]. apply bind_Ok in E as (c & _ & [= <-]).
    split; [cbn; cbn in Hl; lia|]. intros k _. apply Hk.
Qed.
Lemma keep_brun g g' : brun L A nou g g' -> Inv g -> keep g g'.
Proof.
  induction 1 as [g|l g g1 Hp Hl E|g g1 g2 B1 IH1 B2 IH2|n g g1 id Hp E|n g g1 id h g2 Hp E B IH]; intros I.
  - apply keep_refl.
  - by eapply keep_prim.
  - eapply keep_trans; [by apply IH1|]. apply IH2. by eapply brun_Inv.
  - apply keep_core in E; [|done]. done.
  - assert (I1 : Inv g1) by (by eapply Inv_add). apply keep_core in E; [|done]. specialize (IH I1). eapply keep_trans; [exact E|]. exact IH.
Qed.
Lemma steady_no_union : (forall i, no_union (an_modify A i)) -> steady L A.
Proof.
  intros Hm fuel n g g' i k R E Hk. pose proof (reachable_Inv _ _ _ _ R) as I.
  assert (B : brun L A nou g g').
  { eapply api_add_runs; [|done|exact E]. apply modify_n_runs. intros id. by apply no_union_in. }
  by apply (keep_brun _ _ B I).
Qed.
End steady.

(** * Instances *)
Section inst.
Context {Op D : Type} `{Countable Op} (L : lang Op) (A : analysis Op D) (fuel here : nat).
Notation egraph := (egraph Op D).
Notation prog := (prog Op D).
Notation rewrite := (rewrite Op D).
Notation pnode := (EGraphModel.node (pop Op)).
Notation term := (term Op).
Notation md := (modify_n L A fuel).
Context (Hst : steady L A).
Implicit Types (g : egraph).

Notation reach g := (reachable L A true g).
Lemma add_keep n g g' i : reach g -> api_add A md n g = Ok (g', i) -> reach g' /\ grows g g' /\ keep g g'.
Proof.
  intros R E. destruct (api_add_step L A (fun _ => True) true fuel n g g' i) as (R' & G & _); auto. split_and!; auto. split.
  - destruct (gr_nodes _ _ G) as [l Hl]. rewrite <- (iv_len _ (reachable_Inv _ _ _ _ R)), <- (iv_len _ (reachable_Inv _ _ _ _ R')), Hl, app_length. lia.
  - intros k Hk. by eapply Hst.
Qed.
Lemma inst_loop_keep (p : list pnode) s ids g g' ids' : reach g -> add_inst_loop A md p s ids g = Ok (g', ids') ->
  reach g' /\ grows g g' /\ keep g g'.
Proof.
  revert ids g. induction p as [|n p IH]; intros ids g R E; cbn [add_inst_loop] in E.
  { injection E as <- _. split_and!; [done|by eapply grows_refl, reachable_Inv|apply keep_refl]. }
  destruct (nop n) as [f|v].
  - apply bind_Ok in E as (m & _ & E). apply bind_Ok in E as ([g1 i] & E1 & E). apply add_keep in E1 as (R1 & G1 & K1); [|done].
    apply IH in E as (R2 & G2 & K2); [|done]. split_and!; [done|by eapply grows_trans|by eapply keep_trans].
  - apply bind_Ok in E as (i & _ & E). apply bind_Ok in E as (j & _ & E). by eapply IH.
Qed.
Section terms.
Context (gF : egraph) (th : nat -> term) (s : subst).
Hypothesis Hth : forall v i, subst_get s v = Some i -> known gF i -> AddedAs (eg_log gF) (eg_find gF i) (th v).
Lemma inst_loop_terms (p0 p : list pnode) ids g g' ids' : reach g -> (exists pre, p0 = pre ++ p /\ length pre = length ids) -> pat_ok p0 ->
  (forall k i t, ids !! k = Some i -> Tree p0 k t -> AddedAs (eg_log gF) i (tsubst th t)) ->
  add_inst_loop A md p s ids g = Ok (g', ids') -> grows g' gF -> keep g' gF ->
  length ids' = length p0 /\ forall k i t, ids' !! k = Some i -> Tree p0 k t -> AddedAs (eg_log gF) i (tsubst th t).
Proof.
  revert ids g. induction p as [|[o cs] p IH]; intros ids g R (pre & Hpre & Hl) Hok Hids E GF KF; cbn [add_inst_loop] in E.
  { injection E as <- <-. rewrite app_nil_r in Hpre. subst. split; [by symmetry|exact Hids]. }
  assert (Hmid : p0 !! length pre = Some (Node o cs)) by (subst p0; by rewrite list_lookup_middle).
  assert (Hpre' : exists pre', p0 = pre' ++ p /\ length pre' = S (length ids)).
  { exists (pre ++ [Node o cs]). rewrite <- app_assoc. split; [done|]. rewrite !app_length. cbn. lia. }
  cbn [nop nch] in E. destruct o as [f|v].
  - apply bind_Ok in E as (m & Em & E). apply bind_Ok in E as ([g1 i] & E1 & E). pose proof (api_add_logs L A _ _ _ _ _ E1) as Hev.
    apply add_keep in E1 as (R1 & G1 & K1); [|done]. destruct (inst_loop_keep _ _ _ _ _ _ R1 E) as (R2 & G2 & K2).
    eapply IH; [exact R1| |exact Hok| |exact E|done|done].
    { destruct Hpre' as (pre' & ? & Hl'). exists pre'. split; [done|]. rewrite app_length. cbn. lia. }
    intros k j t Hk Ht. apply lookup_app_Some in Hk as [Hk|[Hge Hk]]; [by eapply Hids|].
    apply list_lookup_singleton_Some in Hk as [Hk <-]. assert (k = length pre) as -> by lia.
    inversion Ht as [? f0 cs0 ts Hn Hf]; subst. rewrite Hmid in Hn. injection Hn as <- <-.
    apply map_children_o_inv in Em as (Eo & Hds). cbn in Eo, Hds. destruct m as [fm ds]. cbn in *. subst fm. econstructor.
    + destruct (gr_log _ _ GF) as [h ->]. apply elem_of_app. right. destruct (gr_log _ _ G2) as [h' ->]. apply elem_of_app. right. exact Hev.
    + clear -Hds Hf Hids. revert ds Hds. induction Hf as [|c t cs0 ts0 Hc _ IHf]; intros ds Hds; inversion Hds; subst; constructor; auto.
      eapply Hids; eauto.
  - apply bind_Ok in E as (i & Ei & E). apply bind_Ok in E as (j & Ej & E). destruct (inst_loop_keep _ _ _ _ _ _ R E) as (R2 & G2 & K2).
    eapply IH; [exact R| |exact Hok| |exact E|done|done].
    { destruct Hpre' as (pre' & ? & Hl'). exists pre'. split; [done|]. rewrite app_length. cbn. lia. }
    intros k j' t Hk Ht. apply lookup_app_Some in Hk as [Hk|[Hge Hk]]; [by eapply Hids|].
    apply list_lookup_singleton_Some in Hk as [Hk <-]. assert (k = length pre) as -> by lia.
    inversion Ht as [? f0 cs0 ts Hn Hf]; subst. rewrite Hmid in Hn. injection Hn as <- <-. cbn [tsubst].
    unfold find_res in Ej. destruct (valid_id g i) eqn:Ev; [|done]. injection Ej as <-. apply Nat.ltb_lt in Ev.
    assert (KK : keep g gF) by (by eapply keep_trans). rewrite <- (proj2 KK i Ev). apply Hth.
    + unfold subst_index in Ei. by apply expect_Ok in Ei.
    + unfold known. destruct KK as [KK _]. unfold known in *. lia.
Qed.
Lemma inst_terms (p : list pnode) g g' i t : reach g -> pat_ok p -> ExprTree p t -> add_instantiation_noncanonical A md p s g = Ok (g', i) ->
  grows g' gF -> keep g' gF -> AddedAs (eg_log gF) i (tsubst th t).
Proof.
  intros R Hok [Hne Ht] E GF KF. unfold add_instantiation_noncanonical in E. apply bind_Ok in E as ([g1 ids] & E1 & E).
  apply bind_Ok in E as (j & Ej & [= -> ->]). apply expect_Ok in Ej.
  destruct (inst_loop_terms p p [] g g' ids R) as [Hl Hk]; [by exists []|done|by intros ? ? ? ?|done|done|done|].
  apply (Hk (length p - 1)); [|done]. rewrite last_lookup, Hl in Ej. rewrite <- Ej. f_equal. lia.
Qed.
End terms.
Lemma inst_keep (p : list pnode) s g g' i : reach g -> add_instantiation_noncanonical A md p s g = Ok (g', i) -> reach g' /\ grows g g' /\ keep g g'.
Proof.
  intros R E. unfold add_instantiation_noncanonical in E. apply bind_Ok in E as ([g1 ids] & E1 & E).
  apply bind_Ok in E as (j & Ej & [= -> ->]). by eapply inst_loop_keep.
Qed.
(** terms for the classes a substitution gives *)
Lemma choose_terms g (s : subst) : reach g -> forall d : term, exists th, forall v i, subst_get s v = Some i -> known g i -> AddedAs (eg_log g) (eg_find g i) (th v).
Proof.
  intros R d. pose proof (reachable_Inv _ _ _ _ R) as I.
  assert (K : forall l : list nat, exists th, forall v i, v ∈ l -> subst_get s v = Some i -> known g i -> AddedAs (eg_log g) (eg_find g i) (th v)).
  { induction l as [|v l (th & IH)]; [exists (fun _ => d); by intros v i Hv%elem_of_nil|].
    destruct (subst_get s v) as [i|] eqn:Es.
    - destruct (decide (i < length (eg_uf g))) as [Hi|Hi].
      + assert (Hk : known g (eg_find g i)) by (unfold known, eg_find; by apply uf_find_lt; [apply I|]).
        destruct (known_added L A true g (eg_find g i) R Hk) as [t Ht]. exists (fun w => if decide (w = v) then t else th w).
        intros w j Hw Ej Hj. case_decide as Hwv; [subst w; rewrite Es in Ej; by injection Ej as <-|]. apply elem_of_cons in Hw as [?|Hw]; [done|]. by apply IH.
      + exists th. intros w j Hw Ej Hj. apply elem_of_cons in Hw as [->|Hw]; [|by apply IH]. rewrite Es in Ej. by injection Ej as <-.
    - exists th. intros w j Hw Ej Hj. apply elem_of_cons in Hw as [->|Hw]; [congruence|]. by apply IH. }
  destruct (K (s.*1)) as [th Hth]. exists th. intros v i Es. apply Hth; [|done]. clear -Es.
  induction s as [|[w j] s IH]; cbn in *; [done|]. case_decide; [subst; left|right; auto].
Qed.

(** * Rules *)
Context (rules : list rewrite) (Hone : one_per_name rules) (Hacc : Forall accepted_rule rules).
Context (Hhere : not_a_rule rules here) (Hmod : forall i, reasons (not_a_rule rules) (an_modify A i)).
Definition log_ok g : Prop := rule_steps rules (asserted (eg_log g)).
Definition W g g' : Prop := reach g' /\ grows g g' /\ (log_ok g -> log_ok g').
Lemma W_refl g : reach g -> W g g.
Proof. intros R. split_and!; auto. by eapply grows_refl, reachable_Inv. Qed.
Lemma W_trans g1 g2 g3 : W g1 g2 -> W g2 g3 -> W g1 g3.
Proof. intros (R1 & G1 & O1) (R2 & G2 & O2). split_and!; auto. by eapply grows_trans. Qed.
(** an old union keeps its terms *)
Lemma old_step g g' a b r t u : reach g -> reach g' -> grows g g' -> EUnion a b r ∈ eg_log g ->
  AddedAs (eg_log g') a t -> AddedAs (eg_log g') b u -> asserted (eg_log g) r t u.
Proof.
  intros R R' G Hin Ha Hb. pose proof (reachable_Inv _ _ _ _ R) as I. destruct (iv_log _ I a b) as [La Lb]; [by exists r|]. rewrite (iv_len _ I) in La, Lb.
  destruct (known_added L A true g a R La) as [t' Ht]. destruct (known_added L A true g b R Lb) as [u' Hu].
  rewrite (added_unique L A g' a t t' R' Ha (added_grows _ _ _ _ G Ht)). rewrite (added_unique L A g' b u u' R' Hb (added_grows _ _ _ _ G Hu)).
  by exists a, b.
Qed.
Lemma only_W g g' : reach g -> reach g' -> grows g g' -> only (not_a_rule rules) g g' -> W g g'.
Proof.
  intros R R' G O. split_and!; auto. intros K rw lhs rhs t u Hin Hb (a & b & Hu & Ha & Hb'). apply O in Hu as [Hu|Hn]; [|by destruct (Hn _ _ _ Hin Hb)].
  eapply K; [done|done|]. by eapply old_step.
Qed.
Lemma run_W p g g' : reach g -> reasons (not_a_rule rules) p -> run_prog L A fuel md p g = Ok g' -> W g g'.
Proof.
  intros R Hp E. apply only_W; [done|by eapply reach_run|by eapply run_grows|]. eapply run_only; [|exact Hp|exact E]. by apply modify_only.
Qed.
Lemma add_W n g g' i : reach g -> api_add A md n g = Ok (g', i) -> W g g'.
Proof.
  intros R E. destruct (api_add_step L A (fun _ => True) true fuel n g g' i) as (R' & G & _); auto. apply only_W; auto. eapply add_only; [|exact E]. by apply modify_only.
Qed.
Lemma union_W a b g g' v : reach g -> api_union A md a b here g = Ok (g', v) -> W g g'.
Proof.
  intros R E. destruct (union_step L A (fun _ => True) true fuel a b here g g' v) as (R' & G & _); auto. apply only_W; auto. eapply union_only; [|exact Hhere|exact E]. by apply modify_only.
Qed.
Lemma apply_pat_W (p : list pnode) s g g' i : reach g -> apply_pat A md p s g = Ok (g', i) -> W g g'.
Proof.
  intros R E. unfold apply_pat in E. apply bind_Ok in E as ([g1 ids] & E1 & E). assert (g1 = g') as ->.
  { apply bind_Ok in E as (? & ? & [= <- _]). done. }
  clear E. revert E1. generalize (@nil nat). revert g R. induction p as [|n p IH]; intros g R ids0 E; cbn [apply_pat_loop] in E; [injection E as <- _; by apply W_refl|].
  destruct (nop n).
  - apply bind_Ok in E as (m & _ & E). apply bind_Ok in E as ([g1 k] & E1 & E). apply add_W in E1; [|done]. eapply W_trans; [exact E1|]. eapply IH; [apply E1|exact E].
  - apply bind_Ok in E as (k & _ & E). by eapply IH.
Qed.
Lemma union_inst_W rw lhs rhs s g g' x : rw ∈ rules -> between rw lhs rhs -> reach g ->
  union_instantiations A md lhs rhs s (rw_name rw) g = Ok (g', x) -> W g g'.
Proof.
  intros Hin Hb R E. unfold union_instantiations in E. apply bind_Ok in E as ([g1 i1] & E1 & E). apply bind_Ok in E as ([g2 i2] & E2 & E).
  apply bind_Ok in E as ([g3 did] & E3 & [= <- <-]).
  destruct (inst_keep _ _ _ _ _ R E1) as (R1 & G1 & K1). destruct (inst_keep _ _ _ _ _ R1 E2) as (R2 & G2 & K2).
  destruct (trusted_step L A (fun _ => True) true fuel i1 i2 (rw_name rw) g2 g3 did) as (R3 & G3 & _); auto.
  assert (G02 : grows g g2) by (by eapply grows_trans). assert (G03 : grows g g3) by (by eapply grows_trans).
  split_and!; [done|done|].
  intros K rw' lhs' rhs' t u Hin' Hb' (a & b & Hu & Ha & Hbb).
  pose proof (trusted_only A (not_a_rule rules) md (modify_only L A _ fuel Hmod) _ _ _ _ _ _ E3 _ _ _ Hu) as [(-> & -> & En)|[Ho|Hn]].
  - assert (rw' = rw) as -> by (by apply Hone). apply between_asts in Hb' as [Es' Ea']. pose proof Hb as [Es Ea]%between_asts.
    rewrite Es in Es'. injection Es' as <-. rewrite Ea in Ea'. injection Ea' as <-.
    pose proof (proj1 (Forall_forall _ _) Hacc rw Hin) as [_ Hg]. destruct (Hg _ _ Hb) as (Gl & _ & Gr).
    pose proof Gl as (Dl & Ol & Nl). pose proof Gr as (Dr & Or & Nr).
    assert (0 < length lhs) by (destruct lhs; [done|cbn; lia]). assert (0 < length rhs) by (destruct rhs; [done|cbn; lia]).
    destruct (dag_Tree lhs (length lhs - 1) Dl) as [tl Tl]; [lia|]. destruct (dag_Tree rhs (length rhs - 1) Dr) as [tr Tr]; [lia|].
    assert (Tl' : ExprTree lhs tl) by done. assert (Tr' : ExprTree rhs tr) by done.
    destruct (choose_terms g2 s R2 t) as [th Hth].
    pose proof (inst_terms g2 th s Hth lhs g g1 i1 tl R Ol Tl' E1 G2 K2) as A1.
    pose proof (inst_terms g2 th s Hth rhs g1 g2 i2 tr R1 Or Tr' E2 (grows_refl _ (reachable_Inv _ _ _ _ R2)) (keep_refl _)) as A2.
    exists tl, tr, th. split_and!; [done|done| |].
    + exact (added_unique L A g3 i1 t _ R3 Ha (added_grows _ _ _ _ G3 A1)).
    + exact (added_unique L A g3 i2 u _ R3 Hbb (added_grows _ _ _ _ G3 A2)).
  - assert (O2 : only (not_a_rule rules) g g2).
    { assert (Ki : forall (p : list pnode) s' h h' j, add_instantiation_noncanonical A md p s' h = Ok (h', j) -> only (not_a_rule rules) h h').
      { intros p s' h h' j Ej. unfold add_instantiation_noncanonical in Ej. apply bind_Ok in Ej as ([h1 ids] & Ej1 & Ej). apply bind_Ok in Ej as (? & _ & [= <- _]).
        clear -Ej1 Hmod. revert Ej1. generalize (@nil nat). revert h. induction p as [|n p IH]; intros h ids0 E; cbn [add_inst_loop] in E; [injection E as <- _; apply only_refl|].
        destruct (nop n).
        - apply bind_Ok in E as (m & _ & E). apply bind_Ok in E as ([h2 k] & E1 & E). eapply only_trans; [eapply add_only; [by apply (modify_only L A _ fuel)|exact E1]|by eapply IH].
        - apply bind_Ok in E as (k & _ & E). apply bind_Ok in E as (k' & _ & E). by eapply IH. }
      eapply only_trans; [by eapply Ki|by eapply Ki]. }
    apply O2 in Ho as [Ho|Hn]; [|by destruct (Hn _ _ _ Hin' Hb')]. eapply K; [done|done|]. by eapply old_step.
  - by destruct (Hn _ _ _ Hin' Hb').
Qed.
Lemma check_W c e s g g' b : condition_reasons (not_a_rule rules) c -> reach g -> check L A fuel c e s g = Ok (g', b) -> W g g'.
Proof.
  intros Hc R E. destruct c as [p1 p2|vars body test]; cbn [check] in E.
  - apply bind_Ok in E as ([g1 a1] & E1 & E). apply bind_Ok in E as ([g2 a2] & E2 & [= <- _]). apply apply_pat_W in E1; [|done].
    eapply W_trans; [exact E1|]. eapply apply_pat_W; [apply E1|exact E2].
  - apply bind_Ok in E as (g1 & E1 & [= <- _]). eapply run_W; [done|apply Hc|exact E1].
Qed.
Lemma apply_one_W rw sast a e s g g' l : rw ∈ rules -> (forall lhs rhs, sast = Some lhs -> applier_ast a = Some rhs -> between rw lhs rhs) ->
  applier_reasons (not_a_rule rules) a -> reach g ->
  apply_one L A fuel here a e s sast (rw_name rw) g = Ok (g', l) -> W g g'.
Proof.
  intros Hin. revert g. induction a as [p|asts|c a IH|vars body ret]; intros g Hb Hr R E; cbn [apply_one] in E.
  - unfold pattern_apply_one in E. apply bind_Ok in E as ([g1 i] & E1 & E). apply apply_pat_W in E1; [|done]. eapply W_trans; [exact E1|].
    destruct sast as [ast|]; apply bind_Ok in E as ([g2 x] & E2 & E).
    + destruct x as [from did]. injection E as <- _. eapply union_inst_W; [exact Hin|by apply Hb|apply E1|exact E2].
    + injection E as <- _. eapply union_W; [apply E1|exact E2].
  - done.
  - destruct Hr as [Hc Hr]. apply bind_Ok in E as ([g1 b] & E1 & E). apply check_W in E1; [|done|done]. eapply W_trans; [exact E1|].
    destruct b; [|injection E as <- _; apply W_refl, E1]. eapply IH; [done|done|apply E1|exact E].
  - apply bind_Ok in E as (g1 & E1 & [= <- _]). eapply run_W; [done|apply Hr|exact E1].
Qed.
Lemma each_W {X} (f : X -> egraph -> res (egraph * list nat)) xs g g' l : (forall x h h' k, reach h -> f x h = Ok (h', k) -> W h h') -> reach g ->
  each f xs g = Ok (g', l) -> W g g'.
Proof.
  intros Hf. revert g l. induction xs as [|x xs IH]; intros g l R E; cbn [each] in E; [injection E as <- _; by apply W_refl|].
  apply bind_Ok in E as ([g1 l1] & E1 & E). apply bind_Ok in E as ([g2 l2] & E2 & [= <- _]). apply Hf in E1; [|done]. eapply W_trans; [exact E1|]. eapply IH; [apply E1|exact E2].
Qed.
Lemma for_matches_W f ms g g' l : (forall c s h h' k, reach h -> f c s h = Ok (h', k) -> W h h') -> reach g ->
  for_matches f ms g = Ok (g', l) -> W g g'.
Proof. intros Hf. unfold for_matches. apply each_W. intros m h h' k R. apply each_W; [|done]. intros s. apply Hf. Qed.
Lemma rule_W rw ms g g' l : rw ∈ rules -> applier_reasons (not_a_rule rules) (rw_applier rw) -> reach g ->
  rewrite_apply L A fuel here rw ms g = Ok (g', l) -> W g g'.
Proof.
  intros Hin Hr R E. unfold rewrite_apply, apply_matches in E.
  assert (Hbt : forall sast lhs rhs, sast = searcher_ast (rw_searcher rw) \/ sast = None -> sast = Some lhs -> applier_ast (rw_applier rw) = Some rhs -> between rw lhs rhs).
  { intros sast lhs rhs [->| ->] ? ?; [|done]. by apply between_asts. }
  assert (Hdef : default_apply L A fuel here (rw_applier rw) (searcher_ast (rw_searcher rw)) (rw_name rw) ms g = Ok (g', l) -> W g g').
  { unfold default_apply. apply for_matches_W; [|done]. intros c s h h' k Rh. eapply apply_one_W; [done| |done|done].
    intros lhs rhs. apply Hbt. destruct (explaining h); auto. }
  destruct (rw_applier rw) as [p|asts|c a|vars body ret] eqn:Ea; [| |by apply Hdef|by apply Hdef].
  - revert E. apply for_matches_W; [|done]. intros c s h h' k Rh E. unfold pattern_apply in E. destruct (explaining h).
    + apply bind_Ok in E as (ast & Es & E). apply expect_Ok in Es. apply bind_Ok in E as ([h1 [i did]] & E1 & [= <- _]).
      eapply union_inst_W; [exact Hin| |exact Rh|exact E1]. apply (Hbt (Some ast)); [left|done|done]. done.
    + apply bind_Ok in E as ([h1 i] & E1 & E). apply bind_Ok in E as ([h2 did] & E2 & [= <- _]). apply apply_pat_W in E1; [|done].
      eapply W_trans; [exact E1|]. eapply union_W; [apply E1|exact E2].
  - revert E. apply for_matches_W; [|done]. intros c s h h' k Rh E. unfold multi_apply in E. apply bind_Ok in E as ([h1 l1] & E1 & [= <- _]).
    clear -E1 Rh Hmod Hhere. revert s h l1 Rh E1. induction asts as [|[v p] asts IH]; intros s h l1 Rh E; cbn [multi_clauses] in E; [injection E as <- _; by apply W_refl|].
    apply bind_Ok in E as ([h2 i] & E1 & E). apply apply_pat_W in E1; [|done]. destruct (subst_insert s v i) as [s' old]. apply bind_Ok in E as (h3 & E2 & E).
    apply bind_Ok in E as ([h4 l4] & E3 & [= <- _]). eapply W_trans; [exact E1|].
    assert (W23 : W h2 h3).
    { destruct old as [j|]; [|injection E2 as <-; apply W_refl, E1]. apply bind_Ok in E2 as ([h5 ?] & E2 & [= <-]). eapply union_W; [apply E1|exact E2]. }
    eapply W_trans; [exact W23|]. eapply IH; [apply W23|exact E3].
Qed.
Lemma rebuild_W g g' n : reach g -> rebuild L A fuel md g = Ok (g', n) -> W g g'.
Proof.
  intros R E. destruct (rebuild_step L A (fun _ => True) true fuel g g' n (calls_any) R E) as (R' & G & _). apply only_W; auto.
  eapply rebuild_only; [|exact E]. by apply modify_only.
Qed.
Context (clock : nat -> nat) {St Cl : Type} (sch : scheduler Op D St) (li : limits) (hooks : list (hook Op D Cl)).
Context (Hap : Forall (fun rw => applier_reasons (not_a_rule rules) (rw_applier rw)) rules).
Context (Hhk : Forall (fun h : hook Op D Cl => forall cl i, reasons (not_a_rule rules) (hk_body h cl i)) hooks).
Lemma runner_W rounds roots g st cl r : reach g -> run L A clock sch li rules fuel here hooks rounds roots g st cl = Ok (Some r) -> W g (r_eg r).
Proof.
  intros R E. eapply (run_T L A clock sch li rules fuel here hooks (fun g => reach g) W); eauto using W_refl, W_trans, rebuild_W.
  - intros h h' _ Hw. apply Hw.
  - intros h cl0 i h1 h2 Hin Rh Eh. eapply run_W; [done| |exact Eh]. rewrite Forall_forall in Hhk. by apply Hhk.
  - intros i h rw st0 ms st1 h1 h2 ids Hin Rh _ Hw Ea. eapply rule_W; [exact Hin| |apply Hw|exact Ea]. rewrite Forall_forall in Hap. by apply Hap.
Qed.
Lemma one_W r r' itn : reach (r_eg r) -> run_one L A clock sch li rules fuel here hooks r = Ok (r', itn) -> W (r_eg r) (r_eg r').
Proof.
  intros R E. eapply (one_T L A clock sch li rules fuel here hooks (fun g => reach g) W); eauto using W_refl, W_trans, rebuild_W.
  - intros h h' _ Hw. apply Hw.
  - intros h cl0 i h1 h2 Hin Rh Eh. eapply run_W; [done| |exact Eh]. rewrite Forall_forall in Hhk. by apply Hhk.
  - intros i h rw st0 ms st1 h1 h2 ids Hin Rh _ Hw Ea. eapply rule_W; [exact Hin| |apply Hw|exact Ea]. rewrite Forall_forall in Hap. by apply Hap.
Qed.
End inst.

(** * Produced explanations pass *)
Section pass.
Context {Op D : Type} `{Countable Op} (L : lang Op) (A : analysis Op D).
Lemma explained_pass (rules : list (rewrite Op D)) g fuel l r p : reachable L A true g -> Forall accepted_rule rules -> rule_steps rules (asserted (eg_log g)) ->
  known g l -> known g r -> explain_id_equivalence fuel l r g = Ok p -> check_proof rules p = Ok tt.
Proof.
  intros R Ha Hs Hl Hr E. destruct (known_added L A true g l R Hl) as [t Ht]. destruct (known_added L A true g r R Hr) as [u Hu].
  pose proof (reach_explain _ _ _ _ R) as Hx. apply bool_decide_eq_true in Hx as [x Hx].
  assert (Hp : proves (asserted (eg_log g)) p t u).
  { apply (explain_sound L A g x x fuel l r p t u R Hx eq_refl); [|done|done].
    replace (set_explain (Some x) g) with g; [done|]. unfold set_explain. rewrite <- Hx. by destruct g. }
  destruct (make_flat_ok _ _ _ _ Hp) as (fl & Ef & Hf). unfold check_proof. rewrite Ef. cbn [mbind res_bind].
  eapply (flat_check rules _ Ha Hs); [exact Hf|]. eapply arity_make_flat; [|exact Ef]. by eapply explained_arities.
Qed.
End pass.
Section more.
Context {Op D : Type} `{Countable Op} (L : lang Op) (A : analysis Op D).
Lemma no_union_reasons (S : nat -> Prop) (p : prog Op D) : no_union p -> reasons S p.
Proof. induction p; cbn; try done; auto. Qed.
Lemma explained_pass_ex (rules : list (rewrite Op D)) g l r : reachable L A true g -> Forall accepted_rule rules -> rule_steps rules (asserted (eg_log g)) ->
  known g l -> known g r -> eg_find g l = eg_find g r ->
  exists bound, forall fuel, bound <= fuel -> exists p, explain_id_equivalence fuel l r g = Ok p /\ check_proof rules p = Ok tt.
Proof.
  intros R Ha Hs Hl Hr Ef. destruct (known_added L A true g l R Hl) as [t Ht]. destruct (known_added L A true g r R Hr) as [u Hu].
  destruct (explain_valid L A g l r t u R Ht Hu Ef) as [bound Hb]. exists bound. intros fuel Hf. destruct (Hb fuel Hf) as (p & Ep & _).
  exists p. split; [done|]. exact (explained_pass L A rules g fuel l r p R Ha Hs Hl Hr Ep).
Qed.
End more.
