(** What the operations of an e-graph do to its explanations, step by step: until the length
    optimiser runs, the memo of paths holds direct rule steps only, and later it only gains
    such steps. *)
From Verif Require Import Base UnionFind Spec EGraphModel EGraphSteps EGraphInv EGraphPres EGraphRuns EGraphMain EGraphReach EGraphSafe.
Section steps.
Context {Op D : Type} `{Countable Op} (L : lang Op) (A : analysis Op D).
Notation egraph := (egraph Op D).
Notation explain := (explain Op).
Implicit Types (g : egraph) (x : explain).
Inductive xstep : explain -> explain -> Prop :=
| xs_add x n k x' : ex_add x n k = Ok x' -> xstep x x'
| xs_union x n1 n2 j x' : ex_union x n1 n2 j = Ok x' -> xstep x x'
| xs_alternate x n1 n2 r x' : alternate_rewrite x n1 n2 (JRule r) = Ok x' -> xstep x x'.
Definition xrun g g' : Prop := forall x, eg_explain g = Some x -> exists x', eg_explain g' = Some x' /\ rtc xstep x x'.
Lemma xrun_same g g' : eg_explain g' = eg_explain g -> xrun g g'.
Proof. intros E x Hx. exists x. rewrite E. split; [done|apply rtc_refl]. Qed.
Lemma xrun_trans g1 g2 g3 : xrun g1 g2 -> xrun g2 g3 -> xrun g1 g3.
Proof. intros R1 R2 x Hx. destruct (R1 x Hx) as (y & Hy & S1). destruct (R2 y Hy) as (z & Hz & S2). exists z. split; [done|]. by etrans. Qed.
Lemma xrun_add n g g' id o : Inv g -> add_core A n g = Ok (g', id, o) -> xrun g g'.
Proof.
  intros I E. apply add_core_spec in E as [_ Hs]; [|apply I].
  destruct Hs as [e id He Hid|e x x1 x2 u He Hx Hxn Hxa Hxu Hu|u cls' ex' Hm Hw Hl Hf Hcls Hex]; [by apply xrun_same| |].
  - intros y Hy. rewrite Hx in Hy. injection Hy as <-. exists x2. split; [done|].
    eapply rtc_l; [by eapply xs_add|]. apply rtc_once. by eapply xs_union.
  - intros y Hy. rewrite Hy in Hex. destruct Hex as (x' & Ex' & ->). exists x'. split; [done|]. apply rtc_once. by eapply xs_add.
Qed.
Lemma xrun_union_core a b rule g g' o : uf_wf (eg_uf g) -> perform_union_core A a b rule g = Ok (g', o) -> xrun g g'.
Proof.
  intros I E. apply perform_union_core_spec in E as (_ & _ & Hs); [|done].
  destruct Hs as [u ex' Hsame He Hex|id1 id2 k1 k2 dd did1 did2 u ex' Hids Hne E1 E2 Hlen Htie Hcid Hm Hw' Hl Hf Hex]; intros y Hy; cbn in Hy, Hex; rewrite Hy in Hex.
  - destruct rule as [[r|]|].
    + destruct Hex as (x' & Ea & ->). exists x'. split; [done|]. apply rtc_once. by eapply xs_alternate.
    + subst. exists y. split; [done|apply rtc_refl].
    + subst. exists y. split; [done|apply rtc_refl].
  - destruct Hex as (j & x' & _ & Eu & ->). exists x'. split; [done|]. apply rtc_once. by eapply xs_union.
Qed.
Lemma xrun_brun P g0 g : brun L A P g0 g -> Inv g0 -> xrun g0 g.
Proof.
  induction 1 as [g|l g g1 Hpl HP Hp|g g1 g2 R1 IH1 R2 IH2|n g g1 id HP E|n g g1 id h g2 HP E R IH]; intros I.
  - by apply xrun_same.
  - destruct Hp as [n g g' id o E|g|n i g|a b r rule g g' o Hr E|c rest g g' o Ep E|id q g g' o Eq E
      |i d g g' r E|i d g g' E|i f g g' E|g Ep Eq]; try done; try (by apply xrun_same).
    + eapply xrun_trans; [by apply (xrun_same g (add_log (EUnion a b r) g))|]. eapply xrun_union_core; [|exact E]. apply I.
    + unfold pending_core in E. inv_res. cbn in H0.
      destruct (canon_mut_spec (eg_uf g) x (iv_wf _ I)) as (u & Eu & He).
      { apply Forall_forall. intros k Hk. pose proof (ci_ch _ _ _ _ _ _ _ (iv_c _ I) _ _ _ H0 Hk).
        pose proof (lookup_lt_Some _ _ _ H0). rewrite <- (iv_len _ I). lia. }
      cbn in E. rewrite Eu in E. cbn in E. destruct (eg_memo g !! _); inv_res; [|by apply xrun_same].
      eapply xrun_union_core in E; [|apply He]. intros y Hy. by apply E.
    + unfold analysis_core, eg_find_mut in E. inv_res. cbn in *. destruct (uf_find_mut _ _). inv_res.
      destruct (an_merge A _ _) as [? [[] ?]]; inv_res; by apply xrun_same.
    + unfold set_data_core, eg_find_mut in E. destruct (negb _); [done|]. destruct (uf_find_mut _ _). inv_res. by apply xrun_same.
    + unfold poke_data, eg_find_mut in E. destruct (negb _); [done|]. destruct (uf_find_mut _ _). inv_res. by apply xrun_same.
    + unfold retain_nodes, eg_find_mut in E. destruct (negb _); [done|]. destruct (uf_find_mut _ _). inv_res. by apply xrun_same.
    + unfold rebuild_classes. destruct (foldl _ _ _) as [[? ?] ?]. by apply xrun_same.
  - eapply xrun_trans; [by apply IH1|]. apply IH2. by eapply brun_Inv.
  - eapply xrun_trans; [by eapply xrun_add|]. by apply xrun_same.
  - eapply xrun_trans; [by eapply xrun_add|]. eapply xrun_trans; [apply IH; by eapply Inv_add|]. by apply xrun_same.
Qed.

(** ** Direct steps only *)
Definition Direct g : Prop := forall x, eg_explain g = Some x -> direct x.
Lemma direct_xsteps x x' : rtc xstep x x' -> direct x -> direct x'.
Proof.
  induction 1 as [|x y z S _ IH]; [done|]. intros Hd. apply IH. destruct S.
  - by eapply direct_add.
  - by eapply direct_union.
  - by eapply direct_alternate.
Qed.
Lemma reach_Direct ex g : reachable L A ex g -> Direct g.
Proof.
  intros R%reachable_brun y Hy. pose proof (brun_explain L A _ _ _ R (Inv_new _)) as Ee. destruct ex.
  - destruct (xrun_brun _ _ _ R (Inv_new _) _ eq_refl) as (x' & Hx' & S). rewrite Hy in Hx'. injection Hx' as <-.
    eapply direct_xsteps; [exact S|]. intros a b c n Hn. cbn in Hn. by rewrite lookup_empty in Hn.
  - rewrite Hy in Ee. by rewrite bool_decide_eq_true_2 in Ee by eauto.
Qed.

(** ** Gaining direct steps *)
Definition hop_rule (x : explain) (a b : nat) : Prop := exists k, k ∈ nbs (ex_find x) a /\ cn_next k = b /\ cn_just k <> JCong.
Record gained x x' : Prop := {
  ga_nbs : forall i c, c ∈ nbs (ex_find x) i -> c ∈ nbs (ex_find x') i;
  ga_old : forall a b, is_Some (ex_short x !! (a, b)) -> is_Some (ex_short x' !! (a, b));
  ga_new : forall a b k n, ex_short x' !! (a, b) = Some (k, n) -> ex_short x !! (a, b) = Some (k, n) \/ (n = b /\ hop_rule x' a b);
}.
Lemma hop_rule_mono x x' a b : (forall i c, c ∈ nbs (ex_find x) i -> c ∈ nbs (ex_find x') i) -> hop_rule x a b -> hop_rule x' a b.
Proof. intros Hs (k & Hk & ?). exists k. auto. Qed.
Lemma gained_refl x : gained x x.
Proof. split; auto. Qed.
Lemma gained_trans x y z : gained x y -> gained y z -> gained x z.
Proof.
  intros [N1 O1 W1] [N2 O2 W2]. split; auto. intros a b k n Hn. destruct (W2 _ _ _ _ Hn) as [Hy|?]; [|by right].
  destruct (W1 _ _ _ _ Hy) as [?|[-> ?]]; [by left|]. right. split; [done|]. by eapply hop_rule_mono.
Qed.
Lemma gained_pair x n1 n2 r f' m : (forall i c, c ∈ nbs (ex_find x) i -> c ∈ nbs f' i) ->
  Conn n2 n1 (JRule r) true ∈ nbs f' n1 -> Conn n1 n2 (JRule r) false ∈ nbs f' n2 ->
  gained x (Explain f' m (<[(n2, n1) := (1, n1)]> (<[(n1, n2) := (1, n2)]> (ex_short x)))).
Proof.
  intros Hs H1 H2. split; [done| |]; cbn [ex_short].
  - intros a b Hab. rewrite !lookup_insert_is_Some'. auto.
  - intros a b k n [[[= <- <-] [= _ <-]]|[_ Hn]]%lookup_insert_Some.
    { right. split; [done|]. eexists. split; [exact H2|]. done. }
    apply lookup_insert_Some in Hn as [[[= <- <-] [= _ <-]]|[_ Hn]]; [|by left]. right. split; [done|]. eexists. split; [exact H1|]. done.
Qed.
Lemma gained_push x n1 n2 r f m : (forall i, nbs f i = nbs (ex_find x) i) -> forall y z, f !! n1 = Some y -> <[n1 := xn_push (Conn n2 n1 (JRule r) true) y]> f !! n2 = Some z ->
  forall f', (forall i, nbs f' i = nbs (<[n2 := xn_push (Conn n1 n2 (JRule r) false) z]> (<[n1 := xn_push (Conn n2 n1 (JRule r) true) y]> f)) i) ->
  gained x (Explain f' m (<[(n2, n1) := (1, n1)]> (<[(n1, n2) := (1, n2)]> (ex_short x)))).
Proof.
  intros Hf y z Hy Hz f' Hf'.
  assert (Hn : forall i, nbs f' i = (if decide (i = n2) then (if decide (i = n1) then nbs (ex_find x) i ++ [Conn n2 n1 (JRule r) true] else nbs (ex_find x) i) ++ [Conn n1 n2 (JRule r) false]
       else if decide (i = n1) then nbs (ex_find x) i ++ [Conn n2 n1 (JRule r) true] else nbs (ex_find x) i)).
  { intros i. rewrite Hf'. erewrite nbs_push by eauto. erewrite nbs_push by eauto. by rewrite Hf. }
  apply (gained_pair x n1 n2 r).
  - intros i c Hc. rewrite Hn. repeat case_decide; set_solver.
  - rewrite Hn. repeat case_decide; try done; set_solver.
  - rewrite Hn, decide_True by done. apply elem_of_app. right. by left.
Qed.
Lemma gained_xstep x x' : xstep x x' -> gained x x'.
Proof.
  intros S. destruct S as [x n k x' E|x n1 n2 j x' E|x n1 n2 r x' E].
  - unfold ex_add in E. destruct (_ =? k); [|done]. injection E as <-. split; [|auto|auto].
    intros i c. unfold nbs. cbn [ex_find]. destruct (ex_find x !! i) as [nd|] eqn:Hnd; [|by intros ?%elem_of_nil].
    by rewrite (lookup_app_l_Some _ _ _ _ Hnd).
  - unfold ex_union in E. destruct (make_leader _ _ _) as [f0| |] eqn:El; try done. cbn [mbind res_bind] in E.
    pose proof (make_leader_nbs _ _ _ _ El) as Hl.
    destruct (f0 !! n1) as [y|] eqn:Hy; [|done]. cbn [expect mbind res_bind] in E.
    destruct (<[n1:=_]> f0 !! n2) as [z|] eqn:Hz; [|done]. cbn [expect mbind res_bind] in E.
    destruct (<[n2:=_]> _ !! n1) as [w|] eqn:Hw; [|done]. cbn [expect mbind res_bind] in E. injection E as <-. destruct j as [r|].
    + apply (gained_push x n1 n2 r f0 _ Hl y z Hy Hz). intros i. by erewrite nbs_insert_same by eauto.
    + split; [|auto|auto]. intros i c Hc. cbn [ex_find]. erewrite nbs_insert_same by eauto. erewrite nbs_push by eauto. erewrite nbs_push by eauto.
      rewrite Hl. repeat case_decide; set_solver.
  - unfold alternate_rewrite in E. case_decide as Hd; [injection E as <-; apply gained_refl|].
    destruct (ex_short x !! (n1, n2)) as [[[|[|k]] nx]|]; try (injection E as <-; apply gained_refl);
    (destruct (ex_find x !! n1) as [y|] eqn:Hy; [|done]; cbn [expect mbind res_bind] in E;
     destruct (<[n1:=_]> (ex_find x) !! n2) as [z|] eqn:Hz; [|done]; cbn [expect mbind res_bind] in E; injection E as <-;
     exact (gained_push x n1 n2 r (ex_find x) _ ltac:(done) y z Hy Hz _ ltac:(done))).
Qed.
Lemma gained_xsteps x x' : rtc xstep x x' -> gained x x'.
Proof. induction 1 as [|x y z S _ IH]; [apply gained_refl|]. eapply gained_trans; [by apply gained_xstep|done]. Qed.
End steps.
