(** [find_cycles]: the reported e-nodes break every cycle, and each is on a cycle. *)
From Verif Require Import Base UnionFind EGraphModel EGraphSteps EGraphInv EGraphPres EGraphRuns Spec EGraphMain EGraphReach
  Terms RecExprModel RecExprProofs ExprModel MachineModel LpModel LpSpec.

Section cycles.
Context {Op D : Type} `{Countable Op} (g : egraph Op D).
Notation node := (node Op).
Notation colors := (gmap nat color).
Notation stack := (list (bool * nat)).
Notation key c := (is_Some (eg_classes g !! c)).
Notation edge := (uses g []).
Context (Hof : forall c k, eg_classes g !! c = Some k -> class_of g c = Ok k).
Context (Hch : forall c k n v, eg_classes g !! c = Some k -> n ∈ c_nodes k -> v ∈ nch n -> key v).

Lemma uses_mono rep rep' u v : rep ⊆ rep' -> uses g rep' u v -> uses g rep u v.
Proof. intros Hs (k & i & n & Hk & Hi & Hr & Hv). exists k, i, n. split_and!; auto. Qed.
Lemma uses_edge rep u v : uses g rep u v -> edge u v.
Proof. apply uses_mono. intros x Hx. by apply elem_of_nil in Hx. Qed.
Lemma uses_key rep u v : uses g rep u v -> key u /\ key v.
Proof. intros (k & i & n & Hk & Hi & Hr & Hv). split; [eauto|]. eapply Hch; [done| |done]. by eapply elem_of_list_lookup_2. Qed.

(** ** One class *)
Lemma scan_children_spec id i (col : colors) cs : (forall v, v ∈ cs -> is_Some (col !! v)) -> forall st rep, exists pu rep',
  scan_children id i col cs st rep = Ok (pu ++ st, rep') /\ rep ⊆ rep' /\
  (forall x, x ∈ pu <-> exists v, x = (true, v) /\ v ∈ cs /\ col !! v = Some White) /\
  (forall x, x ∈ rep' -> x ∈ rep \/ x = (id, i) /\ exists v, v ∈ cs /\ col !! v = Some Gray) /\
  (forall v, v ∈ cs -> col !! v = Some Gray -> (id, i) ∈ rep').
Proof.
  induction cs as [|c cs IH]; intros Hk st rep.
  { exists [], rep. cbn. split_and!; auto. - intros x. split; [by intros Hx%elem_of_nil|]. intros (v & _ & Hv & _). by apply elem_of_nil in Hv.
    - intros v Hv. by apply elem_of_nil in Hv. }
  assert (Hk' : forall v, v ∈ cs -> is_Some (col !! v)) by (intros; apply Hk; by right).
  destruct (Hk c) as [x Hc]; [left|]. cbn [scan_children]. rewrite Hc. cbn [expect mbind res_bind]. destruct x.
  - destruct (IH Hk' ((true, c) :: st) rep) as (pu & rep' & E & Hs & Hp & Hr & Hg). exists (pu ++ [(true, c)]), rep'. rewrite <- app_assoc. split_and!; auto.
    + intros x. rewrite elem_of_app, Hp, elem_of_list_singleton. setoid_rewrite elem_of_cons. naive_solver.
    + intros x Hx. destruct (Hr x Hx) as [?|(-> & v & Hv & Hg')]; [by left|]. right. split; [done|]. exists v. split; [by right|done].
    + intros v [->|Hv]%elem_of_cons Hw; [congruence|by eapply Hg].
  - destruct (IH Hk' st (rep ++ [(id, i)])) as (pu & rep' & E & Hs & Hp & Hr & Hg). exists pu, rep'. split_and!; auto.
    + intros x Hx. apply Hs, elem_of_app. by left.
    + intros x. rewrite Hp. setoid_rewrite elem_of_cons. naive_solver.
    + intros x Hx. destruct (Hr x Hx) as [[?|Hx']%elem_of_app|(-> & v & Hv & Hg')]; [by left| |].
      * apply elem_of_list_singleton in Hx'. right. split; [done|]. exists c. split; [left|done].
      * right. split; [done|]. exists v. split; [by right|done].
    + intros v [->|Hv]%elem_of_cons Hw; [apply Hs, elem_of_app; right; left|by eapply Hg].
  - destruct (IH Hk' st rep) as (pu & rep' & E & Hs & Hp & Hr & Hg). exists pu, rep'. split_and!; auto.
    + intros x. rewrite Hp. setoid_rewrite elem_of_cons. naive_solver.
    + intros x Hx. destruct (Hr x Hx) as [?|(-> & v & Hv & Hg')]; [by left|]. right. split; [done|]. exists v. split; [by right|done].
    + intros v [->|Hv]%elem_of_cons Hw; [congruence|by eapply Hg].
Qed.
Lemma scan_nodes_spec id (col : colors) (ns : list node) : (forall n v, n ∈ ns -> v ∈ nch n -> is_Some (col !! v)) -> forall i st rep, exists pu rep',
  scan_nodes id i col ns st rep = Ok (pu ++ st, rep') /\ rep ⊆ rep' /\
  (forall x, x ∈ pu <-> exists v n, x = (true, v) /\ n ∈ ns /\ v ∈ nch n /\ col !! v = Some White) /\
  (forall x, x ∈ rep' -> x ∈ rep \/ exists j n v, x = (id, i + j) /\ ns !! j = Some n /\ v ∈ nch n /\ col !! v = Some Gray) /\
  (forall j n v, ns !! j = Some n -> v ∈ nch n -> col !! v = Some Gray -> (id, i + j) ∈ rep').
Proof.
  induction ns as [|n ns IH]; intros Hk i st rep.
  { exists [], rep. cbn. split_and!; auto; [|by intros j n v Hj]. intros x. split; [by intros Hx%elem_of_nil|]. intros (v & n & _ & Hn & _). by apply elem_of_nil in Hn. }
  cbn [scan_nodes]. destruct (scan_children_spec id i col (nch n)) with (st := st) (rep := rep) as (p1 & r1 & E1 & S1 & P1 & R1 & G1).
  { intros v Hv. eapply Hk; [left|done]. }
  rewrite E1. cbn [mbind res_bind].
  destruct (IH ltac:(intros; eapply Hk; [by right|done]) (S i) (p1 ++ st) r1) as (p2 & r2 & E2 & S2 & P2 & R2 & G2).
  exists (p2 ++ p1), r2. rewrite <- app_assoc. split_and!; auto.
  - by etrans.
  - intros x. rewrite elem_of_app, P1, P2. setoid_rewrite elem_of_cons. naive_solver.
  - intros x Hx. destruct (R2 x Hx) as [Hx'|(j & m & v & -> & Hj & Hv & Hw)].
    + destruct (R1 x Hx') as [?|(-> & v & Hv & Hw)]; [by left|]. right. exists 0, n, v. rewrite Nat.add_0_r. done.
    + right. exists (S j), m, v. rewrite Nat.add_succ_r. done.
  - intros [|j] m v Hj Hv Hw; cbn in Hj.
    + injection Hj as ->. rewrite Nat.add_0_r. apply S2. by eapply G1.
    + rewrite Nat.add_succ_r. by eapply (G2 j).
Qed.

(** ** The invariant; [blk] lists the classes left so far, the last one first *)
Record cyc (col : colors) (st : stack) (rep : list (nat * nat)) (blk : list nat) : Prop := {
  cy_dom : forall c, is_Some (col !! c) <-> key c;
  cy_st : forall b c, (b, c) ∈ st -> key c;
  cy_all : forall c, key c -> c ∈ blk \/ exists b, (b, c) ∈ st;
  cy_false : forall c, (false, c) ∈ st -> col !! c <> Some White;
  cy_white : forall top b c rest, st = top ++ (b, c) :: rest -> col !! c <> Some White -> forall v, edge c v -> col !! v = Some White -> (true, v) ∈ top;
  cy_done : forall top b c rest, st = top ++ (b, c) :: rest -> col !! c <> Some White -> forall v, uses g rep c v -> v ∈ blk \/ exists b', (b', v) ∈ top;
  cy_black : forall c, col !! c = Some Black -> c ∈ blk;
  cy_blk : forall l1 c l2, blk = l1 ++ c :: l2 -> forall v, uses g rep c v -> v ∈ l2;
  cy_gray : forall c, col !! c = Some Gray -> (false, c) ∈ st;
  cy_path : forall top v rest, st = top ++ (false, v) :: rest -> forall b x, (b, x) ∈ top -> rtc edge v x;
  cy_rep : forall u i, (u, i) ∈ rep -> exists k n v, eg_classes g !! u = Some k /\ c_nodes k !! i = Some n /\ v ∈ nch n /\ rtc edge v u;
}.

Lemma split_cons {X} (x : X) l top y rest : x :: l = top ++ y :: rest -> (top = [] /\ x = y /\ l = rest) \/ exists top', top = x :: top' /\ l = top' ++ y :: rest.
Proof. destruct top as [|z top]; cbn; intros E; [injection E as <- <-; by left|]. injection E as <- ->. right. eauto. Qed.
Lemma split_app {X} (p l : list X) top y rest : p ++ l = top ++ y :: rest ->
  y ∈ p \/ exists top', top = p ++ top' /\ l = top' ++ y :: rest.
Proof.
  revert top. induction p as [|x p IH]; intros top E; cbn in E; [right; exists top; done|].
  apply split_cons in E as [(-> & -> & _)|(top' & -> & E)]; [left; left|]. destruct (IH _ E) as [?|(t2 & -> & El)]; [left; by right|]. right. exists t2. done.
Qed.

Lemma cyc_enter col st rep blk id k : cyc col ((true, id) :: st) rep blk -> eg_classes g !! id = Some k ->
  exists pu rep', scan_nodes id 0 (<[id := Gray]> col) (c_nodes k) ((false, id) :: st) rep = Ok (pu ++ (false, id) :: st, rep') /\
    cyc (<[id := Gray]> col) (pu ++ (false, id) :: st) rep' blk /\
    (forall x, x ∈ pu -> exists v, x = (true, v) /\ edge id v /\ <[id := Gray]> col !! v = Some White) /\
    (col !! id <> Some White -> pu = []).
Proof.
  intros C Hk.
  assert (Hcol : forall v, is_Some (<[id := Gray]> col !! v) <-> key v).
  { intros v. destruct (decide (v = id)) as [->|Hne]; [rewrite lookup_insert; split; eauto|]. rewrite lookup_insert_ne by done. apply C. }
  destruct (scan_nodes_spec id (<[id := Gray]> col) (c_nodes k)) with (i := 0) (st := (false, id) :: st) (rep := rep) as (pu & rep' & E & Hs & Hp & Hr & Hg).
  { intros n v Hn Hv. apply Hcol. by eapply Hch. }
  assert (Hpu : forall v, edge id v -> <[id := Gray]> col !! v = Some White -> (true, v) ∈ pu).
  { intros v (k' & i & n & Hk' & Hi & _ & Hv) Hw. rewrite Hk in Hk'. injection Hk' as <-. apply Hp. exists v, n. split_and!; try done. by eapply elem_of_list_lookup_2. }
  assert (Hpe : forall x, x ∈ pu -> exists v, x = (true, v) /\ edge id v /\ <[id := Gray]> col !! v = Some White).
  { intros x Hx. apply Hp in Hx as (v & n & -> & Hn & Hv & Hw). exists v. split_and!; try done. apply elem_of_list_lookup in Hn as [i Hi].
    exists k, i, n. split_and!; try done. apply not_elem_of_nil. }
  assert (Hgr : forall v, col !! v = Some Gray -> rtc edge v id).
  { intros v Hv. apply (cy_gray _ _ _ _ C) in Hv. apply elem_of_cons in Hv as [[=]|Hv]. apply elem_of_list_split in Hv as (t & r & ->).
    eapply (cy_path _ _ _ _ C ((true, id) :: t) v r); [done|left]. }
  assert (Hdone : forall v, uses g rep' id v -> v ∈ blk \/ exists b', (b', v) ∈ pu).
  { intros v Hu. pose proof Hu as (k' & i & n & Hk' & Hi & Hnr & Hv). rewrite Hk in Hk'. injection Hk' as <-.
    destruct (proj2 (Hcol v)) as [c Hc]; [exact (proj2 (uses_key _ _ _ Hu))|]. destruct c.
    - right. exists true. apply Hpu; [by eapply uses_edge|done].
    - destruct Hnr. by apply (Hg i n v).
    - left. apply (cy_black _ _ _ _ C). rewrite lookup_insert_ne in Hc; [done|]. intros <-. by rewrite lookup_insert in Hc. }
  exists pu, rep'. split_and!; [done| |done|].
  - split.
    + done.
    + intros b c [Hx|[Hx|Hx]%elem_of_cons]%elem_of_app.
      * apply Hpe in Hx as (v & [= -> ->] & Hv & _). exact (proj2 (uses_key _ _ _ Hv)).
      * injection Hx as -> ->. eauto.
      * eapply (cy_st _ _ _ _ C). by right.
    + intros c Hc. destruct (cy_all _ _ _ _ C c Hc) as [?|(b & [[= -> ->]|Hb]%elem_of_cons)]; [by left|right..].
      * exists false. apply elem_of_app. right. left.
      * exists b. apply elem_of_app. right. by right.
    + intros c [Hx|[[= ->]|Hx]%elem_of_cons]%elem_of_app.
      * apply Hpe in Hx as (v & [=] & _).
      * by rewrite lookup_insert.
      * destruct (decide (c = id)) as [->|Hne]; [by rewrite lookup_insert|]. rewrite lookup_insert_ne by done. apply (cy_false _ _ _ _ C). by right.
    + intros top b c rest Es Hc v Hv Hw. apply split_app in Es as [Hx|(t2 & -> & Es)].
      { apply Hpe in Hx as (v' & [= -> ->] & _ & Hw'). done. }
      apply split_cons in Es as [(-> & [= <- <-] & _)|(t3 & -> & ->)]; [rewrite app_nil_r; by apply Hpu|].
      destruct (decide (c = id)) as [->|Hne]; [apply elem_of_app; left; by apply Hpu|].
      rewrite lookup_insert_ne in Hc by done.
      assert (Hvi : v <> id) by (intros ->; by rewrite lookup_insert in Hw). rewrite lookup_insert_ne in Hw by done.
      apply elem_of_app. right. right. specialize (cy_white _ _ _ _ C ((true, id) :: t3) b c rest eq_refl Hc v Hv Hw) as Hin.
      apply elem_of_cons in Hin as [[= Hx]|Hin]; [by destruct Hvi|done].
    + intros top b c rest Es Hc v Hv. apply split_app in Es as [Hx|(t2 & -> & Es)].
      { apply Hpe in Hx as (v' & [= -> ->] & _ & Hw'). done. }
      apply split_cons in Es as [(-> & [= <- <-] & _)|(t3 & -> & ->)]; [rewrite app_nil_r; by apply Hdone|].
      destruct (decide (c = id)) as [->|Hne].
      { destruct (Hdone v Hv) as [?|[b' Hb]]; [by left|]. right. exists b'. apply elem_of_app. by left. }
      rewrite lookup_insert_ne in Hc by done.
      destruct (cy_done _ _ _ _ C ((true, id) :: t3) b c rest eq_refl Hc v) as [?|(b' & [[= -> ->]|Hb]%elem_of_cons)]; [by eapply uses_mono|by left|right..].
      * exists false. apply elem_of_app. right. left.
      * exists b'. apply elem_of_app. right. by right.
    + intros c Hc. apply (cy_black _ _ _ _ C). destruct (decide (c = id)) as [->|Hne]; [by rewrite lookup_insert in Hc|]. by rewrite lookup_insert_ne in Hc.
    + intros l1 c l2 El v Hv. eapply (cy_blk _ _ _ _ C); [done|]. by eapply uses_mono.
    + intros c Hc. apply elem_of_app. right. destruct (decide (c = id)) as [->|Hne]; [left|]. rewrite lookup_insert_ne in Hc by done.
      apply (cy_gray _ _ _ _ C), elem_of_cons in Hc as [[=]|Hc]. by right.
    + intros top v rest Es b x Hx. apply split_app in Es as [Hy|(t2 & -> & Es)].
      { by apply Hpe in Hy as (v' & [=] & _). }
      apply split_cons in Es as [(-> & [= <-] & _)|(t3 & -> & ->)].
      * rewrite app_nil_r in Hx. apply Hpe in Hx as (v' & [= -> ->] & He & _). by apply rtc_once.
      * assert (Hid : rtc edge v id). { eapply (cy_path _ _ _ _ C ((true, id) :: t3) v rest); [done|left]. }
        apply elem_of_app in Hx as [Hx|[[= -> ->]|Hx]%elem_of_cons].
        -- apply Hpe in Hx as (v' & [= -> ->] & He & _). by eapply rtc_r.
        -- done.
        -- eapply (cy_path _ _ _ _ C ((true, id) :: t3) v rest); [done|by right].
    + intros u i Hu. destruct (Hr _ Hu) as [Hu'|(j & n & v & [= -> ->] & Hj & Hv & Hw)]; [by apply (cy_rep _ _ _ _ C)|].
      exists k, n, v. cbn. split_and!; try done. destruct (decide (v = id)) as [->|Hne]; [done|]. rewrite lookup_insert_ne in Hw by done. by apply Hgr.
  - intros Hnw. destruct pu as [|x pu]; [done|]. exfalso. destruct (Hpe x) as (v & -> & He & Hw); [left|].
    assert (Hvi : v <> id) by (intros ->; by rewrite lookup_insert in Hw). rewrite lookup_insert_ne in Hw by done.
    pose proof (cy_white _ _ _ _ C [] true id st eq_refl Hnw v He Hw) as Hin. by apply elem_of_nil in Hin.
Qed.
Lemma cyc_exit col st rep blk id : cyc col ((false, id) :: st) rep blk -> cyc (<[id := Black]> col) st rep (id :: blk).
Proof.
  intros C. assert (Hid : key id) by (eapply (cy_st _ _ _ _ C); left). assert (Hnw : col !! id <> Some White) by (apply (cy_false _ _ _ _ C); left).
  assert (Hw : forall v, <[id := Black]> col !! v = Some White -> col !! v = Some White /\ v <> id).
  { intros v Hv. destruct (decide (v = id)) as [->|Hne]; [by rewrite lookup_insert in Hv|]. by rewrite lookup_insert_ne in Hv. }
  assert (Hw' : forall v, <[id := Black]> col !! v <> Some White -> col !! v <> Some White).
  { intros v Hv. destruct (decide (v = id)) as [->|Hne]; [done|]. by rewrite lookup_insert_ne in Hv. }
  split.
  - intros v. destruct (decide (v = id)) as [->|Hne]; [rewrite lookup_insert; split; eauto|]. rewrite lookup_insert_ne by done. apply C.
  - intros b c Hc. eapply (cy_st _ _ _ _ C). by right.
  - intros c Hc. destruct (cy_all _ _ _ _ C c Hc) as [?|(b & [[= -> ->]|Hb]%elem_of_cons)]; [left; by right|left; left|right; eauto].
  - intros c Hc Hwc. apply Hw in Hwc as [Hwc _]. by apply (cy_false _ _ _ _ C c); [right|].
  - intros top b c rest -> Hc v Hv Hvw. apply Hw in Hvw as [Hvw _]. apply Hw' in Hc.
    pose proof (cy_white _ _ _ _ C ((false, id) :: top) b c rest eq_refl Hc v Hv Hvw) as Hin. by apply elem_of_cons in Hin as [[=]|Hin].
  - intros top b c rest -> Hc v Hv. apply Hw' in Hc.
    destruct (cy_done _ _ _ _ C ((false, id) :: top) b c rest eq_refl Hc v Hv) as [?|(b' & [[= -> ->]|Hb]%elem_of_cons)]; [left; by right|left; left|right; eauto].
  - intros c Hc. destruct (decide (c = id)) as [->|Hne]; [left|]. rewrite lookup_insert_ne in Hc by done. right. by apply (cy_black _ _ _ _ C).
  - intros l1 c l2 El v Hv. apply split_cons in El as [(-> & -> & <-)|(l3 & -> & ->)]; [|by eapply (cy_blk _ _ _ _ C)].
    destruct (cy_done _ _ _ _ C [] false c st eq_refl Hnw v Hv) as [?|(b' & Hb)]; [done|by apply elem_of_nil in Hb].
  - intros c Hc. destruct (decide (c = id)) as [->|Hne]; [by rewrite lookup_insert in Hc|]. rewrite lookup_insert_ne in Hc by done.
    apply (cy_gray _ _ _ _ C), elem_of_cons in Hc as [[= ->]|Hc]; done.
  - intros top v rest -> b x Hx. eapply (cy_path _ _ _ _ C ((false, id) :: top) v rest); [done|by right].
  - apply C.
Qed.

(** ** Termination *)
Definition weight (st : stack) : nat := sum_list ((fun x : bool * nat => if x.1 then 2 else 1) <$> st).
Lemma filter_shrinks {X} (P Q : X -> Prop) `{!forall x, Decision (P x), !forall x, Decision (Q x)} l x : (forall x, Q x -> P x) -> x ∈ l -> P x -> ~ Q x ->
  length (filter Q l) < length (filter P l).
Proof.
  intros Hs Hin HP HQ. assert (Hle : forall l, length (filter Q l) <= length (filter P l)).
  { clear l Hin. induction l as [|y l IH]; [done|]. rewrite !filter_cons. destruct (decide (Q y)); [rewrite decide_True by auto; cbn; lia|]. destruct (decide (P y)); cbn; lia. }
  apply elem_of_list_split in Hin as (l1 & l2 & ->). rewrite !filter_app, !app_length, !filter_cons. destruct (decide (Q x)); [done|]. destruct (decide (P x)); [|done]. cbn.
  pose proof (Hle l1). pose proof (Hle l2). lia.
Qed.
Lemma cycles_loop_ok o : (forall c, key c -> c ∈ o) -> forall w s col st rep blk, length (filter (fun c => col !! c = Some White) o) = w -> weight st = s -> cyc col st rep blk ->
  exists bound rep' blk', (forall fuel, bound <= fuel -> cycles_loop fuel g col st rep = Ok rep') /\ exists col', cyc col' [] rep' blk'.
Proof.
  intros Ho. induction w as [w IHw] using lt_wf_ind. induction s as [s IHs] using lt_wf_ind. intros col st rep blk Hw Hs C.
  destruct st as [|[b id] st].
  { exists 0, rep, blk. split; [|eauto]. intros [|fuel] _; done. }
  assert (Hid : key id) by (eapply (cy_st _ _ _ _ C); left). pose proof Hid as [k Hk]. destruct (proj2 (cy_dom _ _ _ _ C id) Hid) as [x Hx].
  assert (Hgo : exists col' st' rep1 blk1, (forall fuel, cycles_loop (S fuel) g col ((b, id) :: st) rep = cycles_loop fuel g col' st' rep1) /\ cyc col' st' rep1 blk1 /\
    (length (filter (fun c => col' !! c = Some White) o) < w \/ length (filter (fun c => col' !! c = Some White) o) = w /\ weight st' < s)).
  { destruct b.
    - destruct (cyc_enter _ _ _ _ _ _ C Hk) as (pu & rep' & E & C' & Hpe & Hnil). exists (<[id := Gray]> col), (pu ++ (false, id) :: st), rep', blk. split_and!; [|done|].
      { intros fuel. cbn [cycles_loop]. rewrite Hx. cbn [expect mbind res_bind]. rewrite (Hof _ _ Hk). cbn [mbind res_bind]. rewrite E. done. }
      destruct (decide (col !! id = Some White)) as [Hwh|Hnw].
      + left. rewrite <- Hw. eapply (filter_shrinks _ _ o id); [|by apply Ho|done|by rewrite lookup_insert].
        intros v Hv. destruct (decide (v = id)) as [->|Hne]; [by rewrite lookup_insert in Hv|]. by rewrite lookup_insert_ne in Hv.
      + right. split.
        * rewrite <- Hw. f_equal. apply list_filter_iff. intros v. destruct (decide (v = id)) as [->|Hne]; [rewrite lookup_insert; done|]. by rewrite lookup_insert_ne.
        * rewrite (Hnil Hnw). rewrite <- Hs. unfold weight. cbn. lia.
    - exists (<[id := Black]> col), st, rep, (id :: blk). split_and!; [|by apply cyc_exit|].
      { intros fuel. cbn [cycles_loop]. rewrite Hx. done. }
      right. split; [|rewrite <- Hs; unfold weight; cbn; lia].
      rewrite <- Hw. f_equal. apply list_filter_iff. intros v. destruct (decide (v = id)) as [->|Hne]; [|by rewrite lookup_insert_ne].
      rewrite lookup_insert. split; [done|]. intros Hv. exfalso. apply (cy_false _ _ _ _ C id); [left|done]. }
  destruct Hgo as (col' & st' & rep1 & blk1 & E & C' & Hm).
  assert (Hrec : exists bound rep' blk', (forall fuel, bound <= fuel -> cycles_loop fuel g col' st' rep1 = Ok rep') /\ exists col2, cyc col2 [] rep' blk').
  { destruct Hm as [Hm|[Hm1 Hm2]]; [by eapply IHw|by eapply IHs]. }
  destruct Hrec as (bound & rep' & blk' & Hb & Hf). exists (S bound), rep', blk'. split; [|done]. intros [|fuel] Hf'; [lia|]. rewrite E. apply Hb. lia.
Qed.
Lemma cyc_init o : (forall c, c ∈ o <-> key c) -> cyc (list_to_map ((fun c => (c, White)) <$> o)) (reverse ((fun c => (true, c)) <$> o)) [] [].
Proof.
  intros Ho.
  assert (Hcol : forall c x, (list_to_map ((fun c => (c, White)) <$> o) : colors) !! c = Some x -> x = White /\ c ∈ o).
  { intros c x Hx. apply elem_of_list_to_map_2, elem_of_list_fmap in Hx as (y & [= -> ->] & Hy). done. }
  assert (Hst : forall b c, (b, c) ∈ reverse ((fun c => (true, c)) <$> o) <-> b = true /\ c ∈ o).
  { intros b c. rewrite elem_of_reverse, elem_of_list_fmap. naive_solver. }
  split.
  - intros c. rewrite <- Ho. split.
    + intros [x Hx]. apply Hcol in Hx. apply Hx.
    + intros Hc. apply not_eq_None_Some. rewrite <- not_elem_of_list_to_map. intros Hn. apply Hn. rewrite <- list_fmap_compose. apply elem_of_list_fmap. eauto.
  - intros b c Hc. apply Hst in Hc as [_ Hc]. by apply Ho.
  - intros c Hc. right. exists true. apply Hst. split; [done|]. by apply Ho.
  - intros c Hc. by apply Hst in Hc as [? _].
  - intros top b c rest E Hc. exfalso. assert (Hin : (b, c) ∈ reverse ((fun c => (true, c)) <$> o)) by (rewrite E; apply elem_of_app; right; left).
    apply Hst in Hin as [_ Hin]. destruct ((list_to_map ((fun c => (c, White)) <$> o) : colors) !! c) as [x|] eqn:Ex.
    + apply Hc. apply Hcol in Ex as [-> _]. done.
    + apply not_elem_of_list_to_map in Ex. apply Ex. rewrite <- list_fmap_compose. apply elem_of_list_fmap. eauto.
  - intros top b c rest E Hc. exfalso. assert (Hin : (b, c) ∈ reverse ((fun c => (true, c)) <$> o)) by (rewrite E; apply elem_of_app; right; left).
    apply Hst in Hin as [_ Hin]. destruct ((list_to_map ((fun c => (c, White)) <$> o) : colors) !! c) as [x|] eqn:Ex.
    + apply Hc. apply Hcol in Ex as [-> _]. done.
    + apply not_elem_of_list_to_map in Ex. apply Ex. rewrite <- list_fmap_compose. apply elem_of_list_fmap. eauto.
  - intros c Hc. by apply Hcol in Hc as [? _].
  - intros l1 c l2 E. by destruct l1.
  - intros c Hc. by apply Hcol in Hc as [? _].
  - intros top v rest E. exfalso. assert (Hin : (false, v) ∈ reverse ((fun c => (true, c)) <$> o)) by (rewrite E; apply elem_of_app; right; left).
    by apply Hst in Hin as [? _].
  - intros u i Hu. by apply elem_of_nil in Hu.
Qed.
Lemma blk_acc rep blk : (forall l1 c l2, blk = l1 ++ c :: l2 -> forall v, uses g rep c v -> v ∈ l2) -> forall u, u ∈ blk -> Acc (flip (uses g rep)) u.
Proof.
  induction blk as [|c blk IH]; intros Hb u Hu; [by apply elem_of_nil in Hu|].
  assert (IH' : forall u, u ∈ blk -> Acc (flip (uses g rep)) u). { apply IH. intros l1 d l2 E. apply (Hb (c :: l1) d l2). by rewrite E. }
  apply elem_of_cons in Hu as [->|Hu]; [|by apply IH']. constructor. intros v Hv. apply IH'. by apply (Hb [] c blk eq_refl).
Qed.
Lemma find_cycles_ok o : (forall c, c ∈ o <-> key c) -> exists bound rep, (forall fuel, bound <= fuel -> find_cycles fuel o g = Ok rep) /\
  (forall u, Acc (flip (uses g rep)) u) /\
  (forall u i, (u, i) ∈ rep -> exists k n v, eg_classes g !! u = Some k /\ c_nodes k !! i = Some n /\ v ∈ nch n /\ rtc edge v u).
Proof.
  intros Ho. destruct (cycles_loop_ok o (fun c => proj2 (Ho c)) _ _ _ _ _ _ eq_refl eq_refl (cyc_init o Ho)) as (bound & rep & blk & Hb & col & C).
  exists bound, rep. split_and!; [done| |apply C]. intros u. constructor. intros v Hv. cbn in Hv. apply uses_key in Hv as [_ Hv].
  eapply blk_acc; [apply C|]. destruct (cy_all _ _ _ _ C v Hv) as [?|(b & Hb')]; [done|by apply elem_of_nil in Hb'].
Qed.
End cycles.

Lemma acc_no_cycle {X} (R : X -> X -> Prop) u : Acc (flip R) u -> ~ tc R u u.
Proof.
  intros Ha Hc. assert (Hg : forall u, Acc (flip R) u -> forall v, tc R u v -> Acc (flip R) v).
  { clear. intros u Ha v Hv. induction Hv as [u v Huv|u w v Huw _ IH]; [by apply Ha|]. apply IH. by apply Ha. }
  induction Ha as [u Ha IH]. inversion Hc as [? ? Huu|? w ? Huw Hw]; subst.
  - by apply (IH u).
  - apply (IH w); [done|]. eapply tc_r; done.
Qed.

Section reach.
Context {Op D : Type} `{Countable Op} (L : lang Op) (A : analysis Op D).
Notation egraph := (egraph Op D).
Lemma clean_class_of ex (g : egraph) : reachable L A ex g -> forall c k, eg_classes g !! c = Some k -> class_of g c = Ok k.
Proof.
  intros R c k Hk. pose proof (reachable_Inv _ _ _ _ R) as I. destruct (proj1 (ci_cls _ _ _ _ _ _ _ (iv_c _ I) c)) as [Hl Hf]; [eauto|].
  unfold class_of, find_res, valid_id. rewrite (iv_len _ I) in Hl. apply Nat.ltb_lt in Hl. rewrite Hl. cbn [mbind res_bind]. by rewrite Hf, Hk.
Qed.
Lemma clean_children ex (g : egraph) : lang_ok L -> reachable L A ex g -> eg_clean g = true ->
  forall c k n v, eg_classes g !! c = Some k -> n ∈ c_nodes k -> v ∈ nch n -> is_Some (eg_classes g !! v) /\ eg_find g v = v.
Proof.
  intros Lo R Ec c k n v Hk Hn Hv. pose proof (reachable_Inv _ _ _ _ R) as I. pose proof (reach_canonical _ _ _ _ Lo R Ec) as Hc.
  pose proof (cl_canon _ _ Hc _ _ _ Hk Hn) as En. apply elem_of_list_lookup in Hv as [j Hj].
  assert (Hf : eg_find g v = v). { assert (Hl : (eg_find g <$> nch n) !! j = Some v) by (apply (f_equal nch) in En; cbn in En; by rewrite En). rewrite list_lookup_fmap, Hj in Hl. by injection Hl. }
  split; [|done]. apply (ci_cls _ _ _ _ _ _ _ (iv_c _ I)). split; [|done].
  destruct (ci_nodes _ _ _ _ _ _ _ (iv_c _ I) _ _ _ Hk Hn) as (i & m & Hm & _ & Em).
  apply canonf_eq_inv in Em as (_ & El & Hj'). destruct (lookup_lt_is_Some_2 (nch m) j) as [w Hw]; [rewrite <- El; by eapply lookup_lt_Some|].
  rewrite <- Hf, (Hj' j v w Hj Hw). apply (ci_lt _ _ _ _ _ _ _ (iv_c _ I)).
  pose proof (ci_ch _ _ _ _ _ _ _ (iv_c _ I) i m w Hm (elem_of_list_lookup_2 _ _ _ Hw)). apply lookup_lt_Some in Hm. lia.
Qed.
Lemma cycles_spec ex (g : egraph) o : lang_ok L -> reachable L A ex g -> eg_clean g = true -> (forall c, c ∈ o <-> is_Some (eg_classes g !! c)) ->
  exists bound rep, (forall fuel, bound <= fuel -> find_cycles fuel o g = Ok rep) /\ (forall u, ~ tc (uses g rep) u u) /\
  (forall u i, (u, i) ∈ rep -> exists k n v, eg_classes g !! u = Some k /\ c_nodes k !! i = Some n /\ v ∈ nch n /\ rtc (uses g []) v u).
Proof.
  intros Lo R Ec Ho. destruct (find_cycles_ok g) with (o := o) as (bound & rep & Hb & Ha & Hr); [by eapply clean_class_of| |done|].
  { intros c k n v Hk Hn Hv. by eapply clean_children. }
  exists bound, rep. split_and!; [done| |done]. intros u. by apply acc_no_cycle.
Qed.
End reach.
