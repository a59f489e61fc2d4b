(** [find_all_enodes] visits what is reachable, and [shortest_path_modulo_congruence] finds
    paths of least cost. *)
From Verif Require Import Base UnionFind EGraphModel EGraphSafe ExplainForest Terms RecExprModel ExprModel ExplainModel ExplainSpec ExplainPath
  ExplainProofs OptModel OptDist OptPar OptNeighbours OptSpec.

Section search.
Context {Op : Type} `{Countable Op}.
Notation node := (node Op).
Notation explain := (explain Op).
Context {alt : nat -> nat -> justif -> Prop} {ns : list node} {h : list (event Op)} {x : explain} {es : list edge}.
Context (W : world alt ns h x es).
Let Hd : dag ns := w_dag _ _ _ _ _ W.
Let Hlen : length (ex_find x) = length ns := w_len _ _ _ _ _ W.
Let F : forest alt (ex_find x) es := w_for _ _ _ _ _ W.
Notation N := (length (ex_find x)).
Notation u := (pl (ex_find x)).
Notation f := (ex_find x).
Notation Dst := (Dst ns x es).
Notation Cost := (Cost ns x es).
Notation PD := (PD ns x es).
Let wf : uf_wf u := fo_wf _ _ _ F.
Context (Hnl : forall i c, c ∈ nbs f i -> cn_next c < N).

(** ** [find_all_enodes] *)
Definition deg (i : nat) : nat := length (nbs f i).
Definition nbstep (a b : nat) : Prop := exists c, c ∈ nbs f a /\ cn_next c = b.
Definition rest (w : nat -> nat) (seen : gset nat) : nat := sumf (fun i => if decide (i ∈ seen) then 0 else w i) N.
Lemma rest_visit w seen i : i < N -> i ∉ seen -> rest w ({[i]} ∪ seen) + w i <= rest w seen.
Proof.
  intros Hi Hs. apply (sumf_drop _ _ N i (w i) Hi).
  - rewrite decide_True by set_solver. rewrite decide_False by done. lia.
  - intros j Hj. repeat case_decide; set_solver by lia.
Qed.
Lemma rest_empty w : rest w ∅ = sumf w N.
Proof. unfold rest. apply Nat.le_antisymm; apply sumf_le; intros i _; rewrite decide_False by set_solver; lia. Qed.
Record collected (c : nat) (s : gset nat) : Prop := {
  co_start : c ∈ s;
  co_reach : forall i, i ∈ s -> rtc nbstep c i;
  co_closed : forall i j, i ∈ s -> nbstep i j -> j ∈ s;
  co_lt : forall i, i ∈ s -> i < N;
}.
Lemma all_enodes_loop_ok c fuel : forall todo seen,
  (forall i, i ∈ todo -> i < N /\ rtc nbstep c i) -> (forall i, i ∈ seen -> i < N /\ rtc nbstep c i) ->
  (forall i j, i ∈ seen -> nbstep i j -> j ∈ seen \/ j ∈ todo) -> (c ∈ seen \/ c ∈ todo) ->
  length todo + rest deg seen < fuel -> exists s, all_enodes_loop fuel x todo seen = Ok s /\ collected c s.
Proof.
  induction fuel as [|fuel IH]; intros todo seen Ht Hs Hc H0 Hfu; [lia|]. cbn [all_enodes_loop].
  destruct todo as [|cur todo].
  { exists seen. split; [done|]. split.
    - destruct H0 as [?|H0]; [done|]. by apply elem_of_nil in H0.
    - intros i Hi. by apply Hs.
    - intros i j Hi Hij. destruct (Hc i j Hi Hij) as [?|Hj]; [done|]. by apply elem_of_nil in Hj.
    - intros i Hi. by apply Hs. }
  cbn [length] in Hfu. case_bool_decide as Hcur.
  { apply IH; auto; [intros i Hi; apply Ht; by right| | |lia].
    - intros i j Hi Hij. destruct (Hc i j Hi Hij) as [?|[->|?]%elem_of_cons]; auto.
    - destruct H0 as [?|[->|?]%elem_of_cons]; auto. }
  destruct (Ht cur) as [Hcl Hcr]; [by left|]. destruct (lookup_lt_is_Some_2 f cur Hcl) as [nd Hnd]. rewrite Hnd. cbn [expect mbind res_bind].
  assert (Enb : nbs f cur = xn_neighbors nd) by (unfold nbs; by rewrite Hnd).
  assert (Hnew : forall i, i ∈ reverse (cn_next <$> xn_neighbors nd) <-> nbstep cur i).
  { intros i. rewrite elem_of_reverse, elem_of_list_fmap. unfold nbstep. rewrite Enb. split; intros (k & ? & ?); exists k; auto. }
  apply IH.
  - intros i [Hi|Hi]%elem_of_app; [|apply Ht; by right]. apply Hnew in Hi. split; [|eapply rtc_r; eauto].
    destruct Hi as (k & Hk & <-). by apply (Hnl cur).
  - intros i [->%elem_of_singleton|Hi]%elem_of_union; auto.
  - intros i j [->%elem_of_singleton|Hi]%elem_of_union Hij.
    + right. apply elem_of_app. left. by apply Hnew.
    + destruct (Hc i j Hi Hij) as [?|[->|?]%elem_of_cons]; [left; set_solver|left; set_solver|right; set_solver].
  - destruct H0 as [?|[->|?]%elem_of_cons]; [left; set_solver|left; set_solver|right; set_solver].
  - rewrite app_length, reverse_length, fmap_length. pose proof (rest_visit deg seen cur Hcl Hcur) as Hr.
    unfold deg at 2 in Hr. rewrite Enb in Hr. lia.
Qed.
Lemma find_all_enodes_ok fuel c : c < N -> S (sumf deg N) < fuel -> exists s, find_all_enodes fuel x c = Ok s /\ collected c s.
Proof.
  intros Hc Hfu. apply all_enodes_loop_ok.
  - intros i ->%elem_of_list_singleton. split; [done|apply rtc_refl].
  - intros i Hi. by apply not_elem_of_empty in Hi.
  - intros i j Hi. by apply not_elem_of_empty in Hi.
  - right. by left.
  - cbn [length]. rewrite rest_empty. lia.
Qed.

(** ** Weighted walks *)
Context (Hnbp : nbp f).
Context (cn : list (list nat)).
(** What the congruence neighbours have to be: congruent nodes, and at least those of the
    forest. *)
Record cn_ok : Prop := {
  cn_len : length cn = N;
  cn_cong : forall a os b, cn !! a = Some os -> b ∈ os ->
    exists n m, ns !! a = Some n /\ ns !! b = Some m /\ nop n = nop m /\ Forall2 (connected es) (nch n) (nch m);
  cn_tree : forall v nd, f !! v = Some nd -> cn_just (xn_parent nd) = JCong ->
    (exists os, cn !! v = Some os /\ cn_next (xn_parent nd) ∈ os) /\ (exists os, cn !! cn_next (xn_parent nd) = Some os /\ v ∈ os);
}.
Context (Hcn : cn_ok).
(** one step of the search *)
Definition gstep (a : nat) (c : conn) : Prop :=
  (c ∈ nbs f a /\ cn_just c <> JCong) \/ (exists os b, cn !! a = Some os /\ b ∈ os /\ c = Conn b a JCong true).
Inductive walk : nat -> list conn -> nat -> Prop :=
| wk_nil a : walk a [] a
| wk_cons a c cs b : gstep a c -> walk (cn_next c) cs b -> walk a (c :: cs) b.
Notation wcost cs := (sum_list (Cost <$> cs)).
Definition Tight (a b k : nat) : Prop := (exists cs, walk a cs b /\ wcost cs = k) /\ forall cs, walk a cs b -> k <= wcost cs.

Lemma gstep_cur a c : gstep a c -> cn_current c = a.
Proof.
  intros [[Hc _]|(os & b & _ & _ & ->)]; [|done]. unfold nbs in Hc. destruct (f !! a) as [nd|] eqn:Hnd; [|by apply elem_of_nil in Hc].
  by apply (fo_nb _ _ _ F a nd).
Qed.
Lemma gstep_lt a c : gstep a c -> cn_next c < N.
Proof.
  intros [[Hc _]|(os & b & Hos & Hb & ->)]; [by apply (Hnl a)|]. cbn.
  destruct (cn_cong Hcn _ _ _ Hos Hb) as (n & m & _ & Hm & _). rewrite Hlen. by eapply lookup_lt_Some.
Qed.
Lemma walk_lt a cs b : walk a cs b -> a < N -> b < N.
Proof. induction 1 as [|a c cs b Hs _ IH]; [done|]. intros _. apply IH. by eapply gstep_lt. Qed.
Lemma walk_app a cs b cs' c : walk a cs b -> walk b cs' c -> walk a (cs ++ cs') c.
Proof. induction 1; intros Hw; [done|]. cbn. econstructor; eauto. Qed.
Lemma wcost_cons c cs : wcost (c :: cs) = Cost c + wcost cs.
Proof. done. Qed.
Lemma wcost_one c : wcost [c] = Cost c.
Proof. cbn. lia. Qed.
Lemma wcost_app cs cs' : wcost (cs ++ cs') = wcost cs + wcost cs'.
Proof. by rewrite fmap_app, sum_app. Qed.
Lemma walk_snoc a cs b c : walk a cs b -> gstep b c -> walk a (cs ++ [c]) (cn_next c).
Proof. intros Hw Hs. eapply walk_app; [done|]. econstructor; [done|constructor]. Qed.
Lemma Tight_fun a b k k' : Tight a b k -> Tight a b k' -> k = k'.
Proof. intros [(cs & H1 & <-) H2] [(cs' & H3 & <-) H4]. specialize (H2 _ H3). specialize (H4 _ H1). lia. Qed.
(** what is left of a shortest walk is shortest *)
Lemma Tight_suffix a cs b cs' c : walk a cs b -> walk b cs' c -> Tight a c (wcost cs + wcost cs') -> Tight b c (wcost cs').
Proof.
  intros H1 H2 [_ Hm]. split; [eauto|]. intros cs2 Hw. specialize (Hm _ (walk_app _ _ _ _ _ H1 Hw)). rewrite wcost_app in Hm. lia.
Qed.

(** *** The forest is part of the search graph *)
Lemma tree_step v nd : f !! v = Some nd -> cn_next (xn_parent nd) <> v ->
  (exists c, gstep v c /\ cn_next c = cn_next (xn_parent nd) /\ Cost c = Cost (xn_parent nd)) /\
  (exists c, gstep (cn_next (xn_parent nd)) c /\ cn_next c = v /\ Cost c = Cost (xn_parent nd)).
Proof.
  intros Hnd Hne. pose proof (fo_cur _ _ _ F _ _ Hnd) as Ec. destruct (Hnbp _ _ Hnd Hne) as [(c1 & H1 & N1 & J1) (c2 & H2 & N2 & J2)].
  destruct (cn_just (xn_parent nd)) as [r|] eqn:Ej.
  - split; [exists c1|exists c2]; (split; [left; split; [done|congruence]|]; split; [done|]); unfold OptDist.Cost, lw; rewrite Ej; by (rewrite J1 || rewrite J2).
  - destruct (cn_tree Hcn _ _ Hnd Ej) as [(os1 & O1 & I1) (os2 & O2 & I2)]. split.
    + eexists. split; [right; eexists _, _; split; [exact O1|]; split; [exact I1|done]|]. split; [done|].
      unfold OptDist.Cost, lw. rewrite Ej, Ec. done.
    + eexists. split; [right; eexists _, _; split; [exact O2|]; split; [exact I2|done]|]. split; [done|].
      unfold OptDist.Cost, lw. rewrite Ej, Ec. cbn [cn_just cn_current cn_next].
      destruct (cn_cong Hcn _ _ _ O2 I2) as (m & n & Hm & Hn & _ & Hf). rewrite Hm, Hn.
      pose proof (Forall2_lt W _ _ _ _ _ Hm Hn Hf) as Hf'. clear -Hf' W.
      induction Hf' as [|a b l k (Ha & Hb & Hab) _ IH]; cbn; [done|]. rewrite IH. f_equal.
      by apply (Dst_sym W).
Qed.
Lemma climb_walk v cs a : climb x v cs a -> exists ws, walk v ws a /\ wcost ws = wcost cs.
Proof.
  induction 1 as [v|v nd cs a Hnd Hne _ (ws & IH1 & IH2)]; [exists []; split; [constructor|done]|].
  destruct (tree_step v nd Hnd Hne) as [(c & Hs & Hn & Hc) _]. exists (c :: ws). split; [econstructor; [done|by rewrite Hn]|].
  by rewrite wcost_cons, Hc, IH2.
Qed.
Lemma climb_walk_rev v cs a : climb x v cs a -> exists ws, walk a ws v /\ wcost ws = wcost cs.
Proof.
  induction 1 as [v|v nd cs a Hnd Hne _ (ws & IH1 & IH2)]; [exists []; split; [constructor|done]|].
  destruct (tree_step v nd Hnd Hne) as [_ (c & Hs & Hn & Hc)]. exists (ws ++ [c]). split; [rewrite <- Hn; by eapply walk_snoc|].
  rewrite wcost_app, IH2, wcost_one, Hc, wcost_cons. lia.
Qed.
Lemma tree_walk l r : l < N -> r < N -> connected es l r -> exists ws, walk l ws r /\ wcost ws = Dst l r.
Proof.
  intros Hl Hr Hc. destruct (connected_lca W l r Hl Hr Hc) as (a & _ & Ha). pose proof Ha as (A1 & A2 & _).
  destruct (anc_climb W l a Hl A1) as (lc & El & Cl). destruct (anc_climb W r a Hr A2) as (rc & Er & Cr).
  destruct (climb_walk _ _ _ Cl) as (w1 & W1 & E1). destruct (climb_walk_rev _ _ _ Cr) as (w2 & W2 & E2).
  exists (w1 ++ w2). split; [by eapply walk_app|]. rewrite wcost_app, E1, E2.
  pose proof (Dst_hgt W l r a Hl Hr Ha). rewrite (Hgt_up W l a Hl A1), (Hgt_up W r a Hr A2) in H0. unfold upsum in H0. rewrite El, Er in H0. lia.
Qed.

(** ** The search *)
Context (ca : gmap (nat * nat) nat) (dm : gmap nat nat).
Context (Hca : forall l r a, ca !! (l, r) = Some a -> lca u l r a) (Hdm : forall i, i < N -> dm !! i = Some (dep x i)).
Context (pop : list (list hentry) -> list hentry -> option (hentry * list hentry)) (Hpop : pops_min pop).
Context (fuel : nat) (Hfuel : length es < fuel).

Lemma cong_cost a os b pd : cn !! a = Some os -> b ∈ os -> PD pd ->
  exists pd', congruence_distance ns (distance_between x ns ca dm fuel) a b pd = Ok (Cost (Conn b a JCong true), pd') /\ PD pd'.
Proof.
  intros Hos Hb HP. destruct (cn_cong Hcn _ _ _ Hos Hb) as (n & m & Hn & Hm & _ & Hf).
  assert (Hr : Forall2 (rec_ok ns x es (distance_between x ns ca dm fuel)) (nch n) (nch m)).
  { eapply Forall2_impl; [exact (Forall2_lt W _ _ _ _ _ Hn Hm Hf)|]. cbv beta. intros c d (Hc & Hd' & Hcd).
    by apply (distance_ok W ca dm Hca Hdm). }
  destruct (congruence_distance_ok _ a b n m Hn Hm Hr pd HP) as (pd' & E & HP' & _). exists pd'. split; [|done].
  rewrite E. unfold OptDist.Cost, lw. cbn [cn_just cn_current cn_next]. by rewrite Hn, Hm.
Qed.
Lemma cong_entries_ok cost cur os0 : cn !! cur = Some os0 -> forall os pd, (forall o, o ∈ os -> o ∈ os0) -> PD pd ->
  exists pd', cong_entries x ns ca dm fuel cost cur os pd =
    Ok ((fun o => (cost + Cost (Conn o cur JCong true), Conn o cur JCong true)) <$> os, pd') /\ PD pd'.
Proof.
  intros Hos. induction os as [|o os IH]; intros pd Ho HP; [by exists pd|]. cbn [cong_entries].
  destruct (cong_cost cur os0 o pd Hos (Ho o ltac:(by left)) HP) as (pd1 & -> & P1). cbn [mbind res_bind].
  destruct (IH pd1 ltac:(intros; apply Ho; by right) P1) as (pd2 & -> & P2). cbn [mbind res_bind]. exists pd2. done.
Qed.

(** the way back to the start *)
Inductive back (last : gmap nat conn) (start : nat) : nat -> list conn -> Prop :=
| bk_start : back last start start []
| bk_step v c cs : v <> start -> last !! v = Some c -> back last start (cn_current c) cs -> back last start v (cs ++ [c]).
Lemma back_mono last start v c w cs : last !! v = None -> back last start w cs -> back (<[v := c]> last) start w cs.
Proof.
  intros Hv. induction 1 as [|w c' cs Hne Hl _ IH]; [constructor|]. econstructor; [done| |done].
  rewrite lookup_insert_ne; [done|]. intros <-. congruence.
Qed.
Lemma back_fun last start v cs cs' : back last start v cs -> back last start v cs' -> cs = cs'.
Proof.
  intros H1. revert cs'. induction H1 as [|v c cs Hne Hl _ IH]; intros cs' H2; inversion H2; subst; try done.
  assert (c0 = c) as -> by congruence. f_equal. by apply IH.
Qed.

Section run.
Context (start goal : nat) (Hst : start < N) (Hgo : goal < N).
Record sinv (heap : list hentry) (last : gmap nat conn) (pc : gmap nat nat) : Prop := {
  si_dom : forall v, is_Some (last !! v) <-> is_Some (pc !! v);
  si_tight : forall v k, pc !! v = Some k -> v < N /\ Tight start v k;
  si_back : forall v k, pc !! v = Some k -> exists cs, back last start v cs /\ walk start cs v /\ wcost cs = k /\ length cs < base.size last;
  si_front : forall v k c, pc !! v = Some k -> gstep v c ->
    is_Some (pc !! cn_next c) \/ exists e, e ∈ heap /\ cn_next e.2 = cn_next c /\ e.1 <= k + Cost c;
  si_heap : forall e, e ∈ heap -> e = (0, Conn start start JCong true) \/
    exists k, pc !! cn_current e.2 = Some k /\ gstep (cn_current e.2) e.2 /\ e.1 = k + Cost e.2;
  si_start : pc !! start = Some 0 \/ (pc = ∅ /\ (0, Conn start start JCong true) ∈ heap);
  si_goal : pc !! goal = None;
}.
Lemma heap_walk heap last pc e : sinv heap last pc -> e ∈ heap -> exists cs, walk start cs (cn_next e.2) /\ wcost cs = e.1.
Proof.
  intros I He. destruct (si_heap _ _ _ I e He) as [->|(k & Hk & Hs & Ek)].
  - exists []. split; [constructor|done].
  - destruct (si_back _ _ _ I _ _ Hk) as (cs & _ & Hw & Ec & _). exists (cs ++ [e.2]). split; [by eapply walk_snoc|].
    rewrite wcost_app, Ec, Ek, wcost_one. lia.
Qed.
(** a walk to an unvisited id passes the heap *)
Lemma frontier heap last pc a cs v : sinv heap last pc -> walk a cs v -> pc !! v = None -> forall k0,
  (exists k, pc !! a = Some k /\ k <= k0) \/ (exists e, e ∈ heap /\ cn_next e.2 = a /\ e.1 <= k0) ->
  exists e, e ∈ heap /\ e.1 <= k0 + wcost cs.
Proof.
  intros I Hw Hv. induction Hw as [a|a c cs b Hs Hw IH]; intros k0 Ha.
  - destruct Ha as [(k & Hk & _)|(e & He & _ & Hle)]; [congruence|]. exists e. split; [done|lia].
  - destruct Ha as [(k & Hk & Hle)|(e & He & _ & Hle)]; [|exists e; split; [done|lia]].
    destruct (IH Hv (k + Cost c)) as (e & He & Hle').
    { destruct (si_front _ _ _ I _ _ _ Hk Hs) as [[k' Hk']|He]; [left|by right]. exists k'. split; [done|].
      destruct (si_back _ _ _ I _ _ Hk) as (cs0 & _ & Hw0 & E0 & _). destruct (si_tight _ _ _ I _ _ Hk') as [_ [_ Hm]].
      specialize (Hm _ (walk_snoc _ _ _ _ Hw0 Hs)). rewrite wcost_app, E0, wcost_one in Hm. lia. }
    exists e. split; [done|]. rewrite wcost_cons. lia.
Qed.
Lemma frontier_start heap last pc cs v : sinv heap last pc -> walk start cs v -> pc !! v = None -> exists e, e ∈ heap /\ e.1 <= wcost cs.
Proof.
  intros I Hw Hv. apply (frontier heap last pc start cs v I Hw Hv 0).
  destruct (si_start _ _ _ I) as [Hs|[_ He]]; [left; exists 0; auto|right]. eexists. split; [exact He|]. done.
Qed.

Definition wdeg (i : nat) : nat := deg i + length (default [] (cn !! i)).
Definition restm (pc : gmap nat nat) : nat := rest wdeg (dom pc).
Definition found (r : gmap nat conn * gmap nat nat * pdist) : Prop :=
  PD r.2 /\ exists k cs, r.1.2 !! goal = Some k /\ Tight start goal k /\ back r.1.1 start goal cs /\ walk start cs goal /\ wcost cs = k /\
    length cs <= N /\ (forall v c, r.1.1 !! v = Some c -> v <> start -> cn_next c = v).
Lemma rule_entries_len cost nd : length (rule_entries cost nd) <= length (xn_neighbors nd).
Proof. unfold rule_entries. induction (xn_neighbors nd) as [|c l IH]; cbn; [done|]. destruct (cn_just c); cbn; lia. Qed.
Lemma elem_of_rule_entries cost nd e : e ∈ rule_entries cost nd <-> exists c, c ∈ xn_neighbors nd /\ cn_just c <> JCong /\ e = (cost + 1, c).
Proof.
  unfold rule_entries. rewrite elem_of_list_omap. split; intros (c & Hc & He).
  - exists c. destruct (cn_just c); [|done]. injection He as <-. done.
  - destruct He as [Hj ->]. exists c. split; [done|]. by destruct (cn_just c).
Qed.

Lemma last_size (last : gmap nat conn) : (forall v, is_Some (last !! v) -> v < N) -> base.size last <= N.
Proof.
  intros Hl. rewrite <- size_dom. rewrite <- (size_set_seq (C := gset nat) 0 N). apply subseteq_size. intros v Hv.
  apply elem_of_dom in Hv. apply elem_of_set_seq. specialize (Hl v Hv). lia.
Qed.

Lemma search_loop_ok (Hreach : exists cs, walk start cs goal) fl : forall tr heap last pc pd,
  sinv heap last pc -> (forall v c, last !! v = Some c -> cn_next c = v) -> PD pd -> length heap + restm pc < fl ->
  exists r, search_loop x ns ca dm pop cn fuel fl goal tr heap last pc pd = Ok r /\ found r.
Proof.
  destruct Hreach as (csg & Hwg). induction fl as [|fl IH]; intros tr heap last pc pd I Hln HP Hfu; [lia|]. cbn [search_loop].
  pose proof (Hpop tr heap) as Hpp. destruct (pop tr heap) as [[[cost c] heap']|].
  2:{ exfalso. destruct (frontier_start _ _ _ _ _ I Hwg (si_goal _ _ _ I)) as (e & He & _). subst heap. by apply elem_of_nil in He. }
  destruct Hpp as [Hperm Hmin]. cbn [fst] in Hmin.
  assert (Hin : (cost, c) ∈ heap) by (rewrite Hperm; by left).
  assert (Hsub : forall e, e ∈ heap' -> e ∈ heap) by (intros e He; rewrite Hperm; by right).
  assert (Hlh : length heap = S (length heap')) by (by rewrite Hperm).
  cbn zeta. set (v := cn_next c).
  destruct (heap_walk _ _ _ _ I Hin) as (csv & Hwv & Ecv). cbn [fst snd] in Hwv, Ecv. fold v in Hwv.
  pose proof (walk_lt _ _ _ Hwv Hst) as Hvl.
  destruct (last !! v) as [c0|] eqn:Elast.
  { apply IH; auto; [|lia].
    assert (Hpv : is_Some (pc !! v)) by (apply (si_dom _ _ _ I); eauto).
    split; try apply I.
    - intros w k c1 Hw Hs. destruct (si_front _ _ _ I _ _ _ Hw Hs) as [?|(e & He & En & Hle)]; [by left|].
      rewrite Hperm in He. apply elem_of_cons in He as [->|He]; [left; cbn in En; by rewrite <- En|right; eauto].
    - intros e He. apply (si_heap _ _ _ I). auto.
    - destruct (si_start _ _ _ I) as [?|[-> _]]; [by left|]. destruct Hpv as [? Hpv]. by rewrite lookup_empty in Hpv. }
  assert (Epv : pc !! v = None).
  { destruct (pc !! v) eqn:Ep; [|done]. exfalso. assert (is_Some (last !! v)) as [? ?] by (apply (si_dom _ _ _ I); eauto). congruence. }
  assert (Htv : Tight start v cost).
  { split; [eauto|]. intros cs2 Hw2. destruct (frontier_start _ _ _ _ _ I Hw2 Epv) as (e & He & Hle). specialize (Hmin e He). lia. }
  set (last1 := <[v := c]> last). set (pc1 := <[v := cost]> pc).
  assert (Hsz : base.size last1 = S (base.size last)) by (unfold last1; by apply map_size_insert_None).
  assert (Hback : exists cs, back last1 start v cs /\ walk start cs v /\ wcost cs = cost /\ length cs < base.size last1).
  { destruct (decide (v = start)) as [Evs|Hvs].
    - exists []. rewrite Evs. split; [constructor|]. split; [constructor|]. split; [|cbn; lia].
      rewrite Evs in Htv. destruct Htv as [_ Hm]. specialize (Hm [] (wk_nil _)). cbn in *. lia.
    - destruct (si_heap _ _ _ I _ Hin) as [E|(k & Hk & Hs & Ek)]; [injection E as -> ->; by destruct Hvs|]. cbn [fst snd] in Hk, Hs, Ek.
      destruct (si_back _ _ _ I _ _ Hk) as (cs & Hb & Hw & Ec & Hl). exists (cs ++ [c]). split; [|split; [by eapply walk_snoc|split]].
      + econstructor; [done|unfold last1; by rewrite lookup_insert|]. by apply back_mono.
      + rewrite wcost_app, Ec, Ek, wcost_one. lia.
      + rewrite app_length. cbn. lia. }
  assert (Hln1 : forall w k, last1 !! w = Some k -> cn_next k = w).
  { intros w k Hk. apply lookup_insert_Some in Hk as [[<- <-]|[_ Hk]]; [done|eauto]. }
  assert (Hlt1 : forall w, is_Some (last1 !! w) -> w < N).
  { intros w [k Hk]. apply lookup_insert_Some in Hk as [[<- <-]|[_ Hk]]; [done|].
    assert (is_Some (pc !! w)) as [q Hq] by (apply (si_dom _ _ _ I); eauto). exact (proj1 (si_tight _ _ _ I _ _ Hq)). }
  case_bool_decide as Hvg.
  { eexists. split; [done|]. destruct Hback as (cs & Hb & Hw & Ec & Hl). split; [exact HP|]. cbn [fst snd]. exists cost, cs. rewrite <- Hvg.
    split; [unfold pc1; by rewrite lookup_insert|]. split; [done|]. split; [done|]. split; [done|]. split; [done|].
    split; [pose proof (last_size last1 Hlt1); lia|]. intros w k Hk _. by apply Hln1. }
  destruct (lookup_lt_is_Some_2 f v Hvl) as [nd Hnd]. rewrite Hnd. cbn [expect mbind res_bind].
  assert (Enb : nbs f v = xn_neighbors nd) by (unfold nbs; by rewrite Hnd).
  destruct (lookup_lt_is_Some_2 cn v) as [os Hos]; [by rewrite (cn_len Hcn)|]. rewrite Hos. cbn [expect mbind res_bind].
  destruct (cong_entries_ok cost v os Hos os pd (fun o Ho => Ho) HP) as (pd1 & -> & HP1). cbn [mbind res_bind].
  set (new := rule_entries cost nd ++ _).
  assert (Hnew : forall c1, gstep v c1 -> (cost + Cost c1, c1) ∈ new).
  { intros c1 [[H1 H2]|(os' & b & H1 & H2 & ->)]; apply elem_of_app.
    - left. apply elem_of_rule_entries. exists c1. split; [by rewrite <- Enb|]. split; [done|].
      unfold OptDist.Cost, lw. by destruct (cn_just c1).
    - right. apply elem_of_list_fmap. exists b. split; [done|]. congruence. }
  assert (Hnew' : forall e, e ∈ new -> gstep v e.2 /\ e.1 = cost + Cost e.2).
  { intros e [He|He]%elem_of_app.
    - apply elem_of_rule_entries in He as (c1 & H1 & H2 & ->). cbn [fst snd]. split; [left; by rewrite Enb|].
      unfold OptDist.Cost, lw. by destruct (cn_just c1).
    - apply elem_of_list_fmap in He as (b & -> & Hb). cbn [fst snd]. split; [right; eauto|done]. }
  apply IH; auto.
  - split.
    + intros w. unfold last1, pc1. destruct (decide (w = v)) as [->|Hne]; [rewrite !lookup_insert; split; eauto|].
      rewrite !lookup_insert_ne by done. apply I.
    + intros w k Hk. apply lookup_insert_Some in Hk as [[<- <-]|[_ Hk]]; [done|]. by apply (si_tight _ _ _ I).
    + intros w k Hk. apply lookup_insert_Some in Hk as [[<- <-]|[_ Hk]]; [done|].
      destruct (si_back _ _ _ I _ _ Hk) as (cs & H1 & H2 & H3 & H4). exists cs. split; [by apply back_mono|]. split; [done|]. split; [done|lia].
    + intros w k c1 Hk Hs. apply lookup_insert_Some in Hk as [[<- <-]|[_ Hk]].
      * right. exists (cost + Cost c1, c1). split; [apply elem_of_app; right; by apply Hnew|]. done.
      * destruct (si_front _ _ _ I _ _ _ Hk Hs) as [Hp|(e & He & En & Hle)].
        -- left. unfold pc1. destruct (decide (cn_next c1 = v)) as [->|Hne]; [rewrite lookup_insert; eauto|by rewrite lookup_insert_ne].
        -- rewrite Hperm in He. apply elem_of_cons in He as [->|He].
           ++ left. cbn in En. fold v in En. unfold pc1. rewrite <- En, lookup_insert. eauto.
           ++ right. exists e. split; [apply elem_of_app; by left|done].
    + intros e [He|He]%elem_of_app.
      * destruct (si_heap _ _ _ I e (Hsub e He)) as [?|(k & Hk & Hs & Ek)]; [by left|]. right. exists k. split; [|done].
        unfold pc1. rewrite lookup_insert_ne; [done|]. intros E. congruence.
      * destruct (Hnew' e He) as [Hs Ek]. right. exists cost. rewrite (gstep_cur _ _ Hs). split; [unfold pc1; by rewrite lookup_insert|]. done.
    + left. destruct (si_start _ _ _ I) as [Hs|[E0 He]].
      * unfold pc1. rewrite lookup_insert_ne; [done|]. congruence.
      * specialize (Hmin _ He). cbn in Hmin. assert (cost = 0) as Ec0 by lia.
        assert (Evs : v = start).
        { destruct (si_heap _ _ _ I _ Hin) as [E|(k & Hk & _)]; [injection E as _ Ec; unfold v; by rewrite Ec|]. rewrite E0, lookup_empty in Hk. done. }
        unfold pc1. by rewrite <- Evs, lookup_insert, Ec0.
    + unfold pc1. rewrite lookup_insert_ne by done. apply I.
  - rewrite app_length. unfold restm. unfold pc1. rewrite dom_insert_L.
    assert (Hnd' : v ∉ dom pc) by (by apply not_elem_of_dom).
    pose proof (rest_visit wdeg (dom pc) v Hvl Hnd') as Hr. unfold wdeg at 2 in Hr. rewrite Hos in Hr. cbn [default] in Hr. unfold deg in Hr. rewrite Enb in Hr.
    assert (Hll : length new <= length (xn_neighbors nd) + length os).
    { unfold new. rewrite app_length, fmap_length. pose proof (rule_entries_len cost nd). lia. }
    unfold restm in Hfu. cbn in Hr. lia.
Qed.
End run.
End search.
