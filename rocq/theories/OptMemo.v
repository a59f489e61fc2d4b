(** What the length optimiser leaves in the path memo: shortest paths, so that explanations
    read from it exist. *)
From Verif Require Import Base UnionFind EGraphModel EGraphSafe ExplainForest Terms RecExprModel ExprModel ExplainModel ExplainSpec ExplainPath
  ExplainProofs ExtractSpec OptModel OptDist OptPar OptNeighbours OptSearch OptSpec.

Section memo.
Context {Op : Type} `{Countable Op}.
Notation node := (node Op).
Notation explain := (explain Op).
Context {alt : nat -> nat -> justif -> Prop} {ns : list node} {h : list (event Op)} {x : explain} {es : list edge}.
Context (W : world alt ns h x es).
Let Hd : dag ns := w_dag _ _ _ _ _ W.
Let Hlen : length (ex_find x) = length ns := w_len _ _ _ _ _ W.
Let F : forest alt (ex_find x) es := w_for _ _ _ _ _ W.
Let Ho : edges_ok ns h es := w_edg _ _ _ _ _ W.
Notation N := (length (ex_find x)).
Notation u := (pl (ex_find x)).
Notation f := (ex_find x).
Notation Dst := (Dst ns x es).
Notation Cost := (Cost ns x es).
Notation PD := (PD ns x es).
Let wf : uf_wf u := fo_wf _ _ _ F.
Context (Hnl : forall i c, c ∈ nbs f i -> cn_next c < N) (Hnbp : nbp f).
Context (cn : list (list nat)) (Hcn : cn_ok (ns := ns) (x := x) (es := es) cn).
Notation gstep := (gstep (x := x) cn).
Notation walk := (walk (x := x) cn).
Notation Tight := (Tight (ns := ns) (x := x) (es := es) cn).
Notation wcost cs := (sum_list (Cost <$> cs)).

(** ** The memo *)
Inductive chain (sh : smemo) (r : nat) : nat -> list conn -> Prop :=
| ch_nil : chain sh r r []
| ch_cons a c cs k : a <> r -> sh !! (a, r) = Some (k, cn_next c) -> gstep a c -> chain sh r (cn_next c) cs -> chain sh r a (c :: cs).
(** an entry is a rule step to the goal itself, the goal's own, or the first hop of a
    shortest walk whose other hops are entries too *)
Definition memo_ok (sh : smemo) : Prop :=
  forall a r k nx, sh !! (a, r) = Some (k, nx) ->
    (nx = r /\ exists c, c ∈ nbs f a /\ cn_next c = r /\ cn_just c <> JCong) \/ a = r \/
    (exists cs, chain sh r a cs /\ Tight a r (wcost cs)).

Lemma chain_walk sh r a cs : chain sh r a cs -> walk a cs r.
Proof. induction 1; econstructor; eauto. Qed.
Lemma chain_len sh r a cs cs' : chain sh r a cs -> chain sh r a cs' -> length cs = length cs'.
Proof.
  intros Hc. revert cs'. induction Hc as [|a c cs k Hne Hs Hg _ IH]; intros cs' Hc'; inversion Hc'; subst; try done.
  cbn. f_equal. apply IH. congruence.
Qed.
Lemma chain_suffix sh r a cs p c q : chain sh r a cs -> cs = p ++ c :: q -> chain sh r (cn_current c) (c :: q).
Proof.
  intros Hc. revert p. induction Hc as [|a c' cs k Hne Hs Hg Hc IH]; intros p E; [by destruct p|].
  destruct p as [|c1 p]; injection E as -> ->; [|by apply (IH p)].
  rewrite (gstep_cur W cn _ _ Hg). by econstructor.
Qed.
Lemma chain_NoDup sh r a cs : chain sh r a cs -> NoDup (cn_current <$> cs).
Proof.
  induction 1 as [|a c cs k Hne Hs Hg Hc IH]; [constructor|]. cbn. constructor; [|done].
  intros (c' & Ec & Hin)%elem_of_list_fmap. apply elem_of_list_split in Hin as (p & q & E). rewrite (gstep_cur W cn _ _ Hg) in Ec.
  pose proof (chain_suffix _ _ _ _ _ _ _ Hc E) as Hs'. rewrite <- Ec in Hs'.
  pose proof (ch_cons sh r a c cs k Hne Hs Hg Hc) as Hf. apply (chain_len _ _ _ _ _ Hf) in Hs'. rewrite E in Hs'. cbn in Hs'. rewrite app_length in Hs'. cbn in Hs'. lia.
Qed.
Lemma NoDup_lt_len (l : list nat) n : NoDup l -> (forall i, i ∈ l -> i < n) -> length l <= n.
Proof.
  intros Hn Hl. rewrite <- (seq_length n 0). apply submseteq_length. apply NoDup_submseteq; [done|]. intros i Hi. apply elem_of_seq. specialize (Hl i Hi). lia.
Qed.
Lemma walk_cur_lt a cs b c : walk a cs b -> a < N -> c ∈ cs -> cn_current c < N.
Proof.
  induction 1 as [|a c' cs b Hg _ IH]; intros Ha Hin; [by apply elem_of_nil in Hin|]. apply elem_of_cons in Hin as [->|Hin].
  - by rewrite (gstep_cur W cn _ _ Hg).
  - apply IH; [|done]. exact (gstep_lt W Hnl cn Hcn _ _ Hg).
Qed.
Lemma chain_short sh r a cs : a < N -> chain sh r a cs -> length cs <= N.
Proof.
  intros Ha Hc. rewrite <- (fmap_length cn_current). apply NoDup_lt_len; [by eapply chain_NoDup|].
  intros i (c & -> & Hin)%elem_of_list_fmap. eapply walk_cur_lt; [by eapply chain_walk|done|done].
Qed.

(** ** Writing a path into the memo *)
Context (ca : gmap (nat * nat) nat) (dm : gmap nat nat).
Context (Hca : forall l r a, ca !! (l, r) = Some a -> lca u l r a) (Hdm : forall i, i < N -> dm !! i = Some (dep x i)).
Context (pop : list (list hentry) -> list hentry -> option (hentry * list hentry)) (Hpop : pops_min pop).
Context (fuel : nat) (Hfuel : length es < fuel) (HfuelN : N < fuel).
Context (Hfuel2 : S (sumf (wdeg (x := x) cn) N) < fuel).

Lemma conn_cost a c pd : gstep a c -> PD pd ->
  exists pd', connection_distance ns (distance_between x ns ca dm fuel) c pd = Ok (Cost c, pd') /\ PD pd'.
Proof.
  intros [[Hc Hj]|(os & b & Hos & Hb & ->)] HP.
  - exists pd. unfold connection_distance, OptDist.Cost, lw. by destruct (cn_just c).
  - unfold connection_distance. cbn [cn_just cn_current cn_next]. by apply (cong_cost W cn Hcn ca dm Hca Hdm fuel Hfuel a os b).
Qed.
Lemma chain_insert sh r a v cs : chain sh r a cs -> (forall c, c ∈ cs -> cn_current c <> v) -> forall e, chain (<[(v, r) := e]> sh) r a cs.
Proof.
  intros Hc Hv e. induction Hc as [|a c cs k Hne Hs Hg Hc IH]; [constructor|]. econstructor; [done| |done|].
  - rewrite lookup_insert_ne; [exact Hs|]. intros [= <-]. apply (Hv c); [by left|]. exact (gstep_cur W cn _ _ Hg).
  - apply IH. intros c' Hc'. apply Hv. by right.
Qed.
Lemma populate_ok r : forall cs a sh pd, walk a cs r -> NoDup (cn_current <$> cs) -> r ∉ cn_current <$> cs -> sh !! (r, r) = Some (0, r) -> PD pd ->
  exists sh' pd', populate_loop x ns ca dm fuel r cs sh pd = Ok (sh', pd') /\ PD pd' /\ chain sh' r a cs /\ is_Some (sh' !! (a, r)) /\
    (forall b r', sh' !! (b, r') = sh !! (b, r') \/ (r' = r /\ b ∈ cn_current <$> cs)).
Proof.
  induction cs as [|c cs IH]; intros a sh pd Hw Hnd Hr Hsh HP; cbn [populate_loop].
  - inversion Hw; subst. exists sh, pd. split; [done|]. split; [done|]. split; [constructor|]. split; [eauto|]. intros; by left.
  - inversion Hw as [|? ? ? ? Hg Hw']; subst. cbn in Hnd. apply NoDup_cons in Hnd as [Hn1 Hnd].
    destruct (IH (cn_next c) sh pd Hw' Hnd) as (sh1 & pd1 & -> & P1 & C1 & [[k nx] S1] & O1); auto.
    { intros Hin. apply Hr. cbn. by right. }
    cbn [mbind res_bind]. rewrite S1. cbn [expect mbind res_bind].
    destruct (conn_cost a c pd1 Hg P1) as (pd2 & -> & P2). cbn [mbind res_bind].
    pose proof (gstep_cur W cn _ _ Hg) as Ec. rewrite Ec.
    eexists _, pd2. split; [done|]. split; [done|]. split; [|split].
    + econstructor; [|apply lookup_insert|done|].
      * intros Ear. apply Hr. cbn. rewrite Ec, Ear. left.
      * apply chain_insert; [done|]. intros c' Hc' E. apply Hn1. rewrite Ec, <- E. by apply elem_of_list_fmap_1.
    + rewrite lookup_insert. eauto.
    + intros b r'. destruct (decide ((a, r) = (b, r'))) as [[= -> ->]|Hne].
      * right. split; [done|]. cbn. rewrite Ec. by left.
      * rewrite lookup_insert_ne by done. destruct (O1 b r') as [?|[-> Hb]]; [by left|]. right. split; [done|]. cbn. by right.
Qed.
(** the memo after a shortest path has been written *)
Lemma memo_populate r cs a sh sh' : memo_ok sh -> Tight a r (wcost cs) -> chain sh' r a cs ->
  (forall b r', sh' !! (b, r') = sh !! (b, r') \/ (r' = r /\ (b = r \/ b ∈ cn_current <$> cs))) -> memo_ok sh'.
Proof.
  intros Hm Ht Hc Hs.
  assert (Hsuf : forall c, c ∈ cs -> exists q, chain sh' r (cn_current c) q /\ Tight (cn_current c) r (wcost q)).
  { intros c Hin. apply elem_of_list_split in Hin as (p & q & E). exists (c :: q). pose proof (chain_suffix _ _ _ _ _ _ _ Hc E) as Hq.
    split; [done|]. eapply (Tight_suffix W cn a p).
    - clear -Hc E W. revert p E. induction Hc as [|a c' cs k Hne Hs' Hg Hc IH]; intros p E; [by destruct p|].
      destruct p as [|c1 p]; injection E as -> ->; [rewrite (gstep_cur W cn _ _ Hg); constructor|]. econstructor; [done|by apply IH].
    - by eapply chain_walk.
    - rewrite E, wcost_app in Ht. done. }
  assert (Hold : forall b q, chain sh r b q -> Tight b r (wcost q) -> exists q', chain sh' r b q' /\ Tight b r (wcost q')).
  { intros b q Hq. induction Hq as [|b c q k Hne Hk Hg Hq IH]; intros Hb.
    - exists []. split; [constructor|done].
    - destruct (Hs b r) as [Es|[_ [->|Hin]]]; [|done|].
      + destruct IH as (q' & Hq' & Ht').
        { apply (Tight_suffix W cn b [c]); [econstructor; [done|constructor]|by eapply chain_walk|].
          rewrite <- wcost_app. done. }
        exists (c :: q'). split; [econstructor; [done|rewrite Es; exact Hk|done|done]|].
        assert (Ht2 : Tight (cn_next c) r (wcost q)).
        { apply (Tight_suffix W cn b [c]); [econstructor; [done|constructor]|by eapply chain_walk|].
          rewrite <- wcost_app. done. }
        pose proof (Tight_fun W cn _ _ _ _ Ht' Ht2) as Eq. rewrite wcost_cons, Eq. rewrite wcost_cons in Hb. done.
      + apply elem_of_list_fmap in Hin as (c' & -> & Hin). by apply Hsuf. }
  intros b r' k nx Hk. destruct (Hs b r') as [Es|[-> [->|Hin]]].
  - rewrite Es in Hk. destruct (Hm _ _ _ _ Hk) as [?|[?|(q & Hq & Htq)]]; [by left|by right; left|]. right. right.
    destruct (decide (r' = r)) as [->|Hne]; [by apply (Hold b q)|].
    exists q. split; [|done]. clear -Hq Hs Hne. induction Hq as [|b c q k' Hn Hk' Hg Hq IH]; [constructor|]. econstructor; [done| |done|done].
    destruct (Hs b r') as [->|[? _]]; [exact Hk'|done].
  - by right; left.
  - right. right. apply elem_of_list_fmap in Hin as (c' & -> & Hin). by apply Hsuf.
Qed.

(** ** One shortest path *)
Lemma back_prefix last start v cs : back last start v cs -> forall p c q, cs = p ++ c :: q -> back last start (cn_current c) p.
Proof.
  induction 1 as [|v c0 cs Hne Hl Hb IH]; intros p c q E; [by destruct p|].
  destruct q as [|c1 q _] using rev_ind.
  - apply app_inj_tail in E as [-> ->]. done.
  - rewrite app_comm_cons, app_assoc in E. apply app_inj_tail in E as [-> ->]. by eapply IH.
Qed.
Lemma back_NoDup last start v cs : back last start v cs -> NoDup (cn_current <$> cs) /\ v ∉ cn_current <$> cs.
Proof.
  intros Hb. assert (Hpos : forall i c, cs !! i = Some c -> back last start (cn_current c) (take i cs)).
  { intros i c Hi. apply (back_prefix _ _ _ _ Hb (take i cs) c (drop (S i) cs)). symmetry. by apply take_drop_middle. }
  split.
  - apply NoDup_alt. intros i j w Hi Hj. rewrite list_lookup_fmap in Hi, Hj.
    destruct (cs !! i) as [c|] eqn:Ei; [|done]. destruct (cs !! j) as [c'|] eqn:Ej; [|done]. cbn in Hi, Hj.
    pose proof (Hpos _ _ Ei) as H1. pose proof (Hpos _ _ Ej) as H2. injection Hi as Hi. injection Hj as Hj. rewrite Hi in H1. rewrite Hj in H2.
    pose proof (back_fun _ _ _ _ _ H1 H2) as E. apply (f_equal length) in E. rewrite !take_length in E.
    apply lookup_lt_Some in Ei, Ej. lia.
  - intros (c & -> & Hin)%elem_of_list_fmap. apply elem_of_list_lookup in Hin as [i Hi].
    pose proof (back_fun _ _ _ _ _ Hb (Hpos _ _ Hi)) as E. apply (f_equal length) in E. rewrite take_length in E. apply lookup_lt_Some in Hi. lia.
Qed.
Lemma search_back_ok last start v cs : back last start v cs -> forall fl acc, length cs < fl -> search_back fl last start v acc = Ok (cs ++ acc).
Proof.
  induction 1 as [|v c cs Hne Hl _ IH]; intros fl acc Hfl; (destruct fl as [|fl]; [lia|]); cbn [search_back].
  - by rewrite bool_decide_eq_true_2.
  - rewrite bool_decide_eq_false_2 by done. rewrite Hl, IH; [by rewrite <- app_assoc|]. rewrite app_length in Hfl. cbn in Hfl. lia.
Qed.

(** pairs that [greedy_short_explanations] may look at *)
Definition pair_ok (p : nat * nat) : Prop := p.1 < N /\ p.2 < N /\ connected es p.1 p.2.
Lemma zip_pairs a b n m : ns !! a = Some n -> ns !! b = Some m -> Forall2 (connected es) (nch n) (nch m) -> Forall pair_ok (zip (nch n) (nch m)).
Proof.
  intros Hn Hm Hf. pose proof (Forall2_lt W _ _ _ _ _ Hn Hm Hf) as Hf'. clear -Hf'. induction Hf' as [|c d l k Hc _ IH]; cbn; constructor; auto.
Qed.
Lemma cong_pairs_ok c a b : (cn_just c = JCong -> exists n m, ns !! a = Some n /\ ns !! b = Some m /\ Forall2 (connected es) (nch n) (nch m)) ->
  exists l, cong_pairs ns c a b = Ok l /\ Forall pair_ok l.
Proof.
  intros Hc. unfold cong_pairs. destruct (cn_just c); [exists []; split; [done|constructor]|].
  destruct (Hc eq_refl) as (n & m & Hn & Hm & Hf). rewrite Hn, Hm. cbn [expect mbind res_bind]. eexists. split; [done|]. by eapply zip_pairs.
Qed.
Lemma mapM_pairs (g : conn -> res (list (nat * nat))) cs : (forall c, c ∈ cs -> exists l, g c = Ok l /\ Forall pair_ok l) ->
  exists ls, mapM g cs = Ok ls /\ Forall pair_ok (mjoin ls).
Proof.
  induction cs as [|c cs IH]; intros Hc; cbn; [exists []; split; [done|constructor]|].
  destruct (Hc c) as (l & -> & Hl); [by left|]. cbn [mbind res_bind]. destruct IH as (ls & -> & Hls); [intros; apply Hc; by right|]. cbn [mbind res_bind].
  eexists. split; [done|]. cbn. by apply Forall_app.
Qed.
Lemma walk_gstep a cs b c : walk a cs b -> c ∈ cs -> gstep (cn_current c) c.
Proof.
  induction 1 as [|a c' cs b Hg _ IH]; intros Hin; [by apply elem_of_nil in Hin|]. apply elem_of_cons in Hin as [->|Hin]; [|by apply IH].
  by rewrite (gstep_cur W cn _ _ Hg).
Qed.
Definition kids_conn (c : conn) : Prop :=
  cn_just c = JCong -> exists n m, ns !! cn_current c = Some n /\ ns !! cn_next c = Some m /\ nop n = nop m /\ Forall2 (connected es) (nch n) (nch m).
Lemma gstep_kids a c : gstep a c -> kids_conn c.
Proof. intros [[_ Hj]|(os & b & Hos & Hb & ->)] Ej; [done|]. cbn. by apply (cn_cong cn Hcn a os b). Qed.
Lemma path_pairs_ok lc rc : Forall kids_conn (lc ++ rc) -> exists l, path_pairs ns lc rc = Ok l /\ Forall pair_ok l.
Proof.
  intros [Hl Hr]%Forall_app. unfold path_pairs. rewrite Forall_forall in Hl, Hr.
  destruct (mapM_pairs (fun c => cong_pairs ns c (cn_current c) (cn_next c)) lc) as (l1 & -> & F1).
  { intros c Hc. apply cong_pairs_ok. intros Ej. destruct (Hl c Hc Ej) as (n & m & ? & ? & _ & ?). eauto. }
  cbn [mbind res_bind].
  destruct (mapM_pairs (fun c => cong_pairs ns c (cn_next c) (cn_current c)) (reverse rc)) as (l2 & -> & F2).
  { intros c Hc. rewrite elem_of_reverse in Hc. apply cong_pairs_ok. intros Ej. destruct (Hr c Hc Ej) as (n & m & ? & ? & _ & Hf). exists m, n. split; [done|]. split; [done|].
    apply Forall2_flip. eapply Forall2_impl; [exact Hf|]. intros. by apply connected_sym. }
  cbn [mbind res_bind]. eexists. split; [done|]. by apply Forall_app.
Qed.

(** a property of memos that writing a shortest path keeps *)
Context (P : smemo -> Prop) (HPm : forall r cs a sh sh', P sh -> Tight a r (wcost cs) -> chain sh' r a cs ->
  (forall b r', sh' !! (b, r') = sh !! (b, r') \/ (r' = r /\ (b = r \/ b ∈ cn_current <$> cs))) -> P sh').
Lemma shortest_path_ok start goal sh pd : pair_ok (start, goal) -> P sh -> PD pd ->
  exists lc rc sh' pd', shortest_path x ns ca dm pop cn fuel start goal sh pd = Ok (lc, rc, sh', pd') /\ P sh' /\ PD pd' /\ Forall kids_conn (lc ++ rc) /\
    ((exists k, Tight start goal k /\ Dst start goal <= k) \/ is_Some (sh' !! (start, goal))).
Proof.
  intros (Hs & Hg & Hc) Hm HP. cbn [fst snd] in *. unfold shortest_path. cbn zeta.
  destruct (tree_walk W Hnbp cn Hcn start goal Hs Hg Hc) as (ws & Hws & Ews).
  destruct (search_loop_ok W Hnl cn Hcn ca dm Hca Hdm pop Hpop fuel Hfuel start goal Hs Hg (ex_intro _ ws Hws) fuel
    [[(0, Conn start start JCong true)]] [(0, Conn start start JCong true)] ∅ ∅ pd) as ([[last pc] pd1] & E & (P1 & k & cs & Hk & Ht & Hb & Hw & Ek & Hl & _)).
  { split.
    - intros v. rewrite !lookup_empty. split; intros [? ?]; done.
    - intros v k Hk. by rewrite lookup_empty in Hk.
    - intros v k Hk. by rewrite lookup_empty in Hk.
    - intros v k c Hk. by rewrite lookup_empty in Hk.
    - intros e ->%elem_of_list_singleton. by left.
    - right. split; [done|]. by left.
    - apply lookup_empty. }
  { intros v c Hv. by rewrite lookup_empty in Hv. }
  { done. }
  { unfold restm. rewrite dom_empty_L, (rest_empty W Hnl). cbn. lia. }
  rewrite E. cbn [mbind res_bind]. cbn [fst snd] in *. rewrite Hk. cbn [expect mbind res_bind].
  destruct (distance_ok W ca dm Hca Hdm fuel start goal Hfuel Hs Hg Hc pd1 P1) as (pd2 & -> & P2 & _). cbn [mbind res_bind].
  destruct (Nat.leb_spec (Dst start goal) k) as [Hle|Hgt].
  - destruct (Dst_path W start goal Hs Hg Hc) as (lc & rc & -> & Hf & _). cbn [mbind res_bind]. exists lc, rc, sh, pd2. split; [done|]. split; [done|]. split; [done|]. split; [|left; eauto].
    eapply Forall_impl; [exact Hf|]. intros c Hc' Ej. exact (cong_kids W c Hc' Ej).
  - rewrite (search_back_ok _ _ _ _ Hb) by lia. cbn [mbind res_bind]. rewrite app_nil_r. unfold populate_path_length.
    destruct (back_NoDup _ _ _ _ Hb) as [Hnd Hng].
    destruct (populate_ok goal cs start (<[(goal, goal) := (0, goal)]> sh) pd2 Hw Hnd Hng) as (sh' & pd3 & -> & P3 & C3 & S3 & O3).
    { by rewrite lookup_insert. }
    { done. }
    cbn [mbind res_bind]. exists cs, [], sh', pd3. split; [done|]. split; [|split; [done|split; [|by right]]].
    + apply (HPm goal cs start sh sh' Hm); [by rewrite Ek|done|]. intros b r'. destruct (O3 b r') as [Eb|[-> Hb']]; [|by right; auto].
      destruct (decide ((goal, goal) = (b, r'))) as [[= <- <-]|Hne]; [right; auto|]. rewrite lookup_insert_ne in Eb by done. by left.
    + rewrite app_nil_r. apply Forall_forall. intros c Hin. eapply gstep_kids. by eapply walk_gstep.
Qed.

(** ** The greedy loop *)
Lemma wdeg_deg : sumf (deg (x := x)) N <= sumf (wdeg (x := x) cn) N.
Proof. apply sumf_le. intros i _. unfold wdeg. lia. Qed.
Lemma greedy_ok k : forall gf todo sh pd, gf < k -> Forall pair_ok todo -> P sh -> PD pd ->
  exists sh' pd', greedy x ns ca dm pop cn fuel k gf todo sh pd = Ok (sh', pd') /\ P sh'.
Proof.
  induction k as [|k IH]; intros gf todo sh pd Hgf Ht Hm HP; [lia|]. cbn [greedy].
  induction Ht as [|[start goal] todo Hp Ht IHt]; [eauto|].
  destruct (find_all_enodes_ok W Hnl fuel start) as (s & -> & Hs).
  { apply Hp. }
  { pose proof wdeg_deg. lia. }
  cbn [mbind res_bind].
  destruct (Nat.ltb_spec gf (base.size s)) as [Hlt|Hge]; [exact IHt|].
  destruct (shortest_path_ok start goal sh pd Hp Hm HP) as (lc & rc & sh1 & pd1 & -> & M1 & P1 & K1 & _). cbn [mbind res_bind].
  destruct (path_pairs_ok lc rc K1) as (new & -> & Hnew). cbn [mbind res_bind].
  apply IH; [|by apply Forall_app|done|done].
  assert (base.size s <> 0). { intros E%size_empty_inv. pose proof (co_start _ _ Hs) as Hin. rewrite E in Hin. by apply not_elem_of_empty in Hin. }
  lia.
Qed.
End memo.

(** The first pair is always looked at. *)
Section first.
Context {Op : Type} `{Countable Op}.
Notation node := (node Op).
Notation explain := (explain Op).
Context {alt : nat -> nat -> justif -> Prop} {ns : list node} {h : list (event Op)} {x : explain} {es : list edge}.
Context (W : world alt ns h x es).
Notation N := (length (ex_find x)).
Notation u := (pl (ex_find x)).
Notation f := (ex_find x).
Notation Dst := (Dst ns x es).
Notation PD := (PD ns x es).
Context (Hnl : forall i c, c ∈ nbs f i -> cn_next c < N) (Hnbp : nbp f).
Context (cn : list (list nat)) (Hcn : cn_ok (ns := ns) (x := x) (es := es) cn).
Notation Tight := (Tight (ns := ns) (x := x) (es := es) cn).
Notation wcost cs := (sum_list (Cost ns x es <$> cs)).
Context (ca : gmap (nat * nat) nat) (dm : gmap nat nat).
Context (Hca : forall l r a, ca !! (l, r) = Some a -> lca u l r a) (Hdm : forall i, i < N -> dm !! i = Some (dep x i)).
Context (pop : list (list hentry) -> list hentry -> option (hentry * list hentry)) (Hpop : pops_min pop).
Context (fuel : nat) (Hfuel : length es < fuel) (HfuelN : N < fuel).
Context (Hfuel2 : S (sumf (wdeg (x := x) cn) N) < fuel).
Context (P : smemo -> Prop) (HPm : forall r cs a sh sh', P sh -> Tight a r (wcost cs) -> chain (x := x) cn sh' r a cs ->
  (forall b r', sh' !! (b, r') = sh !! (b, r') \/ (r' = r /\ (b = r \/ b ∈ cn_current <$> cs))) -> P sh').
Lemma size_lt (s : gset nat) n : (forall i, i ∈ s -> i < n) -> base.size s <= n.
Proof.
  intros Hs. unfold base.size, set_size. cbn. apply (NoDup_lt_len W (elements s)); [apply NoDup_elements|]. intros i Hi. apply Hs. by apply elem_of_elements.
Qed.
Lemma greedy_first k gf start goal todo sh pd : gf < k -> N <= gf -> Forall (pair_ok (x := x) (es := es)) ((start, goal) :: todo) -> P sh -> PD pd ->
  exists sh' pd', greedy x ns ca dm pop cn fuel k gf ((start, goal) :: todo) sh pd = Ok (sh', pd') /\ P sh' /\
    ((exists k, Tight start goal k /\ Dst start goal <= k) \/ start = goal \/ is_Some (sh' !! (start, goal))).
Proof.
  intros Hgf HN [Hp Ht]%Forall_cons Hm HP. destruct k as [|k]; [lia|]. cbn [greedy].
  destruct (find_all_enodes_ok W Hnl fuel start) as (s & -> & Hs).
  { apply Hp. }
  { assert (sumf (deg (x := x)) N <= sumf (wdeg (x := x) cn) N) by (apply sumf_le; intros i _; unfold wdeg; lia). lia. }
  cbn [mbind res_bind]. pose proof (size_lt s N (co_lt _ _ Hs)) as Hsz.
  destruct (Nat.ltb_spec gf (base.size s)) as [Hlt|Hge]; [lia|].
  destruct (shortest_path_ok W Hnl Hnbp cn Hcn ca dm Hca Hdm pop Hpop fuel Hfuel HfuelN Hfuel2 P HPm start goal sh pd Hp Hm HP) as (lc & rc & sh1 & pd1 & -> & M1 & P1 & K1 & Hor). cbn [mbind res_bind].
  destruct (path_pairs_ok W lc rc K1) as (new & -> & Hnew). cbn [mbind res_bind].
  assert (Hpos : base.size s <> 0). { intros E%size_empty_inv. pose proof (co_start _ _ Hs) as Hin. rewrite E in Hin. by apply not_elem_of_empty in Hin. }
  destruct Hor as [Hk|Hk].
  - destruct (greedy_ok W Hnl Hnbp cn Hcn ca dm Hca Hdm pop Hpop fuel Hfuel HfuelN Hfuel2 P HPm k (gf - base.size s) (todo ++ new) sh1 pd1 ltac:(lia)) as (sh' & pd' & E & HP'); [by apply Forall_app|done|done|].
    eauto 8.
  - destruct (greedy_ok W Hnl Hnbp cn Hcn ca dm Hca Hdm pop Hpop fuel Hfuel HfuelN Hfuel2
      (fun sh => P sh /\ (start = goal \/ is_Some (sh !! (start, goal))))) with (k := k) (gf := gf - base.size s) (todo := todo ++ new) (sh := sh1) (pd := pd1) as (sh' & pd' & E & HP' & Hor); [|lia|by apply Forall_app|by auto|done|eauto 8].
    intros r cs a sh2 sh3 [HP2 Hor] Htt Hch Hs3. split; [by eapply HPm|]. destruct Hor as [?|Hor]; [by left|]. destruct (Hs3 start goal) as [E|[-> [?|Hin]]].
    + right. by rewrite E.
    + by left.
    + right. apply elem_of_list_fmap in Hin as (c & -> & Hin). apply elem_of_list_split in Hin as (p & q & E).
      pose proof (chain_suffix W cn _ _ _ _ _ _ _ Hch E) as Hsu. inversion Hsu; subst. eauto.
Qed.
End first.
