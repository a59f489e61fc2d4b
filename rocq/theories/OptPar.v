(** [distance_between] computes the distance along the proof forest. *)
From Verif Require Import Base UnionFind EGraphModel EGraphSafe ExplainForest Terms RecExprModel ExprModel ExplainModel ExplainSpec ExplainPath
  ExplainProofs OptModel OptDist.

(** sums over the ids *)
Definition sumf (f : nat -> nat) (n : nat) : nat := sum_list (f <$> seq 0 n).
Lemma sumf_S f n : sumf f (S n) = sumf f n + f n.
Proof. unfold sumf. rewrite seq_S, fmap_app, sum_app. cbn. lia. Qed.
Lemma sumf_le f g n : (forall i, i < n -> f i <= g i) -> sumf f n <= sumf g n.
Proof. induction n as [|n IH]; intros Hi; [done|]. rewrite !sumf_S. pose proof (Hi n). specialize (IH ltac:(intros; apply Hi; lia)). lia. Qed.
Lemma sumf_drop f g n i k : i < n -> g i + k <= f i -> (forall j, j < n -> g j <= f j) -> sumf g n + k <= sumf f n.
Proof.
  induction n as [|n IH]; intros Hi Hk Hj; [lia|]. rewrite !sumf_S. destruct (decide (i = n)) as [->|Hne].
  - pose proof (sumf_le g f n ltac:(intros; apply Hj; lia)). lia.
  - specialize (IH ltac:(lia) Hk ltac:(intros; apply Hj; lia)). pose proof (Hj n). lia.
Qed.

Section par.
Context {Op : Type} `{Countable Op}.
Notation node := (node Op).
Notation explain := (explain Op).
Context {alt : nat -> nat -> justif -> Prop} {ns : list node} {h : list (event Op)} {x : explain} {es : list edge}.
Context (W : world alt ns h x es).
Let Hd : dag ns := w_dag _ _ _ _ _ W.
Let Hlen : length (ex_find x) = length ns := w_len _ _ _ _ _ W.
Let F : forest alt (ex_find x) es := w_for _ _ _ _ _ W.
Let Ho : edges_ok ns h es := w_edg _ _ _ _ _ W.
Notation N := (length (ex_find x)).
Notation u := (pl (ex_find x)).
Notation Dst := (Dst ns x es).
Notation Cost := (Cost ns x es).
Notation Hgt := (Hgt ns x es).
Let wf : uf_wf u := fo_wf _ _ _ F.

(** ** Depths *)
Definition dep (v : nat) : nat := match get_connections x v (uf_find u v) with Ok cs => length cs | _ => 0 end.
Lemma dep_climb v cs : v < N -> climb x v cs (uf_find u v) -> dep v = length cs.
Proof.
  intros Hv Hc. destruct (anc_climb W v _ Hv (climb_anc _ _ _ Hc)) as (cs' & E & Hc'). unfold dep. rewrite E. by rewrite (climb_fun W _ _ _ _ Hc Hc').
Qed.
Lemma dep_root v : v < N -> uf_parent u v = v -> dep v = 0.
Proof. intros Hv Hp. apply (dep_climb v [] Hv). rewrite (uf_find_root u v wf Hp). constructor. Qed.
Lemma dep_step v : v < N -> uf_parent u v <> v -> dep v = S (dep (uf_parent u v)).
Proof.
  intros Hv Hp. destruct (lookup_lt_is_Some_2 _ _ Hv) as [nd Hnd]. pose proof (pl_parent _ _ _ Hnd) as Ep.
  assert (Hpl : uf_parent u v < N) by (apply (u_lt W v); [apply anc_parent|done]).
  destruct (anc_climb W _ _ Hpl (anc_root W _ Hpl)) as (cs & _ & Hc). rewrite (dep_climb _ cs Hpl Hc).
  rewrite (dep_climb v (xn_parent nd :: cs) Hv); [done|]. rewrite Ep in *. econstructor; [done|done|].
  rewrite <- Ep. rewrite <- (uf_find_parent u v wf). rewrite Ep. done.
Qed.
Lemma dep_anc v a : v < N -> anc u v a -> v = a \/ dep a < dep v.
Proof.
  intros Hv Ha. revert Hv. induction Ha as [v|v k a Hs Ha IH]; intros Hv; [by left|]. unfold pstep in Hs.
  destruct (decide (uf_parent u v = v)) as [E|E]; [rewrite E in Hs; subst k; by apply IH|].
  pose proof (dep_step v Hv E) as Hdv. subst k. right.
  destruct IH as [<-|IH]; [apply (u_lt W v); [apply anc_parent|done]|lia|lia].
Qed.
Lemma anc_total v a b : anc u v a -> anc u v b -> anc u a b \/ anc u b a.
Proof.
  intros Ha. revert b. induction Ha as [v|v k a Hs Ha IH]; intros b Hb; [by left|]. unfold pstep in Hs.
  destruct (anc_inv _ _ _ Hb) as [<-|Hb']; [right; eapply rtc_l; done|]. rewrite Hs in Hb'. by apply IH.
Qed.
Lemma anc_dep v a b : v < N -> anc u v a -> anc u v b -> dep b <= dep a -> anc u a b.
Proof.
  intros Hv Ha Hb Hle. destruct (anc_total _ _ _ Ha Hb) as [?|Hba]; [done|].
  destruct (dep_anc b a (u_lt W _ _ Hb Hv) Hba) as [->|?]; [apply rtc_refl|lia].
Qed.

Definition dm_ok (dm : gmap nat nat) : Prop := forall i d, dm !! i = Some d -> d = dep i.
Lemma add_tree_depths_ok rk : uf_ranked u rk -> (forall j, j < length u -> rk j < length u) ->
  forall fuel i dm, dm_ok dm -> i < N -> N <= fuel + rk i ->
  exists dm', add_tree_depths fuel x i dm = Ok (dm', dep i) /\ dm_ok dm' /\ dm' !! i = Some (dep i) /\
    (forall j, is_Some (dm !! j) -> is_Some (dm' !! j)).
Proof.
  intros Hr Hb. rewrite pl_length in Hb. induction fuel as [|fuel IH]; intros i dm Hdm Hi Hfu; [specialize (Hb i Hi); lia|].
  cbn [add_tree_depths]. destruct (dm !! i) as [d|] eqn:Ed.
  { pose proof (Hdm _ _ Ed) as ->. exists dm. split; [done|]. split; [done|]. split; [done|]. by intros ?. }
  rewrite (xparent_ok x i Hi). cbn [mbind res_bind].
  assert (Hins : forall dm0, dm_ok dm0 -> dm_ok (<[i := dep i]> dm0)).
  { intros dm0 Hd0 j d Hj. apply lookup_insert_Some in Hj as [[<- <-]|[_ Hj]]; auto. }
  assert (Hsm : forall (dm0 : gmap nat nat) j, is_Some (dm0 !! j) -> is_Some (<[i := dep i]> dm0 !! j)).
  { intros dm0 j Hj. destruct (decide (i = j)) as [->|Hne]; [rewrite lookup_insert|rewrite lookup_insert_ne by done]; eauto. }
  case_bool_decide as Hp.
  - pose proof (dep_root i Hi Hp) as E0. exists (<[i := dep i]> dm). split; [by rewrite E0|]. split; [by apply Hins|]. split; [by rewrite lookup_insert|]. apply Hsm.
  - assert (Hpl : uf_parent u i < N) by (apply (u_lt W i); [apply anc_parent|done]).
    pose proof (uf_parent_rank u rk i Hr Hp).
    destruct (IH (uf_parent u i) dm Hdm Hpl) as (dm1 & -> & H1 & _ & H3); [lia|]. cbn [mbind res_bind].
    replace (dep (uf_parent u i) + 1) with (dep i) by (rewrite (dep_step i Hi Hp); lia).
    exists (<[i := dep i]> dm1). split; [done|]. split; [by apply Hins|]. split; [by rewrite lookup_insert|]. intros j Hj. by apply Hsm, H3.
Qed.
Lemma calculate_tree_depths_ok : exists dm, calculate_tree_depths x = Ok dm /\ forall i, i < N -> dm !! i = Some (dep i).
Proof.
  pose proof wf as (rk & Hr & Hb). unfold calculate_tree_depths.
  assert (Hgo : forall l dm, dm_ok dm -> Forall (fun i => i < N) l ->
    exists dm', foldM (fun dm i => '(dm, _) ← add_tree_depths (S N) x i dm; Ok dm) l dm = Ok dm' /\ dm_ok dm' /\
      (forall j, j ∈ l \/ is_Some (dm !! j) -> is_Some (dm' !! j))).
  { induction l as [|i l IH]; intros dm Hdm Hl.
    - exists dm. split; [done|]. split; [done|]. intros j [?%elem_of_nil|?]; done.
    - apply Forall_cons in Hl as [Hi Hl]. cbn [foldM].
      destruct (add_tree_depths_ok rk Hr Hb (S N) i dm Hdm Hi) as (dm1 & -> & H1 & H2 & H3); [lia|]. cbn [mbind res_bind].
      destruct (IH dm1 H1 Hl) as (dm' & -> & H4 & H5). exists dm'. split; [done|]. split; [done|].
      intros j [[->|?]%elem_of_cons|?]; apply H5; [right; eauto|by left|right; by apply H3]. }
  destruct (Hgo (seq 0 N) ∅) as (dm & -> & H1 & H2).
  { intros i d Hi. by rewrite lookup_empty in Hi. }
  { apply Forall_forall. intros i [_ ?]%elem_of_seq. done. }
  exists dm. split; [done|]. intros i Hi. destruct (H2 i) as [d Hdi]; [left; apply elem_of_seq; lia|]. by rewrite Hdi, (H1 _ _ Hdi).
Qed.

(** ** Partial heights *)
Definition expanded (pd : pdist) (v : nat) : Prop := exists p d, pd !! v = Some (p, d) /\ p <> v.
Definition PD (pd : pdist) : Prop := length pd = N /\
  forall e p d, pd !! e = Some (p, d) -> anc u e p /\ d + Hgt p = Hgt e /\ forall v, anc u e v -> anc u v p -> v <> p -> expanded pd v.
Definition ext (pd pd' : pdist) : Prop := forall v, expanded pd v -> expanded pd' v.

Lemma PD_lookup pd e : PD pd -> e < N -> exists p d, pd !! e = Some (p, d).
Proof. intros [Hl _] He. destruct (lookup_lt_is_Some_2 pd e) as [[p d] E]; [lia|]. eauto. Qed.
Lemma expanded_nonroot pd v : PD pd -> expanded pd v -> uf_parent u v <> v.
Proof.
  intros [_ Hp] (p & d & E & Hne) Hr. destruct (Hp _ _ _ E) as [Ha _]. apply Hne. clear -Ha Hr.
  induction Ha as [|v k p Hs _ IH]; [done|]. unfold pstep in Hs. rewrite Hr in Hs. subst k. auto.
Qed.
Lemma expanded_insert pd e p d v : e < length pd -> expanded (<[e := (p, d)]> pd) v <-> (v = e /\ p <> e) \/ (v <> e /\ expanded pd v).
Proof.
  intros He. unfold expanded. destruct (decide (v = e)) as [->|Hne].
  - rewrite list_lookup_insert by done. split; [intros (? & ? & [= -> ->] & ?); auto|intros [[_ ?]|[? _]]; [eauto|done]].
  - rewrite list_lookup_insert_ne by done. naive_solver.
Qed.

(** follow the entry of the top *)
Lemma PD_compress pd e p d p' d' : PD pd -> e < N -> pd !! e = Some (p, d) -> pd !! p = Some (p', d') -> p' <> p ->
  PD (<[e := (p', d + d')]> pd) /\ (forall v, expanded (<[e := (p', d + d')]> pd) v <-> expanded pd v).
Proof.
  intros [Hl Hp] He E E' Hne. destruct (Hp _ _ _ E) as (A1 & A2 & A3). destruct (Hp _ _ _ E') as (B1 & B2 & B3).
  assert (Hiff : forall v, expanded (<[e := (p', d + d')]> pd) v <-> expanded pd v).
  { intros v. rewrite expanded_insert by lia. split.
    - intros [[-> Hpe]|[_ ?]]; [|done]. destruct (decide (e = p)) as [<-|Hep]; [exists p', d'; auto|exists p, d; auto].
    - intros Hv. destruct (decide (v = e)) as [->|Hve]; [left|auto]. split; [done|]. intros ->.
      apply Hne. apply (anc_antisym u); [apply F|done|done]. }
  split; [|done]. split; [by rewrite insert_length|]. intros i q k Hi. apply list_lookup_insert_Some in Hi as [(<- & [= <- <-] & _)|[_ Hi]].
  - split; [by etrans|]. split; [lia|]. intros v Hv Hvp Hvn. apply Hiff.
    destruct (anc_total _ _ _ Hv A1) as [Hvp0|Hpv]; [|by apply B3]. destruct (decide (v = p)) as [->|Hvp1]; [by apply B3; [apply rtc_refl| |]|by apply A3].
  - destruct (Hp _ _ _ Hi) as (C1 & C2 & C3). split; [done|]. split; [done|]. intros. apply Hiff. auto.
Qed.
(** enter the cost of one link *)
Lemma PD_expand pd p nd : PD pd -> ex_find x !! p = Some nd -> uf_parent u p <> p ->
  PD (<[p := (uf_parent u p, Cost (xn_parent nd))]> pd) /\ ext pd (<[p := (uf_parent u p, Cost (xn_parent nd))]> pd) /\
  expanded (<[p := (uf_parent u p, Cost (xn_parent nd))]> pd) p.
Proof.
  intros [Hl Hp] Hnd Hpp. pose proof (lookup_lt_Some _ _ _ Hnd) as Hpl. pose proof (pl_parent _ _ _ Hnd) as Ep.
  assert (Hex : expanded (<[p := (uf_parent u p, Cost (xn_parent nd))]> pd) p) by (apply expanded_insert; [lia|auto]).
  assert (Hext : ext pd (<[p := (uf_parent u p, Cost (xn_parent nd))]> pd)).
  { intros v Hv. destruct (decide (v = p)) as [->|?]; [done|]. apply expanded_insert; [lia|auto]. }
  split; [|split; [done|exact Hex]]. split; [by rewrite insert_length|]. intros i q k Hi. apply list_lookup_insert_Some in Hi as [(<- & [= <- <-] & _)|[_ Hi]].
  - split; [apply anc_parent|]. rewrite Ep in *. rewrite (Hgt_step W _ _ Hnd Hpp). split; [lia|].
    intros v Hv Hvp Hvn. destruct (anc_inv _ _ _ Hv) as [<-|Hv']; [done|]. rewrite Ep in Hv'.
    exfalso. apply Hvn. apply (anc_antisym u); [apply F|done|done].
  - destruct (Hp _ _ _ Hi) as (C1 & C2 & C3). split; [done|]. split; [done|]. intros. apply Hext. auto.
Qed.

Definition unexp (pd : pdist) : nat := sumf (fun v => match pd !! v with Some (p, _) => if decide (p = v) then 1 else 0 | None => 0 end) N.
Lemma unexp_le pd : unexp pd <= N.
Proof.
  unfold unexp. transitivity (sumf (fun _ => 1) N); [apply sumf_le; intros; repeat case_match; lia|].
  clear. induction N as [|n IH]; [done|]. rewrite sumf_S. lia.
Qed.
Lemma not_expanded pd v : ~ expanded pd v -> forall p d, pd !! v = Some (p, d) -> p = v.
Proof. intros Hn p d E. destruct (decide (p = v)); [done|]. exfalso. apply Hn. exists p, d. auto. Qed.
Lemma unexp_mono pd pd' : length pd = N -> ext pd pd' -> unexp pd' <= unexp pd.
Proof.
  intros Hl He. apply sumf_le. intros i Hi. destruct (pd' !! i) as [[p d]|] eqn:E; [|lia]. case_decide as Hp; [|lia].
  destruct (lookup_lt_is_Some_2 pd i) as [[q k] E']; [lia|]. rewrite E'. case_decide as Hq; [lia|]. exfalso.
  destruct (He i) as (p' & d' & E2 & Hne); [exists q, k; auto|]. congruence.
Qed.
Lemma unexp_lt pd pd' p : length pd = N -> ext pd pd' -> p < N -> ~ expanded pd p -> expanded pd' p -> unexp pd' < unexp pd.
Proof.
  intros Hl He Hp Hn Hy. unfold unexp. enough (Hs : unexp pd' + 1 <= unexp pd) by (unfold unexp in Hs; lia).
  apply (sumf_drop _ _ N p 1 Hp).
  - destruct (lookup_lt_is_Some_2 pd p) as [[q k] E]; [lia|]. rewrite E. rewrite decide_True by (by eapply not_expanded).
    destruct Hy as (p' & d' & -> & Hne). rewrite decide_False by done. lia.
  - intros i Hi. destruct (pd' !! i) as [[p0 d]|] eqn:E; [|lia]. case_decide as Hp0; [|lia].
    destruct (lookup_lt_is_Some_2 pd i) as [[q k] E']; [lia|]. rewrite E'. case_decide as Hq; [lia|]. exfalso.
    destruct (He i) as (p' & d' & E2 & Hne); [exists q, k; auto|]. congruence.
Qed.

Section rec.
Context (ca : gmap (nat * nat) nat) (dm : gmap nat nat).
Context (Hca : forall l r a, ca !! (l, r) = Some a -> lca u l r a) (Hdm : forall i, i < N -> dm !! i = Some (dep i)).
Context (rec : nat -> nat -> pdist -> res (nat * pdist)).
Definition rec_ok (l r : nat) : Prop := forall pd, PD pd -> exists pd', rec l r pd = Ok (Dst l r, pd') /\ PD pd' /\ ext pd pd'.
Definition conn_ok (c : conn) : Prop := forall pd, PD pd -> exists pd', connection_distance ns rec c pd = Ok (Cost c, pd') /\ PD pd' /\ ext pd pd'.

Lemma children_distance_ok cs ds : Forall2 rec_ok cs ds -> forall pd, PD pd ->
  exists pd', children_distance rec cs ds pd = Ok (sum_list (zip_with Dst cs ds), pd') /\ PD pd' /\ ext pd pd'.
Proof.
  induction 1 as [|c d cs ds Hc _ IH]; intros pd HP; [exists pd; split; [done|]; split; [done|by intros ?]|].
  cbn [children_distance zip_with]. destruct (Hc pd HP) as (pd1 & -> & P1 & X1). cbn [mbind res_bind].
  destruct (IH pd1 P1) as (pd2 & -> & P2 & X2). cbn [mbind res_bind]. exists pd2. split; [done|]. split; [done|]. intros v Hv. auto.
Qed.
Lemma congruence_distance_ok cur next n m : ns !! cur = Some n -> ns !! next = Some m -> Forall2 rec_ok (nch n) (nch m) -> forall pd, PD pd ->
  exists pd', congruence_distance ns rec cur next pd = Ok (sum_list (zip_with Dst (nch n) (nch m)), pd') /\ PD pd' /\ ext pd pd'.
Proof.
  intros Hn Hm Hf pd HP. unfold congruence_distance. rewrite Hn. cbn [expect mbind res_bind]. rewrite Hm. cbn [expect mbind res_bind].
  by apply children_distance_ok.
Qed.
Lemma connection_distance_ok c : (cn_just c = JCong -> exists n m, ns !! cn_current c = Some n /\ ns !! cn_next c = Some m /\ Forall2 rec_ok (nch n) (nch m)) ->
  conn_ok c.
Proof.
  intros Hc pd HP. unfold connection_distance, OptDist.Cost, lw. destruct (cn_just c) eqn:Ej.
  - exists pd. split; [done|]. split; [done|by intros ?].
  - destruct (Hc eq_refl) as (n & m & Hn & Hm & Hf). rewrite Hn, Hm. by apply congruence_distance_ok.
Qed.

(** [an]: the ancestor given, if any *)
Definition below_ok (e : nat) (an : option nat) : Prop := forall a, an = Some a -> anc u e a /\
  forall v nd, anc u e v -> anc u v a -> v <> a -> ex_find x !! v = Some nd -> conn_ok (xn_parent nd).
Lemma loop_ok rk e an : uf_ranked u rk -> (forall j, j < N -> rk j < N) -> e < N -> below_ok e an ->
  forall fuel pd p d, PD pd -> pd !! e = Some (p, d) -> unexp pd * S N + (N - rk p) < fuel ->
  exists pd' p' d', parent_distance_loop x ns dm rec fuel e an pd = Ok pd' /\ PD pd' /\ ext pd pd' /\
    (an = None -> ext pd' pd /\ forall i, i <> e -> pd' !! i = pd !! i) /\ pd' !! e = Some (p', d') /\ ~ expanded pd' p' /\ (forall a, an = Some a -> dep p' <= dep a).
Proof.
  intros Hr Hb He Hbl. induction fuel as [|fuel IH]; intros pd p d HP E Hfu; [lia|]. cbn [parent_distance_loop]. rewrite E. cbn [expect mbind res_bind].
  pose proof HP as [Hl Hp]. destruct (Hp _ _ _ E) as (A1 & A2 & A3). pose proof (u_lt W _ _ A1 He) as Hpl.
  rewrite (xparent_ok x p Hpl). cbn [mbind res_bind]. case_bool_decide as Hroot.
  { exists pd, p, d. split; [done|]. split; [done|]. split; [by intros ?|]. split; [intros _; split; [by intros ?|done]|]. split; [done|].
    split; [intros Hx; by apply (expanded_nonroot _ _ HP Hx)|]. intros a _. rewrite (dep_root p Hpl Hroot). lia. }
  destruct (PD_lookup pd p HP Hpl) as (p' & d' & E'). rewrite E'. cbn [expect mbind res_bind]. case_bool_decide as Hpp.
  { destruct (PD_compress pd e p d p' d' HP He E E' Hpp) as [HP1 Hiff]. destruct (Hp _ _ _ E') as (B1 & _ & _).
    destruct (IH (<[e := (p', d + d')]> pd) p' (d + d')) as (pd' & q & k & G1 & G2 & G3 & G4 & G5 & G6 & G7); [done| | |].
    - rewrite list_lookup_insert by lia. done.
    - destruct (anc_rank _ _ _ _ Hr B1) as [?|Hrk]; [congruence|]. pose proof (Hb p' (u_lt W _ _ B1 Hpl)).
      assert (Hu : unexp (<[e := (p', d + d')]> pd) <= unexp pd) by (apply unexp_mono; [done|intros v; apply Hiff]). nia.
    - exists pd', q, k. split; [done|]. split; [done|]. split; [intros v Hv; apply G3, Hiff, Hv|].
      split; [intros En; destruct (G4 En) as [G4a G4b]; split; [intros v Hv; apply Hiff, G4a, Hv|]; intros i Hi; rewrite (G4b i Hi); by rewrite list_lookup_insert_ne|]. split; [done|]. split; [done|exact G7]. }
  assert (p' = p) as -> by (destruct (decide (p' = p)); [done|by destruct Hpp]).
  assert (Hnx : ~ expanded pd p) by (intros (q & k & E2 & Hne); congruence).
  destruct an as [a|].
  2:{ exists pd, p, d. split; [done|]. split; [done|]. split; [by intros ?|]. split; [intros _; split; [by intros ?|done]|]. split; [done|]. split; [done|]. intros a [=]. }
  destruct (Hbl a eq_refl) as [Hea Hlk]. rewrite (Hdm p Hpl), (Hdm a (u_lt W _ _ Hea He)). cbn [expect mbind res_bind].
  destruct (Nat.leb_spec (dep p) (dep a)) as [Hle|Hgt].
  { exists pd, p, d. split; [done|]. split; [done|]. split; [by intros ?|]. split; [intros _; split; [by intros ?|done]|]. split; [done|]. split; [done|]. intros ? [= <-]. done. }
  destruct (lookup_lt_is_Some_2 _ _ Hpl) as [nd Hnd]. rewrite Hnd. cbn [expect mbind res_bind].
  assert (Hpa : anc u p a) by (apply (anc_dep e p a He A1 Hea); lia).
  destruct (Hlk p nd A1 Hpa ltac:(intros ->; lia) Hnd pd HP) as (pd1 & -> & P1 & X1). cbn [mbind res_bind].
  destruct (PD_expand pd1 p nd P1 Hnd Hroot) as (P2 & X2 & Xp).
  destruct (PD_lookup _ e P2 He) as (q & k & Eq).
  destruct (IH _ q k P2 Eq) as (pd' & q' & k' & G1 & G2 & G3 & G4 & G5 & G6 & G7).
  { assert (Hu : unexp (<[p := (uf_parent u p, Cost (xn_parent nd))]> pd1) < unexp pd).
    { apply (unexp_lt pd _ p); auto. intros v Hv. apply X2, X1, Hv. }
    pose proof (unexp_le pd). nia. }
  exists pd', q', k'. split; [done|]. split; [done|]. split; [intros v Hv; apply G3, X2, X1, Hv|]. split; [done|]. split; [done|]. split; [done|exact G7].
Qed.
Lemma parent_distance_ok e an pd : e < N -> below_ok e an -> PD pd ->
  exists pd' p' d', parent_distance x ns dm rec e an pd = Ok (d', pd') /\ PD pd' /\ ext pd pd' /\
    (an = None -> ext pd' pd /\ forall i, i <> e -> pd' !! i = pd !! i) /\ pd' !! e = Some (p', d') /\ ~ expanded pd' p' /\ (forall a, an = Some a -> dep p' <= dep a).
Proof.
  intros He Hbl HP. pose proof wf as (rk & Hr & Hb). rewrite pl_length in Hb. destruct (PD_lookup pd e HP He) as (p & d & E).
  unfold parent_distance.
  destruct (loop_ok rk e an Hr Hb He Hbl (S (S N * S N)) pd p d HP E) as (pd' & p' & d' & E1 & G).
  { pose proof (unexp_le pd). nia. }
  rewrite E1. cbn [mbind res_bind]. destruct G as (G2 & G3 & G4 & G5 & G6 & G7). rewrite G5. cbn [expect mbind res_bind].
  exists pd', p', d'. split; [done|]. split; [done|]. split; [done|]. split; [done|]. split; [done|]. split; [done|exact G7].
Qed.
Lemma distance_step_ok l r a pd : l < N -> r < N -> lca u l r a -> below_ok l (Some a) -> below_ok r (Some a) -> PD pd ->
  exists pd', distance_step x ns ca dm rec l r pd = Ok (Dst l r, pd') /\ PD pd' /\ ext pd pd'.
Proof.
  intros Hl Hr Ha Bl Br HP. unfold distance_step. case_bool_decide as Hlr.
  { subst r. rewrite (Dst_refl W l Hl). exists pd. split; [done|]. split; [done|by intros ?]. }
  assert (Ea : (match ca !! (l, r) with Some a => Ok a | None => common_ancestor (S N) x ∅ ∅ l r end) = Ok a).
  { destruct (ca !! (l, r)) as [b|] eqn:Eb; [f_equal; apply (lca_unique W l r); auto|].
    pose proof Ha as (A1 & A2 & _). destruct (common_ancestor_lca x l r wf Hl Hr) as (b & Eb' & Hb').
    { by rewrite (anc_find_eq _ _ _ wf A1), (anc_find_eq _ _ _ wf A2). }
    rewrite Eb'. f_equal. apply (lca_unique W l r); auto. }
  rewrite Ea. cbn [mbind res_bind]. pose proof Ha as (A1 & A2 & _). pose proof (u_lt W _ _ A1 Hl) as Hal.
  assert (Bn : forall e, below_ok e None) by (intros e b [=]).
  destruct (parent_distance_ok l (Some a) pd Hl Bl HP) as (pd1 & p1 & d1 & -> & P1 & X1 & _ & E1 & N1 & D1). cbn [mbind res_bind].
  destruct (parent_distance_ok r (Some a) pd1 Hr Br P1) as (pd2 & p2 & d2 & -> & P2 & X2 & _ & E2 & N2 & D2). cbn [mbind res_bind].
  destruct (parent_distance_ok a None pd2 Hal (Bn _) P2) as (pd3 & p3 & d3 & -> & P3 & X3 & Y3 & E3 & N3 & _). cbn [mbind res_bind].
  destruct (parent_distance_ok l None pd3 Hl (Bn _) P3) as (pd4 & p4 & d4 & -> & P4 & X4 & Y4 & E4 & N4 & _). cbn [mbind res_bind].
  destruct (parent_distance_ok r None pd4 Hr (Bn _) P4) as (pd5 & p5 & d5 & -> & P5 & X5 & Y5 & E5 & N5 & _). cbn [mbind res_bind].
  (* strictly below [a], everything is expanded *)
  assert (Hbelow : forall pdk e p d, PD pdk -> e < N -> pdk !! e = Some (p, d) -> dep p <= dep a -> anc u e a ->
    forall v, anc u e v -> anc u v a -> v <> a -> expanded pdk v).
  { intros pdk e p d [_ Hpk] He Ee Hdp Hea v Hv Hva Hvn. destruct (Hpk _ _ _ Ee) as (B1 & _ & B3).
    assert (Hap : anc u a p) by (apply (anc_dep e a p He); auto). apply B3; [done|by etrans|].
    intros ->. apply Hvn. apply (anc_antisym u); [apply F|done|done]. }
  pose proof (Hbelow pd1 l p1 d1 P1 Hl E1 (D1 a eq_refl) A1) as Xl.
  pose proof (Hbelow pd2 r p2 d2 P2 Hr E2 (D2 a eq_refl) A2) as Xr.
  assert (Xl5 : forall v, anc u l v -> anc u v a -> v <> a -> expanded pd5 v) by (intros v ? ? ?; apply X5, X4, X3, X2; auto).
  assert (Xr5 : forall v, anc u r v -> anc u v a -> v <> a -> expanded pd5 v) by (intros v ? ? ?; apply X5, X4, X3; auto).
  destruct (Y3 eq_refl) as [Z3 K3]. destruct (Y4 eq_refl) as [Z4 K4]. destruct (Y5 eq_refl) as [Z5 K5].
  pose proof P3 as [_ Q3]. pose proof P4 as [_ Q4]. pose proof P5 as [_ Q5].
  destruct (Q3 _ _ _ E3) as (R31 & R32 & R33). destruct (Q4 _ _ _ E4) as (R41 & R42 & R43). destruct (Q5 _ _ _ E5) as (R51 & R52 & R53).
  assert (N3' : ~ expanded pd5 p3) by (intros Hx; apply N3, Z4, Z5, Hx).
  assert (N4' : ~ expanded pd5 p4) by (intros Hx; apply N4, Z5, Hx).
  (* the first ancestor that is not expanded is the same for all three *)
  assert (Htop : forall e p, anc u e a -> (forall v, anc u e v -> anc u v a -> v <> a -> expanded pd5 v) -> anc u e p ->
     (forall v, anc u e v -> anc u v p -> v <> p -> expanded pd5 v) -> ~ expanded pd5 p -> p = p3).
  { intros e p Hea Hbe Hep Hxp Hnp. assert (Hap : anc u a p).
    { destruct (anc_total _ _ _ Hea Hep) as [?|Hpa]; [done|]. destruct (decide (p = a)) as [->|Hne]; [apply rtc_refl|]. exfalso. by apply Hnp, Hbe. }
    destruct (decide (p = p3)) as [|Hne]; [done|]. exfalso. destruct (anc_total a p p3 Hap R31) as [Hx|Hx].
    - apply Hnp. apply X5, X4. by apply R33.
    - apply N3'. apply Hxp; [exact (rtc_transitive _ _ _ Hea R31)|done|congruence]. }
  assert (p4 = p3) as -> by (apply (Htop l p4); auto; intros v ? ? ?; apply X5; auto).
  assert (p5 = p3) as -> by (apply (Htop r p5); auto).
  rewrite E5. cbn [expect mbind res_bind].
  assert (El5 : pd5 !! l = Some (p3, d4)) by (rewrite K5; [done|done]). rewrite El5. cbn [expect mbind res_bind].
  assert (Ea5 : exists k, pd5 !! a = Some (p3, k)).
  { destruct (decide (a = r)) as [->|Har]; [eauto|]. rewrite K5 by done. destruct (decide (a = l)) as [->|Hal']; [eauto|]. rewrite K4 by done. eauto. }
  destruct Ea5 as (k & ->). cbn [expect mbind res_bind]. rewrite bool_decide_eq_true_2 by done. cbn [andb].
  pose proof (Dst_hgt W l r a Hl Hr Ha) as HD. pose proof (Hgt_anc W l a Hl A1). pose proof (Hgt_anc W r a Hr A2).
  destruct (Nat.leb_spec (2 * d3) (d4 + d5)) as [Hle|Hgt]; [|lia].
  exists pd5. split; [f_equal; f_equal; lia|]. split; [done|]. intros v Hv. apply X5, X4, X3, X2, X1, Hv.
Qed.
End rec.

(** ** [distance_between] *)
Section between.
Context (ca : gmap (nat * nat) nat) (dm : gmap nat nat).
Context (Hca : forall l r a, ca !! (l, r) = Some a -> lca u l r a) (Hdm : forall i, i < N -> dm !! i = Some (dep i)).
Lemma climb_in l cs a v nd : climb x l cs a -> anc u l v -> anc u v a -> v <> a -> ex_find x !! v = Some nd -> xn_parent nd ∈ cs.
Proof.
  induction 1 as [l|l nd' cs a Hnd Hne Hc IH]; intros Hlv Hva Hn Hv.
  - exfalso. apply Hn. by apply (anc_antisym u); [apply F| |].
  - destruct (anc_inv _ _ _ Hlv) as [->|Hlv']; [rewrite Hnd in Hv; injection Hv as ->; by left|]. right.
    rewrite (pl_parent _ _ _ Hnd) in Hlv'. by apply IH.
Qed.
Lemma distance_between_ok es' pre : es = pre ++ es' -> forall fuel l r, length es' < fuel -> l < N -> r < N -> connected es' l r ->
  rec_ok (distance_between x ns ca dm fuel) l r.
Proof.
  revert pre. induction es' as [es' IH] using (induction_ltof1 _ (@length edge)). unfold ltof in IH.
  intros pre Epre fuel l r Hfu Hl Hr Hc pd HP. destruct fuel as [|fuel]; [lia|]. cbn [distance_between].
  assert (Hsub : forall e, e ∈ es' -> e ∈ es) by (intros e He; rewrite Epre; apply elem_of_app; by right).
  destruct (path_es W es' l r Hsub Hl Hr Hc) as (lc & rc & E & Hf).
  destruct (connected_lca W l r Hl Hr (connected_mono _ _ _ _ Hsub Hc)) as (a & Ea & Ha). pose proof Ha as (A1 & A2 & _).
  unfold get_path_unoptimized in E. rewrite Ea in E. cbn [mbind res_bind] in E.
  destruct (anc_climb W l a Hl A1) as (lc' & El & Cl). destruct (anc_climb W r a Hr A2) as (rc' & Er & Cr).
  rewrite El in E. cbn [mbind res_bind] in E. rewrite Er in E. cbn [mbind res_bind] in E. injection E as -> ->.
  apply Forall_app in Hf as [Hfl Hfr].
  assert (Hlink : forall c, edge_of c ∈ es' -> conn_ok (distance_between x ns ca dm fuel) c).
  { intros c Hin. apply connection_distance_ok. intros Ej.
    destruct (cong_older W pre es' c Epre Hin Ej) as (pre' & es'' & n & m & E'' & Hl'' & _ & Hn & Hm & _ & Hcc).
    exists n, m. split; [done|]. split; [done|]. eapply Forall2_impl; [exact (Forall2_lt W _ _ _ _ _ Hn Hm Hcc)|].
    cbv beta. intros c1 c2 (Hc1 & Hc2 & Hc12). apply (IH es'' Hl'' pre' E''); auto; lia. }
  assert (Hb : forall e cs, climb x e cs a -> Forall (fun c => edge_of c ∈ es') cs -> below_ok (distance_between x ns ca dm fuel) e (Some a)).
  { intros e cs Hcl Hfa b [= <-]. split; [by eapply climb_anc|]. intros v nd Hv Hva Hne Hnd. apply Hlink.
    rewrite Forall_forall in Hfa. apply Hfa. by eapply climb_in. }
  apply (distance_step_ok ca dm Hca Hdm _ l r a pd Hl Hr Ha); eauto.
Qed.
Lemma distance_ok fuel l r : length es < fuel -> l < N -> r < N -> connected es l r -> rec_ok (distance_between x ns ca dm fuel) l r.
Proof. intros. by apply (distance_between_ok es []). Qed.
End between.

(** the initial table *)
Lemma PD_init : PD ((fun i => (i, 0)) <$> seq 0 N).
Proof.
  split; [by rewrite fmap_length, seq_length|]. intros e p d E. rewrite list_lookup_fmap in E.
  destruct (seq 0 N !! e) as [i|] eqn:Ei; [|done]. cbn in E. injection E as <- <-. apply lookup_seq in Ei as [-> _]. cbn.
  split; [apply rtc_refl|]. split; [done|]. intros v H1 H2 H3. exfalso. apply H3. by apply (anc_antisym u); [apply F| |].
Qed.
End par.
Arguments dep {Op _ _} x v.
Arguments PD {Op _ _} ns x es pd.
Arguments rec_ok {Op _ _} ns x es rec l r.
Arguments conn_ok {Op _ _} ns x es rec c.
