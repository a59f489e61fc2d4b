(** Distances along the proof forest: what [distance_between] is meant to compute. *)
From Verif Require Import Base UnionFind EGraphModel EGraphSafe ExplainForest Terms RecExprModel ExprModel ExplainModel ExplainSpec ExplainPath
  ExplainProofs OptModel.

Lemma sum_app l k : sum_list (l ++ k) = sum_list l + sum_list k.
Proof. induction l; cbn; lia. Qed.

Section dist.
Context {Op : Type} `{Countable Op}.
Notation node := (node Op).
Notation explain := (explain Op).
(** What is used of a reachable e-graph: its nodes, its history, its forest and the edges of
    the forest. *)
Record world (alt : nat -> nat -> justif -> Prop) (ns : list node) (h : list (event Op)) (x : explain) (es : list edge) : Prop := {
  w_dag : dag ns;
  w_len : length (ex_find x) = length ns;
  w_for : forest alt (ex_find x) es;
  w_edg : edges_ok ns h es;
}.
Context {alt : nat -> nat -> justif -> Prop} {ns : list node} {h : list (event Op)} {x : explain} {es : list edge}.
Context (W : world alt ns h x es).
Let Hd : dag ns := w_dag _ _ _ _ _ W.
Let Hlen : length (ex_find x) = length ns := w_len _ _ _ _ _ W.
Let F : forest alt (ex_find x) es := w_for _ _ _ _ _ W.
Let Ho : edges_ok ns h es := w_edg _ _ _ _ _ W.
Notation N := (length (ex_find x)).
Notation u := (pl (ex_find x)).

(** Cost of a connection, given the distances between ids: one step for a rule, the
    distances between the children for a congruence. *)
Definition lw (rec : nat -> nat -> nat) (c : conn) : nat :=
  match cn_just c with
  | JRule _ => 1
  | JCong =>
    match ns !! cn_current c, ns !! cn_next c with
    | Some n, Some m => sum_list (zip_with rec (nch n) (nch m))
    | _, _ => 0
    end
  end.
(** Total cost of the connections between two ids in the forest. *)
Fixpoint dd (fuel : nat) (l r : nat) : nat :=
  match fuel with
  | 0 => 0
  | S fuel =>
    match get_path_unoptimized x l r with
    | Ok (lc, rc) => sum_list (lw (dd fuel) <$> lc ++ rc)
    | _ => 0
    end
  end.
Definition Dst (l r : nat) : nat := dd (S (length es)) l r.
Definition Cost (c : conn) : nat := lw Dst c.

Lemma kids_lt i n c : ns !! i = Some n -> c ∈ nch n -> c < N.
Proof. intros Hn Hc. pose proof (Hd _ _ _ Hn Hc). apply lookup_lt_Some in Hn. lia. Qed.

Lemma path_es es' l r : (forall e, e ∈ es' -> e ∈ es) -> l < N -> r < N -> connected es' l r ->
  exists lc rc, get_path_unoptimized x l r = Ok (lc, rc) /\ Forall (fun c => edge_of c ∈ es') (lc ++ rc).
Proof.
  intros Hs Hl Hr Hc. destruct (path_old _ x ns h es es' l r F Ho Hs Hl Hr Hc) as (lc & rc & E & _ & Hf). exists lc, rc. split; [done|].
  apply Forall_app in Hf as [H1 H2]. apply Forall_app. split; [done|]. apply Forall_fmap in H2.
  assert (H3 : Forall ((fun c => edge_of c ∈ es') ∘ flip_conn) rc) by (rewrite <- (reverse_involutive rc); by apply Forall_reverse).
  eapply Forall_impl; [exact H3|]. intros c. cbn. by rewrite edge_of_flip.
Qed.

(** children of a congruence edge are connected by older edges *)
Lemma cong_older pre es' c : es = pre ++ es' -> edge_of c ∈ es' -> cn_just c = JCong ->
  exists pre' es'' n m, es = pre' ++ es'' /\ length es'' < length es' /\ (forall e, e ∈ es'' -> e ∈ es') /\
    ns !! cn_current c = Some n /\ ns !! cn_next c = Some m /\ nop n = nop m /\ Forall2 (connected es'') (nch n) (nch m).
Proof.
  intros Epre Hin Ej. apply elem_of_list_split in Hin as (pre' & es'' & E').
  assert (Hsub : forall e, e ∈ es'' -> e ∈ es') by (intros e He; rewrite E'; apply elem_of_app; right; by right).
  assert (Hl : length es'' < length es') by (rewrite E', app_length; cbn; lia).
  assert (Ees : es = (pre ++ pre' ++ [edge_of c]) ++ es'') by (rewrite Epre, E'; by rewrite <- !app_assoc).
  assert (Ho' : edges_ok ns h (edge_of c :: es'')).
  { apply (edges_ok_suffix ns h (pre ++ pre')). rewrite <- app_assoc, <- E', <- Epre. done. }
  unfold edge_of in Ho'. rewrite Ej in Ho'.
  destruct (cn_fwd c); inversion Ho'; subst.
  - eexists _, es'', _, _. split; [exact Ees|]. split_and!; eauto.
  - eexists _, es'', _, _. split; [exact Ees|]. split_and!; eauto. apply Forall2_flip.
    eapply Forall2_impl; [eassumption|]. intros. by apply connected_sym.
Qed.
Lemma cong_kids c : edge_of c ∈ es -> cn_just c = JCong ->
  exists n m, ns !! cn_current c = Some n /\ ns !! cn_next c = Some m /\ nop n = nop m /\ Forall2 (connected es) (nch n) (nch m).
Proof.
  intros Hin Ej. destruct (cong_older [] es c eq_refl Hin Ej) as (pre' & es'' & n & m & _ & _ & Hs & Hn & Hm & Eo & Hf).
  exists n, m. split_and!; auto. eapply Forall2_impl; [exact Hf|]. intros a b. by apply connected_mono.
Qed.

Lemma zip_sum_ext (f g : nat -> nat -> nat) l k : Forall2 (fun a b => f a b = g a b) l k -> sum_list (zip_with f l k) = sum_list (zip_with g l k).
Proof. induction 1 as [|a b l k E _ IH]; cbn; [done|]. by rewrite E, IH. Qed.

Lemma Forall2_lt n m (R : nat -> nat -> Prop) i j : ns !! i = Some n -> ns !! j = Some m -> Forall2 R (nch n) (nch m) ->
  Forall2 (fun a b => a < N /\ b < N /\ R a b) (nch n) (nch m).
Proof.
  intros Hn Hm Hf. apply Forall2_same_length_lookup_2; [by eapply Forall2_length|]. intros k a b Ha Hb. split_and!.
  - eapply kids_lt; [exact Hn|]. by eapply elem_of_list_lookup_2.
  - eapply kids_lt; [exact Hm|]. by eapply elem_of_list_lookup_2.
  - by eapply Forall2_lookup_lr.
Qed.

Lemma dd_stable pre es' : es = pre ++ es' -> forall k k' l r, length es' < k -> length es' < k' -> l < N -> r < N -> connected es' l r ->
  dd k l r = dd k' l r.
Proof.
  revert pre. induction es' as [es' IH] using (induction_ltof1 _ (@length edge)). unfold ltof in IH.
  intros pre Epre k k' l r Hk Hk' Hl Hr Hc. destruct k as [|k]; [lia|]. destruct k' as [|k']; [lia|]. cbn [dd].
  destruct (path_es es' l r) as (lc & rc & -> & Hf); auto.
  { intros e He. rewrite Epre. apply elem_of_app. by right. }
  f_equal. apply list_fmap_ext. intros i c Hi. rewrite Forall_lookup in Hf. specialize (Hf i c Hi).
  unfold lw. destruct (cn_just c) eqn:Ej; [done|].
  destruct (cong_older pre es' c Epre Hf Ej) as (pre' & es'' & n & m & E'' & Hl'' & _ & Hn & Hm & _ & Hcc). rewrite Hn, Hm.
  apply zip_sum_ext. eapply Forall2_impl; [exact (Forall2_lt _ _ _ _ _ Hn Hm Hcc)|]. cbv beta. intros a b (Ha & Hb & Hab).
  apply (IH es'' Hl'' pre' E''); auto; lia.
Qed.

Lemma lw_stable c : edge_of c ∈ es -> lw (dd (length es)) c = Cost c.
Proof.
  intros Hin. unfold Cost, lw. destruct (cn_just c) eqn:Ej; [done|].
  destruct (cong_older [] es c eq_refl Hin Ej) as (pre' & es'' & n & m & E'' & Hl'' & _ & Hn & Hm & _ & Hcc). rewrite Hn, Hm.
  apply zip_sum_ext. eapply Forall2_impl; [exact (Forall2_lt _ _ _ _ _ Hn Hm Hcc)|]. cbv beta. intros a b (Ha & Hb & Hab).
  unfold Dst. apply (dd_stable pre' es'' E''); auto; lia.
Qed.
Lemma Dst_path l r : l < N -> r < N -> connected es l r ->
  exists lc rc, get_path_unoptimized x l r = Ok (lc, rc) /\ Forall (fun c => edge_of c ∈ es) (lc ++ rc) /\ Dst l r = sum_list (Cost <$> lc ++ rc).
Proof.
  intros Hl Hr Hc. destruct (path_es es l r) as (lc & rc & E & Hf); auto. exists lc, rc. split; [done|]. split; [done|].
  unfold Dst. cbn [dd]. rewrite E. f_equal. apply list_fmap_ext. intros i c Hi. rewrite Forall_lookup in Hf. apply lw_stable. eauto.
Qed.

(** ** Heights *)
Inductive climb : nat -> list conn -> nat -> Prop :=
| cl_nil v : climb v [] v
| cl_cons v nd cs a : ex_find x !! v = Some nd -> cn_next (xn_parent nd) <> v -> climb (cn_next (xn_parent nd)) cs a -> climb v (xn_parent nd :: cs) a.

Lemma climb_anc v cs a : climb v cs a -> anc u v a.
Proof.
  induction 1 as [v|v nd cs a Hnd Hne _ IH]; [apply rtc_refl|]. eapply rtc_l; [|exact IH]. unfold pstep. by apply pl_parent.
Qed.
Lemma climb_cons_ne v c cs a : climb v (c :: cs) a -> v <> a.
Proof.
  inversion 1 as [|? nd ? ? Hnd Hne Hc]; subst. intros ->. apply Hne. apply (anc_antisym u); [apply F|by eapply climb_anc|].
  rewrite <- (pl_parent _ _ _ Hnd). apply anc_parent.
Qed.
Lemma climb_fun v cs a cs' : climb v cs a -> climb v cs' a -> cs = cs'.
Proof.
  intros H1. revert cs'. induction H1 as [v|v nd cs a Hnd Hne Hc IH]; intros cs' H2.
  - destruct cs' as [|c cs']; [done|]. by apply climb_cons_ne in H2.
  - inversion H2 as [v'|v' nd' cs2 a' Hnd' Hne' Hc']; subst.
    + exfalso. by apply (climb_cons_ne _ _ _ _ (cl_cons _ _ _ _ Hnd Hne Hc)).
    + rewrite Hnd in Hnd'. injection Hnd' as <-. f_equal. by apply IH.
Qed.
Lemma climb_app v cs a cs' b : climb v cs a -> climb a cs' b -> climb v (cs ++ cs') b.
Proof. induction 1; intros Hc; [done|]. cbn. econstructor; eauto. Qed.
Lemma loop_climb fuel v a cs : v <> a -> get_connections_loop fuel x v a = Ok cs -> climb v cs a.
Proof.
  revert v cs. induction fuel as [|fuel IH]; intros v cs Hne E; [done|]. cbn [get_connections_loop] in E.
  destruct (ex_find x !! v) as [nd|] eqn:Hnd; [|done]. cbn [expect mbind res_bind] in E. case_bool_decide as Ha.
  - injection E as <-. econstructor; [done|congruence|]. rewrite Ha. constructor.
  - case_bool_decide as Hv; [done|]. destruct (get_connections_loop fuel x _ a) as [cs'| |] eqn:El; try done. cbn in E. injection E as <-.
    econstructor; [done|done|]. by apply IH.
Qed.
Lemma anc_climb v a : v < N -> anc u v a -> exists cs, get_connections x v a = Ok cs /\ climb v cs a.
Proof.
  intros Hv Ha. destruct (get_connections_ok _ _ _ v a F Hv Ha) as (cs & E & _). exists cs. split; [done|].
  unfold get_connections in E. case_bool_decide as Hva; [injection E as <-; subst; constructor|]. by eapply loop_climb.
Qed.
Definition upsum (v a : nat) : nat := match get_connections x v a with Ok cs => sum_list (Cost <$> cs) | _ => 0 end.
Definition Hgt (v : nat) : nat := upsum v (uf_find u v).
Lemma climb_sum v cs a : v < N -> climb v cs a -> upsum v a = sum_list (Cost <$> cs).
Proof.
  intros Hv Hc. destruct (anc_climb v a Hv (climb_anc _ _ _ Hc)) as (cs' & E & Hc'). unfold upsum. rewrite E. by rewrite (climb_fun _ _ _ _ Hc Hc').
Qed.
Lemma u_lt v a : anc u v a -> v < N -> a < N.
Proof. intros Ha Hv. rewrite <- (pl_length (ex_find x)) in *. eapply anc_lt; [apply F|done|done]. Qed.
Lemma anc_root v : v < N -> anc u v (uf_find u v).
Proof. intros Hv. apply anc_find; [apply F|]. by rewrite pl_length. Qed.
Lemma Hgt_up v a : v < N -> anc u v a -> Hgt v = upsum v a + Hgt a.
Proof.
  intros Hv Ha. pose proof (u_lt _ _ Ha Hv) as Hal.
  destruct (anc_climb v a Hv Ha) as (cs & _ & Hc). destruct (anc_climb a _ Hal (anc_root _ Hal)) as (cs' & _ & Hc').
  rewrite (climb_sum _ _ _ Hv Hc). unfold Hgt at 2. rewrite (climb_sum _ _ _ Hal Hc').
  unfold Hgt. rewrite (anc_find_eq _ _ _ (fo_wf _ _ _ F) Ha). rewrite (climb_sum _ _ _ Hv (climb_app _ _ _ _ _ Hc Hc')).
  rewrite fmap_app. clear. induction (Cost <$> cs) as [|k l IH]; cbn; lia.
Qed.
Lemma Hgt_anc v a : v < N -> anc u v a -> Hgt a <= Hgt v.
Proof. intros Hv Ha. rewrite (Hgt_up v a Hv Ha). lia. Qed.
Lemma Hgt_step v nd : ex_find x !! v = Some nd -> cn_next (xn_parent nd) <> v -> Hgt v = Cost (xn_parent nd) + Hgt (cn_next (xn_parent nd)).
Proof.
  intros Hnd Hne. pose proof (lookup_lt_Some _ _ _ Hnd) as Hv.
  assert (Hc : climb v [xn_parent nd] (cn_next (xn_parent nd))) by (econstructor; [done|done|constructor]).
  rewrite (Hgt_up v _ Hv (climb_anc _ _ _ Hc)), (climb_sum _ _ _ Hv Hc). cbn. lia.
Qed.
Lemma lca_unique l r a b : lca u l r a -> lca u l r b -> a = b.
Proof. intros (A1 & A2 & A3) (B1 & B2 & B3). apply (anc_antisym u); [apply F|auto|auto]. Qed.
Lemma lca_sym l r a : lca u l r a -> lca u r l a.
Proof. intros (A1 & A2 & A3). split_and!; auto. Qed.

Lemma Dst_hgt l r a : l < N -> r < N -> lca u l r a -> Dst l r + 2 * Hgt a = Hgt l + Hgt r.
Proof.
  intros Hl Hr Ha. pose proof Ha as (A1 & A2 & _).
  assert (Hf : uf_find u l = uf_find u r).
  { pose proof (fo_wf _ _ _ F). by rewrite (anc_find_eq _ _ _ H0 A1), (anc_find_eq _ _ _ H0 A2). }
  pose proof Hf as Hc. apply (forest_connected _ _ _ _ _ F Hl Hr) in Hc.
  destruct (Dst_path l r Hl Hr Hc) as (lc & rc & E & _ & ->).
  destruct (common_ancestor_lca x l r (fo_wf _ _ _ F) Hl Hr Hf) as (a' & Ea & Ha').
  rewrite <- (lca_unique _ _ _ _ Ha Ha') in Ea. unfold get_path_unoptimized in E. rewrite Ea in E. cbn [mbind res_bind] in E.
  rewrite (Hgt_up l a Hl A1), (Hgt_up r a Hr A2). unfold upsum.
  destruct (get_connections x l a) as [lc'| |]; try done. cbn [mbind res_bind] in E.
  destruct (get_connections x r a) as [rc'| |]; try done. cbn [mbind res_bind] in E. injection E as -> ->.
  rewrite fmap_app, sum_app. lia.
Qed.
Lemma connected_lca l r : l < N -> r < N -> connected es l r -> exists a, common_ancestor (S N) x ∅ ∅ l r = Ok a /\ lca u l r a.
Proof. intros Hl Hr Hc. apply (forest_connected _ _ _ _ _ F Hl Hr) in Hc. exact (common_ancestor_lca x l r (fo_wf _ _ _ F) Hl Hr Hc). Qed.
Lemma Dst_refl l : l < N -> Dst l l = 0.
Proof.
  intros Hl. assert (Ha : lca u l l l) by (split_and!; [apply rtc_refl|apply rtc_refl|auto]).
  pose proof (Dst_hgt l l l Hl Hl Ha). lia.
Qed.
Lemma Dst_sym l r : l < N -> r < N -> connected es l r -> Dst l r = Dst r l.
Proof.
  intros Hl Hr Hc. destruct (connected_lca l r Hl Hr Hc) as (a & _ & Ha).
  pose proof (Dst_hgt l r a Hl Hr Ha). pose proof (Dst_hgt r l a Hr Hl (lca_sym _ _ _ Ha)). lia.
Qed.
End dist.
Arguments lw {Op} ns rec c.
Arguments dd {Op _ _} ns x fuel l r.
Arguments Dst {Op _ _} ns x es l r.
Arguments Cost {Op _ _} ns x es c.
Arguments climb {Op _ _} x v cs a.
Arguments upsum {Op _ _} ns x es v a.
Arguments Hgt {Op _ _} ns x es v.
