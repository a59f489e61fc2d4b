(** The proof forest of src/explain.rs: shape of the parent pointers, effect of
    [make_leader] and [Explain::union], and the forest invariant. *)
From Verif Require Import Base UnionFind EGraphModel EGraphSteps EGraphInv EGraphPres.

(** * Acyclic parent arrays are well-formed *)
Inductive walkp (u : list nat) : nat -> list nat -> Prop :=
| wp_root i : uf_parent u i = i -> walkp u i [i]
| wp_step i l : uf_parent u i <> i -> walkp u (uf_parent u i) l -> walkp u i (i :: l).

Lemma walks_walkp u i r : walks u i r -> exists l, walkp u i l.
Proof. induction 1 as [i Hi|i r Hi _ (l & IH)]; eexists; [by constructor|by eapply wp_step]. Qed.
Lemma walkp_fun u i l l' : walkp u i l -> walkp u i l' -> l = l'.
Proof.
  intros H1. revert l'. induction H1; inversion 1; subst; try done. f_equal. auto.
Qed.
Lemma walkp_suffix u i l x : walkp u i l -> x ∈ l -> exists l', walkp u x l' /\ length l' <= length l.
Proof.
  intros H1. induction H1 as [i Hi|i l Hi Hw IH]; intros Hx.
  - apply elem_of_list_singleton in Hx as ->. exists [i]. split; [by constructor|done].
  - apply elem_of_cons in Hx as [->|Hx].
    + exists (i :: l). split; [by constructor|done].
    + destruct (IH Hx) as (l' & ? & ?). exists l'. split; [done|]. cbn. lia.
Qed.
Lemma walkp_NoDup u i l : walkp u i l -> NoDup l.
Proof.
  induction 1 as [i Hi|i l Hi Hw IH]; [apply NoDup_singleton|].
  apply NoDup_cons. split; [|done]. intros Hin.
  destruct (walkp_suffix _ _ _ _ Hw Hin) as (l' & Hl' & Hlen).
  pose proof (walkp_fun _ _ _ _ Hl' (wp_step _ _ _ Hi Hw)). subst. cbn in Hlen. lia.
Qed.
Lemma NoDup_bounded_length (l : list nat) n : NoDup l -> Forall (fun x => x < n) l -> length l <= n.
Proof.
  intros Hn Hf. rewrite <- (seq_length n 0). apply submseteq_length.
  apply NoDup_submseteq; [done|]. intros x Hx. rewrite Forall_forall in Hf. apply elem_of_seq.
  specialize (Hf x Hx). lia.
Qed.
Lemma walkp_head u i l : walkp u i l -> 1 <= length l.
Proof. destruct 1; cbn; lia. Qed.

Fixpoint pathf (fuel : nat) (u : list nat) (i : nat) : list nat :=
  match fuel with
  | 0 => []
  | S fuel => if decide (uf_parent u i = i) then [i] else i :: pathf fuel u (uf_parent u i)
  end.
Lemma pathf_walkp u i l fuel : walkp u i l -> length l <= fuel -> pathf fuel u i = l.
Proof.
  intros Hw. revert fuel. induction Hw as [i Hi|i l Hi Hw IH]; intros fuel Hl; cbn in Hl;
    (destruct fuel as [|fuel]; [lia|]); cbn [pathf].
  - by rewrite decide_True.
  - rewrite decide_False by done. f_equal. apply IH. lia.
Qed.

Lemma acyclic_wf u :
  (forall i p, u !! i = Some p -> p < length u) ->
  (forall i, i < length u -> exists r, walks u i r) -> uf_wf u.
Proof.
  intros Hb Hw.
  assert (Hp : forall i, i < length u -> uf_parent u i < length u).
  { intros i Hi. unfold uf_parent. destruct (lookup_lt_is_Some_2 u i Hi) as [p Hp]. rewrite Hp. cbn. eauto. }
  assert (Hlen : forall i l, i < length u -> walkp u i l -> length l <= length u).
  { intros i l Hi Hwp. apply NoDup_bounded_length; [by eapply walkp_NoDup|].
    induction Hwp as [i Hr|i l Hr Hwp IH]; constructor; auto. }
  exists (fun i => length u - length (pathf (length u) u i)). split.
  - intros i p Hip. split; [eauto|]. intros Hne.
    assert (Hi : i < length u) by by eapply lookup_lt_Some.
    assert (Epi : uf_parent u i = p) by (unfold uf_parent; by rewrite Hip).
    destruct (Hw i Hi) as (r & Hr). destruct (walks_walkp _ _ _ Hr) as (l & Hl).
    inversion Hl as [? E|? l' E Hl' E1 E2]; subst; [congruence|].
    rewrite (pathf_walkp _ _ _ _ Hl) by eauto.
    rewrite (pathf_walkp _ _ _ _ Hl') by eauto.
    pose proof (Hlen _ _ Hi Hl). pose proof (walkp_head _ _ _ Hl'). cbn in *. lia.
  - intros i Hi. destruct (Hw i Hi) as (r & Hr). destruct (walks_walkp _ _ _ Hr) as (l & Hl).
    rewrite (pathf_walkp _ _ _ _ Hl) by eauto.
    pose proof (walkp_head _ _ _ Hl). lia.
Qed.

(** * Parent pointers of the forest *)
Definition pl (f : list exnode) : list nat := (fun x => cn_next (xn_parent x)) <$> f.
Lemma pl_length f : length (pl f) = length f.
Proof. apply fmap_length. Qed.
Lemma pl_parent f i x : f !! i = Some x -> uf_parent (pl f) i = cn_next (xn_parent x).
Proof. intros Hi. unfold uf_parent, pl. by rewrite list_lookup_fmap, Hi. Qed.
Lemma pl_insert f i x : pl (<[i := x]> f) = <[i := cn_next (xn_parent x)]> (pl f).
Proof. unfold pl. by rewrite list_fmap_insert. Qed.

Lemma walks_ext u u' i r :
  uf_wf u -> walks u i r ->
  (forall k, uf_find u k = uf_find u i -> uf_parent u' k = uf_parent u k) -> walks u' i r.
Proof.
  intros Hwf Hw. induction Hw as [i Hi|i r Hi Hw IH]; intros He.
  - constructor. rewrite He; auto.
  - pose proof (He i eq_refl) as E. constructor; rewrite E; [done|].
    apply IH. intros k Hk. apply He. rewrite Hk. by apply uf_find_parent.
Qed.

Definition pstep (u : list nat) (i j : nat) : Prop := uf_parent u i = j.

Lemma walks_pstep u i r : walks u i r -> rtc (pstep u) i r.
Proof. induction 1; [apply rtc_refl|]. eapply rtc_l; [|done]. done. Qed.

Lemma pstep_overwrite u n q i :
  rtc (pstep u) i n -> rtc (pstep (<[n := q]> u)) i n.
Proof.
  induction 1 as [n|i j n Hs _ IH]; [apply rtc_refl|].
  destruct (decide (i = n)) as [->|Hne]; [apply rtc_refl|].
  eapply rtc_l; [|exact IH]. unfold pstep, uf_parent in *.
  by rewrite list_lookup_insert_ne by done.
Qed.

Lemma pstep_walks u i j r : rtc (pstep u) i j -> walks u j r -> walks u i r.
Proof.
  induction 1 as [|i k j Hs _ IH]; intros Hw; [done|].
  specialize (IH Hw). unfold pstep in Hs. destruct (decide (uf_parent u i = i)) as [E|E].
  - congruence.
  - constructor; [done|]. by rewrite Hs.
Qed.

(** * [make_leader] *)
Record led (f : list exnode) (rk : nat -> nat) (n : nat) (f' : list exnode) : Prop := {
  ld_len : length f' = length f;
  ld_same : forall k, f' !! k = f !! k \/ (rk n < rk k /\ uf_find (pl f) k = uf_find (pl f) n);
  ld_nb : forall k x x', f !! k = Some x -> f' !! k = Some x' -> xn_neighbors x' = xn_neighbors x;
  ld_reach : forall i q, i < length f -> uf_find (pl f) i = uf_find (pl f) n ->
    rtc (pstep (<[n := q]> (pl f'))) i n;
  ld_edge : forall i x p, f !! i = Some x -> cn_next (xn_parent x) = p -> p <> i ->
    (i <> n /\ exists x', f' !! i = Some x' /\ xn_parent x' = xn_parent x) \/
    (p <> n /\ exists y, f' !! p = Some y /\
        xn_parent y = Conn i p (cn_just (xn_parent x)) (negb (cn_fwd (xn_parent x))));
  ld_from : forall k y, f' !! k = Some y ->
    (exists x, f !! k = Some x /\ xn_parent y = xn_parent x) \/
    (exists i x, f !! i = Some x /\ cn_next (xn_parent x) = k /\ k <> i /\
        xn_parent y = Conn i k (cn_just (xn_parent x)) (negb (cn_fwd (xn_parent x))));
}.

Lemma make_leader_spec fuel f rk n :
  uf_wf (pl f) -> uf_ranked (pl f) rk -> (forall j, j < length (pl f) -> rk j < length (pl f)) ->
  n < length f -> length f <= fuel + rk n ->
  exists f', make_leader fuel f n = Ok f' /\ led f rk n f'.
Proof.
  intros Hwf Hr Hb. revert n. induction fuel as [|fuel IH]; intros n Hn Hfu.
  { specialize (Hb n). rewrite pl_length in Hb. specialize (Hb Hn). lia. }
  cbn [make_leader]. destruct (lookup_lt_is_Some_2 f n Hn) as [x Hx]. rewrite Hx. cbn [expect mbind res_bind].
  set (next := cn_next (xn_parent x)).
  assert (Hpn : uf_parent (pl f) n = next) by (by apply pl_parent).
  case_decide as Hd.
  - exists f. split; [done|]. split; auto.
    + intros; congruence.
    + intros i q Hi Ei. apply pstep_overwrite.
      assert (Hrn : uf_find (pl f) n = n) by (apply uf_find_root; auto; congruence).
      rewrite Hrn in Ei.
      assert (Hw : walks (pl f) i (uf_find (pl f) i)) by (apply uf_find_walks; [done|]; by rewrite pl_length).
      rewrite Ei in Hw. by apply walks_pstep.
    + intros i x' p Hx' Hp Hne. left. split; [|eauto]. intros ->. assert (x' = x) by congruence. subst x'. by apply Hne; rewrite <- Hp.
    + eauto.
  - assert (Hln : (pl f) !! n = Some next) by (unfold pl; rewrite list_lookup_fmap, Hx; done).
    destruct (Hr n next Hln) as [Hnl Hrk]. specialize (Hrk Hd). rewrite pl_length in Hnl.
    destruct (IH next) as (f1 & -> & [L1 L2 L3 L4 L5 L6]); [done|lia|]. cbn [mbind res_bind].
    assert (E1 : f1 !! n = Some x).
    { destruct (L2 n) as [->|[? _]]; [done|lia]. }
    rewrite E1. cbn [expect mbind res_bind].
    destruct (lookup_lt_is_Some_2 f1 next) as [y Hy]; [lia|]. rewrite Hy. cbn [expect mbind res_bind].
    assert (Hroot : uf_find (pl f) next = uf_find (pl f) n).
    { rewrite <- Hpn. by apply uf_find_parent. }
    eexists. split; [done|]. split.
    + by rewrite insert_length.
    + intros k. destruct (decide (k = next)) as [->|Hk]; [auto|].
      rewrite list_lookup_insert_ne by done. destruct (L2 k) as [?|[? ?]]; [auto|].
      right. split; [lia|congruence].
    + intros k z z' Hz Hz'. destruct (decide (k = next)) as [->|Hk].
      * rewrite list_lookup_insert in Hz' by lia. injection Hz' as <-. cbn. eauto.
      * rewrite list_lookup_insert_ne in Hz' by done. eauto.
    + intros i q Hi Ei. apply pstep_overwrite. rewrite pl_insert. cbn.
      apply rtc_r with next.
      * apply L4; [done|congruence].
      * unfold pstep. rewrite parent_insert by (rewrite pl_length; lia). by rewrite decide_True.
    + intros i z p Hz Hp Hne. destruct (decide (i = n)) as [->|Hin].
      * right. assert (z = x) by congruence. subst z. fold next in Hp. subst p. split; [done|].
        rewrite list_lookup_insert by lia. eexists. split; [done|]. done.
      * destruct (L5 i z p Hz Hp Hne) as [[H1 (x' & H2 & H3)]|[H1 (w & H2 & H3)]].
        -- left. split; [done|]. exists x'. by rewrite list_lookup_insert_ne by done.
        -- right. split.
           ++ intros ->. assert (w = x) by congruence. subst w.
              assert (next = i) as Hni by (unfold next; by rewrite H3).
              assert (Hli : (pl f) !! i = Some n) by (unfold pl; rewrite list_lookup_fmap, Hz; cbn; by rewrite Hp).
              destruct (Hr i n Hli) as [_ Hrk']. subst i. specialize (Hrk' ltac:(done)). lia.
           ++ exists w. by rewrite list_lookup_insert_ne by done.
    + intros k w Hw. destruct (decide (k = next)) as [->|Hk].
      * rewrite list_lookup_insert in Hw by lia. injection Hw as <-. right. exists n, x. cbn.
        split_and!; auto.
      * rewrite list_lookup_insert_ne in Hw by done. auto.
Qed.

(** * Edges *)
Definition edge := (nat * nat * justif)%type.
Definition adj (es : list edge) (a b : nat) : Prop := exists j, (a, b, j) ∈ es \/ (b, a, j) ∈ es.
Definition connected (es : list edge) : nat -> nat -> Prop := rtc (adj es).

Lemma adj_sym es a b : adj es a b -> adj es b a.
Proof. intros (j & H1). exists j. tauto. Qed.
Lemma connected_sym es a b : connected es a b -> connected es b a.
Proof. induction 1; [apply rtc_refl|]. eapply rtc_r; [eassumption|]. by apply adj_sym. Qed.
Lemma connected_mono es es' a b : (forall e, e ∈ es -> e ∈ es') -> connected es a b -> connected es' a b.
Proof.
  intros Hs. apply rtc_subrel. intros x y (j & Hj). exists j. naive_solver.
Qed.
Lemma connected_cons_iff e1 e2 j es a b :
  connected ((e1, e2, j) :: es) a b <->
  connected es a b \/ (connected es a e1 /\ connected es e2 b) \/ (connected es a e2 /\ connected es e1 b).
Proof.
  split.
  - induction 1 as [a|a c b Hac _ IH]; [left; apply rtc_refl|].
    destruct Hac as (j' & Hj). rewrite !elem_of_cons in Hj.
    assert (Hcases : adj es a c \/ (a = e1 /\ c = e2) \/ (a = e2 /\ c = e1)).
    { destruct Hj as [[Hj|Hj]|[Hj|Hj]]; try (injection Hj; intros; subst; tauto); left; exists j'; tauto. }
    destruct Hcases as [Hac|[[-> ->]|[-> ->]]].
    + destruct IH as [IH|[[IH1 IH2]|[IH1 IH2]]]; [left|right; left|right; right];
        repeat split; auto; eapply rtc_l; eauto.
    + destruct IH as [IH|[[IH1 IH2]|[IH1 IH2]]]; [right; left|right; left|left]; try split; auto; try apply rtc_refl.
    + destruct IH as [IH|[[IH1 IH2]|[IH1 IH2]]]; [right; right|left|right; right]; try split; auto; try apply rtc_refl.
  - assert (Hm : forall x y, connected es x y -> connected ((e1, e2, j) :: es) x y).
    { intros x y. apply connected_mono. intros. by right. }
    assert (He : connected ((e1, e2, j) :: es) e1 e2).
    { apply rtc_once. exists j. left. by left. }
    intros [Hc|[[H1 H2]|[H1 H2]]]; auto.
    + eapply rtc_transitive; [by apply Hm|]. eapply rtc_transitive; [exact He|]. by apply Hm.
    + eapply rtc_transitive; [by apply Hm|].
      eapply rtc_transitive; [apply connected_sym; exact He|]. by apply Hm.
Qed.

(** The forest [f] realises the edge list [es] (newest first).  Neighbours may also be
    alternate rewrites, described by [alt]. *)
Record forest (alt : nat -> nat -> justif -> Prop) (f : list exnode) (es : list edge) : Prop := {
  fo_wf : uf_wf (pl f);
  fo_lt : forall a b j, (a, b, j) ∈ es -> a < length f /\ b < length f;
  fo_ne : forall a b j, (a, b, j) ∈ es -> a <> b;
  fo_cur : forall i x, f !! i = Some x -> cn_current (xn_parent x) = i;
  fo_par : forall i x, f !! i = Some x -> cn_next (xn_parent x) <> i ->
    let c := xn_parent x in
    if cn_fwd c then (i, cn_next c, cn_just c) ∈ es else (cn_next c, i, cn_just c) ∈ es;
  fo_edge : forall a b j, (a, b, j) ∈ es -> uf_parent (pl f) a = b \/ uf_parent (pl f) b = a;
  fo_nb : forall i x c, f !! i = Some x -> c ∈ xn_neighbors x ->
    cn_current c = i /\
    (if cn_fwd c then (i, cn_next c, cn_just c) ∈ es \/ alt i (cn_next c) (cn_just c)
     else (cn_next c, i, cn_just c) ∈ es \/ alt (cn_next c) i (cn_just c));
}.

Lemma forest_connected alt f es a b :
  forest alt f es -> a < length f -> b < length f ->
  connected es a b <-> uf_find (pl f) a = uf_find (pl f) b.
Proof.
  intros [F1 F2 Fne F3 F4 F5 F6] Ha Hb. split.
  - intros Hc. clear Ha Hb. induction Hc as [a|a c b (j & Hj) _ IH]; [done|]. rewrite <- IH.
    destruct Hj as [Hj|Hj]; destruct (F5 _ _ _ Hj) as [<-|<-]; rewrite uf_find_parent; done.
  - assert (Hup : forall i, i < length f -> connected es i (uf_find (pl f) i)).
    { intros i Hi. assert (Hw : walks (pl f) i (uf_find (pl f) i)).
      { apply uf_find_walks; [done|]. by rewrite pl_length. }
      revert Hi. induction Hw as [i Hi'|i r Hi' Hw IH]; intros Hi; [apply rtc_refl|].
      assert (Hpl : uf_parent (pl f) i < length f).
      { rewrite <- pl_length. apply uf_parent_lt; [done|]. by rewrite pl_length. }
      eapply rtc_l; [|by apply IH].
      destruct (lookup_lt_is_Some_2 f i Hi) as [x Hx]. rewrite (pl_parent _ _ _ Hx) in *.
      specialize (F4 i x Hx Hi'). cbn in F4. exists (cn_just (xn_parent x)).
      destruct (cn_fwd (xn_parent x)); auto. }
    intros E. eapply rtc_transitive; [by apply Hup|]. rewrite E. apply connected_sym. by apply Hup.
Qed.

Lemma forest_alt (alt alt' : nat -> nat -> justif -> Prop) f es :
  (forall a b j, alt a b j -> alt' a b j) -> forest alt f es -> forest alt' f es.
Proof.
  intros Ha [F1 F2 Fne F3 F4 F5 F6]. split; auto. intros i x c Hx Hc.
  destruct (F6 i x c Hx Hc) as [? Hn]. split; [done|]. destruct (cn_fwd c); naive_solver.
Qed.

Lemma forest_nil alt : forest alt [] [].
Proof.
  split; try (intros; set_solver); try done. apply uf_wf_nil.
Qed.

Lemma forest_add alt f es :
  forest alt f es -> forest alt (f ++ [ExNode [] (Conn (length f) (length f) JCong false)]) es.
Proof.
  intros [F1 F2 Fne F3 F4 F5 F6].
  assert (Hpl : pl (f ++ [ExNode [] (Conn (length f) (length f) JCong false)]) = pl f ++ [length (pl f)]).
  { unfold pl. rewrite fmap_app, fmap_length. done. }
  assert (Hlk : forall i x, (f ++ [ExNode [] (Conn (length f) (length f) JCong false)]) !! i = Some x ->
     f !! i = Some x \/ (i = length f /\ x = ExNode [] (Conn (length f) (length f) JCong false))).
  { intros i x Hx. apply lookup_app_Some in Hx as [Hx|[Hl Hx]]; [auto|].
    apply list_lookup_singleton_Some in Hx as [? <-]. right. split; [lia|done]. }
  split.
  - rewrite Hpl. by apply make_set_wf.
  - intros a b j Hj. rewrite app_length. apply F2 in Hj. lia.
  - exact Fne.
  - intros i x Hx. apply Hlk in Hx as [Hx|[-> ->]]; [eauto|done].
  - intros i x Hx Hne. apply Hlk in Hx as [Hx|[-> ->]]; [by apply (F4 i x)|done].
  - intros a b j Hj. rewrite Hpl. pose proof (F2 _ _ _ Hj) as [Ha Hb].
    rewrite !make_set_parent. by eapply F5.
  - intros i x c Hx Hc. apply Hlk in Hx as [Hx|[-> ->]]; [eauto|]. by apply elem_of_nil in Hc.
Qed.

(** [Explain::union] adds one edge. *)
Lemma ex_union_forest {Op} `{Countable Op} alt (x : explain Op) es n1 n2 j :
  forest alt (ex_find x) es -> n1 < length (ex_find x) -> n2 < length (ex_find x) ->
  ~ connected es n1 n2 ->
  exists x', ex_union x n1 n2 j = Ok x' /\ forest alt (ex_find x') ((n1, n2, j) :: es).
Proof.
  intros F Hn1 Hn2 Hnc. pose proof F as [F1 F2 Fne F3 F4 F5 F6].
  rewrite (forest_connected _ _ _ _ _ F Hn1 Hn2) in Hnc.
  assert (Hne : n1 <> n2) by congruence.
  set (f := ex_find x) in *. set (u := pl f) in *.
  destruct F1 as (rk & Hr & Hb). assert (F1 : uf_wf u) by (by exists rk).
  destruct (make_leader_spec (S (length f)) f rk n1 F1 Hr Hb Hn1) as (f0 & E0 & [L1 L2 L3 L4 L5 L6]).
  { lia. }
  unfold ex_union. fold f. rewrite E0. cbn [mbind res_bind].
  destruct (lookup_lt_is_Some_2 f0 n1) as [a Ha]; [lia|]. rewrite Ha. cbn [expect mbind res_bind].
  assert (Hb' : exists b, f0 !! n2 = Some b) by (apply lookup_lt_is_Some_2; lia).
  destruct Hb' as [b Hbb]. rewrite list_lookup_insert_ne by done. rewrite Hbb. cbn [expect mbind res_bind].
  rewrite list_lookup_insert_ne by done. rewrite list_lookup_insert by lia. cbn [expect mbind res_bind].
  eexists. split; [done|]. cbn [ex_find].
  set (f3 := <[n1 := _]> _).
  assert (E3n1 : f3 !! n1 = Some (ExNode (xn_neighbors a ++ [Conn n2 n1 j true]) (Conn n2 n1 j true))).
  { unfold f3. rewrite list_lookup_insert; [done|]. rewrite !insert_length. lia. }
  assert (E3n2 : f3 !! n2 = Some (ExNode (xn_neighbors b ++ [Conn n1 n2 j false]) (xn_parent b))).
  { unfold f3. rewrite list_lookup_insert_ne by done. rewrite list_lookup_insert; [done|]. rewrite !insert_length. lia. }
  assert (E3 : forall k, k <> n1 -> k <> n2 -> f3 !! k = f0 !! k).
  { intros k H1 H2. unfold f3. by rewrite !list_lookup_insert_ne by done. }
  assert (Hlen3 : length f3 = length f).
  { unfold f3. rewrite !insert_length. lia. }
  assert (Hpl3 : pl f3 = <[n1 := n2]> (pl f0)).
  { apply list_eq. intros k. destruct (decide (k = n1)) as [->|Hk1].
    - rewrite list_lookup_insert by (rewrite pl_length; lia). unfold pl. by rewrite list_lookup_fmap, E3n1.
    - rewrite list_lookup_insert_ne by done. unfold pl. rewrite !list_lookup_fmap.
      destruct (decide (k = n2)) as [->|Hk2]; [by rewrite E3n2, Hbb|]. by rewrite E3. }
  (* parent (as connection) of k in f3 *)
  assert (P3 : forall k y, f3 !! k = Some y -> k <> n1 -> exists y0, f0 !! k = Some y0 /\ xn_parent y = xn_parent y0).
  { intros k y Hy Hk. destruct (decide (k = n2)) as [->|Hk2].
    - rewrite E3n2 in Hy. injection Hy as <-. eauto.
    - rewrite E3 in Hy by done. eauto. }
  assert (P3' : forall k y0, f0 !! k = Some y0 -> k <> n1 -> exists y, f3 !! k = Some y /\ xn_parent y = xn_parent y0).
  { intros k y0 Hy Hk. destruct (decide (k = n2)) as [->|Hk2].
    - assert (y0 = b) as -> by congruence. rewrite E3n2. eauto.
    - rewrite <- E3 in Hy by done. eauto. }
  assert (Hoff : forall k, uf_find u k <> uf_find u n1 -> uf_parent (pl f3) k = uf_parent u k).
  { intros k Hk. rewrite Hpl3. rewrite parent_insert by (rewrite pl_length; lia).
    rewrite decide_False by (intros ->; done).
    destruct (L2 k) as [E|[_ E]]; [|done]. unfold uf_parent, u, pl. by rewrite !list_lookup_fmap, E. }
  assert (Hw2 : walks (pl f3) n2 (uf_find u n2)).
  { eapply walks_ext; [exact F1|apply uf_find_walks; [done|by unfold u; rewrite pl_length]|].
    intros k Hk. apply Hoff. congruence. }
  assert (Hn1p : uf_parent (pl f3) n1 = n2).
  { rewrite Hpl3, parent_insert by (rewrite pl_length; lia). by rewrite decide_True. }
  assert (Hw1 : walks (pl f3) n1 (uf_find u n2)).
  { apply pstep_walks with n2; [by apply rtc_once|done]. }
  assert (Hlt : forall i x0, f !! i = Some x0 -> i < length f) by (intros; by eapply lookup_lt_Some).
  assert (Hnx : forall i x0, f !! i = Some x0 -> cn_next (xn_parent x0) < length f).
  { intros i x0 Hx0. rewrite <- (pl_parent _ _ _ Hx0), <- (pl_length f). apply uf_parent_lt; [done|].
    rewrite pl_length. eauto. }
  split.
  - apply acyclic_wf.
    + intros i p Hp. rewrite pl_length, Hlen3. unfold pl in Hp. rewrite list_lookup_fmap in Hp.
      destruct (f3 !! i) as [y|] eqn:Ey; cbn in Hp; [|done]. injection Hp as <-.
      destruct (decide (i = n1)) as [->|Hi1].
      { rewrite E3n1 in Ey. injection Ey as <-. done. }
      destruct (P3 _ _ Ey Hi1) as (y0 & Hy0 & ->).
      destruct (L6 _ _ Hy0) as [(x0 & Hx0 & ->)|(k & x0 & Hx0 & _ & _ & ->)]; [eauto|cbn; eauto].
    + intros i Hi. rewrite pl_length, Hlen3 in Hi.
      destruct (decide (uf_find u i = uf_find u n1)) as [Er|Er].
      * exists (uf_find u n2). apply pstep_walks with n1; [|done]. rewrite Hpl3. by apply L4.
      * exists (uf_find u i). eapply walks_ext; [exact F1|apply uf_find_walks; [done|by unfold u; rewrite pl_length]|].
        intros k Hk. apply Hoff. congruence.
  - intros a' b' j' Hj. rewrite Hlen3. apply elem_of_cons in Hj as [[= -> -> ->]|Hj]; eauto.
  - intros a' b' j' Hj. apply elem_of_cons in Hj as [[= -> -> ->]|Hj]; eauto.
  - intros i y Hy. destruct (decide (i = n1)) as [->|Hi1].
    { rewrite E3n1 in Hy. by injection Hy as <-. }
    destruct (P3 _ _ Hy Hi1) as (y0 & Hy0 & ->).
    destruct (L6 _ _ Hy0) as [(x0 & Hx0 & ->)|(k & x0 & Hx0 & _ & _ & ->)]; [eauto|done].
  - intros i y Hy Hnext. destruct (decide (i = n1)) as [->|Hi1].
    { rewrite E3n1 in Hy. injection Hy as <-. cbn. by left. }
    destruct (P3 _ _ Hy Hi1) as (y0 & Hy0 & E). rewrite E in *.
    destruct (L6 _ _ Hy0) as [(x0 & Hx0 & E')|(k & x0 & Hx0 & Hk & Hki & E')]; rewrite E' in *.
    + specialize (F4 i x0 Hx0 Hnext). cbn in *. destruct (cn_fwd (xn_parent x0)); by right.
    + assert (Hkk : cn_next (xn_parent x0) <> k) by congruence.
      specialize (F4 k x0 Hx0 Hkk). cbn in *. rewrite Hk in F4.
      destruct (cn_fwd (xn_parent x0)); cbn; by right.
  - intros a' b' j' Hj. apply elem_of_cons in Hj as [[= -> -> ->]|Hj]; [auto|].
    assert (Hgo : forall c d, c < length f -> uf_parent u c = d -> c <> d ->
       uf_parent (pl f3) c = d \/ uf_parent (pl f3) d = c).
    { intros c d Hc Hp Hcd. destruct (lookup_lt_is_Some_2 f c Hc) as [x0 Hx0].
      unfold u in Hp. rewrite (pl_parent _ _ _ Hx0) in Hp.
      destruct (L5 c x0 d Hx0 Hp ltac:(done)) as [[H1 (x' & H2 & H3)]|[H1 (w & H2 & H3)]].
      - left. destruct (P3' _ _ H2 H1) as (y & Hy & E). rewrite (pl_parent _ _ _ Hy), E, H3. done.
      - right. destruct (P3' _ _ H2 H1) as (y & Hy & E). rewrite (pl_parent _ _ _ Hy), E, H3. done. }
    destruct (F2 _ _ _ Hj) as [Hal Hbl].
    destruct (decide (a' = b')) as [->|Hab].
    + by destruct (Fne _ _ _ Hj).
    + destruct (F5 _ _ _ Hj) as [Hp|Hp].
      * by apply Hgo.
      * destruct (Hgo b' a' Hbl Hp ltac:(done)); auto.
  - intros i y c Hy Hc.
    assert (Hnb : exists x0, f !! i = Some x0 /\ (c ∈ xn_neighbors x0 \/ (i = n1 /\ c = Conn n2 n1 j true) \/ (i = n2 /\ c = Conn n1 n2 j false))).
    { assert (Hil : i < length f) by (rewrite <- Hlen3; by eapply lookup_lt_Some).
      destruct (lookup_lt_is_Some_2 f i Hil) as [x0 Hx0]. exists x0. split; [done|].
      destruct (decide (i = n1)) as [->|Hi1].
      - rewrite E3n1 in Hy. injection Hy as <-. cbn in Hc.
        rewrite (L3 _ _ _ Hx0 Ha) in Hc. apply elem_of_app in Hc as [Hc|Hc]; [auto|].
        apply elem_of_list_singleton in Hc. auto.
      - destruct (decide (i = n2)) as [->|Hi2].
        + rewrite E3n2 in Hy. injection Hy as <-. cbn in Hc.
          rewrite (L3 _ _ _ Hx0 Hbb) in Hc. apply elem_of_app in Hc as [Hc|Hc]; [auto|].
          apply elem_of_list_singleton in Hc. auto.
        + rewrite E3 in Hy by done. rewrite (L3 _ _ _ Hx0 Hy) in Hc. auto. }
    destruct Hnb as (x0 & Hx0 & [Hc'|[[-> ->]|[-> ->]]]).
    + destruct (F6 _ _ _ Hx0 Hc') as [? Hn]. split; [done|].
      destruct (cn_fwd c); rewrite elem_of_cons; naive_solver.
    + cbn. split; [done|]. left. by left.
    + cbn. split; [done|]. left. by left.
Qed.
