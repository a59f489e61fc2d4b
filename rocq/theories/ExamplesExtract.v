(** Cases for the extraction theorems. *)
From Verif Require Import Base UnionFind EGraphModel EGraphPres Spec EGraphReach Terms RecExprModel AlgSpec ExtractModel ExtractSpec ExtractProofs ExtractMain Examples.

(** a, f(a), g(f(a), a), h(g(f(a),a)); union f(a) with a and h(..) with g(..): both classes
    are cyclic *)
Definition cycp : prog nat unit :=
  PAdd (Node 0 []) (fun a => PAdd (Node 2 [a]) (fun fa => PAdd (Node 5 [fa; a]) (fun ga => PAdd (Node 3 [ga]) (fun ha =>
  PUnion fa a 7 (fun _ => PUnion ha ga 8 (fun _ => PRebuild (fun _ => PRet))))))).
Definition cyc_g : egraph nat unit := ok_of (eg_new false) (session natlang unitan 20 false cycp).
Lemma cyc_g_session : session natlang unitan 20 false cycp = Ok cyc_g.
Proof. apply is_ok_eq. vm_compute; reflexivity. Qed.
Lemma cyc_np : reachable_np natlang unitan false cyc_g.
Proof. apply (session_reachable_np _ _ 20 _ cycp), cyc_g_session; done. Qed.
(** The order of the keys in the table, and its reverse. *)
Definition keys {Op D} `{Countable Op} (g : egraph Op D) : list nat := (map_to_list (eg_classes g)).*1.
Lemma keys_traverse {Op D} `{Countable Op} (g : egraph Op D) : traverses g (keys g).
Proof.
  split; [apply NoDup_fst_map_to_list|]. intros r. unfold keys. rewrite elem_of_list_fmap. split.
  - intros ([k c] & -> & Hk). apply elem_of_map_to_list in Hk. cbn. eauto.
  - intros [c Hc]. exists (r, c). split; [done|]. by apply elem_of_map_to_list.
Qed.
Lemma reverse_traverse {Op D} `{Countable Op} (g : egraph Op D) o : traverses g o -> traverses g (reverse o).
Proof. intros [H1 H2]. split; [by rewrite reverse_Permutation|]. intros r. rewrite elem_of_reverse. apply H2. Qed.

(** Sizes in two bits: they saturate at 3. *)
Definition size2 := @ast_size nat 2.
Definition sat_costs (o : list nat) := ok_of ∅ (extractor_new usize_pcmp size2 5 cyc_g o).
Lemma sat_costs_eq : extractor_new usize_pcmp size2 5 cyc_g (keys cyc_g) = Ok (sat_costs (keys cyc_g)).
Proof. apply is_ok_eq. vm_compute. reflexivity. Qed.
Lemma sat_costs_rev : extractor_new usize_pcmp size2 5 cyc_g (reverse (keys cyc_g)) = Ok (sat_costs (reverse (keys cyc_g))).
Proof. apply is_ok_eq. vm_compute. reflexivity. Qed.
Definition cyc_t : term nat := TNode 5 [TNode 2 [TNode 2 [TNode 0 []]]; TNode 0 []].
Lemma cyc_rep : Rep cyc_g cyc_t (eg_find cyc_g 2).
Proof.
  assert (Hn : forall r (n : node nat), (fun c => bool_decide (n ∈ c_nodes c)) <$> eg_classes cyc_g !! r = Some true -> exists c, eg_classes cyc_g !! r = Some c /\ n ∈ c_nodes c).
  { intros r n E. apply fmap_Some in E as (c & -> & E). symmetry in E. apply bool_decide_eq_true_1 in E. eauto. }
  assert (Ha : Rep cyc_g (TNode 0 []) (eg_find cyc_g 0)).
  { destruct (Hn (eg_find cyc_g 0) (Node 0 [])) as (c & Hc & Hin); [vm_compute; reflexivity|]. by econstructor. }
  assert (Hf : forall t, Rep cyc_g t (eg_find cyc_g 0) -> Rep cyc_g (TNode 2 [t]) (eg_find cyc_g 0)).
  { intros t Ht. destruct (Hn (eg_find cyc_g 0) (Node 2 [eg_find cyc_g 0])) as (c & Hc & Hin); [vm_compute; reflexivity|]. econstructor; [done|done|].
    repeat constructor. assert (E : eg_find cyc_g (eg_find cyc_g 0) = eg_find cyc_g 0) by (vm_compute; reflexivity). by rewrite E. }
  destruct (Hn (eg_find cyc_g 2) (Node 5 [eg_find cyc_g 0; eg_find cyc_g 0])) as (c & Hc & Hin); [vm_compute; reflexivity|].
  assert (E : eg_find cyc_g (eg_find cyc_g 0) = eg_find cyc_g 0) by (vm_compute; reflexivity).
  econstructor; [done|done|]. repeat constructor; rewrite E; [|done]. by apply Hf, Hf.
Qed.

(** The same with the constant removed from its class by hand: no finite term is left. *)
Definition prunep : prog nat unit :=
  PAdd (Node 0 []) (fun a => PAdd (Node 2 [a]) (fun fa => PAdd (Node 1 []) (fun b =>
  PUnion fa a 7 (fun _ => PRebuild (fun _ => PRetain 0 (fun n => negb (nop n =? 0)) PRet))))).
Definition prune_g : egraph nat unit := ok_of (eg_new false) (session natlang unitan 20 false prunep).
Lemma prune_session : session natlang unitan 20 false prunep = Ok prune_g.
Proof. apply is_ok_eq. vm_compute; reflexivity. Qed.
Lemma prune_reachable : reachable natlang unitan false prune_g.
Proof. apply (session_reachable _ _ 20 _ prunep), prune_session. Qed.
Lemma prune_inhabited : inhabited prune_g.
Proof.
  intros r c Hc E. assert (K : forallb (fun '(_, c) => negb (bool_decide (c_nodes c = []))) (map_to_list (eg_classes prune_g)) = true) by (vm_compute; reflexivity).
  rewrite forallb_forall in K. assert (Hin : (r, c) ∈ map_to_list (eg_classes prune_g)) by by apply elem_of_map_to_list.
  apply elem_of_list_In in Hin. apply K in Hin. rewrite bool_decide_eq_true_2 in Hin by done. done.
Qed.
Definition prune_costs := ok_of ∅ (extractor_new nat_pcmp ast_depth 5 prune_g (keys prune_g)).
Lemma prune_costs_eq : extractor_new nat_pcmp ast_depth 5 prune_g (keys prune_g) = Ok prune_costs.
Proof. apply is_ok_eq. vm_compute. reflexivity. Qed.

(** A cost function that exceeds the costs of the children but is not monotone in them. *)
Definition odd_op (f : nat) (vs : list nat) : nat :=
  match f, vs with
  | 2, [v] => if v =? 1 then 9 else S v
  | 1, [] => 2
  | _, _ => S (foldr max 0 vs)
  end.
Definition odd_cost (n : node nat) (vs : list nat) : nat := odd_op (nop n) vs.
Lemma foldr_max_in vs v : v ∈ vs -> v <= foldr max 0 vs.
Proof. induction 1 as [|? ? ? _ IH]; cbn; lia. Qed.
Lemma odd_exceeds n vs v : v ∈ vs -> nat_pcmp v (odd_cost n vs) = Some Lt.
Proof.
  intros Hv. unfold nat_pcmp. f_equal. apply Nat.compare_lt_iff. unfold odd_cost, odd_op. pose proof (foldr_max_in vs v Hv).
  destruct (nop n) as [|[|[|k]]]; [lia| | |destruct vs as [|? [|? ?]]; lia].
  - destruct vs; [by apply elem_of_nil in Hv|lia].
  - destruct vs as [|u [|? ?]]; [lia| |lia]. apply elem_of_list_singleton in Hv as ->. destruct (Nat.eqb_spec u 1); lia.
Qed.
Definition odd_costs := ok_of ∅ (extractor_new nat_pcmp odd_cost 9 (cong_g false true) (keys (cong_g false true))).
Lemma greedy_misses : exists (g : egraph nat unit) order (cf : node nat -> list nat -> nat) F fuel cs i v t,
  reachable_np natlang unitan false g /\ eg_clean g = true /\ traverses g order /\ by_operator cf F /\
  (forall n vs v, v ∈ vs -> nat_pcmp v (cf n vs) = Some Lt) /\
  extractor_new nat_pcmp cf fuel g order = Ok cs /\ find_best_cost g cs i = Ok v /\ Rep g t (eg_find g i) /\ geval F t < v.
Proof.
  exists (cong_g false true), (keys (cong_g false true)), odd_cost, odd_op, 9, odd_costs, 2, 9, (TNode 2 [TNode 1 []]). split_and!.
  - apply cong_g_reachable_np.
  - vm_compute. reflexivity.
  - apply keys_traverse.
  - done.
  - apply odd_exceeds.
  - apply is_ok_eq. vm_compute. reflexivity.
  - vm_compute. reflexivity.
  - set (g := cong_g false true).
    assert (Hn : forall r (n : node nat), (fun c => bool_decide (n ∈ c_nodes c)) <$> eg_classes g !! r = Some true -> exists c, eg_classes g !! r = Some c /\ n ∈ c_nodes c).
    { intros r n E. apply fmap_Some in E as (c & -> & E). symmetry in E. apply bool_decide_eq_true_1 in E. eauto. }
    destruct (Hn (eg_find g 0) (Node 1 [])) as (c & Hc & Hin); [vm_compute; reflexivity|].
    destruct (Hn (eg_find g 2) (Node 2 [eg_find g 0])) as (c' & Hc' & Hin'); [vm_compute; reflexivity|].
    econstructor; [done|done|]. repeat constructor. assert (E : eg_find g (eg_find g 0) = eg_find g 0) by (vm_compute; reflexivity). rewrite E.
    by econstructor.
  - cbn. lia.
Qed.

(** A cost function below the costs of the children: extraction picks a cycle. *)
Definition zero_op (f : nat) (vs : list nat) : nat := match f with 2 => 0 | _ => S (foldr max 0 vs) end.
Definition zero_cost (n : node nat) (vs : list nat) : nat := zero_op (nop n) vs.
Lemma build_self {Op} `{Countable Op} (get : nat -> option (node Op)) f i : get i = Some (Node f [i]) ->
  forall fuel s rest, build_loop fuel get s ∅ (i :: rest) = OutOfFuel.
Proof.
  intros Hg. induction fuel as [|fuel IH]; intros s rest; cbn [build_loop]; [done|].
  rewrite decide_False by (rewrite lookup_empty; by intros [? ?]). rewrite Hg. cbn [expect mbind res_bind nch].
  rewrite filter_cons_True by done. cbn [filter list_filter]. apply IH.
Qed.
Definition zero_costs := ok_of ∅ (extractor_new nat_pcmp zero_cost 9 cyc_g (keys cyc_g)).
Lemma cheap_cycles_loop : exists (g : egraph nat unit) order (cf : node nat -> list nat -> nat) F fuel cs i,
  reachable_np natlang unitan false g /\ eg_clean g = true /\ traverses g order /\ by_operator cf F /\ monotone nat_pcmp cf /\
  extractor_new nat_pcmp cf fuel g order = Ok cs /\ (exists t, Rep g t (eg_find g i)) /\ forall fuel', find_best fuel' g cs i = OutOfFuel.
Proof.
  exists cyc_g, (keys cyc_g), zero_cost, zero_op, 9, zero_costs, 0. split_and!.
  - apply cyc_np.
  - vm_compute. reflexivity.
  - apply keys_traverse.
  - done.
  - intros n vs vs' Hv. apply nat_cle. unfold zero_cost, zero_op.
    assert (foldr max 0 vs <= foldr max 0 vs') by (induction Hv as [|a b vs vs' Hab Hv IH]; cbn; [lia|apply nat_cle in Hab; lia]).
    destruct (nop n) as [|[|[|k]]]; lia.
  - apply is_ok_eq. vm_compute. reflexivity.
  - exists (TNode 0 []).
    assert (Hn : (fun c => bool_decide (Node 0 [] ∈ c_nodes c)) <$> eg_classes cyc_g !! eg_find cyc_g 0 = Some true) by (vm_compute; reflexivity).
    apply fmap_Some in Hn as (c0 & Hc0 & E). symmetry in E. apply bool_decide_eq_true_1 in E. by econstructor.
  - intros fuel'. unfold find_best.
    assert (E : zero_costs !! eg_find cyc_g 0 = Some (0, Node 2 [eg_find cyc_g 0])) by (vm_compute; reflexivity). rewrite E. cbn [expect mbind res_bind].
    unfold build_recexpr. cbn [nch]. change (reverse [eg_find cyc_g 0]) with [eg_find cyc_g 0]. rewrite (build_self _ 2); [done|].
    assert (E' : eg_find cyc_g (eg_find cyc_g 0) = eg_find cyc_g 0) by (vm_compute; reflexivity). by rewrite E', E.
Qed.
