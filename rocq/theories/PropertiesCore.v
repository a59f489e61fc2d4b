(** Property theorems about the e-graph core (C01-C10).  See Spec.v for the vocabulary. *)
From Verif Require Import Base UnionFind UnionFindRuns EGraphModel EGraphSteps EGraphPres EGraphMain EGraphReach
  EGraphOps Spec Examples.

(** C01: every [find] terminates with a canonical id, and ids share a representative
    exactly when a chain of unions links them. *)
Theorem C01_find_is_union_closure cs :
  uf_calls_valid 0 cs ->
  exists u, uf_run cs [] = Ok u /\
    (forall i, i < length u -> exists r, uf_find_res (S (length u)) u i = Ok r /\ r < length u /\
        uf_find_res (S (length u)) u r = Ok r) /\
    (forall i j r s, uf_find_res (S (length u)) u i = Ok r -> uf_find_res (S (length u)) u j = Ok s ->
        (r = s <-> linked cs i j)).
Proof. exact (uf_run_spec cs). Qed.
Print Assumptions C01_find_is_union_closure.
Definition C01_calls := [UMake; UMake; UMake; UMake; UUnion 0 1 false; UUnion 2 3 true; UFindMut 1; UUnion 1 2 false; UFind 3].
Example C01_ex : uf_calls_valid 0 C01_calls /\ uf_run C01_calls [] = Ok [0; 0; 3; 0].
Proof. split; [cbn; lia|reflexivity]. Qed.

(** C02: [find_mut] returns what [find] returns and changes no representative. *)
Theorem C02_path_compression_invisible cs i u :
  uf_calls_valid 0 cs -> uf_run cs [] = Ok u -> i < length u ->
  exists u' r, uf_find_mut_res (S (length u)) u i = Ok (u', r) /\ uf_find_res (S (length u)) u i = Ok r /\
    length u' = length u /\ (forall j, uf_find_res (S (length u')) u' j = uf_find_res (S (length u)) u j).
Proof. exact (uf_run_find_mut cs i u). Qed.
Print Assumptions C02_path_compression_invisible.
(** a call that really rewrites the array *)
Example C02_ex : uf_run C01_calls [] = Ok [0; 0; 3; 0] /\ uf_find_mut_res 5 [0; 0; 3; 0] 2 = Ok ([0; 0; 0; 0], 0).
Proof. split; reflexivity. Qed.

(** C03, in the union-find: uniting two leaders answers the first, which becomes the leader of
    both sets; no other set changes. *)
Theorem C03_union_leader cs u a b u' r :
  uf_calls_valid 0 cs -> uf_run cs [] = Ok u -> uf_find_res (S (length u)) u a = Ok a -> uf_find_res (S (length u)) u b = Ok b -> a <> b ->
  uf_union u a b = (u', r) ->
  r = a /\ forall j s, uf_find_res (S (length u)) u j = Ok s -> uf_find_res (S (length u')) u' j = Ok (if decide (s = b) then r else s).
Proof. exact (uf_run_union cs u a b u' r). Qed.
Print Assumptions C03_union_leader.
Example C03_ex_leader : uf_run (take 6 C01_calls) [] = Ok [0; 0; 3; 3] /\ uf_find_res 5 [0; 0; 3; 3] 3 = Ok 3 /\ uf_find_res 5 [0; 0; 3; 3] 0 = Ok 0 /\
  uf_union [0; 0; 3; 3] 3 0 = ([3; 0; 3; 3], 3) /\ uf_find_res 5 [3; 0; 3; 3] 1 = Ok 3.
Proof. split_and!; reflexivity. Qed.

(** C03: effect of [union] on representatives. *)
Theorem C03_union_merges_named_classes {Op D} `{Countable Op} (L : lang Op) (A : analysis Op D) ex g a b r g' v fuel :
  reachable L A ex g -> api_union A (modify_n L A fuel) a b r g = Ok (g', v) ->
  eg_find g' a = eg_find g' b /\
  (v = true <-> eg_find g a <> eg_find g b) /\
  (hook_free A -> forall i j, eg_find g' i = eg_find g' j <->
     eg_find g i = eg_find g j \/
     (eg_find g i = eg_find g a /\ eg_find g j = eg_find g b) \/
     (eg_find g i = eg_find g b /\ eg_find g j = eg_find g a)).
Proof. exact (api_union_effect L A ex g a b r g' v fuel). Qed.
Print Assumptions C03_union_merges_named_classes.
Example C03_ex : reachable natlang unitan true (cong_g true true) /\ hook_free unitan /\
  exists g', api_union unitan (modify_n natlang unitan 5) 2 4 9 (cong_g true true) = Ok (g', true).
Proof.
  split_and!; [apply cong_g_reachable|done|].
  eexists. apply (is_ok_fst (eg_new true)). vm_compute. reflexivity.
Qed.

(** C04: equalities and ids survive every later program (adds, unions, rebuilds, hooks). *)
Theorem C04_equalities_persist {Op D} `{Countable Op} (L : lang Op) (A : analysis Op D) ex g fuel p g' :
  reachable L A ex g -> run_prog L A fuel (modify_n L A fuel) p g = Ok g' ->
  (forall a b, eg_find g a = eg_find g b -> eg_find g' a = eg_find g' b) /\
  (forall a, known g a -> known g' a).
Proof. intros R E. split; intros *; [by eapply run_mono|by eapply run_known]. Qed.
Print Assumptions C04_equalities_persist.
Example C04_ex : reachable natlang unitan false (cong_g false true) /\
  exists g', run_prog natlang unitan 20 (modify_n natlang unitan 20)
    (PAdd (Node 9 [5]) (fun i => PUnion i 2 1 (fun _ => PRebuild (fun _ => PRet)))) (cong_g false true) = Ok g'.
Proof.
  split; [apply cong_g_reachable|].
  eexists. apply (is_ok_eq (eg_new true)). vm_compute. reflexivity.
Qed.

(** C05, rebuilt e-graph, any hooks, explanations or not: adding a node congruent to one
    added before returns the class of that one and creates no class. *)
Theorem C05_hashcons_rebuilt {Op D} `{Countable Op} (L : lang Op) (A : analysis Op D) ex g n n' i fuel g' j :
  reachable L A ex g -> eg_clean g = true -> EAdd n i ∈ eg_log g ->
  nop n' = nop n -> same_children g (nch n') (nch n) ->
  add A (modify_n L A fuel) n' g = Ok (g', j) ->
  j = eg_find g i /\ eg_classes g' = eg_classes g /\ (forall k, known g k -> eg_find g' k = eg_find g k).
Proof. exact (add_clean_hit L A ex g n n' i fuel g' j). Qed.
Print Assumptions C05_hashcons_rebuilt.
Example C05_ex_rebuilt : eg_clean (cong_g true true) = true /\ EAdd (Node 2 [0]) 2 ∈ eg_log (cong_g true true) /\
  same_children (cong_g true true) [1] [0] /\
  exists g', add unitan (modify_n natlang unitan 5) (Node 2 [1]) (cong_g true true) = Ok (g', 2).
Proof.
  split_and!; [vm_compute; reflexivity| | |].
  - apply (elem_of_list_lookup_2 _ 4). vm_compute. reflexivity.
  - constructor; [vm_compute; reflexivity|constructor].
  - eexists. apply (is_ok_fst (eg_new true)). vm_compute. reflexivity.
Qed.

(** C05, not rebuilt: without explanations (hook-free). *)
Theorem C05_hashcons_plain {Op D} `{Countable Op} (L : lang Op) (A : analysis Op D) g n n' fuel g1 i g2 j :
  reachable L A false g -> hook_free A ->
  add A (modify_n L A fuel) n g = Ok (g1, i) -> nop n' = nop n -> same_children g1 (nch n') (nch n) ->
  add A (modify_n L A fuel) n' g1 = Ok (g2, j) ->
  j = i /\ g2 = g1.
Proof. exact (add_twice_plain L A g n n' fuel g1 i g2 j). Qed.
Print Assumptions C05_hashcons_plain.
(** C05, not rebuilt: the identical node, explanations or not (hook-free). *)
Theorem C05_hashcons_same_node {Op D} `{Countable Op} (L : lang Op) (A : analysis Op D) ex g n fuel g1 i g2 j :
  reachable L A ex g -> hook_free A ->
  add A (modify_n L A fuel) n g = Ok (g1, i) -> add A (modify_n L A fuel) n g1 = Ok (g2, j) ->
  j = i /\ g2 = g1.
Proof. exact (add_twice_same L A ex g n fuel g1 i g2 j). Qed.
Print Assumptions C05_hashcons_same_node.
Example C05_ex_plain : reachable natlang unitan false (cong_g false false) /\
  eg_clean (cong_g false false) = false /\
  exists g1 g2, add unitan (modify_n natlang unitan 5) (Node 8 [0; 2]) (cong_g false false) = Ok (g1, 6) /\
    same_children g1 [1; 2] [0; 2] /\
    add unitan (modify_n natlang unitan 5) (Node 8 [1; 2]) g1 = Ok (g2, 6).
Proof.
  split_and!; [apply cong_g_reachable|vm_compute; reflexivity|].
  eexists _, _. split_and!.
  - apply (is_ok_fst (eg_new false)). vm_compute. reflexivity.
  - constructor; [vm_compute; reflexivity|constructor; [vm_compute; reflexivity|constructor]].
  - apply (is_ok_fst (eg_new false)). vm_compute. reflexivity.
Qed.
(** With explanations enabled and before a rebuild the general form fails: f(x) and f(y)
    are added, x and y are united, and re-adding f(x), then f(y), gives different classes
    although the two nodes are pairwise congruent.  (src/egraph.rs:1019-1022: the id found in the
    uncanonical memo is returned without looking at the canonical one.) *)
Theorem C05_hashcons_explained_refuted :
  exists (g g1 g2 : egraph nat unit) (n n' : node nat) i j,
    reachable natlang unitan true g /\ hook_free unitan /\
    add unitan (modify_n natlang unitan 5) n g = Ok (g1, i) /\ nop n' = nop n /\ same_children g1 (nch n') (nch n) /\
    add unitan (modify_n natlang unitan 5) n' g1 = Ok (g2, j) /\ eg_find g2 i <> eg_find g2 j.
Proof.
  exists (cong_g true false). eexists _, _, (Node 2 [0]), (Node 2 [1]), 2, 3.
  split_and!; [apply cong_g_reachable|done| |done| | |].
  - apply (is_ok_fst (eg_new false)). vm_compute. reflexivity.
  - constructor; [vm_compute; reflexivity|constructor].
  - apply (is_ok_fst (eg_new false)). vm_compute. reflexivity.
  - intros E. apply Nat.eqb_eq in E. vm_compute in E. done.
Qed.
Print Assumptions C05_hashcons_explained_refuted.

(** C06: in a rebuilt e-graph [lookup] finds exactly the congruent nodes added. *)
Theorem C06_lookup_exact {Op D} `{Countable Op} (L : lang Op) (A : analysis Op D) ex g n r :
  reachable L A ex g -> eg_clean g = true ->
  eg_lookup g n = Some r <->
  exists cs i, EAdd (Node (nop n) cs) i ∈ eg_log g /\ same_children g (nch n) cs /\ r = eg_find g i.
Proof. exact (reach_lookup L A ex g n r). Qed.
Print Assumptions C06_lookup_exact.
Example C06_ex : eg_lookup (cong_g true true) (Node 3 [3]) = Some 4 /\ eg_lookup (cong_g true true) (Node 3 [0]) = None.
Proof. vm_compute. done. Qed.
(** C06: [lookup] right after [add] (any state, no explanations, hook-free). *)
Theorem C06_lookup_after_add {Op D} `{Countable Op} (L : lang Op) (A : analysis Op D) g n fuel g1 i :
  reachable L A false g -> hook_free A ->
  add A (modify_n L A fuel) n g = Ok (g1, i) -> eg_lookup g1 n = Some i.
Proof. exact (lookup_after_add L A g n fuel g1 i). Qed.
Print Assumptions C06_lookup_after_add.
(** C06: a failed [lookup] means [add] makes exactly one new class (any state). *)
Theorem C06_lookup_miss {Op D} `{Countable Op} (L : lang Op) (A : analysis Op D) ex g n fuel g1 i :
  reachable L A ex g -> hook_free A -> eg_lookup g n = None ->
  add A (modify_n L A fuel) n g = Ok (g1, i) ->
  ~ known g i /\ known g1 i /\ dom (eg_classes g1) = {[i]} ∪ dom (eg_classes g) /\
  (forall k, eg_find g1 k = eg_find g k).
Proof. exact (add_miss L A ex g n fuel g1 i). Qed.
Print Assumptions C06_lookup_miss.
Example C06_ex_add : exists g1, add unitan (modify_n natlang unitan 5) (Node 3 [0]) (cong_g false false) = Ok (g1, 6)
  /\ eg_lookup (cong_g false false) (Node 3 [0]) = None.
Proof.
  eexists. split; [apply (is_ok_fst (eg_new false))|]; vm_compute; reflexivity.
Qed.
(** With explanations and before a rebuild, [lookup] may name another class than [add]
    just returned. *)
Theorem C06_lookup_after_add_explained_refuted :
  exists (g g1 : egraph nat unit) n i r,
    reachable natlang unitan true g /\ hook_free unitan /\
    add unitan (modify_n natlang unitan 5) n g = Ok (g1, i) /\ eg_lookup g1 n = Some r /\ r <> i.
Proof.
  exists (cong_g true false). eexists _, (Node 2 [1]), 3, 2.
  split_and!; [apply cong_g_reachable|done|apply (is_ok_fst (eg_new false)); vm_compute; reflexivity|
    vm_compute; reflexivity|done].
Qed.
Print Assumptions C06_lookup_after_add_explained_refuted.

(** C07: at every moment, equal ids are provably equal. *)
Theorem C07_closure_sound {Op D} `{Countable Op} (L : lang Op) (A : analysis Op D) ex g a b :
  reachable L A ex g -> known g a -> known g b ->
  eg_find g a = eg_find g b -> Cong (eg_log g) a b.
Proof. exact (reach_sound L A ex g a b). Qed.
Print Assumptions C07_closure_sound.
(** C08: after a rebuild, provably equal ids are equal. *)
Theorem C08_closure_complete {Op D} `{Countable Op} (L : lang Op) (A : analysis Op D) ex g a b :
  reachable L A ex g -> eg_clean g = true ->
  Cong (eg_log g) a b -> eg_find g a = eg_find g b.
Proof. exact (reach_complete L A ex g a b). Qed.
Print Assumptions C08_closure_complete.
Example C07_C08_ex : eg_clean (cong_g false true) = true /\ eg_find (cong_g false true) 4 = eg_find (cong_g false true) 5
  /\ eg_find (cong_g false true) 2 <> eg_find (cong_g false true) 4 /\ length (eg_uf (cong_g false true)) = 6.
Proof. vm_compute. done. Qed.

(** C09: class contents after a rebuild. *)
Theorem C09_classes_canonical {Op D} `{Countable Op} (L : lang Op) (A : analysis Op D) ex g :
  lang_ok L -> reachable L A ex g -> eg_clean g = true ->
  (forall r, is_Some (eg_classes g !! r) <-> known g r /\ eg_find g r = r) /\
  (forall r c, eg_classes g !! r = Some c ->
     NoDup (c_nodes c) /\ StronglySorted (node_le L) (c_nodes c) /\
     forall n x, n ∈ c_nodes c -> x ∈ nch n -> eg_find g x = x) /\
  (forall r r' c c' n, eg_classes g !! r = Some c -> n ∈ c_nodes c ->
     eg_classes g !! r' = Some c' -> n ∈ c_nodes c' -> r = r') /\
  (forall r c n, eg_classes g !! r = Some c -> n ∈ c_nodes c ->
     exists cs i, EAdd (Node (nop n) cs) i ∈ eg_log g /\ same_children g (nch n) cs /\ eg_find g i = r).
Proof.
  intros Lo R Ec. pose proof (reach_canonical _ _ _ _ Lo R Ec) as [C1 C2 C3]. split_and!.
  - intros r. by eapply reach_class_ids.
  - intros r c Hr. split_and!; eauto. intros n x Hn Hx. pose proof (C1 _ _ _ Hr Hn) as E.
    apply (f_equal nch) in E. cbn in E. apply elem_of_list_lookup in Hx as (k & Hk).
    apply (f_equal (.!! k)) in E. rewrite list_lookup_fmap, Hk in E. cbn in E. congruence.
  - intros. by eapply reach_disjoint.
  - intros. by eapply reach_contents_sound.
Qed.
Print Assumptions C09_classes_canonical.
Theorem C09_classes_cover {Op D} `{Countable Op} (L : lang Op) (A : analysis Op D) ex g m i :
  reachable_np L A ex g -> EAdd m i ∈ eg_log g ->
  exists c n, eg_classes g !! eg_find g i = Some c /\ n ∈ c_nodes c /\ nop n = nop m /\
    same_children g (nch n) (nch m).
Proof. exact (reach_contents_complete L A ex g m i). Qed.
Print Assumptions C09_classes_cover.
Example C09_ex : lang_ok natlang /\ reachable_np natlang unitan true (cong_g true true) /\
  eg_clean (cong_g true true) = true /\
  (c_nodes <$> eg_classes (cong_g true true) !! 0) = Some [Node 0 []; Node 1 []] /\
  (c_nodes <$> eg_classes (cong_g true true) !! 2) = Some [Node 2 [0]].
Proof.
  split_and!; [apply natlang_ok|apply cong_g_reachable_np|vm_compute; reflexivity..].
Qed.

(** C10: the operator index after a rebuild lists exactly the classes with that operator. *)
Theorem C10_operator_index_exact {Op D} `{Countable Op} (L : lang Op) (A : analysis Op D) ex g d r :
  reachable_np L A ex g -> eg_clean g = true ->
  (exists s, eg_by_op g !! d = Some s /\ r ∈ s) <->
  exists c n, eg_classes g !! r = Some c /\ n ∈ c_nodes c /\ l_disc L (nop n) = d.
Proof. intros R Ec. exact (reach_indexed L A ex g R Ec d r). Qed.
Print Assumptions C10_operator_index_exact.
Example C10_ex : reachable_np natlang unitan false (cong_g false true) /\
  elements (default ∅ (eg_by_op (cong_g false true) !! 2)) = [2] /\
  elements (default ∅ (eg_by_op (cong_g false false) !! 2)) = [].
Proof.
  split_and!; [apply cong_g_reachable_np|vm_compute; reflexivity..].
Qed.
