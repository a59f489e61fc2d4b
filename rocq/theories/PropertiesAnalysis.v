(** Property theorems about analyses (C14-C17). *)
From Verif Require Import Base EGraphModel EGraphRuns EGraphMain EGraphReach EGraphAna AnalysisHelpers Spec Examples.

(** C14: in a rebuilt e-graph the data of a class is above [make] of each e-node ever added to it ... *)
Theorem C14_data_above_added_nodes {Op D} `{Countable Op} (L : lang Op) (A : analysis Op D) le mk ex g n i :
  lattice_analysis A le mk -> reachable_kd L A ex g -> eg_clean g = true -> EAdd n i ∈ eg_log g ->
  exists ds d, class_data g <$> nch n = Some <$> ds /\ class_data g i = Some d /\ le (mk (nop n) ds) d.
Proof. exact (fun LA => ana_upper L A le mk LA ex g n i). Qed.
Print Assumptions C14_data_above_added_nodes.

(** ... and of each e-node it lists. *)
Theorem C14_data_above_listed_nodes {Op D} `{Countable Op} (L : lang Op) (A : analysis Op D) le mk ex g r c n :
  lattice_analysis A le mk -> reachable_kd L A ex g -> eg_clean g = true ->
  eg_classes g !! r = Some c -> n ∈ c_nodes c ->
  exists ds, class_data g <$> nch n = Some <$> ds /\ le (mk (nop n) ds) (c_data c).
Proof. exact (fun LA => ana_upper_listed L A le mk LA ex g r c n). Qed.
Print Assumptions C14_data_above_listed_nodes.

(** C15: it is the least assignment of that kind ... *)
Theorem C15_data_least {Op D} `{Countable Op} (L : lang Op) (A : analysis Op D) le mk ex g v i d :
  lattice_analysis A le mk -> monotone_analysis A le mk -> reachable_kd L A ex g ->
  (forall a b, eg_find g a = eg_find g b -> v a = v b) ->
  (forall n k, EAdd n k ∈ eg_log g -> le (mk (nop n) (v <$> nch n)) (v k)) ->
  known g i -> class_data g i = Some d -> le d (v i).
Proof. exact (fun LA MA => ana_least L A le mk LA MA ex g v i d). Qed.
Print Assumptions C15_data_least.

(** ... so the order of the operations (and of the hooks' calls) does not matter. *)
Theorem C15_data_order_independent {Op D} `{Countable Op} (L : lang Op) (A : analysis Op D) le mk ex1 ex2 g1 g2 i d1 d2 :
  lattice_analysis A le mk -> monotone_analysis A le mk -> (forall a b, le a b -> le b a -> a = b) ->
  reachable_kd L A ex1 g1 -> reachable_kd L A ex2 g2 -> eg_clean g1 = true -> eg_clean g2 = true ->
  (forall e, e ∈ eg_log g1 <-> e ∈ eg_log g2) -> known g1 i ->
  class_data g1 i = Some d1 -> class_data g2 i = Some d2 -> d1 = d2.
Proof. exact (fun LA MA => ana_order_independent L A le mk LA MA ex1 ex2 g1 g2 i d1 d2). Qed.
Print Assumptions C15_data_order_independent.

(** Non-vacuity of C14/C15: the term size analysis; sizes change by a union and are
    propagated to a parent by the rebuild. *)
Example C14_C15_ex : exists g, reachable_kd natlang sizean false g /\ eg_clean g = true /\
  EAdd (Node 4 [2; 1]) 3 ∈ eg_log g /\ class_data g 3 = Some 4 /\ class_data g 2 = Some 1.
Proof.
  exists sz_g2. split_and!; [apply szp2_kd, sz_g2_session|vm_compute; reflexivity| |vm_compute; reflexivity..].
  apply (elem_of_list_lookup_2 _ 2). vm_compute. reflexivity.
Qed.

(** C16: [merge_max], [merge_min] and [merge_option] compute joins and raise the flags exactly
    when the result differs; composing merges with "or" keeps the flags exact. *)
Theorem C16_merge_max {T} (cmp : T -> T -> comparison) : ord_ok cmp ->
  join_contract (fun a b => cmp a b <> Gt) (merge_max cmp) /\
  forall a b, (merge_max cmp a b).1 = a \/ (merge_max cmp a b).1 = b.
Proof. exact (fun Ho => conj (merge_max_join cmp Ho) (merge_max_pick cmp)). Qed.
Print Assumptions C16_merge_max.
Theorem C16_merge_min {T} (cmp : T -> T -> comparison) : ord_ok cmp ->
  join_contract (fun a b => cmp b a <> Gt) (merge_min cmp) /\
  forall a b, (merge_min cmp a b).1 = a \/ (merge_min cmp a b).1 = b.
Proof. exact (fun Ho => conj (merge_min_join cmp Ho) (merge_min_pick cmp)). Qed.
Print Assumptions C16_merge_min.
Theorem C16_merge_option {T} (le : T -> T -> Prop) m :
  (forall a, le a a) -> join_contract le m -> join_contract (option_le le) (merge_option m).
Proof. exact (merge_option_join le m). Qed.
Print Assumptions C16_merge_option.
Theorem C16_did_merge_or {T U} (le1 : T -> T -> Prop) (le2 : U -> U -> Prop) m1 m2 :
  (forall a b, Decision (le1 a b)) ->
  join_contract le1 m1 -> join_contract le2 m2 -> join_contract (pair_le le1 le2) (merge_pair m1 m2).
Proof. exact (merge_pair_join le1 le2 m1 m2). Qed.
Print Assumptions C16_did_merge_or.
Example C16_ex : ord_ok Nat.compare /\ merge_max Nat.compare 3 5 = (5, (true, false)) /\
  merge_min Nat.compare 3 5 = (3, (false, true)) /\
  merge_option (merge_max Nat.compare) (Some 4) (Some 4) = (Some 4, (false, false)) /\
  merge_pair (merge_max Nat.compare) (merge_min Nat.compare) (1, 1) (2, 2) = ((2, 1), (true, true)).
Proof.
  split; [|done]. split.
  - intros. by apply Nat.compare_refl.
  - intros. by rewrite Nat.compare_antisym.
  - intros a b c. rewrite !Nat.compare_le_iff. lia.
Qed.

(** C17: the work queue behaves like a first-in first-out list in which a waiting element is
    not inserted again; its internal debug assertion never fails. *)
Theorem C17_queue_refines_list os : uq_run uq_empty os = Some <$> qs_run [] os.
Proof. exact (uq_run_empty os). Qed.
Print Assumptions C17_queue_refines_list.
Example C17_ex : uq_run uq_empty [QInsert 3; QExtend [4; 3; 5]; QPop; QInsert 3; QPop; QPop; QIsEmpty; QPop; QPop; QIsEmpty] =
  [Some OUnit; Some OUnit; Some (OPop (Some 3)); Some OUnit; Some (OPop (Some 4)); Some (OPop (Some 5)); Some (OEmpty false);
   Some (OPop (Some 3)); Some (OPop None); Some (OEmpty true)].
Proof. vm_compute. reflexivity. Qed.
