(** Property C62: the GraphViz output.  Vocabulary: DotSpec.v (a reader of the files, drawings), Spec.v, ExtractSpec.v.
    The proofs are in DotProofs.v. *)
From Coq Require Import NArith Ascii String.
From Verif Require Import Base UnionFind EGraphModel EGraphPres Spec EGraphReach ExtractModel ExtractSpec ExtractMain TextModel PrintModel RunnerModel DotModel DotSpec DotProofs
  Examples ExamplesExtract ExamplesDot.

(** * C62 *)
(** The output is written without panic, can be read again, and draws the e-graph: at every moment, whatever the order of the class table. *)
Theorem C62_draws {Op D} `{Countable Op} (L : lang Op) (A : analysis Op D) (disp : Op -> text) ex config anchors g order :
  (forall f, plain_label (disp f)) -> Forall quiet config -> reachable L A ex g -> traverses g order ->
  exists s d, dot_text disp config anchors g order = Ok s /\ read_dot s = Some d /\ draws disp anchors g d.
Proof.
  intros Hd Hc R Ho. destruct (dot_reads L A disp Hd ex config anchors g order R Ho Hc) as (s & d & E1 & E2 & E3 & _). exact (ex_intro _ s (ex_intro _ d (conj E1 (conj E2 E3)))).
Qed.
Print Assumptions C62_draws.
(** After a rebuild, if no class was emptied by hand, every edge ends at a declared node, in the cluster of the class of the child. *)
Theorem C62_heads {Op D} `{Countable Op} (L : lang Op) (A : analysis Op D) (disp : Op -> text) ex config anchors g order s d :
  lang_ok L -> (forall f, plain_label (disp f)) -> Forall quiet config -> reachable L A ex g -> traverses g order -> eg_clean g = true -> inhabited g ->
  dot_text disp config anchors g order = Ok s -> read_dot s = Some d -> well_headed d.
Proof.
  intros Lo Hd Hc R Ho Ec Hi E1 E2. destruct (dot_reads L A disp Hd ex config anchors g order R Ho Hc) as (s' & d' & E1' & E2' & _ & Hw).
  rewrite E1 in E1'. injection E1' as <-. rewrite E2 in E2'. injection E2' as <-. exact (Hw Lo Ec Hi).
Qed.
Print Assumptions C62_heads.
Example C62_ex : lang_ok natlang /\ (forall f, plain_label (decs f)) /\ Forall quiet [ascii_text "rankdir=LR"] /\
  reachable natlang unitan true (cong_g true true) /\ traverses (cong_g true true) (keys (cong_g true true)) /\ eg_clean (cong_g true true) = true /\ inhabited (cong_g true true) /\
  exists s d, dot_text decs [ascii_text "rankdir=LR"] true (cong_g true true) (keys (cong_g true true)) = Ok s /\ read_dot s = Some d /\
    length (g_clusters d) = 3 /\ length (g_decls d) = 4 /\ length (g_edges d) = 2 /\ length (lines s) = 20.
Proof.
  split; [apply natlang_ok|]. split; [exact decs_plain|]. split; [exact rankdir_quiet|]. split; [apply cong_g_reachable|]. split; [apply keys_traverse|].
  split; [vm_compute; reflexivity|]. split; [exact (np_inhabited _ _ _ _ (cong_g_reachable_np true true))|].
  exists (ok_of [] (dot_text decs [ascii_text "rankdir=LR"] true (cong_g true true) (keys (cong_g true true)))),
    (graph_of (read_dot (ok_of [] (dot_text decs [ascii_text "rankdir=LR"] true (cong_g true true) (keys (cong_g true true)))))).
  split; [apply is_ok_eq; vm_compute; reflexivity|]. split; [apply graph_of_eq; vm_compute; reflexivity|].
  split; [vm_compute; reflexivity|]. split; [vm_compute; reflexivity|]. split; vm_compute; reflexivity.
Qed.
(** The output of a rebuilt e-graph determines its classes and their nodes, for a language that shows different operators differently. *)
Theorem C62_faithful {Op D} `{Countable Op} (L : lang Op) (A : analysis Op D) (disp : Op -> text) ex config config' anchors anchors' g g' order order' s :
  lang_ok L -> (forall f f', disp f = disp f' -> f = f') -> (forall f, plain_label (disp f)) -> Forall quiet config -> Forall quiet config' ->
  traverses g order -> traverses g' order' -> reachable L A ex g -> eg_clean g = true -> reachable L A ex g' -> eg_clean g' = true ->
  dot_text disp config anchors g order = Ok s -> dot_text disp config' anchors' g' order' = Ok s ->
  forall k, c_nodes <$> eg_classes g !! k = c_nodes <$> eg_classes g' !! k.
Proof.
  intros Lo Hinj Hd Hc Hc' Ho Ho' R Ec R' Ec'. exact (dot_faithful L A disp Hd ex config config' anchors anchors' g g' order order' s Hinj Lo Hc Hc' Ho Ho' R Ec R' Ec').
Qed.
Print Assumptions C62_faithful.
Example C62_faithful_ex : (forall f f', decs f = decs f' -> f = f') /\
  dot_text decs [] true (cong_g true true) (keys (cong_g true true)) <> dot_text decs [] true (cong_g true false) (keys (cong_g true false)).
Proof. split; [exact decs_inj|]. intros E. vm_compute in E. discriminate E. Qed.

(** Without a rebuild an edge can lead to a node that is not declared (the line names the id in the node, not its class). *)
Theorem C62_unrebuilt_refuted : exists (g : egraph nat unit) s d,
  reachable_np natlang unitan false g /\ (forall f, plain_label (decs f)) /\ traverses g (keys g) /\
  dot_text decs [] true g (keys g) = Ok s /\ read_dot s = Some d /\ ~ well_headed d.
Proof.
  exists loose_g, loose_t, loose_d. split; [exact loose_np|]. split; [exact decs_plain|]. split; [apply keys_traverse|]. split; [exact loose_t_eq|]. split; [exact loose_d_eq|].
  apply not_headed. vm_compute. reflexivity.
Qed.
Print Assumptions C62_unrebuilt_refuted.
(** The same with a class emptied by hand, although the e-graph is rebuilt. *)
Theorem C62_emptied_refuted : exists (g : egraph nat unit) s d,
  reachable natlang unitan false g /\ eg_clean g = true /\ (forall f, plain_label (decs f)) /\ traverses g (keys g) /\
  dot_text decs [] true g (keys g) = Ok s /\ read_dot s = Some d /\ ~ well_headed d.
Proof.
  exists empty_g, empty_t, empty_d. split; [exact (session_reachable _ _ 20 _ emptyp _ empty_session)|]. split; [vm_compute; reflexivity|]. split; [exact decs_plain|].
  split; [apply keys_traverse|]. split; [exact empty_t_eq|]. split; [exact empty_d_eq|]. apply not_headed. vm_compute. reflexivity.
Qed.
Print Assumptions C62_emptied_refuted.
(** Labels are not escaped: with quotes in names, different e-graphs can have the same output. *)
Theorem C62_quotes_refuted : exists (disp : nat -> text) (g g' : egraph nat unit) s,
  (forall f f', disp f = disp f' -> f = f') /\ reachable_np natlang unitan false g /\ reachable_np natlang unitan false g' /\
  eg_clean g = true /\ eg_clean g' = true /\ traverses g (keys g) /\ traverses g' (keys g') /\
  dot_text disp [] true g (keys g) = Ok s /\ dot_text disp [] true g' (keys g') = Ok s /\ total_number_of_nodes g <> total_number_of_nodes g'.
Proof.
  exists sly, one_g, two_g, sly_t. split; [exact sly_inj|]. split; [exact one_np|]. split; [exact two_np|]. split; [vm_compute; reflexivity|]. split; [vm_compute; reflexivity|].
  split; [apply keys_traverse|]. split; [apply keys_traverse|]. split; [exact sly_t_eq|]. split; [exact sly_t_eq2|]. intros E. vm_compute in E. discriminate E.
Qed.
Print Assumptions C62_quotes_refuted.
