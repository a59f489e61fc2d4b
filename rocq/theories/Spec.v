(** Specifications, stated without reference to the e-graph implementation. *)
From Verif Require Import Base EGraphModel.

(** The least congruence on ids generated by a history of API calls: what follows from
    the unions asserted, by reflexivity, symmetry, transitivity and congruence over the
    e-nodes that were added (with the ids they were given). *)
Inductive Cong {Op} (h : list (event Op)) : nat -> nat -> Prop :=
| Cong_refl i : Cong h i i
| Cong_sym i j : Cong h i j -> Cong h j i
| Cong_trans i j k : Cong h i j -> Cong h j k -> Cong h i k
| Cong_union a b r : EUnion a b r ∈ h -> Cong h a b
| Cong_cong f cs ds i j :
    EAdd (Node f cs) i ∈ h -> EAdd (Node f ds) j ∈ h -> length cs = length ds ->
    (forall k c d, cs !! k = Some c -> ds !! k = Some d -> Cong h c d) ->
    Cong h i j.

(** Ground terms over an operator type. *)
Inductive term (Op : Type) := TNode (f : Op) (ts : list (term Op)).
Arguments TNode {Op} _ _.

(** [Denotes h t i]: the term [t] was built by adds of the history, with ids equal up to
    the congruence closure; i.e. [t] is provably represented by id [i]. *)
Inductive Denotes {Op} (h : list (event Op)) : term Op -> nat -> Prop :=
| Den_node f ts cs i j :
    EAdd (Node f cs) i ∈ h -> Forall2 (Denotes h) ts cs -> Cong h i j ->
    Denotes h (TNode f ts) j.

(** Representation of a term in a class of an e-graph, by the listed e-nodes only. *)
Inductive Rep {Op D} `{Countable Op} (g : egraph Op D) : term Op -> nat -> Prop :=
| Rep_node f ts cs r c :
    eg_classes g !! r = Some c -> Node f cs ∈ c_nodes c -> Forall2 (fun t x => Rep g t (eg_find g x)) ts cs ->
    Rep g (TNode f ts) r.

(** An analysis whose hook does nothing. *)
Definition hook_free {Op D} `{Countable Op} (A : analysis Op D) : Prop :=
  forall i, an_modify A i = PRet.

(** * Reachable e-graphs *)
Section reach.
Context {Op D : Type} `{Countable Op} (L : lang Op) (A : analysis Op D).

(** E-graphs a client can reach from a new one by running programs (from [Q]) over the
    API; [ex] says whether explanations are enabled.  Every program run that ended
    normally is a step; the hooks of [A] run inside. *)
Inductive reach (Q : prog Op D -> Prop) (ex : bool) : egraph Op D -> Prop :=
| reach_new : reach Q ex (eg_new ex)
| reach_run fuel p g g' :
    reach Q ex g -> Q p -> run_prog L A fuel (modify_n L A fuel) p g = Ok g' -> reach Q ex g'.

Definition reachable : bool -> egraph Op D -> Prop := reach (fun _ => True).

(** Programs that never delete e-nodes from a class through [IndexMut]. *)
Fixpoint no_prune (p : prog Op D) : Prop :=
  match p with
  | PRet => True
  | PLook k => forall g, no_prune (k g)
  | PAdd _ k => forall i, no_prune (k i)
  | PUnion _ _ _ k | PUnionTrusted _ _ _ k => forall v, no_prune (k v)
  | PSetData _ _ k | PPoke _ _ k => no_prune k
  | PRetain _ _ _ => False
  | PRebuild k => forall n, no_prune (k n)
  end.

(** Reachable without pruning, neither by the client nor by a hook. *)
Definition reachable_np (ex : bool) (g : egraph Op D) : Prop :=
  (forall i, no_prune (an_modify A i)) /\ reach no_prune ex g.
End reach.

(** Id [i] has been handed out. *)
Definition known {Op D} `{Countable Op} (g : egraph Op D) (i : nat) : Prop := i < length (eg_uf g).

(** Children pairwise in the same class. *)
Definition same_children {Op D} `{Countable Op} (g : egraph Op D) : list nat -> list nat -> Prop :=
  Forall2 (fun c d => eg_find g c = eg_find g d).

(** * Well-behaved clients *)
(** What a client may rely on when it looks into an e-graph to find ids: listed class
    ids, the ids in listed e-nodes, and the results of [find] on known ids are known. *)
Record ids_known {Op D} `{Countable Op} (g : egraph Op D) : Prop := {
  ik_class : forall r c, eg_classes g !! r = Some c -> known g r /\ c_id c = r /\ eg_find g r = r;
  ik_child : forall r c n i, eg_classes g !! r = Some c -> n ∈ c_nodes c -> i ∈ nch n -> known g i;
  ik_find : forall i, known g i -> known g (eg_find g i) /\ is_Some (eg_classes g !! eg_find g i);
}.

(** Programs that only pass ids they were given: [N] ids are known so far. *)
Fixpoint uses_known {Op D} `{Countable Op} (N : nat) (p : prog Op D) : Prop :=
  match p with
  | PRet => True
  | PLook k => forall g, ids_known g -> N <= length (eg_uf g) -> uses_known (length (eg_uf g)) (k g)
  | PAdd n k => (forall c, c ∈ nch n -> c < N) /\ forall i M, N <= M -> i < M -> uses_known M (k i)
  | PUnion a b _ k | PUnionTrusted a b _ k => a < N /\ b < N /\ forall v M, N <= M -> uses_known M (k v)
  | PSetData i _ k => i < N /\ forall M, N <= M -> uses_known M k
  | PPoke i _ k | PRetain i _ k => i < N /\ uses_known N k
  | PRebuild k => forall n M, N <= M -> uses_known M (k n)
  end.

(** [merge a b] either leaves [a] alone and says so, or moves it strictly along [R], in
    which one cannot move forever. *)
Definition merge_climbs {Op D} `{Countable Op} (A : analysis Op D) (R : D -> D -> Prop) : Prop :=
  well_founded R /\
  forall a b d f1 f2, an_merge A a b = (d, (f1, f2)) -> R d a \/ (d = a /\ f1 = false).

(** * The proof forest *)
(** The ids [a] and [b] are equal by the justification [j]: a union asserted by the client
    under that rule name, or a congruence between the nodes of the two ids. *)
Definition justified {Op D} `{Countable Op} (g : egraph Op D) (a b : nat) (j : justif) : Prop :=
  match j with
  | JRule r => EUnion a b r ∈ eg_log g
  | JCong => exists n m, eg_nodes g !! a = Some n /\ eg_nodes g !! b = Some m /\ nop n = nop m /\
      same_children g (nch n) (nch m)
  end.
(** Parent pointers of the forest. *)
Definition flink {Op} `{Countable Op} (x : explain Op) (i j : nat) : Prop :=
  exists nd, ex_find x !! i = Some nd /\ cn_next (xn_parent nd) = j.
Definition froot {Op} `{Countable Op} (x : explain Op) (i : nat) : Prop := flink x i i.

(** * Analyses *)
(** The data of the class an id belongs to. *)
Definition class_data {Op D} `{Countable Op} (g : egraph Op D) (i : nat) : option D :=
  c_data <$> eg_classes g !! eg_find g i.

(** The data of an e-node is a function [mk] of its operator and its children's data;
    [merge] computes an upper bound and does not hide changes in its flags. *)
Record lattice_analysis {Op D} `{Countable Op} (A : analysis Op D) (le : D -> D -> Prop)
    (mk : Op -> list D -> D) : Prop := {
  la_refl : forall a, le a a;
  la_trans : forall a b c, le a b -> le b c -> le a c;
  la_make : forall g n i ds, class_data g <$> nch n = Some <$> ds -> an_make A g n i = mk (nop n) ds;
  la_remake : forall g n i ds, class_data g <$> nch n = Some <$> ds -> an_remake A g n i = mk (nop n) ds;
  la_merge : forall a b d f1 f2, an_merge A a b = (d, (f1, f2)) ->
    le a d /\ le b d /\ (f1 = false -> d = a) /\ (f2 = false -> d = b);
}.
(** ... the least upper bound, with a monotone [mk]. *)
Record monotone_analysis {Op D} `{Countable Op} (A : analysis Op D) (le : D -> D -> Prop)
    (mk : Op -> list D -> D) : Prop := {
  ma_lub : forall a b d f1 f2 c, an_merge A a b = (d, (f1, f2)) -> le a c -> le b c -> le d c;
  ma_mono : forall f ds es, Forall2 le ds es -> le (mk f ds) (mk f es);
}.

(** Programs that never overwrite analysis data. *)
Fixpoint keeps_data {Op D} `{Countable Op} (p : prog Op D) : Prop :=
  match p with
  | PRet => True
  | PLook k => forall g, keeps_data (k g)
  | PAdd _ k => forall i, keeps_data (k i)
  | PUnion _ _ _ k | PUnionTrusted _ _ _ k => forall v, keeps_data (k v)
  | PSetData _ _ _ | PPoke _ _ _ => False
  | PRetain _ _ k => keeps_data k
  | PRebuild k => forall n, keeps_data (k n)
  end.
Definition reachable_kd {Op D} `{Countable Op} (L : lang Op) (A : analysis Op D) (ex : bool) (g : egraph Op D) : Prop :=
  (forall i, keeps_data (an_modify A i)) /\ reach L A keeps_data ex g.
