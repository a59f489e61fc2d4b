(** Specification vocabulary for extraction. *)
From Verif Require Import Base EGraphModel Spec AlgSpec.

(** [a] is not greater than [b]. *)
Definition cle {C} (pcmp : C -> C -> option comparison) (a b : C) : Prop := pcmp a b = Some Lt \/ pcmp a b = Some Eq.
(** Any two costs can be compared, consistently (different costs may compare as equal). *)
Record orders {C} (pcmp : C -> C -> option comparison) : Prop := {
  or_opp : forall a b, exists c, pcmp a b = Some c /\ pcmp b a = Some (CompOpp c);
  or_trans : forall a b c, cle pcmp a b -> cle pcmp b c -> cle pcmp a c;
}.
(** The cost of a node is not below the cost of any of its children. *)
Definition superior {Op C} (pcmp : C -> C -> option comparison) (cf : node Op -> list C -> C) : Prop :=
  forall n vs v, v ∈ vs -> cle pcmp v (cf n vs).
(** Dearer children do not make a node cheaper. *)
Definition monotone {Op C} (pcmp : C -> C -> option comparison) (cf : node Op -> list C -> C) : Prop :=
  forall n vs vs', Forall2 (cle pcmp) vs vs' -> cle pcmp (cf n vs) (cf n vs').
(** The cost depends on the operator and the costs of the children only, so it is
    determined for terms: [geval F]. *)
Definition by_operator {Op C} (cf : node Op -> list C -> C) (F : Op -> list C -> C) : Prop := forall n vs, cf n vs = F (nop n) vs.
(** Number of nodes and height of a tree. *)
Fixpoint tsize {Op} (t : term Op) : nat := match t with TNode _ ts => S (sum_list (tsize <$> ts)) end.
Fixpoint theight {Op} (t : term Op) : nat := match t with TNode _ ts => S (foldr max 0 (theight <$> ts)) end.
(** No class has been emptied. *)
Definition inhabited {Op D} `{Countable Op} (g : egraph Op D) : Prop := forall r c, eg_classes g !! r = Some c -> c_nodes c <> [].
(** An order in which the class table can be traversed. *)
Definition traverses {Op D} `{Countable Op} (g : egraph Op D) (order : list nat) : Prop :=
  NoDup order /\ forall r, r ∈ order <-> is_Some (eg_classes g !! r).
