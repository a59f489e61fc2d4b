(** Vocabulary for properties of saved e-graphs. *)
From Verif Require Import Base UnionFind EGraphModel.

Section spec.
Context {Op D : Type} `{Countable Op}.
Notation egraph := (egraph Op D).
(** The same in all parts but the index by operators and the flag [clean]. *)
Definition twins (g g' : egraph) : Prop :=
  eg_explain g' = eg_explain g /\ eg_uf g' = eg_uf g /\ eg_nodes g' = eg_nodes g /\ eg_memo g' = eg_memo g /\ eg_pending g' = eg_pending g /\
  eg_apending g' = eg_apending g /\ eg_classes g' = eg_classes g /\ eg_log g' = eg_log g.
(** The classes listed for every operator are the same. *)
Definition same_listing (g g' : egraph) : Prop := forall op, default ∅ (eg_by_op g' !! op) = default ∅ (eg_by_op g !! op).
(** A client program that looks neither at the index by operators (so it does not search) nor at the flag [clean]. *)
Fixpoint blind (p : prog Op D) : Prop :=
  match p with
  | PRet => True
  | PLook k => (forall g g', twins g g' -> k g = k g') /\ forall g, blind (k g)
  | PAdd _ k => forall i, blind (k i)
  | PUnion _ _ _ k | PUnionTrusted _ _ _ k => forall v, blind (k v)
  | PSetData _ _ k | PPoke _ _ k | PRetain _ _ k => blind k
  | PRebuild k => forall n, blind (k n)
  end.
(** An analysis that looks at neither of them. *)
Record blind_analysis (A : analysis Op D) : Prop := BlindAnalysis {
  bl_make : forall g g' n i, twins g g' -> an_make A g n i = an_make A g' n i;
  bl_remake : forall g g' n i, twins g g' -> an_remake A g n i = an_remake A g' n i;
  bl_modify : forall i, blind (an_modify A i);
}.
(** Both end in the same way, with the same answer and e-graphs in the relation. *)
Definition alike {X} (R : egraph -> egraph -> Prop) (r r' : res (egraph * X)) : Prop :=
  match r, r' with
  | Ok (g, x), Ok (g', x') => R g g' /\ x = x'
  | Panic, Panic | OutOfFuel, OutOfFuel => True
  | _, _ => False
  end.
End spec.
