(** What the theorems on the length of optimised explanations speak about. *)
From Verif Require Import Base EGraphModel Spec.

(** No union was asserted between two e-nodes that congruence makes equal anyway. *)
Definition informative {Op} (h : list (event Op)) : Prop :=
  forall a b r f cs ds, EUnion a b r ∈ h -> EAdd (Node f cs) a ∈ h -> EAdd (Node f ds) b ∈ h -> ~ Forall2 (Cong h) cs ds.
(** [k] asserted unions, each used in either direction, lead from [a] to [b]. *)
Inductive unions {Op} (h : list (event Op)) : nat -> nat -> nat -> Prop :=
| un_nil a : unions h a a 0
| un_cons a b c r k : EUnion a b r ∈ h \/ EUnion b a r ∈ h -> unions h b c k -> unions h a c (S k).
(** the additions of a history *)
Definition adds {Op} (h : list (event Op)) : list (event Op) := List.filter (fun e => match e with EAdd _ _ => true | _ => false end) h.
(** No union was asserted between ids that were already equal by the unions before it and
    congruence (histories are newest first). *)
Definition irredundant {Op} (h : list (event Op)) : Prop :=
  forall h1 a b r h2, h = h1 ++ EUnion a b r :: h2 -> ~ Cong (adds h1 ++ h2) a b.
