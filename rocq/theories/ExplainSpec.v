(** What explanations mean, stated without reference to how they are produced. *)
From Verif Require Import Base EGraphModel Spec Terms ExplainModel.

Section spec.
Context {Op : Type}.
Notation node := (node Op).
Notation ttree := (ttree Op).
Notation fterm := (fterm Op).
Notation term := (term Op).
(** [Rl r t u]: rewriting [t] to [u] is a step of the rule (or given reason) [r]. *)
Context (Rl : nat -> term -> term -> Prop).

(** Tree explanations (documentation of [TreeTerm], src/explain.rs:444-457): a list of tree
    terms continues a proof that has reached a term [t]; each tree term rewrites it by a
    rule, at the root, forwards or backwards, or leaves it alone, and then rewrites its
    children by the child proofs. *)
Inductive steps : list ttree -> term -> term -> Prop :=
| steps_nil t : steps [] t t
| steps_same n kids ts us rest v :
    kids_prove kids ts us -> steps rest (TNode (nop n) us) v ->
    steps (TT n None None kids :: rest) (TNode (nop n) ts) v
| steps_forward n r kids t ts us rest v :
    Rl r t (TNode (nop n) ts) -> kids_prove kids ts us -> steps rest (TNode (nop n) us) v ->
    steps (TT n None (Some r) kids :: rest) t v
| steps_backward n r kids t ts us rest v :
    Rl r (TNode (nop n) ts) t -> kids_prove kids ts us -> steps rest (TNode (nop n) us) v ->
    steps (TT n (Some r) None kids :: rest) t v
(** a proof from [t] to [u] starts with [t] itself *)
with proves : list ttree -> term -> term -> Prop :=
| proves_start n kids ts us rest v :
    kids_prove kids ts us -> steps rest (TNode (nop n) us) v ->
    proves (TT n None None kids :: rest) (TNode (nop n) ts) v
with kids_prove : list (list ttree) -> list term -> list term -> Prop :=
| kids_nil : kids_prove [] [] []
| kids_cons p kids t ts u us : proves p t u -> kids_prove kids ts us -> kids_prove (p :: kids) (t :: ts) (u :: us).

Scheme steps_mind := Induction for steps Sort Prop
  with proves_mind := Induction for proves Sort Prop
  with kids_mind := Induction for kids_prove Sort Prop.
Combined Scheme proof_mind from steps_mind, proves_mind, kids_mind.

(** Flat explanations: a flat term is a term with rule annotations. *)
Fixpoint erase (t : fterm) : term := let 'FT n _ _ ks := t in TNode (nop n) (erase <$> ks).
(** no annotation anywhere *)
Inductive plain : fterm -> Prop :=
| plain_node n ks : Forall plain ks -> plain (FT n None None ks).
(** [fstep t f]: [f] has exactly one annotation, and it names a rule that turns [t] into the
    term of [f] (or, backwards, the term of [f] into [t]) by rewriting the annotated subterm. *)
Inductive fstep : term -> fterm -> Prop :=
| fstep_forward t n r ks : Forall plain ks -> Rl r t (erase (FT n None (Some r) ks)) -> fstep t (FT n None (Some r) ks)
| fstep_backward t n r ks : Forall plain ks -> Rl r (erase (FT n (Some r) None ks)) t -> fstep t (FT n (Some r) None ks)
| fstep_child n ts t us ls k rs :
    fstep t k -> Forall plain ls -> Forall plain rs -> erase <$> ls = ts -> erase <$> rs = us ->
    fstep (TNode (nop n) (ts ++ t :: us)) (FT n None None (ls ++ k :: rs)).
(** consecutive steps from [t] to [u] *)
Inductive fsteps : term -> list fterm -> term -> Prop :=
| fsteps_nil t : fsteps t [] t
| fsteps_cons t f fs u : fstep t f -> fsteps (erase f) fs u -> fsteps t (f :: fs) u.
(** a flat proof of [t = u]: it starts with [t], without annotation *)
Definition flat_proves (fs : list fterm) (t u : term) : Prop :=
  exists f rest, fs = f :: rest /\ plain f /\ erase f = t /\ fsteps t rest u.
End spec.

(** The least congruence on terms that contains the rule steps. *)
Inductive teq {Op} (Rl : nat -> term Op -> term Op -> Prop) : term Op -> term Op -> Prop :=
| teq_rule r t u : Rl r t u -> teq Rl t u
| teq_refl t : teq Rl t t
| teq_sym t u : teq Rl t u -> teq Rl u t
| teq_trans t u v : teq Rl t u -> teq Rl u v -> teq Rl t v
| teq_cong f ts us : Forall2 (teq Rl) ts us -> teq Rl (TNode f ts) (TNode f us).

(** [AddedAs h i t]: by the calls in the history [h], [i] is an id [add] answered for the
    root of the term [t], given such ids for the children. *)
Inductive AddedAs {Op} (h : list (event Op)) : nat -> term Op -> Prop :=
| added f cs ts i : EAdd (Node f cs) i ∈ h -> Forall2 (AddedAs h) cs ts -> AddedAs h i (TNode f ts).
(** A step the client asserted: [union] was called under the reason [r] on ids of these terms. *)
Definition asserted {Op} (h : list (event Op)) (r : nat) (t u : term Op) : Prop :=
  exists a b, EUnion a b r ∈ h /\ AddedAs h a t /\ AddedAs h b u.
