(** What printed explanations mean, stated without the printer. *)
From Coq Require Import NArith.
From Verif Require Import Base EGraphModel Spec Terms ExplainModel TextModel TextSpec PrintModel.

Section spec.
Context {Op : Type}.
Notation node := (node Op).
Notation ttree := (ttree Op).
Notation fterm := (fterm Op).
Notation ptree := (ptree Op).

(** A memory [h] holds a tree term: at the address of each of its parts it has that part.
    (So parts at the same address are the same.) *)
Inductive stored (h : nat -> option ptree) : ptree -> Prop :=
| stored_node a c l n b f kids : h a = Some (PT a c l n b f kids) -> Forall (Forall (stored h)) kids -> stored h (PT a c l n b f kids).
(** Tree terms with a proof, which is not empty, for each child of the node. *)
Inductive well_formed : ttree -> Prop :=
| wf_node n b f kids : length (nch n) = length kids -> Forall (fun p => p <> [] /\ Forall well_formed p) kids -> well_formed (TT n b f kids).
(** [uses P R t]: [P f k] holds for the operators [f], with [k] children, and [R r] for the
    rules of the explanation. *)
Definition rule_uses (R : nat -> Prop) (o : option nat) : Prop := match o with Some r => R r | None => True end.
Inductive uses (P : Op -> nat -> Prop) (R : nat -> Prop) : ttree -> Prop :=
| uses_node n b f kids : P (nop n) (length (nch n)) -> rule_uses R b -> rule_uses R f -> Forall (Forall (uses P R)) kids -> uses P R (TT n b f kids).
Inductive flat_uses (P : Op -> nat -> Prop) (R : nat -> Prop) : fterm -> Prop :=
| fuses_node n b f ks : P (nop n) (length (nch n)) -> rule_uses R b -> rule_uses R f -> Forall (flat_uses P R) ks -> flat_uses P R (FT n b f ks).
(** The same explanation: same operators, same rules at the same places; the ids inside the
    nodes do not matter. *)
Inductive same_tree : ttree -> ttree -> Prop :=
| same_tree_node n m b f kids kids' : nop n = nop m -> Forall2 (Forall2 same_tree) kids kids' -> same_tree (TT n b f kids) (TT m b f kids').
Inductive same_flat : fterm -> fterm -> Prop :=
| same_flat_node n m b f ks ks' : nop n = nop m -> Forall2 same_flat ks ks' -> same_flat (FT n b f ks) (FT m b f ks').

(** ** Let *)
(** the atom [v] replaced everywhere by [d] *)
Fixpoint replace_atom (v : text) (d : sexp) (s : sexp) : sexp :=
  match s with
  | SStr a => if bool_decide (a = v) then d else s
  | SList l => SList (map (replace_atom v d) l)
  | SEmpty => SEmpty
  end.
(** [(let (v d) body)] stands for [body] with [d] for [v] *)
Fixpoint unlet (s : sexp) : sexp :=
  match s with
  | SList [SStr k; SList [SStr v; d]; body] => if bool_decide (k = s_let) then replace_atom v d (unlet body) else s
  | _ => s
  end.
(** the names that are bound: [v_] and a numeral *)
Definition let_name (a : text) : Prop := exists ds, a = [118; 95]%N ++ ds /\ ds <> [] /\ Forall digit ds.

(** ** Rewrites *)
(** the annotated terms in a tree term, each as the two ids it connects, in some fixed order *)
Definition edge (c l : nat) : nat * nat := (c `min` l, c `max` l).
Fixpoint edges (t : ptree) : list (nat * nat) :=
  let 'PT _ c l _ b f kids := t in
  match b, f with None, None => [] | _, _ => [edge c l] end ++ concat (map (fun p => concat (map edges p)) kids).
(** A term with one rule at most, and none in the proofs below if it has one. *)
Inductive one_step : ptree -> Prop :=
| os_same a c l n kids : Forall (Forall one_step) kids -> one_step (PT a c l n None None kids)
| os_forward a c l n r kids : Forall (Forall (fun t => edges t = [])) kids -> one_step (PT a c l n None (Some r) kids)
| os_backward a c l n r kids : Forall (Forall (fun t => edges t = [])) kids -> one_step (PT a c l n (Some r) None kids).
End spec.

(** * Names *)
Section names.
Context {Op : Type} (disp : Op -> text) (rname : nat -> text) (from_op : text -> list nat -> option (node Op)).
(** the name of an operator, with a number of children, is parsed as this operator *)
Definition reads_back (f : Op) (k : nat) : Prop := forall cs, length cs = k -> from_op (disp f) cs = Some (Node f cs).
(** it can moreover be told from the words explanations are annotated with *)
Definition readable (f : Op) (k : nat) : Prop :=
  printable (disp f) /\ disp f <> s_forward /\ disp f <> s_backward /\ disp f <> s_explanation /\ reads_back f k.
Definition readable_rule (r : nat) : Prop := printable (rname r).
(** no name of the explanation looks like one that is bound *)
Definition no_let_names : ttree Op -> Prop := uses (fun f _ => ~ let_name (disp f)) (fun r => ~ let_name (rname r)).
(** and none of them would be quoted *)
Definition bare_names : ttree Op -> Prop :=
  uses (fun f _ => ~ let_name (disp f) /\ pretty_bare (disp f)) (fun r => ~ let_name (rname r) /\ pretty_bare (rname r)).
End names.
