(** Specification vocabulary for rules: the variables they need and provide, and what
    client-supplied pieces must satisfy to be safe. *)
From Verif Require Import Base EGraphModel Spec Terms RecExprModel ExprModel PatSpec MachineModel MatchSpec RewriteModel AlgSpec.

Section spec.
Context {Op D : Type} `{Countable Op}.
Notation pnode := (node (pop Op)).
Notation egraph := (egraph Op D).

(** The AST contains a node for the variable (used or not). *)
Definition var_node (p : list pnode) (v : nat) : Prop := exists cs, Node (PVar v) cs ∈ p.
Definition cond_needs (c : condition Op D) (v : nat) : Prop :=
  match c with CEqual p1 p2 => var_node p1 v \/ var_node p2 v | CFn vars _ _ => v ∈ vars end.
(** A clause of a multi-pattern applier need not be given variables bound by earlier clauses. *)
Fixpoint needs (a : applier Op D) (v : nat) : Prop :=
  match a with
  | APattern p => var_node p v
  | AMulti asts => exists pre bv p post, asts = pre ++ (bv, p) :: post /\ var_node p v /\ v ∉ pre.*1
  | ACond c a => needs a v \/ cond_needs c v
  | AFn vars _ _ => v ∈ vars
  end.
Definition provides (s : searcher (Op := Op)) (v : nat) : Prop :=
  match s with
  | SPattern p => var_node (pt_ast p) v
  | SMulti m => exists bv p, (bv, p) ∈ mp_asts m /\ (v = bv \/ var_node p v)
  end.

(** A match seen by client code: its class and the ids of the substitution are smaller than
    [N], and the variables [vars] are bound. *)
Definition match_ids (N : nat) (vars : list nat) (c : nat) (s : subst) : Prop :=
  c < N /\ (forall v i, subst_get s v = Some i -> i < N) /\ (forall v, v ∈ vars -> is_Some (subst_get s v)).
(** Appliers whose [apply_one] is available and whose client code only uses ids it was given. *)
Definition cond_fine (c : condition Op D) : Prop :=
  match c with
  | CEqual p1 p2 => good_ast p1 /\ good_ast p2
  | CFn vars body _ => forall e s N, match_ids N vars e s -> uses_known N (body e s)
  end.
Fixpoint one_fine (a : applier Op D) : Prop :=
  match a with
  | APattern p => good_ast p
  | AMulti _ => False
  | ACond c a => cond_fine c /\ one_fine a
  | AFn vars body _ => forall e s N, match_ids N vars e s -> uses_known N (body e s)
  end.
Definition applier_fine (a : applier Op D) : Prop :=
  match a with AMulti asts => Forall (fun cl => good_ast cl.2) asts | _ => one_fine a end.
(** Searchers built from well-formed ASTs all of whose nodes are used. *)
Definition searcher_built (ord : gmap (nat * nat) (node Op) -> list (nat * nat)) (s : searcher (Op := Op)) : Prop :=
  match s with
  | SPattern p => exists fuel ast, good_ast ast /\ rooted ast /\ pattern_new ord fuel ast = Ok p
  | SMulti m => exists fuel v1 p1 ps, Forall (fun cl => good_ast cl.2 /\ rooted cl.2) ((v1, p1) :: ps) /\ op_root p1 /\
      multipattern_new ord fuel ((v1, p1) :: ps) = Ok m
  end.
(** Appliers that add and union instances of patterns only, perhaps under conditions that
    leave the e-graph alone. *)
Fixpoint pattern_applier (a : applier Op D) : Prop :=
  match a with
  | APattern p => good_ast p
  | ACond (CEqual p1 p2) a => good_ast p1 /\ good_ast p2 /\ pattern_applier a
  | ACond (CFn _ body _) a => (forall e s, body e s = PRet) /\ pattern_applier a
  | _ => False
  end.

(** [nu] is a valuation of the history of [g] in which the right-hand side has the value of
    the matched class, for every match. *)
Definition obeys {V} (F : Op -> list V -> V) (nu : nat -> V) (g : egraph) (ms : list smatch) (tr : term (pop Op)) : Prop :=
  models F nu (eg_log g) /\ forall m s, m ∈ ms -> s ∈ sm_substs m -> nu (sm_class m) = peval F (value_of nu (subst_get s)) tr.
End spec.
