(** What checking an explanation is about: instances of rules. *)
From Verif Require Import Base EGraphModel Spec Terms RecExprModel ExprModel PatSpec MachineModel MatchSpec RewriteModel RuleSpec RunnerModel ExplainModel ExplainSpec
  CheckModel.

(** [t] rewrites to [u] at the root by the rule with these two patterns. *)
Definition instance_of {Op} (lhs rhs : list (node (pop Op))) (t u : term Op) : Prop :=
  exists tl tr th, ExprTree lhs tl /\ ExprTree rhs tr /\ t = tsubst th tl /\ u = tsubst th tr.

Section spec.
Context {Op D : Type} `{Countable Op}.
Notation egraph := (egraph Op D).
Notation prog := (prog Op D).
Notation fterm := (fterm Op).
Notation rewrite := (rewrite Op D).

(** The two patterns of a rule, if it is a rule between patterns (perhaps with conditions). *)
Fixpoint right_pattern (a : applier Op D) : option (list (node (pop Op))) :=
  match a with APattern p => Some p | ACond _ a => right_pattern a | AMulti _ | AFn _ _ _ => None end.
Definition between (rw : rewrite) (lhs rhs : list (node (pop Op))) : Prop :=
  (exists pt, rw_searcher rw = SPattern pt /\ pt_ast pt = lhs) /\ right_pattern (rw_applier rw) = Some rhs.
(** Rewriting under a name is rewriting by the rules of that name. *)
Definition rule_steps (rules : list rewrite) (Rl : nat -> term Op -> term Op -> Prop) : Prop :=
  forall rw lhs rhs t u, rw ∈ rules -> between rw lhs rhs -> Rl (rw_name rw) t u -> instance_of lhs rhs t u.
(** A rule accepted by [Rewrite::new], between well-formed patterns all of whose nodes are used. *)
Definition accepted_rule (rw : rewrite) : Prop :=
  (exists name s a, rewrite_new name s a = Some rw) /\
  forall lhs rhs, between rw lhs rhs -> good_ast lhs /\ rooted lhs /\ good_ast rhs.

(** Flat terms: every node has as many children as its operator's e-node says. *)
Inductive arity_ok : fterm -> Prop :=
| arity_node n b f ks : length (nch n) = length ks -> Forall arity_ok ks -> arity_ok (FT n b f ks).

(** Equations between instances of the given rules. *)
Definition rule_eqs (rules : list rewrite) (r : nat) (t u : term Op) : Prop :=
  exists rw lhs rhs, rw ∈ rules /\ rw_name rw = r /\ between rw lhs rhs /\ instance_of lhs rhs t u.
(** Every annotation is the name of a rule between patterns, and the rules of one name are one rule. *)
Inductive named (rules : list rewrite) : fterm -> Prop :=
| named_node n b f ks : (forall r, b = Some r \/ f = Some r -> exists rw lhs rhs, rw ∈ rules /\ rw_name rw = r /\ between rw lhs rhs) ->
    Forall (named rules) ks -> named rules (FT n b f ks).
Definition one_per_name (rules : list rewrite) : Prop :=
  forall rw rw', rw ∈ rules -> rw' ∈ rules -> rw_name rw = rw_name rw' -> rw = rw'.
(** The next term differs from the current one only at and below annotations. *)
Inductive only_below : fterm -> fterm -> Prop :=
| below_here t n b f ks : is_Some b \/ is_Some f -> only_below t (FT n b f ks)
| below_child n m b f ks ls : nop n = nop m -> Forall2 only_below ks ls -> only_below (FT n b f ks) (FT m None None ls).
Inductive steps_below : list fterm -> Prop :=
| below_one f : steps_below [f]
| below_cons f g rest : only_below f g -> steps_below (g :: rest) -> steps_below (f :: g :: rest).

(** Programs that give only reasons from [S] for their unions. *)
Fixpoint reasons (S : nat -> Prop) (p : prog) : Prop :=
  match p with
  | PRet => True
  | PLook k => forall g, reasons S (k g)
  | PAdd _ k => forall i, reasons S (k i)
  | PUnion _ _ r k | PUnionTrusted _ _ r k => S r /\ forall v, reasons S (k v)
  | PSetData _ _ k | PPoke _ _ k | PRetain _ _ k => reasons S k
  | PRebuild k => forall n, reasons S (k n)
  end.
Definition condition_reasons (S : nat -> Prop) (c : condition Op D) : Prop :=
  match c with CEqual _ _ => True | CFn _ body _ => forall e s, reasons S (body e s) end.
Fixpoint applier_reasons (S : nat -> Prop) (a : applier Op D) : Prop :=
  match a with
  | APattern _ | AMulti _ => True
  | ACond c a => condition_reasons S c /\ applier_reasons S a
  | AFn _ body _ => forall e s, reasons S (body e s)
  end.
(** No rule between patterns has this name. *)
Definition not_a_rule (rules : list rewrite) (r : nat) : Prop :=
  forall rw lhs rhs, rw ∈ rules -> between rw lhs rhs -> rw_name rw <> r.

(** Adding an e-node does not change the representatives of ids known before. *)
Definition steady (L : lang Op) (A : analysis Op D) : Prop :=
  forall fuel n g g' i k, reachable L A true g -> api_add A (modify_n L A fuel) n g = Ok (g', i) -> known g k -> eg_find g' k = eg_find g k.
(** Hooks that make no unions. *)
Fixpoint no_union (p : prog) : Prop :=
  match p with
  | PRet => True
  | PLook k => forall g, no_union (k g)
  | PAdd _ k => forall i, no_union (k i)
  | PUnion _ _ _ _ | PUnionTrusted _ _ _ _ | PRebuild _ => False
  | PSetData _ _ k | PPoke _ _ k | PRetain _ _ k => no_union k
  end.
End spec.
