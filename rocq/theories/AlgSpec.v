(** Specification vocabulary: algebras, and what it means that an e-graph's history or a
    rule is valid in an algebra. *)
From Verif Require Import Base EGraphModel Spec ExprModel PatSpec.

(** An algebra interprets the operators over a carrier [V]; the value of a ground term, and
    of a pattern term under values for its variables. *)
Fixpoint geval {Op V} (F : Op -> list V -> V) (t : term Op) : V :=
  match t with TNode f ts => F f (geval F <$> ts) end.
Fixpoint peval {Op V} (F : Op -> list V -> V) (th : nat -> V) (t : term (pop Op)) : V :=
  match t with
  | TNode (PVar v) _ => th v
  | TNode (POp f) ts => F f (peval F th <$> ts)
  end.

(** [nu] gives every id a value such that each id handed out for an e-node has the value of
    that e-node, and the two sides of each union asserted have the same value. *)
Definition models {Op V} (F : Op -> list V -> V) (nu : nat -> V) (h : list (event Op)) : Prop :=
  (forall f cs i, EAdd (Node f cs) i ∈ h -> nu i = F f (nu <$> cs)) /\
  (forall a b r, EUnion a b r ∈ h -> nu a = nu b).

(** The equation [tl = tr] holds in the algebra. *)
Definition valid_eq {Op V} (F : Op -> list V -> V) (tl tr : term (pop Op)) : Prop :=
  forall th, peval F th tl = peval F th tr.

(** * Valid rules *)
From Verif Require Import Terms RecExprModel MachineModel RewriteModel.
Section rules.
Context {Op D V : Type} `{Countable Op} (L : lang Op) (A : analysis Op D) (F : Op -> list V -> V).

(** The clause [v = p] of a multi-pattern under values for the variables. *)
Definition clause_true (th : nat -> V) (cl : nat * list (node (pop Op))) : Prop :=
  forall t, ExprTree cl.2 t -> th cl.1 = peval F th t.
(** What a match says: [x] is the value of the matched class, [th] the values of the
    variables. *)
Definition premise (s : searcher (Op := Op)) (x : V) (th : nat -> V) : Prop :=
  match s with
  | SPattern p => forall t, ExprTree (pt_ast p) t -> x = peval F th t
  | SMulti m => (exists v p ps, mp_asts m = (v, p) :: ps /\ x = th v) /\ Forall (clause_true th) (mp_asts m)
  end.
(** The value of a variable given its id (any value if it has none). *)
Definition value_of (nu : nat -> V) (s : nat -> option nat) (v : nat) : V :=
  match s v with Some i => nu i | None => nu 0 end.
(** The condition being true implies [phi] of the matched class and the variables.  Client
    conditions must not change the e-graph. *)
Definition condition_means (ex : bool) (c : condition Op D) (phi : V -> (nat -> V) -> Prop) : Prop :=
  match c with
  | CEqual p1 p2 => forall t1 t2 x th, ExprTree p1 t1 -> ExprTree p2 t2 -> peval F th t1 = peval F th t2 -> phi x th
  | CFn _ body test =>
      (forall e s, body e s = PRet) /\
      forall e s g nu, reachable L A ex g -> models F nu (eg_log g) -> test e s g = true -> phi (nu e) (value_of nu (subst_get s))
  end.
(** The applier only asserts consequences of [P], given values of the variables in [bnd]. *)
Fixpoint applier_valid (ex : bool) (bnd : nat -> Prop) (P : V -> (nat -> V) -> Prop) (a : applier Op D) : Prop :=
  match a with
  | APattern p => forall t x th, ExprTree p t -> P x th -> x = peval F th t
  | AMulti asts => forall x th, P x th -> exists th', (forall v, bnd v -> th' v = th v) /\ Forall (clause_true th') asts
  | ACond c a => exists phi, condition_means ex c phi /\ applier_valid ex bnd (fun x th => P x th /\ phi x th) a
  | AFn _ _ _ => False
  end.
(** The rule is valid in the algebra. *)
Definition rule_valid (ex : bool) (rw : rewrite Op D) : Prop :=
  applier_valid ex (fun v => v ∈ searcher_vars (rw_searcher rw)) (premise (rw_searcher rw)) (rw_applier rw).
End rules.
