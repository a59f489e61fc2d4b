(** Vocabulary for extraction by integer linear programming. *)
From Verif Require Import Base EGraphModel LpModel.

(** [uses g rep u v]: class [u] has an e-node with child [v], not counting the e-nodes
    (class and position) in [rep]. *)
Definition uses {Op D} `{Countable Op} (g : egraph Op D) (rep : list (nat * nat)) (u v : nat) : Prop :=
  exists k i n, eg_classes g !! u = Some k /\ c_nodes k !! i = Some n /\ (u, i) ∉ rep /\ v ∈ nch n.

(** What a solver's answer has to satisfy. *)
Definition lval (sol : lvar -> Z) (e : list (Z * lvar)) : Z := foldr (fun '(z, v) s => z * sol v + s)%Z 0%Z e.
Definition lholds (sol : lvar -> Z) (c : lcon) : Prop :=
  match lc_rel c with
  | REq => lval sol (lc_expr c) = lc_rhs c
  | RLeq => (lval sol (lc_expr c) <= lc_rhs c)%Z
  | RGeq => (lval sol (lc_expr c) >= lc_rhs c)%Z
  end.
Definition feasible (sol : lvar -> Z) (bs : list lbound) (cs : list lcon) : Prop :=
  (forall b, b ∈ bs -> (0 <= sol (lb_var b) <= lb_max b)%Z) /\ (forall c, c ∈ cs -> lholds sol c).
Definition optimal (sol : lvar -> Z) (obj : list (Z * lvar)) (bs : list lbound) (cs : list lcon) : Prop :=
  feasible sol bs cs /\ forall sol', feasible sol' bs cs -> (lval sol obj <= lval sol' obj)%Z.

(** A selection: e-nodes, each given by its class and its position in the class. *)
Definition total (cost : nat -> nat -> Z) (sel : list (nat * nat)) : Z := foldr (fun ci s => cost ci.1 ci.2 + s)%Z 0%Z sel.
(** At most one e-node per class, none of [rep], the classes of all children and [roots]
    covered. *)
Record selection {Op D} `{Countable Op} (g : egraph Op D) (rep : list (nat * nat)) (roots : list nat) (sel : list (nat * nat)) : Prop := {
  se_one : NoDup sel.*1;
  se_rep : forall c i, (c, i) ∈ sel -> (c, i) ∉ rep;
  se_node : forall c i, (c, i) ∈ sel -> exists k n, eg_classes g !! c = Some k /\ c_nodes k !! i = Some n /\ forall v, v ∈ nch n -> v ∈ sel.*1;
  se_root : forall r, r ∈ roots -> eg_find g r ∈ sel.*1;
}.
(** Entry [j] of the expression [e] is the e-node [sel !! j] of the e-graph, its children
    replaced by earlier entries for their classes. *)
Definition built_from {Op D} `{Countable Op} (g : egraph Op D) (sel : list (nat * nat)) (e : list (node Op)) : Prop :=
  length e = length sel /\
  forall j c i m, sel !! j = Some (c, i) -> e !! j = Some m -> exists k n, eg_classes g !! c = Some k /\ c_nodes k !! i = Some n /\ nop m = nop n /\
    Forall2 (fun v x => x < j /\ exists i', sel !! x = Some (v, i')) (nch n) (nch m).
