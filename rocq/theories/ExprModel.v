(** Substitutions, patterns as expressions, and adding or looking up whole expressions:
    src/subst.rs, src/pattern.rs (AST and application), src/egraph.rs:833-956, 1103-1121.
    Definitions only. *)
From Verif Require Import Base EGraphModel RecExprModel.

(** * Substitutions (src/subst.rs:101-150) *)
(** src/subst.rs:105-107; variables are interned, here [nat]. *)
Definition subst := list (nat * nat).
(** src/subst.rs:118-126: replaces the first pair with that variable, or appends. *)
Fixpoint subst_insert (s : subst) (v i : nat) : subst * option nat :=
  match s with
  | [] => ([(v, i)], None)
  | (w, j) :: s =>
      if decide (w = v) then ((w, i) :: s, Some j)
      else let '(s', o) := subst_insert s v i in ((w, j) :: s', o)
  end.
(** src/subst.rs:130-134 *)
Fixpoint subst_get (s : subst) (v : nat) : option nat :=
  match s with
  | [] => None
  | (w, j) :: s => if decide (w = v) then Some j else subst_get s v
  end.
(** src/subst.rs:137-146 [Index]: panics when the variable is missing. *)
Definition subst_index (s : subst) (v : nat) : res nat := expect (subst_get s v).

(** * Pattern nodes (src/pattern.rs:138-187 [ENodeOrVar]) *)
(** Operator of a pattern node: an operator of the language or a variable.  A variable
    node has no children ([children] returns the empty slice, lines 172-177); the model keeps the
    child list in the node record and [pat_ok] below says it is empty for variables. *)
Inductive pop (Op : Type) := POp (f : Op) | PVar (v : nat).
Arguments POp {Op} _.
Arguments PVar {Op} _.
Global Instance pop_eq_dec {Op} `{EqDecision Op} : EqDecision (pop Op).
Proof. solve_decision. Defined.
Global Instance pop_countable {Op} `{Countable Op} : Countable (pop Op).
Proof.
  refine (inj_countable' (fun p => match p with POp f => inl f | PVar v => inr v end)
                         (fun s => match s with inl f => POp f | inr v => PVar v end) _).
  by intros [].
Defined.
Definition pnode (Op : Type) := node (pop Op).
Definition pnode_ok {Op} (n : pnode Op) : Prop :=
  match nop n with PVar _ => nch n = [] | POp _ => True end.
(** src/pattern.rs [From<&[L]> for Pattern]: expressions as patterns. *)
Definition embed_node {Op} (n : node Op) : pnode Op := Node (POp (nop n)) (nch n).

Section model.
Context {Op D : Type} `{Countable Op}.
Notation node := (node Op).
Notation pnode := (pnode Op).
Notation egraph := (egraph Op D).
Context (A : analysis Op D).
Section md.
Context (md : nat -> egraph -> res egraph).

(** src/egraph.rs:841-856 [add_expr_uncanonical]; the vector [new_node_q] is never read
    and is not modelled.  The final [unwrap] panics on an empty expression. *)
Fixpoint add_expr_loop (e : list node) (ids : list nat) (g : egraph) : res (egraph * list nat) :=
  match e with
  | [] => Ok (g, ids)
  | n :: e =>
      m ← map_children_o (fun c => ids !! c) n;
      '(g, i) ← api_add A md m g;
      add_expr_loop e (ids ++ [i]) g
  end.
Definition add_expr_uncanonical (e : list node) (g : egraph) : res (egraph * nat) :=
  '(g, ids) ← add_expr_loop e [] g;
  i ← expect (last ids);
  Ok (g, i).
(** src/egraph.rs:833-836 *)
Definition add_expr (e : list node) (g : egraph) : res (egraph * nat) :=
  '(g, i) ← add_expr_uncanonical e g;
  Ok (g, eg_find g i).

(** [egraph.find] on an id that may be out of range panics (src/unionfind.rs:27-33). *)
Definition find_res (g : egraph) (i : nat) : res nat :=
  if valid_id g i then Ok (eg_find g i) else Panic.

(** src/egraph.rs:868-896 [add_instantiation_noncanonical] *)
Fixpoint add_inst_loop (p : list pnode) (s : subst) (ids : list nat) (g : egraph) : res (egraph * list nat) :=
  match p with
  | [] => Ok (g, ids)
  | n :: p =>
      match nop n with
      | PVar v =>
          i ← subst_index s v;
          i ← find_res g i;
          add_inst_loop p s (ids ++ [i]) g
      | POp f =>
          m ← map_children_o (fun c => ids !! c) (Node f (nch n));
          '(g, i) ← api_add A md m g;
          add_inst_loop p s (ids ++ [i]) g
      end
  end.
Definition add_instantiation_noncanonical (p : list pnode) (s : subst) (g : egraph) : res (egraph * nat) :=
  '(g, ids) ← add_inst_loop p s [] g;
  i ← expect (last ids);
  Ok (g, i).
(** src/egraph.rs:860-863 *)
Definition add_instantiation (p : list pnode) (s : subst) (g : egraph) : res (egraph * nat) :=
  '(g, i) ← add_instantiation_noncanonical p s g;
  Ok (g, eg_find g i).

(** src/pattern.rs:409-431 [apply_pat].  The buffer [ids] of the code has the length of the
    pattern and is filled left to right; reading an entry not yet filled (which cannot
    happen when children precede parents) is a panic here instead of a stale id. *)
Fixpoint apply_pat_loop (p : list pnode) (s : subst) (ids : list nat) (g : egraph) : res (egraph * list nat) :=
  match p with
  | [] => Ok (g, ids)
  | n :: p =>
      match nop n with
      | PVar v =>
          i ← subst_index s v;
          apply_pat_loop p s (ids ++ [i]) g
      | POp f =>
          m ← map_children_o (fun c => ids !! c) (Node f (nch n));
          '(g, i) ← api_add A md m g;
          apply_pat_loop p s (ids ++ [eg_find g i]) g
      end
  end.
Definition apply_pat (p : list pnode) (s : subst) (g : egraph) : res (egraph * nat) :=
  '(g, ids) ← apply_pat_loop p s [] g;
  i ← expect (last ids);
  Ok (g, i).

(** src/egraph.rs:1109-1121 [union_instantiations] *)
Definition union_instantiations (from to : list pnode) (s : subst) (rule : nat) (g : egraph)
  : res (egraph * (nat * bool)) :=
  '(g, id1) ← add_instantiation_noncanonical from s g;
  '(g, id2) ← add_instantiation_noncanonical to s g;
  '(g, did) ← api_union_trusted A md id1 id2 rule g;
  Ok (g, (eg_find g id1, did)).
End md.

(** src/egraph.rs:942-956 [lookup_expr_ids], [lookup_expr]; looking up a node whose child
    is not an id of the e-graph panics in [find]. *)
Definition lookup_res (g : egraph) (n : node) : res (option nat) :=
  if forallb (valid_id g) (nch n) then Ok (eg_lookup g n) else Panic.
Fixpoint lookup_expr_loop (g : egraph) (e : list node) (ids : list nat) : res (option (list nat)) :=
  match e with
  | [] => Ok (Some ids)
  | n :: e =>
      m ← map_children_o (fun c => ids !! c) n;
      o ← lookup_res g m;
      match o with
      | Some i => lookup_expr_loop g e (ids ++ [i])
      | None => Ok None
      end
  end.
Definition lookup_expr_ids (g : egraph) (e : list node) : res (option (list nat)) := lookup_expr_loop g e [].
Definition lookup_expr (g : egraph) (e : list node) : res (option nat) :=
  o ← lookup_expr_ids g e;
  Ok (o ≫= last).
End model.
