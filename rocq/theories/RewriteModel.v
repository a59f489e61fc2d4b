(** Rewrites: src/rewrite.rs, and applying patterns and multi-patterns (src/pattern.rs,
    src/multipattern.rs).  Definitions only. *)
From Verif Require Import Base EGraphModel RecExprModel ExprModel MachineModel.

Section model.
Context {Op D : Type} `{Countable Op} (L : lang Op) (A : analysis Op D).
Notation pnode := (pnode Op).
Notation egraph := (egraph Op D).
Notation prog := (prog Op D).

(** src/rewrite.rs:478-555 [Condition]: [ConditionEqual] (its two patterns, by their ASTs), or
    a client's condition.  A client's [check] may use the e-graph through its API (the
    program) and then answers by looking at the result. *)
Inductive condition :=
| CEqual (p1 p2 : list pnode)
| CFn (vars : list nat) (body : nat -> subst -> prog) (test : nat -> subst -> egraph -> bool).
(** src/rewrite.rs:328-460 [Applier]: a [Pattern] (by its AST), a [MultiPattern] (by its
    clauses), a [ConditionalApplier], or a client's applier given by [apply_one] as a
    program over the API and the ids it answers, with the default [apply_matches]. *)
Inductive applier :=
| APattern (p : list pnode)
| AMulti (asts : list (nat * list pnode))
| ACond (c : condition) (a : applier)
| AFn (vars : list nat) (body : nat -> subst -> prog) (ret : nat -> subst -> egraph -> list nat).

(** src/multipattern.rs:190-207 [Applier::vars]; the final [sort] and [dedup] only affect order. *)
Fixpoint multi_applier_vars (bnd : list nat) (asts : list (nat * list pnode)) : list nat :=
  match asts with
  | [] => []
  | (bv, p) :: asts =>
      filter (fun v => v ∉ bnd) (ast_vars p) ++ multi_applier_vars (bv :: bnd) asts
  end.
(** src/rewrite.rs:549-553 and the default of line 490 (a client's condition may override it) *)
Definition condition_vars (c : condition) : list nat :=
  match c with CEqual p1 p2 => ast_vars p1 ++ ast_vars p2 | CFn vars _ _ => vars end.
(** src/pattern.rs:407, src/multipattern.rs:190, src/rewrite.rs:455-459 and 400-402 *)
Fixpoint applier_vars (a : applier) : list nat :=
  match a with
  | APattern p => ast_vars p
  | AMulti asts => multi_applier_vars [] asts
  | ACond c a => applier_vars a ++ condition_vars c
  | AFn vars _ _ => vars
  end.

(** [Searcher]: a pattern or a multi-pattern. *)
Inductive searcher := SPattern (p : pattern (Op := Op)) | SMulti (m : multipattern (Op := Op)).
(** src/pattern.rs:337-339, src/multipattern.rs:134-147 *)
Definition searcher_vars (s : searcher) : gset nat :=
  match s with SPattern p => list_to_set (ast_vars (pt_ast p)) | SMulti m => multi_vars (mp_asts m) end.
(** The AST attached to each match: src/pattern.rs:327-333 [Some(Cow::Borrowed(&self.ast))],
    src/multipattern.rs:129 [None]. *)
Definition searcher_ast (s : searcher) : option (list pnode) :=
  match s with SPattern p => Some (pt_ast p) | SMulti _ => None end.
(** src/rewrite.rs:90-104 [search], [search_with_limit] *)
Definition searcher_search (it : gset nat -> list nat) (cycles : bool) (s : searcher) (g : egraph) (limit : nat) : res (list smatch) :=
  match s with
  | SPattern p => search_with_limit L it cycles p g limit
  | SMulti m => multi_search L it cycles m g limit
  end.

(** src/rewrite.rs:19-28 *)
Record rewrite := Rewrite { rw_name : nat; rw_searcher : searcher; rw_applier : applier }.
(** src/rewrite.rs:67-88 [Rewrite::new]; [None] is the error "refers to unbound var". *)
Definition rewrite_new (name : nat) (s : searcher) (a : applier) : option rewrite :=
  if forallb (fun v => bool_decide (v ∈ searcher_vars s)) (applier_vars a) then Some (Rewrite name s a) else None.

(** src/egraph.rs [are_explanations_enabled] *)
Definition explaining (g : egraph) : bool := bool_decide (is_Some (eg_explain g)).

Section apply.
Context (fuel : nat).
Notation md := (modify_n L A fuel).
(** The location string recorded as reason by a plain [union] when explanations are on
    ([#[track_caller]], src/egraph.rs). *)
Context (here : nat).

(** src/rewrite.rs:540-547 (the buffers are part of [apply_pat]), 494-497 *)
Definition check (c : condition) (eclass : nat) (s : subst) (g : egraph) : res (egraph * bool) :=
  match c with
  | CEqual p1 p2 =>
      '(g, a1) ← apply_pat A md p1 s g;
      '(g, a2) ← apply_pat A md p2 s g;
      Ok (g, a1 =? a2)
  | CFn _ body test =>
      g ← run_prog L A fuel md (body eclass s) g;
      Ok (g, test eclass s g)
  end.

(** src/pattern.rs:382-405 [apply_one] *)
Definition pattern_apply_one (p : list pnode) (eclass : nat) (s : subst) (sast : option (list pnode)) (rule : nat) (g : egraph)
  : res (egraph * list nat) :=
  '(g, id) ← apply_pat A md p s g;
  match sast with
  | Some ast =>
      '(g, (from, did)) ← union_instantiations A md ast p s rule g;
      Ok (g, if (did : bool) then [from] else [])
  | None =>
      '(g, did) ← api_union A md eclass id here g;
      Ok (g, if (did : bool) then [eclass] else [])
  end.

(** [apply_one] of each applier: above; src/multipattern.rs:151-160 panics;
    src/rewrite.rs:440-453. *)
Fixpoint apply_one (a : applier) (eclass : nat) (s : subst) (sast : option (list pnode)) (rule : nat) (g : egraph)
  : res (egraph * list nat) :=
  match a with
  | APattern p => pattern_apply_one p eclass s sast rule g
  | AMulti _ => Panic
  | ACond c a =>
      '(g, b) ← check c eclass s g;
      if (b : bool) then apply_one a eclass s sast rule g else Ok (g, [])
  | AFn _ body ret =>
      g ← run_prog L A fuel md (body eclass s) g;
      Ok (g, ret eclass s g)
  end.

(** The loops over matches, collecting the answered ids. *)
Fixpoint each {X} (f : X -> egraph -> res (egraph * list nat)) (xs : list X) (g : egraph) : res (egraph * list nat) :=
  match xs with
  | [] => Ok (g, [])
  | x :: xs =>
      '(g, l1) ← f x g;
      '(g, l2) ← each f xs g;
      Ok (g, l1 ++ l2)
  end.
Definition for_matches (f : nat -> subst -> egraph -> res (egraph * list nat)) (ms : list smatch) : egraph -> res (egraph * list nat) :=
  each (fun m => each (fun s => f (sm_class m) s) (sm_substs m)) ms.

(** src/rewrite.rs:347-366, the default [apply_matches] *)
Definition default_apply (a : applier) (sast : option (list pnode)) (rule : nat) (ms : list smatch) (g : egraph) : res (egraph * list nat) :=
  for_matches (fun c s g => apply_one a c s (if explaining g then sast else None) rule g) ms g.
(** src/pattern.rs:351-380, body of the loops *)
Definition pattern_apply (p : list pnode) (sast : option (list pnode)) (rule : nat) (c : nat) (s : subst) (g : egraph) : res (egraph * list nat) :=
  if explaining g then
    ast ← expect sast;
    '(g, (id, did)) ← union_instantiations A md ast p s rule g;
    Ok (g, if (did : bool) then [id] else [])
  else
    '(g, id) ← apply_pat A md p s g;
    '(g, did) ← api_union A md id c here g;
    Ok (g, if (did : bool) then [id] else []).
(** src/multipattern.rs:173-184: clauses in order, each binding its variable *)
Fixpoint multi_clauses (asts : list (nat * list pnode)) (s : subst) (g : egraph) : res (egraph * list nat) :=
  match asts with
  | [] => Ok (g, [])
  | (v, p) :: asts =>
      '(g, id1) ← apply_pat A md p s g;
      let '(s, old) := subst_insert s v id1 in
      g ← match old with
          | Some id2 => '(g, _) ← api_union A md id1 id2 here g; Ok g
          | None => Ok g
          end;
      '(g, l) ← multi_clauses asts s g;
      Ok (g, id1 :: l)
  end.
(** src/multipattern.rs:162-188; only the first clause's id is answered *)
Definition multi_apply (asts : list (nat * list pnode)) (c : nat) (s : subst) (g : egraph) : res (egraph * list nat) :=
  '(g, l) ← multi_clauses asts s g; Ok (g, take 1 l).

Definition apply_matches (a : applier) (sast : option (list pnode)) (rule : nat) (ms : list smatch) (g : egraph) : res (egraph * list nat) :=
  match a with
  | APattern p => for_matches (pattern_apply p sast rule) ms g
  | AMulti asts => for_matches (multi_apply asts) ms g
  | ACond _ _ | AFn _ _ _ => default_apply a sast rule ms g
  end.
(** src/rewrite.rs:111-113 [Rewrite::apply] *)
Definition rewrite_apply (rw : rewrite) (ms : list smatch) (g : egraph) : res (egraph * list nat) :=
  apply_matches (rw_applier rw) (searcher_ast (rw_searcher rw)) (rw_name rw) ms g.
End apply.
End model.
Arguments condition Op D {_ _}.
Arguments applier Op D {_ _}.
Arguments rewrite Op D {_ _}.
