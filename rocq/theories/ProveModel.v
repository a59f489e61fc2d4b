(** Proving goals about an expression with a [Runner]: src/test.rs:57-83, the core of
    [test_runner], for a new runner.  Definitions only. *)
From Verif Require Import Base EGraphModel RecExprModel ExprModel MachineModel RewriteModel RunnerModel QueryModel SimplifyModel.

Section prove.
Context {Op D : Type} `{Countable Op} (L : lang Op) (A : analysis Op D) (it : gset nat -> list nat) (cycles : bool) (limit : nat).
Notation egraph := (egraph Op D).

(** src/test.rs:68-78, the hook: it stops the run when every goal matches in the class.
    [limit] is [usize::MAX] in the code (src/rewrite.rs:183-185).  Simplification: hooks do not panic in the model; a
    search that panics counts as no match here (QueryProofs.v, [goal_search]: on a rebuilt
    e-graph, patterns made by [Pattern::new] do not panic). *)
Definition goal_met (g : egraph) (id : nat) (p : @pattern Op) : bool :=
  match search_eclass_with_limit L it cycles p g id limit with Ok (Some _) => true | _ => false end.
Definition goal_hook (goals : list (@pattern Op)) (id msg : nat) : hook Op D unit :=
  Hook (fun _ _ => PRet) (fun cl _ g => (cl, if forallb (goal_met g id) goals then Some msg else None)).

(** src/test.rs:57-83 with [check_fn] absent and [should_check] set: [with_expr], the hook,
    [run], [check_goals] (whose orders of the class table are [order] and [order'], and [w]
    the width of its costs).  The message of the hook is [msg].  [Ok None] if [rounds] did not
    suffice. *)
Section run.
Context (clock : nat -> nat) {St : Type} (sch : scheduler Op D St) (li : limits) (rules : list (rewrite Op D)) (here : nat) (w : positive).
Context (order order' : egraph -> list nat).
Definition prove (ex : bool) (fuel rounds msg : nat) (st : St) (start : list (node Op)) (goals : list (@pattern Op)) : res (option (runner Op D St unit)) :=
  '(g, roots) ← with_expr L A fuel start (eg_new ex, []);
  root ← expect (last roots);
  let id := eg_find g root in
  o ← run L A clock sch li rules fuel here [goal_hook goals id msg] rounds roots g st tt;
  match o with
  | None => Ok None
  | Some r =>
    _ ← check_goals L it cycles w fuel limit (r_eg r) (order (r_eg r)) (order' (r_eg r)) id goals;
    Ok (Some r)
  end.
End run.
End prove.
