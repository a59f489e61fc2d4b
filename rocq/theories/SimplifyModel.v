(** Simplifying expressions with a [Runner] and an [Extractor]: src/run.rs:340-356, 419-423, and
    the client of tests/simple.rs:22-39 (also in README.md and src/lib.rs).  Definitions only. *)
From Verif Require Import Base EGraphModel RecExprModel ExprModel MachineModel RewriteModel RunnerModel ExtractModel TextModel.

Section simplify.
Context {Op D : Type} `{Countable Op} (L : lang Op) (A : analysis Op D).
Notation egraph := (egraph Op D).
Notation node := (node Op).

(** src/run.rs:419-423 [with_expr], on the fields [egraph] and [roots] *)
Definition with_expr (fuel : nat) (e : list node) (gr : egraph * list nat) : res (egraph * list nat) :=
  '(g, i) ← add_expr A (modify_n L A fuel) e (fst gr);
  Ok (g, snd gr ++ [i]).
(** several calls in a row *)
Fixpoint with_exprs (fuel : nat) (es : list (list node)) (gr : egraph * list nat) : res (egraph * list nat) :=
  match es with
  | [] => Ok gr
  | e :: es => gr ← with_expr fuel e gr; with_exprs fuel es gr
  end.

(** tests/simple.rs:26-36 for any cost function: [Runner::default().with_expr(&e).run(&rules)]
    and [find_best] of the first root.  [ex]: with explanations or not.  The answer has the
    runner too, for its stop reason.  A new runner has no hooks (src/run.rs:340-356).
    [order] is the order in which the class table is traversed.  [Ok None] if [rounds] did not
    suffice. *)
Section run.
Context (clock : nat -> nat) {St : Type} (sch : scheduler Op D St) (li : limits) (rules : list (rewrite Op D)) (here : nat).
Context {C : Type} (pcmp : C -> C -> option comparison) (cf : node -> list C -> C) (order : egraph -> list nat).
Definition simplify (ex : bool) (fuel rounds : nat) (st : St) (e : list node) : res (option (runner Op D St unit * C * list node)) :=
  '(g, roots) ← with_expr fuel e (eg_new ex, []);
  o ← run L A clock sch li rules fuel here ([] : list (hook Op D unit)) rounds roots g st tt;
  match o with
  | None => Ok None
  | Some r =>
    root ← expect (r_roots r !! 0);
    cs ← extractor_new pcmp cf fuel (r_eg r) (order (r_eg r));
    '(v, best) ← find_best fuel (r_eg r) cs root;
    Ok (Some (r, v, best))
  end.
(** tests/simple.rs:22-39: from text to text; [unwrap] of a parse error panics *)
Context (disp : Op -> list N) (from_op : list N -> list nat -> option node) (cycle : nat -> node -> list N).
Definition simplify_text (ex : bool) (fuel rounds : nat) (st : St) (s : list N) : res (option (list N)) :=
  p ← parse_expr from_op fuel s;
  match p with
  | inl _ => Panic
  | inr e =>
    o ← simplify ex fuel rounds st e;
    match o with
    | None => Ok None
    | Some (_, _, best) => w ← print_expr disp cycle best; Ok (Some w)
    end
  end.
End run.
End simplify.
