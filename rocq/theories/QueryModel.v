(** Queries on e-graphs and pattern ASTs: src/egraph.rs:1074-1099 ([equivs]), 1231-1256
    ([check_goals]), src/pattern.rs:76-101 ([alpha_rename]), 223-271 (conversions between
    expressions and patterns), src/eclass.rs:47-65 ([leaves], [assert_unique_leaves]).
    Definitions only. *)
From Coq Require Import NArith.
From Verif Require Import Base EGraphModel RecExprModel ExprModel MachineModel ExtractModel TextModel.

Section query.
Context {Op D : Type} `{Countable Op} (L : lang Op) (it : gset nat -> list nat) (cycles : bool)
  (ord : gmap (nat * nat) (node Op) -> list (nat * nat)).
Notation node := (node Op).
Notation egraph := (egraph Op D).

(** src/pattern.rs:223-242, [Pattern::from] for a slice, an expression and a reference to one;
    [fuel] is for the compiler *)
Definition pattern_from (fuel : nat) (e : list node) : res pattern := pattern_new ord fuel (embed_node <$> e).

(** src/egraph.rs:1090-1096, the two nested loops *)
Fixpoint same_as (g : egraph) (c : nat) (ms : list smatch) (acc : list nat) : res (list nat) :=
  match ms with
  | [] => Ok acc
  | m :: ms =>
      i ← find_res g c; j ← find_res g (sm_class m);
      same_as g c ms (if i =? j then acc ++ [c] else acc)
  end.
Fixpoint pair_up (g : egraph) (ms1 ms2 : list smatch) (acc : list nat) : res (list nat) :=
  match ms1 with
  | [] => Ok acc
  | m :: ms1 => acc ← same_as g (sm_class m) ms2 acc; pair_up g ms1 ms2 acc
  end.
(** src/egraph.rs:1078-1099 [equivs]; [limit] is the limit that [search] passes on
    (src/rewrite.rs:112-114), [usize::MAX] in the code *)
Definition equivs (fuel limit : nat) (g : egraph) (e1 e2 : list node) : res (list nat) :=
  p1 ← pattern_from fuel e1;
  p2 ← pattern_from fuel e2;
  ms1 ← search_with_limit L it cycles p1 g limit;
  ms2 ← search_with_limit L it cycles p2 g limit;
  pair_up g ms1 ms2 [].

(** src/egraph.rs:1239-1254, the loop; [best] is the extraction for the message *)
Fixpoint goals_loop (limit : nat) (g : egraph) (best : res unit) (id : nat) (goals : list (@pattern Op)) : res unit :=
  match goals with
  | [] => Ok tt
  | p :: goals =>
      o ← search_eclass_with_limit L it cycles p g id limit;
      match o with
      | Some _ => goals_loop limit g best id goals
      | None => _ ← best; Panic
      end
  end.
(** src/egraph.rs:1235-1255 [check_goals], without the logging; [order] and [order'] are the
    iteration orders of the class table, [w] the width of [usize] *)
Definition best_size (w : positive) (fuel : nat) (g : egraph) (order : list nat) (id : nat) : res unit :=
  cs ← extractor_new usize_pcmp (ast_size w) fuel g order;
  _ ← find_best fuel g cs id;
  Ok tt.
Definition check_goals (w : positive) (fuel limit : nat) (g : egraph) (order order' : list nat) (id : nat) (goals : list (@pattern Op)) : res unit :=
  _ ← best_size w fuel g order id;
  goals_loop limit g (best_size w fuel g order' id) id goals.
End query.

Section asts.
Context {Op : Type}.
(** src/pattern.rs:252-271, [TryFrom] a pattern AST or a pattern: [inr] is the error *)
Fixpoint expr_from (ast : list (node (pop Op))) : list (node Op) + nat :=
  match ast with
  | [] => inl []
  | n :: ast =>
      match nop n with
      | PVar v => inr v
      | POp f => match expr_from ast with inl e => inl (Node f (nch n) :: e) | inr v => inr v end
      end
  end.

(** src/pattern.rs:82-88 [mkvar]: [?x], [?y], [?z], [?w], [?v0], [?v1], ...; the fuel of
    [digits_aux] is more than the number of digits *)
Definition mkvar (i : nat) : res var :=
  expect (parse_var
    match i with
    | 0 => [c_qmark; 120%N] | 1 => [c_qmark; 121%N] | 2 => [c_qmark; 122%N] | 3 => [c_qmark; 119%N]
    | S (S (S (S k))) => c_qmark :: 118%N :: digits_aux (S k) (N.of_nat k) []
    end).
(** the hash map [vars]: first binding found *)
Global Instance var_eq_dec : EqDecision var.
Proof. solve_decision. Defined.
Fixpoint var_get (vars : list (var * var)) (v : var) : option var :=
  match vars with [] => None | (w, x) :: vars => if decide (w = v) then Some x else var_get vars v end.
(** src/pattern.rs:90-98, the loop *)
Fixpoint alpha_loop (p : list (node (vop Op))) (vars : list (var * var)) (new : list (node (vop Op))) : res (list (node (vop Op))) :=
  match p with
  | [] => Ok new
  | n :: p =>
      match nop n with
      | VOp _ => '(new, _) ← rx_add new n; alpha_loop p vars new
      | VVar v =>
          match var_get vars v with
          | Some x => '(new, _) ← rx_add new (Node (VVar x) []); alpha_loop p vars new
          | None =>
              x ← mkvar (length vars);
              '(new, _) ← rx_add new (Node (VVar x) []);
              alpha_loop p (vars ++ [(v, x)]) new
          end
      end
  end.
(** src/pattern.rs:78-100 [alpha_rename] *)
Definition alpha_rename (p : list (node (vop Op))) : res (list (node (vop Op))) := alpha_loop p [] [].
End asts.

(** src/eclass.rs:49-51 [leaves] *)
Definition leaves {Op D} (c : eclass Op D) : list (node Op) := filter (fun n => nch n = []) (c_nodes c).
(** src/eclass.rs:54-65 [assert_unique_leaves] *)
Definition assert_unique_leaves {Op D} `{EqDecision Op} (c : eclass Op D) : res unit :=
  match leaves c with
  | [] => Ok tt
  | first :: ls => assert (forallb (fun l => bool_decide (l = first)) ls)
  end.
