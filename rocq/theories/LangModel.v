(** The default methods of the [Language] trait: src/language.rs:57-157.
    A closure ([FnMut]) is a function from its own state and the argument to the new state
    and the result.  Definitions only. *)
From Verif Require Import Base EGraphModel RecExprModel.

Section helpers.
Context {Op : Type}.
Notation node := (node Op).
Context {S : Type}.

(** src/language.rs:57-59 [for_each] *)
Definition l_for_each (f : S -> nat -> S) (s : S) (n : node) : S := foldl f s (nch n).
(** src/language.rs:62-64 [for_each_mut] through [update_children], src/language.rs:89-91 *)
Fixpoint update_ids (f : S -> nat -> S * nat) (s : S) (cs : list nat) : S * list nat :=
  match cs with
  | [] => (s, [])
  | c :: cs => let '(s, c) := f s c in let '(s, cs) := update_ids f s cs in (s, c :: cs)
  end.
(** src/language.rs:94-97 [map_children] *)
Definition l_map_children (f : S -> nat -> S * nat) (s : S) (n : node) : S * node :=
  let '(s, cs) := update_ids f s (nch n) in (s, Node (nop n) cs).
(** src/language.rs:100-109 [fold]; [T] is the accumulator *)
Definition l_fold {T} (f : S -> T -> nat -> S * T) (s : S) (init : T) (n : node) : S * T :=
  foldl (fun '(s, acc) id => f s acc id) (s, init) (nch n).
(** src/language.rs:68-73 [try_for_each]: [None] is [Ok(())], [Some e] is [Err(e)] *)
Definition l_try_for_each {E} (f : S -> nat -> S * option E) (s : S) (n : node) : S * option E :=
  l_fold (fun s res id => match res with None => f s id | Some e => (s, Some e) end) s None n.
(** src/language.rs:79-81 [len] *)
Definition l_len (s : S) (n : node) : nat := (l_fold (fun s len _ => (s, len + 1)) s 0 n).2.
(** src/language.rs:113-115 [all]: the closure is called only while the accumulator is true *)
Definition l_all (f : S -> nat -> S * bool) (s : S) (n : node) : S * bool :=
  l_fold (fun s acc id => if acc : bool then f s id else (s, false)) s true n.
(** src/language.rs:119-121 [any] *)
Definition l_any (f : S -> nat -> S * bool) (s : S) (n : node) : S * bool :=
  l_fold (fun s acc id => if acc : bool then (s, true) else f s id) s false n.
End helpers.
(** src/language.rs:84-86 [is_leaf] *)
Definition l_is_leaf {Op} (n : node Op) : bool := (l_all (fun (s : unit) _ => (s, false)) tt n).2.

(** A closure that may panic or not return, run on each child by [map_children]. *)
Fixpoint map_m {S} (f : S -> nat -> res (S * nat)) (s : S) (cs : list nat) : res (S * list nat) :=
  match cs with
  | [] => Ok (s, [])
  | c :: cs => '(s, c) ← f s c; '(s, cs) ← map_m f s cs; Ok (s, c :: cs)
  end.
Section join.
Context {Op : Type} `{EqDecision Op}.
Notation node := (node Op).
Notation recexpr := (list node).
(** src/language.rs:142-149 [build]: copies the tree of the last node of [from]; [from[0..i]]
    panics when out of range. *)
Fixpoint join_build (fuel : nat) (to from : recexpr) : res (recexpr * nat) :=
  match fuel with
  | 0 => OutOfFuel
  | S fuel =>
      last ← expect (last from);
      '(to, cs) ← map_m (fun to id => if S id <=? length from then join_build fuel to (take (S id) from) else Panic) to (nch last);
      rx_add to (Node (nop last) cs)
  end.
(** src/language.rs:137-157 [join_recexprs] *)
Definition join_recexprs {S} (fuel : nat) (child : S -> nat -> S * recexpr) (s : S) (n : node) : res (S * recexpr) :=
  '((s, e), cs) ← map_m (fun '(s, e) id => let '(s, ce) := child s id in '(e, i) ← join_build fuel e ce; Ok ((s, e), i)) (s, []) (nch n);
  '(e, _) ← rx_add e (Node (nop n) cs); Ok (s, e).
End join.
