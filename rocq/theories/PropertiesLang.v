(** Property theorems about the default methods of [Language] (C48).
    Vocabulary: LangSpec.v ([Calls]: calling a stateful closure on a list of ids from left to
    right, once each), Terms.v ([ExprTree], [dag]). *)
From Verif Require Import Base EGraphModel Spec Terms RecExprModel LangModel LangSpec LangProofs.

(** [for_each], [fold] and [map_children]/[update_children] call the closure on the children
    from left to right exactly once each, whatever state the closure keeps; [map_children]
    keeps the operator and puts the answers in place of the children. *)
Theorem C48_visits {Op S T} (n : node Op) (s : S) :
  (forall f : S -> nat -> S, exists rs, Calls (fun s i => (f s i, ())) s (nch n) (l_for_each f s n) rs) /\
  (forall (f : S -> nat -> S * nat) s' n', l_map_children f s n = (s', n') -> Calls f s (nch n) s' (nch n') /\ nop n' = nop n) /\
  (forall (f : S -> T -> nat -> S * T) init s' r, l_fold f s init n = (s', r) ->
    exists rs, Calls (fun st i => (f st.1 st.2 i, ())) (s, init) (nch n) (s', r) rs).
Proof. exact (conj (fun f => for_each_calls f s n) (conj (fun f s' n' => map_children_calls f s n n' s') (fun f init s' r => fold_spec f s init n s' r))). Qed.
Print Assumptions C48_visits.
(** a closure numbering the children *)
Example C48_visits_ex : l_map_children (fun s c => (S s, s + 10 * c)) 5 (Node 7 [3; 1; 3]) = (8, Node 7 [35; 16; 37]) /\
  l_fold (fun (s : list nat) acc c => (s ++ [c], acc + c)) [] 1 (Node 7 [3; 1; 3]) = ([3; 1; 3], 8).
Proof. split; reflexivity. Qed.

(** [len] and [is_leaf]. *)
Theorem C48_len {Op S} (n : node Op) (s : S) : l_len s n = length (nch n) /\ (l_is_leaf n = true <-> nch n = []).
Proof. exact (conj (len_length s n) (is_leaf_spec n)). Qed.
Print Assumptions C48_len.
Example C48_len_ex : l_len tt (Node 7 [3; 1; 3]) = 3 /\ l_is_leaf (Node 7 [3]) = false /\ l_is_leaf (Node 7 []) = true.
Proof. repeat split. Qed.

(** [try_for_each] calls the closure up to and including the first child with an error and
    returns that error; without errors it calls it on all children. *)
Theorem C48_try_for_each {Op S E} (f : S -> nat -> S * option E) s (n : node Op) s' r : l_try_for_each f s n = (s', r) ->
  match r with
  | None => exists rs, Calls f s (nch n) s' rs /\ Forall (fun x => x = None) rs
  | Some e => exists pre x post rs, nch n = pre ++ x :: post /\ Calls f s (pre ++ [x]) s' (rs ++ [Some e]) /\ Forall (fun x => x = None) rs
  end.
Proof. exact (try_spec f s n s' r). Qed.
Print Assumptions C48_try_for_each.
Example C48_try_for_each_ex : l_try_for_each (fun (s : list nat) c => (s ++ [c], if c =? 2 then Some c else None)) [] (Node 7 [1; 2; 3]) = ([1; 2], Some 2).
Proof. reflexivity. Qed.

(** [all] answers whether the closure answers true on all children, [any] whether on some;
    the calls stop at the child that settles it. *)
Theorem C48_all_any {Op S} (f : S -> nat -> S * bool) s (n : node Op) s' b :
  (l_all f s n = (s', b) ->
    if b then exists rs, Calls f s (nch n) s' rs /\ Forall (fun x => x = true) rs
    else exists pre x post rs, nch n = pre ++ x :: post /\ Calls f s (pre ++ [x]) s' (rs ++ [false]) /\ Forall (fun x => x = true) rs) /\
  (l_any f s n = (s', b) ->
    if b then exists pre x post rs, nch n = pre ++ x :: post /\ Calls f s (pre ++ [x]) s' (rs ++ [true]) /\ Forall (fun x => x = false) rs
    else exists rs, Calls f s (nch n) s' rs /\ Forall (fun x => x = false) rs).
Proof. exact (conj (all_spec f s n s' b) (any_spec f s n s' b)). Qed.
Print Assumptions C48_all_any.
Example C48_all_any_ex : l_all (fun (s : list nat) c => (s ++ [c], c <? 3)) [] (Node 7 [1; 2; 3]) = ([1; 2; 3], false) /\
  l_any (fun (s : list nat) c => (s ++ [c], 2 <? c)) [] (Node 7 [1; 2]) = ([1; 2], false).
Proof. split; reflexivity. Qed.
(** The documentation says of [all] and [any] "Does not short circuit"; the closure is not
    called on the children after the one that settles the answer. *)
Theorem C48_no_short_circuit_refuted : exists (f : list nat -> nat -> list nat * bool) (n : node nat),
  (forall s c, (f s c).1 = s ++ [c]) /\ (l_all f [] n).1 <> nch n /\ (l_any (fun s c => let '(s, b) := f s c in (s, negb b)) [] n).1 <> nch n.
Proof. exists (fun s c => (s ++ [c], c =? 1)), (Node 7 [1; 2; 3]). split; [done|]. split; discriminate. Qed.
Print Assumptions C48_no_short_circuit_refuted.

(** [join_recexprs] asks for an expression for each child, left to right, once each, and
    returns the expression with the node on top of their trees, every shared subtree copied out. *)
Theorem C48_join {Op S} `{EqDecision Op} (child : S -> nat -> S * list (node Op)) s (n : node Op) s' es ts :
  Calls child s (nch n) s' es -> Forall dag es -> Forall2 ExprTree es ts ->
  exists N, forall fuel, N <= fuel -> exists e, join_recexprs fuel child s n = Ok (s', e) /\ dag e /\ ExprTree e (TNode (nop n) ts) /\
    length e = nodes_of (TNode (nop n) ts).
Proof. exact (join_spec child s n s' es ts). Qed.
Print Assumptions C48_join.
(** a*a joined with itself under 9: seven nodes out of two each *)
Example C48_join_ex : Calls (fun (k : nat) _ => (S k, [Node 1 []; Node 2 [0; 0]])) 0 [5; 5] 2 [[Node 1 []; Node 2 [0; 0]]; [Node 1 []; Node 2 [0; 0]]] /\
  ExprTree [Node 1 []; Node 2 [0; 0]] (TNode 2 [TNode 1 []; TNode 1 []]) /\
  join_recexprs 5 (fun (k : nat) _ => (S k, [Node 1 []; Node 2 [0; 0]])) 0 (Node 9 [5; 5]) =
    Ok (2, [Node 1 []; Node 1 []; Node 2 [0; 1]; Node 1 []; Node 1 []; Node 2 [3; 4]; Node 9 [2; 5]]).
Proof.
  split; [repeat econstructor|]. split; [|reflexivity]. split; [done|]. econstructor; [done|].
  constructor; [econstructor; [done|constructor]|]. constructor; [econstructor; [done|constructor]|constructor].
Qed.
