(** Greedy extraction: src/extract.rs.  Definitions only.

    Not modelled: the log warning about classes without a cost (lines 275-283).  Cost
    functions take [&mut self] in Rust; here they are pure functions. *)
From Verif Require Import Base EGraphModel RecExprModel.

Section model.
Context {Op D : Type} `{Countable Op} {C : Type}.
Notation egraph := (egraph Op D).
Notation eclass := (eclass Op D).
Notation node := (node Op).
Notation recexpr := (list node).
(** [PartialOrd::partial_cmp] of the cost type ([<] is "partial_cmp says Less"), and
    [CostFunction::cost] (lines 115-127) of a node, given the costs of its children in order.
    Simplification: [cost] calls its closure on the children of the node only. *)
Context (pcmp : C -> C -> option comparison) (cf : node -> list C -> C).
Notation costs := (gmap nat (C * node)).

(** src/extract.rs:189-197 [cmp]: no cost is high *)
Definition cmp_cost (a b : option C) : res comparison :=
  match a, b with
  | None, None => Ok Eq
  | None, Some _ => Ok Gt
  | Some _, None => Ok Lt
  | Some a, Some b => expect (pcmp a b)
  end.
(** src/extract.rs:242-252 [node_total_cost]: the cost if all children have one *)
Definition node_total_cost (g : egraph) (cs : costs) (n : node) : option C :=
  cf n <$> mapM (fun c => fst <$> cs !! eg_find g c) (nch n).
(** [Iterator::min_by]: the first of several minimal elements *)
Fixpoint min_by (acc : option C * node) (l : list (option C * node)) : res (option C * node) :=
  match l with
  | [] => Ok acc
  | x :: l => c ← cmp_cost (fst acc) (fst x); min_by (match c with Gt => x | _ => acc end) l
  end.
(** src/extract.rs:286-293 [make_pass] *)
Definition make_pass (g : egraph) (cs : costs) (c : eclass) : res (option (C * node)) :=
  match c_nodes c with
  | [] => Panic
  | n :: ns =>
      best ← min_by (node_total_cost g cs n, n) ((fun n => (node_total_cost g cs n, n)) <$> ns);
      Ok (match fst best with Some v => Some (v, snd best) | None => None end)
  end.
(** src/extract.rs:259-272: the body of the loop over the classes *)
Definition visit (g : egraph) (c : eclass) (cs : costs) : res (costs * bool) :=
  p ← make_pass g cs c;
  match cs !! c_id c, p with
  | None, Some new => Ok (<[c_id c := new]> cs, true)
  | Some old, Some new =>
      match pcmp (fst new) (fst old) with
      | Some Lt => Ok (<[c_id c := new]> cs, true)
      | _ => Ok (cs, false)
      end
  | _, _ => Ok (cs, false)
  end.
Fixpoint visit_all (g : egraph) (l : list eclass) (cs : costs) : res (costs * bool) :=
  match l with
  | [] => Ok (cs, false)
  | c :: l => '(cs, b) ← visit g c cs; '(cs, b') ← visit_all g l cs; Ok (cs, b || b')
  end.
(** src/extract.rs:254-273 [find_costs]; [order] is the order in which the hash map iterates
    over its keys (the same in every round: the map does not change). *)
Definition in_order (g : egraph) (order : list nat) : list eclass := omap (fun i => eg_classes g !! i) order.
Fixpoint find_costs (fuel : nat) (g : egraph) (l : list eclass) (cs : costs) : res costs :=
  match fuel with
  | 0 => OutOfFuel
  | S fuel => '(cs, did) ← visit_all g l cs; if (did : bool) then find_costs fuel g l cs else Ok cs
  end.
(** src/extract.rs:212-222 *)
Definition extractor_new (fuel : nat) (g : egraph) (order : list nat) : res costs := find_costs fuel g (in_order g order) ∅.
(** src/extract.rs:232-240 *)
Definition find_best_node (g : egraph) (cs : costs) (i : nat) : res node := p ← expect (cs !! eg_find g i); Ok (snd p).
Definition find_best_cost (g : egraph) (cs : costs) (i : nat) : res C := p ← expect (cs !! eg_find g i); Ok (fst p).
(** src/extract.rs:225-229; [fuel] is for [build_recexpr] *)
Definition find_best (fuel : nat) (g : egraph) (cs : costs) (i : nat) : res (C * recexpr) :=
  '(v, root) ← expect (cs !! eg_find g i);
  e ← build_recexpr fuel root (fun i => snd <$> cs !! eg_find g i);
  Ok (v, e).

(** src/extract.rs:134-145 [cost_rec] *)
Fixpoint cost_loop (i : nat) (e : recexpr) (cs : gmap nat C) : res (gmap nat C) :=
  match e with
  | [] => Ok cs
  | n :: e => vs ← expect (mapM (fun c => cs !! c) (nch n)); cost_loop (S i) e (<[i := cf n vs]> cs)
  end.
Definition cost_rec (e : recexpr) : res C := cs ← cost_loop 0 e ∅; r ← rx_root e; expect (cs !! r).
End model.

(** [usize]: a number of at most [w] bits ([w] depends on the target) *)
Definition usize_max (w : positive) : N := (2 ^ N.pos w - 1)%N.
Definition usize (w : positive) : Type := {v : N | (v <=? usize_max w)%N = true}.
(** the nearest [usize], so [saturate (a + b)] is [usize::saturating_add] *)
Definition saturate (w : positive) (v : N) : usize w :=
  N.min v (usize_max w) ↾ proj2 (N.leb_le _ _) (N.le_min_r v (usize_max w)).
Definition usize_pcmp {w} (a b : usize w) : option comparison := Some (N.compare (`a) (`b)).
(** src/extract.rs:156-166 [AstSize] *)
Definition ast_size {Op} (w : positive) (n : node Op) (vs : list (usize w)) : usize w :=
  foldl (fun sum v => saturate w (`sum + `v)) (saturate w 1) vs.
(** src/extract.rs:178-187 [AstDepth].  Simplification: the addition is not bounded by
    [usize]; a depth is at most the number of nodes in memory. *)
Definition ast_depth {Op} (n : node Op) (vs : list nat) : nat := 1 + foldl max 0 vs.
Definition nat_pcmp (a b : nat) : option comparison := Some (Nat.compare a b).
