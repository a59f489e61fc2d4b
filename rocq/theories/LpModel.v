(** Extraction by integer linear programming: src/lp_extract.rs.  The solver is external:
    a solution is any assignment of integers to the variables.  Costs are exact integers
    (the code uses [f64]; every finite [f64] is an integer multiple of a fixed power of two,
    what is not modelled is the rounding of sums and a solver answering with values that are
    only nearly integers).  Definitions only. *)
From Verif Require Import Base UnionFind EGraphModel RecExprModel ExprModel MachineModel.

(** * Finding cycles *)
(** src/lp_extract.rs:385-389 *)
Inductive color := White | Gray | Black.
#[global] Instance color_eq_dec : EqDecision color.
Proof. solve_decision. Defined.

Section lp.
Context {Op D : Type} `{Countable Op}.
Notation egraph := (egraph Op D).
Notation node := (node Op).

Notation colors := (gmap nat color).
(** a [Vec], top first *)
Notation stack := (list (bool * nat)).

(** src/lp_extract.rs:400-406, the children of one e-node *)
Fixpoint scan_children (id i : nat) (col : colors) (cs : list nat) (st : stack) (rep : list (nat * nat)) : res (stack * list (nat * nat)) :=
  match cs with
  | [] => Ok (st, rep)
  | child :: cs =>
    c ← expect (col !! child);
    match c with
    | White => scan_children id i col cs ((true, child) :: st) rep
    | Gray => scan_children id i col cs st (rep ++ [(id, i)])
    | Black => scan_children id i col cs st rep
    end
  end.
(** src/lp_extract.rs:399-407, the e-nodes of a class from position [i] on *)
Fixpoint scan_nodes (id i : nat) (col : colors) (ns : list node) (st : stack) (rep : list (nat * nat)) : res (stack * list (nat * nat)) :=
  match ns with
  | [] => Ok (st, rep)
  | n :: ns => '(st, rep) ← scan_children id i col (nch n) st rep; scan_nodes id (S i) col ns st rep
  end.
(** src/lp_extract.rs:395-411; [rep] is the list of the calls of [f] *)
Fixpoint cycles_loop (fuel : nat) (g : egraph) (col : colors) (st : stack) (rep : list (nat * nat)) : res (list (nat * nat)) :=
  match st with
  | [] => Ok rep
  | (enter, id) :: st =>
    match fuel with
    | 0 => OutOfFuel
    | S fuel =>
      _ ← expect (col !! id);
      if enter : bool then
        let col := <[id := Gray]> col in
        k ← class_of g id;
        '(st, rep) ← scan_nodes id 0 col (c_nodes k) ((false, id) :: st) rep;
        cycles_loop fuel g col st rep
      else cycles_loop fuel g (<[id := Black]> col) st rep
    end
  end.
(** src/lp_extract.rs:380-412 [find_cycles]; [o] lists the classes in iteration order *)
Definition find_cycles (fuel : nat) (o : list nat) (g : egraph) : res (list (nat * nat)) :=
  cycles_loop fuel g (list_to_map ((fun c => (c, White)) <$> o)) (reverse ((fun c => (true, c)) <$> o)) [].

(** * The model given to the solver *)
(** src/lp_extract.rs:107-110 [ClassVars] *)
Inductive lvar := VActive (c : nat) | VNode (c i : nat).
(** linear expressions, constraints, and the range of a variable *)
Notation lexpr := (list (Z * lvar)).
Inductive lrel := REq | RLeq | RGeq.
Record lcon := LCon { lc_expr : lexpr; lc_rel : lrel; lc_rhs : Z }.
Record lbound := LBound { lb_var : lvar; lb_max : Z }.

(** src/lp_extract.rs:176-199, the variables: all binary (between 0 and [lb_max]), those of
    e-nodes reported by [find_cycles] fixed to 0 *)
Definition class_bounds (rep : list (nat * nat)) (c : nat) (k : eclass Op D) : list lbound :=
  LBound (VActive c) 1 :: imap (fun i _ => LBound (VNode c i) (if decide ((c, i) ∈ rep) then 0 else 1)%Z) (c_nodes k).
Definition lp_bounds (rep : list (nat * nat)) (o : list nat) (g : egraph) : list lbound :=
  o ≫= fun c => from_option (class_bounds rep c) [] (eg_classes g !! c).
(** src/lp_extract.rs:201-208, the objective; [cost c i] is the precomputed cost
    (src/lp_extract.rs:129-136) *)
Definition lp_objective (cost : nat -> nat -> Z) (o : list nat) (g : egraph) : lexpr :=
  o ≫= fun c => from_option (fun k => imap (fun i _ => (cost c i, VNode c i)) (c_nodes k)) [] (eg_classes g !! c).
(** src/lp_extract.rs:238-250, the children of an e-node; [vars[child]] panics if there is
    no such class *)
Fixpoint child_cons (g : egraph) (c i : nat) (cs : list nat) : res (list lcon) :=
  match cs with
  | [] => Ok []
  | child :: cs =>
    _ ← expect (eg_classes g !! child);
    l ← child_cons g c i cs;
    Ok (LCon [(1%Z, VNode c i); ((-1)%Z, VActive child)] RLeq 0 :: l)
  end.
Fixpoint node_cons (g : egraph) (rep : list (nat * nat)) (c i : nat) (ns : list node) : res (list lcon) :=
  match ns with
  | [] => Ok []
  | n :: ns =>
    l1 ← (if decide ((c, i) ∈ rep) then Ok [] else child_cons g c i (nch n));
    l2 ← node_cons g rep c (S i) ns;
    Ok (l1 ++ l2)
  end.
(** src/lp_extract.rs:229-251, the constraints of the classes [o] *)
Fixpoint class_cons (g : egraph) (rep : list (nat * nat)) (o : list nat) : res (list lcon) :=
  match o with
  | [] => Ok []
  | c :: o =>
    k ← class_of g c;
    l1 ← node_cons g rep c 0 (c_nodes k);
    l2 ← class_cons g rep o;
    Ok (LCon (imap (fun i _ => (1%Z, VNode c i)) (c_nodes k) ++ [((-1)%Z, VActive c)]) REq 0 :: l1 ++ l2)
  end.
(** src/lp_extract.rs:253-258 *)
Fixpoint root_cons (g : egraph) (roots : list nat) : res (list lcon) :=
  match roots with
  | [] => Ok []
  | r :: roots =>
    r ← find_res g r;
    _ ← expect (eg_classes g !! r);
    l ← root_cons g roots;
    Ok (LCon [(1%Z, VActive r)] RGeq 1 :: l)
  end.
(** src/lp_extract.rs:218-261 [add_constraints]; [vars] iterates in some order [o'] *)
Definition lp_constraints (g : egraph) (rep : list (nat * nat)) (o' : list nat) (roots : list nat) : res (list lcon) :=
  l1 ← class_cons g rep o'; l2 ← root_cons g roots; Ok (l1 ++ l2).

(** * Reading the solution *)
(** src/lp_extract.rs:282-286 [position]: the first e-node that the solution picks *)
Fixpoint first_picked (sol : lvar -> Z) (c i : nat) (ns : list node) : option (nat * node) :=
  match ns with
  | [] => None
  | n :: ns => if (0 <? sol (VNode c i))%Z then Some (i, n) else first_picked sol c (S i) ns
  end.
(** src/lp_extract.rs:275-295, the loop; [todo] top first *)
Fixpoint solution_loop (fuel : nat) (g : egraph) (sol : lvar -> Z) (todo : list nat) (e : list node) (ids : gmap nat nat)
  : res (list node * gmap nat nat) :=
  match todo with
  | [] => Ok (e, ids)
  | id :: rest =>
    match fuel with
    | 0 => OutOfFuel
    | S fuel =>
      if decide (is_Some (ids !! id)) then solution_loop fuel g sol rest e ids
      else
        k ← expect (eg_classes g !! id);
        _ ← assert (0 <? sol (VActive id))%Z;
        '(_, n) ← expect (first_picked sol id 0 (c_nodes k));
        if forallb (fun c => bool_decide (is_Some (ids !! c))) (nch n) then
          m ← map_children_o (fun c => ids !! eg_find g c) n;
          '(e, new_id) ← rx_add e m;
          solution_loop fuel g sol rest e (<[id := new_id]> ids)
        else solution_loop fuel g sol (reverse (nch n) ++ todo) e ids
    end
  end.
Fixpoint find_all (g : egraph) (roots : list nat) : res (list nat) :=
  match roots with
  | [] => Ok []
  | r :: roots => r ← find_res g r; rs ← find_all g roots; Ok (r :: rs)
  end.
(** src/lp_extract.rs:264-305 [extract_solution] *)
Definition extract_solution (fuel : nat) (g : egraph) (sol : lvar -> Z) (roots : list nat) : res (list node * list nat) :=
  rs ← find_all g roots;
  '(e, ids) ← solution_loop fuel g sol (reverse rs) [] ∅;
  idxs ← expect (mapM (fun r => ids !! r) rs);
  _ ← assert (rx_is_dag e);
  Ok (e, idxs).
End lp.
