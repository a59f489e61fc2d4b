(** Model of the explanation producer: src/explain.rs [ExplainNodes] (the proof
    length optimiser is in OptModel.v) and the flattening of tree explanations, and src/egraph.rs
    [id_to_expr], [explain_id_equivalence], [explain_equivalence], [get_union_equalities]. *)
From Verif Require Import Base UnionFind EGraphModel RecExprModel ExprModel.

(** src/explain.rs:459-471 [TreeTerm], as a tree.  [Rc] sharing and the fields [last] and
    [current], which only [get_tree_size] reads, are in PrintModel.v. *)
Inductive ttree (Op : Type) := TT (n : node Op) (bwd fwd : option nat) (kids : list (list (ttree Op))).
Arguments TT {Op} _ _ _ _.
(** src/explain.rs:589-599 [FlatTerm] *)
Inductive fterm (Op : Type) := FT (n : node Op) (bwd fwd : option nat) (kids : list (fterm Op)).
Arguments FT {Op} _ _ _ _.

Section explain.
Context {Op D : Type} `{Countable Op}.
Notation node := (node Op).
Notation egraph := (egraph Op D).
Notation explain := (explain Op).
Notation ttree := (ttree Op).
Notation fterm := (fterm Op).
Implicit Types (x : explain) (ns : list node).

(** src/explain.rs:1048-1065 [node_to_explanation]; the cache is left out: it returns what
    the same call returned before, and the nodes do not change meanwhile. *)
Fixpoint node_to_explanation (fuel : nat) ns (i : nat) : res ttree :=
  match fuel with
  | 0 => OutOfFuel
  | S fuel =>
    n ← expect (ns !! i);
    ks ← mapM (fun c => t ← node_to_explanation fuel ns c; Ok [t]) (nch n);
    Ok (TT n None None ks)
  end.

(** src/explain.rs:1736-1738 [parent] *)
Definition xparent x (i : nat) : res nat := nd ← expect (ex_find x !! i); Ok (cn_next (xn_parent nd)).

(** src/explain.rs:1117-1137 [common_ancestor] *)
Fixpoint common_ancestor (fuel : nat) x (sl sr : gset nat) (l r : nat) : res nat :=
  match fuel with
  | 0 => OutOfFuel
  | S fuel =>
    let sl := {[l]} ∪ sl in
    if bool_decide (l ∈ sr) then Ok l else
    let sr := {[r]} ∪ sr in
    if bool_decide (r ∈ sl) then Ok r else
    nl ← xparent x l;
    nr ← xparent x r;
    if bool_decide (nl = l) && bool_decide (nr = r) then Panic
    else common_ancestor fuel x sl sr nl nr
  end.

(** src/explain.rs:1139-1158 [get_connections] *)
Fixpoint get_connections_loop (fuel : nat) x (node anc : nat) : res (list conn) :=
  match fuel with
  | 0 => OutOfFuel
  | S fuel =>
    nd ← expect (ex_find x !! node);
    let next := cn_next (xn_parent nd) in
    if bool_decide (next = anc) then Ok [xn_parent nd]
    else if bool_decide (next = node) then Panic
    else rest ← get_connections_loop fuel x next anc; Ok (xn_parent nd :: rest)
  end.
Definition get_connections x (node anc : nat) : res (list conn) :=
  if bool_decide (node = anc) then Ok [] else get_connections_loop (S (length (ex_find x))) x node anc.

(** src/explain.rs:1160-1165 [get_path_unoptimized] *)
Definition get_path_unoptimized x (l r : nat) : res (list conn * list conn) :=
  a ← common_ancestor (S (length (ex_find x))) x ∅ ∅ l r;
  lc ← get_connections x l a;
  rc ← get_connections x r a;
  Ok (lc, rc).

(** src/explain.rs:1167-1181 [get_neighbor] *)
Definition get_neighbor x (cur next : nat) : res conn :=
  nd ← expect (ex_find x !! cur);
  match list_find (fun c => cn_next c = next /\ cn_just c <> JCong) (xn_neighbors nd) with
  | Some (_, c) => Ok c
  | None => Ok (Conn next cur JCong true)
  end.

(** src/explain.rs:1183-1200 [get_path]; [fuel] bounds the hops taken through the memo. *)
Fixpoint get_path (fuel : nat) x (l r : nat) : res (list conn * list conn) :=
  match fuel with
  | 0 => OutOfFuel
  | S fuel =>
    if bool_decide (l = r) then Ok ([], [])
    else match ex_short x !! (l, r) with
    | Some (_, next) =>
      c ← get_neighbor x l next;
      '(lc, rc) ← get_path fuel x next r;
      Ok (c :: lc, rc)
    | None => get_path_unoptimized x l r
    end
  end.

(** src/explain.rs:1224-1225: a connection walked against its direction *)
Definition flip_conn (c : conn) : conn := Conn (cn_current c) (cn_next c) (cn_just c) (negb (cn_fwd c)).

(** src/explain.rs:106-107 [ExplainCache] *)
Notation xcache := (gmap (nat * nat) ttree).

Section adjacent.
(** [rec] is [explain_enodes] for the children *)
Context (rec : nat -> nat -> xcache -> res (list ttree * xcache)).
(** src/explain.rs:1273-1285, the loop over the zipped children *)
Fixpoint explain_children (cs ds : list nat) (ca : xcache) : res (list (list ttree) * xcache) :=
  match cs, ds with
  | c :: cs, d :: ds =>
    '(p, ca) ← rec c d ca;
    '(ps, ca) ← explain_children cs ds ca;
    Ok (p :: ps, ca)
  | _, _ => Ok ([], ca)
  end.
(** src/explain.rs:1238-1293 [explain_adjacent] *)
Definition explain_adjacent ns (c : conn) (ca : xcache) : res (ttree * xcache) :=
  match ca !! (cn_current c, cn_next c) with
  | Some t => Ok (t, ca)
  | None =>
    '(t, ca) ← match cn_just c with
      | JRule r =>
        t ← node_to_explanation (S (length ns)) ns (cn_next c);
        let 'TT n b f ks := t in
        Ok (if cn_fwd c then TT n b (Some r) ks else TT n (Some r) f ks, ca)
      | JCong =>
        n ← expect (ns !! cn_current c);
        m ← expect (ns !! cn_next c);
        if node_matches n m then
          '(ks, ca) ← explain_children (nch n) (nch m) ca;
          Ok (TT n None None ks, ca)
        else Panic
      end;
    Ok (t, <[(cn_current c, cn_next c) := t]> ca)
  end.
(** src/explain.rs:1217-1234, the loop over the connections *)
Fixpoint explain_along ns (cs : list conn) (ca : xcache) : res (list ttree * xcache) :=
  match cs with
  | [] => Ok ([], ca)
  | c :: cs =>
    '(t, ca) ← explain_adjacent ns c ca;
    '(ts, ca) ← explain_along ns cs ca;
    Ok (t :: ts, ca)
  end.
End adjacent.

(** src/explain.rs:1202-1236 [explain_enodes] with [use_unoptimized = false], the only way
    it is called *)
Fixpoint explain_enodes (fuel : nat) x ns (l r : nat) (ca : xcache) : res (list ttree * xcache) :=
  match fuel with
  | 0 => OutOfFuel
  | S fuel =>
    t ← node_to_explanation (S (length ns)) ns l;
    '(lc, rc) ← get_path (S (length (ex_find x))) x l r;
    '(ts, ca) ← explain_along (explain_enodes fuel x ns) ns (lc ++ (flip_conn <$> reverse rc)) ca;
    Ok (t :: ts, ca)
  end.

(** src/egraph.rs:502-521 [explain_id_equivalence] and src/explain.rs:1101-1115
    [explain_equivalence], with [optimize_explanation_lengths] off
    ([without_explanation_length_optimization]) *)
Definition explain_id_equivalence (fuel : nat) (l r : nat) (g : egraph) : res (list ttree) :=
  if bool_decide (eg_find g l = eg_find g r) then
    x ← expect (eg_explain g);
    '(p, _) ← explain_enodes fuel x (eg_nodes g) l r ∅;
    Ok p
  else Panic.

(** src/egraph.rs:484-493 [explain_equivalence] *)
Definition explain_equivalence A md (fuel : nat) (e1 e2 : list node) (g : egraph) : res (egraph * list ttree) :=
  '(g, l) ← add_expr_uncanonical A md e1 g;
  '(g, r) ← add_expr_uncanonical A md e2 g;
  p ← explain_id_equivalence fuel l r g;
  Ok (g, p).
(** src/egraph.rs:523-550 [explain_matches], src/run.rs:494-501 (with the length optimiser off;
    it repeats what [explain_id_equivalence] does) *)
Definition explain_matches A md (fuel : nat) (e : list node) (pat : list (EGraphModel.node (pop Op))) (s : subst) (g : egraph) : res (egraph * list ttree) :=
  '(g, l) ← add_expr_uncanonical A md e g;
  '(g, r) ← add_instantiation_noncanonical A md pat s g;
  p ← explain_id_equivalence fuel l r g;
  Ok (g, p).

(** src/explain.rs:1008-1020 [get_union_equalities] *)
Definition union_equalities x : list (nat * nat * nat) :=
  nd ← ex_find x;
  c ← xn_neighbors nd;
  match cn_just c with
  | JRule r => if cn_fwd c then [(cn_current c, cn_next c, r)] else []
  | JCong => []
  end.

(** * Flattening *)
(** src/explain.rs:625-633 [remove_rewrites] *)
Fixpoint remove_rewrites (t : fterm) : fterm :=
  let 'FT n _ _ ks := t in FT n None None (remove_rewrites <$> ks).
(** src/explain.rs:789-795 [has_rewrite_forward] *)
Fixpoint has_forward (t : fterm) : bool :=
  let 'FT _ _ f ks := t in bool_decide (is_Some f) || existsb has_forward ks.
(** src/explain.rs:798-804 [has_rewrite_backward] *)
Fixpoint has_backward (t : fterm) : bool :=
  let 'FT _ b _ ks := t in bool_decide (is_Some b) || existsb has_backward ks.

(** src/explain.rs:636-644, the two assertions *)
Definition combine_rule (mine other : option nat) : res (option nat) :=
  match other with
  | None => Ok mine
  | Some r => match mine with None => Ok (Some r) | Some _ => Panic end
  end.
(** src/explain.rs:635-649 [combine_rewrites] *)
Fixpoint combine_rewrites (t other : fterm) : res fterm :=
  let 'FT n b f ks := t in
  let 'FT _ b' f' ks' := other in
  f ← combine_rule f f';
  b ← combine_rule b b';
  ks ← (fix go (ks ks' : list fterm) : res (list fterm) :=
    match ks, ks' with
    | k :: ks, k' :: ks' => k ← combine_rewrites k k'; ks ← go ks ks'; Ok (k :: ks)
    | _, _ => Ok ks
    end) ks ks';
  Ok (FT n b f ks).

(** src/explain.rs:489-499, one round of the loop of [flatten_proof] *)
Definition flat_join (acc e : list fterm) : res (list fterm) :=
  match e with
  | [] => Panic
  | e0 :: es =>
    match last acc with
    | Some l =>
      if negb (has_forward e0) && negb (has_backward e0) then
        e0 ← combine_rewrites e0 l;
        Ok (removelast acc ++ e0 :: es)
      else Ok (acc ++ e0 :: es)
    | None => Ok (acc ++ e0 :: es)
    end
  end.

(** src/explain.rs:553-564: the terms for the steps of child [i] *)
Definition child_steps (n : node) (reps : list fterm) (i : nat) (steps : list fterm) : list fterm :=
  (fun c => FT n None None (<[i := c]> reps)) <$> steps.
(** src/explain.rs:549-566, the loop over the children's flat proofs, from child [i] on *)
Fixpoint flat_children (n : node) (i : nat) (cps : list (list fterm)) (reps : list fterm) (acc : list fterm)
  : res (list fterm) :=
  match cps with
  | [] => Ok acc
  | cp :: cps =>
    match cp, last acc, last cp with
    | c0 :: steps, Some (FT m b f ks), Some cl =>
      let acc := removelast acc ++ [FT m b f (<[i := c0]> ks)] in
      flat_children n (S i) cps (<[i := remove_rewrites cl]> reps) (acc ++ child_steps n reps i steps)
    | _, _, _ => Panic
    end
  end.
(** src/explain.rs:535-571, given the flat proofs of the children *)
Definition flat_node (n : node) (b f : option nat) (cps : list (list fterm)) : res (list fterm) :=
  reps ← mapM (fun cp => c ← expect (head cp); Ok (remove_rewrites c)) cps;
  p ← flat_children n 0 cps reps [FT n None None reps];
  match p with
  | FT m _ _ ks :: p => Ok (FT m b f ks :: p)
  | [] => Panic
  end.

(** src/explain.rs:534-572 [flatten_explanation], with [flatten_proof] inlined *)
Fixpoint flatten_explanation (t : ttree) : res (list fterm) :=
  let 'TT n b f kids := t in
  cps ← (fix go (kids : list (list ttree)) : res (list (list fterm)) :=
    match kids with
    | [] => Ok []
    | p :: kids =>
      c ← (fix fp (acc : list fterm) (p : list ttree) {struct p} : res (list fterm) :=
             match p with
             | [] => Ok acc
             | t :: p => e ← flatten_explanation t; acc ← flat_join acc e; fp acc p
             end) [] p;
      cs ← go kids;
      Ok (c :: cs)
    end) kids;
  flat_node n b f cps.
(** src/explain.rs:486-503 [flatten_proof] *)
Fixpoint flatten_proof (acc : list fterm) (p : list ttree) : res (list fterm) :=
  match p with
  | [] => Ok acc
  | t :: p => e ← flatten_explanation t; acc ← flat_join acc e; flatten_proof acc p
  end.
(** src/explain.rs:359-364 [make_flat_explanation] *)
Definition make_flat (p : list ttree) : res (list fterm) := flatten_proof [] p.

(** src/explain.rs:506-517 [get_initial_flat_term]; panics when a child proof is empty *)
Fixpoint initial_flat (t : ttree) : res fterm :=
  let 'TT n b f kids := t in
  ks ← (fix go (kids : list (list ttree)) : res (list fterm) :=
    match kids with
    | [] => Ok []
    | (t :: _) :: kids => k ← initial_flat t; ks ← go kids; Ok (k :: ks)
    | [] :: _ => Panic
    end) kids;
  Ok (FT n b f ks).
(** src/explain.rs:520-531 [get_last_flat_term] *)
Fixpoint last_flat (t : ttree) : res fterm :=
  let 'TT n b f kids := t in
  ks ← (fix go (kids : list (list ttree)) : res (list fterm) :=
    match kids with
    | [] => Ok []
    | p :: kids =>
      k ← (fix lst (p : list ttree) : res fterm :=
             match p with [] => Panic | [t] => last_flat t | _ :: p => lst p end) p;
      ks ← go kids;
      Ok (k :: ks)
    end) kids;
  Ok (FT n b f ks).

(** * Terms of ids *)
(** src/egraph.rs:371-387 [id_to_expr_internal]; the expression built so far and the cache *)
Fixpoint id_to_expr_loop (fuel : nat) ns (i : nat) (st : list node * gmap nat nat) : res (list node * gmap nat nat * nat) :=
  match fuel with
  | 0 => OutOfFuel
  | S fuel =>
    match snd st !! i with
    | Some k => Ok (st, k)
    | None =>
      n ← expect (ns !! i);
      '(st, cs) ← (fix go (cs : list nat) (st : list node * gmap nat nat) : res (list node * gmap nat nat * list nat) :=
        match cs with
        | [] => Ok (st, [])
        | c :: cs =>
          '(st, k) ← id_to_expr_loop fuel ns c st;
          '(st, ks) ← go cs st;
          Ok (st, k :: ks)
        end) (nch n) st;
      let '(e, ca) := st in
      '(e, k) ← rx_add e (Node (nop n) cs);
      Ok (e, <[i := k]> ca, k)
    end
  end.
(** src/egraph.rs:364-369 [id_to_expr] *)
Definition id_to_expr (i : nat) (g : egraph) : res (list node) :=
  '((e, _), _) ← id_to_expr_loop (S (length (eg_nodes g))) (eg_nodes g) i ([], ∅);
  Ok e.
End explain.
