(** Model of the functions that build an e-graph from others: [copy_without_unions],
    [id_to_pattern], [egraph_union], [egraph_intersect] (src/egraph.rs:234-429).
    Definitions only. *)
From Verif Require Import Base UnionFind EGraphModel RecExprModel ExprModel ExplainModel.

Section util.
Context {Op D : Type} `{Countable Op} (L : lang Op) (A : analysis Op D).
Notation egraph := (egraph Op D).
Notation node := (node Op).
Notation pnode := (EGraphModel.node (pop Op)).
Context (md : nat -> egraph -> res egraph).

(** src/egraph.rs:243-245, the loop *)
Fixpoint add_all (ns : list node) (g : egraph) : res egraph :=
  match ns with
  | [] => Ok g
  | n :: ns => '(g, _) ← api_add A md n g; add_all ns g
  end.
(** src/egraph.rs:235-247 [copy_without_unions]; the new e-graph has explanations off *)
Definition copy_without_unions (g : egraph) : res egraph :=
  match eg_explain g with
  | None => Panic
  | Some _ => add_all (eg_nodes g) (eg_new false)
  end.

(** src/egraph.rs:405-429 [id_to_pattern_internal].  The state is the pattern built so far,
    the substitution and the cache; [vname i] is the variable with the name "?i". *)
Context (vname : nat -> nat).
Definition pstate : Type := list pnode * subst * gmap nat nat.
Fixpoint id_to_pattern_loop (fuel : nat) (ns : list node) (vs : gmap nat nat) (i : nat) (st : pstate) : res (pstate * nat) :=
  match fuel with
  | 0 => OutOfFuel
  | S fuel =>
    match snd st !! i with
    | Some k => Ok (st, k)
    | None =>
      '(p, s, ca, k) ←
        match vs !! i with
        | Some existing =>
          let '(p, s, ca) := st in
          let '(s, _) := subst_insert s (vname i) existing in
          '(p, k) ← rx_add p (Node (PVar (vname i)) []);
          Ok (p, s, ca, k)
        | None =>
          n ← expect (ns !! i);
          '(st, cs) ← (fix go (cs : list nat) (st : pstate) : res (pstate * list nat) :=
            match cs with
            | [] => Ok (st, [])
            | c :: cs =>
              '(st, k) ← id_to_pattern_loop fuel ns vs c st;
              '(st, ks) ← go cs st;
              Ok (st, k :: ks)
            end) (nch n) st;
          let '(p, s, ca) := st in
          '(p, k) ← rx_add p (Node (POp (nop n)) cs);
          Ok (p, s, ca, k)
        end;
      Ok (p, s, <[i := k]> ca, k)
    end
  end.
(** src/egraph.rs:398-404 [id_to_pattern]; the pattern is represented by its AST *)
Definition id_to_pattern (i : nat) (vs : gmap nat nat) (g : egraph) : res (list pnode * subst) :=
  '(p, s, _, _) ← id_to_pattern_loop (S (length (eg_nodes g))) (eg_nodes g) vs i ([], [], ∅);
  Ok (p, s).

(** src/egraph.rs:252-259, the loop of [egraph_union] *)
Fixpoint import_unions (other : egraph) (us : list (nat * nat * nat)) (g : egraph) : res egraph :=
  match us with
  | [] => Ok g
  | (l, r, why) :: us =>
    '(p, _) ← id_to_pattern l ∅ other;
    '(q, _) ← id_to_pattern r ∅ other;
    '(g, _) ← union_instantiations A md p q [] why g;
    import_unions other us g
  end.
(** src/egraph.rs:249-261 [egraph_union]; [get_union_equalities] (src/egraph.rs:432-440)
    panics when [other] has no explanations *)
Definition egraph_union (fuel : nat) (other g : egraph) : res egraph :=
  x ← expect (eg_explain other);
  g ← import_unions other (union_equalities x) g;
  '(g, _) ← rebuild L A fuel md g;
  Ok g.

(** * Intersection *)
(** [here]: the reason recorded by [union] (the caller location); explanations are off, so
    it is not stored. *)
Context (here : nat).
(** src/egraph.rs:269-287, one run through the list of nodes *)
Fixpoint from_pass (es : list (node * nat)) (ids : gmap nat nat) (g : egraph) (did : bool) : res (egraph * gmap nat nat * bool) :=
  match es with
  | [] => Ok (g, ids, did)
  | (n, id) :: es =>
    if forallb (fun c => bool_decide (is_Some (ids !! c))) (nch n) then
      m ← map_children_o (fun c => ids !! c) n;
      let m := canon g m in
      match eg_lookup g m with
      | Some _ => from_pass es ids g did
      | None =>
        '(g, i) ← api_add A md m g;
        let added := eg_find g i in
        '(g, ids) ← match ids !! id with
                    | Some existing => '(g, _) ← api_union A md existing added here g; Ok (g, ids)
                    | None => Ok (g, <[id := added]> ids)
                    end;
        from_pass es ids g true
      end
    else from_pass es ids g did
  end.
(** src/egraph.rs:266-295, the loop *)
Fixpoint from_loop (fuel : nat) (es : list (node * nat)) (ids : gmap nat nat) (g : egraph) : res egraph :=
  match fuel with
  | 0 => OutOfFuel
  | S fuel =>
    '(g, ids, did) ← from_pass es ids g false;
    if did : bool then from_loop fuel es ids g else Ok g
  end.
(** src/egraph.rs:262-298 [from_enodes] *)
Definition from_enodes (fuel : nat) (es : list (node * nat)) : res egraph := from_loop fuel es ∅ (eg_new false).

Notation pmap := (gmap (nat * nat) nat).
(** src/egraph.rs:319-327 [get_product_id] *)
Definition get_product_id (c1 c2 : nat) (pm : pmap) : pmap * nat :=
  match pm !! (c1, c2) with
  | Some id => (pm, id)
  | None => (<[(c1, c2) := size pm]> pm, size pm)
  end.
(** src/egraph.rs:343-352, the children of a product node *)
Fixpoint product_children (g1 g2 : egraph) (cs ds : list nat) (pm : pmap) : pmap * list nat :=
  match cs, ds with
  | c :: cs, d :: ds =>
    let '(pm, p) := get_product_id (eg_find g1 c) (eg_find g2 d) pm in
    let '(pm, ps) := product_children g1 g2 cs ds pm in
    (pm, p :: ps)
  | _, _ => (pm, [])
  end.
(** src/egraph.rs:338-357, the two loops over the nodes of the classes *)
Fixpoint product_row (g1 g2 : egraph) (n1 : node) (ns2 : list node) (id : nat) (pm : pmap) (es : list (node * nat)) : pmap * list (node * nat) :=
  match ns2 with
  | [] => (pm, es)
  | n2 :: ns2 =>
    if node_matches n1 n2 then
      let '(pm, ps) := product_children g1 g2 (nch n1) (nch n2) pm in
      product_row g1 g2 n1 ns2 id pm (es ++ [(Node (nop n1) ps, id)])
    else product_row g1 g2 n1 ns2 id pm es
  end.
Fixpoint product_rows (g1 g2 : egraph) (ns1 ns2 : list node) (id : nat) (pm : pmap) (es : list (node * nat)) : pmap * list (node * nat) :=
  match ns1 with
  | [] => (pm, es)
  | n1 :: ns1 => let '(pm, es) := product_row g1 g2 n1 ns2 id pm es in product_rows g1 g2 ns1 ns2 id pm es
  end.
(** src/egraph.rs:329-357 [intersect_classes] *)
Definition intersect_classes (g1 g2 : egraph) (c1 c2 : nat) (pm : pmap) (es : list (node * nat)) : res (pmap * list (node * nat)) :=
  let '(pm, id) := get_product_id c1 c2 pm in
  k1 ← expect (eg_classes g1 !! c1);
  k2 ← expect (eg_classes g2 !! c2);
  Ok (product_rows g1 g2 (c_nodes k1) (c_nodes k2) id pm es).
(** src/egraph.rs:308-312, the loops over the classes, in the iteration orders of the two
    hash maps, given as the list of the pairs visited *)
Fixpoint intersect_all (g1 g2 : egraph) (cs : list (nat * nat)) (pm : pmap) (es : list (node * nat)) : res (pmap * list (node * nat)) :=
  match cs with
  | [] => Ok (pm, es)
  | (c1, c2) :: cs => '(pm, es) ← intersect_classes g1 g2 c1 c2 pm es; intersect_all g1 g2 cs pm es
  end.
(** src/egraph.rs:304-317 [egraph_intersect]; [o1], [o2] list the classes in iteration order *)
Definition egraph_intersect (fuel : nat) (o1 o2 : list nat) (g1 g2 : egraph) : res egraph :=
  '(_, es) ← intersect_all g1 g2 (list_prod o1 o2) ∅ [];
  from_enodes fuel es.
End util.
