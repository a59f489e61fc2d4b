(** Executable model of src/egraph.rs (core), src/eclass.rs (data), the state part of
    src/explain.rs, src/util.rs (work queue) and the [Analysis] interface of
    src/language.rs.  Definitions only. *)
From Verif Require Import Base UnionFind.

(** * Unique queue (src/util.rs:157-235) *)
(** src/util.rs:163-169 *)
Record uqueue := UQ { uq_set : gset nat; uq_queue : list nat }.
(** src/util.rs:171-181 *)
Definition uq_empty : uqueue := UQ ∅ [].
(** src/util.rs:187-191; [HashSet::insert] returns whether the element is new. *)
Definition uq_insert (q : uqueue) (t : nat) : uqueue :=
  if decide (t ∈ uq_set q) then q
  else UQ ({[t]} ∪ uq_set q) (uq_queue q ++ [t]).
(** src/util.rs:193-200 *)
Definition uq_extend (q : uqueue) (ts : list nat) : uqueue := foldl uq_insert q ts.
(** src/util.rs:202-206 *)
Definition uq_pop (q : uqueue) : option (nat * uqueue) :=
  match uq_queue q with
  | [] => None
  | t :: ts => Some (t, UQ (uq_set q ∖ {[t]}) ts)
  end.
(** src/util.rs:208-212 *)
Definition uq_is_empty (q : uqueue) : bool := match uq_queue q with [] => true | _ => false end.

(** src/util.rs:105-110 *)
Definition concat_vecs {A} (to from : list A) : list A :=
  if decide (length to < length from) then from ++ to else to ++ from.

(** * E-nodes (src/language.rs:35-225, [Language]) *)
(** A node of a language: its operator (with any payload) and its children.
    Simplification: [Language] implementations are abstracted to this shape. *)
Record node (Op : Type) := Node { nop : Op; nch : list nat }.
Arguments Node {Op} _ _.
Arguments nop {Op} _.
Arguments nch {Op} _.

Global Instance node_eq_dec {Op} `{EqDecision Op} : EqDecision (node Op).
Proof. solve_decision. Defined.
Global Instance node_countable {Op} `{Countable Op} : Countable (node Op).
Proof.
  refine (inj_countable' (fun n => (nop n, nch n)) (fun p => Node p.1 p.2) _).
  by intros [].
Defined.

(** The parts of a [Language] implementation that are not fixed by [node]:
    src/language.rs:44 [discriminant], and the [Ord] instance used by sorting. *)
Record lang (Op : Type) := Lang {
  l_disc : Op -> nat;
  l_leb : node Op -> node Op -> bool;
}.
Arguments l_disc {Op} _ _.
Arguments l_leb {Op} _ _ _.

(** src/language.rs:47-50 [matches]: same operator (and payload) and the same number of
    children; src/macros.rs:112-120 and src/language.rs:975-977 implement it this way. *)
Definition node_matches {Op} `{EqDecision Op} (a b : node Op) : bool :=
  bool_decide (nop a = nop b) && (length (nch a) =? length (nch b)).

(** * Explanation state (src/explain.rs:25-84) *)
(** src/explain.rs [Justification]; rule names are interned symbols, here [nat]. *)
Inductive justif := JRule (r : nat) | JCong.
Global Instance justif_eq_dec : EqDecision justif.
Proof. solve_decision. Defined.

(** src/explain.rs [Connection] *)
Record conn := Conn { cn_next : nat; cn_current : nat; cn_just : justif; cn_fwd : bool }.
(** src/explain.rs [ExplainNode] *)
Record exnode := ExNode { xn_neighbors : list conn; xn_parent : conn }.
(** src/explain.rs [Explain]; [shortest_explanation_memo] maps a pair to (cost, next). *)
Record explain (Op : Type) `{Countable Op} := Explain {
  ex_find : list exnode;
  ex_memo : gmap (node Op) nat;
  ex_short : gmap (nat * nat) (nat * nat);
}.
Arguments Explain {Op _ _} _ _ _.
Arguments ex_find {Op _ _} _.
Arguments ex_memo {Op _ _} _.
Arguments ex_short {Op _ _} _.

(** * E-classes and e-graphs *)
(** src/eclass.rs:9-19 *)
Record eclass (Op D : Type) := EClass {
  c_id : nat;
  c_nodes : list (node Op);
  c_data : D;
  c_parents : list nat;
}.
Arguments EClass {Op D} _ _ _ _.
Arguments c_id {Op D} _.
Arguments c_nodes {Op D} _.
Arguments c_data {Op D} _.
Arguments c_parents {Op D} _.

(** Ghost history of API calls and their results (not in the code; written only by the
    [api_*] wrappers below, read by no modelled function). *)
Inductive event (Op : Type) :=
| EAdd (n : node Op) (i : nat)            (** [add_uncanonical n] returned [i] *)
| EUnion (a b : nat) (r : nat).           (** [union]/[union_trusted] called on [a], [b] *)
Arguments EAdd {Op} _ _.
Arguments EUnion {Op} _ _ _.

(** src/egraph.rs:54-89.  [eg_pending] is the [Vec] used as a stack, top first.
    [eg_analysis] (the analysis value itself) is the parameter of the functions below. *)
Record egraph (Op D : Type) `{Countable Op} := EGraph {
  eg_explain : option (explain Op);
  eg_uf : list nat;
  eg_nodes : list (node Op);
  eg_memo : gmap (node Op) nat;
  eg_pending : list nat;
  eg_apending : uqueue;
  eg_classes : gmap nat (eclass Op D);
  eg_by_op : gmap nat (gset nat);
  eg_clean : bool;
  eg_log : list (event Op);
}.
Arguments EGraph {Op D _ _} _ _ _ _ _ _ _ _ _ _.
Arguments eg_explain {Op D _ _} _.
Arguments eg_uf {Op D _ _} _.
Arguments eg_nodes {Op D _ _} _.
Arguments eg_memo {Op D _ _} _.
Arguments eg_pending {Op D _ _} _.
Arguments eg_apending {Op D _ _} _.
Arguments eg_classes {Op D _ _} _.
Arguments eg_by_op {Op D _ _} _.
Arguments eg_clean {Op D _ _} _.
Arguments eg_log {Op D _ _} _.

Section model.
Context {Op D : Type} `{Countable Op}.
Notation node := (node Op).
Notation egraph := (egraph Op D).
Notation eclass := (eclass Op D).
Notation explain := (explain Op).

(** Field updates. *)
Definition set_explain v (g : egraph) : egraph :=
  EGraph v (eg_uf g) (eg_nodes g) (eg_memo g) (eg_pending g) (eg_apending g)
         (eg_classes g) (eg_by_op g) (eg_clean g) (eg_log g).
Definition set_uf v (g : egraph) : egraph :=
  EGraph (eg_explain g) v (eg_nodes g) (eg_memo g) (eg_pending g) (eg_apending g)
         (eg_classes g) (eg_by_op g) (eg_clean g) (eg_log g).
Definition set_nodes v (g : egraph) : egraph :=
  EGraph (eg_explain g) (eg_uf g) v (eg_memo g) (eg_pending g) (eg_apending g)
         (eg_classes g) (eg_by_op g) (eg_clean g) (eg_log g).
Definition set_memo v (g : egraph) : egraph :=
  EGraph (eg_explain g) (eg_uf g) (eg_nodes g) v (eg_pending g) (eg_apending g)
         (eg_classes g) (eg_by_op g) (eg_clean g) (eg_log g).
Definition set_pending v (g : egraph) : egraph :=
  EGraph (eg_explain g) (eg_uf g) (eg_nodes g) (eg_memo g) v (eg_apending g)
         (eg_classes g) (eg_by_op g) (eg_clean g) (eg_log g).
Definition set_apending v (g : egraph) : egraph :=
  EGraph (eg_explain g) (eg_uf g) (eg_nodes g) (eg_memo g) (eg_pending g) v
         (eg_classes g) (eg_by_op g) (eg_clean g) (eg_log g).
Definition set_classes v (g : egraph) : egraph :=
  EGraph (eg_explain g) (eg_uf g) (eg_nodes g) (eg_memo g) (eg_pending g) (eg_apending g)
         v (eg_by_op g) (eg_clean g) (eg_log g).
Definition set_by_op v (g : egraph) : egraph :=
  EGraph (eg_explain g) (eg_uf g) (eg_nodes g) (eg_memo g) (eg_pending g) (eg_apending g)
         (eg_classes g) v (eg_clean g) (eg_log g).
Definition set_clean v (g : egraph) : egraph :=
  EGraph (eg_explain g) (eg_uf g) (eg_nodes g) (eg_memo g) (eg_pending g) (eg_apending g)
         (eg_classes g) (eg_by_op g) v (eg_log g).
Definition add_log e (g : egraph) : egraph :=
  EGraph (eg_explain g) (eg_uf g) (eg_nodes g) (eg_memo g) (eg_pending g) (eg_apending g)
         (eg_classes g) (eg_by_op g) (eg_clean g) (e :: eg_log g).

Definition c_set_nodes v (c : eclass) : eclass := EClass (c_id c) v (c_data c) (c_parents c).
Definition c_set_data v (c : eclass) : eclass := EClass (c_id c) (c_nodes c) v (c_parents c).
Definition c_set_parents v (c : eclass) : eclass := EClass (c_id c) (c_nodes c) (c_data c) v.

(** src/explain.rs:897-904 [Explain::new] *)
Definition ex_new : explain := Explain [] ∅ ∅.

(** src/egraph.rs:114-128 [EGraph::new], optionally followed by
    [with_explanations_enabled] (201-212), which only allocates the explanation state. *)
Definition eg_new (explanations : bool) : egraph :=
  EGraph (if explanations then Some ex_new else None) [] [] ∅ [] uq_empty ∅ ∅ false [].

(** src/egraph.rs:570-572 [find], 574-576 [find_mut] *)
Definition eg_find (g : egraph) (i : nat) : nat := uf_find (eg_uf g) i.
Definition eg_find_mut (g : egraph) (i : nat) : egraph * nat :=
  let '(u, r) := uf_find_mut (eg_uf g) i in (set_uf u g, r).

(** Vec indexing succeeds for this id (otherwise [find] panics). *)
Definition valid_id (g : egraph) (i : nat) : bool := i <? length (eg_uf g).

(** [enode.update_children(|id| self.find(id))], e.g. src/egraph.rs:935 *)
Definition canon (g : egraph) (n : node) : node := Node (nop n) (eg_find g <$> nch n).

(** [node.update_children(|id| uf.find_mut(id))], e.g. src/egraph.rs:1352, 1272-1275 *)
Fixpoint map_find_mut (u : list nat) (cs : list nat) : list nat * list nat :=
  match cs with
  | [] => (u, [])
  | c :: cs =>
      let '(u, r) := uf_find_mut u c in
      let '(u, rs) := map_find_mut u cs in (u, r :: rs)
  end.
Definition canon_mut (u : list nat) (n : node) : list nat * node :=
  let '(u, cs) := map_find_mut u (nch n) in (u, Node (nop n) cs).

(** src/egraph.rs:923-937 [lookup], [lookup_internal] *)
Definition lookup_internal (g : egraph) (n : node) : option nat := eg_memo g !! canon g n.
Definition eg_lookup (g : egraph) (n : node) : option nat := eg_find g <$> lookup_internal g n.

(** * Explanation bookkeeping *)
(** src/explain.rs:906-919 *)
Definition ex_add (x : explain) (n : node) (set : nat) : res explain :=
  _ ← assert (length (ex_find x) =? set);
  Ok (Explain (ex_find x ++ [ExNode [] (Conn set set JCong false)])
              (<[n := set]> (ex_memo x)) (ex_short x)).

Definition xn_set_parent (c : conn) (x : exnode) : exnode := ExNode (xn_neighbors x) c.
Definition xn_push (c : conn) (x : exnode) : exnode := ExNode (xn_neighbors x ++ [c]) (xn_parent x).

(** src/explain.rs:922-935 [make_leader]: the recursive call reverses the rest of the
    path first, then the edge [node -> next] is reversed. *)
Fixpoint make_leader (fuel : nat) (f : list exnode) (n : nat) : res (list exnode) :=
  match fuel with
  | 0 => OutOfFuel
  | S fuel =>
      x ← expect (f !! n);
      let next := cn_next (xn_parent x) in
      if decide (next = n) then Ok f
      else
        f1 ← make_leader fuel f next;
        x1 ← expect (f1 !! n);
        let pc := Conn n next (cn_just (xn_parent x1)) (negb (cn_fwd (xn_parent x1))) in
        y ← expect (f1 !! next);
        Ok (<[next := xn_set_parent pc y]> f1)
  end.

(** src/explain.rs:937-971 *)
Definition alternate_rewrite (x : explain) (n1 n2 : nat) (j : justif) : res explain :=
  if decide (n1 = n2) then Ok x
  else match ex_short x !! (n1, n2) with
  | Some (0, _) | Some (1, _) => Ok x
  | _ =>
    a ← expect (ex_find x !! n1);
    let f1 := <[n1 := xn_push (Conn n2 n1 j true) a]> (ex_find x) in
    b ← expect (f1 !! n2);
    let f2 := <[n2 := xn_push (Conn n1 n2 j false) b]> f1 in
    Ok (Explain f2 (ex_memo x) (<[(n2, n1) := (1, n1)]> (<[(n1, n2) := (1, n2)]> (ex_short x))))
  end.

(** src/explain.rs:973-1007 [Explain::union] *)
Definition ex_union (x : explain) (n1 n2 : nat) (j : justif) : res explain :=
  f0 ← make_leader (S (length (ex_find x))) (ex_find x) n1;
  let short := match j with
               | JRule _ => <[(n2, n1) := (1, n1)]> (<[(n1, n2) := (1, n2)]> (ex_short x))
               | JCong => ex_short x end in
  a ← expect (f0 !! n1);
  let f1 := <[n1 := xn_push (Conn n2 n1 j true) a]> f0 in
  b ← expect (f1 !! n2);
  let f2 := <[n2 := xn_push (Conn n1 n2 j false) b]> f1 in
  a' ← expect (f2 !! n1);
  let f3 := <[n1 := xn_set_parent (Conn n2 n1 j true) a']> f2 in
  Ok (Explain f3 (ex_memo x) short).

(** * The analysis interface (src/language.rs:797-881) *)
(** A hook or client program over the public API.  [PLook] reads the whole e-graph;
    [PRetain] is [egraph[id].nodes.retain(f)] and [PPoke] is [egraph[id].data = d]
    through [IndexMut] (src/egraph.rs:808-816; used e.g. in tests/math.rs). *)
Inductive prog : Type :=
| PRet
| PLook (k : egraph -> prog)
| PAdd (n : node) (k : nat -> prog)
| PUnion (a b r : nat) (k : bool -> prog)
| PUnionTrusted (a b r : nat) (k : bool -> prog)
| PSetData (i : nat) (d : D) (k : prog)
| PPoke (i : nat) (d : D) (k : prog)
| PRetain (i : nat) (f : node -> bool) (k : prog)
| PRebuild (k : nat -> prog).

(** src/language.rs:797-881 [Analysis].  Simplifications: [make]/[remake] read the
    e-graph but do not change it; [merge] is a pure function returning the merged data
    and the two [DidMerge] flags; [pre_union] gets only [&EGraph] and is dropped. *)
Record analysis := Analysis {
  an_make : egraph -> node -> nat -> D;
  an_remake : egraph -> node -> nat -> D;
  an_merge : D -> D -> D * (bool * bool);
  an_modify : nat -> prog;
}.

Section with_lang_analysis.
Context (L : lang Op) (A : analysis).

(** * Adding (src/egraph.rs:970-1073) *)
(** [self[child].parents.push(id)]: [IndexMut] canonicalises, then indexes [classes]. *)
Definition push_parent (id : nat) (g : egraph) (child : nat) : res egraph :=
  let '(g, r) := eg_find_mut g child in
  c ← expect (eg_classes g !! r);
  Ok (set_classes (<[r := c_set_parents (c_parents c ++ [id]) c]> (eg_classes g)) g).
Fixpoint push_parents (id : nat) (g : egraph) (cs : list nat) : res egraph :=
  match cs with
  | [] => Ok g
  | c :: cs => g ← push_parent id g c; push_parents id g cs
  end.

(** src/egraph.rs:1048-1073; [n] is the canonicalised node, [orig] the original. *)
Definition make_new_eclass (n orig : node) (g : egraph) : res (egraph * nat) :=
  let '(u, id) := uf_make_set (eg_uf g) in
  let g := set_uf u g in
  let cls := EClass id [n] (an_make A g orig id) [] in
  let g := set_nodes (eg_nodes g ++ [orig]) g in
  g ← push_parents id g (nch n);
  let g := set_pending (id :: eg_pending g) g in
  let g := set_classes (<[id := cls]> (eg_classes g)) g in
  _ ← assert (bool_decide (eg_memo g !! n = None));
  Ok (set_memo (<[n := id]> (eg_memo g)) g, id).

(** In what follows a function is split at the point where the code calls the user's
    [N::modify]: [*_core] does everything before the call and returns the id the hook is
    to be run on; [md] is the interpreted hook. *)
Definition run_hook (md : nat -> egraph -> res egraph) (o : option nat) (g : egraph) : res egraph :=
  match o with None => Ok g | Some id => md id g end.

(** src/egraph.rs:1014-1045 up to [N::modify]; returns the id, and the hook target when a
    new class was made. *)
Definition add_core (orig : node) (g : egraph) : res (egraph * nat * option nat) :=
  if negb (forallb (valid_id g) (nch orig)) then Panic
  else
  let n := canon g orig in
  match eg_memo g !! n with
  | Some existing =>
      let id := eg_find g existing in
      match eg_explain g with
      | Some x =>
          match ex_memo x !! orig with
          | Some e => Ok (g, e, None)
          | None =>
              let '(u, new_id) := uf_make_set (eg_uf g) in
              x ← ex_add x orig new_id;
              let '(u, _) := uf_union u id new_id in
              x ← ex_union x existing new_id JCong;
              Ok (set_explain (Some x) (set_nodes (eg_nodes g ++ [orig]) (set_uf u g)),
                  new_id, None)
          end
      | None => Ok (g, existing, None)
      end
  | None =>
      '(g, id) ← make_new_eclass n orig g;
      g ← match eg_explain g with
          | Some x => x ← ex_add x orig id; Ok (set_explain (Some x) g)
          | None => Ok g
          end;
      Ok (g, id, Some id)
  end.

(** src/egraph.rs:1014-1045 *)
Definition add_uncanonical (md : nat -> egraph -> res egraph) (orig : node) (g : egraph)
  : res (egraph * nat) :=
  '(g, id, o) ← add_core orig g;
  match o with
  | None => Ok (g, id)
  | Some hid => g ← md hid g; Ok (set_clean false g, id)
  end.

(** src/egraph.rs:970-973 *)
Definition add (md : nat -> egraph -> res egraph) (n : node) (g : egraph) : res (egraph * nat) :=
  '(g, id) ← add_uncanonical md n g; Ok (g, eg_find g id).

(** * Union (src/egraph.rs:1128-1204) *)
(** src/egraph.rs:1156-1203 up to (not including) the final [N::modify(self, id1)].
    Returns [Some id1] when a union happened.  [pre_union] has no effect on the e-graph. *)
Definition perform_union_core (e1 e2 : nat) (rule : option justif) (g : egraph)
  : res (egraph * option nat) :=
  if negb (valid_id g e1 && valid_id g e2) then Panic
  else
  let g := set_clean false g in
  let '(g, id1) := eg_find_mut g e1 in
  let '(g, id2) := eg_find_mut g e2 in
  if decide (id1 = id2) then
    match rule, eg_explain g with
    | Some (JRule r), Some x =>
        x ← alternate_rewrite x e1 e2 (JRule r); Ok (set_explain (Some x) g, None)
    | _, _ => Ok (g, None)
    end
  else
    k1 ← expect (eg_classes g !! id1);
    k2 ← expect (eg_classes g !! id2);
    let '(id1, id2) :=
      if length (c_parents k1) <? length (c_parents k2) then (id2, id1) else (id1, id2) in
    g ← match eg_explain g with
        | Some x => j ← expect rule; x ← ex_union x e1 e2 j; Ok (set_explain (Some x) g)
        | None => Ok g
        end;
    let g := set_uf (uf_union (eg_uf g) id1 id2).1 g in
    class2 ← expect (eg_classes g !! id2);
    let g := set_classes (delete id2 (eg_classes g)) g in
    class1 ← expect (eg_classes g !! id1);
    _ ← assert (id1 =? c_id class1);
    let g := set_pending (reverse (c_parents class2) ++ eg_pending g) g in
    let '(d, (did1, did2)) := an_merge A (c_data class1) (c_data class2) in
    let q := eg_apending g in
    let q := if did1 : bool then uq_extend q (c_parents class1) else q in
    let q := if did2 : bool then uq_extend q (c_parents class2) else q in
    let g := set_apending q g in
    let class1' := EClass (c_id class1) (concat_vecs (c_nodes class1) (c_nodes class2)) d
                          (concat_vecs (c_parents class1) (c_parents class2)) in
    Ok (set_classes (<[id1 := class1']> (eg_classes g)) g, Some id1).

(** src/egraph.rs:1156-1204 *)
Definition perform_union (md : nat -> egraph -> res egraph) (e1 e2 : nat)
    (rule : option justif) (g : egraph) : res (egraph * bool) :=
  '(g, o) ← perform_union_core e1 e2 rule g;
  g ← run_hook md o g;
  Ok (g, bool_decide (is_Some o)).

(** src/egraph.rs:1128-1130 *)
Definition union_trusted md (a b r : nat) (g : egraph) : res (egraph * bool) :=
  perform_union md a b (Some (JRule r)) g.
(** src/egraph.rs:1147-1154; the caller location is the rule name [r]. *)
Definition union md (a b r : nat) (g : egraph) : res (egraph * bool) :=
  match eg_explain g with
  | Some _ => union_trusted md a b r g
  | None => perform_union md a b None g
  end.

(** src/egraph.rs:1211-1217 *)
Definition set_data_core (i : nat) (d : D) (g : egraph) : res (egraph * nat) :=
  if negb (valid_id g i) then Panic
  else
  let '(g, r) := eg_find_mut g i in
  c ← expect (eg_classes g !! r);
  let g := set_classes (<[r := c_set_data d c]> (eg_classes g)) g in
  Ok (set_apending (uq_extend (eg_apending g) (c_parents c)) g, r).
Definition set_analysis_data (md : nat -> egraph -> res egraph) (i : nat) (d : D) (g : egraph)
  : res egraph :=
  '(g, r) ← set_data_core i d g; md r g.

(** [egraph[i].data = d] / [egraph[i].nodes.retain(f)] (src/egraph.rs:808-816) *)
Definition poke_data (i : nat) (d : D) (g : egraph) : res egraph :=
  if negb (valid_id g i) then Panic
  else
  let '(g, r) := eg_find_mut g i in
  c ← expect (eg_classes g !! r);
  Ok (set_classes (<[r := c_set_data d c]> (eg_classes g)) g).
Definition retain_nodes (i : nat) (f : node -> bool) (g : egraph) : res egraph :=
  if negb (valid_id g i) then Panic
  else
  let '(g, r) := eg_find_mut g i in
  c ← expect (eg_classes g !! r);
  Ok (set_classes (<[r := c_set_nodes (filter (fun n => f n = true) (c_nodes c)) c]> (eg_classes g)) g).

(** * Rebuilding (src/egraph.rs:1262-1446) *)
(** src/egraph.rs:1351-1356: one iteration of the inner loop draining [pending], after
    popping [class]. *)
Definition pending_core (class : nat) (g : egraph) : res (egraph * option nat) :=
  orig ← expect (eg_nodes g !! class);
  let '(u, nd) := canon_mut (eg_uf g) orig in
  let g := set_uf u g in
  let old := eg_memo g !! nd in
  let g := set_memo (<[nd := class]> (eg_memo g)) g in
  match old with
  | Some memo_class => perform_union_core memo_class class (Some JCong) g
  | None => Ok (g, None)
  end.

(** src/egraph.rs:1350-1358 *)
Fixpoint drain_pending (fuel : nat) (md : nat -> egraph -> res egraph) (n_unions : nat)
    (g : egraph) : res (egraph * nat) :=
  match eg_pending g with
  | [] => Ok (g, n_unions)
  | class :: rest =>
      match fuel with
      | 0 => OutOfFuel
      | S fuel =>
          '(g, o) ← pending_core class (set_pending rest g);
          g ← run_hook md o g;
          drain_pending fuel md (n_unions + match o with Some _ => 1 | None => 0 end) g
      end
  end.

(** src/egraph.rs:1361-1370: one iteration of the inner loop draining
    [analysis_pending], after popping [id]. *)
Definition analysis_core (id : nat) (g : egraph) : res (egraph * option nat) :=
  nd ← expect (eg_nodes g !! id);
  let '(g, r) := eg_find_mut g id in
  let nd_data := an_remake A g nd r in
  c ← expect (eg_classes g !! r);
  let '(d, (did1, _)) := an_merge A (c_data c) nd_data in
  let g := set_classes (<[r := c_set_data d c]> (eg_classes g)) g in
  if did1 : bool then
    Ok (set_apending (uq_extend (eg_apending g) (c_parents c)) g, Some r)
  else Ok (g, None).

(** src/egraph.rs:1360-1371 *)
Fixpoint drain_analysis (fuel : nat) (md : nat -> egraph -> res egraph) (g : egraph)
  : res egraph :=
  match uq_pop (eg_apending g) with
  | None => Ok g
  | Some (id, q) =>
      match fuel with
      | 0 => OutOfFuel
      | S fuel =>
          '(g, o) ← analysis_core id (set_apending q g);
          g ← run_hook md o g;
          drain_analysis fuel md g
      end
  end.

(** src/egraph.rs:1346-1378; [inner] is the fuel of each inner loop run. *)
Fixpoint process_unions (fuel inner : nat) (md : nat -> egraph -> res egraph)
    (n_unions : nat) (g : egraph) : res (egraph * nat) :=
  if (match eg_pending g with [] => true | _ => false end) && uq_is_empty (eg_apending g)
  then Ok (g, n_unions)
  else match fuel with
  | 0 => OutOfFuel
  | S fuel =>
      '(g, n) ← drain_pending inner md n_unions g;
      g ← drain_analysis inner md g;
      process_unions fuel inner md n g
  end.

(** [Vec::dedup] on adjacent equal elements. *)
Fixpoint dedup_from (prev : node) (ns : list node) : list node :=
  match ns with
  | [] => []
  | n :: ns => if decide (n = prev) then dedup_from prev ns else n :: dedup_from n ns
  end.
Definition dedup (ns : list node) : list node :=
  match ns with [] => [] | n :: ns => n :: dedup_from n ns end.

Fixpoint canon_nodes_mut (u : list nat) (ns : list node) : list nat * list node :=
  match ns with
  | [] => (u, [])
  | n :: ns =>
      let '(u, n) := canon_mut u n in
      let '(u, ns) := canon_nodes_mut u ns in (u, n :: ns)
  end.

(** [class.nodes.sort_unstable()]: the sorted list is unique for a total order. *)
Definition node_le (a b : node) : Prop := l_leb L a b = true.
Global Instance node_le_dec a b : Decision (node_le a b) := decide (l_leb L a b = true).
Definition sort_nodes (ns : list node) : list node := merge_sort node_le ns.

(** src/egraph.rs:1281-1299: [classes_by_op.entry(disc).or_default().insert(id)] for the
    first node of each run of matching nodes. *)
Definition by_op_add (id : nat) (m : gmap nat (gset nat)) (n : node) : gmap nat (gset nat) :=
  <[l_disc L (nop n) := {[id]} ∪ default ∅ (m !! l_disc L (nop n))]> m.
Fixpoint by_op_scan (id : nat) (prev : node) (ns : list node) (m : gmap nat (gset nat))
  : gmap nat (gset nat) :=
  match ns with
  | [] => m
  | n :: ns => if node_matches prev n then by_op_scan id prev ns m
               else by_op_scan id n ns (by_op_add id m n)
  end.
Definition by_op_class (id : nat) (ns : list node) (m : gmap nat (gset nat)) : gmap nat (gset nat) :=
  match ns with [] => m | n :: ns => by_op_scan id n ns (by_op_add id m n) end.

(** src/egraph.rs:1262-1309, one class. *)
Definition rebuild_class (st : list nat * gmap nat (eclass) * gmap nat (gset nat))
    (kc : nat * eclass) : list nat * gmap nat (eclass) * gmap nat (gset nat) :=
  let '(u, cs, ops) := st in
  let '(k, c) := kc in
  let '(u, ns) := canon_nodes_mut u (c_nodes c) in
  let ns := dedup (sort_nodes ns) in
  (u, <[k := c_set_nodes ns c]> cs, by_op_class (c_id c) ns ops).

(** src/egraph.rs:1262-1309.  The classes are visited in [map_to_list] order (the
    result of [classes_by_op] and the classes does not depend on the order).  The
    count of trimmed nodes is only logged and is not modelled. *)
Definition rebuild_classes (g : egraph) : egraph :=
  let '(u, cs, ops) :=
    foldl rebuild_class (eg_uf g, eg_classes g, (fun _ => ∅) <$> eg_by_op g)
          (map_to_list (eg_classes g)) in
  set_by_op ops (set_classes cs (set_uf u g)).

(** src/egraph.rs:1416-1446 (the debug-only [check_memo] is stated as a theorem). *)
Definition rebuild (fuel : nat) (md : nat -> egraph -> res egraph) (g : egraph)
  : res (egraph * nat) :=
  '(g, n) ← process_unions fuel fuel md 0 g;
  Ok (set_clean true (rebuild_classes g), n).

(** * API calls with ghost history, programs, and the interpreted hook *)
Definition api_add md (n : node) (g : egraph) : res (egraph * nat) :=
  '(g, i) ← add_uncanonical md n g; Ok (add_log (EAdd n i) g, i).
Definition api_union md (a b r : nat) (g : egraph) : res (egraph * bool) :=
  union md a b r (add_log (EUnion a b r) g).
Definition api_union_trusted md (a b r : nat) (g : egraph) : res (egraph * bool) :=
  union_trusted md a b r (add_log (EUnion a b r) g).

Fixpoint run_prog (fuel : nat) (md : nat -> egraph -> res egraph) (p : prog) (g : egraph)
  : res egraph :=
  match p with
  | PRet => Ok g
  | PLook k => run_prog fuel md (k g) g
  | PAdd n k => '(g, i) ← api_add md n g; run_prog fuel md (k i) g
  | PUnion a b r k => '(g, v) ← api_union md a b r g; run_prog fuel md (k v) g
  | PUnionTrusted a b r k => '(g, v) ← api_union_trusted md a b r g; run_prog fuel md (k v) g
  | PSetData i d k => g ← set_analysis_data md i d g; run_prog fuel md k g
  | PPoke i d k => g ← poke_data i d g; run_prog fuel md k g
  | PRetain i f k => g ← retain_nodes i f g; run_prog fuel md k g
  | PRebuild k => '(g, n) ← rebuild fuel md g; run_prog fuel md (k n) g
  end.

(** [N::modify(egraph, id)] interpreted with a bound on hook nesting; a hook that keeps
    triggering itself runs out of fuel (in Rust: unbounded recursion). *)
Fixpoint modify_n (fuel : nat) (id : nat) (g : egraph) : res egraph :=
  match fuel with
  | 0 => OutOfFuel
  | S fuel => run_prog fuel (modify_n fuel) (an_modify A id) g
  end.

(** A client session: an arbitrary (adaptive) program run on a new e-graph. *)
Definition session (fuel : nat) (explanations : bool) (p : prog) : res egraph :=
  run_prog fuel (modify_n fuel) p (eg_new explanations).

End with_lang_analysis.
End model.

Arguments prog Op D {_ _}.
Arguments analysis Op D {_ _}.
Arguments PRet {Op D _ _}.
Global Arguments eg_find : simpl never.
Global Arguments eg_find_mut : simpl never.
Global Arguments canon : simpl never.
Global Arguments canon_mut : simpl never.
Global Arguments uq_insert : simpl never.
Global Arguments uq_extend : simpl never.
Global Arguments uq_pop : simpl never.
Global Arguments concat_vecs : simpl never.
