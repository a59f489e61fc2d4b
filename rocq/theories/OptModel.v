(** Model of the explanation length optimiser, src/explain.rs:1295-1830, which
    [explain_equivalence] runs first when [optimize_explanation_lengths] is on (the default,
    src/explain.rs:902).  Costs ([ProofCost], a [BigUint]) are natural numbers.  Iteration
    orders of hash maps and hash sets are parameters ([cit] for the keys of [classes],
    [it] for sets of ids); the binary heap is a list with a parameter [pop] that takes out
    an element of least cost, which one being free to depend on all earlier pushes. *)
From Verif Require Import Base UnionFind EGraphModel RecExprModel ExprModel ExplainModel.

(** a loop whose body may panic *)
Fixpoint foldM {A B} (f : B -> A -> res B) (l : list A) (b : B) : res B :=
  match l with
  | [] => Ok b
  | a :: l => b ← f b a; foldM f l b
  end.

(** src/explain.rs:860-887 [HeapState]: cost and connection *)
Definition hentry := (nat * conn)%type.
(** src/explain.rs:81 [parent_distance] *)
Notation pdist := (list (nat * nat)).
(** src/explain.rs:71 [shortest_explanation_memo] *)
Notation smemo := (gmap (nat * nat) (nat * nat)).
(** src/explain.rs:18-19 *)
Definition congruence_limit : nat := 2.
Definition greedy_num_iters : nat := 2.

Section opt.
Context {Op D : Type} `{Countable Op}.
Notation node := (node Op).
Notation egraph := (egraph Op D).
Notation eclass := (eclass Op D).
Notation explain := (explain Op).
Implicit Types (x : explain) (ns : list node).

(** ** Ids of a class, and their depths *)
(** src/explain.rs:1295-1307 [find_all_enodes]; the head of [todo] is the top of the stack *)
Fixpoint all_enodes_loop (fuel : nat) x (todo : list nat) (seen : gset nat) : res (gset nat) :=
  match fuel with
  | 0 => OutOfFuel
  | S fuel =>
    match todo with
    | [] => Ok seen
    | cur :: todo =>
      if bool_decide (cur ∈ seen) then all_enodes_loop fuel x todo seen
      else
        nd ← expect (ex_find x !! cur);
        all_enodes_loop fuel x (reverse (cn_next <$> xn_neighbors nd) ++ todo) ({[cur]} ∪ seen)
    end
  end.
Definition find_all_enodes (fuel : nat) x (c : nat) : res (gset nat) := all_enodes_loop fuel x [c] ∅.

(** src/explain.rs:1309-1322 [add_tree_depths] *)
Fixpoint add_tree_depths (fuel : nat) x (i : nat) (dm : gmap nat nat) : res (gmap nat nat * nat) :=
  match fuel with
  | 0 => OutOfFuel
  | S fuel =>
    match dm !! i with
    | Some d => Ok (dm, d)
    | None =>
      p ← xparent x i;
      if bool_decide (p = i) then Ok (<[i := 0]> dm, 0)
      else '(dm, d) ← add_tree_depths fuel x p dm; Ok (<[i := d + 1]> dm, d + 1)
    end
  end.
(** src/explain.rs:1324-1330 [calculate_tree_depths] *)
Definition calculate_tree_depths x : res (gmap nat nat) :=
  foldM (fun dm i => '(dm, _) ← add_tree_depths (S (length (ex_find x))) x i dm; Ok dm) (seq 0 (length (ex_find x))) ∅.

(** ** Distances along the forest *)
Section dist.
Context x ns (ca : gmap (nat * nat) nat) (dm : gmap nat nat).
Section rec.
(** [rec] is [distance_between] for the children *)
Context (rec : nat -> nat -> pdist -> res (nat * pdist)).
(** src/explain.rs:1407-1413, the loop of [congruence_distance] *)
Fixpoint children_distance (cs ds : list nat) (pd : pdist) : res (nat * pdist) :=
  match cs, ds with
  | c :: cs, d :: ds =>
    '(k, pd) ← rec c d pd;
    '(ks, pd) ← children_distance cs ds pd;
    Ok (k + ks, pd)
  | _, _ => Ok (0, pd)
  end.
(** src/explain.rs:1398-1415 [congruence_distance] *)
Definition congruence_distance (cur next : nat) (pd : pdist) : res (nat * pdist) :=
  n ← expect (ns !! cur);
  m ← expect (ns !! next);
  children_distance (nch n) (nch m) pd.
(** src/explain.rs:1417-1428 [connection_distance], also inlined at 1458-1466 *)
Definition connection_distance (c : conn) (pd : pdist) : res (nat * pdist) :=
  match cn_just c with
  | JCong => congruence_distance (cn_current c) (cn_next c) pd
  | JRule _ => Ok (1, pd)
  end.
(** src/explain.rs:1436-1469, the loop of [calculate_parent_distance]; [None] is the
    ancestor [usize::MAX] *)
Fixpoint parent_distance_loop (fuel : nat) (e : nat) (anc : option nat) (pd : pdist) : res pdist :=
  match fuel with
  | 0 => OutOfFuel
  | S fuel =>
    '(p, d) ← expect (pd !! e);
    pp ← xparent x p;
    if bool_decide (pp = p) then Ok pd else
    '(p', d') ← expect (pd !! p);
    if bool_decide (p' <> p) then parent_distance_loop fuel e anc (<[e := (p', d + d')]> pd)
    else match anc with
      | None => Ok pd
      | Some a =>
        dp ← expect (dm !! p);
        da ← expect (dm !! a);
        if dp <=? da then Ok pd else
        nd ← expect (ex_find x !! p);
        '(k, pd) ← connection_distance (xn_parent nd) pd;
        parent_distance_loop fuel e anc (<[p := (pp, k)]> pd)
      end
  end.
(** src/explain.rs:1430-1475 [calculate_parent_distance] *)
Definition parent_distance (e : nat) (anc : option nat) (pd : pdist) : res (nat * pdist) :=
  pd ← parent_distance_loop (S (S (length (ex_find x)) * S (length (ex_find x)))) e anc pd;
  '(_, d) ← expect (pd !! e);
  Ok (d, pd).
(** src/explain.rs:1359-1396 [distance_between]; the subtraction of [BigUint]s panics
    rather than go below zero *)
Definition distance_step (l r : nat) (pd : pdist) : res (nat * pdist) :=
  if bool_decide (l = r) then Ok (0, pd) else
  a ← match ca !! (l, r) with
      | Some a => Ok a
      | None => common_ancestor (S (length (ex_find x))) x ∅ ∅ l r
      end;
  '(_, pd) ← parent_distance l (Some a) pd;
  '(_, pd) ← parent_distance r (Some a) pd;
  '(da, pd) ← parent_distance a None pd;
  '(dl, pd) ← parent_distance l None pd;
  '(dr, pd) ← parent_distance r None pd;
  '(ta, _) ← expect (pd !! a);
  '(tl, _) ← expect (pd !! l);
  '(tr, _) ← expect (pd !! r);
  if bool_decide (ta = tl) && bool_decide (ta = tr) && (2 * da <=? dl + dr) then Ok (dl + dr - 2 * da, pd) else Panic.
End rec.
Fixpoint distance_between (fuel : nat) (l r : nat) (pd : pdist) : res (nat * pdist) :=
  match fuel with
  | 0 => OutOfFuel
  | S fuel => distance_step (distance_between fuel) l r pd
  end.

(** ** Shortest paths *)
Section search.
Context (pop : list (list hentry) -> list hentry -> option (hentry * list hentry)) (cn : list (list nat)) (fuel : nat).
(** src/explain.rs:1583-1591: the rule connections of an id, with their costs *)
Definition rule_entries (cost : nat) (nd : exnode) : list hentry :=
  omap (fun c => match cn_just c with JRule _ => Some (cost + 1, c) | JCong => None end) (xn_neighbors nd).
(** src/explain.rs:1593-1606: the congruence connections of an id, with their costs *)
Fixpoint cong_entries (cost cur : nat) (others : list nat) (pd : pdist) : res (list hentry * pdist) :=
  match others with
  | [] => Ok ([], pd)
  | o :: others =>
    '(k, pd) ← congruence_distance (distance_between fuel) cur o pd;
    '(es, pd) ← cong_entries cost cur others pd;
    Ok ((cost + k, Conn o cur JCong true) :: es, pd)
  end.
(** src/explain.rs:1563-1607, the loop of [shortest_path_modulo_congruence]; [tr] lists what
    was pushed so far, one list for each round *)
Fixpoint search_loop (fl : nat) (goal : nat) (tr : list (list hentry)) (heap : list hentry) (last : gmap nat conn) (pc : gmap nat nat)
    (pd : pdist) : res (gmap nat conn * gmap nat nat * pdist) :=
  match fl with
  | 0 => OutOfFuel
  | S fl =>
    match pop tr heap with
    | None => Ok (last, pc, pd)
    | Some ((cost, c), heap) =>
      let cur := cn_next c in
      match last !! cur with
      | Some _ => search_loop fl goal ([] :: tr) heap last pc pd
      | None =>
        let last := <[cur := c]> last in
        let pc := <[cur := cost]> pc in
        if bool_decide (cur = goal) then Ok (last, pc, pd) else
        nd ← expect (ex_find x !! cur);
        others ← expect (cn !! cur);
        '(ces, pd) ← cong_entries cost cur others pd;
        let new := rule_entries cost nd ++ ces in
        search_loop fl goal (new :: tr) (heap ++ new) last pc pd
      end
    end
  end.
(** src/explain.rs:1629-1640: the way back from [cur] to [start]; [acc] is the path found so
    far, already reversed *)
Fixpoint search_back (fl : nat) (last : gmap nat conn) (start cur : nat) (acc : list conn) : res (list conn) :=
  match fl with
  | 0 => OutOfFuel
  | S fl =>
    if bool_decide (cur = start) then Ok acc else
    match last !! cur with
    | Some c => search_back fl last start (cn_current c) (c :: acc)
    | None => Ok acc
    end
  end.
(** src/explain.rs:1332-1357 [populate_path_length] with [replace_distance] inlined *)
Fixpoint populate_loop (right : nat) (cs : list conn) (sh : smemo) (pd : pdist) : res (smemo * pdist) :=
  match cs with
  | [] => Ok (sh, pd)
  | c :: cs =>
    '(sh, pd) ← populate_loop right cs sh pd;
    '(k, _) ← expect (sh !! (cn_next c, right));
    '(d, pd) ← connection_distance (distance_between fuel) c pd;
    Ok (<[(cn_current c, right) := (k + d, cn_next c)]> sh, pd)
  end.
Definition populate_path_length (right : nat) (cs : list conn) (sh : smemo) (pd : pdist) : res (smemo * pdist) :=
  populate_loop right cs (<[(right, right) := (0, right)]> sh) pd.
(** src/explain.rs:1542-1646 [shortest_path_modulo_congruence] *)
Definition shortest_path (start goal : nat) (sh : smemo) (pd : pdist) : res (list conn * list conn * smemo * pdist) :=
  let e0 := (0, Conn start start JCong true) in
  '(last, pc, pd) ← search_loop fuel goal [[e0]] [e0] ∅ ∅ pd;
  total ← expect (pc !! goal);
  '(d, pd) ← distance_between fuel start goal pd;
  if d <=? total then
    '(lc, rc) ← get_path_unoptimized x start goal;
    Ok (lc, rc, sh, pd)
  else
    cs ← search_back fuel last start goal [];
    '(sh, pd) ← populate_path_length goal cs sh pd;
    Ok (cs, [], sh, pd).

(** src/explain.rs:1673-1694: the pairs of children to look at next.  [a] and [b] are the
    ends of the connection in the direction of travel. *)
Definition cong_pairs (c : conn) (a b : nat) : res (list (nat * nat)) :=
  match cn_just c with
  | JRule _ => Ok []
  | JCong =>
    n ← expect (ns !! a);
    m ← expect (ns !! b);
    Ok (zip (nch n) (nch m))
  end.
Definition path_pairs (lc rc : list conn) : res (list (nat * nat)) :=
  ls ← mapM (fun c => cong_pairs c (cn_current c) (cn_next c)) lc;
  rs ← mapM (fun c => cong_pairs c (cn_next c) (cn_current c)) (reverse rc);
  Ok (mjoin ls ++ mjoin rs).
(** src/explain.rs:1648-1696 [greedy_short_explanations].  [gf] is the variable [fuel] of
    the code.  The inner loop is the part of the queue that is dropped because its class is
    too large; [k] bounds the number of pairs that are not dropped. *)
Fixpoint greedy (k gf : nat) (todo : list (nat * nat)) (sh : smemo) (pd : pdist) {struct k} : res (smemo * pdist) :=
  match k with
  | 0 => OutOfFuel
  | S k =>
    (fix skip (todo : list (nat * nat)) : res (smemo * pdist) :=
      match todo with
      | [] => Ok (sh, pd)
      | (start, goal) :: todo =>
        enodes ← find_all_enodes fuel x start;
        if gf <? base.size enodes then skip todo
        else
          '(lc, rc, sh, pd) ← shortest_path start goal sh pd;
          new ← path_pairs lc rc;
          greedy k (gf - base.size enodes) (todo ++ new) sh pd
      end) todo
  end.
End search.
End dist.

(** ** Congruence edges *)
(** src/explain.rs:1489-1490, 1506-1507: both directions of an edge *)
Definition push_at (cn : list (list nat)) (a b : nat) : res (list (list nat)) :=
  l ← expect (cn !! a); Ok (<[a := l ++ [b]]> cn).
Definition push_both (cn : list (list nat)) (a b : nat) : res (list (list nat)) :=
  cn ← push_at cn a b; push_at cn b a.
(** src/explain.rs:1485-1493: the congruences of the forest *)
Definition forest_neighbors x (st : list (list nat) * nat) : res (list (list nat) * nat) :=
  foldM (fun '(cn, counter) nd =>
    match cn_just (xn_parent nd) with
    | JCong => cn ← push_both cn (cn_current (xn_parent nd)) (cn_next (xn_parent nd)); Ok (cn, S counter)
    | JRule _ => Ok (cn, counter)
    end) (ex_find x) st.
(** src/explain.rs:1497-1519: the ids of one class; [true] for [break 'outer] *)
Fixpoint class_neighbors x ns (u : list nat) (enodes : list nat) (canons : gmap node (list nat)) (cn : list (list nat)) (counter : nat)
  : res (list (list nat) * nat * bool) :=
  match enodes with
  | [] => Ok (cn, counter, false)
  | e :: enodes =>
    n ← expect (ns !! e);
    let n := Node (nop n) (uf_find u <$> nch n) in
    '(canons, cn, counter) ←
      match canons !! n with
      | Some others =>
        cn ← foldM (fun cn o => push_both cn e o) others cn;
        Ok (<[n := others ++ [e]]> canons, cn, counter + length others)
      | None => Ok (<[n := [e]]> canons, cn, S counter)
      end;
    if congruence_limit * length (ex_find x) <? counter then Ok (cn, counter, true)
    else class_neighbors x ns u enodes canons cn counter
  end.
Section orders.
Context (it : gset nat -> list nat) (cit : gmap nat eclass -> list nat).
(** src/explain.rs:1495-1520, the loop over the classes *)
Fixpoint classes_neighbors (fuel : nat) x ns (u : list nat) (cs : list nat) (cn : list (list nat)) (counter : nat)
  : res (list (list nat)) :=
  match cs with
  | [] => Ok cn
  | c :: cs =>
    enodes ← find_all_enodes fuel x c;
    '(cn, counter, stop) ← class_neighbors x ns u (it enodes) ∅ cn counter;
    if stop : bool then Ok cn else classes_neighbors fuel x ns u cs cn counter
  end.
(** src/explain.rs:1477-1521 [find_congruence_neighbors] *)
Definition find_congruence_neighbors (fuel : nat) x ns (classes : gmap nat eclass) (u : list nat) : res (list (list nat)) :=
  '(cn, counter) ← forest_neighbors x (replicate (length (ex_find x)) [], 0);
  classes_neighbors fuel x ns u (cit classes) cn counter.
(** src/explain.rs:1523-1536 [get_num_congr] and src/egraph.rs:453-465 *)
Definition get_num_congr (fuel : nat) (g : egraph) : res nat :=
  x ← expect (eg_explain g);
  cn ← find_congruence_neighbors fuel x (eg_nodes g) (eg_classes g) (eg_uf g);
  Ok (Nat.div2 (sum_list (length <$> cn))).

(** ** Common ancestors, off line *)
(** what [tarjan_ocla] works on: [black_set], [unionfind], [ancestor], [common_ancestor] *)
Record tstate := TState { ts_black : gset nat; ts_uf : list nat; ts_anc : list nat; ts_tab : gmap (nat * nat) nat }.
(** src/explain.rs:1726-1732: the queries of an id against the ids done before *)
Definition tarjan_query (e : nat) (st : tstate) (o : nat) : res tstate :=
  if bool_decide (o ∈ ts_black st) then
    a ← expect (ts_anc st !! uf_find (ts_uf st) o);
    Ok (TState (ts_black st) (ts_uf st) (ts_anc st) (<[(o, e) := a]> (<[(e, o) := a]> (ts_tab st))))
  else Ok st.
(** src/explain.rs:1698-1734 [tarjan_ocla] *)
Fixpoint tarjan (fuel : nat) (kids queries : gmap nat (list nat)) (e : nat) (st : tstate) : res tstate :=
  match fuel with
  | 0 => OutOfFuel
  | S fuel =>
    _ ← expect (ts_anc st !! e);
    let st := TState (ts_black st) (ts_uf st) (<[e := e]> (ts_anc st)) (ts_tab st) in
    cs ← expect (kids !! e);
    st ← foldM (fun st c =>
      st ← tarjan fuel kids queries c st;
      let u := (uf_union (ts_uf st) e c).1 in
      _ ← expect (ts_anc st !! uf_find u e);
      Ok (TState (ts_black st) u (<[uf_find u e := e]> (ts_anc st)) (ts_tab st))) cs st;
    match queries !! e with
    | None => Ok st
    | Some os =>
      foldM (tarjan_query e) os (TState ({[e]} ∪ ts_black st) (ts_uf st) (ts_anc st) (ts_tab st))
    end
  end.
(** src/explain.rs:1755-1764: one query, entered at both ends *)
Definition add_query (q : gmap nat (list nat)) (a b : nat) : gmap nat (list nat) :=
  let q := <[a := default [] (q !! a) ++ [b]]> q in
  <[b := default [] (q !! b) ++ [a]]> q.
(** src/explain.rs:1745-1767: a query for each pair of differing children of congruent ids.
    It is entered under the congruent ids themselves, not under the children. *)
Definition ancestor_queries ns (cn : list (list nat)) : res (gmap nat (list nat)) :=
  foldM (fun q '(s, others) =>
    foldM (fun q o =>
      n ← expect (ns !! s);
      m ← expect (ns !! o);
      Ok (foldl (fun q '(l, r) => if bool_decide (l = r) then q else add_query q s o) q (zip (nch n) (nch m)))) others q)
    (imap (fun i o => (i, o)) cn) ∅.
(** src/explain.rs:1778-1786: the children of each id of the class in the forest *)
Definition forest_kids x (enodes : gset nat) : res (gmap nat (list nat)) :=
  foldM (fun km e =>
    p ← xparent x e;
    if bool_decide (p = e) then Ok km
    else l ← expect (km !! p); Ok (<[p := l ++ [e]]> km)) (it enodes) (gset_to_gmap [] enodes).
(** src/explain.rs:1790-1793: the root above an id *)
Fixpoint climb_root (fuel : nat) x (i : nat) : res nat :=
  match fuel with
  | 0 => OutOfFuel
  | S fuel =>
    p ← xparent x i;
    if bool_decide (p = i) then Ok i else climb_root fuel x p
  end.
(** src/explain.rs:1740-1806 [calculate_common_ancestor] *)
Definition calculate_common_ancestor (fuel : nat) x ns (classes : gmap nat eclass) (cn : list (list nat)) : res (gmap (nat * nat) nat) :=
  q ← ancestor_queries ns cn;
  let ids := seq 0 (length (ex_find x)) in
  st ← foldM (fun st c =>
    enodes ← find_all_enodes fuel x c;
    km ← forest_kids x enodes;
    e ← expect (head (it enodes));
    root ← climb_root (S (length (ex_find x))) x e;
    tarjan fuel km q root (TState ∅ (ts_uf st) (ts_anc st) (ts_tab st))) (cit classes) (TState ∅ ids ids ∅);
  Ok (ts_tab st).

(** ** The whole *)
Context (pop : list (list hentry) -> list hentry -> option (hentry * list hentry)).
(** src/explain.rs:1808-1830 [calculate_shortest_explanations] *)
Definition calculate_shortest (fuel : nat) (start goal : nat) x ns (classes : gmap nat eclass) (u : list nat) : res explain :=
  cn ← find_congruence_neighbors fuel x ns classes u;
  ca ← calculate_common_ancestor fuel x ns classes cn;
  dm ← calculate_tree_depths x;
  let pd := (fun i => (i, 0)) <$> seq 0 (length (ex_find x)) in
  let gf := greedy_num_iters * length (ex_find x) in
  '(sh, _) ← greedy x ns ca dm pop cn fuel (S (S gf)) gf [(start, goal)] (ex_short x) pd;
  Ok (Explain (ex_find x) (ex_memo x) sh).
(** src/egraph.rs:502-521 [explain_id_equivalence] and src/explain.rs:1101-1115
    [explain_equivalence], with [optimize_explanation_lengths] on *)
Definition explain_id_equivalence_opt (fuel : nat) (l r : nat) (g : egraph) : res (egraph * list (ttree Op)) :=
  if bool_decide (eg_find g l = eg_find g r) then
    x ← expect (eg_explain g);
    x ← calculate_shortest fuel l r x (eg_nodes g) (eg_classes g) (eg_uf g);
    '(p, _) ← explain_enodes fuel x (eg_nodes g) l r ∅;
    Ok (set_explain (Some x) g, p)
  else Panic.
End orders.
End opt.
