(** E-matching: src/eclass.rs [for_each_matching_node], src/machine.rs (compiler and
    register machine), src/pattern.rs and src/rewrite.rs (searching), src/multipattern.rs.
    Definitions only. *)
From Verif Require Import Base EGraphModel RecExprModel ExprModel.

Section matching.
Context {Op : Type} `{Countable Op} (L : lang Op).
Notation node := (node Op).

(** [slice::binary_search] (std): on a strictly sorted slice both the index of the element
    and the insertion point are the number of smaller elements. *)
Definition node_lt (a b : node) : bool := l_leb L a b && negb (bool_decide (a = b)).
Definition bsearch (n : node) (ns : list node) : nat := length (filter (fun m => node_lt m n = true) ns).
Definition same_disc (n m : node) : bool := l_disc L (nop m) =? l_disc L (nop n).
(** src/eclass.rs:91-97, the loop moving [start] back; [start - 1] is always in range, an
    out-of-range index stops the walk here. *)
Fixpoint walk_back (n : node) (ns : list node) (start : nat) : nat :=
  match start with
  | 0 => 0
  | S k => match ns !! k with
           | Some m => if same_disc n m then walk_back n ns k else S k
           | None => S k
           end
  end.
Fixpoint take_while {X} (f : X -> bool) (l : list X) : list X :=
  match l with [] => [] | x :: l => if f x then x :: take_while f l else [] end.
(** src/eclass.rs:88 [windows(2).all(|w| w[0] < w[1])] *)
Fixpoint strictly_sorted (ns : list node) : bool :=
  match ns with
  | a :: (b :: _) as ns => node_lt a b && strictly_sorted ns
  | _ => true
  end.
Definition matches_of (n : node) (ns : list node) : list node := filter (fun m => node_matches n m = true) ns.
(** src/eclass.rs:70-114; the three [debug_assert]s are checked. *)
Definition matching_nodes (n : node) (ns : list node) : res (list node) :=
  if length ns <? 50 then Ok (matches_of n ns)
  else
    _ ← assert (forallb (fun c => c =? 0) (nch n));
    _ ← assert (strictly_sorted ns);
    let start := walk_back n ns (bsearch n ns) in
    let ms := matches_of n (take_while (same_disc n) (drop start ns)) in
    _ ← assert (length ms =? length (matches_of n ns));
    Ok ms.
End matching.

(** * Instructions (src/machine.rs:23-35) *)
Inductive instr (Op : Type) :=
| IBind (n : node Op) (i out : nat)
| ICompare (i j : nat)
| ILookup (term : list (node Op + nat)) (i : nat)
| IScan (out : nat).
Arguments IBind {Op} _ _ _.
Arguments ICompare {Op} _ _.
Arguments ILookup {Op} _ _.
Arguments IScan {Op} _.
(** src/machine.rs:17-21; the [Subst] of a program maps variables to registers. *)
Record program (Op : Type) := Program { pg_code : list (instr Op); pg_subst : subst }.
Arguments Program {Op} _ _.
Arguments pg_code {Op} _.
Arguments pg_subst {Op} _.

Section machine.
Context {Op D : Type} `{Countable Op} (L : lang Op).
Notation node := (node Op).
Notation egraph := (egraph Op D).
Notation instr := (instr Op).
(** Iteration order of hash sets and maps: an arbitrary enumeration. *)
Context (it : gset nat -> list nat).

(** [&egraph[id]] (src/egraph.rs, [Index]) *)
Definition class_of (g : egraph) (x : nat) : res (eclass Op D) :=
  i ← find_res g x; expect (eg_classes g !! i).
(** [egraph.classes()], the ids of the classes in iteration order *)
Definition class_ids (g : egraph) : list nat :=
  omap (fun r => c_id <$> eg_classes g !! r) (it (dom (eg_classes g))).

Section run.
Context (g : egraph) {S : Type} (yield : list nat -> S -> res (S * bool)).
(** [try_for_each] and [for … ?]: stop as soon as the body returns [Err] ([true]).  The
    register file is mutable state threaded through the iterations. *)
Fixpoint try_each {X} (f : X -> list nat -> S -> res (list nat * S * bool)) (xs : list X) (reg : list nat) (s : S)
  : res (list nat * S * bool) :=
  match xs with
  | [] => Ok (reg, s, false)
  | x :: xs =>
      '(reg, s, stop) ← f x reg s;
      if (stop : bool) then Ok (reg, s, true) else try_each f xs reg s
  end.
(** src/machine.rs:76-91, the loop of [Lookup]: [None] when some lookup fails. *)
Fixpoint lookup_term (reg : list nat) (tm : list (node + nat)) (ids : list nat) : res (option (list nat)) :=
  match tm with
  | [] => Ok (Some ids)
  | inl n :: tm =>
      m ← map_children_o (fun c => ids !! c) n;
      o ← lookup_res g m;
      match o with
      | Some i => lookup_term reg tm (ids ++ [i])
      | None => Ok None
      end
  | inr r :: tm =>
      x ← expect (reg !! r);
      i ← find_res g x;
      lookup_term reg tm (ids ++ [i])
  end.
(** src/machine.rs:43-106 [Machine::run]; result: registers left behind, state of the
    callback, and whether the callback asked to stop. *)
Fixpoint run (code : list instr) (reg : list nat) (s : S) : res (list nat * S * bool) :=
  match code with
  | [] => '(s, stop) ← yield reg s; Ok (reg, s, stop)
  | IBind n i out :: rest =>
      x ← expect (reg !! i);
      c ← class_of g x;
      ms ← matching_nodes L n (c_nodes c);
      try_each (fun m reg s => run rest (take out reg ++ nch m) s) ms reg s
  | IScan out :: rest =>
      try_each (fun r reg s => run rest (take out reg ++ [r]) s) (class_ids g) reg s
  | ICompare i j :: rest =>
      x ← expect (reg !! i); fx ← find_res g x;
      y ← expect (reg !! j); fy ← find_res g y;
      if fx =? fy then run rest reg s else Ok (reg, s, false)
  | ILookup tm i :: rest =>
      o ← lookup_term reg tm [];
      match o with
      | None => Ok (reg, s, false)
      | Some ids =>
          x ← expect (reg !! i); fx ← find_res g x;
          if bool_decide (last ids = Some fx) then run rest reg s else Ok (reg, s, false)
      end
  end.
End run.

(** src/machine.rs:321-338, the callback: state is (matches found, remaining limit).
    [cycles] is [allow_ematching_cycles()]. *)
Definition yield_match (cycles : bool) (sub : subst) (reg : list nat) (s : list subst * nat) : res (list subst * nat * bool) :=
  let '(ms, limit) := s in
  if negb cycles && match reg with [] => false | x :: reg => bool_decide (x ∈ reg) end then Ok (ms, limit, false)
  else
    vec ← expect (mapM (fun '(v, r) => x ← reg !! r; Some (v, x)) sub);
    Ok (ms ++ [vec], limit - 1, limit - 1 =? 0).
(** src/machine.rs:296-343 [run_with_limit] *)
Definition run_with_limit (cycles : bool) (pg : program Op) (g : egraph) (eclass : nat) (limit : nat) : res (list subst) :=
  _ ← assert (eg_clean g);
  if limit =? 0 then Ok []
  else '(_, (ms, _), _) ← run g (yield_match cycles (pg_subst pg)) (pg_code pg) [eclass] ([], limit); Ok ms.
End machine.

(** * Compiler (src/machine.rs:109-293) *)
Section compiler.
Context {Op : Type} `{Countable Op}.
Notation node := (node Op).
Notation pnode := (pnode Op).
Notation instr := (instr Op).

(** The two cases of [ENodeOrVar]. *)
Definition pview (n : pnode) : node + nat :=
  match nop n with POp f => inl (Node f (nch n)) | PVar v => inr v end.

(** src/machine.rs:109-116 *)
Record cstate := CS {
  cs_v2r : subst;
  cs_free : list (gset nat);
  cs_size : list nat;
  cs_todo : gmap (nat * nat) node;
  cs_code : list instr;
  cs_next : nat;
}.
(** src/machine.rs:119-128 *)
Definition cs_new : cstate := CS [] [] [] ∅ [] 0.
Definition set_v2r v (s : cstate) := CS v (cs_free s) (cs_size s) (cs_todo s) (cs_code s) (cs_next s).
Definition set_todo v (s : cstate) := CS (cs_v2r s) (cs_free s) (cs_size s) v (cs_code s) (cs_next s).
Definition push (i : instr) (s : cstate) := CS (cs_v2r s) (cs_free s) (cs_size s) (cs_todo s) (cs_code s ++ [i]) (cs_next s).
Definition set_load f z (s : cstate) := CS (cs_v2r s) f z (cs_todo s) (cs_code s) (cs_next s).
Definition set_next v (s : cstate) := CS (cs_v2r s) (cs_free s) (cs_size s) (cs_todo s) (cs_code s) v.

(** src/machine.rs:130-143 *)
Definition add_todo (p : list pnode) (id reg : nat) (s : cstate) : res cstate :=
  n ← expect (p !! id);
  match pview n with
  | inr v =>
      match subst_get (cs_v2r s) v with
      | Some j => Ok (push (ICompare reg j) s)
      | None => Ok (set_v2r (subst_insert (cs_v2r s) v reg).1 s)
      end
  | inl n => Ok (set_todo (<[(id, reg) := n]> (cs_todo s)) s)
  end.

(** src/machine.rs:145-168 [load_pattern] *)
Fixpoint load_loop (p : list pnode) (free : list (gset nat)) (size : list nat) : res (list (gset nat) * list nat) :=
  match p with
  | [] => Ok (free, size)
  | n :: p =>
      match pview n with
      | inl n =>
          fs ← expect (mapM (fun c => free !! c) (nch n));
          zs ← expect (mapM (fun c => size !! c) (nch n));
          load_loop p (free ++ [⋃ fs]) (size ++ [1 + sum_list zs])
      | inr v => load_loop p (free ++ [{[v]}]) (size ++ [0])
      end
  end.
Definition load_pattern (p : list pnode) (s : cstate) : res cstate :=
  '(f, z) ← load_loop p [] [];
  Ok (set_load f z s).

(** Iteration order of the hash map of work items: an arbitrary enumeration of its keys. *)
Context (ord : gmap (nat * nat) node -> list (nat * nat)).

Definition bound (s : cstate) (v : nat) : bool := bool_decide (is_Some (subst_get (cs_v2r s) v)).
(** src/machine.rs:175-184, the sort key; [isize] is [Z]. *)
Definition todo_key (s : cstate) (k : nat * nat) : option (bool * nat * Z) :=
  fv ← cs_free s !! k.1;
  z ← cs_size s !! k.1;
  let n_bound := length (filter (fun v => bound s v = true) (elements fv)) in
  let n_free := size fv - n_bound in
  Some (n_free =? 0, n_free, (- Z.of_nat z)%Z).
Definition key_leb (a b : bool * nat * Z) : bool :=
  let '(a1, a2, a3) := a in
  let '(b1, b2, b3) := b in
  if bool_decide (a1 = b1) then
    if a2 =? b2 then (a3 <=? b3)%Z else a2 <? b2
  else b1.
(** [Iterator::max_by_key]: the last of the greatest elements. *)
Fixpoint max_by {X} (best : X * (bool * nat * Z)) (l : list (X * (bool * nat * Z))) : X :=
  match l with
  | [] => best.1
  | x :: l => max_by (if key_leb best.2 x.2 then x else best) l
  end.
(** src/machine.rs:170-191 [next] *)
Definition next_todo (s : cstate) : res (option (nat * nat * node * cstate)) :=
  ks ← expect (mapM (fun k => x ← todo_key s k; Some (k, x)) (ord (cs_todo s)));
  match ks with
  | [] => Ok None
  | k :: ks =>
      let '(id, reg) := max_by k ks in
      n ← expect (cs_todo s !! (id, reg));
      Ok (Some (id, reg, n, set_todo (delete (id, reg) (cs_todo s)) s))
  end.
(** src/machine.rs:195-199 *)
Definition is_ground_now (s : cstate) (id : nat) : res bool :=
  fv ← expect (cs_free s !! id);
  Ok (forallb (bound s) (elements fv)).
(** src/machine.rs:238-246 *)
Definition lookup_code (s : cstate) (e : list pnode) : res (list (node + nat)) :=
  expect (mapM (fun n => match pview n with inl n => Some (inl n) | inr v => r ← subst_get (cs_v2r s) v; Some (inr r) end) e).
(** src/machine.rs:259-261 *)
Fixpoint add_todos (p : list pnode) (cs : list nat) (reg : nat) (s : cstate) : res cstate :=
  match cs with
  | [] => Ok s
  | c :: cs => s ← add_todo p c reg s; add_todos p cs (S reg) s
  end.
(** src/machine.rs:234-263, the main loop *)
Fixpoint compile_loop (fuel : nat) (p : list pnode) (next_out : nat) (s : cstate) : res (cstate * nat) :=
  match fuel with
  | 0 => OutOfFuel
  | S fuel' =>
      o ← next_todo s;
      match o with
      | None => Ok (s, next_out)
      | Some (id, reg, n, s) =>
          gr ← is_ground_now s id;
          if gr && negb (length (nch n) =? 0) then
            e ← rx_extract fuel p id;
            tm ← lookup_code s e;
            compile_loop fuel' p next_out (push (ILookup tm reg) s)
          else
            let s := push (IBind (Node (nop n) ((fun _ => 0) <$> nch n)) reg next_out) s in
            s ← add_todos p (nch n) next_out s;
            compile_loop fuel' p (next_out + length (nch n)) s
      end
  end.
(** src/machine.rs:207-215, the closure [add_new_pattern] *)
Definition add_new_pattern (p : list pnode) (root : nat) (s : cstate) : res cstate :=
  let s := match cs_code s with [] => s | _ => push (IScan (cs_next s)) s end in
  add_todo p root (cs_next s) s.
(** src/machine.rs:201-265 *)
Definition compile (fuel : nat) (binder : option nat) (p : list pnode) (s : cstate) : res cstate :=
  s ← load_pattern p s;
  root ← rx_root p;
  '(s, next_out) ←
    match binder with
    | Some v =>
        match subst_get (cs_v2r s) v with
        | Some i => s ← add_todo p root i s; Ok (s, cs_next s)
        | None =>
            s ← add_new_pattern p root s;
            Ok (set_v2r (subst_insert (cs_v2r s) v (cs_next s)).1 s, S (cs_next s))
        end
    | None => s ← add_new_pattern p root s; Ok (s, S (cs_next s))
    end;
  '(s, next_out) ← compile_loop fuel p next_out s;
  Ok (set_next next_out s).
(** src/machine.rs:267-276 *)
Definition cs_extract (s : cstate) : program Op :=
  Program (cs_code s) (foldl (fun sub '(v, r) => (subst_insert sub v r).1) [] (cs_v2r s)).
(** src/machine.rs:280-286 *)
Definition compile_from_pat (fuel : nat) (p : list pnode) : res (program Op) :=
  s ← compile fuel None p cs_new; Ok (cs_extract s).
(** src/machine.rs:288-294 *)
Fixpoint compile_all (fuel : nat) (ps : list (nat * list pnode)) (s : cstate) : res cstate :=
  match ps with
  | [] => Ok s
  | (v, p) :: ps => s ← compile fuel (Some v) p s; compile_all fuel ps s
  end.
Definition compile_from_multi_pat (fuel : nat) (ps : list (nat * list pnode)) : res (program Op) :=
  s ← compile_all fuel ps cs_new; Ok (cs_extract s).

(** * Patterns (src/pattern.rs:66-125) *)
Record pattern := Pattern { pt_ast : list pnode; pt_prog : program Op }.
(** src/pattern.rs:106-110 *)
Definition pattern_new (fuel : nat) (ast : list pnode) : res pattern :=
  ast ← rx_compact ast;
  pg ← compile_from_pat fuel ast;
  Ok (Pattern ast pg).
(** src/pattern.rs:113-124 *)
Fixpoint vars_loop (p : list pnode) (vars : list nat) : list nat :=
  match p with
  | [] => vars
  | n :: p => match pview n with
              | inr v => vars_loop p (if bool_decide (v ∈ vars) then vars else vars ++ [v])
              | inl _ => vars_loop p vars
              end
  end.
Definition ast_vars (p : list pnode) : list nat := vars_loop p [].
(** src/multipattern.rs:13-17, 55-58 *)
Record multipattern := MultiPattern { mp_asts : list (nat * list pnode); mp_prog : program Op }.
Definition multipattern_new (fuel : nat) (asts : list (nat * list pnode)) : res multipattern :=
  pg ← compile_from_multi_pat fuel asts; Ok (MultiPattern asts pg).
End compiler.

(** * Searching *)
Section search.
Context {Op D : Type} `{Countable Op} (L : lang Op) (it : gset nat -> list nat) (cycles : bool).
Notation pnode := (pnode Op).
Notation egraph := (egraph Op D).

(** src/pattern.rs:283-291 [SearchMatches]; the AST is carried separately in the model. *)
Record smatch := SMatch { sm_class : nat; sm_substs : list subst }.

(** src/pattern.rs:318-335, and the end of src/multipattern.rs:122-131 *)
Definition search_eclass_program (pg : program Op) (g : egraph) (eclass limit : nat) : res (option smatch) :=
  substs ← run_with_limit L it cycles pg g eclass limit;
  Ok (match substs with [] => None | _ => Some (SMatch eclass substs) end).
Definition search_eclass_with_limit (p : pattern) (g : egraph) (eclass limit : nat) : res (option smatch) :=
  search_eclass_program (pt_prog p) g eclass limit.
(** src/rewrite.rs:139-168 [search_eclasses_with_limit], for any searcher *)
Fixpoint search_eclasses (se : nat -> nat -> res (option smatch)) (classes : list nat) (limit : nat) : res (list smatch) :=
  match classes with
  | [] => Ok []
  | c :: classes =>
      if limit =? 0 then Ok []
      else
        o ← se c limit;
        match o with
        | None => search_eclasses se classes limit
        | Some m =>
            _ ← assert (length (sm_substs m) <=? limit);
            ms ← search_eclasses se classes (limit - length (sm_substs m));
            Ok (m :: ms)
        end
  end.
(** src/pattern.rs:300-316 [search_with_limit] *)
Definition search_with_limit (p : pattern) (g : egraph) (limit : nat) : res (list smatch) :=
  n ← expect (last (pt_ast p));
  match pview n with
  | inl n =>
      match eg_by_op g !! l_disc L (nop n) with
      | None => Ok []
      | Some ids => search_eclasses (search_eclass_with_limit p g) (it ids) limit
      end
  | inr _ => search_eclasses (search_eclass_with_limit p g) (class_ids it g) limit
  end.
(** src/multipattern.rs:105-132 *)
Definition multi_search_eclass (p : multipattern) (g : egraph) (eclass limit : nat) : res (option smatch) :=
  match mp_asts p with
  | [] => Panic
  | (_, [n]) :: _ => match pview n with inr _ => Panic | inl _ => search_eclass_program (mp_prog p) g eclass limit end
  | _ => search_eclass_program (mp_prog p) g eclass limit
  end.
(** src/rewrite.rs [Searcher::search_with_limit], default method *)
Definition multi_search (p : multipattern) (g : egraph) (limit : nat) : res (list smatch) :=
  search_eclasses (multi_search_eclass p g) (class_ids it g) limit.
(** src/multipattern.rs:134-147 [Searcher::vars] (the final [sort] and [dedup] make a sorted
    list without duplicates; modelled as a set) *)
Definition multi_vars (asts : list (nat * list pnode)) : gset nat :=
  list_to_set (concat ((fun '(v, p) => v :: ast_vars p) <$> asts)).
End search.
