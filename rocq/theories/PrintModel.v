(** Model of printing explanations: src/explain.rs [get_flat_strings], [get_string],
    [get_string_with_let], [get_tree_size], [FlatTerm::get_string], [get_recexpr], with the
    sharing of tree terms by [Rc] that the last of these look at.  Definitions only.
    As in TextModel.v the s-expressions are those of src/sexp.rs. *)
From Coq Require Import NArith Ascii String.
From Verif Require Import Base UnionFind EGraphModel RecExprModel ExplainModel TextModel.

(** A string literal. *)
Definition ascii_text (s : string) : text := map N_of_ascii (list_ascii_of_string s).
Definition s_explanation : text := Eval vm_compute in ascii_text "Explanation".
Definition s_let : text := Eval vm_compute in ascii_text "let".
Definition s_forward : text := Eval vm_compute in ascii_text "Rewrite=>".
Definition s_backward : text := Eval vm_compute in ascii_text "Rewrite<=".
(** src/explain.rs:301: [v_] and the number in decimal; the fuel is more than the number of
    digits *)
Definition bound_name (k : nat) : text := 118%N :: 95%N :: digits_aux (S k) (N.of_nat k) [].

(** loops that collect results, or update a value, up to the first panic *)
Definition each {A B} (f : A -> res B) : list A -> res (list B) :=
  fix go l := match l with [] => Ok [] | x :: l => y ← f x; ys ← go l; Ok (y :: ys) end.
Definition update {A B} (f : B -> A -> res B) : list A -> B -> res B :=
  fix go l b := match l with [] => Ok b | x :: l => b ← f b x; go l b end.

(** src/explain.rs:459-471 [TreeTerm] behind an [Rc]: [addr] is the address ([Rc] pointer
    equality, explain.rs:92), [cur] and [last] the fields [current] and [last]. *)
Inductive ptree (Op : Type) := PT (addr cur last : nat) (n : node Op) (bwd fwd : option nat) (kids : list (list (ptree Op))).
Arguments PT {Op} _ _ _ _ _ _ _.
Definition paddr {Op} (t : ptree Op) : nat := let 'PT a _ _ _ _ _ _ := t in a.
(** the tree term without address and ids (ExplainModel.v) *)
Fixpoint unshare {Op} (t : ptree Op) : ttree Op := let 'PT _ _ _ n b f kids := t in TT n b f (map (map unshare) kids).

(** * The producer, with its caches and allocations *)
Section produce.
Context {Op D : Type} `{Countable Op}.
Notation node := (node Op).
Notation egraph := (egraph Op D).
Notation explain := (explain Op).
Notation ptree := (ptree Op).
Implicit Types (x : explain) (ns : list node).
(** the next free address and the [NodeExplanationCache] *)
Notation nstate := (nat * gmap nat ptree)%type.
Notation pcache := (gmap (nat * nat) ptree).

(** src/explain.rs:1052-1060, the children in order *)
Section nodes.
Context (rec : nat -> nstate -> res (ptree * nstate)).
Fixpoint rc_nodes (cs : list nat) (st : nstate) : res (list (list ptree) * nstate) :=
  match cs with
  | [] => Ok ([], st)
  | c :: cs => '(t, st) ← rec c st; '(ks, st) ← rc_nodes cs st; Ok ([t] :: ks, st)
  end.
End nodes.
(** src/explain.rs:1048-1065 [node_to_explanation] *)
Fixpoint rc_node (fuel : nat) ns (i : nat) (st : nstate) : res (ptree * nstate) :=
  match fuel with
  | 0 => OutOfFuel
  | S fuel =>
    match st.2 !! i with
    | Some t => Ok (t, st)
    | None =>
      n ← expect (ns !! i);
      '(ks, st) ← rc_nodes (rc_node fuel ns) (nch n) st;
      let t := PT st.1 0 0 n None None ks in
      Ok (t, (S st.1, <[i := t]> st.2))
    end
  end.

Section adjacent.
(** [rec] is [explain_enodes] for the children *)
Context (rec : nat -> nat -> pcache * nstate -> res (list ptree * (pcache * nstate))).
(** src/explain.rs:1273-1285 *)
Fixpoint rc_children (cs ds : list nat) (st : pcache * nstate) : res (list (list ptree) * (pcache * nstate)) :=
  match cs, ds with
  | c :: cs, d :: ds =>
    '(p, st) ← rec c d st;
    '(ps, st) ← rc_children cs ds st;
    Ok (p :: ps, st)
  | _, _ => Ok ([], st)
  end.
(** src/explain.rs:1238-1293 [explain_adjacent] *)
Definition rc_adjacent ns (c : conn) (st : pcache * nstate) : res (ptree * (pcache * nstate)) :=
  match st.1 !! (cn_current c, cn_next c) with
  | Some t => Ok (t, st)
  | None =>
    '(t, (ca, (next, nc))) ← match cn_just c with
      | JRule r =>
        '(t, (next, nc)) ← rc_node (S (length ns)) ns (cn_next c) st.2;
        let 'PT _ _ _ n b f ks := t in
        Ok (if cn_fwd c then PT next (cn_next c) (cn_current c) n b (Some r) ks
            else PT next (cn_next c) (cn_current c) n (Some r) f ks, (st.1, (next, nc)))
      | JCong =>
        n ← expect (ns !! cn_current c);
        m ← expect (ns !! cn_next c);
        if node_matches n m then
          '(ks, (ca, (next, nc))) ← rc_children (nch n) (nch m) st;
          Ok (PT next 0 0 n None None ks, (ca, (next, nc)))
        else Panic
      end;
    Ok (t, (<[(cn_current c, cn_next c) := t]> ca, (S next, nc)))
  end.
(** src/explain.rs:1217-1234 *)
Fixpoint rc_along ns (cs : list conn) (st : pcache * nstate) : res (list ptree * (pcache * nstate)) :=
  match cs with
  | [] => Ok ([], st)
  | c :: cs =>
    '(t, st) ← rc_adjacent ns c st;
    '(ts, st) ← rc_along ns cs st;
    Ok (t :: ts, st)
  end.
End adjacent.
(** src/explain.rs:1202-1236 [explain_enodes] *)
Fixpoint rc_enodes (fuel : nat) x ns (l r : nat) (st : pcache * nstate) : res (list ptree * (pcache * nstate)) :=
  match fuel with
  | 0 => OutOfFuel
  | S fuel =>
    '(t, ns') ← rc_node (S (length ns)) ns l st.2;
    '(lc, rc) ← get_path (S (length (ex_find x))) x l r;
    '(ts, st) ← rc_along (rc_enodes fuel x ns) ns (lc ++ (flip_conn <$> reverse rc)) (st.1, ns');
    Ok (t :: ts, st)
  end.
(** src/egraph.rs:502-521, src/explain.rs:1101-1115, after the optimiser (if it is on) has
    left the memo [ex_short] *)
Definition rc_explain (fuel : nat) (l r : nat) (g : egraph) : res (list ptree) :=
  if bool_decide (eg_find g l = eg_find g r) then
    x ← expect (eg_explain g);
    '(p, _) ← rc_enodes fuel x (eg_nodes g) l r (∅, (0, ∅));
    Ok p
  else Panic.
End produce.

(** * Printing *)
Section print.
Context {Op : Type}.
Notation node := (node Op).
Notation fterm := (fterm Op).
Notation ptree := (ptree Op).
(** [Display] of the operator; the names of rules and reasons; [FromOp] *)
Context (disp : Op -> text) (rname : nat -> text) (from_op : text -> list nat -> option node).

(** src/explain.rs:677-691 and 749-763 *)
Definition annotate (b f : option nat) (e : sexp) : sexp :=
  let e := match b with Some r => SList [SStr s_backward; SStr (rname r); e] | None => e end in
  match f with Some r => SList [SStr s_forward; SStr (rname r); e] | None => e end.
(** src/explain.rs:665-694 [FlatTerm::get_sexp] *)
Fixpoint ft_sexp (t : fterm) : sexp :=
  let 'FT n b f ks := t in
  annotate b f (match nch n with [] => SStr (disp (nop n)) | _ => SList (SStr (disp (nop n)) :: (ft_sexp <$> ks)) end).
(** src/explain.rs:601-606, 661-663 [Display], [get_string] *)
Definition ft_string (t : fterm) : text := print_sexp (ft_sexp t).
(** src/explain.rs:229-234 [get_flat_strings] (the flat explanation is kept in the
    [Explanation] once made; making it again gives the same) *)
Definition flat_strings (p : list (ttree Op)) : res (list text) := fl ← make_flat p; Ok (map ft_string fl).
(** src/explain.rs:153-155 [get_flat_string] *)
Definition flat_string (p : list (ttree Op)) : res text := ls ← flat_strings p; Ok (sep_with [c_nl] ls).
(** src/explain.rs:697-699 [get_recexpr] *)
Definition ft_recexpr (t : fterm) : res (list node) :=
  let s := ft_string (remove_rewrites t) in
  r ← parse_expr from_op (S (length s)) s;
  match r with inr e => Ok e | inl _ => Panic end.

(** src/explain.rs:717-766 [get_sexp_with_bindings] *)
Section bindings.
Context (bs : gmap nat sexp).
Definition look (rec : ptree -> res sexp) (t : ptree) : res sexp :=
  match bs !! paddr t with Some e => Ok e | None => rec t end.
Fixpoint pt_sexp (t : ptree) : res sexp :=
  let 'PT _ _ _ n b f kids := t in
  e ← match nch n with
      | [] => Ok (SStr (disp (nop n)))
      | _ =>
        ks ← each (fun p =>
          match p with
          | [] => Panic
          | [t] => look pt_sexp t
          | _ => es ← each (look pt_sexp) p; Ok (SList (SStr s_explanation :: es))
          end) kids;
        Ok (SList (SStr (disp (nop n)) :: ks))
      end;
  Ok (annotate b f e).
End bindings.
(** src/explain.rs:236-243 [get_sexp] *)
Definition get_sexp (p : list ptree) : res sexp := es ← each (pt_sexp ∅) p; Ok (SList (SStr s_explanation :: es)).
(** src/explain.rs:126-131, 186-188 [Display], [get_string] *)
Definition get_string (p : list ptree) : res text := s ← get_sexp p; Ok (print_sexp s).

(** src/explain.rs:329-346 [find_to_let_bind] *)
Fixpoint find_to_let_bind (t : ptree) (st : gset nat * list ptree) : gset nat * list ptree :=
  let 'PT a _ _ _ _ _ kids := t in
  match kids with
  | [] => st
  | _ =>
    if bool_decide (a ∈ st.1) then (st.1, st.2 ++ [t])
    else foldl (foldl (fun st c => find_to_let_bind c st)) ({[a]} ∪ st.1, st.2) kids
  end.
(** src/explain.rs:299-306, the loop over the terms to bind: the map from addresses to names
    and the definitions in order *)
Fixpoint make_bindings (ts : list ptree) (st : gmap nat sexp * list (text * sexp)) : res (gmap nat sexp * list (text * sexp)) :=
  match ts with
  | [] => Ok st
  | t :: ts =>
    match st.1 !! paddr t with
    | Some _ => make_bindings ts st
    | None =>
      let name := bound_name (length st.2) in
      e ← pt_sexp st.1 t;
      make_bindings ts (<[paddr t := SStr name]> st.1, st.2 ++ [(name, e)])
    end
  end.
(** src/explain.rs:290-325 [get_sexp_with_let] *)
Definition get_sexp_with_let (p : list ptree) : res sexp :=
  let to_bind := (foldl (fun st t => find_to_let_bind t st) (∅, []) p).2 in
  '(bs, defs) ← make_bindings to_bind (∅, []);
  items ← each (look bs (pt_sexp bs)) p;
  Ok (foldr (fun '(name, e) r => SList [SStr s_let; SList [SStr name; e]; r]) (SList (SStr s_explanation :: items)) defs).
(** src/explain.rs:221-225 [get_string_with_let] *)
Definition get_string_with_let (p : list ptree) : res text := s ← get_sexp_with_let p; Ok (pretty_sexp 100 0 s).

(** src/explain.rs:257-288 [tree_size]; the state is [seen] and [seen_adjacent] *)
Fixpoint tree_size (t : ptree) (st : gset nat * gset (nat * nat)) : res (nat * (gset nat * gset (nat * nat))) :=
  let 'PT a c l _ b f kids := t in
  if bool_decide (a ∈ st.1) then Ok (0, st) else
  let seen := {[a]} ∪ st.1 in
  let adj := st.2 in
  let below mine st := update (fun kst p => update (fun '(k, st) t => '(m, st) ← tree_size t st; Ok (k + m, st)) p kst) kids (mine, st) in
  match b, f with
  | Some _, Some _ => Panic
  | None, None => below 0 (seen, adj)
  | _, _ =>
    if bool_decide ((c, l) ∈ adj) then Ok (0, (seen, adj))
    else below 1 (seen, {[(l, c)]} ∪ ({[(c, l)]} ∪ adj))
  end.
(** src/explain.rs:247-255 [get_tree_size] *)
Definition get_tree_size (p : list ptree) : res nat :=
  '(k, _) ← update (fun '(k, st) t => '(m, st) ← tree_size t st; Ok (k + m, st)) p (0, (∅, ∅));
  Ok k.
End print.
