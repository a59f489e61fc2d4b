(** Checking explanations against rules: src/explain.rs:366-442, 608-621, 780-859, 888-897.
    Definitions only. *)
From Verif Require Import Base EGraphModel RecExprModel ExprModel MachineModel RewriteModel ExplainModel.

Section check.
Context {Op D : Type} `{Countable Op}.
Notation node := (node Op).
Notation pnode := (EGraphModel.node (pop Op)).
Notation fterm := (fterm Op).
Notation rewrite := (rewrite Op D).

(** src/explain.rs:608-621 [PartialEq for FlatTerm]: annotations are ignored, and so are
    children beyond the shorter list *)
Fixpoint ft_eqb (a b : fterm) : bool :=
  let 'FT n _ _ ks := a in
  let 'FT m _ _ ls := b in
  node_matches n m &&
  (fix go (ks ls : list fterm) : bool :=
    match ks, ls with
    | k :: ks, l :: ls => ft_eqb k l && go ks ls
    | _, _ => true
    end) ks ls.

(** src/explain.rs:827-859 [make_bindings]; [fuel] bounds the depth of the pattern (the code
    recurses along its indices).  [HashMap<Var, &FlatTerm>] is a [gmap]. *)
Fixpoint make_bindings (fuel : nat) (p : list pnode) (loc : nat) (t : fterm) (b : gmap nat fterm) : res (gmap nat fterm) :=
  match fuel with
  | 0 => OutOfFuel
  | S fuel =>
    n ← expect (p !! loc);
    match nop n with
    | PVar v =>
      match b !! v with
      | Some e => _ ← assert (ft_eqb e t); Ok b
      | None => Ok (<[v := t]> b)
      end
    | POp f =>
      let 'FT m _ _ ks := t in
      _ ← assert (node_matches (Node f (nch n)) m);
      (fix go (cs : list nat) (ks : list fterm) (b : gmap nat fterm) : res (gmap nat fterm) :=
        match cs with
        | [] => Ok b
        | c :: cs =>
          match ks with
          | [] => Panic
          | k :: ks => b ← make_bindings fuel p c k b; go cs ks b
          end
        end) (nch n) ks b
    end
  end.
(** src/explain.rs:806-825 [from_pattern] *)
Fixpoint from_pattern (fuel : nat) (p : list pnode) (loc : nat) (b : gmap nat fterm) : res fterm :=
  match fuel with
  | 0 => OutOfFuel
  | S fuel =>
    n ← expect (p !! loc);
    match nop n with
    | PVar v => expect (b !! v)
    | POp f => ks ← mapM (fun c => from_pattern fuel p c b) (nch n); Ok (FT (Node f (nch n)) None None ks)
    end
  end.
(** src/explain.rs:782-786 [rewrite]; the empty pattern underflows [len() - 1] *)
Definition ft_rewrite (lhs rhs : list pnode) (t : fterm) : res fterm :=
  _ ← assert (negb (length lhs =? 0));
  b ← make_bindings (length lhs) lhs (length lhs - 1) t ∅;
  _ ← assert (negb (length rhs =? 0));
  from_pattern (length rhs) rhs (length rhs - 1) b.

(** [Applier::get_pattern_ast]: src/pattern.rs:347-349, src/rewrite.rs:435-437, and the
    default [None] (src/rewrite.rs:369-371) for multi-patterns and client appliers.
    [Searcher::get_pattern_ast] is [searcher_ast]. *)
Fixpoint applier_ast (a : applier Op D) : option (list pnode) :=
  match a with APattern p => Some p | ACond _ a => applier_ast a | AMulti _ | AFn _ _ _ => None end.

(** src/explain.rs:427-441 [check_rewrite] *)
Definition check_rewrite (cur next : fterm) (rw : rewrite) : res bool :=
  match searcher_ast (rw_searcher rw), applier_ast (rw_applier rw) with
  | Some lhs, Some rhs => t ← ft_rewrite lhs rhs cur; Ok (ft_eqb t next)
  | _, _ => Ok true
  end.

(** src/explain.rs:888-897 [make_rule_table]: the last rule of a name is found. *)
Definition rule_of (rules : list rewrite) (name : nat) : option rewrite :=
  snd <$> list_find (fun rw : rewrite => rw_name rw = name) (reverse rules).

Section rules.
Context (rules : list rewrite).
(** src/explain.rs:396-424 [check_rewrite_at] *)
Definition check_named (cur next : fterm) (name : nat) : res bool :=
  match rule_of rules name with Some w => check_rewrite cur next w | None => Ok true end.
Fixpoint check_rewrite_at (fwd : bool) (cur next : fterm) : res bool :=
  let 'FT _ _ _ ks := cur in
  let 'FT _ b f ls := next in
  match (if fwd then f else b) with
  | Some r => if fwd then check_named cur next r else check_named next cur r
  | None =>
    (fix go (ks ls : list fterm) : res bool :=
      match ks, ls with
      | k :: ks, l :: ls => ok ← check_rewrite_at fwd k l; if (ok : bool) then go ks ls else Ok false
      | _, _ => Ok true
      end) ks ls
  end.
(** src/explain.rs:381-394, the loop over consecutive terms *)
Fixpoint check_steps (cur : fterm) (rest : list fterm) : res unit :=
  match rest with
  | [] => Ok tt
  | next :: rest =>
    _ ← assert (xorb (has_forward next) (has_backward next));
    ok ← check_rewrite_at (has_forward next) cur next;
    _ ← assert ok;
    check_steps next rest
  end.
(** src/explain.rs:368-394 [check_proof], given the flat explanation; a failed assertion is a
    panic *)
Definition check_flat (fl : list fterm) : res unit :=
  match fl with
  | [] => Panic
  | f :: rest =>
    _ ← assert (negb (has_forward f));
    _ ← assert (negb (has_backward f));
    check_steps f rest
  end.
Definition check_proof (p : list (ttree Op)) : res unit := fl ← make_flat p; check_flat fl.
End rules.
End check.
