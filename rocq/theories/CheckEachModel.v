(** The runner's own check of the recorded steps: src/explain.rs:1067-1099, src/egraph.rs:1448-1454,
    src/run.rs:596-598.  Definitions only. *)
From Verif Require Import Base EGraphModel RecExprModel ExprModel MachineModel RewriteModel RunnerModel ExplainModel CheckModel.

Section each.
Context {Op D : Type} `{Countable Op}.
Notation egraph := (egraph Op D).
Notation node := (node Op).
Notation fterm := (fterm Op).

(** src/explain.rs:1067-1074 [node_to_flat_explanation]; [fuel] bounds the depth of the term *)
Fixpoint node_to_flat (fuel : nat) (ns : list node) (i : nat) : res fterm :=
  match fuel with
  | 0 => OutOfFuel
  | S fuel =>
    n ← expect (ns !! i);
    ks ← mapM (node_to_flat fuel ns) (nch n);
    Ok (FT n None None ks)
  end.
(** src/explain.rs:1078-1097, body of the loop: the link from [i] to its parent *)
Definition check_link (rules : list (rewrite Op D)) (ns : list node) (i : nat) (c : conn) : res bool :=
  if decide (cn_next c = i) then Ok true
  else
    cur ← node_to_flat (S (length ns)) ns i;
    next ← node_to_flat (S (length ns)) ns (cn_next c);
    match cn_just c with
    | JRule r => if cn_fwd c then check_named rules cur next r else check_named rules next cur r
    | JCong => Ok true
    end.
Fixpoint check_links (rules : list (rewrite Op D)) (ns : list node) (i : nat) (f : list exnode) : res bool :=
  match f with
  | [] => Ok true
  | x :: f =>
    ok ← check_link rules ns i (xn_parent x);
    if (ok : bool) then check_links rules ns (S i) f else Ok false
  end.
(** src/egraph.rs:1448-1454 with src/explain.rs:1076-1099 [check_each_explain] *)
Definition check_each_explain (rules : list (rewrite Op D)) (g : egraph) : res bool :=
  match eg_explain g with
  | Some x => check_links rules (eg_nodes g) 0 (ex_find x)
  | None => Panic
  end.
(** src/run.rs:596-598: the assertion of a debug build *)
Definition debug_check (rules : list (rewrite Op D)) (g : egraph) : res unit :=
  if explaining g then ok ← check_each_explain rules g; assert ok else Ok tt.

(** src/run.rs:525-637, 443-459 in a debug build.  The assertion stands between the rebuild and
    the question to the scheduler whether the run may stop; the latter does not see the
    e-graph, so here the assertion is made after it. *)
Section run.
Context (L : lang Op) (A : analysis Op D) (clock : nat -> nat) {St Cl : Type} (sch : scheduler Op D St) (li : limits)
  (rules : list (rewrite Op D)) (fuel here : nat) (hooks : list (hook Op D Cl)).
Definition run_one_debug (r : runner Op D St Cl) : res (runner Op D St Cl * iteration) :=
  '(r, iter) ← run_one L A clock sch li rules fuel here hooks r;
  _ ← debug_check rules (r_eg r);
  Ok (r, iter).
Fixpoint run_loop_debug (rounds : nat) (r : runner Op D St Cl) : res (option (runner Op D St Cl)) :=
  match rounds with
  | 0 => Ok None
  | S rounds =>
      '(r, iter) ← run_one_debug r;
      let iters := r_iters r ++ [iter] in
      match it_stop iter with
      | Some s => Ok (Some (Runner (r_eg r) iters (r_roots r) (Some s) (r_st r) (r_cl r) (r_tick r)))
      | None =>
          match check_limits clock li (length iters) (r_tick r) (r_eg r) with
          | Some s => Ok (Some (Runner (r_eg r) iters (r_roots r) (Some s) (r_st r) (r_cl r) (S (r_tick r))))
          | None => run_loop_debug rounds (Runner (r_eg r) iters (r_roots r) (r_stop r) (r_st r) (r_cl r) (S (r_tick r)))
          end
      end
  end.
Definition run_debug (rounds : nat) (roots : list nat) (g : egraph) (st : St) (cl : Cl) : res (option (runner Op D St Cl)) :=
  '(g, _) ← rebuild L A fuel (modify_n L A fuel) g;
  run_loop_debug rounds (Runner g [] roots None st cl 0).
End run.
End each.
