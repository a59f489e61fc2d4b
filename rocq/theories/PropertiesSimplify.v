(** Property C67: simplifying an expression with a runner and an extractor.
    Vocabulary: DeriveSpec.v ([derivable]: equational logic with the rules; [pattern_rule],
    [undoable]), OptimumSpec.v ([rewrites]), SimplifySpec.v ([term_over], [rule_over]: only
    operators of a signature; [nameable]), Spec.v ([Rep]), ExtractSpec.v ([orders],
    [by_operator], [monotone], [superior], [traverses], [geval]: the cost of a term, [cle]: at
    most), RunnerSpec.v ([rule_built], [standard_applier], [honest], [thorough]), TotalSpec.v
    ([usable], [dependable], [ended]), TextSpec.v ([Written], [Names], [blank]). *)
From Coq Require Import NArith.
From Verif Require Import Base UnionFind EGraphModel EGraphPres Spec EGraphReach Terms RecExprModel RecExprProofs ExprModel PatSpec MachineModel MatchSpec
  RewriteModel AlgSpec RuleSpec RunnerModel RunnerSpec BackoffSpec BackoffProofs ExtractModel ExtractSpec ExtractProofs ExtractMain CheckSpec OptimumSpec DeriveSpec TotalSpec RunTotal
  TextModel TextSpec SimplifySpec SimplifyModel SimplifyProofs SimplifyMain SimplifyText
  Examples ExamplesExpr ExamplesMatch ExamplesRewrite ExamplesRun ExamplesExtract ExamplesOptimum ExamplesDerive ExamplesTotal ExamplesText ExamplesSimplify.

(** * C67 *)
(** The expressions given to a new runner with [with_expr]: after a run with any rules and
    however it ended, [roots] has one id per expression, in order, and its class represents
    the expression. *)
Theorem C67_roots {Op D} `{Countable Op} (L : lang Op) (A : analysis Op D) ord clock {St Cl} (sch : scheduler Op D St) li rules fuel here
    (hooks : list (hook Op D Cl)) ex es ts fuel0 g roots rounds st cl r :
  hook_free A -> Forall (rule_built ord) rules ->
  Forall (fun h : hook Op D Cl => forall cl i, no_prune (hk_body h cl i) /\ reasons (fun _ => False) (hk_body h cl i)) hooks ->
  Forall2 ExprTree es ts -> with_exprs L A fuel0 es (eg_new ex, []) = Ok (g, roots) ->
  run L A clock sch li rules fuel here hooks rounds roots g st cl = Ok (Some r) ->
  r_roots r = roots /\ Forall2 (fun t i => Rep (r_eg r) t (eg_find (r_eg r) i)) ts (r_roots r).
Proof.
  intros Hh Hr Hhk Hes Eg Er.
  destruct (front_roots L A Hh ord clock sch li rules fuel here hooks ex Hr Hhk es ts Hes fuel0 g roots Eg rounds st cl r Er) as (H1 & _ & H3). exact (conj H1 H3).
Qed.
Print Assumptions C67_roots.
(** The equality prover: two of the expressions are in one class after a saturated run
    exactly if their equality is derivable from the rules, for rules whose effect the rules
    can undo. *)
Theorem C67_roots_equal {Op D} `{Countable Op} (L : lang Op) (A : analysis Op D) it ord cycles w clock {St} (sch : scheduler Op D St) (J : St -> Prop) li rules fuel here
    ex es ts fuel0 g roots rounds st r j k t u a b :
  hook_free A -> lang_ok L -> enumerates it -> enumerates_keys ord ->
  Forall (rule_built ord) rules -> Forall pattern_rule rules -> Forall (fun rw => standard_applier (rw_applier rw)) rules -> undoable rules ->
  honest L it cycles w sch -> thorough L it true w li sch J -> J st ->
  Forall2 ExprTree es ts -> with_exprs L A fuel0 es (eg_new ex, []) = Ok (g, roots) ->
  run L A clock sch li rules fuel here ([] : list (hook Op D unit)) rounds roots g st () = Ok (Some r) -> r_stop r = Some Saturated ->
  ts !! j = Some t -> ts !! k = Some u -> r_roots r !! j = Some a -> r_roots r !! k = Some b ->
  (eg_find (r_eg r) a = eg_find (r_eg r) b <-> derivable rules (fun _ _ => False) t u).
Proof.
  intros Hh Lo Hit Hord Hr Hp Ha Hun Hon Hth HJ Hes Eg Er Es Ht Hu Ea Eb.
  exact (roots_decide L A Hh Lo it Hit ord Hord clock sch li rules fuel here ex cycles w Hr Hp Hon es ts Hes fuel0 g roots Eg rounds st r Er J Ha Hth HJ Es j k t u a b Hun Ht Hu Ea Eb).
Qed.
Print Assumptions C67_roots_equal.
(** f(x,y) and g(f(y,x)) become equal, f(x,y) and x do not. *)
Example C67_roots_ex : exists g r, Forall2 ExprTree smp_es smp_ts /\ with_exprs natlang unitan 5 smp_es (eg_new false, []) = Ok (g, [2; 4; 0]) /\
  run natlang unitan (fun k => k) simple8 li0 rules1 20 9 ([] : list (hook nat unit unit)) 6 [2; 4; 0] g () () = Ok (Some r) /\ r_stop r = Some Saturated /\
  eg_find (r_eg r) 2 = eg_find (r_eg r) 4 /\ eg_find (r_eg r) 2 <> eg_find (r_eg r) 0.
Proof. exact smp_roots. Qed.

(** [Runner::default().with_expr(&e).run(&rules)] and [find_best] of the root, for any rules
    between patterns, however the run stopped: the answer is an expression whose equality
    with [e] is derivable from the rules, it costs what is reported, and not more than [e].
    If the run saturated, nothing [e] can be rewritten to is cheaper; and if what the rules
    do can be undone by them, nothing that is derivably equal to [e] is. *)
Theorem C67_simplify_correct {Op D C} `{Countable Op} (L : lang Op) (A : analysis Op D) it ord cycles w clock {St} (sch : scheduler Op D St) li rules here ex
    (pcmp : C -> C -> option comparison) cf F order e t fuel rounds st r v best :
  hook_free A -> lang_ok L -> enumerates it -> enumerates_keys ord ->
  Forall (rule_built ord) rules -> Forall pattern_rule rules -> honest L it cycles w sch ->
  orders pcmp -> by_operator cf F -> monotone pcmp cf -> superior pcmp cf -> (forall g, traverses g (order g)) ->
  ExprTree e t -> simplify L A clock sch li rules here pcmp cf order ex fuel rounds st e = Ok (Some (r, v, best)) ->
  exists s, dag best /\ ExprTree best s /\ derivable rules (fun _ _ => False) t s /\ pcmp (geval F s) v = Some Eq /\ cle pcmp v (geval F t) /\
    forall J : St -> Prop, Forall (fun rw => standard_applier (rw_applier rw)) rules -> thorough L it true w li sch J -> J st -> r_stop r = Some Saturated ->
      (forall u, rewrites rules t u -> cle pcmp v (geval F u)) /\
      (undoable rules -> forall u, derivable rules (fun _ _ => False) t u -> cle pcmp v (geval F u)).
Proof.
  intros Hh Lo Hit Hord Hr Hp Hon Ho HF Hm Hs Htr He E.
  exact (simplify_correct L A Hh Lo it Hit ord Hord clock li rules here ex cycles pcmp cf F Ho HF Hm Hs order Htr sch w Hr Hp Hon e t He fuel rounds st r v best E).
Qed.
Print Assumptions C67_simplify_correct.
(** It always answers: for rules whose right-hand sides use only variables of their left-hand
    sides, an analysis without [modify] whose merges settle, any limits and clock. *)
Theorem C67_simplify_total {Op D C} `{Countable Op} (L : lang Op) (A : analysis Op D) Rd it ord cycles clock {St} (sch : nat -> scheduler Op D St) J li rules here ex
    (pcmp : C -> C -> option comparison) cf F order e t st :
  hook_free A -> merge_climbs A Rd -> lang_ok L -> enumerates it -> enumerates_keys ord -> dependable L A it cycles ord ex sch J -> Forall (usable ord ex) rules ->
  orders pcmp -> by_operator cf F -> monotone pcmp cf -> superior pcmp cf -> (forall g, traverses g (order g)) ->
  dag e -> ExprTree e t -> J st ->
  exists N r v best, ended clock li ([] : list (hook Op D unit)) r /\
    forall fuel w rounds, N <= fuel -> N <= w -> 1 `max` li_iter li <= rounds ->
      simplify L A clock (sch w) li rules here pcmp cf order ex fuel rounds st e = Ok (Some (r, v, best)).
Proof.
  intros Hh Hc Lo Hit Hord Hd Hu Ho HF Hm Hs Htr De He HJ.
  exact (simplify_total L A Hh Lo it Hit ord Hord clock li rules here ex cycles pcmp cf F Ho HF Hm Hs order Htr Rd Hc sch J Hd Hu e t st De He HJ).
Qed.
Print Assumptions C67_simplify_total.
(** It invents no operators: the answer is over every signature that covers the expression
    and the rules. *)
Theorem C67_no_new_operators {Op D C} `{Countable Op} (L : lang Op) (A : analysis Op D) ord clock {St} (sch : scheduler Op D St) li rules here ex
    (pcmp : C -> C -> option comparison) cf order (S : Op -> nat -> Prop) e t fuel rounds st r v best :
  hook_free A -> Forall (rule_built ord) rules -> Forall (rule_over S) rules -> orders pcmp -> superior pcmp cf -> (forall g, traverses g (order g)) ->
  ExprTree e t -> (forall n, n ∈ e -> S (nop n) (length (nch n))) ->
  simplify L A clock sch li rules here pcmp cf order ex fuel rounds st e = Ok (Some (r, v, best)) ->
  exists s, ExprTree best s /\ term_over S s.
Proof.
  intros Hh Hr Hov Ho Hs Htr He Hn E.
  exact (simplify_over L A Hh ord clock li rules here ex pcmp cf Ho Hs order Htr S Hov sch Hr e t fuel rounds st r v best He Hn E).
Qed.
Print Assumptions C67_no_new_operators.
(** g(f(g(f(x,y)),y)), of size 7, is simplified to f(y,f(x,y)), of size 5. *)
Example C67_simplify_ex : exists v,
  (Forall (rule_built ord0) rules1 /\ Forall pattern_rule rules1 /\ honest natlang it0 true 8 simple8 /\ Forall (usable ord0 false) rules1 /\
   Forall (rule_over smp_sig) rules1 /\ Forall (fun rw => standard_applier (rw_applier rw)) rules1 /\ undoable rules1 /\ thorough natlang it0 true 8 li0 simple8 (fun _ => True)) /\
  (orders (@usize_pcmp 8) /\ by_operator (@ast_size nat 8) (size_op 8) /\ monotone usize_pcmp (@ast_size nat 8) /\ superior usize_pcmp (@ast_size nat 8) /\
   forall g : egraph nat unit, traverses g (keys g)) /\
  (dag smp_e /\ ExprTree smp_e smp_t /\ forall n, n ∈ smp_e -> smp_sig (nop n) (length (nch n))) /\
  simplify natlang unitan (fun k => k) simple8 li0 rules1 9 usize_pcmp (@ast_size nat 8) keys false 20 6 () smp_e = Ok (Some (smp_r, v, smp_best)) /\
  r_stop smp_r = Some Saturated.
Proof.
  destruct smp_eq as (v & E & Es). exists v. split; [|split; [|split; [|exact (conj E Es)]]].
  - exact (conj rules1_built (conj rules1_pattern (conj (simple_honest natlang it0 true 8) (conj (rules1_usable false)
      (conj rules1_over (conj rules1_standard (conj rules1_undoable (simple_thorough natlang it0 true 8 li0)))))))).
  - exact (conj (usize_orders 8) (conj (ast_size_op 8) (conj (ast_size_monotone 8) (conj (ast_size_superior 8) keys_traverse)))).
  - exact (conj smp_dag (conj smp_tree smp_e_over)).
Qed.

(** From text to text: if all operators of the text and of the rules have names that can be
    printed and read again, then the answer is a text that reads as an expression derivably
    equal to the one given and at most as expensive. *)
Theorem C67_text {Op D C} `{Countable Op} (L : lang Op) (A : analysis Op D) Rd it ord cycles clock {St} (sch : nat -> scheduler Op D St) J li rules here ex
    (pcmp : C -> C -> option comparison) cf F order disp from_op cycle b w0 b' sx t st :
  hook_free A -> merge_climbs A Rd -> lang_ok L -> enumerates it -> enumerates_keys ord -> dependable L A it cycles ord ex sch J -> (forall w, honest L it cycles w (sch w)) ->
  Forall (usable ord ex) rules -> Forall pattern_rule rules -> Forall (rule_over (nameable disp from_op)) rules ->
  orders pcmp -> by_operator cf F -> monotone pcmp cf -> superior pcmp cf -> (forall g, traverses g (order g)) ->
  (forall a cs cs' f, length cs = length cs' -> from_op a cs = Some (Node f cs) -> from_op a cs' = Some (Node f cs')) ->
  blank b -> blank b' -> Written sx w0 -> Names from_op sx t -> term_over (nameable disp from_op) t -> J st ->
  exists N out s, (forall fuel w rounds, N <= fuel -> N <= w -> 1 `max` li_iter li <= rounds ->
      simplify_text L A clock (sch w) li rules here pcmp cf order disp from_op cycle ex fuel rounds st (b ++ w0 ++ b') = Ok (Some out)) /\
    derivable rules (fun _ _ => False) t s /\ cle pcmp (geval F s) (geval F t) /\ term_over (nameable disp from_op) s /\
    forall fuel, length out < fuel -> exists e, parse_expr from_op fuel out = Ok (inr e) /\ dag e /\ ExprTree e s.
Proof.
  intros Hh Hc Lo Hit Hord Hd Hon Hu Hp Hov Ho HF Hm Hs Htr Hlen.
  exact (simplify_text_total L A Hh Lo it Hit ord Hord clock li rules here ex cycles pcmp cf F Ho HF Hm Hs order Htr Rd Hc sch J Hd Hu Hp Hon disp from_op cycle Hlen Hov b w0 b' sx t st).
Qed.
Print Assumptions C67_text.
Example C67_text_ex : hook_free unitan /\ merge_climbs unitan (fun _ _ => False) /\ dependable natlang unitan it0 true ord0 false (simple_scheduler natlang it0 true) (fun _ => True) /\
  Forall (rule_over (nameable sdisp sfrom)) rules1 /\
  (forall a cs cs' f, length cs = length cs' -> sfrom a cs = Some (Node f cs) -> sfrom a cs' = Some (Node f cs')) /\
  Written smp_sx smp_text /\ Names sfrom smp_sx smp_t /\ term_over (nameable sdisp sfrom) smp_t /\
  simplify_text natlang unitan (fun k => k) simple8 li0 rules1 9 usize_pcmp (@ast_size nat 8) keys sdisp sfrom nocycle false 40 6 () ([c_space] ++ smp_text ++ [c_space]) =
    Ok (Some smp_out).
Proof.
  exact (conj unitan_free (conj unitan_climbs (conj (simple_dependable natlang unitan natlang_ok it0 it0_ok true ord0 ord0_ok false)
    (conj rules1_nameable (conj sfrom_len (conj smp_written (conj smp_names (conj smp_nameable smp_text_eq)))))))).
Qed.
