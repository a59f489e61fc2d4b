(** Specification vocabulary for runs that must end: rules, hooks and schedulers that do not
    misbehave themselves. *)
From Verif Require Import Base EGraphModel Spec Terms RecExprModel ExprModel PatSpec MachineModel MatchSpec RewriteModel AlgSpec RuleSpec RunnerModel RunnerSpec.

Section spec.
Context {Op D : Type} `{Countable Op} (L : lang Op) (A : analysis Op D).
Notation egraph := (egraph Op D).
Notation rewrite := (rewrite Op D).

(** A rule that [Rewrite::new] accepts, made of well-formed patterns and of client code that
    only uses ids it was given and never deletes e-nodes.  With explanations enabled, a pattern
    cannot be the applier of a multi-pattern (see C30). *)
Record usable (ord : gmap (nat * nat) (node Op) -> list (nat * nat)) (ex : bool) (rw : rewrite) : Prop := {
  us_built : rule_built ord rw;
  us_fine : applier_fine (rw_applier rw);
  us_new : rewrite_new (rw_name rw) (rw_searcher rw) (rw_applier rw) = Some rw;
  us_explained : ex = true -> forall m p, rw_searcher rw = SMulti m -> rw_applier rw <> APattern p;
}.
(** A hook that only uses ids of the e-graph the run started with (and ids it made), never
    deletes e-nodes, and rebuilds what it changed. *)
Record well_behaved {Cl : Type} (ex : bool) (g0 : egraph) (h : hook Op D Cl) : Prop := {
  wb_np : hook_np h;
  wb_tidy : hook_tidy L A ex h;
  wb_ids : forall cl i, uses_known (length (eg_uf g0)) (hk_body h cl i);
}.
(** A scheduler, for every width of [usize], that answers, with matches that searching can
    find, the same for all large enough widths; [J] is an invariant of its state. *)
Record dependable {St : Type} (it : gset nat -> list nat) (cycles : bool) (ord : gmap (nat * nat) (node Op) -> list (nat * nat)) (ex : bool)
    (sch : nat -> scheduler Op D St) (J : St -> Prop) : Prop := {
  dp_search : forall i g rw st, J st -> reachable_np L A ex g -> eg_clean g = true -> searcher_built ord (rw_searcher rw) ->
    exists W ms st', J st' /\ (forall w, W <= w -> sc_search _ (sch w) i g rw st = Ok (ms, st')) /\
      forall m s, m ∈ ms -> s ∈ sm_substs m -> exists k ms0 m0, searcher_search L it cycles (rw_searcher rw) g k = Ok ms0 /\
        m0 ∈ ms0 /\ sm_class m0 = sm_class m /\ s ∈ sm_substs m0;
  dp_stop : forall i st, J st -> exists W b st', J st' /\ forall w, W <= w -> sc_can_stop _ (sch w) i st = Ok (b, st');
}.
End spec.
