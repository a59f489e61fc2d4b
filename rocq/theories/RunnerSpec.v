(** Specification vocabulary for the runner: what schedulers, rules and hooks must satisfy. *)
From Verif Require Import Base EGraphModel Spec Terms RecExprModel ExprModel PatSpec MachineModel MatchSpec RewriteModel AlgSpec RuleSpec RunnerModel.

Section spec.
Context {Op D : Type} `{Countable Op} (L : lang Op) (A : analysis Op D).
Notation egraph := (egraph Op D).
Notation prog := (prog Op D).
Notation rewrite := (rewrite Op D).

(** Client code in conditions and appliers stays within the allowed programs. *)
Definition cond_within (Q : prog -> Prop) (c : condition Op D) : Prop :=
  match c with CEqual p1 p2 => good_ast p1 /\ good_ast p2 | CFn _ body _ => forall e s, Q (body e s) end.
Fixpoint applier_within (Q : prog -> Prop) (a : applier Op D) : Prop :=
  match a with
  | APattern p => good_ast p
  | AMulti asts => Forall (fun cl => good_ast cl.2) asts
  | ACond c a => cond_within Q c /\ applier_within Q a
  | AFn _ body _ => forall e s, Q (body e s)
  end.
(** The rules given to the runner: searchers from the constructors, appliers from
    well-formed patterns and client code that never deletes e-nodes. *)
Definition rule_built (ord : gmap (nat * nat) (node Op) -> list (nat * nat)) (rw : rewrite) : Prop :=
  searcher_built ord (rw_searcher rw) /\ applier_within no_prune (rw_applier rw).

(** Any rules made of well-formed patterns and arbitrary client code. *)
Definition rule_shaped (rw : rewrite) : Prop :=
  (forall ast, searcher_ast (rw_searcher rw) = Some ast -> good_ast ast) /\ applier_within (fun _ => True) (rw_applier rw).

(** A scheduler that only reports matches that searching the rule can find (it may skip
    rules, drop matches, reorder them). *)
Definition honest {St} (it : gset nat -> list nat) (cycles : bool) (w : nat) (sch : scheduler Op D St) : Prop :=
  forall i g rw st ms st' m s, sc_search _ sch i g rw st = Ok (ms, st') -> m ∈ ms -> s ∈ sm_substs m ->
    exists k ms0 m0, rewrite_search L it cycles w g rw k = Ok ms0 /\ m0 ∈ ms0 /\ sm_class m0 = sm_class m /\ s ∈ sm_substs m0.

(** What a hook does to the e-graph is true in the algebra. *)
Definition hook_true {V Cl} (F : Op -> list V -> V) (ex : bool) (h : hook Op D Cl) : Prop :=
  forall fuel cl i g g' nu, reachable_np L A ex g -> models F nu (eg_log g) ->
    run_prog L A fuel (modify_n L A fuel) (hk_body h cl i) g = Ok g' ->
    exists nu', models F nu' (eg_log g') /\ forall k, known g k -> nu' k = nu k.
(** A hook that leaves a rebuilt e-graph rebuilt: it only looks at it, or it rebuilds. *)
Definition hook_tidy {Cl} (ex : bool) (h : hook Op D Cl) : Prop :=
  forall fuel cl i g g', reachable_np L A ex g -> eg_clean g = true ->
    run_prog L A fuel (modify_n L A fuel) (hk_body h cl i) g = Ok g' -> eg_clean g' = true.
Definition hook_np {Cl} (h : hook Op D Cl) : Prop := forall cl i, no_prune (hk_body h cl i).

(** The instance of the searcher's pattern(s) under [sg] is represented in class [c]. *)
Definition matched (g : egraph) (s : searcher (Op := Op)) (sg : nat -> option nat) (c : nat) : Prop :=
  match s with
  | SPattern p => forall t, ExprTree (pt_ast p) t -> PRep g sg t c
  | SMulti m => (exists v p ps i, mp_asts m = (v, p) :: ps /\ sg v = Some i /\ c = eg_find g i) /\ Forall (holds g sg) (mp_asts m)
  end.
(** What the applier asserts for that match holds already (and the e-nodes that evaluating
    its conditions adds are there). *)
Fixpoint settled_for (g : egraph) (sg : nat -> option nat) (c : nat) (a : applier Op D) : Prop :=
  match a with
  | APattern p => forall t, ExprTree p t -> PRep g sg t c
  | ACond (CEqual p1 p2) a =>
      (forall t, ExprTree p1 t \/ ExprTree p2 t -> exists r, PRep g sg t r) /\
      ((exists r, forall t, ExprTree p1 t \/ ExprTree p2 t -> PRep g sg t r) -> settled_for g sg c a)
  | _ => False
  end.
(** Appliers the claim is about: patterns, perhaps under [ConditionEqual] conditions, and
    multi-patterns. *)
Fixpoint pattern_like (a : applier Op D) : Prop :=
  match a with
  | APattern p => good_ast p
  | ACond (CEqual p1 p2) a => good_ast p1 /\ rooted p1 /\ good_ast p2 /\ rooted p2 /\ pattern_like a
  | _ => False
  end.
Definition standard_applier (a : applier Op D) : Prop :=
  match a with AMulti asts => asts <> [] /\ Forall (fun cl => good_ast cl.2) asts | _ => pattern_like a end.
(** Every match in [g] of every rule is settled. *)
Definition all_settled (rules : list rewrite) (g : egraph) : Prop :=
  forall rw sg c, rw ∈ rules -> (forall v i, sg v = Some i -> known g i) -> matched g (rw_searcher rw) sg c -> settled_for g sg c (rw_applier rw).

(** Searching the rules one after the other. *)
Inductive searches {St} (sch : scheduler Op D St) (i : nat) (g : egraph) : list rewrite -> St -> list (list smatch) -> St -> Prop :=
| searches_nil st : searches sch i g [] st [] st
| searches_cons rw rs st ms st1 mss st2 :
    sc_search _ sch i g rw st = Ok (ms, st1) -> searches sch i g rs st1 mss st2 -> searches sch i g (rw :: rs) st (ms :: mss) st2.
(** A scheduler that agrees to stop in iteration [i] only if it passed on all matches of all
    rules in that iteration; [J] is an invariant of its state. *)
Definition exhaustive (it : gset nat -> list nat) (cycles : bool) (w : nat) (g : egraph) (rw : rewrite) (ms : list smatch) : Prop :=
  exists k, rewrite_search L it cycles w g rw k = Ok ms /\ n_matches ms < k.
Record thorough {St} (it : gset nat -> list nat) (cycles : bool) (w : nat) (li : limits) (sch : scheduler Op D St) (J : St -> Prop) : Prop := {
  th_search : forall i g rw st ms st', J st -> sc_search _ sch i g rw st = Ok (ms, st') -> J st';
  th_stop : forall i st b st', J st -> sc_can_stop _ sch i st = Ok (b, st') -> J st';
  th_all : forall i g rs st mss st' st'', J st -> i < li_iter li -> searches sch i g rs st mss st' ->
    sc_can_stop _ sch i st' = Ok (true, st'') -> Forall2 (exhaustive it cycles w g) rs mss;
}.

(** The state of a runner whose [run] returned: how many iterations there were, which of
    them report a stop reason, what the stop reason says, and when it is which one. *)
Record ended {St Cl} (clock : nat -> nat) (li : limits) (hooks : list (hook Op D Cl)) (r : runner Op D St Cl) : Prop := {
  en_iters : 1 <= length (r_iters r) <= 1 `max` li_iter li;
  en_mid : forall k itn, r_iters r !! k = Some itn -> (S k < length (r_iters r) -> it_stop itn = None) /\ (0 < k -> it_nodes itn <= li_node li);
  en_tick : 0 < r_tick r /\ forall k, S k < r_tick r -> clock k <= li_time li;
  en_stop : exists itn, last (r_iters r) = Some itn /\ exists s, r_stop r = Some s /\ (it_stop itn = Some s \/ it_stop itn = None) /\
    ((exists x, s = TimeLimit x) <-> li_time li < clock (pred (r_tick r))) /\
    match s with
    | Saturated => it_applied itn = [] /\ it_nodes itn = total_size (r_eg r) /\ it_classes itn = number_of_classes (r_eg r) /\
        total_size (r_eg r) <= li_node li
    | IterationLimit n => n = li_iter li /\ length (r_iters r) = 1 `max` li_iter li /\ (0 < li_iter li -> total_size (r_eg r) <= li_node li)
    | NodeLimit n => li_node li < n <= total_size (r_eg r)
    | TimeLimit x => x = clock (pred (r_tick r))
    | Other m => exists (h : hook Op D Cl) cl g, h ∈ hooks /\ (hk_out h cl (pred (length (r_iters r))) g).2 = Some m
    end;
}.
End spec.
