(** Properties C52: soundness with analyses that tell the truth.
    Vocabulary: Spec.v ([reachable], [known], [class_data], [Rep]), AlgSpec.v ([models],
    [premise], [value_of], [geval]), RunnerSpec.v ([rule_built], [hook_np], [honest]),
    TruthSpec.v ([sound_analysis], [truthful], [true_state], [rule_true]). *)
From Verif Require Import Base EGraphModel EGraphPres EGraphMain Spec EGraphReach Terms RecExprModel ExprModel PatSpec MachineModel MatchSpec MatchProps RewriteModel AlgSpec RunnerModel
  RunnerSpec TruthSpec TruthRun Examples ExamplesExpr ExamplesMatch ExamplesRewrite ExamplesRun ExamplesTruth.

(** * C52 *)
(** Let the analysis be sound for an algebra ([says d x]: the data [d] is true of [x]) and its
    modify hook truthful.  A program of API calls that only states what is true (it may look
    at the e-graph and its data, add, union, overwrite data, rebuild) leads from an e-graph
    true of the values [nu] to one true of values extending [nu]: ids of a class have one
    value, which is that of every e-node of the class, and its data are true of it. *)
Theorem C52_truthful_programs {Op D V} `{Countable Op} (L : lang Op) (A : analysis Op D) (F : Op -> list V -> V) (says : D -> V -> Prop) ex fuel p nu g g' :
  sound_analysis A F says -> truthful_hook A F says ->
  reachable L A ex g -> models F nu (eg_log g) -> data_true says nu g ->
  truthful F says (length (eg_uf g)) nu p -> run_prog L A fuel (modify_n L A fuel) p g = Ok g' ->
  exists nu', models F nu' (eg_log g') /\ data_true says nu' g' /\ true_state F says nu' g' /\ forall k, known g k -> nu' k = nu k.
Proof. intros SA TH. exact (truthful_run L A F says SA TH ex fuel p nu g g'). Qed.
Print Assumptions C52_truthful_programs.
(** In particular from a new e-graph. *)
Theorem C52_truthful_sessions {Op D V} `{Countable Op} (L : lang Op) (A : analysis Op D) (F : Op -> list V -> V) (says : D -> V -> Prop) ex fuel p g (x0 : V) :
  sound_analysis A F says -> truthful_hook A F says ->
  (forall nu, truthful F says 0 nu p) -> session L A fuel ex p = Ok g ->
  exists nu, models F nu (eg_log g) /\ true_state F says nu g.
Proof. intros SA TH. exact (truthful_session L A F says SA TH ex fuel p g x0). Qed.
Print Assumptions C52_truthful_sessions.
(** Constant folding (the hook adds the constant to the class): x = 3 makes s(s(x)) the
    constant 5. *)
Example C52_ex_sessions : sound_analysis foldan foldF is_const /\ truthful_hook foldan foldF is_const /\
  (forall nu, truthful foldF is_const 0 nu foldp) /\ session natlang foldan 30 true foldp = Ok fold_g /\
  class_data fold_g 2 = Some (Some 5) /\ class_data fold_g 0 = Some (Some 3).
Proof.
  exact (conj foldan_sound (conj foldan_hook (conj foldp_true (conj fold_g_session
    (conj (ltac:(vm_compute; reflexivity) : class_data fold_g 2 = Some (Some 5)) (ltac:(vm_compute; reflexivity) : class_data fold_g 0 = Some (Some 3))))))).
Qed.

(** Equality saturation with such an analysis, and with rules that are true in the algebra,
    where conditions and custom appliers may use the data and call the API: the final e-graph
    is true of values extending [nu], terms of one class are equal in the algebra, and the
    data of a class are true of the value of every term it represents. *)
Theorem C52_runs_are_sound {Op D V} `{Countable Op} (L : lang Op) (A : analysis Op D) (F : Op -> list V -> V) (says : D -> V -> Prop) it ord cycles w clock {St Cl}
    (sch : scheduler Op D St) li rules fuel here (hooks : list (hook Op D Cl)) ex rounds roots g st cl r nu :
  sound_analysis A F says -> truthful_hook A F says -> lang_ok L -> enumerates it -> enumerates_keys ord ->
  Forall (rule_built ord) rules -> Forall hook_np hooks -> honest L it cycles w sch ->
  Forall (rule_true F says) rules -> Forall (hook_truthful F says) hooks ->
  reachable_np L A ex g -> models F nu (eg_log g) -> data_true says nu g ->
  run L A clock sch li rules fuel here hooks rounds roots g st cl = Ok (Some r) ->
  (exists nu', models F nu' (eg_log (r_eg r)) /\ true_state F says nu' (r_eg r) /\ (forall k, known g k -> nu' k = nu k)) /\
  (forall t1 t2 i, Rep (r_eg r) t1 i -> Rep (r_eg r) t2 i -> geval F t1 = geval F t2) /\
  (forall t i d, Rep (r_eg r) t i -> class_data (r_eg r) i = Some d -> says d (geval F t)) /\
  (forall i j, known g i -> known g j -> eg_find (r_eg r) i = eg_find (r_eg r) j -> nu i = nu j).
Proof.
  intros SA TH Lo Hit Hord Hr Hk Hon Hv Ht.
  exact (run_true L A F says SA TH clock sch li rules fuel here hooks Lo it Hit cycles w ord Hord ex Hr Hk Hon Hv Ht rounds roots g st cl r nu).
Qed.
Print Assumptions C52_runs_are_sound.
(** f(?0,?1) => ?0 if the data of ?1 is 0, and a custom applier folding f of two constants:
    f(x,0) becomes x and f(3,3) becomes 6. *)
Example C52_ex_runs : Forall (rule_built ord0) fold_rules /\ Forall (rule_true foldF is_const) fold_rules /\
  reachable_np natlang foldan false truth_g /\ models foldF truth_nu (eg_log truth_g) /\ data_true is_const truth_nu truth_g /\
  run natlang foldan (fun k => k) fold_sch li0 fold_rules 20 9 ([] : list (hook nat (option nat) unit)) 6 [] truth_g () () = Ok (Some fold_r) /\
  eg_find truth_g 3 <> eg_find truth_g 0 /\ eg_find (r_eg fold_r) 3 = eg_find (r_eg fold_r) 0 /\
  eg_find truth_g 4 <> eg_find truth_g 5 /\ eg_find (r_eg fold_r) 4 = eg_find (r_eg fold_r) 5 /\ class_data (r_eg fold_r) 4 = Some (Some 6).
Proof.
  split; [exact fold_rules_built|]. split; [exact fold_rules_true|]. split; [exact truth_g_np|]. split; [exact truth_g_models|].
  split; [exact truth_g_data|]. split; [exact fold_run_eq|].
  split; [vm_compute; lia|]. split; [vm_compute; reflexivity|]. split; [vm_compute; lia|]. split; vm_compute; reflexivity.
Qed.
