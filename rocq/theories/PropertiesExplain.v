(** Property theorems about explanations (C38, C40, C41, C42).
    Vocabulary: ExplainSpec.v ([proves], [flat_proves], [plain], [erase], [teq], [AddedAs],
    [asserted]), ExplainModes.v ([run_tcmds], [stated], [mentioned]), Terms.v ([ExprTree]), Spec.v ([Rep]). *)
From Verif Require Import Base EGraphModel Spec EGraphReach Terms RecExprModel ExprModel ExplainModel ExplainSpec ExplainProofs ExplainFlat ExplainMain
  ExplainModes Examples ExamplesExplain.

(** * C38 *)
(** With or without explanations: two ids of a rebuilt e-graph are equal exactly if their
    terms are equal in the least congruence generated by the unions asserted, as equations
    between terms.  (Ids do not occur on the right.) *)
Theorem C38_equality_of_terms {Op D} `{Countable Op} (L : lang Op) (A : analysis Op D) ex (g : egraph Op D) i j t u :
  reachable L A ex g -> eg_clean g = true -> AddedAs (eg_log g) i t -> AddedAs (eg_log g) j u ->
  eg_find g i = eg_find g j <-> teq (asserted (eg_log g)) t u.
Proof. exact (teq_iff L A ex g i j t u). Qed.
Print Assumptions C38_equality_of_terms.
Example C38_ex : reachable natlang unitan true (exp_g true) /\ eg_clean (exp_g true) = true /\
  AddedAs (eg_log (exp_g true)) 4 hxt /\ AddedAs (eg_log (exp_g true)) 6 hzt /\ eg_find (exp_g true) 4 = eg_find (exp_g true) 6.
Proof. split_and!; [apply exp_reachable|apply exp_clean|apply exp_added..|apply exp_same]. Qed.

(** The same client, adding expressions and stating equations between them, run in either
    mode: whatever ids it got, two of its terms are equal in one e-graph iff in the other. *)
Theorem C38_modes_agree {Op D D'} `{Countable Op} (L L' : lang Op) (A : analysis Op D) (A' : analysis Op D')
    fuel fuel' ex ex' cs (g : egraph Op D) (g' : egraph Op D') t u i j i' j' :
  hook_free A -> hook_free A' -> Forall exprs_ok cs ->
  run_tcmds L A fuel cs (eg_new ex) = Ok g -> run_tcmds L' A' fuel' cs (eg_new ex') = Ok g' ->
  eg_clean g = true -> eg_clean g' = true ->
  AddedAs (eg_log g) i t -> AddedAs (eg_log g) j u -> AddedAs (eg_log g') i' t -> AddedAs (eg_log g') j' u ->
  eg_find g i = eg_find g j <-> eg_find g' i' = eg_find g' j'.
Proof.
  intros Hh Hh' Hc E E' Ec Ec' Hi Hj Hi' Hj'.
  rewrite (stated_all L A Hh ex fuel cs g t u i j Hc E Ec Hi Hj).
  exact (iff_sym (stated_all L' A' Hh' ex' fuel' cs g' t u i' j' Hc E' Ec' Hi' Hj')).
Qed.
Print Assumptions C38_modes_agree.
(** ... and all the terms it mentioned are there; equal exactly if that follows from what it stated. *)
Theorem C38_stated_equalities {Op D} `{Countable Op} (L : lang Op) (A : analysis Op D) ex fuel cs (g : egraph Op D) t u :
  hook_free A -> Forall exprs_ok cs -> run_tcmds L A fuel cs (eg_new ex) = Ok g -> eg_clean g = true ->
  mentioned cs t -> mentioned cs u ->
  exists i j, AddedAs (eg_log g) i t /\ AddedAs (eg_log g) j u /\ (eg_find g i = eg_find g j <-> teq (stated cs) t u).
Proof. intros Hh. exact (stated_equal L A Hh ex fuel cs g t u). Qed.
Print Assumptions C38_stated_equalities.
(** the second e-graph has two ids less *)
Example C38_modes_ex : hook_free unitan /\ Forall exprs_ok exp_cmds /\
  (forall ex, run_tcmds natlang unitan 20 exp_cmds (eg_new ex) = Ok (exp_g ex) /\ eg_clean (exp_g ex) = true) /\
  mentioned exp_cmds hxt /\ mentioned exp_cmds hzt /\
  length (eg_uf (exp_g true)) = 7 /\ length (eg_uf (exp_g false)) = 5.
Proof.
  split_and!; [done|apply exp_exprs|intros ex; split; [apply exp_g_run|apply exp_clean]|apply exp_mentioned..|vm_compute; reflexivity|vm_compute; reflexivity].
Qed.

(** * C40 *)
(** In every e-graph a client can reach (rebuilt or not), two equal ids have an explanation:
    the producer neither panics nor runs forever, and what it answers is a proof that the
    term of the first id equals the term of the second, by asserted equations, used forwards
    or backwards at the root, and proofs about the children. *)
Theorem C40_explanations_exist_and_are_valid {Op D} `{Countable Op} (L : lang Op) (A : analysis Op D) (g : egraph Op D) l r t u :
  reachable L A true g -> AddedAs (eg_log g) l t -> AddedAs (eg_log g) r u -> eg_find g l = eg_find g r ->
  exists bound, forall fuel, bound <= fuel ->
    exists p, explain_id_equivalence fuel l r g = Ok p /\ proves (asserted (eg_log g)) p t u.
Proof. exact (explain_valid L A g l r t u). Qed.
Print Assumptions C40_explanations_exist_and_are_valid.
(** Every id has exactly one term. *)
Theorem C40_every_id_has_one_term {Op D} `{Countable Op} (L : lang Op) (A : analysis Op D) (g : egraph Op D) i :
  reachable L A true g -> known g i -> exists t, AddedAs (eg_log g) i t /\ forall u, AddedAs (eg_log g) i u -> u = t.
Proof.
  intros R Hi. destruct (known_added L A true g i R Hi) as [t Ht].
  exact (ex_intro _ t (conj Ht (fun u Hu => added_unique L A g i u t R Hu Ht))).
Qed.
Print Assumptions C40_every_id_has_one_term.
Example C40_ex : reachable natlang unitan true (exp_g true) /\ AddedAs (eg_log (exp_g true)) 4 hxt /\ AddedAs (eg_log (exp_g true)) 6 hzt /\
  eg_find (exp_g true) 4 = eg_find (exp_g true) 6 /\ is_ok (explain_id_equivalence 3 4 6 (exp_g true)) = true.
Proof. split_and!; [apply exp_reachable|apply exp_added..|apply exp_same|vm_compute; reflexivity]. Qed.

(** The same for two expressions given by the caller. *)
Theorem C40_explain_equivalence {Op D} `{Countable Op} (L : lang Op) (A : analysis Op D) fuel fuel' e1 e2 t u (g g' : egraph Op D) p :
  reachable L A true g -> ExprTree e1 t -> ExprTree e2 u ->
  explain_equivalence A (modify_n L A fuel) fuel' e1 e2 g = Ok (g', p) ->
  reachable L A true g' /\ proves (asserted (eg_log g')) p t u.
Proof.
  intros R Ht Hu E. destruct (explain_equivalence_ok L A fuel fuel' e1 e2 t u g g' p R Ht Hu E) as (R' & _ & Hp).
  exact (conj R' Hp).
Qed.
Print Assumptions C40_explain_equivalence.
Theorem C40_explain_equivalence_total {Op D} `{Countable Op} (L : lang Op) (A : analysis Op D) fuel e1 e2 t u (g g1 g2 : egraph Op D) l r :
  reachable L A true g -> ExprTree e1 t -> ExprTree e2 u ->
  add_expr_uncanonical A (modify_n L A fuel) e1 g = Ok (g1, l) -> add_expr_uncanonical A (modify_n L A fuel) e2 g1 = Ok (g2, r) ->
  eg_find g2 l = eg_find g2 r ->
  exists bound, forall fuel', bound <= fuel' -> exists p, explain_equivalence A (modify_n L A fuel) fuel' e1 e2 g = Ok (g2, p) /\
    proves (asserted (eg_log g2)) p t u.
Proof. exact (explain_equivalence_total L A fuel e1 e2 t u g g1 g2 l r). Qed.
Print Assumptions C40_explain_equivalence_total.
Example C40_expr_ex : reachable natlang unitan true (exp_g true) /\ ExprTree hx hxt /\ ExprTree hz hzt /\
  (length <$> (snd <$> explain_equivalence unitan (modify_n natlang unitan 5) 5 hx hz (exp_g true))) = Ok 2.
Proof. split_and!; [apply exp_reachable|apply hx_tree|apply hz_tree|vm_compute; reflexivity]. Qed.

(** Whatever the path memo holds (the length optimiser stores what it finds there), an
    explanation that is produced is valid. *)
Theorem C40_any_path_memo {Op D} `{Countable Op} (L : lang Op) (A : analysis Op D) (g : egraph Op D) x x' fuel l r p t u :
  reachable L A true g -> eg_explain g = Some x -> ex_find x' = ex_find x ->
  explain_id_equivalence fuel l r (set_explain (Some x') g) = Ok p ->
  AddedAs (eg_log g) l t -> AddedAs (eg_log g) r u -> proves (asserted (eg_log g)) p t u.
Proof. exact (explain_sound L A g x x' fuel l r p t u). Qed.
Print Assumptions C40_any_path_memo.
(** with a memo that sends the path from 4 to 6 over a congruence 4 - 6 *)
Example C40_memo_ex : exists x, eg_explain (exp_g true) = Some x /\
  is_ok (explain_id_equivalence 4 4 6 (set_explain (Some (Explain (ex_find x) (ex_memo x) (<[(4, 6) := (5, 6)]> (ex_short x)))) (exp_g true))) = true.
Proof.
  destruct (eg_explain (exp_g true)) as [x|] eqn:E; [|exfalso; revert E; vm_compute; discriminate].
  eexists x. split; [done|]. revert x E. vm_compute. intros x [= <-]. reflexivity.
Qed.
(** What has a proof follows from the assertions; ids in different classes are refused. *)
Theorem C40_proofs_are_consequences {Op} (Rl : nat -> term Op -> term Op -> Prop) p t u : proves Rl p t u -> teq Rl t u.
Proof. exact (proves_teq Rl p t u). Qed.
Print Assumptions C40_proofs_are_consequences.
Theorem C40_unequal_ids_refused {Op D} `{Countable Op} (g : egraph Op D) fuel l r :
  eg_find g l <> eg_find g r -> explain_id_equivalence fuel l r g = Panic.
Proof. exact (explain_unequal g fuel l r). Qed.
Print Assumptions C40_unequal_ids_refused.

(** * C41 *)
(** Flattening any valid tree proof gives a list of terms that starts with the plain left
    term; every next term has exactly one annotation and arises from the previous one by
    that one rewrite, and the last is the right term. *)
Theorem C41_flattening {Op} (Rl : nat -> term Op -> term Op -> Prop) p t u :
  proves Rl p t u -> exists fl, make_flat p = Ok fl /\ flat_proves Rl fl t u.
Proof. exact (make_flat_ok Rl p t u). Qed.
Print Assumptions C41_flattening.
Theorem C41_first_and_last {Op} (Rl : nat -> term Op -> term Op -> Prop) p t u :
  proves Rl p t u -> exists x y f l, head p = Some x /\ last p = Some y /\
    initial_flat x = Ok f /\ plain f /\ erase f = t /\ last_flat y = Ok l /\ erase l = u.
Proof. exact (proof_ends Rl p t u). Qed.
Print Assumptions C41_first_and_last.
Theorem C41_annotations {Op} (Rl : nat -> term Op -> term Op -> Prop) fl t u f0 pre f post :
  flat_proves Rl fl t u -> fl = f0 :: pre ++ f :: post ->
  has_forward f0 = false /\ has_backward f0 = false /\ has_forward f = negb (has_backward f).
Proof. exact (flat_annotations Rl fl t u f0 pre f post). Qed.
Print Assumptions C41_annotations.
Example C41_ex : exists p, explain_id_equivalence 10 4 6 (exp_g true) = Ok p /\ proves (asserted (eg_log (exp_g true))) p hxt hzt /\ make_flat p = Ok exp_flat.
Proof. exact exp_proof. Qed.

(** * C42 *)
(** With explanations: the expression read back from the id [add_expr_uncanonical] returned
    denotes the expression added, whatever happens afterwards. *)
Theorem C42_id_to_expr_returns_what_was_added {Op D} `{Countable Op} (L : lang Op) (A : analysis Op D) fuel fuel' e t (g g1 g2 : egraph Op D) i p :
  reachable L A true g -> ExprTree e t ->
  add_expr_uncanonical A (modify_n L A fuel) e g = Ok (g1, i) -> run_prog L A fuel' (modify_n L A fuel') p g1 = Ok g2 ->
  exists e', id_to_expr i g2 = Ok e' /\ dag e' /\ ExprTree e' t.
Proof. exact (id_to_expr_later L A fuel fuel' e t g g1 g2 i p). Qed.
Print Assumptions C42_id_to_expr_returns_what_was_added.
(** In both modes: the expression of an id is a term the id was added as, and equal to all such terms. *)
Theorem C42_expression_of_id {Op D} `{Countable Op} (L : lang Op) (A : analysis Op D) ex (g : egraph Op D) i t :
  reachable L A ex g -> AddedAs (eg_log g) i t ->
  exists e u, id_to_expr i g = Ok e /\ dag e /\ ExprTree e u /\ AddedAs (eg_log g) i u /\ teq (asserted (eg_log g)) t u.
Proof. exact (id_to_expr_added L A ex g i t). Qed.
Print Assumptions C42_expression_of_id.
Theorem C42_term_is_represented {Op D} `{Countable Op} (L : lang Op) (A : analysis Op D) ex (g : egraph Op D) i t :
  reachable_np L A ex g -> AddedAs (eg_log g) i t -> Rep g t (eg_find g i).
Proof. exact (added_rep L A ex g i t). Qed.
Print Assumptions C42_term_is_represented.
Example C42_ex : exists g1 i, add_expr_uncanonical unitan (modify_n natlang unitan 5) hz (exp_g true) = Ok (g1, i) /\
  id_to_expr i g1 = Ok hz /\ eg_find g1 i <> i.
Proof. exact exp_id_to_expr. Qed.
