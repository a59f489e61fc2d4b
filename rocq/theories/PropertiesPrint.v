(** Theorems on the printed forms of explanations: one line per term, the tree form, and the
    tree form with lets for shared terms. *)
From Coq Require Import NArith.
From Verif Require Import Base UnionFind EGraphModel Spec EGraphReach Terms RecExprModel ExprModel ExplainModel ExplainSpec ExplainFlat TextModel TextSpec OptModel OptSpec PrintModel PrintSpec PrintMain
  Examples ExamplesExplain ExamplesText ExamplesPrint.

(** * C58 *)
(** The first line is the text of the left expression; every line gives back an expression of
    its term, the last one of the right expression. *)
Theorem C58_lines_are_expressions {Op D} `{Countable Op} (L : lang Op) (A : analysis Op D) disp rname from_op cycle fuel fuel' e1 e2 t u (g g' : egraph Op D) p :
  reachable L A true g -> dag e1 -> ExprTree e1 t -> ExprTree e2 u ->
  explain_equivalence A (modify_n L A fuel) fuel' e1 e2 g = Ok (g', p) ->
  exists f0 rest fl, make_flat p = Ok (f0 :: rest) /\ print_expr disp cycle e1 = Ok (ft_string disp rname f0) /\ last (f0 :: rest) = Some fl /\ erase fl = u /\
    (forall f, f ∈ f0 :: rest -> names_ok printable disp from_op (erase f) -> exists e, ft_recexpr disp rname from_op f = Ok e /\ dag e /\ ExprTree e (erase f)).
Proof. exact (equivalence_lines L A disp rname from_op cycle fuel fuel' e1 e2 t u g g' p). Qed.
Print Assumptions C58_lines_are_expressions.
Example C58_lines_ex : reachable natlang unitan true (exp_g true) /\ dag hx /\ ExprTree hx hxt /\ ExprTree hz hzt /\ names_ok printable pdisp pfrom hzt /\
  is_ok (explain_equivalence unitan (modify_n natlang unitan 5) 5 hx hz (exp_g true)) = true /\
  flat_strings pdisp pname exp_p = Ok exp_lines.
Proof. exact (conj (exp_reachable true) (conj hx_dag (conj hx_tree (conj hz_tree (conj exp_names (conj exp_equivalence exp_lines_eq)))))). Qed.
(** A name that does not print and parse makes reading a line back panic. *)
Theorem C58_lines_read_back_refuted : exists (g : egraph nat unit) l r p fl f, reachable natlang unitan true g /\
  explain_id_equivalence 10 l r g = Ok p /\ make_flat p = Ok fl /\ head fl = Some f /\ ft_recexpr pdisp pname pfrom f = Panic.
Proof.
  exists cap_g, 7, 7. pose proof quote_panics as E. destruct (explain_id_equivalence 10 7 7 cap_g) as [p| |] eqn:Ep; [|discriminate E|discriminate E]. cbn [mbind res_bind] in E.
  destruct (make_flat p) as [fl| |] eqn:Ef; [|discriminate E|discriminate E]. cbn [mbind res_bind] in E. destruct (head fl) as [f|] eqn:Eh; [|discriminate E]. cbn [expect mbind res_bind] in E.
  exists p, fl, f. split; [exact cap_reach|]. split; [reflexivity|]. split; [exact Ef|]. split; [exact Eh|]. injection E as E. exact E.
Qed.
Print Assumptions C58_lines_read_back_refuted.

(** The tree form, with and without sharing, is printed of the explanation C40 speaks of: the
    terms are held in a memory, every child has a proof, and no term has two rules. *)
Theorem C58_shared_explanation {Op D} `{Countable Op} fuel l r (g : egraph Op D) p : explain_id_equivalence fuel l r g = Ok p ->
  exists P h, rc_explain fuel l r g = Ok P /\ map unshare P = p /\ Forall (stored h) P /\ Forall one_step P /\ Forall well_formed p.
Proof. exact (produced fuel l r g p). Qed.
Print Assumptions C58_shared_explanation.
(** With the optimiser on, the explanation is the one its memo gives: what follows covers it. *)
Theorem C58_optimised {Op D} `{Countable Op} it cit pop fuel l r (g g' : egraph Op D) p :
  explain_id_equivalence_opt it cit pop fuel l r g = Ok (g', p) -> explain_id_equivalence fuel l r g' = Ok p.
Proof. exact (opt_as_plain it cit pop fuel l r g g' p). Qed.
Print Assumptions C58_optimised.
(** The lets are only abbreviations. *)
Theorem C58_lets_are_abbreviations {Op D} `{Countable Op} disp rname fuel l r (g : egraph Op D) p :
  explain_id_equivalence fuel l r g = Ok p -> Forall (no_let_names disp rname) p ->
  exists P, rc_explain fuel l r g = Ok P /\ map unshare P = p /\
    exists s s0, get_sexp_with_let disp rname P = Ok s /\ get_sexp disp rname P = Ok s0 /\ unlet s = s0.
Proof. exact (let_of disp rname fuel l r g p). Qed.
Print Assumptions C58_lets_are_abbreviations.
(** Also of the text, broken over lines as it is. *)
Theorem C58_let_text_reads_back {Op D} `{Countable Op} disp rname fuel l r (g : egraph Op D) p :
  explain_id_equivalence fuel l r g = Ok p -> Forall (bare_names disp rname) p ->
  exists P, rc_explain fuel l r g = Ok P /\ map unshare P = p /\
    exists w s, get_string_with_let disp rname P = Ok w /\ (forall fuel, length w < fuel -> parse_sexp fuel w = Ok (inr s)) /\ get_sexp disp rname P = Ok (unlet s).
Proof. exact (let_text_of disp rname fuel l r g p). Qed.
Print Assumptions C58_let_text_reads_back.
(** the texts of this explanation are those of [exp_texts] *)
Example C58_let_ex : explain_id_equivalence 10 4 6 (exp_g true) = Ok exp_p /\ Forall (no_let_names pdisp pname) exp_p /\ Forall (bare_names pdisp pname) exp_p /\
  is_ok (P ← rc_explain 10 4 6 (exp_g true); get_string_with_let pdisp pname P) = true.
Proof. exact (conj exp_p_eq (conj exp_p_nolet (conj exp_p_bare exp_let_ok))). Qed.

(** The texts determine the explanation, up to the ids in its nodes. *)
Theorem C58_texts_determine_the_explanation {Op D} `{Countable Op} disp rname from_op fuel l r (g : egraph Op D) p P fuel' l' r' (g' : egraph Op D) q Q :
  (forall a b, rname a = rname b -> a = b) ->
  explain_id_equivalence fuel l r g = Ok p -> explain_id_equivalence fuel' l' r' g' = Ok q -> rc_explain fuel l r g = Ok P -> rc_explain fuel' l' r' g' = Ok Q ->
  Forall (uses (readable disp from_op) (readable_rule rname)) p -> Forall (uses (readable disp from_op) (readable_rule rname)) q ->
  (get_string disp rname P = get_string disp rname Q -> Forall2 same_tree p q) /\
  (Forall (bare_names disp rname) p -> Forall (bare_names disp rname) q -> get_string_with_let disp rname P = get_string_with_let disp rname Q -> Forall2 same_tree p q).
Proof. intros Hi. exact (texts_of disp rname from_op Hi fuel l r g p P fuel' l' r' g' q Q). Qed.
Print Assumptions C58_texts_determine_the_explanation.
Theorem C58_lines_determine_the_explanation {Op D} `{Countable Op} disp rname from_op fuel l r (g : egraph Op D) p fl fuel' l' r' (g' : egraph Op D) q fl' :
  (forall a b, rname a = rname b -> a = b) ->
  explain_id_equivalence fuel l r g = Ok p -> explain_id_equivalence fuel' l' r' g' = Ok q -> make_flat p = Ok fl -> make_flat q = Ok fl' ->
  Forall (flat_uses (readable disp from_op) (readable_rule rname)) fl -> Forall (flat_uses (readable disp from_op) (readable_rule rname)) fl' ->
  flat_strings disp rname p = flat_strings disp rname q -> Forall2 same_flat fl fl'.
Proof.
  intros Hi Ep Eq. exact (flat_strings_inj disp rname from_op Hi p q fl fl' (explained_formed _ _ _ _ _ Ep) (explained_formed _ _ _ _ _ Eq)).
Qed.
Print Assumptions C58_lines_determine_the_explanation.
Example C58_texts_ex : (forall a b, pname a = pname b -> a = b) /\ explain_id_equivalence 10 4 6 (exp_g true) = Ok exp_p /\
  Forall (uses (readable pdisp pfrom) (readable_rule pname)) exp_p /\ Forall (bare_names pdisp pname) exp_p /\
  make_flat exp_p = Ok exp_flat /\ Forall (flat_uses (readable pdisp pfrom) (readable_rule pname)) exp_flat.
Proof. exact (conj pname_inj (conj exp_p_eq (conj exp_p_readable (conj exp_p_bare (conj exp_p_flat exp_flat_readable))))). Qed.
(** An operator called [v_0] is not told from the name [v_0] of a let: two explanations, of
    different terms, with the same text. *)
Theorem C58_let_text_without_names_refuted : exists (g : egraph nat unit) l r p q P Q w, reachable natlang unitan true g /\
  explain_id_equivalence 10 l l g = Ok p /\ explain_id_equivalence 10 r r g = Ok q /\ rc_explain 10 l l g = Ok P /\ rc_explain 10 r r g = Ok Q /\
  Forall (uses (readable pdisp pfrom) (readable_rule pname)) p /\ Forall (uses (readable pdisp pfrom) (readable_rule pname)) q /\
  get_string_with_let pdisp pname P = Ok w /\ get_string_with_let pdisp pname Q = Ok w /\ ~ Forall2 same_tree p q.
Proof.
  exists cap_g, 2, 4, cap_1, cap_2. pose proof cap_same_text as E. pose proof cap_is_ok as O.
  destruct (rc_explain 10 2 2 cap_g) as [P| |]; [|discriminate O|discriminate O]. cbn [mbind res_bind] in E, O.
  destruct (get_string_with_let pdisp pname P) as [w| |] eqn:Ew; [|discriminate O|discriminate O].
  destruct (rc_explain 10 4 4 cap_g) as [Q| |]; [|discriminate E|discriminate E]. cbn [mbind res_bind] in E.
  exists P, Q, w. exact (conj cap_reach (conj cap_1_eq (conj cap_2_eq (conj eq_refl (conj eq_refl (conj (proj1 cap_readable) (conj (proj2 cap_readable) (conj Ew (conj (eq_sym E) cap_differ))))))))).
Qed.
Print Assumptions C58_let_text_without_names_refuted.
(** An operator called [Rewrite=>] is not told from an annotation: two explanations that apply
    a rule at different places, with the same lines. *)
Theorem C58_lines_without_names_refuted : exists (g g' : egraph nat unit) l r p q fl fl', reachable natlang unitan true g /\ reachable natlang unitan true g' /\
  explain_id_equivalence 10 l r g = Ok p /\ explain_id_equivalence 10 l r g' = Ok q /\ make_flat p = Ok fl /\ make_flat q = Ok fl' /\
  flat_strings pdisp pname p = flat_strings pdisp pname q /\ ~ Forall2 same_flat fl fl'.
Proof.
  exists (rw_g [(0, 1)]), (rw_g [(3, 4)]), 3, 4, rw_1, rw_2, rw_flat_1, rw_flat_2.
  exact (conj rw_reach_1 (conj rw_reach_2 (conj rw_1_eq (conj rw_2_eq (conj rw_flat_1_eq (conj rw_flat_2_eq (conj rw_same_text rw_differ))))))).
Qed.
Print Assumptions C58_lines_without_names_refuted.
(** A let does not make every shared term be written once: the term that [v_1] stands for is
    spelled out in the definition of [v_0]. *)
Theorem C58_shared_once_refuted : exists (g : egraph nat unit) l r P v w d b k, reachable natlang unitan true g /\ rc_explain 10 l r g = Ok P /\
  get_sexp_with_let pdisp pname P = Ok (SList [SStr s_let; SList [SStr v; SList [k; d]]; SList [SStr s_let; SList [SStr w; d]; b]]).
Proof.
  pose proof twice_eq as E. exists cap_g, 6, 6. destruct (rc_explain 10 6 6 cap_g) as [P| |]; [|discriminate E|discriminate E]. cbn [mbind res_bind] in E.
  exists P. eexists _, _, _, _, _. split; [exact cap_reach|]. split; [reflexivity|exact E].
Qed.
Print Assumptions C58_shared_once_refuted.

(** The tree size is the number of different pairs of ids that a rule connects in the
    explanation; it is less than the number of lines. *)
Theorem C58_tree_size {Op D} `{Countable Op} (L : lang Op) (A : analysis Op D) it cit fuel l r (g : egraph Op D) p t u :
  reach_opt L A it cit g -> AddedAs (eg_log g) l t -> AddedAs (eg_log g) r u -> explain_id_equivalence fuel l r g = Ok p ->
  exists P, rc_explain fuel l r g = Ok P /\ map unshare P = p /\
    get_tree_size P = Ok (base.size (list_to_set (concat (map edges P)) : gset (nat * nat))) /\
    (forall fl, make_flat p = Ok fl -> forall k, get_tree_size P = Ok k -> k < length fl).
Proof. exact (size_of L A it cit fuel l r g p t u). Qed.
Print Assumptions C58_tree_size.
(** two connections, each used twice; the lines are five *)
Example C58_tree_size_ex : reachable natlang unitan true (exp_g true) /\ AddedAs (eg_log (exp_g true)) 4 hxt /\ AddedAs (eg_log (exp_g true)) 6 hzt /\
  explain_id_equivalence 10 4 6 (exp_g true) = Ok exp_p /\ (P ← rc_explain 10 4 6 (exp_g true); get_tree_size P) = Ok 2 /\ make_flat exp_p = Ok exp_flat.
Proof. exact (conj (exp_reachable true) (conj (proj1 exp_added) (conj (proj2 exp_added) (conj exp_p_eq (conj exp_size exp_p_flat))))). Qed.
