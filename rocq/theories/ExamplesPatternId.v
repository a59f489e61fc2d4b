(** A pattern of an id, used by the examples in PropertiesPatternId.v. *)
From Verif Require Import Base UnionFind EGraphModel EGraphPres Spec EGraphReach Terms RecExprModel RecExprProofs ExprModel PatSpec ExplainModel UtilModel PatternIdSpec
  Examples ExamplesExpr.

(** g(f(x)), at 4, cut at x, for which y, equal to it, is given; also 1 for an id that does
    not exist *)
Definition pid_vs : gmap nat nat := {[ 0 := 1; 77 := 1 ]}.
Definition pid_p : list (node (pop nat)) := [Node (PVar 1) []; Node (POp 2) [0]; Node (POp 3) [1]].
Definition pid_t : term (pop nat) := TNode (POp 3) [TNode (POp 2) [TNode (PVar 1) []]].
Notation pid_g := (cong_g false true).
Lemma pid_eq : id_to_pattern S 4 pid_vs pid_g = Ok (pid_p, [(1, 1)]).
Proof. vm_compute. reflexivity. Qed.
Lemma pid_tree : ExprTree pid_p pid_t.
Proof. et. Qed.
Lemma pid_known : known pid_g 4.
Proof. vm_compute. lia. Qed.
Lemma pid_len : length (eg_uf pid_g) = 6.
Proof. vm_compute. reflexivity. Qed.
Lemma pid_equal j k : pid_vs !! j = Some k -> known pid_g j -> eg_find pid_g k = eg_find pid_g j.
Proof.
  unfold pid_vs, known. rewrite pid_len. rewrite lookup_insert_Some. intros [[<- <-]|[_ Hj]] Hk; [vm_compute; reflexivity|].
  apply lookup_singleton_Some in Hj as [<- _]. lia.
Qed.
Lemma S_inj i j : S i = S j -> i = j.
Proof. lia. Qed.
Lemma pid_terms j k e : pid_vs !! j = Some k -> id_to_expr j pid_g = Ok e -> ExprTree e (TNode 0 [] : term nat).
Proof.
  unfold pid_vs. rewrite lookup_insert_Some. intros [[<- _]|[_ Hj]] E.
  - assert (E0 : id_to_expr 0 pid_g = Ok [Node 0 []]) by (vm_compute; reflexivity). rewrite E0 in E. injection E as <-. et.
  - apply lookup_singleton_Some in Hj as [<- _]. assert (E0 : id_to_expr 77 pid_g = Panic) by (vm_compute; reflexivity). rewrite E0 in E. discriminate E.
Qed.
Lemma pid_expr : id_to_expr 4 pid_g = Ok [Node 0 []; Node 2 [0]; Node 3 [1]].
Proof. vm_compute. reflexivity. Qed.
