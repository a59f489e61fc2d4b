(** Expressions used by the examples in PropertiesExpr.v, and small facts stated there. *)
From Verif Require Import Base UnionFind EGraphModel EGraphPres Spec EGraphReach Terms RecExprModel RecExprProofs
  ExprModel PatSpec ExprProofs Examples.

(** f(x) with shared and repeated nodes *)
Definition ex_dups : list (node nat) := [Node 0 []; Node 1 [0]; Node 0 []; Node 1 [2]; Node 2 [1; 3]].
Definition ex_dups_t : term nat := TNode 2 [TNode 1 [TNode 0 []]; TNode 1 [TNode 0 []]].
Definition ex_shared : list (node nat) := [Node 0 []; Node 3 [0]; Node 8 [1; 1]].
Definition ex_shared_t : term nat := TNode 8 [TNode 3 [TNode 0 []]; TNode 3 [TNode 0 []]].
Definition ex_fy : list (node nat) := [Node 1 []; Node 2 [0]].
Definition ex_fy_t : term nat := TNode 2 [TNode 1 []].
Ltac et := split; [done|]; cbn [length Nat.sub];
  repeat match goal with
  | |- Tree _ _ _ => econstructor; [reflexivity|]
  | |- TreeOf _ _ _ => econstructor; [reflexivity|]
  | |- Forall2 _ _ _ => constructor
  end.
Lemma ex_dups_tree : ExprTree ex_dups ex_dups_t.
Proof. et. Qed.
Lemma ex_shared_tree : ExprTree ex_shared ex_shared_t.
Proof. et. Qed.
Lemma ex_fy_tree : ExprTree ex_fy ex_fy_t.
Proof. et. Qed.
Lemma ex_dups_rooted : rooted ex_dups.
Proof.
  intros i Hi. cbn in Hi. destruct i as [|[|[|[|i]]]]; [exists 1|exists 4|exists 3|exists 4|lia]; eexists; (split; [reflexivity|]); set_solver.
Qed.
Lemma ex_shared_rooted : rooted ex_shared.
Proof. intros i Hi. cbn in Hi. destruct i as [|[|i]]; [exists 1|exists 2|lia]; eexists; (split; [reflexivity|]); set_solver. Qed.
Lemma ex_fy_rooted : rooted ex_fy.
Proof. intros i Hi. cbn in Hi. destruct i as [|i]; [exists 1|lia]; eexists; (split; [reflexivity|]); set_solver. Qed.

Lemma rx_compact_rooted {Op} `{Countable Op} (e : list (node Op)) : dag e ->
  exists e', rx_compact e = Ok e' /\ dag e' /\ NoDup e' /\ (forall i t, Tree e i t -> exists j, Tree e' j t) /\
    (forall t, rooted e -> ExprTree e t -> ExprTree e' t).
Proof.
  intros Hd. destruct (rx_compact_spec e Hd) as (e' & ? & ? & ? & ? & Hr). exists e'. split_and!; auto.
  intros t Ho Ht. apply Hr; [done|]. by apply rooted_compact.
Qed.
Lemma compact_root : exists (e e' : list (node nat)) t, dag e /\ ExprTree e t /\ rx_compact e = Ok e' /\ ~ ExprTree e' t.
Proof.
  exists [Node 0 []; Node 1 [0]; Node 0 []], [Node 0 []; Node 1 [0]], (TNode 0 []). split_and!.
  - apply rx_is_dag_dag. reflexivity.
  - et.
  - vm_compute. reflexivity.
  - intros [_ Ht]. inversion Ht as [? ? ? ? E]; subst. discriminate E.
Qed.

Section later.
Context {Op D : Type} `{Countable Op} (L : lang Op) (A : analysis Op D).
Lemma lookup_later ex fuel e (t : term Op) (g g1 : egraph Op D) i fuel' p g2 :
  reachable_np L A ex g -> dag e -> rooted e -> ExprTree e t ->
  add_expr A (modify_n L A fuel) e g = Ok (g1, i) ->
  no_prune p -> run_prog L A fuel' (modify_n L A fuel') p g1 = Ok g2 -> eg_clean g2 = true ->
  lookup_expr g2 e = Ok (Some (eg_find g2 i)).
Proof.
  intros R Hd Ho Ht E Hp Er Ec. destruct (add_expr_rep L A ex fuel e t g g1 i R Ht E) as (R1 & _ & Hr).
  destruct (Rep_run L A ex g1 fuel' p g2 t i R1 Hp Er Hr) as [R2 Hr2].
  by apply (lookup_expr_spec L A ex g2 e t).
Qed.
End later.

(** x is represented, but the list also holds an unused node that is not *)
Lemma lookup_expr_unused :
  exists (g : egraph nat unit) e t r, reachable_np natlang unitan false g /\ eg_clean g = true /\ dag e /\ ExprTree e t /\
    Rep g t r /\ lookup_expr g e = Ok None.
Proof.
  assert (Ht : ExprTree [Node 0 []] (TNode (Op := nat) 0 [])) by et.
  exists (cong_g false true), [Node 5 []; Node 0 []], (TNode 0 []), 0. split_and!.
  - apply cong_g_reachable_np.
  - vm_compute. reflexivity.
  - apply rx_is_dag_dag. reflexivity.
  - et.
  - apply (lookup_expr_spec natlang unitan false _ [Node 0 []]); [apply cong_g_reachable_np|vm_compute; reflexivity| | |exact Ht|].
    + apply rx_is_dag_dag. reflexivity.
    + intros i Hi. cbn in Hi. lia.
    + vm_compute. reflexivity.
  - vm_compute. reflexivity.
Qed.

Lemma subst_insert_map (s : subst) v i s' o : subst_insert s v i = (s', o) ->
  o = subst_get s v /\ subst_get s' v = Some i /\ (forall w, w <> v -> subst_get s' w = subst_get s w) /\
  (forall w, subst_index s w = Panic <-> subst_get s w = None).
Proof.
  intros E. assert (Hx : forall w, subst_index s w = Panic <-> subst_get s w = None).
  { intros w. unfold subst_index. destruct (subst_get s w); by cbn. }
  enough (o = subst_get s v /\ subst_get s' v = Some i /\ (forall w, w <> v -> subst_get s' w = subst_get s w)) by naive_solver.
  clear Hx. revert s' o E. induction s as [|[w j] s IH]; cbn [subst_insert subst_get]; intros s' o E.
  - injection E as <- <-. cbn. rewrite decide_True by done. split_and!; auto. intros w Hw. by rewrite decide_False.
  - destruct (decide (w = v)) as [->|Hne].
    + injection E as <- <-. cbn. rewrite decide_True by done. split_and!; auto. intros w Hw. by rewrite !decide_False by done.
    + destruct (subst_insert s v i) as [s1 o1] eqn:E1. injection E as <- <-. destruct (IH _ _ eq_refl) as (-> & H2 & H3).
      cbn. rewrite decide_False by done. split_and!; auto. intros u Hu. destruct (decide (w = u)); auto.
Qed.
Lemma subst_insert_fst (s : subst) v i : (subst_insert s v i).1.*1 = s.*1 \/
  ((subst_insert s v i).1.*1 = s.*1 ++ [v] /\ v ∉ s.*1).
Proof.
  induction s as [|[w j] s IH]; cbn [subst_insert]; [right; cbn; split; [done|set_solver]|].
  destruct (decide (w = v)) as [->|Hne]; [by left|]. destruct (subst_insert s v i) as [s1 o1]; cbn in *.
  destruct IH as [->|[-> Hn]]; [by left|right]. split; [done|]. set_solver.
Qed.
Lemma subst_nodup (ins : list (nat * nat)) : NoDup (foldl (fun s '(v, i) => (subst_insert s v i).1) [] ins).*1.
Proof.
  assert (Hg : forall s : subst, NoDup s.*1 -> NoDup (foldl (fun s '(v, i) => (subst_insert s v i).1) s ins).*1); [|apply Hg; constructor].
  induction ins as [|[v i] ins IH]; intros s Hs; [done|]. cbn [foldl]. apply IH.
  destruct (subst_insert_fst s v i) as [->|[-> Hn]]; [done|]. apply NoDup_app. split_and!; [done|set_solver|apply NoDup_singleton].
Qed.
