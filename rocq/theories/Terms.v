(** Terms, and the trees that tables of nodes stand for (specification). *)
From Verif Require Import Base EGraphModel Spec.

Section term_ind.
Context {Op : Type} (P : term Op -> Prop) (HP : forall f ts, Forall P ts -> P (TNode f ts)).
Fixpoint term_sind (t : term Op) : P t :=
  match t with
  | TNode f ts => HP f ts ((fix go ts : Forall P ts :=
      match ts with [] => Forall_nil_2 P | t :: ts => Forall_cons_2 P t ts (term_sind t) (go ts) end) ts)
  end.
End term_ind.

(** [TreeOf get i t]: unfolding index [i] with [get] gives the finite tree [t]. *)
Inductive TreeOf {Op} (get : nat -> option (node Op)) : nat -> term Op -> Prop :=
| TreeOf_node i f cs ts :
    get i = Some (Node f cs) -> Forall2 (TreeOf get) cs ts -> TreeOf get i (TNode f ts).
(** The tree of an index of a [RecExpr] (a list of nodes whose children are indices). *)
Definition Tree {Op} (e : list (node Op)) : nat -> term Op -> Prop := TreeOf (fun i => e !! i).
(** The tree of the whole expression: its last node. *)
Definition ExprTree {Op} (e : list (node Op)) (t : term Op) : Prop := e <> [] /\ Tree e (length e - 1) t.
(** Children come before their parents. *)
Definition dag {Op} (e : list (node Op)) : Prop :=
  forall i n c, e !! i = Some n -> c ∈ nch n -> c < i.

Section facts.
Context {Op : Type}.
Notation node := (node Op).
Implicit Types (e : list node) (t : term Op).

Lemma TreeOf_ind' (get : nat -> option node) (P : nat -> term Op -> Prop) :
  (forall i f cs ts, get i = Some (Node f cs) -> Forall2 (TreeOf get) cs ts -> Forall2 P cs ts -> P i (TNode f ts)) ->
  forall i t, TreeOf get i t -> P i t.
Proof.
  intros HP i t. revert i. induction t as [f ts IH] using term_sind. intros i Ht.
  inversion Ht as [? ? cs ? Hg Hf]; subst. eapply HP; eauto. clear Hg Ht.
  revert ts IH Hf. induction cs as [|c cs IHc]; intros ts IH Hf; inversion Hf; subst; constructor;
    inversion IH; subst; auto.
Qed.
Lemma TreeOf_fun get i t t' : TreeOf (Op := Op) get i t -> TreeOf get i t' -> t = t'.
Proof.
  intros Ht. revert t'. revert i t Ht. apply (TreeOf_ind' get (fun i t => forall t', TreeOf get i t' -> t = t')).
  intros i f cs ts Hg Hf IH t' Ht'.
  inversion Ht' as [? ? cs' ts' Hg' Hf']; subst. rewrite Hg in Hg'. injection Hg' as <- <-. f_equal.
  clear Hg Ht' Hf. revert ts' Hf'. induction IH; intros ts' Hf'; inversion Hf'; subst; f_equal; auto.
Qed.
Lemma TreeOf_mono (get get' : nat -> option node) i t :
  (forall j n, get j = Some n -> get' j = Some n) -> TreeOf get i t -> TreeOf get' i t.
Proof. intros Hg. revert i t. apply TreeOf_ind'. intros i f cs ts Hi _ IH. econstructor; eauto. Qed.
Lemma Tree_app e l i t : Tree e i t -> Tree (e ++ l) i t.
Proof. apply TreeOf_mono. intros. by apply lookup_app_l_Some. Qed.
Lemma Tree_lt e i t : Tree e i t -> i < length e.
Proof. destruct 1 as [i f cs ts Hi]. by eapply lookup_lt_Some. Qed.
Lemma Forall2_exists {A B} (R : A -> B -> Prop) (l : list A) :
  (forall x, x ∈ l -> exists y, R x y) -> exists k, Forall2 R l k.
Proof.
  induction l as [|x l IH]; intros Hx; [by exists []|].
  destruct (Hx x) as [y Hy]; [left|]. destruct IH as [k Hk]; [intros; apply Hx; by right|]. exists (y :: k). by constructor.
Qed.
Lemma dag_Tree e i : dag e -> i < length e -> exists t, Tree e i t.
Proof.
  intros Hd. induction (lt_wf i) as [i _ IH]. intros Hi. destruct (lookup_lt_is_Some_2 _ _ Hi) as [[f cs] Hn].
  destruct (Forall2_exists (Tree e) cs) as [ts Hts].
  { intros c Hc. pose proof (Hd _ _ _ Hn Hc). apply IH; lia. }
  exists (TNode f ts). by econstructor.
Qed.
Lemma dag_nil : dag (Op := Op) [].
Proof. intros i n c Hi. done. Qed.
Lemma dag_snoc e n : dag e -> (forall c, c ∈ nch n -> c < length e) -> dag (e ++ [n]).
Proof.
  intros Hd Hn i m c Hi Hc. apply lookup_app_Some in Hi as [Hi|[Hge Hi]]; [by eapply Hd|].
  apply list_lookup_singleton_Some in Hi as [E <-]. specialize (Hn c Hc). lia.
Qed.
Lemma dag_ExprTree e : dag e -> e <> [] -> exists t, ExprTree e t.
Proof.
  intros Hd He. destruct (dag_Tree e (length e - 1) Hd) as [t Ht]; [destruct e; cbn; [done|lia]|]. by exists t.
Qed.
Lemma ExprTree_fun e t t' : ExprTree e t -> ExprTree e t' -> t = t'.
Proof. intros [_ H1] [_ H2]. by eapply TreeOf_fun. Qed.
Lemma Tree_snoc e f cs ts : Forall2 (Tree e) cs ts -> Tree (e ++ [Node f cs]) (length e) (TNode f ts).
Proof.
  intros Hf. econstructor; [by apply list_lookup_middle|]. eapply Forall2_impl; [exact Hf|]. intros. by apply Tree_app.
Qed.
Lemma ExprTree_snoc e f cs ts : Forall2 (Tree e) cs ts -> ExprTree (e ++ [Node f cs]) (TNode f ts).
Proof.
  intros Hf. split; [by destruct e|]. rewrite app_length. cbn. replace (length e + 1 - 1) with (length e) by lia. by apply Tree_snoc.
Qed.
End facts.
