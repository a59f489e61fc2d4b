(** Helpers for implementing analyses, and the analysis work queue as an abstract data type. *)
From Verif Require Import Base EGraphModel.

(** src/language.rs:708 [DidMerge(bool, bool)] and its [BitOr] (711-718). *)
Definition did_or (x y : bool * bool) : bool * bool := (x.1 || y.1, x.2 || y.2).

(** src/language.rs:894-906.  The [Ord] instance is the function [cmp]; the updated [to] is
    returned together with the [DidMerge]. *)
Definition merge_max {T} (cmp : T -> T -> comparison) (to from : T) : T * (bool * bool) :=
  match cmp to from with
  | Lt => (from, (true, false))
  | Eq => (to, (false, false))
  | Gt => (to, (false, true))
  end.
(** src/language.rs:909-920. *)
Definition merge_min {T} (cmp : T -> T -> comparison) (to from : T) : T * (bool * bool) :=
  match cmp to from with
  | Lt => (to, (false, true))
  | Eq => (to, (false, false))
  | Gt => (from, (true, false))
  end.
(** src/language.rs:926-940. *)
Definition merge_option {T} (merge_fn : T -> T -> T * (bool * bool)) (to from : option T) : option T * (bool * bool) :=
  match to, from with
  | None, None => (None, (false, false))
  | None, Some b => (Some b, (true, false))
  | Some a, None => (Some a, (false, true))
  | Some a, Some b => let '(d, f) := merge_fn a b in (Some d, f)
  end.
(** The composition of two analyses suggested by the documentation of [DidMerge]
    (src/language.rs:706-707): merge the components and "or" the results. *)
Definition merge_pair {T U} (m1 : T -> T -> T * (bool * bool)) (m2 : U -> U -> U * (bool * bool))
    (to from : T * U) : (T * U) * (bool * bool) :=
  let '(d1, f1) := m1 to.1 from.1 in
  let '(d2, f2) := m2 to.2 from.2 in
  ((d1, d2), did_or f1 f2).

(** Operations on a [UniqueQueue] (src/util.rs:179-222) and what they return. *)
Inductive uq_op := QInsert (t : nat) | QExtend (ts : list nat) | QPop | QIsEmpty.
Inductive uq_out := OUnit | OPop (r : option nat) | OEmpty (b : bool).
(** [is_empty] carries the debug assertion that the set is empty exactly when the queue is
    (src/util.rs:204-208); [None] means the assertion failed. *)
Definition uq_step (q : uqueue) (o : uq_op) : uqueue * option uq_out :=
  match o with
  | QInsert t => (uq_insert q t, Some OUnit)
  | QExtend ts => (uq_extend q ts, Some OUnit)
  | QPop => match uq_pop q with Some (t, q') => (q', Some (OPop (Some t))) | None => (q, Some (OPop None)) end
  | QIsEmpty => (q, if bool_decide (uq_is_empty q = bool_decide (uq_set q = ∅)) then Some (OEmpty (uq_is_empty q)) else None)
  end.
Fixpoint uq_run (q : uqueue) (os : list uq_op) : list (option uq_out) :=
  match os with
  | [] => []
  | o :: os => let '(q', r) := uq_step q o in r :: uq_run q' os
  end.

(** * Specifications *)
(** A total order given by a comparison function, as [Ord] requires. *)
Record ord_ok {T} (cmp : T -> T -> comparison) : Prop := {
  oo_refl : forall a, cmp a a = Eq;
  oo_anti : forall a b, cmp b a = CompOpp (cmp a b);
  oo_trans : forall a b c, cmp a b <> Gt -> cmp b c <> Gt -> cmp a c <> Gt;
}.
(** [merge] returns an upper bound among those below every common bound, and each flag is
    raised exactly if the result differs from the corresponding argument. *)
Definition join_contract {T} (le : T -> T -> Prop) (merge : T -> T -> T * (bool * bool)) : Prop :=
  forall a b d f1 f2, merge a b = (d, (f1, f2)) ->
    le a d /\ le b d /\ (forall c, le a c -> le b c -> le d c) /\
    (f1 = true <-> ~ le d a) /\ (f2 = true <-> ~ le d b).
Definition option_le {T} (le : T -> T -> Prop) (a b : option T) : Prop :=
  match a, b with None, _ => True | Some a, Some b => le a b | Some _, None => False end.
Definition pair_le {T U} (le1 : T -> T -> Prop) (le2 : U -> U -> Prop) (a b : T * U) : Prop :=
  le1 a.1 b.1 /\ le2 a.2 b.2.

(** A queue as a plain list without repetitions. *)
Definition qs_insert (l : list nat) (t : nat) : list nat := if decide (t ∈ l) then l else l ++ [t].
Definition qs_step (l : list nat) (o : uq_op) : list nat * uq_out :=
  match o with
  | QInsert t => (qs_insert l t, OUnit)
  | QExtend ts => (foldl qs_insert l ts, OUnit)
  | QPop => (tail l, OPop (head l))
  | QIsEmpty => (l, OEmpty (bool_decide (l = [])))
  end.
Fixpoint qs_run (l : list nat) (os : list uq_op) : list uq_out :=
  match os with
  | [] => []
  | o :: os => let '(l', r) := qs_step l o in r :: qs_run l' os
  end.

(** * Proofs *)
Section ord.
Context {T : Type} (cmp : T -> T -> comparison) (Ho : ord_ok cmp).
Lemma cmp_refl_le a : cmp a a <> Gt.
Proof. by rewrite (oo_refl _ Ho). Qed.
Lemma merge_max_join : join_contract (fun a b => cmp a b <> Gt) (merge_max cmp).
Proof.
  intros a b d f1 f2 E. unfold merge_max in E. pose proof (oo_anti _ Ho a b) as Ha.
  pose proof (cmp_refl_le a). pose proof (cmp_refl_le b).
  destruct (cmp a b) eqn:E1; injection E as <- <- <-; cbn in Ha; rewrite ?E1, ?Ha; split_and!; auto;
    split; naive_solver congruence.
Qed.
Lemma merge_min_join : join_contract (fun a b => cmp b a <> Gt) (merge_min cmp).
Proof.
  intros a b d f1 f2 E. unfold merge_min in E. pose proof (oo_anti _ Ho a b) as Ha.
  pose proof (cmp_refl_le a). pose proof (cmp_refl_le b).
  destruct (cmp a b) eqn:E1; injection E as <- <- <-; cbn in Ha; rewrite ?E1, ?Ha; split_and!; auto;
    split; naive_solver congruence.
Qed.
Lemma merge_max_pick a b : (merge_max cmp a b).1 = a \/ (merge_max cmp a b).1 = b.
Proof. unfold merge_max. destruct (cmp a b); auto. Qed.
Lemma merge_min_pick a b : (merge_min cmp a b).1 = a \/ (merge_min cmp a b).1 = b.
Proof. unfold merge_min. destruct (cmp a b); auto. Qed.
End ord.
Lemma merge_option_join {T} (le : T -> T -> Prop) m :
  (forall a, le a a) -> join_contract le m -> join_contract (option_le le) (merge_option m).
Proof.
  intros Hr Hm a b d f1 f2 E. unfold merge_option in E.
  destruct a as [a|], b as [b|]; cbn.
  - destruct (m a b) as [d0 [g1 g2]] eqn:Em. injection E as <- <- <-.
    destruct (Hm _ _ _ _ _ Em) as (H1 & H2 & H3 & H4 & H5). split_and!; auto.
    intros [c|]; cbn; auto.
  - injection E as <- <- <-. cbn. split_and!; auto; naive_solver.
  - injection E as <- <- <-. cbn. split_and!; auto; naive_solver.
  - injection E as <- <- <-. cbn. split_and!; auto; naive_solver.
Qed.
Lemma merge_pair_join {T U} (le1 : T -> T -> Prop) (le2 : U -> U -> Prop) m1 m2 :
  (forall a b, Decision (le1 a b)) ->
  join_contract le1 m1 -> join_contract le2 m2 -> join_contract (pair_le le1 le2) (merge_pair m1 m2).
Proof.
  intros Hdec H1 H2 [a1 a2] [b1 b2] d f1 f2 E. unfold merge_pair in E. cbn in E.
  destruct (m1 a1 b1) as [d1 [g1 h1]] eqn:E1. destruct (m2 a2 b2) as [d2 [g2 h2]] eqn:E2.
  unfold did_or in E. cbn in E. injection E as <- <- <-.
  destruct (H1 _ _ _ _ _ E1) as (A1 & A2 & A3 & A4 & A5). destruct (H2 _ _ _ _ _ E2) as (B1 & B2 & B3 & B4 & B5).
  unfold pair_le. cbn. rewrite !orb_true_iff, A4, A5, B4, B5. split_and!; auto.
  - intros [c1 c2]; cbn. naive_solver.
  - destruct (Hdec d1 a1); tauto.
  - destruct (Hdec d1 b1); tauto.
Qed.

Definition uq_rep (q : uqueue) : Prop := (forall t, t ∈ uq_set q <-> t ∈ uq_queue q) /\ NoDup (uq_queue q).
Lemma uq_insert_rep q t : uq_rep q -> uq_rep (uq_insert q t) /\ uq_queue (uq_insert q t) = qs_insert (uq_queue q) t.
Proof.
  intros [H1 H2]. unfold uq_insert, qs_insert. destruct (decide (t ∈ uq_set q)) as [Hi|Hi].
  - rewrite decide_True by (by apply H1). done.
  - rewrite decide_False by (by rewrite <- H1). split; [|done]. split; cbn.
    + intros x. rewrite elem_of_union, elem_of_singleton, elem_of_app, elem_of_list_singleton, H1. tauto.
    + apply NoDup_app. split_and!; auto; [|apply NoDup_singleton]. intros x Hx ->%elem_of_list_singleton. by apply Hi, H1.
Qed.
Lemma uq_extend_rep q ts : uq_rep q -> uq_rep (uq_extend q ts) /\ uq_queue (uq_extend q ts) = foldl qs_insert (uq_queue q) ts.
Proof.
  unfold uq_extend. revert q. induction ts as [|t ts IH]; intros q Hq; [done|]. cbn [foldl].
  destruct (uq_insert_rep q t Hq) as [Hq' <-]. by apply IH.
Qed.
Lemma uq_step_rep q o : uq_rep q ->
  uq_rep (uq_step q o).1 /\ (uq_queue (uq_step q o).1, (uq_step q o).2) = ((qs_step (uq_queue q) o).1, Some (qs_step (uq_queue q) o).2).
Proof.
  intros Hq. destruct o as [t|ts| |]; cbn [uq_step qs_step fst snd].
  - destruct (uq_insert_rep q t Hq) as [? ->]. done.
  - destruct (uq_extend_rep q ts Hq) as [? ->]. done.
  - unfold uq_pop. destruct Hq as [H1 H2]. destruct q as [s l]; cbn in *. destruct l as [|t l]; cbn; [done|].
    split; [|done]. split; cbn.
    + intros x. rewrite elem_of_difference, H1, elem_of_singleton, elem_of_cons. apply NoDup_cons in H2 as [Hn _].
      split; [naive_solver|]. intros Hx. split; [auto|]. by intros ->.
    + by apply NoDup_cons in H2 as [_ ?].
  - split; [done|]. f_equal. destruct Hq as [H1 H2]. unfold uq_is_empty. destruct q as [s l]; cbn in *.
    destruct l as [|t l]; cbn.
    + rewrite bool_decide_eq_true_2; [done|]. symmetry. apply bool_decide_eq_true. apply set_eq. intros x. rewrite H1. set_solver.
    + rewrite bool_decide_eq_true_2; [done|]. symmetry. apply bool_decide_eq_false. intros ->.
      pose proof (proj2 (H1 t) (elem_of_list_here t l)). set_solver.
Qed.
Lemma uq_run_rep os q : uq_rep q -> uq_run q os = Some <$> qs_run (uq_queue q) os.
Proof.
  revert q. induction os as [|o os IH]; intros q Hq; [done|]. cbn [uq_run qs_run].
  destruct (uq_step_rep q o Hq) as [Hq' E]. destruct (uq_step q o) as [q' r], (qs_step (uq_queue q) o) as [l' r'].
  cbn in *. injection E as <- ->. f_equal. by apply IH.
Qed.
Lemma uq_run_empty os : uq_run uq_empty os = Some <$> qs_run [] os.
Proof. apply (uq_run_rep os uq_empty). split; cbn; [set_solver|constructor]. Qed.
