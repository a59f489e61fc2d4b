(** Model of src/unionfind.rs and its basic theory. *)
From Verif Require Import Base.

(** src/unionfind.rs:7-9  [UnionFind { parents: Vec<Id> }]; ids are [nat]. *)
Notation unionfind := (list nat).

(** src/unionfind.rs:12-16 *)
Definition uf_make_set (u : unionfind) : unionfind * nat := (u ++ [length u], length u).

(** src/unionfind.rs:18-20 *)
Definition uf_size (u : unionfind) : nat := length u.

(** src/unionfind.rs:22-24, strict version: out of bounds panics. *)
Definition uf_parent_res (u : unionfind) (i : nat) : res nat := expect (u !! i).

(** src/unionfind.rs:30-35, strict version with explicit loop fuel. *)
Fixpoint uf_find_res (fuel : nat) (u : unionfind) (i : nat) : res nat :=
  match fuel with
  | 0 => OutOfFuel
  | S fuel =>
      p ← uf_parent_res u i;
      if decide (i = p) then Ok i else uf_find_res fuel u p
  end.

(** Total versions used by the e-graph model.  The default for an out-of-bounds index
    is the index itself; the e-graph operations check bounds (and panic) before calling
    these.  [uf_find_res_total] shows that on well-formed arrays they agree with the
    strict version, so neither the default nor the fuel is ever used. *)
Definition uf_parent (u : unionfind) (i : nat) : nat := default i (u !! i).

Fixpoint uf_find_fuel (fuel : nat) (u : unionfind) (i : nat) : nat :=
  match fuel with
  | 0 => i
  | S fuel => if decide (i = uf_parent u i) then i else uf_find_fuel fuel u (uf_parent u i)
  end.
Definition uf_find (u : unionfind) (i : nat) : nat := uf_find_fuel (length u) u i.

(** src/unionfind.rs:37-44, path halving: the parent of [i] becomes its grandparent and
    the walk continues from there. *)
Fixpoint uf_find_mut_fuel (fuel : nat) (u : unionfind) (i : nat) : unionfind * nat :=
  match fuel with
  | 0 => (u, i)
  | S fuel =>
      if decide (i = uf_parent u i) then (u, i)
      else let g := uf_parent u (uf_parent u i) in
           uf_find_mut_fuel fuel (<[i := g]> u) g
  end.
Definition uf_find_mut (u : unionfind) (i : nat) : unionfind * nat :=
  uf_find_mut_fuel (length u) u i.

(** src/unionfind.rs:37-44, strict version. *)
Fixpoint uf_find_mut_res (fuel : nat) (u : unionfind) (i : nat) : res (unionfind * nat) :=
  match fuel with
  | 0 => OutOfFuel
  | S fuel =>
      p ← uf_parent_res u i;
      if decide (i = p) then Ok (u, i)
      else g ← uf_parent_res u p; uf_find_mut_res fuel (<[i := g]> u) g
  end.

(** src/unionfind.rs:47-50 *)
Definition uf_union (u : unionfind) (root1 root2 : nat) : unionfind * nat :=
  (<[root2 := root1]> u, root1).

(** * Theory *)

(** Number of non-root entries. *)
Definition uf_nonroots (u : unionfind) : nat :=
  length (filter (fun i => uf_parent u i <> i) (seq 0 (length u))).

(** Well-formedness: parents are in bounds, and a rank bounded by the length strictly
    increases along parent links. *)
Definition uf_ranked (u : unionfind) (rk : nat -> nat) : Prop :=
  forall i p, u !! i = Some p -> p < length u /\ (p <> i -> rk i < rk p).
Definition uf_wf (u : unionfind) : Prop :=
  exists rk, uf_ranked u rk /\ (forall i, i < length u -> rk i < length u).

Lemma uf_parent_lt u i : uf_wf u -> i < length u -> uf_parent u i < length u.
Proof.
  intros (rk & Hr & _) Hi. unfold uf_parent.
  destruct (lookup_lt_is_Some_2 u i Hi) as [p Hp]. rewrite Hp; cbn.
  apply (Hr _ _ Hp).
Qed.

Lemma uf_parent_rank u rk i :
  uf_ranked u rk -> uf_parent u i <> i -> rk i < rk (uf_parent u i).
Proof.
  intros Hr. unfold uf_parent. destruct (u !! i) as [p|] eqn:Hp; cbn; [|congruence].
  intros. by apply (Hr _ _ Hp).
Qed.

(** Relational specification of the walk. *)
Inductive walks (u : unionfind) : nat -> nat -> Prop :=
| walk_root r : uf_parent u r = r -> walks u r r
| walk_step i r : uf_parent u i <> i -> walks u (uf_parent u i) r -> walks u i r.

Lemma walks_fun u i r r' : walks u i r -> walks u i r' -> r = r'.
Proof. induction 1; inversion 1; subst; try congruence; auto. Qed.

Lemma walks_root u i r : walks u i r -> uf_parent u r = r.
Proof. induction 1; auto. Qed.

Lemma find_fuel_walks u rk fuel i :
  uf_ranked u rk -> (forall j, j < length u -> rk j < length u) -> i < length u ->
  length u <= fuel + rk i -> walks u i (uf_find_fuel fuel u i).
Proof.
  intros Hr Hb. revert i. induction fuel as [|fuel IH]; intros i Hi Hf; cbn [uf_find_fuel].
  - specialize (Hb i Hi). lia.
  - destruct (decide (i = uf_parent u i)) as [e|n]; [by constructor|].
    assert (uf_parent u i < length u) by (apply uf_parent_lt; [by exists rk|done]).
    pose proof (uf_parent_rank u rk i Hr ltac:(congruence)).
    apply walk_step; [congruence|]. apply IH; auto. lia.
Qed.

Lemma uf_find_walks u i : uf_wf u -> i < length u -> walks u i (uf_find u i).
Proof. intros (rk & Hr & Hb) Hi. apply (find_fuel_walks u rk); auto. lia. Qed.

Lemma uf_find_oob u i : length u <= i -> uf_find u i = i.
Proof.
  intros Hi. unfold uf_find. destruct (length u) eqn:E; [done|]. cbn.
  rewrite decide_True; [done|]. unfold uf_parent.
  rewrite lookup_ge_None_2 by lia. done.
Qed.

Lemma walks_lt u i r : uf_wf u -> walks u i r -> i < length u -> r < length u.
Proof. intros Hw. induction 1; intros; auto. apply IHwalks. by apply uf_parent_lt. Qed.

Lemma uf_find_lt u i : uf_wf u -> i < length u -> uf_find u i < length u.
Proof. intros. eapply walks_lt; eauto. by apply uf_find_walks. Qed.

Lemma uf_find_lt_iff u i : uf_wf u -> uf_find u i < length u <-> i < length u.
Proof.
  intros. split; [|by apply uf_find_lt].
  intros. destruct (decide (i < length u)); [done|]. rewrite uf_find_oob in H0; lia.
Qed.

Lemma uf_find_eq u i r : uf_wf u -> i < length u -> walks u i r -> uf_find u i = r.
Proof. intros. eapply walks_fun; eauto. by apply uf_find_walks. Qed.

Lemma uf_find_root u i : uf_wf u -> uf_parent u i = i -> uf_find u i = i.
Proof.
  intros Hw Hp. destruct (decide (i < length u)).
  - apply uf_find_eq; auto. by constructor.
  - apply uf_find_oob; lia.
Qed.

Lemma uf_find_is_root u i : uf_wf u -> uf_parent u (uf_find u i) = uf_find u i.
Proof.
  intros Hw. destruct (decide (i < length u)).
  - eapply walks_root. by apply uf_find_walks.
  - rewrite uf_find_oob by lia. unfold uf_parent. by rewrite lookup_ge_None_2 by lia.
Qed.

Lemma uf_find_idem u i : uf_wf u -> uf_find u (uf_find u i) = uf_find u i.
Proof. intros. apply uf_find_root; auto. by apply uf_find_is_root. Qed.

Lemma uf_find_parent u i : uf_wf u -> uf_find u (uf_parent u i) = uf_find u i.
Proof.
  intros Hw. destruct (decide (i < length u)) as [Hi|].
  - destruct (decide (uf_parent u i = i)) as [e|n]; [by rewrite e|].
    symmetry. apply uf_find_eq; auto. apply walk_step; auto.
    apply uf_find_walks; auto. by apply uf_parent_lt.
  - unfold uf_parent. rewrite lookup_ge_None_2 by lia. done.
Qed.

Lemma uf_find_root_iff u i : uf_wf u -> uf_find u i = i <-> uf_parent u i = i.
Proof.
  intros Hw. split; [|by apply uf_find_root].
  intros <-. by apply uf_find_is_root.
Qed.

(** Strict versions agree. *)
Lemma uf_find_res_total u i fuel :
  uf_wf u -> i < length u -> length u <= fuel -> uf_find_res fuel u i = Ok (uf_find u i).
Proof.
  intros Hw Hi Hf. destruct Hw as (rk & Hr & Hb).
  assert (Hw : uf_wf u) by by exists rk.
  cut (forall fuel i, i < length u -> length u <= fuel + rk i ->
       uf_find_res fuel u i = Ok (uf_find u i)).
  { intros Hc. apply Hc; auto; lia. }
  clear Hf Hi fuel i. intros fuel. induction fuel as [|fuel IH]; intros i Hi Hf.
  - specialize (Hb i Hi). lia.
  - cbn [uf_find_res]. unfold uf_parent_res.
    destruct (lookup_lt_is_Some_2 u i Hi) as [p Hp]. rewrite Hp. cbn.
    assert (Hpp : uf_parent u i = p) by (unfold uf_parent; by rewrite Hp).
    case_decide as Hd.
    + subst. by rewrite uf_find_root.
    + rewrite IH; [by rewrite <- Hpp, uf_find_parent| |].
      * rewrite <- Hpp. by apply uf_parent_lt.
      * destruct (Hr _ _ Hp). assert (rk i < rk p) by auto. lia.
Qed.

(** The halving step. *)
Lemma parent_insert u i g j :
  i < length u -> uf_parent (<[i := g]> u) j = if decide (j = i) then g else uf_parent u j.
Proof.
  intros Hi. unfold uf_parent. case_decide; subst.
  - by rewrite list_lookup_insert.
  - by rewrite list_lookup_insert_ne.
Qed.

Lemma halve_ranked u rk i :
  uf_ranked u rk -> i < length u -> uf_parent u i <> i ->
  uf_ranked (<[i := uf_parent u (uf_parent u i)]> u) rk.
Proof.
  intros Hr Hi Hn j p Hj. rewrite insert_length.
  destruct (decide (j = i)) as [->|Hji].
  - rewrite list_lookup_insert in Hj by done. injection Hj as <-.
    destruct (lookup_lt_is_Some_2 u i Hi) as [q Hq].
    assert (uf_parent u i = q) as Eq by (unfold uf_parent; by rewrite Hq).
    rewrite Eq. destruct (Hr _ _ Hq) as [Hql Hqr].
    destruct (lookup_lt_is_Some_2 u q Hql) as [w Hw].
    assert (uf_parent u q = w) as Ew by (unfold uf_parent; by rewrite Hw).
    rewrite Ew. destruct (Hr _ _ Hw) as [Hwl Hwr]. split; auto.
    intros _. assert (rk i < rk q) by (apply Hqr; congruence).
    destruct (decide (w = q)) as [->|]; [done|]. specialize (Hwr ltac:(done)). lia.
  - rewrite list_lookup_insert_ne in Hj by done. by apply Hr.
Qed.

Lemma halve_wf u i :
  uf_wf u -> i < length u -> uf_parent u i <> i ->
  uf_wf (<[i := uf_parent u (uf_parent u i)]> u).
Proof.
  intros (rk & Hr & Hb) Hi Hn. exists rk. split; [by apply halve_ranked|].
  intros j. rewrite insert_length. auto.
Qed.

Lemma halve_walks u i j r :
  uf_wf u -> i < length u -> uf_parent u i <> i ->
  walks u j r -> walks (<[i := uf_parent u (uf_parent u i)]> u) j r.
Proof.
  intros (rk & Hr & Hb) Hi Hn. set (u' := <[i := _]> u).
  assert (HP : forall j, uf_parent u' j = if decide (j = i) then uf_parent u (uf_parent u i) else uf_parent u j)
    by (intros; apply parent_insert; auto).
  assert (Hrank : forall j r, walks u j r -> rk j <= rk r).
  { induction 1; auto. pose proof (uf_parent_rank u rk i0 Hr H). lia. }
  cut (forall n j r, length u <= n + rk j -> j < length u -> walks u j r -> walks u' j r).
  { intros Hc Hwk. destruct (decide (j < length u)).
    - apply (Hc (length u)); auto; lia.
    - inversion Hwk; subst.
      + constructor. rewrite HP. rewrite decide_False; auto. lia.
      + exfalso. apply H. unfold uf_parent. rewrite lookup_ge_None_2; [done|lia]. }
  clear j r. induction n as [|n IH]; intros j r Hn' Hj Hwk.
  { specialize (Hb j Hj). lia. }
  assert (Hpl : forall k, k < length u -> uf_parent u k < length u)
    by (intros; apply uf_parent_lt; auto; by exists rk).
  inversion Hwk; subst.
  - constructor. rewrite HP. case_decide; subst; congruence.
  - destruct (decide (j = i)) as [->|Hne].
    + inversion H0; subst.
      * apply walk_step; rewrite HP, decide_True by done; rewrite H1; [done|].
        constructor. rewrite HP. rewrite decide_False; [done|]. intros E.
        by rewrite E in Hn.
      * pose proof (uf_parent_rank u rk _ Hr H).
        pose proof (uf_parent_rank u rk _ Hr H1).
        apply walk_step; rewrite HP, decide_True by done.
        -- intros E. rewrite E in H4. lia.
        -- apply IH; auto. lia.
    + apply walk_step; rewrite HP, decide_False by done; [done|].
      pose proof (uf_parent_rank u rk _ Hr H).
      apply IH; auto. lia.
Qed.

Lemma halve_find u i j :
  uf_wf u -> i < length u -> uf_parent u i <> i ->
  uf_find (<[i := uf_parent u (uf_parent u i)]> u) j = uf_find u j.
Proof.
  intros Hw Hi Hn. destruct (decide (j < length u)).
  - apply uf_find_eq.
    + by apply halve_wf.
    + by rewrite insert_length.
    + apply halve_walks; auto. by apply uf_find_walks.
  - rewrite !uf_find_oob; auto; try lia. rewrite insert_length. lia.
Qed.

(** Equivalence of arrays up to path compression. *)
Definition uf_equiv (u u' : unionfind) : Prop :=
  uf_wf u' /\ length u' = length u /\ forall j, uf_find u' j = uf_find u j.

Lemma uf_equiv_refl u : uf_wf u -> uf_equiv u u.
Proof. intros. unfold uf_equiv. by split_and!. Qed.
Lemma uf_equiv_trans u v w : uf_equiv u v -> uf_equiv v w -> uf_equiv u w.
Proof. intros (?&?&?) (?&?&?). unfold uf_equiv. split_and!; auto; intros; congruence. Qed.

Lemma find_mut_spec u i :
  uf_wf u -> i < length u ->
  uf_equiv u (uf_find_mut u i).1 /\ (uf_find_mut u i).2 = uf_find u i.
Proof.
  intros Hw Hi. unfold uf_find_mut.
  destruct Hw as (rk & Hr & Hb).
  cut (forall fuel u0 i, uf_ranked u0 rk -> (forall j, j < length u0 -> rk j < length u0) ->
        i < length u0 -> length u0 <= fuel + rk i ->
        uf_equiv u0 (uf_find_mut_fuel fuel u0 i).1 /\
        (uf_find_mut_fuel fuel u0 i).2 = uf_find u0 i).
  { intros Hc. apply Hc; auto. lia. }
  clear u i Hr Hb Hi.
  induction fuel as [|fuel IH]; intros u i Hr Hb Hi Hf.
  { specialize (Hb i Hi). lia. }
  assert (Hw : uf_wf u) by by exists rk.
  cbn [uf_find_mut_fuel]. case_decide as Hd.
  - split; [by apply uf_equiv_refl|]. cbn. by rewrite uf_find_root.
  - assert (Hn : uf_parent u i <> i) by congruence.
    set (g := uf_parent u (uf_parent u i)).
    assert (Hpl : uf_parent u i < length u) by by apply uf_parent_lt.
    assert (Hgl : g < length u) by by apply uf_parent_lt.
    assert (rk i < rk g).
    { pose proof (uf_parent_rank u rk i Hr Hn). unfold g.
      destruct (decide (uf_parent u (uf_parent u i) = uf_parent u i)) as [->|Hn2]; [done|].
      pose proof (uf_parent_rank u rk _ Hr Hn2). lia. }
    destruct (IH (<[i := g]> u) g) as [He Hf'].
    + by apply halve_ranked.
    + rewrite insert_length. auto.
    + by rewrite insert_length.
    + rewrite insert_length. lia.
    + split.
      * eapply uf_equiv_trans; [|exact He]. unfold uf_equiv. split_and!.
        -- by apply halve_wf.
        -- by rewrite insert_length.
        -- intros. by apply halve_find.
      * rewrite Hf'. unfold g at 1. rewrite halve_find by done.
        unfold g. by rewrite !uf_find_parent.
Qed.

Lemma find_mut_res_total u i fuel :
  uf_wf u -> i < length u -> length u <= fuel ->
  exists u', uf_find_mut_res fuel u i = Ok (u', uf_find u i) /\ uf_equiv u u'.
Proof.
  intros (rk & Hr & Hb) Hi Hf.
  assert (Hf' : length u <= fuel + rk i) by lia. clear Hf.
  revert u i Hr Hb Hi Hf'.
  induction fuel as [|fuel IH]; intros u i Hr Hb Hi Hf.
  { specialize (Hb i Hi). lia. }
  assert (Hw : uf_wf u) by by exists rk.
  cbn [uf_find_mut_res]. unfold uf_parent_res.
  destruct (lookup_lt_is_Some_2 u i Hi) as [p Hp]. rewrite Hp. cbn.
  assert (Hpp : uf_parent u i = p) by (unfold uf_parent; by rewrite Hp).
  case_decide as Hd.
  - subst p. exists u. rewrite uf_find_root by done. split; [done|]. by apply uf_equiv_refl.
  - assert (Hn : uf_parent u i <> i) by congruence.
    assert (Hpl : p < length u) by (rewrite <- Hpp; by apply uf_parent_lt).
    destruct (lookup_lt_is_Some_2 u p Hpl) as [g Hg]. rewrite Hg. cbn.
    assert (Hgg : uf_parent u p = g) by (unfold uf_parent; by rewrite Hg).
    assert (Eg : g = uf_parent u (uf_parent u i)) by congruence.
    assert (rk i < rk g).
    { pose proof (uf_parent_rank u rk i Hr Hn). rewrite Eg.
      destruct (decide (uf_parent u (uf_parent u i) = uf_parent u i)) as [->|Hn2]; [done|].
      pose proof (uf_parent_rank u rk _ Hr Hn2). lia. }
    destruct (IH (<[i := g]> u) g) as (u' & -> & He).
    + rewrite Eg. by apply halve_ranked.
    + rewrite insert_length. auto.
    + rewrite insert_length, Eg. by do 2 (apply uf_parent_lt; [done|]).
    + rewrite insert_length. lia.
    + exists u'. split.
      * do 2 f_equal. rewrite Eg. rewrite halve_find by done. by rewrite !uf_find_parent.
      * eapply uf_equiv_trans; [|exact He]. unfold uf_equiv. split_and!.
        -- rewrite Eg. by apply halve_wf.
        -- by rewrite insert_length.
        -- intros. rewrite Eg. by apply halve_find.
Qed.

(** make_set *)
Lemma make_set_parent u i :
  uf_parent (u ++ [length u]) i = uf_parent u i.
Proof.
  unfold uf_parent. destruct (decide (i < length u)).
  - by rewrite lookup_app_l.
  - rewrite (lookup_ge_None_2 u) by lia. cbn.
    destruct (decide (i = length u)) as [->|].
    + by rewrite list_lookup_middle.
    + rewrite lookup_ge_None_2; [done|]. rewrite app_length. cbn. lia.
Qed.

Lemma make_set_wf u : uf_wf u -> uf_wf (u ++ [length u]).
Proof.
  intros (rk & Hr & Hb).
  exists (fun i => if decide (i < length u) then rk i else 0). split.
  - intros i p Hp. rewrite app_length. cbn.
    destruct (decide (i < length u)) as [Hi|Hi].
    + rewrite lookup_app_l in Hp by done. destruct (Hr _ _ Hp).
      split; [lia|]. rewrite decide_True by done. auto.
    + apply lookup_app_Some in Hp as [Hp|[Hl Hp]]; [apply lookup_lt_Some in Hp; lia|].
      apply list_lookup_singleton_Some in Hp as [? <-].
      split; [lia|]. intros. lia.
  - intros i. rewrite app_length. cbn. intros. case_decide; [|lia].
    specialize (Hb i ltac:(done)). lia.
Qed.

Lemma walks_parent_ext u u' i r :
  (forall j, uf_parent u' j = uf_parent u j) -> walks u i r -> walks u' i r.
Proof.
  intros He. induction 1.
  - constructor. by rewrite He.
  - apply walk_step; rewrite He; auto.
Qed.

Lemma make_set_find u i : uf_wf u -> uf_find (u ++ [length u]) i = uf_find u i.
Proof.
  intros Hw. pose proof (make_set_wf u Hw).
  destruct (decide (i < length u)).
  - apply uf_find_eq; auto; [rewrite app_length; lia|].
    eapply walks_parent_ext; [apply make_set_parent|]. by apply uf_find_walks.
  - rewrite (uf_find_oob u) by lia. apply uf_find_root; auto.
    rewrite make_set_parent. unfold uf_parent. by rewrite lookup_ge_None_2 by lia.
Qed.

(** union of two distinct roots *)
Lemma uf_find_nonroot_bound u : uf_wf u ->
  exists rk, uf_ranked u rk /\ (forall i, i < length u -> rk i <= uf_nonroots u) /\
             (forall i, i < length u -> rk i < length u).
Proof.
  (* canonical rank: number of strict descendants is awkward; use iteration depth *)
  intros (rk & Hr & Hb).
  (* compress the given rank onto the non-roots below it *)
  set (nr i := filter (fun j => uf_parent u j <> j /\ rk j < rk i) (seq 0 (length u))).
  exists (fun i => length (nr i)). split_and!.
  - intros i p Hp. destruct (Hr _ _ Hp) as [Hl Hrk]. split; [done|]. intros Hn.
    specialize (Hrk Hn).
    assert (Hi : i < length u) by (by eapply lookup_lt_Some).
    assert (NoDup (i :: nr i)).
    { apply NoDup_cons. split.
      - unfold nr. rewrite elem_of_list_filter. lia.
      - unfold nr. apply NoDup_filter, NoDup_seq. }
    assert (Hsub : i :: nr i ⊆+ nr p).
    { apply NoDup_submseteq; [done|]. intros j. unfold nr.
      rewrite elem_of_cons, !elem_of_list_filter.
      intros [->|((?&?)&?)].
      - split_and!; auto.
        + unfold uf_parent. rewrite Hp. done.
        + apply elem_of_seq. lia.
      - split_and!; auto. lia. }
    apply submseteq_length in Hsub. cbn in Hsub. lia.
  - intros i Hi. apply submseteq_length. apply NoDup_submseteq.
    + apply NoDup_filter, NoDup_seq.
    + intros j. unfold nr. rewrite !elem_of_list_filter. naive_solver.
  - intros i Hi.
    assert (Hsub : uf_find u i :: nr i ⊆+ seq 0 (length u)).
    { apply NoDup_submseteq.
      - apply NoDup_cons. split.
        + unfold nr. rewrite elem_of_list_filter. intros [[Hc _] _]. apply Hc.
          apply uf_find_is_root. by exists rk.
        + apply NoDup_filter, NoDup_seq.
      - intros j. rewrite elem_of_cons. intros [->|Hj].
        + apply elem_of_seq. split; [lia|]. cbn. apply uf_find_lt; auto. by exists rk.
        + unfold nr in Hj. apply elem_of_list_filter in Hj. naive_solver. }
    apply submseteq_length in Hsub. rewrite seq_length in Hsub. cbn in Hsub. lia.
Qed.

Lemma union_parent u r1 r2 j :
  r2 < length u -> uf_parent (<[r2 := r1]> u) j = if decide (j = r2) then r1 else uf_parent u j.
Proof. apply parent_insert. Qed.

Lemma union_wf u r1 r2 :
  uf_wf u -> r1 < length u -> r2 < length u -> r1 <> r2 ->
  uf_parent u r1 = r1 -> uf_parent u r2 = r2 -> uf_wf (<[r2 := r1]> u).
Proof.
  intros Hw H1 H2 Hne Hp1 Hp2.
  destruct (uf_find_nonroot_bound u Hw) as (rk & Hr & Hb & Hbl).
  (* two roots exist, so the number of non-roots is at most length - 2 *)
  assert (Hnr : S (S (uf_nonroots u)) <= length u).
  { assert (Hsub : r1 :: r2 :: filter (fun i => uf_parent u i <> i) (seq 0 (length u))
                   ⊆+ seq 0 (length u)).
    { apply NoDup_submseteq.
      - rewrite !NoDup_cons. split_and!.
        + rewrite elem_of_cons, elem_of_list_filter. naive_solver.
        + rewrite elem_of_list_filter. naive_solver.
        + apply NoDup_filter, NoDup_seq.
      - intros j. rewrite !elem_of_cons, elem_of_list_filter, elem_of_seq. lia. }
    apply submseteq_length in Hsub. rewrite seq_length in Hsub. cbn in Hsub.
    unfold uf_nonroots. lia. }
  exists (fun i => if decide (i = r1) then S (uf_nonroots u) else rk i). split.
  - intros i p Hp. rewrite insert_length.
    destruct (decide (i = r2)) as [->|Hi].
    + rewrite list_lookup_insert in Hp by done. injection Hp as <-.
      split; [done|]. intros _. rewrite decide_False by done. rewrite decide_True by done.
      specialize (Hb r2 H2). lia.
    + rewrite list_lookup_insert_ne in Hp by done.
      destruct (Hr _ _ Hp) as [Hl Hrk]. split; [done|]. intros Hn.
      specialize (Hrk Hn).
      assert (Hil : i < length u) by by eapply lookup_lt_Some.
      rewrite (decide_False (P := i = r1)).
      * case_decide; [|done]. specialize (Hb i Hil). lia.
      * intros ->. apply Hn. unfold uf_parent in Hp1. rewrite Hp in Hp1. done.
  - intros i. rewrite insert_length. intros Hi. case_decide; [lia|]. auto.
Qed.

Lemma union_find u r1 r2 j :
  uf_wf u -> r1 < length u -> r2 < length u -> r1 <> r2 ->
  uf_parent u r1 = r1 -> uf_parent u r2 = r2 ->
  uf_find (<[r2 := r1]> u) j = if decide (uf_find u j = r2) then r1 else uf_find u j.
Proof.
  intros Hw H1 H2 Hne Hp1 Hp2.
  pose proof (union_wf u r1 r2 Hw H1 H2 Hne Hp1 Hp2) as Hw'.
  destruct (decide (j < length u)) as [Hj|Hj].
  - apply uf_find_eq; auto; [by rewrite insert_length|].
    pose proof (uf_find_walks u j Hw Hj) as Hwk.
    revert Hwk. generalize (uf_find u j) as r. intros r. induction 1 as [r Hr|i r Hn Hwk IH].
    + case_decide as Hd.
      * subst. apply walk_step; rewrite union_parent, decide_True by done; [done|].
        constructor. rewrite union_parent, decide_False by done. done.
      * constructor. rewrite union_parent, decide_False by done. done.
    + assert (i <> r2) by congruence.
      apply walk_step; rewrite union_parent, decide_False by done; [done|].
      apply IH. by apply uf_parent_lt.
  - rewrite !uf_find_oob; rewrite ?insert_length; try lia.
    case_decide; [lia|done].
Qed.

Lemma uf_wf_nil : uf_wf [].
Proof. exists (fun _ => 0). split; [intros i p Hp; done|cbn; lia]. Qed.

Global Arguments uf_find : simpl never.
Global Arguments uf_find_mut : simpl never.
Global Arguments uf_parent : simpl never.
