(** Sequences of union-find calls. *)
From Coq Require Import Relations.Relation_Operators.
From Verif Require Import Base UnionFind.

(** The calls of src/unionfind.rs as its only user (src/egraph.rs:1156-1203, 1014-1045)
    makes them: [union] is applied to the leaders of the two arguments, in either order,
    when they differ. *)
Inductive uf_call := UMake | UFind (i : nat) | UFindMut (i : nat) | UUnion (a b : nat) (swap : bool).

Definition uf_call_run (c : uf_call) (u : unionfind) : res unionfind :=
  match c with
  | UMake => Ok (uf_make_set u).1
  | UFind i => _ ← uf_find_res (S (length u)) u i; Ok u
  | UFindMut i => '(u, _) ← uf_find_mut_res (S (length u)) u i; Ok u
  | UUnion a b swap =>
      '(u, ra) ← uf_find_mut_res (S (length u)) u a;
      '(u, rb) ← uf_find_mut_res (S (length u)) u b;
      if decide (ra = rb) then Ok u
      else Ok (if swap then (uf_union u rb ra).1 else (uf_union u ra rb).1)
  end.

Fixpoint uf_run (cs : list uf_call) (u : unionfind) : res unionfind :=
  match cs with [] => Ok u | c :: cs => u ← uf_call_run c u; uf_run cs u end.

(** Every id used has been handed out before. *)
Fixpoint uf_calls_valid (n : nat) (cs : list uf_call) : Prop :=
  match cs with
  | [] => True
  | UMake :: cs => uf_calls_valid (S n) cs
  | UFind i :: cs | UFindMut i :: cs => i < n /\ uf_calls_valid n cs
  | UUnion a b _ :: cs => a < n /\ b < n /\ uf_calls_valid n cs
  end.

(** "a chain of unions connects them" *)
Definition asserted (cs : list uf_call) (a b : nat) : Prop := exists s, UUnion a b s ∈ cs.
Definition linked (cs : list uf_call) : nat -> nat -> Prop := clos_refl_sym_trans nat (asserted cs).

Lemma linked_mono cs cs' i j : (forall c, c ∈ cs -> c ∈ cs') -> linked cs i j -> linked cs' i j.
Proof.
  intros Hs. induction 1 as [a b (s & Hab)| | |].
  - apply rst_step. exists s. auto.
  - apply rst_refl.
  - by apply rst_sym.
  - by eapply rst_trans.
Qed.

Record uf_good (cs : list uf_call) (u : unionfind) : Prop := {
  ug_wf : uf_wf u;
  ug_snd : forall i, linked cs i (uf_find u i);
  ug_cpl : forall a b, asserted cs a b -> uf_find u a = uf_find u b;
}.

Lemma uf_good_equiv cs u u' c :
  (forall a b s, c <> UUnion a b s) -> uf_equiv u u' -> uf_good cs u -> uf_good (cs ++ [c]) u'.
Proof.
  intros Hc (Hw & Hl & Hf) [G1 G2 G3]. split; [done| |].
  - intros i. rewrite Hf. eapply linked_mono; [|apply G2]. intros. apply elem_of_app. auto.
  - intros a b (s & Hab). rewrite !Hf. apply elem_of_app in Hab as [Hab|Hab].
    + apply G3. by exists s.
    + apply elem_of_list_singleton in Hab. naive_solver.
Qed.

Lemma uf_call_good cs u c :
  uf_good cs u -> uf_calls_valid (length u) [c] ->
  exists u', uf_call_run c u = Ok u' /\ uf_good (cs ++ [c]) u' /\
    length u' = match c with UMake => S (length u) | _ => length u end.
Proof.
  intros G Hv. pose proof G as [G1 G2 G3].
  destruct c as [|i|i|a b sw]; cbn in Hv; unfold uf_call_run.
  - eexists. split; [done|]. cbn. rewrite app_length. cbn. split; [|lia].
    split; [by apply make_set_wf| |].
    + intros i. rewrite make_set_find by done. eapply linked_mono; [|apply G2]. intros. apply elem_of_app. auto.
    + intros a b (s & Hab). rewrite !make_set_find by done. apply elem_of_app in Hab as [Hab|Hab].
      * apply G3. by exists s.
      * by apply elem_of_list_singleton in Hab.
  - rewrite uf_find_res_total; [|done|tauto|lia]. cbn [mbind res_bind]. eexists. split; [done|]. split; [|done].
    eapply uf_good_equiv; [done|by apply uf_equiv_refl|done].
  - destruct (find_mut_res_total u i (S (length u))) as (u' & -> & He); [done|tauto|lia|]. cbn [mbind res_bind].
    eexists. split; [done|]. split; [|apply He]. by eapply uf_good_equiv.
  - destruct (find_mut_res_total u a (S (length u))) as (u1 & -> & He1); [done|tauto|lia|]. cbn [mbind res_bind].
    pose proof He1 as (Hw1 & Hl1 & Hf1).
    destruct (find_mut_res_total u1 b (S (length u1))) as (u2 & -> & He2); [done|rewrite Hl1; tauto|lia|]. cbn [mbind res_bind].
    pose proof (uf_equiv_trans _ _ _ He1 He2) as (Hw2 & Hl2 & Hf2). rewrite Hf1.
    assert (Hlk : forall i j, linked cs i j -> linked (cs ++ [UUnion a b sw]) i j).
    { intros i j. apply linked_mono. intros. apply elem_of_app. auto. }
    case_decide as Hd.
    + exists u2. split; [done|]. split; [|done]. split; [done| |].
      * intros i. rewrite Hf2. auto.
      * intros x y (s & Hxy). rewrite !Hf2. apply elem_of_app in Hxy as [Hxy|Hxy].
        -- apply G3. by exists s.
        -- apply elem_of_list_singleton in Hxy. by injection Hxy as -> -> ->.
    + assert (Hra : uf_find u a < length u2) by (rewrite Hl2; apply uf_find_lt; tauto).
      assert (Hrb : uf_find u b < length u2) by (rewrite Hl2; apply uf_find_lt; tauto).
      assert (Hpa : uf_parent u2 (uf_find u a) = uf_find u a).
      { apply uf_find_root_iff; [done|]. rewrite Hf2. by apply uf_find_idem. }
      assert (Hpb : uf_parent u2 (uf_find u b) = uf_find u b).
      { apply uf_find_root_iff; [done|]. rewrite Hf2. by apply uf_find_idem. }
      assert (Hab : linked (cs ++ [UUnion a b sw]) (uf_find u a) (uf_find u b)).
      { eapply rst_trans; [apply rst_sym, Hlk, G2|]. eapply rst_trans; [|apply Hlk, G2].
        apply rst_step. exists sw. apply elem_of_app. right. by left. }
      eexists. split; [done|]. unfold uf_union. destruct sw; cbn [fst]; rewrite insert_length; (split; [|done]); split.
      * by apply union_wf.
      * intros i. rewrite union_find by done. rewrite Hf2. case_decide as Hi; [|auto].
        eapply rst_trans; [apply Hlk, G2|]. by rewrite Hi.
      * intros x y (s & Hxy). rewrite !union_find, !Hf2 by done. apply elem_of_app in Hxy as [Hxy|Hxy].
        -- rewrite (G3 x y) by (by exists s). done.
        -- apply elem_of_list_singleton in Hxy. injection Hxy as -> -> ->. rewrite decide_True by done.
           by rewrite decide_False.
      * by apply union_wf.
      * intros i. rewrite union_find by done. rewrite Hf2. case_decide as Hi; [|auto].
        eapply rst_trans; [apply Hlk, G2|]. rewrite Hi. by apply rst_sym.
      * intros x y (s & Hxy). rewrite !union_find, !Hf2 by done. apply elem_of_app in Hxy as [Hxy|Hxy].
        -- rewrite (G3 x y) by (by exists s). done.
        -- apply elem_of_list_singleton in Hxy. injection Hxy as -> -> ->. rewrite decide_False by done.
           by rewrite decide_True.
Qed.

Lemma uf_run_good cs0 cs u :
  uf_good cs0 u -> uf_calls_valid (length u) cs ->
  exists u', uf_run cs u = Ok u' /\ uf_good (cs0 ++ cs) u'.
Proof.
  revert cs0 u. induction cs as [|c cs IH]; intros cs0 u G Hv; cbn [uf_run].
  { rewrite app_nil_r. eauto. }
  assert (Hc : uf_calls_valid (length u) [c]) by (destruct c; cbn in *; tauto).
  destruct (uf_call_good _ _ _ G Hc) as (u1 & -> & G1 & Hl). cbn.
  destruct (IH _ u1 G1) as (u' & E & G').
  { rewrite Hl. destruct c; cbn in *; tauto. }
  exists u'. split; [done|]. by rewrite <- app_assoc in G'.
Qed.

Lemma uf_run_spec cs :
  uf_calls_valid 0 cs ->
  exists u, uf_run cs [] = Ok u /\
    (forall i, i < length u -> exists r, uf_find_res (S (length u)) u i = Ok r /\ r < length u /\
        uf_find_res (S (length u)) u r = Ok r) /\
    (forall i j r s, uf_find_res (S (length u)) u i = Ok r -> uf_find_res (S (length u)) u j = Ok s ->
        (r = s <-> linked cs i j)).
Proof.
  intros Hv. destruct (uf_run_good [] cs []) as (u & E & G); [|done|].
  { split; [apply uf_wf_nil| |].
    - intros i. apply rst_refl.
    - intros a b (s & Hab). by apply elem_of_nil in Hab. }
  cbn in G. destruct G as [G1 G2 G3]. exists u. split; [done|].
  assert (Hin : forall i r, uf_find_res (S (length u)) u i = Ok r -> i < length u).
  { intros i r Hr. cbn in Hr. unfold uf_parent_res in Hr. inv_res. by eapply lookup_lt_Some. }
  assert (Hck : forall a b, linked cs a b -> uf_find u a = uf_find u b).
  { induction 1; auto; congruence. }
  split.
  - intros i Hi. exists (uf_find u i). pose proof (uf_find_lt u i G1 Hi).
    split_and!; [by apply uf_find_res_total; auto|done|].
    rewrite uf_find_res_total by auto. f_equal. by apply uf_find_idem.
  - intros i j r s Hr Hs. pose proof (Hin _ _ Hr) as Hi. pose proof (Hin _ _ Hs) as Hj.
    rewrite uf_find_res_total in Hr, Hs by auto. inv_res. split; [|apply Hck].
    intros E'. eapply rst_trans; [apply G2|]. rewrite E'. apply rst_sym, G2.
Qed.

(** [find_mut] is [find] plus an invisible change. *)
Lemma uf_run_find_mut cs i u :
  uf_calls_valid 0 cs -> uf_run cs [] = Ok u -> i < length u ->
  exists u' r, uf_find_mut_res (S (length u)) u i = Ok (u', r) /\ uf_find_res (S (length u)) u i = Ok r /\
    length u' = length u /\ (forall j, uf_find_res (S (length u')) u' j = uf_find_res (S (length u)) u j).
Proof.
  intros Hv E Hi. destruct (uf_run_good [] cs []) as (u0 & E0 & G); [|done|].
  { split; [apply uf_wf_nil| |].
    - intros k. apply rst_refl.
    - intros a b (s & Hab). by apply elem_of_nil in Hab. }
  assert (u0 = u) by congruence. subst u0. destruct G as [G1 _ _].
  destruct (find_mut_res_total u i (S (length u))) as (u' & E1 & Hw & Hl & Hf); auto.
  exists u', (uf_find u i). split_and!; auto; [by apply uf_find_res_total; auto|].
  intros j. destruct (decide (j < length u)) as [Hj|Hj].
  - rewrite !uf_find_res_total by (auto; lia). by rewrite Hf.
  - cbn. unfold uf_parent_res. rewrite !lookup_ge_None_2 by lia. done.
Qed.

(** [union] of two leaders. *)
Lemma uf_run_union cs u a b u' r :
  uf_calls_valid 0 cs -> uf_run cs [] = Ok u -> uf_find_res (S (length u)) u a = Ok a -> uf_find_res (S (length u)) u b = Ok b -> a <> b ->
  uf_union u a b = (u', r) ->
  r = a /\ forall j s, uf_find_res (S (length u)) u j = Ok s -> uf_find_res (S (length u')) u' j = Ok (if decide (s = b) then r else s).
Proof.
  intros Hv E Ha Hb Hne Eu. destruct (uf_run_good [] cs []) as (u0 & E0 & G); [|done|].
  { split; [apply uf_wf_nil| |].
    - intros k. apply rst_refl.
    - intros x y (s & Hxy). by apply elem_of_nil in Hxy. }
  assert (u0 = u) by congruence. subst u0. destruct G as [G1 _ _]. injection Eu as <- <-.
  assert (Hin : forall i s, uf_find_res (S (length u)) u i = Ok s -> i < length u).
  { intros i s Hr. cbn in Hr. unfold uf_parent_res in Hr. inv_res. by eapply lookup_lt_Some. }
  pose proof (Hin _ _ Ha) as La. pose proof (Hin _ _ Hb) as Lb.
  rewrite uf_find_res_total in Ha, Hb by auto. injection Ha as Ha. injection Hb as Hb. apply uf_find_root_iff in Ha, Hb; [|done|done].
  split; [done|]. intros j s Hs. pose proof (Hin _ _ Hs) as Lj. rewrite uf_find_res_total in Hs by auto. injection Hs as <-.
  rewrite uf_find_res_total; [|by apply union_wf|by rewrite insert_length|rewrite insert_length; lia].
  f_equal. by apply union_find.
Qed.
