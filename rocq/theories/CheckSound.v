(** What an accepted explanation shows. *)
From Verif Require Import Base EGraphModel Spec Terms RecExprModel ExprModel PatSpec MachineModel MatchSpec RewriteModel RuleSpec RuleSafe RuleProps
  ExplainModel ExplainSpec ExplainFlat ExplainMain CheckModel CheckSpec CheckProofs.

Section binds.
Context {Op : Type} `{Countable Op}.
Notation pnode := (EGraphModel.node (pop Op)).
Notation fterm := (fterm Op).
Notation term := (term Op).

Definition agree (th : nat -> term) (b : gmap nat fterm) : Prop := forall v e, b !! v = Some e -> th v = erase e.
Definition arity_b (b : gmap nat fterm) : Prop := forall v e, b !! v = Some e -> arity_ok e.
Lemma make_bindings_inv (p : list pnode) fuel loc tp t b b' : pat_ok p -> Tree p loc tp -> arity_ok t -> arity_b b ->
  make_bindings fuel p loc t b = Ok b' -> b ⊆ b' /\ arity_b b' /\ forall th, agree th b' -> erase t = tsubst th tp.
Proof.
  intros Hok. revert loc tp t b b'. induction fuel as [|fuel IH]; intros loc tp t b b' Ht Ha Hb E; [done|].
  inversion Ht as [? o cs ts Hg Hts]; subst. rewrite make_bindings_S, Hg in E. cbn [expect mbind res_bind nop nch] in E.
  destruct o as [f|v].
  - destruct t as [m x y ks]. apply bind_Ok in E as ([] & E1 & E). destruct (node_matches (Node f cs) m) eqn:Em; [|done]. clear E1.
    apply node_matches_true in Em as [Em L]. cbn in Em, L. inversion Ha as [? ? ? ? Lm Hks]; subst.
    assert (K : length cs = length ks -> b ⊆ b' /\ arity_b b' /\ forall th, agree th b' -> erase <$> ks = tsubst th <$> ts).
    { clear Hg Ht Lm L Ha. revert ks b Hks Hb E. induction Hts as [|c tc cs ts Hc Hcs IHc]; intros ks b Hks Hb E Ll.
      - destruct ks; [|done]. injection E as <-. split_and!; done.
      - destruct ks as [|k ks]; [done|]. cbn [bind_kids] in E. apply bind_Ok in E as (b1 & E1 & E). apply Forall_cons in Hks as [Hk Hks].
        destruct (IH _ _ _ _ _ Hc Hk Hb E1) as (S1 & B1 & T1). destruct (IHc _ _ Hks B1 E) as (S2 & B2 & T2); [by injection Ll|].
        split_and!; [by etrans|done|]. intros th Hth. rewrite !fmap_cons. f_equal; [|by apply T2]. apply T1. intros w e Hw. apply Hth. by eapply lookup_weaken. }
    destruct K as (S & B & T); [lia|]. split_and!; [done|done|]. intros th Hth. cbn [erase tsubst]. by rewrite (T th Hth).
  - assert (cs = []) as -> by exact (Forall_lookup_1 _ _ _ _ Hok Hg). inversion Hts; subst. cbn [tsubst]. destruct (b !! v) as [e|] eqn:Ev.
    + apply bind_Ok in E as ([] & E1 & [= <-]). destruct (ft_eqb e t) eqn:Ee; [|done]. apply ft_eqb_erase in Ee; [|by eapply Hb|done].
      split_and!; [done|done|]. intros th Hth. by rewrite (Hth _ _ Ev).
    + injection E as <-. split_and!.
      * by apply insert_subseteq.
      * intros w e. destruct (decide (w = v)) as [->|Hne]; [rewrite lookup_insert; by intros [= <-]|]. rewrite lookup_insert_ne by done. apply Hb.
      * intros th Hth. symmetry. apply Hth. by rewrite lookup_insert.
Qed.
Lemma from_pattern_inv (p : list pnode) fuel loc tp t b : pat_ok p -> Tree p loc tp -> arity_b b ->
  from_pattern fuel p loc b = Ok t -> arity_ok t /\ forall th, agree th b -> erase t = tsubst th tp.
Proof.
  intros Hok. revert loc tp t. induction fuel as [|fuel IH]; intros loc tp t Ht Hb E; [done|].
  inversion Ht as [? o cs ts Hg Hts]; subst. cbn [from_pattern] in E. rewrite Hg in E. cbn [expect mbind res_bind nop nch] in E.
  destruct o as [f|v].
  - apply bind_Ok in E as (ks & E1 & [= <-]).
    assert (K : length cs = length ks /\ Forall arity_ok ks /\ forall th, agree th b -> erase <$> ks = tsubst th <$> ts).
    { clear Hg Ht. revert ks E1. induction Hts as [|c tc cs ts Hc Hcs IHc]; intros ks E; cbn [mapM] in E; [injection E as <-; by split_and!|].
      apply bind_Ok in E as (k & E1 & E). apply bind_Ok in E as (ks' & E2 & [= <-]). destruct (IH _ _ _ Hc Hb E1) as (A1 & T1). destruct (IHc _ E2) as (L2 & A2 & T2).
      split_and!; [cbn; lia|by constructor|]. intros th Hth. rewrite !fmap_cons. by rewrite (T1 th Hth), (T2 th Hth). }
    destruct K as (Ll & Hk & T). split; [by constructor|]. intros th Hth. cbn [erase tsubst nop]. by rewrite (T th Hth).
  - apply expect_Ok in E. split; [by eapply Hb|]. intros th Hth. cbn [tsubst]. symmetry. by apply Hth.
Qed.
Lemma ft_rewrite_inv (lhs rhs : list pnode) t t' : good_ast lhs -> good_ast rhs -> arity_ok t -> ft_rewrite lhs rhs t = Ok t' ->
  arity_ok t' /\ instance_of lhs rhs (erase t) (erase t').
Proof.
  intros (Dl & Ol & Nl) (Dr & Or & Nr) Ha E. unfold ft_rewrite in E. apply bind_Ok in E as (_ & _ & E). apply bind_Ok in E as (b & Eb & E). apply bind_Ok in E as (_ & _ & E).
  assert (0 < length lhs) by (destruct lhs; [done|cbn; lia]). assert (0 < length rhs) by (destruct rhs; [done|cbn; lia]).
  destruct (dag_Tree lhs (length lhs - 1) Dl) as [tl Tl]; [lia|]. destruct (dag_Tree rhs (length rhs - 1) Dr) as [tr Tr]; [lia|].
  destruct (make_bindings_inv lhs (length lhs) _ tl t ∅ b Ol Tl Ha) as (_ & B & T1); [intros ? ?; by rewrite lookup_empty|done|].
  destruct (from_pattern_inv rhs _ _ tr t' b Or Tr B E) as (A' & T2). split; [done|].
  set (th := fun v => match b !! v with Some e => erase e | None => erase t end).
  assert (Hth : agree th b) by (intros v e Hv; unfold th; by rewrite Hv). exists tl, tr, th. by split_and!; auto.
Qed.
End binds.

Section sound.
Context {Op D : Type} `{Countable Op}.
Notation fterm := (fterm Op).
Notation term := (term Op).
Notation rewrite := (rewrite Op D).
Context (rules : list rewrite) (Hacc : Forall accepted_rule rules) (Hone : one_per_name rules).

Lemma rule_of_some rw : rw ∈ rules -> rule_of rules (rw_name rw) = Some rw.
Proof.
  intros Hin. destruct (rule_of rules (rw_name rw)) as [rw'|] eqn:E.
  - apply rule_of_in in E as [Hin' En]. f_equal. by apply Hone.
  - unfold rule_of in E. destruct (list_find _ _) as [[]|] eqn:El; [done|]. apply list_find_None in El. rewrite Forall_forall in El. destruct (El rw); [by apply elem_of_reverse|done].
Qed.
Lemma check_named_inv cur next r : arity_ok cur -> arity_ok next -> (exists rw lhs rhs, rw ∈ rules /\ rw_name rw = r /\ between rw lhs rhs) ->
  check_named rules cur next r = Ok true -> rule_eqs rules r (erase cur) (erase next).
Proof.
  intros Ac An (rw & lhs & rhs & Hin & <- & Hb) E. unfold check_named in E. rewrite (rule_of_some rw Hin) in E. unfold check_rewrite in E.
  pose proof Hb as [Es Ea]%between_asts. rewrite Es, Ea in E. apply bind_Ok in E as (t & Et & E). injection E as E.
  pose proof (proj1 (Forall_forall _ _) Hacc rw Hin) as [_ Hg]. destruct (Hg _ _ Hb) as (Gl & _ & Gr).
  destruct (ft_rewrite_inv lhs rhs cur t Gl Gr Ac Et) as [At Hi]. apply ft_eqb_erase in E; [|done|done]. rewrite <- E. by exists rw, lhs, rhs.
Qed.
Lemma check_at_inv next : forall cur (fwd : bool), arity_ok cur -> arity_ok next -> named rules next -> only_below cur next ->
  (if fwd then has_backward next else has_forward next) = false -> check_rewrite_at rules fwd cur next = Ok true -> teq (rule_eqs rules) (erase cur) (erase next).
Proof.
  induction next as [m b' f' ls IH] using fterm_sind. intros [n b f ks] fwd Ac An Hn Hb Hd E. rewrite check_at_node in E.
  inversion Hn as [? ? ? ? Hr Hns]; subst.
  assert (Hdir : (if fwd then b' else f') = None).
  { destruct fwd; [destruct b'|destruct f']; try done. }
  destruct (if fwd then f' else b') as [r|] eqn:Er.
  - destruct fwd; subst.
    + eapply teq_rule. eapply check_named_inv; [done|done| |exact E]. apply Hr. by right.
    + eapply teq_sym, teq_rule. eapply check_named_inv; [done|done| |exact E]. apply Hr. by left.
  - assert (b' = None /\ f' = None) as [-> ->] by (destruct fwd; subst; done).
    inversion Hb as [? ? ? ? ? [[? ?]|[? ?]]|? ? ? ? ? ? En HF]; subst; [done|done|]. cbn [erase]. rewrite En. apply teq_cong.
    inversion Ac as [? ? ? ? _ Hks]; subst. inversion An as [? ? ? ? _ Hls]; subst.
    assert (Hd' : Forall (fun l => (if fwd then has_backward l else has_forward l) = false) ls).
    { apply Forall_forall. intros l Hl. assert (K : forall p : fterm -> bool, existsb p ls = false -> p l = false).
      { intros p Hp. destruct (p l) eqn:El; [|done]. assert (existsb p ls = true) by (apply existsb_exists; exists l; split; [by apply elem_of_list_In|done]). congruence. }
      destruct fwd; apply K; exact Hd. }
    clear -IH E HF Hks Hls Hns Hd'. rewrite Er in E || idtac. revert E. revert IH Hns Hks Hls Hd'.
    induction HF as [|k l ks ls Hkl HF IHF]; intros IH Hns Hks Hls Hd' E; [constructor|].
    apply Forall_cons in IH as [IH1 IH]. apply Forall_cons in Hns as [? ?]. apply Forall_cons in Hks as [? ?]. apply Forall_cons in Hls as [? ?]. apply Forall_cons in Hd' as [? ?].
    cbn [go_children] in E. apply bind_Ok in E as (ok & E1 & E). destruct ok; [|done]. rewrite !fmap_cons. constructor; [by eapply (IH1 k fwd)|]. by apply IHF.
Qed.
Lemma check_flat_sound fl f l : Forall arity_ok fl -> Forall (named rules) fl -> steps_below fl -> check_flat rules fl = Ok tt ->
  head fl = Some f -> last fl = Some l -> teq (rule_eqs rules) (erase f) (erase l).
Proof.
  intros Ha Hn Hb E Hh Hl. destruct fl as [|f0 rest]; [done|]. injection Hh as <-. unfold check_flat in E. apply bind_Ok in E as (_ & _ & E). apply bind_Ok in E as (_ & _ & E).
  revert f0 Ha Hn Hb E Hl. induction rest as [|g rest IH]; intros f0 Ha Hn Hb E Hl; [injection Hl as <-; apply teq_refl|].
  cbn [check_steps] in E. apply bind_Ok in E as (? & E1 & E). apply bind_Ok in E as (ok & E2 & E). apply bind_Ok in E as (? & E3 & E). destruct ok; [|done].
  apply Forall_cons in Ha as [A0 Ha]. apply Forall_cons in Hn as [N0 Hn]. inversion Hb as [|? ? ? Hfg Hbr]; subst. pose proof Ha as [Ag _]%Forall_cons. pose proof Hn as [Ng _]%Forall_cons.
  eapply teq_trans; [|eapply IH; [done|done|done|exact E|exact Hl]].
  eapply check_at_inv; [done|done|done|done| |exact E2]. destruct (has_forward g), (has_backward g); done.
Qed.
End sound.
