From Verif Require Import Base EGraphModel Spec Terms RecExprModel RecExprProofs LangModel LangSpec.

Section helpers.
Context {Op S : Type}.
Notation node := (node Op).
Lemma Calls_app {R} (f : S -> nat -> S * R) s cs ds s1 rs s2 rs' : Calls f s cs s1 rs -> Calls f s1 ds s2 rs' -> Calls f s (cs ++ ds) s2 (rs ++ rs').
Proof. induction 1; cbn; [done|]. intros. econstructor; eauto. Qed.
Lemma Calls_length {R} (f : S -> nat -> S * R) s cs s1 rs : Calls f s cs s1 rs -> length rs = length cs.
Proof. induction 1; cbn; lia. Qed.
Lemma Calls_total {R} (f : S -> nat -> S * R) cs : forall s, exists s' rs, Calls f s cs s' rs.
Proof.
  induction cs as [|c cs IH]; intros s; [eexists _, _; constructor|]. destruct (f s c) as [s1 r] eqn:E. destruct (IH s1) as (s2 & rs & Hc). eexists _, _. by econstructor.
Qed.
Lemma for_each_calls (f : S -> nat -> S) s (n : node) : exists rs, Calls (fun s i => (f s i, ())) s (nch n) (l_for_each f s n) rs.
Proof.
  unfold l_for_each. generalize (nch n) as cs. intros cs. revert s. induction cs as [|c cs IH]; intros s; [eexists; constructor|]. cbn.
  destruct (IH (f s c)) as [rs Hc]. eexists. by econstructor.
Qed.
Lemma map_children_calls (f : S -> nat -> S * nat) s (n n' : node) s' : l_map_children f s n = (s', n') -> Calls f s (nch n) s' (nch n') /\ nop n' = nop n.
Proof.
  unfold l_map_children. destruct (update_ids f s (nch n)) as [s1 cs] eqn:E. intros [= <- <-]. split; [|done]. cbn.
  revert s s1 cs E. induction (nch n) as [|c cs IH]; intros s s1 ds E; cbn in E; [injection E as <- <-; constructor|].
  destruct (f s c) as [s2 d] eqn:E1. destruct (update_ids f s2 cs) as [s3 es] eqn:E2. injection E as <- <-. econstructor; [done|]. by apply IH.
Qed.
Lemma len_length (s : S) (n : node) : l_len s n = length (nch n).
Proof.
  unfold l_len, l_fold. assert (H : forall (cs : list nat) k, (foldl (fun '(s, acc) (id : nat) => (s, acc + 1)) (s, k) cs).2 = k + length cs).
  { induction cs as [|c cs IH]; intros k; cbn; [lia|]. rewrite IH. lia. }
  rewrite H. done.
Qed.
(** fold with the results as the trace *)
Lemma fold_foldl {T} (f : T -> nat -> T) (s : S) init (n : node) : l_fold (fun s acc id => (s, f acc id)) s init n = (s, foldl f init (nch n)).
Proof. unfold l_fold. generalize (nch n) as cs. intros cs. revert init. induction cs as [|c cs IH]; intros init; cbn; [done|]. apply IH. Qed.
Lemma try_stuck {E} (f : S -> nat -> S * option E) cs s e :
  foldl (fun '(s, acc) id => match acc with None => f s id | Some e => (s, Some e) end) (s, Some e) cs = (s, Some e).
Proof. induction cs; cbn; [done|]. done. Qed.
Lemma try_spec {E} (f : S -> nat -> S * option E) s (n : node) s' r : l_try_for_each f s n = (s', r) ->
  match r with
  | None => exists rs, Calls f s (nch n) s' rs /\ Forall (fun x => x = None) rs
  | Some e => exists pre x post rs, nch n = pre ++ x :: post /\ Calls f s (pre ++ [x]) s' (rs ++ [Some e]) /\ Forall (fun x => x = None) rs
  end.
Proof.
  unfold l_try_for_each, l_fold. generalize (nch n) as cs. intros cs. revert s. induction cs as [|c cs IH]; intros s E0; cbn in E0.
  - injection E0 as <- <-. exists []. split; constructor.
  - destruct (f s c) as [s1 o] eqn:Ef. destruct o as [e|].
    + rewrite try_stuck in E0. injection E0 as <- <-. exists [], c, cs, []. split; [done|]. split; [|done]. cbn. econstructor; [done|]. constructor.
    + specialize (IH _ E0). destruct r as [e|].
      * destruct IH as (pre & x & post & rs & -> & Hc & Hr). exists (c :: pre), x, post, (None :: rs). split; [done|]. split; [|by constructor]. cbn. by econstructor.
      * destruct IH as (rs & Hc & Hr). exists (None :: rs). split; [by econstructor|by constructor].
Qed.
Lemma all_stuck (f : S -> nat -> S * bool) cs s :
  foldl (fun '(s, acc) id => if acc : bool then f s id else (s, false)) (s, false) cs = (s, false).
Proof. induction cs; cbn; [done|]. done. Qed.
Lemma all_spec (f : S -> nat -> S * bool) s (n : node) s' b : l_all f s n = (s', b) ->
  if b then exists rs, Calls f s (nch n) s' rs /\ Forall (fun x => x = true) rs
  else exists pre x post rs, nch n = pre ++ x :: post /\ Calls f s (pre ++ [x]) s' (rs ++ [false]) /\ Forall (fun x => x = true) rs.
Proof.
  unfold l_all, l_fold. generalize (nch n) as cs. intros cs. revert s. induction cs as [|c cs IH]; intros s E0; cbn in E0.
  - injection E0 as <- <-. exists []. split; constructor.
  - destruct (f s c) as [s1 [|]] eqn:Ef.
    + specialize (IH _ E0). destruct b.
      * destruct IH as (rs & Hc & Hr). exists (true :: rs). split; [by econstructor|by constructor].
      * destruct IH as (pre & x & post & rs & -> & Hc & Hr). exists (c :: pre), x, post, (true :: rs). split; [done|]. split; [|by constructor]. cbn. by econstructor.
    + rewrite all_stuck in E0. injection E0 as <- <-. exists [], c, cs, []. split; [done|]. split; [|done]. cbn. econstructor; [done|]. constructor.
Qed.
Lemma any_stuck (f : S -> nat -> S * bool) cs s :
  foldl (fun '(s, acc) id => if acc : bool then (s, true) else f s id) (s, true) cs = (s, true).
Proof. induction cs; cbn; [done|]. done. Qed.
Lemma any_spec (f : S -> nat -> S * bool) s (n : node) s' b : l_any f s n = (s', b) ->
  if b then exists pre x post rs, nch n = pre ++ x :: post /\ Calls f s (pre ++ [x]) s' (rs ++ [true]) /\ Forall (fun x => x = false) rs
  else exists rs, Calls f s (nch n) s' rs /\ Forall (fun x => x = false) rs.
Proof.
  unfold l_any, l_fold. generalize (nch n) as cs. intros cs. revert s. induction cs as [|c cs IH]; intros s E0; cbn in E0.
  - injection E0 as <- <-. exists []. split; constructor.
  - destruct (f s c) as [s1 [|]] eqn:Ef.
    + rewrite any_stuck in E0. injection E0 as <- <-. exists [], c, cs, []. split; [done|]. split; [|done]. cbn. econstructor; [done|]. constructor.
    + specialize (IH _ E0). destruct b.
      * destruct IH as (pre & x & post & rs & -> & Hc & Hr). exists (c :: pre), x, post, (false :: rs). split; [done|]. split; [|by constructor]. cbn. by econstructor.
      * destruct IH as (rs & Hc & Hr). exists (false :: rs). split; [by econstructor|by constructor].
Qed.
Lemma fold_spec {T} (f : S -> T -> nat -> S * T) s acc (n : node) s' r : l_fold f s acc n = (s', r) ->
  exists rs, Calls (fun st i => let r := f st.1 st.2 i in (r, ())) (s, acc) (nch n) (s', r) rs.
Proof.
  unfold l_fold. generalize (nch n) as cs. intros cs. revert s acc. induction cs as [|c cs IH]; intros s acc E; cbn in E.
  - injection E as <- <-. exists []. constructor.
  - destruct (f s acc c) as [s1 a1] eqn:Ef. destruct (IH _ _ E) as [rs Hc]. eexists. econstructor; [cbn; by rewrite Ef|]. done.
Qed.
End helpers.
Lemma is_leaf_spec {Op} (n : node Op) : l_is_leaf n = true <-> nch n = [].
Proof.
  unfold l_is_leaf. destruct (l_all _ tt n) as [s b] eqn:E. apply all_spec in E. cbn. destruct b; split; try done.
  - intros _. destruct E as (rs & Hc & Hr). destruct Hc as [|? ? ? ? ? ? ? [= <- <-]]; [done|]. by inversion Hr.
  - intros Hn. destruct E as (pre & x & post & rs & E & _). rewrite Hn in E. by destruct pre.
Qed.

Section join.
Context {Op : Type} `{EqDecision Op}.
Notation node := (node Op).
Lemma join_build_spec fuel : forall (to from : list node) t, length from <= fuel -> dag from -> ExprTree from t -> dag to ->
  exists l i, join_build fuel to from = Ok (to ++ l, i) /\ Tree (to ++ l) i t /\ dag (to ++ l) /\ length l = nodes_of t.
Proof.
  induction fuel as [|fuel IH]; intros to from t Hlen Hd [Hne Ht] Hto; [destruct from; [done|cbn in Hlen; lia]|]. cbn [join_build].
  inversion Ht as [i f cs ts Hi Hcs]; subst. rewrite last_lookup. replace (pred (length from)) with (length from - 1) by lia. rewrite Hi. cbn [expect mbind res_bind nch nop].
  assert (Hlt : forall c, c ∈ cs -> S c < length from). { intros c Hc. specialize (Hd _ _ _ Hi Hc). lia. }
  assert (HH : exists l is, map_m (fun to id => if S id <=? length from then join_build fuel to (take (S id) from) else Panic) to cs = Ok (to ++ l, is) /\
    Forall2 (Tree (to ++ l)) is ts /\ dag (to ++ l) /\ length l = sum_list (nodes_of <$> ts)).
  { clear Ht Hi. revert to Hto. induction Hcs as [|c t cs ts Hc Hcs IHc]; intros to Hto; cbn [map_m].
    - exists [], []. rewrite app_nil_r. split; [done|]. split; [constructor|]. done.
    - assert (Hcl : S c < length from) by (apply Hlt; constructor). rewrite (proj2 (Nat.leb_le _ _)) by lia.
      destruct (IH to (take (S c) from) t) as (l1 & i1 & E1 & T1 & D1 & L1).
      + rewrite take_length. lia.
      + intros k n x Hk Hx. apply lookup_take_Some in Hk as [Hk _]. by eapply Hd.
      + split; [destruct from; done|]. rewrite take_length. replace (S c `min` length from - 1) with c by lia. by apply Tree_take.
      + done.
      + rewrite E1. cbn [mbind res_bind]. destruct (IHc ltac:(intros x Hx; apply Hlt; by constructor) (to ++ l1) D1) as (l2 & is & E2 & T2 & D2 & L2).
        rewrite E2. cbn [mbind res_bind]. exists (l1 ++ l2), (i1 :: is). rewrite !app_assoc. split; [done|]. split; [constructor; [by apply Tree_app|done]|]. split; [done|].
        rewrite app_length, L1, L2. cbn. lia. }
  destruct HH as (l & is & E & T & D & Ll). rewrite E. cbn [mbind res_bind].
  assert (Hlt2 : forall c, c ∈ is -> c < length (to ++ l)) by (intros c Hc; by eapply Tree_children_lt).
  rewrite rx_add_ok by done. exists (l ++ [Node f is]), (length (to ++ l)). rewrite !app_assoc. split; [done|]. split; [by apply Tree_snoc|]. split; [by apply dag_snoc|].
  rewrite app_length, Ll. cbn. lia.
Qed.
Lemma join_spec {S} (child : S -> nat -> S * list node) s (n : node) s' es ts : Calls child s (nch n) s' es ->
  Forall dag es -> Forall2 ExprTree es ts ->
  exists N, forall fuel, N <= fuel -> exists e, join_recexprs fuel child s n = Ok (s', e) /\ dag e /\ ExprTree e (TNode (nop n) ts) /\
    length e = nodes_of (TNode (nop n) ts).
Proof.
  intros Hc Hd Ht. exists (list_max (length <$> es)). intros fuel Hf. unfold join_recexprs.
  assert (Hl : Forall (fun e => length e <= fuel) es).
  { apply Forall_forall. intros e He. etrans; [|exact Hf]. pose proof (proj1 (list_max_le (length <$> es) _) (le_n _)) as Hm. rewrite Forall_fmap in Hm. rewrite Forall_forall in Hm. by apply Hm. }
  clear Hf.
  assert (HH : forall e0, dag e0 -> exists l is, map_m (fun '(s, e) id => let '(s, ce) := child s id in '(e, i) ← join_build fuel e ce; Ok ((s, e), i)) (s, e0) (nch n) = Ok ((s', e0 ++ l), is) /\
    Forall2 (Tree (e0 ++ l)) is ts /\ dag (e0 ++ l) /\ length l = sum_list (nodes_of <$> ts)).
  { clear -Hc Hd Ht Hl. revert ts Ht. induction Hc as [s|s c cs s1 ce s2 es Ef Hc IH]; intros ts Ht e0 D0; cbn [map_m].
    - inversion Ht; subst. exists [], []. rewrite app_nil_r. split; [done|]. split; [constructor|]. done.
    - inversion Ht as [|? t ? ts' Ht1 Ht2]; subst. apply Forall_cons in Hd as [Hd1 Hd2]. apply Forall_cons in Hl as [Hl1 Hl2]. rewrite Ef.
      destruct (join_build_spec fuel e0 ce t Hl1 Hd1 Ht1 D0) as (l1 & i1 & E1 & T1 & D1 & L1). rewrite E1. cbn [mbind res_bind].
      destruct (IH Hd2 Hl2 ts' Ht2 (e0 ++ l1) D1) as (l2 & is & E2 & T2 & D2 & L2). rewrite E2. cbn [mbind res_bind].
      exists (l1 ++ l2), (i1 :: is). rewrite !app_assoc. split; [done|]. split; [constructor; [by apply Tree_app|done]|]. split; [done|].
      rewrite app_length, L1, L2. cbn. lia. }
  destruct (HH [] dag_nil) as (l & is & E & T & D & Ll). cbn [app] in *. rewrite E. cbn [mbind res_bind].
  assert (Hlt2 : forall c, c ∈ is -> c < length l) by (intros c Hc2; by eapply Tree_children_lt).
  rewrite rx_add_ok by done. exists (l ++ [Node (nop n) is]). split; [done|]. split; [by apply dag_snoc|]. split; [by apply ExprTree_snoc|]. rewrite app_length, Ll. cbn. lia.
Qed.
End join.
