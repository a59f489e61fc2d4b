(** The size of an explanation tree is the number of different rewrites in it. *)
From Verif Require Import Base EGraphModel Spec Terms RecExprModel ExplainModel TextModel PrintModel PrintSpec PrintProofs ExplainCount.

Section size.
Context {Op : Type}.
Notation ptree := (ptree Op).
Implicit Types (t : ptree) (p : list ptree).

Fixpoint psize t : nat := let 'PT _ _ _ _ _ _ kids := t in S (sum_list (map (fun p => sum_list (map psize p)) kids)).
Definition pedges p : list (nat * nat) := concat (map edges p).
Lemma edges_node a c l n b f kids : edges (PT a c l n b f kids) = match b, f with None, None => [] | _, _ => [edge c l] end ++ concat (map pedges kids).
Proof. done. Qed.
Lemma psize_kid a c l n b f kids p t : p ∈ kids -> t ∈ p -> psize t < psize (PT a c l n b f kids).
Proof.
  intros Hp Ht. cbn [psize]. assert (psize t <= sum_list (map psize p)).
  { clear Hp. induction Ht as [? ?|? ? ? ? IH]; cbn; lia. }
  assert (sum_list (map psize p) <= sum_list (map (fun p => sum_list (map psize p)) kids)); [|lia]. clear Ht H. induction Hp as [? ?|? ? ? ? IH]; cbn; lia.
Qed.
Lemma edge_sym c l : edge c l = edge l c.
Proof. unfold edge. f_equal; lia. Qed.
Lemma edge_cases c l c' l' : edge c l = edge c' l' -> (c = c' /\ l = l') \/ (c = l' /\ l = c').
Proof. unfold edge. intros [= E1 E2]. lia. Qed.

Context (h : nat -> option ptree).
Notation pairs := (gset (nat * nat)).
(** [adj] has both directions of the edges in [E] *)
Definition both (adj E : pairs) : Prop := forall c l, (c, l) ∈ adj <-> edge c l ∈ E.
(** the terms seen, of size up to [k], are counted *)
Definition counted (seen : gset nat) (k : nat) (E : pairs) : Prop := forall a s, a ∈ seen -> h a = Some s -> psize s <= k -> forall e, e ∈ edges s -> e ∈ E.
Definition counts (r : res (nat * (gset nat * pairs))) (k : nat) (seen : gset nat) (E : pairs) (es : list (nat * nat)) : Prop :=
  exists m seen' adj', r = Ok (k + m, (seen', adj')) /\ both adj' (E ∪ list_to_set es) /\ base.size (E ∪ list_to_set es) = base.size E + m /\ seen ⊆ seen' /\
    forall a s, a ∈ seen' -> a ∉ seen -> h a = Some s -> forall e, e ∈ edges s -> e ∈ E ∪ list_to_set es.
Notation step := (fun '(k, st) t => '(m, st) ← tree_size t st; Ok (k + m, st)).
Lemma counted_mono seen k k' E E' : k' <= k -> E ⊆ E' -> counted seen k E -> counted seen k' E'.
Proof. intros Hk HE Hc a s Ha Hs Hp e He. apply HE. eapply Hc; eauto. lia. Qed.
Lemma counted_after seen seen' k E E' : E ⊆ E' -> counted seen k E -> (forall a s, a ∈ seen' -> a ∉ seen -> h a = Some s -> forall e, e ∈ edges s -> e ∈ E') -> counted seen' k E'.
Proof. intros HE Hc Hn a s Ha Hs Hp e He. destruct (decide (a ∈ seen)) as [Hi|Hi]; [apply HE; eapply Hc; eauto|eapply Hn; eauto]. Qed.
Lemma counts_list p : Forall (fun t => forall seen adj E, both adj E -> counted seen (psize t) E -> counts (tree_size t (seen, adj)) 0 seen E (edges t)) p ->
  forall k seen adj E, both adj E -> (forall t, t ∈ p -> counted seen (psize t) E) -> counts (update step p (k, (seen, adj))) k seen E (pedges p).
Proof.
  induction 1 as [|t p Ht _ IH]; intros k seen adj E Hb Hc.
  - exists 0, seen, adj. change (list_to_set (pedges [])) with (∅ : pairs). rewrite union_empty_r_L. split; [cbn; by rewrite Nat.add_0_r|]. split; [done|]. split; [lia|]. split; [done|]. done.
  - destruct (Ht seen adj E Hb) as (m & seen1 & adj1 & E1 & Hb1 & Hm & Hs1 & Hn1); [apply Hc; constructor|].
    cbn [update]. cbn [mbind res_bind]. rewrite E1. cbn [mbind res_bind]. fold (update (A := ptree) step).
    destruct (IH (k + (0 + m)) seen1 adj1 (E ∪ list_to_set (edges t)) Hb1) as (m' & seen2 & adj2 & E2 & Hb2 & Hm2 & Hs2 & Hn2).
    { intros u Hu. eapply counted_after; [|apply Hc; by constructor|exact Hn1]. set_solver. }
    exists (m + m'), seen2, adj2. unfold pedges. cbn [map concat]. fold (pedges p). rewrite list_to_set_app_L, union_assoc_L. split; [|split; [done|split; [lia|split; [set_solver|]]]].
    + rewrite E2. do 2 f_equal. lia.
    + intros a s Ha Hna Hs e He. destruct (decide (a ∈ seen1)) as [Hi|Hi]; [|by eapply Hn2]. apply elem_of_union_l. by eapply Hn1.
Qed.
Lemma counts_kids kids : Forall (Forall (fun t => forall seen adj E, both adj E -> counted seen (psize t) E -> counts (tree_size t (seen, adj)) 0 seen E (edges t))) kids ->
  forall k seen adj E, both adj E -> (forall p t, p ∈ kids -> t ∈ p -> counted seen (psize t) E) ->
  counts (update (fun kst p => update step p kst) kids (k, (seen, adj))) k seen E (concat (map pedges kids)).
Proof.
  induction 1 as [|p kids Hp _ IH]; intros k seen adj E Hb Hc.
  - exists 0, seen, adj. change (list_to_set (concat (map pedges []))) with (∅ : pairs). rewrite union_empty_r_L. split; [cbn; by rewrite Nat.add_0_r|]. split; [done|]. split; [lia|]. split; [done|]. done.
  - destruct (counts_list p Hp k seen adj E Hb) as (m & seen1 & adj1 & E1 & Hb1 & Hm & Hs1 & Hn1); [intros t Ht; eapply Hc; [constructor|done]|].
    cbn [update]. rewrite E1. cbn [mbind res_bind]. fold (update (A := list ptree) (fun kst p => update step p kst)).
    destruct (IH (k + m) seen1 adj1 (E ∪ list_to_set (pedges p)) Hb1) as (m' & seen2 & adj2 & E2 & Hb2 & Hm2 & Hs2 & Hn2).
    { intros q u Hq Hu. eapply counted_after; [|eapply Hc; [by constructor|exact Hu]|exact Hn1]. set_solver. }
    exists (m + m'), seen2, adj2. cbn [map concat]. rewrite list_to_set_app_L, union_assoc_L. split; [|split; [done|split; [lia|split; [set_solver|]]]].
    + rewrite E2. do 2 f_equal. lia.
    + intros a s Ha Hna Hs e He. destruct (decide (a ∈ seen1)) as [Hi|Hi]; [|by eapply Hn2]. apply elem_of_union_l. by eapply Hn1.
Qed.
Lemma edges_none_one t : edges t = [] -> one_step t.
Proof.
  induction t as [a c l n b f kids IH] using ptree_sind. intros He1. rewrite edges_node in He1.
  assert (Hbf : b = None /\ f = None /\ concat (map pedges kids) = []) by (by destruct b, f). destruct Hbf as (-> & -> & He).
  constructor. clear He1. induction kids as [|p kids IHk]; [constructor|]. cbn in He. apply app_eq_nil in He as [H1 H2]. apply Forall_cons in IH as [IHp IH].
  constructor; [|by apply IHk]. clear -H1 IHp. induction p as [|t p IH]; [constructor|]. cbn in H1. apply app_eq_nil in H1 as [? ?]. apply Forall_cons in IHp as [? ?]. constructor; auto.
Qed.
Lemma no_edges kids : Forall (Forall (fun t => edges t = [])) kids -> concat (map pedges kids) = [].
Proof.
  induction 1 as [|p ks Hp _ IH]; [done|]. cbn. rewrite IH, app_nil_r. unfold pedges. induction Hp as [|t p Ht _ IHp]; [done|]. cbn. by rewrite Ht, IHp.
Qed.
Lemma both_add adj E c l : both adj E -> both ({[(l, c)]} ∪ ({[(c, l)]} ∪ adj)) (E ∪ {[edge c l]}).
Proof.
  intros Hb c' l'. rewrite !elem_of_union, !elem_of_singleton, (Hb c' l'). split.
  - intros [[= -> ->]|[[= -> ->]|?]]; [right; apply edge_sym|by right|by left].
  - intros [?|E']; [by right; right|]. apply edge_cases in E' as [[-> ->]|[-> ->]]; [by right; left|by left].
Qed.
Lemma tree_counts t : stored h t -> one_step t -> forall seen adj E, both adj E -> counted seen (psize t) E -> counts (tree_size t (seen, adj)) 0 seen E (edges t).
Proof.
  induction t as [a c l n b f kids IH] using ptree_sind. intros Hs Ho seen adj E Hb Hc. inversion Hs as [? ? ? ? ? ? ? Ha Hk]; subst.
  cbn [tree_size fst snd]. case_bool_decide as Hin.
  { assert (HE : E ∪ list_to_set (edges (PT a c l n b f kids)) = E).
    { assert (list_to_set (edges (PT a c l n b f kids)) ⊆ E); [|set_solver]. intros e He%elem_of_list_to_set. exact (Hc a _ Hin Ha (le_n _) e He). }
    exists 0, seen, adj. rewrite HE. split; [done|]. split; [done|]. split; [lia|]. split; [done|]. done. }
  assert (Hin' : forall p t, p ∈ kids -> t ∈ p -> forall E', E ⊆ E' -> counted ({[a]} ∪ seen) (psize t) E').
  { intros p t Hp Ht E' HE b0 s Hb0 Hs0 Hle e He. pose proof (psize_kid a c l n b f kids p t Hp Ht) as Hlt. apply elem_of_union in Hb0 as [->%elem_of_singleton|Hb0].
    - rewrite Ha in Hs0. injection Hs0 as <-. lia.
    - apply HE. eapply Hc; eauto. lia. }
  assert (Hkids : Forall (Forall one_step) kids).
  { inversion Ho as [? ? ? ? ? H1|? ? ? ? ? ? H1|? ? ? ? ? ? H1]; subst; [done|..];
    (eapply Forall_impl; [exact H1|]; intros p Hp; eapply Forall_impl; [exact Hp|]; intros t; apply edges_none_one). }
  assert (HI : Forall (Forall (fun t => forall seen adj E, both adj E -> counted seen (psize t) E -> counts (tree_size t (seen, adj)) 0 seen E (edges t))) kids).
  { clear -IH Hk Hkids. induction kids as [|p kids IHk]; [constructor|]. apply Forall_cons in IH as [IHp IH]. apply Forall_cons in Hk as [Hp Hk]. apply Forall_cons in Hkids as [Op' Ok'].
    constructor; [|by apply IHk]. rewrite Forall_forall in *. intros t Ht. apply IHp; auto. }
  assert (Hrule : Forall (Forall (fun t => edges t = [])) kids ->
    edges (PT a c l n b f kids) = [edge c l] -> counts (if bool_decide ((c, l) ∈ adj) then Ok (0, ({[a]} ∪ seen, adj))
      else update (fun kst p => update step p kst) kids (1, ({[a]} ∪ seen, {[(l, c)]} ∪ ({[(c, l)]} ∪ adj)))) 0 seen E (edges (PT a c l n b f kids))).
  { intros Hne Ee. assert (El : list_to_set (edges (PT a c l n b f kids)) = ({[edge c l]} : pairs)) by (rewrite Ee; cbn; by rewrite union_empty_r_L).
    assert (Hnew : forall b0 s, b0 ∈ {[a]} ∪ seen -> b0 ∉ seen -> h b0 = Some s -> forall e, e ∈ edges s -> e ∈ E ∪ {[edge c l]}).
    { intros b0 s Hb0 Hn0 Hs0 e He. apply elem_of_union in Hb0 as [->%elem_of_singleton|Hb0]; [|done]. rewrite Ha in Hs0. injection Hs0 as <-. rewrite Ee in He. apply elem_of_list_singleton in He. set_solver. }
    case_bool_decide as Hadj.
    - apply Hb in Hadj. assert (HE : E ∪ {[edge c l]} = E) by set_solver. exists 0, ({[a]} ∪ seen), adj. rewrite El in *. rewrite HE in *. split; [done|]. split; [done|]. split; [lia|]. split; [set_solver|done].
    - assert (Hnot : edge c l ∉ E) by (intros Hx; by apply Hadj, Hb).
      destruct (counts_kids kids HI 1 ({[a]} ∪ seen) _ (E ∪ {[edge c l]}) (both_add adj E c l Hb)) as (m & seen1 & adj1 & E1 & Hb1 & Hm & Hs1 & Hn1).
      { intros p t Hp Ht. eapply Hin'; eauto. set_solver. }
      rewrite no_edges in * by done. change (list_to_set []) with (∅ : pairs) in *. rewrite union_empty_r_L in *. assert (m = 0) as -> by lia.
      exists 1, seen1, adj1. rewrite El. split; [exact E1|]. split; [done|]. split; [rewrite size_union, size_singleton; [done|set_solver]|]. split; [set_solver|].
      intros b0 s Hb0 Hn0 Hs0 e He. destruct (decide (b0 ∈ {[a]} ∪ seen)) as [Hi|Hi]; [by eapply Hnew|by eapply Hn1]. }
  inversion Ho as [? ? ? ? ? H1|? ? ? ? r ? H1|? ? ? ? r ? H1]; subst.
  - destruct (counts_kids kids HI 0 ({[a]} ∪ seen) adj E Hb) as (m & seen1 & adj1 & E1 & Hb1 & Hm & Hs1 & Hn1).
    { intros p t Hp Ht. by eapply Hin'. }
    rewrite edges_node. cbn [app]. exists m, seen1, adj1. split; [exact E1|]. split; [done|]. split; [done|]. split; [set_solver|].
    intros b0 s Hb0 Hn0 Hs0 e He. destruct (decide (b0 = a)) as [->|Hne].
    + rewrite Ha in Hs0. injection Hs0 as <-. rewrite edges_node in He. cbn [app] in He. set_solver.
    + eapply Hn1; eauto. set_solver.
  - apply Hrule; [done|]. rewrite edges_node, no_edges by done. done.
  - apply Hrule; [done|]. rewrite edges_node, no_edges by done. done.
Qed.
Lemma tree_size_exact p : Forall (stored h) p -> Forall one_step p -> get_tree_size p = Ok (base.size (list_to_set (pedges p) : pairs)).
Proof.
  intros Hs Ho. unfold get_tree_size.
  assert (HI : Forall (fun t => forall seen adj E, both adj E -> counted seen (psize t) E -> counts (tree_size t (seen, adj)) 0 seen E (edges t)) p).
  { rewrite Forall_forall in *. intros t Ht. apply tree_counts; auto. }
  assert (Hb : both ∅ ∅) by (intros c l; set_solver).
  destruct (counts_list p HI 0 ∅ ∅ ∅ Hb) as (m & seen & adj & E & _ & Hm & _); [intros t _ a s Ha; set_solver|].
  rewrite E. cbn [mbind res_bind]. rewrite union_empty_l_L, size_empty in Hm. by rewrite Hm.
Qed.
Lemma edges_count t : one_step t -> length (edges t) = tcount (unshare t).
Proof.
  assert (Hkids : forall kids, Forall (Forall (fun t => length (edges t) = tcount (unshare t))) kids -> length (concat (map pedges kids)) = sum_list (pcount <$> map (map unshare) kids)).
  { induction 1 as [|p kids Hp _ IH]; [done|]. cbn [map concat]. rewrite fmap_cons. change (sum_list (?a :: ?l)) with (a + sum_list l). rewrite app_length, IH. f_equal.
    induction Hp as [|t' p Ht _ IHp]; [done|]. unfold pedges. cbn [map concat]. rewrite app_length, Ht, pcount_cons. f_equal. exact IHp. }
  induction t as [a c l n b f kids IH] using ptree_sind. intros Ho. rewrite edges_node. cbn [unshare]. rewrite tcount_node, app_length.
  rewrite Hkids.
  - inversion Ho; subst; cbn; lia.
  - assert (Hk : Forall (Forall one_step) kids).
    { inversion Ho as [? ? ? ? ? H1|? ? ? ? ? ? H1|? ? ? ? ? ? H1]; subst; [done|..];
      (eapply Forall_impl; [exact H1|]; intros p Hp; eapply Forall_impl; [exact Hp|]; intros t; apply edges_none_one). }
    clear -IH Hk. induction kids as [|p kids IHk]; [constructor|]. apply Forall_cons in IH as [IHp IH]. apply Forall_cons in Hk as [Hp Hk]. constructor; [|by apply IHk].
    rewrite Forall_forall in *. auto.
Qed.
Lemma pedges_count p : Forall one_step p -> length (pedges p) = pcount (map unshare p).
Proof.
  induction 1 as [|t p Ht _ IH]; [done|]. cbn [map]. rewrite pcount_cons, <- IH, <- (edges_count t Ht). unfold pedges. cbn [map concat]. by rewrite app_length.
Qed.
Lemma set_size_le (l : list (nat * nat)) : base.size (list_to_set l : pairs) <= length l.
Proof.
  induction l as [|e l IH]; [done|]. change (list_to_set (e :: l) : pairs) with ({[e]} ∪ list_to_set l : pairs). cbn [length]. rewrite size_union_alt, size_singleton.
  assert (base.size (list_to_set l ∖ {[e]} : pairs) <= base.size (list_to_set l : pairs)) by (apply subseteq_size; set_solver). lia.
Qed.
End size.
