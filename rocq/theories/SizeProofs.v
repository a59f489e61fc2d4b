(** Sizes of e-graphs, and the merges a run reports. *)
From Verif Require Import Base UnionFind EGraphModel EGraphSteps EGraphInv EGraphPres EGraphRuns Spec EGraphMain EGraphReach EGraphOps EGraphSafe EGraphTerm
  EGraphNoPanic Terms RecExprModel ExprModel PatSpec MachineModel MatchSpec RewriteModel RewriteProofs AlgSpec AlgProofs RuleSpec RunnerModel RunnerSpec
  RunnerProofs RunnerSound AnswerProofs ExtractSpec ExtractMain SizeModel SizeSpec.

Lemma sum_concat {X} (ls : list (list X)) : length (mjoin ls) = sum_list (length <$> ls).
Proof. induction ls as [|l ls IH]; [done|]. cbn. rewrite app_length. f_equal. exact IH. Qed.
Lemma sum_app (l k : list nat) : sum_list (l ++ k) = sum_list l + sum_list k.
Proof. induction l as [|x l IH]; cbn; [done|]. rewrite IH. lia. Qed.
Lemma NoDup_concat {X} (ls : list (list X)) : (forall l, l ∈ ls -> NoDup l) ->
  (forall i j li lj x, ls !! i = Some li -> ls !! j = Some lj -> x ∈ li -> x ∈ lj -> i = j) -> NoDup (mjoin ls).
Proof.
  induction ls as [|l ls IH]; intros Hn Hd; [constructor|]. cbn. apply NoDup_app. split; [apply Hn; left|]. split.
  - intros x Hx Hc. apply elem_of_list_join in Hc as (l' & Hx' & Hl'). apply elem_of_list_lookup in Hl' as (j & Hj).
    pose proof (Hd 0 (S j) l l' x eq_refl Hj Hx Hx'). done.
  - apply IH; [intros l' Hl'; apply Hn; by right|]. intros i j li lj x Hi Hj Hx Hy. pose proof (Hd (S i) (S j) li lj x Hi Hj Hx Hy) as E. by injection E.
Qed.
Lemma NoDup_le {X} (l k : list X) : NoDup l -> (forall x, x ∈ l -> x ∈ k) -> length l <= length k.
Proof. intros Hn Hs. apply submseteq_length, NoDup_submseteq; done. Qed.

Section sizes.
Context {Op D : Type} `{Countable Op} (L : lang Op) (A : analysis Op D).
Notation egraph := (egraph Op D).
Notation node := (node Op).
Implicit Types (g : egraph).

Lemma classes_counted ex g : reachable L A ex g -> counted (an_answer g) (number_of_classes g).
Proof.
  intros R. pose proof (reachable_Inv _ _ _ _ R) as I. exists (elements (dom (eg_classes g))). split; [apply NoDup_elements|]. split.
  - unfold number_of_classes. rewrite <- (size_dom (D := gset nat)). done.
  - intros r. rewrite elem_of_elements, elem_of_dom, (reach_class_ids L A ex g r R). unfold an_answer. split.
    + intros [Hk Hf]. by exists r.
    + intros (i & Hk & <-). split; [apply uf_find_lt; [apply I|done]|]. apply uf_find_idem, I.
Qed.

Definition listed_nodes g : list node := mjoin (c_nodes <$> (map_to_list (eg_classes g)).*2).
Lemma listed_length g : total_number_of_nodes g = length (listed_nodes g).
Proof.
  unfold total_number_of_nodes, listed_nodes. rewrite sum_concat. unfold map_fold. cbn.
  induction (map_to_list (eg_classes g)) as [|[k c] l IH]; [done|]. cbn. by rewrite IH.
Qed.
Lemma listed_in g n : n ∈ listed_nodes g <-> exists r c, eg_classes g !! r = Some c /\ n ∈ c_nodes c.
Proof.
  unfold listed_nodes. rewrite elem_of_list_join. split.
  - intros (l & Hn & Hl). apply elem_of_list_fmap in Hl as (c & -> & Hc). apply elem_of_list_fmap in Hc as ([r c'] & -> & Hc).
    apply elem_of_map_to_list in Hc. cbn in Hn. by exists r, c'.
  - intros (r & c & Hc & Hn). exists (c_nodes c). split; [done|]. apply elem_of_list_fmap. exists c. split; [done|].
    apply elem_of_list_fmap. exists (r, c). split; [done|]. by apply elem_of_map_to_list.
Qed.
Lemma listed_NoDup ex g : lang_ok L -> reachable L A ex g -> eg_clean g = true -> NoDup (listed_nodes g).
Proof.
  intros Lo R Ec. pose proof (reach_canonical _ _ _ _ Lo R Ec) as [C1 C2 C3]. unfold listed_nodes. apply NoDup_concat.
  - intros l Hl. apply elem_of_list_fmap in Hl as (c & -> & Hc). apply elem_of_list_fmap in Hc as ([r c'] & -> & Hc).
    apply elem_of_map_to_list in Hc. cbn. eauto.
  - intros i j li lj n Hi Hj Hx Hy. apply list_lookup_fmap_Some in Hi as (ci & Hi & ->). apply list_lookup_fmap_Some in Hj as (cj & Hj & ->).
    apply list_lookup_fmap_Some in Hi as ([ri ci'] & Hi & ->). apply list_lookup_fmap_Some in Hj as ([rj cj'] & Hj & ->). cbn in Hx, Hy.
    pose proof (elem_of_list_lookup_2 _ _ _ Hi) as Ei. pose proof (elem_of_list_lookup_2 _ _ _ Hj) as Ej. apply elem_of_map_to_list in Ei, Ej.
    assert (ri = rj) as ->.
    { destruct (reach_contents_sound L A ex g ri ci' n R Ei Hx) as (cs & k & Hk & Hs & <-).
      destruct (reach_contents_sound L A ex g rj cj' n R Ej Hy) as (cs' & k' & Hk' & Hs' & <-).
      assert (E1 : eg_lookup g n = Some (eg_find g k)) by (apply (reach_lookup L A ex g n _ R Ec); by exists cs, k).
      assert (E2 : eg_lookup g n = Some (eg_find g k')) by (apply (reach_lookup L A ex g n _ R Ec); by exists cs', k'). congruence. }
    rewrite Ei in Ej. injection Ej as ->. exact (NoDup_lookup _ _ _ _ (NoDup_map_to_list _) Hi Hj).
Qed.
Lemma listed_found ex g n : lang_ok L -> reachable L A ex g -> eg_clean g = true -> n ∈ listed_nodes g ->
  found_node g n /\ in_index g n /\ n ∈ canonf (eg_find g) <$> eg_nodes g.
Proof.
  intros Lo R Ec (r & c & Hr & Hn)%listed_in. pose proof (reach_canonical _ _ _ _ Lo R Ec) as [C1 C2 C3].
  pose proof (C1 _ _ _ Hr Hn) as En.
  destruct (reach_contents_sound L A ex g r c n R Hr Hn) as (cs & k & Hk & Hs & Ek).
  assert (E : eg_lookup g n = Some (eg_find g k)) by (apply (reach_lookup L A ex g n _ R Ec); by exists cs, k).
  assert (Hc : Forall (fun c => eg_find g c = c) (nch n)).
  { apply Forall_forall. intros x Hx. apply (f_equal nch) in En. cbn in En. apply elem_of_list_lookup in Hx as (j & Hj).
    pose proof (f_equal (.!! j) En) as Ej. rewrite list_lookup_fmap, Hj in Ej. cbn in Ej. by injection Ej. }
  split; [split; [by eexists|done]|]. split.
  - unfold in_index. unfold eg_lookup, lookup_internal in E. assert (canon g n = n) as Ecn.
    { unfold canon. destruct n as [f cs']. cbn in *. f_equal. rewrite <- (list_fmap_id cs') at 2. apply list_fmap_ext. intros j x Hj.
      pose proof (proj1 (Forall_lookup _ _) Hc j x Hj). done. }
    rewrite Ecn in E. apply fmap_Some in E as (y & Ey & _). by exists y.
  - pose proof (reachable_Inv _ _ _ _ R) as I. destruct (ci_nodes _ _ _ _ _ _ _ (iv_c _ I) _ _ _ Hr Hn) as (j & m & Hj & Hm & Em).
    apply elem_of_list_fmap. exists m. split; [|by eapply elem_of_list_lookup_2]. by rewrite <- Em.
Qed.
Lemma found_listed ex g n : reachable_np L A ex g -> lang_ok L -> eg_clean g = true -> found_node g n -> n ∈ listed_nodes g.
Proof.
  intros Rn Lo Ec [[r Hr] Hc]. pose proof (reachable_np_reachable _ _ _ _ Rn) as R.
  apply (reach_lookup L A ex g n r R Ec) in Hr as (cs & i & Hi & Hs & ->).
  destruct (reach_contents_complete L A ex g _ _ Rn Hi) as (c & m & Hm & Hn & Eo & Es). cbn in Eo, Es.
  apply listed_in. exists (eg_find g i), c. split; [done|]. assert (n = m) as ->; [|done].
  pose proof (listed_found ex g m Lo R Ec ltac:(apply listed_in; eauto)) as ([_ Hcm] & _).
  destruct n as [f cs1], m as [f' cs2]. cbn in *. f_equal; [done|].
  assert (Hk : Forall2 (fun a b => eg_find g a = eg_find g b) cs1 cs2).
  { clear -Hs Es. revert cs2 Es. induction Hs as [|a b l k E Hs IH]; intros cs2 Es; [apply Forall2_nil_inv_r in Es as ->; constructor|].
    apply Forall2_cons_inv_r in Es as (x & l' & Ex & El & ->). constructor; [congruence|]. by apply IH. }
  clear -Hk Hc Hcm. revert Hc Hcm. induction Hk as [|a b l k E Hk IH]; [done|]. intros [Ha Hl]%Forall_cons [Hb Hm]%Forall_cons.
  f_equal; [congruence|]. by apply IH.
Qed.
Lemma nodes_counted ex g : lang_ok L -> reachable_np L A ex g -> eg_clean g = true -> counted (found_node g) (total_number_of_nodes g).
Proof.
  intros Lo Rn Ec. pose proof (reachable_np_reachable _ _ _ _ Rn) as R. exists (listed_nodes g). split; [by eapply listed_NoDup|].
  split; [by rewrite listed_length|]. intros n. split; [intros Hn; by apply (listed_found ex g n Lo R Ec)|by apply (found_listed ex)].
Qed.
Lemma index_counted g : counted (in_index g) (total_size g).
Proof.
  exists (elements (dom (eg_memo g))). split; [apply NoDup_elements|]. split; [unfold total_size; by rewrite <- (size_dom (D := gset node))|].
  intros n. rewrite elem_of_elements, elem_of_dom. done.
Qed.
Lemma sizes_le ex g : lang_ok L -> reachable L A ex g -> eg_clean g = true ->
  total_number_of_nodes g <= total_size g /\ total_number_of_nodes g <= handed_out g.
Proof.
  intros Lo R Ec. rewrite listed_length. pose proof (listed_NoDup ex g Lo R Ec) as Hn. split.
  - unfold total_size. rewrite <- (size_dom (D := gset node)). apply NoDup_le; [done|]. intros n Hx.
    apply elem_of_elements, elem_of_dom. by apply (listed_found ex g n Lo R Ec).
  - unfold handed_out. rewrite <- (iv_len _ (reachable_Inv _ _ _ _ R)), <- (fmap_length (canonf (eg_find g)) (eg_nodes g)).
    apply NoDup_le; [done|]. intros n Hx. by apply (listed_found ex g n Lo R Ec).
Qed.
Lemma classes_le ex g : reachable_np L A ex g -> number_of_classes g <= total_number_of_nodes g.
Proof.
  intros Rn%np_inhabited. rewrite listed_length. unfold listed_nodes, number_of_classes. rewrite sum_concat. unfold base.size, map_size.
  assert (Hl : Forall (fun x : nat * eclass Op D => c_nodes x.2 <> []) (map_to_list (eg_classes g))).
  { apply Forall_forall. intros [r c] Hc. apply elem_of_map_to_list in Hc. by eapply Rn. }
  induction Hl as [|[r c] l Hc _ IH]; [done|]. cbn in *. destruct (c_nodes c); [done|]. cbn. lia.
Qed.
Lemma classes_le_ids ex g : reachable L A ex g -> number_of_classes g <= handed_out g.
Proof.
  intros R. destruct (classes_counted ex g R) as (l & Hn & <- & Hl). unfold handed_out. rewrite <- (seq_length (length (eg_uf g)) 0).
  apply NoDup_le; [done|]. intros r (i & Hk & <-)%Hl. apply elem_of_seq. cbn. split; [lia|]. apply uf_find_lt; [|done].
  apply (reachable_Inv _ _ _ _ R).
Qed.

Lemma empty_brun P g g' : brun L A P g g' -> Inv g -> (eg_nodes g = [] \/ is_empty g = false) -> eg_nodes g' = [] \/ is_empty g' = false.
Proof.
  assert (Hi : forall g (n : node) e, eg_memo g !! n = Some e -> is_empty g = false).
  { intros g0 n e E. unfold is_empty, total_size. apply Nat.eqb_neq. intros Ez%map_size_empty_iff. by rewrite Ez, lookup_empty in E. }
  assert (Ha : forall n g g1 id o, Inv g -> add_core A n g = Ok (g1, id, o) -> is_empty g1 = false).
  { intros n g0 g1 id o I E. apply add_core_spec in E as [_ Hsp]; [|apply I].
    destruct Hsp as [e' k He' Hid|e' x x1 x2 u He' Hx Hxn Hxa Hxu Hu|u cls' ex' Hmn Hw Hl' Hf Hcls Hex]; [by eapply Hi|by eapply Hi|].
    eapply Hi. cbn. apply lookup_insert. }
  assert (Hm : forall g g', grows g g' -> is_empty g = false -> is_empty g' = false).
  { intros g0 g1 G E. apply Nat.eqb_neq in E. apply Nat.eqb_neq. unfold total_size in *. rewrite <- !(size_dom (D := gset node)) in *.
    pose proof (subseteq_size _ _ (gr_memo _ _ G)). lia. }
  induction 1 as [g|l g g1 Hpl HP Hp|g g1 g2 B1 IH1 B2 IH2|n g g1 id HP E|n g g1 id h g2 HP E B IH]; intros I E0; [done| | | |].
  - destruct E0 as [E0|E0]; [left; by rewrite (prim_nodes L A _ _ _ Hpl Hp)|]. right. eapply Hm; [|exact E0]. by eapply grows_prim.
  - apply IH2; [by eapply brun_Inv|]. by apply IH1.
  - right. exact (Ha _ _ _ _ _ I E).
  - right. pose proof (Ha _ _ _ _ _ I E) as E1. assert (I1 : Inv g1) by (by eapply Inv_add).
    pose proof (Hm _ _ (grows_brun L A P _ _ B I1) E1) as E2. exact E2.
Qed.
Lemma empty_iff ex g : reachable L A ex g -> is_empty g = true <-> handed_out g = 0.
Proof.
  intros R. pose proof (reachable_Inv _ _ _ _ R) as I. unfold handed_out. rewrite <- (iv_len _ I).
  pose proof (empty_brun any _ _ (reachable_brun _ _ _ _ R) (Inv_new ex) (or_introl eq_refl)) as E. split.
  - intros Et. destruct E as [->|E]; [done|]. congruence.
  - intros El%nil_length_inv. unfold is_empty. apply Nat.eqb_eq. unfold total_size. apply map_size_empty_iff. apply map_eq. intros n. rewrite lookup_empty.
    destruct (eg_memo g !! n) as [e|] eqn:Em; [|done]. exfalso.
    destruct (ci_memo _ _ _ _ _ _ _ (iv_c _ I) _ _ Em) as (m & Hm & _). by rewrite El in Hm.
Qed.
End sizes.

Section ledger.
Context {Op D : Type} `{Countable Op} (L : lang Op) (A : analysis Op D) (Hh : hook_free A).
Context (clock : nat -> nat) {St Cl : Type} (sch : scheduler Op D St) (li : limits) (rules : list (rewrite Op D)) (fuel here : nat).
Context (hooks : list (hook Op D Cl)) (Hr : Forall (fun rw => pattern_applier (rw_applier rw)) rules) (Hk : Forall (only_looks L A fuel) hooks).
Notation egraph := (egraph Op D).
Notation merges := (merges L A).
Implicit Types (g : egraph).
Notation run_one := (run_one L A clock sch li rules fuel here hooks).
Notation run_loop := (run_loop L A clock sch li rules fuel here hooks).
Notation run := (run L A clock sch li rules fuel here hooks).

(** [k] merges between [g] and [g'] *)
Definition balance (k : nat) g g' : Prop :=
  reachable L A false g' /\ number_of_classes g' + k + handed_out g = number_of_classes g + handed_out g'.
Lemma balance_refl g : reachable L A false g -> balance 0 g g.
Proof. intros R. split; [done|lia]. Qed.
Lemma balance_trans j k g1 g2 g3 : balance j g1 g2 -> balance k g2 g3 -> balance (j + k) g1 g3.
Proof. intros [_ E1] [R E2]. split; [done|lia]. Qed.
Lemma balance_rebuild g g' n : reachable L A false g -> rebuild L A fuel (modify_n L A fuel) g = Ok (g', n) -> balance n g g'.
Proof.
  intros R E. destruct (rebuild_step L A _ false fuel g g' n calls_any R E) as (R' & _ & _). split; [done|].
  pose proof (rebuild_count L A fuel g g' n Hh (reachable_good L A false g R) E) as Ec.
  destruct (rebuild_quiet L A Hh false fuel g g' n R E) as (_ & _ & Eu). unfold handed_out, number_of_classes. lia.
Qed.
Lemma balance_rule (rw : rewrite Op D) ms g g' ids : rw ∈ rules -> reachable L A false g -> rewrite_apply L A fuel here rw ms g = Ok (g', ids) ->
  balance (length ids) g g'.
Proof.
  intros Hrw R E. pose proof (proj1 (Forall_forall _ _) Hr rw Hrw) as Ha.
  destruct (apply_merging L A Hh false fuel here _ _ _ _ _ _ _ Ha R E) as (R' & E1 & E2). specialize (E2 eq_refl). split; [done|].
  unfold handed_out. lia.
Qed.
Lemma bump_sum name k ap : sum_list (bump name k ap).*2 = k + sum_list ap.*2.
Proof. induction ap as [|[n c] ap IH]; cbn; [lia|]. case_decide; cbn; [lia|]. rewrite IH. lia. Qed.
Lemma balance_apply rms i t ap g g' ap' t' s : (forall rw ms, (rw, ms) ∈ rms -> rw ∈ rules) -> reachable L A false g ->
  apply_rewrites L A clock li fuel here rms i t ap g = Ok (g', ap', t', s) ->
  exists k, balance k g g' /\ sum_list ap'.*2 = k + sum_list ap.*2.
Proof.
  revert t ap g. induction rms as [|[rw ms] rms IH]; intros t ap g Hin R E; cbn [apply_rewrites] in E.
  - injection E as <- <- _ _. exists 0. split; [by apply balance_refl|done].
  - apply bind_Ok in E as ([g1 ids] & E1 & E). apply balance_rule in E1; [|apply (Hin rw ms); left|done].
    assert (Es : sum_list (if 0 <? length ids then bump (rw_name rw) (length ids) ap else ap).*2 = length ids + sum_list ap.*2).
    { destruct (Nat.ltb_spec 0 (length ids)); [by rewrite bump_sum|]. lia. }
    destruct (check_limits _ _ _ _ _).
    + injection E as <- <- _ _. by exists (length ids).
    + apply IH in E as (k & B & Ek); [|intros rw' ms' ?; apply (Hin rw' ms'); by right|apply E1].
      exists (length ids + k). split; [by eapply balance_trans|]. lia.
Qed.
Lemma balance_hooks hs i cl g g' cl' s : (forall h, h ∈ hs -> h ∈ hooks) -> run_hooks L A fuel hs i cl g = Ok (g', cl', s) -> g' = g.
Proof.
  revert cl g. induction hs as [|h hs IH]; intros cl g Hin E; cbn [run_hooks] in E; [by injection E as <- _ _|].
  apply bind_Ok in E as (g1 & E1 & E). apply (proj1 (Forall_forall _ _) Hk h) in E1 as ->; [|apply Hin; left].
  destruct (hk_out h cl i g) as [cl1 [m|]]; [by injection E as <- _ _|]. apply IH in E; [done|]. intros h' ?. apply Hin. by right.
Qed.
Lemma balance_one r r' itn : reachable L A false (r_eg r) -> run_one r = Ok (r', itn) -> balance (reported itn) (r_eg r) (r_eg r') /\ r_iters r' = r_iters r.
Proof.
  intros R E%run_one_phases. destruct E as [g1 cl s1 mss st2 t2 s2 g3 ap t3 s3 g4 n can st3 Hf H1 H2 H3 H4 H5 -> ->]. cbn [r_eg r_iters].
  split; [|done]. assert (g1 = r_eg r) as ->.
  { destruct (check_limits _ _ _ _ _); [by destruct H1|]. by eapply balance_hooks; [|exact H1]. }
  assert (B : balance (sum_list ap.*2) (r_eg r) g3).
  { destruct s2; [destruct H3 as (-> & -> & _); by apply balance_refl|].
    apply balance_apply in H3 as (k & B & Ek); [|intros rw ms Hin; by eapply elem_of_zip_l|done]. cbn in Ek. rewrite Ek, Nat.add_0_r. done. }
  unfold reported. cbn [it_applied it_rebuilds]. eapply balance_trans; [exact B|]. apply balance_rebuild; [apply B|done].
Qed.
Lemma balance_loop rounds r r' g0 : balance (sum_list (reported <$> r_iters r)) g0 (r_eg r) -> run_loop rounds r = Ok (Some r') ->
  balance (sum_list (reported <$> r_iters r')) g0 (r_eg r').
Proof.
  revert r. induction rounds as [|rounds IH]; intros r B E; cbn [RunnerModel.run_loop] in E; [done|].
  apply bind_Ok in E as ([r1 itn] & E1 & E). apply balance_one in E1 as [B1 Ei]; [|apply B].
  assert (B2 : balance (sum_list (reported <$> (r_iters r1 ++ [itn]))) g0 (r_eg r1)).
  { rewrite Ei, fmap_app, sum_app. cbn. rewrite Nat.add_0_r. by eapply balance_trans. }
  destruct (it_stop itn); [injection E as <-; exact B2|]. destruct (check_limits _ _ _ _ _); [injection E as <-; exact B2|].
  apply IH in E; [done|exact B2].
Qed.
Lemma run_ledger rounds roots g st cl r g0 n0 : reachable L A false g -> rebuild L A fuel (modify_n L A fuel) g = Ok (g0, n0) ->
  run rounds roots g st cl = Ok (Some r) ->
  number_of_classes (r_eg r) + (n0 + sum_list (reported <$> r_iters r)) + handed_out g = number_of_classes g + handed_out (r_eg r).
Proof.
  intros R E0 E. unfold RunnerModel.run in E. rewrite E0 in E. cbn [mbind res_bind] in E. apply balance_rebuild in E0; [|done].
  apply (balance_loop _ _ _ g0) in E; [|by apply balance_refl, E0]. pose proof (balance_trans _ _ _ _ _ E0 E) as [_ B]. lia.
Qed.
End ledger.

Section report.
Context {Op D : Type} `{Countable Op} (L : lang Op) (A : analysis Op D).
Context (clock : nat -> nat) {St Cl : Type} (sch : scheduler Op D St) (li : limits) (rules : list (rewrite Op D)) (fuel here : nat).
Context (hooks : list (hook Op D Cl)).
Notation egraph := (egraph Op D).
Notation run_one := (run_one L A clock sch li rules fuel here hooks).
Notation run_loop := (run_loop L A clock sch li rules fuel here hooks).
Notation run := (run L A clock sch li rules fuel here hooks).
Lemma one_clean r r' itn : run_one r = Ok (r', itn) -> eg_clean (r_eg r') = true.
Proof.
  intros E%run_one_phases. destruct E as [g1 cl s1 mss st2 t2 s2 g3 ap t3 s3 g4 n can st3 Hf H1 H2 H3 H4 H5 -> ->]. cbn [r_eg].
  unfold rebuild in H4. apply bind_Ok in H4 as ([g5 k] & _ & [= <- _]). done.
Qed.
Lemma loop_stops rounds r r' : run_loop rounds r = Ok (Some r') -> eg_clean (r_eg r') = true /\ is_Some (r_stop r') /\ 0 < length (r_iters r').
Proof.
  revert r. induction rounds as [|rounds IH]; intros r E; cbn [RunnerModel.run_loop] in E; [done|].
  apply bind_Ok in E as ([r1 itn] & E1 & E). apply one_clean in E1.
  destruct (it_stop itn); [injection E as <-; cbn; rewrite app_length; cbn; split; [done|]; split; [by eexists|lia]|].
  destruct (check_limits _ _ _ _ _); [injection E as <-; cbn; rewrite app_length; cbn; split; [done|]; split; [by eexists|lia]|].
  by apply IH in E.
Qed.
Context (ord : gmap (nat * nat) (node Op) -> list (nat * nat)) (ex : bool).
Lemma run_report rounds roots g st cl r : lang_ok L -> Forall (rule_built ord) rules -> Forall hook_np hooks ->
  reachable_np L A ex g -> run rounds roots g st cl = Ok (Some r) ->
  exists rp, make_report r = Ok rp /\
    r_stop r = Some (rp_stop rp) /\ rp_iterations rp = length (r_iters r) /\ 0 < rp_iterations rp /\
    counted (an_answer (r_eg r)) (rp_classes rp) /\ counted (found_node (r_eg r)) (rp_nodes rp) /\ counted (in_index (r_eg r)) (rp_memo rp) /\
    rp_classes rp <= rp_nodes rp <= rp_memo rp /\ rp_rebuilds rp = sum_list (it_rebuilds <$> r_iters r).
Proof.
  intros Lo Hr Hk R E. destruct (run_onward L A clock sch li rules fuel here hooks ord ex Hr Hk _ _ _ _ _ _ R E) as [R' _].
  unfold RunnerModel.run in E. apply bind_Ok in E as ([g0 n0] & _ & E). apply loop_stops in E as (Ec & [s Es] & Hl).
  unfold make_report. rewrite Es. cbn [expect mbind res_bind]. eexists. split; [reflexivity|]. cbn.
  pose proof (reachable_np_reachable _ _ _ _ R') as Rr.
  split; [done|]. split; [done|]. split; [done|]. split; [by apply (classes_counted L A ex)|]. split; [by apply (nodes_counted L A ex)|].
  split; [apply index_counted|]. split; [|done]. split; [by apply (classes_le L A ex)|]. by apply (sizes_le L A ex).
Qed.
End report.
