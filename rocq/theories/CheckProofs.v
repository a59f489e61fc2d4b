(** Accepted explanations: a flat proof whose steps are rule instances passes [check_proof]. *)
From Verif Require Import Base EGraphModel Spec Terms RecExprModel ExprModel PatSpec MachineModel MatchSpec RewriteModel RuleSpec RuleSafe RuleProps
  ExplainModel ExplainSpec ExplainFlat CheckModel CheckSpec.

Section bk.
Context {Op : Type} `{Countable Op} (mb : nat -> fterm Op -> gmap nat (fterm Op) -> res (gmap nat (fterm Op))).
Fixpoint bind_kids (cs : list nat) (ks : list (fterm Op)) (b : gmap nat (fterm Op)) : res (gmap nat (fterm Op)) :=
  match cs with
  | [] => Ok b
  | c :: cs => match ks with [] => Panic | k :: ks => b ← mb c k b; bind_kids cs ks b end
  end.
End bk.

Section eqb.
Context {Op : Type} `{Countable Op}.
Notation node := (node Op).
Notation pnode := (EGraphModel.node (pop Op)).
Notation fterm := (fterm Op).
Notation term := (term Op).

Lemma ft_eqb_node (n m : node) b f b' f' ks ls : ft_eqb (FT n b f ks) (FT m b' f' ls) =
  node_matches n m && forallb (fun '(k, l) => ft_eqb k l) (zip ks ls).
Proof.
  cbn [ft_eqb]. f_equal. revert ls. induction ks as [|k ks IH]; intros [|l ls]; try done. cbn [zip_with forallb]. by rewrite IH.
Qed.
Lemma node_matches_true (n m : node) : node_matches n m = true <-> nop n = nop m /\ length (nch n) = length (nch m).
Proof. unfold node_matches. by rewrite andb_true_iff, bool_decide_eq_true, Nat.eqb_eq. Qed.
(** On terms of the right arities the comparison is equality of the terms without annotations. *)
Lemma ft_eqb_erase (a b : fterm) : arity_ok a -> arity_ok b -> (ft_eqb a b = true <-> erase a = erase b).
Proof.
  revert b. induction a as [n x y ks IH] using fterm_sind. intros [m x' y' ls] Ha Hb. inversion Ha as [? ? ? ? Ln Hk]; subst. inversion Hb as [? ? ? ? Lm Hl]; subst.
  rewrite ft_eqb_node, andb_true_iff, node_matches_true. cbn [erase].
  assert (K : length ks = length ls -> (forallb (fun '(k, l) => ft_eqb k l) (zip ks ls) = true <-> erase <$> ks = erase <$> ls)).
  { clear -IH Hk Hl. revert ls Hl. induction IH as [|k ks Hk0 _ IH]; intros [|l ls] Hl E; try done.
    apply Forall_cons in Hk as [? ?]. apply Forall_cons in Hl as [? ?]. injection E as E. cbn [zip_with forallb]. rewrite andb_true_iff, !fmap_cons, Hk0 by done.
    rewrite IH by done. split; [intros [-> ->]; done|]. by intros [= -> ->]. }
  split.
  - intros [[-> L] E]. f_equal. apply K; [lia|done].
  - intros [= E E2]. assert (length ks = length ls) by (apply (f_equal length) in E2; by rewrite !fmap_length in E2).
    split; [split; [done|lia]|by apply K].
Qed.

Lemma make_bindings_S fuel (p : list pnode) loc t b : make_bindings (S fuel) p loc t b =
    n ← expect (p !! loc);
    match nop n with
    | PVar v => match b !! v with Some e => _ ← assert (ft_eqb e t); Ok b | None => Ok (<[v := t]> b) end
    | POp f => let 'FT m _ _ ks := t in _ ← assert (node_matches (Node f (nch n)) m); bind_kids (make_bindings fuel p) (nch n) ks b
    end.
Proof. reflexivity. Qed.

Definition sound_b (th : nat -> term) (b : gmap nat fterm) : Prop := forall v e, b !! v = Some e -> arity_ok e /\ erase e = th v.

Lemma make_bindings_ok th (p : list pnode) fuel loc tp t b : dag p -> pat_ok p -> loc < fuel -> Tree p loc tp ->
  erase t = tsubst th tp -> arity_ok t -> sound_b th b ->
  exists b', make_bindings fuel p loc t b = Ok b' /\ sound_b th b' /\ (forall v, is_Some (b !! v) -> is_Some (b' !! v)) /\ forall v, occurs v tp -> is_Some (b' !! v).
Proof.
  intros Hd Hok. revert loc tp t b. induction fuel as [|fuel IH]; intros loc tp t b Hf Ht Et Hw Hb; [lia|].
  inversion Ht as [? o cs ts Hg Hts]; subst. rewrite make_bindings_S, Hg. cbn [expect mbind res_bind nop nch].
  destruct o as [f|v]; cbn [tsubst] in Et.
  - destruct t as [m x y ks]. cbn [erase] in Et. injection Et as Em Ek. inversion Hw as [? ? ? ? Lm Hks]; subst.
    assert (L : length ks = length ts) by (apply (f_equal length) in Ek; by rewrite !fmap_length in Ek).
    assert (L2 : length cs = length ts) by (by eapply Forall2_length).
    assert (E : node_matches (Node (nop m) cs) m = true) by (apply node_matches_true; cbn; split; [done|lia]).
    rewrite E. cbn [assert mbind res_bind]. clear E.
    assert (Hlt : Forall (fun c => c < fuel) cs).
    { apply Forall_forall. intros c Hc. pose proof (Hd loc (Node (POp (nop m)) cs) c Hg Hc). lia. }
    clear Hg Ht Lm L Hw Hf. revert ks b Ek L2 Hks Hb. induction Hts as [|c tc cs ts Hc Hcs IHc]; intros ks b Ek L2 Hks Hb.
    + exists b. split_and!; try done. inversion 1 as [|? ? ? Hin ?]; subst. by apply elem_of_nil in Hin.
    + destruct ks as [|k ks]; [done|]. rewrite !fmap_cons in Ek. injection Ek as Ek Eks. injection L2 as L2. apply Forall_cons in Hks as [Hk Hks].
      apply Forall_cons in Hlt as [Hlc Hlt]. cbn [bind_kids]. destruct (IH c tc k b Hlc Hc Ek Hk Hb) as (b1 & -> & Hb1 & M1 & O1). cbn [mbind res_bind].
      destruct (IHc Hlt ks b1 Eks L2 Hks Hb1) as (b2 & -> & Hb2 & M2 & O2). exists b2. split_and!; auto.
      intros v Ho. inversion Ho as [|? ? u Hin Hu]; subst. apply elem_of_cons in Hin as [->|Hin]; [auto|]. apply O2. by econstructor.
  - assert (cs = []) as -> by exact (Forall_lookup_1 _ _ _ _ Hok Hg). inversion Hts; subst. destruct (b !! v) as [e|] eqn:Ev.
    + destruct (Hb _ _ Ev) as [Hwe Ee]. assert (E : ft_eqb e t = true) by (apply ft_eqb_erase; [done|done|congruence]). rewrite E. cbn [assert mbind res_bind].
      exists b. split_and!; try done. intros w Ho. inversion Ho; subst. by rewrite Ev.
    + exists (<[v := t]> b). split_and!.
      * done.
      * intros w e. destruct (decide (w = v)) as [->|Hne]; [rewrite lookup_insert; intros [= <-]; done|]. rewrite lookup_insert_ne by done. apply Hb.
      * intros w Hw'. destruct (decide (w = v)) as [->|Hne]; [by rewrite lookup_insert|]. by rewrite lookup_insert_ne.
      * intros w Ho. inversion Ho; subst. by rewrite lookup_insert.
Qed.

Lemma from_pattern_ok th (p : list pnode) fuel loc tp b : dag p -> pat_ok p -> loc < fuel -> Tree p loc tp ->
  sound_b th b -> (forall v, occurs v tp -> is_Some (b !! v)) ->
  exists t, from_pattern fuel p loc b = Ok t /\ arity_ok t /\ erase t = tsubst th tp.
Proof.
  intros Hd Hok. revert loc tp. induction fuel as [|fuel IH]; intros loc tp Hf Ht Hb Ho; [lia|].
  inversion Ht as [? o cs ts Hg Hts]; subst. cbn [from_pattern]. rewrite Hg. cbn [expect mbind res_bind nop nch].
  destruct o as [f|v]; cbn [tsubst].
  - assert (K : exists ks, mapM (fun c => from_pattern fuel p c b) cs = Ok ks /\ Forall arity_ok ks /\ erase <$> ks = tsubst th <$> ts /\ length ks = length cs).
    { assert (Hlt : Forall (fun c => c < fuel) cs).
      { apply Forall_forall. intros c Hc. pose proof (Hd loc (Node (POp f) cs) c Hg Hc). lia. }
      clear Hg Ht Hf. induction Hts as [|c tc cs ts Hc Hcs IHc]; [by exists []|]. apply Forall_cons in Hlt as [Hlc Hlt].
      destruct (IH c tc Hlc Hc Hb) as (k & Ek & Hk & Etk); [intros v Hv; apply Ho; by econstructor; [left|]|].
      destruct IHc as (ks & Eks & Hks & Etks & L); [|done|].
      { intros v Hv. apply Ho. inversion Hv as [|? ? u Hin Hu]; subst. econstructor; [right; exact Hin|done]. }
      exists (k :: ks). cbn [mapM]. rewrite Ek. cbn [mbind res_bind]. rewrite Eks. cbn [mbind res_bind]. split_and!; [done|by constructor|by rewrite !fmap_cons, Etk, Etks|cbn; lia]. }
    destruct K as (ks & -> & Hks & Ek & L). cbn [mbind res_bind]. eexists. split_and!; [done|constructor; [cbn; lia|done]|]. cbn [erase nop]. by rewrite Ek.
  - destruct (Ho v) as [e He]; [constructor|]. rewrite He. destruct (Hb _ _ He) as [? ?]. exists e. done.
Qed.

Lemma ft_rewrite_ok (lhs rhs : list pnode) t u : good_ast lhs -> rooted lhs -> good_ast rhs -> (forall v, var_node rhs v -> var_node lhs v) ->
  arity_ok t -> instance_of lhs rhs (erase t) u ->
  exists t', ft_rewrite lhs rhs t = Ok t' /\ arity_ok t' /\ erase t' = u.
Proof.
  intros Gl Rl Gr Hv Ha (tl & tr & th & Tl & Tr & El & ->). unfold ft_rewrite. pose proof Gl as (Dl & Ol & Nl). pose proof Gr as (Dr & Or & Nr).
  assert (0 < length lhs) by (destruct lhs; [done|cbn; lia]). assert (0 < length rhs) by (destruct rhs; [done|cbn; lia]).
  assert (length lhs =? 0 = false) as -> by (apply Nat.eqb_neq; lia). assert (length rhs =? 0 = false) as -> by (apply Nat.eqb_neq; lia).
  cbn [assert negb mbind res_bind].
  destruct (make_bindings_ok th lhs (length lhs) (length lhs - 1) tl t ∅ Dl Ol ltac:(lia) (proj2 Tl) El Ha) as (b & -> & Hb & _ & Hob).
  { intros v e. by rewrite lookup_empty. }
  cbn [mbind res_bind].
  destruct (from_pattern_ok th rhs (length rhs) (length rhs - 1) tr b Dr Or ltac:(lia) (proj2 Tr) Hb) as (t' & -> & ? & ?).
  { intros v Ho. apply Hob. apply (rooted_vars lhs tl v Gl Rl Tl). apply ast_vars_elem. apply Hv.
    destruct Tr as [_ Tr]. destruct (occurs_node rhs v _ _ Tr Ho) as (cs & ?). by exists cs. }
  eauto.
Qed.
End eqb.

Section accept.
Context {Op D : Type} `{Countable Op}.
Notation node := (node Op).
Notation fterm := (fterm Op).
Notation term := (term Op).
Notation rewrite := (rewrite Op D).
Implicit Types (rw : rewrite) (rules : list rewrite).

Lemma between_asts rw lhs rhs : between rw lhs rhs <-> searcher_ast (rw_searcher rw) = Some lhs /\ applier_ast (rw_applier rw) = Some rhs.
Proof.
  unfold between. assert (E : right_pattern (rw_applier rw) = applier_ast (rw_applier rw)) by (induction (rw_applier rw); done). rewrite E.
  split; intros [? ?]; (split; [|done]).
  - destruct H0 as (pt & -> & <-). done.
  - destruct (rw_searcher rw) as [pt|m] eqn:Es; [|done]. exists pt. cbn in H0. injection H0 as <-. done.
Qed.
Lemma rule_of_in rules r rw : rule_of rules r = Some rw -> rw ∈ rules /\ rw_name rw = r.
Proof.
  unfold rule_of. destruct (list_find _ _) as [[i w]|] eqn:E; [|done]. intros [= <-]. apply list_find_Some in E as (Hi & Hn & _).
  split; [|done]. apply elem_of_reverse. by eapply elem_of_list_lookup_2.
Qed.
Lemma accepted_vars rw lhs rhs v : accepted_rule rw -> between rw lhs rhs -> var_node rhs v -> var_node lhs v.
Proof.
  intros [(name & s & a & E) _] Hb Hv. apply rewrite_new_some in E as [-> Hn]. apply between_asts in Hb as [Es Ea]. cbn in Es, Ea.
  destruct s as [pt|m]; [|done]. injection Es as <-. apply (Hn v). clear Hn. revert Ea. induction a; cbn [applier_ast needs]; try done.
  - intros [= ->]. done.
  - intros Ea. left. auto.
Qed.

Section rules.
Context rules (Rl : nat -> term -> term -> Prop).
Hypothesis Hacc : Forall accepted_rule rules.
Hypothesis Hsteps : rule_steps rules Rl.

Lemma check_named_ok cur next r : arity_ok cur -> arity_ok next -> Rl r (erase cur) (erase next) -> check_named rules cur next r = Ok true.
Proof.
  intros Ac An HR. unfold check_named. destruct (rule_of rules r) as [rw|] eqn:E; [|done]. apply rule_of_in in E as [Hin <-].
  unfold check_rewrite. destruct (searcher_ast _) as [lhs|] eqn:Es; [|done]. destruct (applier_ast _) as [rhs|] eqn:Ea; [|done].
  assert (Hb : between rw lhs rhs) by (by apply between_asts). pose proof (proj1 (Forall_forall _ _) Hacc rw Hin) as Hr.
  destruct (proj2 Hr _ _ Hb) as (Gl & Rt & Gr).
  destruct (ft_rewrite_ok lhs rhs cur (erase next) Gl Rt Gr) as (t & -> & At & Et); [intros v; by eapply accepted_vars|done|by eapply Hsteps|].
  cbn [mbind res_bind]. f_equal. by apply ft_eqb_erase.
Qed.

Definition go_children (fwd : bool) := fix go (ks ls : list fterm) : res bool :=
      match ks, ls with
      | k :: ks, l :: ls => ok ← check_rewrite_at rules fwd k l; if (ok : bool) then go ks ls else Ok false
      | _, _ => Ok true
      end.
Lemma check_at_node fwd n b f ks m b' f' ls : check_rewrite_at rules fwd (FT n b f ks) (FT m b' f' ls) =
  match (if fwd then f' else b') with
  | Some r => if fwd then check_named rules (FT n b f ks) (FT m b' f' ls) r else check_named rules (FT m b' f' ls) (FT n b f ks) r
  | None => go_children fwd ks ls
  end.
Proof. reflexivity. Qed.
Lemma go_all fwd ks ls : Forall (fun l => forall k, check_rewrite_at rules fwd k l = Ok true) ls -> go_children fwd ks ls = Ok true.
Proof.
  intros Hl. revert ks. induction Hl as [|l ls Hl _ IH]; intros [|k ks]; try done. cbn [go_children]. rewrite Hl. cbn [mbind res_bind]. apply IH.
Qed.
Lemma check_plain fwd next : plain next -> forall cur, check_rewrite_at rules fwd cur next = Ok true.
Proof.
  induction next as [m b' f' ls IH] using fterm_sind. inversion 1 as [? ? Hls]; subst. intros [n b f ks]. rewrite check_at_node.
  destruct fwd; apply go_all; rewrite Forall_forall in *; auto.
Qed.
Lemma fstep_check next cur t : fstep Rl t next -> erase cur = t -> arity_ok cur -> arity_ok next ->
  xorb (has_forward next) (has_backward next) = true /\ check_rewrite_at rules (has_forward next) cur next = Ok true.
Proof.
  intros Hs. revert cur. assert (Npl : forall ks, Forall plain ks -> existsb has_forward ks = false /\ existsb (has_backward (Op := Op)) ks = false).
  { intros ks Hk. split; (induction Hk as [|k ks Hk _ IH]; [done|]); cbn [existsb]; rewrite IH; [by rewrite plain_no_forward|by rewrite plain_no_backward]. }
  induction Hs as [t n r ks Hk HR|t n r ks Hk HR|n ts t us ls k rs Hs IH Hl Hr El Er]; intros [m b f xs] Ec Ac An.
  - cbn [has_forward has_backward]. destruct (Npl _ Hk) as [-> ->]. cbn. split; [done|]. apply check_named_ok; [done|done|by rewrite Ec].
  - cbn [has_forward has_backward]. destruct (Npl _ Hk) as [-> ->]. cbn. split; [done|]. apply check_named_ok; [done|done|by rewrite Ec].
  - cbn [erase] in Ec. injection Ec as En Ec.
    inversion An as [? ? ? ? Ln Hks]; subst. apply Forall_app in Hks as [Hls [Hk Hrs]%Forall_cons].
    inversion Ac as [? ? ? ? Lm Hxs]; subst.
    assert (exists x1 x x2, xs = x1 ++ x :: x2 /\ length x1 = length ls /\ erase x = t) as (x1 & x & x2 & -> & L1 & Ex).
    { apply fmap_app_inv in Ec as (x1 & x2' & E1 & E2 & ->). symmetry in E2. apply fmap_cons_inv in E2 as (x & x2 & E2 & E3 & ->).
      exists x1, x, x2. split_and!; try done. apply (f_equal length) in E1. rewrite !fmap_length in E1. done. }
    apply Forall_app in Hxs as [_ [Hx _]%Forall_cons]. destruct (IH x Ex Hx Hk) as [IH1 IH2].
    assert (EF : has_forward (FT n None None (ls ++ k :: rs)) = has_forward k).
    { cbn [has_forward]. destruct (Npl _ Hl) as [F1 _]. destruct (Npl _ Hr) as [F2 _]. rewrite existsb_app. cbn [existsb]. rewrite F1, F2. cbn. by rewrite orb_false_r. }
    assert (EB : has_backward (FT n None None (ls ++ k :: rs)) = has_backward k).
    { cbn [has_backward]. destruct (Npl _ Hl) as [_ F1]. destruct (Npl _ Hr) as [_ F2]. rewrite existsb_app. cbn [existsb]. rewrite F1, F2. cbn. by rewrite orb_false_r. }
    rewrite EF, EB. split; [done|]. rewrite check_at_node.
    assert (go_children (has_forward k) (x1 ++ x :: x2) (ls ++ k :: rs) = Ok true) as Hgo.
    { clear -L1 IH2 Hl Hr. revert x1 L1. induction Hl as [|l ls Hl0 Hl IHl]; intros [|y x1] L1; try done.
      - cbn [app go_children]. rewrite IH2. cbn [mbind res_bind]. apply go_all. eapply Forall_impl; [exact Hr|]. intros u Hu k'. by apply check_plain.
      - cbn [app go_children]. rewrite check_plain by done. cbn [mbind res_bind]. apply IHl. cbn in L1. lia. }
    by destruct (has_forward k).
Qed.
Lemma flat_check fl t u : flat_proves Rl fl t u -> Forall arity_ok fl -> check_flat rules fl = Ok tt.
Proof.
  intros (f & rest & -> & Hp & Et & Hs) [Hf Hr]%Forall_cons. unfold check_flat. rewrite plain_no_forward, plain_no_backward by done. cbn [assert negb mbind res_bind].
  clear Hp. revert f Et Hf. induction Hs as [t|t g fs u Hg Hs IH]; intros f Et Hf; [done|]. apply Forall_cons in Hr as [Hg' Hr].
  cbn [check_steps]. destruct (fstep_check g f t Hg Et Hf Hg') as [-> E]. cbn [assert mbind res_bind]. rewrite E. cbn [assert mbind res_bind]. by apply IH.
Qed.
End rules.
End accept.

(** * Arities of produced explanations *)
Inductive arities {Op} : ttree Op -> Prop :=
| arities_node n b f kids : length (nch n) = length kids -> Forall (Forall arities) kids -> arities (TT n b f kids).

Section arity.
Context {Op D : Type} `{Countable Op}.
Notation node := (node Op).
Notation fterm := (fterm Op).
Notation ttree := (ttree Op).

Lemma arity_remove (t : fterm) : arity_ok t -> arity_ok (remove_rewrites t).
Proof.
  induction t as [n b f ks IH] using fterm_sind. inversion 1 as [? ? ? ? L Hk]; subst. cbn. constructor; [by rewrite fmap_length|].
  rewrite Forall_fmap. rewrite Forall_forall in *. unfold compose. auto.
Qed.
Lemma arity_combine (t o t' : fterm) : arity_ok t -> combine_rewrites t o = Ok t' -> arity_ok t' .
Proof.
  revert o t'. induction t as [n b f ks IH] using fterm_sind. intros [m b' f' ls] t' Ha E. inversion Ha as [? ? ? ? L Hk]; subst.
  cbn [combine_rewrites] in E. inv_res.
  match goal with E : _ = Ok ?ks' |- arity_ok (FT _ _ _ ?ks') => rename ks' into us; rename E into Ek end.
  assert (length us = length ks /\ Forall arity_ok us) as [L' ?].
  { clear -IH Hk Ek. revert ls us Ek. induction IH as [|k ks Hk0 _ IH]; intros [|l ls] us Ek; cbn in Ek; try (injection Ek as <-; done).
    inv_res. apply Forall_cons in Hk as [? ?]. match goal with E : _ ks ls = Ok _ |- _ => destruct (IH ltac:(done) _ _ E) as [? ?] end. split; [cbn; lia|]. constructor; eauto. }
  constructor; [lia|done].
Qed.
Lemma arity_join (acc e r : list fterm) : Forall arity_ok acc -> Forall arity_ok e -> flat_join acc e = Ok r -> Forall arity_ok r.
Proof.
  intros Ha He E. unfold flat_join in E. destruct e as [|e0 es]; [done|]. destruct (last acc) as [l|]; [|injection E as <-; by apply Forall_app].
  destruct (_ && _); [|injection E as <-; by apply Forall_app]. inv_res. apply Forall_cons in He as [He0 Hes]. apply Forall_app. split.
  - destruct (decide (acc = [])) as [->|Hne]; [done|]. destruct (exists_last Hne) as (acc' & a & ->). rewrite removelast_app by done. cbn [removelast]. rewrite app_nil_r. by apply Forall_app in Ha as [? _].
  - constructor; [by eapply arity_combine|done].
Qed.
Lemma insert_Forall {X} (P : X -> Prop) i x (l : list X) : P x -> Forall P l -> Forall P (<[i := x]> l).
Proof. intros. by apply Forall_insert. Qed.
Lemma arity_children (n : node) i cps reps acc r : Forall (Forall arity_ok) cps -> length (nch n) = length reps -> Forall arity_ok reps -> Forall arity_ok acc ->
  flat_children n i cps reps acc = Ok r -> Forall arity_ok r.
Proof.
  revert i reps acc. induction cps as [|cp cps IH]; intros i reps acc Hc L Hr Ha E; cbn [flat_children] in E; [by injection E as <-|].
  apply Forall_cons in Hc as [Hcp Hc]. destruct cp as [|c0 steps]; [done|]. destruct (last acc) as [[m b f ks]|] eqn:El; [|done].
  destruct (last (c0 :: steps)) as [cl|] eqn:Ecl; [|done].
  assert (Hcl : arity_ok cl) by (apply (proj1 (Forall_forall _ _) Hcp); apply last_Some in Ecl as [l' ->]; apply elem_of_app; right; left).
  apply Forall_cons in Hcp as [Hc0 Hst].
  eapply IH; [done| | | |exact E].
  - by rewrite insert_length.
  - apply insert_Forall; [by apply arity_remove|done].
  - apply last_Some in El as [acc' ->]. rewrite removelast_app by done. cbn [removelast]. rewrite app_nil_r. apply Forall_app in Ha as [Ha Hl]. apply Forall_cons in Hl as [Hl _].
    inversion Hl as [? ? ? ? Lm Hks]; subst. apply Forall_app. split; [apply Forall_app; split; [done|]|].
    + constructor; [|done]. constructor; [by rewrite insert_length|by apply insert_Forall].
    + unfold child_steps. apply Forall_fmap. eapply Forall_impl; [exact Hst|]. intros c Hc1. constructor; [by rewrite insert_length|by apply insert_Forall].
Qed.
Lemma arity_flat_node (n : node) b f cps r : Forall (Forall arity_ok) cps -> length (nch n) = length cps -> flat_node n b f cps = Ok r -> Forall arity_ok r.
Proof.
  intros Hc L E. unfold flat_node in E. inv_res.
  match goal with E : mapM _ _ = Ok ?rs |- _ => rename rs into reps; rename E into Er end.
  assert (length reps = length cps /\ Forall arity_ok reps) as [Lr Hr].
  { clear -Hc Er. revert reps Er. induction Hc as [|cp cps Hcp _ IH]; intros reps Er; cbn [mapM] in Er; inv_res; [done|].
    match goal with E : mapM _ _ = Ok _ |- _ => destruct (IH _ E) as [? ?] end. split; [cbn; lia|]. constructor; [|done].
    destruct cp as [|c cp]; [done|]. match goal with E : expect (head _) ≫= _ = Ok _ |- _ => cbn in E; injection E as <- end.
    apply arity_remove. by apply Forall_cons in Hcp as [? _]. }
  match goal with E : flat_children _ _ _ _ _ = Ok ?q |- _ => rename E into Ec; rename q into p end.
  apply arity_children in Ec; [|done|lia|done|].
  - destruct p as [|[m b' f' ks] p]; [done|]. injection E as <-. apply Forall_cons in Ec as [Hm Hp]. constructor; [|done]. inversion Hm; subst. by constructor.
  - constructor; [|done]. constructor; [lia|done].
Qed.

Definition flat_kids : list (list ttree) -> res (list (list fterm)) :=
  fix go (kids : list (list ttree)) : res (list (list fterm)) :=
    match kids with
    | [] => Ok []
    | p :: kids => c ← flatten_proof [] p; cs ← go kids; Ok (c :: cs)
    end.
Lemma flat_unfold n b f kids : flatten_explanation (TT n b f kids) = (cps ← flat_kids kids; flat_node n b f cps).
Proof. reflexivity. Qed.
Fixpoint arity_flatten (t : ttree) (Ht : arities t) {struct Ht} : forall r, flatten_explanation t = Ok r -> Forall arity_ok r.
Proof.
  destruct Ht as [n b f kids L Hk]. intros r E. rewrite flat_unfold in E. inv_res. eapply arity_flat_node; [| |exact E].
  - clear E L. match goal with E : flat_kids _ = Ok ?c |- _ => rename c into cps; rename E into Ec end. revert cps Ec.
    induction Hk as [|p kids Hp Hk IH]; intros cps Ec; cbn in Ec; inv_res; [done|]. constructor; [|by apply IH].
    match goal with E : flatten_proof [] p = Ok ?c |- _ => rename c into fl; rename E into Ef end. clear IH Hk.
    assert (K : forall acc, Forall arity_ok acc -> flatten_proof acc p = Ok fl -> Forall arity_ok fl); [|by eapply K].
    clear Ef. induction Hp as [|t p Ht Hp IH]; intros acc Ha Ef; cbn [flatten_proof] in Ef; inv_res; [done|].
    eapply IH; [|exact Ef]. eapply arity_join; [exact Ha| |eassumption]. eapply arity_flatten; eassumption.
  - clear E. match goal with E : flat_kids _ = Ok ?c |- _ => rename c into cps; rename E into Ec end. rewrite L. clear -Ec.
    revert cps Ec. induction kids as [|p kids IH]; intros cps Ec; cbn in Ec; inv_res; [done|]. cbn. f_equal. by apply IH.
Qed.
Lemma arity_make_flat (p : list ttree) fl : Forall arities p -> make_flat p = Ok fl -> Forall arity_ok fl.
Proof.
  unfold make_flat. intros Hp. assert (K : forall acc, Forall arity_ok acc -> flatten_proof acc p = Ok fl -> Forall arity_ok fl); [|by apply K].
  induction Hp as [|t p Ht Hp IH]; intros acc Ha Ef; cbn [flatten_proof] in Ef; inv_res; [done|].
  eapply IH; [|exact Ef]. eapply arity_join; [exact Ha| |eassumption]. eapply arity_flatten; eassumption.
Qed.

Lemma node_arities fuel (ns : list node) i t : node_to_explanation fuel ns i = Ok t -> arities t.
Proof.
  revert i t. induction fuel as [|fuel IH]; intros i t E; cbn [node_to_explanation] in E; [done|]. inv_res.
  match goal with E : mapM _ _ = Ok ?q |- arities (TT ?m _ _ _) => rename E into Ek; rename q into ks; rename m into n end.
  assert (length ks = length (nch n) /\ Forall (Forall arities) ks) as [L ?]; [|by constructor].
  clear H0. revert ks Ek. induction (nch n) as [|c cs IHc]; intros ks Ek; cbn [mapM] in Ek; inv_res; [done|].
  match goal with E : mapM _ _ = Ok _ |- _ => destruct (IHc _ E) as [? ?] end. split; [cbn; lia|]. constructor; [|done]. constructor; [by eapply IH|done].
Qed.
Definition cache_arities (ca : gmap (nat * nat) ttree) : Prop := forall k t, ca !! k = Some t -> arities t.
Definition rec_arities (rec : nat -> nat -> gmap (nat * nat) ttree -> res (list ttree * gmap (nat * nat) ttree)) : Prop :=
  forall l r ca p ca', cache_arities ca -> rec l r ca = Ok (p, ca') -> Forall arities p /\ cache_arities ca'.
Lemma children_arities rec cs ds ca ks ca' : rec_arities rec -> cache_arities ca -> length cs = length ds ->
  explain_children rec cs ds ca = Ok (ks, ca') -> length ks = length cs /\ Forall (Forall arities) ks /\ cache_arities ca'.
Proof.
  intros Hr. revert ds ca ks ca'. induction cs as [|c cs IH]; intros [|d ds] ca ks ca' Hc L E; try done; cbn [explain_children] in E.
  - injection E as <- <-. done.
  - inv_res. match goal with E : rec _ _ _ = Ok ?q |- _ => destruct q as [p ca1]; apply Hr in E as [? ?]; [|done] end. inv_res.
    match goal with E : explain_children _ _ _ _ = Ok ?q |- _ => destruct q as [ps ca2]; apply IH in E as (? & ? & ?); [|done|by injection L] end. inv_res.
    split_and!; [cbn; lia|by constructor|done].
Qed.
Lemma adjacent_arities rec (ns : list node) c ca t ca' : rec_arities rec -> cache_arities ca ->
  explain_adjacent rec ns c ca = Ok (t, ca') -> arities t /\ cache_arities ca'.
Proof.
  intros Hr Hc E. unfold explain_adjacent in E. destruct (ca !! _) as [t0|] eqn:Ec; [injection E as <- <-; split; [by eapply Hc|done]|].
  apply bind_Ok in E as ([t1 ca1] & E1 & E). cbn beta iota in E. injection E as <- <-.
  assert (arities t1 /\ cache_arities ca1) as [Ht H1].
  { destruct (cn_just c) as [r|].
    - inv_res. match goal with E : node_to_explanation _ _ _ = Ok ?q |- _ => apply node_arities in E; destruct q as [n b f ks] end. inv_res. split; [|done].
      match goal with E : arities _ |- _ => inversion E; subst end. destruct (cn_fwd c); by constructor.
    - inv_res. destruct (node_matches _ _) eqn:Em; [|done]. inv_res. apply node_matches_true in Em as [_ L].
      match goal with E : explain_children _ _ _ _ = Ok ?q |- _ => destruct q as [ks ca2]; apply children_arities in E as (? & ? & ?); [|done|done|done] end.
      inv_res. split; [by constructor|done]. }
  split; [done|]. intros k u. destruct (decide (k = (cn_current c, cn_next c))) as [->|Hne]; [rewrite lookup_insert; by intros [= <-]|].
  rewrite lookup_insert_ne by done. apply H1.
Qed.
Lemma enodes_arities fuel (x : EGraphModel.explain Op) ns : rec_arities (explain_enodes fuel x ns).
Proof.
  induction fuel as [|fuel IH]; intros l r ca p ca' Hc E; cbn [explain_enodes] in E; [done|]. inv_res.
  match goal with E : node_to_explanation _ _ _ = Ok _ |- _ => apply node_arities in E end.
  match goal with E : get_path _ _ _ _ = Ok ?q |- _ => destruct q as [lc rc] end. inv_res.
  match goal with E : explain_along _ _ ?cs _ = Ok ?q |- _ => destruct q as [ts ca1]; rename E into Ea; set (conns := cs) in Ea; clearbody conns end. inv_res. rename conns into cs.
  assert (Forall arities ts /\ cache_arities ca') as [? ?]; [|by split; [constructor|]].
  clear -IH Hc Ea. revert ca Hc ts ca' Ea. induction cs as [|c cs IHc]; intros ca Hc ts ca' Ea; cbn [explain_along] in Ea; inv_res; [done|].
  match goal with E : explain_adjacent _ _ _ _ = Ok ?q |- _ => destruct q as [t1 ca1]; apply adjacent_arities in E as [? ?]; [|done|done] end. inv_res.
  match goal with E : explain_along _ _ _ _ = Ok ?q |- _ => destruct q as [ts1 ca2]; rename E into Ea1 end. inv_res.
  match goal with E : cache_arities ca1 |- _ => destruct (IHc _ E _ _ Ea1) as [? ?] end. split; [by constructor|done].
Qed.
Lemma explained_arities fuel l r (g : egraph Op D) p : explain_id_equivalence fuel l r g = Ok p -> Forall arities p.
Proof.
  unfold explain_id_equivalence. case_bool_decide; [|done]. intros E. inv_res.
  match goal with E : explain_enodes _ _ _ _ _ _ = Ok ?q |- _ => destruct q as [p' ca]; apply enodes_arities in E as [? _]; [|by intros ? ?; rewrite lookup_empty] end. by inv_res.
Qed.
End arity.
