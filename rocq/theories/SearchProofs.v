(** Searching patterns and multi-patterns. *)
From Verif Require Import Base UnionFind EGraphModel EGraphSteps EGraphInv EGraphPres EGraphRuns Spec EGraphMain
  EGraphReach Terms RecExprModel RecExprProofs ExprModel PatSpec ExprProofs MachineModel MatchSpec MatchProofs MachineProofs CompileProofs CompileMain.

Section sub.
Lemma subst_insert_keys (s : subst) v i :
  ((subst_insert s v i).1).*1 = s.*1 \/ (subst_get s v = None /\ (subst_insert s v i).1 = s ++ [(v, i)]).
Proof.
  destruct (subst_get s v) as [j|] eqn:E; [left|right; split; [done|by apply subst_insert_new]].
  induction s as [|[w k] s IH]; cbn in *; [done|]. destruct (decide (w = v)) as [->|]; [done|].
  specialize (IH E). destruct (subst_insert s v i) as [s' o]. cbn in *. by rewrite IH.
Qed.
Lemma subst_insert_nodup (s : subst) v i : NoDup s.*1 -> NoDup ((subst_insert s v i).1).*1.
Proof.
  intros Hn. destruct (subst_insert_keys s v i) as [->|[E ->]]; [done|]. rewrite fmap_app. apply NoDup_app.
  split_and!; [done| |apply NoDup_singleton]. intros w Hw ->%elem_of_list_singleton. by apply subst_get_None in E.
Qed.
Lemma subst_insert_Forall (P : nat -> Prop) (s : subst) v i : Forall (fun '(_, k) => P k) s -> P i ->
  Forall (fun '(_, k) => P k) (subst_insert s v i).1.
Proof.
  intros Hs Hi. induction Hs as [|[w k] s Hk Hs IH]; cbn; [by repeat constructor|].
  destruct (decide (w = v)); [by constructor|]. destruct (subst_insert s v i) as [s' o]. cbn in *. by constructor.
Qed.
End sub.

(** * Compiling a pattern or a clause of a multi-pattern *)
Section comp.
Context {Op : Type} `{Countable Op}.
Notation node := (node Op).
Notation pnode := (EGraphModel.node (pop Op)).
Notation cstate := (cstate (Op := Op)).
Context (ord : gmap (nat * nat) node -> list (nat * nat)) (Hord : enumerates_keys ord).

(** Between two clauses. *)
Record stage (s : cstate) (n : nat) : Prop := {
  sg_todo : cs_todo s = ∅;
  sg_v2r : Forall (fun '(v, k) => k < n) (cs_v2r s);
  sg_keys : NoDup (cs_v2r s).*1;
}.
Lemma stage_wfst (p : list pnode) free size (s : cstate) n : stage s n -> wfst p free size (set_load free size s) n.
Proof. intros []. split; try done. cbn. intros id reg m Hm. by rewrite sg_todo0, lookup_empty in Hm. Qed.
Lemma wfst_insert (p : list pnode) free size (s : cstate) n v i : wfst p free size s n -> i < n -> wfst p free size (set_v2r (subst_insert (cs_v2r s) v i).1 s) n.
Proof.
  intros [] Hi. split; try done; cbn; [|by apply subst_insert_nodup]. by apply (subst_insert_Forall (fun k => k < n)).
Qed.
Lemma add_todo_v2r (p : list pnode) id reg (s s' : cstate) v i : add_todo p id reg s = Ok s' -> subst_get (cs_v2r s') v = Some i ->
  subst_get (cs_v2r s) v = Some i \/ i = reg.
Proof.
  unfold add_todo. intros E Hv. inv_res. destruct (pview _) as [m|w]; [inv_res; by left|]. destruct (subst_get (cs_v2r s) w); inv_res; [by left|].
  cbn in Hv. rewrite subst_get_insert in Hv. destruct (decide _); [right; congruence|by left].
Qed.
Lemma rx_root_ok (p : list pnode) : p <> [] -> rx_root p = Ok (length p - 1).
Proof. intros Hne. unfold rx_root. by destruct p. Qed.

Lemma compile_total (p : list pnode) binder s : dag p -> pat_ok p -> p <> [] -> stage s (cs_next s) ->
  exists k r, forall fuel, k <= fuel -> compile ord fuel binder p s = Ok r.
Proof.
  intros Hd Hok Hne Hs. destruct (load_pattern_ok p s Hd Hok) as (free & size & El & Hl).
  destruct (extract_bound p Hd) as [k Hk].
  assert (Hroot : length p - 1 < length p) by (destruct p; cbn; [done|lia]).
  assert (Hfin : forall (s : cstate) n, wfst p free size s n -> exists k' r, forall fuel, k' <= fuel ->
    ('(s, next_out) ← compile_loop ord fuel p n s; Ok (set_next next_out s)) = Ok r).
  { intros s1 n Hw. destruct (compile_loop_total ord Hord p Hd Hok free size Hl k (W size (cs_todo s1)) Hk s1 n Hw (le_n _)) as [[s2 n2] Hr].
    exists (S (k + W size (cs_todo s1))), (set_next n2 s2). intros fuel Hf. rewrite Hr by lia. done. }
  pose proof (stage_wfst p free size s (cs_next s) Hs) as Hw0.
  set (s0 := set_load free size s) in *.
  assert (Hnew : forall s1, (s1 = s0 \/ s1 = push (IScan (cs_next s0)) s0) ->
    exists s2, add_todo p (length p - 1) (cs_next s0) s1 = Ok s2 /\ wfst p free size s2 (S (cs_next s0)) /\ cs_next s2 = cs_next s0).
  { intros s1 Hs1. assert (Hw1 : wfst p free size s1 (S (cs_next s0))).
    { apply wfst_mono with (cs_next s0); [|lia]. destruct Hs1 as [->| ->]; [done|]. split; apply Hw0. }
    destruct (add_todo_ok p free size s1 (S (cs_next s0)) (length p - 1) (cs_next s0) Hw1) as [s2 E2]; [lia|done|].
    destruct (add_todo_spec p Hd free size s1 (S (cs_next s0)) (length p - 1) (cs_next s0) s2 Hw1 ltac:(lia) E2) as (Hw2 & Hn2 & _). exists s2. split_and!; auto.
    destruct Hs1 as [->| ->]; done. }
  assert (Hnew' : exists s2, add_new_pattern p (length p - 1) s0 = Ok s2 /\ wfst p free size s2 (S (cs_next s0)) /\ cs_next s2 = cs_next s0).
  { unfold add_new_pattern. destruct (cs_code s0); [apply Hnew; by left|apply Hnew; by right]. }
  destruct Hnew' as (s2 & E2 & Hw2 & Hn2).
  unfold compile. rewrite El. cbn [mbind res_bind]. rewrite rx_root_ok by done. cbn [mbind res_bind]. fold s0.
  destruct binder as [v|].
  - destruct (subst_get (cs_v2r s0) v) as [i|] eqn:Ev.
    + assert (Hi : i < cs_next s0).
      { pose proof (ws_v2r _ _ _ _ _ Hw0) as Hv. rewrite Forall_forall in Hv. apply (Hv (v, i)). by apply subst_get_elem. }
      destruct (add_todo_ok p free size s0 _ (length p - 1) i Hw0 Hi Hroot) as [s1 E1]. rewrite E1. cbn [mbind res_bind].
      destruct (add_todo_spec p Hd free size s0 _ _ _ _ Hw0 Hi E1) as (Hw1 & Hn1 & _). rewrite Hn1. by apply Hfin.
    + rewrite E2. cbn [mbind res_bind]. apply Hfin. rewrite Hn2. apply wfst_insert; [done|lia].
  - rewrite E2. cbn [mbind res_bind]. apply Hfin. by rewrite Hn2.
Qed.
Lemma stage_new : stage cs_new 0.
Proof. split; cbn; [done|constructor|constructor]. Qed.

Context {D : Type}.
Notation egraph := (egraph Op D).
Context (L : lang Op) (it : gset nat -> list nat) (Hit : enumerates it) (g : egraph) (G : settled L g).
Implicit Types (sg : nat -> option nat) (r : list nat) (K : (nat -> option nat) -> Prop).

Lemma agrees_insert vf n v r sg : length r = S n \/ n < length r -> (subst_get vf v = None \/ subst_get vf v = Some n) ->
  (agrees g (subst_insert vf v n).1 r sg <-> agrees g vf r sg /\ sg v = Some (eg_find g (r !!! n))).
Proof.
  intros Hlr Hv. assert (Hrr : r !! n = Some (r !!! n)) by (apply list_lookup_lookup_total_lt; lia).
  unfold agrees. setoid_rewrite subst_get_insert. split.
  - intros Ha. assert (Hvn : sg v = Some (eg_find g (r !!! n))).
    { destruct (Ha v n) as (x & Hx & Hs); [by rewrite decide_True|]. by rewrite (list_lookup_total_correct _ _ _ Hx). }
    split; [|done]. intros w i Hi. destruct (decide (v = w)) as [<-|Hne].
    + destruct Hv as [Hv|Hv]; [congruence|]. rewrite Hi in Hv. injection Hv as ->. eauto.
    + apply Ha. by rewrite decide_False.
  - intros [Ha Hs] w i. destruct (decide (v = w)) as [<-|]; [|by apply Ha]. intros [= <-]. eauto.
Qed.
Lemma exact_iff' (C C' : (nat -> option nat) -> list nat -> Prop) n code vf nf : exact it g C n code vf nf ->
  (forall sg r, length r = n -> Forall (known g) r -> csub g sg -> C sg r <-> C' sg r) ->
  exact it g C' n code vf nf.
Proof. intros E Hc. by eapply exact_iff. Qed.

(** The class of the root of [p]. *)
Definition root_in (p : list pnode) sg (x : nat) : Prop := exists t, ExprTree p t /\ PRep g sg t x.
Lemma root_in_PR (p : list pnode) sg x : p <> [] -> (PR g p sg (length p - 1) x <-> root_in p sg x).
Proof. intros Hne. unfold PR, root_in, ExprTree. split; intros (t & H1 & H2); exists t; [done|tauto]. Qed.
Lemma has_var_PO (p : list pnode) v : p <> [] -> (PO p (length p - 1) v <-> has_var p v).
Proof. intros Hne. unfold PO, has_var, ExprTree. split; intros (t & H1 & H2); exists t; [done|tauto]. Qed.

Definition clause sg (v : nat) (p : list pnode) : Prop := exists x, sg v = Some x /\ root_in p sg x.

Lemma stage_compat (p : list pnode) free size (s : cstate) n sg r : stage s n -> (compat g p (set_load free size s) sg r <-> agrees g (cs_v2r s) r sg).
Proof.
  intros Hs. unfold compat. cbn. rewrite (sg_todo _ _ Hs). split; [tauto|]. intros. split; [done|]. intros id reg m Hm.
  by rewrite lookup_empty in Hm.
Qed.
Lemma stage_cov (p : list pnode) free size (s : cstate) n v : stage s n -> (cov p (set_load free size s) v <-> is_Some (subst_get (cs_v2r s) v)).
Proof.
  intros Hs. unfold cov. cbn. rewrite (sg_todo _ _ Hs). split; [|by left]. intros [?|(id & reg & m & Hm & _)]; [done|].
  by rewrite lookup_empty in Hm.
Qed.

(** First pattern: starts from the searched class in register 0. *)
Lemma compile_first fuel binder (p : list pnode) s : dag p -> pat_ok p -> p <> [] -> compile ord fuel binder p cs_new = Ok s ->
  stage s (cs_next s) /\
  (forall v, is_Some (subst_get (cs_v2r s) v) <-> Some v = binder \/ has_var p v) /\
  forall K code vf n', exact it g (fun sg r => agrees g (cs_v2r s) r sg /\ K sg) (cs_next s) code vf n' ->
    exact it g (fun sg r => (forall v, binder = Some v -> sg v = Some (eg_find g (r !!! 0))) /\
                            root_in p sg (eg_find g (r !!! 0)) /\ K sg) 1 (cs_code s ++ code) vf n'.
Proof.
  intros Hd Hok Hne E. destruct (load_pattern_ok p cs_new Hd Hok) as (free & size & El & Hl).
  pose proof (wfst_mono p free size _ 0 1 (stage_wfst p free size cs_new 0 stage_new) ltac:(lia)) as Hw0.
  unfold compile in E. rewrite El in E. cbn [mbind res_bind] in E. rewrite rx_root_ok in E by done. cbn [mbind res_bind] in E.
  set (s0 := set_load free size cs_new) in *. cbn [cs_v2r s0 set_load cs_new subst_get] in E.
  destruct (add_new_pattern p (length p - 1) s0) as [s1| |] eqn:E1; [|by destruct binder..].
  unfold add_new_pattern in E1. cbn [s0 set_load cs_new cs_code cs_next] in E1. fold s0 in E1.
  destruct (add_todo_spec p Hd free size s0 1 (length p - 1) 0 s1 Hw0 ltac:(lia) E1) as (Hw1 & Hn1 & _ & [suf1 C1] & _ & V1).
  set (s2 := match binder with Some v => set_v2r (subst_insert (cs_v2r s1) v 0).1 s1 | None => s1 end).
  assert (E' : ('(s, next_out) ← compile_loop ord fuel p 1 s2; Ok (set_next next_out s)) = Ok s).
  { unfold s2. change (cs_next s0) with 0 in Hn1. destruct binder; cbn [mbind res_bind] in E; rewrite Hn1 in E; exact E. }
  clear E. destruct (compile_loop ord fuel p 1 s2) as [[s3 n3]| |] eqn:E3; [|done|done]. cbn [mbind res_bind] in E'. injection E' as <-.
  assert (Hw2 : wfst p free size s2 1) by (unfold s2; destruct binder; [apply wfst_insert; [done|lia]|done]).
  destruct (compile_loop_spec ord Hord L it Hit g G p Hd Hok free size Hl fuel s2 1 s3 n3 Hw2 E3)
    as (Hwf & Htf & _ & _ & _ & Hcv & suf & Hc & Hex).
  cbn [cs_v2r cs_code cs_next set_next]. split_and!.
  - split; [done|apply Hwf|apply Hwf].
  - intros v. cbn. rewrite Hcv. rewrite <- has_var_PO by done.
    assert (Hc2 : cov p s2 v <-> Some v = binder \/ cov p s1 v).
    { unfold s2. destruct binder as [w|]; [|split; [by right|by intros [?|?]]]. unfold cov. cbn. rewrite subst_get_insert.
      destruct (decide (w = v)) as [->|Hnw]; [|split; [by right|by intros [[= ->]|?]]]. split; [by left|]. intros _. left. eauto. }
    rewrite Hc2, V1. assert (Hc0 : cov p s0 v <-> False); [|tauto].
    unfold s0. rewrite (stage_cov _ _ _ _ 0 _ stage_new). cbn. split; [|done]. by intros [? ?].
  - intros K code vf n' Hx. specialize (Hex K code vf n' Hx).
    assert (Hcode : cs_code s3 = suf1 ++ suf).
    { rewrite Hc. assert (cs_code s2 = cs_code s1) as -> by (unfold s2; by destruct binder). by rewrite C1. }
    rewrite Hcode, <- app_assoc.
    assert (Hreg : forall v i, subst_get (cs_v2r s1) v = Some i -> i = 0).
    { intros v i Hi. destruct (add_todo_v2r _ _ _ _ _ _ _ E1 Hi) as [Hb|Hb]; done. }
    pose proof (add_todo_exact L it g G p Hd free size s0 1 (length p - 1) 0 s1 suf1
      (fun sg r => (forall v, binder = Some v -> sg v = Some (eg_find g (r !!! 0))) /\ K sg) (suf ++ code) vf n' Hw0 ltac:(lia) E1 C1) as Hadd.
    eapply exact_iff'; [apply Hadd; eapply exact_iff'; [exact Hex|]|].
    + intros sg r Hlr Hk Hcs. cbv beta. assert (Hc2 : compat g p s2 sg r <-> compat g p s1 sg r /\
        (forall v, binder = Some v -> sg v = Some (eg_find g (r !!! 0)))); [|tauto].
      unfold s2. destruct binder as [v|]; [|split; [by split|by intros [? _]]].
      unfold compat. cbn. rewrite agrees_insert; [|lia|].
      * split; [intros [[Ha Hv] Ht]; split; [done|]; by intros w [= <-]|]. intros [[Ha Ht] Hv]. split_and!; auto.
      * destruct (subst_get (cs_v2r s1) v) as [i|] eqn:Ei; [|by left]. rewrite (Hreg _ _ Ei). by right.
    + intros sg r Hlr Hk Hcs. cbv beta. unfold s0 at 1. rewrite (stage_compat p _ _ _ 0 sg r stage_new), root_in_PR by done.
      assert (agrees g (cs_v2r (Op := Op) cs_new) r sg) by (intros v i Hi; done). tauto.
Qed.

(** Later clauses. *)
Lemma compile_next fuel v (p : list pnode) s s' : dag p -> pat_ok p -> p <> [] -> stage s (cs_next s) -> cs_code s <> [] ->
  compile ord fuel (Some v) p s = Ok s' ->
  stage s' (cs_next s') /\ cs_code s' <> [] /\
  (forall w, is_Some (subst_get (cs_v2r s') w) <-> is_Some (subst_get (cs_v2r s) w) \/ w = v \/ has_var p w) /\
  exists suf, cs_code s' = cs_code s ++ suf /\
  forall K code vf n', exact it g (fun sg r => agrees g (cs_v2r s') r sg /\ K sg) (cs_next s') code vf n' ->
    exact it g (fun sg r => agrees g (cs_v2r s) r sg /\ clause sg v p /\ K sg) (cs_next s) (suf ++ code) vf n'.
Proof.
  intros Hd Hok Hne Hs Hcne E. destruct (load_pattern_ok p s Hd Hok) as (free & size & El & Hl).
  pose proof (stage_wfst p free size s (cs_next s) Hs) as Hw0.
  unfold compile in E. rewrite El in E. cbn [mbind res_bind] in E. rewrite rx_root_ok in E by done. cbn [mbind res_bind] in E.
  set (s0 := set_load free size s) in *. set (n := cs_next s) in *.
  destruct (subst_get (cs_v2r s0) v) as [i|] eqn:Ev.
  - assert (Hi : i < n).
    { pose proof (ws_v2r _ _ _ _ _ Hw0) as Hv. rewrite Forall_forall in Hv. apply (Hv (v, i)). by apply subst_get_elem. }
    destruct (add_todo p (length p - 1) i s0) as [s1| |] eqn:E1; [|done|done]. cbn [mbind res_bind] in E.
    destruct (add_todo_spec p Hd free size s0 n _ _ _ Hw0 Hi E1) as (Hw1 & Hn1 & _ & [suf1 C1] & _ & V1).
    change (cs_next s0) with n in Hn1. rewrite Hn1 in E.
    destruct (compile_loop ord fuel p n s1) as [[s3 n3]| |] eqn:E3; [|done|done]. cbn [mbind res_bind] in E. injection E as <-.
    destruct (compile_loop_spec ord Hord L it Hit g G p Hd Hok free size Hl fuel s1 n s3 n3 Hw1 E3)
      as (Hwf & Htf & _ & _ & _ & Hcv & suf & Hc & Hex).
    change (cs_code s0) with (cs_code s) in C1. rewrite C1, <- app_assoc in Hc.
    cbn [cs_v2r cs_code cs_next set_next]. split_and!.
    + split; [done|apply Hwf|apply Hwf].
    + rewrite Hc. by destruct (cs_code s).
    + intros w. rewrite Hcv, V1. unfold s0. rewrite (stage_cov _ _ _ _ _ _ Hs), has_var_PO by done.
      split; [tauto|]. intros [?|[->|?]]; [tauto| |tauto]. left. change (cs_v2r s0) with (cs_v2r s) in Ev. eauto.
    + exists (suf1 ++ suf). split; [done|]. intros K code vf n' Hx. specialize (Hex K code vf n' Hx). rewrite <- app_assoc.
      eapply exact_iff'; [eapply (add_todo_exact L it g G p Hd free size s0 n _ _ s1 suf1 (fun sg _ => K sg)); [done|done|exact E1|exact C1|exact Hex]|].
      intros sg r Hlr Hk Hcs. cbv beta. unfold s0 at 1. rewrite (stage_compat p _ _ _ _ sg r Hs), root_in_PR by done.
      split.
      * intros [[Ha HP] HK]. split_and!; auto. destruct (Ha v i Ev) as (x & Hx' & Hs'). exists (eg_find g x).
        rewrite (list_lookup_total_correct _ _ _ Hx') in HP. done.
      * intros (Ha & (x & Hx1 & HP) & HK). split_and!; auto. destruct (Ha v i Ev) as (y & Hy & Hs').
        rewrite (list_lookup_total_correct _ _ _ Hy). rewrite Hx1 in Hs'. by injection Hs' as <-.
  - destruct (add_new_pattern p (length p - 1) s0) as [s1| |] eqn:E1; [|done|done]. cbn [mbind res_bind] in E.
    unfold add_new_pattern in E1. change (cs_code s0) with (cs_code s) in E1. change (cs_next s0) with n in E1.
    assert (E1' : add_todo p (length p - 1) n (push (IScan n) s0) = Ok s1) by (by destruct (cs_code s)). clear E1.
    set (sp := push (IScan n) s0) in *.
    assert (Hwp : wfst p free size sp (S n)) by (apply wfst_mono with n; [split; apply Hw0|lia]).
    destruct (add_todo_spec p Hd free size sp (S n) (length p - 1) n s1 Hwp ltac:(lia) E1') as (Hw1 & Hn1 & _ & [suf1 C1] & _ & V1).
    change (cs_next sp) with n in Hn1. rewrite Hn1 in E.
    set (s2 := set_v2r (subst_insert (cs_v2r s1) v n).1 s1) in *.
    assert (Hw2 : wfst p free size s2 (S n)) by (apply wfst_insert; [done|lia]).
    destruct (compile_loop ord fuel p (S n) s2) as [[s3 n3]| |] eqn:E3; [|done|done]. cbn [mbind res_bind] in E. injection E as <-.
    destruct (compile_loop_spec ord Hord L it Hit g G p Hd Hok free size Hl fuel s2 (S n) s3 n3 Hw2 E3)
      as (Hwf & Htf & _ & _ & _ & Hcv & suf & Hc & Hex).
    assert (Hc' : cs_code s3 = cs_code s ++ IScan n :: suf1 ++ suf).
    { rewrite Hc. change (cs_code s2) with (cs_code s1). rewrite C1. unfold sp. cbn. by rewrite <- !app_assoc. }
    assert (Hreg : subst_get (cs_v2r s1) v = None \/ subst_get (cs_v2r s1) v = Some n).
    { destruct (subst_get (cs_v2r s1) v) as [i|] eqn:Ei; [|by left]. right.
      destruct (add_todo_v2r _ _ _ _ _ _ _ E1' Ei) as [Hb| ->]; [|done]. change (cs_v2r sp) with (cs_v2r s0) in Hb. congruence. }
    cbn [cs_v2r cs_code cs_next set_next]. split_and!.
    + split; [done|apply Hwf|apply Hwf].
    + rewrite Hc'. by destruct (cs_code s).
    + intros w. rewrite Hcv.
      assert (Hc2 : cov p s2 w <-> w = v \/ cov p s1 w).
      { unfold s2, cov. cbn. rewrite subst_get_insert. destruct (decide (v = w)) as [->|Hnw].
        - split; [by left|]. intros _. left. eauto.
        - split; [by right|]. intros [->|?]; done. }
      rewrite Hc2, V1. assert (Hcp : cov p sp w <-> is_Some (subst_get (cs_v2r s) w)) by (by apply (stage_cov p free size s _ w Hs)).
      rewrite Hcp, has_var_PO by done. tauto.
    + exists (IScan n :: suf1 ++ suf). split; [done|]. intros K code vf n' Hx. specialize (Hex K code vf n' Hx).
      rewrite <- app_comm_cons, <- app_assoc.
      assert (Hsc : exact it g (fun sg r => (agrees g (cs_v2r s) r sg /\ root_in p sg (eg_find g (r !!! n))) /\
         sg v = Some (eg_find g (r !!! n)) /\ K sg) (S n) (suf1 ++ suf ++ code) vf n').
      { eapply exact_iff'; [eapply (add_todo_exact L it g G p Hd free size sp (S n) (length p - 1) n s1 suf1
           (fun sg r => sg v = Some (eg_find g (r !!! n)) /\ K sg)); [done|lia|exact E1'|exact C1|eapply exact_iff'; [exact Hex|]]|].
        - intros sg r Hlr Hk Hcs. cbv beta. unfold s2, compat. cbn. rewrite agrees_insert by (done || lia). tauto.
        - intros sg r Hlr Hk Hcs. cbv beta. rewrite root_in_PR by done.
          assert (Hcp : compat g p sp sg r <-> agrees g (cs_v2r s) r sg) by (by apply (stage_compat p free size s _ sg r Hs)). tauto. }
      eapply exact_iff'; [eapply (exact_scan L it Hit g G); [|exact Hsc]|].
      * intros sg r a b Hlr Hk Hcs [_ Ha] [_ Hb] [_ [Hva _]] [_ [Hvb _]].
        rewrite lookup_total_app_r in Hva, Hvb by lia. rewrite Hlr, Nat.sub_diag in Hva, Hvb. cbn in Hva, Hvb. congruence.
      * intros sg r Hlr Hk Hcs. cbv beta.
        assert (Hla : forall a, (r ++ [a]) !!! n = a) by (intros a; rewrite lookup_total_app_r by lia; by rewrite Hlr, Nat.sub_diag).
        assert (Hag : forall a, agrees g (cs_v2r s) (r ++ [a]) sg <-> agrees g (cs_v2r s) r sg)
          by (intros a; apply (agrees_app g n); [apply Hs|done]).
        split.
        -- intros (a & Ha & [Hg HP] & Hv & HK). rewrite Hla in *. rewrite Hag in Hg. split_and!; auto. by exists (eg_find g a).
        -- intros (Hg & (x & Hv & HP) & HK). exists x. destruct (Hcs v x Hv) as [Hkx Hfx]. rewrite Hla, Hag, Hfx. split_and!; done.
Qed.
End comp.
