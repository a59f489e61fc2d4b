(** Correctness of the pattern compiler. *)
From Verif Require Import Base UnionFind EGraphModel EGraphSteps EGraphInv EGraphPres EGraphRuns Spec EGraphMain
  EGraphReach Terms RecExprModel RecExprProofs ExprModel PatSpec ExprProofs MachineModel MatchSpec MatchProofs MachineProofs CompileProofs.

Section sub.
Lemma subst_get_insert (s : subst) v i w : subst_get (subst_insert s v i).1 w = if decide (v = w) then Some i else subst_get s w.
Proof.
  induction s as [|[u j] s IH]; cbn; [done|]. destruct (decide (u = v)) as [->|Hn]; cbn.
  - by destruct (decide (v = w)).
  - destruct (subst_insert s v i) as [s' o]. cbn in *. rewrite IH. destruct (decide (u = w)) as [->|]; [|done].
    by rewrite decide_False.
Qed.
Lemma subst_insert_new (s : subst) v i : subst_get s v = None -> (subst_insert s v i).1 = s ++ [(v, i)].
Proof.
  induction s as [|[u j] s IH]; cbn; [done|]. destruct (decide (u = v)) as [->|Hn]; cbn; [done|]. intros Hs.
  specialize (IH Hs). destruct (subst_insert s v i) as [s' o]. cbn in *. by rewrite IH.
Qed.
Lemma subst_get_None (s : subst) v : subst_get s v = None <-> v ∉ s.*1.
Proof.
  induction s as [|[u j] s IH]; cbn; [split; [|done]; intros _ ?%elem_of_nil; done|].
  rewrite not_elem_of_cons. destruct (decide (u = v)) as [->|]; [split; [done|]; by intros [? _]|]. rewrite IH. split; [by split|by intros [_ ?]].
Qed.
Lemma subst_copy (s : subst) : NoDup s.*1 -> foldl (fun sub '(v, r) => (subst_insert sub v r).1) [] s = s.
Proof.
  intros Hn. assert (Hg : forall a b : subst, NoDup (a ++ b).*1 ->
    foldl (fun sub '(v, r) => (subst_insert sub v r).1) a b = a ++ b); [|by apply (Hg [] s)].
  intros a b. revert a. induction b as [|[v r] b IH]; intros a Ha; cbn; [by rewrite app_nil_r|].
  rewrite subst_insert_new.
  - rewrite IH; rewrite <- app_assoc; done.
  - apply subst_get_None. rewrite fmap_app in Ha. apply NoDup_app in Ha as (_ & Ha & _). intros Hin. apply (Ha v Hin). cbn. left.
Qed.
End sub.

Section pats.
Context {Op : Type} `{Countable Op}.
Notation node := (node Op).
Notation pnode := (EGraphModel.node (pop Op)).
Implicit Types (t u : term (pop Op)).

Lemma pview_op (n : pnode) m : pview n = inl m <-> n = Node (POp (nop m)) (nch m).
Proof. destruct n as [[f|v] cs], m as [f' ds]; unfold pview; cbn; split; congruence. Qed.
Lemma pview_var (n : pnode) v : pview n = inr v <-> n = Node (PVar v) (nch n).
Proof. destruct n as [[f|w] cs]; unfold pview; cbn; split; congruence. Qed.
(** Variables have no children. *)
Inductive pterm : term (pop Op) -> Prop :=
| pterm_var v : pterm (TNode (PVar v) [])
| pterm_op f ts : Forall pterm ts -> pterm (TNode (POp f) ts).
Lemma pterm_sub f ts : pterm (TNode f ts) -> Forall pterm ts.
Proof. inversion 1; subst; [constructor|done]. Qed.
Lemma pterm_Tree (p : list pnode) i t : pat_ok p -> Tree p i t -> pterm t.
Proof.
  intros Hp. revert i t. apply (TreeOf_ind' _ (fun i t => pterm t)). intros i f cs ts Hi _ IH.
  pose proof (Forall_lookup_1 _ _ _ _ Hp Hi) as Hn. destruct f as [f|v]; cbn in Hn.
  - constructor. clear -IH. induction IH; by constructor.
  - unfold pnode_ok in Hn. cbn in Hn. subst. inversion IH; subst. constructor.
Qed.

(** The tables computed by [load_pattern]. *)
Record loaded (p : list pnode) (free : list (gset nat)) (size : list nat) : Prop := {
  lo_flen : length free = length p;
  lo_slen : length size = length p;
  lo_free : forall i t fv v, Tree p i t -> free !! i = Some fv -> (v ∈ fv <-> occurs v t);
  lo_size : forall i f cs z, p !! i = Some (Node (POp f) cs) -> size !! i = Some z ->
    z = S (sum_list_with (fun c => size !!! c) cs);
}.
Lemma occurs_op v f ts : occurs (Op := Op) v (TNode (POp f) ts) <-> exists t, t ∈ ts /\ occurs v t.
Proof. split; [by inversion 1; subst; eauto|]. intros (t & ? & ?). by econstructor. Qed.
Lemma occurs_var v w ts : occurs (Op := Op) v (TNode (PVar w) ts) <-> v = w.
Proof. split; [by inversion 1; subst|]. intros ->. constructor. Qed.
Lemma load_loop_ok p0 p free size : dag p0 -> pat_ok p0 -> (exists pre, p0 = pre ++ p /\ loaded pre free size) ->
  exists f z, load_loop p free size = Ok (f, z) /\ loaded p0 f z.
Proof.
  intros Hd Hok. revert free size. induction p as [|[op cs] p IH]; intros free size (pre & Hp & Hl); cbn [load_loop].
  { exists free, size. rewrite app_nil_r in Hp. by subst. }
  assert (Hi : p0 !! length pre = Some (Node op cs)) by (rewrite Hp; by apply list_lookup_middle).
  assert (Hdp : dag pre).
  { intros i n c Hin Hc. eapply (Hd i); [|exact Hc]. rewrite Hp. by apply lookup_app_l_Some. }
  assert (Hcs : forall c, c ∈ cs -> c < length pre) by (intros c Hc; by eapply Hd).
  assert (Htr : forall i t, Tree (pre ++ [Node op cs]) i t -> i < length pre -> Tree pre i t).
  { intros i t Ht Hlt. destruct (dag_Tree pre i Hdp Hlt) as [w Hw]. by rewrite (TreeOf_fun _ _ _ _ Ht (Tree_app _ [Node op cs] _ _ Hw)). }
  destruct op as [f|v]; cbn [pview nop nch].
  - destruct (mapM_Some_2' (fun c => free !! c) cs) as (fs & Ef & Hfs).
    { intros c Hc. apply lookup_lt_is_Some_2. rewrite (lo_flen _ _ _ Hl). auto. }
    destruct (mapM_Some_2' (fun c => size !! c) cs) as (zs & Ez & Hzs).
    { intros c Hc. apply lookup_lt_is_Some_2. rewrite (lo_slen _ _ _ Hl). auto. }
    rewrite Ef. cbn [expect mbind res_bind]. rewrite Ez. cbn [expect mbind res_bind]. apply IH.
    exists (pre ++ [Node (POp f) cs]). rewrite <- app_assoc. split; [done|].
    assert (Hz : forall c, c ∈ cs -> (size ++ [1 + sum_list zs]) !!! c = size !!! c).
    { intros c Hc. rewrite lookup_total_app_l; [done|]. rewrite (lo_slen _ _ _ Hl). auto. }
    assert (Hsum : forall l : list nat, (forall c, c ∈ cs -> l !!! c = size !!! c) -> sum_list zs = sum_list_with (fun c => l !!! c) cs).
    { clear -Hzs. intros l Hz. induction Hzs as [|c z cs zs Hc _ IH]; [done|]. cbn [sum_list_with].
      rewrite IH by (intros; apply Hz; by right). rewrite Hz by left. by rewrite (list_lookup_total_correct _ _ _ Hc). }
    split.
    + rewrite !app_length, (lo_flen _ _ _ Hl). done.
    + rewrite !app_length, (lo_slen _ _ _ Hl). done.
    + intros i t fv v Ht Hfv. pose proof (Tree_lt _ _ _ Ht) as Hlt. rewrite app_length in Hlt. cbn in Hlt.
      apply lookup_app_Some in Hfv as [Hfv|[Hge Hfv]].
      * eapply (lo_free _ _ _ Hl); [|exact Hfv]. apply Htr; [done|]. rewrite <- (lo_flen _ _ _ Hl). by eapply lookup_lt_Some.
      * rewrite (lo_flen _ _ _ Hl) in Hge. assert (i = length pre) as -> by lia.
        rewrite (lo_flen _ _ _ Hl), Nat.sub_diag in Hfv. injection Hfv as <-.
        inversion Ht as [? f' cs' ts Hi' Hts]; subst. rewrite list_lookup_middle in Hi' by done. injection Hi' as <- <-.
        rewrite elem_of_union_list, occurs_op. split.
        -- intros (x & Hx & Hv). apply elem_of_list_lookup in Hx as [q Hq].
           destruct (Forall2_lookup_r _ _ _ _ _ Hfs Hq) as (c & Hc & Hx). destruct (Forall2_lookup_l _ _ _ _ _ Hts Hc) as (u & Hu & Hcu).
           exists u. split; [by eapply elem_of_list_lookup_2|]. eapply (lo_free _ _ _ Hl); [|exact Hx|done].
           apply Htr; [done|]. apply Hcs. by eapply elem_of_list_lookup_2.
        -- intros (u & Hu & Hv). apply elem_of_list_lookup in Hu as [q Hq].
           destruct (Forall2_lookup_r _ _ _ _ _ Hts Hq) as (c & Hc & Hcu). destruct (Forall2_lookup_l _ _ _ _ _ Hfs Hc) as (x & Hx & Hcx).
           exists x. split; [by eapply elem_of_list_lookup_2|]. eapply (lo_free _ _ _ Hl); [|exact Hcx|exact Hv].
           apply Htr; [done|]. apply Hcs. by eapply elem_of_list_lookup_2.
    + intros i f' cs' z Hpi Hz'. apply lookup_app_Some in Hpi as [Hpi|[Hge Hpi]].
      * assert (Hlt : i < length pre) by (by eapply lookup_lt_Some).
        rewrite lookup_app_l in Hz' by (rewrite (lo_slen _ _ _ Hl); lia).
        rewrite (lo_size _ _ _ Hl _ _ _ _ Hpi Hz'). f_equal.
        assert (Hc' : forall c, c ∈ cs' -> c < length size).
        { intros c Hc. rewrite (lo_slen _ _ _ Hl). pose proof (Hdp _ _ _ Hpi Hc). lia. }
        clear -Hc'. induction cs' as [|c cs' IH]; [done|]. cbn. rewrite lookup_total_app_l by (apply Hc'; left).
        f_equal. apply IH. intros; apply Hc'; by right.
      * apply list_lookup_singleton_Some in Hpi as [E [= -> ->]]. assert (i = length pre) as -> by lia.
        rewrite <- (lo_slen _ _ _ Hl), list_lookup_middle in Hz' by done. injection Hz' as <-. cbn. f_equal.
        by apply Hsum.
  - apply IH. exists (pre ++ [Node (PVar v) cs]). rewrite <- app_assoc. split; [done|]. split.
    + rewrite !app_length, (lo_flen _ _ _ Hl). done.
    + rewrite !app_length, (lo_slen _ _ _ Hl). done.
    + intros i t fv w Ht Hfv. pose proof (Tree_lt _ _ _ Ht) as Hlt. rewrite app_length in Hlt. cbn in Hlt.
      apply lookup_app_Some in Hfv as [Hfv|[Hge Hfv]].
      * eapply (lo_free _ _ _ Hl); [|exact Hfv]. apply Htr; [done|]. rewrite <- (lo_flen _ _ _ Hl). by eapply lookup_lt_Some.
      * rewrite (lo_flen _ _ _ Hl) in Hge. assert (i = length pre) as -> by lia.
        rewrite (lo_flen _ _ _ Hl), Nat.sub_diag in Hfv. injection Hfv as <-.
        inversion Ht as [? f' cs' ts Hi' Hts]; subst. rewrite list_lookup_middle in Hi' by done. injection Hi' as <- <-.
        by rewrite elem_of_singleton, occurs_var.
    + intros i f' cs' z Hpi Hz'. apply lookup_app_Some in Hpi as [Hpi|[Hge Hpi]].
      * assert (Hlt : i < length pre) by (by eapply lookup_lt_Some).
        rewrite lookup_app_l in Hz' by (rewrite (lo_slen _ _ _ Hl); lia).
        rewrite (lo_size _ _ _ Hl _ _ _ _ Hpi Hz'). f_equal.
        assert (Hc' : forall c, c ∈ cs' -> c < length size).
        { intros c Hc. rewrite (lo_slen _ _ _ Hl). pose proof (Hdp _ _ _ Hpi Hc). lia. }
        clear -Hc'. induction cs' as [|c cs' IH]; [done|]. cbn. rewrite lookup_total_app_l by (apply Hc'; left).
        f_equal. apply IH. intros; apply Hc'; by right.
      * by apply list_lookup_singleton_Some in Hpi as [E [= ]].
Qed.
Lemma load_pattern_ok p s : dag p -> pat_ok p -> exists f z, load_pattern p s = Ok (set_load f z s) /\ loaded p f z.
Proof.
  intros Hd Hok. destruct (load_loop_ok p p [] [] Hd Hok) as (f & z & E & Hl).
  { exists []. split; [done|]. split; [done|done| |]; intros i t ? ? Hi; [|done]. apply Tree_lt in Hi. cbn in Hi. lia. }
  exists f, z. unfold load_pattern. by rewrite E.
Qed.
End pats.

Section compile.
Context {Op : Type} `{Countable Op}.
Notation node := (node Op).
Notation pnode := (EGraphModel.node (pop Op)).
Notation instr := (instr Op).
Notation cstate := (cstate (Op := Op)).
Implicit Types (t u : term (pop Op)).
Context (ord : gmap (nat * nat) node -> list (nat * nat)) (Hord : enumerates_keys ord).
Context (p : list pnode) (Hd : dag p) (Hok : pat_ok p) (free : list (gset nat)) (size : list nat) (Hl : loaded p free size).

Record wfst (s : cstate) (n : nat) : Prop := {
  ws_free : cs_free s = free;
  ws_size : cs_size s = size;
  ws_v2r : Forall (fun '(v, k) => k < n) (cs_v2r s);
  ws_keys : NoDup (cs_v2r s).*1;
  ws_todo : forall id reg m, cs_todo s !! (id, reg) = Some m -> reg < n /\ p !! id = Some (Node (POp (nop m)) (nch m));
}.
Lemma wfst_mono s n n' : wfst s n -> n <= n' -> wfst s n'.
Proof.
  intros [] Hle. split; auto.
  - eapply Forall_impl; [eassumption|]. intros [v k] ?. lia.
  - intros id reg m Hm. destruct (ws_todo0 id reg m Hm). split; [lia|done].
Qed.
(** Variables of a sub-pattern. *)
Definition PO (id v : nat) : Prop := exists t, Tree p id t /\ occurs v t.
Definition cov (s : cstate) (v : nat) : Prop :=
  is_Some (subst_get (cs_v2r s) v) \/ exists id reg m, cs_todo s !! (id, reg) = Some m /\ PO id v.

(** ** Weight of the work list *)
Definition W (m : gmap (nat * nat) node) : nat := sum_list_with (fun kv : nat * nat * node => size !!! kv.1.1) (map_to_list m).
Lemma sum_with_perm {X} (f : X -> nat) l l' : l ≡ₚ l' -> sum_list_with f l = sum_list_with f l'.
Proof. induction 1; cbn; lia. Qed.
Lemma W_delete m k n : m !! k = Some n -> W m = size !!! k.1 + W (delete k m).
Proof. intros Hk. unfold W. rewrite <- (sum_with_perm _ _ _ (map_to_list_delete m k n Hk)). done. Qed.
Lemma W_insert m k n : W (<[k := n]> m) <= size !!! k.1 + W m.
Proof.
  destruct (m !! k) as [n'|] eqn:Ek.
  - rewrite (W_delete (<[k:=n]> m) k n) by (by rewrite lookup_insert). rewrite delete_insert_delete.
    rewrite (W_delete m k n') by done. lia.
  - rewrite (W_delete (<[k:=n]> m) k n) by (by rewrite lookup_insert). by rewrite delete_insert.
Qed.

Lemma max_by_elem {X} (best : X * (bool * nat * Z)) l : exists k, (max_by best l, k) ∈ best :: l.
Proof.
  revert best. induction l as [|x l IH]; intros [b kb]; cbn [max_by].
  - exists kb. left.
  - destruct (IH (if key_leb (b, kb).2 x.2 then x else (b, kb))) as [k Hk].
    exists k. apply elem_of_cons in Hk as [E|Hk]; [|by do 2 right].
    rewrite E. destruct (key_leb _ _); [right; left|left].
Qed.
Lemma next_todo_ok s n : wfst s n ->
  (cs_todo s = ∅ /\ next_todo ord s = Ok None) \/
  exists id reg m, cs_todo s !! (id, reg) = Some m /\
    next_todo ord s = Ok (Some (id, reg, m, set_todo (delete (id, reg) (cs_todo s)) s)).
Proof.
  intros Hw. unfold next_todo.
  destruct (mapM_Some_2' (fun k => x ← todo_key s k; Some (k, x)) (ord (cs_todo s))) as (ks & Ek & Hks).
  { intros k0 Hin. rewrite (Hord (cs_todo s)) in Hin. apply elem_of_list_fmap in Hin as ([k m] & -> & Hin).
    apply elem_of_map_to_list in Hin. cbn [fst]. destruct k as [id reg]. destruct (ws_todo _ _ Hw _ _ _ Hin) as [_ Hp].
    pose proof (lookup_lt_Some _ _ _ Hp) as Hlt. unfold todo_key. rewrite (ws_free _ _ Hw), (ws_size _ _ Hw). cbn [fst].
    destruct (lookup_lt_is_Some_2 free id) as [x ->]; [by rewrite (lo_flen _ _ _ Hl)|].
    destruct (lookup_lt_is_Some_2 size id) as [z ->]; [by rewrite (lo_slen _ _ _ Hl)|]. cbn. eauto. }
  rewrite Ek. cbn [expect mbind res_bind].
  assert (Hin : forall k x, (k, x) ∈ ks -> is_Some (cs_todo s !! k)).
  { intros k x [q Hq]%elem_of_list_lookup. destruct (Forall2_lookup_r _ _ _ _ _ Hks Hq) as (k' & Hk' & Hx).
    destruct (todo_key s k') as [x'|]; [|done]. cbn in Hx. injection Hx as -> ->.
    apply elem_of_list_lookup_2 in Hk'. rewrite (Hord (cs_todo s)) in Hk'. apply elem_of_list_fmap in Hk' as ([k' m] & -> & Hm).
    apply elem_of_map_to_list in Hm. eauto. }
  destruct ks as [|k ks].
  - left. split; [|done]. apply map_empty. intros k. destruct (cs_todo s !! k) as [m|] eqn:Em; [|done]. exfalso.
    assert (Hk : k ∈ ord (cs_todo s)).
    { rewrite (Hord (cs_todo s)). apply elem_of_list_fmap. exists (k, m). split; [done|by apply elem_of_map_to_list]. }
    inversion Hks as [E|]. rewrite <- E in Hk. by apply elem_of_nil in Hk.
  - right. destruct (max_by_elem k ks) as [x Hx]. apply Hin in Hx as [m Hm]. destruct (max_by k ks) as [id reg].
    exists id, reg, m. split; [done|]. by rewrite Hm.
Qed.

(** ** add_todo *)
Lemma add_todo_ok s n id reg : wfst s n -> reg < n -> id < length p -> exists s', add_todo p id reg s = Ok s'.
Proof.
  intros Hw Hr Hi. unfold add_todo, ExprModel.pnode. destruct (lookup_lt_is_Some_2 _ _ Hi) as [nd ->]. cbn [expect mbind res_bind].
  destruct (pview nd); [eauto|]. destruct (subst_get _ _); eauto.
Qed.
Lemma add_todo_spec s n id reg s' : wfst s n -> reg < n -> add_todo p id reg s = Ok s' ->
  wfst s' n /\ cs_next s' = cs_next s /\ W (cs_todo s') <= size !!! id + W (cs_todo s) /\
  (exists suf, cs_code s' = cs_code s ++ suf) /\
  (forall v i, subst_get (cs_v2r s) v = Some i -> subst_get (cs_v2r s') v = Some i) /\
  (forall v, cov s' v <-> cov s v \/ PO id v).
Proof.
  intros Hw Hr E. unfold add_todo, ExprModel.pnode in E. inv_res. destruct (p !! id) as [nd|] eqn:Ep; [|done]. cbn in H0. injection H0 as <-.
  pose proof (lookup_lt_Some _ _ _ Ep) as Hlt. destruct (dag_Tree p id Hd Hlt) as [t Ht].
  assert (HPO : forall v, PO id v <-> occurs v t).
  { intros v. split; [intros (t' & Ht' & Ho); by rewrite (TreeOf_fun _ _ _ _ Ht Ht')|intros; by exists t]. }
  inversion Ht as [? op cs ts Hi Hts]; subst. rewrite Ep in Hi. injection Hi as ->.
  destruct (pview _) as [m|v] eqn:Epv.
  - apply pview_op in Epv. injection Epv as -> ->. inv_res. split_and!; auto.
    + split; try apply Hw. intros id' reg' m' Hm. cbn in Hm. apply lookup_insert_Some in Hm as [[[= <- <-] <-]|[_ Hm]]; [done|by eapply ws_todo].
    + cbn. apply W_insert.
    + exists []. cbn. by rewrite app_nil_r.
    + intros v. unfold cov. cbn. split.
      * intros [?|(id' & reg' & m' & Hm & HP)]; [by left; left|].
        apply lookup_insert_Some in Hm as [[[= <- <-] <-]|[_ Hm]]; [by right|]. left. right. eauto.
      * intros [[?|(id' & reg' & m' & Hm & HP)]|HP]; [by left| |].
        -- right. destruct (decide ((id, reg) = (id', reg'))) as [E|Hne].
           ++ injection E as <- <-. exists id, reg, m. by rewrite lookup_insert.
           ++ exists id', reg', m'. by rewrite lookup_insert_ne.
        -- right. exists id, reg, m. by rewrite lookup_insert.
  - apply pview_var in Epv. cbn in Epv. injection Epv as ->.
    assert (HPv : forall w, PO id w <-> w = v) by (intros w; by rewrite HPO, occurs_var).
    destruct (subst_get (cs_v2r s) v) as [j|] eqn:Ev; inv_res.
    + split_and!; auto; cbn.
      * split; apply Hw.
      * lia.
      * eauto.
      * intros w. rewrite HPv. unfold cov. cbn. split; [by left|]. intros [?| ->]; [done|]. left. by rewrite Ev.
    + split_and!; auto; cbn.
      * split; try apply Hw; cbn; rewrite subst_insert_new by done.
        -- apply Forall_app. split; [apply Hw|]. by repeat constructor.
        -- rewrite fmap_app. apply NoDup_app. split_and!; [apply Hw| |apply NoDup_singleton].
           intros w Hw1 ->%elem_of_list_singleton. by apply subst_get_None in Ev.
      * lia.
      * exists []. by rewrite app_nil_r.
      * intros w i Hwi. rewrite subst_get_insert. destruct (decide (v = w)) as [->|]; [congruence|done].
      * intros w. rewrite HPv. unfold cov. cbn. rewrite subst_get_insert. destruct (decide (v = w)) as [->|Hne].
        -- split; [by right|]. intros _. left. eauto.
        -- split; [by left|]. intros [?| ->]; done.
Qed.
Lemma add_todos_ok s n cs reg : wfst s n -> reg + length cs <= n -> (forall c, c ∈ cs -> c < length p) ->
  exists s', add_todos p cs reg s = Ok s'.
Proof.
  revert s reg. induction cs as [|c cs IH]; intros s reg Hw Hr Hc; cbn [add_todos]; [eauto|]. cbn in Hr.
  destruct (add_todo_ok s n c reg Hw) as [s1 E1]; [lia|apply Hc; left|]. rewrite E1. cbn [mbind res_bind].
  apply (add_todo_spec s n) in E1 as (Hw1 & _); [|done|lia]. apply IH; [done|lia|]. intros; apply Hc; by right.
Qed.
Lemma add_todos_spec s n cs reg s' : wfst s n -> reg + length cs <= n -> add_todos p cs reg s = Ok s' ->
  wfst s' n /\ cs_next s' = cs_next s /\ W (cs_todo s') <= sum_list_with (fun c => size !!! c) cs + W (cs_todo s) /\
  (exists suf, cs_code s' = cs_code s ++ suf) /\
  (forall v i, subst_get (cs_v2r s) v = Some i -> subst_get (cs_v2r s') v = Some i) /\
  (forall v, cov s' v <-> cov s v \/ exists c, c ∈ cs /\ PO c v).
Proof.
  revert s reg. induction cs as [|c cs IH]; intros s reg Hw Hr E; cbn [add_todos] in E.
  - inv_res. split_and!; auto; [exists []; by rewrite app_nil_r|]. intros v. split; [by left|]. intros [?|(c & Hc & _)]; [done|]. by apply elem_of_nil in Hc.
  - cbn in Hr. inv_res. apply (add_todo_spec s n) in H0 as (Hw1 & E1 & W1 & [suf1 C1] & M1 & V1); [|done|lia].
    apply IH in E as (Hw2 & E2 & W2 & [suf2 C2] & M2 & V2); [|done|lia]. split_and!; auto; [congruence|cbn; lia|..].
    + exists (suf1 ++ suf2). by rewrite C2, C1, app_assoc.
    + intros v. rewrite V2, V1. split.
      * intros [[?|HP]|(d & Hdc & HP)]; [by left|right; exists c; split; [left|done]|right; exists d; split; [by right|done]].
      * intros [?|(d & [->|Hdc]%elem_of_cons & HP)]; [by left; left|by left; right|]. right. eauto.
Qed.

(** ** Lookup of ground sub-patterns *)
Lemma ground_spec s n id t b : wfst s n -> Tree p id t -> is_ground_now s id = Ok b ->
  (b = true <-> forall v, occurs v t -> is_Some (subst_get (cs_v2r s) v)).
Proof.
  intros Hw Ht E. unfold is_ground_now in E. rewrite (ws_free _ _ Hw) in E. inv_res.
  destruct (free !! id) as [fv|] eqn:Ef; [|done]. cbn in H0. injection H0 as <-. rewrite forallb_forall. setoid_rewrite <- elem_of_list_In.
  setoid_rewrite elem_of_elements. unfold bound. setoid_rewrite bool_decide_eq_true.
  pose proof (fun v => lo_free _ _ _ Hl _ _ _ v Ht Ef) as HF. split; intros Hx v Hv; apply Hx, HF, Hv.
Qed.
Lemma ground_ok s n id : wfst s n -> id < length p -> exists b, is_ground_now s id = Ok b.
Proof.
  intros Hw Hi. unfold is_ground_now. rewrite (ws_free _ _ Hw).
  destruct (lookup_lt_is_Some_2 free id) as [x ->]; [by rewrite (lo_flen _ _ _ Hl)|]. cbn. eauto.
Qed.
(** The node of the lookup term for a pattern node. *)
Definition code_node (s : cstate) (n : pnode) (x : node + nat) : Prop :=
  match pview n with inl m => x = inl m | inr v => exists k, subst_get (cs_v2r s) v = Some k /\ x = inr k end.
Lemma lookup_code_spec s (e : list pnode) tm : lookup_code s e = Ok tm -> Forall2 (code_node s) e tm.
Proof.
  unfold lookup_code. intros E. destruct (mapM _ e) as [tm'|] eqn:Em; [|done]. cbn in E. injection E as <-.
  apply mapM_Some_1 in Em. eapply Forall2_impl; [exact Em|]. intros n x Hx. unfold code_node. cbn in Hx.
  destruct (pview n); [congruence|]. destruct (subst_get _ _) as [k|]; [|done]. cbn in Hx. exists k. split; [done|congruence].
Qed.
Lemma lookup_code_ok s (e : list pnode) : (forall (n : pnode) v, n ∈ e -> pview n = inr v -> is_Some (subst_get (cs_v2r s) v)) ->
  exists tm, lookup_code s e = Ok tm.
Proof.
  intros He. unfold lookup_code.
  destruct (mapM_Some_2' (fun n => match pview n with inl n => Some (inl n) | inr v => r ← subst_get (cs_v2r s) v; Some (inr r) end) e)
    as (tm & -> & _); [|cbn; eauto].
  intros n Hn. destruct (pview n) as [m|v] eqn:Ev; [eauto|]. destruct (He n v Hn Ev) as [k ->]. cbn. eauto.
Qed.
(** All nodes of an extracted expression. *)
Lemma extract_nodes id t fuel (e : list pnode) : Tree p id t -> rx_extract fuel p id = Ok e ->
  dag e /\ ExprTree e t /\ pat_ok e /\ (forall (n : pnode) v, n ∈ e -> pview n = inr v -> occurs v t).
Proof.
  intros Ht E. destruct (rx_extract_sub _ _ _ _ _ Ht E) as (Hde & HE & HP). split_and!; auto.
  - unfold pat_ok, ExprModel.pnode. apply Forall_forall. intros n [j Hj]%elem_of_list_lookup. pose proof (lookup_lt_Some _ _ _ Hj) as Hlt.
    destruct (dag_Tree e j Hde Hlt) as [u Hu]. pose proof (HP pterm pterm_sub (pterm_Tree _ _ _ Hok Ht) j u Hu) as Hpu.
    inversion Hu as [? op cs ts Hj' Hts]; subst. rewrite Hj in Hj'. injection Hj' as ->. unfold pnode_ok. cbn.
    destruct op; [done|]. inversion Hpu; subst. by inversion Hts.
  - intros n v [j Hj]%elem_of_list_lookup Hv. pose proof (lookup_lt_Some _ _ _ Hj) as Hlt.
    destruct (dag_Tree e j Hde Hlt) as [u Hu].
    assert (Hsub : pterm u /\ forall w, occurs w u -> occurs w t).
    { apply (HP (fun u => pterm u /\ forall w, occurs w u -> occurs w t)) with (j := j); auto.
      - intros op ts [Hp Ho]. apply Forall_forall. intros x Hx. split.
        + pose proof (pterm_sub _ _ Hp) as Hps. rewrite Forall_forall in Hps. auto.
        + intros w Hw. apply Ho. inversion Hp; subst; [by apply elem_of_nil in Hx|]. by econstructor.
      - split; [by eapply pterm_Tree|done]. }
    apply Hsub. inversion Hu as [? op cs ts Hj' Hts]; subst. rewrite Hj in Hj'. injection Hj' as ->.
    apply pview_var in Hv. cbn in Hv. injection Hv as ->. constructor.
Qed.

(** ** Compilation terminates without panic *)
Lemma extract_bound : exists k, forall id, id < length p -> exists e, forall fuel, k <= fuel -> rx_extract fuel p id = Ok e.
Proof.
  assert (Hn : forall n, n <= length p -> exists k, forall id, id < n -> exists e, forall fuel, k <= fuel -> rx_extract fuel p id = Ok e).
  { induction n as [|n IH]; intros Hle; [exists 0; intros; lia|]. destruct IH as [k Hk]; [lia|].
    destruct (dag_Tree p n Hd) as [t Ht]; [lia|]. destruct (rx_extract_spec p n t Ht) as (k' & e & He & _).
    exists (k + k'). intros id Hid. destruct (decide (id = n)) as [->|].
    - exists e. intros. apply He. lia.
    - destruct (Hk id) as [e' He']; [lia|]. exists e'. intros. apply He'. lia. }
  by apply Hn.
Qed.
Lemma compile_loop_total k M : (forall id, id < length p -> exists e, forall fuel, k <= fuel -> rx_extract fuel p id = Ok e) ->
  forall s n, wfst s n -> W (cs_todo s) <= M -> exists r, forall fuel, k + M < fuel -> compile_loop ord fuel p n s = Ok r.
Proof.
  intros Hk. induction (lt_wf M) as [M _ IH]. intros s n Hw HM.
  destruct (next_todo_ok s n Hw) as [[Et En]|(id & reg & m & Hm & En)].
  { exists (s, n). intros [|fuel] Hf; [lia|]. cbn [compile_loop]. rewrite En. done. }
  destruct (ws_todo _ _ Hw _ _ _ Hm) as [Hreg Hp]. pose proof (lookup_lt_Some _ _ _ Hp) as Hid.
  set (s1 := set_todo (delete (id, reg) (cs_todo s)) s) in *.
  assert (Hw1 : wfst s1 n).
  { split; try apply Hw. cbn. intros id' reg' m' [_ Hm']%lookup_delete_Some. by eapply ws_todo. }
  pose proof (W_delete _ _ _ Hm) as HW. cbn [fst] in HW.
  destruct (lookup_lt_is_Some_2 size id) as [z Hz]; [by rewrite (lo_slen _ _ _ Hl)|].
  pose proof (lo_size _ _ _ Hl _ _ _ _ Hp Hz) as Hz'. rewrite (list_lookup_total_correct _ _ _ Hz) in HW.
  destruct (dag_Tree p id Hd Hid) as [t Ht].
  destruct (ground_ok s1 n id Hw1 Hid) as [b Eb]. pose proof (ground_spec s1 n id t b Hw1 Ht Eb) as Hb.
  destruct (b && negb (length (nch m) =? 0)) eqn:Ebb.
  - apply andb_true_iff in Ebb as [-> Hnz]. destruct (Hk id Hid) as [e He].
    destruct (extract_nodes id t k e Ht (He k ltac:(lia))) as (_ & _ & _ & Hv).
    destruct (lookup_code_ok s1 e) as [tm Etm]; [intros nd v Hin Hpv; apply Hb; [done|by eapply Hv]|].
    destruct (IH (M - 1)) with (s := push (ILookup tm reg) s1) (n := n) as [r Hr]; [lia| |cbn; lia|].
    { split; apply Hw1. }
    exists r. intros [|fuel] Hf; [lia|]. cbn [compile_loop]. rewrite En. cbn [mbind res_bind]. rewrite Eb. cbn [mbind res_bind].
    rewrite Hnz. cbn [andb]. rewrite He by lia. cbn [mbind res_bind]. rewrite Etm. cbn [mbind res_bind]. apply Hr. lia.
  - set (s2 := push (IBind (Node (nop m) ((fun _ => 0) <$> nch m)) reg n) s1).
    assert (Hw2 : wfst s2 (n + length (nch m))) by (apply wfst_mono with n; [split; apply Hw1|lia]).
    destruct (add_todos_ok s2 _ (nch m) n Hw2) as [s3 E3]; [lia|intros c Hc; pose proof (Hd _ _ _ Hp Hc); lia|].
    destruct (add_todos_spec _ _ _ _ _ Hw2 (le_n _) E3) as (Hw3 & _ & W3 & _).
    change (cs_todo s2) with (delete (id, reg) (cs_todo s)) in W3.
    destruct (IH (M - 1)) with (s := s3) (n := n + length (nch m)) as [r Hr]; [lia|done|lia|].
    exists r. intros [|fuel] Hf; [lia|]. cbn [compile_loop]. rewrite En. cbn [mbind res_bind]. rewrite Eb. cbn [mbind res_bind].
    rewrite Ebb. fold s2. rewrite E3. cbn [mbind res_bind]. apply Hr. lia.
Qed.
End compile.

(** * Exactness of compiled code *)
Section compile_exact.
Context {Op D : Type} `{Countable Op}.
Notation node := (node Op).
Notation pnode := (EGraphModel.node (pop Op)).
Notation instr := (instr Op).
Notation egraph := (egraph Op D).
Notation cstate := (cstate (Op := Op)).
Implicit Types (t u : term (pop Op)) (sg : nat -> option nat) (r : list nat).
Context (ord : gmap (nat * nat) node -> list (nat * nat)) (Hord : enumerates_keys ord).
Context (L : lang Op) (it : gset nat -> list nat) (Hit : enumerates it) (g : egraph) (G : settled L g).

Lemma PRep_fun sg t x y : PRep g sg t x -> PRep g sg t y -> x = y.
Proof.
  destruct G as [I Ep Ls _]. rewrite <- !NRep_PRep by done. by apply NRep_fun_clean.
Qed.

Section pat.
Context (p : list pnode) (Hd : dag p) (Hok : pat_ok p) (free : list (gset nat)) (size : list nat) (Hl : loaded p free size).
Notation wfst := (wfst p free size).

(** The sub-pattern [id] matches class [x]. *)
Definition PR sg (id x : nat) : Prop := exists t, Tree p id t /\ PRep g sg t x.
Lemma PR_var sg id v cs x : p !! id = Some (Node (PVar v) cs) -> (PR sg id x <-> exists i, sg v = Some i /\ x = eg_find g i).
Proof.
  intros Hp. split.
  - intros (t & Ht & Hr). inversion Ht as [? op cs' ts Hi Hts]; subst. rewrite Hp in Hi. injection Hi as <- <-.
    inversion Hr; subst. eauto.
  - intros (i & Hi & ->). destruct (dag_Tree p id Hd) as [t Ht]; [by eapply lookup_lt_Some|]. exists t. split; [done|].
    inversion Ht as [? op cs' ts Hi' Hts]; subst. rewrite Hp in Hi'. injection Hi' as <- <-. by constructor.
Qed.
Lemma PR_node sg id f cs x : p !! id = Some (Node (POp f) cs) ->
  (PR sg id x <-> exists c ds, eg_classes g !! x = Some c /\ Node f ds ∈ c_nodes c /\
     Forall2 (fun c d => PR sg c (eg_find g d)) cs ds).
Proof.
  intros Hp. split.
  - intros (t & Ht & Hr). inversion Ht as [? op cs' ts Hi Hts]; subst. rewrite Hp in Hi. injection Hi as <- <-.
    inversion Hr as [|? ? ds ? c Hc Hn Hf]; subst. exists c, ds. split_and!; auto.
    apply Forall2_same_length_lookup. split; [by rewrite (Forall2_length _ _ _ Hts), (Forall2_length _ _ _ Hf)|].
    intros q a b Ha Hb. destruct (Forall2_lookup_l _ _ _ _ _ Hts Ha) as (u & Hu & Hau). exists u. split; [done|].
    by eapply (Forall2_lookup_lr _ _ _ _ _ _ Hf).
  - intros (c & ds & Hc & Hn & Hf). destruct (dag_Tree p id Hd) as [t Ht]; [by eapply lookup_lt_Some|]. exists t. split; [done|].
    inversion Ht as [? op cs' ts Hi' Hts]; subst. rewrite Hp in Hi'. injection Hi' as <- <-. econstructor; [done|done|].
    apply Forall2_same_length_lookup. split; [by rewrite <- (Forall2_length _ _ _ Hts), (Forall2_length _ _ _ Hf)|].
    intros q u b Hu Hb. destruct (Forall2_lookup_r _ _ _ _ _ Hts Hu) as (a & Ha & Hau).
    destruct (Forall2_lookup_lr _ _ _ _ _ _ Hf Ha Hb) as (u' & Hu' & Hr). by rewrite (TreeOf_fun _ _ _ _ Hau Hu').
Qed.
Lemma PR_fun sg id x y : PR sg id x -> PR sg id y -> x = y.
Proof. intros (t & Ht & Hx) (t' & Ht' & Hy). rewrite <- (TreeOf_fun _ _ _ _ Ht Ht') in Hy. by eapply PRep_fun. Qed.

(** Solutions of a compiler state. *)
Definition compat (s : cstate) sg r : Prop :=
  agrees g (cs_v2r s) r sg /\
  forall id reg m, cs_todo s !! (id, reg) = Some m -> PR sg id (eg_find g (r !!! reg)).

Lemma add_todo_exact s n id reg s' suf (K : (nat -> option nat) -> list nat -> Prop) code vf nf :
  wfst s n -> reg < n -> add_todo p id reg s = Ok s' -> cs_code s' = cs_code s ++ suf ->
  exact it g (fun sg r => compat s' sg r /\ K sg r) n code vf nf ->
  exact it g (fun sg r => (compat s sg r /\ PR sg id (eg_find g (r !!! reg))) /\ K sg r) n (suf ++ code) vf nf.
Proof.
  intros Hw Hr E Hsuf Hex. unfold add_todo, ExprModel.pnode in E. inv_res. destruct (p !! id) as [nd|] eqn:Ep; [|done].
  cbn in H0. injection H0 as <-. destruct (pview nd) as [m|v] eqn:Epv.
  - inv_res. cbn in Hsuf. symmetry in Hsuf. rewrite <- (app_nil_r (cs_code s)) in Hsuf at 2. apply app_inv_head in Hsuf as ->.
    cbn [app]. eapply exact_iff; [|exact Hex]. intros sg r Hlr Hk Hc. cbv beta. unfold compat. cbn [cs_v2r cs_todo set_todo]. split.
    + intros [[Ha Ht] HK]. split_and!; auto.
      * intros id' reg' m' Hm. destruct (decide ((id, reg) = (id', reg'))) as [[= <- <-]|Hne].
        -- eapply (Ht id reg m). by rewrite lookup_insert.
        -- eapply Ht. rewrite lookup_insert_ne; [exact Hm|done].
      * eapply (Ht id reg m). by rewrite lookup_insert.
    + intros [[[Ha Ht] HP] HK]. split_and!; auto. intros id' reg' m' Hm.
      apply lookup_insert_Some in Hm as [[[= <- <-] <-]|[_ Hm]]; [done|by eapply Ht].
  - destruct nd as [op cs]. apply pview_var in Epv. cbn in Epv. injection Epv as ->. destruct (subst_get (cs_v2r s) v) as [j|] eqn:Ev; inv_res.
    + cbn in Hsuf. apply app_inv_head in Hsuf as <-. cbn [app].
      assert (Hj : j < n).
      { pose proof (ws_v2r _ _ _ _ _ Hw) as Hv. rewrite Forall_forall in Hv. apply (Hv (v, j)). by apply subst_get_elem. }
      eapply exact_iff; [|apply exact_compare; [exact Hr|exact Hj|exact Hex]]. intros sg r Hlr Hk Hc. cbv beta.
      unfold compat. cbn [cs_v2r cs_todo push]. split.
      * intros (Eq & [Ha Ht] & HK). split_and!; auto. eapply PR_var; [exact Ep|].
        destruct (Ha v j Ev) as (x & Hx & Hs). rewrite (list_lookup_total_correct _ _ _ Hx) in Eq.
        exists (eg_find g x). split; [done|]. rewrite Eq. symmetry. apply Inv_find_idem, G.
      * intros [[[Ha Ht] HP] HK]. split_and!; auto. eapply PR_var in HP as (i & Hi & ->); [|exact Ep].
        destruct (Ha v j Ev) as (x & Hx & Hs). rewrite (list_lookup_total_correct _ _ _ Hx).
        rewrite Hs in Hi. injection Hi as <-. apply Inv_find_idem, G.
    + cbn in Hsuf. symmetry in Hsuf. rewrite <- (app_nil_r (cs_code s)) in Hsuf at 2. apply app_inv_head in Hsuf as ->.
      cbn [app]. eapply exact_iff; [|exact Hex]. intros sg r Hlr Hk Hc. cbv beta. unfold compat. cbn [cs_v2r cs_todo set_v2r].
      assert (Hrr : r !! reg = Some (r !!! reg)) by (apply list_lookup_lookup_total_lt; lia).
      assert (HPR : PR sg id (eg_find g (r !!! reg)) <-> sg v = Some (eg_find g (r !!! reg))).
      { rewrite PR_var by exact Ep. split.
        - intros (i & Hi & Eq). rewrite Hi, Eq. f_equal. symmetry. apply (Hc v i Hi).
        - intros Hv. exists (eg_find g (r !!! reg)). split; [done|]. symmetry. apply Inv_find_idem, G. }
      rewrite HPR. assert (Hag : agrees g (subst_insert (cs_v2r s) v reg).1 r sg <->
        agrees g (cs_v2r s) r sg /\ sg v = Some (eg_find g (r !!! reg))).
      { unfold agrees. setoid_rewrite subst_get_insert. split.
        - intros Ha. split.
          + intros w i Hi. apply Ha. destruct (decide (v = w)) as [->|]; [congruence|done].
          + destruct (Ha v reg) as (x & Hx & Hs); [by rewrite decide_True|]. by rewrite (list_lookup_total_correct _ _ _ Hx).
        - intros [Ha Hs] w i. destruct (decide (v = w)) as [<-|]; [|by apply Ha]. intros [= <-]. eauto. }
      rewrite Hag. tauto.
Qed.
Lemma add_todos_exact s n cs reg s' suf (K : (nat -> option nat) -> list nat -> Prop) code vf nf :
  wfst s n -> reg + length cs <= n -> add_todos p cs reg s = Ok s' -> cs_code s' = cs_code s ++ suf ->
  exact it g (fun sg r => compat s' sg r /\ K sg r) n code vf nf ->
  exact it g (fun sg r => (compat s sg r /\ forall j c, cs !! j = Some c -> PR sg c (eg_find g (r !!! (reg + j)))) /\ K sg r) n (suf ++ code) vf nf.
Proof.
  revert s reg suf K. induction cs as [|c cs IH]; intros s reg suf K Hw Hr E Hsuf Hex; cbn [add_todos] in E.
  - inv_res. rewrite <- (app_nil_r (cs_code s')) in Hsuf at 1. apply app_inv_head in Hsuf as <-. cbn [app].
    eapply exact_iff; [|exact Hex]. intros sg r _ _ _. cbv beta. split; [|tauto]. intros [? ?]. split_and!; auto. intros j c Hj. done.
  - cbn in Hr. inv_res. rename x into s1.
    destruct (add_todo_spec p Hd free size s n c reg s1) as (Hw1 & _ & _ & [suf1 C1] & _); [done|lia|done|].
    destruct (add_todos_spec p Hd free size s1 n cs (S reg) s') as (Hw2 & _ & _ & [suf2 C2] & _); [done|lia|done|].
    assert (suf = suf1 ++ suf2) as ->.
    { rewrite C2, C1, <- app_assoc in Hsuf. by apply app_inv_head in Hsuf. }
    rewrite <- app_assoc. eapply exact_iff; [|eapply (add_todo_exact s n c reg s1 suf1); [done|lia|done|done|]].
    2: { eapply exact_iff; [|eapply (IH s1 (S reg) suf2 K); [done|lia|done|done|exact Hex]].
         intros sg r _ _ _. cbv beta.
         instantiate (1 := fun sg r => (forall j c, cs !! j = Some c -> PR sg c (eg_find g (r !!! (S reg + j)))) /\ K sg r). cbv beta. tauto. }
    intros sg r _ _ _. cbv beta. split.
    + intros [[Hc HP] [HPs HK]]. split_and!; auto. intros [|j] d Hj; cbn in Hj.
      * injection Hj as <-. by rewrite Nat.add_0_r.
      * rewrite Nat.add_succ_r. by apply HPs.
    + intros [[Hc HPs] HK]. split_and!; auto.
      * specialize (HPs 0 c eq_refl). by rewrite Nat.add_0_r in HPs.
      * intros j d Hj. specialize (HPs (S j) d Hj). by rewrite Nat.add_succ_r in HPs.
Qed.

(** ** Ground sub-patterns *)
Lemma lookup_term_spec s (e0 e : list pnode) tm r sg ids :
  dag e0 -> Forall2 (code_node s) e tm -> agrees g (cs_v2r s) r sg -> csub g sg -> Forall (known g) r ->
  (exists pre, e0 = pre ++ e /\ length pre = length ids) ->
  (forall j i, ids !! j = Some i -> exists u, Tree e0 j u /\ PRep g sg u i) ->
  (exists ids', lookup_term g r tm ids = Ok (Some ids') /\ length ids' = length e0 /\
     forall j i, ids' !! j = Some i -> exists u, Tree e0 j u /\ PRep g sg u i) \/
  (lookup_term g r tm ids = Ok None /\ exists j u, Tree e0 j u /\ forall x, ~ PRep g sg u x).
Proof.
  intros Hde Hf Hag Hcs Hk. pose proof G as [I Ep Ls _]. revert ids.
  induction Hf as [|nd x e tm Hx Hf IH]; intros ids (pre & Hpre & Hlp) Hids; cbn [lookup_term].
  { left. exists ids. split_and!; auto. rewrite app_nil_r in Hpre. by subst. }
  assert (Hp : e0 !! length ids = Some nd) by (rewrite Hpre, <- Hlp; by apply list_lookup_middle).
  assert (Hnext : forall i u, Tree e0 (length ids) u -> PRep g sg u i ->
    (exists pre', e0 = pre' ++ e /\ length pre' = length (ids ++ [i])) /\
    forall j k, (ids ++ [i]) !! j = Some k -> exists u, Tree e0 j u /\ PRep g sg u k).
  { intros i u Hu Hr. split.
    - exists (pre ++ [nd]). rewrite <- app_assoc, !app_length. cbn. split; [done|lia].
    - intros j k Hj. apply lookup_app_Some in Hj as [Hj|[Hge Hj]]; [by apply Hids|].
      apply list_lookup_singleton_Some in Hj as [E <-]. assert (j = length ids) as -> by lia. eauto. }
  destruct nd as [[f|v] cs]; unfold code_node in Hx; cbn [pview nop nch] in Hx.
  - subst x. destruct (mapM_Some_2' (fun c => ids !! c) cs) as (ds & Em & Hds).
    { intros c Hc. apply lookup_lt_is_Some_2. by eapply Hde. }
    unfold map_children_o. cbn [nop nch]. rewrite Em. cbn [expect mbind res_bind].
    assert (Hts : exists ts, Forall2 (Tree e0) cs ts /\ Forall2 (fun u x => PRep g sg u x) ts ds).
    { clear -Hds Hids. induction Hds as [|c d cs ds Hc _ (ts & H1 & H2)]; [by exists []|].
      destruct (Hids _ _ Hc) as (t & Ht & Hr). exists (t :: ts). split; by constructor. }
    destruct Hts as (ts & Ht1 & Ht2).
    assert (Hlt : forall d, d ∈ ds -> known g d /\ eg_find g d = d).
    { intros d Hin. destruct (elem_of_list_lookup_1 _ _ Hin) as [q Hq].
      destruct (Forall2_lookup_r _ _ _ _ _ Ht2 Hq) as (t & _ & Hr). cbn in Hr. split.
      - apply (NRep_lt g sg t d I); [|by apply NRep_PRep]. intros v i Hv. apply (Hcs v i Hv).
      - by eapply PRep_canon. }
    assert (forallb (valid_id g) ds = true) as Hv.
    { apply forallb_forall. intros d Hin%elem_of_list_In. apply Nat.ltb_lt. by apply Hlt. }
    unfold lookup_res. cbn [nch]. rewrite Hv. cbn [mbind res_bind].
    assert (Ht3 : Forall2 (fun t x => NRep g sg t (eg_find g x)) ts ds).
    { apply Forall2_same_length_lookup in Ht2 as [El Ht2].
      apply Forall2_same_length_lookup. split; [done|]. intros q t d Ht Hdq. cbn.
      rewrite (proj2 (Hlt d (elem_of_list_lookup_2 _ _ _ Hdq))). apply NRep_PRep; auto. by eapply Ht2. }
    assert (HT : Tree e0 (length ids) (TNode (POp f) ts)) by (by econstructor).
    pose proof (fun y => lookup_NRep g sg f ds _ y I Ep Ht3) as HL.
    destruct (eg_lookup g (Node f ds)) as [i|] eqn:El.
    + assert (Hr : PRep g sg (TNode (POp f) ts) i) by (apply NRep_PRep; auto; by apply HL).
      destruct (Hnext i _ HT Hr). by apply IH.
    + right. split; [done|]. exists (length ids), (TNode (POp f) ts). split; [done|]. intros y Hy.
      apply NRep_PRep in Hy; auto. by apply HL in Hy.
  - destruct Hx as (k & Hv & ->). destruct (Hag v k Hv) as (x & Hx & Hs). rewrite Hx. cbn [expect mbind res_bind].
    rewrite find_res_known by (by eapply (Forall_lookup_1 _ _ _ _ Hk Hx)). cbn [mbind res_bind].
    destruct (dag_Tree e0 (length ids) Hde) as [u Hu]; [by eapply lookup_lt_Some|].
    assert (Hr : PRep g sg u (eg_find g x)).
    { inversion Hu as [? op cs' ts Hi' Hts]; subst u. rewrite Hp in Hi'. injection Hi' as <- <-.
      rewrite <- (Inv_find_idem g x I). by constructor. }
    destruct (Hnext _ _ Hu Hr). by apply IH.
Qed.
Lemma PRep_sub sg f ts : pterm (TNode f ts) -> (exists x, PRep g sg (TNode f ts) x) -> Forall (fun u => exists x, PRep g sg u x) ts.
Proof.
  intros Hp [x Hx]. inversion Hx as [v ? i Hv|? ? cs ? c Hc Hn Hf]; subst.
  - inversion Hp; subst. constructor.
  - apply Forall_forall. intros u [q Hq]%elem_of_list_lookup. destruct (Forall2_lookup_l _ _ _ _ _ Hf Hq) as (y & _ & Hy). eauto.
Qed.
Lemma lookup_passes s id t fuel e tm r sg y : Tree p id t -> rx_extract fuel p id = Ok e -> lookup_code s e = Ok tm ->
  agrees g (cs_v2r s) r sg -> csub g sg -> Forall (known g) r ->
  ((exists ids, lookup_term g r tm [] = Ok (Some ids) /\ last ids = Some y) <-> PR sg id y).
Proof.
  intros Ht Ee Etm Hag Hcs Hk. destruct (rx_extract_sub _ _ _ _ _ Ht Ee) as (Hde & [Hne HE] & HP).
  apply lookup_code_spec in Etm.
  destruct (lookup_term_spec s e e tm r sg [] Hde Etm Hag Hcs Hk) as [(ids & El & Hli & Hids)|(El & j & u & Hu & Hno)].
  - by exists [].
  - intros j i Hj. done.
  - assert (Hroot : exists y0, last ids = Some y0 /\ PRep g sg t y0).
    { rewrite last_lookup. destruct (lookup_lt_is_Some_2 ids (Nat.pred (length ids))) as [y0 Hy0].
      { destruct e; [done|]. cbn in Hli. lia. }
      exists y0. split; [done|]. destruct (Hids _ _ Hy0) as (u & Hu & Hr). rewrite Hli in Hu.
      replace (Nat.pred (length e)) with (length e - 1) in Hu by lia. by rewrite (TreeOf_fun _ _ _ _ HE Hu). }
    destruct Hroot as (y0 & Ey0 & Hy0). split.
    + intros (ids' & E' & Ey). rewrite El in E'. injection E' as <-. rewrite Ey0 in Ey. injection Ey as <-. by exists t.
    + intros HPR. exists ids. split; [done|]. rewrite Ey0. f_equal. eapply PR_fun; [|exact HPR]. by exists t.
  - split.
    + intros (ids & E' & _). congruence.
    + intros (t' & Ht' & Hr). rewrite <- (TreeOf_fun _ _ _ _ Ht Ht') in Hr. exfalso.
      assert (Hsub : pterm u /\ exists x, PRep g sg u x).
      { apply (HP (fun u => pterm u /\ exists x, PRep g sg u x)) with (j := j); auto.
        - intros f ts [Hp Hx]. pose proof (pterm_sub _ _ Hp) as H1. pose proof (PRep_sub sg f ts Hp Hx) as H2.
          rewrite Forall_forall in H1, H2. apply Forall_forall. auto.
        - split; [by eapply pterm_Tree|eauto]. }
      destruct Hsub as [_ [x Hx]]. by eapply Hno.
Qed.
Lemma wf_term_ok s n (e0 e : list pnode) tm : Forall (fun '(v, k) => k < n) (cs_v2r s) -> dag e0 -> Forall2 (code_node s) e tm ->
  forall pre, e0 = pre ++ e -> wf_term n (length pre) tm.
Proof.
  intros Hv Hde Hf. induction Hf as [|nd x e tm Hx Hf IH]; intros pre Hpre; [done|].
  assert (Hp : e0 !! length pre = Some nd) by (rewrite Hpre; by apply list_lookup_middle).
  specialize (IH (pre ++ [nd])). rewrite <- app_assoc, app_length, Nat.add_1_r in IH. specialize (IH Hpre).
  destruct nd as [[f|v] cs]; unfold code_node in Hx; cbn [pview nop nch] in Hx.
  - subst x. cbn. split; [|done]. intros c Hc. by eapply Hde.
  - destruct Hx as (k & Hk & ->). cbn. split; [|done]. rewrite Forall_forall in Hv. apply (Hv (v, k)). by apply subst_get_elem.
Qed.

Lemma agrees_app n vf r r' sg : Forall (fun '(v, k) => k < n) vf -> length r = n -> (agrees g vf (r ++ r') sg <-> agrees g vf r sg).
Proof.
  intros Hvf Hlr. unfold agrees. split; intros Ha v i Hi; destruct (Ha v i Hi) as (x & Hx & Hs); exists x; (split; [|done]).
  - rewrite Forall_forall in Hvf. specialize (Hvf _ (subst_get_elem _ _ _ Hi)). cbn in Hvf. by rewrite lookup_app_l in Hx by lia.
  - by apply lookup_app_l_Some.
Qed.
Lemma compat_app s n r r' sg : wfst s n -> length r = n -> (compat s sg (r ++ r') <-> compat s sg r).
Proof.
  intros Hw Hlr. unfold compat. rewrite (agrees_app n) by (done || apply Hw).
  assert (Ht : forall id reg m, cs_todo s !! (id, reg) = Some m -> (r ++ r') !!! reg = r !!! reg).
  { intros id reg m Hm. destruct (ws_todo _ _ _ _ _ Hw _ _ _ Hm) as [Hr _]. by rewrite lookup_total_app_l by lia. }
  split; intros [Ha HP]; split; auto; intros id reg m Hm; specialize (HP id reg m Hm); [by rewrite (Ht id reg m) in HP|by rewrite (Ht id reg m)].
Qed.

(** ** The main loop *)
Lemma compile_loop_spec fuel s n sf nf : wfst s n -> compile_loop ord fuel p n s = Ok (sf, nf) ->
  wfst sf nf /\ cs_todo sf = ∅ /\ cs_next sf = cs_next s /\ n <= nf /\
  (forall v i, subst_get (cs_v2r s) v = Some i -> subst_get (cs_v2r sf) v = Some i) /\
  (forall v, is_Some (subst_get (cs_v2r sf) v) <-> cov p s v) /\
  exists suf, cs_code sf = cs_code s ++ suf /\
    forall (K : (nat -> option nat) -> Prop) code vf n', exact it g (fun sg r => agrees g (cs_v2r sf) r sg /\ K sg) nf code vf n' ->
      exact it g (fun sg r => compat s sg r /\ K sg) n (suf ++ code) vf n'.
Proof.
  revert s n. induction fuel as [|fuel IH]; intros s n Hw E; [done|].
  destruct (next_todo_ok ord Hord p free size Hl s n Hw) as [[Et En]|(id & reg & m & Hm & En)];
    cbn [compile_loop] in E; rewrite En in E; cbn [mbind res_bind] in E.
  { injection E as <- <-. split_and!; auto.
    - intros v. unfold cov. rewrite Et. split; [by left|]. intros [?|(id & reg & m & Hm & _)]; [done|]. by rewrite lookup_empty in Hm.
    - exists []. rewrite app_nil_r. split; [done|]. intros K code vf n' Hex. cbn [app].
      eapply exact_iff; [|exact Hex]. intros sg r _ _ _. cbv beta. unfold compat. rewrite Et. split; [|tauto].
      intros [? ?]. split_and!; auto. intros id reg m Hm. by rewrite lookup_empty in Hm. }
  destruct (ws_todo _ _ _ _ _ Hw _ _ _ Hm) as [Hreg Hp]. pose proof (lookup_lt_Some _ _ _ Hp) as Hid.
  set (s1 := set_todo (delete (id, reg) (cs_todo s)) s) in *.
  assert (Hw1 : wfst s1 n).
  { split; try apply Hw. cbn. intros id' reg' m' [_ Hm']%lookup_delete_Some. by eapply ws_todo. }
  destruct (dag_Tree p id Hd Hid) as [t Ht].
  assert (HPO : forall v, PO p id v <-> occurs v t).
  { intros v. split; [intros (t' & Ht' & Ho); by rewrite (TreeOf_fun _ _ _ _ Ht Ht')|intros; by exists t]. }
  assert (Hcov : forall v, cov p s v <-> cov p s1 v \/ PO p id v).
  { intros v. unfold cov. cbn. split.
    - intros [?|(id' & reg' & m' & Hm' & HP)]; [by left; left|]. destruct (decide ((id, reg) = (id', reg'))) as [[= <- <-]|Hne]; [by right|].
      left. right. exists id', reg', m'. by rewrite lookup_delete_ne.
    - intros [[?|(id' & reg' & m' & [_ Hm']%lookup_delete_Some & HP)]|HP]; [by left|right; eauto..]. }
  assert (Hcompat : forall sg r, compat s sg r <-> compat s1 sg r /\ PR sg id (eg_find g (r !!! reg))).
  { intros sg r. unfold compat. cbn. split.
    - intros [Ha HP]. split_and!; auto; [|by eapply HP]. intros id' reg' m' [_ Hm']%lookup_delete_Some. by eapply HP.
    - intros [[Ha HP] Hx]. split; [done|]. intros id' reg' m' Hm'. destruct (decide ((id, reg) = (id', reg'))) as [[= <- <-]|Hne]; [done|].
      eapply HP. rewrite lookup_delete_ne; [exact Hm'|done]. }
  destruct (ground_ok p free size Hl s1 n id Hw1 Hid) as [b Eb]. rewrite Eb in E. cbn [mbind res_bind] in E.
  pose proof (ground_spec p free size Hl s1 n id t b Hw1 Ht Eb) as Hb.
  destruct (b && negb (length (nch m) =? 0)) eqn:Ebb.
  - apply andb_true_iff in Ebb as [-> _].
    destruct (rx_extract (S fuel) p id) as [e| |] eqn:Ee; [|done|done]. cbn [mbind res_bind] in E.
    destruct (lookup_code s1 e) as [tm| |] eqn:Etm; [|done|done]. cbn [mbind res_bind] in E.
    assert (Hw2 : wfst (push (ILookup tm reg) s1) n) by (split; apply Hw1).
    destruct (IH _ _ Hw2 E) as (Hwf & Htf & Hnf & Hle & Hm2 & Hcv & suf & Hc & Hex). split_and!; auto.
    + intros v. rewrite Hcv, Hcov. unfold cov. cbn. split; [by left|]. intros [?|HP]; [done|]. left. apply Hb; [done|by apply HPO].
    + exists (ILookup tm reg :: suf). rewrite Hc. cbn. rewrite <- app_assoc. split; [done|].
      intros K code vf n' Hx. specialize (Hex K code vf n' Hx). cbn [app].
      assert (Hwt : wf_term n 0 tm).
      { destruct (extract_nodes p Hok id t _ e Ht Ee) as (Hde & _). 
        apply (wf_term_ok s1 n e e tm (ws_v2r _ _ _ _ _ Hw1) Hde) with (pre := []); [by apply lookup_code_spec|done]. }
      eapply exact_iff; [|apply exact_lookup; [exact Hreg|exact Hwt|exact Hex]].
      intros sg r Hlr Hk Hcs. cbv beta. rewrite Hcompat.
      assert (Hc2 : compat (push (ILookup tm reg) s1) sg r <-> compat s1 sg r) by done. rewrite Hc2.
      split.
      * intros (Hpass & Hcm & HK). split_and!; auto. eapply lookup_passes in Hpass; eauto. apply Hcm.
      * intros [[Hcm HP] HK]. split_and!; auto. eapply lookup_passes; eauto. apply Hcm.
  - set (s2 := push (IBind (Node (nop m) ((fun _ => 0) <$> nch m)) reg n) s1) in *.
    assert (Hw2n : wfst s2 n) by (split; apply Hw1).
    assert (Hw2 : wfst s2 (n + length (nch m))) by (apply wfst_mono with n; [done|lia]).
    destruct (add_todos p (nch m) n s2) as [s3| |] eqn:E3; [|done|done]. cbn [mbind res_bind] in E.
    destruct (add_todos_spec p Hd free size _ _ _ _ _ Hw2 (le_n _) E3) as (Hw3 & Hn3 & _ & [suf3 C3] & M3 & V3).
    destruct (IH _ _ Hw3 E) as (Hwf & Htf & Hnf & Hle & Hm2 & Hcv & suf & Hc & Hex). split_and!; auto.
    + by rewrite Hnf, Hn3.
    + lia.
    + intros v. rewrite Hcv, V3, Hcov.
      assert (Hpo : (exists c, c ∈ nch m /\ PO p c v) <-> PO p id v).
      { rewrite HPO. inversion Ht as [? op cs ts Hi Hts]; subst. rewrite Hp in Hi. injection Hi as <- <-. rewrite occurs_op. split.
        - intros (c & [q Hq]%elem_of_list_lookup & (t' & Ht' & Ho)). destruct (Forall2_lookup_l _ _ _ _ _ Hts Hq) as (u & Hu & Hcu).
          exists u. split; [by eapply elem_of_list_lookup_2|]. by rewrite (TreeOf_fun _ _ _ _ Hcu Ht').
        - intros (u & [q Hq]%elem_of_list_lookup & Ho). destruct (Forall2_lookup_r _ _ _ _ _ Hts Hq) as (c & Hcq & Hcu).
          exists c. split; [by eapply elem_of_list_lookup_2|]. by exists u. }
      by rewrite Hpo.
    + exists (IBind (Node (nop m) ((fun _ => 0) <$> nch m)) reg n :: suf3 ++ suf). split.
      { rewrite Hc, C3. unfold s2. cbn. by rewrite <- !app_assoc. }
      intros K code vf n' Hx. specialize (Hex K code vf n' Hx). rewrite <- app_comm_cons, <- app_assoc.
      pose proof (add_todos_exact s2 _ (nch m) n s3 suf3 (fun sg _ => K sg) _ _ _ Hw2 (le_n _) E3 C3 Hex) as Hex2.
      set (C := fun sg r => (compat s2 sg r /\ forall j c, nch m !! j = Some c -> PR sg c (eg_find g (r !!! (n + j)))) /\ K sg) in *.
      assert (Hmatch : forall r a, a ∈ matches_of (Node (nop m) ((fun _ => 0) <$> nch m)) (cls g (r !!! reg)) <->
        exists c ds, eg_classes g !! eg_find g (r !!! reg) = Some c /\ a = Node (nop m) ds /\ a ∈ c_nodes c /\ length ds = length (nch m)).
      { intros r [f ds]. unfold matches_of, node_matches. rewrite elem_of_list_filter. cbn [nop nch]. rewrite fmap_length, andb_true_iff, bool_decide_eq_true, Nat.eqb_eq.
        unfold cls. destruct (eg_classes g !! eg_find g (r !!! reg)) as [c|] eqn:Ec.
        - split.
          + intros [[<- El] Hin]. by exists c, ds.
          + intros (c' & ds' & [= <-] & [= -> ->] & Hin & El). done.
        - split; [intros [_ Hin]; by apply elem_of_nil in Hin|]. intros (c & ds' & Hc' & _). done. }
      assert (Hch : forall sg r ds, length r = n -> length ds = length (nch m) ->
        (forall j c, nch m !! j = Some c -> PR sg c (eg_find g ((r ++ ds) !!! (n + j)))) <-> Forall2 (fun c d => PR sg c (eg_find g d)) (nch m) ds).
      { intros sg r ds Hlr Hlds. rewrite Forall2_same_length_lookup. split.
        - intros HP. split; [done|]. intros j c d Hj Hdj. specialize (HP j c Hj). rewrite lookup_total_app_r in HP by lia.
          rewrite Hlr in HP. replace (n + j - n) with j in HP by lia. by rewrite (list_lookup_total_correct _ _ _ Hdj) in HP.
        - intros [_ HP] j c Hj. rewrite lookup_total_app_r by lia. rewrite Hlr. replace (n + j - n) with j by lia.
          destruct (lookup_lt_is_Some_2 ds j) as [d Hdj]; [rewrite Hlds; by eapply lookup_lt_Some|].
          rewrite (list_lookup_total_correct _ _ _ Hdj). by eapply HP. }
      eapply exact_iff; [|apply (exact_bind L it Hit g G C n (Node (nop m) ((fun _ => 0) <$> nch m)) reg); [exact Hreg| | |]].
      * intros sg r Hlr Hk Hcs. cbv beta. rewrite Hcompat, (PR_node sg id _ _ _ Hp). split.
        -- intros (a & Ha & [Hcm HP] & HK). apply Hmatch in Ha as (c & ds & Hc' & -> & Hin & Hld). cbn [nch] in *.
           apply (compat_app s2 n) in Hcm; [|done|done]. split_and!; auto. exists c, ds. split_and!; auto. by apply (Hch sg r).
        -- intros [[Hcm (c & ds & Hc' & Hin & Hf)] HK]. pose proof (Forall2_length _ _ _ Hf) as Hld.
           exists (Node (nop m) ds). split; [apply Hmatch; exists c, ds; split_and!; auto|]. unfold C. cbn [nch]. split_and!; auto.
           ++ by apply (compat_app s2 n).
           ++ by apply Hch.
      * cbn. apply Forall_forall. intros c (? & -> & _)%elem_of_list_fmap. done.
      * intros sg r a b' Hlr Hk Hcs Ha Hb' [[_ HPa] _] [[_ HPb] _].
        pose proof Ha as Ha0. pose proof Hb' as Hb0.
        apply Hmatch in Ha as (c1 & da & _ & -> & _ & Hla). apply Hmatch in Hb' as (c2 & db & _ & -> & _ & Hlb). cbn [nch] in *.
        apply (Hch sg r) in HPa; [|done|done]. apply (Hch sg r) in HPb; [|done|done]. f_equal.
        apply list_eq_same_length with (length (nch m)); [done|done|]. intros j x y Hj Hx' Hy'.
        destruct (Forall2_lookup_r _ _ _ _ _ HPa Hx') as (c & Hcj & Hpx). pose proof (Forall2_lookup_lr _ _ _ _ _ _ HPb Hcj Hy') as Hpy.
        pose proof (PR_fun _ _ _ _ Hpx Hpy) as Exy.
        apply elem_of_list_filter in Ha0 as [_ Ha0]. apply elem_of_list_filter in Hb0 as [_ Hb0].
        pose proof (proj2 (cls_known L g G _ _ x Ha0 (elem_of_list_lookup_2 _ _ _ Hx'))) as Ex.
        pose proof (proj2 (cls_known L g G _ _ y Hb0 (elem_of_list_lookup_2 _ _ _ Hy'))) as Ey. congruence.
      * cbn [nch]. rewrite fmap_length. exact Hex2.
Qed.
End pat.
End compile_exact.
