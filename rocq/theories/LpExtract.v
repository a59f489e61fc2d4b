(** Reading an expression off a solution of the integer linear program. *)
From Verif Require Import Base UnionFind EGraphModel EGraphSteps EGraphInv EGraphPres EGraphRuns Spec EGraphMain EGraphReach
  Terms RecExprModel RecExprProofs ExprModel MachineModel ExprProofs LpModel LpSpec LpProofs.

(** ** Linear expressions *)
Lemma lval_app sol e1 e2 : lval sol (e1 ++ e2) = (lval sol e1 + lval sol e2)%Z.
Proof. induction e1 as [|[z v] e1 IH]; [done|]. cbn [app]. change (lval sol ((z, v) :: e1 ++ e2)) with (z * sol v + lval sol (e1 ++ e2))%Z. change (lval sol ((z, v) :: e1)) with (z * sol v + lval sol e1)%Z. rewrite IH. lia. Qed.
Fixpoint zsum {X} (f : X -> Z) (l : list X) : Z := match l with [] => 0 | x :: l => f x + zsum f l end%Z.
Lemma total_zsum cost sel : total cost sel = zsum (fun ci => cost ci.1 ci.2) sel.
Proof. induction sel as [|x l IH]; [done|]. cbn. f_equal. exact IH. Qed.
Lemma zsum_app {X} (f : X -> Z) l1 l2 : zsum f (l1 ++ l2) = (zsum f l1 + zsum f l2)%Z.
Proof. induction l1 as [|x l1 IH]; cbn; [done|]. rewrite IH. lia. Qed.
Lemma zsum_perm {X} (f : X -> Z) l1 l2 : l1 ≡ₚ l2 -> zsum f l1 = zsum f l2.
Proof. induction 1; cbn; lia. Qed.
Lemma zsum_le {X} (f h : X -> Z) l : (forall x, x ∈ l -> f x <= h x)%Z -> (zsum f l <= zsum h l)%Z.
Proof. induction l as [|x l IH]; intros Hl; cbn; [lia|]. pose proof (Hl x ltac:(left)). assert (zsum f l <= zsum h l)%Z by (apply IH; intros; apply Hl; by right). lia. Qed.
Lemma zsum_ext {X} (f h : X -> Z) l : (forall x, x ∈ l -> f x = h x) -> zsum f l = zsum h l.
Proof. intros Hl. apply Z.le_antisymm; apply zsum_le; intros x Hx; by rewrite Hl. Qed.
Lemma zsum_nonneg {X} (f : X -> Z) l : (forall x, x ∈ l -> 0 <= f x)%Z -> (0 <= zsum f l)%Z.
Proof. induction l as [|x l IH]; intros Hl; cbn; [lia|]. pose proof (Hl x ltac:(left)). assert (0 <= zsum f l)%Z by (apply IH; intros; apply Hl; by right). lia. Qed.
Lemma zsum_zero {X} (f : X -> Z) l : (forall x, x ∈ l -> f x = 0)%Z -> (zsum f l = 0)%Z.
Proof. induction l as [|x l IH]; intros Hl; cbn; [lia|]. pose proof (Hl x ltac:(left)). assert (zsum f l = 0)%Z by (apply IH; intros; apply Hl; by right). lia. Qed.
Lemma zsum_fmap {X Y} (f : Y -> Z) (h : X -> Y) l : zsum f (h <$> l) = zsum (f ∘ h) l.
Proof. induction l as [|x l IH]; [done|]. rewrite fmap_cons. cbn [zsum]. by rewrite IH. Qed.
Lemma zsum_le_sub {X} (f : X -> Z) l1 l2 : NoDup l1 -> l1 ⊆ l2 -> (forall x, x ∈ l2 -> 0 <= f x)%Z -> (zsum f l1 <= zsum f l2)%Z.
Proof.
  intros Hn Hs Hp. apply NoDup_submseteq in Hs; [|done]. apply submseteq_Permutation in Hs as [k Hk]. rewrite (zsum_perm _ _ _ Hk), zsum_app.
  assert (0 <= zsum f k)%Z; [|lia]. apply zsum_nonneg. intros x Hx. apply Hp. rewrite Hk. apply elem_of_app. by right.
Qed.
Lemma lval_imap {Y} sol (z : nat -> Z) (v : nat -> lvar) (l : list Y) : lval sol (imap (fun i _ => (z i, v i)) l) = zsum (fun i => z i * sol (v i))%Z (seq 0 (length l)).
Proof.
  assert (Hi : forall i, lval sol (imap (fun j _ => (z (i + j), v (i + j))) l) = zsum (fun i => z i * sol (v i))%Z (seq i (length l))).
  { induction l as [|x l IH]; intros i; [done|]. rewrite imap_cons. cbn [lval foldr length seq zsum]. rewrite Nat.add_0_r. f_equal. fold (lval sol).
    rewrite <- (IH (S i)). unfold compose. f_equal. apply imap_ext. intros j y _. by rewrite Nat.add_succ_r. }
  exact (Hi 0).
Qed.
Lemma lval_bind sol o (f : nat -> list (Z * lvar)) : lval sol (o ≫= f) = zsum (fun c => lval sol (f c)) o.
Proof. induction o as [|c o IH]; [done|]. rewrite bind_cons, lval_app. cbn [zsum]. by rewrite IH. Qed.

Section lp.
Context {Op D : Type} `{Countable Op} (g : egraph Op D).
Notation node := (node Op).
Notation key c := (is_Some (eg_classes g !! c)).
Context (Hof : forall c k, eg_classes g !! c = Some k -> class_of g c = Ok k).
Context (Hch : forall c k n v, eg_classes g !! c = Some k -> n ∈ c_nodes k -> v ∈ nch n -> key v /\ eg_find g v = v).
Implicit Types (sol : lvar -> Z) (rep : list (nat * nat)).

(** ** The constraints *)
Lemma child_cons_spec c i cs : (forall v, v ∈ cs -> key v) -> exists l, child_cons g c i cs = Ok l /\
  forall con, con ∈ l <-> exists v, v ∈ cs /\ con = LCon [(1%Z, VNode c i); ((-1)%Z, VActive v)] RLeq 0.
Proof.
  induction cs as [|v cs IH]; intros Hk; cbn [child_cons].
  { exists []. split; [done|]. intros con. split; [by intros Hx%elem_of_nil|]. intros (v & Hv & _). by apply elem_of_nil in Hv. }
  destruct (Hk v) as [k Hv]; [left|]. rewrite Hv. cbn [expect mbind res_bind]. destruct IH as (l & -> & Hl); [intros; apply Hk; by right|].
  cbn [mbind res_bind]. eexists. split; [done|]. intros con. rewrite elem_of_cons, Hl. setoid_rewrite elem_of_cons. naive_solver.
Qed.
Lemma node_cons_spec rep c ns : (forall n v, n ∈ ns -> v ∈ nch n -> key v) -> forall i, exists l, node_cons g rep c i ns = Ok l /\
  forall con, con ∈ l <-> exists j n v, ns !! j = Some n /\ (c, i + j) ∉ rep /\ v ∈ nch n /\ con = LCon [(1%Z, VNode c (i + j)); ((-1)%Z, VActive v)] RLeq 0.
Proof.
  induction ns as [|n ns IH]; intros Hk i; cbn [node_cons].
  { exists []. split; [done|]. intros con. split; [by intros Hx%elem_of_nil|]. by intros (j & n & v & Hj & _). }
  destruct (child_cons_spec c i (nch n)) as (l1 & E1 & H1); [intros v Hv; by eapply Hk; [left|]|].
  destruct (IH ltac:(intros; by eapply Hk; [right|]) (S i)) as (l2 & E2 & H2). rewrite E1, E2.
  assert (Hs : forall con, (exists j m v, (n :: ns) !! j = Some m /\ (c, i + j) ∉ rep /\ v ∈ nch m /\ con = LCon [(1%Z, VNode c (i + j)); ((-1)%Z, VActive v)] RLeq 0) <->
    ((c, i) ∉ rep /\ con ∈ l1) \/ con ∈ l2).
  { intros con. rewrite H1, H2. split.
    - intros ([|j] & m & v & Hj & Hr & Hv & ->); cbn in Hj.
      + injection Hj as ->. rewrite Nat.add_0_r in *. left. eauto.
      + right. exists j, m, v. rewrite Nat.add_succ_r in *. done.
    - intros [(Hr & v & Hv & ->)|(j & m & v & Hj & Hr & Hv & ->)].
      + exists 0, n, v. rewrite Nat.add_0_r. done.
      + exists (S j), m, v. rewrite Nat.add_succ_r. done. }
  destruct (decide _) as [Hr|Hr]; cbn [mbind res_bind]; eexists; (split; [done|]); intros con; rewrite Hs, elem_of_app.
  - rewrite elem_of_nil. naive_solver.
  - naive_solver.
Qed.
(** what the constraints of one class say *)
Definition is_con rep (c : nat) (con : lcon) : Prop := exists k, eg_classes g !! c = Some k /\
  (con = LCon (imap (fun i _ => (1%Z, VNode c i)) (c_nodes k) ++ [((-1)%Z, VActive c)]) REq 0 \/
   exists i n v, c_nodes k !! i = Some n /\ (c, i) ∉ rep /\ v ∈ nch n /\ con = LCon [(1%Z, VNode c i); ((-1)%Z, VActive v)] RLeq 0).
Lemma class_cons_spec rep o : (forall c, c ∈ o -> key c) -> exists l, class_cons g rep o = Ok l /\ forall con, con ∈ l <-> exists c, c ∈ o /\ is_con rep c con.
Proof.
  induction o as [|c o IH]; intros Hk; cbn [class_cons].
  { exists []. split; [done|]. intros con. split; [by intros Hx%elem_of_nil|]. intros (c & Hc & _). by apply elem_of_nil in Hc. }
  destruct (Hk c) as [k Hc]; [left|]. rewrite (Hof _ _ Hc). cbn [mbind res_bind].
  destruct (node_cons_spec rep c (c_nodes k)) with (i := 0) as (l1 & -> & H1); [intros n v Hn Hv; by eapply Hch|]. cbn [mbind res_bind].
  destruct IH as (l2 & -> & H2); [intros; apply Hk; by right|]. cbn [mbind res_bind]. eexists. split; [done|].
  intros con. rewrite elem_of_cons, elem_of_app, H1, H2. setoid_rewrite elem_of_cons. unfold is_con. split.
  - intros [->|[(j & n & v & Hj & Hr & Hv & ->)|(c' & Hc' & Hcon)]].
    + exists c. split; [by left|]. exists k. split; [done|]. by left.
    + exists c. split; [by left|]. exists k. split; [done|]. right. exists j, n, v. done.
    + exists c'. split; [by right|done].
  - intros (c' & [->|Hc'] & k' & Hk' & Hcon).
    + rewrite Hc in Hk'. injection Hk' as <-. destruct Hcon as [->|(i & n & v & Hi & Hr & Hv & ->)]; [by left|]. right. left. exists i, n, v. done.
    + right. right. exists c'. split; [done|]. exists k'. done.
Qed.
Lemma root_cons_spec roots : (forall r, r ∈ roots -> valid_id g r = true /\ key (eg_find g r)) -> exists l, root_cons g roots = Ok l /\
  forall con, con ∈ l <-> exists r, r ∈ roots /\ con = LCon [(1%Z, VActive (eg_find g r))] RGeq 1.
Proof.
  induction roots as [|r roots IH]; intros Hk; cbn [root_cons].
  { exists []. split; [done|]. intros con. split; [by intros Hx%elem_of_nil|]. intros (v & Hv & _). by apply elem_of_nil in Hv. }
  destruct (Hk r) as [Hv [k Hr]]; [left|]. unfold find_res. rewrite Hv. cbn [mbind res_bind]. rewrite Hr. cbn [expect mbind res_bind].
  destruct IH as (l & -> & Hl); [intros; apply Hk; by right|].
  cbn [mbind res_bind]. eexists. split; [done|]. intros con. rewrite elem_of_cons, Hl. setoid_rewrite elem_of_cons. naive_solver.
Qed.
Context (o o' : list nat) (Ho : forall c, c ∈ o <-> key c) (Hno : NoDup o) (Ho' : forall c, c ∈ o' <-> key c).
Context (roots : list nat) (Hroots : forall r, r ∈ roots -> valid_id g r = true /\ key (eg_find g r)).
Lemma constraints_spec rep : exists l, lp_constraints g rep o' roots = Ok l /\
  forall con, con ∈ l <-> (exists c, is_con rep c con) \/ exists r, r ∈ roots /\ con = LCon [(1%Z, VActive (eg_find g r))] RGeq 1.
Proof.
  unfold lp_constraints. destruct (class_cons_spec rep o') as (l1 & -> & H1); [intros; by apply Ho'|]. cbn [mbind res_bind].
  destruct (root_cons_spec roots Hroots) as (l2 & -> & H2). cbn [mbind res_bind]. eexists. split; [done|]. intros con. rewrite elem_of_app, H1, H2.
  split; (intros [Hx|Hx]; [left|by right]).
  - destruct Hx as (c & _ & Hx). eauto.
  - destruct Hx as (c & Hx). exists c. split; [|done]. apply Ho'. destruct Hx as (k & Hk & _). eauto.
Qed.
Lemma bounds_spec rep b : b ∈ lp_bounds rep o g <-> exists c k, eg_classes g !! c = Some k /\
  (b = LBound (VActive c) 1 \/ exists i n, c_nodes k !! i = Some n /\ b = LBound (VNode c i) (if decide ((c, i) ∈ rep) then 0 else 1)%Z).
Proof.
  unfold lp_bounds. rewrite elem_of_list_bind. split.
  - intros (c & Hb & Hc). destruct (eg_classes g !! c) as [k|] eqn:Hk; [|by apply elem_of_nil in Hb]. cbn in Hb. exists c, k. split; [done|].
    unfold class_bounds in Hb. apply elem_of_cons in Hb as [->|Hb]; [by left|right]. apply elem_of_lookup_imap in Hb as (i & n & -> & Hi). eauto.
  - intros (c & k & Hk & Hb). exists c. rewrite Hk. cbn. split; [|apply Ho; eauto]. unfold class_bounds. destruct Hb as [->|(i & n & Hi & ->)]; [left|right].
    apply elem_of_lookup_imap. eauto.
Qed.
(** ** Feasible solutions *)
Section sol.
Context (rep : list (nat * nat)) (sol : lvar -> Z) (l : list lcon) (El : lp_constraints g rep o' roots = Ok l) (Hfeas : feasible sol (lp_bounds rep o g) l).
Lemma con_spec con : con ∈ l <-> (exists c, is_con rep c con) \/ exists r, r ∈ roots /\ con = LCon [(1%Z, VActive (eg_find g r))] RGeq 1.
Proof. destruct (constraints_spec rep) as (l' & E & Hl). rewrite E in El. assert (l = l') as -> by congruence. apply Hl. Qed.
Lemma active_range c : key c -> (0 <= sol (VActive c) <= 1)%Z.
Proof. intros [k Hk]. apply (proj1 Hfeas (LBound (VActive c) 1)). apply bounds_spec. exists c, k. split; [done|by left]. Qed.
Lemma node_range c k i n : eg_classes g !! c = Some k -> c_nodes k !! i = Some n -> (0 <= sol (VNode c i) <= if decide ((c, i) ∈ rep) then 0 else 1)%Z.
Proof. intros Hk Hi. apply (proj1 Hfeas (LBound (VNode c i) _)). apply bounds_spec. exists c, k. split; [done|right]. eauto. Qed.
Lemma class_sum c k : eg_classes g !! c = Some k -> zsum (fun i => sol (VNode c i)) (seq 0 (length (c_nodes k))) = sol (VActive c).
Proof.
  intros Hk. assert (Hin : LCon (imap (fun i _ => (1%Z, VNode c i)) (c_nodes k) ++ [((-1)%Z, VActive c)]) REq 0 ∈ l).
  { apply con_spec. left. exists c, k. split; [done|by left]. }
  apply (proj2 Hfeas) in Hin. unfold lholds in Hin. cbn [lc_rel lc_expr lc_rhs] in Hin. rewrite lval_app in Hin. cbn in Hin.
  rewrite (lval_imap sol (fun _ => 1%Z) (fun i => VNode c i)) in Hin. rewrite (zsum_ext _ (fun i => 1 * sol (VNode c i))%Z) by (intros; lia). lia.
Qed.
Lemma child_active c k i n v : eg_classes g !! c = Some k -> c_nodes k !! i = Some n -> (0 < sol (VNode c i))%Z -> v ∈ nch n -> (0 < sol (VActive v))%Z.
Proof.
  intros Hk Hi Hs Hv. pose proof (node_range _ _ _ _ Hk Hi) as Hr. destruct (decide _) as [?|Hnr]; [lia|].
  assert (Hin : LCon [(1%Z, VNode c i); ((-1)%Z, VActive v)] RLeq 0 ∈ l). { apply con_spec. left. exists c, k. split; [done|right]. exists i, n, v. done. }
  apply (proj2 Hfeas) in Hin. unfold lholds in Hin. cbn in Hin. lia.
Qed.
Lemma root_active r : r ∈ roots -> (0 < sol (VActive (eg_find g r)))%Z.
Proof.
  intros Hr. assert (Hin : LCon [(1%Z, VActive (eg_find g r))] RGeq 1 ∈ l) by (apply con_spec; right; eauto).
  apply (proj2 Hfeas) in Hin. unfold lholds in Hin. cbn in Hin. lia.
Qed.
Lemma first_picked_ok c (ns : list node) : forall i, (0 < zsum (fun i => sol (VNode c i)) (seq i (length ns)))%Z ->
  exists j n, first_picked sol c i ns = Some (i + j, n) /\ ns !! j = Some n /\ (0 < sol (VNode c (i + j)))%Z.
Proof.
  induction ns as [|n ns IH]; intros i Hs; cbn [length seq zsum] in Hs; [lia|]. cbn [first_picked].
  destruct (0 <? sol (VNode c i))%Z eqn:E.
  - apply Z.ltb_lt in E. exists 0, n. rewrite Nat.add_0_r. done.
  - apply Z.ltb_ge in E. destruct (IH (S i)) as (j & m & E1 & Hj & Hp); [lia|]. exists (S j), m. rewrite Nat.add_succ_r. done.
Qed.
(** the e-node a solution picks in a class, with its position *)
Definition pick (c : nat) : option (nat * node) := k ← eg_classes g !! c; first_picked sol c 0 (c_nodes k).
Lemma pick_ok c : key c -> (0 < sol (VActive c))%Z -> exists k i n, eg_classes g !! c = Some k /\ pick c = Some (i, n) /\ c_nodes k !! i = Some n /\
  sol (VNode c i) = 1%Z /\ (c, i) ∉ rep /\ forall v, v ∈ nch n -> key v /\ eg_find g v = v /\ (0 < sol (VActive v))%Z.
Proof.
  intros [k Hk] Ha. rewrite <- (class_sum c k Hk) in Ha. destruct (first_picked_ok c (c_nodes k) 0 Ha) as (i & n & E & Hi & Hp). cbn in E, Hp.
  pose proof (node_range _ _ _ _ Hk Hi) as Hr. exists k, i, n. unfold pick. rewrite Hk. cbn. split_and!; try done.
  - destruct (decide _); lia.
  - intros Hin. rewrite decide_True in Hr by done. lia.
  - intros v Hv. destruct (Hch c k n v Hk) as [Hkv Hfv]; [by eapply elem_of_list_lookup_2|done|]. split_and!; [done|done|]. by eapply child_active.
Qed.
(** ** The loop *)
(** [sel]: the class and the position of the e-node behind each entry of the expression *)
Record exi (e : list node) (ids : gmap nat nat) (sel : list (nat * nat)) : Prop := {
  ex_dom : forall c j, ids !! c = Some j <-> exists i, sel !! j = Some (c, i);
  ex_nodup : NoDup sel.*1;
  ex_len : length e = length sel;
  ex_pick : forall j c i m, sel !! j = Some (c, i) -> e !! j = Some m -> exists n, pick c = Some (i, n) /\ nop m = nop n /\
    Forall2 (fun v x => x < j /\ ids !! v = Some x) (nch n) (nch m);
  ex_act : forall c i, (c, i) ∈ sel -> key c /\ (0 < sol (VActive c))%Z;
}.
Lemma exi_nil : exi [] ∅ [].
Proof.
  split; try done.
  - intros c j. rewrite lookup_empty. split; [done|]. by intros [i Hi].
  - constructor.
  - intros c i Hx. by apply elem_of_nil in Hx.
Qed.
Lemma loop_one : forall c, Acc (flip (uses g rep)) c -> key c -> (0 < sol (VActive c))%Z -> forall e ids sel rest, exi e ids sel ->
  exists q e' ids' sel', (forall fuel, solution_loop (q + fuel) g sol (c :: rest) e ids = solution_loop fuel g sol rest e' ids') /\
    exi e' ids' sel' /\ ids ⊆ ids' /\ is_Some (ids' !! c).
Proof.
  intros c Ha. induction Ha as [c _ IH]. intros Hk Hac e ids sel rest X.
  destruct (decide (is_Some (ids !! c))) as [Hin|Hout].
  { exists 1, e, ids, sel. split_and!; auto. intros fuel. cbn [solution_loop plus]. by rewrite decide_True. }
  destruct (pick_ok c Hk Hac) as (k & i & n & Hck & Hp & Hi & Hs1 & Hnr & Hvs).
  assert (Hfp : first_picked sol c 0 (c_nodes k) = Some (i, n)) by (unfold pick in Hp; by rewrite Hck in Hp).
  assert (Hstep : forall fuel e ids, ids !! c = None -> solution_loop (S fuel) g sol (c :: rest) e ids =
    if forallb (fun c => bool_decide (is_Some (ids !! c))) (nch n) then
      m ← map_children_o (fun c => ids !! eg_find g c) n; '(e, new_id) ← rx_add e m; solution_loop fuel g sol rest e (<[c := new_id]> ids)
    else solution_loop fuel g sol (reverse (nch n) ++ c :: rest) e ids).
  { intros fuel e0 ids0 Hn. cbn [solution_loop]. rewrite decide_False by (rewrite Hn; by intros [? ?]). rewrite Hck. cbn [expect mbind res_bind].
    unfold assert. apply Z.ltb_lt in Hac. rewrite Hac. cbn [mbind res_bind]. rewrite Hfp. done. }
  (* a state in which all children are done *)
  assert (Hfin : forall e ids sel, exi e ids sel -> ids !! c = None -> (forall v, v ∈ nch n -> is_Some (ids !! v)) ->
    exists e' ids' sel', (forall fuel, solution_loop (S fuel) g sol (c :: rest) e ids = solution_loop fuel g sol rest e' ids') /\
      exi e' ids' sel' /\ ids ⊆ ids' /\ is_Some (ids' !! c)).
  { clear e ids sel X Hout. intros e ids sel X Hn Hall.
    assert (Hm : exists cs, mapM (fun c => ids !! eg_find g c) (nch n) = Some cs /\ Forall2 (fun v x => ids !! v = Some x) (nch n) cs).
    { assert (Hall' : forall v, v ∈ nch n -> is_Some (ids !! v) /\ eg_find g v = v) by (intros v Hv; split; [auto|]; by apply Hvs).
      clear -Hall'. induction (nch n) as [|v vs IHv]; [by exists []|]. destruct (Hall' v) as [[x Hx] Hf]; [left|].
      destruct IHv as (cs & E & Hcs); [intros; apply Hall'; by right|]. exists (x :: cs). cbn. rewrite Hf, Hx. cbn. rewrite E. split; [done|by constructor]. }
    destruct Hm as (cs & Em & Hcs).
    assert (Hlt : forall x, x ∈ cs -> x < length e).
    { intros x Hx. apply elem_of_list_lookup in Hx as [j Hj]. destruct (Forall2_lookup_r _ _ _ _ _ Hcs Hj) as (v & _ & Hv).
      apply (ex_dom _ _ _ X) in Hv as [i' Hv]. apply lookup_lt_Some in Hv. by rewrite (ex_len _ _ _ X). }
    exists (e ++ [Node (nop n) cs]), (<[c := length e]> ids), (sel ++ [(c, i)]). split_and!.
    - intros fuel. rewrite Hstep by done. rewrite (proj2 (forallb_forall _ _)) by (intros v Hv; apply bool_decide_eq_true, Hall; by apply elem_of_list_In).
      unfold map_children_o. rewrite Em. cbn [expect mbind res_bind]. rewrite rx_add_ok by done. done.
    - split.
      + intros d j. destruct (decide (d = c)) as [->|Hne].
        * rewrite lookup_insert. split.
          -- intros [= <-]. exists i. rewrite (ex_len _ _ _ X). by apply list_lookup_middle.
          -- intros [i' Hi']. apply lookup_app_Some in Hi' as [Hi'|[Hge Hi']].
             ++ assert (ids !! c = Some j) by (apply (ex_dom _ _ _ X); eauto). congruence.
             ++ apply list_lookup_singleton_Some in Hi' as [Hz _]. f_equal. rewrite (ex_len _ _ _ X). lia.
        * rewrite lookup_insert_ne by done. rewrite (ex_dom _ _ _ X). split.
          -- intros [i' Hi']. exists i'. by apply lookup_app_l_Some.
          -- intros [i' Hi']. apply lookup_app_Some in Hi' as [Hi'|[Hge Hi']]; [eauto|]. apply list_lookup_singleton_Some in Hi' as [_ [=]]. by subst.
      + rewrite fmap_app. apply NoDup_app. split_and!; [apply X| |apply NoDup_singleton]. intros d Hd Hd'. apply elem_of_list_singleton in Hd'. cbn in Hd'. subst d.
        apply elem_of_list_fmap in Hd as ([c' i'] & -> & Hd). apply elem_of_list_lookup in Hd as [j Hj]. cbn in *.
        assert (ids !! c' = Some j) by (apply (ex_dom _ _ _ X); eauto). congruence.
      + rewrite !app_length, (ex_len _ _ _ X). done.
      + intros j d i' m Hj Hm. apply lookup_app_Some in Hj as [Hj|[Hge Hj]].
        * rewrite lookup_app_l in Hm by (rewrite (ex_len _ _ _ X); by eapply lookup_lt_Some). destruct (ex_pick _ _ _ X _ _ _ _ Hj Hm) as (n' & Hp' & Eo & Hf).
          exists n'. split_and!; [done|done|]. eapply Forall2_impl; [exact Hf|]. cbn. intros v x [Hx Hv]. split; [done|]. rewrite lookup_insert_ne; [done|]. intros <-. congruence.
        * apply list_lookup_singleton_Some in Hj as [Hz [= <- <-]]. rewrite lookup_app_r in Hm by (rewrite (ex_len _ _ _ X); lia).
          apply list_lookup_singleton_Some in Hm as [_ <-]. exists n. split_and!; [done|done|]. cbn. rewrite <- (ex_len _ _ _ X) in Hge, Hz.
          assert (Hj : j = length e) by lia. subst j.
          apply Forall2_same_length_lookup. split; [by eapply Forall2_length|]. intros q v x Hq Hx. split; [apply Hlt; by eapply elem_of_list_lookup_2|].
          eapply Forall2_lookup_lr in Hcs; [|exact Hq|exact Hx]. rewrite lookup_insert_ne; [done|]. intros <-. congruence.
      + intros d i' [Hd|Hd]%elem_of_app; [by eapply (ex_act _ _ _ X)|]. apply elem_of_list_singleton in Hd. by injection Hd as -> ->.
    - by apply insert_subseteq.
    - rewrite lookup_insert. eauto. }
  assert (Hn : ids !! c = None) by (by apply eq_None_not_Some).
  assert (Hedge : forall v, v ∈ nch n -> uses g rep c v). { intros v Hv. exists k, i, n. done. }
  assert (Hmany : forall vs, (forall v, v ∈ vs -> v ∈ nch n) -> forall e ids sel rest, exi e ids sel -> exists q e' ids' sel',
    (forall fuel, solution_loop (q + fuel) g sol (vs ++ rest) e ids = solution_loop fuel g sol rest e' ids') /\
    exi e' ids' sel' /\ ids ⊆ ids' /\ (forall v, v ∈ vs -> is_Some (ids' !! v))).
  { clear -IH Hedge Hvs. induction vs as [|v vs IHl]; intros Hl e ids sel rest X.
    - exists 0, e, ids, sel. split_and!; auto. intros v Hv%elem_of_nil. done.
    - assert (Hv : v ∈ nch n) by (apply Hl; left). destruct (Hvs v Hv) as (Hkv & _ & Hav).
      destruct (IH v (Hedge v Hv) Hkv Hav e ids sel (vs ++ rest) X) as (k1 & e1 & ids1 & sel1 & E1 & X1 & M1 & H1).
      destruct (IHl ltac:(intros; apply Hl; by right) e1 ids1 sel1 rest X1) as (k2 & e2 & ids2 & sel2 & E2 & X2 & M2 & H2).
      exists (k1 + k2), e2, ids2, sel2. split_and!; [|done|by etrans|].
      + intros fuel. rewrite <- Nat.add_assoc. cbn [app]. by rewrite E1, E2.
      + intros x [->|Hx]%elem_of_cons; [|by apply H2]. destruct H1 as [y Hy]. exists y. exact (lookup_weaken _ _ _ _ Hy M2). }
  destruct (forallb (fun c => bool_decide (is_Some (ids !! c))) (nch n)) eqn:Eall.
  { destruct (Hfin e ids sel X Hn) as (e' & ids' & sel' & E & R); [|by exists 1, e', ids', sel'].
    intros v Hv. apply elem_of_list_In in Hv. rewrite forallb_forall in Eall. apply Eall in Hv. by apply bool_decide_eq_true in Hv. }
  destruct (Hmany (reverse (nch n)) ltac:(intros v Hv; by rewrite elem_of_reverse in Hv) e ids sel (c :: rest) X) as (k1 & e1 & ids1 & sel1 & E1 & X1 & M1 & H1).
  assert (Hpush : forall fuel, solution_loop (S (k1 + fuel)) g sol (c :: rest) e ids = solution_loop fuel g sol (c :: rest) e1 ids1).
  { intros fuel. rewrite Hstep by done. rewrite Eall. apply E1. }
  destruct (decide (is_Some (ids1 !! c))) as [Hdone|Hnd].
  - exists (S (k1 + 1)), e1, ids1, sel1. split_and!; auto. intros fuel. cbn [plus]. rewrite <- Nat.add_assoc, Hpush. cbn [solution_loop plus]. by rewrite decide_True.
  - destruct (Hfin e1 ids1 sel1 X1) as (e2 & ids2 & sel2 & E2 & X2 & M2 & H2).
    { by apply eq_None_not_Some. }
    { intros v Hv. apply H1. by rewrite elem_of_reverse. }
    exists (S (k1 + 1)), e2, ids2, sel2. split_and!; [|done|by etrans|done]. intros fuel. cbn [plus]. rewrite <- Nat.add_assoc, Hpush. apply E2.
Qed.
Lemma loop_all rs : (forall u, Acc (flip (uses g rep)) u) -> (forall r, r ∈ rs -> key r /\ (0 < sol (VActive r))%Z) -> forall e ids sel rest, exi e ids sel ->
  exists q e' ids' sel', (forall fuel, solution_loop (q + fuel) g sol (rs ++ rest) e ids = solution_loop fuel g sol rest e' ids') /\
    exi e' ids' sel' /\ ids ⊆ ids' /\ (forall r, r ∈ rs -> is_Some (ids' !! r)).
Proof.
  intros Ha. induction rs as [|r rs IH]; intros Hr e ids sel rest X.
  - exists 0, e, ids, sel. split_and!; auto. intros v Hv%elem_of_nil. done.
  - destruct (Hr r) as [Hk Hac]; [left|]. destruct (loop_one r (Ha r) Hk Hac e ids sel (rs ++ rest) X) as (k1 & e1 & ids1 & sel1 & E1 & X1 & M1 & H1).
    destruct (IH ltac:(intros; apply Hr; by right) e1 ids1 sel1 rest X1) as (k2 & e2 & ids2 & sel2 & E2 & X2 & M2 & H2).
    exists (k1 + k2), e2, ids2, sel2. split_and!; [|done|by etrans|].
    + intros fuel. rewrite <- Nat.add_assoc. cbn [app]. by rewrite E1, E2.
    + intros x [->|Hx]%elem_of_cons; [|by apply H2]. destruct H1 as [y Hy]. exists y. exact (lookup_weaken _ _ _ _ Hy M2).
Qed.
(** ** The expression *)
Lemma exi_built e ids sel : exi e ids sel -> built_from g sel e.
Proof.
  intros X. split; [apply X|]. intros j c i m Hj Hm. destruct (ex_pick _ _ _ X _ _ _ _ Hj Hm) as (n & Hp & Eo & Hf).
  destruct (ex_act _ _ _ X c i) as [Hk Hac]; [by eapply elem_of_list_lookup_2|].
  destruct (pick_ok c Hk Hac) as (k & i' & n' & Hck & Hp' & Hi & _). rewrite Hp in Hp'. injection Hp' as <- <-. exists k, n. split_and!; try done.
  eapply Forall2_impl; [exact Hf|]. cbn. intros v x [Hx Hv]. split; [done|]. by apply (ex_dom _ _ _ X).
Qed.
Lemma exi_sel e ids sel c i : exi e ids sel -> (c, i) ∈ sel -> (c, i) ∉ rep /\ exists k n (m : node) j, eg_classes g !! c = Some k /\ c_nodes k !! i = Some n /\
  Forall2 (fun v x => x < j /\ exists i', sel !! x = Some (v, i')) (nch n) (nch m).
Proof.
  intros X Hci. destruct (ex_act _ _ _ X c i Hci) as [Hk Hac]. apply elem_of_list_lookup in Hci as [j Hj].
  destruct (lookup_lt_is_Some_2 e j) as [m Hm]; [rewrite (ex_len _ _ _ X); by eapply lookup_lt_Some|]. split.
  - destruct (ex_pick _ _ _ X _ _ _ _ Hj Hm) as (n & Hp & _). destruct (pick_ok c Hk Hac) as (k & i' & n' & Hck & Hp' & Hi & Hs1 & Hnr & _). rewrite Hp in Hp'. by injection Hp' as <- <-.
  - destruct (proj2 (exi_built _ _ _ X) _ _ _ _ Hj Hm) as (k & n & Hk' & Hi & _ & Hf). eauto 10.
Qed.
Lemma objective_val cost : lval sol (lp_objective cost o g) = zsum (fun c => from_option (fun k => zsum (fun i => cost c i * sol (VNode c i))%Z (seq 0 (length (c_nodes k)))) 0%Z (eg_classes g !! c)) o.
Proof.
  unfold lp_objective. rewrite lval_bind. apply zsum_ext. intros c _. destruct (eg_classes g !! c) as [k|]; [|done]. cbn. exact (lval_imap sol (cost c) (VNode c) _).
Qed.
Lemma exi_cost cost e ids sel : (forall c i, 0 <= cost c i)%Z -> exi e ids sel -> (total cost sel <= lval sol (lp_objective cost o g))%Z.
Proof.
  intros Hpos X. rewrite objective_val, total_zsum. set (F := fun c : nat => from_option _ _ _). trans (zsum F sel.*1).
  - rewrite zsum_fmap. apply zsum_le. intros [c i] Hci. cbn. destruct (ex_act _ _ _ X c i Hci) as [Hk Hac].
    apply elem_of_list_lookup in Hci as [j Hj]. destruct (lookup_lt_is_Some_2 e j) as [m Hm]; [rewrite (ex_len _ _ _ X); by eapply lookup_lt_Some|].
    destruct (ex_pick _ _ _ X _ _ _ _ Hj Hm) as (n & Hp & _). destruct (pick_ok c Hk Hac) as (k & i' & n' & Hck & Hp' & Hi & Hs1 & _). rewrite Hp in Hp'. injection Hp' as <- <-.
    unfold F. rewrite Hck. cbn. trans (zsum (fun i => cost c i * sol (VNode c i))%Z [i]); [cbn; rewrite Hs1; lia|]. apply zsum_le_sub.
    + apply NoDup_singleton.
    + intros x Hx. apply elem_of_list_singleton in Hx. subst x. apply elem_of_seq. apply lookup_lt_Some in Hi. lia.
    + intros x Hx. apply elem_of_seq in Hx. destruct (lookup_lt_is_Some_2 (c_nodes k) x) as [n' Hn']; [lia|]. pose proof (node_range _ _ _ _ Hck Hn'). specialize (Hpos c x). nia.
  - apply zsum_le_sub.
    + apply X.
    + intros c Hc. apply elem_of_list_fmap in Hc as ([c' i] & -> & Hc). apply Ho. by destruct (ex_act _ _ _ X _ _ Hc).
    + intros c Hc. unfold F. destruct (eg_classes g !! c) as [k|] eqn:Hk; [|done]. cbn. apply zsum_nonneg.
      intros x Hx. apply elem_of_seq in Hx. destruct (lookup_lt_is_Some_2 (c_nodes k) x) as [n' Hn']; [lia|]. pose proof (node_range _ _ _ _ Hk Hn'). specialize (Hpos c x). nia.
Qed.
Lemma find_all_ok rs : (forall r, r ∈ rs -> valid_id g r = true) -> find_all g rs = Ok (eg_find g <$> rs).
Proof.
  induction rs as [|r rs IH]; intros Hv; [done|]. cbn [find_all]. unfold find_res. rewrite (Hv r) by left. cbn [mbind res_bind]. rewrite IH by (intros; apply Hv; by right). done.
Qed.
Lemma built_rep sel e : built_from g sel e -> (forall c i, (c, i) ∈ sel -> key c) -> forall j c i, sel !! j = Some (c, i) ->
  exists t, Tree e j t /\ Rep g t c.
Proof.
  intros [Hl B] Hk. induction j as [j IH] using lt_wf_ind. intros c i Hj.
  destruct (lookup_lt_is_Some_2 e j) as [[f ds] Hm]; [rewrite Hl; by eapply lookup_lt_Some|].
  destruct (B _ _ _ _ Hj Hm) as (k & [f' cs] & Hck & Hi & Eo & Hf). cbn in Eo, Hf. subst f'.
  assert (Hts : exists ts, Forall2 (Tree e) ds ts /\ Forall2 (fun t x => Rep g t (eg_find g x)) ts cs).
  { assert (Hcs : forall v, v ∈ cs -> eg_find g v = v). { intros v Hv. eapply (Hch c k (Node f cs)); [done|by eapply elem_of_list_lookup_2|done]. }
    clear -Hf IH Hcs. induction Hf as [|v x vs xs [Hx (i' & Hi')] _ IHf]; [by exists []|].
    destruct (IH x Hx v i' Hi') as (t & Ht & Hr). destruct IHf as (ts & Hts & Hrs); [intros; apply Hcs; by right|]. exists (t :: ts). split; constructor; try done.
    rewrite Hcs by left. done. }
  destruct Hts as (ts & Hts & Hrs). exists (TNode f ts). split; [by econstructor|]. econstructor; [done|by eapply elem_of_list_lookup_2|done].
Qed.
Lemma extract_ok : (forall u, Acc (flip (uses g rep)) u) -> exists bound e idxs sel,
  (forall fuel, bound <= fuel -> extract_solution fuel g sol roots = Ok (e, idxs)) /\ dag e /\ built_from g sel e /\ selection g rep roots sel /\
  Forall2 (fun r x => exists i, sel !! x = Some (eg_find g r, i)) roots idxs /\
  Forall2 (fun r x => exists t, Tree e x t /\ Rep g t (eg_find g r)) roots idxs /\
  forall cost, (forall c i, 0 <= cost c i)%Z -> (total cost sel <= lval sol (lp_objective cost o g))%Z.
Proof.
  intros Ha. assert (Hr : forall r, r ∈ reverse (eg_find g <$> roots) -> key r /\ (0 < sol (VActive r))%Z).
  { intros r Hr. rewrite elem_of_reverse in Hr. apply elem_of_list_fmap in Hr as (r' & -> & Hr). split; [by apply Hroots|by apply root_active]. }
  destruct (loop_all _ Ha Hr [] ∅ [] [] exi_nil) as (q & e & ids & sel & E & X & _ & Hids). rewrite app_nil_r in E.
  pose proof (exi_built _ _ _ X) as B.
  assert (Hd : dag e).
  { intros j m x Hj Hx. destruct (lookup_lt_is_Some_2 sel j) as [[c i] Hs]; [rewrite <- (ex_len _ _ _ X); by eapply lookup_lt_Some|].
    destruct (proj2 B _ _ _ _ Hs Hj) as (k & n & _ & _ & _ & Hf). apply elem_of_list_lookup in Hx as [p Hp]. destruct (Forall2_lookup_r _ _ _ _ _ Hf Hp) as (v & _ & Hv & _). done. }
  assert (Hix : exists idxs, mapM (fun r => ids !! r) (eg_find g <$> roots) = Some idxs /\ Forall2 (fun r x => ids !! eg_find g r = Some x) roots idxs).
  { assert (Hall : forall r, r ∈ roots -> is_Some (ids !! eg_find g r)). { intros r Hr'. apply Hids. rewrite elem_of_reverse. apply elem_of_list_fmap. eauto. }
    clear -Hall. induction roots as [|r rs IH]; [by exists []|]. destruct (Hall r) as [x Hx]; [left|]. destruct IH as (xs & E & Hxs); [intros; apply Hall; by right|].
    exists (x :: xs). rewrite fmap_cons. cbn [mapM]. rewrite Hx. cbn. rewrite E. split; [done|by constructor]. }
  destruct Hix as (idxs & Em & Hidx).
  assert (Hkeys : forall c i, (c, i) ∈ sel -> key c) by (intros c i Hc; by destruct (ex_act _ _ _ X c i Hc)).
  assert (Hroot : Forall2 (fun r x => exists i, sel !! x = Some (eg_find g r, i)) roots idxs).
  { eapply Forall2_impl; [exact Hidx|]. intros r x Hx. by apply (ex_dom _ _ _ X). }
  exists q, e, idxs, sel. split_and!; [|done|done| |done| |].
  - intros fuel Hf. unfold extract_solution. rewrite find_all_ok by (intros; by apply Hroots). cbn [mbind res_bind].
    replace fuel with (q + (fuel - q)) by lia. rewrite E. assert (solution_loop (fuel - q) g sol [] e ids = Ok (e, ids)) as -> by (by destruct (fuel - q)).
    cbn [mbind res_bind]. rewrite Em. cbn [expect mbind res_bind]. apply rx_is_dag_dag in Hd. unfold assert. rewrite Hd. done.
  - split; [apply X| | |].
    { intros c i Hci. by destruct (exi_sel _ _ _ c i X Hci). }
    { intros c i Hci. destruct (exi_sel _ _ _ c i X Hci) as (_ & k & n & m & j & Hk & Hi & Hf). exists k, n. split_and!; [done..|]. intros v Hv.
      apply elem_of_list_lookup in Hv as [p Hp]. destruct (Forall2_lookup_l _ _ _ _ _ Hf Hp) as (x & _ & _ & i' & Hx). apply elem_of_list_fmap. exists (v, i'). split; [done|by eapply elem_of_list_lookup_2]. }
    { intros r Hr'. apply elem_of_list_lookup in Hr' as [p Hp]. destruct (Forall2_lookup_l _ _ _ _ _ Hroot Hp) as (x & _ & i & Hx). apply elem_of_list_fmap. exists (eg_find g r, i). split; [done|by eapply elem_of_list_lookup_2]. }
  - eapply Forall2_impl; [exact Hidx|]. intros r x Hx. apply (ex_dom _ _ _ X) in Hx as [i Hi]. eapply built_rep; [exact B|exact Hkeys|exact Hi].
  - intros cost Hpos. by eapply exi_cost.
Qed.
End sol.
(** ** Solutions from selections *)
Definition sol_of (sel : list (nat * nat)) (v : lvar) : Z :=
  match v with VActive c => if decide (c ∈ sel.*1) then 1 else 0 | VNode c i => if decide ((c, i) ∈ sel) then 1 else 0 end%Z.
Lemma sel_pos (sel : list (nat * nat)) c i i' : NoDup sel.*1 -> (c, i) ∈ sel -> (c, i') ∈ sel -> i = i'.
Proof.
  intros Hn H1 H2. apply elem_of_list_lookup in H1 as [j Hj], H2 as [j' Hj']. assert (j = j') as <-; [|congruence].
  eapply NoDup_lookup; [exact Hn| |]; by rewrite list_lookup_fmap, ?Hj, ?Hj'.
Qed.
Lemma zsum_one (f : nat -> Z) i n : i < n -> (forall j, j <> i -> f j = 0%Z) -> zsum f (seq 0 n) = f i.
Proof.
  intros Hi Hz. replace n with (i + S (n - S i)) by lia. rewrite seq_app, zsum_app. cbn [seq zsum plus].
  rewrite (zsum_zero f (seq 0 i)), (zsum_zero f (seq (S i) _)); [lia| |]; intros x Hx; apply elem_of_seq in Hx; apply Hz; lia.
Qed.
Lemma sel_class_sum rep sel (w : nat -> nat -> Z) c k : selection g rep roots sel -> eg_classes g !! c = Some k ->
  (forall i, (c, i) ∈ sel -> zsum (fun i => w c i * sol_of sel (VNode c i))%Z (seq 0 (length (c_nodes k))) = w c i) /\
  (c ∉ sel.*1 -> zsum (fun i => w c i * sol_of sel (VNode c i))%Z (seq 0 (length (c_nodes k))) = 0%Z).
Proof.
  intros S Hk. split.
  - intros i Hi. destruct (se_node _ _ _ _ S c i Hi) as (k' & n & Hk' & Hn & _). rewrite Hk in Hk'. injection Hk' as <-.
    rewrite (zsum_one _ i); [cbn [sol_of]; rewrite decide_True by done; lia|by eapply lookup_lt_Some|]. intros j Hne. cbn [sol_of]. rewrite decide_False; [lia|].
    intros Hj. apply Hne. eapply sel_pos; [apply S|done|done].
  - intros Hc. apply zsum_zero. intros i _. cbn [sol_of]. rewrite decide_False; [lia|]. intros Hin. apply Hc. apply elem_of_list_fmap. by exists (c, i).
Qed.
Lemma sel_feasible rep sel l : lp_constraints g rep o' roots = Ok l -> selection g rep roots sel -> feasible (sol_of sel) (lp_bounds rep o g) l.
Proof.
  intros El S. destruct (constraints_spec rep) as (l' & E & Hl). rewrite E in El. injection El as ->. split.
  - intros b Hb. apply bounds_spec in Hb as (c & k & Hk & [->|(i & n & Hi & ->)]); cbn [lb_var lb_max sol_of].
    + destruct (decide _); lia.
    + destruct (decide ((c, i) ∈ sel)) as [Hin|]; [|destruct (decide _); lia]. rewrite decide_False by (by apply S). lia.
  - intros con Hcon. apply Hl in Hcon as [(c & k & Hk & [->|(i & n & v & Hi & Hr & Hv & ->)])|(r & Hr & ->)]; unfold lholds; cbn [lc_rel lc_expr lc_rhs].
    + rewrite lval_app, (lval_imap _ (fun _ => 1%Z) (fun i => VNode c i)). destruct (sel_class_sum rep sel (fun _ _ => 1%Z) c k S Hk) as [H1 H2].
      assert (lval (sol_of sel) [((-1)%Z, VActive c)] = (- sol_of sel (VActive c))%Z) as -> by (cbn [lval foldr]; lia).
      assert (sol_of sel (VActive c) = if decide (c ∈ sel.*1) then 1%Z else 0%Z) as -> by done. destruct (decide (c ∈ sel.*1)) as [Hc|Hc].
      * apply elem_of_list_fmap in Hc as ([c' i] & -> & Hc). cbn in *. rewrite (H1 i Hc). lia.
      * rewrite (H2 Hc). lia.
    + cbn [lval foldr sol_of]. destruct (decide ((c, i) ∈ sel)) as [Hin|]; [|destruct (decide _); lia].
      destruct (se_node _ _ _ _ S c i Hin) as (k' & n' & Hk' & Hn' & Hc). rewrite Hk in Hk'. injection Hk' as <-. rewrite Hi in Hn'. injection Hn' as <-.
      rewrite decide_True by (by apply Hc). lia.
    + cbn [lval foldr sol_of]. rewrite decide_True by (by eapply se_root). lia.
Qed.
Lemma sel_objective rep sel cost : selection g rep roots sel -> lval (sol_of sel) (lp_objective cost o g) = total cost sel.
Proof.
  intros S. rewrite objective_val, total_zsum. set (F := fun c : nat => from_option _ _ _).
  assert (Hs : sel.*1 ⊆ o). { intros c Hc. apply elem_of_list_fmap in Hc as ([c' i] & -> & Hc). apply Ho. destruct (se_node _ _ _ _ S _ _ Hc) as (k & _ & Hk & _). eauto. }
  apply NoDup_submseteq in Hs; [|apply S]. apply submseteq_Permutation in Hs as [rest Hp]. rewrite (zsum_perm _ _ _ Hp), zsum_app.
  rewrite (zsum_zero F rest).
  - rewrite zsum_fmap, Z.add_0_r. apply zsum_ext. intros [c i] Hci. cbn. destruct (se_node _ _ _ _ S _ _ Hci) as (k & _ & Hk & _). unfold F. rewrite Hk. cbn.
    by apply (sel_class_sum rep sel cost c k S Hk).
  - intros c Hc. unfold F. destruct (eg_classes g !! c) as [k|] eqn:Hk; [|done]. cbn. apply (sel_class_sum rep sel cost c k S Hk).
    intros Hin. rewrite Hp in Hno. apply NoDup_app in Hno as (_ & Hd & _). by apply (Hd c).
Qed.
End lp.

(** ** On reachable e-graphs *)
Section main.
Context {Op D : Type} `{Countable Op} (L : lang Op) (A : analysis Op D) (ex : bool) (g : egraph Op D).
Context (Lo : lang_ok L) (R : reachable L A ex g) (Ec : eg_clean g = true).
Context (o o' : list nat) (Ho : forall c, c ∈ o <-> is_Some (eg_classes g !! c)) (Hno : NoDup o) (Ho' : forall c, c ∈ o' <-> is_Some (eg_classes g !! c)).
Context (roots : list nat) (Hroots : forall r, r ∈ roots -> known g r).
Lemma roots_ok r : r ∈ roots -> valid_id g r = true /\ is_Some (eg_classes g !! eg_find g r).
Proof.
  intros Hr. apply Hroots in Hr. unfold known in Hr. pose proof (reachable_Inv _ _ _ _ R) as I. split; [by apply Nat.ltb_lt|].
  apply (ci_cls _ _ _ _ _ _ _ (iv_c _ I)). rewrite (iv_len _ I). split; [by apply uf_find_lt; [apply I|]|].
  apply (ci_idem _ _ _ _ _ _ _ (iv_c _ I)).
Qed.
Lemma cycles_loop_mono f1 : forall f2 col st rep0 rep, f1 <= f2 -> cycles_loop f1 g col st rep0 = Ok rep -> cycles_loop f2 g col st rep0 = Ok rep.
Proof.
  induction f1 as [|f1 IH]; intros f2 col [|[enter id] st] rep0 rep Hle E; cbn [cycles_loop] in E; try done; [by destruct f2..|].
  destruct f2 as [|f2]; [lia|]. cbn [cycles_loop]. destruct (col !! id); [|done]. cbn [expect mbind res_bind] in *. destruct enter.
  - destruct (class_of g id) as [k| |]; [|done|done]. cbn [mbind res_bind] in *. destruct (scan_nodes _ _ _ _ _ _) as [[st' rep']| |]; [|done|done]. cbn [mbind res_bind] in *.
    apply IH; [lia|done].
  - apply IH; [lia|done].
Qed.
Lemma find_cycles_mono f1 f2 l rep : f1 <= f2 -> find_cycles f1 l g = Ok rep -> find_cycles f2 l g = Ok rep.
Proof. apply cycles_loop_mono. Qed.
Notation HC := (clean_class_of L A ex g R).
Notation HK := (clean_children L A ex g Lo R Ec).
Lemma lp_ok rep fuel0 : find_cycles fuel0 o g = Ok rep ->
  exists cs, lp_constraints g rep o' roots = Ok cs /\
  ((exists sol, feasible sol (lp_bounds rep o g) cs) <-> exists sel, selection g rep roots sel) /\
  (forall sol, feasible sol (lp_bounds rep o g) cs -> exists bound e idxs sel,
    (forall fuel, bound <= fuel -> extract_solution fuel g sol roots = Ok (e, idxs)) /\
    dag e /\ built_from g sel e /\ selection g rep roots sel /\
    Forall2 (fun r x => exists t, Tree e x t /\ Rep g t (eg_find g r)) roots idxs /\
    forall cost, (forall c i, 0 <= cost c i)%Z -> (total cost sel <= lval sol (lp_objective cost o g))%Z /\
      (optimal sol (lp_objective cost o g) (lp_bounds rep o g) cs -> forall sel', selection g rep roots sel' -> (total cost sel <= total cost sel')%Z)).
Proof.
  intros Hcyc. destruct (find_cycles_ok g HC (fun c k n v Hk Hn Hv => proj1 (HK c k n v Hk Hn Hv)) o Ho) as (b2 & rep2 & Hb2 & Ha & _).
  assert (rep2 = rep) as -> by (pose proof (find_cycles_mono fuel0 (fuel0 + b2) o rep ltac:(lia) Hcyc); specialize (Hb2 (fuel0 + b2) ltac:(lia)); congruence).
  destruct (constraints_spec g HC HK o' Ho' roots roots_ok rep) as (cs & El & _). exists cs. split; [done|].
  assert (Hsol : forall sol, feasible sol (lp_bounds rep o g) cs -> exists bound e idxs sel,
    (forall fuel, bound <= fuel -> extract_solution fuel g sol roots = Ok (e, idxs)) /\
    dag e /\ built_from g sel e /\ selection g rep roots sel /\
    Forall2 (fun r x => exists t, Tree e x t /\ Rep g t (eg_find g r)) roots idxs /\
    forall cost, (forall c i, 0 <= cost c i)%Z -> (total cost sel <= lval sol (lp_objective cost o g))%Z /\
      (optimal sol (lp_objective cost o g) (lp_bounds rep o g) cs -> forall sel', selection g rep roots sel' -> (total cost sel <= total cost sel')%Z)).
  { intros sol Hfe. destruct (extract_ok g HC HK o o' Ho Ho' roots roots_ok rep sol cs El Hfe Ha) as (b & e & idxs & sel & Hx & Hd & HB & HS & _ & HF & Hcost).
    exists b, e, idxs, sel. split_and!; try done. intros cost Hpos. split; [by apply Hcost|]. intros [_ Hopt] sel' Hsel'. specialize (Hcost cost Hpos).
    rewrite <- (sel_objective g o Ho Hno roots rep sel' cost Hsel'). etrans; [exact Hcost|]. apply Hopt. exact (sel_feasible g HC HK o o' Ho Ho' roots roots_ok rep sel' cs El Hsel'). }
  split; [split|done].
  - intros [sol Hf]. destruct (Hsol sol Hf) as (_ & _ & _ & sel & _ & _ & _ & HS & _). eauto.
  - intros [sel HS]. exists (sol_of sel). exact (sel_feasible g HC HK o o' Ho Ho' roots roots_ok rep sel cs El HS).
Qed.
End main.

(** ** Sharing: selections from sets of terms *)
Fixpoint nub1 (l : list (nat * nat)) : list (nat * nat) :=
  match l with [] => [] | x :: l => if decide (x.1 ∈ l.*1) then nub1 l else x :: nub1 l end.
Lemma nub1_keys l c : c ∈ (nub1 l).*1 <-> c ∈ l.*1.
Proof.
  induction l as [|x l IH]; [done|]. cbn [nub1]. rewrite fmap_cons, elem_of_cons. destruct (decide _) as [Hx|Hx].
  - rewrite IH. split; [by right|]. by intros [->|?].
  - by rewrite fmap_cons, elem_of_cons, IH.
Qed.
Lemma nub1_nodup l : NoDup (nub1 l).*1.
Proof.
  induction l as [|x l IH]; [constructor|]. cbn [nub1]. destruct (decide _) as [Hx|Hx]; [done|]. rewrite fmap_cons. constructor; [|done]. by rewrite nub1_keys.
Qed.
Lemma nub1_sub l x : x ∈ nub1 l -> x ∈ l.
Proof. induction l as [|y l IH]; [done|]. cbn [nub1]. destruct (decide _); rewrite !elem_of_cons; naive_solver. Qed.
Lemma nub1_len l : length (nub1 l) <= length l.
Proof. induction l as [|x l IH]; cbn [nub1 length]; [lia|]. destruct (decide _); cbn [length]; lia. Qed.
Lemma total_unit sel : total (fun _ _ => 1%Z) sel = Z.of_nat (length sel).
Proof. induction sel as [|x l IH]; [done|]. cbn [total foldr length]. unfold total in IH. rewrite IH. lia. Qed.
Section terms.
Context {Op D : Type} `{Countable Op} (L : lang Op) (A : analysis Op D) (ex : bool) (g : egraph Op D).
Context (Lo : lang_ok L) (R : reachable_np L A ex g) (Ec : eg_clean g = true).
Lemma terms_selection roots (ts : list (term Op)) :
  (forall f us u, TNode f us ∈ ts -> u ∈ us -> u ∈ ts) -> (forall t, t ∈ ts -> exists c, Rep g t c) -> (forall r, r ∈ roots -> exists t, t ∈ ts /\ Rep g t (eg_find g r)) ->
  exists sel, selection g [] roots sel /\ length sel <= length ts.
Proof.
  intros Hsub Hrep Hroots. pose proof (reachable_np_reachable _ _ _ _ R) as R0.
  assert (Hsel : exists sel0, length sel0 = length ts /\ (forall c, c ∈ sel0.*1 <-> exists t, t ∈ ts /\ Rep g t c) /\
    forall c i, (c, i) ∈ sel0 -> exists f us k n, TNode f us ∈ ts /\ eg_classes g !! c = Some k /\ c_nodes k !! i = Some n /\ Forall2 (fun t x => Rep g t (eg_find g x)) us (nch n)).
  { clear Hsub Hroots. induction ts as [|t ts IH]; [exists []; split_and!; [done| |by intros c i ?%elem_of_nil]; intros c; split; [by intros ?%elem_of_nil|by intros (t & Ht%elem_of_nil & _)]|].
    destruct IH as (sel0 & El & Hs & Hn); [intros; apply Hrep; by right|]. destruct (Hrep t) as [c Hc]; [left|].
    assert (Ht : exists f us k n i, t = TNode f us /\ eg_classes g !! c = Some k /\ c_nodes k !! i = Some n /\ Forall2 (fun t x => Rep g t (eg_find g x)) us (nch n)).
    { inversion Hc as [f us cs c' k Hk Hin Hcs]; subst. apply elem_of_list_lookup in Hin as [i Hi]. exists f, us, k, (Node f cs), i. done. }
    destruct Ht as (f & us & k & n & i & -> & Hk & Hi & Hus). exists ((c, i) :: sel0). split_and!; [cbn; by rewrite El| |].
    - intros d. rewrite fmap_cons, elem_of_cons, Hs. setoid_rewrite elem_of_cons. cbn. split.
      + intros [->|(u & Hu & Hd)]; eauto.
      + intros (u & [->|Hu] & Hd); [left|right; eauto]. exact (Rep_fun_clean L A ex g _ d c R Ec Hd Hc).
    - intros d j [[= -> ->]|Hj]%elem_of_cons.
      + exists f, us, k, n. split_and!; [left|done..].
      + destruct (Hn d j Hj) as (f' & us' & k' & n' & Ht' & Hr'). exists f', us', k', n'. split; [by right|done]. }
  destruct Hsel as (sel0 & El & Hs & Hn). exists (nub1 sel0). split; [|rewrite <- El; apply nub1_len]. split.
  - apply nub1_nodup.
  - intros c i _ Hx. by apply elem_of_nil in Hx.
  - intros c i Hci. apply nub1_sub in Hci. destruct (Hn c i Hci) as (f & us & k & n & Ht & Hk & Hi & Hus). exists k, n. split_and!; [done..|]. intros v Hv. rewrite nub1_keys, Hs.
    apply elem_of_list_lookup in Hv as [p Hp]. destruct (Forall2_lookup_r _ _ _ _ _ Hus Hp) as (u & Hu & Hru). exists u. split; [eapply Hsub; [exact Ht|by eapply elem_of_list_lookup_2]|].
    destruct (clean_children L A ex g Lo R0 Ec c k n v Hk) as [_ Hf]; [by eapply elem_of_list_lookup_2|by eapply elem_of_list_lookup_2|]. by rewrite Hf in Hru.
  - intros r Hr. rewrite nub1_keys, Hs. by apply Hroots.
Qed.
Lemma lp_smallest o o' roots rep fuel0 cs sol : (forall c, c ∈ o <-> is_Some (eg_classes g !! c)) -> NoDup o -> (forall c, c ∈ o' <-> is_Some (eg_classes g !! c)) ->
  (forall r, r ∈ roots -> known g r) -> (forall u, ~ tc (uses g []) u u) -> find_cycles fuel0 o g = Ok rep -> lp_constraints g rep o' roots = Ok cs ->
  optimal sol (lp_objective (fun _ _ => 1%Z) o g) (lp_bounds rep o g) cs ->
  exists bound e idxs, (forall fuel, bound <= fuel -> extract_solution fuel g sol roots = Ok (e, idxs)) /\
  forall ts, (forall f us u, TNode f us ∈ ts -> u ∈ us -> u ∈ ts) -> (forall t, t ∈ ts -> exists c, Rep g t c) -> (forall r, r ∈ roots -> exists t, t ∈ ts /\ Rep g t (eg_find g r)) ->
    length e <= length ts.
Proof.
  intros Ho Hno Ho' Hr Hac Hc El Hopt. pose proof (reachable_np_reachable _ _ _ _ R) as R0.
  assert (rep = []) as ->.
  { destruct (cycles_spec L A ex g o Lo R0 Ec Ho) as (b2 & rep2 & Hb2 & _ & Hrep).
    assert (rep2 = rep) as -> by (pose proof (find_cycles_mono g fuel0 (fuel0 + b2) o rep ltac:(lia) Hc); specialize (Hb2 (fuel0 + b2) ltac:(lia)); congruence).
    destruct rep as [|[u i] rep]; [done|]. exfalso. destruct (Hrep u i) as (k & n & v & Hk & Hi & Hv & Hp); [left|]. apply (Hac u).
    eapply tc_rtc_r; [|exact Hp]. apply tc_once. exists k, i, n. split_and!; try done. intros Hx. by apply elem_of_nil in Hx. }
  destruct (lp_ok L A ex g Lo R0 Ec o o' Ho Hno Ho' roots Hr [] fuel0 Hc) as (cs' & El' & _ & Hsol). rewrite El in El'. injection El' as <-.
  destruct (Hsol sol (proj1 Hopt)) as (b & e & idxs & sel & Hx & _ & HB & _ & _ & Hcost). exists b, e, idxs. split; [done|]. intros ts H1 H2 H3.
  destruct (terms_selection roots ts H1 H2 H3) as (sel' & HS' & Hle). destruct (Hcost (fun _ _ => 1%Z)) as [_ Hmin]; [intros; lia|].
  specialize (Hmin Hopt sel' HS'). rewrite !total_unit in Hmin. rewrite (proj1 HB). lia.
Qed.
End terms.
