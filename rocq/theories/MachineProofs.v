(** The register machine enumerates exactly the solutions of its code. *)
From Verif Require Import Base UnionFind EGraphModel EGraphSteps EGraphInv EGraphPres EGraphRuns Spec EGraphMain
  EGraphReach Terms RecExprModel RecExprProofs ExprModel PatSpec ExprProofs MachineModel MatchSpec MatchProofs.

Lemma elem_of_concat {X} (x : X) (ls : list (list X)) : x ∈ concat ls <-> exists l, x ∈ l /\ l ∈ ls.
Proof.
  rewrite elem_of_list_In, in_concat. setoid_rewrite elem_of_list_In. split; intros (l & ? & ?); exists l; done.
Qed.
Lemma NoDup_fmap_concat {X Y Z} (f : Y -> Z) (h : X -> list Y) xs :
  NoDup xs -> (forall x, x ∈ xs -> NoDup (f <$> h x)) ->
  (forall x x' y y', x ∈ xs -> x' ∈ xs -> y ∈ h x -> y' ∈ h x' -> f y = f y' -> x = x') ->
  NoDup (f <$> concat (h <$> xs)).
Proof.
  induction xs as [|x xs IH]; intros Hn Hx Hd; cbn [fmap list_fmap concat]; [constructor|].
  apply NoDup_cons in Hn as [Hni Hn]. rewrite fmap_app. apply NoDup_app. split_and!.
  - apply Hx. left.
  - intros z (y & -> & Hy)%elem_of_list_fmap (y' & E & Hy')%elem_of_list_fmap.
    apply elem_of_concat in Hy' as (l & Hl & (x' & -> & Hx')%elem_of_list_fmap).
    assert (x = x') as <- by (eapply (Hd x x' y y'); auto; [left|by right]). done.
  - apply IH; auto; [intros; apply Hx; by right|]. intros. eapply Hd; eauto; by right.
Qed.

Section machine.
Context {Op D : Type} `{Countable Op}.
Notation node := (node Op).
Notation egraph := (egraph Op D).
Notation instr := (instr Op).
Context (L : lang Op) (Lo : lang_ok L) (it : gset nat -> list nat) (Hit : enumerates it).
Context (g : egraph).

(** What e-matching relies on; holds in every rebuilt e-graph that was not pruned. *)
Record settled : Prop := {
  se_inv : Inv g;
  se_pend : eg_pending g = [];
  se_listed : listed g;
  se_canon : canonical L g;
}.
Context (G : settled).

Definition cls (x : nat) : list node :=
  match eg_classes g !! eg_find g x with Some c => c_nodes c | None => [] end.

(** ** Pure semantics of code *)
Fixpoint outs (code : list instr) (reg : list nat) : list (list nat) :=
  match code with
  | [] => [reg]
  | IBind n i _ :: rest => concat ((fun m => outs rest (reg ++ nch m)) <$> matches_of n (cls (reg !!! i)))
  | IScan _ :: rest => concat ((fun r => outs rest (reg ++ [r])) <$> class_ids it g)
  | ICompare i j :: rest => if eg_find g (reg !!! i) =? eg_find g (reg !!! j) then outs rest reg else []
  | ILookup tm i :: rest =>
      match lookup_term g reg tm [] with
      | Ok (Some ids) => if bool_decide (last ids = Some (eg_find g (reg !!! i))) then outs rest reg else []
      | _ => []
      end
  end.

(** Well-formed lookup terms: children before parents, registers below [n]. *)
Fixpoint wf_term (n k : nat) (tm : list (node + nat)) : Prop :=
  match tm with
  | [] => True
  | inl m :: tm => (forall c, c ∈ nch m -> c < k) /\ wf_term n (S k) tm
  | inr r :: tm => r < n /\ wf_term n (S k) tm
  end.
(** Code for a register file of [n] entries, [nf] at the end. *)
Fixpoint wf_code (n : nat) (code : list instr) (nf : nat) : Prop :=
  match code with
  | [] => n = nf
  | IBind m i out :: rest =>
      i < n /\ out = n /\ Forall (fun c => c = 0) (nch m) /\ wf_code (n + length (nch m)) rest nf
  | IScan out :: rest => out = n /\ wf_code (S n) rest nf
  | ICompare i j :: rest => i < n /\ j < n /\ wf_code n rest nf
  | ILookup tm i :: rest => i < n /\ wf_term n 0 tm /\ wf_code n rest nf
  end.

Fixpoint yields {S} (yield : list nat -> S -> res (S * bool)) (rs : list (list nat)) (s : S) : res (S * bool) :=
  match rs with
  | [] => Ok (s, false)
  | r :: rs => '(s, stop) ← yield r s; if (stop : bool) then Ok (s, true) else yields yield rs s
  end.
Lemma yields_app {S} (yield : list nat -> S -> res (S * bool)) a b s :
  yields yield (a ++ b) s = ('(s, stop) ← yields yield a s; if (stop : bool) then Ok (s, true) else yields yield b s).
Proof.
  revert s. induction a as [|r a IH]; intros s; [done|]. cbn. destruct (yield r s) as [[s1 []]| |]; cbn; auto.
Qed.

Lemma find_res_known x : known g x -> find_res g x = Ok (eg_find g x).
Proof. intros Hk. unfold find_res. assert (valid_id g x = true) as -> by (by apply Nat.ltb_lt). done. Qed.
Lemma class_known x : known g x -> exists c, eg_classes g !! eg_find g x = Some c.
Proof.
  intros Hk. assert (Hs : is_Some (eg_classes g !! eg_find g x)); [|destruct Hs; eauto].
  pose proof (se_inv G) as I. apply (ci_cls _ _ _ _ _ _ _ (iv_c _ I)). rewrite (iv_len _ I). split.
  - apply uf_find_lt; [apply I|done].
  - by apply Inv_find_idem.
Qed.
Lemma class_of_known x : known g x -> exists c, class_of g x = Ok c /\ c_nodes c = cls x.
Proof.
  intros Hk. destruct (class_known x Hk) as [c Hc]. exists c. unfold class_of, cls. rewrite find_res_known by done. cbn.
  by rewrite Hc.
Qed.
Lemma matching_cls n x : Forall (fun c => c = 0) (nch n) -> matching_nodes L n (cls x) = Ok (matches_of n (cls x)).
Proof.
  intros Hz. unfold cls. destruct (eg_classes g !! eg_find g x) as [c|] eqn:Ec.
  - apply matching_nodes_ok; [done| | |by right]; [by eapply (cl_sorted _ _ (se_canon G))|by eapply (cl_nodup _ _ (se_canon G))].
  - done.
Qed.
Lemma cls_known x n c : n ∈ cls x -> c ∈ nch n -> known g c /\ eg_find g c = c.
Proof.
  unfold cls. destruct (eg_classes g !! eg_find g x) as [cl|] eqn:Ec; [|by intros ?%elem_of_nil]. intros Hn Hc.
  pose proof (se_inv G) as I.
  pose proof (cl_canon _ _ (se_canon G) _ _ _ Ec Hn) as Hcan.
  assert (Hf : eg_find g c = c).
  { assert (Hf : forall c, c ∈ (eg_find g <$> nch n) -> eg_find g c = c).
    { intros d (d' & -> & _)%elem_of_list_fmap. by apply Inv_find_idem. }
    apply Hf. unfold canonf in Hcan. assert (nch n = eg_find g <$> nch n) as <-; [|done]. by rewrite <- Hcan at 1. }
  split; [|done]. unfold known. rewrite <- (iv_len _ I). by eapply class_children_lt.
Qed.

Definition settled_id (x : nat) : Prop := known g x /\ eg_find g x = x.
Lemma find_settled x : known g x -> settled_id (eg_find g x).
Proof.
  intros Hk. pose proof (se_inv G) as I. split; [apply uf_find_lt; [apply I|done]|by apply Inv_find_idem].
Qed.
Lemma lookup_settled n i : eg_lookup g n = Some i -> settled_id i.
Proof.
  intros Hl. pose proof (se_inv G) as I. apply Inv_memo_clean in Hl as (k & m & Hk & _ & ->); [|done|apply G].
  apply find_settled. unfold known. rewrite <- (iv_len _ I). by eapply lookup_lt_Some.
Qed.
Lemma class_ids_elem r : r ∈ class_ids it g <-> settled_id r.
Proof.
  pose proof (se_inv G) as I. unfold class_ids. rewrite elem_of_list_omap. setoid_rewrite (Hit (dom (eg_classes g))).
  setoid_rewrite elem_of_elements. split.
  - intros (x & Hx & Er). destruct (eg_classes g !! x) as [c|] eqn:Ec; [|done]. cbn in Er. injection Er as <-.
    rewrite (ci_cid _ _ _ _ _ _ _ (iv_c _ I) _ _ Ec).
    unfold settled_id, known. rewrite <- (iv_len _ I). apply (ci_cls _ _ _ _ _ _ _ (iv_c _ I)). eauto.
  - unfold settled_id, known. rewrite <- (iv_len _ I). intros [c Hc]%(ci_cls _ _ _ _ _ _ _ (iv_c _ I)). exists r. split; [by apply elem_of_dom|].
    rewrite Hc. cbn. by rewrite (ci_cid _ _ _ _ _ _ _ (iv_c _ I) _ _ Hc).
Qed.
Lemma class_ids_perm : class_ids it g ≡ₚ elements (dom (eg_classes g)).
Proof.
  unfold class_ids. etransitivity; [apply omap_Permutation, Hit|].
  assert (forall l, (forall r, r ∈ l -> is_Some (eg_classes g !! r)) ->
    omap (fun r => c_id <$> eg_classes g !! r) l = l) as ->; [|done|].
  - induction l as [|r l IH]; intros Hl; [done|]. destruct (Hl r) as [c Hc]; [left|]. cbn. rewrite Hc. cbn.
    rewrite (ci_cid _ _ _ _ _ _ _ (iv_c _ (se_inv G)) _ _ Hc). f_equal. apply IH. intros; apply Hl; by right.
  - intros r Hr%elem_of_elements. by apply elem_of_dom.
Qed.
Lemma class_ids_nodup : NoDup (class_ids it g).
Proof. rewrite class_ids_perm. apply NoDup_elements. Qed.

Lemma lookup_term_ok reg tm ids : Forall (known g) reg -> wf_term (length reg) (length ids) tm -> Forall settled_id ids ->
  exists o, lookup_term g reg tm ids = Ok o.
Proof.
  intros Hk. revert ids. induction tm as [|[n|r] tm IH]; intros ids Hw Hids; cbn [lookup_term wf_term] in *.
  - eauto.
  - destruct Hw as [Hc Hw]. destruct (mapM_Some_2' (fun c => ids !! c) (nch n)) as (ds & Em & Hf).
    { intros c Hin. apply lookup_lt_is_Some_2. auto. }
    unfold map_children_o. rewrite Em. cbn [expect mbind res_bind]. unfold lookup_res. cbn [nch].
    assert (forallb (valid_id g) ds = true) as ->.
    { apply forallb_forall. intros d Hin%elem_of_list_In. destruct (elem_of_list_lookup_1 _ _ Hin) as [q Hq].
      destruct (Forall2_lookup_r _ _ _ _ _ Hf Hq) as (c & _ & Hd). apply Nat.ltb_lt.
      by apply (Forall_lookup_1 _ _ _ _ Hids Hd). }
    cbn [mbind res_bind]. destruct (eg_lookup g (Node (nop n) ds)) as [i|] eqn:El; [|eauto].
    apply IH; [by rewrite app_length, Nat.add_1_r|]. apply Forall_app. split; [done|]. repeat constructor; by eapply lookup_settled.
  - destruct Hw as [Hr Hw]. destruct (lookup_lt_is_Some_2 _ _ Hr) as [x Hx]. rewrite Hx. cbn [expect mbind res_bind].
    rewrite find_res_known by (by eapply (Forall_lookup_1 _ _ _ _ Hk Hx)). cbn [mbind res_bind].
    apply IH; [by rewrite app_length, Nat.add_1_r|]. apply Forall_app. split; [done|]. constructor; [|done].
    apply find_settled. by eapply (Forall_lookup_1 _ _ _ _ Hk Hx).
Qed.

(** ** The machine yields exactly the register files of the pure semantics, in order *)
Lemma try_each_ok {S X} (yield : list nat -> S -> res (S * bool)) (f : X -> list nat -> S -> res (list nat * S * bool))
    (h : X -> list (list nat)) xs reg0 reg s :
  (forall x reg s, x ∈ xs -> take (length reg0) reg = reg0 ->
     ((fun '(_, s, b) => (s, b)) <$> f x reg s) = yields yield (h x) s /\
     forall reg' s' b, f x reg s = Ok (reg', s', b) -> take (length reg0) reg' = reg0) ->
  take (length reg0) reg = reg0 ->
  ((fun '(_, s, b) => (s, b)) <$> try_each f xs reg s) = yields yield (concat (h <$> xs)) s /\
  forall reg' s' b, try_each f xs reg s = Ok (reg', s', b) -> take (length reg0) reg' = reg0.
Proof.
  revert reg s. induction xs as [|x xs IH]; intros reg s Hf Hr; cbn [try_each].
  - split; [done|]. intros. by inv_res.
  - destruct (Hf x reg s) as [E1 E2]; [left|done|]. cbn [fmap list_fmap concat]. rewrite yields_app.
    destruct (f x reg s) as [[[reg1 s1] b]| |] eqn:Ef; cbn in E1 |- *; rewrite <- E1; cbn; [|done|done].
    destruct b; [split; [done|]; intros; inv_res; by eapply E2|].
    destruct (IH reg1 s1) as [F1 F2]; [intros; apply Hf; [by right|done]|by eapply E2|]. split; [done|].
    intros. by eapply F2.
Qed.
Lemma run_outs {S} (yield : list nat -> S -> res (S * bool)) nf code reg s :
  Forall (known g) reg -> wf_code (length reg) code nf ->
  ((fun '(_, s, b) => (s, b)) <$> run L it g yield code reg s) = yields yield (outs code reg) s /\
  forall reg' s' b, run L it g yield code reg s = Ok (reg', s', b) -> take (length reg) reg' = reg.
Proof.
  revert reg s. induction code as [|c code IH]; intros reg s Hk Hw; cbn [run outs] in *.
  { cbn. destruct (yield reg s) as [[s1 b]| |]; cbn; [|split; [done|]; intros; by inv_res|split; [done|]; intros; by inv_res].
    split; [by destruct b|]. intros. inv_res. by rewrite firstn_all. }
  destruct c as [n i out|i j|tm i|out]; cbn [wf_code] in Hw.
  - destruct Hw as (Hi & -> & Hz & Hw). destruct (lookup_lt_is_Some_2 _ _ Hi) as [x Hx]. rewrite Hx. cbn [expect mbind res_bind].
    assert (Hkx : known g x) by (by eapply (Forall_lookup_1 _ _ _ _ Hk Hx)).
    destruct (class_of_known x Hkx) as (c & Ec & En). rewrite Ec. cbn [mbind res_bind]. rewrite En. rewrite matching_cls by done. cbn [mbind res_bind].
    rewrite (list_lookup_total_correct _ _ _ Hx). apply try_each_ok; [|by rewrite firstn_all].
    intros m reg1 s1 Hm Hr1. rewrite Hr1.
    apply elem_of_list_filter in Hm as [Hm Hin]. apply andb_true_iff in Hm as [_ El%Nat.eqb_eq].
    assert (Hk1 : Forall (known g) (reg ++ nch m)).
    { apply Forall_app. split; [done|]. apply Forall_forall. intros d Hd. by eapply cls_known. }
    destruct (IH (reg ++ nch m) s1 Hk1) as [E1 E2]; [by rewrite app_length, <- El|].
    split; [done|]. intros reg' s' b E. pose proof (E2 _ _ _ E) as E3. rewrite app_length in E3.
    apply (f_equal (take (length reg))) in E3. rewrite take_take, take_app in E3. by rewrite Nat.min_l in E3 by lia.
  - destruct Hw as (Hi & Hj & Hw). destruct (lookup_lt_is_Some_2 _ _ Hi) as [x Hx]. destruct (lookup_lt_is_Some_2 _ _ Hj) as [y Hy].
    rewrite Hx. cbn [expect mbind res_bind]. rewrite find_res_known by (by eapply (Forall_lookup_1 _ _ _ _ Hk Hx)).
    cbn [mbind res_bind]. rewrite Hy. cbn [expect mbind res_bind]. rewrite find_res_known by (by eapply (Forall_lookup_1 _ _ _ _ Hk Hy)).
    cbn [mbind res_bind]. rewrite (list_lookup_total_correct _ _ _ Hx), (list_lookup_total_correct _ _ _ Hy).
    destruct (_ =? _); [by apply IH|]. split; [done|]. intros. inv_res. by rewrite firstn_all.
  - destruct Hw as (Hi & Ht & Hw). destruct (lookup_term_ok reg tm []) as [o ->]; [done|done|constructor|]. cbn [mbind res_bind].
    destruct o as [ids|]; [|split; [done|]; intros; inv_res; by rewrite firstn_all].
    destruct (lookup_lt_is_Some_2 _ _ Hi) as [x Hx].
    rewrite Hx. cbn [expect mbind res_bind]. rewrite find_res_known by (by eapply (Forall_lookup_1 _ _ _ _ Hk Hx)).
    cbn [mbind res_bind]. rewrite (list_lookup_total_correct _ _ _ Hx).
    destruct (bool_decide _); [by apply IH|]. split; [done|]. intros. inv_res. by rewrite firstn_all.
  - destruct Hw as (-> & Hw). apply try_each_ok; [|by rewrite firstn_all].
    intros m reg1 s1 Hm Hr1. rewrite Hr1.
    assert (Hk1 : Forall (known g) (reg ++ [m])).
    { apply Forall_app. split; [done|]. repeat constructor. by apply class_ids_elem. }
    destruct (IH (reg ++ [m]) s1 Hk1) as [E1 E2]; [by rewrite app_length, Nat.add_1_r|].
    split; [done|]. intros reg' s' b E. pose proof (E2 _ _ _ E) as E3. rewrite app_length in E3.
    apply (f_equal (take (length reg))) in E3. rewrite take_take, take_app in E3. by rewrite Nat.min_l in E3 by lia.
Qed.
Lemma outs_len nf code reg r : Forall (known g) reg -> wf_code (length reg) code nf -> r ∈ outs code reg ->
  length r = nf /\ Forall (known g) r /\ reg `prefix_of` r.
Proof.
  revert reg. induction code as [|c code IH]; intros reg Hk Hw Hr; cbn [outs wf_code] in *.
  { apply elem_of_list_singleton in Hr as ->. done. }
  destruct c as [n i out|i j|tm i|out].
  - destruct Hw as (Hi & -> & Hz & Hw). apply elem_of_concat in Hr as (l & Hr & Hl).
    apply elem_of_list_fmap in Hl as (m & -> & [Hm Hin]%elem_of_list_filter). apply andb_true_iff in Hm as [_ El%Nat.eqb_eq].
    destruct (IH (reg ++ nch m)) as (H1 & H2 & H3); auto.
    + apply Forall_app. split; [done|]. apply Forall_forall. intros d Hd. by eapply cls_known.
    + by rewrite app_length, <- El.
    + split_and!; auto. etransitivity; [|exact H3]. by exists (nch m).
  - destruct Hw as (Hi & Hj & Hw). destruct (_ =? _); [by apply IH|by apply elem_of_nil in Hr].
  - destruct Hw as (Hi & Hj & Hw). destruct (lookup_term _ _ _ _) as [[ids|]| |]; try by apply elem_of_nil in Hr.
    destruct (bool_decide _); [by apply IH|by apply elem_of_nil in Hr].
  - destruct Hw as (-> & Hw). apply elem_of_concat in Hr as (l & Hr & Hl).
    apply elem_of_list_fmap in Hl as (m & -> & Hin).
    destruct (IH (reg ++ [m])) as (H1 & H2 & H3); auto.
    + apply Forall_app. split; [done|]. repeat constructor. by apply class_ids_elem.
    + by rewrite app_length, Nat.add_1_r.
    + split_and!; auto. etransitivity; [|exact H3]. by exists [m].
Qed.
End machine.
