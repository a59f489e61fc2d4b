(** The congruence edges the length optimiser works with. *)
From Verif Require Import Base UnionFind EGraphModel EGraphSafe ExplainForest Terms RecExprModel ExprModel ExplainModel ExplainSpec ExplainPath
  ExplainProofs MatchSpec OptModel OptDist OptPar OptNeighbours OptSearch OptExplain.

(** ** What does not matter *)
Section ext.
Context {Op D : Type} `{Countable Op}.
Notation explain := (explain Op).
Notation eclass := (eclass Op D).
Context (it : gset nat -> list nat) (cit : gmap nat eclass -> list nat).
Lemma all_enodes_mono (x : explain) fuel : forall fuel' todo seen s, all_enodes_loop fuel x todo seen = Ok s -> fuel <= fuel' -> all_enodes_loop fuel' x todo seen = Ok s.
Proof.
  induction fuel as [|fuel IH]; intros fuel' todo seen s E Hle; [done|]. destruct fuel' as [|fuel']; [lia|]. cbn [all_enodes_loop] in *.
  destruct todo as [|c todo]; [done|]. case_bool_decide; [by apply IH; [|lia]|]. destruct (ex_find x !! c); [|done]. cbn [expect mbind res_bind] in *.
  apply IH; [done|lia].
Qed.
Lemma all_enodes_ext (x x' : explain) : ex_find x' = ex_find x -> forall fuel todo seen, all_enodes_loop fuel x' todo seen = all_enodes_loop fuel x todo seen.
Proof.
  intros E. induction fuel as [|fuel IH]; intros todo seen; [done|]. cbn [all_enodes_loop]. destruct todo as [|c todo]; [done|].
  rewrite E. case_bool_decide; [apply IH|]. destruct (ex_find x !! c); [|done]. cbn [expect mbind res_bind]. apply IH.
Qed.
Lemma find_all_enodes_same (x x' : explain) fuel fuel' c s : ex_find x' = ex_find x -> fuel <= fuel' -> find_all_enodes fuel x c = Ok s -> find_all_enodes fuel' x' c = Ok s.
Proof. intros E Hle Hs. unfold find_all_enodes in *. rewrite (all_enodes_ext x x' E). by eapply all_enodes_mono. Qed.
Lemma class_neighbors_ext (x x' : explain) ns u : ex_find x' = ex_find x -> forall en canons cn k,
  class_neighbors x' ns u en canons cn k = class_neighbors x ns u en canons cn k.
Proof.
  intros E. induction en as [|e en IH]; intros canons cn k; [done|]. cbn [class_neighbors]. rewrite E.
  destruct (ns !! e) as [n|]; [|done]. cbn [expect mbind res_bind].
  destruct (canons !! _) as [others|].
  - destruct (foldM _ others cn) as [cn'| |]; try done. cbn [mbind res_bind]. destruct (_ <? _); [done|]. apply IH.
  - cbn [mbind res_bind]. destruct (_ <? _); [done|]. apply IH.
Qed.
Lemma classes_neighbors_same (x x' : explain) ns u fuel fuel' : ex_find x' = ex_find x -> fuel <= fuel' -> forall cs cn k r,
  classes_neighbors it fuel x ns u cs cn k = Ok r -> classes_neighbors it fuel' x' ns u cs cn k = Ok r.
Proof.
  intros E Hle. induction cs as [|c cs IH]; intros cn k r Er; [done|]. cbn [classes_neighbors] in *.
  destruct (find_all_enodes fuel x c) as [s| |] eqn:Es; try done. rewrite (find_all_enodes_same x x' _ _ _ _ E Hle Es). cbn [mbind res_bind] in *.
  rewrite (class_neighbors_ext x x' ns u E). destruct (class_neighbors x ns u (it s) ∅ cn k) as [[[cn' k'] st]| |]; try done. cbn [mbind res_bind] in *. destruct st; [done|].
  by apply IH.
Qed.
Lemma find_congruence_neighbors_same (x x' : explain) ns cl u fuel fuel' r : ex_find x' = ex_find x -> fuel <= fuel' ->
  find_congruence_neighbors it cit fuel x ns cl u = Ok r -> find_congruence_neighbors it cit fuel' x' ns cl u = Ok r.
Proof.
  intros E Hle Er. unfold find_congruence_neighbors, forest_neighbors in *. rewrite E.
  destruct (foldM _ (ex_find x) _) as [[cn k]| |]; try done. cbn [mbind res_bind] in *. by eapply classes_neighbors_same.
Qed.
End ext.

Section cong.
Context {Op D : Type} `{Countable Op}.
Notation node := (node Op).
Notation explain := (explain Op).
Notation eclass := (eclass Op D).
Context {ns : list node} {h : list (event Op)} {fnd : nat -> nat} {x : explain} {es : list edge}.
Context (Hd : dag ns) (X : xforest ns h fnd x es).
Let W : world (alt_of h) ns h x es := X_world Hd X.
Let Hlen : length (ex_find x) = length ns := w_len _ _ _ _ _ W.
Let F : forest (alt_of h) (ex_find x) es := w_for _ _ _ _ _ W.
Notation N := (length (ex_find x)).
Notation f := (ex_find x).
Context (Hnl : forall i c, c ∈ nbs f i -> cn_next c < N) (Hnbp : nbp f).

Definition congruent (a b : nat) : Prop :=
  exists n m, ns !! a = Some n /\ ns !! b = Some m /\ nop n = nop m /\ Forall2 (connected es) (nch n) (nch m).
Lemma congruent_sym a b : congruent a b -> congruent b a.
Proof.
  intros (n & m & Hn & Hm & Eo & Hf). exists m, n. split; [done|]. split; [done|]. split; [done|].
  apply Forall2_flip. eapply Forall2_impl; [exact Hf|]. intros. by apply connected_sym.
Qed.
Definition cong_only (cn : list (list nat)) : Prop := length cn = N /\ forall a os b, cn !! a = Some os -> b ∈ os -> congruent a b.
Definition inn (cn : list (list nat)) (a b : nat) : Prop := exists os, cn !! a = Some os /\ b ∈ os.
Definition sub (cn cn' : list (list nat)) : Prop := forall a b, inn cn a b -> inn cn' a b.

Lemma push_at_ok cn a b : cong_only cn -> congruent a b -> exists cn', push_at cn a b = Ok cn' /\ cong_only cn' /\ sub cn cn' /\ inn cn' a b.
Proof.
  intros [Hl Hc] Hab. assert (Ha : a < length cn) by (destruct Hab as (n & _ & Hn & _); rewrite Hl, Hlen; by eapply lookup_lt_Some).
  destruct (lookup_lt_is_Some_2 cn a Ha) as [os Hos]. unfold push_at. rewrite Hos. cbn [expect mbind res_bind]. eexists. split; [done|].
  split; [split|split].
  - by rewrite insert_length.
  - intros a' os' b' Hos' Hb. apply list_lookup_insert_Some in Hos' as [(<- & <- & _)|(_ & Hos')]; [|by eapply Hc].
    apply elem_of_app in Hb as [Hb| ->%elem_of_list_singleton]; [by eapply Hc|done].
  - intros a' b' (os' & Hos' & Hb). destruct (decide (a' = a)) as [->|Hne].
    + rewrite Hos in Hos'. injection Hos' as <-. eexists. split; [by apply list_lookup_insert|]. apply elem_of_app. by left.
    + exists os'. by rewrite list_lookup_insert_ne.
  - eexists. split; [by apply list_lookup_insert|]. apply elem_of_app. right. by left.
Qed.
Lemma push_both_ok cn a b : cong_only cn -> congruent a b -> exists cn', push_both cn a b = Ok cn' /\ cong_only cn' /\ sub cn cn' /\ inn cn' a b /\ inn cn' b a.
Proof.
  intros Hc Hab. unfold push_both. destruct (push_at_ok cn a b Hc Hab) as (cn1 & -> & C1 & S1 & I1). cbn [mbind res_bind].
  destruct (push_at_ok cn1 b a C1 (congruent_sym _ _ Hab)) as (cn2 & -> & C2 & S2 & I2). exists cn2. split; [done|]. split; [done|].
  split; [intros ? ? ?; by apply S2, S1|]. split; [by apply S2|done].
Qed.
Lemma sub_refl cn : sub cn cn.
Proof. by intros ? ?. Qed.
Lemma sub_trans a b c : sub a b -> sub b c -> sub a c.
Proof. intros H1 H2 ? ? ?. by apply H2, H1. Qed.

Lemma link_congruent i nd : f !! i = Some nd -> cn_just (xn_parent nd) = JCong -> congruent (cn_current (xn_parent nd)) (cn_next (xn_parent nd)).
Proof.
  intros Hnd Ej. pose proof (fo_cur _ _ _ F _ _ Hnd) as Ec. destruct (decide (cn_next (xn_parent nd) = i)) as [En|Hne].
  - rewrite Ec, En. destruct (lookup_lt_is_Some_2 ns i) as [n Hn]; [rewrite <- Hlen; by eapply lookup_lt_Some|]. exists n, n.
    split; [done|]. split; [done|]. split; [done|]. apply Forall_Forall2_diag. apply Forall_forall. intros. apply rtc_refl.
  - apply (cong_kids W); [|done]. pose proof (fo_par _ _ _ F _ _ Hnd Hne) as Hp. cbv zeta in Hp. unfold edge_of. rewrite Ec. by destruct (cn_fwd _).
Qed.
Lemma forest_neighbors_ok : exists cn k, forest_neighbors x (replicate N [], 0) = Ok (cn, k) /\ cong_only cn /\
  (forall i nd, f !! i = Some nd -> cn_just (xn_parent nd) = JCong ->
    inn cn (cn_current (xn_parent nd)) (cn_next (xn_parent nd)) /\ inn cn (cn_next (xn_parent nd)) (cn_current (xn_parent nd))).
Proof.
  assert (Hgo : forall l cn k, (forall nd, nd ∈ l -> exists i, f !! i = Some nd) -> cong_only cn ->
    exists cn' k', foldM (fun '(cn, counter) nd =>
      match cn_just (xn_parent nd) with
      | JCong => cn ← push_both cn (cn_current (xn_parent nd)) (cn_next (xn_parent nd)); Ok (cn, S counter)
      | JRule _ => Ok (cn, counter)
      end) l (cn, k) = Ok (cn', k') /\ cong_only cn' /\ sub cn cn' /\
      (forall nd, nd ∈ l -> cn_just (xn_parent nd) = JCong ->
        inn cn' (cn_current (xn_parent nd)) (cn_next (xn_parent nd)) /\ inn cn' (cn_next (xn_parent nd)) (cn_current (xn_parent nd)))).
  { induction l as [|nd l IH]; intros cn k Hl Hc; cbn [foldM].
    - exists cn, k. split; [done|]. split; [done|]. split; [apply sub_refl|]. intros nd Hin. by apply elem_of_nil in Hin.
    - destruct (Hl nd) as [i Hi]; [by left|]. destruct (cn_just (xn_parent nd)) as [r|] eqn:Ej; cbn [mbind res_bind].
      + destruct (IH cn k) as (cn' & k' & E & C & S & I); [intros; apply Hl; by right|done|]. exists cn', k'. split; [done|]. split; [done|]. split; [done|].
        intros nd' [->|Hin]%elem_of_cons Ej'; [congruence|by apply I].
      + destruct (push_both_ok cn _ _ Hc (link_congruent i nd Hi Ej)) as (cn1 & -> & C1 & S1 & I1 & I2). cbn [mbind res_bind].
        destruct (IH cn1 (S k)) as (cn' & k' & E & C & S & I); [intros; apply Hl; by right|done|]. exists cn', k'. split; [done|]. split; [done|].
        split; [by eapply sub_trans|]. intros nd' [->|Hin]%elem_of_cons Ej'; [split; by apply S|by apply I]. }
  destruct (Hgo f (replicate N []) 0) as (cn & k & E & C & _ & I).
  - intros nd Hin. by apply elem_of_list_lookup.
  - split; [apply replicate_length|]. intros a os b Ha Hb. apply lookup_replicate in Ha as [-> _]. by apply elem_of_nil in Hb.
  - exists cn, k. split; [exact E|]. split; [done|]. intros i nd Hi. apply I. by eapply elem_of_list_lookup_2.
Qed.

Context (u : list nat) (Hu : forall i, uf_find u i = fnd i).
Lemma fnd_connected a b : a < N -> b < N -> fnd a = fnd b -> connected es a b.
Proof. pose proof X as (H1 & _ & _ & H4 & _). rewrite Hlen. intros Ha Hb. by apply H4. Qed.
Definition canons_ok (canons : gmap node (list nat)) : Prop := forall k os o, canons !! k = Some os -> o ∈ os ->
  exists n, ns !! o = Some n /\ k = Node (nop n) (uf_find u <$> nch n).
Lemma same_canon a b n m : ns !! a = Some n -> ns !! b = Some m -> Node (nop n) (uf_find u <$> nch n) = Node (nop m) (uf_find u <$> nch m) -> congruent a b.
Proof.
  intros Hn Hm [= Eo Ec]. exists n, m. split; [done|]. split; [done|]. split; [done|].
  assert (El : length (nch n) = length (nch m)) by (rewrite <- (fmap_length (uf_find u)), Ec; apply fmap_length).
  apply Forall2_same_length_lookup_2; [done|]. intros i c d Hc Hd'. apply fnd_connected.
  - eapply (kids_lt W); [exact Hn|]. by eapply elem_of_list_lookup_2.
  - eapply (kids_lt W); [exact Hm|]. by eapply elem_of_list_lookup_2.
  - apply (f_equal (.!! i)) in Ec. rewrite !list_lookup_fmap, Hc, Hd' in Ec. cbn in Ec. injection Ec as Ec. by rewrite !Hu in Ec.
Qed.
Lemma class_neighbors_ok : forall en canons cn k, (forall e, e ∈ en -> e < N) -> canons_ok canons -> cong_only cn ->
  exists cn' k' st, class_neighbors x ns u en canons cn k = Ok (cn', k', st) /\ cong_only cn' /\ sub cn cn'.
Proof.
  induction en as [|e en IH]; intros canons cn k He Hk Hc; cbn [class_neighbors].
  { exists cn, k, false. split; [done|]. split; [done|apply sub_refl]. }
  destruct (lookup_lt_is_Some_2 ns e) as [n Hn]; [rewrite <- Hlen; apply He; by left|]. rewrite Hn. cbn [expect mbind res_bind].
  set (key := Node (nop n) (uf_find u <$> nch n)). destruct (canons !! key) as [others|] eqn:Ek.
  - assert (Hfold : forall l cn, (forall o, o ∈ l -> congruent e o) -> cong_only cn ->
      exists cn', foldM (fun cn o => push_both cn e o) l cn = Ok cn' /\ cong_only cn' /\ sub cn cn').
    { induction l as [|o l IHl]; intros cn0 Hl Hc0; cbn [foldM]; [exists cn0; split; [done|]; split; [done|apply sub_refl]|].
      destruct (push_both_ok cn0 e o Hc0 (Hl o ltac:(by left))) as (cn1 & -> & C1 & S1 & _). cbn [mbind res_bind].
      destruct (IHl cn1) as (cn2 & E2 & C2 & S2); [intros; apply Hl; by right|done|]. exists cn2. split; [done|]. split; [done|by eapply sub_trans]. }
    destruct (Hfold others cn) as (cn1 & -> & C1 & S1); [|done|].
    { intros o Ho. destruct (Hk _ _ _ Ek Ho) as (m & Hm & Em). by eapply same_canon. }
    cbn [mbind res_bind].
    destruct (_ <? _); [exists cn1, (k + length others), true; done|].
    destruct (IH (<[key := others ++ [e]]> canons) cn1 (k + length others)) as (cn2 & k2 & st & -> & C2 & S2); [intros; apply He; by right| |done|].
    + intros k' os o Hos Ho. apply lookup_insert_Some in Hos as [[<- <-]|[_ Hos]]; [|by eapply Hk].
      apply elem_of_app in Ho as [Ho| ->%elem_of_list_singleton]; [by eapply Hk|]. by exists n.
    + exists cn2, k2, st. split; [done|]. split; [done|by eapply sub_trans].
  - cbn [mbind res_bind]. destruct (_ <? _); [exists cn, (S k), true; split; [done|]; split; [done|apply sub_refl]|].
    apply IH; [intros; apply He; by right| |done].
    intros k' os o Hos Ho. apply lookup_insert_Some in Hos as [[<- <-]|[_ Hos]]; [|by eapply Hk].
    apply elem_of_list_singleton in Ho as ->. by exists n.
Qed.
Context (it : gset nat -> list nat) (Hit : enumerates it) (cit : gmap nat eclass -> list nat).
Lemma it_elem s i : i ∈ it s <-> i ∈ s.
Proof. rewrite (Hit s). apply elem_of_elements. Qed.
Lemma classes_neighbors_ok fuel : S (sumf (deg (x := x)) N) < fuel -> forall cs cn k, (forall c, c ∈ cs -> c < N) -> cong_only cn ->
  exists cn', classes_neighbors it fuel x ns u cs cn k = Ok cn' /\ cong_only cn' /\ sub cn cn'.
Proof.
  intros Hfu. induction cs as [|c cs IH]; intros cn k Hcs Hc; cbn [classes_neighbors].
  { exists cn. split; [done|]. split; [done|apply sub_refl]. }
  destruct (find_all_enodes_ok W Hnl fuel c (Hcs c ltac:(by left)) Hfu) as (s & -> & Hs). cbn [mbind res_bind].
  destruct (class_neighbors_ok (it s) ∅ cn k) as (cn1 & k1 & st & -> & C1 & S1); [| |done|].
  { intros e He%it_elem. by apply (co_lt _ _ Hs). }
  { intros ? ? ? Hx. by rewrite lookup_empty in Hx. }
  cbn [mbind res_bind]. destruct st; [exists cn1; done|].
  destruct (IH cn1 k1) as (cn2 & -> & C2 & S2); [intros; apply Hcs; by right|done|]. exists cn2. split; [done|]. split; [done|by eapply sub_trans].
Qed.
Lemma find_congruence_neighbors_ok cl : (forall c, c ∈ cit cl -> c < N) ->
  exists cn bound, cn_ok (ns := ns) (x := x) (es := es) cn /\
    forall fuel x', bound <= fuel -> ex_find x' = f -> find_congruence_neighbors it cit fuel x' ns cl u = Ok cn.
Proof.
  intros Hcl. destruct forest_neighbors_ok as (cn0 & k & E & C0 & I0).
  destruct (classes_neighbors_ok (S (S (sumf (deg (x := x)) N))) ltac:(lia) (cit cl) cn0 k Hcl C0) as (cn & E2 & C & S).
  exists cn, (Datatypes.S (Datatypes.S (sumf (deg (x := x)) N))). split.
  - destruct C as [C1 C2]. split; [done|done|]. intros v nd Hnd Ej. destruct (I0 v nd Hnd Ej) as [I1 I2]. rewrite (fo_cur _ _ _ F _ _ Hnd) in *.
    split; [exact (S _ _ I1)|exact (S _ _ I2)].
  - intros fuel x' Hfu Ex. apply (find_congruence_neighbors_same it cit x x' ns cl u _ fuel cn Ex Hfu).
    unfold find_congruence_neighbors. rewrite E. exact E2.
Qed.
End cong.
