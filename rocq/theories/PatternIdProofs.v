(** [id_to_pattern]. *)
From Verif Require Import Base UnionFind EGraphModel EGraphSteps EGraphInv EGraphPres Spec EGraphReach Terms RecExprModel RecExprProofs ExprModel PatSpec ExprProofs
  MachineModel MatchSpec RewriteModel RewriteProofs ExplainModel ExplainMain UtilModel PatternIdSpec.

Section loop.
Context {Op : Type} `{Countable Op} (ns : list (node Op)) (Hd : dag ns) (vname : nat -> nat) (vs : gmap nat nat).
Notation node := (node Op).
Notation pnode := (EGraphModel.node (pop Op)).
Notation Cut := (CutTree ns vname (fun i => is_Some (vs !! i))).
Implicit Types (st : list pnode * subst * gmap nat nat).

Lemma Cut_fun i p : Cut i p -> forall q, Cut i q -> p = q.
Proof.
  revert i. induction p as [h ps IH] using term_sind. intros i Hp q Hq. inversion Hp as [? Hi|? f cs ts Hi Hn Hts]; subst; inversion Hq as [? Hi'|? f' cs' ts' Hi' Hn' Hts']; subst; try done.
  rewrite Hn in Hn'. injection Hn' as <- <-. f_equal. clear Hp Hq Hn. revert ts' Hts'. induction Hts as [|c t cs ts Hc Hts IHt]; intros ts' Hts'; inversion Hts' as [|? t' ? ts0 Hc' Hts0]; subst; [done|].
  apply Forall_cons in IH as [IH1 IH2]. rewrite (IH1 _ Hc _ Hc'). f_equal. by apply IHt.
Qed.
Definition pi_ok st : Prop :=
  dag (fst (fst st)) /\ pat_ok (fst (fst st)) /\
  (forall j k, snd st !! j = Some k -> exists p, Cut j p /\ Tree (fst (fst st)) k p /\ forall v, occurs v p -> is_Some (subst_get (snd (fst st)) v)) /\
  (forall v k, subst_get (snd (fst st)) v = Some k -> exists j, v = vname j /\ vs !! j = Some k /\ j < length ns).
Definition pi_post i st st' k p : Prop :=
  pi_ok st' /\ fst (fst st) `prefix_of` fst (fst st') /\ (forall v, is_Some (subst_get (snd (fst st)) v) -> is_Some (subst_get (snd (fst st')) v)) /\
  Cut i p /\ Tree (fst (fst st')) k p /\ (forall v, occurs v p -> is_Some (subst_get (snd (fst st')) v)) /\
  (forall v, is_Some (subst_get (snd (fst st')) v) -> is_Some (subst_get (snd (fst st)) v) \/ occurs v p) /\
  (forall j, is_Some (snd st' !! j) -> is_Some (snd st !! j) \/ j <= i) /\
  (snd st !! i = None -> S k = length (fst (fst st'))).

Lemma prefix_Tree (e e' : list pnode) k t : e `prefix_of` e' -> Tree e k t -> Tree e' k t.
Proof. intros [l ->]. apply Tree_app. Qed.

Lemma id_to_pattern_loop_ok fuel i st : i < fuel -> i < length ns -> pi_ok st ->
  exists st' k p, id_to_pattern_loop vname fuel ns vs i st = Ok (st', k) /\ pi_post i st st' k p.
Proof using Hd.
  revert i st. induction fuel as [|fuel IH]; intros i st Hi Hlt Hst; [lia|]. cbn [id_to_pattern_loop].
  destruct (snd st !! i) as [k|] eqn:Ek.
  { destruct (proj1 (proj2 (proj2 Hst)) _ _ Ek) as (p & Hp & Tp & Vp). exists st, k, p. split; [done|]. unfold pi_post. split_and!; try done; try by auto. by rewrite Ek. }
  destruct (vs !! i) as [existing|] eqn:Ev.
  - destruct st as [[p s] ca]. cbn [fst snd] in *. destruct Hst as (H1 & H2 & H3 & H4). cbn [fst snd] in *.
    pose proof (subst_insert_get s (vname i) existing) as Eg. destruct (subst_insert s (vname i) existing) as [s' o]. cbn [fst] in Eg.
    rewrite rx_add_ok by (cbn [nch]; intros c Hc; by apply elem_of_nil in Hc). cbn [mbind res_bind].
    assert (Hc : Cut i (TNode (PVar (vname i)) [])) by (constructor; by exists existing).
    assert (Ht : Tree (p ++ [Node (PVar (vname i)) []]) (length p) (TNode (PVar (vname i)) [])) by (apply Tree_snoc; constructor).
    assert (Hs : forall v, is_Some (subst_get s v) -> is_Some (subst_get s' v)) by (intros v Hv; rewrite Eg; destruct (decide _); [by eexists|done]).
    assert (Hv : forall v, occurs v (TNode (PVar (vname i)) [] : term (pop Op)) -> is_Some (subst_get s' v)).
    { intros v Ho. inversion Ho; subst. rewrite Eg, decide_True by done. by eexists. }
    eexists _, _, _. split; [reflexivity|]. split; [|split; [|split; [|split; [exact Hc|split; [exact Ht|split; [exact Hv|split; [|split]]]]]]]; cbn [fst snd].
    + split; [|split; [|split]]; cbn [fst snd].
      * apply dag_snoc; [done|]. cbn [nch]. intros c Hcc. by apply elem_of_nil in Hcc.
      * apply Forall_app. split; [done|]. by repeat constructor.
      * intros j k. rewrite lookup_insert_Some. intros [[<- <-]|[_ Hk]]; [eauto|]. destruct (H3 _ _ Hk) as (q & ? & ? & ?). exists q. split; [done|]. split; [by apply Tree_app|auto].
      * intros v k. rewrite Eg. destruct (decide (v = vname i)) as [->|_]; [intros [= <-]; by exists i|apply H4].
    + by apply prefix_app_r.
    + exact Hs.
    + intros v. rewrite Eg. destruct (decide (v = vname i)) as [->|_]; [right; constructor|by left].
    + intros j. rewrite lookup_insert_is_Some. intros [->|[_ Hk]]; [right; lia|by left].
    + intros _. rewrite app_length. cbn. lia.
  - destruct (lookup_lt_is_Some_2 _ _ Hlt) as [[f cs] Hn]. rewrite Hn. cbn [expect mbind res_bind nch nop].
    match goal with |- context [?go cs st] => set (gof := go) end.
    assert (Hgo : forall cs st, (forall c, c ∈ cs -> c < i) -> pi_ok st -> exists st' ks ps, gof cs st = Ok (st', ks) /\ pi_ok st' /\
      fst (fst st) `prefix_of` fst (fst st') /\ (forall v, is_Some (subst_get (snd (fst st)) v) -> is_Some (subst_get (snd (fst st')) v)) /\
      Forall2 Cut cs ps /\ Forall2 (Tree (fst (fst st'))) ks ps /\ (forall v p, p ∈ ps -> occurs v p -> is_Some (subst_get (snd (fst st')) v)) /\
      (forall v, is_Some (subst_get (snd (fst st')) v) -> is_Some (subst_get (snd (fst st)) v) \/ exists p, p ∈ ps /\ occurs v p) /\
      (forall j, is_Some (snd st' !! j) -> is_Some (snd st !! j) \/ j < i)).
    { clear -IH Hi Hlt Hd. induction cs as [|c cs IHc]; intros st Hc Hst.
      { exists st, [], []. split; [done|]. split; [done|]. split; [done|]. split; [auto|]. split; [constructor|]. split; [constructor|]. split; [intros v p Hp; by apply elem_of_nil in Hp|]. by auto. }
      assert (Hci : c < i) by (apply Hc; left).
      destruct (IH c st ltac:(lia) ltac:(lia) Hst) as (st1 & k & p & E1 & Hst1 & Hp1 & Hs1 & Hc1 & Ht1 & Hv1 & Hw1 & Hj1 & _).
      destruct (IHc st1) as (st2 & ks & ps & E2 & Hst2 & Hp2 & Hs2 & Hc2 & Ht2 & Hv2 & Hw2 & Hj2); [intros; apply Hc; by right|done|].
      exists st2, (k :: ks), (p :: ps). split.
      { change (gof (c :: cs) st) with ('(st, k) ← id_to_pattern_loop vname fuel ns vs c st; '(st, ks) ← gof cs st; Ok (st, k :: ks)).
        rewrite E1. cbn [mbind res_bind]. rewrite E2. done. }
      split; [done|]. split; [by etrans|]. split; [auto|]. split; [by constructor|]. split; [constructor; [by eapply prefix_Tree|done]|]. split.
      { intros v q [->|Hq]%elem_of_cons Ho; [auto|by eapply Hv2]. }
      split.
      { intros v Hv. destruct (Hw2 v Hv) as [Hv'|(q & Hq & Ho)]; [|right; exists q; split; [by right|done]]. destruct (Hw1 v Hv') as [?|?]; [by left|]. right. exists p. split; [by left|done]. }
      intros j Hj. destruct (Hj2 j Hj) as [Hj'|?]; [|auto]. destruct (Hj1 j Hj') as [?|?]; [auto|]. right. lia. }
    destruct (Hgo cs st) as ([[p s] ca] & ks & ps & Eg & (H1 & H2 & H3 & H4) & Hp & Hs & Hc & Ht & Hv & Hw & Hj); [intros c Hc; by eapply (Hd i)|done|].
    rewrite Eg. cbn [mbind res_bind fst snd] in *.
    assert (Hl : forall k, k ∈ ks -> k < length p) by (intros k Hk; by eapply Tree_children_lt).
    rewrite rx_add_ok by exact Hl. cbn [mbind res_bind].
    assert (Hcut : Cut i (TNode (POp f) ps)) by (econstructor; [rewrite Ev; by intros []|done|done]).
    assert (Htree : Tree (p ++ [Node (POp f) ks]) (length p) (TNode (POp f) ps)) by (by apply Tree_snoc).
    assert (Hoc : forall v, occurs v (TNode (POp f) ps) -> is_Some (subst_get s v)).
    { intros v Ho. inversion Ho as [|? ? ? Hin]; subst. by eapply Hv. }
    eexists _, _, _. split; [reflexivity|]. split; [|split; [|split; [exact Hs|split; [exact Hcut|split; [exact Htree|split; [exact Hoc|split; [|split]]]]]]]; cbn [fst snd].
    + split; [|split; [|split]]; cbn [fst snd].
      * apply dag_snoc; [done|]. exact Hl.
      * apply Forall_app. split; [done|]. by repeat constructor.
      * intros j k. rewrite lookup_insert_Some. intros [[<- <-]|[_ Hk]]; [eauto|]. destruct (H3 _ _ Hk) as (q & ? & ? & ?). exists q. split; [done|]. split; [by apply Tree_app|auto].
      * exact H4.
    + etrans; [exact Hp|]. by apply prefix_app_r.
    + intros v Hv1. destruct (Hw v Hv1) as [?|(q & Hq & Ho)]; [by left|]. right. by eapply occurs_below.
    + intros j. rewrite lookup_insert_is_Some. intros [->|[_ Hk]]; [right; lia|]. destruct (Hj j Hk); [by left|right; lia].
    + intros _. rewrite app_length. cbn. lia.
Qed.
End loop.

Section main.
Context {Op D : Type} `{Countable Op} (L : lang Op) (A : analysis Op D) (ex : bool) (vname : nat -> nat) (Hinj : forall i j, vname i = vname j -> i = j).
Implicit Types (g : egraph Op D) (vs : gmap nat nat).
Notation Cut g vs := (CutTree (eg_nodes g) vname (fun i => is_Some (vs !! i))).

Lemma id_to_pattern_ok g i vs : reachable L A ex g -> known g i ->
  exists p s pt, id_to_pattern vname i vs g = Ok (p, s) /\ good_ast p /\ ExprTree p pt /\ Cut g vs i pt /\
    (forall v, is_Some (subst_get s v) <-> occurs v pt) /\
    (forall v k, subst_get s v = Some k -> exists j, v = vname j /\ vs !! j = Some k /\ known g j).
Proof.
  intros R Hi. pose proof (known_nodes L A ex g) as Kn. apply (Kn i R) in Hi.
  destruct (id_to_pattern_loop_ok (eg_nodes g) (reach_dag L A ex g R) vname vs (S (length (eg_nodes g))) i ([], [], ∅)) as
    ([[p s] ca] & k & pt & E & (H1 & H2 & _ & H4) & _ & _ & Hc & Ht & Hv & Hw & _ & Hk); [lia|done| |].
  - split; [apply dag_nil|]. split; [constructor|]. split; [|done]. intros j k Hj. cbn in Hj. by rewrite lookup_empty in Hj.
  - cbn [fst snd] in *. exists p, s, pt. unfold id_to_pattern. rewrite E. cbn [mbind res_bind]. specialize (Hk (lookup_empty _)).
    assert (Hne : p <> []) by (intros ->; cbn in Hk; lia). split; [done|]. split; [by split|].
    split; [split; [done|]; by replace (length p - 1) with k by lia|]. split; [exact Hc|]. split.
    + intros v. split; [|apply Hv]. intros Hs. destruct (Hw v Hs) as [[x Hx]|?]; [done|done].
    + intros v x Hx. destruct (H4 v x Hx) as (j & -> & Hj & Hlt). exists j. split; [done|]. split; [done|]. by apply (Kn j R).
Qed.
(** Replacing the variables by the terms of their ids gives the term of the id. *)
Lemma cut_tree g vs (th : nat -> term Op) i p : dag (eg_nodes g) -> i < length (eg_nodes g) -> (forall j k, vs !! j = Some k -> j < length (eg_nodes g) -> Tree (eg_nodes g) j (th (vname j))) ->
  Cut g vs i p -> Tree (eg_nodes g) i (tsubst th p).
Proof.
  intros Hd Hi Hth. revert i Hi. induction p as [h ps IH] using term_sind. intros i Hi Hc. inversion Hc as [? [k Hk]|? f cs ts _ Hn Hts]; subst; cbn [tsubst]; [by eapply Hth|].
  econstructor; [exact Hn|]. assert (Hlt : forall c, c ∈ cs -> c < length (eg_nodes g)) by (intros c Hin; pose proof (Hd i _ c Hn Hin); lia).
  clear Hc Hn. induction Hts as [|c t cs ts Hct Hts IHt]; cbn [fmap list_fmap]; [constructor|]. apply Forall_cons in IH as [IH1 IH2].
  constructor; [apply IH1; [apply Hlt; left|exact Hct]|]. apply IHt; [exact IH2|]. intros x Hx. apply Hlt. by right.
Qed.
Lemma id_to_pattern_term g i vs p s pt th : reachable L A ex g -> known g i -> id_to_pattern vname i vs g = Ok (p, s) -> ExprTree p pt ->
  (forall j k e, vs !! j = Some k -> id_to_expr j g = Ok e -> ExprTree e (th (vname j))) ->
  exists e, id_to_expr i g = Ok e /\ ExprTree e (tsubst th pt).
Proof.
  intros R Hi E Hp Hth. destruct (id_to_pattern_ok g i vs R Hi) as (p' & s' & pt' & E' & _ & Hp' & Hc & _). rewrite E in E'. injection E' as <- <-.
  rewrite (ExprTree_fun _ _ _ Hp' Hp) in Hc. destruct (id_to_expr_ok L A ex g i R Hi) as (e & Ee & _ & He). exists e. split; [exact Ee|]. apply He.
  pose proof (reach_dag L A ex g R) as Hd. apply (known_nodes L A ex g i R) in Hi. eapply cut_tree; [exact Hd|exact Hi| |exact Hc].
  intros j k Hj Hlt. destruct (dag_Tree _ j Hd Hlt) as [t Ht]. destruct (id_to_expr_ok L A ex g j R) as (ej & Ej & _ & Hej); [by apply (known_nodes L A ex g j R)|].
  pose proof (Hth j k ej Hj Ej) as Hj1. by rewrite (ExprTree_fun _ _ _ Hj1 (Hej t Ht)).
Qed.
(** Under the answered substitution the pattern is found in the class of the id. *)
Lemma cut_rep g vs s i p : (forall v, occurs v p -> is_Some (subst_get s v)) -> (forall j k, subst_get s (vname j) = Some k -> eg_find g k = eg_find g j) ->
  Cut g vs i p -> NRep g (subst_get s) p (eg_find g i).
Proof.
  intros Hs He. revert i Hs. induction p as [h ps IH] using term_sind. intros i Hs Hc. inversion Hc as [? Hk|? f cs ts _ Hn Hts]; subst.
  - destruct (Hs (vname i)) as [k Hk1]; [constructor|]. rewrite <- (He i k Hk1). by constructor.
  - econstructor; [exact Hn|]. assert (Hsub : forall t, t ∈ ps -> forall v, occurs v t -> is_Some (subst_get s v)) by (intros t Ht v Hv; apply Hs; by eapply occurs_below).
    clear Hs Hc Hn. induction Hts as [|c t cs ts Hct Hts IHt]; [constructor|]. apply Forall_cons in IH as [IH1 IH2].
    constructor; [apply IH1; [apply Hsub; left|exact Hct]|]. apply IHt; [exact IH2|]. intros x Hx. apply Hsub. by right.
Qed.
Lemma id_to_pattern_found g i vs p s pt : reachable_np L A ex g -> known g i -> id_to_pattern vname i vs g = Ok (p, s) -> ExprTree p pt ->
  (forall j k, vs !! j = Some k -> known g j -> eg_find g k = eg_find g j) -> PRep g (subst_get s) pt (eg_find g i).
Proof using Hinj.
  intros Rn Hi E Hp Hvs. pose proof (reachable_np_reachable _ _ _ _ Rn) as R.
  destruct (id_to_pattern_ok g i vs R Hi) as (p' & s' & pt' & E' & _ & Hp' & Hc & Hv & Hs). rewrite E in E'. injection E' as <- <-.
  rewrite (ExprTree_fun _ _ _ Hp' Hp) in Hc, Hv. apply NRep_PRep; [by eapply reachable_Inv|exact (reach_listed L A ex g Rn)|].
  eapply cut_rep; [intros v Ho; by apply Hv| |exact Hc]. intros j k Hj. destruct (Hs _ _ Hj) as (j' & Ej & Hj' & Kj). apply Hinj in Ej. subst j'. by apply Hvs.
Qed.
End main.
