(** Explanations are valid proofs, and producing them terminates. *)
From Verif Require Import Base UnionFind EGraphModel EGraphSteps EGraphInv EGraphPres EGraphRuns Spec EGraphMain EGraphReach
  EGraphSafe EGraphNoPanic EGraphDebug ExplainForest Terms RecExprModel ExprModel ExplainModel ExplainSpec ExplainPath.

Section explain.
Context {Op D : Type} `{Countable Op}.
Notation node := (node Op).
Notation explain := (explain Op).
Notation ttree := (ttree Op).
Notation fterm := (fterm Op).
Notation term := (term Op).
Notation xcache := (gmap (nat * nat) ttree).
Implicit Types (x : explain) (ns : list node).

Section rl.
Context (Rl : nat -> term -> term -> Prop).
Lemma steps_app p q t u v : steps Rl p t u -> steps Rl q u v -> steps Rl (p ++ q) t v.
Proof. induction 1; intros Hq; [done|..]; cbn; econstructor; eauto. Qed.
End rl.

Section nodes.
Context ns (Hd : dag ns) (Rl : nat -> term -> term -> Prop).
Notation T := (Tree ns).

Lemma node_to_explanation_ok fuel i t : T i t -> i < fuel ->
  exists n kids ts, ns !! i = Some n /\ node_to_explanation fuel ns i = Ok (TT n None None kids) /\ t = TNode (nop n) ts /\
    kids_prove Rl kids ts ts.
Proof.
  revert i t. induction fuel as [|fuel IH]; intros i t Ht Hi; [lia|].
  inversion Ht as [? f cs ts Hn Hts]; subst. cbn [node_to_explanation]. rewrite Hn. cbn [expect mbind res_bind nch nop].
  assert (Hk : exists kids, mapM (fun c => t ← node_to_explanation fuel ns c; Ok [t]) cs = Ok kids /\ kids_prove Rl kids ts ts).
  { assert (Hlt : forall c, c ∈ cs -> c < fuel) by (intros c Hc; pose proof (Hd _ _ _ Hn Hc); lia).
    clear Hn Ht. induction Hts as [|c t cs ts Hc Hts IHts]; [exists []; split; [done|constructor]|].
    destruct (IH c t Hc) as (n & kids & us & _ & E & -> & Hus); [apply Hlt; by left|].
    destruct IHts as (ks & Ek & Hks); [intros; apply Hlt; by right|].
    exists ([TT n None None kids] :: ks). cbn [mapM]. rewrite E. cbn [mbind res_bind]. rewrite Ek. split; [done|].
    constructor; [|done]. econstructor; [done|constructor]. }
  destruct Hk as (kids & -> & Hk). cbn [mbind res_bind]. eexists _, _, _. split_and!; done.
Qed.

(** A tree term that is a valid step between the terms of two ids. *)
Definition hop_ok (a b : nat) (t : ttree) : Prop := forall ta tb, T a ta -> T b tb -> steps Rl [t] ta tb.
Definition cache_ok (ca : xcache) : Prop := forall a b t, ca !! (a, b) = Some t -> hop_ok a b t.
(** Rule connections name steps of the rule. *)
Definition rule_ok (c : conn) : Prop :=
  forall r, cn_just c = JRule r -> forall ta tb, T (cn_current c) ta -> T (cn_next c) tb ->
    if cn_fwd c then Rl r ta tb else Rl r tb ta.
Definition enodes_ok (rec : nat -> nat -> xcache -> res (list ttree * xcache)) : Prop :=
  forall l r ca p ca' tl tr, rec l r ca = Ok (p, ca') -> T l tl -> T r tr -> cache_ok ca -> cache_ok ca' /\ proves Rl p tl tr.

Lemma explain_children_sound rec cs ds ca ks ca' ts us :
  enodes_ok rec -> explain_children rec cs ds ca = Ok (ks, ca') -> Forall2 T cs ts -> Forall2 T ds us -> length cs = length ds ->
  cache_ok ca -> cache_ok ca' /\ kids_prove Rl ks ts us.
Proof.
  intros Hrec. revert ds ca ks ca' ts us. induction cs as [|c cs IH]; intros [|d ds] ca ks ca' ts us E Hts Hus El Hca; try done.
  - inversion Hts; inversion Hus; subst. cbn in E. inv_res. split; [done|constructor].
  - inversion Hts; inversion Hus; subst. cbn [explain_children] in E.
    destruct (rec c d ca) as [[p ca1]| |] eqn:Er; try done. cbn [mbind res_bind] in E.
    destruct (explain_children rec cs ds ca1) as [[ps ca2]| |] eqn:Ec; try done. cbn [mbind res_bind] in E. injection E as <- <-.
    eapply Hrec in Er as [Hca1 Hp]; eauto. eapply IH in Ec as [Hca2 Hps]; eauto. split; [done|]. by constructor.
Qed.

Lemma hop_step t n kids ts us ta tb : True -> t = TT n None None kids -> ta = TNode (nop n) ts -> tb = TNode (nop n) us ->
  kids_prove Rl kids ts us -> steps Rl [t] ta tb.
Proof. intros _ -> -> -> Hk. econstructor; [done|constructor]. Qed.

Lemma explain_adjacent_sound rec c ca t ca' :
  enodes_ok rec -> rule_ok c -> cn_next c < length ns -> explain_adjacent rec ns c ca = Ok (t, ca') -> cache_ok ca ->
  cache_ok ca' /\ hop_ok (cn_current c) (cn_next c) t.
Proof.
  intros Hrec Hr Hn E Hca. unfold explain_adjacent in E. destruct (ca !! _) as [t0|] eqn:Eca.
  { injection E as <- <-. split; [done|]. by apply Hca. }
  assert (Hend : forall ca1 t1, cache_ok ca1 -> hop_ok (cn_current c) (cn_next c) t1 ->
     cache_ok (<[(cn_current c, cn_next c) := t1]> ca1)).
  { intros ca1 t1 Hc1 Ht1 a b t2 Hl. apply lookup_insert_Some in Hl as [[[= <- <-] <-]|[_ Hl]]; [done|by apply Hc1]. }
  destruct (cn_just c) as [r|] eqn:Ej.
  - destruct (dag_Tree ns (cn_next c) Hd Hn) as [tb Htb].
    destruct (node_to_explanation_ok (S (length ns)) _ _ Htb) as (n & kids & ts & _ & En & -> & Hk); [lia|].
    rewrite En in E. cbn [mbind res_bind] in E. injection E as <- <-.
    assert (Hh : hop_ok (cn_current c) (cn_next c) (if cn_fwd c then TT n None (Some r) kids else TT n (Some r) None kids)).
    { intros ta tb Hta Htb'. rewrite (TreeOf_fun _ _ _ _ Htb' Htb). specialize (Hr r Ej ta _ Hta Htb).
      destruct (cn_fwd c); econstructor; eauto; constructor. }
    split; [by apply Hend|done].
  - destruct (ns !! cn_current c) as [n|] eqn:E1; [|done]. cbn [expect mbind res_bind] in E.
    destruct (ns !! cn_next c) as [m|] eqn:E2; [|done]. cbn [expect mbind res_bind] in E.
    destruct (node_matches n m) eqn:Em; [|done].
    destruct (explain_children rec (nch n) (nch m) ca) as [[ks ca1]| |] eqn:Ec; try done.
    cbn [mbind res_bind] in E. injection E as <- <-.
    apply andb_true_iff in Em as [Eo%bool_decide_eq_true El%Nat.eqb_eq].
    assert (Hh : cache_ok ca1 /\ hop_ok (cn_current c) (cn_next c) (TT n None None ks)).
    { destruct (dag_Tree ns (cn_next c) Hd Hn) as [tb Htb].
      destruct (dag_Tree ns (cn_current c) Hd) as [ta Hta]; [by eapply lookup_lt_Some|].
      pose proof Hta as Hta0. pose proof Htb as Htb0.
      inversion Hta as [? f cs ts Hn1 Hts]; subst. inversion Htb as [? f' ds us Hn2 Hus]; subst.
      rewrite E1 in Hn1. rewrite E2 in Hn2. injection Hn1 as ->. injection Hn2 as ->. cbn [nch nop] in *. subst f'.
      eapply explain_children_sound in Ec as [Hca1 Hks]; eauto. split; [done|].
      intros ta tb H1 H2. rewrite (TreeOf_fun _ _ _ _ H1 Hta0), (TreeOf_fun _ _ _ _ H2 Htb0).
      apply (hop_step _ (Node f cs) ks ts us); done. }
    destruct Hh. split; [by apply Hend|done].
Qed.

Lemma explain_along_sound rec cs ca ts ca' a b ta tb :
  enodes_ok rec -> explain_along rec ns cs ca = Ok (ts, ca') -> linked a cs b ->
  Forall (fun c => rule_ok c /\ cn_next c < length ns) cs -> T a ta -> T b tb -> cache_ok ca ->
  cache_ok ca' /\ steps Rl ts ta tb.
Proof.
  intros Hrec. revert ca ts ca' a ta. induction cs as [|c cs IH]; intros ca ts ca' a ta E Hl Hc Hta Htb Hca.
  - cbn in E, Hl. inv_res. subst. rewrite (TreeOf_fun _ _ _ _ Hta Htb). split; [done|constructor].
  - destruct Hl as [<- Hl]. apply Forall_cons in Hc as [[Hr Hn] Hc]. cbn [explain_along] in E.
    destruct (explain_adjacent rec ns c ca) as [[t ca1]| |] eqn:Ea; try done. cbn [mbind res_bind] in E.
    destruct (explain_along rec ns cs ca1) as [[ts1 ca2]| |] eqn:El; try done. cbn [mbind res_bind] in E. injection E as <- <-.
    eapply explain_adjacent_sound in Ea as [Hca1 Hh]; eauto.
    destruct (dag_Tree ns _ Hd Hn) as [tm Htm].
    eapply IH in El as [Hca2 Hs]; eauto. split; [done|]. change (t :: ts1) with ([t] ++ ts1). eapply steps_app; eauto.
Qed.

(** ** Soundness, whatever the path memo holds *)
Definition links_ok x : Prop :=
  length (ex_find x) = length ns /\
  forall i nd, ex_find x !! i = Some nd ->
    (cn_current (xn_parent nd) = i /\ (cn_next (xn_parent nd) <> i -> rule_ok (xn_parent nd) /\ cn_next (xn_parent nd) < length ns)) /\
    Forall (fun c => cn_current c = i /\ rule_ok c) (xn_neighbors nd).

Lemma rule_ok_flip c : rule_ok c -> rule_ok (flip_conn c).
Proof.
  intros Hr r Ej ta tb Ha Hb. cbn in *. specialize (Hr r Ej tb ta Hb Ha). by destruct (cn_fwd c).
Qed.

Lemma get_connections_loop_sound x fuel i a cs : links_ok x -> i <> a -> get_connections_loop fuel x i a = Ok cs ->
  linked i cs a /\ Forall (fun c => rule_ok c /\ cn_current c < length ns /\ cn_next c < length ns) cs.
Proof.
  intros [Hlen Hx]. revert i cs. induction fuel as [|fuel IH]; intros i cs Hne E; [done|]. cbn [get_connections_loop] in E.
  destruct (ex_find x !! i) as [nd|] eqn:Hnd; [|done]. cbn [expect mbind res_bind] in E.
  destruct (Hx _ _ Hnd) as [[Ec Hp] _]. pose proof (lookup_lt_Some _ _ _ Hnd) as Hi. rewrite Hlen in Hi.
  case_bool_decide as Ha.
  - injection E as <-. destruct Hp as [Hr Hn]; [congruence|]. cbn. rewrite Ec. split; [done|]. repeat constructor; auto. lia.
  - case_bool_decide as Hs; [done|]. destruct Hp as [Hr Hn]; [done|].
    destruct (get_connections_loop fuel x _ a) as [rest| |] eqn:El; try done. cbn [mbind res_bind] in E. injection E as <-.
    apply IH in El as [Hl Hc]; [|done]. cbn. split; [done|]. constructor; [split_and!; auto; lia|done].
Qed.
Lemma get_connections_sound x i a cs : links_ok x -> get_connections x i a = Ok cs ->
  linked i cs a /\ Forall (fun c => rule_ok c /\ cn_current c < length ns /\ cn_next c < length ns) cs.
Proof.
  intros Hx E. unfold get_connections in E. case_bool_decide; [inv_res; split; [done|constructor]|].
  by eapply get_connections_loop_sound.
Qed.
Lemma get_path_unopt_sound x l r lc rc : links_ok x -> get_path_unoptimized x l r = Ok (lc, rc) ->
  linked l (lc ++ (flip_conn <$> reverse rc)) r /\
  Forall (fun c => rule_ok c /\ cn_next c < length ns) (lc ++ (flip_conn <$> reverse rc)).
Proof.
  intros Hx E. unfold get_path_unoptimized in E.
  destruct (common_ancestor _ _ _ _ _ _) as [a| |]; try done. cbn [mbind res_bind] in E.
  destruct (get_connections x l a) as [lc'| |] eqn:E1; try done. cbn [mbind res_bind] in E.
  destruct (get_connections x r a) as [rc'| |] eqn:E2; try done. cbn [mbind res_bind] in E. injection E as <- <-.
  apply get_connections_sound in E1 as [L1 C1]; [|done]. apply get_connections_sound in E2 as [L2 C2]; [|done].
  split; [eapply linked_app; [done|by apply linked_flip]|]. apply Forall_app. split.
  - eapply Forall_impl; [exact C1|]. naive_solver.
  - apply Forall_fmap, Forall_reverse. eapply Forall_impl; [exact C2|]. intros c (Hr & Hc & Hn). cbn.
    split; [by apply rule_ok_flip|done].
Qed.
Lemma get_neighbor_sound x l n c : links_ok x -> get_neighbor x l n = Ok c ->
  cn_current c = l /\ cn_next c = n /\ rule_ok c.
Proof.
  intros [_ Hx] E. unfold get_neighbor in E. destruct (ex_find x !! l) as [nd|] eqn:Hnd; [|done].
  cbn [expect mbind res_bind] in E. destruct (list_find _ _) as [[k c']|] eqn:Ef.
  - injection E as <-. apply list_find_Some in Ef as (Hk & [En _] & _). destruct (Hx _ _ Hnd) as [_ Hns].
    rewrite Forall_lookup in Hns. destruct (Hns _ _ Hk) as [Ec Hr]. done.
  - injection E as <-. split_and!; [done|done|]. intros r Ej. done.
Qed.
Lemma get_path_sound x fuel l r lc rc : links_ok x -> r < length ns -> get_path fuel x l r = Ok (lc, rc) ->
  linked l (lc ++ (flip_conn <$> reverse rc)) r /\
  Forall (fun c => rule_ok c /\ cn_next c < length ns) (lc ++ (flip_conn <$> reverse rc)).
Proof.
  intros Hx Hrl. revert l lc rc. induction fuel as [|fuel IH]; intros l lc rc E; [done|]. cbn [get_path] in E.
  case_bool_decide as Hlr; [injection E as <- <-; split; [done|constructor]|].
  destruct (ex_short x !! (l, r)) as [[co n]|]; [|by eapply get_path_unopt_sound].
  destruct (get_neighbor x l n) as [c| |] eqn:En; try done. cbn [mbind res_bind] in E.
  destruct (get_path fuel x n r) as [[lc' rc']| |] eqn:Ep; try done. cbn [mbind res_bind] in E. injection E as <- <-.
  apply get_neighbor_sound in En as (Ec & Ecn & Hr); [|done]. pose proof Ep as Ep0. apply IH in Ep as [Hl Hc]. cbn.
  split; [split; [done|by rewrite Ecn]|]. constructor; [|done]. split; [done|]. rewrite Ecn.
  destruct fuel as [|fuel]; [done|]. cbn [get_path] in Ep0. case_bool_decide as Enr; [congruence|].
  destruct Hx as [Hlen _].
  destruct (ex_short x !! (n, r)) as [[co' n']|].
  - unfold get_neighbor in Ep0. destruct (ex_find x !! n) eqn:Hn; [|done]. apply lookup_lt_Some in Hn. lia.
  - unfold get_path_unoptimized in Ep0. destruct (common_ancestor _ _ _ _ _ _) as [a| |] eqn:Ea; try done.
    cbn [common_ancestor] in Ea. case_bool_decide; [set_solver|]. case_bool_decide; [set_solver|].
    destruct (xparent x n) as [?| |] eqn:Exp; try done. unfold xparent in Exp. destruct (ex_find x !! n) eqn:Hn; [|done].
    apply lookup_lt_Some in Hn. lia.
Qed.

Lemma explain_enodes_sound x fuel : links_ok x -> enodes_ok (explain_enodes fuel x ns).
Proof.
  intros Hx. induction fuel as [|fuel IH]; intros l r ca p ca' tl tr E Htl Htr Hca; [done|]. cbn [explain_enodes] in E.
  destruct (node_to_explanation_ok (S (length ns)) _ _ Htl) as (n & kids & ts & _ & En & -> & Hk).
  { apply Tree_lt in Htl. lia. }
  rewrite En in E. cbn [mbind res_bind] in E.
  destruct (get_path _ x l r) as [[lc rc]| |] eqn:Ep; try done. cbn [mbind res_bind] in E.
  destruct (explain_along _ ns _ ca) as [[us ca1]| |] eqn:Ea; try done. cbn [mbind res_bind] in E. injection E as <- <-.
  apply get_path_sound in Ep as [Hl Hc]; [|done|by eapply Tree_lt].
  eapply explain_along_sound in Ea as [Hca1 Hs]; eauto. split; [done|]. econstructor; eauto.
Qed.

(** ** Termination, while the memo holds direct steps only *)
Lemma explain_children_ok rec cs ds ca ts us :
  enodes_ok rec -> Forall2 T cs ts -> Forall2 T ds us -> length cs = length ds -> cache_ok ca ->
  Forall2 (fun c d => forall ca, cache_ok ca -> exists p, rec c d ca = Ok p) cs ds ->
  exists p, explain_children rec cs ds ca = Ok p.
Proof.
  intros Hrec. revert ds ca ts us. induction cs as [|c cs IH]; intros [|d ds] ca ts us Hts Hus El Hca Hok; try done; [eauto..|].
  inversion Hts; inversion Hus; inversion Hok; subst. cbn [explain_children].
  match goal with Hr : forall ca, cache_ok ca -> _ |- _ => destruct (Hr ca Hca) as [[p ca1] E] end.
  rewrite E. cbn [mbind res_bind]. eapply Hrec in E as [Hca1 _]; eauto.
  edestruct IH as [[ps ca2] E2]; [eassumption|eassumption| |exact Hca1|eassumption|]; [cbn in El; lia|].
  rewrite E2. cbn. eauto.
Qed.
Lemma explain_along_ok rec cs ca :
  enodes_ok rec -> Forall (fun c => rule_ok c /\ cn_next c < length ns) cs -> cache_ok ca ->
  Forall (fun c => forall ca, cache_ok ca -> exists p, explain_adjacent rec ns c ca = Ok p) cs ->
  exists p, explain_along rec ns cs ca = Ok p.
Proof.
  intros Hrec Hc Hca Hok. revert ca Hca. induction Hok as [|c cs Hk Hok IH]; intros ca Hca; cbn [explain_along]; [eauto|].
  destruct (Hk ca Hca) as [[t ca1] E]. rewrite E. cbn [mbind res_bind]. apply Forall_cons in Hc as [[Hr Hn] Hc].
  eapply explain_adjacent_sound in E as [Hca1 _]; eauto. destruct (IH Hc ca1 Hca1) as [[ts ca2] ->]. cbn. eauto.
Qed.
End nodes.

Lemma edges_ok_suffix ns h pre es : edges_ok ns h (pre ++ es) -> edges_ok ns h es.
Proof. induction pre as [|e pre IH]; [done|]. cbn. inversion 1; subst; auto. Qed.

Section total.
Context ns (h : list (event Op)) x (es : list edge) (Hd : dag ns) (f : nat -> nat).
Context (X : xforest ns h f x es).
(** steps asserted in the history *)
Definition hist_rl (r : nat) (t u : term) : Prop := exists a b, EUnion a b r ∈ h /\ Tree ns a t /\ Tree ns b u.

Lemma rule_ok_edge c :
  (forall r, cn_just c = JRule r -> if cn_fwd c then EUnion (cn_current c) (cn_next c) r ∈ h else EUnion (cn_next c) (cn_current c) r ∈ h) ->
  rule_ok ns hist_rl c.
Proof. intros Hc r Ej ta tb Ha Hb. specialize (Hc r Ej). destruct (cn_fwd c); eexists _, _; split_and!; eauto. Qed.

Lemma links_ok_forest x' : ex_find x' = ex_find x -> links_ok ns hist_rl x'.
Proof.
  intros Ex. destruct X as (X1 & F & Ho & _). rewrite <- Ex in *. split; [done|]. intros i nd Hnd.
  assert (He : forall a b r, (a, b, JRule r) ∈ es -> EUnion a b r ∈ h).
  { intros a b r Hin. by apply (edges_ok_in _ _ _ _ _ _ Ho Hin). }
  split_and!.
  - by eapply fo_cur.
  - intros Hne. pose proof (fo_par _ _ _ F _ _ Hnd Hne) as Hp. cbv zeta in Hp. pose proof (fo_cur _ _ _ F _ _ Hnd) as Ec. split.
    + apply rule_ok_edge. intros r Ej. rewrite Ej, Ec in *. destruct (cn_fwd _); by apply He.
    + rewrite <- X1. destruct (cn_fwd _); by apply (fo_lt _ _ _ F) in Hp as [? ?].
  - apply Forall_forall. intros c Hc. destruct (fo_nb _ _ _ F _ _ _ Hnd Hc) as [Ec Hcc]. split; [done|].
    apply rule_ok_edge. intros r Ej. rewrite Ej, Ec in *.
    destruct (cn_fwd c); (destruct Hcc as [Hin|(r' & [= <-] & Hin)]; [by apply He|done]).
Qed.

Lemma explain_total (Hdir : direct x) es' pre : es = pre ++ es' -> forall fuel l r ca,
  length es' < fuel -> l < length ns -> r < length ns -> connected es' l r -> cache_ok ns hist_rl ca ->
  exists p, explain_enodes fuel x ns l r ca = Ok p.
Proof.
  pose proof (links_ok_forest x eq_refl) as Hlk. destruct X as (X1 & F & Ho & _ & _).
  revert pre. induction es' as [es' IHes] using (induction_ltof1 _ (@length edge)). unfold ltof in IHes.
  intros pre Epre fuel l r ca Hfu Hl Hr Hc Hca. destruct fuel as [|fuel]; [lia|]. cbn [explain_enodes].
  destruct (dag_Tree ns l Hd Hl) as [tl Htl].
  destruct (node_to_explanation_ok ns Hd hist_rl (S (length ns)) _ _ Htl) as (n & kids & ts & _ & -> & -> & Hk); [lia|].
  cbn [mbind res_bind].
  assert (Hpath : exists lc rc, get_path (S (length (ex_find x))) x l r = Ok (lc, rc) /\
    Forall (fun c => cn_just c <> JCong \/ edge_of c ∈ es') (lc ++ (flip_conn <$> reverse rc))).
  { cbn [get_path]. case_bool_decide as Hlr; [exists [], []; split; [done|constructor]|].
    destruct (ex_short x !! (l, r)) as [[co nx]|] eqn:Es.
    - destruct (Hdir _ _ _ _ Es) as (-> & k & Hk1 & Ek & Jk).
      unfold nbs in Hk1. destruct (lookup_lt_is_Some_2 (ex_find x) l) as [nd Hnd]; [lia|].
      rewrite Hnd in Hk1. cbn in Hk1. unfold get_neighbor. rewrite Hnd. cbn [expect mbind res_bind].
      destruct (list_find (fun c => cn_next c = r /\ cn_just c <> JCong) (xn_neighbors nd)) as [[q c]|] eqn:Ef.
      2:{ apply list_find_None in Ef. rewrite Forall_forall in Ef. by destruct (Ef k Hk1). }
      cbn [mbind res_bind]. destruct (ex_find x) as [|y ys] eqn:Ey; [done|]. cbn [length get_path].
      rewrite bool_decide_eq_true_2 by done. cbn [mbind res_bind]. eexists _, _. split; [done|]. cbn. constructor; [|constructor].
      apply list_find_Some in Ef as (_ & [_ Jc] & _). by left.
    - destruct (path_old _ x ns h es es' l r F Ho) as (lc & rc & E & _ & Hcs); [|lia|lia|done|].
      + intros e He. rewrite Epre. apply elem_of_app. by right.
      + exists lc, rc. split; [done|]. eapply Forall_impl; [exact Hcs|]. intros c Hin. by right. }
  destruct Hpath as (lc & rc & Ep & Hcs). pose proof Ep as Ep0. rewrite Ep. cbn [mbind res_bind].
  apply (get_path_sound ns Hd hist_rl) in Ep0 as [_ Hro]; [|done|done].
  assert (Hne : forall fuel, enodes_ok ns hist_rl (explain_enodes fuel x ns)) by (intros; by apply explain_enodes_sound).
  destruct (explain_along_ok ns Hd hist_rl (explain_enodes fuel x ns) (lc ++ (flip_conn <$> reverse rc)) ca) as [[p ca'] E]; auto.
  2:{ rewrite E. cbn. eauto. }
  rewrite Forall_forall in Hcs, Hro. apply Forall_forall. intros c Hin ca0 Hca0. specialize (Hcs c Hin). destruct (Hro c Hin) as [_ Hcn].
  unfold explain_adjacent. destruct (ca0 !! _); [eauto|]. destruct (cn_just c) as [ru|] eqn:Ej.
  - destruct (dag_Tree ns _ Hd Hcn) as [tb Htb].
    destruct (node_to_explanation_ok ns Hd hist_rl (S (length ns)) _ _ Htb) as (? & ? & ? & _ & -> & _ & _); [lia|]. cbn. eauto.
  - destruct Hcs as [?|Hin']; [done|].
    assert (Hedge : exists a b es'' pre', es' = pre' ++ (a, b, JCong) :: es'' /\
        ((cn_current c = a /\ cn_next c = b) \/ (cn_current c = b /\ cn_next c = a))).
    { apply elem_of_list_split in Hin' as (pre' & es'' & E). unfold edge_of in E. rewrite Ej in E.
      destruct (cn_fwd c); eexists _, _, _, _; split; [exact E|auto|exact E|auto]. }
    destruct Hedge as (a & b & es'' & pre' & E' & Hab).
    assert (Hes2 : exists n m, ns !! a = Some n /\ ns !! b = Some m /\ nop n = nop m /\ Forall2 (connected es'') (nch n) (nch m)).
    { rewrite Epre, E', app_assoc in Ho. apply edges_ok_suffix in Ho. inversion Ho; subst. eauto 10. }
    destruct Hes2 as (n1 & n2 & Hn1 & Hn2 & Eo & Hcc).
    assert (Hes3 : exists n m, ns !! cn_current c = Some n /\ ns !! cn_next c = Some m /\ nop n = nop m /\ Forall2 (connected es'') (nch n) (nch m)).
    { destruct Hab as [[-> ->]|[-> ->]]; [eauto 10|]. exists n2, n1. split_and!; auto. apply Forall2_flip.
      eapply Forall2_impl; [exact Hcc|]. intros. by apply connected_sym. }
    clear n1 n2 Hn1 Hn2 Eo Hcc. destruct Hes3 as (n1 & n2 & Hn1 & Hn2 & Eo & Hcc). rewrite Hn1, Hn2. cbn [expect mbind res_bind].
    assert (Hm : node_matches n1 n2 = true).
    { unfold node_matches. rewrite bool_decide_eq_true_2 by done. cbn. apply Nat.eqb_eq. by eapply Forall2_length. }
    rewrite Hm.
    assert (Hts : exists ts us, Forall2 (Tree ns) (nch n1) ts /\ Forall2 (Tree ns) (nch n2) us).
    { destruct (dag_Tree ns (cn_current c) Hd) as [t1 Ht1]; [by eapply lookup_lt_Some|].
      destruct (dag_Tree ns (cn_next c) Hd) as [t2 Ht2]; [by eapply lookup_lt_Some|].
      inversion Ht1 as [? ? cs ts1 Hg1 Hf1]; subst. inversion Ht2 as [? ? ds us1 Hg2 Hf2]; subst.
      rewrite Hn1 in Hg1. rewrite Hn2 in Hg2. injection Hg1 as ->. injection Hg2 as ->. eauto. }
    destruct Hts as (ts1 & us1 & Hts & Hus).
    assert (Hlt : length es'' < length es') by (rewrite E', app_length; cbn; lia).
    destruct (explain_children_ok ns hist_rl (explain_enodes fuel x ns) (nch n1) (nch n2) ca0 ts1 us1) as [[ks ca1] Ek]; auto.
    { by eapply Forall2_length. }
    { apply Forall2_same_length_lookup_2; [by eapply Forall2_length|]. intros k c1 c2 Hc1 Hc2 ca2 Hca2.
      eapply (IHes es'' Hlt (pre ++ pre' ++ [(a, b, JCong)])); [|eapply Nat.lt_le_trans; [exact Hlt|by apply Nat.lt_succ_r]| | | |done].
      - rewrite Epre, E'. by rewrite <- !app_assoc.
      - destruct (Forall2_lookup_l _ _ _ _ _ Hts Hc1) as (? & _ & Ht). by eapply Tree_lt.
      - destruct (Forall2_lookup_l _ _ _ _ _ Hus Hc2) as (? & _ & Ht). by eapply Tree_lt.
      - by eapply Forall2_lookup_lr. }
    rewrite Ek. cbn. eauto.
Qed.
End total.
End explain.
