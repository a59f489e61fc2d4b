(** How many rule steps explanations have. *)
From Verif Require Import Base UnionFind Spec EGraphModel EGraphSafe ExplainForest Terms RecExprModel ExprModel ExplainModel ExplainSpec ExplainPath
  ExplainProofs ExtractSpec ExtractMain OptModel OptDist OptPar OptNeighbours OptSearch OptMemo OptExplain ExplainCount.

Section short.
Context {Op : Type} `{Countable Op}.
Notation node := (node Op).
Notation explain := (explain Op).
Notation ttree := (ttree Op).
Context {ns : list node} {h : list (event Op)} {fnd : nat -> nat} {x : explain} {es : list edge}.
Context (Hd : dag ns) (X : xforest ns h fnd x es).
Let W := X_world Hd X.
Let Hlen : length (ex_find x) = length ns := w_len _ _ _ _ _ W.
Notation N := (length (ex_find x)).
Notation f := (ex_find x).
Notation Dst := (Dst ns x es).
Notation Cost := (Cost ns x es).
Notation wcost cs := (sum_list (Cost <$> cs)).
Notation kids_conn := (kids_conn (ns := ns) (es := es)).
Notation path_of lc rc := (lc ++ (flip_conn <$> reverse rc)).

(** a rule step from [a] to [b] is recorded *)
Definition rule_nb (a b : nat) : Prop := exists c, c ∈ nbs f a /\ cn_next c = b /\ cn_just c <> JCong.
(** steps of a hop: one when a rule step is recorded, those of the children otherwise *)
Definition hop (a b : nat) : nat :=
  match list_find (fun c => cn_next c = b /\ cn_just c <> JCong) (nbs f a) with Some _ => 1 | None => Cost (Conn b a JCong true) end.
Definition chop (c : conn) : nat := hop (cn_current c) (cn_next c).
Lemma hop_rule1 a b : rule_nb a b -> hop a b = 1.
Proof.
  intros (c & Hc & Hn & Hj). unfold hop. destruct (list_find _ _) eqn:E; [done|]. apply list_find_None in E. rewrite Forall_forall in E. by destruct (E c Hc).
Qed.
Lemma hop_cong a b : ~ rule_nb a b -> hop a b = Cost (Conn b a JCong true).
Proof.
  intros Hn. unfold hop. destruct (list_find _ _) as [[i c]|] eqn:E; [|done]. apply list_find_Some in E as (Hi & [? ?] & _). destruct Hn. exists c.
  split; [by eapply elem_of_list_lookup_2|done].
Qed.
Lemma Cost_cong c : cn_just c = JCong -> Cost c = Cost (Conn (cn_next c) (cn_current c) JCong true).
Proof. intros E. unfold OptDist.Cost, lw. rewrite E. done. Qed.
Lemma Cost_rule c : cn_just c <> JCong -> Cost c = 1.
Proof. unfold OptDist.Cost, lw. by destruct (cn_just c). Qed.
Lemma rule_nb_dec a b : {rule_nb a b} + {~ rule_nb a b}.
Proof.
  destruct (list_find (fun c => cn_next c = b /\ cn_just c <> JCong) (nbs f a)) as [[i c]|] eqn:E.
  - left. apply list_find_Some in E as (Hi & [? ?] & _). exists c. split; [by eapply elem_of_list_lookup_2|done].
  - right. intros (c & Hc & Hn & Hj). apply list_find_None in E. rewrite Forall_forall in E. by destruct (E c Hc).
Qed.

(** ** Counting the steps along the paths taken *)
Context (x' : explain) (Ex : ex_find x' = f).
Context (rel : nat -> nat -> Prop) (Hrefl : forall a, rel a a) (Htr : forall a b c, rel a b -> rel b c -> rel a c).
Context (Hadd : forall a b c d, rel a b -> rel c d -> rel (a + c) (b + d)).
Definition hop_ok (c : conn) : Prop := match cn_just c with JCong => kids_conn c /\ chop c = Cost c | JRule _ => chop c = 1 end.
Context (Hpath : forall l r lc rc, l < N -> r < N -> connected es l r -> get_path (S N) x' l r = Ok (lc, rc) ->
  rel (sum_list (chop <$> path_of lc rc)) (Dst l r) /\ Forall hop_ok (path_of lc rc)).
Definition cached (ca : gmap (nat * nat) ttree) : Prop := forall a b t, ca !! (a, b) = Some t -> rel (tcount t) (hop a b).

Lemma node_count fuel : forall i t, node_to_explanation fuel ns i = Ok t -> exists n ks, t = TT n None None ks /\ tcount t = 0.
Proof.
  induction fuel as [|fuel IH]; intros i t E; [done|]. cbn [node_to_explanation] in E. destruct (ns !! i) as [n|]; [|done]. cbn [expect mbind res_bind] in E.
  destruct (mapM _ _) as [ks| |] eqn:Em; try done. cbn [mbind res_bind] in E. injection E as <-. exists n, ks. split; [done|].
  rewrite tcount_node. cbn [ann]. revert ks Em. generalize (nch n). intros l. induction l as [|c l IHl]; intros ks Em; cbn [mapM] in Em; [by injection Em as <-|].
  destruct (node_to_explanation fuel ns c) as [t| |] eqn:Ec; try done. cbn [mbind res_bind] in Em.
  destruct (mapM _ l) as [ks'| |] eqn:El; try done. cbn [mbind res_bind] in Em. injection Em as <-. destruct (IH _ _ Ec) as (? & ? & _ & E0).
  rewrite fmap_cons. change (sum_list (?a :: ?l)) with (a + sum_list l). rewrite pcount_cons, E0. specialize (IHl _ eq_refl). cbn [ann] in *. cbn in *. lia.
Qed.
Section rec.
Context (rec : nat -> nat -> gmap (nat * nat) ttree -> res (list ttree * gmap (nat * nat) ttree)).
Context (Hrec : forall l r ca p ca', l < N -> r < N -> connected es l r -> cached ca -> rec l r ca = Ok (p, ca') -> rel (pcount p) (Dst l r) /\ cached ca').
Lemma children_count cs : forall ds ca ps ca', Forall2 (fun a b => a < N /\ b < N /\ connected es a b) cs ds -> cached ca ->
  explain_children rec cs ds ca = Ok (ps, ca') -> rel (sum_list (pcount <$> ps)) (sum_list (zip_with Dst cs ds)) /\ cached ca'.
Proof.
  induction cs as [|c cs IH]; intros ds ca ps ca' Hf Hca E; inversion Hf as [|? d ? ds' (Hc & Hd' & Hcd) Hf']; subst; cbn [explain_children] in E.
  { injection E as <- <-. split; [apply Hrefl|done]. }
  destruct (rec c d ca) as [[p ca1]| |] eqn:Er; try done. cbn [mbind res_bind] in E. destruct (Hrec _ _ _ _ _ Hc Hd' Hcd Hca Er) as [R1 C1].
  destruct (explain_children rec cs ds' ca1) as [[ps' ca2]| |] eqn:Ek; try done. cbn [mbind res_bind] in E. injection E as <- <-.
  destruct (IH _ _ _ _ Hf' C1 Ek) as [R2 C2]. split; [|done]. cbn [zip_with]. rewrite fmap_cons. change (sum_list (?a :: ?l)) with (a + sum_list l). by apply Hadd.
Qed.
Lemma adjacent_count c ca t ca' : hop_ok c -> cached ca -> explain_adjacent rec ns c ca = Ok (t, ca') -> rel (tcount t) (chop c) /\ cached ca'.
Proof.
  intros Hc Hca E. unfold explain_adjacent in E. destruct (ca !! _) as [t0|] eqn:Eca.
  { injection E as <- <-. split; [by apply Hca|done]. }
  assert (Hgo : forall t0 ca0, rel (tcount t0) (chop c) -> cached ca0 -> Ok (t0, <[(cn_current c, cn_next c) := t0]> ca0) = Ok (t, ca') -> rel (tcount t) (chop c) /\ cached ca').
  { intros t0 ca0 Ht0 Hca0 [= <- <-]. split; [done|]. intros a b t1 [[[= <- <-] <-]|[_ H1]]%lookup_insert_Some; [done|by apply Hca0]. }
  unfold hop_ok in Hc. destruct (cn_just c) as [r|] eqn:Ej.
  - destruct (node_to_explanation _ _ _) as [t0| |] eqn:En; try done. cbn [mbind res_bind] in E.
    destruct (node_count _ _ _ En) as (n & ks & -> & E0). cbn [mbind res_bind] in E. revert E. apply Hgo; [|done]. rewrite Hc.
    rewrite tcount_node in E0. destruct (cn_fwd c); rewrite tcount_node; cbn [ann] in *; (replace (_ + _) with 1 by lia; apply Hrefl).
  - destruct Hc as [Hk Hc]. destruct (Hk Ej) as (n & m & Hn & Hm & Eo & Hf). rewrite Hn, Hm in E. cbn [expect mbind res_bind] in E.
    destruct (node_matches n m); [|done]. destruct (explain_children rec (nch n) (nch m) ca) as [[ks ca1]| |] eqn:Ek; try done. cbn [mbind res_bind] in E.
    destruct (children_count _ _ _ _ _ (Forall2_lt W _ _ _ _ _ Hn Hm Hf) Hca Ek) as [R1 C1]. revert E. apply Hgo; [|done].
    rewrite tcount_node, Hc. unfold OptDist.Cost, lw. rewrite Ej, Hn, Hm. cbn [ann]. exact R1.
Qed.
Lemma along_count cs : forall ca p ca', Forall hop_ok cs -> cached ca -> explain_along rec ns cs ca = Ok (p, ca') -> rel (pcount p) (sum_list (chop <$> cs)) /\ cached ca'.
Proof.
  induction cs as [|c cs IH]; intros ca p ca' Hf Hca E; cbn [explain_along] in E.
  { injection E as <- <-. split; [apply Hrefl|done]. }
  apply Forall_cons in Hf as [Hc Hf]. destruct (explain_adjacent rec ns c ca) as [[t ca1]| |] eqn:Et; try done. cbn [mbind res_bind] in E.
  destruct (adjacent_count _ _ _ _ Hc Hca Et) as [R1 C1]. destruct (explain_along rec ns cs ca1) as [[ts ca2]| |] eqn:Ea; try done. cbn [mbind res_bind] in E.
  injection E as <- <-. destruct (IH _ _ _ Hf C1 Ea) as [R2 C2]. split; [|done]. rewrite pcount_cons, fmap_cons. change (sum_list (?a :: ?l)) with (a + sum_list l). by apply Hadd.
Qed.
End rec.
Lemma enodes_count fuel : forall l r ca p ca', l < N -> r < N -> connected es l r -> cached ca -> explain_enodes fuel x' ns l r ca = Ok (p, ca') ->
  rel (pcount p) (Dst l r) /\ cached ca' /\ exists lc rc, get_path (S N) x' l r = Ok (lc, rc) /\ rel (pcount p) (sum_list (chop <$> path_of lc rc)).
Proof.
  induction fuel as [|fuel IH]; intros l r ca p ca' Hl Hr Hc Hca E; [done|]. cbn [explain_enodes] in E.
  destruct (node_to_explanation _ _ _) as [t0| |] eqn:En; try done. cbn [mbind res_bind] in E. destruct (node_count _ _ _ En) as (n & ks & -> & E0).
  rewrite Ex in E. destruct (get_path (S N) x' l r) as [[lc rc]| |] eqn:Ep; try done. cbn [mbind res_bind] in E.
  destruct (explain_along _ _ _ _) as [[ts ca1]| |] eqn:Ea; try done. cbn [mbind res_bind] in E. injection E as <- <-.
  destruct (Hpath l r lc rc Hl Hr Hc Ep) as [Hs Ho].
  apply along_count in Ea as [R1 C1]; [| |done|done].
  - assert (R2 : rel (pcount (TT n None None ks :: ts)) (sum_list (chop <$> path_of lc rc))) by (rewrite pcount_cons, E0; exact R1).
    split; [by eapply Htr|]. split; [done|]. eauto.
  - intros l' r' ca0 p' ca2 Hl' Hr' Hc' Hca0 E'. destruct (IH _ _ _ _ _ Hl' Hr' Hc' Hca0 E') as (? & ? & _). done.
Qed.
End short.
