(** The producer with its sharing does what the producer without does, and sharing is
    consistent; counting rewrites. *)
From Coq Require Import NArith.
From Verif Require Import Base UnionFind EGraphModel Spec Terms RecExprModel ExplainModel ExplainSpec TextModel PrintModel PrintSpec PrintProofs ExplainCount.

Section share.
Context {Op D : Type} `{Countable Op}.
Notation node := (node Op).
Notation egraph := (egraph Op D).
Notation explain := (explain Op).
Notation ttree := (ttree Op).
Notation ptree := (ptree Op).
Implicit Types (x : explain) (ns : list node) (h : nat -> option ptree).

(** ** Memories *)
Definition ext h h' : Prop := forall a t, h a = Some t -> h' a = Some t.
Lemma ext_refl h : ext h h. Proof. by intros a. Qed.
Lemma ext_trans h1 h2 h3 : ext h1 h2 -> ext h2 h3 -> ext h1 h3.
Proof. unfold ext. auto. Qed.
Lemma stored_ext h h' t : ext h h' -> stored h t -> stored h' t.
Proof.
  intros He. induction t as [a c l n b f kids IH] using ptree_sind. intros Hs. inversion Hs as [? ? ? ? ? ? ? Ha Hk]; subst. constructor; [by apply He|].
  clear Hs Ha. induction kids as [|p kids IHk]; [constructor|]. apply Forall_cons in IH as [IHp IH]. apply Forall_cons in Hk as [Hp Hk]. constructor; [|by apply IHk].
  rewrite Forall_forall in *. auto.
Qed.
Lemma stored_ext_all h h' p : ext h h' -> Forall (stored h) p -> Forall (stored h') p.
Proof. intros He Hp. eapply Forall_impl; [exact Hp|]. intros t. by apply stored_ext. Qed.
Lemma stored_ext_kids h h' ks : ext h h' -> Forall (Forall (stored h)) ks -> Forall (Forall (stored h')) ks.
Proof. intros He Hp. eapply Forall_impl; [exact Hp|]. intros t. by apply stored_ext_all. Qed.
Definition put h (a : nat) (t : ptree) : nat -> option ptree := fun b => if b =? a then Some t else h b.
Lemma put_same h a t : put h a t a = Some t. Proof. unfold put. by rewrite Nat.eqb_refl. Qed.
Lemma put_ext h a t : h a = None -> ext h (put h a t).
Proof. intros Ha b u Hb. unfold put. destruct (b =? a) eqn:E; [|done]. apply Nat.eqb_eq in E. congruence. Qed.
Definition free_from h (next : nat) : Prop := forall a, next <= a -> h a = None.
Lemma put_free h next t : free_from h next -> free_from (put h next t) (S next).
Proof. intros Hf a Ha. unfold put. destruct (a =? next) eqn:E; [apply Nat.eqb_eq in E; lia|]. apply Hf. lia. Qed.
(** a new term *)
Lemma alloc h next c l n b f ks : free_from h next -> Forall (Forall (stored h)) ks ->
  let t := PT next c l n b f ks in ext h (put h next t) /\ free_from (put h next t) (S next) /\ stored (put h next t) t.
Proof.
  intros Hf Hk t. assert (He : ext h (put h next t)) by (apply put_ext, Hf; lia). split; [done|]. split; [by apply put_free|].
  constructor; [apply put_same|by eapply stored_ext_kids].
Qed.

Section prod.
Context ns.
Lemma node_fuel fuel : forall fuel' i (t : ttree), fuel <= fuel' -> node_to_explanation fuel ns i = Ok t -> node_to_explanation fuel' ns i = Ok t.
Proof.
  induction fuel as [|fuel IH]; intros fuel' i t Hle E; [done|]. destruct fuel' as [|fuel']; [lia|]. cbn [node_to_explanation] in *.
  destruct (expect (ns !! i)) as [n| |]; try done. cbn [mbind res_bind] in *.
  match type of E with ((?m ≫= _) = _) => destruct m as [ks| |] eqn:Ek; try done end. cbn [mbind res_bind] in E.
  match goal with |- (?m ≫= _) = _ => assert (Hm : m = Ok ks) end; [|by rewrite Hm].
  clear E. revert ks Ek. induction (nch n) as [|c cs IHc]; intros ks Ek; cbn [mapM] in *; [done|].
  destruct (node_to_explanation fuel ns c) as [u| |] eqn:Eu; try done. rewrite (IH fuel' c u) by (lia || done). cbn [mbind res_bind] in *.
  match type of Ek with ((?m ≫= _) = _) => destruct m as [us| |] eqn:Eus; try done end. by rewrite (IHc us).
Qed.
Lemma node_fuel_det fuel fuel' i (t t' : ttree) : node_to_explanation fuel ns i = Ok t -> node_to_explanation fuel' ns i = Ok t' -> t = t'.
Proof. intros E E'. apply (node_fuel fuel (fuel `max` fuel')) in E; [|lia]. apply (node_fuel fuel' (fuel `max` fuel')) in E'; [|lia]. congruence. Qed.

Definition ncache_ok h (nc : gmap nat ptree) : Prop :=
  forall i t, nc !! i = Some t -> stored h t /\ edges t = [] /\ exists fuel, node_to_explanation fuel ns i = Ok (unshare t).
Definition nst_ok h (st : nat * gmap nat ptree) : Prop := free_from h st.1 /\ ncache_ok h st.2.
Lemma ncache_ext h h' nc : ext h h' -> ncache_ok h nc -> ncache_ok h' nc.
Proof. intros He Hn i t Hi. destruct (Hn _ _ Hi) as (? & ? & ?). split; [by eapply stored_ext|done]. Qed.
Lemma no_edges_concat (ks : list (list ptree)) : Forall (Forall (fun t => edges t = [])) ks -> concat (map (fun p => concat (map edges p)) ks) = [].
Proof.
  induction 1 as [|p ks Hp _ IH]; [done|]. cbn. rewrite IH, app_nil_r. induction Hp as [|t p Ht _ IHp]; [done|]. cbn. by rewrite Ht, IHp.
Qed.
Lemma rc_node_ok fuel : forall i st h T, nst_ok h st -> node_to_explanation fuel ns i = Ok T ->
  exists t st' h', rc_node fuel ns i st = Ok (t, st') /\ ext h h' /\ nst_ok h' st' /\ stored h' t /\ edges t = [] /\ unshare t = T.
Proof.
  induction fuel as [|fuel IH]; intros i st h T Hst E; [done|]. pose proof E as E0. cbn [node_to_explanation] in E. cbn [rc_node]. destruct (st.2 !! i) as [t|] eqn:Ei.
  { destruct Hst as [Hf Hn]. destruct (Hn _ _ Ei) as (Hs & He & fuel0 & Eu). exists t, st, h. split; [done|]. split; [apply ext_refl|]. split; [done|]. split; [done|]. split; [done|].
    exact (node_fuel_det fuel0 (S fuel) i _ _ Eu E0). }
  destruct (expect (ns !! i)) as [n| |]; try done. cbn [mbind res_bind] in E |- *.
  match type of E with ((?m ≫= _) = _) => destruct m as [KS| |] eqn:Ek; try done end. cbn [mbind res_bind] in E. injection E as <-.
  assert (HK : exists ks st' h', rc_nodes (rc_node fuel ns) (nch n) st = Ok (ks, st') /\ ext h h' /\ nst_ok h' st' /\ Forall (Forall (stored h')) ks /\
    Forall (Forall (fun t => edges t = [])) ks /\ map (map unshare) ks = KS).
  { clear E0 Ei. revert st h Hst KS Ek. induction (nch n) as [|c cs IHc]; intros st h Hst KS Ek; cbn [mapM rc_nodes] in *.
    - injection Ek as <-. exists [], st, h. split; [done|]. split; [apply ext_refl|]. split; [done|]. split; [constructor|]. split; [constructor|done].
    - destruct (node_to_explanation fuel ns c) as [U| |] eqn:Eu; try done. cbn [mbind res_bind] in Ek.
      match type of Ek with ((?m ≫= _) = _) => destruct m as [US| |] eqn:Eus; try done end. injection Ek as <-.
      destruct (IH c st h U Hst Eu) as (t & st1 & h1 & -> & X1 & Hst1 & Hs1 & He1 & U1). cbn [mbind res_bind].
      destruct (IHc st1 h1 Hst1 US eq_refl) as (ks & st2 & h2 & -> & X2 & Hst2 & Hs2 & He2 & U2). cbn [mbind res_bind].
      exists ([t] :: ks), st2, h2. split; [done|]. split; [by eapply ext_trans|]. split; [done|].
      split; [constructor; [constructor; [by eapply stored_ext|constructor]|done]|]. split; [constructor; [by constructor|done]|]. cbn [map]. by rewrite U1, U2. }
  destruct HK as (ks & [next nc] & h1 & -> & X1 & [Hf Hn] & Hs & He & EK). cbn [mbind res_bind fst snd].
  set (t := PT next 0 0 n None None ks). destruct (alloc h1 next 0 0 n None None ks Hf Hs) as (X2 & Hf2 & Hst2). fold t in X2, Hf2, Hst2.
  assert (Het : edges t = []) by (cbn; by apply no_edges_concat). assert (Eut : unshare t = TT n None None KS) by (unfold t; cbn [unshare]; by rewrite EK).
  exists t, (S next, <[i := t]> nc), (put h1 next t). split; [done|]. split; [by eapply ext_trans|]. split.
  - split; [done|]. intros j u. cbn [snd]. destruct (decide (j = i)) as [->|Hne].
    + rewrite lookup_insert. intros [= <-]. split; [done|]. split; [done|]. exists (S fuel). by rewrite Eut.
    + rewrite lookup_insert_ne by done. intros Hu. exact (ncache_ext h1 _ nc X2 Hn j u Hu).
  - split; [done|]. split; [done|done].
Qed.

Definition acache_ok h (ca : gmap (nat * nat) ptree) : Prop := forall k t, ca !! k = Some t -> stored h t /\ one_step t.
Definition st_ok h (st : gmap (nat * nat) ptree * (nat * gmap nat ptree)) : Prop := acache_ok h st.1 /\ nst_ok h st.2.
Lemma acache_ext h h' ca : ext h h' -> acache_ok h ca -> acache_ok h' ca.
Proof. intros He Hn i t Hi. destruct (Hn _ _ Hi) as (? & ?). split; [by eapply stored_ext|done]. Qed.
(** what is known of a call of the sharing producer *)
Definition answers (h : nat -> option ptree) (r : res (list ptree * (gmap (nat * nat) ptree * (nat * gmap nat ptree)))) (p : list ttree) (ca : gmap (nat * nat) ttree) : Prop :=
  exists P st' h', r = Ok (P, st') /\ ext h h' /\ st_ok h' st' /\ unshare <$> st'.1 = ca /\ Forall (stored h') P /\ Forall one_step P /\ map unshare P = p.
Section rec.
Context (rec : nat -> nat -> gmap (nat * nat) ttree -> res (list ttree * gmap (nat * nat) ttree)).
Context (rec' : nat -> nat -> gmap (nat * nat) ptree * (nat * gmap nat ptree) -> res (list ptree * (gmap (nat * nat) ptree * (nat * gmap nat ptree)))).
Context (Hrec : forall l r st h p ca, st_ok h st -> rec l r (unshare <$> st.1) = Ok (p, ca) -> answers h (rec' l r st) p ca).
Lemma rc_children_ok cs : forall ds st h KS ca, st_ok h st -> explain_children rec cs ds (unshare <$> st.1) = Ok (KS, ca) ->
  exists ks st' h', rc_children rec' cs ds st = Ok (ks, st') /\ ext h h' /\ st_ok h' st' /\ unshare <$> st'.1 = ca /\ Forall (Forall (stored h')) ks /\ Forall (Forall one_step) ks /\ map (map unshare) ks = KS.
Proof.
  assert (Hnil : forall st h, st_ok h st -> exists ks st' h', Ok ([], st) = Ok (ks, st') /\ ext h h' /\ st_ok h' st' /\ unshare <$> st'.1 = unshare <$> st.1 /\
    Forall (Forall (stored h')) ks /\ Forall (Forall one_step) ks /\ map (map unshare) ks = []).
  { intros st h Hst. exists [], st, h. split; [done|]. split; [apply ext_refl|]. split; [done|]. split; [done|]. split; [constructor|]. split; [constructor|done]. }
  induction cs as [|c cs IH]; intros [|d ds] st h KS ca Hst E; cbn [explain_children rc_children] in *; try (injection E as <- <-; by apply Hnil).
  destruct (rec c d (unshare <$> st.1)) as [[p ca1]| |] eqn:E1; try done. cbn [mbind res_bind] in E.
  destruct (Hrec c d st h p ca1 Hst E1) as (P & st1 & h1 & -> & X1 & Hst1 & Eca & Hs1 & Ho1 & Up). cbn [mbind res_bind]. rewrite <- Eca in E.
  destruct (explain_children rec cs ds (unshare <$> st1.1)) as [[ps ca2]| |] eqn:E2; try done. cbn [mbind res_bind] in E. injection E as <- <-.
  destruct (IH ds st1 h1 ps ca2 Hst1 E2) as (ks & st2 & h2 & -> & X2 & Hst2 & Eca2 & Hs2 & Ho2 & Ups). cbn [mbind res_bind].
  exists (P :: ks), st2, h2. split; [done|]. split; [by eapply ext_trans|]. split; [done|]. split; [done|]. split; [constructor; [by eapply stored_ext_all|done]|].
  split; [by constructor|]. cbn [map]. by rewrite Up, Ups.
Qed.
Lemma rc_adjacent_ok c st h T ca : st_ok h st -> explain_adjacent rec ns c (unshare <$> st.1) = Ok (T, ca) ->
  exists t st' h', rc_adjacent rec' ns c st = Ok (t, st') /\ ext h h' /\ st_ok h' st' /\ unshare <$> st'.1 = ca /\ stored h' t /\ one_step t /\ unshare t = T.
Proof.
  intros Hst E. unfold explain_adjacent in E. unfold rc_adjacent. rewrite lookup_fmap in E. destruct (st.1 !! _) as [t|] eqn:Et; cbn [fmap option_fmap option_map] in E.
  { injection E as <- <-. destruct Hst as [Hc Hn]. destruct (Hc _ _ Et) as [Hs Ho]. exists t, st, h. split; [done|]. split; [apply ext_refl|]. split; [done|]. split; [done|].
    split; [done|]. split; [done|done]. }
  assert (Hdone : forall t ca' next nc h', ext h h' -> free_from h' (S next) -> ncache_ok h' nc -> acache_ok h' ca' -> stored h' t -> one_step t ->
    exists t0 st' h', Ok (t, (<[(cn_current c, cn_next c) := t]> ca', (S next, nc))) = Ok (t0, st') /\ ext h h' /\ st_ok h' st' /\
      unshare <$> st'.1 = <[(cn_current c, cn_next c) := unshare t]> (unshare <$> ca') /\ stored h' t0 /\ one_step t0 /\ unshare t0 = unshare t).
  { intros t ca' next nc h' X Hf Hn Ha Hs Ho. exists t, (<[(cn_current c, cn_next c) := t]> ca', (S next, nc)), h'. split; [done|]. split; [done|]. split; [split|].
    - intros k u. cbn [fst]. destruct (decide (k = (cn_current c, cn_next c))) as [->|Hne]; [rewrite lookup_insert; by intros [= <-]|]. rewrite lookup_insert_ne by done. apply Ha.
    - split; done.
    - cbn [fst]. rewrite fmap_insert. split; [done|]. split; [done|]. split; [done|done]. }
  destruct Hst as [Hc Hn]. destruct (cn_just c) as [r|].
  - destruct (node_to_explanation (S (length ns)) ns (cn_next c)) as [U| |] eqn:EU; try done. cbn [mbind res_bind] in E.
    destruct (rc_node_ok _ _ st.2 h U Hn EU) as (u & [next nc] & h1 & -> & X1 & [Hf1 Hn1] & Hs1 & He1 & Eu). cbn [mbind res_bind]. destruct u as [a c0 l0 n b f ks]. cbn [unshare] in Eu. subst U.
    assert (Hks : Forall (Forall (stored h1)) ks) by (by inversion Hs1).
    assert (Hbf : b = None /\ f = None /\ concat (map (fun p => concat (map edges p)) ks) = []) by (cbn in He1; by destruct b, f). destruct Hbf as (-> & -> & He).
    assert (Hek : Forall (Forall (fun t => edges t = [])) ks).
    { clear -He. induction ks as [|p ks IH]; [constructor|]. cbn in He. apply app_eq_nil in He as [H1 H2]. constructor; [|by apply IH]. clear -H1. induction p as [|t p IH]; [constructor|].
      cbn in H1. apply app_eq_nil in H1 as [? ?]. constructor; [done|by apply IH]. }
    cbn [mbind res_bind] in E.
    destruct (cn_fwd c).
    + set (t := PT next (cn_next c) (cn_current c) n None (Some r) ks) in *. destruct (alloc h1 next (cn_next c) (cn_current c) n None (Some r) ks Hf1 Hks) as (X2 & Hf2 & Hs2). fold t in X2, Hf2, Hs2.
      cbn [mbind res_bind]. injection E as <- <-.
      apply (Hdone t st.1 next nc (put h1 next t)); [by eapply ext_trans|done|by eapply ncache_ext|eapply acache_ext; [exact X2|]; by eapply acache_ext|done|by constructor].
    + set (t := PT next (cn_next c) (cn_current c) n (Some r) None ks) in *. destruct (alloc h1 next (cn_next c) (cn_current c) n (Some r) None ks Hf1 Hks) as (X2 & Hf2 & Hs2). fold t in X2, Hf2, Hs2.
      cbn [mbind res_bind]. injection E as <- <-.
      apply (Hdone t st.1 next nc (put h1 next t)); [by eapply ext_trans|done|by eapply ncache_ext|eapply acache_ext; [exact X2|]; by eapply acache_ext|done|by constructor].
  - destruct (expect (ns !! cn_current c)) as [n| |]; try done. destruct (expect (ns !! cn_next c)) as [m| |]; try done. cbn [mbind res_bind] in *. destruct (node_matches n m); [|done].
    destruct (explain_children rec (nch n) (nch m) (unshare <$> st.1)) as [[KS ca1]| |] eqn:EK; try done. cbn [mbind res_bind] in E. injection E as <- <-.
    destruct (rc_children_ok (nch n) (nch m) st h KS ca1 (conj Hc Hn) EK) as (ks & [ca' [next nc]] & h1 & -> & X1 & [Ha1 [Hf1 Hn1]] & Eca & Hs1 & Ho1 & <-). cbn [mbind res_bind fst snd] in *.
    set (t := PT next 0 0 n None None ks). destruct (alloc h1 next 0 0 n None None ks Hf1 Hs1) as (X2 & Hf2 & Hs2). fold t in X2, Hf2, Hs2. subst ca1.
    apply (Hdone t ca' next nc (put h1 next t)); [by eapply ext_trans|done|by eapply ncache_ext|by eapply acache_ext|done|by constructor].
Qed.
Lemma rc_along_ok cs : forall st h p ca, st_ok h st -> explain_along rec ns cs (unshare <$> st.1) = Ok (p, ca) -> answers h (rc_along rec' ns cs st) p ca.
Proof.
  induction cs as [|c cs IH]; intros st h p ca Hst E; cbn [explain_along rc_along] in *.
  - injection E as <- <-. exists [], st, h. split; [done|]. split; [apply ext_refl|]. split; [done|]. split; [done|]. split; [constructor|]. split; [constructor|done].
  - destruct (explain_adjacent rec ns c (unshare <$> st.1)) as [[T ca1]| |] eqn:E1; try done. cbn [mbind res_bind] in E.
    destruct (rc_adjacent_ok c st h T ca1 Hst E1) as (t & st1 & h1 & -> & X1 & Hst1 & Eca & Hs1 & Ho1 & Ut). cbn [mbind res_bind]. rewrite <- Eca in E.
    destruct (explain_along rec ns cs (unshare <$> st1.1)) as [[ts ca2]| |] eqn:E2; try done. cbn [mbind res_bind] in E. injection E as <- <-.
    destruct (IH st1 h1 ts ca2 Hst1 E2) as (P & st2 & h2 & -> & X2 & Hst2 & Eca2 & Hs2 & Ho2 & Uts). cbn [mbind res_bind].
    exists (t :: P), st2, h2. split; [done|]. split; [by eapply ext_trans|]. split; [done|]. split; [done|]. split; [constructor; [by eapply stored_ext|done]|].
    split; [by constructor|]. cbn [map]. by rewrite Ut, Uts.
Qed.
End rec.
Lemma rc_enodes_ok x fuel : forall l r st h p ca, st_ok h st -> explain_enodes fuel x ns l r (unshare <$> st.1) = Ok (p, ca) -> answers h (rc_enodes fuel x ns l r st) p ca.
Proof.
  induction fuel as [|fuel IH]; intros l r st h p ca Hst E; [done|]. cbn [explain_enodes rc_enodes] in *. destruct Hst as [Hc Hn].
  destruct (node_to_explanation (S (length ns)) ns l) as [T| |] eqn:ET; try done. cbn [mbind res_bind] in E.
  destruct (rc_node_ok _ _ st.2 h T Hn ET) as (t & ns' & h1 & -> & X1 & Hn1 & Hs1 & He1 & Ut). cbn [mbind res_bind].
  destruct (get_path (S (length (ex_find x))) x l r) as [[lc rc]| |]; try done. cbn [mbind res_bind] in *.
  destruct (explain_along _ ns _ _) as [[ts ca2]| |] eqn:E2; try done. cbn [mbind res_bind] in E. injection E as <- <-.
  assert (Hst1 : st_ok h1 (st.1, ns')) by (split; [by eapply acache_ext|done]).
  destruct (rc_along_ok (explain_enodes fuel x ns) (rc_enodes fuel x ns) IH _ (st.1, ns') h1 ts ca2 Hst1 E2) as (P & st2 & h2 & -> & X2 & Hst2 & Eca2 & Hs2 & Ho2 & Uts). cbn [mbind res_bind].
  exists (t :: P), st2, h2. split; [done|]. split; [by eapply ext_trans|]. split; [done|]. split; [done|]. split; [constructor; [by eapply stored_ext|done]|].
  split; [|cbn [map]; by rewrite Ut, Uts]. constructor; [|done]. clear -He1. induction t as [a c l n b f kids IH] using ptree_sind. cbn in He1.
  assert (Hbf : b = None /\ f = None /\ concat (map (fun p => concat (map edges p)) kids) = []) by (by destruct b, f). destruct Hbf as (-> & -> & He).
  constructor. clear He1. induction kids as [|p kids IHk]; [constructor|]. cbn in He. apply app_eq_nil in He as [H1 H2]. apply Forall_cons in IH as [IHp IH].
  constructor; [|by apply IHk]. clear -H1 IHp. induction p as [|t p IH]; [constructor|]. cbn in H1. apply app_eq_nil in H1 as [? ?]. apply Forall_cons in IHp as [? ?]. constructor; auto.
Qed.
End prod.
Lemma rc_explain_ok fuel l r (g : egraph) p : explain_id_equivalence fuel l r g = Ok p ->
  exists P h, rc_explain fuel l r g = Ok P /\ map unshare P = p /\ Forall (stored h) P /\ Forall one_step P.
Proof.
  unfold explain_id_equivalence, rc_explain. case_bool_decide; [|done]. destruct (eg_explain g) as [x|]; [|done]. cbn [expect mbind res_bind].
  destruct (explain_enodes _ _ _ _ _ _) as [[p' ca]| |] eqn:E; try done. cbn [mbind res_bind]. intros [= ->].
  assert (Hst : st_ok (eg_nodes g) (fun _ => None) (∅, (0, ∅))).
  { split; [intros k t; cbn [fst]; by rewrite lookup_empty|]. split; [done|]. intros i t. cbn [snd]. by rewrite lookup_empty. }
  destruct (rc_enodes_ok (eg_nodes g) x fuel l r (∅, (0, ∅)) _ p ca Hst) as (P & st & h & -> & _ & _ & _ & Hs & Ho & U); [cbn [fst]; by rewrite fmap_empty|].
  exists P, h. split; [done|]. split; [done|]. split; done.
Qed.
End share.
