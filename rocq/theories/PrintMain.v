From Coq Require Import NArith.
From Verif Require Import Base UnionFind EGraphModel Spec EGraphReach Terms RecExprModel ExprModel ExplainModel ExplainSpec ExplainFlat ExplainMain CheckSpec CheckProofs ExplainCount
  TextModel TextSpec TextProofs TextMain OptModel OptSpec OptInterleave PrintModel PrintSpec PrintProofs PrintFlat PrintShare PrintSize.

Section made.
Context {Op D : Type} `{Countable Op}.
Notation node := (node Op).
Notation egraph := (egraph Op D).
Notation ttree := (ttree Op).
Notation ptree := (ptree Op).

(** ** What the e-graph produces is well-formed *)
Lemma node_formed fuel (ns : list node) i t : node_to_explanation fuel ns i = Ok t -> well_formed t.
Proof.
  revert i t. induction fuel as [|fuel IH]; intros i t E; cbn [node_to_explanation] in E; [done|].
  destruct (expect (ns !! i)) as [n| |]; try done. cbn [mbind res_bind] in E.
  match type of E with ((?m ≫= _) = _) => destruct m as [ks| |] eqn:Ek; try done end. cbn [mbind res_bind] in E. injection E as <-.
  assert (length ks = length (nch n) /\ Forall (fun p => p <> [] /\ Forall well_formed p) ks) as [L ?]; [|by constructor].
  revert ks Ek. induction (nch n) as [|c cs IHc]; intros ks Ek; cbn [mapM] in Ek; [injection Ek as <-; split; [done|constructor]|].
  destruct (node_to_explanation fuel ns c) as [u| |] eqn:Eu; try done. cbn [mbind res_bind] in Ek.
  match type of Ek with ((?m ≫= _) = _) => destruct m as [us| |] eqn:Eus; try done end. injection Ek as <-. destruct (IHc us eq_refl) as [? ?]. split; [cbn; lia|].
  constructor; [|done]. split; [done|]. constructor; [by eapply IH|constructor].
Qed.
Definition cache_formed (ca : gmap (nat * nat) ttree) : Prop := forall k t, ca !! k = Some t -> well_formed t.
Definition rec_formed (rec : nat -> nat -> gmap (nat * nat) ttree -> res (list ttree * gmap (nat * nat) ttree)) : Prop :=
  forall l r ca p ca', cache_formed ca -> rec l r ca = Ok (p, ca') -> p <> [] /\ Forall well_formed p /\ cache_formed ca'.
Lemma children_formed rec cs : rec_formed rec -> forall ds ca ks ca', cache_formed ca -> length cs = length ds ->
  explain_children rec cs ds ca = Ok (ks, ca') -> length ks = length cs /\ Forall (fun p => p <> [] /\ Forall well_formed p) ks /\ cache_formed ca'.
Proof.
  intros Hr. induction cs as [|c cs IH]; intros [|d ds] ca ks ca' Hc L E; try done; cbn [explain_children] in E.
  - injection E as <- <-. split; [done|]. split; [constructor|done].
  - destruct (rec c d ca) as [[p ca1]| |] eqn:E1; try done. cbn [mbind res_bind] in E. destruct (Hr _ _ _ _ _ Hc E1) as (Hne & Hp & Hc1).
    destruct (explain_children rec cs ds ca1) as [[ps ca2]| |] eqn:E2; try done. cbn [mbind res_bind] in E. injection E as <- <-. injection L as L.
    destruct (IH ds ca1 ps ca2 Hc1 L E2) as (? & ? & ?). split; [cbn; lia|]. split; [by constructor|done].
Qed.
Lemma adjacent_formed rec (ns : list node) c ca t ca' : rec_formed rec -> cache_formed ca -> explain_adjacent rec ns c ca = Ok (t, ca') -> well_formed t /\ cache_formed ca'.
Proof.
  intros Hr Hc E. unfold explain_adjacent in E. destruct (ca !! _) as [t0|] eqn:Ec; [injection E as <- <-; split; [by eapply Hc|done]|].
  apply bind_Ok in E as ([t1 ca1] & E1 & E). cbn beta iota in E. injection E as <- <-.
  assert (well_formed t1 /\ cache_formed ca1) as [Ht H1].
  { destruct (cn_just c) as [r|].
    - destruct (node_to_explanation _ _ _) as [[n b f ks]| |] eqn:En; try done. cbn [mbind res_bind] in E1. injection E1 as <- <-. apply node_formed in En.
      inversion En; subst. split; [|done]. destruct (cn_fwd c); by constructor.
    - destruct (expect (ns !! cn_current c)) as [n| |]; try done. destruct (expect (ns !! cn_next c)) as [m| |]; try done. cbn [mbind res_bind] in E1.
      destruct (node_matches n m) eqn:Em; [|done]. apply node_matches_true in Em as [_ L].
      destruct (explain_children rec (nch n) (nch m) ca) as [[ks ca2]| |] eqn:EK; try done. cbn [mbind res_bind] in E1. injection E1 as <- <-.
      destruct (children_formed rec _ Hr _ _ _ _ Hc L EK) as (? & ? & ?). split; [by constructor|done]. }
  split; [done|]. intros k u. destruct (decide (k = (cn_current c, cn_next c))) as [->|Hne]; [rewrite lookup_insert; by intros [= <-]|].
  rewrite lookup_insert_ne by done. apply H1.
Qed.
Lemma along_formed rec (ns : list node) cs : rec_formed rec -> forall ca p ca', cache_formed ca -> explain_along rec ns cs ca = Ok (p, ca') -> Forall well_formed p /\ cache_formed ca'.
Proof.
  intros Hr. induction cs as [|c cs IH]; intros ca p ca' Hc E; cbn [explain_along] in E; [injection E as <- <-; split; [constructor|done]|].
  destruct (explain_adjacent rec ns c ca) as [[t ca1]| |] eqn:E1; try done. cbn [mbind res_bind] in E. destruct (adjacent_formed _ _ _ _ _ _ Hr Hc E1) as [Ht Hc1].
  destruct (explain_along rec ns cs ca1) as [[ts ca2]| |] eqn:E2; try done. cbn [mbind res_bind] in E. injection E as <- <-. destruct (IH _ _ _ Hc1 E2) as [? ?]. split; [by constructor|done].
Qed.
Lemma enodes_formed fuel (x : EGraphModel.explain Op) ns : rec_formed (explain_enodes fuel x ns).
Proof.
  induction fuel as [|fuel IH]; intros l r ca p ca' Hc E; cbn [explain_enodes] in E; [done|].
  destruct (node_to_explanation _ _ _) as [t| |] eqn:En; try done. cbn [mbind res_bind] in E. apply node_formed in En.
  destruct (get_path _ _ _ _) as [[lc rc]| |]; try done. cbn [mbind res_bind] in E.
  destruct (explain_along _ _ _ _) as [[ts ca1]| |] eqn:Ea; try done. cbn [mbind res_bind] in E. injection E as <- <-.
  destruct (along_formed _ _ _ IH _ _ _ Hc Ea) as [? ?]. split; [done|]. split; [by constructor|done].
Qed.
Lemma explained_formed fuel l r (g : egraph) p : explain_id_equivalence fuel l r g = Ok p -> Forall well_formed p.
Proof.
  unfold explain_id_equivalence. case_bool_decide; [|done]. destruct (eg_explain g) as [x|]; [|done]. cbn [expect mbind res_bind].
  destruct (explain_enodes _ _ _ _ _ _) as [[p' ca]| |] eqn:E; try done. cbn [mbind res_bind]. intros [= ->].
  destruct (enodes_formed _ _ _ _ _ _ _ _ ltac:(intros k t; by rewrite lookup_empty) E) as (_ & ? & _). done.
Qed.
(** with the length optimiser: what is explained is what the memo it left explains *)
Lemma opt_as_plain it cit pop fuel l r (g g' : egraph) p : explain_id_equivalence_opt it cit pop fuel l r g = Ok (g', p) -> explain_id_equivalence fuel l r g' = Ok p.
Proof.
  unfold explain_id_equivalence_opt, explain_id_equivalence. case_bool_decide as Hf; [|done]. destruct (eg_explain g) as [x|]; [|done]. cbn [expect mbind res_bind].
  destruct (calculate_shortest _ _ _ _ _ _ _ _ _) as [x'| |]; try done. cbn [mbind res_bind].
  destruct (explain_enodes _ _ _ _ _ _) as [[p' ca]| |] eqn:E; try done. cbn [mbind res_bind]. intros [= <- <-].
  rewrite bool_decide_eq_true_2 by exact Hf. cbn [eg_explain set_explain expect mbind res_bind eg_nodes]. by rewrite E.
Qed.
Lemma produced fuel l r (g : egraph) p : explain_id_equivalence fuel l r g = Ok p ->
  exists P h, rc_explain fuel l r g = Ok P /\ map unshare P = p /\ Forall (stored h) P /\ Forall one_step P /\ Forall well_formed p.
Proof.
  intros E. destruct (rc_explain_ok fuel l r g p E) as (P & h & E1 & E2 & Hs & Ho). exists P, h. split; [done|]. split; [done|]. split; [done|]. split; [done|]. by eapply explained_formed.
Qed.
Lemma produced_opt it cit pop fuel l r (g g' : egraph) p : explain_id_equivalence_opt it cit pop fuel l r g = Ok (g', p) ->
  exists P h, rc_explain fuel l r g' = Ok P /\ map unshare P = p /\ Forall (stored h) P /\ Forall one_step P /\ Forall well_formed p.
Proof. intros E. eapply produced. by eapply opt_as_plain. Qed.
End made.

Section main.
Context {Op : Type}.
Notation node := (node Op).
Notation ttree := (ttree Op).
Notation fterm := (fterm Op).
Notation ptree := (ptree Op).
Context (disp : Op -> text) (rname : nat -> text) (from_op : text -> list nat -> option node).

Lemma formed_arities (t : ttree) : well_formed t -> arities t.
Proof.
  induction t as [n b f kids IH] using tt_sind. intros Hw. inversion Hw as [? ? ? ? Hl Hk]; subst. constructor; [done|]. clear Hw Hl.
  induction kids as [|p kids IHk]; [constructor|]. apply Forall_cons in IH as [IHp IH]. apply Forall_cons in Hk as [[_ Hp] Hk]. constructor; [|by apply IHk]. rewrite Forall_forall in *. auto.
Qed.
Lemma flat_lines Rl (p : list ttree) t u : proves Rl p t u -> Forall well_formed p ->
  exists f0 rest fl, make_flat p = Ok (f0 :: rest) /\ flat_proves Rl (f0 :: rest) t u /\ last (f0 :: rest) = Some fl /\ erase fl = u /\
    ft_string disp rname f0 = print_sexp (sexp_of disp t) /\
    (forall f, f ∈ f0 :: rest -> names_ok printable disp from_op (erase f) -> exists e, ft_recexpr disp rname from_op f = Ok e /\ dag e /\ ExprTree e (erase f)).
Proof.
  intros Hp Hw. destruct (make_flat_ok Rl p t u Hp) as (fl & Ef & Hfl). pose proof Hfl as (f0 & rest & -> & Hpl & Et & Hst).
  destruct (fsteps_last Rl _ _ _ _ Et Hst) as (l & El & Eu).
  assert (Ha : Forall arity_ok (f0 :: rest)). { eapply arity_make_flat; [|exact Ef]. eapply Forall_impl; [exact Hw|]. intros. by apply formed_arities. }
  exists f0, rest, l. split; [done|]. split; [done|]. split; [done|]. split; [done|]. split.
  - unfold ft_string. apply Forall_cons in Ha as [H0 _]. rewrite plain_sexp by done. by rewrite Et.
  - intros f Hf Hn. rewrite Forall_forall in Ha. apply recexpr_ok; auto.
Qed.
Lemma nice_uses (P : text -> Prop) (t : ttree) : uses (fun f _ => ~ let_name (disp f) /\ P (disp f)) (fun r => ~ let_name (rname r) /\ P (rname r)) t <->
  uses (fun f _ => nice P (disp f)) (fun r => nice P (rname r)) t.
Proof. done. Qed.
Lemma all_good (P : text -> Prop) h (p : list ptree) : Forall (stored h) p -> Forall well_formed (map unshare p) ->
  Forall (uses (fun f _ => ~ let_name (disp f) /\ P (disp f)) (fun r => ~ let_name (rname r) /\ P (rname r))) (map unshare p) -> Forall (good disp rname h P) p.
Proof.
  intros Hs Hw Hu. rewrite Forall_map in Hw. rewrite Forall_map in Hu. rewrite Forall_forall in *. intros t Ht. apply good_intro; [auto|apply (Hw _ Ht)|apply (Hu _ Ht)].
Qed.
Lemma uses_impl (P P' : Op -> nat -> Prop) (R R' : nat -> Prop) : (forall f k, P f k -> P' f k) -> (forall r, R r -> R' r) -> forall t : ttree, uses P R t -> uses P' R' t.
Proof.
  intros HP HR. induction t as [n b f kids IH] using tt_sind. intros Hu. inversion Hu as [? ? ? ? Hd Hb Hf Hk]; subst. constructor; [auto|destruct b; cbn in *; auto|destruct f; cbn in *; auto|]. clear Hu.
  induction kids as [|p kids IHk]; [constructor|]. apply Forall_cons in IH as [IHp IH]. apply Forall_cons in Hk as [Hp Hk]. constructor; [|by apply IHk]. rewrite Forall_forall in *. auto.
Qed.
Lemma let_means h (p : list ptree) : Forall (stored h) p -> Forall well_formed (map unshare p) -> Forall (no_let_names disp rname) (map unshare p) ->
  exists s s0, get_sexp_with_let disp rname p = Ok s /\ get_sexp disp rname p = Ok s0 /\ unlet s = s0.
Proof.
  intros Hs Hw Hu. assert (Hg : Forall (good disp rname h (fun _ => True)) p).
  { apply all_good; [done|done|]. eapply Forall_impl; [exact Hu|]. intros t. apply uses_impl; auto. }
  destruct (let_expands disp rname h (fun _ => True) ltac:(done) ltac:(done) p Hg) as (s & s0 & E1 & E2 & E3 & _). by exists s, s0.
Qed.
Lemma let_text h (p : list ptree) : Forall (stored h) p -> Forall well_formed (map unshare p) ->
  Forall (bare_names disp rname) (map unshare p) ->
  exists w s, get_string_with_let disp rname p = Ok w /\ (forall fuel, length w < fuel -> parse_sexp fuel w = Ok (inr s)) /\ get_sexp disp rname p = Ok (unlet s).
Proof.
  intros Hs Hw Hu. pose proof (all_good _ h p Hs Hw Hu) as Hg. destruct bare_constants as (H1 & H2 & H3 & H4).
  destruct (let_expands disp rname h pretty_bare (conj H1 (conj H2 H3)) bound_name_bare p Hg) as (s & s0 & E1 & E2 & E3 & _ & _ & Ho).
  exists (pretty_sexp 100 0 s), s. unfold get_string_with_let. rewrite E1. split; [done|]. split; [|by rewrite E2, E3].
  intros fuel Hf. pose proof (parse_written _ _ [] [] fuel (pretty_written 100 s 0 (Ho H4)) ltac:(constructor) ltac:(constructor) Hf) as E. by rewrite app_nil_r in E.
Qed.
(** ** Texts determine explanations *)
Context (Hi : forall r r', rname r = rname r' -> r = r').
Definition tree_readable (t : ttree) : Prop := uses (readable disp from_op) (readable_rule rname) t.
Lemma trees_inj (p q : list ttree) : Forall well_formed p -> Forall well_formed q -> Forall tree_readable p -> Forall tree_readable q ->
  map (tt_sexp disp rname) p = map (tt_sexp disp rname) q -> Forall2 same_tree p q.
Proof.
  intros Hp. revert q. induction Hp as [|t p Ht _ IH]; intros [|u q] Hq Rp Rq E; try done. cbn [map] in E. injection E as E1 E2.
  apply Forall_cons in Hq as [? ?]. apply Forall_cons in Rp as [? ?]. apply Forall_cons in Rq as [? ?]. constructor; [by eapply tree_inj|by apply IH].
Qed.
Lemma look_empty rec (t : ptree) : look ∅ rec t = rec t.
Proof. unfold look. by rewrite lookup_empty. Qed.
Lemma plain_form (p : list ptree) : Forall well_formed (map unshare p) -> Forall tree_readable (map unshare p) ->
  exists s0, get_sexp disp rname p = Ok s0 /\ s0 = SList (SStr s_explanation :: map (tt_sexp disp rname) (map unshare p)) /\ sexp_ok printable s0.
Proof.
  intros Hw Hr.
  assert (HK : forall t, well_formed (unshare t) -> tree_readable (unshare t) -> pt_sexp disp rname ∅ t = Ok (tt_sexp disp rname (unshare t)) /\ sexp_ok printable (tt_sexp disp rname (unshare t))).
  { induction t as [a c l n b f kids IH] using ptree_sind. intros Ht Hu. cbn [unshare] in *. inversion Ht as [? ? ? ? Hl Hk]; subst. inversion Hu as [? ? ? ? Hd Hb Hf Hk']; subst.
    rewrite map_length in Hl. cbn [pt_sexp]. rewrite tt_sexp_node.
    assert (HH : each (fun p => match p with [] => Panic | [t] => look ∅ (pt_sexp disp rname ∅) t | _ => es ← each (look ∅ (pt_sexp disp rname ∅)) p; Ok (SList (SStr s_explanation :: es)) end) kids =
      Ok (map (kid_sexp disp rname) (map (map unshare) kids)) /\ Forall (sexp_ok printable) (map (kid_sexp disp rname) (map (map unshare) kids))).
    { clear Ht Hu Hl. induction kids as [|p0 kids IHk]; [split; [done|constructor]|]. apply Forall_cons in IH as [IHp IH]. cbn [map] in Hk, Hk'.
      apply Forall_cons in Hk as [[Hne Hp] Hk]. apply Forall_cons in Hk' as [Hp' Hk']. destruct (IHk IH Hk Hk') as [E1 E2]. clear IHk.
      assert (Hl : each (look ∅ (pt_sexp disp rname ∅)) p0 = Ok (map (tt_sexp disp rname) (map unshare p0)) /\ Forall (sexp_ok printable) (map (tt_sexp disp rname) (map unshare p0))).
      { clear -IHp Hp Hp'. induction p0 as [|t p0 IHq]; [split; [done|constructor]|]. apply Forall_cons in IHp as [I1 I2]. cbn [map] in Hp, Hp'. apply Forall_cons in Hp as [? ?]. apply Forall_cons in Hp' as [? ?].
        destruct (IHq I2) as [F1 F2]; [done|done|]. destruct I1 as [G1 G2]; [done|done|]. cbn [each map]. rewrite look_empty, G1. cbn [mbind res_bind].
        fold (each (look ∅ (pt_sexp disp rname ∅))). rewrite F1. split; [done|by constructor]. }
      destruct Hl as [L1 L2]. cbn [each map]. fold (each (fun p => match p with [] => Panic | [t] => look ∅ (pt_sexp disp rname ∅) t | _ => es ← each (look ∅ (pt_sexp disp rname ∅)) p; Ok (SList (SStr s_explanation :: es)) end)).
      rewrite E1. destruct p0 as [|t [|t' p0]]; [done| |].
      - cbn [map each] in L1. destruct (look ∅ (pt_sexp disp rname ∅) t) as [e| |]; try done. cbn [mbind res_bind] in *. injection L1 as ->. split; [done|]. cbn [map] in L2. inversion L2; subst. by constructor.
      - rewrite L1. cbn [mbind res_bind]. split; [done|]. constructor; [|done]. constructor; [done|]. constructor; [|done]. constructor. apply pretty_printable, bare_constants. }
    destruct HH as [E1 E2]. destruct (nch n) as [|c0 cs] eqn:En.
    - cbn [mbind res_bind]. split; [done|]. apply printable_annotate; [done|done|]. constructor. apply Hd.
    - rewrite E1. cbn [mbind res_bind]. split; [done|]. apply printable_annotate; [done|done|]. constructor; [done|]. constructor; [constructor; apply Hd|done]. }
  unfold get_sexp. exists (SList (SStr s_explanation :: map (tt_sexp disp rname) (map unshare p))).
  assert (HP : each (pt_sexp disp rname ∅) p = Ok (map (tt_sexp disp rname) (map unshare p)) /\ Forall (sexp_ok printable) (map (tt_sexp disp rname) (map unshare p))).
  { induction p as [|t p IH]; [split; [done|constructor]|]. cbn [map] in *. apply Forall_cons in Hw as [? Hw]. apply Forall_cons in Hr as [? Hr]. destruct (IH Hw Hr) as [E1 E2].
    destruct (HK t) as [F1 F2]; [done|done|]. cbn [each]. rewrite F1. cbn [mbind res_bind]. fold (each (pt_sexp disp rname ∅)). rewrite E1. split; [done|by constructor]. }
  destruct HP as [-> Ho]. split; [done|]. split; [done|]. constructor; [done|]. constructor; [|done]. constructor. apply pretty_printable, bare_constants.
Qed.
Lemma string_inj (p q : list ptree) : Forall well_formed (map unshare p) -> Forall well_formed (map unshare q) -> Forall tree_readable (map unshare p) -> Forall tree_readable (map unshare q) ->
  get_string disp rname p = get_string disp rname q -> Forall2 same_tree (map unshare p) (map unshare q).
Proof.
  intros Hp Hq Rp Rq E. unfold get_string in E. destruct (plain_form p Hp Rp) as (s & E1 & Es & Ho). destruct (plain_form q Hq Rq) as (s' & E2 & Es' & Ho').
  rewrite E1, E2 in E. cbn [mbind res_bind] in E. injection E as E. pose proof (print_written _ Ho) as W. pose proof (print_written _ Ho') as W'. rewrite E in W.
  pose proof (written_inj _ _ _ W W') as EE. subst s s'. injection EE as EE. by apply trees_inj.
Qed.
Lemma let_string_inj h h' (p q : list ptree) : Forall (stored h) p -> Forall (stored h') q -> Forall well_formed (map unshare p) -> Forall well_formed (map unshare q) ->
  Forall tree_readable (map unshare p) -> Forall tree_readable (map unshare q) ->
  Forall (bare_names disp rname) (map unshare p) ->
  Forall (bare_names disp rname) (map unshare q) ->
  get_string_with_let disp rname p = get_string_with_let disp rname q -> Forall2 same_tree (map unshare p) (map unshare q).
Proof.
  intros Sp Sq Hp Hq Rp Rq Np Nq E. destruct (let_text h p Sp Hp Np) as (w & s & E1 & P1 & G1). destruct (let_text h' q Sq Hq Nq) as (w' & s' & E2 & P2 & G2).
  rewrite E1, E2 in E. injection E as <-. pose proof (P1 (S (length w)) ltac:(lia)) as F1. pose proof (P2 (S (length w)) ltac:(lia)) as F2. assert (s = s') as <- by congruence.
  destruct (plain_form p Hp Rp) as (s1 & E3 & Es & _). destruct (plain_form q Hq Rq) as (s2 & E4 & Es' & _). rewrite G1 in E3. rewrite G2 in E4.
  assert (EE : s1 = s2) by congruence. subst s1 s2. injection EE as EE. by apply trees_inj.
Qed.
End main.

Section lines.
Context {Op D : Type} `{Countable Op}.
Context (L : lang Op) (A : analysis Op D) (disp : Op -> text) (rname : nat -> text) (from_op : text -> list nat -> option (node Op)).
Notation egraph := (egraph Op D).
Lemma equivalence_lines cycle fuel fuel' e1 e2 t u (g g' : egraph) p : reachable L A true g -> dag e1 -> ExprTree e1 t -> ExprTree e2 u ->
  explain_equivalence A (modify_n L A fuel) fuel' e1 e2 g = Ok (g', p) ->
  exists f0 rest fl, make_flat p = Ok (f0 :: rest) /\ print_expr disp cycle e1 = Ok (ft_string disp rname f0) /\ last (f0 :: rest) = Some fl /\ erase fl = u /\
    (forall f, f ∈ f0 :: rest -> names_ok printable disp from_op (erase f) -> exists e, ft_recexpr disp rname from_op f = Ok e /\ dag e /\ ExprTree e (erase f)).
Proof.
  intros R Hd Ht Hu E. destruct (explain_equivalence_ok L A fuel fuel' e1 e2 t u g g' p R Ht Hu E) as (_ & _ & Hp).
  assert (Hw : Forall well_formed p).
  { unfold explain_equivalence in E. destruct (add_expr_uncanonical _ _ e1 g) as [[g1 l]| |]; try done. cbn [mbind res_bind] in E.
    destruct (add_expr_uncanonical _ _ e2 g1) as [[g2 r]| |]; try done. cbn [mbind res_bind] in E.
    destruct (explain_id_equivalence _ _ _ _) as [p'| |] eqn:Ep; try done. cbn [mbind res_bind] in E. injection E as -> ->. by eapply explained_formed. }
  destruct (flat_lines disp rname from_op _ p t u Hp Hw) as (f0 & rest & fl & E1 & _ & E2 & E3 & E4 & E5). exists f0, rest, fl.
  split; [done|]. split; [|done]. unfold print_expr. pose proof (to_sexp_spec disp cycle e1 t Hd Ht) as Es. destruct e1; [by destruct Ht|]. rewrite Es, E4. done.
Qed.
Lemma flat_strings_inj (Hi : forall r r', rname r = rname r' -> r = r') (p q : list (ttree Op)) fl fl' : Forall well_formed p -> Forall well_formed q -> make_flat p = Ok fl -> make_flat q = Ok fl' ->
  Forall (flat_uses (readable disp from_op) (readable_rule rname)) fl -> Forall (flat_uses (readable disp from_op) (readable_rule rname)) fl' ->
  flat_strings disp rname p = flat_strings disp rname q -> Forall2 same_flat fl fl'.
Proof.
  intros Hp Hq E1 E2 U1 U2 E. unfold flat_strings in E. rewrite E1, E2 in E. cbn [mbind res_bind] in E. injection E as E.
  assert (A1 : Forall arity_ok fl). { eapply arity_make_flat; [|exact E1]. eapply Forall_impl; [exact Hp|]. intros. by apply formed_arities. }
  assert (A2 : Forall arity_ok fl'). { eapply arity_make_flat; [|exact E2]. eapply Forall_impl; [exact Hq|]. intros. by apply formed_arities. }
  clear -E U1 U2 A1 A2 Hi. revert fl' E U2 A2. induction fl as [|f fl IH]; intros [|f' fl'] E U2 A2; try done. cbn [map] in E. injection E as Ea Eb.
  apply Forall_cons in U1 as [? ?]. apply Forall_cons in U2 as [? ?]. apply Forall_cons in A1 as [? ?]. apply Forall_cons in A2 as [? ?].
  constructor; [by eapply flat_string_inj|by apply IH].
Qed.
(** the forms of one explanation, as the e-graph produces it *)
Lemma let_of fuel l r (g : egraph) p : explain_id_equivalence fuel l r g = Ok p -> Forall (no_let_names disp rname) p ->
  exists P, rc_explain fuel l r g = Ok P /\ map unshare P = p /\
    exists s s0, get_sexp_with_let disp rname P = Ok s /\ get_sexp disp rname P = Ok s0 /\ unlet s = s0.
Proof. intros E Hn. destruct (produced fuel l r g p E) as (P & h & E1 & <- & Hs & _ & Hw). exists P. split; [done|]. split; [done|]. by eapply let_means. Qed.
Lemma let_text_of fuel l r (g : egraph) p : explain_id_equivalence fuel l r g = Ok p -> Forall (bare_names disp rname) p ->
  exists P, rc_explain fuel l r g = Ok P /\ map unshare P = p /\
    exists w s, get_string_with_let disp rname P = Ok w /\ (forall fuel, length w < fuel -> parse_sexp fuel w = Ok (inr s)) /\ get_sexp disp rname P = Ok (unlet s).
Proof. intros E Hn. destruct (produced fuel l r g p E) as (P & h & E1 & <- & Hs & _ & Hw). exists P. split; [done|]. split; [done|]. by eapply let_text. Qed.
Lemma texts_of (Hi : forall r r', rname r = rname r' -> r = r') fuel l r (g : egraph) p P fuel' l' r' (g' : egraph) q Q :
  explain_id_equivalence fuel l r g = Ok p -> explain_id_equivalence fuel' l' r' g' = Ok q -> rc_explain fuel l r g = Ok P -> rc_explain fuel' l' r' g' = Ok Q ->
  Forall (uses (readable disp from_op) (readable_rule rname)) p -> Forall (uses (readable disp from_op) (readable_rule rname)) q ->
  (get_string disp rname P = get_string disp rname Q -> Forall2 same_tree p q) /\
  (Forall (bare_names disp rname) p -> Forall (bare_names disp rname) q -> get_string_with_let disp rname P = get_string_with_let disp rname Q -> Forall2 same_tree p q).
Proof.
  intros E F E' F' U V. destruct (produced fuel l r g p E) as (P0 & h & E1 & E2 & Hs & _ & Hw). rewrite E' in E1. injection E1 as <-.
  destruct (produced fuel' l' r' g' q F) as (Q0 & h' & F1 & F2 & Hs' & _ & Hw'). rewrite F' in F1. injection F1 as <-. subst p q. split.
  - by apply (string_inj disp rname from_op).
  - intros N1 N2. by apply (let_string_inj disp rname from_op Hi h h').
Qed.
Lemma size_of it cit fuel l r (g : egraph) p t u : reach_opt L A it cit g -> AddedAs (eg_log g) l t -> AddedAs (eg_log g) r u -> explain_id_equivalence fuel l r g = Ok p ->
  exists P, rc_explain fuel l r g = Ok P /\ map unshare P = p /\
    get_tree_size P = Ok (base.size (list_to_set (concat (map edges P)) : gset (nat * nat))) /\
    (forall fl, make_flat p = Ok fl -> forall k, get_tree_size P = Ok k -> k < length fl).
Proof.
  intros R Hl Hr E. pose proof (interleaved_valid_off L A it cit g fuel l r p t u R E Hl Hr) as Hv.
  destruct (produced fuel l r g p E) as (P & h & E1 & E2 & Hs & Ho & Hw). exists P. split; [done|]. split; [done|].
  pose proof (tree_size_exact h P Hs Ho) as Es. split; [exact Es|]. intros fl Ef k. rewrite Es. intros [= <-].
  pose proof (flat_length _ p t u fl Hv Ef) as ->. pose proof (pedges_count P Ho) as Ec. rewrite E2 in Ec. pose proof (set_size_le (pedges P)). unfold pedges in *. lia.
Qed.
End lines.
