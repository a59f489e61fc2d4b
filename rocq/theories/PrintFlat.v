From Coq Require Import NArith.
From Verif Require Import Base EGraphModel Spec Terms RecExprModel ExplainModel ExplainSpec ExplainFlat CheckSpec CheckProofs TextModel TextSpec TextProofs TextMain PrintModel PrintSpec PrintProofs.

(** Names that print and read back. *)
Lemma bare_constants : pretty_bare s_explanation /\ pretty_bare s_forward /\ pretty_bare s_backward /\ pretty_bare s_let.
Proof.
  assert (Hb : forall a c r d l, a = c :: r -> c <> c_quote -> forallb (fun c => negb (delim c)) a = true -> a = l ++ [d] -> d <> c_quote -> pretty_bare a).
  { intros a c r d l Ea Hc Hd El Hl. split; [split; [by subst|split]|].
    - clear -Hd. induction a as [|x a IH]; [constructor|]. cbn in Hd. apply andb_true_iff in Hd as [H1 H2]. constructor; [by destruct (delim x)|by apply IH].
    - intros q Eq. rewrite Ea in Eq. by injection Eq.
    - intros q Eq. rewrite El in Eq. apply app_inj_2 in Eq as [_ Eq]; [|done]. by injection Eq. }
  split; [by eapply (Hb _ _ _ 110%N (take 10 s_explanation))|]. split; [by eapply (Hb _ _ _ 62%N (take 8 s_forward))|].
  split; [by eapply (Hb _ _ _ 61%N (take 8 s_backward))|]. by eapply (Hb _ _ _ 116%N (take 2 s_let)).
Qed.
Lemma pretty_printable a : pretty_bare a -> printable a.
Proof. intros [H _]. by left. Qed.

Section flat.
Context {Op : Type}.
Notation node := (node Op).
Notation ttree := (ttree Op).
Notation fterm := (fterm Op).
Notation ptree := (ptree Op).
Context (disp : Op -> text) (rname : nat -> text) (from_op : text -> list nat -> option node).
Notation annotate := (annotate rname).
Notation ft_sexp := (ft_sexp disp rname).
Notation tt_sexp := (tt_sexp disp rname).

(** ** Lines *)
Lemma plain_sexp t : plain t -> arity_ok t -> ft_sexp t = sexp_of disp (erase t).
Proof.
  induction t as [n b f ks IH] using fterm_sind. intros Hp Hf. inversion Hp as [? ? Hpk]; subst. inversion Hf as [? ? ? ? Hl Hk]; subst.
  cbn [PrintModel.ft_sexp erase PrintModel.annotate]. destruct ks as [|k ks]; cbn [length] in Hl.
  - by destruct (nch n).
  - destruct (nch n) as [|c cs]; [done|]. rewrite fmap_cons. cbn [sexp_of]. do 2 f_equal. rewrite <- fmap_cons, <- list_fmap_compose.
    apply Forall_fmap_ext_1. rewrite Forall_forall in *. intros x Hx. cbn. apply IH; auto.
Qed.
Lemma formed_remove (t : fterm) : arity_ok t -> arity_ok (remove_rewrites t).
Proof.
  induction t as [n b f ks IH] using fterm_sind. intros Hf. inversion Hf as [? ? ? ? Hl Hk]; subst. cbn. constructor; [by rewrite fmap_length|].
  rewrite Forall_fmap. rewrite Forall_forall in *. intros x Hx. cbn. auto.
Qed.
Lemma recexpr_ok t : arity_ok t -> names_ok printable disp from_op (erase t) -> exists e, ft_recexpr disp rname from_op t = Ok e /\ dag e /\ ExprTree e (erase t).
Proof.
  intros Hf Hn. unfold ft_recexpr, ft_string. rewrite plain_sexp by (apply plain_remove || by apply formed_remove). rewrite erase_remove.
  unfold parse_expr. set (w := print_sexp (sexp_of disp (erase t))). pose proof (print_written _ (sexp_of_ok _ _ _ _ Hn)) as Hw. fold w in Hw.
  rewrite (trim_tight w) by (by eapply written_tight).
  pose proof (parse_written _ _ [] [] (S (length w)) Hw ltac:(constructor) ltac:(constructor) ltac:(lia)) as E. rewrite app_nil_r in E. cbn [app] in E. rewrite E. cbn [mbind res_bind].
  destruct (parse_into_tree disp from_op printable _ Hn [] dag_nil) as (l & E2 & D2 & Hne & T2). cbn [app] in *. rewrite E2. cbn [mbind res_bind]. exists l. done.
Qed.
(** ** Reading lines back *)
Notation readable := (readable disp from_op).
Notation readable_rule := (readable_rule rname).
Definition unmarked (e : sexp) : Prop := match e with SList (SStr a :: _) => a <> s_forward /\ a <> s_backward | _ => True end.
Lemma annotate_inj b f e b' f' e' : (forall r r', rname r = rname r' -> r = r') -> unmarked e -> unmarked e' ->
  annotate b f e = annotate b' f' e' -> b = b' /\ f = f' /\ e = e'.
Proof.
  intros Hi He He' E. assert (Hfb : s_forward <> s_backward) by done. unfold PrintModel.annotate in E.
  destruct f as [f|], f' as [f'|], b as [b|], b' as [b'|]; try (subst; cbn in *; naive_solver).
Qed.
Lemma readable_inj f g k : readable f k -> readable g k -> disp f = disp g -> f = g.
Proof.
  intros (_ & _ & _ & _ & Hf) (_ & _ & _ & _ & Hg) E. specialize (Hf (repeat 0 k) (repeat_length _ _)). specialize (Hg (repeat 0 k) (repeat_length _ _)). rewrite E in Hf. congruence.
Qed.
Context (Hi : forall r r', rname r = rname r' -> r = r').
Lemma base_unmarked f k l : readable f k -> unmarked (SList (SStr (disp f) :: l)).
Proof. intros (_ & H1 & H2 & _). done. Qed.
Lemma flat_inj t u : arity_ok t -> arity_ok u -> flat_uses readable readable_rule t -> flat_uses readable readable_rule u -> ft_sexp t = ft_sexp u -> same_flat t u.
Proof.
  revert u. induction t as [n b f ks IH] using fterm_sind. intros [m b' f' ks'] Ht Hu Nt Nu E.
  inversion Ht as [? ? ? ? Hl Hk]; subst. inversion Hu as [? ? ? ? Hl' Hk']; subst. inversion Nt as [? ? ? ? Hd _ _ Hn]; subst. inversion Nu as [? ? ? ? Hd' _ _ Hn']; subst.
  cbn [PrintModel.ft_sexp] in E. apply annotate_inj in E as (-> & -> & E); [|done|destruct (nch n); [done|by eapply base_unmarked]|destruct (nch m); [done|by eapply base_unmarked]].
  assert (HH : disp (nop n) = disp (nop m) /\ ft_sexp <$> ks = ft_sexp <$> ks').
  { destruct (nch n), (nch m); try done.
    - destruct ks, ks'; try done. injection E as ->. done.
    - injection E as -> E. done. }
  destruct HH as [Ed Ek]. assert (Hlen : length ks = length ks') by (apply (f_equal length) in Ek; by rewrite !fmap_length in Ek).
  constructor.
  - eapply readable_inj; [exact Hd| |done]. by rewrite Hl, Hlen, <- Hl'.
  - clear -IH Hk Hk' Hn Hn' Ek. revert ks' Hk' Hn' Ek. induction ks as [|k ks IHk]; intros [|k' ks'] Hk' Hn' Ek; try done.
    apply Forall_cons in IH as [IH1 IH2]. apply Forall_cons in Hk as [? ?]. apply Forall_cons in Hk' as [? ?]. apply Forall_cons in Hn as [? ?]. apply Forall_cons in Hn' as [? ?].
    rewrite !fmap_cons in Ek. injection Ek as E1 E2. constructor; [by apply IH1|by apply IHk].
Qed.
Lemma printable_annotate b f e : rule_uses readable_rule b -> rule_uses readable_rule f -> sexp_ok printable e -> sexp_ok printable (annotate b f e).
Proof.
  intros Hb Hf He. destruct bare_constants as (_ & Hfw%pretty_printable & Hbw%pretty_printable & _). unfold PrintModel.annotate.
  assert (Hr : forall a r e, printable a -> printable (rname r) -> sexp_ok printable e -> sexp_ok printable (SList [SStr a; SStr (rname r); e])).
  { intros a r e' ? ? ?. constructor; [done|]. apply Forall_cons; split; [by apply so_str|]. apply Forall_cons; split; [by apply so_str|]. apply Forall_cons; by split. }
  destruct b as [b|], f as [f|]; cbn [rule_uses] in *; unfold readable_rule in *; auto.
Qed.
Lemma flat_printable t : flat_uses readable readable_rule t -> sexp_ok printable (ft_sexp t).
Proof.
  induction t as [n b f ks IH] using fterm_sind. intros Nt. inversion Nt as [? ? ? ? Hd Hb Hf Hn]; subst. cbn [PrintModel.ft_sexp]. apply printable_annotate; [done|done|].
  destruct (nch n); [constructor; apply Hd|]. constructor; [done|]. constructor; [constructor; apply Hd|]. rewrite Forall_fmap. rewrite Forall_forall in *. intros x Hx. cbn. auto.
Qed.
Lemma written_inj s s' w : Written s w -> Written s' w -> s = s'.
Proof.
  intros H1 H2. pose proof (parse_written _ _ [] [] (S (length w)) H1 ltac:(constructor) ltac:(constructor) ltac:(lia)) as E1.
  pose proof (parse_written _ _ [] [] (S (length w)) H2 ltac:(constructor) ltac:(constructor) ltac:(lia)) as E2. congruence.
Qed.
Lemma flat_string_inj t u : arity_ok t -> arity_ok u -> flat_uses readable readable_rule t -> flat_uses readable readable_rule u ->
  ft_string disp rname t = ft_string disp rname u -> same_flat t u.
Proof.
  intros Ht Hu Nt Nu E. apply flat_inj; try done. pose proof (print_written _ (flat_printable t Nt)) as H1. pose proof (print_written _ (flat_printable u Nu)) as H2.
  unfold ft_string in E. rewrite E in H1. by eapply written_inj.
Qed.
(** ** Reading trees back *)
Definition no_list (e : sexp) : Prop := match e with SList (SStr a :: _) => a <> s_explanation | _ => True end.
Lemma tree_no_list t : uses readable readable_rule t -> no_list (tt_sexp t).
Proof.
  intros Nt. inversion Nt as [n b f kids (_ & _ & _ & He & _) _ _ _]; subst. rewrite tt_sexp_node. unfold PrintModel.annotate. destruct f; [done|]. destruct b; [done|]. by destruct (nch n).
Qed.
Lemma tree_inj t u : well_formed t -> well_formed u -> uses readable readable_rule t -> uses readable readable_rule u -> tt_sexp t = tt_sexp u -> same_tree t u.
Proof.
  revert u. induction t as [n b f kids IH] using tt_sind. intros [m b' f' kids'] Ht Hu Nt Nu E.
  inversion Ht as [? ? ? ? Hl Hk]; subst. inversion Hu as [? ? ? ? Hl' Hk']; subst. inversion Nt as [? ? ? ? Hd _ _ Hn]; subst. inversion Nu as [? ? ? ? Hd' _ _ Hn']; subst.
  rewrite !tt_sexp_node in E. apply annotate_inj in E as (-> & -> & E); [|done|destruct (nch n); [done|by eapply base_unmarked]|destruct (nch m); [done|by eapply base_unmarked]].
  assert (HH : disp (nop n) = disp (nop m) /\ map (kid_sexp disp rname) kids = map (kid_sexp disp rname) kids').
  { destruct (nch n), (nch m); try done.
    - destruct kids, kids'; try done. injection E as ->. done.
    - injection E as -> E. done. }
  destruct HH as [Ed Ek]. assert (Hlen : length kids = length kids') by (apply (f_equal length) in Ek; by rewrite !map_length in Ek).
  constructor.
  - eapply readable_inj; [exact Hd| |done]. by rewrite Hl, Hlen, <- Hl'.
  - clear -IH Hi Hk Hk' Hn Hn' Ek. revert kids' Hk' Hn' Ek. induction kids as [|p kids IHk]; intros [|p' kids'] Hk' Hn' Ek; try done.
    apply Forall_cons in IH as [IH1 IH2]. apply Forall_cons in Hk as [[Hne Hp] ?]. apply Forall_cons in Hk' as [[Hne' Hp'] ?]. apply Forall_cons in Hn as [Hnp ?]. apply Forall_cons in Hn' as [Hnp' ?].
    cbn [map] in Ek. injection Ek as E1 E2. constructor; [|by apply IHk]. clear IHk IH2 E2.
    assert (Hlist : forall q q', Forall (fun t => forall u, well_formed t -> well_formed u -> uses readable readable_rule t -> uses readable readable_rule u -> tt_sexp t = tt_sexp u -> same_tree t u) q ->
      Forall well_formed q -> Forall well_formed q' -> Forall (uses readable readable_rule) q -> Forall (uses readable readable_rule) q' -> map tt_sexp q = map tt_sexp q' -> Forall2 same_tree q q').
    { clear. induction q as [|t q IHq]; intros [|t' q'] HI Hw Hw' Hu Hu' E; try done. cbn [map] in E. injection E as E1 E2.
      apply Forall_cons in HI as [HI1 HI2]. apply Forall_cons in Hw as [? ?]. apply Forall_cons in Hw' as [? ?]. apply Forall_cons in Hu as [? ?]. apply Forall_cons in Hu' as [? ?].
      constructor; [by apply HI1|by apply IHq]. }
    apply Hlist; try done. clear Hlist IH1.
    assert (Hone : forall t q, uses readable readable_rule t -> tt_sexp t = SList (SStr s_explanation :: q) -> False).
    { intros t q Hu Et. pose proof (tree_no_list t Hu) as Hno. rewrite Et in Hno. done. }
    destruct p as [|t [|t2 p]]; [done| |]; destruct p' as [|t' [|t2' p']]; try done; cbn [kid_sexp] in E1.
    + cbn. by rewrite E1.
    + exfalso. apply Forall_cons in Hnp as [Hu _]. by eapply Hone.
    + exfalso. apply Forall_cons in Hnp' as [Hu _]. by eapply Hone.
    + injection E1 as E1a E1b E1c. cbn [map]. by rewrite E1a, E1b, E1c.
Qed.
End flat.
