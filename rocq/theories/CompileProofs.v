(** The pattern compiler: code computes exactly the solutions of the pattern. *)
From Verif Require Import Base UnionFind EGraphModel EGraphSteps EGraphInv EGraphPres EGraphRuns Spec EGraphMain
  EGraphReach Terms RecExprModel RecExprProofs ExprModel PatSpec ExprProofs MachineModel MatchSpec MatchProofs MachineProofs.

(** * Extraction only keeps nodes below the new root *)
Section extract.
Context {Op : Type} `{Countable Op}.
Notation node := (node Op).
Implicit Types (e s : list node) (t u : term Op).

Lemma build_loop_mono (get : nat -> option node) fuel fuel' s ids todo r :
  build_loop fuel get s ids todo = Ok r -> fuel <= fuel' -> build_loop fuel' get s ids todo = Ok r.
Proof.
  revert fuel' s ids todo. induction fuel as [|fuel IH]; intros fuel' s ids todo E Hle.
  - destruct todo; [|done]. by destruct fuel'.
  - destruct fuel' as [|fuel']; [lia|]. destruct todo as [|i todo]; [done|]. cbn [build_loop] in *.
    destruct (decide _); [apply IH; [done|lia]|]. destruct (get i) as [nd|]; [|done]. cbn [expect mbind res_bind] in *.
    destruct (filter _ _) as [|c cs]; [|apply IH; [done|lia]].
    destruct (map_children_o _ nd) as [m| |]; [|done|done]. cbn [mbind res_bind] in *. destruct (index_insert s m). apply IH; [done|lia].
Qed.
Lemma build_loop_sub (P : term Op -> Prop) (get : nat -> option node) fuel s ids todo s' ids' :
  (forall f ts, P (TNode f ts) -> Forall P ts) -> cmap get s ids ->
  (forall j u, Tree s j u -> P u) -> (forall i, i ∈ todo -> exists t, TreeOf get i t /\ P t) ->
  build_loop fuel get s ids todo = Ok (s', ids') -> cmap get s' ids' /\ forall j u, Tree s' j u -> P u.
Proof.
  intros HP. revert s ids todo. induction fuel as [|fuel IH]; intros s ids todo C Hs Ht E.
  - destruct todo; [|done]. cbn in E. by inv_res.
  - destruct todo as [|i todo]; cbn [build_loop] in E; [by inv_res|].
    destruct (decide (is_Some (ids !! i))) as [Hin|Hout].
    { eapply IH; [exact C|exact Hs| |exact E]. intros; apply Ht; by right. }
    destruct (Ht i) as (t & Hti & Pt); [left|]. inversion Hti as [? f cs ts Hi Hcs]; subst. rewrite Hi in E.
    cbn [expect mbind res_bind nch] in E. pose proof (HP _ _ Pt) as HPts.
    destruct (filter (fun c => ids !! c = None) cs) as [|c0 cs0] eqn:Ef.
    + destruct (cmap_map get s ids f cs C) as (ds & ts' & Em & Hcs' & Hds).
      { intros c Hc. apply not_eq_None_Some. intros En.
        assert (Hx : c ∈ filter (fun c => ids !! c = None) cs) by (apply elem_of_list_filter; done).
        rewrite Ef in Hx. by apply elem_of_nil in Hx. }
      assert (ts' = ts) as ->.
      { clear -Hcs Hcs'. revert ts' Hcs'. induction Hcs; intros ts' Hcs'; inversion Hcs'; subst; f_equal; auto. by eapply TreeOf_fun. }
      rewrite Em in E. cbn [mbind res_bind] in E. destruct (index_insert s (Node f ds)) as [s1 j] eqn:Ej.
      destruct (cmap_insert _ _ _ i _ _ _ _ _ _ C Hi Hcs Hds Ej) as [C1 HT].
      eapply IH; [exact C1| |intros; apply Ht; by right|exact E].
      intros q u Hq. apply index_insert_spec in Ej as (_ & _ & [[-> _]|(_ & -> & ->)]); [by eapply Hs|].
      pose proof (Tree_lt _ _ _ Hq) as Hlt. rewrite app_length in Hlt. cbn in Hlt.
      destruct (decide (q = length s)) as [->|].
      * by rewrite (TreeOf_fun _ _ _ _ Hq HT).
      * destruct (dag_Tree s q (cm_dag _ _ _ C)) as [w Hw]; [lia|].
        rewrite (TreeOf_fun _ _ _ _ Hq (Tree_app _ [Node f ds] _ _ Hw)). by eapply Hs.
    + eapply IH; [exact C|exact Hs| |exact E]. rewrite <- Ef. intros x [Hx|Hx]%elem_of_app.
      * rewrite elem_of_reverse in Hx. apply elem_of_list_filter in Hx as [_ Hx].
        destruct (elem_of_list_lookup_1 _ _ Hx) as [q Hq]. destruct (Forall2_lookup_l _ _ _ _ _ Hcs Hq) as (u & Hu & Hu').
        exists u. split; [done|]. by eapply (Forall_lookup_1 _ _ _ _ HPts Hu).
      * apply elem_of_cons in Hx as [->|Hx]; [exists (TNode f ts); done|apply Ht; by right].
Qed.
Lemma rx_extract_sub e i t fuel e' : Tree e i t -> rx_extract fuel e i = Ok e' ->
  dag e' /\ ExprTree e' t /\
  forall P : term Op -> Prop, (forall f ts, P (TNode f ts) -> Forall P ts) -> P t -> forall j u, Tree e' j u -> P u.
Proof.
  intros Ht E. destruct (rx_extract_spec e i t Ht) as (k & e1 & E1 & Hd & HE).
  inversion Ht as [? f cs ts Hi Hcs]; subst.
  assert (e1 = e') as ->.
  { specialize (E1 (k + fuel)). unfold rx_extract in E, E1. rewrite Hi in E, E1. cbn [expect mbind res_bind] in E, E1.
    unfold build_recexpr in E, E1. cbn [nch] in *. specialize (E1 ltac:(lia)).
    destruct (build_loop fuel _ _ _ _) as [r| |] eqn:Eb; [|done|done].
    rewrite (build_loop_mono _ _ (k + fuel) _ _ _ _ Eb) in E1 by lia. rewrite E in E1. by injection E1. }
  split_and!; auto. intros P HP Pt j u Hj.
  unfold rx_extract in E. rewrite Hi in E. cbn [expect mbind res_bind] in E. unfold build_recexpr in E. cbn [nch] in E. inv_res.
  destruct x as [s ids].
  destruct (build_loop_sub P _ _ _ _ _ _ _ HP (cmap_nil _) (fun j u (Hj : Tree [] j u) => ltac:(apply Tree_lt in Hj; cbn in Hj; lia))
     ltac:(intros c Hc; rewrite elem_of_reverse in Hc; destruct (elem_of_list_lookup_1 _ _ Hc) as [q Hq];
       destruct (Forall2_lookup_l _ _ _ _ _ Hcs Hq) as (w & Hw & Hw'); exists w; split;
         [exact Hw'|exact (Forall_lookup_1 _ _ _ _ (HP _ _ Pt) Hw)]) H0) as [C Hs].
  inv_res. destruct x0 as [e2 i2]. inv_res.
  unfold rx_add in H2. destruct (rx_add_check s x); [|done]. inv_res.
  destruct (decide (j = length s)) as [->|].
  - destruct HE as [_ HE]. rewrite app_length in HE. cbn in HE. replace (length s + 1 - 1) with (length s) in HE by lia.
    by rewrite (TreeOf_fun _ _ _ _ Hj HE).
  - pose proof (Tree_lt _ _ _ Hj) as Hlt. rewrite app_length in Hlt. cbn in Hlt.
    destruct (dag_Tree s j (cm_dag _ _ _ C)) as [w Hw]; [lia|].
    rewrite (TreeOf_fun _ _ _ _ Hj (Tree_app _ [x] _ _ Hw)). by eapply Hs.
Qed.
End extract.

(** * Exactness of code *)
(** Substitution of a program read at a register file. *)
Definition read_sub (vf : subst) (r : list nat) : subst := (fun '(v, k) => (v, r !!! k)) <$> vf.

Section exact.
Context {Op D : Type} `{Countable Op}.
Notation node := (node Op).
Notation egraph := (egraph Op D).
Notation instr := (instr Op).
Context (L : lang Op) (it : gset nat -> list nat) (Hit : enumerates it) (g : egraph) (G : settled L g).
Implicit Types (C : (nat -> option nat) -> list nat -> Prop) (sg : nat -> option nat) (r : list nat).

(** Substitutions of classes. *)
Definition csub sg : Prop := forall v i, sg v = Some i -> settled_id g i.
(** [sg] is what the registers say. *)
Definition agrees (vf : subst) r sg : Prop :=
  forall v i, subst_get vf v = Some i -> exists x, r !! i = Some x /\ sg v = Some (eg_find g x).

(** [code] enumerates the solutions of the constraint [C] without repetition. *)
Record exact C (n : nat) (code : list instr) (vf : subst) (nf : nat) : Prop := {
  ex_wf : wf_code n code nf;
  ex_vf : Forall (fun '(v, k) => k < nf) vf;
  ex_sound r r' sg : length r = n -> Forall (known g) r -> r' ∈ outs it g code r -> csub sg -> agrees vf r' sg -> C sg r;
  ex_complete r sg : length r = n -> Forall (known g) r -> csub sg -> C sg r ->
    exists r', r' ∈ outs it g code r /\ agrees vf r' sg;
  ex_nodup r : length r = n -> Forall (known g) r -> NoDup (read_sub vf <$> outs it g code r);
}.

Lemma exact_nil n vf : Forall (fun '(v, k) => k < n) vf -> exact (fun sg r => agrees vf r sg) n [] vf n.
Proof.
  intros Hvf. split; [done|done| | |].
  - intros r r' sg _ _ ->%elem_of_list_singleton. done.
  - intros r sg _ _ _ Ha. exists r. split; [by apply elem_of_list_singleton|done].
  - intros r _ _. cbn. apply NoDup_singleton.
Qed.
Lemma exact_iff C C' n code vf nf :
  (forall sg r, length r = n -> Forall (known g) r -> csub sg -> C sg r <-> C' sg r) ->
  exact C n code vf nf -> exact C' n code vf nf.
Proof.
  intros Hc E. split; try apply E.
  - intros r r' sg Hl Hk Hr Hs Ha. apply Hc; auto. by eapply ex_sound.
  - intros r sg Hl Hk Hs HC. eapply ex_complete; eauto. by apply Hc.
Qed.
Lemma exact_compare C n i j code vf nf : i < n -> j < n -> exact C n code vf nf ->
  exact (fun sg r => eg_find g (r !!! i) = eg_find g (r !!! j) /\ C sg r) n (ICompare i j :: code) vf nf.
Proof.
  intros Hi Hj E. split; cbn [wf_code outs].
  - split_and!; auto. apply E.
  - apply E.
  - intros r r' sg Hl Hk Hr Hs Ha. destruct (_ =? _) eqn:Eq; [|by apply elem_of_nil in Hr].
    apply Nat.eqb_eq in Eq. split; [done|]. by eapply ex_sound.
  - intros r sg Hl Hk Hs [Eq HC]. apply Nat.eqb_eq in Eq. rewrite Eq. by eapply ex_complete.
  - intros r Hl Hk. destruct (_ =? _); [by eapply ex_nodup|constructor].
Qed.
Lemma exact_lookup C n tm i code vf nf : i < n -> wf_term n 0 tm -> exact C n code vf nf ->
  exact (fun sg r => (exists ids, lookup_term g r tm [] = Ok (Some ids) /\ last ids = Some (eg_find g (r !!! i))) /\ C sg r)
    n (ILookup tm i :: code) vf nf.
Proof.
  intros Hi Hj E. split; cbn [wf_code outs].
  - split_and!; auto. apply E.
  - apply E.
  - intros r r' sg Hl Hk Hr Hs Ha. destruct (lookup_term _ _ _ _) as [[ids|]| |]; try by apply elem_of_nil in Hr.
    destruct (bool_decide _) eqn:Eq; [|by apply elem_of_nil in Hr].
    apply bool_decide_eq_true in Eq. split; [by exists ids|]. by eapply ex_sound.
  - intros r sg Hl Hk Hs [(ids & -> & El) HC]. rewrite bool_decide_true by done. by eapply ex_complete.
  - intros r Hl Hk. destruct (lookup_term _ _ _ _) as [[ids|]| |]; try constructor.
    destruct (bool_decide _); [by eapply ex_nodup|constructor].
Qed.

(** The substitution read off a register file. *)
Definition sub_of (vf : subst) r : nat -> option nat := fun v => i ← subst_get vf v; x ← r !! i; Some (eg_find g x).
Lemma sub_of_csub vf r : Forall (known g) r -> csub (sub_of vf r).
Proof.
  intros Hk v i Hv. unfold sub_of in Hv. destruct (subst_get vf v) as [k|]; [|done]. cbn in Hv.
  destruct (r !! k) as [x|] eqn:Ex; [|done]. cbn in Hv. injection Hv as <-. eapply find_settled; [done|].
  by eapply (Forall_lookup_1 _ _ _ _ Hk Ex).
Qed.
Lemma subst_get_elem (vf : subst) v k : subst_get vf v = Some k -> (v, k) ∈ vf.
Proof.
  induction vf as [|[w j] vf IH]; cbn; [done|]. destruct (decide (w = v)) as [->|]; [intros [= ->]; left|]. intros. right. auto.
Qed.
Lemma sub_of_agrees vf nf r : Forall (fun '(v, k) => k < nf) vf -> length r = nf -> agrees vf r (sub_of vf r).
Proof.
  intros Hvf Hl v k Hk. pose proof (subst_get_elem _ _ _ Hk) as Hin. rewrite Forall_forall in Hvf. specialize (Hvf _ Hin). cbn in Hvf.
  destruct (lookup_lt_is_Some_2 r k) as [x Hx]; [lia|]. exists x. unfold sub_of. rewrite Hk. cbn. by rewrite Hx.
Qed.
Lemma read_sub_agrees vf nf r r' sg : Forall (fun '(v, k) => k < nf) vf -> length r = nf -> length r' = nf ->
  read_sub vf r = read_sub vf r' -> agrees vf r sg -> agrees vf r' sg.
Proof.
  intros Hvf Hl Hl' E Ha v k Hk. destruct (Ha v k Hk) as (x & Hx & Hs).
  pose proof (subst_get_elem _ _ _ Hk) as Hin. apply elem_of_list_lookup in Hin as [q Hq].
  apply (f_equal (fun l : list (nat * nat) => l !! q)) in E. unfold read_sub in E. cbv beta in E. rewrite !list_lookup_fmap, Hq in E. cbn in E.
  injection E as E. rewrite (list_lookup_total_correct _ _ _ Hx) in E.
  destruct (lookup_lt_is_Some_2 r' k) as [y Hy]; [rewrite Hl', <- Hl; by eapply lookup_lt_Some|].
  rewrite (list_lookup_total_correct _ _ _ Hy) in E. subst y. eauto.
Qed.

Lemma exact_bind C n m i code vf nf : i < n -> Forall (fun c => c = 0) (nch m) ->
  (forall sg r a b, length r = n -> Forall (known g) r -> csub sg ->
     a ∈ matches_of m (cls g (r !!! i)) -> b ∈ matches_of m (cls g (r !!! i)) ->
     C sg (r ++ nch a) -> C sg (r ++ nch b) -> a = b) ->
  exact C (n + length (nch m)) code vf nf ->
  exact (fun sg r => exists a, a ∈ matches_of m (cls g (r !!! i)) /\ C sg (r ++ nch a)) n (IBind m i n :: code) vf nf.
Proof.
  intros Hi Hz Hdet E.
  assert (Hext : forall r a, length r = n -> Forall (known g) r -> a ∈ matches_of m (cls g (r !!! i)) ->
    length (r ++ nch a) = n + length (nch m) /\ Forall (known g) (r ++ nch a)).
  { intros r a Hl Hk [Ha Hin]%elem_of_list_filter. apply andb_true_iff in Ha as [_ El%Nat.eqb_eq].
    rewrite app_length. split; [lia|]. apply Forall_app. split; [done|]. apply Forall_forall. intros d Hd. by eapply cls_known. }
  split; cbn [wf_code outs].
  - split_and!; auto. apply E.
  - apply E.
  - intros r r' sg Hl Hk Hr Hs Ha. apply elem_of_concat in Hr as (l & Hr & (a & -> & Hin)%elem_of_list_fmap).
    exists a. split; [done|]. destruct (Hext r a Hl Hk Hin). by eapply ex_sound.
  - intros r sg Hl Hk Hs (a & Hin & HC). destruct (Hext r a Hl Hk Hin) as [Hl' Hk'].
    destruct (ex_complete _ _ _ _ _ E _ _ Hl' Hk' Hs HC) as (r' & Hr' & Ha'). exists r'. split; [|done].
    apply elem_of_concat. exists (outs it g code (r ++ nch a)). split; [done|]. apply elem_of_list_fmap. by exists a.
  - intros r Hl Hk. apply NoDup_fmap_concat.
    + apply NoDup_filter. unfold cls. destruct (eg_classes g !! _) as [c|] eqn:Ec; [|constructor]. by eapply (cl_nodup _ _ (se_canon _ _ G)).
    + intros a Hin. destruct (Hext r a Hl Hk Hin). by eapply ex_nodup.
    + intros a b ra rb Ha Hb Hra Hrb Eq. destruct (Hext r a Hl Hk Ha) as [Hla Hka]. destruct (Hext r b Hl Hk Hb) as [Hlb Hkb].
      pose proof (ex_wf _ _ _ _ _ E) as Hwf. pose proof (ex_vf _ _ _ _ _ E) as Hvf.
      destruct (outs_len L it Hit g G nf code _ ra Hka) as (Hlra & Hkra & _); [by rewrite Hla|done|].
      destruct (outs_len L it Hit g G nf code _ rb Hkb) as (Hlrb & Hkrb & _); [by rewrite Hlb|done|].
      pose proof (sub_of_csub vf ra Hkra) as Hcs. pose proof (sub_of_agrees vf nf ra Hvf Hlra) as Haa.
      apply (Hdet (sub_of vf ra) r a b); auto.
      * by eapply (ex_sound _ _ _ _ _ E).
      * eapply (ex_sound _ _ _ _ _ E _ rb); auto. exact (read_sub_agrees vf nf ra rb _ Hvf Hlra Hlrb Eq Haa).
Qed.
Lemma exact_scan C n code vf nf :
  (forall sg r a b, length r = n -> Forall (known g) r -> csub sg -> settled_id g a -> settled_id g b ->
     C sg (r ++ [a]) -> C sg (r ++ [b]) -> a = b) ->
  exact C (S n) code vf nf ->
  exact (fun sg r => exists a, settled_id g a /\ C sg (r ++ [a])) n (IScan n :: code) vf nf.
Proof.
  intros Hdet E.
  assert (Hext : forall r a, length r = n -> Forall (known g) r -> settled_id g a ->
    length (r ++ [a]) = S n /\ Forall (known g) (r ++ [a])).
  { intros r a Hl Hk Ha. rewrite app_length. cbn. split; [lia|]. apply Forall_app. split; [done|]. repeat constructor. apply Ha. }
  split; cbn [wf_code outs].
  - split_and!; auto. apply E.
  - apply E.
  - intros r r' sg Hl Hk Hr Hs Ha. apply elem_of_concat in Hr as (l & Hr & (a & -> & Hin)%elem_of_list_fmap).
    apply (class_ids_elem L it Hit g G) in Hin. exists a. split; [done|]. destruct (Hext r a Hl Hk Hin). by eapply ex_sound.
  - intros r sg Hl Hk Hs (a & Hin & HC). destruct (Hext r a Hl Hk Hin) as [Hl' Hk'].
    destruct (ex_complete _ _ _ _ _ E _ _ Hl' Hk' Hs HC) as (r' & Hr' & Ha'). exists r'. split; [|done].
    apply elem_of_concat. exists (outs it g code (r ++ [a])). split; [done|]. apply elem_of_list_fmap. exists a. split; [done|].
    by apply (class_ids_elem L it Hit g G).
  - intros r Hl Hk. apply NoDup_fmap_concat.
    + by eapply class_ids_nodup.
    + intros a Hin%(class_ids_elem L it Hit g G). destruct (Hext r a Hl Hk Hin). by eapply ex_nodup.
    + intros a b ra rb Ha Hb Hra Hrb Eq. apply (class_ids_elem L it Hit g G) in Ha, Hb.
      destruct (Hext r a Hl Hk Ha) as [Hla Hka]. destruct (Hext r b Hl Hk Hb) as [Hlb Hkb].
      pose proof (ex_wf _ _ _ _ _ E) as Hwf. pose proof (ex_vf _ _ _ _ _ E) as Hvf.
      destruct (outs_len L it Hit g G nf code _ ra Hka) as (Hlra & Hkra & _); [by rewrite Hla|done|].
      destruct (outs_len L it Hit g G nf code _ rb Hkb) as (Hlrb & Hkrb & _); [by rewrite Hlb|done|].
      pose proof (sub_of_csub vf ra Hkra) as Hcs. pose proof (sub_of_agrees vf nf ra Hvf Hlra) as Haa.
      apply (Hdet (sub_of vf ra) r a b); auto.
      * by eapply (ex_sound _ _ _ _ _ E).
      * eapply (ex_sound _ _ _ _ _ E _ rb); auto. exact (read_sub_agrees vf nf ra rb _ Hvf Hlra Hlrb Eq Haa).
Qed.
End exact.
