(** Extraction: existence, termination and optimality. *)
From Verif Require Import Base UnionFind EGraphModel EGraphSteps EGraphInv EGraphPres EGraphRuns Spec EGraphMain EGraphReach EGraphOps EGraphSafe
  EGraphNoPanic Terms RecExprModel RecExprProofs AlgSpec ExtractModel ExtractSpec ExtractProofs.
From Coq Require Import Relations.Relation_Operators Wellfounded.Transitive_Closure.

(** * [cost_rec] *)
Section rec.
Context {Op : Type} `{Countable Op} {C : Type} (cf : node Op -> list C -> C) (F : Op -> list C -> C) (HF : by_operator cf F).
Implicit Types (e : list (node Op)) (t : term Op).
Lemma cost_loop_ok e : forall i l (cs : gmap nat C), i = length l -> dag (l ++ e) ->
  (forall j v, cs !! j = Some v <-> j < i /\ exists t, Tree (l ++ e) j t /\ v = geval F t) ->
  exists cs', cost_loop cf i e cs = Ok cs' /\ forall j v, cs' !! j = Some v <-> j < length (l ++ e) /\ exists t, Tree (l ++ e) j t /\ v = geval F t.
Proof.
  induction e as [|n e IH]; intros i l cs -> Hd Hcs; cbn [cost_loop].
  { exists cs. split; [done|]. by rewrite app_nil_r in *. }
  assert (Hl : (l ++ n :: e) !! length l = Some n) by (rewrite lookup_app_r, Nat.sub_diag by lia; done).
  assert (Hvs : exists ts, Forall2 (Tree (l ++ n :: e)) (nch n) ts).
  { apply Forall2_exists. intros c Hc. apply dag_Tree; [done|]. pose proof (Hd _ _ _ Hl Hc). rewrite app_length. cbn. lia. }
  destruct Hvs as [ts Hts].
  assert (mapM (fun c => cs !! c) (nch n) = Some (geval F <$> ts)) as ->.
  { apply mapM_Some. rewrite Forall2_fmap_r. assert (Hlt : forall c, c ∈ nch n -> c < length l) by (intros c; by apply Hd).
    induction Hts as [|c u cs0 us Hc Hts IHts]; constructor.
    - apply Hcs. split; [apply Hlt; left|eauto].
    - apply IHts. intros. apply Hlt. by right. }
  cbn [expect mbind res_bind].
  assert (El : l ++ n :: e = (l ++ [n]) ++ e) by by rewrite <- app_assoc.
  destruct (IH (S (length l)) (l ++ [n]) (<[length l := cf n (geval F <$> ts)]> cs)) as (cs' & E & Hcs').
  - rewrite app_length. cbn. lia.
  - by rewrite <- El.
  - rewrite <- El. intros j v. destruct (decide (length l = j)) as [<-|Hj].
    + rewrite lookup_insert, HF. destruct n as [f ns]. split.
      * intros [= <-]. split; [lia|]. exists (TNode f ts). split; [by econstructor|done].
      * intros (_ & t & Ht & ->). inversion Ht as [? f' cs0 ts' Hf Hts']; subst. rewrite Hl in Hf. injection Hf as <- <-.
        rewrite (TreeOf_fun _ _ _ _ Ht (TreeOf_node _ _ _ _ _ Hl Hts)). done.
    + rewrite lookup_insert_ne by done. rewrite Hcs. split; intros [? ?]; (split; [lia|done]).
  - exists cs'. split; [done|]. by rewrite El.
Qed.
Lemma cost_rec_ok e t : dag e -> ExprTree e t -> cost_rec cf e = Ok (geval F t).
Proof.
  intros Hd [Hne Ht]. destruct (cost_loop_ok e 0 [] ∅) as (cs & E & Hcs); [done|done| |].
  { intros j v. rewrite lookup_empty. split; [done|lia]. }
  unfold cost_rec. rewrite E. cbn [mbind res_bind]. destruct e as [|n e]; [done|]. cbn [rx_root mbind res_bind].
  apply expect_Ok, Hcs. split; [cbn; lia|]. eauto.
Qed.
End rec.

Lemma Forall2_fmap_both {A B X Y} (R : X -> Y -> Prop) (f : A -> X) (h : B -> Y) l k : Forall2 (fun a b => R (f a) (h b)) l k -> Forall2 R (f <$> l) (h <$> k).
Proof. induction 1; constructor; auto. Qed.

Section main.
Context {Op D : Type} `{Countable Op} {C : Type} (pcmp : C -> C -> option comparison) (cf : node Op -> list C -> C) (Ho : orders pcmp).
Notation egraph := (egraph Op D).
Notation eclass := (eclass Op D).
Notation node := (node Op).
Notation costs := (gmap nat (C * node)).
Notation cle := (cle pcmp).
Context (g : egraph) (l : list eclass).
Context (Hl1 : forall c, c ∈ l -> eg_classes g !! c_id c = Some c /\ c_nodes c <> []).
Context (Hl2 : forall r c, eg_classes g !! r = Some c -> c ∈ l /\ c_id c = r).
Implicit Types (cs : costs) (c : eclass) (n : node) (t : term Op).
Notation ntc := (node_total_cost cf g).
Notation visited := (visited pcmp cf g).
Notation settled_class := (settled_class pcmp cf g).
Notation find_costs := (find_costs pcmp cf).
Lemma l_ne : Forall (fun c => c_nodes c <> []) l.
Proof. apply Forall_forall. intros c Hc. by apply Hl1. Qed.

(** * Which classes have a cost *)
Lemma Forall2_choose {A B E} (P : A -> B -> Prop) (Q : E -> A -> Prop) (xs : list A) (ys : list B) :
  Forall2 P xs ys -> (forall x y, P x y -> exists z, Q z x) -> exists zs, Forall2 Q zs xs.
Proof. intros Hf Hq. induction Hf as [|x y xs ys Hp Hf [zs IH]]; [by exists []|]. destruct (Hq x y Hp) as [z Hz]. exists (z :: zs). by constructor. Qed.
Definition witnessed cs : Prop := forall r v n, cs !! r = Some (v, n) -> exists t, Rep g t r.
Lemma visited_witnessed c cs cs' : c ∈ l -> witnessed cs -> visited cs c cs' true -> witnessed cs'.
Proof.
  intros Hc Hw Hv. inversion Hv as [|v [f xs] -> Hn Hv' _]; subst. intros r w m. destruct (decide (c_id c = r)) as [<-|Hr].
  - rewrite lookup_insert. intros _. apply ntc_inv in Hv' as (vs & -> & Hvs).
    destruct (Forall2_choose _ (fun (t : term Op) x => Rep g t (eg_find g x)) _ _ Hvs) as [ts Hts]; [intros x u (k & E); by eapply Hw|].
    exists (TNode f ts). econstructor; [by apply Hl1|exact Hn|exact Hts].
  - rewrite lookup_insert_ne by done. apply Hw.
Qed.
Lemma settled_covers cs t r : Forall (settled_class cs) l -> Rep g t r -> exists v n, cs !! r = Some (v, n).
Proof.
  rewrite Forall_forall. intros Hs. revert r. induction t as [f ts IH] using term_sind. intros r Ht. inversion Ht as [? ? xs ? c Hc Hn Hts]; subst.
  assert (Hvs : exists vs, Forall2 (fun x u => exists m, cs !! eg_find g x = Some (u, m)) xs vs).
  { clear Ht Hn Hc. induction Hts as [|u x us xs Hu Hts IHts]; [by exists []|]. inversion IH as [|? ? IHu IHus]; subst.
    destruct (IHu _ Hu) as (v & m & E). destruct (IHts IHus) as [vs Hvs]. exists (v :: vs). constructor; eauto. }
  destruct Hvs as [vs Hvs]. destruct (Hl2 r c Hc) as [Hin <-]. destruct (Hs c Hin (Node f xs) (cf (Node f xs) vs) Hn) as (w & m & E & _); [|eauto].
  apply ntc_inv. eauto.
Qed.
Lemma costs_exactly fuel cs : find_costs fuel g l ∅ = Ok cs -> forall r, is_Some (cs !! r) <-> exists t, Rep g t r.
Proof.
  intros E. destruct (find_costs_inv pcmp cf Ho g witnessed fuel l ∅ cs l_ne visited_witnessed) as [Hw Hs]; [by intros ? ? ?|done|].
  intros r. split; [intros [[v n] Hr]; by eapply Hw|]. intros [t Ht]. destruct (settled_covers cs t r Hs Ht) as (v & n & ->). eauto.
Qed.

(** * The chosen nodes form finite trees *)
Section best.
Context (Hsup : superior pcmp cf).
Definition prec cs (tm : nat -> nat) (a b : nat) : Prop :=
  match cs !! a, cs !! b with
  | Some (v, _), Some (w, _) => pcmp v w = Some Lt \/ (cle v w /\ tm a < tm b)
  | _, _ => False
  end.
Record chosen cs : Prop := {
  ch_node : forall r v n, cs !! r = Some (v, n) -> exists c, eg_classes g !! r = Some c /\ n ∈ c_nodes c /\
    exists vs, v = cf n vs /\ Forall2 (fun x u => exists w m, cs !! eg_find g x = Some (w, m) /\ cle w u) (nch n) vs;
  ch_time : exists tm T, (forall r, tm r < T) /\ forall r v n x, cs !! r = Some (v, n) -> x ∈ nch n -> prec cs tm (eg_find g x) r;
}.
Lemma visited_chosen c cs cs' : c ∈ l -> chosen cs -> visited cs c cs' true -> chosen cs'.
Proof.
  intros Hc [Hn (tm & T & HT & Ht)] Hv. pose proof (visited_cheaper _ _ Ho _ _ _ _ _ Hv) as Hch. inversion Hv as [|v n Ecs Hin Hv' Hlt]; subst.
  apply ntc_inv in Hv' as (vs & -> & Hvs). set (r := c_id c) in *. set (v := cf n vs) in *. split.
  - intros r' v' n'. destruct (decide (r = r')) as [<-|Hr].
    + rewrite lookup_insert. intros [= <- <-]. exists c. split; [by apply Hl1|]. split; [done|]. exists vs. split; [done|].
      eapply Forall2_impl; [exact Hvs|]. intros x u (m & E). by eapply Hch.
    + rewrite lookup_insert_ne by done. intros E. destruct (Hn _ _ _ E) as (c' & Hc' & Hin' & vs' & -> & Hvs'). exists c'. split; [done|]. split; [done|].
      exists vs'. split; [done|]. eapply Forall2_impl; [exact Hvs'|]. intros x u (w & m & E' & Hw). destruct (Hch _ _ _ E') as (w' & m' & E'' & Hw').
      exists w', m'. split; [done|]. by eapply cle_trans.
  - exists (fun i => if decide (i = r) then T else tm i), (S T). split.
    { intros i. destruct (decide (i = r)); [lia|]. specialize (HT i). lia. }
    intros r' v' n' x. unfold prec. destruct (decide (r = r')) as [<-|Hr].
    + rewrite lookup_insert. intros [= <- <-] Hx.
      destruct (proj1 (elem_of_list_lookup _ _) Hx) as [k Hk]. destruct (Forall2_lookup_l _ _ _ _ _ Hvs Hk) as (u & Hu & m & E).
      assert (Huv : cle u v) by (apply Hsup; by eapply elem_of_list_lookup_2).
      destruct (decide (r = eg_find g x)) as [Ex|Ex].
      { exfalso. rewrite <- Ex in E. eapply (lt_not_le pcmp Ho); [by eapply Hlt|done]. }
      rewrite lookup_insert_ne by done. rewrite E. right. split; [done|]. rewrite decide_False by done. rewrite decide_True by done. apply HT.
    + rewrite lookup_insert_ne by done. intros E Hx. pose proof (Ht _ _ _ _ E Hx) as Hp. unfold prec in Hp. rewrite E in *.
      destruct (decide (r = eg_find g x)) as [Ex|Ex].
      * rewrite <- Ex in *. rewrite lookup_insert. destruct (cs !! r) as [[w m]|] eqn:Er; [|done]. left. eapply lt_le_trans; [done|by eapply Hlt|].
        destruct Hp as [Hp|[Hp _]]; [by left|done].
      * rewrite lookup_insert_ne by done. destruct (cs !! eg_find g x) as [[w m]|]; [|done]. rewrite !decide_False by done. done.
Qed.
Lemma chosen_empty : chosen ∅.
Proof. split; [done|]. exists (fun _ => 0), 1. split; [lia|done]. Qed.
Lemma prec_trans cs tm a b d : prec cs tm a b -> prec cs tm b d -> prec cs tm a d.
Proof.
  unfold prec. destruct (cs !! a) as [[u k]|], (cs !! b) as [[v n]|], (cs !! d) as [[w m]|]; try done.
  intros [H1|[H1 H1']] [H2|[H2 H2']].
  - left. eapply lt_le_trans; [done|exact H1|by left].
  - left. by eapply lt_le_trans.
  - left. by eapply le_lt_trans.
  - right. split; [by eapply cle_trans|lia].
Qed.
Lemma prec_irrefl cs tm a : ~ prec cs tm a a.
Proof. unfold prec. destruct (cs !! a) as [[u k]|]; [|by intros []]. intros [H1|[_ ?]]; [|lia]. eapply lt_not_le; [done|exact H1|by apply cle_refl]. Qed.
Global Instance prec_dec cs tm a b : Decision (prec cs tm a b).
Proof. unfold prec. destruct (cs !! a) as [[v ?]|], (cs !! b) as [[w ?]|]; try (right; by intros []). unfold ExtractSpec.cle. solve_decision. Defined.

Definition get cs (i : nat) : option node := snd <$> cs !! eg_find g i.
Lemma chosen_tree cs : chosen cs -> forall r, is_Some (cs !! r) -> forall i, eg_find g i = r -> exists t, TreeOf (get cs) i t.
Proof.
  intros [Hn (tm & T & _ & Ht)].
  assert (K : forall N r, base.size (filter (fun a => prec cs tm a r) (dom cs)) <= N -> is_Some (cs !! r) -> forall i, eg_find g i = r -> exists t, TreeOf (get cs) i t).
  { induction N as [|N IH]; intros r HN [[v [f xs]] Hr] i Hi.
    - exists (TNode f []). destruct xs as [|x xs]; [|exfalso].
      + econstructor; [unfold get; by rewrite Hi, Hr|constructor].
      + pose proof (Ht _ _ _ x Hr ltac:(left)) as Hp.
        assert (eg_find g x ∈ filter (fun a => prec cs tm a r) (dom cs)) as Hin.
        { apply elem_of_filter. split; [done|]. unfold prec in Hp. apply elem_of_dom. destruct (cs !! eg_find g x); [eauto|done]. }
        apply Nat.le_0_r, size_empty_inv in HN. set_solver.
    - destruct (Forall2_exists (TreeOf (get cs)) xs) as [ts Hts].
      { intros x Hx. pose proof (Ht _ _ _ x Hr Hx) as Hp.
        assert (Hd : is_Some (cs !! eg_find g x)) by (unfold prec in Hp; destruct (cs !! eg_find g x); [eauto|done]).
        apply (IH (eg_find g x)); [|done|done].
        assert (filter (fun a => prec cs tm a (eg_find g x)) (dom cs) ⊂ filter (fun a => prec cs tm a r) (dom cs)) as Hs%subset_size; [|lia].
        apply strict_spec_alt. split.
        - intros a. rewrite !elem_of_filter. intros [Ha ?]. split; [by eapply prec_trans|done].
        - intros Heq. assert (Hx' : eg_find g x ∈ filter (fun a => prec cs tm a r) (dom cs)) by (apply elem_of_filter; split; [done|by apply elem_of_dom]).
          rewrite <- Heq in Hx'. apply elem_of_filter in Hx' as [Hx' _]. by apply prec_irrefl in Hx'. }
      exists (TNode f ts). econstructor; [unfold get; by rewrite Hi, Hr|done]. }
  intros r. by eapply K.
Qed.
Lemma tree_rep cs : chosen cs -> forall i t, TreeOf (get cs) i t -> Rep g t (eg_find g i).
Proof.
  intros [Hn _]. apply TreeOf_ind'. intros i f xs ts Hi _ IH. unfold get in Hi. apply fmap_Some in Hi as ([v n] & E & En). cbn in En. subst n.
  destruct (Hn _ _ _ E) as (c & Hc & Hin & _). econstructor; [exact Hc|exact Hin|]. by apply Forall2_flip.
Qed.
Lemma find_chosen fuel cs : find_costs fuel g l ∅ = Ok cs -> chosen cs /\ Forall (settled_class cs) l.
Proof. intros E. eapply (find_costs_inv pcmp cf Ho g chosen fuel l ∅ cs l_ne visited_chosen); [apply chosen_empty|done]. Qed.
Lemma find_best_ok cs i : chosen cs -> is_Some (cs !! eg_find g i) ->
  exists v e t k, (forall fuel, k <= fuel -> find_best fuel g cs i = Ok (v, e)) /\ find_best_cost g cs i = Ok v /\
    dag e /\ ExprTree e t /\ TreeOf (get cs) i t.
Proof.
  intros Hch Hs. destruct (chosen_tree cs Hch _ Hs i eq_refl) as [t Ht]. inversion Ht as [? f xs ts Hi Hts]; subst.
  unfold get in Hi. apply fmap_Some in Hi as ([v n] & E & En). cbn in En. subst n.
  destruct (build_recexpr_spec (get cs) f xs ts Hts) as (k & e & Ek & Hd & He). exists v, e, (TNode f ts), k. split_and!; [|by unfold find_best_cost; rewrite E|done|done|done].
  intros fuel Hf. unfold find_best. rewrite E. cbn [expect mbind res_bind]. change (fun i0 => snd <$> cs !! eg_find g i0) with (get cs). rewrite Ek by done. done.
Qed.
End best.

(** * Optimality *)
Section optimal.
Context (F : Op -> list C -> C) (HF : by_operator cf F) (Hmon : monotone pcmp cf).
Lemma settled_optimal cs t r : Forall (settled_class cs) l -> Rep g t r -> exists v n, cs !! r = Some (v, n) /\ cle v (geval F t).
Proof.
  rewrite Forall_forall. intros Hs. revert r. induction t as [f ts IH] using term_sind. intros r Ht. inversion Ht as [? ? xs ? c Hc Hn Hts]; subst.
  assert (Hvs : exists vs, Forall2 (fun x u => exists m, cs !! eg_find g x = Some (u, m)) xs vs /\ Forall2 cle vs (geval F <$> ts)).
  { clear Ht Hn Hc. induction Hts as [|u x us xs Hu Hts IHts]; [exists []; by repeat constructor|]. inversion IH as [|? ? IHu IHus]; subst.
    destruct (IHu _ Hu) as (v & m & E & Hv). destruct (IHts IHus) as [vs [Hvs Hle]]. exists (v :: vs). split; constructor; eauto. }
  destruct Hvs as (vs & Hvs & Hle). destruct (Hl2 r c Hc) as [Hin <-].
  destruct (Hs c Hin (Node f xs) (cf (Node f xs) vs) Hn) as (w & m & E & Hw); [apply ntc_inv; eauto|].
  exists w, m. split; [done|]. eapply cle_trans; [done|exact Hw|]. cbn [geval]. rewrite <- (HF (Node f xs)). by apply Hmon.
Qed.
Lemma tree_cost cs : chosen cs -> forall i t, TreeOf (get cs) i t -> forall v n, cs !! eg_find g i = Some (v, n) -> cle (geval F t) v.
Proof.
  intros [Hn _]. apply (TreeOf_ind' (get cs) (fun i t => forall v n, cs !! eg_find g i = Some (v, n) -> cle (geval F t) v)).
  intros i f xs ts Hi _ IH v n E. unfold get in Hi. rewrite E in Hi. cbn in Hi. injection Hi as ->.
  destruct (Hn _ _ _ E) as (c & _ & _ & vs & -> & Hvs). cbn [geval]. rewrite <- (HF (Node f xs)). apply Hmon. cbn [nch] in Hvs. clear E.
  revert vs Hvs. induction IH as [|x t xs ts Hx IH IHts]; intros vs Hvs; inversion Hvs as [|? u ? us (w & m & E & Hw) Hus]; subst; constructor; [|by apply IHts].
  eapply cle_trans; [done|by eapply Hx|done].
Qed.
End optimal.

(** * Termination: well-founded costs *)
Section wf.
Context (Hwf : well_founded (fun a b => pcmp a b = Some Lt)).
Definition olt (a b : option C) : Prop := match a, b with Some a, Some b => pcmp a b = Some Lt | Some _, None => True | None, _ => False end.
Lemma olt_wf : well_founded olt.
Proof.
  assert (K : forall v, Acc olt (Some v)).
  { intros v. induction (Hwf v) as [v _ IH]. constructor. intros [w|] Hw; [by apply IH|done]. }
  intros [v|]; [done|]. constructor. intros [w|] Hw; [done|done].
Qed.
(** One component gets smaller, the others stay. *)
Inductive step : list (option C) -> list (option C) -> Prop :=
| step_here a b xs : olt a b -> step (a :: xs) (b :: xs)
| step_there a xs ys : step xs ys -> step (a :: xs) (a :: ys).
Lemma step_wf xs : Acc step xs.
Proof.
  induction xs as [|x xs IH]; [constructor; intros y Hy; inversion Hy|]. revert x. induction IH as [xs _ IHxs]. intros x.
  induction (olt_wf x) as [x _ IHx]. constructor. intros y Hy. inversion Hy as [a b zs Hab|a zs ws Hzs]; subst; [by apply IHx|by apply IHxs].
Qed.
Definition vec cs : list (option C) := (fun c => fst <$> cs !! c_id c) <$> l.
Lemma insert_steps (ks : list nat) r v m cs : r ∈ ks -> olt (Some v) (fst <$> cs !! r) ->
  clos_trans _ step ((fun k => fst <$> <[r := (v, m)]> cs !! k) <$> ks) ((fun k => fst <$> cs !! k) <$> ks).
Proof.
  intros Hin Hlt.
  assert (Hcons : forall (a : option C) xs ys, clos_trans _ step xs ys -> clos_trans _ step (a :: xs) (a :: ys)).
  { intros a xs ys Hc. induction Hc; [by constructor; constructor|]. by eapply t_trans. }
  assert (Hk : forall ks, ((fun k => fst <$> <[r := (v, m)]> cs !! k) <$> ks) = ((fun k => fst <$> cs !! k) <$> ks) \/
    clos_trans _ step ((fun k => fst <$> <[r := (v, m)]> cs !! k) <$> ks) ((fun k => fst <$> cs !! k) <$> ks)).
  { induction ks0 as [|k ks0 IH]; [by left|]. rewrite !fmap_cons. destruct (decide (r = k)) as [<-|Hk].
    - right. rewrite lookup_insert. destruct IH as [IH|IH]; [rewrite IH; constructor; by constructor|].
      eapply t_trans; [apply Hcons, IH|]. constructor. by constructor.
    - rewrite lookup_insert_ne by done. destruct IH as [IH|IH]; [left; by rewrite IH|right; by apply Hcons]. }
  induction ks as [|k ks IH]; [by apply elem_of_nil in Hin|]. rewrite !fmap_cons. destruct (decide (r = k)) as [<-|Hne].
  - rewrite lookup_insert. destruct (Hk ks) as [E|Hc]; [rewrite E; constructor; by constructor|].
    eapply t_trans; [apply Hcons, Hc|]. constructor. by constructor.
  - rewrite lookup_insert_ne by done. apply Hcons, IH. by apply elem_of_cons in Hin as [->|?].
Qed.
Lemma visited_steps c cs cs' : c ∈ l -> visited cs c cs' true -> clos_trans _ step (vec cs') (vec cs).
Proof.
  intros Hc Hv. inversion Hv as [|v n -> Hn Hv' Hlt]; subst. unfold vec.
  assert (E : forall cs, (fun c => fst <$> cs !! c_id c) <$> l = (fun k => fst <$> cs !! k) <$> (c_id <$> l)) by (intros; by rewrite <- list_fmap_compose).
  rewrite !E. apply insert_steps; [by apply elem_of_list_fmap_1|]. destruct (cs !! c_id c) as [[w m]|] eqn:Ew; cbn; [|done]. by eapply Hlt.
Qed.
Lemma round_steps l' cs cs' b : round pcmp cf g l' cs cs' b -> l' ⊆ l -> (b = false /\ cs' = cs) \/ clos_trans _ step (vec cs') (vec cs).
Proof.
  induction 1 as [|c l' cs cs1 cs2 b b' Hv _ Hr IH]; intros Hs; [by left|].
  assert (Hc : c ∈ l) by (apply Hs; left). destruct IH as [[-> ->]|IH]; [intros x Hx; apply Hs; by right| |].
  - destruct b; [right; by eapply visited_steps|]. left. by inversion Hv.
  - right. destruct b; [eapply t_trans; [exact IH|by eapply visited_steps]|]. by inversion Hv; subst.
Qed.
Lemma find_costs_wf cs : exists fuel cs', find_costs fuel g l cs = Ok cs'.
Proof.
  assert (Ha : Acc (clos_trans _ step) (vec cs)) by (apply Acc_clos_trans, step_wf).
  remember (vec cs) as x eqn:Ex. revert cs Ex. induction Ha as [x _ IH]. intros cs ->.
  destruct (visit_all_ok pcmp cf Ho g l cs l_ne) as (cs1 & b & E & Hr).
  destruct b; [|exists 1, cs1; cbn [ExtractModel.find_costs]; rewrite E; done].
  destruct (round_steps _ _ _ _ Hr) as [[? _]|Hst]; [done|done|]. destruct (IH (vec cs1) Hst cs1 eq_refl) as (fuel & cs' & E').
  exists (S fuel), cs'. cbn [ExtractModel.find_costs]. rewrite E. done.
Qed.
End wf.

(** * Termination: monotone costs *)
Section bound.
Context (F : Op -> list C -> C) (HF : by_operator cf F) (Hmon : monotone pcmp cf) (Hsup : superior pcmp cf).
(** Derivations that use no class from [S]. *)
Inductive Der (S : gset nat) : term Op -> nat -> Prop :=
| Der_node f ts xs r c : r ∉ S -> eg_classes g !! r = Some c -> Node f xs ∈ c_nodes c -> Forall2 (fun t x => Der S t (eg_find g x)) ts xs -> Der S (TNode f ts) r.
Lemma Forall2_Forall_impl {A B} (P Q : A -> B -> Prop) xs ys : Forall2 P xs ys -> Forall (fun x => forall y, P x y -> Q x y) xs -> Forall2 Q xs ys.
Proof. induction 1; inversion 1; subst; constructor; auto. Qed.
Lemma Rep_Der t r : Rep g t r -> Der ∅ t r.
Proof.
  revert r. induction t as [f ts IH] using term_sind. intros r Ht. inversion Ht as [? ? xs ? c Hc Hn Hts]; subst. econstructor; [set_solver|done|done|].
  eapply Forall2_Forall_impl; [exact Hts|]. eapply Forall_impl; [exact IH|]. intros u Hu x Hx. by apply Hu.
Qed.
Lemma Der_Rep S t r : Der S t r -> Rep g t r.
Proof.
  revert r. induction t as [f ts IH] using term_sind. intros r Ht. inversion Ht as [? ? xs ? c _ Hc Hn Hts]; subst. econstructor; [done|done|].
  eapply Forall2_Forall_impl; [exact Hts|]. eapply Forall_impl; [exact IH|]. intros u Hu x Hx. by apply Hu.
Qed.
Lemma Der_weaken S S' t r : S' ⊆ S -> Der S t r -> Der S' t r.
Proof.
  intros Hs. revert r. induction t as [f ts IH] using term_sind. intros r Ht. inversion Ht as [? ? xs ? c Hr Hc Hn Hts]; subst. econstructor; [set_solver|done|done|].
  eapply Forall2_Forall_impl; [exact Hts|]. eapply Forall_impl; [exact IH|]. intros u Hu x Hx. by apply Hu.
Qed.
Lemma tsize_child f ts t : t ∈ ts -> tsize t < tsize (TNode (Op := Op) f ts).
Proof.
  intros Ht. cbn. induction ts as [|u ts IH]; [by apply elem_of_nil in Ht|]. cbn. apply elem_of_cons in Ht as [->|Ht]; [lia|]. specialize (IH Ht). cbn in IH. lia.
Qed.
Lemma child_cost f ts t : t ∈ ts -> cle (geval F t) (geval F (TNode f ts)).
Proof. intros Ht. cbn [geval]. rewrite <- (HF (Node f [])). apply Hsup. by apply elem_of_list_fmap_1. Qed.
Lemma Forall2_or {A B} (P Q : A -> B -> Prop) xs ys : Forall2 (fun x y => P x y \/ Q x y) xs ys -> Forall2 P xs ys \/ exists x y, x ∈ xs /\ Q x y.
Proof.
  induction 1 as [|x y xs ys [Hp|Hq] Hf IH]; [by left| |right; exists x, y; split; [left|done]].
  destruct IH as [IH|(x' & y' & Hx & Hq)]; [left; by constructor|right; exists x', y'; split; [by right|done]].
Qed.
(** Either the class [r] does not occur in a derivation or it has a cheaper one inside. *)
Lemma Der_split S r t r0 : Der S t r0 -> Der (S ∪ {[r]}) t r0 \/ exists t', Der S t' r /\ tsize t' <= tsize t /\ cle (geval F t') (geval F t).
Proof.
  revert r0. induction t as [f ts IH] using term_sind. intros r0 Ht. destruct (decide (r0 = r)) as [->|Hr].
  { right. exists (TNode f ts). split_and!; [done|done|by apply cle_refl]. }
  inversion Ht as [? ? xs ? c Hnin Hc Hn Hts]; subst.
  assert (Hor : Forall2 (fun t x => Der (S ∪ {[r]}) t (eg_find g x) \/ exists t', Der S t' r /\ tsize t' <= tsize t /\ cle (geval F t') (geval F t)) ts xs).
  { eapply Forall2_Forall_impl; [exact Hts|]. eapply Forall_impl; [exact IH|]. intros u Hu x Hx. by apply Hu. }
  apply Forall2_or in Hor as [Hall|(u & x & Hu & t' & Hd & Hsz & Hle)].
  - left. econstructor; [set_solver|done|done|done].
  - right. exists t'. split_and!; [done|pose proof (tsize_child f ts u Hu); lia|]. eapply cle_trans; [done|exact Hle|by apply child_cost].
Qed.
Lemma theight_node (f : Op) ts N : (forall t, t ∈ ts -> theight t <= N) -> theight (TNode f ts) <= S N.
Proof.
  intros Ht. cbn. induction ts as [|t ts IH]; cbn; [lia|]. assert (theight t <= N) by (apply Ht; left).
  assert (S (foldr max 0 (theight <$> ts)) <= S N) by (apply IH; intros; apply Ht; by right). unfold fmap in *. lia.
Qed.
Lemma shallow S N t r : base.size (dom (eg_classes g) ∖ S) <= N -> Der S t r ->
  exists t', Der S t' r /\ cle (geval F t') (geval F t) /\ theight t' <= N.
Proof.
  revert S t r. induction N as [|N IHN]; intros S t r HN.
  { intros Ht. exfalso. inversion Ht as [? ? xs ? c Hnin Hc]; subst. apply Nat.le_0_r, size_empty_inv in HN. assert (r ∈ dom (eg_classes g)) by (apply elem_of_dom; eauto). set_solver. }
  assert (K : forall m t, tsize t <= m -> Der S t r -> exists t', Der S t' r /\ cle (geval F t') (geval F t) /\ theight t' <= Datatypes.S N); [|by eauto].
  clear t. induction m as [|m IHm]; intros t Hm Ht; [destruct t; cbn in Hm; lia|].
  inversion Ht as [f ts xs ? c Hnin Hc Hn Hts]; subst.
  assert (Hor : Forall2 (fun t x => Der (S ∪ {[r]}) t (eg_find g x) \/ exists t', Der S t' r /\ tsize t' <= tsize t /\ cle (geval F t') (geval F t)) ts xs).
  { eapply Forall2_impl; [exact Hts|]. intros u x Hu. by apply Der_split. }
  apply Forall2_or in Hor as [Hall|(u & x & Hu & t' & Hd & Hsz & Hle)].
  - assert (Hsm : base.size (dom (eg_classes g) ∖ (S ∪ {[r]})) <= N).
    { assert (r ∈ dom (eg_classes g)) by (apply elem_of_dom; eauto).
      assert (dom (eg_classes g) ∖ (S ∪ {[r]}) ⊂ dom (eg_classes g) ∖ S) as Hs%subset_size by set_solver. lia. }
    assert (Hts' : exists ts', Forall2 (fun t x => Der (S ∪ {[r]}) t (eg_find g x)) ts' xs /\ Forall2 (fun t' t => cle (geval F t') (geval F t)) ts' ts /\ forall t, t ∈ ts' -> theight t <= N).
    { clear Ht Hm Hn Hts. induction Hall as [|u x us xs Hu Hall IH]; [exists []; split_and!; [done|done|]; intros ? []%elem_of_nil|].
      destruct IH as (us' & H1 & H2 & H3). destruct (IHN _ _ _ Hsm Hu) as (u' & H4 & H5 & H6). exists (u' :: us'). split_and!; [by constructor|by constructor|].
      intros t [->|?]%elem_of_cons; auto. }
    destruct Hts' as (ts' & H1 & H2 & H3). exists (TNode f ts'). split_and!.
    + econstructor; [done|done|done|]. eapply Forall2_impl; [exact H1|]. intros u x Hu. eapply Der_weaken; [|exact Hu]. set_solver.
    + cbn [geval]. rewrite <- !(HF (Node f [])). apply Hmon. by apply Forall2_fmap_both.
    + by apply theight_node.
  - destruct (IHm t') as (t'' & H1 & H2 & H3); [pose proof (tsize_child f ts u Hu); lia|done|]. exists t''. split_and!; [done| |done].
    eapply cle_trans; [done|exact H2|]. eapply cle_trans; [done|exact Hle|by apply child_cost].
Qed.

(** After [k] rounds all terms of height [k] are accounted for. *)
Definition covers k cs : Prop := forall t r, theight t <= k -> Rep g t r -> exists v n, cs !! r = Some (v, n) /\ cle v (geval F t).
Definition all_covered cs : Prop := forall t r, Rep g t r -> exists v n, cs !! r = Some (v, n) /\ cle v (geval F t).
Definition justified_costs cs : Prop := forall r v n, cs !! r = Some (v, n) -> exists t, Rep g t r /\ cle (geval F t) v.
Lemma theight_child (f : Op) ts t : t ∈ ts -> theight t < theight (TNode f ts).
Proof.
  intros Ht. cbn. induction ts as [|u ts IH]; [by apply elem_of_nil in Ht|]. cbn. apply elem_of_cons in Ht as [->|Ht]; [lia|]. specialize (IH Ht). unfold fmap in *. lia.
Qed.
Lemma covers_cheaper k cs cs' : cheaper pcmp cs cs' -> covers k cs -> covers k cs'.
Proof.
  intros Hch Hc t r Hk Ht. destruct (Hc t r Hk Ht) as (v & n & E & Hv). destruct (Hch _ _ _ E) as (w & m & E' & Hw). exists w, m. split; [done|by eapply cle_trans].
Qed.
Lemma round_covers k l' cs cs' b : round pcmp cf g l' cs cs' b -> l' ⊆ l -> covers k cs ->
  forall c f ts xs, c ∈ l' -> Node f xs ∈ c_nodes c -> theight (TNode f ts) <= S k -> Forall2 (fun t x => Rep g t (eg_find g x)) ts xs ->
    exists v n, cs' !! c_id c = Some (v, n) /\ cle v (geval F (TNode f ts)).
Proof.
  induction 1 as [|c l' cs cs1 cs2 b b' Hv Hm Hr IH]; intros Hs Hk c' f ts xs Hin Hn Hh Hts; [by apply elem_of_nil in Hin|].
  apply elem_of_cons in Hin as [->|Hin].
  - assert (Hvs : exists vs, Forall2 (fun x u => exists m, cs !! eg_find g x = Some (u, m)) xs vs /\ Forall2 cle vs (geval F <$> ts)).
    { assert (Hc : forall t, t ∈ ts -> theight t <= k) by (intros t Ht; pose proof (theight_child f ts t Ht); lia).
      clear Hh Hn. induction Hts as [|u x us xs Hu Hts IHts]; [exists []; by repeat constructor|].
      destruct (Hk u (eg_find g x)) as (v & m & E & Hvu); [apply Hc; left|done|]. destruct IHts as (vs & H1 & H2); [intros; apply Hc; by right|].
      exists (v :: vs). split; constructor; eauto. }
    destruct Hvs as (vs & Hvs & Hle).
    destruct (Hm (Node f xs) (cf (Node f xs) vs) Hn) as (w & m & E & Hw); [apply ntc_inv; eauto|].
    destruct (round_cheaper _ _ Ho _ _ _ _ _ Hr _ _ _ E) as (w' & m' & E' & Hw'). exists w', m'. split; [done|].
    eapply cle_trans; [done|exact Hw'|]. eapply cle_trans; [done|exact Hw|]. cbn [geval]. rewrite <- (HF (Node f xs)). by apply Hmon.
  - eapply IH; [|eapply covers_cheaper; [by eapply visited_cheaper|exact Hk]|done|done|done|done]. intros x Hx. apply Hs. by right.
Qed.
Lemma round_covers_S k cs cs' b : round pcmp cf g l cs cs' b -> covers k cs -> covers (S k) cs'.
Proof.
  intros Hr Hk t r Hh Ht. inversion Ht as [f ts xs ? c Hc Hn Hts]; subst. destruct (Hl2 r c Hc) as [Hin <-].
  eapply (round_covers k l cs cs' b Hr); [done|done|done|done|done|done].
Qed.
Lemma covers_all cs : covers (base.size (dom (eg_classes g))) cs -> all_covered cs.
Proof.
  intros Hc t r Ht. destruct (shallow ∅ (base.size (dom (eg_classes g))) t r) as (t' & Hd & Hle & Hh).
  - apply subseteq_size. set_solver.
  - by apply Rep_Der.
  - destruct (Hc t' r Hh (Der_Rep _ _ _ Hd)) as (v & n & E & Hv). exists v, n. split; [done|by eapply cle_trans].
Qed.
Lemma visited_justified c cs cs' : c ∈ l -> justified_costs cs -> visited cs c cs' true -> justified_costs cs'.
Proof.
  intros Hc Hw Hv. inversion Hv as [|v [f xs] -> Hn Hv' _]; subst. intros r w m. destruct (decide (c_id c = r)) as [<-|Hr].
  - rewrite lookup_insert. intros [= <- <-]. apply ntc_inv in Hv' as (vs & -> & Hvs).
    assert (Hts : exists ts, Forall2 (fun t x => Rep g t (eg_find g x)) ts xs /\ Forall2 cle (geval F <$> ts) vs).
    { cbn [nch] in Hvs. clear Hn Hv. induction Hvs as [|x u xs vs (k & E) Hvs IH]; [exists []; by repeat constructor|]. destruct IH as (ts & H1 & H2).
      destruct (Hw _ _ _ E) as (t & Ht & Hle). exists (t :: ts). split; by constructor. }
    destruct Hts as (ts & Hts & Hle). exists (TNode f ts). split; [econstructor; [by apply Hl1|exact Hn|exact Hts]|].
    cbn [geval]. rewrite <- (HF (Node f xs)). by apply Hmon.
  - rewrite lookup_insert_ne by done. apply Hw.
Qed.
Lemma covered_quiet l' cs cs' b : round pcmp cf g l' cs cs' b -> l' ⊆ l -> all_covered cs -> justified_costs cs -> b = false.
Proof.
  induction 1 as [|c l' cs cs1 cs2 b b' Hv _ Hr IH]; intros Hs Hc Hj; [done|].
  assert (Hcl : c ∈ l) by (apply Hs; left). assert (b = false) as ->.
  { destruct b; [exfalso|done]. pose proof (visited_justified c cs cs1 Hcl Hj Hv) as Hj1. inversion Hv as [|v n Ecs Hn Hv' Hlt]; subst.
    destruct (Hj1 (c_id c) v n) as (t & Ht & Hle); [by rewrite lookup_insert|]. destruct (Hc t _ Ht) as (w & m & E & Hw).
    eapply (lt_not_le pcmp Ho); [by eapply Hlt|by eapply cle_trans]. }
  inversion Hv; subst. cbn. apply IH; [|done|done]. intros x Hx. apply Hs. by right.
Qed.
Lemma find_costs_bound fuel cs k : covers k cs -> justified_costs cs -> base.size (dom (eg_classes g)) < fuel + k -> 0 < fuel -> exists cs', find_costs fuel g l cs = Ok cs'.
Proof.
  revert cs k. induction fuel as [|fuel IH]; intros cs k Hc Hj Hf Hp; [lia|]. cbn [ExtractModel.find_costs].
  destruct (visit_all_ok pcmp cf Ho g l cs l_ne) as (cs1 & b & -> & Hr). cbn [mbind res_bind].
  destruct b; [|eauto].
  assert (Hk : k < base.size (dom (eg_classes g))).
  { destruct (decide (k < base.size (dom (eg_classes g)))) as [|Hge]; [done|exfalso].
    assert (Hall : all_covered cs). { apply covers_all. intros t r Hh. apply Hc. lia. }
    by pose proof (covered_quiet l cs cs1 true Hr (reflexivity _) Hall Hj). }
  apply (IH cs1 (S k)); [by eapply round_covers_S| |lia|lia].
  eapply (round_inv pcmp cf g justified_costs); [exact Hr|apply visited_justified|done].
Qed.
End bound.
End main.

(** * [AstSize] and [AstDepth] *)
Lemma usize_eq w (a b : usize w) : `a = `b -> a = b.
Proof. destruct a as [a Ha], b as [b Hb]. cbn. intros <-. f_equal. apply Eqdep_dec.UIP_dec. apply Bool.bool_dec. Qed.
Lemma saturate_val w v : proj1_sig (saturate w v) = N.min v (usize_max w).
Proof. done. Qed.
Lemma usize_le w (a : usize w) : (`a <= usize_max w)%N.
Proof. apply N.leb_le. by destruct a. Qed.
Lemma usize_max_pos w : (1 <= usize_max w)%N.
Proof. unfold usize_max. assert (Hw : (2 ^ 1 <= 2 ^ N.pos w)%N) by (apply N.pow_le_mono_r; lia). change (2 ^ 1)%N with 2%N in Hw. lia. Qed.
Lemma ncmp_le a b : (Some (N.compare a b) = Some Lt \/ Some (N.compare a b) = Some Eq) <-> (a <= b)%N.
Proof. destruct (N.compare_spec a b); (split; [intros [?|?]|]; try done; try lia; eauto). Qed.
Lemma usize_cle w (a b : usize w) : cle usize_pcmp a b <-> (`a <= `b)%N.
Proof. apply ncmp_le. Qed.
Lemma usize_orders w : orders (@usize_pcmp w).
Proof.
  split.
  - intros a b. exists (N.compare (`a) (`b)). split; [done|]. unfold usize_pcmp. by rewrite N.compare_antisym.
  - intros a b c. rewrite !usize_cle. lia.
Qed.
Lemma nat_cle a b : cle nat_pcmp a b <-> a <= b.
Proof. unfold cle, nat_pcmp. destruct (Nat.compare_spec a b); (split; [intros [?|?]|]; try done; try lia; eauto). Qed.
Lemma nat_orders : orders nat_pcmp.
Proof.
  split.
  - intros a b. exists (Nat.compare a b). split; [done|]. unfold nat_pcmp. by rewrite Nat.compare_antisym.
  - intros a b c. rewrite !nat_cle. lia.
Qed.
Lemma usize_wf w : well_founded (fun a b : usize w => usize_pcmp a b = Some Lt).
Proof.
  intros a. remember (`a) as m eqn:Em. revert a Em. induction m as [m IH] using (well_founded_induction N.lt_wf_0). intros a ->.
  constructor. intros b Hb. eapply IH; [|done]. unfold usize_pcmp in Hb. injection Hb as Hb. by apply N.compare_lt_iff in Hb.
Qed.
Lemma nat_pcmp_wf : well_founded (fun a b : nat => nat_pcmp a b = Some Lt).
Proof.
  intros a. induction a as [a IH] using (well_founded_induction Nat.lt_wf_0). constructor. intros b Hb. apply IH.
  unfold nat_pcmp in Hb. injection Hb as Hb. by apply Nat.compare_lt_iff in Hb.
Qed.
Section builtin.
Context {Op : Type} (w : positive).
Lemma ast_size_val (n : node Op) vs : proj1_sig (ast_size w n vs) = N.min (usize_max w) (1 + foldr N.add 0 (proj1_sig <$> vs))%N.
Proof.
  unfold ast_size. pose proof (usize_max_pos w) as Hp.
  assert (K : forall s : usize w, proj1_sig (foldl (fun sum v => saturate w (`sum + `v)) s vs) = N.min (usize_max w) (`s + foldr N.add 0 (proj1_sig <$> vs))%N).
  { induction vs as [|v vs IH]; intros s; cbn [foldl foldr fmap list_fmap]; [pose proof (usize_le w s); lia|]. rewrite IH, saturate_val. unfold fmap. lia. }
  rewrite K, saturate_val. lia.
Qed.
Lemma ast_size_superior : superior usize_pcmp (@ast_size Op w).
Proof.
  intros n vs v Hv. apply usize_cle. rewrite ast_size_val. pose proof (usize_le w v).
  assert (`v <= foldr N.add 0 (proj1_sig <$> vs))%N; [|lia]. clear - Hv. induction vs as [|u vs IH]; [by apply elem_of_nil in Hv|]. rewrite fmap_cons. cbn [foldr].
  apply elem_of_cons in Hv as [->|Hv]; [lia|]. specialize (IH Hv). lia.
Qed.
Lemma ast_size_monotone : monotone usize_pcmp (@ast_size Op w).
Proof.
  intros n vs vs' Hv. apply usize_cle. rewrite !ast_size_val.
  assert (foldr N.add 0 (proj1_sig <$> vs) <= foldr N.add 0 (proj1_sig <$> vs'))%N; [|lia].
  induction Hv as [|a b vs vs' Hab Hv IH]; [done|]. apply usize_cle in Hab. rewrite !fmap_cons. cbn [foldr]. lia.
Qed.
Definition size_op (_ : Op) (vs : list (usize w)) : usize w := foldl (fun sum v => saturate w (`sum + `v)) (saturate w 1) vs.
Lemma ast_size_op : by_operator (@ast_size Op w) size_op.
Proof. done. Qed.
Lemma geval_size (t : term Op) : proj1_sig (geval size_op t) = N.min (usize_max w) (N.of_nat (tsize t)).
Proof.
  induction t as [f ts IH] using term_sind. cbn [geval tsize]. unfold size_op. change (foldl _ _ _) with (ast_size w (Node f []) (geval size_op <$> ts)).
  rewrite ast_size_val. pose proof (usize_max_pos w) as Hp.
  assert (Hs : N.min (usize_max w) (foldr N.add 0%N (proj1_sig <$> (geval size_op <$> ts))) = N.min (usize_max w) (N.of_nat (sum_list (tsize <$> ts)))).
  { clear -IH. induction IH as [|t ts Ht _ IHts]; [done|]. rewrite !fmap_cons. cbn [foldr]. rewrite Ht.
    match goal with |- context [sum_list (?a :: ?b)] => change (sum_list (a :: b)) with (a + sum_list b) end. rewrite Nat2N.inj_add. lia. }
  rewrite Nat2N.inj_succ. lia.
Qed.
Lemma foldl_max_spec (vs : list nat) m : foldl max m vs = max m (foldr max 0 vs).
Proof. revert m. induction vs as [|v vs IH]; intros m; cbn; [lia|]. rewrite IH. lia. Qed.
Lemma ast_depth_superior : superior nat_pcmp (@ast_depth Op).
Proof.
  intros n vs v Hv. apply nat_cle. unfold ast_depth. rewrite foldl_max_spec. assert (v <= foldr max 0 vs); [|lia].
  induction vs as [|u vs IH]; [by apply elem_of_nil in Hv|]. cbn. apply elem_of_cons in Hv as [->|Hv]; [lia|]. specialize (IH Hv). lia.
Qed.
Lemma ast_depth_monotone : monotone nat_pcmp (@ast_depth Op).
Proof.
  intros n vs vs' Hv. apply nat_cle. unfold ast_depth. rewrite !foldl_max_spec. assert (foldr max 0 vs <= foldr max 0 vs'); [|lia].
  induction Hv as [|a b vs vs' Hab Hv IH]; [done|]. apply nat_cle in Hab. cbn. lia.
Qed.
Definition depth_op (_ : Op) (vs : list nat) : nat := 1 + foldl max 0 vs.
Lemma ast_depth_op : by_operator (@ast_depth Op) depth_op.
Proof. done. Qed.
Lemma geval_depth (t : term Op) : geval depth_op t = theight t.
Proof.
  induction t as [f ts IH] using term_sind. cbn [geval theight]. unfold depth_op at 1. rewrite foldl_max_spec. rewrite Nat.max_0_l. cbn [Nat.add]. f_equal.
  induction IH as [|t ts Ht _ IHts]; [done|]. rewrite !fmap_cons. cbn [foldr]. by rewrite Ht, IHts.
Qed.
End builtin.

(** * Together *)
Section together.
Context {Op D : Type} `{Countable Op} {C : Type} (L : lang Op) (A : analysis Op D) (ex : bool) (pcmp : C -> C -> option comparison) (cf : node Op -> list C -> C) (Ho : orders pcmp).
Context (g : egraph Op D) (order : list nat) (R : reachable L A ex g) (Hi : inhabited g) (Hord : traverses g order).
Lemma in_order_1 c : c ∈ in_order g order -> eg_classes g !! c_id c = Some c /\ c_nodes c <> [].
Proof.
  intros (r & Hr & Hc)%elem_of_list_omap. destruct (ik_class _ (good_ids g (reachable_good L A ex g R)) _ _ Hc) as (_ & E & _). rewrite E. split; [done|]. by eapply Hi.
Qed.
Lemma in_order_2 r c : eg_classes g !! r = Some c -> c ∈ in_order g order /\ c_id c = r.
Proof.
  intros Hc. destruct (ik_class _ (good_ids g (reachable_good L A ex g R)) _ _ Hc) as (_ & E & _). split; [|done]. apply elem_of_list_omap. exists r. split; [|done].
  apply Hord. eauto.
Qed.
Lemma order_size : base.size (dom (eg_classes g)) = length order.
Proof.
  destruct Hord as [Hnd Hin]. rewrite <- (size_list_to_set (C := gset nat) order) by done. f_equal. apply leibniz_equiv. intros r.
  rewrite elem_of_list_to_set, Hin. apply elem_of_dom.
Qed.
Lemma extract_no_panic fuel : extractor_new pcmp cf fuel g order <> Panic.
Proof. apply find_costs_np; [done|]. apply Forall_forall. intros c Hc. by apply in_order_1. Qed.
Lemma extract_terminates_wf : well_founded (fun a b => pcmp a b = Some Lt) -> exists fuel cs, extractor_new pcmp cf fuel g order = Ok cs.
Proof. intros Hwf. unfold extractor_new. eapply find_costs_wf; [done|apply in_order_1|done]. Qed.
Lemma extract_terminates F : by_operator cf F -> monotone pcmp cf -> superior pcmp cf -> exists cs, extractor_new pcmp cf (S (length order)) g order = Ok cs.
Proof.
  intros HF Hm Hs. unfold extractor_new. eapply (find_costs_bound pcmp cf Ho g _ in_order_1 in_order_2 F HF Hm Hs _ ∅ 0); [|by intros ???|rewrite order_size; lia|lia].
  intros [f ts] r Hh. cbn in Hh. lia.
Qed.
Lemma extract_exactly fuel cs i : extractor_new pcmp cf fuel g order = Ok cs ->
  ((exists v, find_best_cost g cs i = Ok v) <-> exists t, Rep g t (eg_find g i)) /\ (find_best_cost g cs i = Panic <-> ~ exists t, Rep g t (eg_find g i)).
Proof.
  intros E. pose proof (costs_exactly pcmp cf Ho g _ in_order_1 in_order_2 fuel cs E (eg_find g i)) as Hx. unfold find_best_cost.
  destruct (cs !! eg_find g i) as [[v n]|]; cbn [expect mbind res_bind] in *.
  - assert (Ht : exists t, Rep g t (eg_find g i)) by (apply Hx; eauto). split; split; [done|eauto|done|done].
  - assert (Ht : ~ exists t, Rep g t (eg_find g i)) by (intros Ht; by apply Hx in Ht as [? ?]). split; split; [by intros [? ?]|done|done|done].
Qed.
Lemma extract_total fuel cs i : superior pcmp cf -> extractor_new pcmp cf fuel g order = Ok cs -> (exists t, Rep g t (eg_find g i)) ->
  exists v e t k, (forall fuel', k <= fuel' -> find_best fuel' g cs i = Ok (v, e)) /\ find_best_cost g cs i = Ok v /\ dag e /\ ExprTree e t /\ Rep g t (eg_find g i).
Proof.
  intros Hs E Ht. destruct (find_chosen pcmp cf Ho g _ in_order_1 Hs fuel cs E) as [Hch Hset].
  destruct (find_best_ok pcmp cf Ho g _ in_order_1 in_order_2 Hs cs i Hch) as (v & e & t & k & H1 & H2 & H3 & H4 & H5).
  { by apply (costs_exactly pcmp cf Ho g _ in_order_1 in_order_2 fuel cs E). }
  exists v, e, t, k. split_and!; [done..|]. by eapply tree_rep.
Qed.
Lemma extract_optimal F fuel cs i : by_operator cf F -> monotone pcmp cf -> superior pcmp cf -> extractor_new pcmp cf fuel g order = Ok cs -> (exists t, Rep g t (eg_find g i)) ->
  exists v e t k, (forall fuel', k <= fuel' -> find_best fuel' g cs i = Ok (v, e)) /\ find_best_cost g cs i = Ok v /\ dag e /\ ExprTree e t /\ Rep g t (eg_find g i) /\ cost_rec cf e = Ok (geval F t) /\ pcmp (geval F t) v = Some Eq /\ forall t', Rep g t' (eg_find g i) -> cle pcmp v (geval F t').
Proof.
  intros HF Hm Hs E Ht. destruct (find_chosen pcmp cf Ho g _ in_order_1 Hs fuel cs E) as [Hch Hset].
  destruct (find_best_ok pcmp cf Ho g _ in_order_1 in_order_2 Hs cs i Hch) as (v & e & t & k & H1 & H2 & H3 & H4 & H5).
  { by apply (costs_exactly pcmp cf Ho g _ in_order_1 in_order_2 fuel cs E). }
  assert (Hr : Rep g t (eg_find g i)) by by eapply tree_rep.
  unfold find_best_cost in H2. destruct (cs !! eg_find g i) as [[v' n]|] eqn:Ei; [|done]. cbn in H2. injection H2 as ->.
  assert (Hopt : forall t', Rep g t' (eg_find g i) -> cle pcmp v (geval F t')).
  { intros t' Ht'. destruct (settled_optimal pcmp cf Ho g _ in_order_2 F HF Hm cs t' _ Hset Ht') as (w & m & E' & Hw). rewrite Ei in E'. by injection E' as <- <-. }
  exists v, e, t, k. split_and!; [done|by unfold find_best_cost; rewrite Ei|done|done|done|by apply cost_rec_ok| |done].
  apply le_le_eq; [done| |by apply Hopt]. by eapply tree_cost.
Qed.
End together.
Lemma np_inhabited {Op D} `{Countable Op} (L : lang Op) (A : analysis Op D) ex g : reachable_np L A ex g -> inhabited g.
Proof.
  intros R r c Hc. pose proof (reachable_np_reachable L A ex g R) as R'.
  destruct (ik_class _ (good_ids g (reachable_good L A ex g R')) _ _ Hc) as (Hk & _ & Hf).
  pose proof (reach_listed L A ex g R) as Hl. pose proof (iv_len _ (reachable_Inv L A ex g R')) as Hlen. unfold known in Hk.
  destruct (lookup_lt_is_Some_2 (eg_nodes g) r) as [m Hm]; [rewrite <- Hlen || rewrite Hlen; exact Hk|].
  destruct (Hl r m Hm) as (c' & n & Hc' & Hn & _). rewrite Hf, Hc in Hc'. injection Hc' as <-. intros E. rewrite E in Hn. by apply elem_of_nil in Hn.
Qed.
Lemma extract_order {Op D} `{Countable Op} {C} (L : lang Op) (A : analysis Op D) ex
    (pcmp : C -> C -> option comparison) (cf : node Op -> list C -> C) (Ho : orders pcmp)
    (g : egraph Op D) order order' : reachable L A ex g -> inhabited g -> traverses g order -> traverses g order' ->
  forall (F : Op -> list C -> C) fuel fuel' cs cs' i v, by_operator cf F -> monotone pcmp cf -> superior pcmp cf ->
  extractor_new pcmp cf fuel g order = Ok cs -> extractor_new pcmp cf fuel' g order' = Ok cs' ->
  find_best_cost g cs i = Ok v -> exists v', find_best_cost g cs' i = Ok v' /\ pcmp v v' = Some Eq.
Proof.
  intros R Hi H1 H2 F fuel fuel' cs cs' i v HF Hm Hs E1 E2 Ev.
  assert (Ht : exists t, Rep g t (eg_find g i)) by (apply (extract_exactly L A ex pcmp cf Ho g order R Hi H1 fuel cs i E1); eauto).
  destruct (extract_optimal L A ex pcmp cf Ho g order R Hi H1 F fuel cs i HF Hm Hs E1 Ht) as (v1 & e1 & t1 & _ & _ & Ev1 & _ & _ & Hr1 & _ & Hq1 & Ho1).
  destruct (extract_optimal L A ex pcmp cf Ho g order' R Hi H2 F fuel' cs' i HF Hm Hs E2 Ht) as (v2 & e2 & t2 & _ & _ & Ev2 & _ & _ & Hr2 & _ & Hq2 & Ho2).
  rewrite Ev in Ev1. injection Ev1 as <-. exists v2. split; [done|]. apply le_le_eq; [done| |].
  - eapply cle_trans; [done|exact (Ho1 t2 Hr2)|by right].
  - eapply cle_trans; [done|exact (Ho2 t1 Hr1)|by right].
Qed.
Lemma ast_size_rec {Op} `{Countable Op} w (e : list (node Op)) t : dag e -> ExprTree e t ->
  exists v, cost_rec (ast_size w) e = Ok v /\ proj1_sig v = N.min (2 ^ N.pos w - 1) (N.of_nat (tsize t)).
Proof. intros Hd Ht. eexists. split; [apply (cost_rec_ok _ _ (ast_size_op w)); done|]. apply geval_size. Qed.
Lemma ast_depth_rec {Op} `{Countable Op} (e : list (node Op)) t : dag e -> ExprTree e t -> cost_rec ast_depth e = Ok (theight t).
Proof. intros Hd Ht. rewrite <- geval_depth. apply (cost_rec_ok _ _ ast_depth_op); done. Qed.
Lemma smallest_term {Op D} `{Countable Op} (L : lang Op) (A : analysis Op D) ex w (g : egraph Op D) order i :
  reachable L A ex g -> inhabited g -> traverses g order -> (exists t, Rep g t (eg_find g i)) ->
  exists cs v e t k, extractor_new usize_pcmp (ast_size w) (S (length order)) g order = Ok cs /\
    (forall fuel', k <= fuel' -> find_best fuel' g cs i = Ok (v, e)) /\ ExprTree e t /\ Rep g t (eg_find g i) /\
    proj1_sig v = N.min (2 ^ N.pos w - 1) (N.of_nat (tsize t)) /\
    forall t', Rep g t' (eg_find g i) -> (proj1_sig v <= N.of_nat (tsize t'))%N.
Proof.
  intros R Hi Hord Ht.
  destruct (extract_terminates L A ex usize_pcmp (ast_size w) (usize_orders w) g order R Hi Hord _ (ast_size_op w) (ast_size_monotone w) (ast_size_superior w)) as [cs E].
  destruct (extract_optimal L A ex usize_pcmp (ast_size w) (usize_orders w) g order R Hi Hord _ _ cs i (ast_size_op w) (ast_size_monotone w) (ast_size_superior w) E Ht)
    as (v & e & t & k & H1 & _ & _ & H3 & H4 & _ & H5 & H6).
  exists cs, v, e, t, k. split_and!; [done..| |].
  - injection H5 as H5. apply N.compare_eq_iff in H5. rewrite <- H5. apply geval_size.
  - intros t' Ht'. apply H6 in Ht'. apply usize_cle in Ht'. rewrite geval_size in Ht'. lia.
Qed.
