(** Greedy extraction. *)
From Verif Require Import Base UnionFind EGraphModel EGraphSteps EGraphInv EGraphPres EGraphRuns Spec EGraphMain EGraphReach EGraphOps EGraphSafe
  EGraphNoPanic Terms RecExprModel RecExprProofs AlgSpec ExtractModel ExtractSpec.

(** * Orders *)
Section order.
Context {C : Type} (pcmp : C -> C -> option comparison) (Ho : orders pcmp).
Notation cle := (cle pcmp).
Lemma cle_refl a : cle a a.
Proof. destruct (or_opp _ Ho a a) as (c & E1 & E2). rewrite E1 in E2. injection E2 as E2. right. by destruct c. Qed.
Lemma cle_trans a b c : cle a b -> cle b c -> cle a c.
Proof. apply Ho. Qed.
Lemma cle_total a b : cle a b \/ pcmp b a = Some Lt.
Proof. destruct (or_opp _ Ho a b) as ([] & E1 & E2); [left; by right|left; by left|by right]. Qed.
Lemma lt_not_le a b : pcmp a b = Some Lt -> ~ cle b a.
Proof. intros E1 [E|E]; destruct (or_opp _ Ho a b) as (c & E2 & E3); rewrite E1 in E2; injection E2 as <-; cbn in E3; congruence. Qed.
Lemma not_lt_le a b : pcmp a b <> Some Lt -> cle b a.
Proof. destruct (cle_total b a); done. Qed.
Lemma lt_le a b : pcmp a b = Some Lt -> cle a b.
Proof. by left. Qed.
Lemma le_lt_trans a b c : cle a b -> pcmp b c = Some Lt -> pcmp a c = Some Lt.
Proof.
  intros H1 H2. destruct (cle_total c a) as [H3|]; [|done]. exfalso. apply (lt_not_le _ _ H2). by eapply cle_trans.
Qed.
Lemma lt_le_trans a b c : pcmp a b = Some Lt -> cle b c -> pcmp a c = Some Lt.
Proof.
  intros H1 H2. destruct (cle_total c a) as [H3|]; [|done]. exfalso. apply (lt_not_le _ _ H1). by eapply cle_trans.
Qed.
Lemma le_le_eq a b : cle a b -> cle b a -> pcmp a b = Some Eq.
Proof. intros [H1|H1] H2; [|done]. by destruct (lt_not_le _ _ H1). Qed.
End order.

Section extract.
Context {Op D : Type} `{Countable Op} {C : Type} (pcmp : C -> C -> option comparison) (cf : node Op -> list C -> C) (Ho : orders pcmp).
Notation egraph := (egraph Op D).
Notation eclass := (eclass Op D).
Notation node := (node Op).
Notation costs := (gmap nat (C * node)).
Notation cle := (cle pcmp).
Context (g : egraph).
Implicit Types (cs : costs) (c : eclass) (n : node) (t : term Op).
Notation ntc := (node_total_cost cf g).
Notation visit := (visit pcmp cf g).
Notation visit_all := (visit_all pcmp cf g).
Notation find_costs := (find_costs pcmp cf).

(** * One class *)
Lemma cmp_cost_ok (a b : option C) : exists o : comparison, cmp_cost pcmp a b = Ok o /\
  (match o with
   | Gt => exists y, b = Some y /\ match a with Some x => pcmp y x = Some Lt | None => True end
   | _ => forall y, b = Some y -> exists x, a = Some x /\ cle x y
   end).
Proof.
  destruct a as [x|], b as [y|]; cbn.
  - destruct (or_opp _ Ho x y) as (c & E1 & E2). rewrite E1. exists c. split; [done|]. destruct c; cbn in E2.
    + intros ? [= <-]. exists x. split; [done|by right].
    + intros ? [= <-]. exists x. split; [done|by left].
    + eauto.
  - by exists Lt.
  - exists Gt. eauto.
  - by exists Eq.
Qed.
Lemma min_by_ok (acc : option C * node) l : exists best, min_by pcmp acc l = Ok best /\ best ∈ acc :: l /\
  forall x v, x ∈ acc :: l -> x.1 = Some v -> exists w, best.1 = Some w /\ cle w v.
Proof.
  revert acc. induction l as [|x l IH]; intros acc; cbn [min_by].
  { exists acc. split_and!; [done|left|]. intros y v ->%elem_of_list_singleton Hv. exists v. split; [done|by apply cle_refl]. }
  destruct (cmp_cost_ok acc.1 x.1) as (c & -> & Hc). cbn [mbind res_bind].
  destruct (IH (match c with Gt => x | _ => acc end)) as (best & Eb & Hin & Hmin). exists best. split; [done|]. split.
  { apply elem_of_cons in Hin as [->|Hin]; [destruct c; [left|left|right; left]|right; by right]. }
  intros y v Hy Hv. apply elem_of_cons in Hy as [->|Hy]; [|apply elem_of_cons in Hy as [->|Hy]]; [| |by eapply Hmin; [right|]].
  - destruct c; [by eapply Hmin; [left|]..|]. destruct Hc as (y & Ey & Hlt). rewrite Hv in Hlt.
    destruct (Hmin x y) as (w & Ew & Hw); [left|done|]. exists w. split; [done|]. eapply cle_trans; [done|exact Hw|by left].
  - destruct c; [| |by eapply Hmin; [left|]]; destruct (Hc _ Hv) as (u & Eu & Hu);
      (destruct (Hmin acc u) as (w & Ew & Hw); [left|done|]; exists w; split; [done|by eapply cle_trans]).
Qed.
Lemma make_pass_ok cs c : c_nodes c <> [] -> exists p, make_pass pcmp cf g cs c = Ok p /\
  (forall v n, p = Some (v, n) -> n ∈ c_nodes c /\ ntc cs n = Some v) /\
  (forall n v, n ∈ c_nodes c -> ntc cs n = Some v -> exists w m, p = Some (w, m) /\ cle w v).
Proof.
  unfold make_pass. destruct (c_nodes c) as [|n0 ns]; [done|]. intros _.
  destruct (min_by_ok (ntc cs n0, n0) ((fun n => (ntc cs n, n)) <$> ns)) as (best & -> & Hin & Hmin). cbn [mbind res_bind].
  change ((ntc cs n0, n0) :: ((fun n => (ntc cs n, n)) <$> ns)) with ((fun n => (ntc cs n, n)) <$> n0 :: ns) in *.
  eexists. split; [done|]. split.
  - intros v n E. apply elem_of_list_fmap in Hin as (m & -> & Hm). cbn in E. destruct (ntc cs m) as [u|] eqn:Eu; [|done]. injection E as -> ->. done.
  - intros n v Hn Hv. destruct (Hmin (ntc cs n, n) v) as (w & -> & Hw); [apply elem_of_list_fmap; eauto|done|]. eauto.
Qed.

(** Costs only get smaller. *)
Definition cheaper cs cs' : Prop := forall r v n, cs !! r = Some (v, n) -> exists w m, cs' !! r = Some (w, m) /\ cle w v.
Lemma cheaper_refl cs : cheaper cs cs.
Proof. intros r v n E. exists v, n. split; [done|by apply cle_refl]. Qed.
Lemma cheaper_trans cs1 cs2 cs3 : cheaper cs1 cs2 -> cheaper cs2 cs3 -> cheaper cs1 cs3.
Proof.
  intros H1 H2 r v n E. destruct (H1 r v n E) as (w & m & E' & Hw). destruct (H2 r w m E') as (u & k & E'' & Hu).
  exists u, k. split; [done|by eapply cle_trans].
Qed.
Lemma ntc_inv cs n v : ntc cs n = Some v <-> exists vs, v = cf n vs /\ Forall2 (fun x u => exists m, cs !! eg_find g x = Some (u, m)) (nch n) vs.
Proof.
  unfold node_total_cost. rewrite fmap_Some. split; intros (vs & Hvs & Hv).
  - exists vs. split; [done|]. apply mapM_Some in Hvs. eapply Forall2_impl; [exact Hvs|]. intros x u Hu. apply fmap_Some in Hu as ([w m] & E & ->). eauto.
  - exists vs. split; [|done]. apply mapM_Some. eapply Forall2_impl; [exact Hv|]. intros x u (m & ->). done.
Qed.

(** The outcome of visiting a class. *)
Definition settled_class cs c : Prop := forall n v, n ∈ c_nodes c -> ntc cs n = Some v -> exists w m, cs !! c_id c = Some (w, m) /\ cle w v.
Inductive visited cs c cs' : bool -> Prop :=
| visited_not : cs' = cs -> settled_class cs c -> visited cs c cs' false
| visited_did v n : cs' = <[c_id c := (v, n)]> cs -> n ∈ c_nodes c -> ntc cs n = Some v ->
    (forall w m, cs !! c_id c = Some (w, m) -> pcmp v w = Some Lt) -> visited cs c cs' true.
Lemma visit_ok cs c : c_nodes c <> [] -> exists cs' b, visit c cs = Ok (cs', b) /\ visited cs c cs' b /\
  forall n v, n ∈ c_nodes c -> ntc cs n = Some v -> exists w m, cs' !! c_id c = Some (w, m) /\ cle w v.
Proof.
  intros Hne. unfold ExtractModel.visit. destruct (make_pass_ok cs c Hne) as (p & -> & Hp & Hmin). cbn [mbind res_bind].
  assert (Hset : forall w m, cs !! c_id c = Some (w, m) -> (forall v n, p = Some (v, n) -> cle w v) -> settled_class cs c).
  { intros w m Ew Hw n v Hn Hv. destruct (Hmin n v Hn Hv) as (u & k & -> & Hu). exists w, m. split; [done|]. eapply cle_trans; [done| |exact Hu]. by eapply Hw. }
  destruct (cs !! c_id c) as [[w m]|] eqn:Ew; destruct p as [[v n]|].
  - cbn [fst]. destruct (pcmp v w) as [[]|] eqn:Ev.
    2: { exists (<[c_id c:=(v, n)]> cs), true. destruct (Hp v n eq_refl) as [Hn Hv]. split; [done|]. split.
         - econstructor; [done|exact Hn|exact Hv|]. intros ? ? [= <- <-]%(eq_trans (eq_sym Ew)). done.
         - intros n' v' Hn' Hv'. rewrite lookup_insert. destruct (Hmin n' v' Hn' Hv') as (? & ? & [= <- <-] & ?). eauto. }
    all: exists cs, false; split; [done|]; assert (Hs : settled_class cs c) by
      (eapply Hset; [done|]; intros ? ? [= <- <-]; apply not_lt_le; [done|congruence]); (split; [by constructor|]); exact Hs.
  - exists cs, false. split; [done|]. assert (Hs : settled_class cs c) by (eapply Hset; [done|]; done). split; [by constructor|]. exact Hs.
  - exists (<[c_id c:=(v, n)]> cs), true. destruct (Hp v n eq_refl) as [Hn Hv]. split; [done|]. split.
    + econstructor; [done|exact Hn|exact Hv|]. intros ? ? E. congruence.
    + intros n' v' Hn' Hv'. rewrite lookup_insert. destruct (Hmin n' v' Hn' Hv') as (? & ? & [= <- <-] & ?). eauto.
  - exists cs, false. split; [done|]. assert (Hs : settled_class cs c) by (intros n v Hn Hv; by destruct (Hmin n v Hn Hv) as (? & ? & ? & _)).
    split; [by constructor|]. intros n v Hn Hv. by destruct (Hmin n v Hn Hv) as (? & ? & ? & _).
Qed.
Lemma visited_cheaper cs c cs' b : visited cs c cs' b -> cheaper cs cs'.
Proof.
  destruct 1 as [-> _|v n -> _ _ Hlt]; [apply cheaper_refl|]. intros r w m E. destruct (decide (c_id c = r)) as [<-|Hr].
  - rewrite lookup_insert. exists v, n. split; [done|]. left. by eapply Hlt.
  - rewrite lookup_insert_ne by done. exists w, m. split; [done|by apply cle_refl].
Qed.

(** * A round *)
Inductive round : list eclass -> costs -> costs -> bool -> Prop :=
| round_nil cs : round [] cs cs false
| round_cons c l cs cs1 cs2 b b' : visited cs c cs1 b -> 
    (forall n v, n ∈ c_nodes c -> ntc cs n = Some v -> exists w m, cs1 !! c_id c = Some (w, m) /\ cle w v) ->
    round l cs1 cs2 b' -> round (c :: l) cs cs2 (b || b').
Lemma visit_all_ok l cs : Forall (fun c => c_nodes c <> []) l -> exists cs' b, visit_all l cs = Ok (cs', b) /\ round l cs cs' b.
Proof.
  intros Hl. revert cs. induction Hl as [|c l Hc Hl IH]; intros cs; cbn [ExtractModel.visit_all]; [do 2 eexists; split; [done|constructor]|].
  destruct (visit_ok cs c Hc) as (cs1 & b & -> & Hv & Hm). cbn [mbind res_bind]. destruct (IH cs1) as (cs2 & b' & -> & Hr). cbn [mbind res_bind].
  do 2 eexists. split; [done|]. by econstructor.
Qed.
Lemma round_cheaper l cs cs' b : round l cs cs' b -> cheaper cs cs'.
Proof. induction 1; [apply cheaper_refl|]. eapply cheaper_trans; [by eapply visited_cheaper|done]. Qed.
Lemma round_false l cs cs' : round l cs cs' false -> cs' = cs /\ Forall (settled_class cs) l.
Proof.
  intros Hr. remember false as b eqn:Eb. revert Eb. induction Hr as [|c l cs cs1 cs2 b b' Hv _ Hr IH]; intros Eb; [done|].
  apply orb_false_iff in Eb as [-> ->]. inversion Hv; subst. destruct (IH eq_refl) as [-> Hf]. split; [done|by constructor].
Qed.

(** ** Invariants kept by visits *)
Lemma round_inv (I : costs -> Prop) l cs cs' b : round l cs cs' b ->
  (forall c cs cs', c ∈ l -> I cs -> visited cs c cs' true -> I cs') -> I cs -> I cs'.
Proof.
  induction 1 as [|c l cs cs1 cs2 b b' Hv _ Hr IH]; intros Hs Hi; [done|]. apply IH.
  - intros c' cs0 cs0' Hc. apply Hs. by right.
  - destruct b; [by eapply Hs; [left| |]|]. by inversion Hv; subst.
Qed.
Lemma find_costs_inv (I : costs -> Prop) fuel l cs cs' : Forall (fun c => c_nodes c <> []) l ->
  (forall c cs cs', c ∈ l -> I cs -> visited cs c cs' true -> I cs') -> I cs -> find_costs fuel g l cs = Ok cs' ->
  I cs' /\ Forall (settled_class cs') l.
Proof.
  intros Hl Hs. revert cs. induction fuel as [|fuel IH]; intros cs Hi E; cbn [ExtractModel.find_costs] in E; [done|].
  destruct (visit_all_ok l cs Hl) as (cs1 & b & E1 & Hr). rewrite E1 in E. cbn [mbind res_bind] in E.
  pose proof (round_inv I l cs cs1 b Hr Hs Hi) as Hi1. destruct b; [by apply IH in E|]. injection E as <-.
  apply round_false in Hr as [-> Hf]. done.
Qed.
Lemma find_costs_np fuel l cs : Forall (fun c => c_nodes c <> []) l -> find_costs fuel g l cs <> Panic.
Proof.
  intros Hl. revert cs. induction fuel as [|fuel IH]; intros cs; cbn [ExtractModel.find_costs]; [done|].
  destruct (visit_all_ok l cs Hl) as (cs1 & b & -> & Hr). cbn [mbind res_bind]. destruct b; [apply IH|done].
Qed.
(** More fuel gives the same result. *)
Lemma find_costs_mono fuel fuel' l cs cs' : fuel <= fuel' -> find_costs fuel g l cs = Ok cs' -> find_costs fuel' g l cs = Ok cs'.
Proof.
  revert fuel' cs. induction fuel as [|fuel IH]; intros fuel' cs Hf; [done|]. destruct fuel' as [|fuel']; [lia|]. cbn [ExtractModel.find_costs].
  destruct (visit_all l cs) as [[cs1 b]| |]; [|done|done]. cbn [mbind res_bind]. destruct b; [|done]. apply IH. lia.
Qed.
End extract.
