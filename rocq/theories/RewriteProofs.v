(** Applying rules: effect on the represented terms, absence of panics. *)
From Verif Require Import Base UnionFind EGraphModel EGraphSteps EGraphInv EGraphPres EGraphRuns Spec EGraphMain EGraphReach EGraphOps EGraphSafe
  EGraphNoPanic Terms RecExprModel RecExprProofs ExprModel PatSpec ExprProofs ExprSafe MachineModel MatchSpec RewriteModel.

Section rw.
Context {Op D : Type} `{Countable Op} (L : lang Op) (A : analysis Op D).
Notation egraph := (egraph Op D).
Notation prog := (prog Op D).
Notation pnode := (EGraphModel.node (pop Op)).
Implicit Types (g : egraph) (p : list pnode).

(** ** Loops *)
Lemma each_app {X} (f : X -> egraph -> res (egraph * list nat)) xs ys g :
  each f (xs ++ ys) g = '(g, l1) ← each f xs g; '(g, l2) ← each f ys g; Ok (g, l1 ++ l2).
Proof.
  revert g. induction xs as [|x xs IH]; intros g; cbn [app each].
  - cbn. by destruct (each f ys g) as [[]| |].
  - destruct (f x g) as [[g1 l1]| |]; [|done|done]. cbn. rewrite IH. destruct (each f xs g1) as [[g2 l2]| |]; [|done|done]. cbn.
    destruct (each f ys g2) as [[g3 l3]| |]; [|done|done]. cbn. by rewrite app_assoc.
Qed.
Lemma each_fmap {X Y} (f : Y -> egraph -> res (egraph * list nat)) (h : X -> Y) xs g :
  each f (h <$> xs) g = each (fun x => f (h x)) xs g.
Proof.
  revert g. induction xs as [|x xs IH]; intros g; [done|]. cbn [fmap list_fmap each].
  destruct (f (h x) g) as [[g1 l1]| |]; [|done|done]. cbn [mbind res_bind]. by rewrite IH.
Qed.
Lemma for_matches_pairs f ms g : for_matches f ms g = each (fun '(c, s) => f c s) (pairs ms) g.
Proof.
  unfold for_matches, pairs. revert g. induction ms as [|m ms IH]; intros g; [done|].
  cbn [each fmap list_fmap concat]. rewrite each_app, each_fmap.
  destruct (each _ (sm_substs m) g) as [[g1 l1]| |]; [|done|done]. cbn [mbind res_bind]. by rewrite IH.
Qed.
Lemma each_run {X} (f : X -> egraph -> res (egraph * list nat)) (P : egraph -> Prop) (Post : X -> egraph -> Prop) xs g g' l :
  (forall g, P g -> Inv g) ->
  (forall x g g' l, x ∈ xs -> P g -> f x g = Ok (g', l) -> P g' /\ grows g g' /\ Post x g') ->
  (forall x g g', P g -> P g' -> grows g g' -> Post x g -> Post x g') ->
  P g -> each f xs g = Ok (g', l) -> P g' /\ grows g g' /\ forall x, x ∈ xs -> Post x g'.
Proof.
  intros HI Hf Hm. revert g l. induction xs as [|x xs IH]; intros g l HP E; cbn [each] in E.
  - inv_res. split_and!; [done|by apply grows_refl, HI|]. intros x Hx. by apply elem_of_nil in Hx.
  - inv_res. destruct x0 as [g1 l1]. inv_res. destruct x0 as [g2 l2]. inv_res.
    destruct (Hf x g g1 l1) as (P1 & G1 & Q1); [left|done|done|].
    destruct (IH (fun y gg gg' ll Hy => Hf y gg gg' ll (elem_of_list_further _ _ _ Hy)) g1 l2 P1) as (P2 & G2 & Q2); [done|].
    split_and!; [done|by eapply grows_trans|]. intros y [->|Hy]%elem_of_cons; [by eapply (Hm x g1)|auto].
Qed.

(** ** Single calls *)
Lemma union_step (Q : prog -> Prop) ex fuel a b r g g' did :
  (forall a b r, Q (PUnion a b r (fun _ => PRet))) -> reach L A Q ex g ->
  api_union A (modify_n L A fuel) a b r g = Ok (g', did) ->
  reach L A Q ex g' /\ grows g g' /\ eg_find g' a = eg_find g' b.
Proof.
  intros HQ R E. assert (Ep : run_prog L A fuel (modify_n L A fuel) (PUnion a b r (fun _ => PRet)) g = Ok g').
  { cbn [run_prog]. by rewrite E. }
  assert (R' : reach L A Q ex g') by (by eapply reach_run).
  assert (Rg : reachable L A ex g) by (by eapply reach_mono).
  split_and!; [done|by eapply run_grows|]. by apply (api_union_effect L A ex) in E as (? & _).
Qed.
Lemma trusted_step (Q : prog -> Prop) ex fuel a b r g g' did :
  (forall a b r, Q (PUnionTrusted a b r (fun _ => PRet))) -> reach L A Q ex g ->
  api_union_trusted A (modify_n L A fuel) a b r g = Ok (g', did) ->
  reach L A Q ex g' /\ grows g g' /\ eg_find g' a = eg_find g' b.
Proof.
  intros HQ R E. assert (Ep : run_prog L A fuel (modify_n L A fuel) (PUnionTrusted a b r (fun _ => PRet)) g = Ok g').
  { cbn [run_prog]. by rewrite E. }
  assert (R' : reach L A Q ex g') by (by eapply reach_run).
  assert (Rg : reachable L A ex g) by (by eapply reach_mono). pose proof (reachable_Inv _ _ _ _ Rg) as I.
  split_and!; [done|by eapply run_grows|].
  unfold api_union_trusted, union_trusted, perform_union in E. inv_res. destruct x as [g1 o]. inv_res.
  pose proof (Inv_union _ _ _ _ _ _ _ _ I H0) as I1.
  apply union_core_effect in H0 as [H2 _]; [|apply I|intros; exact (Inv_find_idem g i I)].
  eapply coarser_eq; [apply (grows_brun _ _ _ _ _ (hook_brun _ _ _ _ _ _ H1) I1)|]. apply H2. right. left. done.
Qed.

(** What the class of programs allowed must contain. *)
Record calls (Q : prog -> Prop) : Prop := {
  cl_add : forall n, Q (PAdd n (fun _ => PRet));
  cl_union : forall a b r, Q (PUnion a b r (fun _ => PRet));
  cl_trusted : forall a b r, Q (PUnionTrusted a b r (fun _ => PRet));
  cl_rebuild : Q (PRebuild (fun _ => PRet));
}.
Lemma calls_any : calls (fun _ => True).
Proof. by split. Qed.
Lemma calls_np : calls no_prune.
Proof. by split. Qed.
Lemma rebuild_step Q ex fuel g g' n : calls Q -> reach L A Q ex g -> rebuild L A fuel (modify_n L A fuel) g = Ok (g', n) ->
  reach L A Q ex g' /\ grows g g' /\ eg_clean g' = true.
Proof.
  intros HQ R E. assert (Ep : run_prog L A fuel (modify_n L A fuel) (PRebuild (fun _ => PRet)) g = Ok g').
  { cbn [run_prog]. by rewrite E. }
  split_and!.
  - eapply reach_run; [done|apply (cl_rebuild _ HQ)|exact Ep].
  - eapply run_grows; [|exact Ep]. by eapply reach_mono.
  - unfold rebuild in E. inv_res. destruct x as [g1 n1]. inv_res. done.
Qed.
Lemma reach_Inv Q ex g : reach L A Q ex g -> Inv g.
Proof. intros R. eapply (reachable_Inv L A). by eapply reach_mono. Qed.

(** [NRep] at the class of an id. *)
Definition at_id g (s : nat -> option nat) (t : term (pop Op)) (i : nat) : Prop := NRep g s t (eg_find g i).
Lemma at_grows g g' s t i : grows g g' -> at_id g s t i -> at_id g' s t i.
Proof. intros G Hr. unfold at_id. rewrite <- (gr_find _ _ G i). by eapply NRep_grows. Qed.
Lemma at_same g s t i j : eg_find g i = eg_find g j -> at_id g s t i -> at_id g s t j.
Proof. unfold at_id. by intros <-. Qed.

Lemma apply_pat_step Q ex fuel p s g g' i t : calls Q -> pat_ok p -> ExprTree p t -> reach L A Q ex g ->
  apply_pat A (modify_n L A fuel) p s g = Ok (g', i) -> reach L A Q ex g' /\ grows g g' /\ at_id g' (subst_get s) t i.
Proof.
  intros HQ Hp Ht R E. apply (apply_pat_ok L A Q ex) in E as (R' & G & t' & Ht' & Hr); [|apply HQ|done|done].
  by rewrite (ExprTree_fun _ _ _ Ht Ht').
Qed.
Lemma add_inst_step Q ex fuel p s g g' i t : calls Q -> pat_ok p -> ExprTree p t -> reach L A Q ex g ->
  add_instantiation_noncanonical A (modify_n L A fuel) p s g = Ok (g', i) ->
  reach L A Q ex g' /\ grows g g' /\ at_id g' (subst_get s) t i.
Proof.
  intros HQ Hp Ht R E. apply (add_inst_ok L A Q ex) in E as (R' & G & t' & Ht' & Hr); [|apply HQ|done|done].
  by rewrite (ExprTree_fun _ _ _ Ht Ht').
Qed.
(** Both sides represented by ids of one class. *)
Definition joined g (s : nat -> option nat) (t1 t2 : term (pop Op)) : Prop :=
  exists i1 i2, at_id g s t1 i1 /\ at_id g s t2 i2 /\ eg_find g i1 = eg_find g i2.
Lemma joined_grows g g' s t1 t2 : grows g g' -> joined g s t1 t2 -> joined g' s t1 t2.
Proof.
  intros G (i1 & i2 & H1 & H2 & E). exists i1, i2. split_and!; [by eapply at_grows|by eapply at_grows|].
  eapply coarser_eq; [apply G|done].
Qed.
Lemma union_inst_step Q ex fuel p1 p2 s r g g' b t1 t2 : calls Q -> pat_ok p1 -> pat_ok p2 -> ExprTree p1 t1 -> ExprTree p2 t2 ->
  reach L A Q ex g -> union_instantiations A (modify_n L A fuel) p1 p2 s r g = Ok (g', b) ->
  reach L A Q ex g' /\ grows g g' /\ joined g' (subst_get s) t1 t2.
Proof.
  intros HQ Hp1 Hp2 Ht1 Ht2 R E. unfold union_instantiations in E. inv_res. destruct x as [g1 i1]. inv_res.
  destruct x as [g2 i2]. inv_res. destruct x as [g3 did]. inv_res.
  destruct (add_inst_step Q ex fuel p1 s g g1 i1 t1) as (R1 & G1 & A1); auto.
  destruct (add_inst_step Q ex fuel p2 s g1 g2 i2 t2) as (R2 & G2 & A2); auto.
  apply (trusted_step Q ex) in H2 as (R3 & G3 & Eq); [|apply HQ|done].
  split_and!; [done|eapply grows_trans; [exact G1|]; by eapply grows_trans|].
  exists i1, i2. split_and!; [|by eapply at_grows|done]. by do 2 (eapply at_grows; [eassumption|]).
Qed.

(** ** The appliers *)
Lemma reach_ex Q ex g : reach L A Q ex g -> explaining g = ex.
Proof. intros R. apply (reach_explain L A). by eapply reach_mono. Qed.
Lemma pattern_apply_step Q ex fuel here p sast rule c s g g' l t :
  calls Q -> pat_ok p -> ExprTree p t -> reach L A Q ex g ->
  pattern_apply L A fuel here p sast rule c s g = Ok (g', l) ->
  (forall ast, ex = true -> sast = Some ast -> pat_ok ast /\ exists tl, ExprTree ast tl) ->
  reach L A Q ex g' /\ grows g g' /\
  (if ex then exists ast, sast = Some ast /\ forall tl, ExprTree ast tl -> joined g' (subst_get s) tl t
   else at_id g' (subst_get s) t c).
Proof.
  intros HQ Hp Ht R E Hs. unfold pattern_apply in E. rewrite (reach_ex Q ex g R) in E. destruct ex.
  - inv_res. destruct x0 as [g1 [id did]]. inv_res.
    destruct (Hs x eq_refl eq_refl) as [Ha [tl Htl]].
    apply (union_inst_step Q true _ _ _ _ _ _ _ _ tl t) in H1 as (R' & G & J); auto. split_and!; auto.
    exists x. split; [done|]. intros tl' Htl'. by rewrite (ExprTree_fun _ _ _ Htl' Htl).
  - inv_res. destruct x as [g1 id]. inv_res. destruct x as [g2 did]. inv_res.
    apply (apply_pat_step Q false _ _ _ _ _ _ t) in H0 as (R1 & G1 & A1); auto.
    apply (union_step Q false) in H1 as (R2 & G2 & Eq); [|apply HQ|done].
    split_and!; [done|by eapply grows_trans|]. eapply at_same; [exact Eq|]. by eapply at_grows.
Qed.
Lemma pattern_one_step Q ex fuel here p sast rule c s g g' l t :
  calls Q -> pat_ok p -> ExprTree p t -> reach L A Q ex g ->
  pattern_apply_one L A fuel here p c s sast rule g = Ok (g', l) ->
  (forall ast, sast = Some ast -> pat_ok ast /\ exists tl, ExprTree ast tl) ->
  reach L A Q ex g' /\ grows g g' /\
  match sast with Some ast => forall tl, ExprTree ast tl -> joined g' (subst_get s) tl t | None => at_id g' (subst_get s) t c end.
Proof.
  intros HQ Hp Ht R E Hs. unfold pattern_apply_one in E. inv_res. destruct x as [g1 id]. inv_res.
  apply (apply_pat_step Q ex _ _ _ _ _ _ t) in H0 as (R1 & G1 & A1); auto. destruct sast as [ast|].
  - inv_res. destruct x as [g2 [from did]]. inv_res. destruct (Hs ast eq_refl) as [Ha [tl Htl]].
    apply (union_inst_step Q ex _ _ _ _ _ _ _ _ tl t) in H0 as (R' & G & J); auto.
    split_and!; [done|by eapply grows_trans|]. intros tl' Htl'. by rewrite (ExprTree_fun _ _ _ Htl' Htl).
  - inv_res. destruct x as [g2 did]. inv_res.
    apply (union_step Q ex) in H0 as (R2 & G2 & Eq); [|apply HQ|done].
    split_and!; [done|by eapply grows_trans|]. eapply at_same; [symmetry; exact Eq|]. by eapply at_grows.
Qed.

(** Client code in conditions and appliers stays within the allowed programs. *)
Definition cond_in (Q : prog -> Prop) (c : condition Op D) : Prop :=
  match c with
  | CEqual p1 p2 => good_ast p1 /\ good_ast p2
  | CFn _ body _ => forall e s, Q (body e s)
  end.
Lemma check_step Q ex fuel cnd c s g g' b : calls Q -> cond_in Q cnd -> reach L A Q ex g ->
  check L A fuel cnd c s g = Ok (g', b) -> reach L A Q ex g' /\ grows g g'.
Proof.
  intros HQ Hc R E. destruct cnd as [p1 p2|vars body test]; cbn [check cond_in] in *.
  - destruct Hc as [(Hd1 & Hp1 & Hn1) (Hd2 & Hp2 & Hn2)].
    destruct (dag_ExprTree p1 Hd1 Hn1) as [t1 Ht1]. destruct (dag_ExprTree p2 Hd2 Hn2) as [t2 Ht2].
    inv_res. destruct x as [g1 a1]. inv_res. destruct x as [g2 a2]. inv_res.
    apply (apply_pat_step Q ex _ _ _ _ _ _ t1) in H0 as (R1 & G1 & _); auto.
    apply (apply_pat_step Q ex _ _ _ _ _ _ t2) in H1 as (R2 & G2 & _); auto.
    split; [done|by eapply grows_trans].
  - inv_res. split.
    + eapply reach_run; [done|apply Hc|exact H0].
    + eapply run_grows; [by eapply reach_mono|exact H0].
Qed.
Lemma check_equal_joined Q ex fuel p1 p2 c s g g' t1 t2 : calls Q -> pat_ok p1 -> pat_ok p2 -> ExprTree p1 t1 -> ExprTree p2 t2 ->
  reach L A Q ex g -> check L A fuel (CEqual p1 p2) c s g = Ok (g', true) -> joined g' (subst_get s) t1 t2.
Proof.
  intros HQ Hp1 Hp2 Ht1 Ht2 R E. cbn [check] in E. inv_res. destruct x as [g1 a1]. inv_res. destruct x as [g2 a2]. inv_res.
  apply (apply_pat_step Q ex _ _ _ _ _ _ t1) in H0 as (R1 & G1 & A1); auto.
  apply (apply_pat_step Q ex _ _ _ _ _ _ t2) in H1 as (R2 & G2 & A2); auto.
  match goal with Hb : (_ =? _) = true |- _ => apply Nat.eqb_eq in Hb; subst end.
  exists a2, a2. split_and!; [by eapply at_grows|done|done].
Qed.

Fixpoint applier_in (Q : prog -> Prop) (a : applier Op D) : Prop :=
  match a with
  | APattern p => good_ast p
  | AMulti asts => Forall (fun cl => good_ast cl.2) asts
  | ACond c a => cond_in Q c /\ applier_in Q a
  | AFn _ body _ => forall e s, Q (body e s)
  end.
Lemma good_ast_tree p : good_ast p -> pat_ok p /\ exists t, ExprTree p t.
Proof. intros (Hd & Hp & Hn). split; [done|]. by apply dag_ExprTree. Qed.
Lemma apply_one_step Q ex fuel here a c s sast rule g g' l : calls Q -> applier_in Q a ->
  (forall ast, sast = Some ast -> good_ast ast) -> reach L A Q ex g ->
  apply_one L A fuel here a c s sast rule g = Ok (g', l) -> reach L A Q ex g' /\ grows g g'.
Proof.
  intros HQ Ha Hs. revert g. induction a as [p|asts|cnd a IH|vars body ret]; intros g R E; cbn [apply_one applier_in] in *.
  - destruct (good_ast_tree p Ha) as [Hp [t Ht]].
    destruct (pattern_one_step Q ex fuel here p sast rule c s g g' l t) as (R' & G & _); auto.
    intros ast Hast. by apply good_ast_tree, Hs.
  - done.
  - destruct Ha as [Hc Ha]. inv_res. destruct x as [g1 b]. apply (check_step Q ex) in H0 as [R1 G1]; auto.
    destruct b; [|by inv_res]. apply IH in E as [R2 G2]; auto. split; [done|by eapply grows_trans].
  - inv_res. split.
    + eapply reach_run; [done|apply Ha|exact H0].
    + eapply run_grows; [by eapply reach_mono|exact H0].
Qed.

(** Rebinding variables to ids of the same class changes nothing. *)
Definition same_up g (s s' : nat -> option nat) : Prop :=
  forall v i, s v = Some i -> exists j, s' v = Some j /\ eg_find g i = eg_find g j.
Lemma NRep_same_up g s s' t r : same_up g s s' -> NRep g s t r -> NRep g s' t r.
Proof.
  intros Hs. revert r. induction t as [[f|v] ts IH] using term_sind; intros r Hr.
  - inversion Hr as [|? ? cs k Hk Hcs]; subst. econstructor; [exact Hk|].
    eapply Forall2_Forall_impl; [exact Hcs|]. eapply Forall_impl; [exact IH|]. cbn. intros t Ht x Hx. by apply Ht.
  - inversion Hr as [? ? i Hi|]; subst. destruct (Hs v i Hi) as (j & Hj & ->). by constructor.
Qed.
Lemma same_up_refl g s : same_up g s s.
Proof. intros v i Hi. eauto. Qed.
Lemma same_up_grows g g' s s' : grows g g' -> same_up g s s' -> same_up g' s s'.
Proof. intros G Hs v i Hi. destruct (Hs v i Hi) as (j & Hj & E). exists j. split; [done|]. eapply coarser_eq; [apply G|done]. Qed.
Lemma same_up_trans g s1 s2 s3 : same_up g s1 s2 -> same_up g s2 s3 -> same_up g s1 s3.
Proof. intros H1 H2 v i Hi. destruct (H1 v i Hi) as (j & Hj & ->). by apply H2. Qed.

(** The clauses of a multi-pattern hold afterwards. *)
Definition holds_at g (s : nat -> option nat) (cl : nat * list pnode) : Prop :=
  exists i t, s cl.1 = Some i /\ ExprTree cl.2 t /\ at_id g s t i.
Lemma holds_at_grows g g' s cl : grows g g' -> holds_at g s cl -> holds_at g' s cl.
Proof. intros G (i & t & Hi & Ht & Hr). exists i, t. split_and!; auto. by eapply at_grows. Qed.
Lemma holds_at_same_up g s s' cl : same_up g s s' -> holds_at g s cl -> holds_at g s' cl.
Proof.
  intros Hs (i & t & Hi & Ht & Hr). destruct (Hs _ _ Hi) as (j & Hj & E). exists j, t. split_and!; auto.
  unfold at_id in *. rewrite <- E. by eapply NRep_same_up.
Qed.
Lemma subst_insert_get s v i w : subst_get (subst_insert s v i).1 w = if decide (w = v) then Some i else subst_get s w.
Proof.
  induction s as [|[x j] s IH]; cbn.
  - destruct (decide (v = w)), (decide (w = v)); congruence.
  - destruct (decide (x = v)) as [->|N]; cbn.
    + destruct (decide (v = w)), (decide (w = v)); congruence.
    + destruct (subst_insert s v i) as [s' o]. cbn in *. rewrite IH. destruct (decide (x = w)), (decide (w = v)); congruence.
Qed.
Lemma subst_insert_old s v i : (subst_insert s v i).2 = subst_get s v.
Proof. induction s as [|[x j] s IH]; cbn; [done|]. case_decide; [done|]. by destruct (subst_insert s v i). Qed.
Lemma multi_clauses_step Q ex fuel here asts s g g' l : calls Q -> Forall (fun cl => good_ast cl.2) asts ->
  reach L A Q ex g -> multi_clauses L A fuel here asts s g = Ok (g', l) ->
  reach L A Q ex g' /\ grows g g' /\ exists s', same_up g' (subst_get s) (subst_get s') /\ Forall (holds_at g' (subst_get s')) asts.
Proof.
  intros HQ Hf. revert s g l. induction Hf as [|[v p] asts Hp Hf IH]; intros s g l R E; cbn [multi_clauses] in E.
  - inv_res. split_and!; [done|by eapply grows_refl, reach_Inv|]. exists s. split; [apply same_up_refl|constructor].
  - cbn [snd] in Hp. destruct (good_ast_tree p Hp) as [Hok [t Ht]].
    destruct (apply_pat A (modify_n L A fuel) p s g) as [[g1 id1]| |] eqn:E1; [|done|done]. cbn [mbind res_bind] in E.
    apply (apply_pat_step Q ex _ _ _ _ _ _ t) in E1 as (R1 & G1 & A1); auto.
    pose proof (subst_insert_get s v id1) as Eg. pose proof (subst_insert_old s v id1) as Eo.
    destruct (subst_insert s v id1) as [s1 old]. cbn [fst snd] in Eg, Eo. subst old. inv_res.
    rename x into g2. destruct x0 as [g3 l']. inv_res.
    assert (St : reach L A Q ex g2 /\ grows g1 g2 /\ same_up g2 (subst_get s) (subst_get s1)).
    { destruct (subst_get s v) as [id2|] eqn:Ev.
      - destruct (api_union A (modify_n L A fuel) id1 id2 here g1) as [[g2' did]| |] eqn:Eu; [|done|done]. cbn in H0. injection H0 as ->.
        apply (union_step Q ex) in Eu as (R2 & G2 & Eq); [|apply HQ|done]. split_and!; auto.
        intros w i Hi. rewrite Eg. case_decide as Ew; [|eauto]. subst. exists id1. split; [done|]. congruence.
      - inv_res. split_and!; [done|by eapply grows_refl, reach_Inv|].
        intros w i Hi. rewrite Eg. case_decide as Ew; [|eauto]. congruence. }
    destruct St as (R2 & G2 & S2). apply IH in H1 as (R3 & G3 & s' & S3 & F3); auto.
    split_and!; [done|eapply grows_trans; [exact G1|]; by eapply grows_trans|].
    exists s'. split; [eapply same_up_trans; [|exact S3]; by eapply same_up_grows|]. constructor; [|done].
    eapply holds_at_same_up; [exact S3|]. eapply holds_at_grows; [exact G3|].
    exists id1, t. cbn [fst snd]. split_and!; [by rewrite Eg, decide_True|done|].
    eapply NRep_same_up; [exact S2|]. by eapply at_grows.
Qed.
Lemma multi_apply_step Q ex fuel here asts c s g g' l : calls Q -> Forall (fun cl => good_ast cl.2) asts ->
  reach L A Q ex g -> multi_apply L A fuel here asts c s g = Ok (g', l) ->
  reach L A Q ex g' /\ grows g g' /\ exists s', same_up g' (subst_get s) (subst_get s') /\ Forall (holds_at g' (subst_get s')) asts.
Proof.
  intros HQ Hf R E. unfold multi_apply in E. inv_res. destruct x as [g1 l1]. inv_res. by eapply multi_clauses_step.
Qed.

Lemma apply_matches_step Q ex fuel here a sast rule ms g g' l : calls Q -> applier_in Q a ->
  (forall ast, sast = Some ast -> good_ast ast) -> reach L A Q ex g ->
  apply_matches L A fuel here a sast rule ms g = Ok (g', l) -> reach L A Q ex g' /\ grows g g'.
Proof.
  intros HQ Ha Hs R E.
  assert (K : forall f, for_matches f ms g = Ok (g', l) ->
    (forall c s g g' l, reach L A Q ex g -> f c s g = Ok (g', l) -> reach L A Q ex g' /\ grows g g') -> reach L A Q ex g' /\ grows g g').
  { intros f Ef Hf. rewrite for_matches_pairs in Ef.
    eapply (each_run _ (reach L A Q ex) (fun _ _ => True)) in Ef as (? & ? & _); auto.
    - apply reach_Inv.
    - intros [c s] g0 g1 l0 _ R0 E0. destruct (Hf c s g0 g1 l0 R0 E0). auto. }
  destruct a as [p|asts|cnd a|vars body ret]; cbn [apply_matches] in E; (eapply K; [exact E|]); clear K E; intros c s g0 g1 l0 R0 E0.
  - destruct (good_ast_tree p Ha) as [Hp [t Ht]].
    destruct (pattern_apply_step Q ex fuel here p sast rule c s g0 g1 l0 t) as (? & ? & _); auto.
    intros ast _ Hast. by apply good_ast_tree, Hs.
  - destruct (multi_apply_step Q ex fuel here asts c s g0 g1 l0) as (? & ? & _); auto.
  - eapply (apply_one_step Q ex); [..|exact E0]; auto. intros ast. destruct (explaining g0); [auto|done].
  - eapply (apply_one_step Q ex); [..|exact E0]; auto. intros ast. destruct (explaining g0); [auto|done].
Qed.
End rw.
