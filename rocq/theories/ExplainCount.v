(** The length of a flat explanation is one more than the number of rule steps in the tree. *)
From Verif Require Import Base EGraphModel Spec Terms ExplainModel ExplainSpec ExplainFlat.

Lemma sum_list_app l k : sum_list (l ++ k) = sum_list l + sum_list k.
Proof. induction l; cbn; lia. Qed.

Section count.
Context {Op : Type}.
Notation node := (node Op).
Notation ttree := (ttree Op).
Notation fterm := (fterm Op).
Definition ann (o : option nat) : nat := match o with Some _ => 1 | None => 0 end.
(** rule steps in a tree term, those in the proofs of its children included *)
Fixpoint tcount (t : ttree) : nat :=
  let 'TT _ b f kids := t in ann b + ann f + sum_list ((fun p => sum_list (tcount <$> p)) <$> kids).
Definition pcount (p : list ttree) : nat := sum_list (tcount <$> p).
Lemma tcount_node n b f kids : tcount (TT n b f kids) = ann b + ann f + sum_list (pcount <$> kids).
Proof. done. Qed.
Lemma pcount_cons t p : pcount (t :: p) = tcount t + pcount p.
Proof. done. Qed.
Lemma pcount_app p q : pcount (p ++ q) = pcount p + pcount q.
Proof. unfold pcount. by rewrite fmap_app, sum_list_app. Qed.

Lemma removelast_length {X} (l : list X) y : last l = Some y -> S (length (removelast l)) = length l.
Proof. intros E. rewrite <- (removelast_last l y E) at 2. rewrite app_length. cbn. lia. Qed.
Lemma flat_children_length n : forall cps i reps acc fl, flat_children (Op := Op) n i cps reps acc = Ok fl ->
  length fl + length cps = length acc + sum_list (length <$> cps).
Proof.
  induction cps as [|cp cps IH]; intros i reps acc fl E; cbn [flat_children] in E; [injection E as <-; cbn; lia|].
  destruct cp as [|c0 steps]; [done|]. destruct (last acc) as [[m b f ks]|] eqn:El; [|done]. destruct (last (c0 :: steps)) as [cl|]; [|done].
  apply IH in E. rewrite fmap_cons. change (sum_list (?a :: ?l)) with (a + sum_list l). cbn [length]. rewrite !app_length in E. unfold child_steps in E. rewrite fmap_length in E.
  pose proof (removelast_length _ _ El). cbn [length] in E. lia.
Qed.
Lemma flat_node_length n b f cps fl : flat_node (Op := Op) n b f cps = Ok fl -> length fl + length cps = S (sum_list (length <$> cps)).
Proof.
  unfold flat_node. intros E. destruct (mapM _ _) as [reps| |]; try done. cbn [mbind res_bind] in E.
  destruct (flat_children _ _ _ _ _) as [p| |] eqn:Ec; try done. cbn [mbind res_bind] in E. apply flat_children_length in Ec.
  destruct p as [|[m ? ? ks] p]; [done|]. injection E as <-. cbn [length] in *. lia.
Qed.
Context (Rl : nat -> term Op -> term Op -> Prop).
Lemma flatten_length :
  (forall p t u, steps Rl p t u -> forall acc s fl, flat_proves Rl acc s t -> flatten_proof acc p = Ok fl -> length fl = length acc + pcount p) /\
  (forall p t u, proves Rl p t u -> forall fl, flatten_proof [] p = Ok fl -> length fl = S (pcount p)) /\
  (forall kids ts us, kids_prove Rl kids ts us -> forall cps, mapM (flatten_proof (Op := Op) []) kids = Ok cps ->
     length cps = length kids /\ sum_list (length <$> cps) = length kids + sum_list (pcount <$> kids)).
Proof.
  destruct (flatten_ok Rl) as (HS & _ & HK).
  assert (Hnode : forall n b f kids cps e ts us, kids_prove Rl kids ts us ->
    (forall cps, mapM (flatten_proof (Op := Op) []) kids = Ok cps -> length cps = length kids /\ sum_list (length <$> cps) = length kids + sum_list (pcount <$> kids)) ->
    mapM (flatten_proof (Op := Op) []) kids = Ok cps -> flat_node n b f cps = Ok e -> length e = S (sum_list (pcount <$> kids))).
  { intros n b f kids cps e ts us _ Hk Ec En. destruct (Hk cps Ec) as [E1 E2]. apply flat_node_length in En. lia. }
  assert (Hrule : forall n b f kids ts us rest acc s t v fl, kids_prove Rl kids ts us ->
    (forall cps, mapM (flatten_proof (Op := Op) []) kids = Ok cps -> length cps = length kids /\ sum_list (length <$> cps) = length kids + sum_list (pcount <$> kids)) ->
    steps Rl rest (TNode (nop n) us) v ->
    (forall acc s fl, flat_proves Rl acc s (TNode (nop n) us) -> flatten_proof acc rest = Ok fl -> length fl = length acc + pcount rest) ->
    (forall ks, Forall plain ks -> erase <$> ks = ts -> fstep Rl t (FT n b f ks) /\ (has_forward (FT n b f ks) || has_backward (FT n b f ks)) = true) ->
    ann b + ann f = 1 -> flat_proves Rl acc s t -> flatten_proof acc (TT n b f kids :: rest) = Ok fl ->
    length fl = length acc + pcount (TT n b f kids :: rest)).
  { intros n b f kids ts us rest acc s t v fl Hkp Hk Hst IH Hfs Hann Ha E. destruct (HK _ _ _ Hkp) as (cps & Ec & Hc).
    cbn [flatten_proof] in E. rewrite flatten_explanation_unfold, Ec in E. cbn [mbind res_bind] in E.
    destruct (flat_node_ok Rl n b f cps ts us Hc) as (ks & fr & En & Hpk & Eek & Hfr). pose proof (Hnode _ _ _ _ _ _ _ _ Hkp Hk Ec En) as Hl.
    rewrite En in E. cbn [mbind res_bind] in E. destruct (Hfs ks Hpk Eek) as [Hs Hh]. destruct Ha as (f0 & mid & -> & Hp0 & E0 & Hmid).
    assert (Ej : flat_join (f0 :: mid) (FT n b f ks :: fr) = Ok ((f0 :: mid) ++ FT n b f ks :: fr)).
    { unfold flat_join. destruct (last (f0 :: mid)); [|done].
      destruct (has_forward (FT n b f ks)), (has_backward (FT n b f ks)); done. }
    rewrite Ej in E. cbn [mbind res_bind] in E. apply (IH _ s) in E.
    - rewrite E, app_length, Hl, pcount_cons, tcount_node. lia.
    - exists f0, (mid ++ FT n b f ks :: fr). split; [done|]. split; [done|]. split; [done|]. eapply fsteps_app; [done|]. econstructor; [done|]. cbn. by rewrite Eek. }
  apply (proof_mind Rl
    (fun p t u _ => forall acc s fl, flat_proves Rl acc s t -> flatten_proof acc p = Ok fl -> length fl = length acc + pcount p)
    (fun p t u _ => forall fl, flatten_proof [] p = Ok fl -> length fl = S (pcount p))
    (fun kids ts us _ => forall cps, mapM (flatten_proof (Op := Op) []) kids = Ok cps ->
     length cps = length kids /\ sum_list (length <$> cps) = length kids + sum_list (pcount <$> kids))).
  - intros t acc s fl _ [= <-]. cbn. lia.
  - intros n kids ts us rest v Hkp Hk Hst IH acc s fl Ha E.
    destruct (HK _ _ _ Hkp) as (cps & Ec & Hc). cbn [flatten_proof] in E. rewrite flatten_explanation_unfold, Ec in E. cbn [mbind res_bind] in E.
    destruct (flat_node_ok Rl n None None cps ts us Hc) as (ks & fr & En & Hpk & Eek & Hfr). pose proof (Hnode _ _ _ _ _ _ _ _ Hkp Hk Ec En) as Hl.
    rewrite En in E. cbn [mbind res_bind] in E. destruct (flat_join acc (FT n None None ks :: fr)) as [acc'| |] eqn:Ej; try done. cbn [mbind res_bind] in E.
    destruct Ha as (f0 & mid & -> & Hp0 & E0 & Hmid).
    assert (Hpe : plain (FT n None None ks)) by (by constructor).
    destruct (fsteps_last Rl _ _ _ _ E0 Hmid) as (l & El & Eel).
    destruct (combine_ok Rl (FT n None None ks) l Hpe) as (c & Ecm & Hlike); [cbn; by rewrite Eek|].
    unfold flat_join in Ej. rewrite El, plain_no_forward, plain_no_backward in Ej by done. cbn [negb andb] in Ej. rewrite Ecm in Ej. cbn [mbind res_bind] in Ej.
    injection Ej as <-. pose proof (removelast_length _ _ El) as Hrl.
    apply (IH _ s) in E.
    + change (match mid with [] => [] | _ :: _ => f0 :: removelast mid end) with (removelast (f0 :: mid)) in E.
      rewrite app_length in E. rewrite pcount_cons, tcount_node. cbn [ann]. change (length (c :: fr)) with (length (FT n None None ks :: fr)) in E. lia.
    + change (match mid with [] => [] | _ :: _ => f0 :: removelast mid end) with (removelast (f0 :: mid)).
      pose proof (removelast_last _ _ El) as Erl.
      destruct (removelast (f0 :: mid)) as [|f1 mid1] eqn:Er; cbn in Erl; injection Erl as -> Em.
      * destruct Hlike as (He & Hpl & _). exists c, fr. subst mid. inversion Hmid; subst. split_and!; [done|auto|congruence|done].
      * exists f0, (mid1 ++ c :: fr). split_and!; auto. rewrite <- Em in Hmid.
        pose proof (fsteps_last_like Rl _ _ _ _ _ Hlike Hmid) as Hm'. change (c :: fr) with ([c] ++ fr). rewrite app_assoc.
        eapply fsteps_app; eauto.
  - intros n r kids t ts us rest v Hr Hkp Hk Hst IH acc s fl Ha E. eapply Hrule; eauto. intros ks Hpk Eek. split.
    + constructor; [done|]. cbn. by rewrite Eek.
    + cbn. done.
  - intros n r kids t ts us rest v Hr Hkp Hk Hst IH acc s fl Ha E. eapply Hrule; eauto. intros ks Hpk Eek. split.
    + constructor; [done|]. cbn. by rewrite Eek.
    + cbn. by rewrite orb_true_r.
  - intros n kids ts us rest v Hkp Hk Hst IH fl E.
    destruct (HK _ _ _ Hkp) as (cps & Ec & Hc). cbn [flatten_proof] in E. rewrite flatten_explanation_unfold, Ec in E. cbn [mbind res_bind] in E.
    destruct (flat_node_ok Rl n None None cps ts us Hc) as (ks & fr & En & Hpk & Eek & Hfr). pose proof (Hnode _ _ _ _ _ _ _ _ Hkp Hk Ec En) as Hl.
    rewrite En in E. cbn [mbind res_bind flat_join last] in E. apply (IH _ (TNode (nop n) ts)) in E.
    + rewrite E. cbn [app]. rewrite Hl, pcount_cons, tcount_node. cbn [ann]. lia.
    + exists (FT n None None ks), fr. split; [done|]. split; [by constructor|]. split; [cbn; by rewrite Eek|done].
  - intros cps [= <-]. done.
  - intros p kids t ts u us Hp IHp Hkp IH cps E. cbn [mapM] in E. destruct (flatten_proof [] p) as [c| |] eqn:Ec; try done. cbn [mbind res_bind] in E.
    destruct (mapM _ kids) as [cs| |] eqn:Ek; try done. cbn [mbind res_bind] in E. injection E as <-. destruct (IH cs eq_refl) as [E1 E2].
    rewrite !fmap_cons. change (sum_list (?a :: ?l)) with (a + sum_list l). cbn [length]. rewrite (IHp c eq_refl), E2, E1. lia.
Qed.
Lemma flat_length p t u fl : proves Rl p t u -> make_flat p = Ok fl -> length fl = S (pcount p).
Proof. destruct flatten_length as (_ & Hp & _). eauto. Qed.
End count.
