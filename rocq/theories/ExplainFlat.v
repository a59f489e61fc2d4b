(** Flattening a tree explanation gives one rewrite per step. *)
From Verif Require Import Base EGraphModel Spec Terms ExplainModel ExplainSpec.

Section find.
Context {Op : Type} (P : fterm Op -> Prop) (HP : forall n b f ks, Forall P ks -> P (FT n b f ks)).
Fixpoint fterm_sind (t : fterm Op) : P t :=
  match t with
  | FT n b f ks => HP n b f ks ((fix go ts : Forall P ts :=
      match ts with [] => Forall_nil_2 P | t :: ts => Forall_cons_2 P t ts (fterm_sind t) (go ts) end) ks)
  end.
End find.

Section flat.
Context {Op : Type}.
Notation node := (node Op).
Notation ttree := (ttree Op).
Notation fterm := (fterm Op).
Notation term := (term Op).
Context (Rl : nat -> term -> term -> Prop).
Notation fstep := (fstep Rl).
Notation fsteps := (fsteps Rl).
Notation flat_proves := (flat_proves Rl).

Lemma erase_remove (t : fterm) : erase (remove_rewrites t) = erase t.
Proof.
  induction t as [n b f ks IH] using fterm_sind. cbn. f_equal. rewrite <- list_fmap_compose.
  induction IH as [|k ks Hk _ IH]; [done|]. rewrite !fmap_cons. f_equal; done.
Qed.
Lemma plain_remove (t : fterm) : plain (remove_rewrites t).
Proof.
  induction t as [n b f ks IH] using fterm_sind. cbn. constructor. by apply Forall_fmap.
Qed.
Lemma remove_plain (t : fterm) : plain t -> remove_rewrites t = t.
Proof.
  induction t as [n b f ks IH] using fterm_sind. inversion 1 as [? ? Hks]; subst. cbn. f_equal.
  clear -IH Hks. induction IH as [|k ks Hk _ IH]; [done|]. apply Forall_cons in Hks as [? ?]. rewrite fmap_cons. f_equal; auto.
Qed.
Lemma plain_no_forward (t : fterm) : plain t -> has_forward t = false.
Proof.
  induction t as [n b f ks IH] using fterm_sind. inversion 1 as [? ? Hks]; subst. cbn.
  induction IH as [|k ks Hk _ IH]; [done|]. apply Forall_cons in Hks as [? ?]. cbn. rewrite Hk by done. cbn. apply IH; [|done]. by constructor.
Qed.
Lemma plain_no_backward (t : fterm) : plain t -> has_backward t = false.
Proof.
  induction t as [n b f ks IH] using fterm_sind. inversion 1 as [? ? Hks]; subst. cbn.
  induction IH as [|k ks Hk _ IH]; [done|]. apply Forall_cons in Hks as [? ?]. cbn. rewrite Hk by done. cbn. apply IH; [|done]. by constructor.
Qed.

Lemma fsteps_app t p u q v : fsteps t p u -> fsteps u q v -> fsteps t (p ++ q) v.
Proof. induction 1; intros Hq; [done|]. cbn. econstructor; eauto. Qed.
Lemma fsteps_snoc_inv t p f v : fsteps t (p ++ [f]) v -> exists u, fsteps t p u /\ fstep u f /\ erase f = v.
Proof.
  revert t. induction p as [|g p IH]; intros t Hf; cbn in Hf; inversion Hf as [|? ? ? ? H1 H2]; subst.
  - inversion H2; subst. exists t. split_and!; [constructor|done|done].
  - destruct (IH _ H2) as (u & ? & ? & ?). exists u. split_and!; auto. econstructor; eauto.
Qed.
Lemma fsteps_last t f p u : erase f = t -> fsteps t p u -> exists l, last (f :: p) = Some l /\ erase l = u.
Proof.
  intros E Hf. revert f E. induction Hf as [t|t f p u H1 Hf IH]; intros g E; [by exists g|].
  rewrite last_cons_cons. by apply IH.
Qed.

(** ** Combining the annotations of two copies of a term *)
Definition like (a b : fterm) : Prop := erase a = erase b /\ (plain b -> plain a) /\ forall t, fstep t b -> fstep t a.
Lemma like_plains ks ks' : Forall2 like ks ks' -> Forall plain ks' -> Forall plain ks.
Proof. induction 1 as [|? ? ? ? (_ & Hp & _) _ IH]; [done|]. intros [? ?]%Forall_cons. constructor; auto. Qed.
Lemma like_erases ks ks' : Forall2 like ks ks' -> erase <$> ks = erase <$> ks'.
Proof. induction 1 as [|? ? ? ? (He & _ & _) _ IH]; [done|]. rewrite !fmap_cons. by f_equal. Qed.
Lemma like_node n m b f ks ks' : nop n = nop m -> Forall2 like ks ks' -> like (FT n b f ks) (FT m b f ks').
Proof.
  intros En Hk. pose proof (like_erases _ _ Hk) as Ee. pose proof (like_plains _ _ Hk) as Hp. split_and!.
  - cbn. by rewrite En, Ee.
  - inversion 1; subst. constructor. auto.
  - intros t Hs. inversion Hs as [? ? r ? Hpl Hr|? ? r ? Hpl Hr|? ts t' us ls k rs Hs' Hl Hr E1 E2]; subst.
    + constructor; [auto|]. cbn in *. by rewrite En, Ee.
    + constructor; [auto|]. cbn in *. by rewrite En, Ee.
    + apply Forall2_app_inv_r in Hk as (ls1 & ks1 & H1 & H2 & ->). inversion H2 as [|k1 ? rs1 ? Hk1 Hrs]; subst.
      rewrite <- En. rewrite <- (like_erases _ _ H1), <- (like_erases _ _ Hrs). destruct Hk1 as (_ & _ & Hst).
      econstructor; eauto; by eapply like_plains.
Qed.
Lemma combine_ok (a b : fterm) : plain a -> erase a = erase b -> exists c, combine_rewrites a b = Ok c /\ like c b.
Proof.
  revert b. induction a as [n bw fw ks IH] using fterm_sind. intros [m bw' fw' ks'] Hp E.
  inversion Hp as [? ? Hks]; subst. cbn in E. injection E as En Ek.
  cbn [combine_rewrites]. assert (Hc : forall o, combine_rule None o = Ok o) by (by intros []). rewrite !Hc. cbn [mbind res_bind].
  match goal with |- exists c, (?go ks ks' ≫= _) = _ /\ _ => set (gof := go) end.
  assert (Hgo : exists cs, gof ks ks' = Ok cs /\ Forall2 like cs ks').
  { clear Hp. revert ks' Ek Hks. induction IH as [|k ks Hk _ IHks]; intros [|k' ks'] Ek Hks; try done; [exists []; split; [done|constructor]|].
    rewrite !fmap_cons in Ek. injection Ek as E1 E2. apply Forall_cons in Hks as [Hpk Hks].
    destruct (Hk k' Hpk E1) as (c & Ec & Hlc). destruct (IHks ks' E2 Hks) as (cs & Ecs & Hcs).
    exists (c :: cs). split; [|by constructor]. change (gof (k :: ks) (k' :: ks')) with (c ← combine_rewrites k k'; cs ← gof ks ks'; Ok (c :: cs)).
    rewrite Ec. cbn [mbind res_bind]. rewrite Ecs. done. }
  destruct Hgo as (cs & -> & Hcs). cbn [mbind res_bind]. eexists. split; [done|]. by apply like_node.
Qed.

(** ** One tree term *)
Lemma child_steps_ok n reps i (y : fterm) t steps u : Forall plain reps -> reps !! i = Some y ->
  fsteps t steps u ->
  fsteps (TNode (nop n) (<[i := t]> (erase <$> reps))) (child_steps n reps i steps) (TNode (nop n) (<[i := u]> (erase <$> reps))).
Proof.
  intros Hp Hi. apply take_drop_middle in Hi as Hsp.
  set (ls := take i reps) in *. set (rs := drop (S i) reps) in *.
  assert (Hl : length ls = i) by (unfold ls; rewrite take_length; apply lookup_lt_Some in Hi; lia).
  assert (Hpl : Forall plain ls /\ Forall plain rs).
  { rewrite <- Hsp in Hp. apply Forall_app in Hp as [? [_ ?]%Forall_cons]. done. }
  assert (Hins : forall v : term, <[i := v]> (erase <$> reps) = (erase <$> ls) ++ v :: (erase <$> rs)).
  { intros v. rewrite <- Hsp at 1. rewrite fmap_app, fmap_cons. rewrite <- Hl. rewrite <- (fmap_length erase ls).
    by rewrite insert_app_r_alt, Nat.sub_diag by lia. }
  assert (Hinsf : forall v : fterm, <[i := v]> reps = ls ++ v :: rs).
  { intros v. rewrite <- Hsp at 1. rewrite <- Hl. by rewrite insert_app_r_alt, Nat.sub_diag by lia. }
  induction 1 as [t|t f fs u H1 H2 IH]; [constructor|]. unfold child_steps. rewrite fmap_cons. econstructor.
  - rewrite Hins, Hinsf. econstructor; naive_solver.
  - assert (erase (FT n None None (<[i := f]> reps)) = TNode (nop n) (<[i := erase f]> (erase <$> reps))) as ->.
    { cbn. by rewrite list_fmap_insert. }
    exact IH.
Qed.

(** flat proofs of the children *)
Inductive flats : list (list fterm) -> list term -> list term -> Prop :=
| flats_nil : flats [] [] []
| flats_cons p ps t ts u us : flat_proves p t u -> flats ps ts us -> flats (p :: ps) (t :: ts) (u :: us).

Lemma removelast_last {X} (l : list X) y : last l = Some y -> removelast l ++ [y] = l.
Proof. intros (l' & ->)%last_Some. by rewrite removelast_last. Qed.

Lemma flat_children_ok n : forall cps i ts us reps acc s pre m ks,
  flats cps ts us -> length pre = i -> Forall plain reps -> erase <$> reps = pre ++ ts ->
  last acc = Some (FT m None None ks) -> (forall k, i <= k -> ks !! k = reps !! k) ->
  (forall k cp, cps !! k = Some cp -> reps !! (i + k) = head cp) ->
  (exists f0 mid, acc = f0 :: mid /\ fsteps s mid (TNode (nop n) (pre ++ ts))) ->
  exists f0 mid mid', acc = f0 :: mid /\ flat_children n i cps reps acc = Ok (f0 :: mid') /\ fsteps s mid' (TNode (nop n) (pre ++ us)).
Proof.
  induction cps as [|cp cps IH]; intros i ts us reps acc s pre m ks Hf Hpre Hp Ee Hlast Hks Hhd (f0 & mid & Eacc & Hs).
  { inversion Hf; subst. cbn. exists f0, mid, mid. split_and!; auto. }
  inversion Hf as [|? ? t ts' u us' Hcp Hcps]; subst. destruct Hcp as (c0 & steps & -> & Hpl0 & Et & Hst).
  destruct (fsteps_last _ _ _ _ Et Hst) as (cl & Ecl & Eecl).
  cbn [flat_children]. rewrite Hlast, Ecl.
  assert (Hr0 : reps !! length pre = Some c0).
  { specialize (Hhd 0 (c0 :: steps) eq_refl). rewrite Nat.add_0_r in Hhd. done. }
  assert (Hins : <[length pre := c0]> ks = ks).
  { apply list_insert_id. by rewrite Hks by lia. }
  rewrite Hins, (removelast_last _ _ Hlast).
  assert (Ereps : forall v, <[length pre := v]> (erase <$> reps) = pre ++ v :: ts').
  { intros v. rewrite Ee, insert_app_r_alt, Nat.sub_diag by lia. done. }
  pose proof (child_steps_ok n reps (length pre) c0 t steps u Hp Hr0 Hst) as Hsteps.
  rewrite !Ereps in Hsteps.
  destruct (IH (S (length pre)) ts' us' (<[length pre := remove_rewrites cl]> reps) ((f0 :: mid) ++ child_steps n reps (length pre) steps) s
     (pre ++ [u]) (match last steps with Some _ => n | None => m end)
     (match last steps with Some c => <[length pre := c]> reps | None => ks end)) as (f0' & mid0 & mid' & E0 & E & Hs'); auto.
  - rewrite app_length. cbn. lia.
  - apply Forall_insert; [done|apply plain_remove].
  - rewrite list_fmap_insert, erase_remove, Eecl, Ereps. by rewrite <- app_assoc.
  - destruct (last steps) as [c|] eqn:El.
    + apply last_Some in El as (st' & ->). unfold child_steps. rewrite fmap_app. change (fmap ?f [c]) with [f c]. rewrite app_assoc, last_snoc. done.
    + apply last_None in El as ->. unfold child_steps. cbn. rewrite app_nil_r. done.
  - intros k Hk. rewrite list_lookup_insert_ne by lia. destruct (last steps).
    + by rewrite list_lookup_insert_ne by lia.
    + apply Hks. lia.
  - intros k cp Hcp. rewrite list_lookup_insert_ne by lia. specialize (Hhd (S k) cp Hcp).
    by rewrite <- Nat.add_succ_comm in Hhd.
  - exists f0, (mid ++ child_steps n reps (length pre) steps). split; [done|]. eapply fsteps_app; [done|].
    by rewrite <- app_assoc.
  - cbn in E0. injection E0 as <- <-. exists f0, mid, mid'. split_and!; [done|done|]. by rewrite <- app_assoc in Hs'.
Qed.

Lemma flat_node_ok n b f cps ts us : flats cps ts us ->
  exists ks rest, flat_node n b f cps = Ok (FT n b f ks :: rest) /\ Forall plain ks /\ erase <$> ks = ts /\
    fsteps (TNode (nop n) ts) rest (TNode (nop n) us).
Proof.
  intros Hf. unfold flat_node.
  assert (Hreps : exists reps, mapM (fun cp => c ← expect (head cp); Ok (remove_rewrites c)) cps = Ok reps /\ Forall plain reps /\
     erase <$> reps = ts /\ forall k cp, cps !! k = Some cp -> reps !! k = head cp).
  { induction Hf as [|p ps t ts u us (c0 & steps & -> & Hpl & Et & _) _ (reps & Er & Hp & Ee & Hh)]; [by exists []|].
    exists (c0 :: reps). cbn. rewrite Er. cbn. split_and!.
    - by rewrite remove_plain.
    - by constructor.
    - by rewrite <- Et, <- Ee.
    - intros [|k] cp Hk; cbn in *; [by injection Hk as <-|auto]. }
  destruct Hreps as (reps & -> & Hp & Ee & Hh). cbn [mbind res_bind].
  destruct (flat_children_ok n cps 0 ts us reps [FT n None None reps] (TNode (nop n) ts) [] n reps) as (f0 & mid & mid' & E0 & -> & Hs); auto.
  { eexists _, _. split; [done|]. constructor. }
  injection E0 as <- <-. cbn [mbind res_bind]. exists reps, mid'. split_and!; auto.
Qed.

(** ** Proofs *)
Lemma flatten_explanation_unfold n b f kids :
  flatten_explanation (TT n b f kids) = (cps ← mapM (flatten_proof (Op := Op) []) kids; flat_node n b f cps).
Proof.
  cbn [flatten_explanation].
  match goal with |- (?go kids ≫= _) = _ => set (gof := go) end.
  assert (gof kids = mapM (flatten_proof (Op := Op) []) kids) as ->; [|done].
  induction kids as [|p kids IH]; [done|].
  match goal with |- gof (p :: kids) = _ => unfold gof at 1 end. cbn [mapM]. fold gof.
  match goal with |- (?fp [] p ≫= _) = _ => set (fpf := fp) end.
  assert (Hfp : forall acc, fpf acc p = flatten_proof acc p).
  { clear. induction p as [|t p IH]; intros acc; [done|]. cbn [flatten_proof].
    match goal with |- fpf acc (t :: p) = _ => unfold fpf at 1 end. fold fpf.
    destruct (flatten_explanation t) as [e| |]; [|done|done]. cbn [mbind res_bind].
    destruct (flat_join acc e) as [acc'| |]; [|done|done]. cbn [mbind res_bind]. apply IH. }
  rewrite Hfp. destruct (flatten_proof [] p) as [c| |]; [|done|done]. cbn [mbind res_bind]. rewrite IH. done.
Qed.

Lemma fsteps_last_like s pre l l' t : like l' l -> fsteps s (pre ++ [l]) t -> fsteps s (pre ++ [l']) t.
Proof.
  intros (He & _ & Hst) (u & H1 & H2 & <-)%fsteps_snoc_inv. eapply fsteps_app; [exact H1|].
  econstructor; [by apply Hst|]. rewrite He. constructor.
Qed.

Lemma flatten_ok :
  (forall p t u, steps Rl p t u -> forall acc s, flat_proves acc s t -> exists fl, flatten_proof acc p = Ok fl /\ flat_proves fl s u) /\
  (forall p t u, proves Rl p t u -> exists fl, flatten_proof [] p = Ok fl /\ flat_proves fl t u) /\
  (forall kids ts us, kids_prove Rl kids ts us -> exists cps, mapM (flatten_proof (Op := Op) []) kids = Ok cps /\ flats cps ts us).
Proof.
  assert (Hrule : forall acc s t b f n kids ts us rest v,
    (exists cps, mapM (flatten_proof (Op := Op) []) kids = Ok cps /\ flats cps ts us) ->
    (forall acc s, flat_proves acc s (TNode (nop n) us) -> exists fl, flatten_proof acc rest = Ok fl /\ flat_proves fl s v) ->
    (forall ks, Forall plain ks -> erase <$> ks = ts -> fstep t (FT n b f ks) /\ (has_forward (FT n b f ks) || has_backward (FT n b f ks)) = true) ->
    flat_proves acc s t -> exists fl, flatten_proof acc (TT n b f kids :: rest) = Ok fl /\ flat_proves fl s v).
  { intros acc s t b f n kids ts us rest v (cps & Ec & Hc) IH Hfs (f0 & mid & -> & Hp0 & E0 & Hmid).
    cbn [flatten_proof]. rewrite flatten_explanation_unfold, Ec. cbn [mbind res_bind].
    destruct (flat_node_ok n b f cps ts us Hc) as (ks & fr & -> & Hpk & Eek & Hfr). cbn [mbind res_bind].
    destruct (Hfs ks Hpk Eek) as [Hst Hann].
    assert (Ej : flat_join (f0 :: mid) (FT n b f ks :: fr) = Ok ((f0 :: mid) ++ FT n b f ks :: fr)).
    { unfold flat_join. destruct (last (f0 :: mid)); [|done].
      destruct (has_forward (FT n b f ks)), (has_backward (FT n b f ks)); done. }
    rewrite Ej. cbn [mbind res_bind]. apply IH. exists f0, (mid ++ FT n b f ks :: fr). split_and!; auto.
    eapply fsteps_app; [done|]. econstructor; [done|]. cbn. by rewrite Eek. }
  apply (proof_mind Rl (fun p t u _ => forall acc s, flat_proves acc s t -> exists fl, flatten_proof acc p = Ok fl /\ flat_proves fl s u)
    (fun p t u _ => exists fl, flatten_proof [] p = Ok fl /\ flat_proves fl t u)
    (fun kids ts us _ => exists cps, mapM (flatten_proof (Op := Op) []) kids = Ok cps /\ flats cps ts us)).
  - intros t acc s Ha. by exists acc.
  - intros n kids ts us rest v _ (cps & Ec & Hc) _ IH acc s (f0 & mid & -> & Hp0 & E0 & Hmid).
    cbn [flatten_proof]. rewrite flatten_explanation_unfold, Ec. cbn [mbind res_bind].
    destruct (flat_node_ok n None None cps ts us Hc) as (ks & fr & -> & Hpk & Eek & Hfr). cbn [mbind res_bind].
    assert (Hpe : plain (FT n None None ks)) by (by constructor).
    destruct (fsteps_last _ _ _ _ E0 Hmid) as (l & El & Eel).
    destruct (combine_ok (FT n None None ks) l Hpe) as (c & Ecm & Hlike); [cbn; by rewrite Eek|].
    unfold flat_join. rewrite El, plain_no_forward, plain_no_backward by done. cbn [negb andb]. rewrite Ecm. cbn [mbind res_bind].
    apply IH. pose proof (removelast_last _ _ El) as Erl.
    destruct (removelast (f0 :: mid)) as [|f1 mid1] eqn:Er; cbn in Erl; injection Erl as -> Em.
    + destruct Hlike as (He & Hpl & _). exists c, fr. subst mid. inversion Hmid; subst. split_and!; [done|auto|congruence|done].
    + exists f0, (mid1 ++ c :: fr). split_and!; auto. rewrite <- Em in Hmid.
      pose proof (fsteps_last_like _ _ _ _ _ Hlike Hmid) as Hm'. change (c :: fr) with ([c] ++ fr). rewrite app_assoc.
      eapply fsteps_app; eauto.
  - intros n r kids t ts us rest v Hr _ Hk _ IH acc s Ha. eapply Hrule; eauto. intros ks Hpk Eek. split.
    + constructor; [done|]. cbn. by rewrite Eek.
    + cbn. done.
  - intros n r kids t ts us rest v Hr _ Hk _ IH acc s Ha. eapply Hrule; eauto. intros ks Hpk Eek. split.
    + constructor; [done|]. cbn. by rewrite Eek.
    + cbn. by rewrite orb_true_r.
  - intros n kids ts us rest v _ (cps & Ec & Hc) _ IH. cbn [flatten_proof]. rewrite flatten_explanation_unfold, Ec. cbn [mbind res_bind].
    destruct (flat_node_ok n None None cps ts us Hc) as (ks & fr & -> & Hpk & Eek & Hfr). cbn [mbind res_bind flat_join last app].
    apply IH. exists (FT n None None ks), fr. split_and!; [done|by constructor|cbn; by rewrite Eek|done].
  - exists []. split; [done|constructor].
  - intros p kids t ts u us _ (fl & Ef & Hf) _ (cps & Ec & Hc). exists (fl :: cps). cbn [mapM]. rewrite Ef. cbn [mbind res_bind].
    rewrite Ec. split; [done|]. by constructor.
Qed.
Lemma make_flat_ok p t u : proves Rl p t u -> exists fl, make_flat p = Ok fl /\ flat_proves fl t u.
Proof. apply flatten_ok. Qed.

(** ** First and last term *)
Definition initials : list (list ttree) -> res (list fterm) :=
  fix go (kids : list (list ttree)) : res (list fterm) :=
    match kids with
    | [] => Ok []
    | (t :: _) :: kids => k ← initial_flat t; ks ← go kids; Ok (k :: ks)
    | [] :: _ => Panic
    end.
Definition last_of : list ttree -> res fterm :=
  fix lst (p : list ttree) : res fterm := match p with [] => Panic | [t] => last_flat t | _ :: p => lst p end.
Definition lasts : list (list ttree) -> res (list fterm) :=
  fix go (kids : list (list ttree)) : res (list fterm) :=
    match kids with
    | [] => Ok []
    | p :: kids => k ← last_of p; ks ← go kids; Ok (k :: ks)
    end.
Lemma initial_unfold n b f kids : initial_flat (TT n b f kids) = (ks ← initials kids; Ok (FT n b f ks)).
Proof. done. Qed.
Lemma last_unfold n b f kids : last_flat (TT n b f kids) = (ks ← lasts kids; Ok (FT n b f ks)).
Proof. done. Qed.
Lemma last_of_cons t p : p <> [] -> last_of (t :: p) = last_of p.
Proof. by destruct p. Qed.

Lemma ends_ok :
  (forall p t u, steps Rl p t u -> p <> [] -> exists f, last_of p = Ok f /\ erase f = u) /\
  (forall p t u, proves Rl p t u -> (exists x rest f, p = x :: rest /\ initial_flat x = Ok f /\ plain f /\ erase f = t) /\
     exists f, last_of p = Ok f /\ erase f = u) /\
  (forall kids ts us, kids_prove Rl kids ts us -> (exists ks, initials kids = Ok ks /\ Forall plain ks /\ erase <$> ks = ts) /\
     exists ks, lasts kids = Ok ks /\ erase <$> ks = us).
Proof.
  assert (Hl : forall n b f kids us rest v, (exists ks, lasts kids = Ok ks /\ erase <$> ks = us) ->
    steps Rl rest (TNode (nop n) us) v -> (rest <> [] -> exists f, last_of rest = Ok f /\ erase f = v) ->
    exists x, last_of (TT n b f kids :: rest) = Ok x /\ erase x = v).
  { intros n b f kids us [|t rest] v (ks & Ek & Ee) Hs IH.
    - inversion Hs; subst. change (last_of [TT n b f kids]) with (last_flat (TT n b f kids)). rewrite last_unfold, Ek. cbn.
      eexists. split; [done|]. cbn. done.
    - rewrite last_of_cons by done. by apply IH. }
  apply (proof_mind Rl (fun p t u _ => p <> [] -> exists f, last_of p = Ok f /\ erase f = u)
    (fun p t u _ => (exists x rest f, p = x :: rest /\ initial_flat x = Ok f /\ plain f /\ erase f = t) /\ exists f, last_of p = Ok f /\ erase f = u)
    (fun kids ts us _ => (exists ks, initials kids = Ok ks /\ Forall plain ks /\ erase <$> ks = ts) /\ exists ks, lasts kids = Ok ks /\ erase <$> ks = us)).
  - done.
  - intros n kids ts us rest v _ [_ Hk] Hr IH _. by eapply Hl.
  - intros n r kids t ts us rest v _ _ [_ Hk] Hr IH _. by eapply Hl.
  - intros n r kids t ts us rest v _ _ [_ Hk] Hr IH _. by eapply Hl.
  - intros n kids ts us rest v _ [(ks & Ei & Hp & Ee) Hk] Hr IH. split; [|by eapply Hl].
    eexists _, rest, _. split; [done|]. rewrite initial_unfold, Ei. cbn. split; [done|]. split; [by constructor|]. cbn. by rewrite Ee.
  - split; exists []; done.
  - intros p kids t ts u us _ [(x & rest & f & -> & Ei & Hpl & Et) (f' & El & Eu)] _ [(ks & Eks & Hp & Ee) (ks' & Eks' & Ee')]. split.
    + exists (f :: ks). change (initials ((x :: rest) :: kids)) with (k ← initial_flat x; ks ← initials kids; Ok (k :: ks)).
      rewrite Ei. cbn [mbind res_bind]. rewrite Eks. split; [done|]. split; [by constructor|]. by rewrite fmap_cons, Et, Ee.
    + exists (f' :: ks'). change (lasts ((x :: rest) :: kids)) with (k ← last_of (x :: rest); ks ← lasts kids; Ok (k :: ks)).
      rewrite El. cbn [mbind res_bind]. rewrite Eks'. split; [done|]. by rewrite fmap_cons, Eu, Ee'.
Qed.
Lemma last_of_last p x : last p = Some x -> last_of p = last_flat x.
Proof. intros (p' & ->)%last_Some. induction p' as [|y p' IH]; [done|]. cbn [app]. rewrite last_of_cons by (by destruct p'). done. Qed.
Lemma proof_ends p t u : proves Rl p t u -> exists x y f l, head p = Some x /\ last p = Some y /\
  initial_flat x = Ok f /\ plain f /\ erase f = t /\ last_flat y = Ok l /\ erase l = u.
Proof.
  intros Hp. destruct ends_ok as (_ & He & _). destruct (He _ _ _ Hp) as [(x & rest & f & -> & Hi & Hpl & Et) (l & Hl & Eu)].
  destruct (last (x :: rest)) as [y|] eqn:El; [|by apply last_None in El]. exists x, y, f, l.
  rewrite (last_of_last _ _ El) in Hl. split_and!; auto.
Qed.
(** a plain start, then exactly one direction per step *)
Lemma plain_existsb (ks : list fterm) : Forall plain ks -> existsb has_forward ks = false /\ existsb has_backward ks = false.
Proof.
  induction 1 as [|k ks Hk _ [IH1 IH2]]; [done|]. cbn [existsb].
  by rewrite (plain_no_forward k Hk), (plain_no_backward k Hk), IH1, IH2.
Qed.
Lemma fstep_annotation t f : fstep t f -> has_forward f = negb (has_backward f).
Proof.
  induction 1 as [t n r ks Hk _|t n r ks Hk _|n ts t us ls k rs _ IH Hl Hr _ _]; cbn [has_forward has_backward].
  - destruct (plain_existsb ks Hk) as [-> ->]. done.
  - destruct (plain_existsb ks Hk) as [-> ->]. done.
  - rewrite !existsb_app. cbn [existsb]. destruct (plain_existsb ls Hl) as [-> ->], (plain_existsb rs Hr) as [-> ->].
    rewrite IH. by destruct (has_backward k).
Qed.
Lemma flat_annotations fl t u f0 pre f post :
  flat_proves fl t u -> fl = f0 :: pre ++ f :: post ->
  has_forward f0 = false /\ has_backward f0 = false /\ has_forward f = negb (has_backward f).
Proof.
  intros (g0 & rest & -> & Hp & _ & Hs) [= -> ->].
  split_and!; [by apply plain_no_forward|by apply plain_no_backward|].
  clear Hp. revert t Hs. induction pre as [|k pre IH]; intros t Hs; cbn [app] in Hs; inversion Hs; subst.
  - by eapply fstep_annotation.
  - by eapply IH.
Qed.

End flat.
