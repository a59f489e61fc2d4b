(** What [simplify] answers, and that it answers. *)
From Verif Require Import Base UnionFind EGraphModel EGraphSteps EGraphInv EGraphPres EGraphRuns Spec EGraphReach EGraphSafe EGraphNoPanic Terms RecExprModel RecExprProofs
  ExprModel PatSpec ExprProofs MachineModel MatchSpec MatchProps RewriteModel AlgSpec RuleSpec RuleProps RunnerModel RunnerSpec RunnerProofs RunnerLimits RunnerSound
  ExtractModel ExtractSpec ExtractProofs ExtractMain CheckSpec OptimumSpec OptimumProofs OptimumRun DeriveSpec DeriveProofs DeriveRun
  TotalSpec TotalProofs TotalOps RunTotal CompileProofs TextModel SimplifyModel SimplifyProofs.

Section main.
Context {Op D : Type} `{Countable Op} (L : lang Op) (A : analysis Op D) (Hh : hook_free A) (Lo : lang_ok L).
Context (it : gset nat -> list nat) (Hit : enumerates it) (ord : gmap (nat * nat) (node Op) -> list (nat * nat)) (Hord : enumerates_keys ord).
Context (clock : nat -> nat) {St : Type} (li : limits) (rules : list (rewrite Op D)) (here : nat) (ex : bool) (cycles : bool).
Context {C : Type} (pcmp : C -> C -> option comparison) (cf : node Op -> list C -> C) (F : Op -> list C -> C) (Ho : orders pcmp).
Context (HF : by_operator cf F) (Hm : monotone pcmp cf) (Hs : superior pcmp cf).
Context (order : egraph Op D -> list nat) (Htr : forall g, traverses g (order g)).
Notation eq := (derivable rules (fun _ _ => False)).
Notation nohooks := ([] : list (hook Op D unit)).

Section correct.
Context (sch : scheduler Op D St) (w : nat).
Context (Hr : Forall (rule_built ord) rules) (Hp : Forall pattern_rule rules) (Hon : honest L it cycles w sch).
Context (e : list (node Op)) (t : term Op) (He : ExprTree e t) (fuel rounds : nat) (st : St) (r : runner Op D St unit) (v : C) (best : list (node Op)).
Context (E : simplify L A clock sch li rules here pcmp cf order ex fuel rounds st e = Ok (Some (r, v, best))).
Lemma simplify_parts : exists g i cs, with_exprs L A fuel [e] (eg_new ex, []) = Ok (g, [i]) /\
  run L A clock sch li rules fuel here nohooks rounds [i] g st tt = Ok (Some r) /\ extractor_new pcmp cf fuel (r_eg r) (order (r_eg r)) = Ok cs /\
  exists root, r_roots r !! 0 = Some root /\ find_best fuel (r_eg r) cs root = Ok (v, best).
Proof using E.
  unfold simplify in E. destruct (with_expr L A fuel e _) as [[g roots]| |] eqn:Eg; [|done|done]. cbn [mbind res_bind] in E.
  destruct (run _ _ _ _ _ _ _ _ _ _ _ _ _ _) as [[r0|]| |] eqn:Er; [|done..]. cbn [mbind res_bind] in E.
  destruct (r_roots r0 !! 0) as [root|] eqn:Ero; [|done]. cbn [expect mbind res_bind] in E.
  destruct (extractor_new _ _ _ _ _) as [cs| |] eqn:Ecs; [|done|done]. cbn [mbind res_bind] in E.
  destruct (find_best fuel (r_eg r0) cs root) as [[v0 b0]| |] eqn:Eb; [|done|done]. cbn [mbind res_bind] in E.
  injection E as <- <- <-. cbn [with_exprs]. rewrite Eg. cbn [mbind res_bind].
  unfold with_expr in Eg. cbn [fst snd] in Eg. destruct (add_expr _ _ _ _) as [[g1 i]| |]; [|done|done]. cbn in Eg. injection Eg as -> <-.
  exists g, i, cs. split; [done|]. split; [exact Er|]. split; [exact Ecs|]. by exists root.
Qed.
Lemma simplify_correct : exists s, dag best /\ ExprTree best s /\ eq t s /\ pcmp (geval F s) v = Some Eq /\ cle pcmp v (geval F t) /\
  forall (J : St -> Prop), Forall (fun rw => standard_applier (rw_applier rw)) rules -> thorough L it true w li sch J -> J st -> r_stop r = Some Saturated ->
    (forall u, rewrites rules t u -> cle pcmp v (geval F u)) /\ (undoable rules -> forall u, eq t u -> cle pcmp v (geval F u)).
Proof using All.
  destruct simplify_parts as (g & i & cs & Eg & Er & Ecs & root & Ero & Eb).
  assert (Hes : Forall2 ExprTree [e] [t]) by (constructor; [exact He|constructor]).
  assert (Hhk : Forall (fun h : hook Op D unit => forall cl i, no_prune (hk_body h cl i) /\ reasons (fun _ => False) (hk_body h cl i)) []) by constructor.
  destruct (front_best L A Hh Lo it Hit ord Hord clock sch li rules fuel here nohooks ex cycles w Hr Hp Hon Hhk [e] [t] Hes fuel g [i] Eg rounds st tt r Er
    pcmp cf F Ho HF Hm Hs (order (r_eg r)) (Htr _) fuel cs Ecs 0 t eq_refl) as (root' & v' & e' & s & n & H1 & H2 & H3 & H4 & H5 & H6 & H7 & H8).
  rewrite Ero in H1. injection H1 as <-.
  pose proof (H2 (fuel `max` n) ltac:(lia)) as Hb. rewrite (find_best_mono _ _ _ _ (fuel `max` n) _ Eb) in Hb by lia. injection Hb as <- <-.
  exists s. split; [exact H3|]. split; [exact H4|]. split; [exact H5|]. split; [exact H6|]. split; [exact (H7 t H8)|].
  intros J Ha Hth HJ Es.
  assert (Hc : forall u, rewrites rules t u -> cle pcmp v (geval F u)).
  { intros u Hu. apply H7.
    refine (front_closed L A Hh Lo it Hit ord Hord clock sch li rules fuel here nohooks ex cycles w Hr Hp Hon Hhk [e] [t] Hes fuel g [i] Eg rounds st tt r Er
      pcmp cf F Ho HF Hm Hs (order (r_eg r)) (Htr _) fuel cs Ecs J Ha _ Hth HJ Es t u _ H8 Hu). constructor. }
  split; [exact Hc|]. intros Hun u Hu. apply Hc. exact (proj1 (derivable_rewrites rules _ (fun _ _ Hf => Hf) Hun t u Hu)).
Qed.
End correct.

(** Totality. *)
Context (Rd : D -> D -> Prop) (Hc : merge_climbs A Rd) (sch : nat -> scheduler Op D St) (J : St -> Prop) (Hd : dependable L A it cycles ord ex sch J).
Context (Hu : Forall (usable ord ex) rules).
Lemma simplify_total e t st : dag e -> ExprTree e t -> J st ->
  exists N r v best, ended clock li nohooks r /\
    forall fuel w rounds, N <= fuel -> N <= w -> 1 `max` li_iter li <= rounds ->
      simplify L A clock (sch w) li rules here pcmp cf order ex fuel rounds st e = Ok (Some (r, v, best)).
Proof using All.
  intros Hde He HJ. assert (Hne : e <> []). { intros ->. unfold ExprTree in He. cbn in He. by inversion He. }
  destruct (with_total L A Hh ex e Hde Hne) as (g & i & Eg).
  assert (Hes : Forall2 ExprTree [e] [t]) by (constructor; [exact He|constructor]).
  assert (Eg1 : with_exprs L A 1 [e] (eg_new ex, []) = Ok (g, [i])) by (cbn [with_exprs]; by rewrite (Eg 1 (le_n _))).
  destruct (front_start L A Hh ex [e] [t] Hes 1 g [i] Eg1) as (R & _ & _).
  destruct (run_total L A Hh Rd Hc Lo it Hit cycles ord Hord ex clock sch J Hd li rules here nohooks g Hu (Forall_nil_2 _) [i] st tt R HJ) as (N & r & He1 & Er).
  assert (Hr : Forall (rule_built ord) rules) by (eapply Forall_impl; [exact Hu|]; by intros rw []).
  destruct (front_roots L A Hh ord clock (sch N) li rules N here nohooks ex Hr (Forall_nil_2 _) [e] [t] Hes 1 g [i] Eg1 (1 `max` li_iter li) st tt r
    (Er N N _ (le_n _) (le_n _) (le_n _))) as (Eroots & R' & Fr).
  destruct (extract_terminates L A ex pcmp cf Ho (r_eg r) (order (r_eg r)) (reachable_np_reachable _ _ _ _ R') (np_inhabited _ _ _ _ R') (Htr _) F HF Hm Hs) as [cs Ecs].
  rewrite Eroots in Fr. apply Forall2_cons in Fr as [Hrep _].
  destruct (extract_total L A ex pcmp cf Ho (r_eg r) (order (r_eg r)) (reachable_np_reachable _ _ _ _ R') (np_inhabited _ _ _ _ R') (Htr _) _ cs i Hs Ecs) as
    (v & best & s & k & Hb & _); [by exists t|].
  exists (N + k + S (length (order (r_eg r)))), r, v, best. split; [exact He1|]. intros fuel w rounds Hf Hw Hrd.
  unfold simplify. rewrite (Eg fuel) by lia. cbn [mbind res_bind]. rewrite (Er fuel w rounds) by lia. cbn [mbind res_bind].
  rewrite Eroots. cbn [lookup list_lookup expect mbind res_bind]. unfold extractor_new in *. assert (Hle : S (length (order (r_eg r))) <= fuel) by lia. eapply find_costs_mono in Ecs; [|exact Hle]. rewrite Ecs. cbn [mbind res_bind].
  rewrite (Hb fuel) by lia. reflexivity.
Qed.
End main.

Section roots.
Context {Op D : Type} `{Countable Op} (L : lang Op) (A : analysis Op D) (Hh : hook_free A) (Lo : lang_ok L).
Context (it : gset nat -> list nat) (Hit : enumerates it) (ord : gmap (nat * nat) (node Op) -> list (nat * nat)) (Hord : enumerates_keys ord).
Context (clock : nat -> nat) {St : Type} (sch : scheduler Op D St) (li : limits) (rules : list (rewrite Op D)) (fuel here : nat).
Notation nohooks := ([] : list (hook Op D unit)).
Context (ex : bool) (cycles : bool) (w : nat).
Context (Hr : Forall (rule_built ord) rules) (Hp : Forall pattern_rule rules) (Hon : honest L it cycles w sch).
Context (es : list (list (node Op))) (ts : list (term Op)) (Hes : Forall2 ExprTree es ts) (fuel0 : nat) (g : egraph Op D) (roots : list nat).
Context (Eg : with_exprs L A fuel0 es (eg_new ex, []) = Ok (g, roots)).
Context (rounds : nat) (st : St) (r : runner Op D St unit).
Context (Er : run L A clock sch li rules fuel here nohooks rounds roots g st tt = Ok (Some r)).
Context (J : St -> Prop) (Ha : Forall (fun rw => standard_applier (rw_applier rw)) rules) (Hth : thorough L it true w li sch J) (HJ : J st) (Es : r_stop r = Some Saturated).
Lemma roots_decide j k t u a b : undoable rules -> ts !! j = Some t -> ts !! k = Some u -> r_roots r !! j = Some a -> r_roots r !! k = Some b ->
  (eg_find (r_eg r) a = eg_find (r_eg r) b <-> derivable rules (fun _ _ => False) t u).
Proof using All.
  exact (front_decides L A Hh Lo it Hit ord Hord clock sch li rules fuel here nohooks ex cycles w Hr Hp Hon (Forall_nil_2 _) es ts Hes fuel0 g roots Eg rounds st tt r Er
    J Ha (Forall_nil_2 _) Hth HJ Es j k t u a b).
Qed.
End roots.
