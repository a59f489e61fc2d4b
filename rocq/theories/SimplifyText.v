(** The simplifier invents no operators; from text to text. *)
From Verif Require Import Base UnionFind EGraphModel EGraphSteps EGraphInv EGraphPres EGraphRuns Spec EGraphReach EGraphSafe EGraphNoPanic Terms RecExprModel RecExprProofs
  ExprModel PatSpec ExprProofs MachineModel MatchSpec MatchProps RewriteModel AlgSpec RuleSpec RuleProps RunnerModel RunnerSpec RunnerProofs RunnerLimits RunnerSound
  ExtractModel ExtractSpec ExtractProofs ExtractMain CheckSpec OptimumSpec OptimumProofs OptimumRun DeriveSpec DeriveProofs DeriveRun
  TotalSpec TotalProofs TotalOps RunTotal CompileProofs TextModel TextSpec TextProofs TextMain SimplifySpec SimplifyModel SimplifyProofs SimplifyMain SimplifyOps.

Section nodes.
Context {Op : Type} `{Countable Op} (S : Op -> nat -> Prop).
Lemma over_names disp from_op (t : term Op) : term_over (nameable disp from_op) t -> names_ok printable disp from_op t.
Proof.
  induction t as [f ts IH] using term_sind. inversion 1 as [? ? [Hp Hf] Hts]; subst. constructor; [exact Hp|exact Hf|].
  rewrite Forall_forall in IH, Hts |- *. intros u Hu. apply IH; [exact Hu|by apply Hts].
Qed.
End nodes.

Section parse.
Context {Op : Type} `{Countable Op} (S : Op -> nat -> Prop) (from_op : text -> list nat -> option (node Op)).
Context (Hlen : forall a cs cs' f, length cs = length cs' -> from_op a cs = Some (Node f cs) -> from_op a cs' = Some (Node f cs')).
Notation over e := (forall n, n ∈ e -> S (nop n) (length (nch n))).
Lemma add_op_over a f cs e ids e' i : from_op a cs = Some (Node f cs) -> length cs = length ids -> S f (length ids) -> over e ->
  add_op from_op a e ids = Ok (inr (e', i)) -> over e'.
Proof using Hlen.
  intros Hf Hl Hs Ho E. unfold add_op in E. rewrite (Hlen _ _ ids _ Hl Hf) in E. apply bind_Ok in E as ([e1 i1] & E1 & [= <- <-]).
  unfold rx_add in E1. apply bind_Ok in E1 as ([] & _ & [= <- <-]). intros n [Hn|Hn]%elem_of_app; [by apply Ho|].
  apply elem_of_list_singleton in Hn as ->. exact Hs.
Qed.
Lemma parse_over s : forall t e e' i, Names from_op s t -> term_over S t -> over e -> parse_into from_op s e = Ok (inr (e', i)) -> over e'.
Proof using Hlen.
  induction s as [a|l IH|] using sexp_ind'; intros t e e' i Hn Ht Ho E; inversion Hn as [? f Hf|? args f cs ts Hf Hl Hts]; subst; inversion Ht as [? ? Hs Hst]; subst; cbn [parse_into] in E.
  - exact (add_op_over a f [] e [] e' i Hf eq_refl Hs Ho E).
  - apply Forall_cons in IH as [_ IH].
    assert (HH : forall us vs, Forall2 (Names from_op) us vs -> Forall (term_over S) vs ->
      Forall (fun s => forall t e e' i, Names from_op s t -> term_over S t -> over e -> parse_into from_op s e = Ok (inr (e', i)) -> over e') us ->
      forall e ids e' ids', over e -> parse_args (parse_into from_op) us e ids = Ok (inr (e', ids')) -> over e' /\ length ids' = length ids + length us).
    { clear. intros us vs HN. induction HN as [|u v us vs Hu _ IHu]; intros Hv HI e ids e' ids' Ho E; cbn [parse_args] in E.
      - injection E as <- <-. split; [exact Ho|]. cbn [length]. lia.
      - apply Forall_cons in Hv as [Hv1 Hv2]. apply Forall_cons in HI as [HI1 HI2].
        apply bind_Ok in E as ([err|[e1 i1]] & E1 & E); [done|]. fold (parse_args (parse_into from_op)) in E.
        destruct (IHu Hv2 HI2 e1 (ids ++ [i1]) e' ids' (HI1 v e e1 i1 Hu Hv1 Ho E1) E) as [H1 H2]. split; [exact H1|]. rewrite H2, app_length. cbn [length]. lia. }
    apply bind_Ok in E as ([err|[e1 ids]] & E1 & E); [done|].
    destruct (HH args ts Hts Hst IH e [] e1 ids Ho E1) as [H1 H2]. cbn [length plus] in H2. apply Forall2_length in Hts.
    refine (add_op_over a f cs e1 ids e' i Hf _ _ H1 E); [congruence|]. replace (length ids) with (length ts) by congruence. exact Hs.
Qed.
Lemma parse_same b w b' sx t : blank b -> blank b' -> Written sx w -> Names from_op sx t -> term_over S t ->
  exists e, dag e /\ ExprTree e t /\ over e /\ forall fuel, length (b ++ w ++ b') < fuel -> parse_expr from_op fuel (b ++ w ++ b') = Ok (inr e).
Proof using Hlen.
  intros Hb Hb' Hw Hn Ht. destruct (parse_into_names from_op Hlen sx t Hn [] dag_nil) as (l & E2 & D2 & Hne & T2). cbn [app] in *.
  exists l. split; [exact D2|]. split; [by split|]. split.
  { eapply (parse_over sx t [] l); [exact Hn|exact Ht| |exact E2]. intros n Hin. by apply elem_of_nil in Hin. }
  intros fuel Hf. unfold parse_expr. apply written_fits in Hf.
  rewrite trim_around by (done || by eapply written_tight).
  pose proof (parse_written _ _ [] [] fuel Hw ltac:(constructor) ltac:(constructor) Hf) as E. rewrite app_nil_r in E. cbn [app] in E. rewrite E. cbn [mbind res_bind].
  rewrite E2. reflexivity.
Qed.
End parse.

Section text.
Context {Op D : Type} `{Countable Op} (L : lang Op) (A : analysis Op D) (Hh : hook_free A) (Lo : lang_ok L).
Context (it : gset nat -> list nat) (Hit : enumerates it) (ord : gmap (nat * nat) (node Op) -> list (nat * nat)) (Hord : enumerates_keys ord).
Context (clock : nat -> nat) {St : Type} (li : limits) (rules : list (rewrite Op D)) (here : nat) (ex : bool) (cycles : bool).
Context {C : Type} (pcmp : C -> C -> option comparison) (cf : node Op -> list C -> C) (F : Op -> list C -> C) (Ho : orders pcmp).
Context (HF : by_operator cf F) (Hm : monotone pcmp cf) (Hs : superior pcmp cf).
Context (order : egraph Op D -> list nat) (Htr : forall g, traverses g (order g)).
Notation eq := (derivable rules (fun _ _ => False)).
Notation nohooks := ([] : list (hook Op D unit)).
Context (S : Op -> nat -> Prop) (Ho2 : Forall (rule_over S) rules).

Lemma simplify_over (sch : scheduler Op D St) (Hr : Forall (rule_built ord) rules) e t fuel rounds st r v best :
  ExprTree e t -> (forall n, n ∈ e -> S (nop n) (length (nch n))) ->
  simplify L A clock sch li rules here pcmp cf order ex fuel rounds st e = Ok (Some (r, v, best)) ->
  exists s, ExprTree best s /\ term_over S s.
Proof using Hh Ho Hs Htr Ho2.
  intros He Hn E. destruct (simplify_parts L A clock li rules here ex pcmp cf order sch e fuel rounds st r v best E) as (g & i & cs & Eg & Er & Ecs & root & Ero & Eb).
  assert (Hes : Forall2 ExprTree [e] [t]) by (constructor; [exact He|constructor]).
  destruct (front_roots L A Hh ord clock sch li rules fuel here nohooks ex Hr (Forall_nil_2 _) [e] [t] Hes fuel g [i] Eg rounds st tt r Er) as (Eroots & R' & Fr).
  rewrite Eroots in Fr, Ero. cbn in Ero. injection Ero as <-. apply Forall2_cons in Fr as [Hrep _].
  destruct (extract_total L A ex pcmp cf Ho (r_eg r) (order (r_eg r)) (reachable_np_reachable _ _ _ _ R') (np_inhabited _ _ _ _ R') (Htr _) _ cs i Hs Ecs) as
    (v' & e' & s & k & Hb & H1 & H2 & H3 & H4); [by exists t|].
  pose proof (Hb (fuel `max` k) ltac:(lia)) as Hb'. rewrite (find_best_mono _ _ _ _ (fuel `max` k) _ Eb) in Hb' by lia. injection Hb' as <- <-.
  exists s. split; [exact H3|]. refine (uses_term L A S ex (r_eg r) s _ R' _ H4).
  refine (run_uses L A Hh S ex fuel here clock sch li rules Ho2 rounds [i] g st tt r _ Er).
  cbn [with_exprs] in Eg. apply bind_Ok in Eg as ([g1 rs] & Eg & [= -> ->]). unfold with_expr in Eg. cbn [fst snd] in Eg.
  apply bind_Ok in Eg as ([g2 j] & Eg & [= <- _]). unfold add_expr in Eg. apply bind_Ok in Eg as ([g3 k1] & Eg & [= -> _]).
  unfold add_expr_uncanonical in Eg. apply bind_Ok in Eg as ([g4 ids] & Eg & E2). apply bind_Ok in E2 as (k2 & _ & [= -> _]). exact (expr_uses L A Hh S ex fuel e [] _ _ _ (new_uses L A S ex) Hn Eg).
Qed.
End text.

Section main.
Context {Op D : Type} `{Countable Op} (L : lang Op) (A : analysis Op D) (Hh : hook_free A) (Lo : lang_ok L).
Context (it : gset nat -> list nat) (Hit : enumerates it) (ord : gmap (nat * nat) (node Op) -> list (nat * nat)) (Hord : enumerates_keys ord).
Context (clock : nat -> nat) {St : Type} (li : limits) (rules : list (rewrite Op D)) (here : nat) (ex : bool) (cycles : bool).
Context {C : Type} (pcmp : C -> C -> option comparison) (cf : node Op -> list C -> C) (F : Op -> list C -> C) (Ho : orders pcmp).
Context (HF : by_operator cf F) (Hm : monotone pcmp cf) (Hs : superior pcmp cf).
Context (order : egraph Op D -> list nat) (Htr : forall g, traverses g (order g)).
Context (Rd : D -> D -> Prop) (Hc : merge_climbs A Rd) (sch : nat -> scheduler Op D St) (J : St -> Prop) (Hd : dependable L A it cycles ord ex sch J).
Context (Hu : Forall (usable ord ex) rules) (Hp : Forall pattern_rule rules) (Hon : forall w, honest L it cycles w (sch w)).
Context (disp : Op -> text) (from_op : text -> list nat -> option (node Op)) (cycle : nat -> node Op -> list N).
Context (Hlen : forall a cs cs' f, length cs = length cs' -> from_op a cs = Some (Node f cs) -> from_op a cs' = Some (Node f cs')).
Context (Hov : Forall (rule_over (nameable disp from_op)) rules).

Lemma simplify_text_total b w0 b' sx t st : blank b -> blank b' -> Written sx w0 -> Names from_op sx t -> term_over (nameable disp from_op) t -> J st ->
  exists N out s, (forall fuel w rounds, N <= fuel -> N <= w -> 1 `max` li_iter li <= rounds ->
      simplify_text L A clock (sch w) li rules here pcmp cf order disp from_op cycle ex fuel rounds st (b ++ w0 ++ b') = Ok (Some out)) /\
    derivable rules (fun _ _ => False) t s /\ cle pcmp (geval F s) (geval F t) /\ term_over (nameable disp from_op) s /\
    forall fuel, length out < fuel -> exists e, parse_expr from_op fuel out = Ok (inr e) /\ dag e /\ ExprTree e s.
Proof using All.
  intros Hb Hb' Hw Hn Ht HJ. destruct (parse_same (nameable disp from_op) from_op Hlen b w0 b' sx t Hb Hb' Hw Hn Ht) as (e & De & Te & Oe & Ee).
  destruct (simplify_total L A Hh Lo it Hit ord Hord clock li rules here ex cycles pcmp cf F Ho HF Hm Hs order Htr Rd Hc sch J Hd Hu e t st De Te HJ) as (N & r & v & best & _ & Er).
  assert (Hr : Forall (rule_built ord) rules) by (eapply Forall_impl; [exact Hu|]; by intros rw []).
  pose proof (Er N N _ (le_n _) (le_n _) (le_n _)) as E.
  destruct (simplify_correct L A Hh Lo it Hit ord Hord clock li rules here ex cycles pcmp cf F Ho HF Hm Hs order Htr (sch N) N Hr Hp (Hon N) e t Te N _ st r v best E) as (s & Db & Tb & Hts & Hv & Hle & _).
  destruct (simplify_over L A Hh ord clock li rules here ex pcmp cf Ho Hs order Htr (nameable disp from_op) Hov (sch N) Hr e t N _ st r v best Te Oe E) as (s' & Tb' & Os).
  rewrite (ExprTree_fun _ _ _ Tb' Tb) in Os.
  destruct (print_roundtrip disp from_op cycle best s Db Tb (over_names disp from_op s Os)) as (out & Eo & Eb).
  exists (N + Datatypes.S (length (b ++ w0 ++ b'))), out, s. split.
  { intros fuel w rounds H1 H2 H3. unfold simplify_text. rewrite (Ee fuel) by lia. cbn [mbind res_bind]. rewrite (Er fuel w rounds) by lia. cbn [mbind res_bind]. rewrite Eo. reflexivity. }
  split; [exact Hts|]. split; [exact (or_trans _ Ho _ _ _ (or_intror Hv) Hle)|]. split; [exact Os|].
  intros fuel Hf. pose proof (Eb [] [] fuel ltac:(constructor) ltac:(constructor) Hf) as Hq. rewrite app_nil_r in Hq. exact Hq.
Qed.
End main.
