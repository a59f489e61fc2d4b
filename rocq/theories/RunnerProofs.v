(** The runner: phases of an iteration, and what every run preserves. *)
From Verif Require Import Base UnionFind EGraphModel EGraphSteps EGraphInv EGraphPres EGraphRuns Spec EGraphMain EGraphReach EGraphOps EGraphSafe
  EGraphNoPanic Terms RecExprModel RecExprProofs ExprModel PatSpec ExprProofs ExprSafe MachineModel MatchSpec MatchProofs MachineProofs CompileProofs
  CompileMain SearchProofs SearchMain MultiProofs MatchMain MatchProps RewriteModel RewriteProofs AlgSpec AlgProofs AlgRules RewriteMain RuleSpec
  Completion RuleSafe RuleProps CondProps RunnerModel RunnerSpec.

Section runner.
Context {Op D : Type} `{Countable Op} (L : lang Op) (A : analysis Op D).
Notation egraph := (egraph Op D).
Notation prog := (prog Op D).
Notation rewrite := (rewrite Op D).
Implicit Types (g : egraph).

Context (clock : nat -> nat) {St Cl : Type} (sch : scheduler Op D St) (li : limits) (rules : list rewrite) (fuel here : nat).
Context (hooks : list (hook Op D Cl)).
Notation run_hooks := (run_hooks L A fuel).
Notation search_rewrites := (search_rewrites clock sch li).
Notation apply_rewrites := (apply_rewrites L A clock li fuel here).
Notation run_one := (run_one L A clock sch li rules fuel here hooks).
Notation run_loop := (run_loop L A clock sch li rules fuel here hooks).
Notation run := (run L A clock sch li rules fuel here hooks).
Notation runner := (runner Op D St Cl).
Notation check := (check_limits clock li).
Implicit Types (r : runner).

(** * Phases *)
Record phases (r r' : runner) (itn : iteration) : Type := {
  ph_g1 : egraph; ph_cl : Cl; ph_s1 : option stop;
  ph_mss : list (list smatch); ph_st2 : St; ph_t2 : nat; ph_s2 : option stop;
  ph_g3 : egraph; ph_ap : list (nat * nat); ph_t3 : nat; ph_s3 : option stop;
  ph_g4 : egraph; ph_n : nat; ph_can : bool; ph_st3 : St;
  ph_fresh : r_stop r = None;
  ph_hooks : match check (length (r_iters r)) (r_tick r) (r_eg r) with
             | Some s => ph_g1 = r_eg r /\ ph_cl = r_cl r /\ ph_s1 = Some s
             | None => run_hooks hooks (length (r_iters r)) (r_cl r) (r_eg r) = Ok (ph_g1, ph_cl, ph_s1)
             end;
  ph_search : match ph_s1 with
              | Some s => ph_mss = [] /\ ph_st2 = r_st r /\ ph_t2 = S (r_tick r) /\ ph_s2 = Some s
              | None => search_rewrites rules (length (r_iters r)) (S (r_tick r)) (r_st r) ph_g1 = Ok (ph_mss, ph_st2, ph_t2, ph_s2)
              end;
  ph_apply : match ph_s2 with
             | Some s => ph_g3 = ph_g1 /\ ph_ap = [] /\ ph_t3 = ph_t2 /\ ph_s3 = Some s
             | None => apply_rewrites (zip rules ph_mss) (length (r_iters r)) ph_t2 [] ph_g1 = Ok (ph_g3, ph_ap, ph_t3, ph_s3)
             end;
  ph_rebuild : rebuild L A fuel (modify_n L A fuel) ph_g3 = Ok (ph_g4, ph_n);
  ph_stop : match ph_ap with
            | [] => sc_can_stop _ sch (length (r_iters r)) ph_st2 = Ok (ph_can, ph_st3)
            | _ => ph_can = false /\ ph_st3 = ph_st2
            end;
  ph_r' : r' = Runner ph_g4 (r_iters r) (r_roots r) (r_stop r) ph_st3 ph_cl ph_t3;
  ph_it : itn = Iteration (total_size (r_eg r)) (number_of_classes (r_eg r)) ph_ap ph_n
    (match ph_s3 with
     | Some s => Some s
     | None => if ph_can && (total_size (r_eg r) =? total_size ph_g1) && (number_of_classes (r_eg r) =? number_of_classes ph_g1)
                 && (total_size (r_eg r) =? total_size ph_g4) && (number_of_classes (r_eg r) =? number_of_classes ph_g4)
               then Some Saturated else None
     end);
}.
Lemma run_one_phases r r' itn : run_one r = Ok (r', itn) -> phases r r' itn.
Proof.
  unfold RunnerModel.run_one. destruct (r_stop r) eqn:Es; [done|]. cbn [assert mbind res_bind].
  destruct (match check _ _ _ with Some _ => _ | None => _ end) as [[[g1 cl] s1]| |] eqn:E1; [|done|done]. cbn [mbind res_bind].
  destruct (match s1 with Some _ => _ | None => _ end) as [[[[mss st2] t2] s2]| |] eqn:E2; [|done|done]. cbn [mbind res_bind].
  destruct (match s2 with Some _ => _ | None => _ end) as [[[[g3 ap] t3] s3]| |] eqn:E3; [|done|done]. cbn [mbind res_bind].
  destruct (rebuild _ _ _ _ g3) as [[g4 n]| |] eqn:E4; [|done|done]. cbn [mbind res_bind].
  destruct (match ap with [] => _ | _ => _ end) as [[can st3]| |] eqn:E5; [|done|done]. cbn [mbind res_bind].
  intros [= <- <-]. eapply (Build_phases r _ _ g1 cl s1 mss st2 t2 s2 g3 ap t3 s3 g4 n can st3); auto.
  - destruct (check _ _ _); [by injection E1 as <- <- <-|done].
  - destruct s1; [by injection E2 as <- <- <- <-|done].
  - destruct s2; [by injection E3 as <- <- <- <-|done].
  - destruct ap; [done|by injection E5 as <- <-].
  - by rewrite Es.
Qed.

(** * Transitions between e-graphs *)
(** [P] e-graphs, [T g g'] a step or several. *)
Section trans.
Context (P : egraph -> Prop) (T : egraph -> egraph -> Prop).
Context (T_refl : forall g, P g -> T g g) (T_trans : forall g1 g2 g3, T g1 g2 -> T g2 g3 -> T g1 g3) (T_P : forall g g', P g -> T g g' -> P g').
Context (T_hook : forall h cl i g g', h ∈ hooks -> P g -> run_prog L A fuel (modify_n L A fuel) (hk_body h cl i) g = Ok g' -> T g g').
Context (T_rebuild : forall g g' n, P g -> rebuild L A fuel (modify_n L A fuel) g = Ok (g', n) -> T g g').
Context (T_apply : forall i g rw st ms st' g1 g2 ids, rw ∈ rules -> P g -> sc_search _ sch i g rw st = Ok (ms, st') -> T g g1 ->
  rewrite_apply L A fuel here rw ms g1 = Ok (g2, ids) -> T g1 g2).

Lemma hooks_T hs i cl g g' cl' s : (forall h, h ∈ hs -> h ∈ hooks) -> P g -> run_hooks hs i cl g = Ok (g', cl', s) -> T g g'.
Proof.
  revert cl g. induction hs as [|h hs IH]; intros cl g Hsub Pg E; cbn [RunnerModel.run_hooks] in E; [injection E as <- _ _; auto|].
  destruct (run_prog _ _ _ _ _ g) as [g1| |] eqn:E1; [|done|done]. cbn [mbind res_bind] in E.
  apply T_hook in E1; [|apply Hsub; left|done]. destruct (hk_out h cl i g1) as [cl1 [m|]].
  - by injection E as <- _ _.
  - apply IH in E; [|intros; apply Hsub; by right|by eapply T_P]. by eapply T_trans.
Qed.
(** Each list of matches was found by the scheduler, in the e-graph searched. *)
Definition found_by i g (rw : rewrite) (ms : list smatch) : Prop := exists st st', sc_search _ sch i g rw st = Ok (ms, st').
Lemma search_found rs i t st g mss st' t' s : search_rewrites rs i t st g = Ok (mss, st', t', s) ->
  Forall (fun x => found_by i g x.1 x.2) (zip rs mss) /\ (s = None -> length mss = length rs).
Proof.
  revert t st mss. induction rs as [|rw rs IH]; intros t st mss E; cbn [RunnerModel.search_rewrites] in E; [injection E as <- _ _ <-; split; [constructor|done]|].
  destruct (sc_search _ sch i g rw st) as [[ms st1]| |] eqn:E1; [|done|done]. cbn [mbind res_bind] in E.
  destruct (check i t g) as [s1|]; [injection E as <- _ _ <-; split; [constructor|done]|].
  destruct (search_rewrites rs i (S t) st1 g) as [[[[mss1 st2] t2] s2]| |] eqn:E2; [|done|done]. cbn [mbind res_bind] in E.
  injection E as <- <- <- <-. apply IH in E2 as [F2 L2]. split; [|cbn; auto].
  cbn. constructor; [by exists st, st1|done].
Qed.
Lemma apply_T i g g1 rms t ap g2 ap' t' s : P g -> T g g1 -> (forall rw ms, (rw, ms) ∈ rms -> rw ∈ rules /\ found_by i g rw ms) ->
  apply_rewrites rms i t ap g1 = Ok (g2, ap', t', s) -> T g1 g2.
Proof.
  intros Pg. revert g1 t ap. induction rms as [|[rw ms] rms IH]; intros g1 t ap T1 Hf E; cbn [RunnerModel.apply_rewrites] in E.
  - injection E as <- _ _ _. apply T_refl. by eapply T_P.
  - destruct (rewrite_apply _ _ _ _ rw ms g1) as [[g3 ids]| |] eqn:E1; [|done|done]. cbn [mbind res_bind] in E.
    destruct (Hf rw ms) as [Hrw (st & st' & Hs)]; [left|].
    assert (T3 : T g1 g3) by eauto.
    destruct (check i t g3); [by injection E as <- _ _ _|].
    apply IH in E; [by eapply T_trans|by eapply T_trans|]. intros rw' ms' Hin. apply Hf. by right.
Qed.
Lemma phases_T r r' itn (ph : phases r r' itn) : P (r_eg r) ->
  T (r_eg r) (ph_g1 _ _ _ ph) /\ T (ph_g1 _ _ _ ph) (ph_g3 _ _ _ ph) /\ T (ph_g3 _ _ _ ph) (ph_g4 _ _ _ ph) /\ T (r_eg r) (r_eg r').
Proof.
  intros Pg. destruct ph as [g1 cl s1 mss st2 t2 s2 g3 ap t3 s3 g4 n can st3 Hf H1 H2 H3 H4 H5 -> H7]. cbn [ph_g1 ph_g3 ph_g4 r_eg].
  assert (T1 : T (r_eg r) g1).
  { destruct (check _ _ _); [destruct H1 as (-> & _); auto|]. eapply hooks_T; [|done|exact H1]. auto. }
  pose proof (T_P _ _ Pg T1) as P1.
  assert (T3 : T g1 g3).
  { destruct s2; [destruct H3 as (-> & _); auto|]. destruct s1; [by destruct H2 as (_ & _ & _ & [=])|].
    apply search_found in H2 as [F2 _]. rewrite Forall_forall in F2. eapply (apply_T _ g1 g1); [done|auto| |exact H3].
    intros rw ms Hin. split; [|by apply (F2 (rw, ms))]. by eapply elem_of_zip_l. }
  pose proof (T_P _ _ P1 T3) as P3. pose proof (T_rebuild _ _ _ P3 H4) as T4. split_and!; auto.
  eapply T_trans; [exact T1|]. by eapply T_trans.
Qed.
Lemma one_T r r' itn : P (r_eg r) -> run_one r = Ok (r', itn) -> T (r_eg r) (r_eg r').
Proof. intros Pg E%run_one_phases. by apply (phases_T _ _ _ E). Qed.
Lemma loop_T rounds r r' : P (r_eg r) -> run_loop rounds r = Ok (Some r') -> T (r_eg r) (r_eg r').
Proof.
  revert r. induction rounds as [|rounds IH]; intros r Pg E; cbn [RunnerModel.run_loop] in E; [done|].
  destruct (run_one r) as [[r1 itn]| |] eqn:E1; [|done|done]. cbn [mbind res_bind] in E. apply one_T in E1; [|done].
  destruct (it_stop itn); [by injection E as <-|]. destruct (check _ _ _); [by injection E as <-|].
  apply IH in E; [|by eapply T_P]. by eapply T_trans.
Qed.
Lemma run_T rounds roots g st cl r : P g -> run rounds roots g st cl = Ok (Some r) -> T g (r_eg r).
Proof.
  intros Pg E. unfold RunnerModel.run in E. destruct (rebuild _ _ _ _ g) as [[g1 n]| |] eqn:E1; [|done|done]. cbn [mbind res_bind] in E.
  apply T_rebuild in E1; [|done]. apply loop_T in E; [|by eapply T_P]. by eapply T_trans.
Qed.
End trans.
End runner.
