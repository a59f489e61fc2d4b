(** An expression, rules and names used by the examples in PropertiesSimplify.v. *)
From Coq Require Import NArith Ascii String.
From Verif Require Import Base UnionFind EGraphModel EGraphPres Spec EGraphReach Terms RecExprModel RecExprProofs
  ExprModel PatSpec ExprProofs MachineModel MatchSpec RewriteModel AlgSpec RuleSpec RuleProps RunnerModel RunnerSpec BackoffSpec BackoffProofs
  ExtractModel ExtractSpec OptimumSpec DeriveSpec TotalSpec TextModel TextSpec TextProofs SimplifySpec SimplifyModel
  Examples ExamplesExpr ExamplesMatch ExamplesRewrite ExamplesRun ExamplesExtract ExamplesOptimum ExamplesDerive ExamplesTotal ExamplesText ExamplesPrint.

(** g(f(g(f(x,y)),y)) *)
Definition smp_e : list (node nat) := [Node 0 []; Node 1 []; Node 5 [0; 1]; Node 6 [2]; Node 5 [3; 1]; Node 6 [4]].
Definition smp_t : term nat := gt (ft (gt (ft xt yt)) yt).
Definition smp : res (option (runner nat unit unit unit * usize 8 * list (node nat))) :=
  simplify natlang unitan (fun k => k) simple8 li0 rules1 9 usize_pcmp (@ast_size nat 8) keys false 20 6 () smp_e.
Definition smp_best : list (node nat) := [Node 1 []; Node 0 []; Node 5 [1; 0]; Node 5 [0; 2]].
Definition smp_parts {R} (m : res (option (R * usize 8 * list (node nat)))) : option (R * list (node nat)) :=
  match m with Ok (Some (r, _, best)) => Some (r, best) | _ => None end.
Definition smp_r : runner nat unit unit unit := default (idle_runner ()) (fst <$> smp_parts smp).
Lemma smp_parts_eq {R} (d : R) (q : R -> bool) m b : match smp_parts m with Some (r, e) => q r && bool_decide (e = b) | None => false end = true ->
  exists v, m = Ok (Some (default d (fst <$> smp_parts m), v, b)) /\ q (default d (fst <$> smp_parts m)) = true.
Proof.
  destruct m as [[[[r v] e]|]| |]; cbn; try done. intros [Hq He]%andb_true_iff. exists v. split; [|exact Hq]. apply bool_decide_eq_true_1 in He. by rewrite He.
Qed.
Definition saturatedb (r : runner nat unit unit unit) : bool := match r_stop r with Some Saturated => true | _ => false end.
Lemma saturatedb_ok r : saturatedb r = true -> r_stop r = Some Saturated.
Proof. unfold saturatedb. by destruct (r_stop r) as [[]|]. Qed.
Lemma smp_eq : exists v, smp = Ok (Some (smp_r, v, smp_best)) /\ r_stop smp_r = Some Saturated.
Proof.
  destruct (smp_parts_eq (idle_runner ()) saturatedb smp smp_best) as (v & E1 & E2); [vm_compute; reflexivity|].
  exists v. split; [exact E1|]. exact (saturatedb_ok _ E2).
Qed.
Lemma smp_dag : dag smp_e.
Proof. apply rx_is_dag_dag. reflexivity. Qed.
Lemma smp_tree : ExprTree smp_e smp_t.
Proof. et. Qed.
Lemma uncond_usable ex : usable ord0 ex uncond.
Proof.
  split.
  - pose proof rules1_built as Hb. unfold rules1 in Hb. apply Forall_cons in Hb as [_ Hb]. apply Forall_cons in Hb as [_ Hb]. apply Forall_cons in Hb as [Hb _]. exact Hb.
  - exact pat_f01_good.
  - vm_compute. reflexivity.
  - intros _ m p Hm. discriminate Hm.
Qed.
Lemma rules1_usable ex : Forall (usable ord0 ex) rules1.
Proof. constructor; [apply comm_usable|constructor; [apply cond_usable|constructor; [apply uncond_usable|constructor]]]. Qed.

(** The signature: x and y, f with two children, g with one. *)
Definition smp_sig (f n : nat) : Prop := (f, n) ∈ [(0, 0); (1, 0); (5, 2); (6, 1)].
Definition in_sig (f n : nat) : bool := bool_decide ((f, n) ∈ [(0, 0); (1, 0); (5, 2); (6, 1)]).
Definition pat_in_sig (p : list (node (pop nat))) : bool := forallb (fun n => match nop n with POp f => in_sig f (length (nch n)) | PVar _ => true end) p.
Lemma pat_in_sig_ok p : pat_in_sig p = true -> pattern_over smp_sig p.
Proof.
  intros E f cs Hin. unfold pat_in_sig in E. rewrite forallb_forall in E. apply elem_of_list_In in Hin. apply E in Hin. cbn [nop nch] in Hin. by apply bool_decide_eq_true_1 in Hin.
Qed.
Lemma spat_over p : pat_in_sig (pt_ast (compiled p)) = true -> forall q, @SPattern nat (compiled p) = SPattern q -> pattern_over smp_sig (pt_ast q).
Proof. intros E q [= <-]. by apply pat_in_sig_ok. Qed.
Lemma rules1_over : Forall (rule_over smp_sig) rules1.
Proof.
  constructor; [|constructor; [|constructor; [|constructor]]].
  - split; [apply spat_over; vm_compute; reflexivity|]. apply pat_in_sig_ok. vm_compute. reflexivity.
  - split; [apply spat_over; vm_compute; reflexivity|]. split; [apply pat_in_sig_ok; vm_compute; reflexivity|].
    split; apply pat_in_sig_ok; vm_compute; reflexivity.
  - split; [apply spat_over; vm_compute; reflexivity|]. apply pat_in_sig_ok. vm_compute. reflexivity.
Qed.
Lemma smp_e_over : forall n, n ∈ smp_e -> smp_sig (nop n) (length (nch n)).
Proof.
  intros n Hn. assert (Hb : forallb (fun n => in_sig (nop n) (length (nch n))) smp_e = true) by reflexivity. rewrite forallb_forall in Hb.
  apply elem_of_list_In in Hn. apply Hb in Hn. by apply bool_decide_eq_true_1 in Hn.
Qed.

(** Names. *)
Definition sdisp (f : nat) : text := match f with 0 => txt "x" | 1 => txt "y" | 5 => txt "f" | 6 => txt "g" | _ => [] end%string.
Definition sfrom (a : text) (cs : list nat) : option (node nat) :=
  if bool_decide (a = txt "x"%string) && (length cs =? 0) then Some (Node 0 cs)
  else if bool_decide (a = txt "y"%string) && (length cs =? 0) then Some (Node 1 cs)
  else if bool_decide (a = txt "f"%string) && (length cs =? 2) then Some (Node 5 cs)
  else if bool_decide (a = txt "g"%string) && (length cs =? 1) then Some (Node 6 cs)
  else None.
Lemma sfrom_len a cs cs' f : length cs = length cs' -> sfrom a cs = Some (Node f cs) -> sfrom a cs' = Some (Node f cs').
Proof. unfold sfrom. intros ->. repeat match goal with |- context [if ?b then _ else _] => destruct b end; congruence. Qed.
Lemma sig_nameable f n : smp_sig f n -> nameable sdisp sfrom f n.
Proof.
  intros Hs. unfold smp_sig in Hs. rewrite !elem_of_cons, elem_of_nil in Hs.
  destruct Hs as [[= -> ->]|[[= -> ->]|[[= -> ->]|[[= -> ->]|[]]]]]; (split; [left; apply plainb_bare; reflexivity|]); intros cs Hl; unfold sfrom; rewrite Hl; reflexivity.
Qed.
Lemma pattern_over_mono (S S' : nat -> nat -> Prop) p : (forall f n, S f n -> S' f n) -> pattern_over S p -> pattern_over S' p.
Proof. intros HS Hp f cs Hin. by apply HS, Hp. Qed.
Lemma rule_over_mono (S S' : nat -> nat -> Prop) (rw : rewrite nat unit) : (forall f n, S f n -> S' f n) -> rule_over S rw -> rule_over S' rw.
Proof.
  intros HS [H1 H2]. split; [intros p Hp; eapply pattern_over_mono; [exact HS|by apply H1]|]. clear H1. induction (rw_applier rw) as [p|asts|[p1 p2|? ? ?] a IH|]; cbn [applier_over] in *.
  - by eapply pattern_over_mono.
  - intros v p Hin. eapply pattern_over_mono; [exact HS|by eapply H2].
  - destruct H2 as (A1 & A2 & A3). split; [by eapply pattern_over_mono|]. split; [by eapply pattern_over_mono|by apply IH].
  - done.
  - done.
Qed.
Lemma rules1_nameable : Forall (rule_over (nameable sdisp sfrom)) rules1.
Proof. eapply Forall_impl; [exact rules1_over|]. intros rw. apply rule_over_mono. exact sig_nameable. Qed.
Lemma smp_nameable : term_over (nameable sdisp sfrom) smp_t.
Proof.
  assert (HH : forall f ts, in_sig f (length ts) = true -> Forall (term_over (nameable sdisp sfrom)) ts -> term_over (nameable sdisp sfrom) (TNode f ts)).
  { intros f ts Hf Hts. constructor; [|exact Hts]. apply sig_nameable. by apply bool_decide_eq_true_1 in Hf. }
  unfold smp_t, gt, ft, xt, yt. repeat first [apply Forall_cons_2 | apply Forall_nil_2 | apply HH; [reflexivity|]].
Qed.
Definition smp_sx : sexp :=
  SList [SStr (txt "g"); SList [SStr (txt "f"); SList [SStr (txt "g"); SList [SStr (txt "f"); SStr (txt "x"); SStr (txt "y")]]; SStr (txt "y")]]%string.
Definition smp_text : text := txt "(g (f (g (f x y)) y))"%string.
Lemma smp_written : Written smp_sx smp_text.
Proof.
  change smp_text with (print_sexp smp_sx). apply print_written. unfold smp_sx.
  repeat first [apply Forall_cons_2 | apply Forall_nil_2 | constructor; [done|] | constructor; left; apply plainb_bare; reflexivity].
Qed.
Lemma smp_names : Names sfrom smp_sx smp_t.
Proof.
  unfold smp_sx, smp_t, gt, ft, xt, yt.
  assert (Hx : Names sfrom (SStr (txt "x"%string)) (TNode 0 [])) by (constructor; reflexivity).
  assert (Hy : Names sfrom (SStr (txt "y"%string)) (TNode 1 [])) by (constructor; reflexivity).
  assert (Hf : forall s1 s2 t1 t2, Names sfrom s1 t1 -> Names sfrom s2 t2 -> Names sfrom (SList [SStr (txt "f"%string); s1; s2]) (TNode 5 [t1; t2])).
  { intros s1 s2 t1 t2 H1 H2. apply (Names_list _ _ _ 5 [0; 0]); [reflexivity|reflexivity|]. by repeat constructor. }
  assert (Hg : forall s t, Names sfrom s t -> Names sfrom (SList [SStr (txt "g"%string); s]) (TNode 6 [t])).
  { intros s t H1. apply (Names_list _ _ _ 6 [0]); [reflexivity|reflexivity|]. by repeat constructor. }
  auto.
Qed.
Definition smp_out : text := txt "(f y (f x y))"%string.
Lemma smp_text_eq :
  simplify_text natlang unitan (fun k => k) simple8 li0 rules1 9 usize_pcmp (@ast_size nat 8) keys sdisp sfrom nocycle false 40 6 () ([c_space] ++ smp_text ++ [c_space]) =
  Ok (Some smp_out).
Proof. vm_compute. reflexivity. Qed.

(** f(x,y), g(f(y,x)) and x *)
Definition smp_es : list (list (node nat)) := [[Node 0 []; Node 1 []; Node 5 [0; 1]]; [Node 0 []; Node 1 []; Node 5 [1; 0]; Node 6 [2]]; [Node 0 []]].
Definition smp_ts : list (term nat) := [ft xt yt; gt (ft yt xt); xt].
Lemma smp_es_trees : Forall2 ExprTree smp_es smp_ts.
Proof. constructor; [et|constructor; [et|constructor; [et|constructor]]]. Qed.
Definition smp_start : egraph nat unit := fst_ok (eg_new false) [2; 4; 0] (with_exprs natlang unitan 5 smp_es (eg_new false, [])).
Lemma smp_start_eq : with_exprs natlang unitan 5 smp_es (eg_new false, []) = Ok (smp_start, [2; 4; 0]).
Proof. apply fst_ok_eq. vm_compute. reflexivity. Qed.
Definition smp_run : res (option (runner nat unit unit unit)) := run natlang unitan (fun k => k) simple8 li0 rules1 20 9 [] 6 [2; 4; 0] smp_start () ().
Lemma smp_run_eq : smp_run = Ok (Some (run_of (idle_runner ()) smp_run)).
Proof. apply run_of_eq. vm_compute. reflexivity. Qed.
Lemma smp_roots : exists g r, Forall2 ExprTree smp_es smp_ts /\ with_exprs natlang unitan 5 smp_es (eg_new false, []) = Ok (g, [2; 4; 0]) /\
  run natlang unitan (fun k => k) simple8 li0 rules1 20 9 ([] : list (hook nat unit unit)) 6 [2; 4; 0] g () () = Ok (Some r) /\ r_stop r = Some Saturated /\
  eg_find (r_eg r) 2 = eg_find (r_eg r) 4 /\ eg_find (r_eg r) 2 <> eg_find (r_eg r) 0.
Proof.
  exists smp_start, (run_of (idle_runner ()) smp_run). split; [exact smp_es_trees|]. split; [exact smp_start_eq|]. split; [exact smp_run_eq|].
  split; [vm_compute; reflexivity|]. split; [vm_compute; reflexivity|vm_compute; discriminate].
Qed.
