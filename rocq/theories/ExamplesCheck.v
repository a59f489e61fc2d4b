(** Rules, runs and explanations used by the examples in PropertiesCheck.v. *)
From Verif Require Import Base UnionFind EGraphModel EGraphPres Spec EGraphReach Terms RecExprModel RecExprProofs
  ExprModel PatSpec ExprProofs MachineModel MatchSpec RewriteModel AlgSpec RuleSpec RuleProps RunnerModel RunnerSpec ExplainModel ExplainSpec CheckModel CheckSpec
  CheckProofs CheckRun CheckSound Examples ExamplesExpr ExamplesMatch ExamplesRewrite ExamplesRun ExamplesExplain.

(** the run of [rules0] with explanations enabled *)
Definition chk_run : res (option (runner nat unit unit unit)) :=
  run natlang unitan (fun k => k) simple8 li0 rules0 20 9 [] 6 [5] (rw_g true) () ().
Definition chk_r : runner nat unit unit unit := run_of (idle_runner ()) chk_run.
Lemma chk_run_eq : chk_run = Ok (Some chk_r).
Proof. apply run_of_eq. vm_compute. reflexivity. Qed.
Lemma rw_g_steps (rules : list (rewrite nat unit)) : rule_steps rules (asserted (eg_log (rw_g true))).
Proof.
  assert (E : forall a b r, EUnion a b r ∉ eg_log (rw_g true)).
  { assert (K : forall h : list (event nat), forallb (fun e => match e with EUnion _ _ _ => false | _ => true end) h = true -> forall a b r, EUnion a b r ∉ h).
    { intros h Hh a b r Hin. rewrite forallb_forall in Hh. apply elem_of_list_In in Hin. by apply Hh in Hin. }
    apply K. vm_compute. reflexivity. }
  intros rw lhs rhs t u _ _ (a & b & Hin & _). by apply E in Hin.
Qed.
Lemma rw_g_reach ex : reachable natlang unitan ex (rw_g ex).
Proof. apply (session_reachable _ _ 20 _ rwp), rw_g_session. Qed.
Lemma between_lr {D} name pt (a : applier nat D) rhs' lhs rhs : right_pattern (D := D) a = Some rhs' -> between (Rewrite name (SPattern pt) a) lhs rhs -> lhs = pt_ast pt /\ rhs = rhs'.
Proof. intros E [(pt' & E1 & E2) E3]. cbn in *. rewrite E in E3. injection E3 as ->. by injection E1 as ->. Qed.
Lemma f01_ast : pt_ast (compiled pat_f01) = pat_f01.
Proof. vm_compute. reflexivity. Qed.
Lemma rules0_accepted : Forall (accepted_rule (D := unit)) rules0.
Proof.
  constructor; [|constructor; [|constructor]]; split.
  - exists 1, (SPattern (compiled pat_f01)), (APattern pat_f10). vm_compute. reflexivity.
  - intros lhs rhs [-> ->]%(between_lr 1 (compiled pat_f01) (APattern pat_f10) pat_f10 _ _ eq_refl). rewrite f01_ast. split_and!; [apply pat_f01_good|apply pat_f01_rooted|apply pat_f10_good].
  - exists 2, (SPattern (compiled pat_f01)), (ACond (CEqual pat_f01 pat_f10) (APattern pat_gf)). vm_compute. reflexivity.
  - intros lhs rhs [-> ->]%(between_lr 2 (compiled pat_f01) (ACond (CEqual pat_f01 pat_f10) (APattern pat_gf)) pat_gf _ _ eq_refl). rewrite f01_ast. split_and!; [apply pat_f01_good|apply pat_f01_rooted|apply pat_gf_good].
Qed.
Lemma rules0_one : one_per_name rules0.
Proof.
  intros rw rw' [->|[->|[]%elem_of_nil]%elem_of_cons]%elem_of_cons [->|[->|[]%elem_of_nil]%elem_of_cons]%elem_of_cons; done.
Qed.
Lemma rules0_here : not_a_rule rules0 9.
Proof. intros rw lhs rhs [->|[->|[]%elem_of_nil]%elem_of_cons]%elem_of_cons _; done. Qed.
Lemma rules0_reasons S : Forall (fun rw => applier_reasons S (rw_applier rw)) rules0.
Proof. repeat constructor. Qed.
(** g(f(y,x)), then f(y,x) by the second rule backwards, then f(x,y) by the first *)
Definition chk_flat : list (fterm nat) :=
  let x := FT (Node 0 []) None None [] in let y := FT (Node 1 []) None None [] in
  [FT (Node 6 [3]) None None [FT (Node 5 [1; 0]) None None [y; x]]; FT (Node 5 [1; 0]) (Some 2) None [y; x]; FT (Node 5 [0; 1]) None (Some 1) [x; y]].
Lemma chk_flat_eq : (p ← explain_id_equivalence 20 5 2 (r_eg chk_r); make_flat p) = Ok chk_flat.
Proof. vm_compute. reflexivity. Qed.
Lemma chk_known : known (r_eg chk_r) 5 /\ known (r_eg chk_r) 2 /\ eg_find (r_eg chk_r) 5 = eg_find (r_eg chk_r) 2.
Proof. assert (length (eg_uf (r_eg chk_r)) = 6) by (vm_compute; reflexivity). unfold known. split; [lia|]. split; [lia|]. vm_compute. reflexivity. Qed.
Lemma flat_arity : Forall (arity_ok (Op := nat)) chk_flat.
Proof. repeat constructor. Qed.
Lemma flat_named : Forall (named rules0) chk_flat.
Proof.
  assert (P : forall n ks, Forall (named rules0) ks -> named rules0 (FT n None None ks)) by (intros; constructor; [by intros r [?|?]|done]).
  assert (Kx : named rules0 (FT (Node 0 []) None None [])) by (by apply P). assert (Ky : named rules0 (FT (Node 1 []) None None [])) by (by apply P).
  pose proof (Forall_cons_2 _ _ _ Ky (Forall_cons_2 _ _ _ Kx (Forall_nil_2 _))) as Kyx.
  pose proof (Forall_cons_2 _ _ _ Kx (Forall_cons_2 _ _ _ Ky (Forall_nil_2 _))) as Kxy.
  constructor; [|constructor; [|constructor; [|constructor]]].
  - apply P. constructor; [|constructor]. apply P. exact Kyx.
  - constructor; [|exact Kyx]. intros r [[= <-]|?]; [|done]. exists cond_rule, pat_f01, pat_gf.
    split; [right; left|]. split; [done|]. split; [|done]. exists (compiled pat_f01). split; [done|apply f01_ast].
  - constructor; [|exact Kxy]. intros r [?|[= <-]]; [done|]. exists comm, pat_f01, pat_f10.
    split; [left|]. split; [done|]. split; [|done]. exists (compiled pat_f01). split; [done|apply f01_ast].
Qed.
Lemma flat_below : steps_below chk_flat.
Proof. constructor; [by constructor; left|]. constructor; [by constructor; right|]. constructor. Qed.
Lemma flat_checked : check_flat rules0 chk_flat = Ok tt.
Proof. vm_compute. reflexivity. Qed.
(** the same proof with the wrong second term, f(y,y) *)
Definition bad_flat : list (fterm nat) :=
  let x := FT (Node 0 []) None None [] in let y := FT (Node 1 []) None None [] in
  [FT (Node 5 [0; 1]) None None [x; y]; FT (Node 5 [1; 0]) None (Some 1) [y; y]].

(** ** An accepted explanation of something false *)
(** x => y *)
Definition pat_x : list (node (pop nat)) := [Node (POp 0) []].
Definition pat_y : list (node (pop nat)) := [Node (POp 1) []].
Definition xy_rule : rewrite nat unit := Rewrite 1 (SPattern (compiled pat_x)) (APattern pat_y).
Definition bogus : list (ttree nat) :=
  [TT (Node 3 [0]) None None [[TT (Node 0 []) None None []]]; TT (Node 4 [1]) None None [[TT (Node 1 []) None (Some 1) []]]].
Definition bogus_flat : list (fterm nat) :=
  [FT (Node 3 [0]) None None [FT (Node 0 []) None None []]; FT (Node 4 [1]) None None [FT (Node 1 []) None (Some 1) []]].
Lemma x_ast : pt_ast (compiled pat_x) = pat_x.
Proof. vm_compute. reflexivity. Qed.
Lemma pat_x_good : good_ast pat_x.
Proof. good. Qed.
Lemma pat_y_good : good_ast pat_y.
Proof. good. Qed.
Lemma pat_x_rooted : rooted pat_x.
Proof. intros [|i] Hi; cbn in *; lia. Qed.
Lemma xy_accepted : Forall (accepted_rule (D := unit)) [xy_rule].
Proof.
  constructor; [|constructor]. split.
  - exists 1, (SPattern (compiled pat_x)), (APattern pat_y). vm_compute. reflexivity.
  - intros lhs rhs [-> ->]%(between_lr 1 (compiled pat_x) (APattern pat_y) pat_y _ _ eq_refl). rewrite x_ast. split_and!; [apply pat_x_good|apply pat_x_rooted|apply pat_y_good].
Qed.
Lemma one_rule {D} (rw : rewrite nat D) : one_per_name [rw].
Proof. by intros a b ->%elem_of_list_singleton ->%elem_of_list_singleton. Qed.
Lemma bogus_named : Forall (named [xy_rule]) bogus_flat.
Proof.
  assert (P : forall n ks, Forall (named [xy_rule]) ks -> named [xy_rule] (FT n None None ks)) by (intros; constructor; [by intros r [?|?]|done]).
  constructor; [|constructor; [|constructor]].
  - apply P. constructor; [|done]. by apply P.
  - apply P. constructor; [|done]. constructor; [|done]. intros r [?|[= <-]]; [done|]. exists xy_rule, pat_x, pat_y.
    split; [left|]. split; [done|]. split; [|done]. exists (compiled pat_x). split; [done|apply x_ast].
Qed.
(** an algebra in which the rule holds and f(x) differs from g(y) *)
Lemma bogus_false : ~ teq (rule_eqs [xy_rule]) (TNode 3 [TNode 0 []]) (TNode 4 [TNode 1 []]).
Proof.
  intros E. apply (ExplainMain.teq_geval (fun f _ => if f =? 4 then 1 else 0)) in E; [done|].
  intros r t u (rw & lhs & rhs & ->%elem_of_list_singleton & _ & [-> ->]%(between_lr 1 (compiled pat_x) (APattern pat_y) pat_y _ _ eq_refl) & (tl & tr & th & Tl & Tr & -> & ->)).
  rewrite x_ast in Tl.
  assert (tl = TNode (POp 0) []) as -> by (eapply ExprTree_fun; [exact Tl|et]).
  assert (tr = TNode (POp 1) []) as -> by (eapply ExprTree_fun; [exact Tr|et]). reflexivity.
Qed.

(** ** A folding hook that unites while an instance is being added *)
(** ?0 => h(s(2), ?0), run on the constant 3 *)
Definition pat_s : list (node (pop nat)) := [Node (POp 12) []; Node (POp 2) [0]; Node (PVar 0) []; Node (POp 5) [1; 2]].
Definition grow_rule : rewrite nat (option nat) := Rewrite 1 (SPattern (compiled bare)) (APattern pat_s).
Definition cst_g : egraph nat (option nat) := ok_of (eg_new true) (session natlang foldan 20 true (PAdd (Node 13 []) (fun _ => PRebuild (fun _ => PRet)))).
Definition fsimple : scheduler nat (option nat) unit := simple_scheduler natlang it0 true 8.
Definition grow_run : res (option (runner nat (option nat) unit unit)) :=
  run natlang foldan (fun k => k) fsimple (Limits 1 60 90) [grow_rule] 20 9 [] 6 [0] cst_g () ().
Definition grow_r := run_of (Runner (eg_new false) [] [] None () () 0) grow_run.
Lemma grow_run_eq : grow_run = Ok (Some grow_r).
Proof. apply run_of_eq. vm_compute. reflexivity. Qed.
Lemma cst_session : session natlang foldan 20 true (PAdd (Node 13 []) (fun _ => PRebuild (fun _ => PRet))) = Ok cst_g.
Proof. apply is_ok_eq. vm_compute. reflexivity. Qed.
Lemma cst_reach : reachable natlang foldan true cst_g.
Proof. eapply session_reachable, cst_session. Qed.
Lemma cst_log : forall a b r, EUnion a b r ∈ eg_log cst_g -> r = 0.
Proof.
  assert (K : forall h : list (event nat), forallb (fun e => match e with EUnion _ _ r => r =? 0 | _ => true end) h = true -> forall a b r, EUnion a b r ∈ h -> r = 0).
  { intros h Hh a b r Hin. rewrite forallb_forall in Hh. apply elem_of_list_In in Hin. apply Hh in Hin. by apply Nat.eqb_eq. }
  apply K. vm_compute. reflexivity.
Qed.
Lemma bare_ast : pt_ast (compiled bare) = bare.
Proof. vm_compute. reflexivity. Qed.
Lemma pat_s_good : good_ast pat_s.
Proof. good. Qed.
Lemma bare_rooted : rooted bare.
Proof. intros [|i] Hi; cbn in *; lia. Qed.
Lemma grow_accepted : Forall (accepted_rule (D := option nat)) [grow_rule].
Proof.
  constructor; [|constructor]. split.
  - exists 1, (SPattern (compiled bare)), (APattern pat_s). vm_compute. reflexivity.
  - intros lhs rhs [-> ->]%(between_lr 1 (compiled bare) (APattern pat_s) pat_s _ _ eq_refl). rewrite bare_ast. split_and!; [apply bare_good|apply bare_rooted|apply pat_s_good].
Qed.
Lemma cst_steps : rule_steps [grow_rule] (asserted (eg_log cst_g)).
Proof. intros rw lhs rhs t u ->%elem_of_list_singleton _ (a & b & Hin & _). by apply cst_log in Hin. Qed.
Lemma grow_reasons i : reasons (not_a_rule [grow_rule]) (an_modify foldan i).
Proof.
  cbn. intros g. destruct (cf_data g i); cbn; [|done]. intros j. split; [|done]. by intros rw lhs rhs ->%elem_of_list_singleton _.
Qed.
Lemma grow_here : not_a_rule [grow_rule] 9.
Proof. by intros rw lhs rhs ->%elem_of_list_singleton _. Qed.
Lemma grow_explained : exists p, explain_id_equivalence 20 0 3 (r_eg grow_r) = Ok p /\ check_proof [grow_rule] p = Panic.
Proof.
  assert (E : (p ← explain_id_equivalence 20 0 3 (r_eg grow_r); Ok (match check_proof [grow_rule] p with Panic => true | _ => false end)) = Ok true) by (vm_compute; reflexivity).
  apply bind_Ok in E as (p & Ep & E). exists p. split; [exact Ep|]. injection E as E. by destruct (check_proof [grow_rule] p).
Qed.
Lemma grow_appliers : Forall (fun rw : rewrite nat (option nat) => applier_reasons (not_a_rule [grow_rule]) (rw_applier rw)) [grow_rule].
Proof. by repeat constructor. Qed.

(** ** [h(f(x), x)] matches [h(f(?0), ?0)] with z for ?0 *)
Definition hpat : list (node (pop nat)) := [Node (PVar 0) []; Node (POp 4) [0]; Node (PVar 0) []; Node (POp 5) [1; 2]].
Definition hpt : term (pop nat) := TNode (POp 5) [TNode (POp 4) [TNode (PVar 0) []]; TNode (PVar 0) []].
Lemma hpat_ok : pat_ok hpat.
Proof. by repeat constructor. Qed.
Lemma hpat_tree : ExprTree hpat hpt.
Proof.
  split; [done|]. econstructor; [reflexivity|]. constructor; [|constructor; [|constructor]].
  - econstructor; [reflexivity|]. constructor; [|constructor]. econstructor; [reflexivity|constructor].
  - econstructor; [reflexivity|constructor].
Qed.
Lemma hpat_explained : (length <$> (snd <$> explain_matches unitan (modify_n natlang unitan 5) 5 hx hpat [(0, 2)] (exp_g true))) = Ok 2.
Proof. vm_compute. reflexivity. Qed.
