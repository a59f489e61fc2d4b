(** Concrete e-graphs for the examples about extraction by integer linear programming. *)
From Verif Require Import Base EGraphModel Spec EGraphReach EGraphNoPanic PatSpec Terms RecExprModel ExprModel LpModel LpSpec LpProofs LpExtract
  Examples ExamplesUtil.

(** a, g(a), f(g(a)); a = f(g(a)): the class of a is {a, f(g(a))}, on a cycle with {g(a)} *)
Definition lpc_prog : prog nat unit :=
  PAdd (Node 0 []) (fun a => PAdd (Node 1 [a]) (fun ga => PAdd (Node 2 [ga]) (fun f => PUnion a f 7 (fun _ => PRebuild (fun _ => PRet))))).
Definition lpc_g : egraph nat unit := ok_of (eg_new false) (session natlang unitan 20 false lpc_prog).
Lemma lpc_run : session natlang unitan 20 false lpc_prog = Ok lpc_g.
Proof. apply is_ok_eq. vm_compute. reflexivity. Qed.
Lemma lpc_reachable : reachable natlang unitan false lpc_g.
Proof. exact (session_reachable _ _ _ _ _ _ lpc_run). Qed.
Lemma lpc_clean : eg_clean lpc_g = true.
Proof. vm_compute. reflexivity. Qed.
Lemma keys_ok (g : egraph nat unit) (o : list nat) :
  forallb (fun c => bool_decide (c ∈ keys g)) o && forallb (fun c => bool_decide (c ∈ o)) (keys g) = true -> forall c, c ∈ o <-> is_Some (eg_classes g !! c).
Proof.
  intros Hs c. rewrite <- keys_classes. apply andb_prop in Hs as [H1 H2]. rewrite forallb_forall in H1, H2.
  split; intros Hc%elem_of_list_In; [apply H1 in Hc|apply H2 in Hc]; by apply bool_decide_eq_true in Hc.
Qed.
Lemma lpc_keys (b : bool) c : c ∈ (if b then [0; 1] else [1; 0]) <-> is_Some (eg_classes lpc_g !! c).
Proof. apply keys_ok. destruct b; vm_compute; reflexivity. Qed.
(** which e-node is given up depends on the order of the classes *)
Lemma lpc_found : find_cycles 20 [0; 1] lpc_g = Ok [(0, 1)] /\ find_cycles 20 [1; 0] lpc_g = Ok [(1, 0)].
Proof. split; vm_compute; reflexivity. Qed.
Definition lpc_cs (b : bool) : list lcon :=
  if b then [LCon [(1, VNode 0 0); (1, VNode 0 1); (-1, VActive 0)] REq 0; LCon [(1, VNode 1 0); (-1, VActive 1)] REq 0; LCon [(1, VNode 1 0); (-1, VActive 0)] RLeq 0; LCon [(1, VActive 1)] RGeq 1]%Z
  else [LCon [(1, VNode 1 0); (-1, VActive 1)] REq 0; LCon [(1, VNode 0 0); (1, VNode 0 1); (-1, VActive 0)] REq 0; LCon [(1, VNode 0 1); (-1, VActive 1)] RLeq 0; LCon [(1, VActive 1)] RGeq 1]%Z.
Lemma lpc_cons : lp_constraints lpc_g [(0, 1)] [0; 1] [1] = Ok (lpc_cs true) /\ lp_constraints lpc_g [(1, 0)] [1; 0] [1] = Ok (lpc_cs false).
Proof. split; vm_compute; reflexivity. Qed.
Definition lpc_bs (b : bool) : list lbound :=
  if b then [LBound (VActive 0) 1; LBound (VNode 0 0) 1; LBound (VNode 0 1) 0; LBound (VActive 1) 1; LBound (VNode 1 0) 1]%Z
  else [LBound (VActive 1) 1; LBound (VNode 1 0) 0; LBound (VActive 0) 1; LBound (VNode 0 0) 1; LBound (VNode 0 1) 1]%Z.
Lemma lpc_bounds : lp_bounds [(0, 1)] [0; 1] lpc_g = lpc_bs true /\ lp_bounds [(1, 0)] [1; 0] lpc_g = lpc_bs false.
Proof. split; vm_compute; reflexivity. Qed.
Lemma feasible_all sol bs cs : feasible sol bs cs <-> Forall (fun b => 0 <= sol (lb_var b) <= lb_max b)%Z bs /\ Forall (lholds sol) cs.
Proof. unfold feasible. by rewrite !Forall_forall. Qed.
Definition lpc_sol (v : lvar) : Z := match v with VActive _ | VNode _ 0 => 1 | VNode _ _ => 0 end%Z.
Lemma lpc_feasible : feasible lpc_sol (lp_bounds [(0, 1)] [0; 1] lpc_g) (lpc_cs true).
Proof. rewrite (proj1 lpc_bounds). apply feasible_all. split; repeat constructor; cbn; try lia; done. Qed.
Lemma lpc_extract : extract_solution 20 lpc_g lpc_sol [1] = Ok ([Node 0 []; Node 1 [0]], [1]).
Proof. vm_compute. reflexivity. Qed.
Lemma lpc_infeasible sol : ~ feasible sol (lp_bounds [(1, 0)] [1; 0] lpc_g) (lpc_cs false).
Proof.
  rewrite (proj2 lpc_bounds). intros [Hb Hc].
  pose proof (Hb (LBound (VNode 1 0) 0) ltac:(cbn; set_solver)) as H1.
  pose proof (Hc (LCon [(1, VNode 1 0); (-1, VActive 1)]%Z REq 0) ltac:(cbn; set_solver)) as H2.
  pose proof (Hc (LCon [(1, VActive 1)]%Z RGeq 1) ltac:(cbn; set_solver)) as H3. unfold lholds in *. cbn in *. lia.
Qed.
Lemma node_in (g : egraph nat unit) c n : bool_decide (n ∈ from_option c_nodes [] (eg_classes g !! c)) = true -> exists k, eg_classes g !! c = Some k /\ n ∈ c_nodes k.
Proof. intros Hb. apply bool_decide_eq_true in Hb. destruct (eg_classes g !! c) as [k|]; [eauto|by apply elem_of_nil in Hb]. Qed.
Lemma lpc_rep : Rep lpc_g (TNode 1 [TNode 0 []]) 1.
Proof.
  destruct (node_in lpc_g 0 (Node 0 [])) as (k & Hk & Hn); [vm_compute; reflexivity|]. destruct (node_in lpc_g 1 (Node 1 [0])) as (k' & Hk' & Hn'); [vm_compute; reflexivity|].
  econstructor; [done..|]. constructor; [|done]. assert (eg_find lpc_g 0 = 0) as -> by (vm_compute; done). by econstructor.
Qed.
Lemma lpc_nodup : NoDup [1; 0].
Proof. repeat constructor; set_solver. Qed.
Lemma lost_solution : exists (g : egraph nat unit) o rep cs r t,
  reachable natlang unitan false g /\ eg_clean g = true /\ (forall c, c ∈ o <-> is_Some (eg_classes g !! c)) /\ NoDup o /\
  find_cycles 20 o g = Ok rep /\ lp_constraints g rep o [r] = Ok cs /\ Rep g t (eg_find g r) /\ forall sol, ~ feasible sol (lp_bounds rep o g) cs.
Proof.
  exists lpc_g, [1; 0], [(1, 0)], (lpc_cs false), 1, (TNode 1 [TNode 0 []]).
  assert (Hf : eg_find lpc_g 1 = 1) by (vm_compute; done). rewrite Hf.
  exact (conj lpc_reachable (conj lpc_clean (conj (lpc_keys false) (conj lpc_nodup (conj (proj2 lpc_found) (conj (proj2 lpc_cons) (conj lpc_rep lpc_infeasible))))))).
Qed.
Lemma uses_in (g : egraph nat unit) c i n v : (from_option c_nodes [] (eg_classes g !! c)) !! i = Some n -> v ∈ nch n -> uses g [] c v.
Proof. intros Hi Hv. destruct (eg_classes g !! c) as [k|] eqn:E; [|done]. exists k, i, n. split_and!; try done. by intros ?%elem_of_nil. Qed.
Lemma lpc_tc : tc (uses lpc_g []) 0 0.
Proof.
  eapply tc_l; [apply (uses_in lpc_g 0 1 (Node 2 [1]) 1); [vm_compute; reflexivity|left]|].
  apply tc_once. apply (uses_in lpc_g 1 0 (Node 1 [0]) 0); [vm_compute; reflexivity|left].
Qed.

(** the example of the documentation: f(x,x,x) = g(g(x)) *)
Definition shr_prog : prog nat unit :=
  PAdd (Node 0 []) (fun x => PAdd (Node 2 [x; x; x]) (fun f => PAdd (Node 1 [x]) (fun gx => PAdd (Node 1 [gx]) (fun gg =>
    PUnion f gg 7 (fun _ => PRebuild (fun _ => PRet)))))).
Definition shr_g : egraph nat unit := ok_of (eg_new false) (session natlang unitan 20 false shr_prog).
Lemma shr_run : session natlang unitan 20 false shr_prog = Ok shr_g.
Proof. apply is_ok_eq. vm_compute. reflexivity. Qed.
Lemma shr_reachable_np : reachable_np natlang unitan false shr_g.
Proof. apply (session_reachable_np _ _ 20 _ shr_prog), shr_run; done. Qed.
Lemma shr_clean : eg_clean shr_g = true.
Proof. vm_compute. reflexivity. Qed.
Lemma shr_keys c : c ∈ [0; 1; 2] <-> is_Some (eg_classes shr_g !! c).
Proof. apply keys_ok. vm_compute. reflexivity. Qed.
Lemma shr_nodup : NoDup [0; 1; 2].
Proof. repeat constructor; set_solver. Qed.
Lemma shr_found : find_cycles 20 [0; 1; 2] shr_g = Ok [].
Proof. vm_compute. reflexivity. Qed.
Lemma shr_acyclic u : ~ tc (uses shr_g []) u u.
Proof.
  destruct (cycles_spec natlang unitan false shr_g [0; 1; 2] natlang_ok (reachable_np_reachable _ _ _ _ shr_reachable_np) shr_clean shr_keys) as (b & rep & Hb & Hn & _).
  pose proof (find_cycles_mono shr_g 20 (20 + b) [0; 1; 2] [] ltac:(lia) shr_found) as E. specialize (Hb (20 + b) ltac:(lia)). rewrite E in Hb. injection Hb as <-. apply Hn.
Qed.
Definition shr_cs : list lcon :=
  [LCon [(1, VNode 0 0); (-1, VActive 0)] REq 0; LCon [(1, VNode 1 0); (1, VNode 1 1); (-1, VActive 1)] REq 0; LCon [(1, VNode 1 0); (-1, VActive 2)] RLeq 0;
   LCon [(1, VNode 1 1); (-1, VActive 0)] RLeq 0; LCon [(1, VNode 1 1); (-1, VActive 0)] RLeq 0; LCon [(1, VNode 1 1); (-1, VActive 0)] RLeq 0;
   LCon [(1, VNode 2 0); (-1, VActive 2)] REq 0; LCon [(1, VNode 2 0); (-1, VActive 0)] RLeq 0; LCon [(1, VActive 1)] RGeq 1]%Z.
Lemma shr_cons : lp_constraints shr_g [] [0; 1; 2] [1] = Ok shr_cs.
Proof. vm_compute. reflexivity. Qed.
Lemma shr_known r : r ∈ [1] -> known shr_g r.
Proof. intros ->%elem_of_list_singleton. apply Nat.ltb_lt. vm_compute. reflexivity. Qed.
Definition shr_sol (v : lvar) : Z := match v with VActive 2 | VNode 2 _ | VNode 1 0 => 0 | _ => 1 end%Z.
Lemma shr_bounds : lp_bounds [] [0; 1; 2] shr_g = [LBound (VActive 0) 1; LBound (VNode 0 0) 1; LBound (VActive 1) 1; LBound (VNode 1 0) 1; LBound (VNode 1 1) 1;
  LBound (VActive 2) 1; LBound (VNode 2 0) 1]%Z.
Proof. vm_compute. reflexivity. Qed.
Lemma shr_obj : lp_objective (fun _ _ => 1%Z) [0; 1; 2] shr_g = [(1, VNode 0 0); (1, VNode 1 0); (1, VNode 1 1); (1, VNode 2 0)]%Z.
Proof. vm_compute. reflexivity. Qed.
Lemma shr_optimal : optimal shr_sol (lp_objective (fun _ _ => 1%Z) [0; 1; 2] shr_g) (lp_bounds [] [0; 1; 2] shr_g) shr_cs.
Proof.
  rewrite shr_obj, shr_bounds. unfold optimal. setoid_rewrite feasible_all. split.
  - split; repeat constructor; cbn; try lia; done.
  - intros sol' [Hb Hc]. unfold shr_cs in Hc. repeat match goal with H : Forall _ (_ :: _) |- _ => apply Forall_cons in H as [? H] end. unfold lholds in *. cbn in *. lia.
Qed.
Lemma shr_extract : extract_solution 20 shr_g shr_sol [1] = Ok ([Node 0 []; Node 2 [0; 0; 0]], [1]).
Proof. vm_compute. reflexivity. Qed.
