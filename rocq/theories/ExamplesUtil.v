(** Concrete e-graphs for the examples about copying, joining and intersecting e-graphs. *)
From Verif Require Import Base EGraphModel Spec EGraphReach EGraphNoPanic PatSpec Terms RecExprModel ExprModel ExplainModel ExplainSpec ExplainMain ExplainModes
  UtilModel CopyProofs Uncanon FromNodes IntersectProofs Examples ExamplesExplain.

(** x, y, f(x), g(y), h(y); x = y makes y the leader; f(x) is added again before the next
    rebuild (and gets a second id), then, with [c], z, and finally k(f(x)) *)
Definition dup_prog (c : bool) : prog nat unit :=
  PAdd (Node 0 []) (fun x => PAdd (Node 1 []) (fun y => PAdd (Node 4 [x]) (fun _ => PAdd (Node 5 [y]) (fun _ => PAdd (Node 6 [y]) (fun _ =>
    PUnion x y 7 (fun _ => PAdd (Node 4 [x]) (fun f =>
      if c then PAdd (Node 2 []) (fun _ => PAdd (Node 7 [f]) (fun _ => PRebuild (fun _ => PRet)))
      else PAdd (Node 7 [f]) (fun _ => PRebuild (fun _ => PRet))))))))).
Definition dup_g (c : bool) : egraph nat unit := ok_of (eg_new true) (session natlang unitan 20 true (dup_prog c)).
Lemma dup_run c : session natlang unitan 20 true (dup_prog c) = Ok (dup_g c).
Proof. apply is_ok_eq. destruct c; vm_compute; reflexivity. Qed.
Lemma dup_reachable c : reachable natlang unitan true (dup_g c).
Proof. exact (session_reachable _ _ _ _ _ _ (dup_run c)). Qed.
Definition kfx : term nat := TNode 7 [TNode 4 [TNode 0 []]].
Lemma dup_log : eg_log (dup_g true) = [EAdd (Node 7 [5]) 7; EAdd (Node 2 []) 6; EAdd (Node 4 [0]) 5; EUnion 0 1 7; EAdd (Node 6 [1]) 4;
  EAdd (Node 5 [1]) 3; EAdd (Node 4 [0]) 2; EAdd (Node 1 []) 1; EAdd (Node 0 []) 0].
Proof. vm_compute. reflexivity. Qed.
Lemma dup_added : AddedAs (eg_log (dup_g true)) 7 kfx.
Proof.
  rewrite dup_log. unfold kfx.
  repeat (first [apply Forall2_nil_2 | apply Forall2_cons_2
    | match goal with |- AddedAs _ ?i (TNode ?f _) => match i with
        | 7 => eapply (added _ 7 [5]) | 5 => eapply (added _ 4 [0]) | 0 => eapply (added _ 0 []) end end
    | by (apply elem_of_list_In; cbn; tauto)]).
Qed.
Definition dup_copy : egraph nat unit := ok_of (eg_new true) (copy_without_unions unitan (modify_n natlang unitan 20) (dup_g true)).
Lemma dup_copy_run : copy_without_unions unitan (modify_n natlang unitan 20) (dup_g true) = Ok dup_copy.
Proof. apply is_ok_eq. vm_compute. reflexivity. Qed.
Lemma dup_copy_log : eg_log dup_copy = [EAdd (Node 7 [5]) 6; EAdd (Node 2 []) 5; EAdd (Node 4 [0]) 2; EAdd (Node 6 [1]) 4;
  EAdd (Node 5 [1]) 3; EAdd (Node 4 [0]) 2; EAdd (Node 1 []) 1; EAdd (Node 0 []) 0].
Proof. vm_compute. reflexivity. Qed.
Lemma dup_copy_panic : copy_without_unions unitan (modify_n natlang unitan 20) (dup_g false) = Panic.
Proof. vm_compute. reflexivity. Qed.
(** k(z) instead of k(f(x)) *)
Lemma dup_copy_wrong : AddedAs (eg_log dup_copy) 6 (TNode 7 [TNode 2 []]) /\ forall i, ~ AddedAs (eg_log dup_copy) i kfx.
Proof.
  rewrite dup_copy_log. split.
  - eapply (added _ 7 [5]); [by (apply elem_of_list_In; cbn; tauto)|]. constructor; [|constructor].
    eapply (added _ 2 []); [by (apply elem_of_list_In; cbn; tauto)|constructor].
  - intros i Hi. inversion Hi as [? cs ? ? Ha Hc]; subst. apply elem_of_list_In in Ha. cbn in Ha.
    destruct Ha as [Ha|[Ha|[Ha|[Ha|[Ha|[Ha|[Ha|[Ha|[]]]]]]]]]; try discriminate. injection Ha as <- <-.
    inversion Hc as [|? ? ? ? Hk _]; subst. inversion Hk as [? cs' ? ? Ha' _]; subst. apply elem_of_list_In in Ha'. cbn in Ha'.
    destruct Ha' as [Ha|[Ha|[Ha|[Ha|[Ha|[Ha|[Ha|[Ha|[]]]]]]]]]; discriminate.
Qed.
(** x = y stated, then a rebuild, then h(f(x), x) and h(f(z), z) *)
Definition cop_cmds : list (tcmd nat) := [TSame [Node 0 []] [Node 1 []] 7; TRebuild; TAdd hx; TAdd hz].
Definition cop_g : egraph nat unit := ok_of (eg_new true) (run_tcmds natlang unitan 20 cop_cmds (eg_new true)).
Lemma cop_run : run_tcmds natlang unitan 20 cop_cmds (eg_new true) = Ok cop_g.
Proof. apply is_ok_eq. vm_compute. reflexivity. Qed.
Lemma cop_exprs : Forall exprs_ok cop_cmds.
Proof. repeat constructor; cbn; eauto using one_tree, hx_tree, hz_tree. Qed.
Lemma cop_reachable : reachable natlang unitan true cop_g.
Proof. eapply run_tcmds_follows; [done|apply reach_new|apply cop_exprs|apply follows_new|apply cop_run]. Qed.
Lemma cop_same : eg_find cop_g 0 = eg_find cop_g 1.
Proof. vm_compute. reflexivity. Qed.
Lemma dup_copy_refuted : exists (g g' : egraph nat unit) t u,
  reachable natlang unitan true g /\ copy_without_unions unitan (modify_n natlang unitan 20) g = Ok g' /\
  (exists i, AddedAs (eg_log g) i t) /\ (forall i, ~ AddedAs (eg_log g') i t) /\
  (forall i, ~ AddedAs (eg_log g) i u) /\ (exists i, AddedAs (eg_log g') i u).
Proof.
  exists (dup_g true), dup_copy, kfx, (TNode 7 [TNode 2 []]).
  split_and!; [apply dup_reachable|apply dup_copy_run|exists 7; apply dup_added|apply dup_copy_wrong| |exists 6; apply dup_copy_wrong].
  rewrite dup_log. intros i Hi. inversion Hi as [? cs ? ? Ha Hc]; subst. apply elem_of_list_In in Ha. cbn in Ha.
  destruct Ha as [Ha|[Ha|[Ha|[Ha|[Ha|[Ha|[Ha|[Ha|[Ha|[]]]]]]]]]]; try discriminate. injection Ha as <- <-.
  inversion Hc as [|? ? ? ? Hk _]; subst. inversion Hk as [? cs' ? ? Ha' _]; subst. apply elem_of_list_In in Ha'. cbn in Ha'.
  destruct Ha' as [Ha|[Ha|[Ha|[Ha|[Ha|[Ha|[Ha|[Ha|[Ha|[]]]]]]]]]]; discriminate.
Qed.
(** another client: y = w, and f(w) *)
Definition uni_cmds : list (tcmd nat) := [TSame [Node 1 []] [Node 3 []] 9; TAdd [Node 3 []; Node 4 [0]]].
Definition uni_g : egraph nat unit := ok_of (eg_new false) (run_tcmds natlang unitan 20 uni_cmds (eg_new false)).
Lemma uni_run : run_tcmds natlang unitan 20 uni_cmds (eg_new false) = Ok uni_g.
Proof. apply is_ok_eq. vm_compute. reflexivity. Qed.
Lemma uni_exprs : Forall exprs_ok uni_cmds.
Proof.
  constructor; [cbn; eauto using one_tree|]. constructor; [|constructor]. eexists. split; [done|]. econstructor; [reflexivity|].
  constructor; [|constructor]. econstructor; [reflexivity|constructor].
Qed.
Lemma uni_reachable : reachable natlang unitan false uni_g.
Proof. eapply run_tcmds_follows; [done|apply reach_new|apply uni_exprs|apply follows_new|apply uni_run]. Qed.
(** ... joined with the e-graph of the examples about explanations (x = y, z = y) *)
Definition uni_r : egraph nat unit := ok_of (eg_new false) (egraph_union natlang unitan (modify_n natlang unitan 20) id 20 (exp_g true) uni_g).
Lemma uni_r_run : egraph_union natlang unitan (modify_n natlang unitan 20) id 20 (exp_g true) uni_g = Ok uni_r.
Proof. apply is_ok_eq. vm_compute. reflexivity. Qed.
Lemma uni_r_log : eg_log uni_r = [EUnion 4 0 8; EAdd (Node 1 []) 0; EAdd (Node 2 []) 4; EUnion 3 0 7; EAdd (Node 1 []) 0; EAdd (Node 0 []) 3;
  EAdd (Node 4 [1]) 2; EAdd (Node 3 []) 1; EUnion 0 1 9; EAdd (Node 3 []) 1; EAdd (Node 1 []) 0].
Proof. vm_compute. reflexivity. Qed.
Lemma uni_added : AddedAs (eg_log uni_r) 4 zt /\ AddedAs (eg_log uni_r) 1 (TNode 3 []).
Proof. rewrite uni_r_log. split; (eapply (added _ _ []); [by (apply elem_of_list_In; cbn; tauto)|constructor]). Qed.
Lemma uni_same : eg_find uni_r 4 = eg_find uni_r 1.
Proof. vm_compute. reflexivity. Qed.
(** h(f(x), x) occurs in the other e-graph but not in the result *)
Lemma uni_no_terms : exists (other g g' : egraph nat unit) t, reachable natlang unitan true other /\ reachable natlang unitan false g /\
  egraph_union natlang unitan (modify_n natlang unitan 20) id 20 other g = Ok g' /\
  (exists i, AddedAs (eg_log other) i t) /\ forall i, ~ AddedAs (eg_log g') i t.
Proof.
  exists (exp_g true), uni_g, uni_r, hxt. split_and!; [apply exp_reachable|apply uni_reachable|apply uni_r_run|exists 4; apply exp_added|].
  rewrite uni_r_log. intros i Hi. inversion Hi as [? cs ? ? Ha Hc]; subst. apply elem_of_list_In in Ha. cbn in Ha.
  destruct Ha as [Ha|[Ha|[Ha|[Ha|[Ha|[Ha|[Ha|[Ha|[Ha|[Ha|[Ha|[]]]]]]]]]]]]; discriminate.
Qed.

(** f(x) = f(y) is stated here; in [cong_g] it follows from x = y *)
Definition int_prog : prog nat unit :=
  PAdd (Node 0 []) (fun x => PAdd (Node 1 []) (fun y => PAdd (Node 2 [x]) (fun fx => PAdd (Node 2 [y]) (fun fy =>
    PAdd (Node 3 [fx]) (fun _ => PAdd (Node 3 [fy]) (fun _ => PUnion fx fy 7 (fun _ => PRebuild (fun _ => PRet)))))))).
Definition int_g : egraph nat unit := ok_of (eg_new false) (session natlang unitan 20 false int_prog).
Lemma int_run : session natlang unitan 20 false int_prog = Ok int_g.
Proof. apply is_ok_eq. vm_compute. reflexivity. Qed.
Lemma int_reachable : reachable natlang unitan false int_g.
Proof. exact (session_reachable _ _ _ _ _ _ int_run). Qed.
Definition keys (g : egraph nat unit) : list nat := (map_to_list (eg_classes g)).*1.
Lemma keys_classes (g : egraph nat unit) c : c ∈ keys g <-> is_Some (eg_classes g !! c).
Proof.
  unfold keys. rewrite elem_of_list_fmap. split.
  - intros ([c' k] & -> & Hin). apply elem_of_map_to_list in Hin. eauto.
  - intros [k Hk]. exists (c, k). split; [done|]. by apply elem_of_map_to_list.
Qed.
Definition int_r : egraph nat unit :=
  ok_of (eg_new false) (egraph_intersect unitan (modify_n natlang unitan 1) 9 20 (keys (cong_g true true)) (keys int_g) (cong_g true true) int_g).
Lemma int_r_run : egraph_intersect unitan (modify_n natlang unitan 1) 9 20 (keys (cong_g true true)) (keys int_g) (cong_g true true) int_g = Ok int_r.
Proof. apply is_ok_eq. vm_compute. reflexivity. Qed.
Lemma int_clean : eg_clean (cong_g true true) = true /\ eg_clean int_g = true.
Proof. split; vm_compute; reflexivity. Qed.
Lemma int_looks : (exists c, lookup_expr int_r [Node 0 []; Node 2 [0]; Node 3 [1]] = Ok (Some c) /\ lookup_expr int_r [Node 1 []; Node 2 [0]; Node 3 [1]] = Ok (Some c)) /\
  exists c d, lookup_expr int_r [Node 0 []] = Ok (Some c) /\ lookup_expr int_r [Node 1 []] = Ok (Some d) /\ c <> d.
Proof. vm_compute. split; [eauto|]. do 2 eexists. split_and!; [done..|]. lia. Qed.
Definition int_r2 : egraph nat unit := fst (ok_of (eg_new false, 0) (rebuild natlang unitan 20 (modify_n natlang unitan 20) int_r)).
Lemma int_r2_run : exists n, rebuild natlang unitan 20 (modify_n natlang unitan 20) int_r = Ok (int_r2, n).
Proof. exists (snd (ok_of (eg_new false, 0) (rebuild natlang unitan 20 (modify_n natlang unitan 20) int_r))). unfold int_r2. rewrite <- surjective_pairing. apply is_ok_eq. vm_compute. reflexivity. Qed.
(** f(x), f(y) and g(f(y)); x = y, not rebuilt *)
Definition dirty_prog : prog nat unit :=
  PAdd (Node 0 []) (fun x => PAdd (Node 1 []) (fun y => PAdd (Node 2 [x]) (fun fx => PAdd (Node 2 [y]) (fun fy =>
    PAdd (Node 3 [fy]) (fun _ => PUnion x y 7 (fun _ => PRet)))))).
Definition dirty_g : egraph nat unit := ok_of (eg_new false) (session natlang unitan 20 false dirty_prog).
Lemma dirty_run : session natlang unitan 20 false dirty_prog = Ok dirty_g.
Proof. apply is_ok_eq. vm_compute. reflexivity. Qed.
Lemma dirty_reachable : reachable natlang unitan false dirty_g.
Proof. exact (session_reachable _ _ _ _ _ _ dirty_run). Qed.
Definition dirty_o : list nat := [0; 2; 3; 4].
Lemma dirty_o_ok c : c ∈ dirty_o <-> is_Some (eg_classes dirty_g !! c).
Proof.
  rewrite <- keys_classes. unfold dirty_o.
  assert (Hs : forallb (fun c => bool_decide (c ∈ keys dirty_g)) dirty_o && forallb (fun c => bool_decide (c ∈ dirty_o)) (keys dirty_g) = true) by (vm_compute; reflexivity).
  apply andb_prop in Hs as [H1 H2]. rewrite forallb_forall in H1, H2. split; intros Hc%elem_of_list_In; [apply H1 in Hc|apply H2 in Hc]; by apply bool_decide_eq_true in Hc.
Qed.
Definition dirty_r : egraph nat unit :=
  ok_of (eg_new false) (egraph_intersect unitan (modify_n natlang unitan 1) 9 20 dirty_o dirty_o dirty_g dirty_g).
Lemma dirty_r_run : egraph_intersect unitan (modify_n natlang unitan 1) 9 20 dirty_o dirty_o dirty_g dirty_g = Ok dirty_r.
Proof. apply is_ok_eq. vm_compute. reflexivity. Qed.
Definition gfy : term nat := TNode 3 [TNode 2 [TNode 1 []]].
Lemma dirty_no_g c : ~ Rep dirty_r gfy c.
Proof.
  intros Hr. inversion Hr as [? ? cs ? k Hk Hn _]; subst.
  assert (Hs : forallb (fun '(_, k) => forallb (fun n : node nat => negb (nop n =? 3)) (c_nodes k)) (map_to_list (eg_classes dirty_r)) = true) by (vm_compute; reflexivity).
  rewrite forallb_forall in Hs. apply elem_of_map_to_list, elem_of_list_In, Hs in Hk. rewrite forallb_forall in Hk. by apply elem_of_list_In, Hk in Hn.
Qed.
Lemma dirty_lost : exists (g g' : egraph nat unit) o t c, reachable natlang unitan false g /\ (forall c, c ∈ o <-> is_Some (eg_classes g !! c)) /\
  egraph_intersect unitan (modify_n natlang unitan 1) 9 20 o o g g = Ok g' /\ Rep g t c /\ forall c', ~ Rep g' t c'.
Proof.
  exists dirty_g, dirty_r, dirty_o, gfy, 4. split_and!; [apply dirty_reachable|apply dirty_o_ok|apply dirty_r_run| |apply dirty_no_g].
  assert (Hc : forall c n, bool_decide (n ∈ from_option c_nodes [] (eg_classes dirty_g !! c)) = true -> exists k, eg_classes dirty_g !! c = Some k /\ n ∈ c_nodes k).
  { intros c n Hb. apply bool_decide_eq_true in Hb. destruct (eg_classes dirty_g !! c) as [k|]; [eauto|by apply elem_of_nil in Hb]. }
  assert (Hf : eg_find dirty_g 3 = 3 /\ eg_find dirty_g 1 = 0) by (vm_compute; done).
  assert (H4 : Rep dirty_g (TNode 1 []) 0). { destruct (Hc 0 (Node 1 [])) as (k & Hk & Hn); [vm_compute; reflexivity|]. by econstructor. }
  assert (H3 : Rep dirty_g (TNode 2 [TNode 1 []]) 3).
  { destruct (Hc 3 (Node 2 [1])) as (k & Hk & Hn); [vm_compute; reflexivity|]. econstructor; [done..|]. constructor; [|done]. destruct Hf as [_ ->]. done. }
  destruct (Hc 4 (Node 3 [3])) as (k & Hk & Hn); [vm_compute; reflexivity|]. econstructor; [done..|]. constructor; [|done]. destruct Hf as [-> _]. done.
Qed.
