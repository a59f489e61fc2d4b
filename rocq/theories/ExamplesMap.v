(** Translations used by the examples in PropertiesMap.v. *)
From Verif Require Import Base UnionFind EGraphModel EGraphPres Spec EGraphReach Terms RecExprModel ExprModel PatSpec MachineModel MatchSpec
  MapModel MapSpec MapProofs MapMain Examples ExamplesExpr ExamplesMatch.

(** ** A translation that keeps the order: every operator code moved up by 10 *)
Definition up (f : nat) : nat := 10 + f.
Definition down (f : nat) : nat := f - 10.
Lemma down_up f : down (up f) = f.
Proof. unfold down, up. lia. Qed.
Lemma up_lang : lang_sim up up natlang natlang.
Proof.
  split; cbn [natlang l_leb l_disc].
  - unfold up. lia.
  - unfold up. lia.
  - intros [f cs] [f' cs']. reflexivity.
  - done.
Qed.
Lemma up_an : asim up up (id : unit -> unit) unitan unitan.
Proof. split; intros; try done. apply ps_ret. Qed.
Definition congp_up : prog nat unit :=
  PAdd (Node 10 []) (fun x => PAdd (Node 11 []) (fun y =>
  PAdd (Node 12 [x]) (fun fx => PAdd (Node 12 [y]) (fun fy =>
  PAdd (Node 13 [fx]) (fun gx => PAdd (Node 13 [fy]) (fun gy =>
  PUnion x y 7 (fun _ => PRebuild (fun _ => PRet)))))))).
Lemma congp_sim : psim up up (id : unit -> unit) (congp true) congp_up.
Proof.
  unfold congp, congp_up.
  refine (ps_add up up id (Node 0 []) _ _ _); intros x. refine (ps_add up up id (Node 1 []) _ _ _); intros y. refine (ps_add up up id (Node 2 [x]) _ _ _); intros fx.
  refine (ps_add up up id (Node 2 [y]) _ _ _); intros fy. refine (ps_add up up id (Node 3 [fx]) _ _ _); intros gx. refine (ps_add up up id (Node 3 [fy]) _ _ _); intros gy.
  apply ps_union. intros v. apply ps_rebuild. intros n. apply ps_ret.
Qed.
Definition mcong_g : egraph nat unit := ok_of (eg_new false) (session natlang unitan 20 false (congp true)).
Lemma mcong_run : session natlang unitan 20 false (congp true) = Ok mcong_g.
Proof. apply is_ok_eq. vm_compute. reflexivity. Qed.
Lemma mcong_np : reachable_np natlang unitan false mcong_g.
Proof. apply (session_reachable_np _ _ 20 _ (congp true)), mcong_run; done. Qed.

(** ** A translation that reverses the order of operators 0..20 *)
Definition flip (f : nat) : nat := if f <=? 20 then 20 - f else f.
Lemma flip_inj f f' : flip f = flip f' -> f = f'.
Proof. unfold flip. destruct (Nat.leb_spec f 20), (Nat.leb_spec f' 20); lia. Qed.
Definition pat_15 : list (node (pop nat)) := [Node (PVar 0) []; Node (POp 15) [0]].
Definition pat_15_up : list (node (pop nat)) := [Node (PVar 0) []; Node (POp (flip 15)) [0]].
Definition flipped : egraph nat unit := map_egraph flip flip id big_g.
Lemma flip_before : is_ok (search_with_limit natlang it0 true (compiled pat_15) big_g 5) = true.
Proof. vm_compute. reflexivity. Qed.
Lemma flip_after : search_with_limit natlang it0 true (compiled pat_15_up) flipped 5 = Panic.
Proof. vm_compute. reflexivity. Qed.
Lemma flip_clean : eg_clean flipped = true.
Proof. vm_compute. reflexivity. Qed.

(** ** Discriminants that become equal: the target language discriminates pairs only *)
Definition half (d : nat) : nat := d / 2.
Definition halflang : lang nat := Lang _ half nat_leb.
Lemma halflang_ok : lang_ok halflang.
Proof.
  destruct natlang_ok as [H1 H2 H3 H4]. split; [exact H1|exact H2|exact H3|].
  cbn [halflang l_leb l_disc]. intros a b c Hab Hbc E.
  assert (Hle : forall x y, nat_leb x y = true -> nop x <= nop y).
  { intros x y. unfold nat_leb. destruct (Nat.ltb_spec (nop x) (nop y)), (Nat.ltb_spec (nop y) (nop x)); try done; lia. }
  apply Hle in Hab, Hbc. unfold half in *. pose proof (Nat.div_le_mono _ _ 2 ltac:(done) Hab). pose proof (Nat.div_le_mono _ _ 2 ltac:(done) Hbc). lia.
Qed.
(** a, b, 4(a), 5(b) *)
Definition halfp : prog nat unit :=
  PAdd (Node 0 []) (fun a => PAdd (Node 2 []) (fun b => PAdd (Node 4 [a]) (fun _ => PAdd (Node 5 [b]) (fun _ => PRebuild (fun _ => PRet))))).
Definition half_g : egraph nat unit := ok_of (eg_new false) (session natlang unitan 20 false halfp).
Lemma half_run : session natlang unitan 20 false halfp = Ok half_g.
Proof. apply is_ok_eq. vm_compute. reflexivity. Qed.
Definition half_mg : egraph nat unit := map_egraph id half id half_g.
Definition pat_4 : list (node (pop nat)) := [Node (PVar 0) []; Node (POp 4) [0]].
Definition pat_5 : list (node (pop nat)) := [Node (PVar 0) []; Node (POp 5) [0]].
Lemma half_before : search_with_limit natlang it0 true (compiled pat_4) half_g 5 = Ok [SMatch 2 [[(0, 0)]]] /\ search_with_limit natlang it0 true (compiled pat_5) half_g 5 = Ok [SMatch 3 [[(0, 1)]]].
Proof. split; vm_compute; reflexivity. Qed.
Lemma half_after : search_with_limit halflang it0 true (compiled pat_4) half_mg 5 = Ok [] /\ search_with_limit halflang it0 true (compiled pat_5) half_mg 5 = Ok [SMatch 3 [[(0, 1)]]].
Proof. split; vm_compute; reflexivity. Qed.
Lemma half_rep : Rep half_mg (TNode 4 [TNode 0 []]) 2.
Proof.
  assert (HR : forall g : egraph nat unit, bool_decide (Node 4 [0] ∈ from_option c_nodes [] (eg_classes g !! 2)) = true ->
    bool_decide (Node 0 [] ∈ from_option c_nodes [] (eg_classes g !! 0)) = true -> eg_find g 0 = 0 -> Rep g (TNode 4 [TNode 0 []]) 2).
  { intros g H4 H0 Hf. apply bool_decide_eq_true in H4, H0. destruct (eg_classes g !! 2) as [c2|] eqn:E2; cbn in H4; [|by apply elem_of_nil in H4].
    destruct (eg_classes g !! 0) as [c0|] eqn:E0; cbn in H0; [|by apply elem_of_nil in H0]. eapply Rep_node; [exact E2|exact H4|]. constructor; [|constructor].
    rewrite Hf. eapply Rep_node; [exact E0|exact H0|constructor]. }
  apply HR; vm_compute; reflexivity.
Qed.
Lemma pat_4_tree : ExprTree (pt_ast (compiled pat_4)) (TNode (POp 4) [TNode (PVar 0) []]).
Proof. change (pt_ast (compiled pat_4)) with pat_4. et. Qed.
Lemma order_lost : exists (h : nat -> nat) (g : egraph nat unit),
  (forall f f', h f = h f' -> f = f') /\ reachable natlang unitan false g /\ eg_clean g = true /\ eg_clean (map_egraph h h id g) = true /\
  is_ok (search_with_limit natlang it0 true (compiled pat_15) g 5) = true /\
  search_with_limit natlang it0 true (compiled pat_15_up) (map_egraph h h id g) 5 = Panic.
Proof.
  exists flip, big_g. exact (conj flip_inj (conj big_g_reachable (conj flip_clean (conj flip_clean (conj flip_before flip_after))))).
Qed.
Lemma disc_lost : exists (hdisc : nat -> nat) (g : egraph nat unit),
  lang_ok halflang /\ (forall f, l_disc halflang f = hdisc (l_disc natlang f)) /\ reachable natlang unitan false g /\
  eg_clean (map_egraph id hdisc id g) = true /\
  search_with_limit natlang it0 true (compiled pat_4) g 5 = Ok [SMatch 2 [[(0, 0)]]] /\
  ExprTree (pt_ast (compiled pat_4)) (TNode (POp 4) [TNode (PVar 0) []]) /\ Rep (map_egraph id hdisc id g) (TNode 4 [TNode 0 []]) 2 /\
  search_with_limit halflang it0 true (compiled pat_4) (map_egraph id hdisc id g) 5 = Ok [].
Proof.
  exists half, half_g. refine (conj halflang_ok (conj (fun f => eq_refl) (conj _ (conj _ (conj (proj1 half_before) (conj pat_4_tree (conj half_rep (proj1 half_after)))))))).
  - exact (session_reachable _ _ _ _ _ _ half_run).
  - vm_compute. reflexivity.
Qed.
