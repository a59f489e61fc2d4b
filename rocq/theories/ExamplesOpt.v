(** Concrete e-graphs and orders for the examples about the length optimiser. *)
From Verif Require Import Base UnionFind EGraphModel Spec EGraphReach ExtractSpec MatchSpec ExplainModel ExplainSpec OptModel OptSpec OptCong OptMono Examples ExamplesExplain.

Definition it_o (s : gset nat) : list nat := elements s.
Lemma it_o_ok : enumerates it_o.
Proof. intros s. unfold it_o. done. Qed.
(** the classes with the newest first *)
Definition cit_o (cl : gmap nat (eclass nat unit)) : list nat := reverse (merge_sort le (elements (dom cl))).
Lemma cit_o_perm cl : cit_o cl ≡ₚ elements (dom cl).
Proof. unfold cit_o. rewrite reverse_Permutation. apply merge_sort_Permutation. Qed.
Lemma cit_o_ok (g : egraph nat unit) : traverses g (cit_o (eg_classes g)).
Proof.
  split.
  - rewrite cit_o_perm. apply NoDup_elements.
  - intros r. rewrite (elem_of_Permutation_proper r _ _ (cit_o_perm (eg_classes g))). by rewrite elem_of_elements, elem_of_dom.
Qed.
(** the first entry of least cost *)
Fixpoint least (e : hentry) (l : list hentry) : hentry * list hentry :=
  match l with
  | [] => (e, [])
  | e' :: l => if e'.1 <? e.1 then let '(m, l') := least e' l in (m, e :: l') else let '(m, l') := least e l in (m, e' :: l')
  end.
Definition pop_o (tr : list (list hentry)) (hp : list hentry) : option (hentry * list hentry) :=
  match hp with [] => None | e :: l => Some (least e l) end.
Lemma least_ok l : forall e, e :: l ≡ₚ (least e l).1 :: (least e l).2 /\ forall e', e' ∈ e :: l -> (least e l).1.1 <= e'.1.
Proof.
  induction l as [|e1 l IH]; intros e; cbn [least].
  - split; [done|]. intros e' ->%elem_of_list_singleton. done.
  - destruct (Nat.ltb_spec e1.1 e.1) as [Hlt|Hge].
    + destruct (IH e1) as [Hp Hm]. destruct (least e1 l) as [m l'] eqn:El. cbn [fst snd] in *. split.
      * rewrite Hp. apply Permutation_swap.
      * intros e' [->|He']%elem_of_cons; [|by apply Hm]. pose proof (Hm e1 ltac:(left)). lia.
    + destruct (IH e) as [Hp Hm]. destruct (least e l) as [m l'] eqn:El. cbn [fst snd] in *. split.
      * etrans; [apply Permutation_swap|]. rewrite Hp. apply Permutation_swap.
      * intros e' [->|[->|He']%elem_of_cons]%elem_of_cons; [apply Hm; left| |apply Hm; by right]. pose proof (Hm e ltac:(left)). lia.
Qed.
Lemma pop_o_ok : pops_min pop_o.
Proof.
  intros tr [|e l]; [done|]. cbn [pop_o]. destruct (least_ok l e) as [Hp Hm]. destruct (least e l) as [m l'] eqn:El. cbn [fst snd] in *. done.
Qed.

(** ** An explanation that never ends *)
(** 0 .. 5 joined in a row; 6 = g(0), 7 = g(5), 8 = f(6), 9 = f(7), 10 and 11 constants,
    12 = f(11); then some more unions *)
Fixpoint adds (l : list (node nat)) (k : prog nat unit) : prog nat unit :=
  match l with [] => k | n :: l => PAdd n (fun _ => adds l k) end.
Fixpoint unions (l : list (nat * nat)) (r : nat) (k : prog nat unit) : prog nat unit :=
  match l with [] => k | (a, b) :: l => PUnion a b r (fun _ => unions l (S r) k) end.
Definition loop_p1 : prog nat unit :=
  adds [Node 0 []; Node 1 []; Node 2 []; Node 3 []; Node 4 []; Node 5 []; Node 10 [0]; Node 10 [5]; Node 11 [6]; Node 11 [7]; Node 6 []; Node 7 []; Node 11 [11]]
  (unions [(0,1);(1,2);(2,3);(3,4);(4,5)] 100 (PRebuild (fun _ =>
   unions [(9,10);(10,5);(9,5);(0,8);(12,5);(11,6)] 200 (PRebuild (fun _ => PRet))))).
(** twelve constants, a unary term over each, and all constants made equal *)
Definition loop_p2 : prog nat unit :=
  adds ((fun i => Node (20 + i) []) <$> seq 0 12) (adds ((fun i => Node 40 [13 + i]) <$> seq 0 12)
  (unions ((fun i => (13, 14 + i)) <$> seq 0 11) 300 (PRebuild (fun _ => PRet)))).
Definition loop_g0 := ok_of (eg_new true) (run_prog natlang unitan 100 (modify_n natlang unitan 100) loop_p1 (eg_new true)).
Definition loop_e1 := explain_id_equivalence_opt it_o cit_o pop_o 100 0 5 loop_g0.
Definition loop_g1 := fst (ok_of (eg_new true, []) loop_e1).
Definition loop_g := ok_of (eg_new true) (run_prog natlang unitan 100 (modify_n natlang unitan 100) loop_p2 loop_g1).
Lemma loop_reach : reach_opt natlang unitan it_o cit_o loop_g.
Proof.
  eapply ro_run; [|apply (is_ok_eq (eg_new true)); vm_compute; reflexivity].
  eapply (ro_explain _ _ _ _ pop_o 100 0 5 loop_g0 loop_g1 (snd (ok_of (eg_new true, []) loop_e1))); [|exact pop_o_ok|].
  - eapply ro_run; [apply ro_new|]. apply (is_ok_eq (eg_new true)). vm_compute. reflexivity.
  - fold loop_e1. rewrite (is_ok_eq (eg_new true, []) loop_e1) at 1; [|vm_compute; reflexivity]. unfold loop_g1. by rewrite <- surjective_pairing.
Qed.

(** a path from 8 to 5 whose first link is a congruence, whose children need the path from
    0 to 5, which passes the same link *)
Lemma explain_loop (ns : list (node nat)) x r1 r2 r3 :
  let M := S (length (ex_find x)) in
  is_ok (node_to_explanation (S (length ns)) ns 0) = true -> is_ok (node_to_explanation (S (length ns)) ns 6) = true -> is_ok (node_to_explanation (S (length ns)) ns 8) = true ->
  ns !! 6 = Some (Node 10 [0]) -> ns !! 7 = Some (Node 10 [5]) -> ns !! 8 = Some (Node 11 [6]) -> ns !! 9 = Some (Node 11 [7]) ->
  get_path M x 8 5 = Ok ([Conn 9 8 JCong true; Conn 5 9 r1 true], []) ->
  get_path M x 6 7 = Ok ([Conn 7 6 JCong true], []) ->
  get_path M x 0 5 = Ok ([Conn 8 0 (JRule r2) true; Conn 9 8 JCong true; Conn 5 9 r3 true], []) ->
  forall fuel ca, ca !! (8, 9) = None -> ca !! (6, 7) = None ->
    explain_enodes fuel x ns 8 5 ca = OutOfFuel /\ explain_enodes fuel x ns 6 7 ca = OutOfFuel /\ explain_enodes fuel x ns 0 5 ca = OutOfFuel.
Proof.
  intros M N0 N6 N8 H6 H7 H8 H9 G8 G6 G0. fold M in G8, G6, G0. induction fuel as [|fuel IH]; intros ca C8 C6; [done|].
  destruct (node_to_explanation _ ns 0) as [t0| |] eqn:E0; try done. destruct (node_to_explanation _ ns 6) as [t6| |] eqn:E6; try done.
  destruct (node_to_explanation (S (length ns)) ns 8) as [t8| |] eqn:E8; try done.
  destruct (IH ca C8 C6) as (I1 & I2 & I3).
  assert (Hc : forall ca, ca !! (8, 9) = None -> ca !! (6, 7) = None -> explain_adjacent (explain_enodes fuel x ns) ns (Conn 9 8 JCong true) ca = OutOfFuel).
  { intros ca' C8' C6'. unfold explain_adjacent. cbn [cn_current cn_next cn_just]. rewrite C8'. cbn [mbind res_bind]. rewrite H8, H9. cbn [expect mbind res_bind].
    change (node_matches (Node 11 [6]) (Node 11 [7])) with true. cbn [nch explain_children]. by rewrite (proj1 (proj2 (IH ca' C8' C6'))). }
  split; [|split].
  - cbn [explain_enodes]. rewrite E8. cbn [mbind res_bind]. change (S (length (ex_find x))) with M. rewrite G8. cbn [mbind res_bind reverse rev_append fmap list_fmap app explain_along].
    change (reverse []) with (@nil conn). cbn [fmap list_fmap app explain_along]. by rewrite (Hc ca C8 C6).
  - cbn [explain_enodes]. rewrite E6. cbn [mbind res_bind]. change (S (length (ex_find x))) with M. rewrite G6. cbn [mbind res_bind].
    change (reverse []) with (@nil conn). cbn [fmap list_fmap app explain_along]. unfold explain_adjacent. cbn [cn_current cn_next cn_just]. rewrite C6. cbn [mbind res_bind].
    rewrite H6, H7. cbn [expect mbind res_bind]. change (node_matches (Node 10 [0]) (Node 10 [5])) with true. cbn [nch explain_children]. by rewrite I3.
  - cbn [explain_enodes]. rewrite E0. cbn [mbind res_bind]. change (S (length (ex_find x))) with M. rewrite G0. cbn [mbind res_bind].
    change (reverse []) with (@nil conn). cbn [fmap list_fmap app explain_along]. 
    assert (Hr : exists t ca', explain_adjacent (explain_enodes fuel x ns) ns (Conn 8 0 (JRule r2) true) ca = Ok (t, ca') /\ ca' !! (8, 9) = None /\ ca' !! (6, 7) = None).
    { unfold explain_adjacent. cbn [cn_current cn_next cn_just cn_fwd]. destruct (ca !! (0, 8)) as [t|] eqn:E08; [by eauto|].
      cbn [mbind res_bind]. rewrite E8. cbn [mbind res_bind]. destruct t8 as [n b f ks]. cbn [mbind res_bind].
      eexists _, _. split; [reflexivity|]. split; rewrite lookup_insert_ne by done; done. }
    destruct Hr as (t & ca' & -> & C8' & C6'). cbn [mbind res_bind]. by rewrite (Hc ca' C8' C6').
Qed.
Definition loop_x := ok_of (Explain [] ∅ ∅) (x ← expect (eg_explain loop_g); calculate_shortest it_o cit_o pop_o 100 8 5 x (eg_nodes loop_g) (eg_classes loop_g) (eg_uf loop_g)).
Lemma loop_short fuel : 100 <= fuel ->
  (x ← expect (eg_explain loop_g); calculate_shortest it_o cit_o pop_o fuel 8 5 x (eg_nodes loop_g) (eg_classes loop_g) (eg_uf loop_g)) = Ok loop_x.
Proof.
  intros Hfu. refine (okle_bind _ _ _ _ (okle_refl _) (fun x => calculate_shortest_okle it_o cit_o pop_o x (eg_nodes loop_g) (eg_classes loop_g) (eg_uf loop_g) 8 5 100 fuel Hfu) _ _).
  apply (is_ok_eq (Explain [] ∅ ∅)). vm_compute. reflexivity.
Qed.
Lemma opt_from {Op D} `{Countable Op} it cit pop fuel l r (g : egraph Op D) x :
  eg_find g l = eg_find g r -> (x ← expect (eg_explain g); calculate_shortest it cit pop fuel l r x (eg_nodes g) (eg_classes g) (eg_uf g)) = Ok x ->
  explain_enodes fuel x (eg_nodes g) l r ∅ = OutOfFuel -> explain_id_equivalence_opt it cit pop fuel l r g = OutOfFuel.
Proof.
  intros Hf E Eo. unfold explain_id_equivalence_opt. rewrite bool_decide_eq_true_2 by done. destruct (expect (eg_explain g)) as [x0| |]; try done.
  cbn [mbind res_bind] in *. rewrite E. cbn [mbind res_bind]. by rewrite Eo.
Qed.
Lemma loop_same : eg_find loop_g 8 = eg_find loop_g 5.
Proof. vm_compute. reflexivity. Qed.
Lemma loop_clean : eg_clean loop_g = true.
Proof. vm_compute. reflexivity. Qed.
Lemma loop_known : known loop_g 8 /\ known loop_g 5.
Proof. unfold known. split; apply Nat.ltb_lt; vm_compute; reflexivity. Qed.
Lemma loop_forever fuel : 100 <= fuel -> explain_id_equivalence_opt it_o cit_o pop_o fuel 8 5 loop_g = OutOfFuel.
Proof.
  intros Hfu. apply (opt_from it_o cit_o pop_o fuel 8 5 loop_g loop_x loop_same (loop_short fuel Hfu)).
  refine (proj1 (explain_loop (eg_nodes loop_g) loop_x (JRule 202) 203 (JRule 202) _ _ _ _ _ _ _ _ _ _ fuel ∅ _ _));
    vm_compute; reflexivity.
Qed.

(** ** Two explanations of one e-graph *)
Definition opt_g1 : egraph nat unit := fst (ok_of (eg_new true, []) (explain_id_equivalence_opt it_o cit_o pop_o 100 4 6 (exp_g true))).
Lemma opt_explained : explained it_o cit_o (exp_g true) opt_g1.
Proof.
  eapply (xd_step _ _ _ (exp_g true) opt_g1 pop_o 100 4 6 (snd (ok_of (eg_new true, []) (explain_id_equivalence_opt it_o cit_o pop_o 100 4 6 (exp_g true)))));
    [apply xd_refl|exact pop_o_ok|].
  rewrite (is_ok_eq (eg_new true, []) (explain_id_equivalence_opt it_o cit_o pop_o 100 4 6 (exp_g true))) at 1; [|vm_compute; reflexivity].
  unfold opt_g1. by rewrite <- surjective_pairing.
Qed.
Lemma opt_again : (length <$> (snd <$> explain_id_equivalence_opt it_o cit_o pop_o 100 6 4 opt_g1)) = Ok 2.
Proof. vm_compute. reflexivity. Qed.

(** ** One node *)
Definition one_g : egraph nat unit := ok_of (eg_new true) (session natlang unitan 10 true (PAdd (Node 0 []) (fun _ => PRet))).
Lemma one_reach : reachable natlang unitan true one_g.
Proof. eapply (session_reachable natlang unitan 10 true (PAdd (Node 0 []) (fun _ => PRet))). apply is_ok_eq. vm_compute. reflexivity. Qed.
Lemma one_len : length (eg_uf one_g) = 1.
Proof. vm_compute. reflexivity. Qed.
Lemma one_congr fuel : 10 <= fuel -> get_num_congr it_o cit_o fuel one_g = Ok 1.
Proof.
  intros Hfu. assert (E : get_num_congr it_o cit_o 10 one_g = Ok 1) by (vm_compute; reflexivity). revert E. unfold get_num_congr.
  destruct (expect (eg_explain one_g)) as [x| |]; try done. cbn [mbind res_bind]. intros E.
  destruct (find_congruence_neighbors it_o cit_o 10 x _ _ _) as [cn| |] eqn:Ec; try done.
  by rewrite (find_congruence_neighbors_same it_o cit_o x x _ _ _ 10 fuel cn eq_refl Hfu Ec).
Qed.

(** ** Other ids of the e-graph with the endless explanation *)
Lemma loop_other : (length <$> (snd <$> explain_id_equivalence_opt it_o cit_o pop_o 100 9 5 loop_g)) = Ok 2.
Proof. vm_compute. reflexivity. Qed.
Lemma loop_other_off : is_ok (explain_id_equivalence 100 9 5 loop_g) = true.
Proof. vm_compute. reflexivity. Qed.
Definition has_add (n : node nat) (i : nat) (h : list (event nat)) : bool :=
  existsb (fun e => match e with EAdd m j => bool_decide (n = m) && bool_decide (i = j) | _ => false end) h.
Lemma has_add_in n i h : has_add n i h = true -> EAdd n i ∈ h.
Proof.
  unfold has_add. rewrite existsb_exists. intros ([m j|] & Hi & He); [|done]. apply andb_true_iff in He as [E1%bool_decide_eq_true E2%bool_decide_eq_true].
  subst. by apply elem_of_list_In.
Qed.
Lemma loop_added : AddedAs (eg_log loop_g) 9 (TNode 11 [TNode 10 [TNode 5 []]]) /\ AddedAs (eg_log loop_g) 5 (TNode 5 []).
Proof.
  assert (H5 : AddedAs (eg_log loop_g) 5 (TNode 5 [])).
  { apply (added _ 5 []); [apply has_add_in; vm_compute; reflexivity|constructor]. }
  split; [|exact H5]. apply (added _ 11 [7]); [apply has_add_in; vm_compute; reflexivity|]. constructor; [|constructor].
  apply (added _ 10 [5]); [apply has_add_in; vm_compute; reflexivity|]. constructor; [exact H5|constructor].
Qed.
