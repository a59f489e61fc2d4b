(** E-graphs used by the examples in PropertiesSerde.v. *)
From Verif Require Import Base UnionFind EGraphModel EGraphPres Spec EGraphReach MachineModel MatchSpec ExplainModel ExplainSpec SerdeModel SerdeSpec
  Examples ExamplesMatch ExamplesExplain.

Lemma unitan_blind : blind_analysis unitan.
Proof. by constructor. Qed.
(** adds h(x) to x, y, f(x), f(y), g(f(x)), g(f(y)) and joins it with x *)
Definition morep : prog nat unit := PAdd (Node 9 [0]) (fun i => PUnion i 0 8 (fun _ => PRebuild (fun _ => PRet))).
Lemma morep_blind : blind morep.
Proof. cbn. tauto. Qed.
Definition more_ends (g : egraph nat unit) : bool := is_ok (run_prog natlang unitan 20 (modify_n natlang unitan 20) morep g).
Lemma more_ok : more_ends (cong_g false false) = true /\ more_ends (load (save (cong_g false false))) = true.
Proof. split; vm_compute; reflexivity. Qed.
Lemma cong_unexplained rb : eg_explain (cong_g false rb) = None.
Proof. destruct rb; vm_compute; reflexivity. Qed.
Definition loaded_count (g : egraph nat unit) : res nat := snd <$> rebuild natlang unitan 20 (modify_n natlang unitan 20) (load (save g)).
Definition listed (m : gmap nat (gset nat)) : list (nat * list nat) := (fun '(k, s) => (k, elements s)) <$> map_to_list m.
Definition found (r : res (list smatch)) : res (list (nat * nat)) := (fun l => map (fun m => (sm_class m, length (sm_substs m))) l) <$> r.
Definition search_in (g : egraph nat unit) : res (list (nat * nat)) := found (search_with_limit natlang it0 false (compiled pat_f01) g 100).
Lemma match_found : search_in match_g <> Ok [] /\ search_in (load (save match_g)) = Ok [].
Proof. split; [vm_compute; discriminate|vm_compute; reflexivity]. Qed.
Lemma found_nil r : found r = Ok [] -> r = Ok [].
Proof. destruct r as [[|m l]| |]; done. Qed.
Lemma match_lost : search_with_limit natlang it0 false (compiled pat_f01) match_g 100 <> Ok [] /\
  search_with_limit natlang it0 false (compiled pat_f01) (load (save match_g)) 100 = Ok [].
Proof.
  destruct match_found as [H1 H2]. split; [|exact (found_nil _ H2)]. intros E. apply H1. unfold search_in. rewrite E. reflexivity.
Qed.
(** the equality x = y, said again *)
Definition againp : prog nat unit := PUnionTrusted 0 1 7 (fun _ => PRet).
Definition again (g : egraph nat unit) : egraph nat unit := ok_of g (run_prog natlang unitan 20 (modify_n natlang unitan 20) againp g).
Lemma again_eq g : is_ok (run_prog natlang unitan 20 (modify_n natlang unitan 20) againp g) = true ->
  run_prog natlang unitan 20 (modify_n natlang unitan 20) againp g = Ok (again g).
Proof. apply is_ok_eq. Qed.
Definition equalities (g : egraph nat unit) : list (nat * nat * nat) := match eg_explain g with Some x => union_equalities x | None => [] end.
Lemma again_ok : is_ok (run_prog natlang unitan 20 (modify_n natlang unitan 20) againp (cong_g true true)) = true /\
  is_ok (run_prog natlang unitan 20 (modify_n natlang unitan 20) againp (load (save (cong_g true true)))) = true.
Proof. split; vm_compute; reflexivity. Qed.
Lemma again_twice : equalities (again (cong_g true true)) = [(0, 1, 7)] /\ equalities (again (load (save (cong_g true true)))) = [(0, 1, 7); (0, 1, 7)].
Proof. split; vm_compute; reflexivity. Qed.
Definition n_steps (r : res (list (ttree nat))) : res nat := length <$> r.
Lemma loaded_explains : n_steps (explain_id_equivalence 10 4 6 (load (save (exp_g true)))) = Ok 2 /\ eg_find (exp_g true) 4 = eg_find (exp_g true) 6.
Proof. split; vm_compute; reflexivity. Qed.
Lemma loaded_counts : loaded_count (cong_g false false) = Ok 2 /\ loaded_count (cong_g false true) = Ok 0.
Proof. split; vm_compute; reflexivity. Qed.
Lemma againp_blind : blind againp.
Proof. cbn. tauto. Qed.
