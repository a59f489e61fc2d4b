(** Lives used by the examples in PropertiesLife.v. *)
From Verif Require Import Base UnionFind EGraphModel EGraphPres Spec EGraphReach ExplainModel ExplainSpec ExplainMain SerdeModel SerdeSpec LifeModel LifeSpec
  Examples ExamplesExplain ExamplesSerde.

Lemma reach_lived {Op D} `{Countable Op} (L : lang Op) (A : analysis Op D) Q ex g : reach L A Q ex g -> lived L A Q g.
Proof. induction 1; [apply lived_new|by eapply lived_run]. Qed.
Definition after (p : prog nat unit) (g : egraph nat unit) : egraph nat unit := ok_of g (run_prog natlang unitan 20 (modify_n natlang unitan 20) p g).
Lemma after_lived Q p g : lived natlang unitan Q g -> Q p -> is_ok (run_prog natlang unitan 20 (modify_n natlang unitan 20) p g) = true ->
  lived natlang unitan Q (after p g).
Proof. intros R Hp E. apply (lived_run _ _ _ 20 p g); [done|done|]. by apply is_ok_eq. Qed.
(** x, y, f(x), f(y), g(f(x)), g(f(y)) with x = y, explained and not rebuilt; explanations are switched off; h(x) is added, joined with x, rebuilt; saved and
    loaded; rebuilt *)
Definition off_g : egraph nat unit := after morep (with_explanations_disabled (cong_g true false)).
Definition life_g : egraph nat unit := after (PRebuild (fun _ => PRet)) (load (save off_g)).
Lemma life_g_np : lives_np natlang unitan life_g.
Proof.
  split; [done|]. apply after_lived; [|cbn; tauto|vm_compute; reflexivity]. apply lived_loaded.
  apply after_lived; [|cbn; tauto|vm_compute; reflexivity]. apply lived_off. eapply reach_lived. apply (cong_g_reachable_np true false).
Qed.
Lemma life_g_facts : eg_clean life_g = true /\ are_explanations_enabled life_g = false /\ eg_find life_g 4 = eg_find life_g 5 /\ eg_find life_g 6 = eg_find life_g 0 /\
  eg_find life_g 2 <> eg_find life_g 0 /\ length (eg_uf life_g) = 7.
Proof. vm_compute. done. Qed.
(** explained, loaded, an equality stated again, loaded *)
Definition told_g : egraph nat unit := load (save (after (PUnionTrusted 0 2 9 (fun _ => PRebuild (fun _ => PRet))) (load (save (exp_g true))))).
Lemma told_lives : lives natlang unitan told_g.
Proof.
  apply lived_loaded. apply after_lived; [|done|vm_compute; reflexivity]. apply lived_loaded. eapply reach_lived. apply (exp_reachable true).
Qed.
Lemma told_log : eg_log told_g = EUnion 0 2 9 :: eg_log (exp_g true).
Proof. vm_compute. reflexivity. Qed.
Lemma AddedAs_more (e : event nat) h i t : AddedAs h i t -> AddedAs (e :: h) i t.
Proof. revert i t. apply AddedAs_ind'. intros i f cs ts Hi _ IH. econstructor; [|exact IH]. by right. Qed.
Lemma told_added : AddedAs (eg_log told_g) 4 hxt /\ AddedAs (eg_log told_g) 6 hzt.
Proof. rewrite told_log. destruct exp_added. split; by apply AddedAs_more. Qed.
Lemma told_facts : are_explanations_enabled told_g = true /\ eg_find told_g 4 = eg_find told_g 6 /\ n_steps (explain_id_equivalence 10 4 6 told_g) = Ok 2.
Proof. split; [vm_compute; reflexivity|]. split; vm_compute; reflexivity. Qed.
Lemma switch_facts : with_explanations_enabled (cong_g false true) = Panic /\ is_ok (with_explanations_enabled (eg_new false : egraph nat unit)) = true.
Proof. split; vm_compute; reflexivity. Qed.
