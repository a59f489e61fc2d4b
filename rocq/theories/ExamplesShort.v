(** E-graphs for the theorems on the length of optimised explanations. *)
From Verif Require Import Base UnionFind Spec EGraphModel EGraphReach ExplainModel ExplainSpec ExplainFlat MatchSpec OptModel OptSpec OptSolid Examples ExamplesExplain ExamplesOpt ShortSpec OptShortMain.

(** ** Telling ids apart by a model *)
Definition respects (F : nat -> list nat -> nat) (nu : nat -> nat) (e : event nat) : bool :=
  match e with EUnion a b _ => nu a =? nu b | EAdd n i => nu i =? F (nop n) (nu <$> nch n) end.
Lemma Cong_respects F nu h a b : forallb (respects F nu) h = true -> Cong h a b -> nu a = nu b.
Proof.
  intros Hf. rewrite forallb_forall in Hf. induction 1 as [i|i j _ IH|i j k _ IH1 _ IH2|a b r Hr|f cs ds i j Hi Hj El Hk IH]; [done|done|congruence| |].
  - apply Nat.eqb_eq. apply (Hf (EUnion a b r)). by apply elem_of_list_In.
  - apply elem_of_list_In in Hi, Hj. apply Hf in Hi, Hj. cbn in Hi, Hj. apply Nat.eqb_eq in Hi, Hj. rewrite Hi, Hj. f_equal. clear -El IH.
    revert ds El IH. induction cs as [|c cs IHc]; intros [|d ds] El IH; try done. rewrite !fmap_cons. f_equal; [by apply (IH 0)|]. apply IHc; [by injection El|].
    intros k c' d' Hc Hd. by apply (IH (S k)).
Qed.
Fixpoint irr (pre h : list (event nat)) : Prop :=
  match h with
  | [] => True
  | EUnion a b r :: h2 => (exists F nu, forallb (respects F nu) (adds pre ++ h2) = true /\ nu a <> nu b) /\ irr (pre ++ [EUnion a b r]) h2
  | e :: h2 => irr (pre ++ [e]) h2
  end.
Lemma irr_ok h : forall pre, irr pre h -> forall h1 a b r h2, h = h1 ++ EUnion a b r :: h2 -> ~ Cong (adds (pre ++ h1) ++ h2) a b.
Proof.
  induction h as [|e h IH]; intros pre Hi h1 a b r h2 E; [by destruct h1|]. destruct h1 as [|e' h1]; injection E as -> E.
  - subst. cbn in Hi. destruct Hi as [(F & nu & Hf & Hn) _]. rewrite app_nil_r. intros Hc. by apply (Cong_respects F nu) in Hc.
  - replace (pre ++ e' :: h1) with ((pre ++ [e']) ++ h1) by (by rewrite <- app_assoc). apply (IH (pre ++ [e'])) with (r := r); [|done]. destruct e'; cbn in Hi; [done|apply Hi].
Qed.
Lemma irr_irredundant h : irr [] h -> irredundant h.
Proof. intros Hi h1 a b r h2 E. by apply (irr_ok h [] Hi h1 a b r h2). Qed.
(** unions between e-nodes with different operators *)
Definition op_of (h : list (event nat)) (a : nat) : list nat := h ≫= (fun e => match e with EAdd n i => if i =? a then [nop n] else [] | _ => [] end).
Definition diff_ops (h : list (event nat)) : bool :=
  forallb (fun e => match e with EUnion a b _ => forallb (fun f => negb (existsb (Nat.eqb f) (op_of h b))) (op_of h a) | _ => true end) h.
Lemma elem_of_op_of h n a : EAdd n a ∈ h -> nop n ∈ op_of h a.
Proof. intros Hn. unfold op_of. apply elem_of_list_bind. exists (EAdd n a). split; [|done]. rewrite Nat.eqb_refl. by left. Qed.
Lemma diff_informative h : diff_ops h = true -> informative h.
Proof.
  intros Hd a b r f cs ds Hu Ha Hb _. unfold diff_ops in Hd. rewrite forallb_forall in Hd. apply elem_of_list_In in Hu. specialize (Hd _ Hu). cbn in Hd.
  rewrite forallb_forall in Hd. apply elem_of_op_of in Ha, Hb. apply elem_of_list_In in Ha, Hb. specialize (Hd _ Ha). apply negb_true_iff in Hd. cbn [nop] in Hd, Hb.
  enough (existsb (Nat.eqb f) (op_of h b) = true) by congruence. apply existsb_exists. exists f. split; [done|]. apply Nat.eqb_refl.
Qed.
Lemma add_leaf h f i : has_add (Node f []) i h = true -> AddedAs h i (TNode f []).
Proof. intros Ha. eapply added; [by apply has_add_in|constructor]. Qed.
Lemma add_unary h f c i t : has_add (Node f [c]) i h = true -> AddedAs h c t -> AddedAs h i (TNode f [t]).
Proof. intros Ha Ht. eapply added; [by apply has_add_in|]. constructor; [done|constructor]. Qed.

Definition lens (g : egraph nat unit) l r : res nat * res nat :=
  ((q ← explain_id_equivalence 50 l r g; fl ← make_flat q; Ok (length fl)),
   (p ← explain_id_equivalence_opt it_o cit_o pop_o 50 l r g; fl ← make_flat p.2; Ok (length fl))).
(** ** A chain of unions and a redundant one that cuts it short *)
Definition cut_p : prog nat unit := ExamplesOpt.adds [Node 0 []; Node 1 []; Node 2 []; Node 3 []]
  (ExamplesOpt.unions [(0,1);(1,2);(2,3);(1,3)] 10 (PRebuild (fun _ => PRet))).
Definition cut_g : egraph nat unit := ok_of (eg_new true) (session natlang unitan 30 true cut_p).
Lemma cut_reach : reachable natlang unitan true cut_g.
Proof. eapply (session_reachable natlang unitan 30 true cut_p). apply is_ok_eq. vm_compute. reflexivity. Qed.
Lemma cut_informative : informative (eg_log cut_g).
Proof. apply diff_informative. vm_compute. reflexivity. Qed.
Lemma cut_added : AddedAs (eg_log cut_g) 0 (TNode 0 []) /\ AddedAs (eg_log cut_g) 3 (TNode 3 []).
Proof. split; apply add_leaf; vm_compute; reflexivity. Qed.
Definition has_union (a b r : nat) (h : list (event nat)) : bool :=
  existsb (fun e => match e with EUnion a' b' r' => (a =? a') && (b =? b') && (r =? r') | _ => false end) h.
Lemma has_union_in a b r h : has_union a b r h = true -> EUnion a b r ∈ h.
Proof.
  unfold has_union. rewrite existsb_exists. intros ([|a' b' r'] & Hi & He); [done|]. apply andb_true_iff in He as [He E3%Nat.eqb_eq].
  apply andb_true_iff in He as [E1%Nat.eqb_eq E2%Nat.eqb_eq]. subst. by apply elem_of_list_In.
Qed.
Lemma cut_unions : ShortSpec.unions (eg_log cut_g) 0 3 2.
Proof.
  apply (un_cons _ 0 1 3 10); [left; apply has_union_in; vm_compute; reflexivity|]. apply (un_cons _ 1 3 3 13); [left; apply has_union_in; vm_compute; reflexivity|]. apply un_nil.
Qed.
Lemma cut_lens : lens cut_g 0 3 = (Ok 4, Ok 3).
Proof. vm_compute. reflexivity. Qed.
(** ** A congruence that cuts a chain of unions short *)
Definition via_p : prog nat unit := ExamplesOpt.adds [Node 0 []; Node 1 []; Node 9 [0]; Node 9 [1]; Node 2 []; Node 3 []]
  (ExamplesOpt.unions [(2,4);(4,5);(5,3);(0,1)] 10 (PRebuild (fun _ => PRet))).
Definition via_g : egraph nat unit := ok_of (eg_new true) (session natlang unitan 30 true via_p).
Lemma via_reach : reachable natlang unitan true via_g.
Proof. eapply (session_reachable natlang unitan 30 true via_p). apply is_ok_eq. vm_compute. reflexivity. Qed.
Lemma via_log : eg_log via_g = [EUnion 0 1 13; EUnion 5 3 12; EUnion 4 5 11; EUnion 2 4 10; EAdd (Node 3 []) 5; EAdd (Node 2 []) 4;
  EAdd (Node 9 [1]) 3; EAdd (Node 9 [0]) 2; EAdd (Node 1 []) 1; EAdd (Node 0 []) 0].
Proof. vm_compute. reflexivity. Qed.
Definition via_F (a2 a3 : nat) (c1 : nat) (f : nat) (cs : list nat) : nat :=
  match f, cs with 2, [] => a2 | 3, [] => a3 | 9, [1] => c1 | 9, _ => 12 | _, _ => f end.
Definition via_nu (l : list nat) (i : nat) : nat := default 0 (l !! i).
Lemma via_irredundant : irredundant (eg_log via_g).
Proof.
  rewrite via_log. apply irr_irredundant. cbn [irr app].
  split; [exists (via_F 12 12 12), (via_nu [0; 1; 12; 12; 12; 12]); split; [vm_compute; reflexivity|done]|].
  split; [exists (via_F 12 12 13), (via_nu [0; 1; 12; 13; 12; 12]); split; [vm_compute; reflexivity|done]|].
  split; [exists (via_F 12 15 13), (via_nu [0; 1; 12; 13; 12; 15]); split; [vm_compute; reflexivity|done]|].
  split; [exists (via_F 14 15 13), (via_nu [0; 1; 12; 13; 14; 15]); split; [vm_compute; reflexivity|done]|]. exact I.
Qed.
Lemma via_added : AddedAs (eg_log via_g) 2 (TNode 9 [TNode 0 []]) /\ AddedAs (eg_log via_g) 3 (TNode 9 [TNode 1 []]).
Proof. rewrite via_log. split; [apply (add_unary _ 9 0)|apply (add_unary _ 9 1)]; try (vm_compute; reflexivity); apply add_leaf; vm_compute; reflexivity. Qed.
Lemma via_lens : lens via_g 2 3 = (Ok 4, Ok 2).
Proof. vm_compute. reflexivity. Qed.
(** ** A redundant union the forest does not record: the congruence is then cheaper than the
    optimiser believes *)
Definition far_p : prog nat unit := ExamplesOpt.adds [Node 0 []; Node 1 []; Node 2 []; Node 3 []; Node 4 []; Node 9 [0]; Node 9 [4]; Node 5 []]
  (ExamplesOpt.unions [(0,1);(1,2);(2,3);(3,4);(0,4)] 10 (PRebuild (fun _ => ExamplesOpt.unions [(5,7);(7,6)] 20 (PRebuild (fun _ => PRet))))).
Definition far_g : egraph nat unit := ok_of (eg_new true) (session natlang unitan 30 true far_p).
Lemma far_reach : reachable natlang unitan true far_g.
Proof. eapply (session_reachable natlang unitan 30 true far_p). apply is_ok_eq. vm_compute. reflexivity. Qed.
Lemma far_informative : informative (eg_log far_g).
Proof. apply diff_informative. vm_compute. reflexivity. Qed.
Lemma far_lens : lens far_g 5 6 = (Ok 2, Ok 3).
Proof. vm_compute. reflexivity. Qed.
Lemma far_clean : eg_clean far_g = true.
Proof. vm_compute. reflexivity. Qed.
Lemma lens_split (g : egraph nat unit) l r n m : lens g l r = (Ok n, Ok m) ->
  exists q fl g2 p fl', explain_id_equivalence 50 l r g = Ok q /\ make_flat q = Ok fl /\ length fl = n /\
    explain_id_equivalence_opt it_o cit_o pop_o 50 l r g = Ok (g2, p) /\ make_flat p = Ok fl' /\ length fl' = m.
Proof.
  unfold lens. destruct (explain_id_equivalence 50 l r g) as [q| |]; try done. cbn [mbind res_bind]. destruct (make_flat q) as [fl| |] eqn:E1; try done.
  cbn [mbind res_bind]. destruct (explain_id_equivalence_opt it_o cit_o pop_o 50 l r g) as [[g2 p]| |]; try done. cbn [mbind res_bind snd].
  destruct (make_flat p) as [fl'| |] eqn:E2; try done. cbn [mbind res_bind]. intros [= <- <-]. exists q, fl, g2, p, fl'. done.
Qed.
Lemma far_longer : exists q fl g2 p fl', explain_id_equivalence 50 5 6 far_g = Ok q /\ make_flat q = Ok fl /\
  explain_id_equivalence_opt it_o cit_o pop_o 50 5 6 far_g = Ok (g2, p) /\ make_flat p = Ok fl' /\ length fl < length fl'.
Proof.
  destruct (lens_split far_g 5 6 2 3 far_lens) as (q & fl & g2 & p & fl' & E1 & E2 & E3 & E4 & E5 & E6). exists q, fl, g2, p, fl'.
  split; [exact E1|]. split; [exact E2|]. split; [exact E4|]. split; [exact E5|]. lia.
Qed.
