(** More fuel never changes an answer of the length optimiser. *)
From Verif Require Import Base UnionFind EGraphModel Terms RecExprModel ExprModel ExplainModel OptModel OptExplain OptCong.

Definition okle {A} (r r' : res A) : Prop := forall a, r = Ok a -> r' = Ok a.
Lemma okle_refl {A} (r : res A) : okle r r.
Proof. by intros a. Qed.
Lemma okle_bind {A B} (r r' : res A) (k k' : A -> res B) : okle r r' -> (forall a, okle (k a) (k' a)) -> okle (r ≫= k) (r' ≫= k').
Proof. intros Hr Hk b Hb. destruct r as [a| |]; try done. rewrite (Hr a eq_refl). cbn [mbind res_bind] in *. by apply Hk. Qed.
Lemma okle_foldM {A B} (f f' : B -> A -> res B) l : (forall b a, okle (f b a) (f' b a)) -> forall b, okle (foldM f l b) (foldM f' l b).
Proof. intros Hf. induction l as [|a l IH]; intros b; cbn [foldM]; [apply okle_refl|]. by apply okle_bind. Qed.

Section mono.
Context {Op D : Type} `{Countable Op}.
Notation node := (node Op).
Notation explain := (explain Op).
Notation eclass := (eclass Op D).
Implicit Types (x : explain) (ns : list node).

Ltac ok := repeat (apply okle_refl || (apply okle_bind; [|intros ?]) || case_match || done).

(** ** Explanations *)
Section adjacent.
Context (rec rec' : nat -> nat -> gmap (nat * nat) (ttree Op) -> res (list (ttree Op) * gmap (nat * nat) (ttree Op))).
Context (Hrec : forall l r ca, okle (rec l r ca) (rec' l r ca)).
Lemma explain_children_okle cs : forall ds ca, okle (explain_children rec cs ds ca) (explain_children rec' cs ds ca).
Proof.
  induction cs as [|c cs IH]; intros [|d ds] ca; cbn [explain_children]; try apply okle_refl. apply okle_bind; [apply Hrec|]. intros [p ca1].
  apply okle_bind; [apply IH|]. intros [ps ca2]. apply okle_refl.
Qed.
Lemma explain_adjacent_okle ns c ca : okle (explain_adjacent rec ns c ca) (explain_adjacent rec' ns c ca).
Proof.
  unfold explain_adjacent. destruct (ca !! _); [apply okle_refl|]. apply okle_bind; [|intros [t ca1]; apply okle_refl].
  destruct (cn_just c); [apply okle_refl|]. apply okle_bind; [apply okle_refl|intros n]. apply okle_bind; [apply okle_refl|intros m].
  destruct (node_matches n m); [|apply okle_refl]. apply okle_bind; [apply explain_children_okle|intros [ks ca1]; apply okle_refl].
Qed.
Lemma explain_along_okle ns cs : forall ca, okle (explain_along rec ns cs ca) (explain_along rec' ns cs ca).
Proof.
  induction cs as [|c cs IH]; intros ca; cbn [explain_along]; [apply okle_refl|]. apply okle_bind; [apply explain_adjacent_okle|]. intros [t ca1].
  apply okle_bind; [apply IH|]. intros [ts ca2]. apply okle_refl.
Qed.
End adjacent.
Lemma explain_enodes_okle x ns fuel : forall fuel' l r ca, fuel <= fuel' -> okle (explain_enodes fuel x ns l r ca) (explain_enodes fuel' x ns l r ca).
Proof.
  induction fuel as [|fuel IH]; intros fuel' l r ca Hle; [by intros a|]. destruct fuel' as [|fuel']; [lia|]. cbn [explain_enodes].
  apply okle_bind; [apply okle_refl|intros t]. apply okle_bind; [apply okle_refl|intros [lc rc]].
  apply okle_bind; [|intros [ts ca1]; apply okle_refl]. apply explain_along_okle. intros. apply IH. lia.
Qed.

(** ** Distances *)
Section dist.
Context x ns (ca : gmap (nat * nat) nat) (dm : gmap nat nat).
Section rec.
Context (rec rec' : nat -> nat -> pdist -> res (nat * pdist)) (Hrec : forall l r pd, okle (rec l r pd) (rec' l r pd)).
Lemma children_distance_okle cs : forall ds pd, okle (children_distance rec cs ds pd) (children_distance rec' cs ds pd).
Proof.
  induction cs as [|c cs IH]; intros [|d ds] pd; cbn [children_distance]; try apply okle_refl. apply okle_bind; [apply Hrec|]. intros [p pd1].
  apply okle_bind; [apply IH|]. intros [ps pd2]. apply okle_refl.
Qed.
Lemma congruence_distance_okle a b pd : okle (congruence_distance ns rec a b pd) (congruence_distance ns rec' a b pd).
Proof.
  unfold congruence_distance. apply okle_bind; [apply okle_refl|intros n]. apply okle_bind; [apply okle_refl|intros m]. apply children_distance_okle.
Qed.
Lemma connection_distance_okle c pd : okle (connection_distance ns rec c pd) (connection_distance ns rec' c pd).
Proof. unfold connection_distance. destruct (cn_just c); [apply okle_refl|apply congruence_distance_okle]. Qed.
Lemma parent_distance_loop_okle fuel : forall e anc pd, okle (parent_distance_loop x ns dm rec fuel e anc pd) (parent_distance_loop x ns dm rec' fuel e anc pd).
Proof.
  induction fuel as [|fuel IH]; intros e anc pd; cbn [parent_distance_loop]; [apply okle_refl|].
  apply okle_bind; [apply okle_refl|intros [p d]]. apply okle_bind; [apply okle_refl|intros pp]. case_bool_decide; [apply okle_refl|].
  apply okle_bind; [apply okle_refl|intros [p' d']]. case_bool_decide; [apply IH|]. destruct anc as [a|]; [|apply okle_refl].
  apply okle_bind; [apply okle_refl|intros dp]. apply okle_bind; [apply okle_refl|intros da]. destruct (dp <=? da); [apply okle_refl|].
  apply okle_bind; [apply okle_refl|intros nd]. apply okle_bind; [apply connection_distance_okle|intros [k pd1]]. apply IH.
Qed.
Lemma parent_distance_okle e anc pd : okle (parent_distance x ns dm rec e anc pd) (parent_distance x ns dm rec' e anc pd).
Proof. unfold parent_distance. apply okle_bind; [apply parent_distance_loop_okle|intros pd1; apply okle_refl]. Qed.
Lemma distance_step_okle l r pd : okle (distance_step x ns ca dm rec l r pd) (distance_step x ns ca dm rec' l r pd).
Proof.
  unfold distance_step. case_bool_decide; [apply okle_refl|]. apply okle_bind; [apply okle_refl|intros a].
  do 5 (apply okle_bind; [apply parent_distance_okle|intros [? ?]]). apply okle_refl.
Qed.
End rec.
Lemma distance_between_okle fuel : forall fuel' l r pd, fuel <= fuel' -> okle (distance_between x ns ca dm fuel l r pd) (distance_between x ns ca dm fuel' l r pd).
Proof.
  induction fuel as [|fuel IH]; intros fuel' l r pd Hle; [by intros a|]. destruct fuel' as [|fuel']; [lia|]. cbn [distance_between].
  apply distance_step_okle. intros. apply IH. lia.
Qed.

(** ** Paths *)
Context (pop : list (list hentry) -> list hentry -> option (hentry * list hentry)) (cn : list (list nat)) (fuel fuel' : nat) (Hle : fuel <= fuel').
Lemma cong_entries_okle cost cur others : forall pd, okle (cong_entries x ns ca dm fuel cost cur others pd) (cong_entries x ns ca dm fuel' cost cur others pd).
Proof.
  induction others as [|o others IH]; intros pd; cbn [cong_entries]; [apply okle_refl|].
  apply okle_bind; [apply congruence_distance_okle; intros; by apply distance_between_okle|intros [k pd1]]. apply okle_bind; [apply IH|intros [es pd2]; apply okle_refl].
Qed.
Lemma search_loop_okle fl : forall fl' goal tr heap last pc pd, fl <= fl' ->
  okle (search_loop x ns ca dm pop cn fuel fl goal tr heap last pc pd) (search_loop x ns ca dm pop cn fuel' fl' goal tr heap last pc pd).
Proof.
  induction fl as [|fl IH]; intros fl' goal tr heap last pc pd Hl; [by intros a|]. destruct fl' as [|fl']; [lia|]. cbn [search_loop].
  destruct (pop tr heap) as [[[cost c] heap']|]; [|apply okle_refl]. destruct (last !! cn_next c); [apply IH; lia|].
  case_bool_decide; [apply okle_refl|]. apply okle_bind; [apply okle_refl|intros nd]. apply okle_bind; [apply okle_refl|intros others].
  apply okle_bind; [apply cong_entries_okle|intros [ces pd1]]. apply IH. lia.
Qed.
Lemma search_back_okle fl : forall fl' last start cur acc, fl <= fl' -> okle (search_back fl last start cur acc) (search_back fl' last start cur acc).
Proof.
  induction fl as [|fl IH]; intros fl' last start cur acc Hl; [by intros a|]. destruct fl' as [|fl']; [lia|]. cbn [search_back].
  case_bool_decide; [apply okle_refl|]. destruct (last !! cur); [apply IH; lia|apply okle_refl].
Qed.
Lemma populate_loop_okle right cs : forall sh pd, okle (populate_loop x ns ca dm fuel right cs sh pd) (populate_loop x ns ca dm fuel' right cs sh pd).
Proof.
  induction cs as [|c cs IH]; intros sh pd; cbn [populate_loop]; [apply okle_refl|].
  apply okle_bind; [apply IH|intros [sh1 pd1]]. apply okle_bind; [apply okle_refl|intros [k ?]].
  apply okle_bind; [apply connection_distance_okle; intros; by apply distance_between_okle|intros [d pd2]; apply okle_refl].
Qed.
Lemma shortest_path_okle start goal sh pd : okle (shortest_path x ns ca dm pop cn fuel start goal sh pd) (shortest_path x ns ca dm pop cn fuel' start goal sh pd).
Proof.
  unfold shortest_path. cbn zeta. apply okle_bind; [by apply search_loop_okle|intros [[last pc] pd1]]. apply okle_bind; [apply okle_refl|intros total].
  apply okle_bind; [by apply distance_between_okle|intros [d pd2]]. destruct (d <=? total); [apply okle_refl|].
  apply okle_bind; [by apply search_back_okle|intros cs]. unfold populate_path_length. apply okle_bind; [apply populate_loop_okle|intros [sh1 pd3]; apply okle_refl].
Qed.
Lemma find_all_enodes_okle c : okle (find_all_enodes fuel x c) (find_all_enodes fuel' x c).
Proof. intros s. by apply find_all_enodes_same. Qed.
Lemma greedy_okle k : forall gf todo sh pd, okle (greedy x ns ca dm pop cn fuel k gf todo sh pd) (greedy x ns ca dm pop cn fuel' k gf todo sh pd).
Proof.
  induction k as [|k IH]; intros gf todo sh pd; cbn [greedy]; [apply okle_refl|].
  induction todo as [|[start goal] todo IHt]; [apply okle_refl|]. apply okle_bind; [apply find_all_enodes_okle|intros s].
  destruct (gf <? base.size s); [apply IHt|]. apply okle_bind; [apply shortest_path_okle|intros [[[lc rc] sh1] pd1]].
  apply okle_bind; [apply okle_refl|intros new]. apply IH.
Qed.
End dist.

(** ** The table of ancestors *)
Lemma tarjan_okle km q fuel : forall fuel' e st, fuel <= fuel' -> okle (tarjan fuel km q e st) (tarjan fuel' km q e st).
Proof.
  induction fuel as [|fuel IH]; intros fuel' e st Hle; [by intros a|]. destruct fuel' as [|fuel']; [lia|]. cbn [tarjan].
  apply okle_bind; [apply okle_refl|intros _]. apply okle_bind; [apply okle_refl|intros cs]. apply okle_bind; [|intros; apply okle_refl].
  apply okle_foldM. intros st1 c. apply okle_bind; [apply IH; lia|intros; apply okle_refl].
Qed.
Context (it : gset nat -> list nat) (cit : gmap nat eclass -> list nat).
Lemma common_ancestor_okle x ns cl cn fuel fuel' : fuel <= fuel' ->
  okle (calculate_common_ancestor it cit fuel x ns cl cn) (calculate_common_ancestor it cit fuel' x ns cl cn).
Proof.
  intros Hle. unfold calculate_common_ancestor. apply okle_bind; [apply okle_refl|intros q]. apply okle_bind; [|intros; apply okle_refl].
  apply okle_foldM. intros st c. apply okle_bind; [by apply find_all_enodes_okle|intros s]. apply okle_bind; [apply okle_refl|intros km].
  apply okle_bind; [apply okle_refl|intros e]. apply okle_bind; [apply okle_refl|intros root]. by apply tarjan_okle.
Qed.
Lemma calculate_shortest_okle pop x ns cl u l r fuel fuel' : fuel <= fuel' ->
  okle (calculate_shortest it cit pop fuel l r x ns cl u) (calculate_shortest it cit pop fuel' l r x ns cl u).
Proof.
  intros Hle. unfold calculate_shortest. apply okle_bind; [intros cn Hcn; by eapply find_congruence_neighbors_same|intros cn].
  apply okle_bind; [by apply common_ancestor_okle|intros ca]. apply okle_bind; [apply okle_refl|intros dm]. cbn zeta.
  apply okle_bind; [by apply greedy_okle|intros [sh pd]; apply okle_refl].
Qed.
(** the answer does not depend on the fuel *)
Lemma explain_opt_okle pop l r (g : egraph Op D) fuel fuel' : fuel <= fuel' ->
  okle (explain_id_equivalence_opt it cit pop fuel l r g) (explain_id_equivalence_opt it cit pop fuel' l r g).
Proof.
  intros Hle. unfold explain_id_equivalence_opt. case_bool_decide; [|apply okle_refl]. apply okle_bind; [apply okle_refl|intros x].
  apply okle_bind; [by apply calculate_shortest_okle|intros x1]. apply okle_bind; [by apply explain_enodes_okle|intros [p ca]; apply okle_refl].
Qed.
End mono.
