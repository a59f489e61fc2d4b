(** Property theorems about translating e-graphs into another language (C47).
    Vocabulary: Spec.v ([Rep], [reachable]), MapSpec.v ([tmap], [lang_sim], [asim], [psim]).
    [h] translates operators, [hdisc] discriminants, [hd] analysis data. *)
From Verif Require Import Base EGraphModel EGraphPres Spec EGraphReach Terms ExprModel MachineModel MatchSpec MapModel MapSpec MapProofs MapMain Examples ExamplesMatch ExamplesMap.

(** Any translation of any e-graph (explanations on or off, rebuilt or not): ids, equalities
    and class contents stay, translated; each class represents the translations of the terms
    it represented and nothing else.  With an injective translation looking up a translated
    e-node gives the same class. *)
Theorem C47_content {Op Op2 D D2} `{Countable Op, Countable Op2} (h : Op -> Op2) hdisc (hd : D -> D2) (g : egraph Op D) :
  let g2 := map_egraph h hdisc hd g in
  (forall i, eg_find g2 i = eg_find g i) /\ (forall i, known g2 i <-> known g i) /\ eg_clean g2 = eg_clean g /\
  (forall c k, eg_classes g !! c = Some k -> exists k2, eg_classes g2 !! c = Some k2 /\ c_id k2 = c_id k /\ c_data k2 = hd (c_data k) /\
    c_nodes k2 = (fun n => Node (h (nop n)) (nch n)) <$> c_nodes k) /\
  (forall c, eg_classes g !! c = None -> eg_classes g2 !! c = None) /\
  (forall t2 c, Rep g2 t2 c <-> exists t, t2 = tmap h t /\ Rep g t c) /\
  ((forall f f', h f = h f' -> f = f') -> (forall t c, Rep g2 (tmap h t) c <-> Rep g t c) /\
     forall f cs, eg_lookup g2 (Node (h f) cs) = eg_lookup g (Node f cs)).
Proof. exact (mapped_all h hdisc hd g). Qed.
Print Assumptions C47_content.
Example C47_content_ex : (forall f f', up f = up f' -> f = f') /\ eg_find mcong_g 4 = eg_find mcong_g 5 /\
  eg_lookup (map_egraph up up id mcong_g) (Node 12 [1]) = eg_lookup mcong_g (Node 2 [1]) /\ eg_lookup mcong_g (Node 2 [1]) = Some (eg_find mcong_g 2).
Proof. split; [unfold up; lia|]. split_and!; vm_compute; reflexivity. Qed.

(** Translating and then working in the target language is the same as working in the source
    language and translating at the end: same ids, same panics, also when hooks run and in
    the middle of a session (before a rebuild). *)
Theorem C47_commutes {Op Op2 D D2} `{Countable Op, Countable Op2} (h : Op -> Op2) hdisc (hd : D -> D2) (L : lang Op) (L2 : lang Op2) A A2 fuel p p2 (g : egraph Op D) :
  lang_sim h hdisc L L2 -> asim h hdisc hd A A2 -> psim h hdisc hd p p2 -> eg_explain g = None ->
  match run_prog L A fuel (modify_n L A fuel) p g, run_prog L2 A2 fuel (modify_n L2 A2 fuel) p2 (map_egraph h hdisc hd g) with
  | Ok g', Ok g2' => g2' = map_egraph h hdisc hd g'
  | Panic, Panic | OutOfFuel, OutOfFuel => True
  | _, _ => False
  end.
Proof. exact (mapped_continue h hdisc hd L L2 A A2 fuel p p2 g). Qed.
Print Assumptions C47_commutes.
Theorem C47_same_session {Op Op2 D D2} `{Countable Op, Countable Op2} (h : Op -> Op2) hdisc (hd : D -> D2) (L : lang Op) (L2 : lang Op2) A A2 fuel p p2 (g : egraph Op D) :
  lang_sim h hdisc L L2 -> asim h hdisc hd A A2 -> psim h hdisc hd p p2 ->
  session L A fuel false p = Ok g -> session L2 A2 fuel false p2 = Ok (map_egraph h hdisc hd g).
Proof. exact (mapped_session h hdisc hd L L2 A A2 fuel p p2 g). Qed.
Print Assumptions C47_same_session.
Example C47_same_session_ex : lang_sim up up natlang natlang /\ asim up up (id : unit -> unit) unitan unitan /\ psim up up (id : unit -> unit) (congp true) congp_up /\
  session natlang unitan 20 false (congp true) = Ok mcong_g.
Proof. exact (conj up_lang (conj up_an (conj congp_sim mcong_run))). Qed.

(** So a translated e-graph is one the target language's clients could have built, and
    everything proved of reachable e-graphs (congruence, searching, extraction, ...) holds of it. *)
Theorem C47_reachable {Op Op2 D D2} `{Countable Op, Countable Op2} (h : Op -> Op2) hdisc (hd : D -> D2) (hinv : Op2 -> Op) (hdinv : D2 -> D) (dinv : nat -> nat)
    (L : lang Op) (L2 : lang Op2) A A2 (g : egraph Op D) :
  (forall f, hinv (h f) = f) -> (forall d, hdinv (hd d) = d) -> (forall d, dinv (hdisc d) = d) ->
  lang_sim h hdisc L L2 -> asim h hdisc hd A A2 ->
  (reachable L A false g -> reachable L2 A2 false (map_egraph h hdisc hd g)) /\
  ((forall i, no_prune (an_modify A2 i)) -> reachable_np L A false g -> reachable_np L2 A2 false (map_egraph h hdisc hd g)).
Proof.
  intros Hi Hd Hc HL HA. exact (conj (mapped_reachable h hdisc hd hinv hdinv dinv Hi Hd Hc L L2 HL A A2 HA g)
    (mapped_reachable_np h hdisc hd hinv hdinv dinv Hi Hd Hc L L2 HL A A2 HA g)).
Qed.
Print Assumptions C47_reachable.
Example C47_reachable_ex : (forall f, down (up f) = f) /\ lang_sim up up natlang natlang /\ asim up up (id : unit -> unit) unitan unitan /\
  (forall i, no_prune (an_modify unitan i)) /\ reachable_np natlang unitan false mcong_g.
Proof. exact (conj down_up (conj up_lang (conj up_an (conj (fun i => I) mcong_np)))). Qed.

(** Why [lang_sim] asks that the order is kept: the class lists are not sorted again while the
    e-graph stays marked clean.  With an injective translation that reverses the order,
    searching a class of 61 e-nodes fails its assertion (a release build would miss matches). *)
Theorem C47_order_refuted : exists (h : nat -> nat) (g : egraph nat unit),
  (forall f f', h f = h f' -> f = f') /\ reachable natlang unitan false g /\ eg_clean g = true /\ eg_clean (map_egraph h h id g) = true /\
  is_ok (search_with_limit natlang it0 true (compiled pat_15) g 5) = true /\
  search_with_limit natlang it0 true (compiled pat_15_up) (map_egraph h h id g) 5 = Panic.
Proof. exact order_lost. Qed.
Print Assumptions C47_order_refuted.
(** ... and why it asks that discriminants stay apart: of two index entries that fall on one
    discriminant one is dropped (which one is up to the hash map; here the smaller), and a search misses a
    match until the next rebuild.  The target language is in order ([lang_ok]). *)
Theorem C47_discriminant_refuted : exists (hdisc : nat -> nat) (g : egraph nat unit),
  lang_ok halflang /\ (forall f, l_disc halflang f = hdisc (l_disc natlang f)) /\ reachable natlang unitan false g /\
  eg_clean (map_egraph id hdisc id g) = true /\
  search_with_limit natlang it0 true (compiled pat_4) g 5 = Ok [SMatch 2 [[(0, 0)]]] /\
  ExprTree (pt_ast (compiled pat_4)) (TNode (POp 4) [TNode (PVar 0) []]) /\ Rep (map_egraph id hdisc id g) (TNode 4 [TNode 0 []]) 2 /\
  search_with_limit halflang it0 true (compiled pat_4) (map_egraph id hdisc id g) 5 = Ok [].
Proof. exact disc_lost. Qed.
Print Assumptions C47_discriminant_refuted.
