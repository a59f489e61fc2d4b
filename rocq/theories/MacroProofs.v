From Coq Require Import NArith.
From Verif Require Import Base EGraphModel EGraphPres Spec Terms RecExprModel RecExprProofs TextModel TextSpec TextProofs TextMain MacroModel MacroSpec.

Lemma lex_order : total_order lex_leb.
Proof.
  split.
  - induction a as [|x a IH]; intros [|y b]; cbn [lex_leb]; auto. rewrite !orb_true_iff, !andb_true_iff, !Nat.ltb_lt, !Nat.eqb_eq.
    destruct (Nat.lt_trichotomy x y) as [E|[->|E]]; auto. destruct (IH b); auto.
  - induction a as [|x a IH]; intros [|y b] [|z c]; cbn [lex_leb]; try done. rewrite !orb_true_iff, !andb_true_iff, !Nat.ltb_lt, !Nat.eqb_eq.
    intros [H1|[-> H1]] [H2|[-> H2]]; [left; lia..|]. right. split; [done|]. by eapply IH.
  - induction a as [|x a IH]; intros [|y b]; cbn [lex_leb]; try done. rewrite !orb_true_iff, !andb_true_iff, !Nat.ltb_lt, !Nat.eqb_eq.
    intros [H1|[-> H1]] [H2|[E H2]]; try lia. f_equal. by apply IH.
Qed.

Section proofs.
Context {Dt : Type} `{Countable Dt}.
Notation decl := (list (variant Dt)).
Implicit Types (vs : decl) (n : node (mop Dt)).

(** ** Order *)
Lemma odleb_order (dleb : nat -> Dt -> Dt -> bool) i : total_order (dleb i) -> total_order (odleb dleb i).
Proof.
  intros [T Tr As]. split.
  - intros [a|] [b|]; cbn; auto.
  - intros [a|] [b|] [c|]; cbn; try done. apply Tr.
  - intros [a|] [b|]; cbn; try done. intros E1 E2. f_equal. by apply As.
Qed.
Lemma mlang_ok (dleb : nat -> Dt -> Dt -> bool) : (forall i, total_order (dleb i)) -> lang_ok (mlang dleb).
Proof.
  intros Ho. assert (Hl : forall a b, m_leb dleb a b = true <->
    (nop a).1 < (nop b).1 \/ (nop a).1 = (nop b).1 /\ odleb dleb (nop a).1 (nop a).2 (nop b).2 = true /\ (odleb dleb (nop a).1 (nop b).2 (nop a).2 = false \/ lex_leb (nch a) (nch b) = true)).
  { intros [[i d] cs] [[j e] ds]. cbn [m_leb nop nch fst snd]. rewrite !orb_true_iff, !andb_true_iff, !orb_true_iff, negb_true_iff, Nat.ltb_lt, Nat.eqb_eq. tauto. }
  pose proof lex_order as [LT LTr LAs]. assert (OT := fun i => to_total _ (odleb_order dleb i (Ho i))). assert (OTr := fun i => to_trans _ (odleb_order dleb i (Ho i))).
  assert (OA := fun i => to_antisym _ (odleb_order dleb i (Ho i))).
  split; cbn [mlang l_leb l_disc].
  - intros a b. rewrite !Hl. destruct (Nat.lt_trichotomy (nop a).1 (nop b).1) as [E|[E|E]]; auto. rewrite <- E.
    destruct (odleb dleb (nop a).1 (nop a).2 (nop b).2) eqn:E1, (odleb dleb (nop a).1 (nop b).2 (nop a).2) eqn:E2.
    + destruct (LT (nch a) (nch b)); [left|right]; right; auto.
    + left. right. auto.
    + right. right. auto.
    + destruct (OT (nop a).1 (nop a).2 (nop b).2); congruence.
  - intros a b c. rewrite !Hl. intros [H1|(E1 & O1 & H1)] [H2|(E2 & O2 & H2)]; [left; lia..|]. right. rewrite <- E1 in *. split; [congruence|]. split; [by eapply OTr|].
    destruct (odleb dleb (nop a).1 (nop c).2 (nop a).2) eqn:Eca; [|by left]. right.
    assert (Hab : odleb dleb (nop a).1 (nop b).2 (nop a).2 = true) by (by eapply OTr; [exact O2|]). assert (Hbc : odleb dleb (nop a).1 (nop c).2 (nop b).2 = true) by (by eapply OTr; [exact Eca|]).
    destruct H1 as [H1|H1]; [congruence|]. destruct H2 as [H2|H2]; [congruence|]. by eapply LTr.
  - intros a b. rewrite !Hl. intros [H1|(E1 & O1 & H1)] [H2|(E2 & O2 & H2)]; [lia..|]. rewrite <- E1 in *. destruct H1 as [H1|H1]; [congruence|]. destruct H2 as [H2|H2]; [congruence|].
    destruct a as [[i d] cs], b as [[j e] ds]. cbn in *. subst j. f_equal; [f_equal; by eapply OA|by apply LAs].
  - intros a b c. rewrite !Hl. intros H1 H2 E. destruct H1 as [H1|(E1 & _)], H2 as [H2|(E2 & _)]; lia.
Qed.

(** ** Matching *)
Lemma matches_agree vs a b : fits vs a -> fits vs b -> m_matches vs a b = node_matches a b.
Proof.
  unfold fits, m_matches, node_matches. destruct a as [[i d] cs], b as [[j e] ds]. cbn [nop nch fst snd]. intros Ha Hb.
  destruct (decide (i = j)) as [<-|Hne].
  - rewrite (bool_decide_true (i = i)) by done. cbn [andb]. destruct (vs !! i) as [[s|s t|p sh|p sh t]|]; [| | | |done].
    + destruct d, e; try done. subst. by rewrite bool_decide_true.
    + destruct d, e; try done. by rewrite bool_decide_true.
    + destruct d as [d|], e as [e|]; try done. subst. cbn. rewrite andb_true_r. apply bool_decide_ext. split; [by intros [= ->]|by intros [= ->]].
    + destruct d as [d|], e as [e|]; try done. f_equal. apply bool_decide_ext. split; [by intros [= ->]|by intros [= ->]].
  - rewrite (bool_decide_false (i = j)) by done. cbn [andb]. rewrite bool_decide_false by (intros Ee; congruence). done.
Qed.

Lemma matches_iff vs a b : fits vs a -> fits vs b -> m_matches vs a b = true <-> nop a = nop b /\ length (nch a) = length (nch b).
Proof. intros Ha Hb. rewrite matches_agree by done. unfold node_matches. rewrite andb_true_iff, bool_decide_eq_true, Nat.eqb_eq. done. Qed.

(** ** Reading operators *)
Lemma from_vec_ok t cs : can_be_length t (length cs) = true -> from_vec t cs = Ok cs.
Proof.
  destruct t as [k| | |]; cbn; intros E; [by rewrite E|done|done|]. destruct cs as [|c [|d cs]]; done.
Qed.
Lemma can_be_zero_array t : can_be_length t 0 = true -> from_vec t [] = Ok [].
Proof. intros E. by apply from_vec_ok. Qed.
Lemma arm_spec i (v : variant Dt) op cs : arm i v op cs = Ok (if decide (takes v op (length cs)) then Some (Node (i, payload v op) cs) else None).
Proof.
  destruct (decide (takes v op (length cs))) as [Ht|Hn]; destruct v as [s|s t|p sh|p sh t]; cbn [arm takes payload] in *.
  - destruct Ht as [-> Hl]. rewrite bool_decide_true by done. by destruct cs.
  - destruct Ht as [-> Hl]. rewrite bool_decide_true by done. rewrite Hl. cbn [andb]. by rewrite from_vec_ok.
  - destruct Ht as [[d ->] Hl]. by destruct cs.
  - destruct Ht as [[d ->] Hl]. rewrite Hl. by rewrite from_vec_ok.
  - destruct (decide (op = s)) as [->|Hne]; [|by rewrite bool_decide_false]. rewrite bool_decide_true by done. destruct cs; [|done]. destruct Hn. done.
  - destruct (decide (op = s)) as [->|Hne]; [|by rewrite bool_decide_false]. rewrite bool_decide_true by done. cbn [andb]. destruct (can_be_length t (length cs)); [|done]. destruct Hn. done.
  - destruct (p op) as [d|]; [|done]. destruct cs; [|done]. destruct Hn. split; [by eexists|done].
  - destruct (p op) as [d|]; [|done]. destruct (can_be_length t (length cs)); [|done]. destruct Hn. split; [by eexists|done].
Qed.
Lemma from_op_spec vs i op cs : exists o, m_from_op i vs op cs = Ok o /\
  match o with
  | Some n => exists k v, vs !! k = Some v /\ takes v op (length cs) /\ n = Node (i + k, payload v op) cs /\ forall j w, j < k -> vs !! j = Some w -> ~ takes w op (length cs)
  | None => forall w, w ∈ vs -> ~ takes w op (length cs)
  end.
Proof.
  revert i. induction vs as [|v vs IH]; intros i; cbn [m_from_op].
  - exists None. split; [done|]. intros w Hw. by apply elem_of_nil in Hw.
  - rewrite arm_spec. cbn [mbind res_bind]. destruct (decide (takes v op (length cs))) as [Ht|Hn].
    + eexists. split; [done|]. exists 0, v. cbn. rewrite Nat.add_0_r. repeat split; try done. intros j w Hj. lia.
    + destruct (IH (S i)) as (o & E & Ho). exists o. split; [done|]. destruct o as [n|].
      * destruct Ho as (k & w & Ek & Hw & -> & Hb). exists (S k), w. repeat split; try done; [by rewrite <- Nat.add_succ_comm|].
        intros [|j] w' Hj E'; [cbn in E'; by simplify_eq|]. apply (Hb j w'); [lia|done].
      * intros w [->|Hw]%elem_of_cons; [done|by apply Ho].
Qed.
Lemma from_op_exact vs op cs n : m_from_op 0 vs op cs = Ok (Some n) <->
  exists k v, vs !! k = Some v /\ takes v op (length cs) /\ n = Node (k, payload v op) cs /\ forall j w, j < k -> vs !! j = Some w -> ~ takes w op (length cs).
Proof.
  destruct (from_op_spec vs 0 op cs) as (o & E & Ho). rewrite E. split.
  - intros [= ->]. exact Ho.
  - intros (k & v & Ek & Hv & -> & Hb). destruct o as [n|].
    + destruct Ho as (k' & v' & Ek' & Hv' & -> & Hb'). assert (k = k') as <-.
      { destruct (Nat.lt_trichotomy k k') as [L|[->|L]]; [|done|]; exfalso; [by eapply Hb'|by eapply Hb]. }
      simplify_eq. done.
    + exfalso. apply (Ho v); [by eapply elem_of_list_lookup_2|done].
Qed.
Lemma from_op_error vs op cs : m_from_op 0 vs op cs = Ok None <-> forall w, w ∈ vs -> ~ takes w op (length cs).
Proof.
  destruct (from_op_spec vs 0 op cs) as (o & E & Ho). rewrite E. split.
  - intros [= ->]. exact Ho.
  - intros Hn. destruct o as [n|]; [|done]. destruct Ho as (k & v & Ek & Hv & _). exfalso. apply (Hn v); [by eapply elem_of_list_lookup_2|done].
Qed.
Lemma from_op_answers vs op cs : exists o, m_from_op 0 vs op cs = Ok o.
Proof. destruct (from_op_spec vs 0 op cs) as (o & E & _). by exists o. Qed.
Lemma from_op_fn_eq vs op cs o : from_op_fn vs op cs = o <-> m_from_op 0 vs op cs = Ok o.
Proof. unfold from_op_fn. destruct (from_op_spec vs 0 op cs) as (o' & -> & _). split; [by intros ->|by intros [= ->]]. Qed.

Lemma takes_fits vs k v op cs : vs !! k = Some v -> takes v op (length cs) -> fits vs (Node (k, payload v op) cs).
Proof.
  intros E Ht. unfold fits. cbn [nop nch fst snd]. rewrite E. destruct v as [s|s t|p sh|p sh t]; cbn [takes payload] in *.
  - destruct Ht as [_ Hl]. by destruct cs.
  - by destruct Ht.
  - destruct Ht as [[d ->] Hl]. by destruct cs.
  - by destruct Ht as [[d ->] Hl].
Qed.
Lemma from_op_fits vs op cs n : m_from_op 0 vs op cs = Ok (Some n) -> fits vs n /\ nch n = cs.
Proof. intros (k & v & Ek & Hv & -> & _)%from_op_exact. split; [by apply takes_fits|done]. Qed.

Lemma from_op_all vs op cs : exists o, m_from_op 0 vs op cs = Ok o /\
  (forall n, o = Some n <-> exists k v, vs !! k = Some v /\ takes v op (length cs) /\ n = Node (k, payload v op) cs /\
     forall j w, j < k -> vs !! j = Some w -> ~ takes w op (length cs)) /\
  (o = None <-> forall v, v ∈ vs -> ~ takes v op (length cs)) /\
  (forall n, o = Some n -> fits vs n).
Proof.
  destruct (from_op_answers vs op cs) as [o E]. exists o. split; [done|]. split; [|split].
  - intros n. rewrite <- from_op_exact, E. split; [by intros ->|by intros [= ->]].
  - rewrite <- from_op_error, E. split; [by intros ->|by intros [= ->]].
  - intros n ->. by apply from_op_fits in E as [? _].
Qed.

(** Reading back what was printed. *)
Lemma fits_takes vs n v : vs !! (nop n).1 = Some v -> fits vs n -> payload v (m_display vs (nop n)) = (nop n).2 -> takes v (m_display vs (nop n)) (length (nch n)).
Proof.
  intros E Hf Hp. unfold fits in Hf. rewrite E in Hf. destruct v as [s|s t|p sh|p sh t]; cbn [takes payload] in *.
  - unfold m_display. rewrite E. destruct ((nop n).2); [done|]. by rewrite Hf.
  - unfold m_display. rewrite E. destruct ((nop n).2); [done|]. done.
  - destruct ((nop n).2) eqn:E2; [|done]. split; [by eexists|by rewrite Hf].
  - destruct ((nop n).2) eqn:E2; [|done]. split; [by eexists|done].
Qed.
Lemma read_back vs n : fits vs n ->
  (m_from_op 0 vs (m_display vs (nop n)) (nch n) = Ok (Some n) <->
   payload_back vs n /\ not_captured vs n).
Proof.
  intros Hf. rewrite from_op_exact. unfold payload_back. split.
  - intros (k & v & Ek & Hv & En & Hb). pose proof (f_equal (fun m => (nop m).1) En) as E1. pose proof (f_equal (fun m => (nop m).2) En) as E2. cbn in E1, E2.
    clear En. destruct n as [[i d] cs]. cbn [nop nch fst snd] in *. subst k. rewrite Ek. split; [by symmetry|exact Hb].
  - intros [Hp Hb]. destruct (vs !! (nop n).1) as [v|] eqn:Ev; [|done]. exists (nop n).1, v. split; [done|]. split; [by apply fits_takes|].
    split; [|exact Hb]. rewrite Hp. destruct n as [[i d] cs]. done.
Qed.
Lemma back_payload vs n : (forall k v, vs !! k = Some v -> match v with VarData p sh | VarDataCh p sh _ => forall d, p (sh d) = Some d | _ => True end) -> fits vs n -> payload_back vs n.
Proof.
  intros Hr Hf. unfold fits in Hf. unfold payload_back, m_display. destruct (vs !! (nop n).1) as [v|] eqn:E; [|done]. specialize (Hr _ _ E).
  destruct v as [s|s t|p sh|p sh t], (nop n).2 as [d|]; cbn; done.
Qed.

(** Used by parsing *)
Lemma from_op_children vs op cs n : from_op_fn vs op cs = Some n -> nch n = cs.
Proof. intros E. apply from_op_fn_eq in E. by apply from_op_fits in E as [_ ?]. Qed.
Lemma from_op_length vs a cs cs' f : length cs = length cs' -> from_op_fn vs a cs = Some (Node f cs) -> from_op_fn vs a cs' = Some (Node f cs').
Proof.
  intros Hl E. apply from_op_fn_eq in E. apply from_op_fn_eq. apply from_op_exact in E as (k & v & Ek & Hv & [= ->] & Hb). apply from_op_exact.
  exists k, v. rewrite <- Hl. done.
Qed.
Lemma readable_names vs t : readable vs t -> names_ok printable (m_display vs) (from_op_fn vs) t.
Proof.
  induction t as [f ts IH] using term_sind. inversion_clear 1 as [? ? Hp Hf Hts]. constructor; [done| |].
  - intros cs Hl. apply from_op_fn_eq. destruct (Hf cs Hl) as (H1 & H2 & H3). exact (proj2 (read_back vs (Node f cs) H1) (conj H2 H3)).
  - rewrite Forall_forall in *. auto.
Qed.
Lemma macro_roundtrip vs cycle e t : dag e -> ExprTree e t -> readable vs t ->
  exists w, print_expr (m_display vs) cycle e = Ok w /\ forall b b' fuel, blank b -> blank b' -> length w < fuel ->
    exists e', parse_expr (from_op_fn vs) fuel (b ++ w ++ b') = Ok (inr e') /\ dag e' /\ ExprTree e' t.
Proof. intros Hd Ht Hr. exact (print_roundtrip (m_display vs) (from_op_fn vs) cycle e t Hd Ht (readable_names vs t Hr)). Qed.
Lemma macro_parse vs fuel s t : length s < fuel ->
  ((exists e, parse_expr (from_op_fn vs) fuel s = Ok (inr e) /\ dag e /\ ExprTree e t) <->
   exists b w b' sx, blank b /\ blank b' /\ s = b ++ w ++ b' /\ Written sx w /\ Names (from_op_fn vs) sx t).
Proof. exact (parse_expr_exact (from_op_fn vs) (from_op_children vs) (from_op_length vs) fuel s t). Qed.
End proofs.
