(** The two ways of finding matching e-nodes agree. *)
From Verif Require Import Base EGraphModel EGraphPres MachineModel.

Section matching.
Context {Op : Type} `{Countable Op} (L : lang Op) (Lo : lang_ok L).
Notation node := (node Op).
Implicit Types (n m : node) (ns : list node).

Lemma leb_refl n : l_leb L n n = true.
Proof. by destruct (lo_total _ Lo n n). Qed.
Lemma node_lt_le m n : node_lt L m n = true -> l_leb L m n = true.
Proof. unfold node_lt. by intros [? _]%andb_true_iff. Qed.
Lemma node_nlt_le m n : node_lt L m n = false -> l_leb L n m = true.
Proof.
  unfold node_lt. intros E. destruct (lo_total _ Lo n m) as [|Hm]; [done|]. rewrite Hm in E. cbn in E.
  apply negb_false_iff, bool_decide_eq_true in E as ->. apply leb_refl.
Qed.
Lemma strictly_sorted_true ns : StronglySorted (node_le L) ns -> NoDup ns -> strictly_sorted L ns = true.
Proof.
  induction ns as [|a [|b ns] IH]; intros Hs Hn; [done|done|].
  inversion Hs as [|? ? Hs1 Hs2]; subst. apply NoDup_cons in Hn as [Hn1 Hn2].
  change (node_lt L a b && strictly_sorted L (b :: ns) = true). rewrite IH by done. rewrite andb_true_r.
  unfold node_lt. rewrite andb_true_iff, negb_true_iff, bool_decide_eq_false. split.
  - rewrite Forall_forall in Hs2. apply Hs2. left.
  - intros ->. apply Hn1. left.
Qed.
Lemma bsearch_split n ns : StronglySorted (node_le L) ns ->
  exists lo hi, ns = lo ++ hi /\ bsearch L n ns = length lo /\
    Forall (fun m => l_leb L m n = true) lo /\ Forall (fun m => l_leb L n m = true) hi.
Proof.
  induction 1 as [|a ns Hs IH Ha]; [by exists [], []|]. unfold bsearch. rewrite filter_cons.
  destruct (node_lt L a n) eqn:E.
  - rewrite decide_True by done. destruct IH as (lo & hi & -> & Hb & Hlo & Hhi). exists (a :: lo), hi.
    cbn [app length]. split_and!; [done|by rewrite <- Hb| |done]. constructor; [by apply node_lt_le|done].
  - rewrite decide_False by congruence. exists [], (a :: ns). split_and!; [done| |constructor|].
    + assert (filter (fun m => node_lt L m n = true) ns = []) as ->; [|done].
      clear IH. induction ns as [|b ns IHn]; [done|]. rewrite filter_cons. inversion Ha; subst. inversion Hs; subst.
      rewrite decide_False; [by apply IHn|]. intros E'. apply node_lt_le in E' as E2.
      pose proof (node_nlt_le _ _ E) as E3. assert (b = a) as ->.
      { apply (lo_antisym _ Lo); [|done]. eapply (lo_trans _ Lo); eauto. }
      congruence.
    + pose proof (node_nlt_le _ _ E) as E3. constructor; [done|]. eapply Forall_impl; [exact Ha|].
      cbn. intros x Hx. eapply (lo_trans _ Lo); [exact E3|exact Hx].
Qed.
Lemma walk_back_split n lo hi : exists a b, lo = a ++ b /\ walk_back L n (lo ++ hi) (length lo) = length a /\
  Forall (fun m => same_disc L n m = true) b /\ (forall a' x, a = a' ++ [x] -> same_disc L n x = false).
Proof.
  revert hi. induction lo as [|x lo IH] using rev_ind; intros hi; [exists [], []; cbn; split_and!; [done|done|done|by intros []]|].
  rewrite app_length. cbn [length]. rewrite Nat.add_1_r. cbn [walk_back].
  rewrite <- app_assoc. cbn [app]. rewrite list_lookup_middle by done.
  destruct (same_disc L n x) eqn:E.
  - destruct (IH (x :: hi)) as (a & b & -> & -> & Hb & Ha). exists a, (b ++ [x]). rewrite <- app_assoc. split_and!; auto.
    apply Forall_app. split; [done|by constructor].
  - exists (lo ++ [x]), []. rewrite app_nil_r, app_length. cbn. split; [done|]. split; [lia|]. split; [constructor|].
    intros a' y Ey. apply app_inj_tail in Ey as [_ <-]. done.
Qed.
Lemma take_while_split {X} (f : X -> bool) l : exists l', l = take_while f l ++ l' /\ Forall (fun x => f x = true) (take_while f l) /\
  match l' with [] => True | x :: _ => f x = false end.
Proof.
  induction l as [|x l (l' & E & Hf & Hl)]; [exists []; cbn; auto|]. cbn. destruct (f x) eqn:Ef.
  - exists l'. cbn. rewrite <- E. split_and!; auto.
  - by exists (x :: l).
Qed.
Lemma take_while_app {X} (f : X -> bool) l l' : Forall (fun x => f x = true) l -> take_while f (l ++ l') = l ++ take_while f l'.
Proof. induction 1 as [|x l Hx _ IH]; [done|]. cbn. by rewrite Hx, IH. Qed.
Lemma matches_disc n m : node_matches n m = true -> same_disc L n m = true.
Proof.
  unfold node_matches, same_disc. intros [E%bool_decide_eq_true _]%andb_true_iff. rewrite E. apply Nat.eqb_refl.
Qed.
Lemma matches_none n ns : Forall (fun m => same_disc L n m = false) ns -> matches_of n ns = [].
Proof.
  induction 1 as [|x ns Hx _ IH]; [done|]. unfold matches_of in *. rewrite filter_cons.
  rewrite decide_False; [done|]. intros E%matches_disc. congruence.
Qed.
Lemma same_disc_eq n m : same_disc L n m = true <-> l_disc L (nop m) = l_disc L (nop n).
Proof. apply Nat.eqb_eq. Qed.

Lemma matching_nodes_ok n ns :
  StronglySorted (node_le L) ns -> NoDup ns -> (length ns < 50 \/ Forall (fun c => c = 0) (nch n)) ->
  matching_nodes L n ns = Ok (matches_of n ns).
Proof.
  intros Hs Hn Hz. unfold matching_nodes. destruct (Nat.ltb_spec (length ns) 50) as [|Hge]; [done|].
  destruct Hz as [|Hz]; [lia|].
  assert (forallb (fun c => c =? 0) (nch n) = true) as ->.
  { apply forallb_forall. intros c Hc%elem_of_list_In. rewrite Forall_forall in Hz. apply Nat.eqb_eq. auto. }
  rewrite strictly_sorted_true by done. cbn [assert mbind res_bind].
  destruct (bsearch_split n ns Hs) as (lo & hi & -> & -> & Hlo & Hhi).
  destruct (walk_back_split n lo hi) as (a & b & -> & -> & Hb & Ha).
  rewrite <- app_assoc, drop_app, take_while_app by done.
  destruct (take_while_split (same_disc L n) hi) as (h2 & Eh & Hh1 & Hh2).
  set (h1 := take_while (same_disc L n) hi) in *. clearbody h1. subst hi.
  rewrite <- !app_assoc in Hs.
  assert (Ea : matches_of n a = []).
  { apply matches_none. destruct a as [|x a _] using rev_ind; [done|]. specialize (Ha a x eq_refl).
    apply Forall_app. split; [|by constructor]. apply Forall_forall. intros y Hy.
    apply not_true_is_false. intros Ey%same_disc_eq. apply not_true_iff_false in Ha. apply Ha, same_disc_eq.
    rewrite <- Ey. apply (lo_convex _ Lo y x n).
    - rewrite <- app_assoc in Hs. eapply (elem_of_StronglySorted_app (node_le L)); [exact Hs|exact Hy|]. cbn. left.
    - rewrite Forall_forall in Hlo. apply Hlo. set_solver.
    - done. }
  assert (Eh2 : matches_of n h2 = []).
  { apply matches_none. destruct h2 as [|y h2]; [done|]. apply Forall_forall. intros x Hx.
    apply not_true_is_false. intros Ex%same_disc_eq. apply not_true_iff_false in Hh2. apply Hh2, same_disc_eq.
    apply (lo_convex _ Lo n y x); [| |done].
    - rewrite Forall_forall in Hhi. apply Hhi. set_solver.
    - apply elem_of_cons in Hx as [->|Hx]; [apply leb_refl|].
      rewrite !app_assoc in Hs. apply StronglySorted_app_inv_r in Hs.
      inversion Hs as [|? ? _ Hf]; subst. rewrite Forall_forall in Hf. by apply Hf. }
  assert (E : matches_of n (a ++ b ++ h1 ++ h2) = matches_of n (b ++ h1)).
  { unfold matches_of in *. rewrite !filter_app, Ea, Eh2. by rewrite app_nil_r. }
  rewrite E. by rewrite Nat.eqb_refl.
Qed.
End matching.
