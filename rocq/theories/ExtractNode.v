(** [find_best_node] and [find_best] agree. *)
From Verif Require Import Base EGraphModel Spec EGraphReach Terms RecExprModel RecExprProofs AlgSpec ExtractModel ExtractSpec ExtractProofs ExtractMain.

Section node.
Context {Op D : Type} `{Countable Op} {C : Type} (L : lang Op) (A : analysis Op D) (ex : bool) (pcmp : C -> C -> option comparison) (cf : node Op -> list C -> C) (Ho : orders pcmp).
Context (g : egraph Op D) (order : list nat) (R : reachable L A ex g) (Hi : inhabited g) (Hord : traverses g order).
Lemma best_node fuel cs i : superior pcmp cf -> extractor_new pcmp cf fuel g order = Ok cs -> (exists t, Rep g t (eg_find g i)) ->
  exists n c ts v e k, find_best_node g cs i = Ok n /\ eg_classes g !! eg_find g i = Some c /\ n ∈ c_nodes c /\
    (forall fuel', k <= fuel' -> find_best fuel' g cs i = Ok (v, e)) /\ ExprTree e (TNode (nop n) ts) /\
    Forall2 (fun x u => exists v' e' k', (forall fuel', k' <= fuel' -> find_best fuel' g cs x = Ok (v', e')) /\ ExprTree e' u) (nch n) ts.
Proof using All.
  intros Hs E Ht. pose proof (in_order_1 L A ex g order R Hi) as I1. pose proof (in_order_2 L A ex g order R Hord) as I2.
  destruct (find_chosen pcmp cf Ho g _ I1 Hs fuel cs E) as [Hch Hset].
  assert (Hx : forall j, (exists t, Rep g t (eg_find g j)) -> is_Some (cs !! eg_find g j)) by (intros j Hj; by apply (costs_exactly pcmp cf Ho g _ I1 I2 fuel cs E)).
  destruct (find_best_ok pcmp cf Ho g _ I1 I2 Hs cs i Hch (Hx i Ht)) as (v & e & t & k & H1 & _ & _ & H4 & H5).
  inversion H5 as [? f xs ts Hi' Hts]; subst. unfold get in Hi'. apply fmap_Some in Hi' as ([w n] & En & Enn). cbn [snd] in Enn. subst n.
  pose proof Hch as [Hch1 _]. destruct (Hch1 _ _ _ En) as (c & Hc & Hin & _).
  exists (Node f xs), c, ts, v, e, k. split; [unfold find_best_node; by rewrite En|]. split; [exact Hc|]. split; [exact Hin|]. split; [exact H1|]. split; [exact H4|].
  cbn [nch]. eapply Forall2_impl; [exact Hts|]. intros x u Hu.
  assert (Hr : Rep g u (eg_find g x)) by exact (tree_rep pcmp cf g cs Hch x u Hu).
  destruct (find_best_ok pcmp cf Ho g _ I1 I2 Hs cs x Hch (Hx x (ex_intro _ u Hr))) as (v' & e' & u' & k' & K1 & _ & _ & K4 & K5).
  exists v', e', k'. split; [exact K1|]. by rewrite (TreeOf_fun _ _ _ _ Hu K5).
Qed.
End node.
