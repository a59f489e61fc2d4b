(** What it means that a client of the target language does the same as a client of the
    source language. *)
From Verif Require Import Base EGraphModel Spec MapModel.

(** Translating a term operator by operator. *)
Fixpoint tmap {Op Op2} (h : Op -> Op2) (t : term Op) : term Op2 :=
  match t with TNode f ts => TNode (h f) (tmap h <$> ts) end.

Section same.
Context {Op Op2 D D2 : Type} `{Countable Op, Countable Op2} (h : Op -> Op2) (hdisc : nat -> nat) (hd : D -> D2).
Notation mn := (map_node h).
Notation mg := (map_egraph h hdisc hd).
(** [psim p p2]: the program [p2] (a client or a hook) does over the translated e-graph what
    [p] does over the original: it adds the translated e-nodes, unions the same ids, writes
    the translated data. *)
Inductive psim : prog Op D -> prog Op2 D2 -> Prop :=
| ps_ret : psim PRet PRet
| ps_look k k2 : (forall g : egraph Op D, eg_explain g = None -> psim (k g) (k2 (mg g))) -> psim (PLook k) (PLook k2)
| ps_add n k k2 : (forall i, psim (k i) (k2 i)) -> psim (PAdd n k) (PAdd (mn n) k2)
| ps_union a b r k k2 : (forall v, psim (k v) (k2 v)) -> psim (PUnion a b r k) (PUnion a b r k2)
| ps_union_t a b r k k2 : (forall v, psim (k v) (k2 v)) -> psim (PUnionTrusted a b r k) (PUnionTrusted a b r k2)
| ps_set i d k k2 : psim k k2 -> psim (PSetData i d k) (PSetData i (hd d) k2)
| ps_poke i d k k2 : psim k k2 -> psim (PPoke i d k) (PPoke i (hd d) k2)
| ps_retain i f f2 k k2 : (forall n, f2 (mn n) = f n) -> psim k k2 -> psim (PRetain i f k) (PRetain i f2 k2)
| ps_rebuild k k2 : (forall n, psim (k n) (k2 n)) -> psim (PRebuild k) (PRebuild k2).
(** The analyses compute translated data and their hooks do the same. *)
Record asim (A : analysis Op D) (A2 : analysis Op2 D2) : Prop := {
  as_make : forall (g : egraph Op D) n i, eg_explain g = None -> an_make A2 (mg g) (mn n) i = hd (an_make A g n i);
  as_remake : forall (g : egraph Op D) n i, eg_explain g = None -> an_remake A2 (mg g) (mn n) i = hd (an_remake A g n i);
  as_merge : forall a b, an_merge A2 (hd a) (hd b) = (hd (an_merge A a b).1, (an_merge A a b).2);
  as_modify : forall i, psim (an_modify A i) (an_modify A2 i);
}.

End same.

(** The target language orders and discriminates translated e-nodes as the source does. *)
Record lang_sim {Op Op2} (h : Op -> Op2) (hdisc : nat -> nat) (L : lang Op) (L2 : lang Op2) : Prop := {
  ls_op : forall f f', h f = h f' -> f = f';
  ls_hdisc : forall d d', hdisc d = hdisc d' -> d = d';
  ls_leb : forall a b, l_leb L2 (map_node h a) (map_node h b) = l_leb L a b;
  ls_disc : forall f, l_disc L2 (h f) = hdisc (l_disc L f);
}.
