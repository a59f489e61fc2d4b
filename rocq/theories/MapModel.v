(** Translating an e-graph into another language: src/egraph.rs [LanguageMapper].
    Definitions only. *)
From Verif Require Import Base UnionFind EGraphModel.

(** src/egraph.rs:605 [map_node].  Simplification: the translation of an e-node translates
    its operator and keeps the children (the trait allows any function; the documentation
    describes newtype wrappers). *)
Definition map_node {Op Op2} (h : Op -> Op2) (n : node Op) : node Op2 := Node (h (nop n)) (nch n).
(** src/egraph.rs:620-634 [map_eclass] *)
Definition map_eclass {Op Op2 D D2} (h : Op -> Op2) (hd : D -> D2) (c : eclass Op D) : eclass Op2 D2 :=
  EClass (c_id c) (map_node h <$> c_nodes c) (hd (c_data c)) (c_parents c).
Definition map_event {Op Op2} (h : Op -> Op2) (e : event Op) : event Op2 :=
  match e with EAdd n i => EAdd (map_node h n) i | EUnion a b r => EUnion a b r end.
(** src/egraph.rs:637-664 [map_egraph]; [kmap] translates the keys of a map, as
    [into_iter().map(..).collect()] does; of entries whose keys become equal one survives,
    which one is unspecified in the code. *)
Definition map_egraph {Op Op2 D D2} `{Countable Op, Countable Op2} (h : Op -> Op2) (hdisc : nat -> nat) (hd : D -> D2) (g : egraph Op D) : egraph Op2 D2 :=
  EGraph None (eg_uf g) (map_node h <$> eg_nodes g) (kmap (map_node h) (eg_memo g)) (eg_pending g) (eg_apending g)
    (map_eclass h hd <$> eg_classes g) (kmap hdisc (eg_by_op g)) (eg_clean g) (map_event h <$> eg_log g).
