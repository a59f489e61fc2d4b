(** Model of saving and loading an e-graph with serde (feature serde-1): the attributes of
    src/egraph.rs:52-89, src/explain.rs:50-72, src/eclass.rs:9-19, src/util.rs:158.  Definitions only.
    Simplification: what serde and the file format do with a number, a list, an option or a derived
    record is not modelled; such parts are saved and loaded as they are.  The analysis itself is a parameter.
    A loaded hash table may be walked in another order than the saved one; in the model the order depends only on the contents. *)
From Verif Require Import Base UnionFind EGraphModel.

Section model.
Context {Op D : Type} `{Countable Op}.
Notation egraph := (egraph Op D).
(** What is written: everything except the fields marked [serde(skip)], the two maps from nodes as lists of
    pairs (the module [vectorize]).  The last field is the ghost history of the model. *)
Record saved := Saved {
  sv_explain : option (list exnode * list (node Op * nat));
  sv_uf : list nat;
  sv_nodes : list (node Op);
  sv_memo : list (node Op * nat);
  sv_pending : list nat;
  sv_apending : uqueue;
  sv_classes : gmap nat (eclass Op D);
  sv_log : list (event Op);
}.
Definition save (g : egraph) : saved :=
  Saved ((fun x => (ex_find x, map_to_list (ex_memo x))) <$> eg_explain g) (eg_uf g) (eg_nodes g) (map_to_list (eg_memo g))
    (eg_pending g) (eg_apending g) (eg_classes g) (eg_log g).
(** Skipped fields get their defaults: an empty index (src/egraph.rs:91-94), not clean, no lengths of explanations known. *)
Definition load (s : saved) : egraph :=
  EGraph ((fun '(f, m) => Explain f (list_to_map m) ∅) <$> sv_explain s) (sv_uf s) (sv_nodes s) (list_to_map (sv_memo s))
    (sv_pending s) (sv_apending s) (sv_classes s) ∅ false (sv_log s).
End model.
Arguments saved Op D : clear implicits.
