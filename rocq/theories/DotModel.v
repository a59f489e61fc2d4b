(** Model of the GraphViz output: src/dot.rs.  Definitions only.
    Not modelled: writing to a file or to the standard input of another program (lines 67-149), and
    errors of the writer; [Debug]. *)
From Coq Require Import NArith Ascii String.
From Verif Require Import Base UnionFind EGraphModel ExtractModel TextModel PrintModel.

(** [Display] of [usize] and [Id] (src/lib.rs:112-116): in decimal; the fuel is more than the number of digits *)
Definition dec (n : nat) : text := digits_aux (S n) (N.of_nat n) [].
(** [Iterator::enumerate] *)
Definition enum {A} (l : list A) : list (nat * A) := imap pair l.

Section model.
Context {Op D : Type} `{Countable Op}.
Notation egraph := (egraph Op D).
Notation eclass := (eclass Op D).
(** [Display] of a node: shows the operator only (as in TextModel.v) *)
Context (disp : Op -> text).

(** src/dot.rs:152-167 [edge]: the anchor and the label *)
Definition edge (anchors : bool) (i len : nat) : res (text * text) :=
  if i <? len then
    if negb anchors then Ok ([], ascii_text "label=" ++ dec i)
    else match len, i with
    | 1, 0 => Ok ([], [])
    | 2, 0 => Ok (ascii_text ":sw", [])
    | 2, 1 => Ok (ascii_text ":se", [])
    | 3, 0 => Ok (ascii_text ":sw", [])
    | 3, 1 => Ok (ascii_text ":s", [])
    | 3, 2 => Ok (ascii_text ":se", [])
    | _, _ => Ok ([], ascii_text "label=" ++ dec i)
    end
  else Panic.

(** src/dot.rs:193-200: the lines of one class *)
Definition class_lines (c : eclass) : list text :=
  (ascii_text "  subgraph cluster_" ++ dec (c_id c) ++ ascii_text " {")
  :: ascii_text "    style=dotted"
  :: ((fun '(i, n) => ascii_text "    " ++ dec (c_id c) ++ ascii_text "." ++ dec i ++ ascii_text "[label = """ ++ disp (nop n) ++ ascii_text """]") <$> enum (c_nodes c))
  ++ [ascii_text "  }"].
(** src/dot.rs:205-227: the line of the child at position [a] of the node [n], which is the [i]-th of its class *)
Definition edge_line (anchors : bool) (g : egraph) (c : eclass) (i : nat) (n : node Op) (a child : nat) : res text :=
  '(anchor, label) ← edge anchors a (length (nch n));
  let leader := eg_find g child in
  Ok (if leader =? c_id c then
        ascii_text "  " ++ dec (c_id c) ++ ascii_text "." ++ dec i ++ anchor ++ ascii_text " -> " ++ dec (c_id c) ++ ascii_text "." ++ dec i
          ++ ascii_text ":n [lhead = cluster_" ++ dec (c_id c) ++ ascii_text ", " ++ label ++ ascii_text "]"
      else
        ascii_text "  " ++ dec (c_id c) ++ ascii_text "." ++ dec i ++ anchor ++ ascii_text " -> " ++ dec child
          ++ ascii_text ".0 [lhead = cluster_" ++ dec leader ++ ascii_text ", " ++ label ++ ascii_text "]").
(** src/dot.rs:203-228 *)
Definition class_edges (anchors : bool) (g : egraph) (c : eclass) : res (list text) :=
  ls ← each (fun '(i, n) => each (fun '(a, child) => edge_line anchors g c i n a child) (enum (nch n))) (enum (c_nodes c));
  Ok (mjoin (M := list) ls).
(** src/dot.rs:181-232; [order] is the order in which the hash map iterates over its keys *)
Definition dot_lines (config : list text) (anchors : bool) (g : egraph) (order : list nat) : res (list text) :=
  es ← each (class_edges anchors g) (in_order g order);
  Ok (ascii_text "digraph egraph {" :: ascii_text "  compound=true" :: ascii_text "  clusterrank=local"
      :: ((fun line => ascii_text "  " ++ line) <$> config)
      ++ mjoin (class_lines <$> in_order g order) ++ mjoin (M := list) es).
Definition dot_text (config : list text) (anchors : bool) (g : egraph) (order : list nat) : res text :=
  ls ← dot_lines config anchors g order; Ok (mjoin ((fun l => l ++ [c_nl]) <$> ls) ++ ascii_text "}").
End model.
