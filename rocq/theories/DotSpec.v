(** Vocabulary for properties of the GraphViz output: a reader of such files, line by line, and what it
    means that a graph draws an e-graph. *)
From Coq Require Import NArith Ascii String.
From Verif Require Import Base EGraphModel Spec TextModel PrintModel.

(** * The graph in a file *)
(** An edge: its tail with a port, its head with a port, the cluster at which it is clipped, and the number shown beside it. *)
Record dedge := DEdge {
  e_from : nat * nat; e_port : option text;
  e_to : nat * nat; e_hport : option text;
  e_lhead : nat; e_label : option nat;
}.
(** The names of the clusters; the declared nodes with the cluster they are declared in, their names and labels; the edges. *)
Record dgraph := DGraph { g_clusters : list nat; g_decls : list (nat * (nat * nat) * text); g_edges : list dedge }.

(** * Reading *)
Fixpoint strip (p s : text) : option text :=
  match p, s with
  | [], _ => Some s
  | c :: p, d :: s => if (c =? d)%N then strip p s else None
  | _ :: _, [] => None
  end.
Definition lit (p : string) (s : text) : option text := strip (ascii_text p) s.
Fixpoint lines (s : text) : list text :=
  match s with
  | [] => [[]]
  | c :: s => if (c =? c_nl)%N then [] :: lines s else match lines s with [] => [[c]] | l :: ls => (c :: l) :: ls end
  end.
(** A number in decimal and what follows it. *)
Fixpoint digits_of (s : text) : text * text :=
  match s with [] => ([], []) | c :: r => if is_digit c then let '(d, t) := digits_of r in (c :: d, t) else ([], s) end.
Definition number (s : text) : option (nat * text) :=
  match digits_of s with ([], _) => None | (d, r) => Some (N.to_nat (foldl (fun v c => 10 * v + (c - 48))%N 0%N d), r) end.
(** The name of a node: two numbers separated by a dot. *)
Definition name (s : text) : option (nat * nat * text) :=
  '(k, r) ← number s; r ← lit "." r; '(i, r) ← number r; Some ((k, i), r).
(** A port: from a colon up to the next space. *)
Fixpoint word (s : text) : text * text :=
  match s with [] => ([], []) | c :: r => if (c =? c_space)%N then ([], s) else let '(w, t) := word r in (c :: w, t) end.
Definition port (s : text) : option text * text :=
  match lit ":" s with Some r => let '(w, r) := word r in (Some w, r) | None => (None, s) end.
(** A quoted string, up to the next quote that no backslash stands before. *)
Fixpoint quoted (s : text) : option (text * text) :=
  match s with
  | [] => None
  | c :: r =>
      if (c =? c_quote)%N then Some ([], r)
      else if (c =? 92)%N then match r with [] => None | d :: r => '(q, t) ← quoted r; Some (c :: d :: q, t) end
      else '(q, t) ← quoted r; Some (c :: q, t)
  end.
Inductive stmt :=
| SBegin | SEnd | SCluster (k : nat) | SClose | SDecl (nm : nat * nat) (label : text) | SEdge (e : dedge) | SOther.
Definition starts_digit (s : text) : bool := match s with c :: _ => is_digit c | [] => false end.
Definition read_decl (s : text) : option stmt :=
  '(nm, r) ← name s; r ← lit "[label = """ r; '(q, r) ← quoted r;
  if decide (r = ascii_text "]") then Some (SDecl nm q) else None.
Definition read_attr (s : text) : option (option nat) :=
  if decide (s = ascii_text "]") then Some None
  else r ← lit "label=" s; '(k, r) ← number r; if decide (r = ascii_text "]") then Some (Some k) else None.
Definition read_edge (s : text) : option stmt :=
  '(nm, r) ← name s; let '(p, r) := port r in r ← lit " -> " r; '(nm', r) ← name r; let '(p', r) := port r in
  r ← lit " [lhead = cluster_" r; '(k, r) ← number r; r ← lit ", " r; l ← read_attr r;
  Some (SEdge (DEdge nm p nm' p' k l)).
Definition read_line (s : text) : option stmt :=
  if decide (s = ascii_text "digraph egraph {") then Some SBegin
  else if decide (s = ascii_text "}") then Some SEnd
  else if decide (s = ascii_text "  }") then Some SClose
  else match lit "  subgraph cluster_" s with
  | Some r => '(k, r) ← number r; if decide (r = ascii_text " {") then Some (SCluster k) else None
  | None =>
      match lit "    " s with
      | Some r => if starts_digit r then read_decl r else Some SOther
      | None => match lit "  " s with Some r => if starts_digit r then read_edge r else Some SOther | None => Some SOther end
      end
  end.
(** The statements after the first line, inside of the cluster [cur] if there is one. *)
Fixpoint assemble (ss : list stmt) (cur : option nat) : option dgraph :=
  match ss, cur with
  | [SEnd], None => Some (DGraph [] [] [])
  | SCluster k :: ss, None => g ← assemble ss (Some k); Some (DGraph (k :: g_clusters g) (g_decls g) (g_edges g))
  | SDecl nm l :: ss, Some k => g ← assemble ss (Some k); Some (DGraph (g_clusters g) ((k, nm, l) :: g_decls g) (g_edges g))
  | SClose :: ss, Some _ => assemble ss None
  | SEdge e :: ss, None => g ← assemble ss None; Some (DGraph (g_clusters g) (g_decls g) (e :: g_edges g))
  | SOther :: ss, _ => assemble ss cur
  | _, _ => None
  end.
Definition read_dot (s : text) : option dgraph :=
  ss ← mapM read_line (lines s); match ss with SBegin :: ss => assemble ss None | _ => None end.

(** A label that stands in quotes as it is. *)
Definition plain_label (s : text) : Prop := c_quote ∉ s /\ c_nl ∉ s /\ 92%N ∉ s.
(** A line of configuration that declares nothing that is read here. *)
Definition quiet (line : text) : Prop := c_nl ∉ line /\ read_line (ascii_text "  " ++ line) = Some SOther.

(** * Drawings *)
(** Where the edges leave a node with one, two or three children. *)
Definition compass (len a : nat) : option text :=
  match len, a with
  | 2, 0 | 3, 0 => Some (ascii_text "sw") | 2, 1 | 3, 2 => Some (ascii_text "se") | 3, 1 => Some (ascii_text "s") | _, _ => None
  end.
(** The edge shows the position [a] of [len]: from left to right by ports, or by a number. *)
Definition shows_position (anchors : bool) (len a : nat) (e : dedge) : Prop :=
  if anchors && (len <=? 3) then e_label e = None /\ e_port e = compass len a else e_label e = Some a /\ e_port e = None.

Section spec.
Context {Op D : Type} `{Countable Op} (disp : Op -> text).
Record draws (anchors : bool) (g : egraph Op D) (d : dgraph) : Prop := Draws {
  (** one cluster for every class *)
  dr_once : NoDup (g_clusters d);
  dr_clusters : forall k, k ∈ g_clusters d <-> is_Some (eg_classes g !! k);
  (** one declared node, labelled with the operator, for every node of the class, in order *)
  dr_names : NoDup (g_decls d).*1.*2;
  dr_decls : forall k nm l, (k, nm, l) ∈ g_decls d <->
    exists c i n, eg_classes g !! k = Some c /\ c_nodes c !! i = Some n /\ nm = (k, i) /\ l = disp (nop n);
  (** the edges of a node lead to the classes of its children, in order, and show their positions *)
  dr_edges : forall k c i n, eg_classes g !! k = Some c -> c_nodes c !! i = Some n ->
    let es := filter (fun e => e_from e = (k, i)) (g_edges d) in
    e_lhead <$> es = eg_find g <$> nch n /\ forall a e, es !! a = Some e -> shows_position anchors (length (nch n)) a e;
  (** there are no other edges *)
  dr_tails : forall e, e ∈ g_edges d -> e_from e ∈ (g_decls d).*1.*2;
}.
(** Every edge ends at a declared node, in the cluster at which it is clipped; an edge from a node to its own class ends at that node. *)
Definition well_headed (d : dgraph) : Prop := forall e, e ∈ g_edges d ->
  (exists l, (e_lhead e, e_to e, l) ∈ g_decls d) /\ (e_lhead e = (e_from e).1 -> e_to e = e_from e).
End spec.
