(** What printed forms look like and which names survive printing. *)
From Coq Require Import NArith.
From Verif Require Import Base EGraphModel Spec Terms RecExprModel TextModel.

(** White space, and the characters that end a bare atom. *)
Definition blank (s : text) : Prop := Forall (fun c => is_ws c = true) s.
Definition delim (c : N) : bool := is_ws c || (c =? c_lpar)%N || (c =? c_rpar)%N.
(** A name that can be written without quotes: not empty, no white space, no parentheses,
    not starting with a double quote. *)
Definition bare (a : text) : Prop := a <> [] /\ Forall (fun c => delim c = false) a /\ forall r, a <> c_quote :: r.
(** A name that can be written in quotes: it has no double quote, and the printer chooses
    quotes for it (it is empty, or has a space or a parenthesis). *)
Definition quotable (a : text) : Prop := c_quote ∉ a /\ (a = [] \/ c_space ∈ a \/ c_lpar ∈ a \/ c_rpar ∈ a).
Definition printable (a : text) : Prop := bare a \/ quotable a.

(** The text is over, or goes on with white space or a parenthesis. *)
Definition stops (rest : text) : Prop := match rest with [] => True | c :: _ => delim c = true end.
(** [Written s w]: the text [w] is a way to write the s-expression [s]: atoms bare or in
    quotes, items of a list with any white space before them; only after a bare atom the
    next item has to be set off, by white space or by being a list. *)
Inductive Written : sexp -> text -> Prop :=
| W_bare a : bare a -> Written (SStr a) a
| W_quoted a : c_quote ∉ a -> Written (SStr a) (c_quote :: a ++ [c_quote])
| W_empty b : blank b -> Written SEmpty (c_lpar :: b ++ [c_rpar])
| W_list s l ws b : WrittenRest (s :: l) ws -> blank b -> Written (SList (s :: l)) (c_lpar :: ws ++ b ++ [c_rpar])
with WrittenRest : list sexp -> text -> Prop :=
| WR_nil : WrittenRest [] []
| WR_cons s l b w ws : blank b -> Written s w -> (s = SStr w -> stops ws) -> WrittenRest l ws -> WrittenRest (s :: l) (b ++ w ++ ws).

(** The s-expression of a term. *)
Fixpoint sexp_of {Op} (disp : Op -> text) (t : term Op) : sexp :=
  match t with
  | TNode f [] => SStr (disp f)
  | TNode f ts => SList (SStr (disp f) :: (sexp_of disp <$> ts))
  end.
(** Every operator of the term has a printable name, which [from_op] reads back with the
    term's number of children. *)
Inductive names_ok {Op} (P : text -> Prop) (disp : Op -> text) (from_op : text -> list nat -> option (node Op)) : term Op -> Prop :=
| names_ok_node f ts : P (disp f) -> (forall cs, length cs = length ts -> from_op (disp f) cs = Some (Node f cs)) ->
    Forall (names_ok P disp from_op) ts -> names_ok P disp from_op (TNode f ts).
(** Variables whose printed form reads back: numbers of 32 bits, or names that start with a
    question mark, go on, and not with a hash sign. *)
Definition var_ok (v : var) : Prop :=
  match v with
  | VNum n => (n < 2 ^ 32)%N
  | VSym s => exists c r, s = c_qmark :: c :: r /\ c <> c_hash
  end.
(** An s-expression with a list whose first item is the empty list, as in [(() x)]. *)
Inductive headless : sexp -> Prop :=
| hl_here l : headless (SList (SEmpty :: l))
| hl_in l s : s ∈ l -> headless s -> headless (SList l).
(** Names that survive the pretty printer, which strips double quotes at both ends. *)
Definition pretty_bare (a : text) : Prop := bare a /\ forall r, a <> r ++ [c_quote].
(** Patterns: variables are leaves that read back, operators read back and do not look like
    variables. *)
Inductive pat_names_ok {Op} (P : text -> Prop) (disp : Op -> text) (from_op : text -> list nat -> option (node Op)) : term (vop Op) -> Prop :=
| pno_var v : var_ok v -> P (print_var v) -> pat_names_ok P disp from_op (TNode (VVar v) [])
| pno_op f ts : P (disp f) -> (forall r, disp f = c_qmark :: r -> r = []) ->
    (forall cs, length cs = length ts -> from_op (disp f) cs = Some (Node f cs)) ->
    Forall (pat_names_ok P disp from_op) ts -> pat_names_ok P disp from_op (TNode (VOp f) ts).
(** The operators of a term. *)
Inductive occurs {Op} (f : Op) : term Op -> Prop :=
| occurs_root ts : occurs f (TNode f ts)
| occurs_in g ts t : t ∈ ts -> occurs f t -> occurs f (TNode g ts).
(** Decimal numerals, most significant digit first. *)
Definition value (ds : text) : N := foldl (fun a d => (10 * a + (d - 48))%N) 0%N ds.
Definition digit (c : N) : Prop := (48 <= c <= 57)%N.
Definition numeral (ds : text) : Prop := ds <> [] /\ Forall digit ds /\ (value ds < 2 ^ 32)%N.
(** The characters that Unicode calls white space. *)
Definition white : list N :=
  [9; 10; 11; 12; 13; 32; 133; 160; 5760; 8192; 8193; 8194; 8195; 8196; 8197; 8198; 8199; 8200; 8201; 8202; 8232; 8233; 8239; 8287; 12288]%N.
(** The s-expression [s] names the term [t]: atoms are leaves, a list is its first item (an
    atom) applied to the others; [from_op] decides which operator a name is. *)
Inductive Names {Op} (from_op : text -> list nat -> option (node Op)) : sexp -> term Op -> Prop :=
| Names_atom a f : from_op a [] = Some (Node f []) -> Names from_op (SStr a) (TNode f [])
| Names_list a args f cs ts : from_op a cs = Some (Node f cs) -> length cs = length ts -> Forall2 (Names from_op) args ts ->
    Names from_op (SList (SStr a :: args)) (TNode f ts).
(** No variable of a pattern has children. *)
Inductive var_leaves {Op} : term (vop Op) -> Prop :=
| vl_var v : var_leaves (TNode (VVar v) [])
| vl_op f ts : Forall var_leaves ts -> var_leaves (TNode (VOp f) ts).
