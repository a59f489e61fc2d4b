(** Languages made by [define_language!]: src/macros.rs:94-265, and the [LanguageChildren]
    implementations it uses: src/language.rs:304-369.  Definitions only. *)
From Coq Require Import NArith.
From Verif Require Import Base EGraphModel TextModel.

(** src/language.rs:322-369, the types of the children: [Id; N], Box<[Id]>, Vec<Id>, Id *)
Inductive chtype := ChArray (n : nat) | ChBox | ChVec | ChId.
(** [can_be_length] *)
Definition can_be_length (t : chtype) (n : nat) : bool :=
  match t with ChArray k => n =? k | ChBox | ChVec => true | ChId => n =? 1 end.
(** [from_vec] followed by [as_slice]: the array conversion panics unless the length fits, the
    single id is [v[0]] *)
Definition from_vec (t : chtype) (v : list nat) : res (list nat) :=
  match t with
  | ChArray k => if length v =? k then Ok v else Panic
  | ChBox | ChVec => Ok v
  | ChId => x ← expect (head v); Ok [x]
  end.

Section decl.
(** The payloads of all data variants together (each variant has its own type in Rust). *)
Context {Dt : Type} `{Countable Dt}.
(** src/macros.rs, the four forms of a variant: a string without children (161-183), a string
    with children (185-211), data without children (213-235), data with children (237-264).
    Data has [FromStr] and [Display]. *)
Inductive variant :=
| VarStr (s : text)
| VarStrCh (s : text) (t : chtype)
| VarData (parse : text -> option Dt) (show : Dt -> text)
| VarDataCh (parse : text -> option Dt) (show : Dt -> text) (t : chtype).
Notation decl := (list variant).
(** An e-node's operator: the variant (its position) and its payload. *)
Definition mop : Type := nat * option Dt.
Notation mnode := (node mop).

(** src/macros.rs:181, 205-209, 233, 257-262: the arm of [from_op] of one variant.  [None]: the guard
    fails and the next arm is tried. *)
Definition arm (i : nat) (v : variant) (op : text) (cs : list nat) : res (option mnode) :=
  match v with
  | VarStr s => Ok (if bool_decide (op = s) && (match cs with [] => true | _ => false end) then Some (Node (i, None) []) else None)
  | VarStrCh s t =>
      if bool_decide (op = s) && can_be_length t (length cs) then cs ← from_vec t cs; Ok (Some (Node (i, None) cs)) else Ok None
  | VarData parse _ =>
      match parse op, cs with Some d, [] => Ok (Some (Node (i, Some d) [])) | _, _ => Ok None end
  | VarDataCh parse _ t =>
      match parse op with
      | Some d => if can_be_length t (length cs) then cs ← from_vec t cs; Ok (Some (Node (i, Some d) cs)) else Ok None
      | None => Ok None
      end
  end.
(** src/macros.rs:149-158 [from_op]: the arms in order of declaration; [None] is the error *)
Fixpoint m_from_op (i : nat) (vs : decl) (op : text) (cs : list nat) : res (option mnode) :=
  match vs with
  | [] => Ok None
  | v :: vs => o ← arm i v op cs; match o with Some n => Ok (Some n) | None => m_from_op (S i) vs op cs end
  end.
(** src/macros.rs:141-147, 180, 204, 232, 256 [Display]; the operator only.  Operators that are not of the
    declaration do not exist in Rust; here they print as nothing. *)
Definition m_display (vs : decl) (o : mop) : text :=
  match vs !! o.1, o.2 with
  | Some (VarStr s), _ | Some (VarStrCh s _), _ => s
  | Some (VarData _ show), Some d | Some (VarDataCh _ show _), Some d => show d
  | _, _ => []
  end.
(** src/macros.rs:132-135 [matches], with the arms of each variant (177, 201, 229, 253) *)
Definition m_matches (vs : decl) (a b : mnode) : bool :=
  bool_decide ((nop a).1 = (nop b).1) &&
  match vs !! (nop a).1 with
  | Some (VarStr _) => true
  | Some (VarStrCh _ _) => length (nch a) =? length (nch b)
  | Some (VarData _ _) => bool_decide ((nop a).2 = (nop b).2)
  | Some (VarDataCh _ _ _) => bool_decide ((nop a).2 = (nop b).2) && (length (nch a) =? length (nch b))
  | None => false
  end.
(** [derive(Ord)] (src/macros.rs:120): the variant, then the payload (by the order [dleb] of
    its type), then the children; slices, arrays and ids compare lexicographically. *)
Context (dleb : nat -> Dt -> Dt -> bool).
Definition odleb (i : nat) (a b : option Dt) : bool :=
  match a, b with None, _ => true | Some _, None => false | Some a, Some b => dleb i a b end.
Fixpoint lex_leb (a b : list nat) : bool :=
  match a, b with
  | [], _ => true
  | _ :: _, [] => false
  | x :: a, y :: b => (x <? y) || (x =? y) && lex_leb a b
  end.
Definition m_leb (a b : mnode) : bool :=
  let '(Node (i, d) cs) := a in
  let '(Node (j, e) ds) := b in
  (i <? j) || (i =? j) && odleb i d e && (negb (odleb i e d) || lex_leb cs ds).
(** src/macros.rs:124-129 [discriminant] is the variant. *)
Definition mlang : lang mop := Lang _ fst m_leb.
End decl.
Arguments variant : clear implicits.
Arguments mop : clear implicits.
