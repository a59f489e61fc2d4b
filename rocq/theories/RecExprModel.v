(** Expressions stored as node lists: src/language.rs [RecExpr] and the [Language] helpers
    that build them.  A [RecExpr] is modelled by its node vector. *)
From Verif Require Import Base EGraphModel.

Section rx.
Context {Op : Type} `{Countable Op}.
Notation node := (node Op).
Notation recexpr := (list node).

(** [Language::map_children] with a fallible function, children left to right
    (src/language.rs:98-101). *)
Fixpoint mapM_list {S} (f : nat -> S -> res (S * nat)) (cs : list nat) (s : S) : res (S * list nat) :=
  match cs with
  | [] => Ok (s, [])
  | c :: cs => '(s, r) ← f c s; '(s, rs) ← mapM_list f cs s; Ok (s, r :: rs)
  end.
Definition map_children_m {S} (f : nat -> S -> res (S * nat)) (n : node) (s : S) : res (S * node) :=
  '(s, cs) ← mapM_list f (nch n) s; Ok (s, Node (nop n) cs).
(** pure but partial: indexing a vector or a map *)
Definition map_children_o (f : nat -> option nat) (n : node) : res node :=
  cs ← expect (mapM f (nch n)); Ok (Node (nop n) cs).

(** src/language.rs:515-517: [root] panics on an empty expression. *)
Definition rx_root (e : recexpr) : res nat :=
  match e with [] => Panic | _ => Ok (length e - 1) end.
(** src/language.rs:464-473: [add]; its debug assertion says every child is at most the
    current root (so there must be one when the node has children). *)
Definition rx_add_check (e : recexpr) (n : node) : bool :=
  forallb (fun c => match rx_root e with Ok r => c <=? r | _ => false end) (nch n).
Definition rx_add (e : recexpr) (n : node) : res (recexpr * nat) :=
  _ ← assert (rx_add_check e n); Ok (e ++ [n], length e).

(** src/language.rs:510-512 *)
Definition rx_is_dag (e : recexpr) : bool :=
  forallb id (imap (fun i n => forallb (fun c => c <? i) (nch n)) e).

(** [IndexSet::insert_full]: position of the element, appended at the end when new. *)
Definition index_insert (s : list node) (n : node) : list node * nat :=
  match list_find (fun m => m = n) s with
  | Some (i, _) => (s, i)
  | None => (s ++ [n], length s)
  end.

(** src/language.rs:475-485 [compact] *)
Fixpoint compact_loop (i : nat) (e : recexpr) (ids : gmap nat nat) (s : list node) : res (list node) :=
  match e with
  | [] => Ok s
  | n :: e =>
      m ← map_children_o (fun c => ids !! c) n;
      let '(s, new_id) := index_insert s m in
      compact_loop (S i) e (<[i := new_id]> ids) s
  end.
Definition rx_compact (e : recexpr) : res recexpr := compact_loop 0 e ∅ [].

(** src/language.rs:194-217, the loop of [try_build_recexpr].  [todo] is the [Vec] used as a
    stack, top first.  [get] failing ([None]) stands for the error returned by [get_node]
    (or its panic); the model reports both as [Panic]. *)
Fixpoint build_loop (fuel : nat) (get : nat -> option node) (s : list node) (ids : gmap nat nat)
    (todo : list nat) : res (list node * gmap nat nat) :=
  match todo with
  | [] => Ok (s, ids)
  | id :: rest =>
      match fuel with
      | 0 => OutOfFuel
      | S fuel =>
          if decide (is_Some (ids !! id)) then build_loop fuel get s ids rest
          else
            n ← expect (get id);
            let missing := filter (fun c => ids !! c = None) (nch n) in
            match missing with
            | [] =>
                m ← map_children_o (fun c => ids !! c) n;
                let '(s, new_id) := index_insert s m in
                build_loop fuel get s (<[id := new_id]> ids) rest
            | _ => build_loop fuel get s ids (reverse missing ++ id :: rest)
            end
      end
  end.
(** src/language.rs:186-224 [try_build_recexpr] *)
Definition build_recexpr (fuel : nat) (n : node) (get : nat -> option node) : res recexpr :=
  '(s, ids) ← build_loop fuel get [] ∅ (reverse (nch n));
  m ← map_children_o (fun c => ids !! c) n;
  '(e, _) ← rx_add s m;
  Ok e.

(** src/language.rs:487-489 [extract] *)
Definition rx_extract (fuel : nat) (e : recexpr) (new_root : nat) : res recexpr :=
  n ← expect (e !! new_root);
  build_recexpr fuel n (fun i => e !! i).

(** src/language.rs:137-157 [join_recexprs] and its local [build]. *)
Fixpoint join_build (fuel : nat) (from : recexpr) (to : recexpr) : res (recexpr * nat) :=
  match fuel with
  | 0 => OutOfFuel
  | S fuel =>
      l ← expect (last from);
      '(to, m) ← map_children_m (fun c to =>
                   if S c <=? length from then join_build fuel (take (S c) from) to else Panic) l to;
      rx_add to m
  end.
Definition join_recexprs (fuel : nat) (n : node) (child_recexpr : nat -> recexpr) : res recexpr :=
  '(e, m) ← map_children_m (fun c e => join_build fuel (child_recexpr c) e) n [];
  '(e, _) ← rx_add e m;
  Ok e.

End rx.
