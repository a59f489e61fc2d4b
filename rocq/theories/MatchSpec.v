(** Specification vocabulary for searches. *)
From Verif Require Import Base EGraphModel Spec Terms ExprModel PatSpec MachineModel.

(** Any enumeration of a set without repetition (hash-set iteration order). *)
Definition enumerates (it : gset nat -> list nat) : Prop := forall s, it s ≡ₚ elements s.
(** Any enumeration of the keys of the compiler's work list (hash-map iteration order). *)
Definition enumerates_keys {Op} `{Countable Op} (ord : gmap (nat * nat) (node Op) -> list (nat * nat)) : Prop :=
  forall m, ord m ≡ₚ (map_to_list m).*1.

(** What a client may pass to [Pattern::new]: a non-empty pattern AST, children first, with
    childless variables. *)
Definition good_ast {Op} (p : list (node (pop Op))) : Prop := dag p /\ pat_ok p /\ p <> [].

(** All (class, substitution) pairs of a list of matches, in order. *)
Definition pairs (ms : list smatch) : list (nat * subst) := concat ((fun m => (fun s => (sm_class m, s)) <$> sm_substs m) <$> ms).

(** The result of searching one class: [None] instead of a match without substitutions. *)
Definition wrap (c : nat) (ss : list subst) : option smatch := match ss with [] => None | _ => Some (SMatch c ss) end.

(** Same classes for all variables. *)
Definition same_sub {Op D} `{Countable Op} (g : egraph Op D) (s1 s2 : subst) : Prop :=
  forall v, eg_find g <$> subst_get s1 v = eg_find g <$> subst_get s2 v.

(** [s] satisfies the clause [v = p]: the instance of [p] is represented in the class of [v]. *)
Definition holds {Op D} `{Countable Op} (g : egraph Op D) (s : nat -> option nat) (cl : nat * list (node (pop Op))) : Prop :=
  exists i t, s cl.1 = Some i /\ ExprTree cl.2 t /\ PRep g s t (eg_find g i).
(** The variables of a pattern AST and of a clause. *)
Definition has_var {Op} (p : list (node (pop Op))) (v : nat) : Prop := exists t, ExprTree p t /\ occurs v t.
Definition mentions {Op} (cl : nat * list (node (pop Op))) (v : nat) : Prop := v = cl.1 \/ has_var cl.2 v.
(** The root of a pattern is an operator. *)
Definition op_root {Op} (p : list (node (pop Op))) : Prop := exists f cs, last p = Some (Node (POp f) cs).
