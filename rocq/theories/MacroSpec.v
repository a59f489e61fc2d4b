(** Notions for the languages made by [define_language!]. *)
From Coq Require Import NArith.
From Verif Require Import Base EGraphModel Spec Terms TextModel TextSpec MacroModel.

Section spec.
Context {Dt : Type}.
Notation decl := (list (variant Dt)).
(** The values of the enum: e-nodes that fit the declaration. *)
Definition fits (vs : decl) (n : node (mop Dt)) : Prop :=
  match vs !! (nop n).1, (nop n).2 with
  | Some (VarStr _), None => nch n = []
  | Some (VarStrCh _ t), None => can_be_length t (length (nch n)) = true
  | Some (VarData _ _), Some _ => nch n = []
  | Some (VarDataCh _ _ t), Some _ => can_be_length t (length (nch n)) = true
  | _, _ => False
  end.
(** The variant [v] takes the operator name [op] with [k] children. *)
Definition takes (v : variant Dt) (op : text) (k : nat) : Prop :=
  match v with
  | VarStr s => op = s /\ k = 0
  | VarStrCh s t => op = s /\ can_be_length t k = true
  | VarData parse _ => is_Some (parse op) /\ k = 0
  | VarDataCh parse _ t => is_Some (parse op) /\ can_be_length t k = true
  end.
#[global] Instance takes_dec v op k : Decision (takes v op k).
Proof. destruct v; cbn [takes]; apply _. Defined.
(** The payload the variant gives to that name. *)
Definition payload (v : variant Dt) (op : text) : option Dt :=
  match v with VarStr _ | VarStrCh _ _ => None | VarData parse _ | VarDataCh parse _ _ => parse op end.
(** The payload of the e-node, if any, is the one its variant reads from the printed text. *)
Definition payload_back (vs : decl) (n : node (mop Dt)) : Prop :=
  match vs !! (nop n).1 with
  | Some v => payload v (m_display vs (nop n)) = (nop n).2
  | None => False
  end.
(** No variant declared earlier takes what the e-node prints as. *)
Definition not_captured (vs : decl) (n : node (mop Dt)) : Prop :=
  forall j w, j < (nop n).1 -> vs !! j = Some w -> ~ takes w (m_display vs (nop n)) (length (nch n)).
(** Every e-node of the term is a value of the enum with a printable name whose payload reads
    back and which no earlier variant captures. *)
Inductive readable (vs : decl) : term (mop Dt) -> Prop :=
| readable_node f ts : printable (m_display vs f) ->
    (forall cs, length cs = length ts -> fits vs (Node f cs) /\ payload_back vs (Node f cs) /\ not_captured vs (Node f cs)) ->
    Forall (readable vs) ts -> readable vs (TNode f ts).
(** A total order ([Ord] agreeing with [Eq]). *)
Record total_order {X} (leb : X -> X -> bool) : Prop := {
  to_total a b : leb a b = true \/ leb b a = true;
  to_trans a b c : leb a b = true -> leb b c = true -> leb a c = true;
  to_antisym a b : leb a b = true -> leb b a = true -> a = b;
}.
(** [from_op] as a partial function. *)
Definition from_op_fn (vs : decl) `{EqDecision Dt} (op : text) (cs : list nat) : option (node (mop Dt)) :=
  match m_from_op 0 vs op cs with Ok o => o | _ => None end.
End spec.
