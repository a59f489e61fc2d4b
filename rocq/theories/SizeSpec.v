(** Vocabulary for properties of sizes. *)
From Verif Require Import Base EGraphModel Spec RewriteModel RunnerModel.

(** Exactly [n] things satisfy [P]. *)
Definition counted {X} (P : X -> Prop) (n : nat) : Prop :=
  exists l, NoDup l /\ length l = n /\ forall x, x ∈ l <-> P x.

Section spec.
Context {Op D : Type} `{Countable Op}.
(** A canonical id: an answer of [find] for an id handed out. *)
Definition an_answer (g : egraph Op D) (r : nat) : Prop := exists i, known g i /\ eg_find g i = r.
(** A node with canonical children that [lookup] finds. *)
Definition found_node (g : egraph Op D) (n : node Op) : Prop :=
  is_Some (eg_lookup g n) /\ Forall (fun c => eg_find g c = c) (nch n).
(** A key of the hashcons index: also one whose children are no longer canonical. *)
Definition in_index (g : egraph Op D) (n : node Op) : Prop := is_Some (eg_memo g !! n).
(** How many ids were handed out. *)
Definition handed_out (g : egraph Op D) : nat := length (eg_uf g).
(** The merges an iteration reports: applications and congruences. *)
Definition reported (itn : iteration) : nat := sum_list (it_applied itn).*2 + it_rebuilds itn.
(** A hook that leaves the e-graph alone. *)
Definition only_looks {Cl} (L : lang Op) (A : analysis Op D) (fuel : nat) (h : hook Op D Cl) : Prop :=
  forall cl i g g', run_prog L A fuel (modify_n L A fuel) (hk_body h cl i) g = Ok g' -> g' = g.
End spec.
