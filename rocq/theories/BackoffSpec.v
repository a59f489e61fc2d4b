(** Specification vocabulary for the backoff scheduler. *)
From Verif Require Import Base EGraphModel MachineModel RewriteModel RunnerModel.

(** The rule called [name] is banned in iteration [i]. *)
Definition banned (b : backoff) (name i : nat) : Prop := exists s, bo_stats b !! name = Some s /\ i < rs_until s.
(** Bans decided in an iteration before the iteration limit last beyond that iteration, i.e.
    the doubled ban length has not become zero by losing its high bits, and the sum has not
    wrapped around. *)
Definition bans_last (w : nat) (debug : bool) (li : limits) (b : backoff) : Prop :=
  forall name t i u, t < w -> i < li_iter li -> uadd w debug i (shl w (rs_ban (rule_stats name b)) t) = Ok u -> i < u.
(** Uses of the scheduler in which the rule called [name] is not searched: it is asked for
    only while it is banned. *)
Inductive starves {Op D} `{Countable Op} (L : lang Op) (it : gset nat -> list nat) (cycles : bool) (w : nat) (debug : bool) (name : nat) : backoff -> backoff -> Prop :=
| starves_refl b : starves L it cycles w debug name b b
| starves_search b i (g : egraph Op D) rw ms b1 b2 : (rw_name rw = name -> banned b name i) ->
    backoff_search L it cycles w debug i g rw b = Ok (ms, b1) -> starves L it cycles w debug name b1 b2 -> starves L it cycles w debug name b b2
| starves_stop b i r b1 b2 : backoff_can_stop i b = Ok (r, b1) -> starves L it cycles w debug name b1 b2 -> starves L it cycles w debug name b b2.
(** The iteration in which the ban ends. *)
Definition ban_end (b : backoff) (name : nat) : nat := match bo_stats b !! name with Some s => rs_until s | None => 0 end.
