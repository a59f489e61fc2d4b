(** Specification vocabulary: settings of the backoff scheduler, and the counts of a run. *)
From Verif Require Import Base EGraphModel MachineModel RewriteModel RunnerModel.

(** The builder methods of [BackoffScheduler] (src/run.rs:823-866), as data. *)
Inductive setting :=
| SDefaultLimit (k : nat) | SDefaultBan (k : nat)
| SLimit (name k : nat) | SBan (name k : nat) | SNoBan (name : nat).
Definition set_one (w : nat) (b : backoff) (s : setting) : backoff :=
  match s with
  | SDefaultLimit k => with_initial_match_limit k b
  | SDefaultBan k => with_ban_length k b
  | SLimit n k => rule_match_limit n k b
  | SBan n k => rule_ban_length n k b
  | SNoBan n => do_not_ban w n b
  end.
(** [BackoffScheduler::default()] (match limit 1000, ban length 5: here [limit] and [ban])
    followed by the calls [ss], in order. *)
Definition configure (w limit ban : nat) (ss : list setting) : backoff := foldl (set_one w) (backoff_default limit ban) ss.
(** What a setting is about. *)
Definition names (s : setting) : option nat :=
  match s with SLimit n _ | SBan n _ | SNoBan n => Some n | _ => None end.
Definition limits_rule (name : nat) (s : setting) : Prop := match s with SLimit n _ | SNoBan n => n = name | _ => False end.
Definition bans_rule (name : nat) (s : setting) : Prop := match s with SBan n _ => n = name | _ => False end.

(** Any use of the scheduler: searches and questions whether to stop, in any order. *)
Inductive used {Op D} `{Countable Op} (L : lang Op) (it : gset nat -> list nat) (cycles : bool) (w : nat) (debug : bool) : backoff -> backoff -> Prop :=
| used_refl b : used L it cycles w debug b b
| used_search b i (g : egraph Op D) rw ms b1 b2 :
    backoff_search L it cycles w debug i g rw b = Ok (ms, b1) -> used L it cycles w debug b1 b2 -> used L it cycles w debug b b2
| used_stop b i r b1 b2 : backoff_can_stop i b = Ok (r, b1) -> used L it cycles w debug b1 b2 -> used L it cycles w debug b b2.

(** [applied_each rms g cs g']: the rules of [rms] are applied to their matches one after the
    other, from [g] to [g'], and [cs] says for each how many ids it answered. *)
Inductive applied_each {Op D} `{Countable Op} (L : lang Op) (A : analysis Op D) (fuel here : nat)
  : list (rewrite Op D * list smatch) -> egraph Op D -> list (nat * nat) -> egraph Op D -> Prop :=
| ae_nil g : applied_each L A fuel here [] g [] g
| ae_cons rw ms rms g g1 ids cs g2 : rewrite_apply L A fuel here rw ms g = Ok (g1, ids) ->
    applied_each L A fuel here rms g1 cs g2 -> applied_each L A fuel here ((rw, ms) :: rms) g ((rw_name rw, length ids) :: cs) g2.
(** The sum of the counts listed for a name. *)
Fixpoint total (name : nat) (cs : list (nat * nat)) : nat :=
  match cs with [] => 0 | (n, c) :: cs => (if decide (n = name) then c else 0) + total name cs end.
