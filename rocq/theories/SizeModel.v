(** Sizes and reports: src/egraph.rs:165-167 ([is_empty]), src/run.rs:257-273, 508-523
    ([Report]).  [total_size], [total_number_of_nodes] and [number_of_classes] are in
    RunnerModel.v.  Definitions only. *)
From Verif Require Import Base EGraphModel RewriteModel RunnerModel.

(** src/egraph.rs:165-167 *)
Definition is_empty {Op D} `{Countable Op} (g : egraph Op D) : bool := total_size g =? 0.

(** src/run.rs:257-273, without the times *)
Record report := Report {
  rp_iterations : nat; rp_stop : stop; rp_nodes : nat; rp_classes : nat; rp_memo : nat; rp_rebuilds : nat }.
(** src/run.rs:508-523 [Runner::report] *)
Definition make_report {Op D} `{Countable Op} {St Cl} (r : runner Op D St Cl) : res report :=
  s ← expect (r_stop r);
  Ok (Report (length (r_iters r)) s (total_number_of_nodes (r_eg r)) (number_of_classes (r_eg r)) (total_size (r_eg r))
        (sum_list (it_rebuilds <$> r_iters r))).
