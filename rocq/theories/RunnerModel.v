(** The runner and its schedulers: src/run.rs.  Definitions only.

    Not modelled: the log output, the timing fields of iterations and reports, [IterData].
    The debug assertion [check_each_explain] (src/run.rs:596-598) is left out here and put
    back in CheckEachModel.v.  Rule names and error messages are [nat]. *)
From Verif Require Import Base EGraphModel RecExprModel ExprModel MachineModel RewriteModel.

(** src/run.rs:235-249 *)
Inductive stop := Saturated | IterationLimit (n : nat) | NodeLimit (n : nat) | TimeLimit (t : nat) | Other (msg : nat).
(** src/run.rs:160-166; [start_time] is the origin of the clock, see [clock]. *)
Record limits := Limits { li_iter : nat; li_node : nat; li_time : nat }.

Section model.
Context {Op D : Type} `{Countable Op} (L : lang Op) (A : analysis Op D).
Notation egraph := (egraph Op D).
Notation prog := (prog Op D).
Notation rewrite := (rewrite Op D).

(** src/egraph.rs:184-196 *)
Definition total_size (g : egraph) : nat := size (eg_memo g).
Definition number_of_classes (g : egraph) : nat := size (eg_classes g).
Definition total_number_of_nodes (g : egraph) : nat := map_fold (fun _ c n => length (c_nodes c) + n) 0 (eg_classes g).

(** The elapsed time since the start, at the [k]-th time a limit check asks for it. *)
Context (clock : nat -> nat).
(** src/run.rs:168-191 [RunnerLimits::check_limits]; [None] is [Ok(())]. *)
Definition check_limits (li : limits) (iteration tick : nat) (g : egraph) : option stop :=
  if li_time li <? clock tick then Some (TimeLimit (clock tick))
  else if li_node li <? total_size g then Some (NodeLimit (total_size g))
  else if li_iter li <=? iteration then Some (IterationLimit iteration)
  else None.

(** * Schedulers *)
(** src/run.rs:675-769 [RewriteScheduler], as a state machine: [can_stop] and
    [search_rewrite] are the client's, [search_rewrites] and [apply_rewrite] have their
    default implementations. *)
Record scheduler (St : Type) := Scheduler {
  sc_can_stop : nat -> St -> res (bool * St);
  sc_search : nat -> egraph -> rewrite -> St -> res (list smatch * St);
}.

Section searching.
(** Iteration order of hash sets, [allow_ematching_cycles], and the width of [usize]. *)
Context (it : gset nat -> list nat) (cycles : bool) (w : nat).
Definition umax : nat := 2 ^ w - 1.
Definition n_matches (ms : list smatch) : nat := sum_list (length ∘ sm_substs <$> ms).
(** src/rewrite.rs:90-104.  The substitutions found are all in memory, so there are fewer than
    [usize::MAX] of them: a larger result is a panic ("capacity overflow"). *)
Definition rewrite_search (g : egraph) (rw : rewrite) (limit : nat) : res (list smatch) :=
  ms ← searcher_search L it cycles (rw_searcher rw) g limit;
  _ ← assert (n_matches ms <? umax);
  Ok ms.

(** src/run.rs:783-790 [SimpleScheduler] *)
Definition simple_scheduler : scheduler unit :=
  Scheduler unit (fun _ st => Ok (true, st)) (fun _ g rw st => ms ← rewrite_search g rw umax; Ok (ms, st)).

(** src/run.rs:805-820 *)
Record rstats := RStats { rs_applied : nat; rs_until : nat; rs_times : nat; rs_limit : nat; rs_ban : nat }.
Record backoff := Backoff { bo_limit : nat; bo_ban : nat; bo_stats : gmap nat rstats }.
(** src/run.rs:835-847 [rule_stats] (insertion is part of the callers) *)
Definition rule_stats (name : nat) (b : backoff) : rstats :=
  default (RStats 0 0 0 (bo_limit b) (bo_ban b)) (bo_stats b !! name).
Definition set_stats (name : nat) (s : rstats) (b : backoff) : backoff := Backoff (bo_limit b) (bo_ban b) (<[name := s]> (bo_stats b)).
(** src/run.rs:823-833, 850-866, 868-876 *)
Definition backoff_default (limit ban : nat) : backoff := Backoff limit ban ∅.
Definition with_initial_match_limit (limit : nat) (b : backoff) : backoff := Backoff limit (bo_ban b) (bo_stats b).
Definition with_ban_length (len : nat) (b : backoff) : backoff := Backoff (bo_limit b) len (bo_stats b).
Definition rule_match_limit (name limit : nat) (b : backoff) : backoff :=
  let s := rule_stats name b in set_stats name (RStats (rs_applied s) (rs_until s) (rs_times s) limit (rs_ban s)) b.
Definition rule_ban_length (name len : nat) (b : backoff) : backoff :=
  let s := rule_stats name b in set_stats name (RStats (rs_applied s) (rs_until s) (rs_times s) (rs_limit s) len) b.
Definition do_not_ban (name : nat) (b : backoff) : backoff := rule_match_limit name umax b.

(** [usize] arithmetic: [checked_shl(..).unwrap()], [<<] with a shift below the width, and
    [+] (overflow panics in debug builds and wraps in release builds). *)
Definition shl (x k : nat) : nat := (x * 2 ^ k) mod 2 ^ w.
Definition checked_shl (x k : nat) : res nat := if k <? w then Ok (shl x k) else Panic.
Definition uadd (debug : bool) (x y : nat) : res nat :=
  if x + y <=? umax then Ok (x + y) else if debug then Panic else Ok ((x + y) mod 2 ^ w).

(** src/run.rs:883-923 *)
Definition backoff_can_stop (iteration : nat) (b : backoff) : res (bool * backoff) :=
  let banned := filter (fun s => iteration < rs_until s) (map_to_list (bo_stats b)).*2 in
  match banned with
  | [] => Ok (true, b)
  | s0 :: ss =>
      let min_ban := foldr (fun s m => rs_until s `min` m) (rs_until s0) ss in
      _ ← assert (iteration <=? min_ban);
      let delta := min_ban - iteration in
      let dec s := RStats (rs_applied s) (rs_until s - delta) (rs_times s) (rs_limit s) (rs_ban s) in
      _ ← assert (existsb (fun s => rs_until (dec s) =? iteration) banned);
      Ok (false, Backoff (bo_limit b) (bo_ban b) ((fun s => if decide (iteration < rs_until s) then dec s else s) <$> bo_stats b))
  end.
(** src/run.rs:925-969 *)
Definition backoff_search (debug : bool) (iteration : nat) (g : egraph) (rw : rewrite) (b : backoff) : res (list smatch * backoff) :=
  let s := rule_stats (rw_name rw) b in
  if iteration <? rs_until s then Ok ([], set_stats (rw_name rw) s b)
  else
    threshold ← checked_shl (rs_limit s) (rs_times s);
    ms ← rewrite_search g rw (umax `min` (threshold + 1));
    if threshold <? n_matches ms then
      until ← uadd debug iteration (shl (rs_ban s) (rs_times s));
      Ok ([], set_stats (rw_name rw) (RStats (rs_applied s) until (S (rs_times s)) (rs_limit s) (rs_ban s)) b)
    else
      Ok (ms, set_stats (rw_name rw) (RStats (S (rs_applied s)) (rs_until s) (rs_times s) (rs_limit s) (rs_ban s)) b).
Definition backoff_scheduler (debug : bool) : scheduler backoff := Scheduler backoff backoff_can_stop (backoff_search debug).
End searching.

(** * The runner *)
Section run.
Context {St Cl : Type} (sch : scheduler St) (li : limits) (rules : list rewrite) (fuel here : nat).
Notation md := (modify_n L A fuel).

(** A hook added by [with_hook]: what it does to the e-graph and what it answers ([Some]
    message is [Err]), given the number of finished iterations; closures may keep state.
    Simplification: hooks do not edit the runner's other public fields. *)
Record hook := Hook { hk_body : Cl -> nat -> prog; hk_out : Cl -> nat -> egraph -> Cl * option nat }.
Context (hooks : list hook).

(** src/run.rs:301-330 *)
Record iteration := Iteration {
  it_nodes : nat; it_classes : nat; it_applied : list (nat * nat); it_rebuilds : nat; it_stop : option stop }.
(** src/run.rs:138-157; [r_cl] is the state of the hooks' closures, [r_tick] the number of
    times the clock was read. *)
Record runner := Runner {
  r_eg : egraph; r_iters : list iteration; r_roots : list nat; r_stop : option stop; r_st : St; r_cl : Cl; r_tick : nat }.

Fixpoint run_hooks (hs : list hook) (i : nat) (cl : Cl) (g : egraph) : res (egraph * Cl * option stop) :=
  match hs with
  | [] => Ok (g, cl, None)
  | h :: hs =>
      g ← run_prog L A fuel md (hk_body h cl i) g;
      let '(cl, err) := hk_out h cl i g in
      match err with
      | Some m => Ok (g, cl, Some (Other m))
      | None => run_hooks hs i cl g
      end
  end.
(** src/run.rs:738-752 *)
Fixpoint search_rewrites (rs : list rewrite) (i tick : nat) (st : St) (g : egraph) : res (list (list smatch) * St * nat * option stop) :=
  match rs with
  | [] => Ok ([], st, tick, None)
  | rw :: rs =>
      '(ms, st) ← sc_search _ sch i g rw st;
      match check_limits li i tick g with
      | Some s => Ok ([], st, S tick, Some s)
      | None =>
          '(mss, st, tick, res) ← search_rewrites rs i (S tick) st g;
          Ok (ms :: mss, st, tick, res)
      end
  end.
(** src/run.rs:579-586: counts per rule name *)
Fixpoint bump (name k : nat) (applied : list (nat * nat)) : list (nat * nat) :=
  match applied with
  | [] => [(name, k)]
  | (n, c) :: applied => if decide (n = name) then (n, c + k) :: applied else (n, c) :: bump name k applied
  end.
(** src/run.rs:572-590, with [apply_rewrite] of lines 760-768 *)
Fixpoint apply_rewrites (rms : list (rewrite * list smatch)) (i tick : nat) (applied : list (nat * nat)) (g : egraph)
  : res (egraph * list (nat * nat) * nat * option stop) :=
  match rms with
  | [] => Ok (g, applied, tick, None)
  | (rw, ms) :: rms =>
      '(g, ids) ← rewrite_apply L A fuel here rw ms g;
      let applied := if 0 <? length ids then bump (rw_name rw) (length ids) applied else applied in
      match check_limits li i tick g with
      | Some s => Ok (g, applied, S tick, Some s)
      | None => apply_rewrites rms i (S tick) applied g
      end
  end.

(** src/run.rs:525-637 *)
Definition run_one (r : runner) : res (runner * iteration) :=
  _ ← assert (match r_stop r with None => true | Some _ => false end);
  let i := length (r_iters r) in
  let g := r_eg r in
  let res1 := check_limits li i (r_tick r) g in
  let tick := S (r_tick r) in
  let nodes := total_size g in
  let classes := number_of_classes g in
  '(g, cl, res2) ← match res1 with
                   | None => run_hooks hooks i (r_cl r) g
                   | Some s => Ok (g, r_cl r, Some s)
                   end;
  let nodes_hooks := total_size g in
  let classes_hooks := number_of_classes g in
  '(mss, st, tick, res3) ← match res2 with
                           | None => search_rewrites rules i tick (r_st r) g
                           | Some s => Ok ([], r_st r, tick, Some s)
                           end;
  '(g, applied, tick, res4) ← match res3 with
                              | None => apply_rewrites (zip rules mss) i tick [] g
                              | Some s => Ok (g, [], tick, Some s)
                              end;
  '(g, n) ← rebuild L A fuel md g;
  '(can, st) ← match applied with [] => sc_can_stop _ sch i st | _ => Ok (false, st) end;
  let saturated := can && (nodes =? nodes_hooks) && (classes =? classes_hooks) && (nodes =? total_size g) && (classes =? number_of_classes g) in
  let res5 := match res4 with Some s => Some s | None => if saturated then Some Saturated else None end in
  Ok (Runner g (r_iters r) (r_roots r) (r_stop r) st cl tick, Iteration nodes classes applied n res5).

(** src/run.rs:443-453; [Ok None] if [rounds] did not suffice *)
Fixpoint run_loop (rounds : nat) (r : runner) : res (option runner) :=
  match rounds with
  | 0 => Ok None
  | S rounds =>
      '(r, iter) ← run_one r;
      let iters := r_iters r ++ [iter] in
      match it_stop iter with
      | Some s => Ok (Some (Runner (r_eg r) iters (r_roots r) (Some s) (r_st r) (r_cl r) (r_tick r)))
      | None =>
          match check_limits li (length iters) (r_tick r) (r_eg r) with
          | Some s => Ok (Some (Runner (r_eg r) iters (r_roots r) (Some s) (r_st r) (r_cl r) (S (r_tick r))))
          | None => run_loop rounds (Runner (r_eg r) iters (r_roots r) (r_stop r) (r_st r) (r_cl r) (S (r_tick r)))
          end
      end
  end.
(** src/run.rs:434-459 [run] on a runner that has not run before *)
Definition run (rounds : nat) (roots : list nat) (g : egraph) (st : St) (cl : Cl) : res (option runner) :=
  '(g, _) ← rebuild L A fuel md g;
  run_loop rounds (Runner g [] roots None st cl 0).
End run.
End model.
Arguments scheduler Op D {_ _} St.
Arguments hook Op D {_ _} Cl.
Arguments runner Op D {_ _} St Cl.
