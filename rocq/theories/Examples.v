(** Concrete languages, analyses and programs used by the examples in Properties files. *)
From Verif Require Import Base UnionFind EGraphModel EGraphPres Spec EGraphReach.

(** Lexicographic order on e-nodes, as [#[derive(Ord)]] gives for [SymbolLang]
    (src/language.rs:945-951): operator first, then children. *)
Fixpoint lex_leb (a b : list nat) : bool :=
  match a, b with
  | [], _ => true
  | _ :: _, [] => false
  | x :: a, y :: b => if x <? y then true else if y <? x then false else lex_leb a b
  end.
Definition nat_leb (a b : node nat) : bool :=
  if nop a <? nop b then true else if nop b <? nop a then false else lex_leb (nch a) (nch b).
Definition natlang : lang nat := Lang _ (fun f => f) nat_leb.

Lemma lex_total a b : lex_leb a b = true \/ lex_leb b a = true.
Proof.
  revert b. induction a as [|x a IH]; intros [|y b]; cbn [lex_leb]; auto.
  destruct (Nat.ltb_spec x y), (Nat.ltb_spec y x); try (left; done); try (right; done); apply IH.
Qed.
Lemma lex_trans a b c : lex_leb a b = true -> lex_leb b c = true -> lex_leb a c = true.
Proof.
  revert b c. induction a as [|x a IH]; intros [|y b] [|z c]; cbn [lex_leb]; try done.
  destruct (Nat.ltb_spec x y), (Nat.ltb_spec y x), (Nat.ltb_spec y z), (Nat.ltb_spec z y),
    (Nat.ltb_spec x z), (Nat.ltb_spec z x); try done; try lia. apply IH.
Qed.
Lemma lex_antisym a b : lex_leb a b = true -> lex_leb b a = true -> a = b.
Proof.
  revert b. induction a as [|x a IH]; intros [|y b]; cbn [lex_leb]; try done.
  destruct (Nat.ltb_spec x y), (Nat.ltb_spec y x); try done; try lia.
  intros. f_equal; [lia|auto].
Qed.
Lemma natlang_ok : lang_ok natlang.
Proof.
  split; cbn [natlang l_leb l_disc]; unfold nat_leb.
  - intros a b. destruct (Nat.ltb_spec (nop a) (nop b)), (Nat.ltb_spec (nop b) (nop a)); try (left; done); try (right; done); apply lex_total.
  - intros a b c. destruct (Nat.ltb_spec (nop a) (nop b)), (Nat.ltb_spec (nop b) (nop a)),
      (Nat.ltb_spec (nop b) (nop c)), (Nat.ltb_spec (nop c) (nop b)),
      (Nat.ltb_spec (nop a) (nop c)), (Nat.ltb_spec (nop c) (nop a)); try done; try lia. apply lex_trans.
  - intros [fa ca] [fb cb]; cbn [nop nch]. destruct (Nat.ltb_spec fa fb), (Nat.ltb_spec fb fa); try done; try lia.
    intros. f_equal; [lia|by apply lex_antisym].
  - intros a b c. destruct (Nat.ltb_spec (nop a) (nop b)), (Nat.ltb_spec (nop b) (nop a)),
      (Nat.ltb_spec (nop b) (nop c)), (Nat.ltb_spec (nop c) (nop b)); try done; lia.
Qed.

(** The unit analysis [()] (src/language.rs:883-888). *)
Definition unitan : analysis nat unit :=
  Analysis (fun _ _ _ => tt) (fun _ _ _ => tt) (fun _ _ => (tt, (false, false))) (fun _ => PRet).

(** A program: x, y, f(x), f(y), g(f(x)), g(f(y)); union x y; then rebuild. *)
Definition congp (rb : bool) : prog nat unit :=
  PAdd (Node 0 []) (fun x => PAdd (Node 1 []) (fun y =>
  PAdd (Node 2 [x]) (fun fx => PAdd (Node 2 [y]) (fun fy =>
  PAdd (Node 3 [fx]) (fun gx => PAdd (Node 3 [fy]) (fun gy =>
  PUnion x y 7 (fun _ => if rb then PRebuild (fun _ => PRet) else PRet))))))).

Definition ok_of {B} (d : B) (r : res B) : B := match r with Ok x => x | _ => d end.
(** Facts about results of runs are checked by computing only booleans and small values. *)
Definition is_ok {B} (r : res B) : bool := match r with Ok _ => true | _ => false end.
Lemma is_ok_eq {B} (d : B) (r : res B) : is_ok r = true -> r = Ok (ok_of d r).
Proof. by destruct r. Qed.
Lemma is_ok_fst {B C} (d : B) (r : res (B * C)) c : (snd <$> r) = Ok c -> r = Ok (fst (ok_of (d, c) r), c).
Proof. destruct r as [[b c']| |]; cbn; intros E; inversion E; done. Qed.
Definition cong_g (ex rb : bool) : egraph nat unit :=
  ok_of (eg_new ex) (session natlang unitan 20 ex (congp rb)).
Lemma cong_g_session ex rb : session natlang unitan 20 ex (congp rb) = Ok (cong_g ex rb).
Proof. apply is_ok_eq. destruct ex, rb; vm_compute; reflexivity. Qed.
Lemma cong_g_reachable ex rb : reachable natlang unitan ex (cong_g ex rb).
Proof. apply (session_reachable _ _ 20 _ (congp rb)), cong_g_session. Qed.
Lemma cong_g_reachable_np ex rb : reachable_np natlang unitan ex (cong_g ex rb).
Proof. apply (session_reachable_np _ _ 20 _ (congp rb)), cong_g_session; [done|]. by destruct rb. Qed.

(** Smallest-term-size analysis: [make] adds up the children, [merge] is the minimum
    (like [merge_min] of src/language.rs:909). *)
Definition sz_of (g : egraph nat nat) (i : nat) : nat :=
  match eg_classes g !! eg_find g i with Some c => c_data c | None => 0 end.
Definition sz_make (g : egraph nat nat) (n : node nat) (_ : nat) : nat := S (sum_list (sz_of g <$> nch n)).
Definition sz_merge (a b : nat) : nat * (bool * bool) := (a `min` b, (b <? a, a <? b)).
Definition sizean : analysis nat nat := Analysis sz_make sz_make sz_merge (fun _ => PRet).
Lemma sizean_climbs : hook_free sizean /\ merge_climbs sizean lt.
Proof.
  split; [done|]. split; [apply lt_wf|]. cbn. unfold sz_merge. intros a b d f1 f2 [= <- <- _].
  destruct (Nat.ltb_spec b a); [left; lia|right; split; [lia|done]].
Qed.
(** x, f(x), g(f(x)), y; then g(f(x)) = y and rebuild. *)
Definition szp : prog nat nat :=
  PAdd (Node 0 []) (fun x => PAdd (Node 2 [x]) (fun fx => PAdd (Node 3 [fx]) (fun gx =>
  PAdd (Node 4 [gx; fx]) (fun h => PAdd (Node 1 []) (fun y => PUnion gx y 7 (fun _ => PRet)))))).

(** Constant propagation with a [modify] hook that adds the constant and unions it in
    (as in the math example of the documentation): operator 10+v is the constant v,
    operator 2 is successor. *)
Definition cf_data (g : egraph nat (option nat)) (i : nat) : option nat :=
  eg_classes g !! eg_find g i ≫= c_data.
Definition cf_make (g : egraph nat (option nat)) (n : node nat) (_ : nat) : option nat :=
  match nop n, nch n with
  | 2, [c] => S <$> cf_data g c
  | f, [] => if f <? 10 then None else Some (f - 10)
  | _, _ => None
  end.
Definition cf_merge (a b : option nat) : option nat * (bool * bool) :=
  match a, b with
  | None, Some v => (Some v, (true, false))
  | Some v, None => (Some v, (false, true))
  | _, _ => (a, (false, false))
  end.
Definition cf_modify (id : nat) : prog nat (option nat) :=
  PLook (fun g => match cf_data g id with
                  | Some v => PAdd (Node (10 + v) []) (fun j => PUnion id j 0 (fun _ => PRet))
                  | None => PRet end).
Definition foldan : analysis nat (option nat) := Analysis cf_make cf_make cf_merge cf_modify.
(** s(x), s(s(x)); then x = 3 and rebuild: the hook adds 4 and 5. *)
Definition foldp : prog nat (option nat) :=
  PAdd (Node 0 []) (fun x => PAdd (Node 2 [x]) (fun sx => PAdd (Node 2 [sx]) (fun ssx =>
  PAdd (Node 13 []) (fun c => PUnion x c 7 (fun _ => PRebuild (fun _ => PRet)))))).
Lemma foldan_known id N : id < N -> uses_known N (an_modify foldan id).
Proof.
  intros Hi. cbn. intros g _ HN. destruct (cf_data g id); cbn; [|done]. split; [set_solver|].
  intros i M HM HiM. split_and!; [lia|lia|done].
Qed.

(** The size analysis as a lattice analysis (smaller sizes are higher). *)
Lemma sizean_lattice : lattice_analysis sizean (fun a b => b <= a) (fun _ ds => S (sum_list ds)).
Proof.
  assert (Hm : forall g (n : node nat) i ds, class_data g <$> nch n = Some <$> ds -> sz_make g n i = S (sum_list ds)).
  { intros g [f cs] i ds Hds. unfold sz_make. cbn [nch] in *. do 2 f_equal.
    revert ds Hds. induction cs as [|c cs IH]; intros [|d ds] Hds; cbn in *; try done.
    injection Hds as Hd Hds. f_equal; [|by apply IH]. unfold class_data in Hd. unfold sz_of.
    destruct (eg_classes g !! eg_find g c); [|done]. cbn in Hd. by injection Hd. }
  split; auto; try lia.
  intros a b d f1 f2 [= <- <- <-]. split_and!; try lia.
  - intros Hlt%Nat.ltb_ge. lia.
  - intros Hlt%Nat.ltb_ge. lia.
Qed.
Lemma sizean_monotone : monotone_analysis sizean (fun a b => b <= a) (fun _ ds => S (sum_list ds)).
Proof.
  split.
  - intros a b d f1 f2 c [= <- <- <-] ??. lia.
  - intros _ ds es Hf. induction Hf; cbn in *; lia.
Qed.
Definition szp2 : prog nat nat :=
  PAdd (Node 0 []) (fun x => PAdd (Node 2 [x]) (fun fx => PAdd (Node 3 [fx]) (fun gx =>
  PAdd (Node 4 [gx; fx]) (fun h => PAdd (Node 1 []) (fun y => PUnion gx y 7 (fun _ => PRebuild (fun _ => PRet))))))).
Lemma szp2_kd g : session natlang sizean 20 false szp2 = Ok g -> reachable_kd natlang sizean false g.
Proof. intros E. split; [done|]. eapply reach_run; [apply reach_new| |exact E]. cbn. auto 20. Qed.

Definition sz_g2 : egraph nat nat := ok_of (eg_new false) (session natlang sizean 20 false szp2).
Lemma sz_g2_session : session natlang sizean 20 false szp2 = Ok sz_g2.
Proof. apply is_ok_eq. vm_compute. reflexivity. Qed.
Definition sz_g : egraph nat nat := ok_of (eg_new false) (session natlang sizean 20 false szp).
Lemma sz_g_session : session natlang sizean 20 false szp = Ok sz_g.
Proof. apply is_ok_eq. vm_compute. reflexivity. Qed.
Definition fold_g : egraph nat (option nat) := ok_of (eg_new true) (session natlang foldan 30 true foldp).
Lemma fold_g_session : session natlang foldan 30 true foldp = Ok fold_g.
Proof. apply is_ok_eq. vm_compute. reflexivity. Qed.
