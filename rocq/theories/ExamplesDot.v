(** E-graphs and their drawings for PropertiesDot.v. *)
From Coq Require Import NArith Ascii String.
From Verif Require Import Base UnionFind EGraphModel EGraphPres Spec EGraphReach ExtractModel ExtractSpec TextModel PrintModel DotModel DotSpec DotProofs Examples ExamplesExtract.

(** Operators shown as numbers. *)
Definition decs : nat -> text := dec.
Lemma decs_plain f : plain_label (decs f).
Proof.
  unfold decs. destruct (dec_spec f) as (ds & -> & _ & Hd & _).
  split; [|split]; intros Hin; pose proof (proj1 (Forall_forall _ _) Hd _ Hin) as Hx; unfold TextSpec.digit, c_nl, c_quote in Hx; lia.
Qed.
Lemma decs_inj f f' : decs f = decs f' -> f = f'.
Proof.
  unfold decs. intros E. pose proof (number_app f [] eq_refl) as E1. pose proof (number_app f' [] eq_refl) as E2. rewrite E in E1. rewrite E1 in E2. by injection E2.
Qed.
Lemma rankdir_quiet : Forall quiet [ascii_text "rankdir=LR"].
Proof. constructor; [|constructor]. split; [litnl|reflexivity]. Qed.
Lemma not_headed d : existsb (fun e => forallb (fun x => negb (bool_decide (x.1.2 = e_to e))) (g_decls d)) (g_edges d) = true -> ~ well_headed d.
Proof.
  intros E W. apply existsb_exists in E as (e & He & Hf). apply elem_of_list_In in He. destruct (W e He) as [(l & Hl) _].
  rewrite forallb_forall in Hf. apply elem_of_list_In, Hf in Hl. cbn in Hl. by rewrite bool_decide_eq_true_2 in Hl.
Qed.
Definition graph_of (r : option dgraph) : dgraph := default (DGraph [] [] []) r.
Lemma graph_of_eq (r : option dgraph) : (if r then true else false) = true -> r = Some (graph_of r).
Proof. by destruct r. Qed.

(** Not rebuilt: x and y are merged, h(y) still has the child y. *)
Definition looseb : prog nat unit :=
  PAdd (Node 0 []) (fun x => PAdd (Node 1 []) (fun y => PAdd (Node 2 [x]) (fun _ => PAdd (Node 3 [y]) (fun _ => PUnion x y 7 (fun _ => PRet))))).
Definition loose_g : egraph nat unit := ok_of (eg_new false) (session natlang unitan 20 false looseb).
Lemma loose_session : session natlang unitan 20 false looseb = Ok loose_g.
Proof. apply is_ok_eq. vm_compute. reflexivity. Qed.
Lemma loose_np : reachable_np natlang unitan false loose_g.
Proof. apply (session_reachable_np _ _ 20 _ looseb), loose_session; [done|]. cbn. tauto. Qed.
Definition loose_t : text := ok_of [] (dot_text decs [] true loose_g (keys loose_g)).
Lemma loose_t_eq : dot_text decs [] true loose_g (keys loose_g) = Ok loose_t.
Proof. apply is_ok_eq. vm_compute. reflexivity. Qed.
Definition loose_d : dgraph := graph_of (read_dot loose_t).
Lemma loose_d_eq : read_dot loose_t = Some loose_d.
Proof. apply graph_of_eq. vm_compute. reflexivity. Qed.
(** Rebuilt, with the class of x emptied by hand. *)
Definition emptyp : prog nat unit :=
  PAdd (Node 0 []) (fun x => PAdd (Node 2 [x]) (fun _ => PRebuild (fun _ => PRetain x (fun _ => false) PRet))).
Definition empty_g : egraph nat unit := ok_of (eg_new false) (session natlang unitan 20 false emptyp).
Lemma empty_session : session natlang unitan 20 false emptyp = Ok empty_g.
Proof. apply is_ok_eq. vm_compute. reflexivity. Qed.
Definition empty_t : text := ok_of [] (dot_text decs [] true empty_g (keys empty_g)).
Lemma empty_t_eq : dot_text decs [] true empty_g (keys empty_g) = Ok empty_t.
Proof. apply is_ok_eq. vm_compute. reflexivity. Qed.
Definition empty_d : dgraph := graph_of (read_dot empty_t).
Lemma empty_d_eq : read_dot empty_t = Some empty_d.
Proof. apply graph_of_eq. vm_compute. reflexivity. Qed.

(** A leaf whose name looks like two declarations, and two leaves in one class. *)
Definition sly (f : nat) : text :=
  match f with
  | 0 => ascii_text "a" | 1 => ascii_text "b"
  | 2 => ascii_text "a""]" ++ [c_nl] ++ ascii_text "    0.1[label = ""b"
  | S (S (S f)) => ascii_text "c" ++ dec f
  end.
Lemma sly_inj f f' : sly f = sly f' -> f = f'.
Proof.
  destruct f as [|[|[|f]]], f' as [|[|[|f']]]; cbn [sly]; intros E; try done; try (cbn in E; discriminate E).
  apply app_inv_head in E. f_equal. f_equal. f_equal. by apply decs_inj.
Qed.
Definition onep : prog nat unit := PAdd (Node 2 []) (fun _ => PRebuild (fun _ => PRet)).
Definition twop : prog nat unit := PAdd (Node 0 []) (fun x => PAdd (Node 1 []) (fun y => PUnion x y 7 (fun _ => PRebuild (fun _ => PRet)))).
Definition one_g : egraph nat unit := ok_of (eg_new false) (session natlang unitan 20 false onep).
Definition two_g : egraph nat unit := ok_of (eg_new false) (session natlang unitan 20 false twop).
Lemma one_session : session natlang unitan 20 false onep = Ok one_g.
Proof. apply is_ok_eq. vm_compute. reflexivity. Qed.
Lemma two_session : session natlang unitan 20 false twop = Ok two_g.
Proof. apply is_ok_eq. vm_compute. reflexivity. Qed.
Lemma one_np : reachable_np natlang unitan false one_g.
Proof. apply (session_reachable_np _ _ 20 _ onep), one_session; [done|]. cbn. tauto. Qed.
Lemma two_np : reachable_np natlang unitan false two_g.
Proof. apply (session_reachable_np _ _ 20 _ twop), two_session; [done|]. cbn. tauto. Qed.
Definition sly_t : text := ok_of [] (dot_text sly [] true one_g (keys one_g)).
Lemma sly_t_eq : dot_text sly [] true one_g (keys one_g) = Ok sly_t.
Proof. apply is_ok_eq. vm_compute. reflexivity. Qed.
Lemma sly_t_eq2 : dot_text sly [] true two_g (keys two_g) = Ok sly_t.
Proof. vm_compute. reflexivity. Qed.
