(** Concrete explanations for the non-vacuity examples about printing. *)
From Coq Require Import NArith String.
From Verif Require Import Base UnionFind EGraphModel Spec EGraphReach Terms RecExprModel ExprModel ExplainModel ExplainSpec CheckSpec TextModel TextSpec OptModel OptSpec PrintModel PrintSpec PrintProofs PrintFlat PrintMain
  Examples ExamplesExplain ExamplesText ExamplesOpt.

Definition pnames : list text := [txt "x"; txt "y"; txt "z"; txt "w"; txt "f"; txt "h"; txt "v_0"; s_forward; txt "rv_7"; [c_quote]]%string.
Definition pdisp (f : nat) : text := default [] (pnames !! f).
(** rules are called [rv_0], [rv_1], ... *)
Definition pname (r : nat) : text := 114%N :: bound_name r.
Definition pfrom (a : text) (cs : list nat) : option (node nat) := (fun '(f, _) => Node f cs) <$> list_find (a =.) pnames.

Lemma pname_inj r r' : pname r = pname r' -> r = r'.
Proof. intros E. apply bound_name_inj. exact (f_equal (@List.tl N) E). Qed.
Definition plainb (a : text) : bool := match a with [] => false | _ => forallb (fun c => negb (delim c) && negb (c =? c_quote)%N) a end.
Lemma plainb_bare a : plainb a = true -> pretty_bare a.
Proof.
  intros Ha. destruct a as [|c a]; [done|]. unfold plainb in Ha. rewrite forallb_forall in Ha. split; [split; [done|split]|].
  - apply Forall_forall. intros d Hd%elem_of_list_In. specialize (Ha d Hd). apply andb_true_iff in Ha as [Ha _]. by destruct (delim d).
  - intros r [= ->]. specialize (Ha c_quote ltac:(by left)). by rewrite andb_comm in Ha.
  - intros r E. specialize (Ha c_quote). rewrite E in Ha. specialize (Ha ltac:(apply in_or_app; right; by left)). by rewrite andb_comm in Ha.
Qed.
Lemma pname_bare r : pretty_bare (pname r).
Proof.
  destruct (bound_name_bare r) as [(Hn & Hd & _) Hl]. split; [split; [done|split]|].
  - by constructor.
  - by intros q [= ? ?].
  - intros [|c q] E; unfold pname in E; cbn [app] in E; injection E as Ec E; [done|]. by apply (Hl q).
Qed.
Lemma not_let_head c a : c <> 118%N -> ~ let_name (c :: a).
Proof. intros Hc (ds & E & _). cbn [app] in E. by injection E. Qed.
(** ** Checking the names of a tree *)
Fixpoint usesb {Op} (P : Op -> nat -> bool) (t : ttree Op) : bool :=
  let 'TT n _ _ kids := t in P (nop n) (length (nch n)) && forallb (forallb (usesb P)) kids.
Lemma usesb_uses {Op} (P : Op -> nat -> bool) (Q : Op -> nat -> Prop) (R : nat -> Prop) : (forall f k, P f k = true -> Q f k) -> (forall r, R r) ->
  forall t, usesb P t = true -> uses Q R t.
Proof.
  intros HP HR. induction t as [n b f kids IH] using tt_sind. cbn [usesb]. intros [Ha Hk]%andb_true_iff. constructor; [auto|destruct b; cbn; auto|destruct f; cbn; auto|]. clear Ha.
  induction kids as [|p kids IHk]; [constructor|]. apply Forall_cons in IH as [IHp IH]. cbn [forallb] in Hk. apply andb_true_iff in Hk as [Hp Hk]. constructor; [|by apply IHk].
  clear -IHp Hp. induction p as [|t p IHq]; [constructor|]. apply Forall_cons in IHp as [? ?]. cbn [forallb] in Hp. apply andb_true_iff in Hp as [? ?]. constructor; auto.
Qed.
Lemma usesb_all {Op} (P : Op -> nat -> bool) (Q : Op -> nat -> Prop) (R : nat -> Prop) (p : list (ttree Op)) : (forall f k, P f k = true -> Q f k) -> (forall r, R r) ->
  forallb (usesb P) p = true -> Forall (uses Q R) p.
Proof. intros HP HR. induction p as [|t p IH]; [constructor|]. cbn [forallb]. intros [? ?]%andb_true_iff. constructor; [by eapply usesb_uses|auto]. Qed.
(** the operators [x], [y], [z], [w], [f], [h] *)
Definition easy (f k : nat) : bool := f <? 6.
Lemma easy_bare f k : easy f k = true -> ~ let_name (pdisp f) /\ pretty_bare (pdisp f).
Proof.
  intros Hf. unfold easy in Hf. apply Nat.ltb_lt in Hf. do 6 (destruct f as [|f]; [split; [apply not_let_head; done|apply plainb_bare; reflexivity]|]). lia.
Qed.
Lemma easy_readable f k : easy f k = true -> readable pdisp pfrom f k.
Proof.
  intros Hf. split; [apply pretty_printable, (easy_bare f k Hf)|]. unfold easy in Hf. apply Nat.ltb_lt in Hf.
  do 6 (destruct f as [|f]; [split; [done|split; [done|split; [done|intros cs _; reflexivity]]]|]). lia.
Qed.
Lemma pname_bare_not_let r : ~ let_name (pname r) /\ pretty_bare (pname r).
Proof. split; [by apply not_let_head|apply pname_bare]. Qed.
Lemma pname_readable r : readable_rule pname r.
Proof. apply pretty_printable, pname_bare. Qed.

(** ** The explanation of [h(f(x), x) = h(f(z), z)] (ExamplesExplain.v) *)
Definition exp_p : list (ttree nat) :=
  let x := TT (Node 0 []) None None [] in let y := TT (Node 1 []) None (Some 7) [] in let z := TT (Node 2 []) (Some 8) None [] in
  [TT (Node 5 [3; 0]) None None [[TT (Node 4 [0]) None None [[x]]]; [x]];
   TT (Node 5 [3; 0]) None None [[TT (Node 4 [0]) None None [[x]]; TT (Node 4 [0]) None None [[x; y; z]]]; [x; y; z]]].
Lemma exp_p_eq : explain_id_equivalence 10 4 6 (exp_g true) = Ok exp_p.
Proof. vm_compute. reflexivity. Qed.
Lemma exp_p_bare : Forall (bare_names pdisp pname) exp_p.
Proof. apply (usesb_all easy); [apply easy_bare|apply pname_bare_not_let|reflexivity]. Qed.
Lemma exp_p_nolet : Forall (no_let_names pdisp pname) exp_p.
Proof. apply (usesb_all easy); [apply easy_bare|apply pname_bare_not_let|reflexivity]. Qed.
Lemma exp_p_readable : Forall (uses (readable pdisp pfrom) (readable_rule pname)) exp_p.
Proof. apply (usesb_all easy); [apply easy_readable|apply pname_readable|reflexivity]. Qed.
Definition exp_lines : list text := map txt ["(h (f x) x)"; "(h (f (Rewrite=> rv_7 y)) x)"; "(h (f (Rewrite<= rv_8 z)) x)"; "(h (f z) (Rewrite=> rv_7 y))"; "(h (f z) (Rewrite<= rv_8 z))"]%string.
Lemma exp_lines_eq : flat_strings pdisp pname exp_p = Ok exp_lines.
Proof. vm_compute. reflexivity. Qed.
Lemma exp_flat_readable : Forall (flat_uses (readable pdisp pfrom) (readable_rule pname)) exp_flat.
Proof.
  repeat first [apply Forall_cons_2 | apply Forall_nil_2 | apply fuses_node | by (apply easy_readable; reflexivity) | apply pname_readable | exact I].
Qed.
Lemma exp_texts :
  (P ← rc_explain 10 4 6 (exp_g true); w ← get_string pdisp pname P; v ← get_string_with_let pdisp pname P; k ← get_tree_size P; Ok (w, trim v, k)) =
  Ok (txt "(Explanation (h (f x) x) (h (Explanation (f x) (f (Explanation x (Rewrite=> rv_7 y) (Rewrite<= rv_8 z)))) (Explanation x (Rewrite=> rv_7 y) (Rewrite<= rv_8 z))))",
      txt "(let
(v_0 (f x))
(Explanation
  (h v_0 x)
  (h
    (Explanation v_0 (f (Explanation x (Rewrite=> rv_7 y) (Rewrite<= rv_8 z))))
    (Explanation x (Rewrite=> rv_7 y) (Rewrite<= rv_8 z)))))", 2)%string.
Proof. vm_compute. reflexivity. Qed.
Lemma exp_equivalence : is_ok (explain_equivalence unitan (modify_n natlang unitan 5) 5 hx hz (exp_g true)) = true.
Proof. vm_compute. reflexivity. Qed.
Lemma exp_let_ok : is_ok (P ← rc_explain 10 4 6 (exp_g true); get_string_with_let pdisp pname P) = true.
Proof. vm_compute. reflexivity. Qed.
Lemma exp_size : (P ← rc_explain 10 4 6 (exp_g true); get_tree_size P) = Ok 2.
Proof. vm_compute. reflexivity. Qed.
Lemma exp_p_flat : make_flat exp_p = Ok exp_flat.
Proof. vm_compute. reflexivity. Qed.
Lemma hx_dag : dag hx.
Proof. intros i n c. do 3 (destruct i as [|i]; [cbn; intros [= <-]; cbn [nch]; rewrite ?elem_of_cons, elem_of_nil; lia|]). done. Qed.
Lemma exp_names : names_ok printable pdisp pfrom hzt.
Proof.
  assert (HH : forall f ts, f < 6 -> Forall (names_ok printable pdisp pfrom) ts -> names_ok printable pdisp pfrom (TNode f ts)).
  { intros f ts Hf Hts. destruct (easy_readable f (length ts) (proj2 (Nat.ltb_lt _ _) Hf)) as (Hp & _ & _ & _ & Hr). by constructor. }
  repeat first [apply Forall_cons_2 | apply Forall_nil_2 | apply HH; [lia|]].
Qed.

(** ** Ambiguities *)
(** [h(f(x), f(x), f(x))] at 2 and [h(f(x), f(x), v_0)] at 4; [h(f(f(x)), f(f(x)), f(x))] at 6 *)
Definition cap_g : egraph nat unit := ok_of (eg_new true) (session natlang unitan 30 true
  (ExamplesOpt.adds [Node 0 []; Node 4 [0]; Node 5 [1; 1; 1]; Node 6 []; Node 5 [1; 1; 3]; Node 4 [1]; Node 5 [5; 5; 1]; Node 9 []] PRet)).
Lemma cap_reach : reachable natlang unitan true cap_g.
Proof.
  eapply (session_reachable natlang unitan 30 true (ExamplesOpt.adds [Node 0 []; Node 4 [0]; Node 5 [1; 1; 1]; Node 6 []; Node 5 [1; 1; 3]; Node 4 [1]; Node 5 [5; 5; 1]; Node 9 []] PRet)).
  apply is_ok_eq. vm_compute. reflexivity.
Qed.
Definition cap_p (c : ttree nat) (j : nat) : list (ttree nat) :=
  let s := TT (Node 4 [0]) None None [[TT (Node 0 []) None None []]] in
  [TT (Node 5 [1; 1; j]) None None [[s]; [s]; [c]]].
Definition cap_1 := cap_p (TT (Node 4 [0]) None None [[TT (Node 0 []) None None []]]) 1.
Definition cap_2 := cap_p (TT (Node 6 []) None None []) 3.
Lemma cap_1_eq : explain_id_equivalence 10 2 2 cap_g = Ok cap_1.
Proof. vm_compute. reflexivity. Qed.
Lemma cap_2_eq : explain_id_equivalence 10 4 4 cap_g = Ok cap_2.
Proof. vm_compute. reflexivity. Qed.
Lemma cap_differ : ~ Forall2 same_tree cap_1 cap_2.
Proof.
  intros E. inversion E as [|? ? ? ? H1]; subst. inversion H1 as [? ? ? ? ? ? _ H2]; subst. inversion H2 as [|? ? ? ? _ H3]; subst. inversion H3 as [|? ? ? ? _ H4]; subst.
  inversion H4 as [|? ? ? ? H5]; subst. inversion H5 as [|? ? ? ? H6]; subst. by inversion H6.
Qed.
Definition cap_text : text := txt "(let (v_0 (f x)) (Explanation (h v_0 v_0 v_0)))"%string.
Lemma cap_1_text : (P ← rc_explain 10 2 2 cap_g; w ← get_string_with_let pdisp pname P; Ok (trim w)) = Ok cap_text.
Proof. vm_compute. reflexivity. Qed.
Lemma cap_same_text : (P ← rc_explain 10 2 2 cap_g; get_string_with_let pdisp pname P) = (P ← rc_explain 10 4 4 cap_g; get_string_with_let pdisp pname P).
Proof. vm_compute. reflexivity. Qed.
Lemma cap_is_ok : is_ok (P ← rc_explain 10 2 2 cap_g; get_string_with_let pdisp pname P) = true.
Proof. vm_compute. reflexivity. Qed.
Definition easy7 (f k : nat) : bool := f <? 7.
Lemma easy7_readable f k : easy7 f k = true -> readable pdisp pfrom f k.
Proof.
  intros Hf. unfold easy7 in Hf. apply Nat.ltb_lt in Hf. destruct (decide (f < 6)) as [Hl|]; [apply easy_readable; by apply Nat.ltb_lt|]. assert (f = 6) as -> by lia.
  split; [apply pretty_printable, plainb_bare; reflexivity|]. split; [done|]. split; [done|]. split; [done|]. intros cs _. reflexivity.
Qed.
Lemma cap_readable : Forall (uses (readable pdisp pfrom) (readable_rule pname)) cap_1 /\ Forall (uses (readable pdisp pfrom) (readable_rule pname)) cap_2.
Proof. split; (apply (usesb_all easy7); [apply easy7_readable|apply pname_readable|reflexivity]). Qed.
(** the shared [f(x)] is spelled out twice *)
Definition twice_sexp : sexp :=
  let fx := SList [SStr (txt "f"); SStr (txt "x")] in
  SList [SStr s_let; SList [SStr (bound_name 0); SList [SStr (txt "f"); fx]];
    SList [SStr s_let; SList [SStr (bound_name 1); fx];
      SList [SStr s_explanation; SList [SStr (txt "h"); SStr (bound_name 0); SStr (bound_name 0); SStr (bound_name 1)]]]]%string.
Lemma twice_eq : (P ← rc_explain 10 6 6 cap_g; get_sexp_with_let pdisp pname P) = Ok twice_sexp.
Proof. vm_compute. reflexivity. Qed.
(** an operator that is a quotation mark *)
Lemma quote_panics : (p ← explain_id_equivalence 10 7 7 cap_g; fl ← make_flat p; f ← expect (head fl); Ok (ft_recexpr pdisp pname pfrom f)) = Ok Panic.
Proof. vm_compute. reflexivity. Qed.

(** the operator [Rewrite=>], with the leaf [rv_7] and [x] or [y]; asserted by rule 7 is
    [x = y], or the equality of the whole terms *)
Definition rw_p (l : list (nat * nat)) := ExamplesOpt.adds [Node 0 []; Node 1 []; Node 8 []; Node 7 [2; 0]; Node 7 [2; 1]] (ExamplesOpt.unions l 7 (PRebuild (fun _ => PRet))).
Definition rw_g (l : list (nat * nat)) : egraph nat unit := ok_of (eg_new true) (session natlang unitan 30 true (rw_p l)).
Lemma rw_reach_1 : reachable natlang unitan true (rw_g [(0, 1)]).
Proof. eapply (session_reachable natlang unitan 30 true (rw_p [(0, 1)])). apply is_ok_eq. vm_compute. reflexivity. Qed.
Lemma rw_reach_2 : reachable natlang unitan true (rw_g [(3, 4)]).
Proof. eapply (session_reachable natlang unitan 30 true (rw_p [(3, 4)])). apply is_ok_eq. vm_compute. reflexivity. Qed.
Definition rw_1 : list (ttree nat) :=
  let r := TT (Node 8 []) None None [] in let x := TT (Node 0 []) None None [] in
  [TT (Node 7 [2; 0]) None None [[r]; [x]]; TT (Node 7 [2; 0]) None None [[r]; [x; TT (Node 1 []) None (Some 7) []]]].
Definition rw_2 : list (ttree nat) :=
  let r := TT (Node 8 []) None None [] in let x := TT (Node 0 []) None None [] in
  [TT (Node 7 [2; 0]) None None [[r]; [x]]; TT (Node 7 [2; 1]) None (Some 7) [[r]; [TT (Node 1 []) None None []]]].
Lemma rw_1_eq : explain_id_equivalence 10 3 4 (rw_g [(0, 1)]) = Ok rw_1.
Proof. vm_compute. reflexivity. Qed.
Lemma rw_2_eq : explain_id_equivalence 10 3 4 (rw_g [(3, 4)]) = Ok rw_2.
Proof. vm_compute. reflexivity. Qed.
Definition rw_flat_1 : list (fterm nat) :=
  let r := FT (Node 8 []) None None [] in let x := FT (Node 0 []) None None [] in
  [FT (Node 7 [2; 0]) None None [r; x]; FT (Node 7 [2; 0]) None None [r; FT (Node 1 []) None (Some 7) []]].
Definition rw_flat_2 : list (fterm nat) :=
  let r := FT (Node 8 []) None None [] in let x := FT (Node 0 []) None None [] in
  [FT (Node 7 [2; 0]) None None [r; x]; FT (Node 7 [2; 1]) None (Some 7) [r; FT (Node 1 []) None None []]].
Lemma rw_flat_1_eq : make_flat rw_1 = Ok rw_flat_1.
Proof. vm_compute. reflexivity. Qed.
Lemma rw_flat_2_eq : make_flat rw_2 = Ok rw_flat_2.
Proof. vm_compute. reflexivity. Qed.
Lemma rw_same_text : flat_strings pdisp pname rw_1 = flat_strings pdisp pname rw_2.
Proof. vm_compute. reflexivity. Qed.
Lemma rw_differ : ~ Forall2 same_flat rw_flat_1 rw_flat_2.
Proof. intros E. inversion E as [|? ? ? ? _ H1]; subst. inversion H1 as [|? ? ? ? H2]; subst. by inversion H2. Qed.
