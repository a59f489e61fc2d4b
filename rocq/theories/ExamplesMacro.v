(** A concrete declaration for the examples of PropertiesMacro.v. *)
From Coq Require Import NArith String Ascii.
From Verif Require Import Base EGraphModel EGraphPres Spec Terms RecExprModel RecExprProofs TextModel TextSpec TextProofs TextMain ExamplesText MacroModel MacroSpec MacroProofs.

(** Payloads: [u32] or [Symbol]. *)
Notation pay := (N + list N)%type.
Definition p_num (s : list N) : option pay := inl <$> parse_u32 s.
Definition p_sym (s : list N) : option pay := Some (inr s).
Definition sh (d : pay) : list N := match d with inl n => print_u32 n | inr s => s end.
(** [define_language! { enum Math { "+" = Add([Id; 2]), "pi" = Pi, "neg" = Neg(Id),
    "list" = List(Box<[Id]>), Num(u32), Var(Symbol), Call(Symbol, Vec<Id>) } }] *)
Definition math : list (variant pay) :=
  [VarStrCh (txt "+") (ChArray 2); VarStr (txt "pi"); VarStrCh (txt "neg") ChId; VarStrCh (txt "list") ChBox; VarData p_num sh; VarData p_sym sh; VarDataCh p_sym sh ChVec].
(** The order of [u32] and of strings (here: numbers first). *)
Fixpoint lexN (a b : list N) : bool :=
  match a, b with
  | [], _ => true
  | _ :: _, [] => false
  | x :: a, y :: b => (x <? y)%N || (x =? y)%N && lexN a b
  end.
Definition pay_leb (_ : nat) (a b : pay) : bool :=
  match a, b with inl a, inl b => (a <=? b)%N | inl _, inr _ => true | inr _, inl _ => false | inr a, inr b => lexN a b end.
Lemma lexN_order : total_order lexN.
Proof.
  split.
  - induction a as [|x a IH]; intros [|y b]; cbn [lexN]; auto. rewrite !orb_true_iff, !andb_true_iff, !N.ltb_lt, !N.eqb_eq.
    destruct (N.lt_trichotomy x y) as [E|[->|E]]; auto. destruct (IH b); auto.
  - induction a as [|x a IH]; intros [|y b] [|z c]; cbn [lexN]; try done. rewrite !orb_true_iff, !andb_true_iff, !N.ltb_lt, !N.eqb_eq.
    intros [H1|[-> H1]] [H2|[-> H2]]; [left; lia..|]. right. split; [done|]. by eapply IH.
  - induction a as [|x a IH]; intros [|y b]; cbn [lexN]; try done. rewrite !orb_true_iff, !andb_true_iff, !N.ltb_lt, !N.eqb_eq.
    intros [H1|[-> H1]] [H2|[E H2]]; try lia. f_equal. by apply IH.
Qed.
Lemma pay_order i : total_order (pay_leb i).
Proof.
  destruct lexN_order as [T Tr As]. split.
  - intros [a|a] [b|b]; cbn [pay_leb]; auto. rewrite !N.leb_le. lia.
  - intros [a|a] [b|b] [c|c]; cbn [pay_leb]; try done; [rewrite !N.leb_le; lia|apply Tr].
  - intros [a|a] [b|b]; cbn [pay_leb]; try done; [rewrite !N.leb_le; intros; f_equal; lia|intros; f_equal; auto].
Qed.
(** [(+ pi 7)] *)
Definition math_e : list (node (mop pay)) := [Node (1, None) []; Node (4, Some (inl 7%N)) []; Node (0, None) [0; 1]].
Definition math_t : term (mop pay) := TNode (0, None) [TNode (1, None) []; TNode (4, Some (inl 7%N)) []].
Lemma math_dag : dag math_e.
Proof. apply rx_is_dag_dag. reflexivity. Qed.
Lemma math_tree : ExprTree math_e math_t.
Proof.
  split; [done|]. eapply (TreeOf_node _ _ _ [0; 1]); [reflexivity|]. constructor; [|constructor; [|constructor]]; by eapply (TreeOf_node _ _ _ []); [reflexivity|].
Qed.
Definition captured_b (vs : list (variant pay)) (n : node (mop pay)) : bool :=
  existsb (fun w => bool_decide (takes w (m_display vs (nop n)) (length (nch n)))) (take (nop n).1 vs).
Lemma captured_ok vs n : captured_b vs n = false -> not_captured vs n.
Proof.
  intros E j w Hj Hw Ht. assert (captured_b vs n = true); [|congruence]. apply existsb_exists. exists w. split; [|by apply bool_decide_eq_true].
  apply elem_of_list_In, elem_of_list_lookup. exists j. by rewrite lookup_take.
Qed.
Lemma math_readable : readable math math_t.
Proof.
  constructor; [left; by apply bare_b_ok| |constructor; [|constructor; [|constructor]]].
  - intros cs Hl. destruct cs as [|c [|d [|? ?]]]; try discriminate Hl. split; [reflexivity|]. split; [reflexivity|]. by apply captured_ok.
  - constructor; [left; by apply bare_b_ok| |constructor]. intros cs Hl. destruct cs; [|discriminate Hl]. split; [reflexivity|]. split; [reflexivity|]. by apply captured_ok.
  - constructor; [left; by apply bare_b_ok| |constructor]. intros cs Hl. destruct cs; [|discriminate Hl]. split; [reflexivity|]. split; [reflexivity|]. by apply captured_ok.
Qed.
Definition seven_num : node (mop pay) := Node (4, Some (inl 7%N)) [].
(** [Var("7")] *)
Definition seven_sym : node (mop pay) := Node (5, Some (inr (txt "7"))) [].
Lemma seven_fits : fits math seven_num /\ fits math seven_sym.
Proof. split; reflexivity. Qed.
Lemma seven_back : payload_back math seven_num /\ not_captured math seven_num.
Proof. split; [reflexivity|by apply captured_ok]. Qed.
(** [Call(f, [3, 4])] *)
Definition call_n (a b : nat) : node (mop pay) := Node (6, Some (inr (txt "f"))) [a; b].
Lemma seven_differ : seven_num <> seven_sym.
Proof. discriminate. Qed.
