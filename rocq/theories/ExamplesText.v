(** Concrete texts for the examples of PropertiesText.v. *)
From Coq Require Import NArith String Ascii.
From Verif Require Import Base EGraphModel Spec Terms RecExprModel RecExprProofs TextModel TextSpec TextProofs TextMain.

(** the code points of an ASCII string *)
Definition txt (s : string) : list N := map N_of_ascii (list_ascii_of_string s).
(** any cycle marker *)
Definition nocycle {Op} (_ : nat) (_ : node Op) : list N := [].
(** [(f (g a) a)], with the leaf shared *)
Definition sym_e : list (node (list N)) := [Node (txt "a") []; Node (txt "g") [0]; Node (txt "two words") [1; 0]].
Definition sym_t : term (list N) := TNode (txt "two words") [TNode (txt "g") [TNode (txt "a") []]; TNode (txt "a") []].
Lemma sym_dag : dag sym_e.
Proof. apply rx_is_dag_dag. reflexivity. Qed.
Lemma sym_tree : ExprTree sym_e sym_t.
Proof.
  split; [done|]. assert (Ha : Tree sym_e 0 (TNode (txt "a") [])) by (by eapply (TreeOf_node _ _ _ []); [reflexivity|]).
  eapply (TreeOf_node _ _ _ [1; 0]); [reflexivity|]. constructor; [|by constructor]. eapply (TreeOf_node _ _ _ [0]); [reflexivity|]. by constructor.
Qed.
Definition bare_b (a : list N) : bool := match a with [] => false | c :: _ => forallb (fun c => negb (delim c)) a && negb (c =? c_quote)%N end.
Lemma bare_b_ok a : bare_b a = true -> bare a.
Proof.
  destruct a as [|c r]; [done|]. cbn [bare_b]. intros [H1 H2]%andb_true_iff. split; [done|]. split.
  - apply Forall_forall. intros x Hx. eapply forallb_forall in H1; [|by apply elem_of_list_In]. by apply negb_true_iff.
  - intros r' [= -> _]. done.
Qed.
Lemma not_has c a : has c a = false -> c ∉ a.
Proof. intros E H. apply has_elem in H. congruence. Qed.
Lemma two_words_printable : printable (txt "two words").
Proof. right. split; [by apply not_has|]. right; left. apply has_elem. reflexivity. Qed.
Lemma sym_names a : occurs a sym_t -> printable a.
Proof.
  assert (printable (txt "a")) by (left; by apply bare_b_ok). assert (printable (txt "g")) by (left; by apply bare_b_ok). pose proof two_words_printable.
  intros Ho. inversion Ho as [|? ? t Ht Ho']; subst; [done|]. apply elem_of_cons in Ht as [->|Ht%elem_of_list_singleton].
  - inversion Ho' as [|? ? t Ht Ho2]; subst; [done|]. apply elem_of_list_singleton in Ht as ->. inversion Ho2 as [|? ? t Ht Ho3]; subst; [done|]. by apply elem_of_nil in Ht.
  - subst. inversion Ho' as [|? ? t Ht Ho2]; subst; [done|]. by apply elem_of_nil in Ht.
Qed.
(** [(g a)] *)
Definition ga_t : term (list N) := TNode (txt "g") [TNode (txt "a") []].
Lemma ga_names a : occurs a ga_t -> pretty_bare a.
Proof.
  assert (Hp : forall x, bare_b x = true -> last x <> Some c_quote -> pretty_bare x). { intros x Hx Hl. split; [by apply bare_b_ok|]. intros r ->. by rewrite last_snoc in Hl. }
  intros Ho. inversion Ho as [|? ? t Ht Ho']; subst; [by apply Hp|]. apply elem_of_list_singleton in Ht as ->. inversion Ho' as [|? ? t Ht Ho2]; subst; [by apply Hp|]. by apply elem_of_nil in Ht.
Qed.
Lemma ga_dag : dag (take 2 sym_e).
Proof. apply rx_is_dag_dag. reflexivity. Qed.
Lemma ga_tree : ExprTree (take 2 sym_e) ga_t.
Proof. split; [done|]. eapply (TreeOf_node _ _ _ [0]); [reflexivity|]. constructor; [|constructor]. by eapply (TreeOf_node _ _ _ []); [reflexivity|]. Qed.
(** the pattern [(g ?x)] *)
Definition pat_t : term (vop (list N)) := TNode (VOp (txt "g")) [TNode (VVar (VSym (txt "?x"))) []].
Definition pat_e : list (node (vop (list N))) := [Node (VVar (VSym (txt "?x"))) []; Node (VOp (txt "g")) [0]].
Lemma pat_names_good : pat_names_ok printable id sym_from_op pat_t.
Proof.
  apply pno_op; [left; by apply bare_b_ok|done|done|]. constructor; [|constructor]. apply pno_var; [|left; by apply bare_b_ok]. exists 120%N, []. done.
Qed.
Lemma pat_dag : dag pat_e.
Proof. apply rx_is_dag_dag. reflexivity. Qed.
Lemma pat_tree : ExprTree pat_e pat_t.
Proof. split; [done|]. eapply (TreeOf_node _ _ _ [0]); [reflexivity|]. constructor; [|constructor]. by eapply (TreeOf_node _ _ _ []); [reflexivity|]. Qed.
(** names the printers lose: a tab, and a space in the pretty printer *)
Definition tab_name : list N := [97; 9; 98]%N.
Lemma leaf_tree (a : list N) : dag [Node a []] /\ ExprTree [Node a []] (TNode a []).
Proof. split; [by apply rx_is_dag_dag|]. split; [done|]. by eapply (TreeOf_node _ _ _ []); [reflexivity|]. Qed.
Lemma ga_written : Written (SList [SStr (txt "g"); SList [SStr (txt "a b")]]) (txt "(g(""a b"" ))").
Proof.
  apply (W_list _ _ (txt "g(""a b"" )") []); [|constructor]. apply (WR_cons _ _ [] (txt "g") (txt "(""a b"" )")); [constructor|apply W_bare; by apply bare_b_ok|intros _; reflexivity|].
  apply (WR_cons _ _ [] (txt "(""a b"" )") []); [constructor| |done|constructor]. apply (W_list _ _ (txt """a b""") [c_space]); [|by constructor].
  apply (WR_cons _ _ [] (txt """a b""") []); [constructor| |done|constructor]. apply (W_quoted (txt "a b")). by apply not_has.
Qed.
