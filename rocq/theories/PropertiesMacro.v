From Coq Require Import NArith String.
From Verif Require Import Base EGraphModel EGraphPres Spec Terms RecExprModel TextModel TextSpec MacroModel MacroSpec MacroProofs ExamplesText ExamplesMacro.

(** C51: the enum made by [define_language!] meets the conditions on languages under which the
    e-graph works: its order is total and keeps each discriminant together. *)
Theorem C51_language_order {Dt} `{Countable Dt} (dleb : nat -> Dt -> Dt -> bool) : (forall i, total_order (dleb i)) -> lang_ok (mlang dleb).
Proof. exact (mlang_ok dleb). Qed.
Print Assumptions C51_language_order.
Example C51_order_ex : (forall i, total_order (pay_leb i)) /\ l_leb (mlang pay_leb) (call_n 3 4) (call_n 2 9) = false /\ l_leb (mlang pay_leb) seven_num (call_n 0 0) = true.
Proof. exact (conj pay_order (conj eq_refl eq_refl)). Qed.

(** [matches] holds exactly for e-nodes of the same variant and payload with equally many
    children. *)
Theorem C51_matches {Dt} `{Countable Dt} (vs : list (variant Dt)) a b : fits vs a -> fits vs b ->
  (m_matches vs a b = true <-> nop a = nop b /\ length (nch a) = length (nch b)).
Proof. exact (matches_iff vs a b). Qed.
Print Assumptions C51_matches.
Example C51_matches_ex : fits math (call_n 1 2) /\ fits math (call_n 3 3) /\ m_matches math (call_n 1 2) (call_n 3 3) = true /\ m_matches math seven_num seven_sym = false.
Proof. exact (conj eq_refl (conj eq_refl (conj eq_refl eq_refl))). Qed.

(** Reading an operator never panics; it gives the first variant that takes the name with that
    many children, with the children in order, and an error exactly if there is none. *)
Theorem C51_from_op {Dt} `{Countable Dt} (vs : list (variant Dt)) op cs : exists o, m_from_op 0 vs op cs = Ok o /\
  (forall n, o = Some n <-> exists k v, vs !! k = Some v /\ takes v op (length cs) /\ n = Node (k, payload v op) cs /\
     forall j w, j < k -> vs !! j = Some w -> ~ takes w op (length cs)) /\
  (o = None <-> forall v, v ∈ vs -> ~ takes v op (length cs)) /\
  (forall n, o = Some n -> fits vs n).
Proof. exact (from_op_all vs op cs). Qed.
Print Assumptions C51_from_op.
Example C51_from_op_ex : m_from_op 0 math (txt "+") [3; 4] = Ok (Some (Node (0, None) [3; 4])) /\ m_from_op 0 math (txt "+") [3] = Ok (Some (Node (6, Some (inr (txt "+"))) [3])) /\
  m_from_op 0 (take 4 math) (txt "+") [3] = Ok None /\ m_from_op 0 math (txt "list") [] = Ok (Some (Node (3, None) [])).
Proof. exact (conj eq_refl (conj eq_refl (conj eq_refl eq_refl))). Qed.

(** An e-node reads back from its printed operator and its children exactly if its payload
    reads back and no variant declared earlier takes the text. *)
Theorem C51_read_back {Dt} `{Countable Dt} (vs : list (variant Dt)) n : fits vs n ->
  (m_from_op 0 vs (m_display vs (nop n)) (nch n) = Ok (Some n) <-> payload_back vs n /\ not_captured vs n).
Proof. exact (read_back vs n). Qed.
Print Assumptions C51_read_back.
Example C51_read_back_ex : fits math seven_num /\ payload_back math seven_num /\ not_captured math seven_num.
Proof. exact (conj (proj1 seven_fits) seven_back). Qed.

(** Not every e-node reads back, although all payload types do: [Var("7")] of
    [enum { .., Num(u32), Var(Symbol), .. }] reads back as [Num(7)]. *)
Theorem C51_read_back_refuted : exists (vs : list (variant (N + list N))) n m,
  fits vs n /\ payload_back vs n /\ m_from_op 0 vs (m_display vs (nop n)) (nch n) = Ok (Some m) /\ m <> n.
Proof. exact (ex_intro _ math (ex_intro _ seven_sym (ex_intro _ seven_num (conj eq_refl (conj eq_refl (conj eq_refl seven_differ)))))). Qed.
Print Assumptions C51_read_back_refuted.

(** Expressions over such a language: what is printed is read as the same term. *)
Theorem C51_print_parse {Dt} `{Countable Dt} (vs : list (variant Dt)) cycle e t : dag e -> ExprTree e t -> readable vs t ->
  exists w, print_expr (m_display vs) cycle e = Ok w /\ forall b b' fuel, blank b -> blank b' -> length w < fuel ->
    exists e', parse_expr (from_op_fn vs) fuel (b ++ w ++ b') = Ok (inr e') /\ dag e' /\ ExprTree e' t.
Proof. exact (macro_roundtrip vs cycle e t). Qed.
Print Assumptions C51_print_parse.
Example C51_print_parse_ex : dag math_e /\ ExprTree math_e math_t /\ readable math math_t /\ print_expr (m_display math) nocycle math_e = Ok (txt "(+ pi 7)").
Proof. exact (conj math_dag (conj math_tree (conj math_readable eq_refl))). Qed.

(** Which texts are read, and as what: those that write an s-expression whose names the
    variants take. *)
Theorem C51_parse_exact {Dt} `{Countable Dt} (vs : list (variant Dt)) fuel s t : length s < fuel ->
  ((exists e, parse_expr (from_op_fn vs) fuel s = Ok (inr e) /\ dag e /\ ExprTree e t) <->
   exists b w b' sx, blank b /\ blank b' /\ s = b ++ w ++ b' /\ Written sx w /\ Names (from_op_fn vs) sx t).
Proof. exact (macro_parse vs fuel s t). Qed.
Print Assumptions C51_parse_exact.
Example C51_parse_exact_ex : parse_expr (from_op_fn math) 20 (txt "(+ pi (neg 7))") = Ok (inr [Node (1, None) []; Node (4, Some (inl 7%N)) []; Node (2, None) [1]; Node (0, None) [0; 2]]) /\
  parse_expr (from_op_fn (take 5 math)) 20 (txt "(+ pi x)") = Ok (inl PBadOp).
Proof. exact (conj eq_refl eq_refl). Qed.
