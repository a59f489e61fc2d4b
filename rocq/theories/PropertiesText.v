(** C28: printing and parsing of expressions and patterns; C29: variables as text. *)
From Coq Require Import NArith String.
From Verif Require Import Base EGraphModel Spec Terms RecExprModel RecExprProofs TextModel TextSpec TextProofs TextMain ExamplesText.

(** The parser reads exactly the texts that are a way to write an s-expression, with any
    white space around, and answers with that s-expression. *)
Theorem C28_parser_reads_the_grammar fuel (i : list N) s : length i < fuel ->
  (parse_sexp fuel i = Ok (inr s) <-> exists b w b', blank b /\ blank b' /\ i = b ++ w ++ b' /\ Written s w).
Proof.
  exact (fun Hf => conj (parse_sexp_reads fuel s i) (fun '(ex_intro _ b (ex_intro _ w (ex_intro _ b' (conj Hb (conj Hb' (conj E Hw)))))) =>
    eq_ind_r (fun i => length i < fuel -> parse_sexp fuel i = Ok (inr s))
      (fun Hf => parse_written s w b b' fuel Hw Hb Hb' (written_fits w b b' fuel Hf)) E Hf)).
Qed.
Print Assumptions C28_parser_reads_the_grammar.
Example C28_parser_ex : Written (SList [SStr (txt "g"); SList [SStr (txt "a b")]]) (txt "(g(""a b"" ))") /\
  parse_sexp 20 (txt "  (g(""a b"" ))") = Ok (inr (SList [SStr (txt "g"); SList [SStr (txt "a b")]])).
Proof. exact (conj ga_written (eq_refl)). Qed.

(** A name written by the printer reads back as itself exactly when it is printable. *)
Theorem C28_printable_names fuel a : length (print_atom a) < fuel -> (parse_sexp fuel (print_atom a) = Ok (inr (SStr a)) <-> printable a).
Proof. exact (fun Hf => conj (atom_exact fuel a) (fun Hp => atom_back fuel a Hp Hf)). Qed.
Print Assumptions C28_printable_names.
Example C28_printable_ex : printable (txt "two words") /\ print_atom (txt "two words") = txt """two words""".
Proof. exact (conj two_words_printable eq_refl). Qed.

(** Parsing what was printed, with any white space around, gives an expression of the same
    term. *)
Theorem C28_print_parse {Op} (disp : Op -> list N) from_op cycle e t : dag e -> ExprTree e t -> names_ok printable disp from_op t ->
  exists w, print_expr disp cycle e = Ok w /\ forall b b' fuel, blank b -> blank b' -> length w < fuel ->
    exists e', parse_expr from_op fuel (b ++ w ++ b') = Ok (inr e') /\ dag e' /\ ExprTree e' t.
Proof. exact (print_roundtrip disp from_op cycle e t). Qed.
Print Assumptions C28_print_parse.
Example C28_print_ex : dag sym_e /\ ExprTree sym_e sym_t /\ names_ok printable id sym_from_op sym_t /\
  print_expr id nocycle sym_e = Ok (txt "(""two words"" (g a) a)").
Proof. exact (conj sym_dag (conj sym_tree (conj (symbol_names _ _ sym_names) eq_refl))). Qed.

(** The same for the pretty printer at every width, for names it can print. *)
Theorem C28_pretty_parse {Op} (disp : Op -> list N) from_op cycle width e t : dag e -> ExprTree e t -> names_ok pretty_bare disp from_op t ->
  exists w, pretty_expr disp cycle width e = Ok w /\ forall b b' fuel, blank b -> blank b' -> length w < fuel ->
    exists e', parse_expr from_op fuel (b ++ w ++ b') = Ok (inr e') /\ dag e' /\ ExprTree e' t.
Proof. exact (pretty_roundtrip disp from_op cycle width e t). Qed.
Print Assumptions C28_pretty_parse.
Example C28_pretty_ex : dag (take 2 sym_e) /\ ExprTree (take 2 sym_e) ga_t /\ names_ok pretty_bare id sym_from_op ga_t /\
  pretty_expr id nocycle 3 (take 2 sym_e) = Ok (txt "(g" ++ [c_nl; c_space; c_space] ++ txt "a)").
Proof. exact (conj ga_dag (conj ga_tree (conj (symbol_names _ _ ga_names) eq_refl))). Qed.

(** [SymbolLang]: any term whose symbols are printable. *)
Theorem C28_symbol_lang e (t : term (list N)) : dag e -> ExprTree e t -> (forall a, occurs a t -> printable a) ->
  exists w, print_expr id nocycle e = Ok w /\ forall b b' fuel, blank b -> blank b' -> length w < fuel ->
    exists e', parse_expr sym_from_op fuel (b ++ w ++ b') = Ok (inr e') /\ dag e' /\ ExprTree e' t.
Proof. exact (fun Hd Ht Hp => print_roundtrip id sym_from_op nocycle e t Hd Ht (symbol_names printable t Hp)). Qed.
Print Assumptions C28_symbol_lang.
Example C28_symbol_ex : dag sym_e /\ ExprTree sym_e sym_t /\ (forall a, occurs a sym_t -> printable a).
Proof. exact (conj sym_dag (conj sym_tree sym_names)). Qed.

(** Patterns: variables come back as variables, operators as operators. *)
Theorem C28_patterns {Op} (disp : Op -> list N) from_op cycle e t : dag e -> ExprTree e t -> pat_names_ok printable disp from_op t ->
  exists w, print_expr (vdisp disp) cycle e = Ok w /\ forall b b' fuel, blank b -> blank b' -> length w < fuel ->
    exists e', parse_expr (vfrom_op from_op) fuel (b ++ w ++ b') = Ok (inr e') /\ dag e' /\ ExprTree e' t.
Proof. exact (fun Hd Ht Hp => print_roundtrip (vdisp disp) (vfrom_op from_op) cycle e t Hd Ht (pat_names disp from_op printable t Hp)). Qed.
Print Assumptions C28_patterns.
Example C28_patterns_ex : dag pat_e /\ ExprTree pat_e pat_t /\ pat_names_ok printable id sym_from_op pat_t /\
  print_expr (vdisp id) nocycle pat_e = Ok (txt "(g ?x)").
Proof. exact (conj pat_dag (conj pat_tree (conj pat_names_good eq_refl))). Qed.

(** What parsing answers with: the text is a way to write an s-expression that names the
    term of the expression answered, and conversely every such text is read. *)
Theorem C28_parse_exact {Op} (from_op : list N -> list nat -> option (node Op)) fuel s t : (forall op cs n, from_op op cs = Some n -> nch n = cs) ->
  (forall a cs cs' f, length cs = length cs' -> from_op a cs = Some (Node f cs) -> from_op a cs' = Some (Node f cs')) -> length s < fuel ->
  ((exists e, parse_expr from_op fuel s = Ok (inr e) /\ dag e /\ ExprTree e t) <->
   exists b w b' sx, blank b /\ blank b' /\ s = b ++ w ++ b' /\ Written sx w /\ Names from_op sx t).
Proof. exact (fun Hf Hl => parse_expr_exact from_op Hf Hl fuel s t). Qed.
Print Assumptions C28_parse_exact.
Example C28_parse_exact_ex : (forall op cs n, sym_from_op op cs = Some n -> nch n = cs) /\
  (forall a cs cs' f, length cs = length cs' -> sym_from_op a cs = Some (Node f cs) -> sym_from_op a cs' = Some (Node f cs')) /\
  parse_expr sym_from_op 20 (txt " (g (f x)y)") = Ok (inr [Node (txt "x") []; Node (txt "f") [0]; Node (txt "y") []; Node (txt "g") [1; 2]]).
Proof. exact (conj sym_from_children (conj sym_from_length eq_refl)). Qed.

(** What parsing a pattern answers with: also, variables have no children. *)
Theorem C28_parse_pattern {Op} (from_op : list N -> list nat -> option (node Op)) fuel s e : (forall op cs n, from_op op cs = Some n -> nch n = cs) ->
  parse_expr (vfrom_op from_op) fuel s = Ok (inr e) ->
  exists b w b' sx t, blank b /\ blank b' /\ s = b ++ w ++ b' /\ Written sx w /\ Names (vfrom_op from_op) sx t /\ var_leaves t /\ dag e /\ ExprTree e t.
Proof. exact (fun Hf => pattern_read from_op Hf fuel s e). Qed.
Print Assumptions C28_parse_pattern.
Example C28_parse_pattern_ex : parse_expr (vfrom_op sym_from_op) 20 (txt "(g ?x)") = Ok (inr pat_e) /\ parse_expr (vfrom_op sym_from_op) 20 (txt "(?x g)") = Ok (inl PBadOp).
Proof. exact (conj eq_refl eq_refl). Qed.

(** White space is what Unicode calls so. *)
Theorem C28_white_space c : is_ws c = true <-> c ∈ white.
Proof. exact (white_ok c). Qed.
Print Assumptions C28_white_space.
Example C28_white_space_ex : is_ws 160 = true /\ is_ws 8203 = false.
Proof. exact (conj eq_refl eq_refl). Qed.

(** Parsing always answers, with an expression or an error, unless some list of the text
    starts with the empty list. *)
Theorem C28_parse_answers {Op} (from_op : list N -> list nat -> option (node Op)) fuel s : (forall op cs n, from_op op cs = Some n -> nch n = cs) -> length s < fuel ->
  (exists o, parse_expr from_op fuel s = Ok o) \/
  (parse_expr from_op fuel s = Panic /\ exists sx, parse_sexp fuel (trim s) = Ok (inr sx) /\ headless sx).
Proof. exact (fun Hf => parse_expr_total from_op Hf fuel s). Qed.
Print Assumptions C28_parse_answers.
Example C28_parse_answers_ex : (forall op cs n, sym_from_op op cs = Some n -> nch n = cs) /\ parse_expr sym_from_op 10 (txt "((g a) b") = Ok (inl (PBadSexp EUnclosedParen)).
Proof. exact (conj sym_from_children eq_refl). Qed.

(** Parsing can panic: the text [(() x)], whatever the language. *)
Theorem C28_never_panics_refuted : exists s : list N, forall Op (from_op : list N -> list nat -> option (node Op)), parse_expr from_op 10 s = Panic.
Proof. exact (ex_intro _ (txt "(() x)") (fun _ _ => eq_refl)). Qed.
Print Assumptions C28_never_panics_refuted.

(** Round trips fail for some names: with a tab the printer writes no quotes and the text is
    two atoms, and the pretty printer writes a name with a space without quotes. *)
Theorem C28_all_names_refuted : exists a e t w,
  dag e /\ ExprTree e t /\ t = TNode a [] /\ print_expr id nocycle e = Ok w /\ parse_expr sym_from_op 10 w = Ok (inl (PBadSexp ETrailing)).
Proof. exact (ex_intro _ tab_name (ex_intro _ _ (ex_intro _ _ (ex_intro _ _ (conj (proj1 (leaf_tree _)) (conj (proj2 (leaf_tree _)) (conj eq_refl (conj eq_refl eq_refl)))))))). Qed.
Print Assumptions C28_all_names_refuted.
Theorem C28_pretty_quotes_refuted : exists a e t w,
  dag e /\ ExprTree e t /\ t = TNode a [] /\ printable a /\ pretty_expr id nocycle 80 e = Ok w /\ parse_expr sym_from_op 15 w = Ok (inl (PBadSexp ETrailing)).
Proof. exact (ex_intro _ (txt "two words") (ex_intro _ _ (ex_intro _ _ (ex_intro _ _ (conj (proj1 (leaf_tree _)) (conj (proj2 (leaf_tree _)) (conj eq_refl (conj two_words_printable (conj eq_refl eq_refl))))))))). Qed.
Print Assumptions C28_pretty_quotes_refuted.

(** C29: which texts are variables, and which variable they are: a question mark followed by
    anything not starting with a hash sign, or a question mark, a hash sign and a numeral
    below 2^32, possibly with a plus sign. *)
Theorem C29_var_parse s v : parse_var s = Some v <->
  (v = VSym s /\ var_ok (VSym s)) \/ (exists ds, numeral ds /\ v = VNum (value ds) /\ (s = c_qmark :: c_hash :: ds \/ s = c_qmark :: c_hash :: c_plus :: ds)).
Proof. exact (parse_var_iff s v). Qed.
Print Assumptions C29_var_parse.
Example C29_var_parse_ex : parse_var (txt "?x") = Some (VSym (txt "?x")) /\ parse_var (txt "?#012") = Some (VNum 12) /\ parse_var (txt "?#+12") = Some (VNum 12) /\
  parse_var (txt "?") = None /\ parse_var (txt "?#") = None /\ parse_var (txt "?#x") = None /\ parse_var (txt "x") = None /\ parse_var (txt "?#4294967296") = None.
Proof. exact (conj eq_refl (conj eq_refl (conj eq_refl (conj eq_refl (conj eq_refl (conj eq_refl (conj eq_refl eq_refl))))))). Qed.

(** Printing then parsing gives the variable back exactly for the variables that parsing can
    produce. *)
Theorem C29_var_roundtrip v : (parse_var (print_var v) = Some v <-> var_ok v) /\ (var_ok v <-> exists s, parse_var s = Some v).
Proof. exact (conj (var_roundtrip v) (conj (fun Hv => ex_intro _ _ (proj2 (var_roundtrip v) Hv)) (fun '(ex_intro _ s E) => parsed_var_ok s v E))). Qed.
Print Assumptions C29_var_roundtrip.
Example C29_var_roundtrip_ex : print_var (VNum 4294967295) = txt "?#4294967295" /\ parse_var (txt "?#4294967295") = Some (VNum 4294967295) /\
  parse_var (print_var (VSym (txt "?#7"))) = Some (VNum 7).
Proof. exact (conj eq_refl (conj eq_refl eq_refl)). Qed.
