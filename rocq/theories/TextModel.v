(** Printing and parsing: src/sexp.rs (the s-expressions of [no_std] builds; builds with [std]
    use the crate symbolic_expressions, which is not modelled), src/language.rs ([RecExpr]
    [Display], [pretty], [FromStr]), src/util.rs [pretty_print], src/subst.rs ([Var]),
    src/pattern.rs ([ENodeOrVar]).  Definitions only.
    A string is the list of its code points; the code works on UTF-8 bytes but only cuts at
    ASCII characters and at the boundaries of the characters it tests. *)
From Coq Require Import NArith.
From Verif Require Import Base EGraphModel RecExprModel.

Notation text := (list N).
Definition c_lpar : N := 40. Definition c_rpar : N := 41. Definition c_quote : N := 34.
Definition c_space : N := 32. Definition c_nl : N := 10. Definition c_qmark : N := 63. Definition c_hash : N := 35. Definition c_plus : N := 43.

(** [char::is_whitespace]: the Unicode property White_Space *)
Definition is_ws (c : N) : bool :=
  ((9 <=? c) && (c <=? 13) || (c =? 32) || (c =? 133) || (c =? 160) || (c =? 5760) || ((8192 <=? c) && (c <=? 8202)) ||
   (c =? 8232) || (c =? 8233) || (c =? 8239) || (c =? 8287) || (c =? 12288))%N.
(** [str::trim_start], [str::trim] *)
Fixpoint trim_start (s : text) : text :=
  match s with c :: r => if is_ws c then trim_start r else s | [] => [] end.
Definition trim_end (s : text) : text := reverse (trim_start (reverse s)).
Definition trim (s : text) : text := trim_end (trim_start s).
(** [str::contains] of a character *)
Definition has (c : N) (s : text) : bool := existsb (N.eqb c) s.
(** [str::find] with a predicate, split there: the part before the first such character and
    the part from it on (all of it when there is none) *)
Fixpoint split_at_pred (p : N -> bool) (s : text) : text * text :=
  match s with
  | [] => ([], [])
  | c :: r => if p c then ([], s) else let '(a, b) := split_at_pred p r in (c :: a, b)
  end.

(** src/sexp.rs:20-27 *)
Inductive sexp := SStr (s : text) | SList (l : list sexp) | SEmpty.

(** src/sexp.rs:32-37 *)
Definition needs_quotes (s : text) : bool := has c_space s || has c_lpar s || has c_rpar s || (match s with [] => true | _ => false end).
Definition print_atom (s : text) : text := if needs_quotes s then c_quote :: s ++ [c_quote] else s.
(** items separated by one space *)
Definition sep_with (sep : text) (l : list text) : text :=
  match l with [] => [] | x :: l => x ++ concat ((fun y => sep ++ y) <$> l) end.
(** src/sexp.rs:29-52 *)
Fixpoint print_sexp (s : sexp) : text :=
  match s with
  | SStr a => print_atom a
  | SList l => c_lpar :: sep_with [c_space] (print_sexp <$> l) ++ [c_rpar]
  | SEmpty => [c_lpar; c_rpar]
  end.

(** errors of src/sexp.rs:77-138 *)
Inductive serr := EEmptyInput | ETrailing | EUnexpectedEnd | EUnclosedParen | EUnclosedString.
(** src/sexp.rs:104-122, the loop reading the items of a list; [p1] reads one item *)
Fixpoint parse_items (p1 : text -> res (serr + sexp * text)) (k : nat) (rest : text) (acc : list sexp) : res (serr + list sexp * text) :=
  match k with
  | 0 => OutOfFuel
  | S k =>
      match trim_start rest with
      | [] => Ok (inl EUnclosedParen)
      | d :: rest' =>
          if (d =? c_rpar)%N then Ok (inr (acc, rest'))
          else
            r ← p1 (d :: rest');
            match r with
            | inl e => Ok (inl e)
            | inr (it, rest) => parse_items p1 k rest (acc ++ [it])
            end
      end
  end.
(** src/sexp.rs:96-138 [parse_one] *)
Fixpoint parse_one (fuel : nat) (input : text) : res (serr + sexp * text) :=
  match fuel with
  | 0 => OutOfFuel
  | S fuel =>
      match trim_start input with
      | [] => Ok (inl EUnexpectedEnd)
      | c :: rest =>
          if (c =? c_lpar)%N then
            r ← parse_items (parse_one fuel) fuel rest [];
            Ok (match r with
                | inl e => inl e
                | inr ([], rest) => inr (SEmpty, rest)
                | inr (l, rest) => inr (SList l, rest)
                end)
          else if (c =? c_quote)%N then
            Ok (match split_at_pred (N.eqb c_quote) rest with
                | (_, []) => inl EUnclosedString
                | (a, _ :: rest) => inr (SStr a, rest)
                end)
          else
            let '(a, rest) := split_at_pred (fun c => is_ws c || (c =? c_lpar)%N || (c =? c_rpar)%N) (c :: rest) in
            Ok (inr (SStr a, rest))
      end
  end.
(** src/sexp.rs:77-94 [parse] *)
Definition parse_sexp (fuel : nat) (input : text) : res (serr + sexp) :=
  match trim input with
  | [] => Ok (inl EEmptyInput)
  | i =>
      r ← parse_one fuel i;
      Ok (match r with
          | inl e => inl e
          | inr (s, rest) => match trim rest with [] => inr s | _ => inl ETrailing end
          end)
  end.

(** * Variables (src/subst.rs:17, 45-48) *)
Inductive var := VSym (s : text) | VNum (n : N).
(** decimal digits, most significant first; [Display] of [u32] *)
Fixpoint digits_aux (fuel : nat) (n : N) (acc : text) : text :=
  match fuel with
  | 0 => acc
  | S fuel => let acc := (48 + n mod 10)%N :: acc in if (n / 10 =? 0)%N then acc else digits_aux fuel (n / 10)%N acc
  end.
Definition print_u32 (n : N) : text := digits_aux 10 n [].
(** [u32::from_str]: an optional [+], at least one digit, no overflow *)
Definition is_digit (c : N) : bool := ((48 <=? c) && (c <=? 57))%N.
Fixpoint read_digits (s : text) (acc : N) : option N :=
  match s with
  | [] => Some acc
  | c :: s => if is_digit c then let a := (acc * 10 + (c - 48))%N in if (a <? 2 ^ 32)%N then read_digits s a else None else None
  end.
Definition parse_u32 (s : text) : option N :=
  let s := match s with c :: (_ :: _) as r => if (c =? c_plus)%N then r else s | _ => s end in
  match s with [] => None | _ => read_digits s 0 end.
(** src/subst.rs:58-73 [Var::from_str]; [None] is an error *)
Definition parse_var (s : text) : option var :=
  match s with
  | c :: r =>
      if (c =? c_qmark)%N then
        match r with
        | d :: r' => if (d =? c_hash)%N then VNum <$> parse_u32 r' else Some (VSym s)
        | [] => None
        end
      else None
  | [] => None
  end.
(** src/subst.rs:75-82 *)
Definition print_var (v : var) : text :=
  match v with VSym s => s | VNum n => c_qmark :: c_hash :: print_u32 n end.

(** * Expressions *)
Section expr.
Context {Op : Type}.
Notation node := (node Op).
Notation recexpr := (list node).
(** [Display] of the language (operator only) and [FromOp::from_op]; [cycle] is the text put
    in place of a child that does not come before its parent *)
Context (disp : Op -> text) (from_op : text -> list nat -> option node) (cycle : nat -> node -> text).

(** a loop collecting results *)
Fixpoint map_res {A B} (f : A -> res B) (l : list A) : res (list B) :=
  match l with [] => Ok [] | x :: l => y ← f x; ys ← map_res f l; Ok (y :: ys) end.
(** src/language.rs:581-598 [to_sexp_rec] (its callback always answers [None]); indices only
    go down, [fuel] is the index plus one *)
Fixpoint to_sexp_rec (fuel : nat) (e : recexpr) (i : nat) : res sexp :=
  match fuel with
  | 0 => OutOfFuel
  | S fuel =>
      n ← expect (e !! i);
      match nch n with
      | [] => Ok (SStr (disp (nop n)))
      | cs =>
          ks ← map_res (fun c => if c <? i then to_sexp_rec fuel e c else Ok (SStr (cycle i n))) cs;
          Ok (SList (SStr (disp (nop n)) :: ks))
      end
  end.
(** src/language.rs:573-579 [to_sexp] *)
Definition to_sexp (e : recexpr) : res sexp := match e with [] => Panic | _ => to_sexp_rec (length e) e (length e - 1) end.
(** src/language.rs:560-569 [Display] *)
Definition print_expr (e : recexpr) : res text :=
  match e with [] => Ok [c_lpar; c_rpar] | _ => s ← to_sexp e; Ok (print_sexp s) end.
(** [str::trim_matches] of the double quote *)
Fixpoint strip_quotes (s : text) : text :=
  match s with c :: r => if (c =? c_quote)%N then strip_quotes r else s | [] => [] end.
Definition trim_quotes (s : text) : text := reverse (strip_quotes (reverse (strip_quotes s))).
(** [len()] of a printed s-expression in UTF-8 bytes *)
Definition utf8_len (s : text) : nat :=
  sum_list ((fun c => if (c <? 128)%N then 1 else if (c <? 2048)%N then 2 else if (c <? 65536)%N then 3 else 4) <$> s).
(** src/util.rs:112-142 [pretty_print] *)
Fixpoint pretty_sexp (width level : nat) (s : sexp) : text :=
  match s with
  | SList l =>
      let indent := width <? utf8_len (print_sexp s) in
      let sep := if indent then c_nl :: concat (repeat [c_space; c_space] level) else [c_space] in
      c_lpar :: sep_with sep (pretty_sexp width (S level) <$> l) ++ [c_rpar]
  | _ => trim_quotes (print_sexp s)
  end.
(** src/language.rs:615-621 [pretty] *)
Definition pretty_expr (width : nat) (e : recexpr) : res text := s ← to_sexp e; Ok (pretty_sexp width 1 s).

(** src/language.rs:637-656 *)
Inductive perr := PEmptySexp | PHeadList (s : sexp) | PBadOp | PBadSexp (e : serr).
(** src/language.rs:680-683, the arguments in turn up to the first error *)
Definition parse_args (p1 : sexp -> recexpr -> res (perr + recexpr * nat)) : list sexp -> recexpr -> list nat -> res (perr + recexpr * list nat) :=
  fix go l e ids :=
    match l with
    | [] => Ok (inr (e, ids))
    | s :: l => r ← p1 s e;
                match r with inl err => Ok (inl err) | inr (e, i) => go l e (ids ++ [i]) end
    end.
(** [L::from_op(op, ids).map_err(BadOp)?] and [expr.add(node)] *)
Definition add_op (op : text) (e : recexpr) (ids : list nat) : res (perr + recexpr * nat) :=
  match from_op op ids with
  | None => Ok (inl PBadOp)
  | Some n => '(e, i) ← rx_add e n; Ok (inr (e, i))
  end.
(** src/language.rs:664-690 [parse_sexp_into] *)
Fixpoint parse_into (s : sexp) (e : recexpr) : res (perr + recexpr * nat) :=
  match s with
  | SEmpty => Ok (inl PEmptySexp)
  | SStr a => add_op a e []
  | SList [] => Ok (inl PEmptySexp)
  | SList (SEmpty :: _) => Panic
  | SList (SList l :: _) => Ok (inl (PHeadList (SList l)))
  | SList (SStr op :: args) =>
      r ← parse_args parse_into args e [];
      match r with inl err => Ok (inl err) | inr (e, ids) => add_op op e ids end
  end.
(** src/language.rs:658-698 [FromStr] *)
Definition parse_expr (fuel : nat) (s : text) : res (perr + recexpr) :=
  r ← parse_sexp fuel (trim s);
  match r with
  | inl err => Ok (inl (PBadSexp err))
  | inr sx => r ← parse_into sx [];
              Ok (match r with inl err => inl err | inr (e, _) => inr e end)
  end.
End expr.

(** * Patterns as text (src/pattern.rs:136-141, 180-217) *)
Inductive vop (Op : Type) := VVar (v : var) | VOp (f : Op).
Arguments VVar {Op} _.
Arguments VOp {Op} _.
Definition vdisp {Op} (disp : Op -> text) (o : vop Op) : text := match o with VVar v => print_var v | VOp f => disp f end.
(** src/pattern.rs:201-217 *)
Definition vfrom_op {Op} (from_op : text -> list nat -> option (node Op)) (op : text) (cs : list nat) : option (node (vop Op)) :=
  match op with
  | c :: _ :: _ =>
      if (c =? c_qmark)%N then
        match cs with [] => (fun v => Node (VVar v) []) <$> parse_var op | _ => None end
      else (fun n => Node (VOp (nop n)) (nch n)) <$> from_op op cs
  | _ => (fun n => Node (VOp (nop n)) (nch n)) <$> from_op op cs
  end.
(** [SymbolLang] (src/language.rs:945-1000): the operator is the string *)
Definition sym_from_op (op : text) (cs : list nat) : option (node text) := Some (Node op cs).
