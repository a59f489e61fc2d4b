From Coq Require Import NArith.
From Verif Require Import Base EGraphModel Spec Terms RecExprModel RecExprProofs TextModel TextSpec TextProofs.

(** ** Numbers *)
Lemma is_digit_iff c : is_digit c = true <-> digit c.
Proof. unfold is_digit, digit. rewrite andb_true_iff, !N.leb_le. done. Qed.
Definition val_from (a : N) (ds : text) : N := foldl (fun a d => (10 * a + (d - 48))%N) a ds.
Lemma val_from_ge ds a : (a <= val_from a ds)%N.
Proof. revert a. induction ds as [|d ds IH]; intros a; unfold val_from in *; cbn [foldl]; [lia|]. specialize (IH (10 * a + (d - 48))%N). lia. Qed.
Lemma read_digits_iff s : forall a n, (a < 2 ^ 32)%N -> (read_digits s a = Some n <-> Forall digit s /\ n = val_from a s /\ (n < 2 ^ 32)%N).
Proof.
  induction s as [|c s IH]; intros a n Ha; cbn [read_digits].
  - split; [intros [= <-]; repeat split; [constructor|done]|]. by intros (_ & -> & _).
  - rewrite Forall_cons. destruct (is_digit c) eqn:Ec.
    + apply is_digit_iff in Ec. assert (E : (a * 10 + (c - 48) = 10 * a + (c - 48))%N) by lia. rewrite E. destruct (_ <? 2 ^ 32)%N eqn:El.
      * apply N.ltb_lt in El. rewrite IH by done. naive_solver.
      * apply N.ltb_ge in El. split; [done|]. intros (_ & -> & Hn). exfalso. unfold val_from in Hn. cbn [foldl] in Hn. pose proof (val_from_ge s (10 * a + (c - 48))%N) as Hg. unfold val_from in Hg. lia.
    + split; [done|]. intros ((Hc & _) & _). apply is_digit_iff in Hc. congruence.
Qed.
Lemma parse_u32_iff r n : parse_u32 r = Some n <-> exists ds, numeral ds /\ n = value ds /\ (r = ds \/ r = c_plus :: ds).
Proof.
  unfold parse_u32. assert (H0 : (0 < 2 ^ 32)%N) by reflexivity.
  assert (Hds : forall s, s <> [] -> read_digits s 0 = Some n <-> numeral s /\ n = value s).
  { intros s Hs. rewrite read_digits_iff by done. unfold numeral, value, val_from. naive_solver. }
  assert (Hplus : forall ds, numeral (c_plus :: ds) -> False).
  { intros ds (_ & H%Forall_cons & _). destruct H as [H _]. unfold digit, c_plus in H. lia. }
  destruct r as [|c [|d r]].
  - split; [done|]. intros (ds & (H & _) & _ & [E|E]); [by subst|done].
  - rewrite Hds by done. split; [intros [H E]; exists [c]; auto|]. intros (ds & H & E & [<-|[= -> <-]]); [done|]. by destruct H.
  - destruct (c =? c_plus)%N eqn:Ec.
    + apply N.eqb_eq in Ec. subst c. rewrite Hds by done. split; [intros [H E]; exists (d :: r); auto|]. intros (ds & H & E & [<-|[= <-]]); [by destruct (Hplus (d :: r))|done].
    + apply N.eqb_neq in Ec. rewrite Hds by done. split; [intros [H E]; exists (c :: d :: r); auto|]. intros (ds & H & E & [<-|[= -> _]]); [done|done].
Qed.
Lemma digits_read fuel : forall n acc, (n < 10 ^ N.of_nat fuel)%N -> (n < 2 ^ 32)%N -> fuel <> 0 ->
  read_digits (digits_aux fuel n acc) 0 = read_digits acc n /\ exists c r, digits_aux fuel n acc = c :: r /\ is_digit c = true.
Proof.
  induction fuel as [|fuel IH]; intros n acc Hf Hn H0; [done|]. cbn [digits_aux].
  assert (Hdm : (n = 10 * (n / 10) + n mod 10)%N) by (apply N.div_mod; lia). assert (Hm : (n mod 10 < 10)%N) by (apply N.mod_lt; lia).
  assert (Hd : is_digit (48 + n mod 10) = true). { clear -Hm. apply is_digit_iff. unfold digit.
 generalize dependent (n mod 10)%N. intros m Hm. lia. }
  remember (n / 10)%N as q eqn:Eq. remember (n mod 10)%N as m eqn:Em. clear Eq Em. destruct (q =? 0)%N eqn:E.
  - apply N.eqb_eq in E. split; [|by eexists _, _]. cbn [read_digits]. rewrite Hd. replace (0 * 10 + (48 + m - 48))%N with n by lia. by rewrite (proj2 (N.ltb_lt _ _) Hn).
  - apply N.eqb_neq in E. assert (Hp : (10 ^ N.of_nat (S fuel) = 10 * 10 ^ N.of_nat fuel)%N) by (rewrite Nat2N.inj_succ, N.pow_succ_r'; done).
    destruct fuel as [|fuel]; [change (10 ^ N.of_nat 1)%N with 10%N in Hf; lia|].
    assert (H1 : (q < 10 ^ N.of_nat (S fuel))%N) by lia. assert (H2 : (q < 2 ^ 32)%N) by lia.
    destruct (IH q ((48 + m)%N :: acc) H1 H2) as [-> Hh]; [done|]. split; [|done]. cbn [read_digits]. rewrite Hd.
    replace (q * 10 + (48 + m - 48))%N with n by lia. by rewrite (proj2 (N.ltb_lt _ _) Hn).
Qed.
Lemma u32_roundtrip n : (n < 2 ^ 32)%N -> parse_u32 (print_u32 n) = Some n.
Proof.
  intros Hn. unfold print_u32. assert (H10 : (n < 10 ^ N.of_nat 10)%N) by (change (10 ^ N.of_nat 10)%N with 10000000000%N; change (2 ^ 32)%N with 4294967296%N in Hn; lia).
  destruct (digits_read 10 n [] H10 Hn ltac:(done)) as [E (c & r & Ec & Hc)]. rewrite Ec in *. unfold parse_u32. cbn [read_digits] in E.
  assert (Hne : (c =? c_plus)%N = false). { apply N.eqb_neq. intros ->. by apply is_digit_iff in Hc as [? ?]. }
  destruct r; [exact E|]. rewrite Hne. exact E.
Qed.
(** ** Variables *)
Lemma parse_var_iff s v : parse_var s = Some v <->
  (v = VSym s /\ var_ok (VSym s)) \/ (exists ds, numeral ds /\ v = VNum (value ds) /\ (s = c_qmark :: c_hash :: ds \/ s = c_qmark :: c_hash :: c_plus :: ds)).
Proof.
  unfold parse_var, var_ok. destruct s as [|c s].
  { split; [done|]. intros [[_ (? & ? & ? & _)]|(ds & _ & _ & [H|H])]; done. }
  destruct (c =? c_qmark)%N eqn:Ec; [apply N.eqb_eq in Ec; subst c|apply N.eqb_neq in Ec; split; [done|]; intros [[_ (? & ? & ? & _)]|(ds & _ & _ & [H|H])]; congruence].
  destruct s as [|d s]; [split; [done|]; intros [[_ (? & ? & ? & _)]|(ds & _ & _ & [H|H])]; congruence|].
  destruct (d =? c_hash)%N eqn:Ed.
  - apply N.eqb_eq in Ed. subst d. rewrite fmap_Some. split.
    + intros (n & E & ->). right. apply parse_u32_iff in E as (ds & Hn & -> & [->| ->]); exists ds; auto.
    + intros [[_ (c & r & [= <- <-] & Hc)]|(ds & Hn & -> & H)]; [done|]. exists (value ds). split; [|done]. apply parse_u32_iff. exists ds. split; [done|]. split; [done|].
      destruct H as [[= ->]|[= ->]]; auto.
  - apply N.eqb_neq in Ed. split; [intros [= <-]; left; split; [done|]; by exists d, s|]. intros [[-> _]|(ds & _ & _ & [H|H])]; [done|congruence|congruence].
Qed.
Lemma var_roundtrip v : parse_var (print_var v) = Some v <-> var_ok v.
Proof.
  split.
  - intros E. apply parse_var_iff in E as [[E Hv]|(ds & (_ & _ & Hn) & -> & _)]; [|done]. by rewrite <- E in Hv.
  - intros Hv. destruct v as [s|n]; cbn [print_var].
    + apply parse_var_iff. by left.
    + unfold parse_var. rewrite !N.eqb_refl. by rewrite u32_roundtrip.
Qed.
Lemma parsed_var_ok s v : parse_var s = Some v -> var_ok v.
Proof. intros E. apply parse_var_iff in E as [[-> Hv]|(ds & (_ & _ & Hn) & -> & _)]; done. Qed.

(** ** Round trips *)
Section expr.
Context {Op : Type} (disp : Op -> text) (from_op : text -> list nat -> option (node Op)) (cycle : nat -> node Op -> text).
Lemma print_roundtrip e t : dag e -> ExprTree e t -> names_ok printable disp from_op t ->
  exists w, print_expr disp cycle e = Ok w /\ forall b b' fuel, blank b -> blank b' -> length w < fuel ->
    exists e', parse_expr from_op fuel (b ++ w ++ b') = Ok (inr e') /\ dag e' /\ ExprTree e' t.
Proof.
  intros Hd Ht Hn. exists (print_sexp (sexp_of disp t)). split.
  - unfold print_expr. rewrite (to_sexp_spec disp cycle e t Hd Ht). destruct e; [by destruct Ht|done].
  - intros b b' fuel Hb Hb' Hf. exact (roundtrip disp from_op printable print_sexp e t print_written Hd Ht Hn b b' fuel Hb Hb' Hf).
Qed.
Lemma pretty_roundtrip width e t : dag e -> ExprTree e t -> names_ok pretty_bare disp from_op t ->
  exists w, pretty_expr disp cycle width e = Ok w /\ forall b b' fuel, blank b -> blank b' -> length w < fuel ->
    exists e', parse_expr from_op fuel (b ++ w ++ b') = Ok (inr e') /\ dag e' /\ ExprTree e' t.
Proof.
  intros Hd Ht Hn. exists (pretty_sexp width 1 (sexp_of disp t)). split.
  - unfold pretty_expr. by rewrite (to_sexp_spec disp cycle e t Hd Ht).
  - intros b b' fuel Hb Hb' Hf. exact (roundtrip disp from_op pretty_bare (pretty_sexp width 1) e t (fun s => pretty_written width s 1) Hd Ht Hn b b' fuel Hb Hb' Hf).
Qed.
Lemma pat_names P t : pat_names_ok P disp from_op t -> names_ok P (vdisp disp) (vfrom_op from_op) t.
Proof.
  induction t as [f ts IH] using term_sind. intros Hp. inversion Hp as [v Hv HP|g ts' HP Hq Hf Hts]; subst.
  - constructor; [done| |constructor]. intros cs Hl. destruct cs; [|done]. cbn [vdisp]. unfold vfrom_op. pose proof (proj2 (var_roundtrip v) Hv) as E.
    assert (exists d r, print_var v = c_qmark :: d :: r) as (d & r & Ev). { destruct v as [s|n]; cbn [print_var]; [|by eexists _, _]. destruct Hv as (c & r & -> & _). by eexists _, _. }
    rewrite Ev in *. by rewrite N.eqb_refl, E.
  - constructor; [done| |].
    + intros cs Hl. cbn [vdisp]. unfold vfrom_op. rewrite (Hf cs Hl). cbn. destruct (disp g) as [|c [|d r]] eqn:Ed; [done|done|]. destruct (c =? c_qmark)%N eqn:Ec; [|done].
      apply N.eqb_eq in Ec. subst c. by specialize (Hq _ eq_refl).
    + rewrite Forall_forall in *. intros x Hx. apply IH; [done|by apply Hts].
Qed.
End expr.
Lemma symbol_names (P : text -> Prop) (t : term text) : (forall a, occurs a t -> P a) -> names_ok P id sym_from_op t.
Proof.
  induction t as [f ts IH] using term_sind. intros Hp. constructor; [apply Hp; constructor|done|]. rewrite Forall_forall in *. intros x Hx. apply IH; [done|].
  intros a Ha. apply Hp. by econstructor.
Qed.
Lemma written_fits (w b b' : text) fuel : length (b ++ w ++ b') < fuel -> length w < fuel.
Proof. rewrite !app_length. lia. Qed.
Lemma atom_back fuel a : printable a -> length (print_atom a) < fuel -> parse_sexp fuel (print_atom a) = Ok (inr (SStr a)).
Proof.
  intros Hp Hf. pose proof (parse_written _ _ [] [] fuel (printable_written a Hp) ltac:(constructor) ltac:(constructor) Hf) as E. by rewrite app_nil_r in E.
Qed.
Lemma sym_from_children op cs n : sym_from_op op cs = Some n -> nch n = cs.
Proof. by intros [= <-]. Qed.

(** ** What is read *)
Lemma white_ok c : is_ws c = true <-> c ∈ white.
Proof.
  split.
  - unfold is_ws. rewrite !orb_true_iff, !andb_true_iff, !N.eqb_eq, !N.leb_le. unfold white.
    assert (Hin : forall (n : nat) x y, (x <= y)%N -> (y < x + N.of_nat n)%N -> y ∈ (fun i => (x + N.of_nat i)%N) <$> seq 0 n).
    { intros n x y H1 H2. apply elem_of_list_fmap. exists (N.to_nat (y - x)). split; [lia|]. apply elem_of_seq. lia. }
    intros H. repeat match type of H with _ \/ _ => destruct H as [H|H] end;
      try (subst c; apply elem_of_list_In; cbn; tauto).
    + destruct H as [H1 H2]. pose proof (Hin 5 9%N c H1 ltac:(cbn; lia)) as Hi. cbn in Hi. rewrite !elem_of_cons in *. rewrite elem_of_nil in Hi. tauto.
    + destruct H as [H1 H2]. pose proof (Hin 11 8192%N c H1 ltac:(cbn; lia)) as Hi. cbn in Hi. rewrite !elem_of_cons in *. rewrite elem_of_nil in Hi. tauto.
  - intros H. assert (HF : Forall (fun c => is_ws c = true) white) by (repeat constructor). rewrite Forall_forall in HF. by apply HF.
Qed.
Section read.
Context {Op : Type} (from_op : text -> list nat -> option (node Op)) (Hfrom : forall op cs n, from_op op cs = Some n -> nch n = cs).
Lemma add_op_reads op e ids ts e' i : dag e -> Forall2 (Tree e) ids ts -> add_op from_op op e ids = Ok (inr (e', i)) ->
  exists f, from_op op ids = Some (Node f ids) /\ e' = e ++ [Node f ids] /\ i = length e /\ dag e' /\ Tree e' i (TNode f ts).
Proof.
  intros De Hc E. unfold add_op in E. destruct (from_op op ids) as [[f cs]|] eqn:Ef; [|done]. pose proof (Hfrom _ _ _ Ef) as Hcs. cbn in Hcs. subst cs.
  assert (forall c, c ∈ ids -> c < length e) by (intros c Hin; by eapply Tree_children_lt). rewrite rx_add_ok in E by done. injection E as <- <-.
  exists f. split; [done|]. split; [done|]. split; [done|]. split; [by apply dag_snoc|]. by apply Tree_snoc.
Qed.
Definition reads_into s := forall e e' i, dag e -> parse_into from_op s e = Ok (inr (e', i)) ->
  exists l t, e' = e ++ l /\ i = length e' - 1 /\ l <> [] /\ dag e' /\ Names from_op s t /\ Tree e' i t.
Lemma args_read args : Forall reads_into args -> forall e ids vs e' ids', dag e -> Forall2 (Tree e) ids vs -> parse_args (parse_into from_op) args e ids = Ok (inr (e', ids')) ->
  exists l ts, e' = e ++ l /\ dag e' /\ Forall2 (Names from_op) args ts /\ Forall2 (Tree e') ids' (vs ++ ts).
Proof.
  induction 1 as [|u us Hu _ IHu]; intros e ids vs e' ids' De Hv E; cbn [parse_args] in E.
  - injection E as <- <-. exists [], []. rewrite !app_nil_r. by split_and!.
  - destruct (parse_into from_op u e) as [[err|[e1 i1]]| |] eqn:E1; try done. cbn [mbind res_bind] in E.
    destruct (Hu _ _ _ De E1) as (l1 & t & -> & -> & _ & D1 & N1 & T1). fold (parse_args (parse_into from_op)) in E.
    destruct (IHu _ _ (vs ++ [t]) _ _ D1 ltac:(apply Forall2_app; [eapply Forall2_impl; [exact Hv|]; intros; by apply Tree_app|by constructor]) E) as (l2 & ts & -> & D2 & N2 & T2).
    exists (l1 ++ l2), (t :: ts). rewrite app_assoc. rewrite <- (app_assoc vs) in T2. split_and!; [done|done|by constructor|done].
Qed.
Lemma parse_into_reads s : reads_into s.
Proof.
  induction s as [a|l IH|] using sexp_ind'; intros e e' i De E; cbn [parse_into] in E; [| |done].
  - destruct (add_op_reads a e [] [] e' i De ltac:(constructor) E) as (f & Ef & -> & -> & D & T). exists [Node f []], (TNode f []). rewrite app_length. cbn [length].
    replace (length e + 1 - 1) with (length e) by lia. split_and!; [done|done|done|done|by constructor|done].
  - destruct l as [|[op|l'|] args]; try done. apply Forall_cons in IH as [_ IH].
    destruct (parse_args (parse_into from_op) args e []) as [[err|[e1 ids]]| |] eqn:E1; try done. cbn [mbind res_bind] in E.
    destruct (args_read args IH e [] [] e1 ids De ltac:(constructor) E1) as (l1 & ts & -> & D1 & N1 & T1). cbn [app] in T1.
    destruct (add_op_reads op _ _ ts e' i D1 T1 E) as (f & Ef & -> & -> & D & T). exists (l1 ++ [Node f ids]), (TNode f ts).
    rewrite !app_length. cbn [length]. replace (length e + length l1 + 1 - 1) with (length e + length l1) by lia. rewrite app_length in T.
    split_and!; [by rewrite app_assoc|done|by destruct l1|done| |done]. econstructor; [done| |done]. by eapply Forall2_length.
Qed.
Lemma parse_expr_reads fuel s e : parse_expr from_op fuel s = Ok (inr e) ->
  exists b w b' sx t, blank b /\ blank b' /\ s = b ++ w ++ b' /\ Written sx w /\ Names from_op sx t /\ dag e /\ ExprTree e t.
Proof.
  unfold parse_expr. intros E. destruct (parse_sexp fuel (trim s)) as [[err|sx]| |] eqn:E1; try done. cbn [mbind res_bind] in E.
  destruct (parse_into from_op sx []) as [[err|[e' i]]| |] eqn:E2; try done. cbn [mbind res_bind] in E. injection E as <-.
  destruct (parse_into_reads sx [] e' i dag_nil E2) as (l & t & El & -> & Hne & D & N & T). cbn [app] in El. subst l.
  destruct (parse_sexp_reads _ _ _ E1) as (b & w & b' & Hb & Hb' & Et & Hw). destruct (trim_spec s) as (b1 & b2 & H1 & H2 & Es). rewrite Et in Es.
  exists (b1 ++ b), w, (b' ++ b2), sx, t. rewrite !blank_app. split_and!; try done. rewrite Es. by rewrite <- !app_assoc.
Qed.
(** the other way: a text that names a term is read as an expression of it, provided which
    operator a name is only depends on the number of its children *)
Lemma parse_into_names (Hlen : forall a cs cs' f, length cs = length cs' -> from_op a cs = Some (Node f cs) -> from_op a cs' = Some (Node f cs')) s t :
  Names from_op s t -> forall e, dag e ->
  exists l, parse_into from_op s e = Ok (inr (e ++ l, length (e ++ l) - 1)) /\ dag (e ++ l) /\ l <> [] /\ Tree (e ++ l) (length (e ++ l) - 1) t.
Proof.
  assert (Hadd : forall op f ts cs e, from_op op cs = Some (Node f cs) -> length cs = length ts -> dag e -> forall ids, Forall2 (Tree e) ids ts ->
    exists l, add_op from_op op e ids = Ok (inr (e ++ l, length (e ++ l) - 1)) /\ dag (e ++ l) /\ l <> [] /\ Tree (e ++ l) (length (e ++ l) - 1) (TNode f ts)).
  { intros op f ts cs e Hf Hl De ids Hids. unfold add_op. rewrite (Hlen op cs ids f); [|rewrite Hl; symmetry; by eapply Forall2_length|done].
    assert (forall c, c ∈ ids -> c < length e) by (intros c Hc; by eapply Tree_children_lt). rewrite rx_add_ok by done. cbn [mbind res_bind]. exists [Node f ids].
    rewrite app_length. cbn [length]. replace (length e + 1 - 1) with (length e) by lia. split; [done|]. split; [by apply dag_snoc|]. split; [done|]. by apply Tree_snoc. }
  revert t. induction s as [a|l IH|] using sexp_ind'; intros t Hn; inversion Hn as [? f Hf|? args f cs ts Hf Hl Hts]; subst; intros e De; cbn [parse_into].
  - exact (Hadd a f [] [] e Hf eq_refl De [] ltac:(constructor)).
  - apply Forall_cons in IH as [_ IH].
    assert (HH : forall us vs, Forall2 (Names from_op) us vs -> Forall (fun s => forall t, Names from_op s t -> forall e, dag e -> exists l, parse_into from_op s e = Ok (inr (e ++ l, length (e ++ l) - 1)) /\ dag (e ++ l) /\ l <> [] /\ Tree (e ++ l) (length (e ++ l) - 1) t) us ->
        forall e ids ws, dag e -> Forall2 (Tree e) ids ws ->
        exists l ids', parse_args (parse_into from_op) us e ids = Ok (inr (e ++ l, ids')) /\ dag (e ++ l) /\ Forall2 (Tree (e ++ l)) ids' (ws ++ vs)).
    { clear. induction 1 as [|u v us vs Hu _ IHu]; intros HI e ids ws De Hw.
      - exists [], ids. rewrite !app_nil_r. done.
      - apply Forall_cons in HI as [HI1 HI2]. cbn [parse_args]. destruct (HI1 v Hu e De) as (l1 & E1 & D1 & _ & T1). rewrite E1. cbn [mbind res_bind].
        destruct (IHu HI2 (e ++ l1) (ids ++ [length (e ++ l1) - 1]) (ws ++ [v]) D1) as (l2 & ids' & E2 & D2 & F2).
        { apply Forall2_app; [|by constructor]. eapply Forall2_impl; [exact Hw|]. intros. by apply Tree_app. }
        fold (parse_args (parse_into from_op)). exists (l1 ++ l2), ids'. rewrite !app_assoc. split; [exact E2|]. split; [done|]. rewrite <- (app_assoc ws) in F2. exact F2. }
    destruct (HH args ts Hts IH e [] [] De) as (l1 & ids & E1 & D1 & F1); [constructor|]. rewrite E1. cbn [mbind res_bind]. cbn [app] in F1.
    destruct (Hadd _ f ts cs _ Hf Hl D1 ids F1) as (l2 & E2 & D2 & Hne & T2). exists (l1 ++ l2). rewrite !app_assoc. split; [exact E2|]. split; [done|]. split; [by destruct l1|done].
Qed.
Lemma parse_expr_exact (Hlen : forall a cs cs' f, length cs = length cs' -> from_op a cs = Some (Node f cs) -> from_op a cs' = Some (Node f cs')) fuel s t : length s < fuel ->
  ((exists e, parse_expr from_op fuel s = Ok (inr e) /\ dag e /\ ExprTree e t) <->
   exists b w b' sx, blank b /\ blank b' /\ s = b ++ w ++ b' /\ Written sx w /\ Names from_op sx t).
Proof.
  intros Hf. split.
  - intros (e & E & De & Te). destruct (parse_expr_reads _ _ _ E) as (b & w & b' & sx & t' & Hb & Hb' & Es & Hw & Hn & _ & Te'). exists b, w, b', sx. by rewrite (ExprTree_fun _ _ _ Te Te').
  - intros (b & w & b' & sx & Hb & Hb' & -> & Hw & Hn). unfold parse_expr. apply written_fits in Hf. rewrite trim_around by (done || by eapply written_tight).
    pose proof (parse_written _ _ [] [] fuel Hw ltac:(constructor) ltac:(constructor) Hf) as E. rewrite app_nil_r in E. cbn [app] in E. rewrite E. cbn [mbind res_bind].
    destruct (parse_into_names Hlen sx t Hn [] dag_nil) as (l & E2 & D2 & Hne & T2). cbn [app] in *. rewrite E2. cbn [mbind res_bind]. exists l. done.
Qed.
End read.
Section readpat.
Context {Op : Type} (from_op : text -> list nat -> option (node Op)) (Hfrom : forall op cs n, from_op op cs = Some n -> nch n = cs).
Lemma vfrom_children op cs n : vfrom_op from_op op cs = Some n -> nch n = cs.
Proof.
  unfold vfrom_op. assert (Hx : (fun n => Node (VOp (nop n)) (nch n)) <$> from_op op cs = Some n -> nch n = cs).
  { intros (m & E & ->)%fmap_Some. by apply (Hfrom op). }
  destruct op as [|c [|d r]]; [done|done|]. destruct (c =? c_qmark)%N; [|done]. destruct cs; [|done]. intros (v & _ & ->)%fmap_Some. done.
Qed.
Lemma names_var_leaves sx t : Names (vfrom_op from_op) sx t -> var_leaves t.
Proof.
  revert t. induction sx as [a|l IH|] using sexp_ind'; intros t Hn; inversion Hn as [? f Hf|? args f cs ts Hf Hl Hts]; subst.
  - destruct f; [constructor|constructor; constructor].
  - assert (Hv : Forall var_leaves ts). { apply Forall_cons in IH as [_ IH]. clear Hn Hf Hl. induction Hts; [constructor|]. apply Forall_cons in IH as [IH1 IH2]. constructor; auto. }
    destruct f as [v|f]; [|by constructor]. unfold vfrom_op in Hf.
    assert (Hx : (fun n => Node (VOp (nop n)) (nch n)) <$> from_op a cs = Some (Node (VVar v) cs) -> False) by (intros (m & _ & E)%fmap_Some; done).
    destruct a as [|c [|d r]]; [done|done|]. destruct (c =? c_qmark)%N; [|done]. destruct cs; [|done]. destruct ts; [|done]. constructor.
Qed.
Lemma pattern_read fuel s e : parse_expr (vfrom_op from_op) fuel s = Ok (inr e) ->
  exists b w b' sx t, blank b /\ blank b' /\ s = b ++ w ++ b' /\ Written sx w /\ Names (vfrom_op from_op) sx t /\ var_leaves t /\ dag e /\ ExprTree e t.
Proof.
  intros E. destruct (parse_expr_reads _ vfrom_children _ _ _ E) as (b & w & b' & sx & t & Hb & Hb' & Es & Hw & Hn & D & T).
  exists b, w, b', sx, t. split_and!; try done. by eapply names_var_leaves.
Qed.
End readpat.
Lemma sym_from_length a cs cs' f : length cs = length cs' -> sym_from_op a cs = Some (Node f cs) -> sym_from_op a cs' = Some (Node f cs').
Proof. by intros _ [= ->]. Qed.
