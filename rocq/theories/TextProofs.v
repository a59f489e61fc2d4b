From Coq Require Import NArith.
From Verif Require Import Base EGraphModel Spec Terms RecExprModel RecExprProofs TextModel TextSpec.

(** ** Trimming *)
Lemma trim_start_blank b s : blank b -> trim_start (b ++ s) = trim_start s.
Proof. induction 1 as [|c b Hc _ IH]; cbn; [done|]. by rewrite Hc. Qed.
Lemma trim_start_id c r : is_ws c = false -> trim_start (c :: r) = c :: r.
Proof. intros E. cbn. by rewrite E. Qed.
Lemma trim_start_suffix s : exists b, blank b /\ s = b ++ trim_start s.
Proof.
  induction s as [|c s (b & Hb & E)]; [exists []; split; [constructor|done]|]. cbn. destruct (is_ws c) eqn:Ec; [|exists []; split; [constructor|done]]. exists (c :: b). split; [by constructor|]. cbn. by rewrite <- E.
Qed.
Lemma trim_start_head s c r : trim_start s = c :: r -> is_ws c = false.
Proof. induction s as [|d s IH]; [done|]. cbn. destruct (is_ws d) eqn:E; [done|]. by intros [= <- <-]. Qed.
Lemma blank_rev b : blank b -> blank (reverse b).
Proof. intros H. unfold blank. by rewrite Forall_reverse. Qed.
Lemma blank_app a b : blank (a ++ b) <-> blank a /\ blank b.
Proof. apply Forall_app. Qed.
Lemma trim_blank b : blank b -> trim b = [].
Proof.
  intros Hb. unfold trim, trim_end. rewrite <- (app_nil_r b), trim_start_blank by done. done.
Qed.
(** text that neither starts nor ends with white space *)
Definition tight (s : text) : Prop := exists c r d l, s = c :: r /\ s = l ++ [d] /\ is_ws c = false /\ is_ws d = false.
Lemma trim_tight s : tight s -> trim s = s.
Proof.
  intros (c & r & d & l & E1 & E2 & Hc & Hd). unfold trim, trim_end. rewrite E1, trim_start_id by done. rewrite <- E1, E2, reverse_snoc, trim_start_id by done.
  by rewrite <- reverse_snoc, reverse_involutive.
Qed.
Lemma trim_around b s b' : blank b -> blank b' -> tight s -> trim (b ++ s ++ b') = s.
Proof.
  intros Hb Hb' Ht. pose proof Ht as (c & r & d & l & E1 & E2 & Hc & Hd). unfold trim, trim_end. rewrite trim_start_blank by done. rewrite E1. cbn [app]. rewrite trim_start_id by done.
  rewrite app_comm_cons, <- E1, reverse_app, trim_start_blank by (by apply blank_rev). rewrite E2, reverse_snoc, trim_start_id by done. by rewrite <- reverse_snoc, reverse_involutive.
Qed.
(** ** Characters *)
Lemma lpar_ws : is_ws c_lpar = false. Proof. reflexivity. Qed.
Lemma rpar_ws : is_ws c_rpar = false. Proof. reflexivity. Qed.
Lemma quote_ws : is_ws c_quote = false. Proof. reflexivity. Qed.
Lemma has_elem c s : has c s = true <-> c ∈ s.
Proof.
  unfold has. rewrite existsb_exists. split.
  - intros (x & Hx & E%N.eqb_eq). subst. by apply elem_of_list_In.
  - intros Hc. exists c. split; [by apply elem_of_list_In|]. by apply N.eqb_eq.
Qed.
Lemma split_pred_app p a s : Forall (fun c => p c = false) a -> split_at_pred p (a ++ s) = (a ++ (split_at_pred p s).1, (split_at_pred p s).2).
Proof. induction 1 as [|c a Hc _ IH]; cbn; [by destruct (split_at_pred p s)|]. rewrite Hc, IH. done. Qed.
Lemma split_pred_stop p a s : Forall (fun c => p c = false) a -> (match s with [] => True | c :: _ => p c = true end) -> split_at_pred p (a ++ s) = (a, s).
Proof.
  intros Ha Hs. rewrite split_pred_app by done. destruct s as [|c s]; cbn; [by rewrite app_nil_r|]. rewrite Hs. cbn. by rewrite app_nil_r.
Qed.
Lemma not_quote_pred a : c_quote ∉ a -> Forall (fun c => N.eqb c_quote c = false) a.
Proof. intros Ha. apply Forall_forall. intros c Hc. apply N.eqb_neq. intros <-. done. Qed.

(** ** Reading what was written *)
Lemma blank_stops b s : blank b -> stops s -> stops (b ++ s).
Proof. intros Hb Hs. destruct Hb as [|c b Hc _]; [done|]. cbn. unfold delim. by rewrite Hc. Qed.
Scheme Written_min := Minimality for Written Sort Prop with WrittenRest_min := Minimality for WrittenRest Sort Prop.
Combined Scheme Written_both from Written_min, WrittenRest_min.
Lemma written_head s w : Written s w -> exists c r, w = c :: r /\ is_ws c = false /\ c <> c_rpar.
Proof.
  destruct 1 as [a (Hne & Hd & Hq)| | |].
  - destruct a as [|c r]; [done|]. apply Forall_cons in Hd as [Hd _]. exists c, r. split; [done|]. unfold delim in Hd. apply orb_false_iff in Hd as [Hd H3]. apply orb_false_iff in Hd as [H1 H2].
    split; [done|]. by apply N.eqb_neq.
  - eexists _, _. split; [done|]. done.
  - eexists _, _. split; [done|]. done.
  - eexists _, _. split; [done|]. done.
Qed.
Lemma written_length s w : Written s w -> 1 <= length w.
Proof. intros H. apply written_head in H as (c & r & -> & _). cbn. lia. Qed.
Lemma stops_app ws b rest : blank b -> stops ws -> stops (ws ++ b ++ c_rpar :: rest).
Proof. intros Hb Hs. destruct ws; [apply (blank_stops b (c_rpar :: rest) Hb); reflexivity|done]. Qed.
Lemma parse_written_both :
  (forall s w, Written s w -> forall fuel rest, length w < fuel -> (s = SStr w -> stops rest) -> parse_one fuel (w ++ rest) = Ok (inr (s, rest))) /\
  (forall l ws, WrittenRest l ws -> forall fuel k b rest acc, length ws < fuel -> length ws < k -> blank b ->
     parse_items (parse_one fuel) k (ws ++ b ++ c_rpar :: rest) acc = Ok (inr (acc ++ l, rest))).
Proof.
  apply Written_both.
  - intros a (Hne & Hd & Hq) fuel rest Hf Hs. specialize (Hs eq_refl). destruct fuel as [|fuel]; [lia|]. cbn [parse_one]. destruct a as [|c r]; [done|].
    pose proof Hd as Hd0. apply Forall_cons in Hd as [Hd _]. unfold delim in Hd. apply orb_false_iff in Hd as [Hd H3]. apply orb_false_iff in Hd as [H1 H2]. cbn [app].
    rewrite trim_start_id by done. rewrite H2. destruct (c =? c_quote)%N eqn:Eq; [apply N.eqb_eq in Eq; subst; by destruct (Hq r)|].
    rewrite app_comm_cons. rewrite (split_pred_stop _ (c :: r)); [done|exact Hd0|]. destruct rest; [done|exact Hs].
  - intros a Ha fuel rest Hf _. destruct fuel as [|fuel]; [lia|]. cbn [parse_one app]. rewrite trim_start_id by done. change (c_quote =? c_lpar)%N with false. rewrite N.eqb_refl.
    rewrite <- app_assoc, (split_pred_stop _ a) by (by apply not_quote_pred || done). done.
  - intros b Hb fuel rest Hf _. destruct fuel as [|fuel]; [lia|]. cbn [parse_one app]. rewrite trim_start_id by done. rewrite N.eqb_refl.
    cbn in Hf. destruct fuel as [|fuel]; [lia|]. cbn [parse_items]. rewrite <- app_assoc, trim_start_blank by done. cbn [app]. rewrite trim_start_id by done. rewrite N.eqb_refl. done.
  - intros s l ws b Hws IHws Hb fuel rest Hf _. destruct fuel as [|fuel]; [lia|]. cbn [parse_one app]. rewrite trim_start_id by done. rewrite N.eqb_refl.
    assert (Hlen : length (c_lpar :: ws ++ b ++ [c_rpar]) = 2 + length ws + length b) by (cbn; rewrite !app_length; cbn; lia). rewrite Hlen in Hf.
    assert (Ereassoc : (ws ++ b ++ [c_rpar]) ++ rest = ws ++ b ++ c_rpar :: rest) by (by rewrite <- !app_assoc). rewrite Ereassoc.
    rewrite IHws by (lia || done). done.
  - intros fuel k b rest acc Hf Hk Hb. cbn [app]. destruct k as [|k]; [cbn in Hk; lia|]. cbn [parse_items].
    rewrite trim_start_blank by done. rewrite trim_start_id by done. rewrite N.eqb_refl, app_nil_r. done.
  - intros s l b0 w ws Hb0 Hw IHw Hst Hws IHws fuel k b rest acc Hf Hk Hb. rewrite !app_length in Hf, Hk. pose proof (written_length _ _ Hw) as Hl1.
    assert (Ereassoc : (b0 ++ w ++ ws) ++ b ++ c_rpar :: rest = b0 ++ w ++ ws ++ b ++ c_rpar :: rest) by (by rewrite <- !app_assoc). rewrite Ereassoc.
    destruct k as [|k]; [lia|]. cbn [parse_items]. rewrite trim_start_blank by done. destruct (written_head _ _ Hw) as (c & r & Ew & Hc & Hcr).
    rewrite Ew at 1. cbn [app]. rewrite trim_start_id by done. rewrite (proj2 (N.eqb_neq _ _) Hcr). rewrite app_comm_cons, <- Ew.
    rewrite (IHw fuel (ws ++ b ++ c_rpar :: rest)); [|lia|intros E; apply stops_app; auto]. cbn [mbind res_bind]. rewrite IHws by (lia || done). by rewrite <- app_assoc.
Qed.
Lemma written_tight s w : Written s w -> tight w.
Proof.
  intros Hw. destruct (written_head _ _ Hw) as (c & r & E & Hc & _). exists c, r.
  assert (exists d l, w = l ++ [d] /\ is_ws d = false) as (d & l & E2 & Hd); [|by exists d, l].
  destruct Hw as [a (Hne & Hd & Hq)|a _|b _|s l ws b _ _].
  - destruct (exists_last Hne) as (l & d & ->). exists d, l. split; [done|]. apply Forall_app in Hd as [_ Hd]. apply Forall_cons in Hd as [Hd _]. unfold delim in Hd.
    apply orb_false_iff in Hd as [Hd _]. by apply orb_false_iff in Hd as [Hd _].
  - exists c_quote, (c_quote :: a). done.
  - exists c_rpar, (c_lpar :: b). done.
  - exists c_rpar, (c_lpar :: ws ++ b). split; [cbn; by rewrite !app_assoc|done].
Qed.
Lemma parse_written s w b b' fuel : Written s w -> blank b -> blank b' -> length w < fuel -> parse_sexp fuel (b ++ w ++ b') = Ok (inr s).
Proof.
  intros Hw Hb Hb' Hf. unfold parse_sexp. rewrite trim_around by (try done; by eapply written_tight). destruct (written_head _ _ Hw) as (c & r & E & _).
  pose proof (proj1 parse_written_both s w Hw fuel [] Hf (fun _ => I)) as Hp. rewrite app_nil_r in Hp. rewrite E in *. by rewrite Hp.
Qed.
(** ** The printers write *)
Lemma printable_written a : printable a -> Written (SStr a) (print_atom a).
Proof.
  intros [Hb|[Hq Hn]]; unfold print_atom.
  - assert (needs_quotes a = false) as ->; [|by apply W_bare]. destruct Hb as (Hne & Hd & _). unfold needs_quotes. rewrite Forall_forall in Hd.
    assert (forall c, delim c = true -> has c a = false) as Hh. { intros c Hc. destruct (has c a) eqn:E; [|done]. apply has_elem in E. by rewrite (Hd _ E) in Hc. }
    rewrite !Hh by reflexivity. by destruct a.
  - assert (needs_quotes a = true) as ->; [|by apply W_quoted]. unfold needs_quotes. destruct Hn as [->|[H|[H|H]]]; [done|apply has_elem in H; rewrite H; by rewrite ?orb_true_r..].
Qed.
Inductive sexp_ok (P : text -> Prop) : sexp -> Prop :=
| so_str a : P a -> sexp_ok P (SStr a)
| so_list l : l <> [] -> Forall (sexp_ok P) l -> sexp_ok P (SList l).
Fixpoint sexp_ind' (Q : sexp -> Prop) (Hs : forall a, Q (SStr a)) (Hl : forall l, Forall Q l -> Q (SList l)) (He : Q SEmpty) (s : sexp) : Q s :=
  match s with
  | SStr a => Hs a
  | SList l => Hl l ((fix go l : Forall Q l := match l with [] => List.Forall_nil Q | x :: l => @List.Forall_cons _ Q x l (sexp_ind' Q Hs Hl He x) (go l) end) l)
  | SEmpty => He
  end.
Lemma sep_written (f : sexp -> text) sep l : sep <> [] -> blank sep -> Forall (fun s => Written s (f s)) l ->
  stops (concat ((fun y => sep ++ y) <$> (f <$> l))) /\ WrittenRest l (concat ((fun y => sep ++ y) <$> (f <$> l))).
Proof.
  intros Hne Hb. induction 1 as [|s l Hs _ [IH1 IH2]]; [split; [done|constructor]|]. cbn. rewrite <- app_assoc. split; [|by constructor].
  destruct Hb as [|c b Hc Hb]; [done|]. cbn. unfold delim. by rewrite Hc.
Qed.
Lemma sep_list_written (f : sexp -> text) sep l : l <> [] -> sep <> [] -> blank sep -> Forall (fun s => Written s (f s)) l ->
  Written (SList l) (c_lpar :: sep_with sep (f <$> l) ++ [c_rpar]).
Proof.
  intros Hl Hne Hb Hf. destruct l as [|s l]; [done|]. apply Forall_cons in Hf as [Hs Hf]. rewrite fmap_cons. cbn [sep_with]. 
  destruct (sep_written f sep l Hne Hb Hf) as [H1 H2].
  apply (W_list s l (f s ++ concat ((fun y => sep ++ y) <$> (f <$> l))) []); [|constructor]. apply (WR_cons s l []); [constructor|done|done|done].
Qed.
Lemma print_written s : sexp_ok printable s -> Written s (print_sexp s).
Proof.
  induction s as [a|l IH|] using sexp_ind'; intros Ho; inversion Ho as [? Ha|? Hne Hl]; subst; cbn [print_sexp].
  - by apply printable_written.
  - apply sep_list_written; [done|done|by constructor|]. rewrite Forall_forall in *. intros x Hx. apply IH; [done|by apply Hl].
Qed.
Lemma strip_quotes_bare a : (forall r, a <> c_quote :: r) -> strip_quotes a = a.
Proof. intros Ha. destruct a as [|c r]; [done|]. cbn. destruct (c =? c_quote)%N eqn:E; [apply N.eqb_eq in E; subst; by destruct (Ha r)|done]. Qed.
Lemma pretty_bare_print a : pretty_bare a -> trim_quotes (print_atom a) = a.
Proof.
  intros [Hb He]. assert (Ep : print_atom a = a). { pose proof (printable_written a (or_introl Hb)) as Hw. unfold print_atom. destruct (needs_quotes a) eqn:En; [|done].
    exfalso. unfold needs_quotes in En. destruct Hb as (Hne & Hd & _). rewrite Forall_forall in Hd. rewrite !orb_true_iff in En.
    destruct En as [[[E|E]|E]|E]; [apply has_elem in E; by specialize (Hd _ E)..|by destruct a]. }
  rewrite Ep. unfold trim_quotes. rewrite (strip_quotes_bare a) by apply Hb. rewrite strip_quotes_bare; [apply reverse_involutive|].
  intros r E. apply (He (reverse r)). rewrite <- (reverse_involutive a), E. by rewrite reverse_cons.
Qed.
Lemma pretty_written width s : forall level, sexp_ok pretty_bare s -> Written s (pretty_sexp width level s).
Proof.
  induction s as [a|l IH|] using sexp_ind'; intros level Ho; inversion Ho as [? Ha|? Hne Hl]; subst; cbn [pretty_sexp].
  - cbn [print_sexp]. rewrite pretty_bare_print by done. apply W_bare, Ha.
  - apply (sep_list_written (pretty_sexp width (S level))); [done|by destruct (width <? _)| |].
    + destruct (width <? _); [|by constructor]. constructor; [done|]. clear. induction level; cbn; [constructor|]. by repeat constructor.
    + rewrite Forall_forall in *. intros x Hx. apply IH; [done|by apply Hl].
Qed.

(** ** The parser always answers *)
Lemma trim_start_length s : length (trim_start s) <= length s.
Proof. induction s as [|c s IH]; cbn; [lia|]. destruct (is_ws c); cbn; lia. Qed.
Lemma split_pred_length p s : length (split_at_pred p s).1 + length (split_at_pred p s).2 = length s.
Proof. induction s as [|c s IH]; cbn; [done|]. destruct (p c); cbn; [done|]. destruct (split_at_pred p s). cbn in *. lia. Qed.
Definition eats (p1 : text -> res (serr + sexp * text)) (N : nat) : Prop := forall i c r, length i <= N -> trim_start i = c :: r -> c <> c_rpar ->
  exists o, p1 i = Ok o /\ match o with inl _ => True | inr (_, rest) => length rest < length i end.
Lemma items_total p1 N : eats p1 N -> forall k rest acc, length rest < k -> length rest <= N ->
  exists o, parse_items p1 k rest acc = Ok o /\ match o with inl _ => True | inr (_, r) => length r <= length rest end.
Proof.
  intros He. induction k as [|k IH]; intros rest acc Hk HN; [lia|]. cbn [parse_items]. pose proof (trim_start_length rest) as Ht.
  destruct (trim_start rest) as [|d rest'] eqn:Et; [by eexists|]. destruct (d =? c_rpar)%N eqn:Ed; [eexists; split; [done|]; cbn in *; lia|]. apply N.eqb_neq in Ed.
  destruct (He (d :: rest') d rest') as (o & -> & Ho); [lia|apply trim_start_id; by eapply trim_start_head|done|]. cbn [mbind res_bind]. destruct o as [e|[it r]]; [by eexists|].
  destruct (IH r (acc ++ [it])) as (o & -> & Ho2); [lia|lia|]. eexists. split; [done|]. destruct o as [|[]]; [done|]. lia.
Qed.
Lemma parse_one_eats fuel N : N < fuel -> eats (parse_one fuel) N.
Proof.
  revert N. induction fuel as [|fuel IH]; intros N HN i c r Hi Ht Hc; [lia|]. cbn [parse_one]. pose proof (trim_start_length i) as Hl. rewrite Ht in *. cbn in Hl.
  destruct (c =? c_lpar)%N eqn:E1.
  - destruct (items_total (parse_one fuel) (length r)) with (k := fuel) (rest := r) (acc := @nil sexp) as (o & -> & Ho); [apply IH; lia|lia|lia|]. cbn [mbind res_bind]. eexists. split; [done|].
    destruct o as [|[[|] rest]]; [done|lia|lia].
  - destruct (c =? c_quote)%N eqn:E2.
    + eexists. split; [done|]. pose proof (split_pred_length (N.eqb c_quote) r) as Hs. destruct (split_at_pred _ r) as [a [|x rest]]; [done|]. cbn in *. lia.
    + apply trim_start_head in Ht. cbn [split_at_pred]. rewrite Ht, E1. rewrite (proj2 (N.eqb_neq _ _) Hc). cbn [orb].
      pose proof (split_pred_length (fun c => is_ws c || (c =? c_lpar)%N || (c =? c_rpar)%N) r) as Hs. destruct (split_at_pred _ r) as [a rest]. cbn [fst snd] in Hs. eexists. split; [reflexivity|]. cbv beta iota. lia.
Qed.
Lemma parse_one_total fuel i : length i < fuel -> exists o, parse_one fuel i = Ok o.
Proof.
  intros Hf. destruct (trim_start i) as [|c r] eqn:Et.
  - destruct fuel; [lia|]. cbn [parse_one]. rewrite Et. by eexists.
  - destruct (decide (c = c_rpar)) as [->|Hc].
    + destruct fuel; [lia|]. cbn [parse_one]. rewrite Et. cbn. by eexists.
    + destruct (parse_one_eats fuel (length i) Hf i c r (le_n _) Et Hc) as (o & -> & _). by eexists.
Qed.
Lemma trim_length s : length (trim s) <= length s.
Proof.
  unfold trim, trim_end. rewrite reverse_length. etrans; [apply trim_start_length|]. rewrite reverse_length. apply trim_start_length.
Qed.
Lemma parse_sexp_total fuel s : length s < fuel -> exists o, parse_sexp fuel s = Ok o.
Proof.
  intros Hf. unfold parse_sexp. pose proof (trim_length s) as Hl. destruct (trim s) as [|c r] eqn:Et; [by eexists|].
  destruct (parse_one_total fuel (c :: r)) as [o ->]; [lia|]. cbn. by eexists.
Qed.

(** ** The parser reads only what is written *)
Lemma split_pred_spec p s a r : split_at_pred p s = (a, r) -> s = a ++ r /\ Forall (fun c => p c = false) a /\ match r with [] => True | c :: _ => p c = true end.
Proof.
  revert a r. induction s as [|c s IH]; cbn; intros a r; [intros [= <- <-]; repeat split; constructor|]. destruct (p c) eqn:Ec.
  - intros [= <- <-]. repeat split; [constructor|done].
  - destruct (split_at_pred p s) as [a' b']. intros [= <- <-]. destruct (IH _ _ eq_refl) as (E & Ha & Hr). rewrite E. split; [done|]. split; [by constructor|done].
Qed.
Lemma not_bare_quoted (a : text) : SStr a = SStr (c_quote :: a ++ [c_quote]) -> False.
Proof. intros [= E]. apply (f_equal length) in E. cbn in E. rewrite app_length in E. cbn in E. lia. Qed.
Definition reads (p1 : text -> res (serr + sexp * text)) : Prop := forall i c r s rest, p1 i = Ok (inr (s, rest)) -> trim_start i = c :: r -> c <> c_rpar ->
  exists w, trim_start i = w ++ rest /\ Written s w /\ (s = SStr w -> stops rest).
Lemma items_reads p1 : reads p1 -> forall k i acc l rest, parse_items p1 k i acc = Ok (inr (l, rest)) ->
  exists l' ws b, l = acc ++ l' /\ i = ws ++ b ++ c_rpar :: rest /\ WrittenRest l' ws /\ blank b.
Proof.
  intros Hr. induction k as [|k IH]; intros i acc l rest E; [done|]. cbn [parse_items] in E. destruct (trim_start_suffix i) as (b & Hb & Ei).
  destruct (trim_start i) as [|d i'] eqn:Et; [done|]. destruct (d =? c_rpar)%N eqn:Ed.
  - apply N.eqb_eq in Ed. subst d. injection E as <- <-. exists [], [], b. rewrite app_nil_r. repeat split; [done|constructor|done].
  - apply N.eqb_neq in Ed. assert (Hid : trim_start (d :: i') = d :: i') by (apply trim_start_id; by eapply trim_start_head).
    destruct (p1 (d :: i')) as [[err|[it r]]| |] eqn:E1; try done. cbn [mbind res_bind] in E. destruct (Hr _ _ _ _ _ E1 Hid Ed) as (w & Ew & Hw & Hst). rewrite Hid in Ew.
    destruct (IH _ _ _ _ E) as (l' & ws & b' & -> & Er & Hws & Hb'). exists (it :: l'), (b ++ w ++ ws), b'. rewrite <- app_assoc. split; [done|].
    split; [by rewrite Ei, Ew, Er, <- !app_assoc|]. split; [|done]. constructor; [done|done| |done]. intros E0. specialize (Hst E0). rewrite Er in Hst. by destruct ws.
Qed.
Lemma parse_one_reads fuel : reads (parse_one fuel).
Proof.
  induction fuel as [|fuel IH]; intros i c r s rest E Et Hc; [done|]. cbn [parse_one] in E. rewrite Et in *. destruct (c =? c_lpar)%N eqn:E1.
  - apply N.eqb_eq in E1. subst c. destruct (parse_items (parse_one fuel) fuel r []) as [[err|[l r']]| |] eqn:Ep; cbn [mbind res_bind] in E; try done.
    destruct (items_reads _ IH _ _ _ _ _ Ep) as (l' & ws & b & -> & -> & Hws & Hb). cbn [app] in *. destruct l' as [|s0 l'].
    + injection E as <- <-. inversion Hws; subst. exists (c_lpar :: b ++ [c_rpar]). split; [cbn; by rewrite <- !app_assoc|]. split; [by constructor|done].
    + injection E as <- <-. exists (c_lpar :: ws ++ b ++ [c_rpar]). split; [cbn; by rewrite <- !app_assoc|]. split; [by constructor|done].
  - destruct (c =? c_quote)%N eqn:E2.
    + apply N.eqb_eq in E2. subst c. destruct (split_at_pred (N.eqb c_quote) r) as [a [|q r']] eqn:Es; [done|]. injection E as <- <-. apply split_pred_spec in Es as (-> & Ha & Hq). apply N.eqb_eq in Hq. subst q.
      exists (c_quote :: a ++ [c_quote]). split; [cbn; by rewrite <- !app_assoc|]. split; [constructor; intros Hin; rewrite Forall_forall in Ha; specialize (Ha _ Hin); by rewrite N.eqb_refl in Ha|].
      intros E0. by apply not_bare_quoted in E0.
    + destruct (split_at_pred _ (c :: r)) as [a r'] eqn:Es in E. injection E as <- <-. pose proof Es as Es0. apply split_pred_spec in Es as (-> & Ha & Hr).
      exists a. split; [done|]. split; [|intros _; by destruct r'].
      apply W_bare. apply N.eqb_neq in E1, E2. apply trim_start_head in Et. split; [|split; [exact Ha|]].
      * intros ->. cbn [split_at_pred] in Es0. rewrite Et in Es0. rewrite (proj2 (N.eqb_neq _ _) E1), (proj2 (N.eqb_neq _ _) Hc) in Es0. cbn in Es0. destruct (split_at_pred _ r); congruence.
      * intros r0 ->. cbn [split_at_pred] in Es0. destruct (is_ws c || _ || _); [done|]. destruct (split_at_pred _ r). congruence.
Qed.
Lemma trim_end_suffix s : exists b, blank b /\ s = trim_end s ++ b.
Proof.
  unfold trim_end. destruct (trim_start_suffix (reverse s)) as (b & Hb & E). exists (reverse b). split; [by apply blank_rev|].
  rewrite <- reverse_app, <- E. by rewrite reverse_involutive.
Qed.
Lemma trim_spec s : exists b b', blank b /\ blank b' /\ s = b ++ trim s ++ b'.
Proof.
  destruct (trim_start_suffix s) as (b & Hb & E). destruct (trim_end_suffix (trim_start s)) as (b' & Hb' & E'). exists b, b'. split; [done|]. split; [done|].
  unfold trim. by rewrite <- E'.
Qed.
Lemma parse_sexp_reads fuel s i : parse_sexp fuel i = Ok (inr s) -> exists b w b', blank b /\ blank b' /\ i = b ++ w ++ b' /\ Written s w.
Proof.
  unfold parse_sexp. intros E. destruct (trim_spec i) as (b & b' & Hb & Hb' & Ei). destruct (trim i) as [|c r] eqn:Et; [done|].
  destruct (parse_one fuel (c :: r)) as [[err|[s0 rest]]| |] eqn:Ep; try done. cbn [mbind res_bind] in E. destruct (trim rest) eqn:Er; [|done]. injection E as <-.
  assert (Hrest : blank rest). { destruct (trim_spec rest) as (b1 & b2 & H1 & H2 & E). rewrite Er in E. rewrite E. by apply blank_app. }
  destruct (trim_start_suffix (c :: r)) as (b1 & Hb1 & E1). destruct (trim_start (c :: r)) as [|c' r'] eqn:Ets.
  { rewrite app_nil_r in E1. destruct fuel; [done|]. cbn [parse_one] in Ep. by rewrite Ets in Ep. }
  destruct (decide (c' = c_rpar)) as [->|Hc].
  - destruct fuel; [done|]. cbn [parse_one] in Ep. rewrite Ets in Ep. cbn in Ep. injection Ep as <- <-. inversion Hrest; subst. done.
  - destruct (parse_one_reads fuel _ _ _ _ _ Ep Ets Hc) as (w & Ew & Hw & _). rewrite Ets in Ew. exists (b ++ b1), w, (rest ++ b'). rewrite !blank_app. split; [done|]. split; [done|].
    split; [|done]. rewrite Ei, E1, Ew. by rewrite <- !app_assoc.
Qed.
(** The text of an atom reads back exactly for printable names. *)
Lemma atom_exact fuel a : parse_sexp fuel (print_atom a) = Ok (inr (SStr a)) -> printable a.
Proof.
  intros E. apply parse_sexp_reads in E as (b & w & b' & Hb & Hb' & E & Hw). unfold print_atom in E. inversion Hw as [? Ha|? Ha| |]; subst; [by left|].
  destruct (needs_quotes a) eqn:En.
  - right. split; [done|]. unfold needs_quotes in En. rewrite !orb_true_iff in En. destruct En as [[[H|H]|H]|H]; [apply has_elem in H; auto..|]. destruct a; [auto|done].
  - apply (f_equal length) in E. rewrite !app_length in E. cbn in E. rewrite app_length in E. cbn in E. lia.
Qed.
(** ** Expressions *)
Section expr.
Context {Op : Type} (disp : Op -> text) (from_op : text -> list nat -> option (node Op)) (cycle : nat -> node Op -> text).
Lemma to_sexp_tree e : dag e -> forall fuel i t, Tree e i t -> i < fuel -> to_sexp_rec disp cycle fuel e i = Ok (sexp_of disp t).
Proof.
  intros Hd. induction fuel as [|fuel IH]; intros i t Ht Hi; [lia|]. cbn [to_sexp_rec]. inversion Ht as [? f cs ts Hn Hcs]; subst. rewrite Hn. cbn [expect mbind res_bind nch nop].
  destruct cs as [|c cs]; [inversion Hcs; subst; done|].
  assert (HH : map_res (fun x => if x <? i then to_sexp_rec disp cycle fuel e x else Ok (SStr (cycle i (Node f (c :: cs))))) (c :: cs) = Ok (sexp_of disp <$> ts)).
  { assert (Hlt : forall x, x ∈ c :: cs -> x < i) by (intros x Hx; exact (Hd _ _ _ Hn Hx)). clear Hn Ht. generalize (Node f (c :: cs)) as nd. intros nd.
    induction Hcs as [|x t xs ts Hx Hxs IHx]; cbn [map_res]; [done|]. assert (x < i) by (apply Hlt; constructor). rewrite (proj2 (Nat.ltb_lt _ _)) by done.
    rewrite (IH x t) by (done || lia). cbn [mbind res_bind]. rewrite IHx by (intros y Hy; apply Hlt; by constructor). done. }
  cbn [nch]. rewrite HH. cbn [mbind res_bind]. inversion Hcs; subst. done.
Qed.
Lemma to_sexp_spec e t : dag e -> ExprTree e t -> to_sexp disp cycle e = Ok (sexp_of disp t).
Proof.
  intros Hd [Hne Ht]. unfold to_sexp. destruct e as [|n e]; [done|]. apply to_sexp_tree; [done|done|]. cbn. lia.
Qed.
Lemma sexp_of_ok P t : names_ok P disp from_op t -> sexp_ok P (sexp_of disp t).
Proof.
  induction t as [f ts IH] using term_sind. intros Hn. inversion Hn as [? ? Hp _ Hk]; subst. destruct ts as [|t ts]; cbn [sexp_of]; [by constructor|].
  constructor; [done|]. constructor; [by constructor|]. rewrite Forall_fmap. rewrite Forall_forall in *. intros x Hx. cbn. apply IH; [done|by apply Hk].
Qed.
Lemma parse_into_tree P t : names_ok P disp from_op t -> forall e, dag e ->
  exists l, parse_into from_op (sexp_of disp t) e = Ok (inr (e ++ l, length (e ++ l) - 1)) /\ dag (e ++ l) /\ l <> [] /\ Tree (e ++ l) (length (e ++ l) - 1) t.
Proof.
  induction t as [f ts IH] using term_sind. intros Hn e De. inversion Hn as [? ? Hp Hf Hk]; subst.
  assert (Hadd : forall e cs, dag e -> Forall2 (Tree e) cs ts -> exists l, add_op from_op (disp f) e cs = Ok (inr (e ++ l, length (e ++ l) - 1)) /\ dag (e ++ l) /\ l <> [] /\
    Tree (e ++ l) (length (e ++ l) - 1) (TNode f ts)).
  { intros e0 cs D0 Hcs. unfold add_op. rewrite Hf by (by eapply Forall2_length). assert (forall c, c ∈ cs -> c < length e0) by (intros c Hc; by eapply Tree_children_lt).
    rewrite rx_add_ok by done. cbn [mbind res_bind]. exists [Node f cs]. rewrite app_length. cbn [length]. replace (length e0 + 1 - 1) with (length e0) by lia.
    split; [done|]. split; [by apply dag_snoc|]. split; [done|]. by apply Tree_snoc. }
  destruct ts as [|t ts]; cbn [sexp_of parse_into].
  - destruct (Hadd e [] De) as (l & HH); [constructor|]. by exists l.
  - assert (HH : forall us e ids vs, Forall (fun t => names_ok P disp from_op t -> forall e, dag e -> exists l, parse_into from_op (sexp_of disp t) e = Ok (inr (e ++ l, length (e ++ l) - 1)) /\ dag (e ++ l) /\ l <> [] /\ Tree (e ++ l) (length (e ++ l) - 1) t) us ->
        Forall (names_ok P disp from_op) us -> dag e -> Forall2 (Tree e) ids vs ->
        exists l ids', parse_args (parse_into from_op) (sexp_of disp <$> us) e ids = Ok (inr (e ++ l, ids')) /\ dag (e ++ l) /\ Forall2 (Tree (e ++ l)) ids' (vs ++ us)).
    { clear. induction us as [|u us IHu]; intros e ids vs HI HN De Hv.
      - exists [], ids. rewrite !app_nil_r. done.
      - apply Forall_cons in HI as [HI1 HI2]. apply Forall_cons in HN as [HN1 HN2]. rewrite fmap_cons. cbn [parse_args].
        destruct (HI1 HN1 e De) as (l1 & E1 & D1 & _ & T1). rewrite E1. cbn [mbind res_bind].
        destruct (IHu (e ++ l1) (ids ++ [length (e ++ l1) - 1]) (vs ++ [u]) HI2 HN2 D1) as (l2 & ids' & E2 & D2 & F2).
        { apply Forall2_app; [|by constructor]. eapply Forall2_impl; [exact Hv|]. intros. by apply Tree_app. }
        fold (parse_args (parse_into from_op)). exists (l1 ++ l2), ids'. rewrite !app_assoc. split; [exact E2|]. split; [done|]. rewrite <- (app_assoc vs) in F2. exact F2. }
    destruct (HH (t :: ts) e [] [] IH Hk De) as (l1 & ids & E1 & D1 & F1); [constructor|]. rewrite E1. cbn [mbind res_bind]. cbn [app] in F1.
    destruct (Hadd _ _ D1 F1) as (l2 & E2 & D2 & Hne & T2). exists (l1 ++ l2). rewrite !app_assoc. split; [exact E2|]. split; [done|]. split; [by destruct l1|done].
Qed.
Lemma print_length (w : text) : length w < S (length w). Proof. lia. Qed.
Lemma roundtrip P pr e t : (forall s, sexp_ok P s -> Written s (pr s)) -> dag e -> ExprTree e t -> names_ok P disp from_op t ->
  forall b b' fuel, blank b -> blank b' -> let w := pr (sexp_of disp t) in length w < fuel ->
    exists e', parse_expr from_op fuel (b ++ w ++ b') = Ok (inr e') /\ dag e' /\ ExprTree e' t.
Proof.
  intros Hpr Hd Ht Hn b b' fuel Hb Hb' w Hw. unfold parse_expr. pose proof (Hpr _ (sexp_of_ok _ _ Hn)) as Hwr. fold w in Hwr.
  rewrite trim_around by (done || by eapply written_tight). pose proof (parse_written _ _ [] [] fuel Hwr ltac:(constructor) ltac:(constructor) Hw) as E. rewrite app_nil_r in E. cbn [app] in E. rewrite E. cbn [mbind res_bind].
  destruct (parse_into_tree P t Hn [] dag_nil) as (l & E2 & D2 & Hne & T2). cbn [app] in *. rewrite E2. cbn [mbind res_bind]. exists l. done.
Qed.
(** ** Panics *)
Lemma parse_into_panic (Hfrom : forall op cs n, from_op op cs = Some n -> nch n = cs) s : forall e,
  match parse_into from_op s e with
  | Ok (inl _) => True
  | Ok (inr (e', i)) => length e <= length e' /\ i < length e'
  | Panic => headless s
  | OutOfFuel => False
  end.
Proof.
  assert (Hadd : forall op e ids, (forall c, c ∈ ids -> c < length e) ->
    match add_op from_op op e ids with Ok (inl _) => True | Ok (inr (e', i)) => length e <= length e' /\ i < length e' | _ => False end).
  { intros op e ids Hids. unfold add_op. destruct (from_op op ids) as [n|] eqn:E; [|done]. apply Hfrom in E. subst. rewrite rx_add_ok by done. cbn. rewrite app_length. cbn. lia. }
  induction s as [a|l IH|] using sexp_ind'; intros e; cbn [parse_into]; [| |done].
  - specialize (Hadd a e [] ltac:(intros c Hc; by apply elem_of_nil in Hc)). by destruct (add_op from_op a e []) as [[]| |].
  - destruct l as [|[op|l'|] args]; [done| |done|constructor].
    apply Forall_cons in IH as [_ IH].
    assert (HH : forall us e ids, Forall (fun s => forall e, match parse_into from_op s e with Ok (inl _) => True | Ok (inr (e', i)) => length e <= length e' /\ i < length e' | Panic => headless s | OutOfFuel => False end) us ->
      (forall c, c ∈ ids -> c < length e) ->
      match parse_args (parse_into from_op) us e ids with
      | Ok (inl _) => True | Ok (inr (e', ids')) => length e <= length e' /\ forall c, c ∈ ids' -> c < length e' | Panic => exists s, s ∈ us /\ headless s | OutOfFuel => False end).
    { clear. induction us as [|u us IHu]; intros e ids HI Hids; cbn [parse_args]; [done|]. apply Forall_cons in HI as [H1 H2]. specialize (H1 e).
      destruct (parse_into from_op u e) as [[err|[e1 i]]| |]; cbn [mbind res_bind]; [done| |exists u; split; [constructor|done]|done]. fold (parse_args (parse_into from_op)).
      destruct H1 as [Hl Hi]. specialize (IHu e1 (ids ++ [i]) H2). destruct (parse_args (parse_into from_op) us e1 (ids ++ [i])) as [[err|[e2 ids2]]| |].
      - done.
      - destruct IHu as [Hl2 Hc]; [|split; [lia|done]]. intros c [Hc|Hc%elem_of_list_singleton]%elem_of_app; [specialize (Hids _ Hc); lia|subst; done].
      - destruct IHu as (s & Hs & Hh); [|exists s; split; [by constructor|done]]. intros c [Hc|Hc%elem_of_list_singleton]%elem_of_app; [specialize (Hids _ Hc); lia|subst; done].
      - apply IHu. intros c [Hc|Hc%elem_of_list_singleton]%elem_of_app; [specialize (Hids _ Hc); lia|subst; done]. }
    specialize (HH args e [] IH ltac:(intros c Hc; by apply elem_of_nil in Hc)).
    destruct (parse_args (parse_into from_op) args e []) as [[err|[e1 ids]]| |]; cbn [mbind res_bind]; [done| |destruct HH as (s & Hs & Hh); eapply hl_in; [by constructor|done]|done].
    destruct HH as [Hl Hids]. specialize (Hadd op e1 ids Hids). destruct (add_op from_op op e1 ids) as [[err|[e2 i]]| |]; try done. lia.
Qed.
Lemma parse_expr_total (Hfrom : forall op cs n, from_op op cs = Some n -> nch n = cs) fuel s : length s < fuel ->
  (exists o, parse_expr from_op fuel s = Ok o) \/ (parse_expr from_op fuel s = Panic /\ exists sx, parse_sexp fuel (trim s) = Ok (inr sx) /\ headless sx).
Proof.
  intros Hf. unfold parse_expr. destruct (parse_sexp_total fuel (trim s)) as [o E]; [pose proof (trim_length s); lia|]. rewrite E. cbn [mbind res_bind].
  destruct o as [err|sx]; [left; by eexists|]. pose proof (parse_into_panic Hfrom sx []) as Hp. destruct (parse_into from_op sx []) as [r| |]; cbn [mbind res_bind]; [left; by eexists|right; split; [done|]; by exists sx|done].
Qed.
End expr.
