(** Proofs about [alpha_rename], conversions of pattern ASTs, and leaves of classes. *)
From Coq Require Import NArith.
From Verif Require Import Base EGraphModel Spec Terms RecExprModel RecExprProofs ExprModel PatSpec ExprProofs MachineModel MatchSpec TextModel TextSpec
  TextProofs TextMain PrintModel PrintProofs QueryModel QuerySpec.

Definition mkv (i : nat) : var :=
  VSym match i with
    | 0 => [c_qmark; 120%N] | 1 => [c_qmark; 121%N] | 2 => [c_qmark; 122%N] | 3 => [c_qmark; 119%N]
    | S (S (S (S k))) => c_qmark :: 118%N :: digits_aux (S k) (N.of_nat k) []
    end.
Lemma mkvar_ok i : mkvar i = Ok (mkv i).
Proof. destruct i as [|[|[|[|k]]]]; try done. Qed.
Lemma mkv_inj i j : mkv i = mkv j -> i = j.
Proof.
  assert (Hd : forall k, exists ds, digits_aux (S k) (N.of_nat k) [] = ds /\ ds <> [] /\ Forall digit ds /\ value ds = N.of_nat k).
  { intros k. destruct (digits_value (S k) (N.of_nat k) [] (pow_gt k)) as (ds & E & H1 & H2 & H3). rewrite app_nil_r in E. exists ds. rewrite E. auto. }
  unfold mkv. destruct i as [|[|[|[|i]]]], j as [|[|[|[|j]]]]; try done. intros E.
  destruct (Hd i) as (d1 & E1 & _ & _ & H1). destruct (Hd j) as (d2 & E2 & _ & _ & H2). rewrite E1, E2 in E. injection E as ->. lia.
Qed.

Section alpha.
Context {Op : Type}.
Notation pn := (node (vop Op)).
Implicit Types (p q : list pn) (vs : list var) (v w : var).

Fixpoint idx vs v : option nat := match vs with [] => None | w :: vs => if decide (w = v) then Some 0 else S <$> idx vs v end.
Lemma idx_in vs v : is_Some (idx vs v) <-> v ∈ vs.
Proof.
  induction vs as [|w vs IH]; cbn; [rewrite elem_of_nil; split; [by intros []|done]|]. rewrite elem_of_cons. destruct (decide (w = v)) as [->|Hn].
  - split; [by left|by eexists].
  - rewrite fmap_is_Some, IH. naive_solver.
Qed.
Lemma idx_lookup vs v i : idx vs v = Some i -> vs !! i = Some v.
Proof.
  revert i. induction vs as [|w vs IH]; intros i; cbn; [done|]. destruct (decide (w = v)) as [->|Hn]; [by intros [= <-]|].
  destruct (idx vs v) as [k|] eqn:E; [|done]. intros [= <-]. cbn. by apply IH.
Qed.
Lemma idx_inj vs v w i : idx vs v = Some i -> idx vs w = Some i -> v = w.
Proof. intros E1%idx_lookup E2%idx_lookup. congruence. Qed.
Lemma idx_app vs ws v : v ∈ vs -> idx (vs ++ ws) v = idx vs v.
Proof.
  induction vs as [|w vs IH]; intros Hv; [by apply elem_of_nil in Hv|]. cbn. destruct (decide (w = v)); [done|].
  apply elem_of_cons in Hv as [->|Hv]; [done|]. by rewrite IH.
Qed.
Lemma idx_new vs v : v ∉ vs -> idx (vs ++ [v]) v = Some (length vs).
Proof.
  induction vs as [|w vs IH]; intros Hv; cbn; [by rewrite decide_True|]. apply not_elem_of_cons in Hv as [Hn Hv].
  rewrite decide_False by congruence. by rewrite IH.
Qed.
Definition ren vs v : var := match idx vs v with Some i => mkv i | None => v end.
Definition tab_from k vs : list (var * var) := imap (fun i v => (v, mkv (k + i))) vs.
Lemma get_tab vs : forall k v, var_get (tab_from k vs) v = (fun i => mkv (k + i)) <$> idx vs v.
Proof.
  induction vs as [|w vs IH]; intros k v; [done|]. unfold tab_from. cbn. destruct (decide (w = v)); [cbn; do 2 f_equal; lia|].
  rewrite (imap_ext _ (fun i v => (v, mkv (S k + i)))) by (intros i x _; unfold compose; do 2 f_equal; lia). fold (tab_from (S k) vs). rewrite IH.
  destruct (idx vs v); cbn; [|done]. by rewrite Nat.add_succ_r.
Qed.
Lemma tab_snoc vs v : tab_from 0 vs ++ [(v, mkv (length vs))] = tab_from 0 (vs ++ [v]).
Proof. unfold tab_from. rewrite imap_app. cbn. by rewrite Nat.add_0_r. Qed.

Definition see vs (n : pn) : list var := match nop n with VVar v => if decide (v ∈ vs) then vs else vs ++ [v] | VOp _ => vs end.
Definition seen p vs : list var := foldl see vs p.
Lemma see_prefix vs n : vs `prefix_of` see vs n.
Proof. unfold see. destruct (nop n) as [v|]; [|done]. destruct (decide _); [done|]. by exists [v]. Qed.
Lemma seen_prefix p vs : vs `prefix_of` seen p vs.
Proof. revert vs. induction p as [|n p IH]; intros vs; [done|]. cbn. etrans; [apply see_prefix|apply IH]. Qed.
Lemma seen_nodup p vs : NoDup vs -> NoDup (seen p vs).
Proof.
  revert vs. induction p as [|n p IH]; intros vs Hn; [done|]. cbn. apply IH. unfold see. destruct (nop n) as [v|]; [|done].
  destruct (decide (v ∈ vs)); [done|]. apply NoDup_app. split; [done|]. split; [|apply NoDup_singleton]. intros x Hx ->%elem_of_list_singleton. done.
Qed.
Lemma seen_in p vs v : v ∈ seen p vs <-> v ∈ vs \/ var_in v p.
Proof.
  revert vs. induction p as [|n p IH]; intros vs.
  { cbn. split; [by left|]. intros [?|(n & Hn & _)]; [done|by apply elem_of_nil in Hn]. }
  cbn [seen foldl]. fold (seen p (see vs n)). rewrite IH. assert (Hs : v ∈ see vs n <-> v ∈ vs \/ nop n = VVar v).
  { unfold see. destruct (nop n) as [w|]; [|naive_solver]. destruct (decide (w ∈ vs)); [naive_solver|]. rewrite elem_of_app, elem_of_list_singleton. naive_solver. }
  rewrite Hs. unfold var_in. setoid_rewrite elem_of_cons. naive_solver.
Qed.
Lemma ren_app vs ws v : v ∈ vs -> vs `prefix_of` ws -> ren ws v = ren vs v.
Proof. intros Hv [ks ->]. unfold ren. by rewrite idx_app. Qed.
Lemma ren_inj vs v w : v ∈ vs -> w ∈ vs -> ren vs v = ren vs w -> v = w.
Proof.
  intros [i Hi]%idx_in [j Hj]%idx_in. unfold ren. rewrite Hi, Hj. intros ->%mkv_inj. by eapply idx_inj.
Qed.

Lemma add_dag (new : list pn) n : (forall c, c ∈ nch n -> c < length new) -> rx_add new n = Ok (new ++ [n], length new).
Proof.
  intros Hc. unfold rx_add. replace (rx_add_check new n) with true; [done|]. symmetry. unfold rx_add_check. apply forallb_forall.
  intros c Hin%elem_of_list_In. specialize (Hc c Hin). destruct new; cbn in *; [lia|]. apply Nat.leb_le. lia.
Qed.
Lemma alpha_loop_eq p : forall vs new, NoDup vs ->
  (forall i n c, p !! i = Some n -> c ∈ nch n -> c < length new + i) -> Forall (fun n => (exists v, nop n = VVar v) -> nch n = []) p ->
  alpha_loop p (tab_from 0 vs) new = Ok (new ++ (rename_node (ren (seen p vs)) <$> p)).
Proof.
  induction p as [|n p IH]; intros vs new Hn Hd Hl; [cbn; by rewrite app_nil_r|].
  apply Forall_cons in Hl as [Hl0 Hl]. 
  assert (Hd' : forall m, forall i n c, p !! i = Some n -> c ∈ nch n -> c < length (new ++ [m]) + i).
  { intros m i x c Hi Hc. rewrite app_length. cbn. specialize (Hd (S i) x c Hi Hc). lia. }
  assert (Hd0 : forall c, c ∈ nch n -> c < length new) by (intros c Hc; specialize (Hd 0 n c eq_refl Hc); lia).
  cbn [alpha_loop seen foldl fmap list_fmap]. fold (seen p (see vs n)). unfold rename_node at 1. unfold see. destruct n as [[v|f] cs]; cbn [nop nch] in *.
  - specialize (Hl0 ltac:(eauto)). subst cs. rewrite get_tab. destruct (idx vs v) as [i|] eqn:Ei; cbn [fmap option_fmap option_map].
    + assert (Hv : v ∈ vs) by (apply idx_in; eauto). rewrite add_dag by (cbn; intros c Hc; by apply elem_of_nil in Hc). cbn [mbind res_bind].
      rewrite IH; [|done|apply Hd'|done]. rewrite <- app_assoc. cbn [app]. rewrite decide_True by done.
      assert (Er : ren (seen p vs) v = mkv (0 + i)) by (rewrite (ren_app vs) by (done || apply seen_prefix); unfold ren; by rewrite Ei).
      by rewrite Er.
    + assert (Hv : v ∉ vs) by (rewrite <- idx_in, Ei; by intros []). assert (El : length (tab_from 0 vs) = length vs) by (unfold tab_from; by rewrite imap_length). rewrite El, mkvar_ok. cbn [mbind res_bind].
      rewrite add_dag by (cbn; intros c Hc; by apply elem_of_nil in Hc). cbn [mbind res_bind]. rewrite tab_snoc, IH; [|by apply (seen_nodup [Node (VVar v) []] vs) in Hn; unfold seen, see in Hn; cbn in Hn; rewrite decide_False in Hn|apply Hd'|done].
      rewrite <- app_assoc. cbn [app]. rewrite decide_False by done.
      assert (Er : ren (seen p (vs ++ [v])) v = mkv (length vs)).
      { rewrite (ren_app (vs ++ [v])); [|apply elem_of_app; right; by apply elem_of_list_singleton|apply seen_prefix]. unfold ren. by rewrite idx_new. }
      by rewrite Er.
  - rewrite add_dag by done. cbn [mbind res_bind]. rewrite IH; [|done|apply Hd'|done]. by rewrite <- app_assoc.
Qed.
Lemma alpha_eq p : pattern_ast p -> alpha_rename p = Ok (rename_node (ren (seen p [])) <$> p).
Proof. intros [Hd Hl]. apply (alpha_loop_eq p [] []); [constructor|intros i n c Hi Hc; cbn; by eapply Hd|done]. Qed.
Lemma seen_inj p v w : var_in v p -> var_in w p -> ren (seen p []) v = ren (seen p []) w -> v = w.
Proof. intros Hv Hw. apply ren_inj; apply seen_in; by right. Qed.

Lemma rename_ast r p : pattern_ast p -> pattern_ast (rename_node r <$> p).
Proof.
  intros [Hd Hl]. split.
  - intros i n c Hi Hc. rewrite list_lookup_fmap in Hi. destruct (p !! i) as [m|] eqn:Em; [|done]. cbn in Hi. injection Hi as <-.
    apply (Hd i m c Em). unfold rename_node in Hc. by destruct (nop m).
  - apply Forall_fmap. eapply Forall_impl; [exact Hl|]. intros n Hn. cbn. unfold rename_node. destruct (nop n) as [v|f] eqn:En; cbn; [|rewrite En; by intros [? ?]].
    intros _. apply Hn. by eexists.
Qed.
Lemma alpha_total p : pattern_ast p -> exists q, alpha_rename p = Ok q /\ variant p q /\ pattern_ast q.
Proof.
  intros Hp. rewrite alpha_eq by done. eexists. split; [done|]. split; [|by apply rename_ast]. exists (ren (seen p [])). split; [|done]. intros v w. apply seen_inj.
Qed.

Lemma seen_rename (r : var -> var) p : forall vs, (forall v w, v ∈ vs \/ var_in v p -> w ∈ vs \/ var_in w p -> r v = r w -> v = w) ->
  seen (rename_node r <$> p) (r <$> vs) = r <$> seen p vs.
Proof.
  induction p as [|n p IH]; intros vs Hr; [done|]. cbn [fmap list_fmap seen foldl]. fold (seen p (see vs n)). fold (seen (rename_node r <$> p) (see (r <$> vs) (rename_node r n))).
  assert (Es : see (r <$> vs) (rename_node r n) = r <$> see vs n).
  { unfold see, rename_node. destruct n as [[v|f] cs]; cbn [nop]; [|done].
    destruct (decide (v ∈ vs)) as [Hv|Hv].
    - rewrite decide_True by (apply elem_of_list_fmap; eauto). done.
    - rewrite decide_False; [by rewrite fmap_app|]. intros (w & Ew & Hw)%elem_of_list_fmap. apply Hr in Ew; [by subst| |by left].
      right. exists (Node (VVar v) cs). split; [left|done]. }
  rewrite Es. apply IH.
  assert (Hs : forall x, x ∈ see vs n \/ var_in x p -> x ∈ vs \/ var_in x (n :: p)).
  { intros x. unfold see, var_in. setoid_rewrite elem_of_cons. destruct (nop n) as [v|f] eqn:En; [|naive_solver].
    destruct (decide (v ∈ vs)); [naive_solver|]. rewrite elem_of_app, elem_of_list_singleton. naive_solver. }
  intros v w Hv Hw. apply Hr; by apply Hs.
Qed.
Lemma idx_rename (r : var -> var) vs v : (forall w, w ∈ vs -> r w = r v -> w = v) -> idx (r <$> vs) (r v) = idx vs v.
Proof.
  induction vs as [|w vs IH]; intros Hr; [done|]. cbn. destruct (decide (w = v)) as [->|Hn].
  - by rewrite decide_True.
  - rewrite decide_False; [|intros E; apply Hn, Hr; [left|done]]. rewrite IH; [done|]. intros x Hx. apply Hr. by right.
Qed.
Lemma alpha_variant p q : pattern_ast p -> variant p q -> alpha_rename p = alpha_rename q.
Proof.
  intros Hp (r & Hr & ->). rewrite !alpha_eq by (try apply rename_ast; done). f_equal.
  assert (Es : seen (rename_node r <$> p) [] = r <$> seen p []).
  { apply (seen_rename r p []). intros v w [Hv|Hv] [Hw|Hw]; try by apply elem_of_nil in Hv. by apply elem_of_nil in Hw. by apply Hr. }
  rewrite Es. rewrite <- list_fmap_compose. apply list_fmap_ext. intros i n Hi. cbn. unfold rename_node. destruct n as [[v|f] cs]; cbn [nop nch]; [|done].
  do 2 f_equal. assert (Hv : var_in v p) by (exists (Node (VVar v) cs); split; [by eapply elem_of_list_lookup_2|done]).
  unfold ren. rewrite idx_rename.
  - destruct (idx (seen p []) v) eqn:E; [done|]. exfalso. destruct (proj2 (idx_in (seen p []) v)) as [? E']; [apply seen_in; by right|congruence].
  - intros w Hw. apply Hr; [|done]. by apply seen_in in Hw as [Hw%elem_of_nil|Hw].
Qed.
Lemma variant_alpha p q : pattern_ast p -> pattern_ast q -> alpha_rename p = alpha_rename q -> variant p q.
Proof.
  intros Hp Hq E. rewrite !alpha_eq in E by done. injection E as E. set (vs := seen p []) in *. set (ws := seen q []) in *.
  assert (Hpt : forall i n, p !! i = Some n -> exists m, q !! i = Some m /\ rename_node (ren vs) n = rename_node (ren ws) m).
  { intros i n Hi. assert (Hi' : (rename_node (ren vs) <$> p) !! i = Some (rename_node (ren vs) n)) by (by rewrite list_lookup_fmap, Hi).
    rewrite E, list_lookup_fmap in Hi'. destruct (q !! i) as [m|]; [|done]. cbn in Hi'. exists m. split; [done|congruence]. }
  assert (Hvp : forall v, var_in v p -> is_Some (idx vs v)) by (intros v Hv; apply idx_in, seen_in; by right).
  assert (Hvq : forall v, var_in v q -> is_Some (idx ws v)) by (intros v Hv; apply idx_in, seen_in; by right).
  set (r := fun v => match idx vs v with Some i => default v (ws !! i) | None => v end).
  assert (Hr : forall i v cs, p !! i = Some (Node (VVar v) cs) -> exists w, q !! i = Some (Node (VVar w) cs) /\ r v = w /\ idx vs v = idx ws w).
  { intros i v cs Hi. destruct (Hpt i _ Hi) as (m & Hm & Em). unfold rename_node in Em. destruct m as [[w|f] ds]; cbn [nop nch] in Em; [|done].
    injection Em as Ev <-. exists w. split; [done|].
    destruct (Hvp v) as [a Ha]; [exists (Node (VVar v) cs); split; [by eapply elem_of_list_lookup_2|done]|].
    destruct (Hvq w) as [b Hb]; [exists (Node (VVar w) cs); split; [by eapply elem_of_list_lookup_2|done]|].
    unfold ren in Ev. rewrite Ha, Hb in Ev. apply mkv_inj in Ev as ->. unfold r. rewrite Ha, Hb, (idx_lookup _ _ _ Hb). done. }
  exists r. split.
  - intros v w (n & [i Hi]%elem_of_list_lookup & Hn) (m & [j Hj]%elem_of_list_lookup & Hm) Evw. destruct n as [o cs], m as [o' ds]. cbn in Hn, Hm. subst o o'.
    destruct (Hr i v cs Hi) as (v' & _ & Ev & Iv). destruct (Hr j w ds Hj) as (w' & _ & Ew & Iw). subst v' w'. rewrite Evw, <- Iw in Iv.
    destruct (Hvp w) as [a Ha]; [exists (Node (VVar w) ds); split; [by eapply elem_of_list_lookup_2|done]|]. rewrite Ha in Iv. by eapply idx_inj.
  - apply list_eq. intros i. rewrite list_lookup_fmap. destruct (p !! i) as [n|] eqn:Hi.
    + destruct (Hpt i n Hi) as (m & Hm & Em). rewrite Hm. cbn. f_equal. destruct n as [[v|f] cs].
      * destruct (Hr i v cs Hi) as (w & Hw & Ew & _). rewrite Hm in Hw. injection Hw as ->. unfold rename_node. cbn. by rewrite Ew.
      * unfold rename_node in *. cbn [nop] in *. destruct m as [[w|f'] ds]; [done|]. cbn [nop] in Em. done.
    + cbn. apply lookup_ge_None in Hi. apply lookup_ge_None. apply (f_equal length) in E. rewrite !fmap_length in E. lia.
Qed.
Lemma alpha_idem p q : pattern_ast p -> alpha_rename p = Ok q -> alpha_rename q = Ok q.
Proof.
  intros Hp E. destruct (alpha_total p Hp) as (q' & E' & Hv & _). rewrite E in E'. injection E' as <-. by rewrite <- (alpha_variant p q Hp Hv).
Qed.
End alpha.

(** * Patterns read from text *)
Definition lays {Op} (lay : nat -> term Op -> list (node Op)) : nat -> list (term Op) -> list (node Op) * list nat :=
  fix go b ts :=
    match ts with
    | [] => ([], [])
    | t :: ts => let l := lay b t in let r := go (b + length l) ts in (l ++ r.1, (b + length l - 1) :: r.2)
    end.
Fixpoint lay {Op} (b : nat) (t : term Op) : list (node Op) :=
  match t with TNode f ts => (lays lay b ts).1 ++ [Node f (lays lay b ts).2] end.

Section lay.
Context {Op : Type}.
Implicit Types (t : term Op) (e : list (node Op)).
Lemma lay_ne b t : lay b t <> [].
Proof. destruct t as [f ts]. cbn [lay]. by destruct (lays lay b ts).1. Qed.
Lemma lay_last e t : length (e ++ lay (length e) t) - 1 = length e + length (lay (length e) t) - 1.
Proof. by rewrite app_length. Qed.
Lemma lay_tree t : forall e, dag e -> dag (e ++ lay (length e) t) /\ Tree (e ++ lay (length e) t) (length (e ++ lay (length e) t) - 1) t.
Proof.
  induction t as [f ts IH] using term_sind. intros e De.
  assert (HH : forall e, dag e -> dag (e ++ (lays lay (length e) ts).1) /\ Forall2 (Tree (e ++ (lays lay (length e) ts).1)) (lays lay (length e) ts).2 ts).
  { clear e De. induction IH as [|t ts Ht _ IHt]; intros e De; cbn [lays fst snd]; [rewrite app_nil_r; split; [done|constructor]|].
    destruct (Ht e De) as [D1 T1]. rewrite lay_last in T1. destruct (IHt _ D1) as [D2 T2]. fold (lays (@lay Op)). rewrite app_length in D2, T2. rewrite app_assoc. split; [exact D2|].
    constructor; [by apply Tree_app|done]. }
  destruct (HH e De) as [D T]. cbn [lay]. rewrite app_assoc. rewrite app_length. cbn [length].
  replace (length (e ++ (lays lay (length e) ts).1) + 1 - 1) with (length (e ++ (lays lay (length e) ts).1)) by lia.
  split; [|by apply Tree_snoc]. apply dag_snoc; [done|]. intros c Hc. by eapply Tree_children_lt.
Qed.
Lemma lay_exprtree t : dag (lay 0 t) /\ ExprTree (lay 0 t) t.
Proof. destruct (lay_tree t [] dag_nil) as [D T]. cbn [app length] in *. split; [done|]. split; [apply lay_ne|done]. Qed.
Lemma lay_ops (f : Op) t : forall b, (exists n, n ∈ lay b t /\ nop n = f) <-> TextSpec.occurs f t.
Proof.
  induction t as [h ts IH] using term_sind. intros b. cbn [lay]. 
  assert (HH : forall b, (exists n, n ∈ (lays lay b ts).1 /\ nop n = f) <-> exists t, t ∈ ts /\ TextSpec.occurs f t).
  { clear b. induction IH as [|t ts Ht _ IHt]; intros b; cbn [lays fst snd].
    - split; [intros (n & Hn & _); by apply elem_of_nil in Hn|intros (n & Hn & _); by apply elem_of_nil in Hn].
    - setoid_rewrite elem_of_app. setoid_rewrite elem_of_cons. specialize (Ht b). specialize (IHt (b + length (lay b t))). fold (lays (@lay Op)). naive_solver. }
  specialize (HH b). setoid_rewrite elem_of_app. setoid_rewrite elem_of_list_singleton. split.
  - intros (n & [Hn| ->] & En); [|cbn in En; subst; constructor]. destruct (proj1 HH ltac:(eauto)) as (t & Ht & Ho). by eapply occurs_in.
  - inversion 1 as [|? ? t Ht Ho]; subst; [eexists; split; [by right|done]|]. destruct (proj2 HH ltac:(eauto)) as (n & Hn & En). eauto.
Qed.
End lay.

Section read.
Context {Op : Type} (from_op : text -> list nat -> option (node Op)) (Hfrom : forall op cs n, from_op op cs = Some n -> nch n = cs)
  (P : node Op -> Prop) (HP : forall op cs n, from_op op cs = Some n -> P n).
Definition lays_into s := forall e e' i, dag e -> parse_into from_op s e = Ok (inr (e', i)) ->
  exists t, e' = e ++ lay (length e) t /\ i = length e' - 1 /\ Forall P (lay (length e) t).
Lemma args_lay args : Forall lays_into args -> forall e ids e' ids', dag e -> parse_args (parse_into from_op) args e ids = Ok (inr (e', ids')) ->
  exists ts, e' = e ++ (lays lay (length e) ts).1 /\ ids' = ids ++ (lays lay (length e) ts).2 /\ Forall P (lays lay (length e) ts).1.
Proof.
  induction 1 as [|u us Hu _ IHu]; intros e ids e' ids' De E; cbn [parse_args] in E.
  - injection E as <- <-. exists []. cbn. rewrite !app_nil_r. done.
  - destruct (parse_into from_op u e) as [[err|[e1 i1]]| |] eqn:E1; try done. cbn [mbind res_bind] in E. fold (parse_args (parse_into from_op)) in E.
    destruct (Hu _ _ _ De E1) as (t & -> & -> & H1). destruct (IHu _ _ _ _ (proj1 (lay_tree t e De)) E) as (ts & -> & -> & H2).
    exists (t :: ts). cbn [lays fst snd]. fold (lays (@lay Op)). rewrite app_length in *. rewrite <- !app_assoc. cbn [app]. split; [done|]. split; [done|]. by apply Forall_app.
Qed.
Lemma add_op_lay op e ts e' i : dag e -> add_op from_op op (e ++ (lays lay (length e) ts).1) (lays lay (length e) ts).2 = Ok (inr (e', i)) ->
  Forall P (lays lay (length e) ts).1 -> exists t, e' = e ++ lay (length e) t /\ i = length e' - 1 /\ Forall P (lay (length e) t).
Proof.
  intros De E Hp. unfold add_op in E. destruct (from_op _ _) as [[f cs]|] eqn:Ef; [|done]. pose proof (Hfrom _ _ _ Ef) as Hcs. cbn in Hcs. subst cs.
  destruct (lay_tree (TNode f ts) e De) as [D _]. cbn [lay] in D. rewrite app_assoc in D.
  rewrite rx_add_ok in E.
  - cbn in E. injection E as <- <-. exists (TNode f ts). cbn [lay]. rewrite app_assoc. split; [done|]. rewrite !app_length. cbn [length]. split; [lia|].
    apply Forall_app. split; [done|]. constructor; [by eapply HP|constructor].
  - intros c Hc. eapply (D _ (Node f _) c); [by apply list_lookup_middle|done].
Qed.
Lemma parse_into_lay s : lays_into s.
Proof.
  induction s as [a|l IH|] using sexp_ind'; intros e e' i De E; cbn [parse_into] in E; [| |done].
  - apply (add_op_lay a e [] e' i De); cbn; [by rewrite app_nil_r|constructor].
  - destruct l as [|[op|l'|] args]; try done. apply Forall_cons in IH as [_ IH].
    destruct (parse_args (parse_into from_op) args e []) as [[err|[e1 ids]]| |] eqn:E1; try done. cbn [mbind res_bind] in E.
    destruct (args_lay args IH e [] e1 ids De E1) as (ts & -> & -> & Hp). cbn [app] in E. by eapply add_op_lay.
Qed.
Lemma parse_lay fuel s e : parse_expr from_op fuel s = Ok (inr e) -> exists t, e = lay 0 t /\ Forall P e.
Proof.
  unfold parse_expr. intros E. destruct (parse_sexp fuel (trim s)) as [[err|sx]| |]; try done. cbn [mbind res_bind] in E.
  destruct (parse_into from_op sx []) as [[err|[e' i]]| |] eqn:E2; try done. cbn [mbind res_bind] in E. injection E as <-.
  destruct (parse_into_lay sx [] e' i dag_nil E2) as (t & -> & _ & Hp). cbn [app length] in *. by exists t.
Qed.
End read.

Section terms.
Context {Op : Type}.
Implicit Types (t u : term (vop Op)).
Lemma rename_lay r t : forall b, rename_node r <$> lay b t = lay b (rename_term r t).
Proof.
  induction t as [f ts IH] using term_sind. intros b.
  assert (HH : forall b, rename_node r <$> (lays lay b ts).1 = (lays lay b (rename_term r <$> ts)).1 /\ (lays lay b ts).2 = (lays lay b (rename_term r <$> ts)).2).
  { clear b. induction IH as [|t ts Ht _ IHt]; intros b; [done|]. cbn [fmap list_fmap lays fst snd]. fold (lays (@lay (vop Op))).
    rewrite fmap_app, Ht. assert (El : length (lay b t) = length (lay b (rename_term r t))) by (by rewrite <- Ht, fmap_length). rewrite El.
    destruct (IHt (b + length (lay b (rename_term r t)))) as [-> ->]. done. }
  destruct (HH b) as [E1 E2]. destruct f as [v|f]; cbn [lay rename_term]; rewrite fmap_app, E1, <- E2; done.
Qed.
Lemma lay_inj t u : lay 0 t = lay 0 u -> t = u.
Proof. intros E. destruct (lay_exprtree t) as [_ T1]. destruct (lay_exprtree u) as [_ T2]. rewrite E in T1. by eapply ExprTree_fun. Qed.
Lemma alpha_lay t u : pattern_ast (lay 0 t) -> pattern_ast (lay 0 u) ->
  alpha_rename (lay 0 t) = alpha_rename (lay 0 u) <->
  exists r : var -> var, (forall v w, TextSpec.occurs (VVar v) t -> TextSpec.occurs (VVar w) t -> r v = r w -> v = w) /\ u = rename_term r t.
Proof.
  intros Ht Hu. split.
  - intros E. destruct (variant_alpha _ _ Ht Hu E) as (r & Hr & Eu). rewrite rename_lay in Eu. apply lay_inj in Eu. exists r. split; [|done].
    intros v w Hv%(lay_ops _ t 0) Hw%(lay_ops _ t 0). by apply Hr.
  - intros (r & Hr & ->). apply alpha_variant; [done|]. exists r. rewrite rename_lay. split; [|done]. intros v w Hv Hw.
    apply Hr; by apply (lay_ops _ t 0).
Qed.
Lemma parsed_lay (from_op : text -> list nat -> option (node Op)) : (forall op cs n, from_op op cs = Some n -> nch n = cs) ->
  forall fuel s e, parse_expr (vfrom_op from_op) fuel s = Ok (inr e) -> exists t, e = lay 0 t /\ pattern_ast e.
Proof.
  intros Hf fuel s e E.
  assert (Hv : forall op cs n, vfrom_op from_op op cs = Some n -> nch n = cs /\ ((exists v, nop n = VVar v) -> nch n = [])).
  { intros op cs n. assert (Hp : (fun n => Node (VOp (nop n)) (nch n)) <$> from_op op cs = Some n -> nch n = cs /\ ((exists v, nop n = VVar v) -> nch n = [])).
    { destruct (from_op op cs) as [m|] eqn:Em; [|done]. cbn. intros [= <-]. split; [cbn; by eapply Hf|]. by intros [v Hv]. }
    unfold vfrom_op. destruct op as [|c [|d op]]; [done|done|]. destruct (c =? c_qmark)%N; [|done]. destruct cs; [|done].
    destruct (parse_var _); [|done]. intros [= <-]. done. }
  destruct (parse_lay (vfrom_op from_op) (fun op cs n Hn => proj1 (Hv op cs n Hn)) (fun n => (exists v, nop n = VVar v) -> nch n = []) (fun op cs n Hn => proj2 (Hv op cs n Hn)) fuel s e E) as (t' & -> & Hp).
  destruct (lay_exprtree t') as [D T']. exists t'. split; [done|]. by split.
Qed.
Lemma alpha_parsed (from_op : text -> list nat -> option (node Op)) fuel1 fuel2 s1 s2 e1 e2 t1 t2 :
  (forall op cs n, from_op op cs = Some n -> nch n = cs) ->
  parse_expr (vfrom_op from_op) fuel1 s1 = Ok (inr e1) -> parse_expr (vfrom_op from_op) fuel2 s2 = Ok (inr e2) ->
  ExprTree e1 t1 -> ExprTree e2 t2 ->
  alpha_rename e1 = alpha_rename e2 <->
  exists r : var -> var, (forall v w, TextSpec.occurs (VVar v) t1 -> TextSpec.occurs (VVar w) t1 -> r v = r w -> v = w) /\ t2 = rename_term r t1.
Proof.
  intros Hf E1 E2 T1 T2. destruct (parsed_lay from_op Hf _ _ _ E1) as (u1 & -> & P1). destruct (parsed_lay from_op Hf _ _ _ E2) as (u2 & -> & P2).
  rewrite (ExprTree_fun _ _ _ T1 (proj2 (lay_exprtree u1))), (ExprTree_fun _ _ _ T2 (proj2 (lay_exprtree u2))). by apply alpha_lay.
Qed.
End terms.

(** * Patterns and expressions *)
Section conv.
Context {Op : Type}.
Lemma expr_from_spec (ast : list (node (pop Op))) : 
  (forall e, expr_from ast = inl e <-> ast = embed_node <$> e) /\
  (forall v, expr_from ast = inr v <-> exists i cs, ast !! i = Some (Node (PVar v) cs) /\ forall j n w, j < i -> ast !! j = Some n -> nop n <> PVar w).
Proof.
  induction ast as [|[o cs] ast [IH1 IH2]]; cbn [expr_from nop nch].
  - split; [intros e|intros v]; split.
    + by intros [= <-].
    + intros E. symmetry in E. by apply fmap_nil_inv in E as ->.
    + done.
    + by intros (i & cs & Hi & _).
  - destruct o as [f|w].
    + destruct (expr_from ast) as [e0|v0] eqn:E0; (split; [intros e|intros v]; split).
      * intros [= <-]. cbn. f_equal. by apply IH1.
      * destruct e as [|[f' cs'] e]; [done|]. cbn. intros [= <- <- E]. apply IH1 in E. by injection E as ->.
      * done.
      * intros (i & ds & Hi & Hj). destruct i as [|i]; [done|]. cbn in Hi. discriminate (proj2 (IH2 v)). exists i, ds. split; [done|].
        intros j n w Hlt Hn. apply (Hj (S j) n w ltac:(lia) Hn).
      * done.
      * destruct e as [|[f' cs'] e]; [done|]. cbn. intros [= <- <- E]. by apply IH1 in E.
      * intros [= <-]. destruct (proj1 (IH2 v0) eq_refl) as (i & ds & Hi & Hj). exists (S i), ds. split; [done|]. intros j n w Hlt Hn.
        destruct j as [|j]; [cbn in Hn; by injection Hn as <-|]. apply (Hj j n w ltac:(lia) Hn).
      * intros (i & ds & Hi & Hj). destruct i as [|i]; [done|]. cbn in Hi. f_equal. 
        assert (E : @inr (list (node Op)) nat v0 = inr v); [|congruence]. apply IH2. exists i, ds. split; [done|].
        intros j n w Hlt Hn. apply (Hj (S j) n w ltac:(lia) Hn).
    + split; [intros e|intros v]; split.
      * done.
      * destruct e as [|[f' cs'] e]; done.
      * intros [= <-]. exists 0, cs. split; [done|]. intros j n v' Hj. lia.
      * intros (i & ds & Hi & Hj). destruct i as [|i]; [cbn in Hi; congruence|]. destruct (Hj 0 (Node (PVar w) cs) w ltac:(lia) eq_refl). done.
Qed.
End conv.

(** * Leaves *)
Lemma unique_leaves_spec {Op D} `{EqDecision Op} (c : eclass Op D) :
  (assert_unique_leaves c = Ok tt <-> forall f g, Node f [] ∈ c_nodes c -> Node g [] ∈ c_nodes c -> f = g) /\
  (assert_unique_leaves c = Ok tt \/ assert_unique_leaves c = Panic).
Proof.
  assert (Hl : forall n, n ∈ leaves c <-> exists f, n = Node f [] /\ Node f [] ∈ c_nodes c).
  { intros n. unfold leaves. rewrite elem_of_list_filter. split; [|by intros (f & -> & Hn)]. intros [En Hn]. destruct n as [f cs]. cbn in En. subst. eauto. }
  unfold assert_unique_leaves. destruct (leaves c) as [|n ls] eqn:El.
  - split; [|by left]. split; [|done]. intros _ f g Hf _. exfalso. assert (Hn : Node f [] ∈ @nil (node Op)) by (apply Hl; eauto). by apply elem_of_nil in Hn.
  - split; [|unfold assert; destruct (forallb _ _); auto]. unfold assert. destruct (forallb _ ls) eqn:Ef.
    + split; [|done]. intros _ f g Hf Hg. rewrite forallb_forall in Ef.
      assert (Ha : forall f, Node f [] ∈ c_nodes c -> Node f [] = n).
      { intros h Hh. assert (Hin : Node h [] ∈ n :: ls) by (apply Hl; eauto). apply elem_of_cons in Hin as [->|Hin]; [done|].
        apply elem_of_list_In, Ef in Hin. by apply bool_decide_eq_true in Hin. }
      pose proof (Ha f Hf) as E1. pose proof (Ha g Hg) as E2. congruence.
    + split; [done|]. intros Hu. exfalso. apply not_true_iff_false in Ef. apply Ef. apply forallb_forall. intros m Hm%elem_of_list_In. apply bool_decide_eq_true.
      destruct (proj1 (Hl m)) as (f & -> & Hf); [by right|]. destruct (proj1 (Hl n)) as (g & -> & Hg); [left|]. by rewrite (Hu f g).
Qed.

(** * Compacted patterns *)
Global Instance vop_eq_dec {Op} `{EqDecision Op} : EqDecision (vop Op).
Proof. solve_decision. Defined.
Global Instance var_countable : Countable var.
Proof.
  refine (inj_countable' (fun v => match v with VSym s => inl s | VNum n => inr n end) (fun v => match v with inl s => VSym s | inr n => VNum n end) _).
  by intros [].
Defined.
Global Instance vop_countable {Op} `{Countable Op} : Countable (vop Op).
Proof.
  refine (inj_countable' (fun o => match o with VVar v => inl v | VOp f => inr f end) (fun o => match o with inl v => VVar v | inr f => VOp f end) _).
  by intros [].
Defined.
Section compact.
Context {Op : Type} `{Countable Op}.
Notation pn := (node (vop Op)).
Implicit Types (p q s : list pn).
Lemma find_none {X} (P : X -> Prop) `{forall x, Decision (P x)} l : list_find P l = None <-> forall x, x ∈ l -> ~ P x.
Proof. rewrite list_find_None. apply Forall_forall. Qed.
Lemma insert_rename r s (n : pn) : (forall v w, var_in v (s ++ [n]) -> var_in w (s ++ [n]) -> r v = r w -> v = w) ->
  index_insert (rename_node r <$> s) (rename_node r n) = (rename_node r <$> (index_insert s n).1, (index_insert s n).2).
Proof.
  intros Hr. unfold index_insert.
  assert (Hinj : forall m, m ∈ s -> rename_node r m = rename_node r n <-> m = n).
  { intros m Hm. split; [|by intros ->]. unfold rename_node. destruct m as [[v|f] cs], n as [[w|g] ds]; cbn [nop nch]; try done. intros [= E <-].
    f_equal. f_equal. apply Hr; [|exists (Node (VVar w) cs)|done].
    - exists (Node (VVar v) cs). split; [apply elem_of_app; by left|done].
    - split; [apply elem_of_app; right; by apply elem_of_list_singleton|done]. }
  clear Hr. destruct (list_find (fun m => m = n) s) as [[i x]|] eqn:E.
  - apply list_find_Some in E as (Hi & -> & Hj).
    assert (E' : list_find (fun m => m = rename_node r n) (rename_node r <$> s) = Some (i, rename_node r n)).
    { apply list_find_Some. split; [by rewrite list_lookup_fmap, Hi|]. split; [done|]. intros j y Hy Hlt. rewrite list_lookup_fmap in Hy.
      destruct (s !! j) as [z|] eqn:Ez; [|done]. cbn in Hy. injection Hy as <-. rewrite Hinj by (by eapply elem_of_list_lookup_2). by eapply Hj. }
    by rewrite E'.
  - assert (E' : list_find (fun m => m = rename_node r n) (rename_node r <$> s) = None).
    { apply find_none. intros y (z & -> & Hz)%elem_of_list_fmap. rewrite Hinj by done. rewrite find_none in E. by apply E. }
    rewrite E'. cbn. by rewrite fmap_app, fmap_length.
Qed.
Lemma var_in_app v p q : var_in v (p ++ q) <-> var_in v p \/ var_in v q.
Proof. unfold var_in. setoid_rewrite elem_of_app. naive_solver. Qed.
Lemma insert_vars v s (n : pn) : var_in v (index_insert s n).1 -> var_in v s \/ nop n = VVar v.
Proof.
  unfold index_insert. destruct (list_find _ _) as [[]|]; cbn; [by left|]. rewrite var_in_app. intros [?|(m & ->%elem_of_list_singleton & ?)]; auto.
Qed.
Lemma map_children_rename r (ids : gmap nat nat) (n : pn) :
  map_children_o (fun c => ids !! c) (rename_node r n) = (fun m => rename_node r m) <$> map_children_o (fun c => ids !! c) n.
Proof.
  unfold map_children_o, rename_node. destruct n as [[v|f] cs]; cbn [nop nch]; destruct (mapM _ cs); done.
Qed.
Lemma compact_rename r p : forall i ids s, (forall v w, var_in v (s ++ p) -> var_in w (s ++ p) -> r v = r w -> v = w) ->
  compact_loop i (rename_node r <$> p) ids (rename_node r <$> s) = (fun q => rename_node r <$> q) <$> compact_loop i p ids s.
Proof.
  induction p as [|n p IH]; intros i ids s Hr; [done|]. cbn [fmap list_fmap compact_loop]. rewrite map_children_rename.
  destruct (map_children_o _ n) as [m| |] eqn:Em; [|done|done]. cbn [fmap res_fmap mbind res_bind].
  assert (Eop : nop m = nop n). { unfold map_children_o in Em. destruct (mapM _ _); [|done]. cbn in Em. by injection Em as <-. }
  assert (Hm : forall v, nop m = VVar v -> var_in v (n :: p)) by (intros v Hv; exists n; split; [left|congruence]).
  rewrite insert_rename.
  - destruct (index_insert s m) as [s' k] eqn:Es. cbn [fst snd]. rewrite IH; [done|].
    assert (Hv : forall v, var_in v (s' ++ p) -> var_in v (s ++ n :: p)).
    { intros v. rewrite !var_in_app. intros [Hv|Hv].
      - assert (Hv' : var_in v (index_insert s m).1) by (by rewrite Es). apply insert_vars in Hv' as [?|?]; auto.
      - right. destruct Hv as (x & Hx & ?). exists x. split; [by right|done]. }
    intros v w Hv1 Hv2. apply Hr; by apply Hv.
  - assert (Hv : forall v, var_in v (s ++ [m]) -> var_in v (s ++ n :: p)).
    { intros v. rewrite !var_in_app. intros [Hv|(x & ->%elem_of_list_singleton & Hx)]; [by left|]. right. by apply Hm. }
    intros v w Hv1 Hv2. apply Hr; by apply Hv.
Qed.
Definition var_leaf (n : pn) : Prop := (exists v, nop n = VVar v) -> nch n = [].
Lemma compact_leaf p : forall i ids s s', Forall var_leaf p -> Forall var_leaf s -> compact_loop i p ids s = Ok s' -> Forall var_leaf s'.
Proof.
  induction p as [|n p IH]; intros i ids s s' Hp Hs E; [cbn in E; by injection E as <-|]. cbn [compact_loop] in E. apply Forall_cons in Hp as [Hn Hp].
  destruct (map_children_o _ n) as [m| |] eqn:Em; [|done|done]. cbn [mbind res_bind] in E.
  assert (Hm : var_leaf m).
  { unfold map_children_o in Em. destruct (mapM _ (nch n)) as [cs|] eqn:Ec; [|done]. cbn in Em. injection Em as <-. intros Hv. cbn in *. rewrite (Hn Hv) in Ec. cbn in Ec. by injection Ec as <-. }
  destruct (index_insert s m) as [s1 k] eqn:Es. eapply (IH _ _ s1); [done| |exact E].
  unfold index_insert in Es. destruct (list_find _ _) as [[]|]; injection Es as <- <-; [done|]. apply Forall_app. split; [done|]. by constructor.
Qed.
Lemma rename_tree r p i t : Tree p i t -> Tree (rename_node r <$> p) i (rename_term r t).
Proof.
  revert i t. apply (TreeOf_ind' _ (fun i t => Tree (rename_node r <$> p) i (rename_term r t))). intros i f cs ts Hi _ IH.
  assert (Hf : Forall2 (Tree (rename_node r <$> p)) cs (rename_term r <$> ts)) by (apply Forall2_fmap_r; exact IH).
  assert (Hi' : (rename_node r <$> p) !! i = Some (rename_node r (Node f cs))) by (by rewrite list_lookup_fmap, Hi).
  unfold rename_node at 2 in Hi'. destruct f as [v|f]; cbn in *; econstructor; (exact Hi' || exact Hf).
Qed.
Lemma tree_ops p i t : Tree p i t -> forall f, TextSpec.occurs f t -> exists n, n ∈ p /\ nop n = f.
Proof.
  revert i t. apply (TreeOf_ind' _ (fun i t => forall f, TextSpec.occurs f t -> exists n, n ∈ p /\ nop n = f)). intros i f cs ts Hi _ IH h Ho.
  inversion Ho as [|? ? t Ht Ho']; subst; [eexists; split; [by eapply elem_of_list_lookup_2|done]|].
  apply elem_of_list_lookup in Ht as [k Hk]. destruct (Forall2_lookup_r _ _ _ _ _ IH Hk) as (c & _ & Hc). by apply Hc.
Qed.
Lemma lay_rooted {Op'} (t : term Op') : forall b i, b <= i -> S i < b + length (lay b t) -> exists n, n ∈ lay b t /\ i ∈ nch n.
Proof.
  induction t as [f ts IH] using term_sind. intros b i Hb Hi.
  assert (HH : forall b i, b <= i -> i < b + length (lays lay b ts).1 -> i ∈ (lays lay b ts).2 \/ exists n, n ∈ (lays lay b ts).1 /\ i ∈ nch n).
  { clear b i Hb Hi. induction IH as [|t ts Ht _ IHt]; intros b i Hb Hi; cbn [lays fst snd] in *; [cbn in Hi; lia|]. fold (lays (@lay Op')) in *. rewrite app_length in Hi.
    destruct (decide (i < b + length (lay b t))) as [Hlt|Hge].
    - destruct (decide (i = b + length (lay b t) - 1)) as [->|Hne]; [left; left|]. right. destruct (Ht b i Hb ltac:(lia)) as (n & Hn & Hc). exists n. split; [apply elem_of_app; by left|done].
    - destruct (IHt (b + length (lay b t)) i ltac:(lia) ltac:(lia)) as [Hc|(n & Hn & Hc)]; [left; by right|right; exists n; split; [apply elem_of_app; by right|done]]. }
  cbn [lay] in *. rewrite app_length in Hi. cbn in Hi. destruct (HH b i Hb ltac:(lia)) as [Hc|(n & Hn & Hc)].
  - eexists. split; [apply elem_of_app; right; by apply elem_of_list_singleton|done].
  - exists n. split; [apply elem_of_app; by left|done].
Qed.
Lemma lay_is_rooted {Op'} (t : term Op') : rooted (lay 0 t).
Proof. intros i Hi. destruct (lay_rooted t 0 i ltac:(lia) ltac:(cbn; lia)) as (n & [j Hj]%elem_of_list_lookup & Hc). eauto. Qed.
Lemma compact_loop_vars p : forall i ids s s', compact_loop i p ids s = Ok s' -> forall v, var_in v s' -> var_in v (s ++ p).
Proof.
  induction p as [|n p IH]; intros i ids s s' E v Hv; [cbn in E; injection E as <-; by rewrite app_nil_r|]. cbn [compact_loop] in E.
  destruct (map_children_o _ n) as [m| |] eqn:Em; [|done|done]. cbn [mbind res_bind] in E.
  assert (Eop : nop m = nop n). { unfold map_children_o in Em. destruct (mapM _ _); [|done]. cbn in Em. by injection Em as <-. }
  destruct (index_insert s m) as [s1 k] eqn:Es. apply (IH _ _ _ _ E) in Hv. revert Hv. rewrite !var_in_app. intros [Hv|(x & Hx & Ho)].
  - assert (Hv' : var_in v (index_insert s m).1) by (by rewrite Es). apply insert_vars in Hv' as [?|Ho]; [by left|]. right. exists n. split; [left|congruence].
  - right. exists x. split; [by right|done].
Qed.
Lemma compact_vars c (t : term (vop Op)) v : compact_loop 0 (lay 0 t) ∅ [] = Ok c -> var_in v c -> TextSpec.occurs (VVar v) t.
Proof. intros E Hv. apply (lay_ops _ t 0). exact (compact_loop_vars _ _ _ _ _ E v Hv). Qed.
Lemma compact_lay (t : term (vop Op)) : pattern_ast (lay 0 t) ->
  exists c, rx_compact (lay 0 t) = Ok c /\ pattern_ast c /\ ExprTree c t.
Proof.
  intros [Hd Hp]. destruct (lay_exprtree t) as [_ T]. destruct (rx_compact_spec (lay 0 t) Hd) as (c & Ec & Hdc & _ & _ & Ht).
  exists c. split; [done|]. split; [|apply (Ht t T); apply rooted_compact; [done|apply lay_is_rooted|done]].
  split; [done|]. exact (compact_leaf (lay 0 t) 0 ∅ [] c Hp (Forall_nil_2 _) Ec).
Qed.
Lemma alpha_compact (from_op : text -> list nat -> option (node Op)) fuel1 fuel2 (s1 s2 : text) e1 e2 c1 c2 t1 t2 :
  (forall op cs n, from_op op cs = Some n -> nch n = cs) ->
  parse_expr (vfrom_op from_op) fuel1 s1 = Ok (inr e1) -> parse_expr (vfrom_op from_op) fuel2 s2 = Ok (inr e2) ->
  rx_compact e1 = Ok c1 -> rx_compact e2 = Ok c2 ->
  ExprTree c1 t1 -> ExprTree c2 t2 ->
  alpha_rename c1 = alpha_rename c2 <->
  exists r : var -> var, (forall v w, TextSpec.occurs (VVar v) t1 -> TextSpec.occurs (VVar w) t1 -> r v = r w -> v = w) /\ t2 = rename_term r t1.
Proof.
  intros Hf E1 E2 C1 C2 T1 T2.
  assert (Hgo : forall fuel (s : text) e c t, parse_expr (vfrom_op from_op) fuel s = Ok (inr e) -> rx_compact e = Ok c -> ExprTree c t -> e = lay 0 t /\ pattern_ast c).
  { intros fuel s e c t E C T. destruct (parsed_lay from_op Hf fuel s e E) as (t' & -> & Hp).
    destruct (compact_lay t' Hp) as (c' & Ec & Pc & T'). rewrite C in Ec. injection Ec as <-. by rewrite (ExprTree_fun _ _ _ T T'). }
  destruct (Hgo _ _ _ _ _ E1 C1 T1) as [-> P1]. destruct (Hgo _ _ _ _ _ E2 C2 T2) as [-> P2]. clear E1 E2. split.
  - intros E. destruct (variant_alpha _ _ P1 P2 E) as (r & Hr & ->). exists r. split.
    + intros v w Hv Hw. destruct T1 as [_ T1]. apply Hr; apply (tree_ops _ _ _ T1); done.
    + apply (ExprTree_fun _ _ _ T2). destruct T1 as [N1 T1]. split; [by destruct c1|]. rewrite fmap_length. by apply rename_tree.
  - intros (r & Hr & ->). apply alpha_variant; [done|]. rewrite <- rename_lay in C2.
    assert (Hi : forall v w, var_in v ([] ++ lay 0 t1) -> var_in w ([] ++ lay 0 t1) -> r v = r w -> v = w).
    { intros v w Hv Hw. apply Hr; by apply (lay_ops _ t1 0). }
    pose proof (compact_rename r (lay 0 t1) 0 ∅ [] Hi) as Ecr. unfold rx_compact in C1, C2. rewrite C1 in Ecr. cbn [fmap list_fmap res_fmap] in Ecr.
    rewrite C2 in Ecr. injection Ecr as ->. exists r. split; [|done]. intros v w Hv Hw. apply Hr.
    + exact (compact_vars c1 t1 v C1 Hv).
    + exact (compact_vars c1 t1 w C1 Hw).
Qed.
End compact.
