From Coq Require Import NArith.
From Verif Require Import Base EGraphModel Spec Terms RecExprModel ExplainModel ExplainSpec ExplainFlat CheckProofs TextModel TextSpec TextProofs TextMain PrintModel PrintSpec.

Section proofs.
Context {Op : Type}.
Notation node := (node Op).
Notation ttree := (ttree Op).
Notation fterm := (fterm Op).
Notation ptree := (ptree Op).

Fixpoint ptree_sind (Q : ptree -> Prop) (Hn : forall a c l n b f kids, Forall (Forall Q) kids -> Q (PT a c l n b f kids)) (t : ptree) : Q t :=
  match t with
  | PT a c l n b f kids =>
    Hn a c l n b f kids ((fix go (ks : list (list ptree)) : Forall (Forall Q) ks :=
      match ks with
      | [] => List.Forall_nil _
      | p :: ks => @List.Forall_cons _ (Forall Q) p ks
          ((fix goo (p : list ptree) : Forall Q p := match p with [] => List.Forall_nil _ | t :: p => @List.Forall_cons _ Q t p (ptree_sind Q Hn t) (goo p) end) p) (go ks)
      end) kids)
  end.
Fixpoint tt_sind (Q : ttree -> Prop) (Hn : forall n b f kids, Forall (Forall Q) kids -> Q (TT n b f kids)) (t : ttree) : Q t :=
  match t with
  | TT n b f kids =>
    Hn n b f kids ((fix go (ks : list (list ttree)) : Forall (Forall Q) ks :=
      match ks with
      | [] => List.Forall_nil _
      | p :: ks => @List.Forall_cons _ (Forall Q) p ks
          ((fix goo (p : list ttree) : Forall Q p := match p with [] => List.Forall_nil _ | t :: p => @List.Forall_cons _ Q t p (tt_sind Q Hn t) (goo p) end) p) (go ks)
      end) kids)
  end.

(** ** Bound names *)
Lemma digits_value fuel : forall n acc, (n < 10 ^ N.of_nat fuel)%N -> exists ds, digits_aux fuel n acc = ds ++ acc /\ Forall digit ds /\ value ds = n /\ (fuel <> 0 -> ds <> []).
Proof.
  induction fuel as [|fuel IH]; intros n acc Hn; cbn [digits_aux].
  - exists []. cbn in Hn |- *. split; [done|]. split; [constructor|]. split; [unfold value; cbn; lia|done].
  - assert (Hdm : (n = 10 * (n / 10) + n mod 10)%N) by (apply N.div_mod; lia). assert (Hm : (n mod 10 < 10)%N) by (apply N.mod_lt; lia).
    rewrite Nat2N.inj_succ, N.pow_succ_r' in Hn.
    remember (n / 10)%N as q eqn:Eq. remember (n mod 10)%N as m eqn:Em. clear Eq Em.
    assert (Hd : digit (48 + m)) by (unfold digit; lia).
    destruct (q =? 0)%N eqn:E.
    + apply N.eqb_eq in E. exists [(48 + m)%N]. split; [done|]. split; [by constructor|]. split; [unfold value; cbn [foldl]; lia|done].
    + assert (Hq : (q < 10 ^ N.of_nat fuel)%N) by lia. destruct (IH q ((48 + m)%N :: acc) Hq) as (ds & -> & Hds & Hv & _).
      exists (ds ++ [(48 + m)%N]). rewrite <- app_assoc. split; [done|]. split; [by apply Forall_app_2; [|constructor]|]. split; [|intros _; by destruct ds].
      unfold value in *. rewrite foldl_app. cbn [foldl]. rewrite Hv. lia.
Qed.
Lemma pow_gt k : (N.of_nat k < 10 ^ N.of_nat (S k))%N.
Proof. induction k as [|k IH]; [done|]. rewrite (Nat2N.inj_succ (S k)), N.pow_succ_r', Nat2N.inj_succ. lia. Qed.
Lemma bound_name_spec k : exists ds, bound_name k = [118; 95]%N ++ ds /\ ds <> [] /\ Forall digit ds /\ value ds = N.of_nat k.
Proof.
  unfold bound_name. destruct (digits_value (S k) (N.of_nat k) [] (pow_gt k)) as (ds & E & Hd & Hv & Hne). rewrite app_nil_r in E. exists ds. rewrite E. auto.
Qed.
Lemma bound_name_inj j k : bound_name j = bound_name k -> j = k.
Proof.
  destruct (bound_name_spec j) as (ds & -> & _ & _ & Hj). destruct (bound_name_spec k) as (ds' & -> & _ & _ & Hk). intros [= ->]. lia.
Qed.
Lemma bound_name_let k : let_name (bound_name k).
Proof. destruct (bound_name_spec k) as (ds & -> & Hne & Hd & _). by exists ds. Qed.
Lemma digit_plain c : digit c -> delim c = false /\ c <> c_quote.
Proof.
  intros Hc. assert (E : In c [48; 49; 50; 51; 52; 53; 54; 55; 56; 57]%N) by (unfold digit in Hc; cbn [In]; lia).
  cbn [In] in E. repeat (destruct E as [<-|E]; [done|]). done.
Qed.
Lemma bound_name_bare k : pretty_bare (bound_name k).
Proof.
  destruct (bound_name_spec k) as (ds & -> & Hne & Hd & _). split.
  - split; [done|]. split; [|done]. apply Forall_app. split; [by repeat constructor|]. eapply Forall_impl; [exact Hd|]. intros c Hc. by apply digit_plain.
  - intros r E. destruct ds as [|d ds] using rev_ind; [done|]. rewrite app_assoc in E. apply app_inj_2 in E as [_ E]; [|done]. injection E as ->.
    apply Forall_app in Hd as [_ Hd]. apply Forall_cons in Hd as [Hd _]. by apply digit_plain in Hd as [_ ?].
Qed.

Section names.
Context (disp : Op -> text) (rname : nat -> text).
Notation annotate := (annotate rname).
Notation ft_sexp := (ft_sexp disp rname).

(** ** The plain printed form of a tree explanation, as a total function *)
Fixpoint tt_sexp (t : ttree) : sexp :=
  let 'TT n b f kids := t in
  annotate b f (match nch n with
    | [] => SStr (disp (nop n))
    | _ => SList (SStr (disp (nop n)) :: map (fun p => match p with [t] => tt_sexp t | _ => SList (SStr s_explanation :: map tt_sexp p) end) kids)
    end).
Definition kid_sexp (p : list ttree) : sexp := match p with [t] => tt_sexp t | _ => SList (SStr s_explanation :: map tt_sexp p) end.
Lemma tt_sexp_node n b f kids : tt_sexp (TT n b f kids) = annotate b f (match nch n with [] => SStr (disp (nop n)) | _ => SList (SStr (disp (nop n)) :: map kid_sexp kids) end).
Proof. done. Qed.

(** ** Replacing names *)
Definition expand (defs : list (text * sexp)) (s : sexp) : sexp := foldr (fun '(v, d) s => replace_atom v d s) s defs.
Lemma expand_app l k s : expand (l ++ k) s = expand l (expand k s).
Proof. unfold expand. by rewrite foldr_app. Qed.
Lemma expand_list defs l : expand defs (SList l) = SList (map (expand defs) l).
Proof.
  induction defs as [|[v d] defs IH]; cbn [expand foldr]; [by rewrite map_id|]. fold (expand defs (SList l)). rewrite IH. cbn [replace_atom]. by rewrite map_map.
Qed.
Lemma expand_atom defs a : (forall v d, (v, d) ∈ defs -> v <> a) -> expand defs (SStr a) = SStr a.
Proof.
  induction defs as [|[v d] defs IH]; intros Hn; [done|]. cbn [expand foldr]. fold (expand defs (SStr a)). rewrite IH by (intros v' d' Hv; apply (Hn v' d'); by constructor).
  cbn [replace_atom]. rewrite bool_decide_eq_false_2; [done|]. intros ->. by eapply (Hn v d); [constructor|].
Qed.
Definition numbered (defs : list (text * sexp)) : Prop := forall k v d, defs !! k = Some (v, d) -> v = bound_name k.
Lemma expand_plain defs a : numbered defs -> ~ let_name a -> expand defs (SStr a) = SStr a.
Proof. intros Hn Ha. apply expand_atom. intros v d [k Hk]%elem_of_list_lookup ->. apply Ha. rewrite (Hn _ _ _ Hk). apply bound_name_let. Qed.
Lemma expand_bound defs k e : numbered defs -> defs !! k = Some (bound_name k, e) -> expand defs (SStr (bound_name k)) = expand (take k defs) e.
Proof.
  intros Hn Hk. rewrite <- (take_drop_middle _ _ _ Hk) at 1. rewrite expand_app. f_equal. cbn [expand foldr]. fold (expand (drop (S k) defs) (SStr (bound_name k))).
  rewrite expand_atom.
  - cbn [replace_atom]. by rewrite bool_decide_eq_true_2.
  - intros v d [j Hj]%elem_of_list_lookup. rewrite lookup_drop in Hj. rewrite (Hn _ _ _ Hj). intros E%bound_name_inj. lia.
Qed.
Lemma not_let a c r : a = c :: r -> c <> 118%N -> ~ let_name a.
Proof. intros -> Hc (ds & E & _). by injection E. Qed.
Lemma explanation_not_let : ~ let_name s_explanation. Proof. by eapply not_let. Qed.
Lemma forward_not_let : ~ let_name s_forward. Proof. by eapply not_let. Qed.
Lemma backward_not_let : ~ let_name s_backward. Proof. by eapply not_let. Qed.
Lemma expand_annotate defs b f e : numbered defs -> rule_uses (fun r => ~ let_name (rname r)) b -> rule_uses (fun r => ~ let_name (rname r)) f ->
  expand defs (annotate b f e) = annotate b f (expand defs e).
Proof.
  intros Hn Hb Hf. unfold PrintModel.annotate.
  assert (Hr : forall a r e, ~ let_name a -> ~ let_name (rname r) -> expand defs (SList [SStr a; SStr (rname r); e]) = SList [SStr a; SStr (rname r); expand defs e]).
  { intros a r e' Ha Hr. rewrite expand_list. cbn [map]. by rewrite !expand_plain. }
  destruct b as [b|], f as [f|]; cbn [rule_uses] in *; rewrite ?Hr by auto using forward_not_let, backward_not_let; done.
Qed.

(** ** Let *)
Section lets.
Context (h : nat -> option ptree) (NP : text -> Prop).
Definition nice (a : text) : Prop := ~ let_name a /\ NP a.
Context (NPc : NP s_explanation /\ NP s_forward /\ NP s_backward) (NPb : forall k, NP (bound_name k)).
Inductive good : ptree -> Prop :=
| good_node a c l n b f kids : h a = Some (PT a c l n b f kids) -> length (nch n) = length kids -> nice (disp (nop n)) ->
    rule_uses (fun r => nice (rname r)) b -> rule_uses (fun r => nice (rname r)) f -> Forall (fun p => p <> [] /\ Forall good p) kids -> good (PT a c l n b f kids).
Lemma good_intro t : stored h t -> well_formed (unshare t) -> uses (fun f _ => nice (disp f)) (fun r => nice (rname r)) (unshare t) -> good t.
Proof.
  induction t as [a c l n b f kids IH] using ptree_sind. intros Hs Hw Hu. inversion Hs as [? ? ? ? ? ? ? Ha Hk]; subst. cbn in Hw, Hu.
  inversion Hw as [? ? ? ? Hl Hk']; subst. inversion Hu as [? ? ? ? Hd Hb Hf Hk'']; subst. rewrite map_length in Hl. constructor; try done.
  clear Hs Hw Hu Ha Hl. induction kids as [|p kids IHk]; [constructor|]. cbn in *. apply Forall_cons in IH as [IHp IHks]. apply Forall_cons in Hk as [Hp Hk].
  apply Forall_cons in Hk' as [[Hne Hp'] Hk']. apply Forall_cons in Hk'' as [Hp'' Hk'']. constructor; [|by apply IHk].
  split; [intros ->; by apply Hne|]. rewrite Forall_map in Hp'. rewrite Forall_map in Hp''. rewrite Forall_forall in *. intros t Ht. apply IHp; auto.
Qed.
(** the bindings made so far *)
Definition bound (bs : gmap nat sexp) (defs : list (text * sexp)) : Prop :=
  numbered defs /\ Forall (fun '(_, d) => sexp_ok NP d) defs /\
  forall a s, bs !! a = Some s -> exists k e t, s = SStr (bound_name k) /\ defs !! k = Some (bound_name k, e) /\ h a = Some t /\ expand (take k defs) e = tt_sexp (unshare t).
Lemma annotate_ok b f e : rule_uses (fun r => nice (rname r)) b -> rule_uses (fun r => nice (rname r)) f -> sexp_ok NP e -> sexp_ok NP (annotate b f e).
Proof.
  intros Hb Hf He. destruct NPc as (_ & Hfw & Hbw). unfold PrintModel.annotate.
  assert (Hr : forall a r e, NP a -> NP (rname r) -> sexp_ok NP e -> sexp_ok NP (SList [SStr a; SStr (rname r); e])).
  { intros a r e' ? ? ?. constructor; [done|]. by repeat constructor. }
  destruct b as [b|], f as [f|]; cbn [rule_uses] in *; unfold nice in *; naive_solver.
Qed.
Lemma look_expand bs defs rec t : bound bs defs -> h (paddr t) = Some t ->
  (exists s, rec t = Ok s /\ sexp_ok NP s /\ expand defs s = tt_sexp (unshare t)) -> exists s, look bs rec t = Ok s /\ sexp_ok NP s /\ expand defs s = tt_sexp (unshare t).
Proof.
  intros (Hn & Ho & Hb) Ha Hr. unfold look. destruct (bs !! paddr t) as [s|] eqn:Es; [|done]. destruct (Hb _ _ Es) as (k & e & u & -> & Hk & Hu & He).
  assert (u = t) as -> by congruence. exists (SStr (bound_name k)). split; [done|]. split; [by constructor|]. by rewrite (expand_bound _ _ e).
Qed.
Lemma good_stored t : good t -> h (paddr t) = Some t.
Proof. by inversion 1. Qed.
Lemma each_expand defs rec p : Forall (fun t => exists s, rec t = Ok s /\ sexp_ok NP s /\ expand defs s = tt_sexp (unshare t)) p ->
  exists ss, each rec p = Ok ss /\ Forall (sexp_ok NP) ss /\ map (expand defs) ss = map tt_sexp (map unshare p).
Proof.
  induction 1 as [|t p (s & E & Ho & Es) _ (ss & Ess & Hos & IH)]; [exists []; split; [done|]; split; [constructor|done]|].
  exists (s :: ss). cbn. rewrite E. cbn. rewrite Ess. cbn. split; [done|]. split; [by constructor|]. by rewrite Es, IH.
Qed.
Lemma sexp_expand bs defs t : bound bs defs -> good t -> exists s, pt_sexp disp rname bs t = Ok s /\ sexp_ok NP s /\ expand defs s = tt_sexp (unshare t).
Proof.
  intros Hb. induction t as [a c l n b f kids IH] using ptree_sind. intros Hg. inversion Hg as [? ? ? ? ? ? ? Ha Hl [Hd Hdp] Hbr Hfr Hk]; subst.
  cbn [pt_sexp unshare]. rewrite tt_sexp_node.
  assert (HK : exists e, (match nch n with
      | [] => Ok (SStr (disp (nop n)))
      | _ => ks ← each (fun p => match p with [] => Panic | [t] => look bs (pt_sexp disp rname bs) t | _ => es ← each (look bs (pt_sexp disp rname bs)) p; Ok (SList (SStr s_explanation :: es)) end) kids;
        Ok (SList (SStr (disp (nop n)) :: ks))
      end) = Ok e /\ sexp_ok NP e /\ expand defs e = match nch n with [] => SStr (disp (nop n)) | _ => SList (SStr (disp (nop n)) :: map kid_sexp (map (map unshare) kids)) end).
  { destruct (nch n) as [|c0 cs] eqn:En.
    - eexists. split; [done|]. split; [by constructor|]. apply expand_plain; [apply Hb|done].
    - assert (HKs : exists ks, each (fun p => match p with [] => Panic | [t] => look bs (pt_sexp disp rname bs) t | _ => es ← each (look bs (pt_sexp disp rname bs)) p; Ok (SList (SStr s_explanation :: es)) end) kids = Ok ks /\
        Forall (sexp_ok NP) ks /\ map (expand defs) ks = map kid_sexp (map (map unshare) kids)).
      { clear Hg Ha Hl. induction Hk as [|p kids [Hne Hp] _ IHk]; [exists []; split; [done|]; split; [constructor|done]|]. apply Forall_cons in IH as [IHp IHks].
        destruct (IHk IHks) as (ks & Eks & Hoks & Hks). clear IHk IHks. cbn [each].
        assert (Hall : Forall (fun t => exists s, look bs (pt_sexp disp rname bs) t = Ok s /\ sexp_ok NP s /\ expand defs s = tt_sexp (unshare t)) p).
        { rewrite Forall_forall in *. intros t Ht. apply look_expand; [done|by apply good_stored, Hp|]. apply IHp; [done|by apply Hp]. }
        assert (Hh : exists s, (match p with [] => Panic | [t] => look bs (pt_sexp disp rname bs) t | _ => es ← each (look bs (pt_sexp disp rname bs)) p; Ok (SList (SStr s_explanation :: es)) end) = Ok s /\
          sexp_ok NP s /\ expand defs s = kid_sexp (map unshare p)).
        { destruct p as [|t [|t' p]]; [done|by inversion Hall|].
          destruct (each_expand defs _ _ Hall) as (ss & -> & Hos & Ess). cbn [mbind res_bind]. eexists. split; [done|]. split.
          - constructor; [done|]. constructor; [constructor; apply NPc|done].
          - rewrite expand_list. cbn [map]. rewrite expand_plain by (apply Hb || apply explanation_not_let). rewrite Ess. done. }
        destruct Hh as (s & -> & Hos & Es). cbn [mbind res_bind]. exists (s :: ks). fold (each (fun p => match p with [] => Panic | [t] => look bs (pt_sexp disp rname bs) t | _ => es ← each (look bs (pt_sexp disp rname bs)) p; Ok (SList (SStr s_explanation :: es)) end)).
        rewrite Eks. split; [done|]. split; [by constructor|]. cbn [map]. by rewrite Es, Hks. }
      destruct HKs as (ks & -> & Hoks & Hks). cbn [mbind res_bind]. eexists. split; [done|]. split; [constructor; [done|]; constructor; [by constructor|done]|].
      rewrite expand_list. cbn [map]. rewrite expand_plain by (apply Hb || done). by rewrite Hks. }
  destruct HK as (e & -> & Hoe & He). cbn [mbind res_bind]. eexists. split; [done|]. split; [by apply annotate_ok|].
  rewrite expand_annotate, He; [done|apply Hb|destruct b; [apply Hbr|done]|destruct f; [apply Hfr|done]].
Qed.
Lemma bound_empty : bound ∅ [].
Proof. split; [done|]. split; [constructor|]. intros a s. by rewrite lookup_empty. Qed.
Lemma sexp_plain t : good t -> pt_sexp disp rname ∅ t = Ok (tt_sexp (unshare t)) /\ sexp_ok NP (tt_sexp (unshare t)).
Proof. intros Hg. destruct (sexp_expand ∅ [] t bound_empty Hg) as (s & -> & Ho & E). cbn in E. by subst. Qed.
Lemma bindings_ok ts : forall bs defs, Forall good ts -> bound bs defs -> exists bs' defs', make_bindings disp rname ts (bs, defs) = Ok (bs', defs') /\ bound bs' defs'.
Proof.
  induction ts as [|t ts IH]; intros bs defs Hg Hb; [by exists bs, defs|]. apply Forall_cons in Hg as [Ht Hg]. cbn [make_bindings fst snd].
  destruct (bs !! paddr t) as [s|] eqn:Es; [by apply IH|]. destruct (sexp_expand bs defs t Hb Ht) as (e & -> & Hoe & Ee). cbn [mbind res_bind]. apply IH; [done|].
  destruct Hb as (Hn & Ho & Hb). assert (Hat : (defs ++ [(bound_name (length defs), e)]) !! length defs = Some (bound_name (length defs), e)) by (by rewrite lookup_app_r, Nat.sub_diag).
  split; [|split].
  - intros k v d Hk. destruct (decide (k < length defs)) as [Hlt|Hge].
    + rewrite lookup_app_l in Hk by done. by eapply Hn.
    + pose proof (lookup_lt_Some _ _ _ Hk) as Hlt. rewrite app_length in Hlt. cbn in Hlt. assert (k = length defs) as -> by lia. rewrite Hat in Hk. by injection Hk.
  - apply Forall_app. split; [done|]. by repeat constructor.
  - intros a s. destruct (decide (a = paddr t)) as [->|Hne].
    + rewrite lookup_insert. intros [= <-]. exists (length defs), e, t. split; [done|]. split; [done|]. split; [by apply good_stored|]. by rewrite take_app.
    + rewrite lookup_insert_ne by done. intros Hs. destruct (Hb _ _ Hs) as (k & e' & u & -> & Hk & Hu & He). pose proof (lookup_lt_Some _ _ _ Hk). exists k, e', u.
      split; [done|]. split; [by rewrite lookup_app_l|]. split; [done|]. by rewrite take_app_le by lia.
Qed.
Lemma find_good t : forall st, good t -> Forall good st.2 -> Forall good (find_to_let_bind t st).2.
Proof.
  induction t as [a c l n b f kids IH] using ptree_sind. intros st Hg Hs. cbn [find_to_let_bind]. destruct kids as [|p0 kids0]; [done|]. remember (p0 :: kids0) as kids eqn:Ek. clear Ek.
  case_bool_decide; cbn [snd]; [apply Forall_app; split; [done|by constructor]|]. inversion Hg as [? ? ? ? ? ? ? _ _ _ _ _ Hk]; subst. clear Hg H.
  assert (Hs' : Forall good (({[a]} ∪ st.1 : gset nat), st.2).2) by done. revert Hs'. generalize (({[a]} ∪ st.1 : gset nat), st.2) as s0. clear Hs st.
  induction Hk as [|p kids [_ Hp] _ IHk]; intros s0 Hs; [done|]. apply Forall_cons in IH as [IHp IHks]. cbn [foldl]. apply IHk; [done|]. clear IHk IHks.
  revert s0 Hs. induction Hp as [|t p Ht _ IHt]; intros s0 Hs; [done|]. apply Forall_cons in IHp as [IH1 IH2]. cbn [foldl]. apply IHt; [done|]. by apply IH1.
Qed.
Lemma find_all_good p : forall st, Forall good p -> Forall good st.2 -> Forall good (foldl (fun st t => find_to_let_bind t st) st p).2.
Proof. induction p as [|t p IH]; intros st Hg Hs; [done|]. apply Forall_cons in Hg as [Ht Hg]. cbn [foldl]. apply IH; [done|]. by apply find_good. Qed.
Definition lets (defs : list (text * sexp)) (body : sexp) : sexp := foldr (fun '(name, e) r => SList [SStr s_let; SList [SStr name; e]; r]) body defs.
Lemma unlet_lets defs items : unlet (lets defs (SList (SStr s_explanation :: items))) = expand defs (SList (SStr s_explanation :: items)).
Proof.
  induction defs as [|[v d] defs IH].
  - cbn [lets expand foldr unlet]. destruct items as [|i1 [|i2 [|? ?]]]; try done; destruct i1 as [| [|[] [|? [|? ?]]]|]; try done.
  - cbn [lets expand foldr unlet]. rewrite bool_decide_eq_true_2 by done. fold (lets defs (SList (SStr s_explanation :: items))). by rewrite IH.
Qed.
Lemma lets_ok defs body : NP s_let -> numbered defs -> Forall (fun '(_, d) => sexp_ok NP d) defs -> sexp_ok NP body -> sexp_ok NP (lets defs body).
Proof.
  intros Hl Hn Ho Hb. assert (Hv : Forall (fun '(v, d) => NP v /\ sexp_ok NP d) defs).
  { rewrite Forall_forall in *. intros [v d] Hin. pose proof (Ho _ Hin). apply elem_of_list_lookup in Hin as [k Hk]. rewrite (Hn _ _ _ Hk). auto. }
  clear Hn Ho. induction Hv as [|[v d] defs [Hv Hd] _ IH]; [done|]. cbn. repeat (constructor || done).
Qed.
Lemma let_expands p : Forall good p -> exists s s0, get_sexp_with_let disp rname p = Ok s /\ get_sexp disp rname p = Ok s0 /\ unlet s = s0 /\
  s0 = SList (SStr s_explanation :: map tt_sexp (map unshare p)) /\ sexp_ok NP s0 /\ (NP s_let -> sexp_ok NP s).
Proof.
  intros Hg. unfold get_sexp_with_let, get_sexp. pose proof (find_all_good p (∅, []) Hg (List.Forall_nil _)) as Hf.
  destruct (bindings_ok _ ∅ [] Hf bound_empty) as (bs & defs & -> & Hb). cbn [mbind res_bind].
  assert (Hi : Forall (fun t => exists s, look bs (pt_sexp disp rname bs) t = Ok s /\ sexp_ok NP s /\ expand defs s = tt_sexp (unshare t)) p).
  { rewrite Forall_forall in *. intros t Ht. apply look_expand; [done|by apply good_stored, Hg|]. apply sexp_expand; [done|by apply Hg]. }
  destruct (each_expand defs _ p Hi) as (items & -> & Hoi & Ei). cbn [mbind res_bind].
  assert (Hp : each (pt_sexp disp rname ∅) p = Ok (map tt_sexp (map unshare p)) /\ Forall (sexp_ok NP) (map tt_sexp (map unshare p))).
  { clear -Hg NPb NPc. induction Hg as [|t p Ht _ [IH1 IH2]]; [split; [done|constructor]|]. destruct (sexp_plain t Ht) as [E Ho]. cbn [each map]. rewrite E. cbn [mbind res_bind].
    fold (each (pt_sexp disp rname ∅)). rewrite IH1. split; [done|]. by constructor. }
  destruct Hp as [-> Hop]. cbn [mbind res_bind]. fold (lets defs (SList (SStr s_explanation :: items))).
  exists (lets defs (SList (SStr s_explanation :: items))), (SList (SStr s_explanation :: map tt_sexp (map unshare p))). split; [done|]. split; [done|]. split; [|split; [done|split]].
  - rewrite unlet_lets, expand_list. cbn [map]. rewrite expand_plain by (apply Hb || apply explanation_not_let). by rewrite Ei.
  - constructor; [done|]. constructor; [constructor; apply NPc|done].
  - intros Hl. apply lets_ok; [done|apply Hb|apply Hb|]. constructor; [done|]. constructor; [constructor; apply NPc|done].
Qed.
End lets.
End names.
End proofs.
