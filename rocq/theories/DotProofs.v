(** The GraphViz output can be read, and draws the e-graph. *)
From Coq Require Import NArith Ascii String.
From Verif Require Import Base UnionFind EGraphModel EGraphSteps EGraphInv EGraphPres Spec EGraphMain EGraphReach EGraphSafe ExtractModel ExtractSpec ExtractMain
  EGraphRuns EGraphOps EGraphNoPanic TextModel TextSpec PrintModel PrintProofs DotModel DotSpec.

(** * Characters *)
Lemma strip_app p s : strip p (p ++ s) = Some s.
Proof. induction p as [|c p IH]; [done|]. cbn. by rewrite N.eqb_refl. Qed.
Lemma lit_app p s : lit p (ascii_text p ++ s) = Some s.
Proof. apply strip_app. Qed.
Lemma digit_is c : digit c -> is_digit c = true.
Proof. unfold digit, is_digit. intros [H1 H2]. apply andb_true_intro. split; by apply N.leb_le. Qed.
Lemma dec_spec n : exists ds, dec n = ds /\ ds <> [] /\ Forall digit ds /\ value ds = N.of_nat n.
Proof.
  unfold dec. destruct (digits_value (S n) (N.of_nat n) [] (pow_gt n)) as (ds & E & Hd & Hv & Hne). rewrite app_nil_r in E. exists ds. rewrite E. auto.
Qed.
Lemma digits_of_app ds r : Forall digit ds -> starts_digit r = false -> digits_of (ds ++ r) = (ds, r).
Proof.
  intros Hd Hr. induction Hd as [|c ds Hc Hd IH]; cbn [app digits_of].
  - destruct r as [|c r]; [done|]. cbn in Hr |- *. by rewrite Hr.
  - by rewrite (digit_is c Hc), IH.
Qed.
Lemma number_app n r : starts_digit r = false -> number (dec n ++ r) = Some (n, r).
Proof.
  intros Hr. destruct (dec_spec n) as (ds & -> & Hne & Hd & Hv). unfold number. rewrite (digits_of_app ds r Hd Hr). destruct ds as [|c ds]; [done|].
  unfold value in Hv. rewrite Hv. by rewrite Nat2N.id.
Qed.
Lemma dec_starts n r : starts_digit (dec n ++ r) = true.
Proof. destruct (dec_spec n) as (ds & -> & Hne & Hd & _). destruct Hd; [done|]. by apply digit_is. Qed.
Lemma dec_nl n : c_nl ∉ dec n.
Proof.
  destruct (dec_spec n) as (ds & -> & _ & Hd & _). intros Hin. pose proof (proj1 (Forall_forall _ _) Hd _ Hin) as Hx. unfold digit, c_nl in Hx. lia.
Qed.
Lemma name_app k i r : starts_digit r = false -> name (dec k ++ ascii_text "." ++ dec i ++ r) = Some ((k, i), r).
Proof.
  intros Hr. unfold name. rewrite (number_app k) by done. cbn [mbind option_bind]. rewrite lit_app. cbn [mbind option_bind]. rewrite (number_app i) by done. done.
Qed.
Lemma quoted_app s r : c_quote ∉ s -> 92%N ∉ s -> quoted (s ++ c_quote :: r) = Some (s, r).
Proof.
  intros Hq Hb. induction s as [|c s IH]; [done|]. apply not_elem_of_cons in Hq as [Hc Hq]. apply not_elem_of_cons in Hb as [Hc' Hb]. cbn [app quoted].
  rewrite (proj2 (N.eqb_neq c c_quote)) by done. rewrite (proj2 (N.eqb_neq c 92)) by done. rewrite IH by done. done.
Qed.

(** * Lines *)
Definition quiet_text (l : text) : Prop := c_nl ∉ l.
Lemma lines_one l : quiet_text l -> lines l = [l].
Proof.
  induction l as [|c l IH]; intros Hl; [done|]. apply not_elem_of_cons in Hl as [Hc Hl]. cbn. rewrite (proj2 (N.eqb_neq c c_nl)) by done. by rewrite IH.
Qed.
Lemma lines_cons l s : quiet_text l -> lines (l ++ [c_nl] ++ s) = l :: lines s.
Proof.
  induction l as [|c l IH]; intros Hl; [done|]. apply not_elem_of_cons in Hl as [Hc Hl]. cbn. rewrite (proj2 (N.eqb_neq c c_nl)) by done.
  change (c_nl :: s) with ([c_nl] ++ s). by rewrite IH.
Qed.
Lemma lines_join ls e : Forall quiet_text ls -> quiet_text e -> lines (mjoin ((fun l => l ++ [c_nl]) <$> ls) ++ e) = ls ++ [e].
Proof.
  intros Hl He. induction Hl as [|l ls Hl _ IH]; [by apply lines_one|]. rewrite fmap_cons. cbn [mjoin list_join]. rewrite <- !app_assoc.
  rewrite lines_cons by done. cbn. f_equal. exact IH.
Qed.
Ltac litnl := let H := fresh in intros H; vm_compute in H; repeat (apply elem_of_cons in H as [H|H]; [discriminate H|]); by apply elem_of_nil in H.
Ltac nl := unfold quiet_text; rewrite ?not_elem_of_app; repeat split; first [apply dec_nl|assumption|litnl|idtac].

Ltac differs := let E := fresh in intros E; cbn in E; discriminate E.
Ltac skip_line := rewrite decide_False by differs.

Lemma read_cluster k : read_line (ascii_text "  subgraph cluster_" ++ dec k ++ ascii_text " {") = Some (SCluster k).
Proof.
  unfold read_line. do 3 skip_line. rewrite lit_app. rewrite number_app by done. cbn [mbind option_bind]. by rewrite decide_True.
Qed.
Lemma read_decl_ok k i s : plain_label s ->
  read_line (ascii_text "    " ++ dec k ++ ascii_text "." ++ dec i ++ ascii_text "[label = """ ++ s ++ ascii_text """]") = Some (SDecl (k, i) s).
Proof.
  intros (Hq & _ & Hb). unfold read_line. do 3 skip_line.
  assert (E : forall X, lit "  subgraph cluster_" (ascii_text "    " ++ X) = None) by (intros X; reflexivity). rewrite E.
  rewrite lit_app, dec_starts. unfold read_decl. rewrite name_app by done. cbn [mbind option_bind]. rewrite lit_app. cbn [mbind option_bind].
  change (ascii_text """]") with (c_quote :: ascii_text "]"). rewrite quoted_app by done. cbn [mbind option_bind]. by rewrite decide_True.
Qed.
(** the anchor and the label of [edge], as read *)
Definition port_text (p : option text) : text := match p with Some w => ascii_text ":" ++ w | None => [] end.
Definition label_text (l : option nat) : text := match l with Some k => ascii_text "label=" ++ dec k | None => [] end.
Lemma word_app w r : c_space ∉ w -> word (w ++ c_space :: r) = (w, c_space :: r).
Proof.
  induction w as [|c w IH]; intros Hw; [done|]. apply not_elem_of_cons in Hw as [Hc Hw]. cbn [app word]. rewrite (proj2 (N.eqb_neq c c_space)) by done. by rewrite IH.
Qed.
Lemma port_app p r : (forall w, p = Some w -> c_space ∉ w) -> port (port_text p ++ c_space :: r) = (p, c_space :: r).
Proof.
  intros Hp. unfold port. destruct p as [w|]; cbn [port_text].
  - rewrite <- app_assoc, lit_app, word_app by (by apply Hp). done.
  - reflexivity.
Qed.
Lemma attr_app l : read_attr (label_text l ++ ascii_text "]") = Some l.
Proof.
  unfold read_attr. destruct l as [k|]; cbn [label_text].
  - rewrite <- app_assoc. rewrite decide_False by differs. rewrite lit_app. cbn [mbind option_bind]. rewrite number_app by done. cbn [mbind option_bind]. by rewrite decide_True.
  - by rewrite decide_True.
Qed.
Lemma port_starts p r : starts_digit (port_text p ++ c_space :: r) = false.
Proof. by destruct p. Qed.
Lemma read_edge_ok e : (forall w, e_port e = Some w -> c_space ∉ w) -> (forall w, e_hport e = Some w -> c_space ∉ w) ->
  read_line (ascii_text "  " ++ dec (e_from e).1 ++ ascii_text "." ++ dec (e_from e).2 ++ port_text (e_port e) ++ ascii_text " -> " ++
    dec (e_to e).1 ++ ascii_text "." ++ dec (e_to e).2 ++ port_text (e_hport e) ++ ascii_text " [lhead = cluster_" ++ dec (e_lhead e) ++ ascii_text ", " ++
    label_text (e_label e) ++ ascii_text "]") = Some (SEdge e).
Proof.
  intros Hp Hp'. destruct e as [[k i] p [k' i'] p' h l]. cbn [e_from e_to e_port e_hport e_lhead e_label fst snd] in *. unfold read_line.
  assert (Hd : forall X c, is_digit c = false -> dec k ++ X <> c :: X -> True) by done. clear Hd.
  assert (Hx : forall X, starts_digit (dec k ++ X) = true) by (intros X; apply dec_starts).
  set (X := ascii_text "." ++ dec i ++ _). specialize (Hx X). destruct (dec k ++ X) as [|c Y] eqn:E; [done|]. cbn in Hx.
  assert (Hc : forall d, is_digit d = false -> (d =? c)%N = false) by (intros d Hd; apply N.eqb_neq; intros <-; congruence).
  rewrite decide_False by differs. rewrite decide_False by differs.
  rewrite decide_False by (intros F; cbn in F; injection F as -> _; discriminate Hx).
  assert (F1 : lit "  subgraph cluster_" (ascii_text "  " ++ c :: Y) = None) by (cbn; by rewrite Hc). rewrite F1.
  assert (F2 : lit "    " (ascii_text "  " ++ c :: Y) = None) by (cbn; by rewrite Hc). rewrite F2.
  rewrite lit_app. cbn [starts_digit]. rewrite Hx. rewrite <- E. subst X. clear E F1 F2 Hc.
  unfold read_edge. change (ascii_text " -> ") with (c_space :: ascii_text "-> "). change (ascii_text " [lhead = cluster_") with (c_space :: ascii_text "[lhead = cluster_").
  cbn [app]. rewrite name_app by apply port_starts. cbn [mbind option_bind]. rewrite port_app by done.
  change (c_space :: ascii_text "-> " ++ ?Z) with (ascii_text " -> " ++ Z). rewrite lit_app. cbn [mbind option_bind].
  rewrite name_app by apply port_starts. cbn [mbind option_bind]. rewrite port_app by done.
  change (c_space :: ascii_text "[lhead = cluster_" ++ ?Z) with (ascii_text " [lhead = cluster_" ++ Z). rewrite lit_app. cbn [mbind option_bind].
  rewrite number_app by done. cbn [mbind option_bind]. rewrite lit_app. cbn [mbind option_bind]. rewrite attr_app. done.
Qed.

(** * Statements *)
Definition out_of (l : text) (s : stmt) : Prop := quiet_text l /\ read_line l = Some s.
Lemma read_all ls ss : Forall2 out_of ls ss -> mapM read_line ls = Some ss.
Proof. intros Hf. induction Hf as [|l s ls ss [_ Hl] _ IH]; [done|]. cbn. rewrite Hl. cbn. by rewrite IH. Qed.
Lemma all_quiet ls ss : Forall2 out_of ls ss -> Forall quiet_text ls.
Proof. intros Hf. induction Hf as [|l s ls ss [Hq _] _ IH]; by constructor. Qed.
Lemma read_written ls ss : Forall2 out_of ls ss ->
  read_dot (mjoin ((fun l => l ++ [c_nl]) <$> ls) ++ ascii_text "}") = match ss ++ [SEnd] with SBegin :: ss => assemble ss None | _ => None end.
Proof.
  intros Hf. unfold read_dot. rewrite lines_join; [|by eapply all_quiet|nl].
  assert (Hg : Forall2 out_of (ls ++ [ascii_text "}"]) (ss ++ [SEnd])).
  { apply Forall2_app; [done|]. constructor; [|constructor]. split; [nl|done]. }
  rewrite (read_all _ _ Hg). done.
Qed.
Lemma each_ok {X Y} (f : X -> res Y) h l : (forall x, x ∈ l -> f x = Ok (h x)) -> each f l = Ok (h <$> l).
Proof.
  induction l as [|x l IH]; intros Hf; [done|]. cbn [each]. rewrite (Hf x) by left. cbn. rewrite IH by (intros y Hy; apply Hf; by right). done.
Qed.
Lemma Forall2_join {X Y} (P : X -> Y -> Prop) ls ks : Forall2 (Forall2 P) ls ks -> Forall2 P (mjoin ls) (mjoin ks).
Proof. intros Hf. induction Hf as [|l k ls ks Hl _ IH]; [constructor|]. cbn. by apply Forall2_app. Qed.
Lemma fmap_out {X} (f : X -> text) (h : X -> stmt) l : (forall x, x ∈ l -> out_of (f x) (h x)) -> Forall2 out_of (f <$> l) (h <$> l).
Proof. intros Hf. induction l as [|x l IH]; [constructor|]. constructor; [apply Hf; left|]. apply IH. intros y Hy. apply Hf. by right. Qed.
Lemma assemble_others {X} (l : list X) ss cur : assemble (((fun _ => SOther) <$> l) ++ ss) cur = assemble ss cur.
Proof. induction l as [|x l IH]; [done|]. cbn. by destruct cur. Qed.
Lemma assemble_edges es ss g : assemble ss None = Some g -> assemble ((SEdge <$> es) ++ ss) None = Some (DGraph (g_clusters g) (g_decls g) (es ++ g_edges g)).
Proof.
  intros E. induction es as [|e es IH]; cbn [fmap list_fmap app]; [rewrite E; by destruct g|]. cbn [assemble]. change (list_fmap _ _ SEdge es) with (SEdge <$> es). rewrite IH. done.
Qed.
Lemma assemble_decls k (ds : list (nat * nat * text)) ss g : assemble ss (Some k) = Some g ->
  assemble (((fun d => SDecl d.1 d.2) <$> ds) ++ ss) (Some k) = Some (DGraph (g_clusters g) (((fun d => (k, d.1, d.2)) <$> ds) ++ g_decls g) (g_edges g)).
Proof.
  intros E. induction ds as [|d ds IH]; [cbn; rewrite E; by destruct g|]. rewrite !fmap_cons. cbn [app assemble]. rewrite IH. done.
Qed.
Lemma fmap_mjoin {X Y} (f : X -> Y) (ls : list (list X)) : f <$> mjoin ls = mjoin ((fun l => f <$> l) <$> ls).
Proof. induction ls as [|l ls IH]; [done|].
  change (f <$> (l ++ mjoin ls) = (f <$> l) ++ mjoin ((fun l => f <$> l) <$> ls)). by rewrite fmap_app, IH. Qed.
Lemma elem_of_enum {X} (l : list X) i x : (i, x) ∈ enum l <-> l !! i = Some x.
Proof.
  unfold enum. rewrite elem_of_lookup_imap. split; [by intros (j & y & [= -> ->] & Hl)|]. intros Hl. by exists i, x.
Qed.

Section proofs.
Context {Op D : Type} `{Countable Op} (disp : Op -> text) (Hdisp : forall f, plain_label (disp f)).
Notation egraph := (egraph Op D).
Notation eclass := (eclass Op D).
Implicit Types (g : egraph) (c : eclass).

Definition hport (b : bool) : option text := if b then Some (ascii_text "n") else None.
Definition the_edge anchors g c (i : nat) (n : node Op) (a child : nat) : dedge :=
  let num := negb (anchors && (length (nch n) <=? 3)) in
  let self := eg_find g child =? c_id c in
  DEdge (c_id c, i) (if num then None else compass (length (nch n)) a)
    (if self then (c_id c, i) else (child, 0)) (hport self) (eg_find g child) (if num then Some a else None).
Definition the_edges anchors g c : list dedge :=
  mjoin ((fun '(i, n) => (fun '(a, child) => the_edge anchors g c i n a child) <$> enum (nch n)) <$> enum (c_nodes c)).
Definition the_decls c : list (nat * nat * text) := (fun '(i, n) => ((c_id c, i), disp (nop n))) <$> enum (c_nodes c).
Definition the_graph anchors g (cs : list eclass) : dgraph :=
  DGraph (c_id <$> cs) (mjoin ((fun c => (fun d => (c_id c, d.1, d.2)) <$> the_decls c) <$> cs)) (mjoin (the_edges anchors g <$> cs)).
Definition class_stmts c : list stmt := SCluster (c_id c) :: SOther :: ((fun d => SDecl d.1 d.2) <$> the_decls c) ++ [SClose].

Lemma edge_ok anchors a len : a < len ->
  edge anchors a len = Ok (port_text (if negb (anchors && (len <=? 3)) then None else compass len a), label_text (if negb (anchors && (len <=? 3)) then Some a else None)).
Proof.
  intros Ha. unfold edge. rewrite (proj2 (Nat.ltb_lt _ _) Ha). destruct anchors; [|done]. cbn [negb andb].
  destruct len as [|[|[|[|len]]]]; [lia| | | |]; cbn [Nat.leb negb].
  - assert (a = 0) as -> by lia. done.
  - destruct a as [|[|a]]; [done|done|lia].
  - destruct a as [|[|[|a]]]; [done|done|done|lia].
  - done.
Qed.
Lemma compass_space len a w : compass len a = Some w -> c_space ∉ w /\ c_nl ∉ w.
Proof.
  intros E. assert (Hin : w = ascii_text "sw" \/ w = ascii_text "se" \/ w = ascii_text "s").
  { revert E. destruct len as [|[|[|[|len]]]]; destruct a as [|[|[|a]]]; cbn [compass]; intros [= <-]; auto. }
  destruct Hin as [->|[->| ->]]; split; litnl.
Qed.
Lemma edge_line_ok anchors g c i n a child : nch n !! a = Some child -> exists l,
  edge_line anchors g c i n a child = Ok l /\ out_of l (SEdge (the_edge anchors g c i n a child)).
Proof.
  intros Hch. pose proof (lookup_lt_Some _ _ _ Hch) as Ha. unfold edge_line. rewrite (edge_ok _ _ _ Ha). cbn [mbind res_bind].
  set (e := the_edge anchors g c i n a child).
  assert (Hp : forall w, e_port e = Some w -> c_space ∉ w /\ c_nl ∉ w).
  { intros w. unfold e, the_edge. cbn [e_port]. destruct (negb _); [done|]. apply compass_space. }
  assert (Hh : forall w, e_hport e = Some w -> c_space ∉ w /\ c_nl ∉ w).
  { intros w. unfold e, the_edge, hport. cbn [e_hport]. destruct (_ =? _); [|done]. intros [= <-]. split; litnl. }
  pose proof (read_edge_ok e (fun w Hw => proj1 (Hp w Hw)) (fun w Hw => proj1 (Hh w Hw))) as Hr.
  eexists. split; [reflexivity|].
  match goal with |- out_of ?l _ => assert (El : l = ascii_text "  " ++ dec (e_from e).1 ++ ascii_text "." ++ dec (e_from e).2 ++ port_text (e_port e) ++ ascii_text " -> " ++
    dec (e_to e).1 ++ ascii_text "." ++ dec (e_to e).2 ++ port_text (e_hport e) ++ ascii_text " [lhead = cluster_" ++ dec (e_lhead e) ++ ascii_text ", " ++
    label_text (e_label e) ++ ascii_text "]") end.
  { unfold e, the_edge. cbn [e_from e_to e_port e_hport e_lhead e_label]. destruct (eg_find g child =? c_id c) eqn:Es; cbn [fst snd hport port_text].
    - apply Nat.eqb_eq in Es. rewrite Es. reflexivity.
    - reflexivity. }
  rewrite El. split; [|exact Hr]. unfold quiet_text. rewrite !not_elem_of_app.
  assert (Hpt : c_nl ∉ port_text (e_port e)).
  { destruct (e_port e) as [w|] eqn:E; cbn [port_text]; [|apply not_elem_of_nil]. rewrite not_elem_of_app. split; [litnl|]. by apply (Hp w). }
  assert (Hht : c_nl ∉ port_text (e_hport e)).
  { destruct (e_hport e) as [w|] eqn:E; cbn [port_text]; [|apply not_elem_of_nil]. rewrite not_elem_of_app. split; [litnl|]. by apply (Hh w). }
  assert (Hlt : c_nl ∉ label_text (e_label e)).
  { destruct (e_label e) as [w|] eqn:E; cbn [label_text]; [|apply not_elem_of_nil]. rewrite not_elem_of_app. split; [litnl|]. apply dec_nl. }
  repeat split; first [apply dec_nl|assumption|litnl].
Qed.
Lemma class_out c : Forall2 out_of (class_lines disp c) (class_stmts c).
Proof.
  unfold class_lines, class_stmts. constructor; [split; [nl|apply read_cluster]|]. constructor; [split; [nl|done]|]. apply Forall2_app.
  - unfold the_decls. rewrite <- list_fmap_compose. apply fmap_out. intros [i n] _. cbn [compose fst snd]. destruct (Hdisp (nop n)) as (H1 & H2 & H3).
    split; [nl|]. by apply read_decl_ok.
  - constructor; [|constructor]. split; [nl|done].
Qed.
Lemma each_out {X} (f : X -> res text) (h : X -> stmt) l : (forall x, x ∈ l -> exists t, f x = Ok t /\ out_of t (h x)) ->
  exists ts, each f l = Ok ts /\ Forall2 out_of ts (h <$> l).
Proof.
  induction l as [|x l IH]; intros Hf; [exists []; split; [done|constructor]|]. destruct (Hf x) as (t & E & Ht); [left|].
  destruct IH as (ts & Es & Hts); [intros y Hy; apply Hf; by right|]. exists (t :: ts). cbn [each]. rewrite E. cbn [mbind res_bind]. rewrite Es. split; [done|]. by constructor.
Qed.
Lemma each_out2 {X} (f : X -> res (list text)) (h : X -> list stmt) l : (forall x, x ∈ l -> exists t, f x = Ok t /\ Forall2 out_of t (h x)) ->
  exists ts, each f l = Ok ts /\ Forall2 out_of (mjoin ts) (mjoin (h <$> l)).
Proof.
  induction l as [|x l IH]; intros Hf; [exists []; split; [done|constructor]|]. destruct (Hf x) as (t & E & Ht); [left|].
  destruct IH as (ts & Es & Hts); [intros y Hy; apply Hf; by right|]. exists (t :: ts). cbn [each]. rewrite E. cbn [mbind res_bind]. rewrite Es. split; [done|].
  rewrite fmap_cons. cbn [mjoin list_join]. by apply Forall2_app.
Qed.
Lemma class_edges_ok anchors g c : exists ls, class_edges anchors g c = Ok ls /\ Forall2 out_of ls (SEdge <$> the_edges anchors g c).
Proof.
  unfold class_edges.
  destruct (each_out2 (fun '(i, n) => each (fun '(a, child) => edge_line anchors g c i n a child) (enum (nch n)))
    (fun '(i, n) => SEdge <$> ((fun '(a, child) => the_edge anchors g c i n a child) <$> enum (nch n))) (enum (c_nodes c))) as (ts & E & Ht).
  - intros [i n] _. destruct (each_out (fun '(a, child) => edge_line anchors g c i n a child)
      (fun '(a, child) => SEdge (the_edge anchors g c i n a child)) (enum (nch n))) as (us & Eu & Hu).
    { intros [a child] Hin%elem_of_enum. by apply edge_line_ok. }
    exists us. split; [done|]. rewrite <- list_fmap_compose. erewrite list_fmap_ext; [exact Hu|]. by intros ? [??] _.
  - rewrite E. cbn [mbind res_bind]. eexists. split; [reflexivity|]. unfold the_edges. rewrite fmap_mjoin. rewrite <- list_fmap_compose.
    erewrite list_fmap_ext; [exact Ht|]. by intros ? [??] _.
Qed.
Lemma assemble_classes cs ss d : assemble ss None = Some d ->
  assemble (mjoin (class_stmts <$> cs) ++ ss) None =
    Some (DGraph ((c_id <$> cs) ++ g_clusters d) (mjoin ((fun c => (fun d => (c_id c, d.1, d.2)) <$> the_decls c) <$> cs) ++ g_decls d) (g_edges d)).
Proof.
  intros E. induction cs as [|c cs IH]; [cbn; rewrite E; by destruct d|]. rewrite !fmap_cons. cbn [mjoin list_join]. rewrite <- !app_assoc.
  unfold class_stmts at 1. cbn [app assemble]. rewrite <- app_assoc. cbn [app].
  erewrite (assemble_decls (c_id c) (the_decls c) _ (DGraph ((c_id <$> cs) ++ g_clusters d) _ (g_edges d))); [|cbn [assemble]; exact IH]. done.
Qed.
Lemma written config anchors g order : Forall quiet config ->
  exists s, dot_text disp config anchors g order = Ok s /\ read_dot s = Some (the_graph anchors g (in_order g order)).
Proof.
  intros Hc. unfold dot_text, dot_lines.
  destruct (each_out2 (class_edges anchors g) (fun c => SEdge <$> the_edges anchors g c) (in_order g order)) as (ts & E & Ht).
  { intros c _. apply class_edges_ok. }
  rewrite E. cbn [mbind res_bind]. eexists. split; [reflexivity|].
  erewrite (read_written _ (SBegin :: SOther :: SOther :: ((fun _ => SOther) <$> config) ++ mjoin (class_stmts <$> in_order g order) ++ mjoin ((fun c => SEdge <$> the_edges anchors g c) <$> in_order g order))).
  - cbn [app assemble]. rewrite <- !app_assoc. rewrite assemble_others.
    assert (Ej : mjoin ((fun c => SEdge <$> the_edges anchors g c) <$> in_order g order) = SEdge <$> mjoin (the_edges anchors g <$> in_order g order)).
    { rewrite fmap_mjoin, <- list_fmap_compose. done. }
    rewrite Ej. erewrite assemble_classes; [|by apply (assemble_edges _ [SEnd] (DGraph [] [] []))]. cbn [g_clusters g_decls g_edges]. by rewrite !app_nil_r.
  - constructor; [split; [nl|done]|]. constructor; [split; [nl|done]|]. constructor; [split; [nl|done]|]. apply Forall2_app; [|apply Forall2_app].
    + apply fmap_out. intros l Hl. destruct (proj1 (Forall_forall _ _) Hc l Hl) as [Hn Hq]. split; [nl|done].
    + apply Forall2_join. clear E Ht. induction (in_order g order) as [|c cs IH]; [constructor|]. constructor; [apply class_out|exact IH].
    + exact Ht.
Qed.

(** * The drawing *)
Section drawing.
Context (L : lang Op) (A : analysis Op D) (ex : bool) (anchors : bool) (g : egraph) (order : list nat) (R : reachable L A ex g) (Ho : traverses g order).
Notation cs := (in_order g order).
Notation d := (the_graph anchors g cs).
Lemma order_in c : c ∈ cs -> eg_classes g !! c_id c = Some c.
Proof. intros (r & Hr & Hc)%elem_of_list_omap. destruct (ik_class _ (good_ids g (reachable_good L A ex g R)) _ _ Hc) as (_ & E & _). by rewrite E. Qed.
Lemma order_id r c : eg_classes g !! r = Some c -> c_id c = r.
Proof. intros Hc. by destruct (ik_class _ (good_ids g (reachable_good L A ex g R)) _ _ Hc) as (_ & E & _). Qed.
Lemma in_cs r c : eg_classes g !! r = Some c -> c ∈ cs.
Proof. intros Hc. apply elem_of_list_omap. exists r. split; [|done]. apply Ho. eauto. Qed.
Lemma order_ids : c_id <$> cs = order.
Proof.
  assert (Hp : forall r, r ∈ order -> is_Some (eg_classes g !! r)) by (intros r; apply Ho). clear Ho. unfold in_order.
  induction order as [|r l IH]; [done|]. cbn [omap list_omap]. destruct (Hp r) as [c Hc]; [left|]. rewrite Hc. rewrite fmap_cons, (order_id _ _ Hc). f_equal.
  apply IH. intros r' Hr'. apply Hp. by right.
Qed.
Lemma names_class c : (fun d => (c_id c, d.1, d.2)) <$> the_decls c = (fun '(i, n) => (c_id c, (c_id c, i), disp (nop n))) <$> enum (c_nodes c).
Proof. unfold the_decls. rewrite <- list_fmap_compose. apply list_fmap_ext. by intros ? [??] _. Qed.
Lemma decl_in k nm l : (k, nm, l) ∈ g_decls d <-> exists c i n, eg_classes g !! k = Some c /\ c_nodes c !! i = Some n /\ nm = (k, i) /\ l = disp (nop n).
Proof.
  cbn [the_graph g_decls]. rewrite elem_of_list_join. split.
  - intros (ls & Hin & (c & -> & Hc)%elem_of_list_fmap). rewrite names_class in Hin. apply elem_of_list_fmap in Hin as ([i n] & [= -> -> ->] & Hn%elem_of_enum).
    exists c, i, n. split; [by apply order_in|done].
  - intros (c & i & n & Hc & Hn & -> & ->). pose proof (order_id _ _ Hc) as <-. eexists. split; [|apply elem_of_list_fmap; exists c; split; [reflexivity|by eapply in_cs]].
    rewrite names_class. apply elem_of_list_fmap. exists (i, n). split; [done|]. by apply elem_of_enum.
Qed.
Lemma names_eq : (g_decls d).*1.*2 = mjoin ((fun c => (fun p => (c_id c, p.1)) <$> enum (c_nodes c)) <$> cs).
Proof.
  cbn [the_graph g_decls]. rewrite fmap_mjoin, <- list_fmap_compose, fmap_mjoin, <- list_fmap_compose. f_equal. apply list_fmap_ext. intros _ c _.
  unfold compose. rewrite names_class, <- !list_fmap_compose. apply list_fmap_ext. by intros ? [??] _.
Qed.
Lemma names_nodup : NoDup (g_decls d).*1.*2.
Proof.
  rewrite names_eq.
  assert (Hn : NoDup (c_id <$> cs)) by (rewrite order_ids; apply Ho). revert Hn. generalize cs. intros l. induction l as [|c l IH]; intros Hn; [constructor|].
  rewrite fmap_cons in Hn. rewrite fmap_cons. apply NoDup_cons in Hn as [Hnc Hn].
  match goal with |- NoDup (mjoin (?x :: ?y)) => change (NoDup (x ++ mjoin y)) end. apply NoDup_app. split; [|split; [|by apply IH]].
  - unfold enum. rewrite fmap_imap. apply NoDup_alt. intros i j x Hi Hj. apply list_lookup_imap_Some in Hi as (n & _ & ->).
    apply list_lookup_imap_Some in Hj as (m & _ & E). unfold compose in E. cbn in E. by injection E.
  - intros nm Hin Hin'. apply elem_of_list_fmap in Hin as ([i n] & -> & _). cbn in Hin'.
    apply elem_of_list_join in Hin' as (ls & Hls & (c' & -> & Hc')%elem_of_list_fmap).
    apply elem_of_list_fmap in Hls as ([i' n'] & E & _). cbn in E. injection E as E _. apply Hnc. rewrite E.
    apply elem_of_list_fmap. by exists c'.
Qed.
Lemma filter_none {E} (P : E -> Prop) `{forall e, Decision (P e)} (l : list E) : (forall e, e ∈ l -> ~ P e) -> filter P l = [].
Proof.
  intros Hn. induction l as [|e l IH]; [done|]. rewrite filter_cons_False by (apply Hn; left). apply IH. intros e' He. apply Hn. by right.
Qed.
Lemma filter_all {E} (P : E -> Prop) `{forall e, Decision (P e)} (l : list E) : (forall e, e ∈ l -> P e) -> filter P l = l.
Proof.
  intros Hn. induction l as [|e l IH]; [done|]. rewrite filter_cons_True by (apply Hn; left). f_equal. apply IH. intros e' He. apply Hn. by right.
Qed.
Lemma filter_one {X E} (P : E -> Prop) `{forall e, Decision (P e)} (f : X -> list E) (l : list X) : forall j x, l !! j = Some x ->
  (forall j' y e, l !! j' = Some y -> j' <> j -> e ∈ f y -> ~ P e) -> filter P (mjoin (f <$> l)) = filter P (f x).
Proof.
  induction l as [|y l IH]; intros j x Hj Hn; [done|]. change (mjoin (f <$> y :: l)) with (f y ++ mjoin (f <$> l)). rewrite filter_app.
  destruct j as [|j].
  - cbn in Hj. injection Hj as ->. rewrite (filter_none P (mjoin (f <$> l))); [by rewrite app_nil_r|].
    intros e (ls & He & (z & -> & Hz)%elem_of_list_fmap)%elem_of_list_join. apply elem_of_list_lookup in Hz as (j' & Hz). by apply (Hn (S j') z e).
  - rewrite (filter_none P (f y)); [|intros e He; by apply (Hn 0 y e)]. cbn [app]. apply (IH j); [done|]. intros j' z e Hz Hne. apply (Hn (S j') z e); [done|congruence].
Qed.
Lemma node_edges c i n : c ∈ cs -> c_nodes c !! i = Some n ->
  filter (fun e => e_from e = (c_id c, i)) (g_edges d) = (fun '(a, child) => the_edge anchors g c i n a child) <$> enum (nch n).
Proof.
  intros Hc Hn. cbn [the_graph g_edges]. apply elem_of_list_lookup in Hc as (j & Hj).
  rewrite (filter_one _ (the_edges anchors g) cs j c Hj).
  - unfold the_edges. rewrite (filter_one _ _ (enum (c_nodes c)) i (i, n)).
    + apply filter_all. intros e ([a ch] & -> & _)%elem_of_list_fmap. done.
    + unfold enum. rewrite list_lookup_imap, Hn. done.
    + intros i' [i'' m] e Hl Hne ([a ch] & -> & _)%elem_of_list_fmap. unfold enum in Hl. apply list_lookup_imap_Some in Hl as (m' & _ & [= -> ->]). cbn. congruence.
  - intros j' c' e Hj' Hne He. unfold the_edges in He. apply elem_of_list_join in He as (ls & He & ([i' m] & -> & _)%elem_of_list_fmap).
    apply elem_of_list_fmap in He as ([a ch] & -> & _). cbn. intros [= E _]. apply Hne.
    assert (Hnd : NoDup (c_id <$> cs)) by (rewrite order_ids; apply Ho).
    apply (NoDup_lookup _ j' j (c_id c) Hnd); rewrite list_lookup_fmap; [by rewrite Hj', <- E|by rewrite Hj].
Qed.
Lemma edge_in e : e ∈ g_edges d -> exists c i n a child, eg_classes g !! c_id c = Some c /\ c_nodes c !! i = Some n /\ nch n !! a = Some child /\
  e = the_edge anchors g c i n a child.
Proof.
  cbn [the_graph g_edges]. intros (ls & He & (c & -> & Hc)%elem_of_list_fmap)%elem_of_list_join. unfold the_edges in He.
  apply elem_of_list_join in He as (ls & He & ([i n] & -> & Hn%elem_of_enum)%elem_of_list_fmap). apply elem_of_list_fmap in He as ([a ch] & -> & Ha%elem_of_enum).
  exists c, i, n, a, ch. split; [by apply order_in|done].
Qed.
Lemma graph_draws : draws disp anchors g d.
Proof.
  split.
  - cbn [the_graph g_clusters]. rewrite order_ids. apply Ho.
  - cbn [the_graph g_clusters]. rewrite order_ids. apply Ho.
  - apply names_nodup.
  - apply decl_in.
  - intros k c i n Hc Hn es. pose proof (order_id _ _ Hc) as <-. unfold es. rewrite (node_edges c i n (in_cs _ _ Hc) Hn). split.
    + rewrite <- list_fmap_compose. unfold enum. rewrite fmap_imap. apply list_eq. intros a. rewrite list_lookup_imap, list_lookup_fmap. by destruct (nch n !! a).
    + intros a e Ha. apply list_lookup_fmap_Some in Ha as ([a' ch] & Ha & ->). unfold enum in Ha. apply list_lookup_imap_Some in Ha as (ch' & _ & [= -> ->]).
      unfold shows_position, the_edge. cbn [e_label e_port]. by destruct (anchors && (length (nch n) <=? 3)).
  - intros e (c & i & n & a & ch & Hc & Hn & Ha & ->)%edge_in. cbn [the_edge e_from]. rewrite <- list_fmap_compose. apply elem_of_list_fmap.
    exists (c_id c, (c_id c, i), disp (nop n)). split; [done|]. apply decl_in. by exists c, i, n.
Qed.
Lemma graph_heads : lang_ok L -> eg_clean g = true -> inhabited g -> well_headed d.
Proof.
  intros Lo Ec Hi e (c & i & n & a & ch & Hc & Hn & Ha & ->)%edge_in. cbn [the_edge e_from e_to e_lhead fst].
  pose proof (reach_canonical _ _ _ _ Lo R Ec) as [C1 _ _]. pose proof (C1 _ _ _ Hc (elem_of_list_lookup_2 _ _ _ Hn)) as En.
  assert (Ef : eg_find g ch = ch).
  { apply (f_equal nch) in En. cbn in En. pose proof (f_equal (.!! a) En) as Ej. rewrite list_lookup_fmap, Ha in Ej. cbn in Ej. by injection Ej. }
  destruct (eg_find g ch =? c_id c) eqn:E.
  - apply Nat.eqb_eq in E. rewrite E. split; [|done]. exists (disp (nop n)). apply decl_in. by exists c, i, n.
  - apply Nat.eqb_neq in E. split; [|done]. pose proof (good_ids g (reachable_good L A ex g R)) as Ik.
    destruct (ik_find _ Ik ch) as [_ [c' Hc']]; [by eapply (ik_child _ Ik _ _ _ _ Hc (elem_of_list_lookup_2 _ _ _ Hn)), elem_of_list_lookup_2|].
    pose proof (Hi _ _ Hc') as Hne. destruct (c_nodes c') as [|m ms] eqn:Em; [done|]. exists (disp (nop m)). rewrite Ef in Hc' |- *. apply decl_in.
    exists c', 0, m. rewrite Em. done.
Qed.
End drawing.
End proofs.

Section main.
Context {Op D : Type} `{Countable Op} (L : lang Op) (A : analysis Op D) (disp : Op -> text) (Hdisp : forall f, plain_label (disp f)).
Lemma dot_reads ex config anchors (g : egraph Op D) order : reachable L A ex g -> traverses g order -> Forall quiet config ->
  exists s d, dot_text disp config anchors g order = Ok s /\ read_dot s = Some d /\ draws disp anchors g d /\
    (lang_ok L -> eg_clean g = true -> inhabited g -> well_headed d).
Proof.
  intros R Ho Hc. destruct (written disp Hdisp config anchors g order Hc) as (s & Es & Er). exists s, (the_graph disp anchors g (in_order g order)).
  split; [done|]. split; [done|]. split; [by apply (graph_draws disp L A ex anchors g order R Ho)|].
  intros Lo Ec Hi. by apply (graph_heads disp L A ex anchors g order R Ho).
Qed.
(** The classes can be read off a drawing. *)
Lemma draws_nodes ex anchors anchors' (g g' : egraph Op D) d : (forall f f', disp f = disp f' -> f = f') -> lang_ok L ->
  reachable L A ex g -> eg_clean g = true -> reachable L A ex g' -> eg_clean g' = true -> draws disp anchors g d -> draws disp anchors' g' d ->
  forall k, c_nodes <$> eg_classes g !! k = c_nodes <$> eg_classes g' !! k.
Proof.
  intros Hinj Lo R Ec R' Ec' H1 H2 k. pose proof (dr_clusters _ _ _ _ H1 k) as K1. pose proof (dr_clusters _ _ _ _ H2 k) as K2.
  assert (Hcan : forall (g : egraph Op D) c n, reachable L A ex g -> eg_clean g = true -> eg_classes g !! k = Some c -> n ∈ c_nodes c -> eg_find g <$> nch n = nch n).
  { clear -Lo. intros g c n R Ec Hc Hn. pose proof (reach_canonical _ _ _ _ Lo R Ec) as [C1 _ _]. by apply (f_equal nch) in C1 || exact (f_equal nch (C1 _ _ _ Hc Hn)). }
  destruct (eg_classes g !! k) as [c|] eqn:Hc; destruct (eg_classes g' !! k) as [c'|] eqn:Hc'; [|exfalso|exfalso|done].
  2: { destruct (proj1 K2 (proj2 K1 (mk_is_Some _ _ eq_refl))) as [x Hx]. discriminate Hx. }
  2: { destruct (proj1 K1 (proj2 K2 (mk_is_Some _ _ eq_refl))) as [x Hx]. discriminate Hx. }
  cbn. f_equal. apply list_eq. intros i.
  assert (Hstep : forall (g1 g2 : egraph Op D) a1 a2 c1 c2 n, draws disp a1 g1 d -> draws disp a2 g2 d -> reachable L A ex g1 -> reachable L A ex g2 ->
    eg_clean g1 = true -> eg_clean g2 = true -> eg_classes g1 !! k = Some c1 -> eg_classes g2 !! k = Some c2 -> c_nodes c1 !! i = Some n -> c_nodes c2 !! i = Some n).
  { clear -Hinj Hcan. intros g1 g2 a1 a2 c1 c2 n D1 D2 R1 R2 E1 E2 Hc1 Hc2 Hn.
    assert (Hd : (k, (k, i), disp (nop n)) ∈ g_decls d) by (apply (dr_decls _ _ _ _ D1); by exists c1, i, n).
    apply (dr_decls _ _ _ _ D2) in Hd as (c2' & i' & m & Hc2' & Hm & [= <-] & El). rewrite Hc2 in Hc2'. injection Hc2' as <-. rewrite Hm. f_equal.
    apply Hinj in El. destruct (dr_edges _ _ _ _ D1 k c1 i n Hc1 Hn) as [X1 _]. destruct (dr_edges _ _ _ _ D2 k c2 i m Hc2 Hm) as [X2 _].
    rewrite (Hcan g1 c1 n R1 E1 Hc1 (elem_of_list_lookup_2 _ _ _ Hn)) in X1. rewrite (Hcan g2 c2 m R2 E2 Hc2 (elem_of_list_lookup_2 _ _ _ Hm)) in X2.
    destruct n as [f xs], m as [f' xs']. cbn in *. congruence. }
  destruct (c_nodes c !! i) as [n|] eqn:Hn.
  - symmetry. exact (Hstep g g' anchors anchors' c c' n H1 H2 R R' Ec Ec' Hc Hc' Hn).
  - destruct (c_nodes c' !! i) as [n'|] eqn:Hn'; [|done]. pose proof (Hstep g' g anchors' anchors c' c n' H2 H1 R' R Ec' Ec Hc' Hc Hn'). congruence.
Qed.
Lemma dot_faithful ex config config' anchors anchors' (g g' : egraph Op D) order order' s : (forall f f', disp f = disp f' -> f = f') -> lang_ok L ->
  Forall quiet config -> Forall quiet config' -> traverses g order -> traverses g' order' ->
  reachable L A ex g -> eg_clean g = true -> reachable L A ex g' -> eg_clean g' = true ->
  dot_text disp config anchors g order = Ok s -> dot_text disp config' anchors' g' order' = Ok s ->
  forall k, c_nodes <$> eg_classes g !! k = c_nodes <$> eg_classes g' !! k.
Proof.
  intros Hinj Lo Hc Hc' Ho Ho' R Ec R' Ec' E E'.
  destruct (dot_reads ex config anchors g order R Ho Hc) as (s1 & d & E1 & Ed & Hd & _). destruct (dot_reads ex config' anchors' g' order' R' Ho' Hc') as (s2 & d' & E2 & Ed' & Hd' & _).
  assert (s1 = s) as -> by congruence. assert (s2 = s) as -> by congruence. assert (d' = d) as -> by congruence.
  exact (draws_nodes ex anchors anchors' g g' d Hinj Lo R Ec R' Ec' Hd Hd').
Qed.
End main.
