(** More fuel changes nothing but [OutOfFuel], whatever the analysis and its hooks. *)
From Verif Require Import Base UnionFind EGraphModel RecExprModel ExprModel MachineModel RewriteModel RunnerModel.

Definition le_res {X} (a b : res X) : Prop := a = OutOfFuel \/ a = b.
Lemma le_refl {X} (a : res X) : le_res a a.
Proof. by right. Qed.
Lemma le_bind {X Y} (a b : res X) (k k' : X -> res Y) : le_res a b -> (forall x, le_res (k x) (k' x)) -> le_res (a ≫= k) (b ≫= k').
Proof. intros [->| ->] Hk; [by left|]. destruct b; cbn; [apply Hk|by right|by left]. Qed.

Section mono.
Context {Op D : Type} `{Countable Op} (L : lang Op) (A : analysis Op D).
Notation egraph := (egraph Op D).
Notation pnode := (EGraphModel.node (pop Op)).
Implicit Types (g : egraph).
Definition mle (md md' : nat -> egraph -> res egraph) : Prop := forall i g, le_res (md i g) (md' i g).

Ltac step := lazymatch goal with
  | |- le_res ?a ?a => apply le_refl
  | |- le_res (?a ≫= _) (?b ≫= _) => apply le_bind; [|intros ?]
  | |- le_res (match ?x with _ => _ end) (match ?x with _ => _ end) => destruct x
  end.

Section md.
Context (md md' : nat -> egraph -> res egraph) (Hm : mle md md').
Lemma hook_mono o g : le_res (run_hook md o g) (run_hook md' o g).
Proof. destruct o; [apply Hm|apply le_refl]. Qed.
Lemma add_mono n g : le_res (api_add A md n g) (api_add A md' n g).
Proof. unfold api_add, add_uncanonical. repeat first [step|apply Hm]. Qed.
Lemma perform_mono a b r g : le_res (perform_union A md a b r g) (perform_union A md' a b r g).
Proof. unfold perform_union. repeat first [step|apply hook_mono]. Qed.
Lemma trusted_mono a b r g : le_res (api_union_trusted A md a b r g) (api_union_trusted A md' a b r g).
Proof. apply perform_mono. Qed.
Lemma union_mono a b r g : le_res (api_union A md a b r g) (api_union A md' a b r g).
Proof. unfold api_union, union. destruct (eg_explain _); apply perform_mono. Qed.
Lemma set_data_mono i d g : le_res (set_analysis_data md i d g) (set_analysis_data md' i d g).
Proof. unfold set_analysis_data. repeat first [step|apply Hm]. Qed.
Lemma pending_mono fuel fuel' n g : fuel <= fuel' -> le_res (drain_pending A fuel md n g) (drain_pending A fuel' md' n g).
Proof.
  revert fuel' n g. induction fuel as [|fuel IH]; intros [|fuel'] n g Hf; cbn [drain_pending]; destruct (eg_pending g); try (apply le_refl || (by left) || lia).
  apply le_bind; [apply le_refl|]. intros [g1 o]. apply le_bind; [apply hook_mono|]. intros g2. apply IH. lia.
Qed.
Lemma analysis_mono fuel fuel' g : fuel <= fuel' -> le_res (drain_analysis A fuel md g) (drain_analysis A fuel' md' g).
Proof.
  revert fuel' g. induction fuel as [|fuel IH]; intros [|fuel'] g Hf; cbn [drain_analysis]; destruct (uq_pop _) as [[]|]; try (apply le_refl || (by left) || lia).
  apply le_bind; [apply le_refl|]. intros [g1 o]. apply le_bind; [apply hook_mono|]. intros g2. apply IH. lia.
Qed.
Lemma process_mono fuel fuel' inner inner' n g : fuel <= fuel' -> inner <= inner' ->
  le_res (process_unions A fuel inner md n g) (process_unions A fuel' inner' md' n g).
Proof.
  intros Hf Hi. revert fuel' n g Hf. induction fuel as [|fuel IH]; intros [|fuel'] n g Hf; cbn [process_unions]; destruct (_ && _); try (apply le_refl || (by left) || lia).
  apply le_bind; [by apply pending_mono|]. intros [g1 o]. apply le_bind; [by apply analysis_mono|]. intros g2. apply IH. lia.
Qed.
Lemma rebuild_mono fuel fuel' g : fuel <= fuel' -> le_res (rebuild L A fuel md g) (rebuild L A fuel' md' g).
Proof. intros Hf. unfold rebuild. apply le_bind; [by apply process_mono|]. intros x. apply le_refl. Qed.
Lemma prog_mono fuel fuel' (p : prog Op D) g : fuel <= fuel' -> le_res (run_prog L A fuel md p g) (run_prog L A fuel' md' p g).
Proof.
  intros Hf. revert g. induction p as [|k IH|n k IH|a b r k IH|a b r k IH|i d k IH|i d k IH|i f k IH|k IH]; intros g; cbn [run_prog].
  - apply le_refl.
  - apply IH.
  - apply le_bind; [apply add_mono|]. intros [g1 x]. apply IH.
  - apply le_bind; [apply union_mono|]. intros [g1 x]. apply IH.
  - apply le_bind; [apply trusted_mono|]. intros [g1 x]. apply IH.
  - apply le_bind; [apply set_data_mono|]. intros g1. apply IH.
  - apply le_bind; [apply le_refl|]. intros g1. apply IH.
  - apply le_bind; [apply le_refl|]. intros g1. apply IH.
  - apply le_bind; [by apply rebuild_mono|]. intros [g1 x]. apply IH.
Qed.
Lemma inst_loop_mono (p : list pnode) s ids g : le_res (add_inst_loop A md p s ids g) (add_inst_loop A md' p s ids g).
Proof.
  revert ids g. induction p as [|n p IH]; intros ids g; cbn [add_inst_loop]; [apply le_refl|]. repeat first [step|apply add_mono|apply IH].
Qed.
Lemma pat_loop_mono (p : list pnode) s ids g : le_res (apply_pat_loop A md p s ids g) (apply_pat_loop A md' p s ids g).
Proof.
  revert ids g. induction p as [|n p IH]; intros ids g; cbn [apply_pat_loop]; [apply le_refl|]. repeat first [step|apply add_mono|apply IH].
Qed.
Lemma inst_mono (p : list pnode) s g : le_res (add_instantiation_noncanonical A md p s g) (add_instantiation_noncanonical A md' p s g).
Proof. unfold add_instantiation_noncanonical. repeat first [step|apply inst_loop_mono]. Qed.
Lemma pat_mono (p : list pnode) s g : le_res (apply_pat A md p s g) (apply_pat A md' p s g).
Proof. unfold apply_pat. repeat first [step|apply pat_loop_mono]. Qed.
Lemma union_inst_mono (p q : list pnode) s r g : le_res (union_instantiations A md p q s r g) (union_instantiations A md' p q s r g).
Proof. unfold union_instantiations. repeat first [step|apply inst_mono|apply trusted_mono]. Qed.
End md.
Lemma modify_mono fuel fuel' : fuel <= fuel' -> mle (modify_n L A fuel) (modify_n L A fuel').
Proof.
  revert fuel'. induction fuel as [|fuel IH]; intros [|fuel'] Hf i g; cbn [modify_n]; try ((by left) || lia). apply prog_mono; [apply IH|]; lia.
Qed.

Section apply.
Context (fuel fuel' here : nat) (Hf : fuel <= fuel').
Let Hm := modify_mono fuel fuel' Hf.
Lemma run_mono (p : prog Op D) g : le_res (run_prog L A fuel (modify_n L A fuel) p g) (run_prog L A fuel' (modify_n L A fuel') p g).
Proof. by apply prog_mono. Qed.
Lemma check_mono c e s g : le_res (check L A fuel c e s g) (check L A fuel' c e s g).
Proof. unfold check. repeat first [step|apply pat_mono, Hm|apply run_mono]. Qed.
Lemma pattern_one_mono p e s sast rule g : le_res (pattern_apply_one L A fuel here p e s sast rule g) (pattern_apply_one L A fuel' here p e s sast rule g).
Proof. unfold pattern_apply_one. repeat first [step|apply pat_mono, Hm|apply union_inst_mono, Hm|apply union_mono, Hm]. Qed.
Lemma one_mono a e s sast rule g : le_res (apply_one L A fuel here a e s sast rule g) (apply_one L A fuel' here a e s sast rule g).
Proof.
  revert g. induction a as [p|asts|c a IH|vars body ret]; intros g; cbn [apply_one].
  - apply pattern_one_mono.
  - apply le_refl.
  - apply le_bind; [apply check_mono|]. intros [g1 []]; [apply IH|apply le_refl].
  - apply le_bind; [apply run_mono|]. intros g1. apply le_refl.
Qed.
Lemma each_mono {X} (f f' : X -> egraph -> res (egraph * list nat)) xs g : (forall x g, le_res (f x g) (f' x g)) -> le_res (each f xs g) (each f' xs g).
Proof. intros Hx. revert g. induction xs as [|x xs IH]; intros g; cbn [each]; [apply le_refl|]. repeat first [step|apply Hx|apply IH]. Qed.
Lemma matches_mono f f' ms g : (forall c s g, le_res (f c s g) (f' c s g)) -> le_res (for_matches f ms g) (for_matches f' ms g).
Proof. intros Hx. unfold for_matches. apply each_mono. intros m g1. apply each_mono. intros s g2. apply Hx. Qed.
Lemma clauses_mono asts s g : le_res (multi_clauses L A fuel here asts s g) (multi_clauses L A fuel' here asts s g).
Proof.
  revert s g. induction asts as [|[v p] asts IH]; intros s g; cbn [multi_clauses]; [apply le_refl|].
  apply le_bind; [apply pat_mono, Hm|]. intros [g1 i]. destruct (subst_insert s v i) as [s1 old].
  apply le_bind; [destruct old; [|apply le_refl]; apply le_bind; [apply union_mono, Hm|]; intros []; apply le_refl|]. intros g2.
  apply le_bind; [apply IH|]. intros [g3 l]. apply le_refl.
Qed.
Lemma apply_mono a sast rule ms g : le_res (apply_matches L A fuel here a sast rule ms g) (apply_matches L A fuel' here a sast rule ms g).
Proof.
  destruct a; cbn [apply_matches]; unfold default_apply; apply matches_mono; intros e s g1.
  - unfold pattern_apply. repeat first [step|apply pat_mono, Hm|apply union_inst_mono, Hm|apply union_mono, Hm].
  - unfold multi_apply. apply le_bind; [apply clauses_mono|]. intros []. apply le_refl.
  - apply one_mono.
  - apply one_mono.
Qed.
Context (clock : nat -> nat) {St Cl : Type} (sch : scheduler Op D St) (li : limits) (rules : list (rewrite Op D)) (hooks : list (hook Op D Cl)).
Lemma hooks_mono hs i cl g : le_res (run_hooks L A fuel hs i cl g) (run_hooks (Cl := Cl) L A fuel' hs i cl g).
Proof.
  revert cl g. induction hs as [|h hs IH]; intros cl g; cbn [run_hooks]; [apply le_refl|].
  apply le_bind; [apply run_mono|]. intros g1. destruct (hk_out h cl i g1) as [cl1 []]; [apply le_refl|apply IH].
Qed.
Lemma rewrites_mono rms i t ap g : le_res (apply_rewrites L A clock li fuel here rms i t ap g) (apply_rewrites L A clock li fuel' here rms i t ap g).
Proof.
  revert t ap g. induction rms as [|[rw ms] rms IH]; intros t ap g; cbn [apply_rewrites]; [apply le_refl|].
  apply le_bind; [apply apply_mono|]. intros [g1 ids]. destruct (check_limits _ _ _ _ _); [apply le_refl|apply IH].
Qed.
Lemma run_one_mono r : le_res (run_one L A clock sch li rules fuel here hooks r) (run_one L A clock sch li rules fuel' here hooks r).
Proof.
  unfold run_one. apply le_bind; [apply le_refl|]. intros _.
  apply le_bind; [destruct (check_limits _ _ _ _ _); [apply le_refl|apply hooks_mono]|]. intros [[g1 cl] s1].
  apply le_bind; [apply le_refl|]. intros [[[mss st] t2] s2].
  apply le_bind; [destruct s2; [apply le_refl|apply rewrites_mono]|]. intros [[[g3 ap] t3] s3].
  apply le_bind; [by apply rebuild_mono|]. intros [g4 n]. apply le_refl.
Qed.
Lemma loop_mono rounds r : le_res (run_loop L A clock sch li rules fuel here hooks rounds r) (run_loop L A clock sch li rules fuel' here hooks rounds r).
Proof.
  revert r. induction rounds as [|rounds IH]; intros r; cbn [run_loop]; [apply le_refl|].
  apply le_bind; [apply run_one_mono|]. intros [r1 itn]. destruct (it_stop itn); [apply le_refl|]. destruct (check_limits _ _ _ _ _); [apply le_refl|apply IH].
Qed.
Lemma runs_mono rounds roots g st cl :
  le_res (run L A clock sch li rules fuel here hooks rounds roots g st cl) (run L A clock sch li rules fuel' here hooks rounds roots g st cl).
Proof. unfold run. apply le_bind; [by apply rebuild_mono|]. intros [g1 n]. apply loop_mono. Qed.
End apply.
End mono.
Lemma agree {X} (f : nat -> res X) : (forall a b, a <= b -> le_res (f a) (f b)) -> forall a b, f a <> OutOfFuel -> f b <> OutOfFuel -> f a = f b.
Proof.
  intros Hf a b Ha Hb. destruct (Nat.le_ge_cases a b) as [Hle|Hle]; destruct (Hf _ _ Hle); congruence.
Qed.
