(** Specification vocabulary: analyses and hooks that tell the truth about an algebra. *)
From Verif Require Import Base EGraphModel Spec Terms RecExprModel ExprModel PatSpec MachineModel RewriteModel RunnerModel AlgSpec.

Section truth.
Context {Op D V : Type} `{Countable Op} (A : analysis Op D).
Notation egraph := (egraph Op D).
Notation prog := (prog Op D).
(** [F] interprets the operators; [says d x]: what the analysis data [d] says is true of the
    value [x]. *)
Context (F : Op -> list V -> V) (says : D -> V -> Prop).

(** [make] and [remake] say something true of the e-node's value if the data of the children
    are true of theirs; [merge] keeps to what is true of one value. *)
Record sound_analysis : Prop := {
  sa_make : forall g n i ds xs, class_data g <$> nch n = Some <$> ds -> Forall2 says ds xs -> says (an_make A g n i) (F (nop n) xs);
  sa_remake : forall g n i ds xs, class_data g <$> nch n = Some <$> ds -> Forall2 says ds xs -> says (an_remake A g n i) (F (nop n) xs);
  sa_merge : forall a b d fl x, an_merge A a b = (d, fl) -> says a x -> says b x -> says d x;
}.

(** The e-graph as one sees it is true of the values [nu]: ids of one class have one value,
    which is the value of every e-node listed in it, and its data are true of it. *)
Record true_state (nu : nat -> V) (g : egraph) : Prop := {
  ts_same : forall i j, eg_find g i = eg_find g j -> nu i = nu j;
  ts_node : forall r c f cs, eg_classes g !! r = Some c -> Node f cs ∈ c_nodes c -> nu r = F f (nu <$> cs);
  ts_data : forall i d, class_data g i = Some d -> known g i /\ says d (nu i);
}.

(** A program that only states what is true: [N] ids are known so far, [nu] gives their
    values.  Later values agree with earlier ones on ids known before. *)
Fixpoint truthful (N : nat) (nu : nat -> V) (p : prog) : Prop :=
  let later (P : nat -> (nat -> V) -> Prop) := forall M nu', N <= M -> (forall k, k < N -> nu' k = nu k) -> P M nu' in
  match p with
  | PRet => True
  | PLook k => forall g, true_state nu g -> N <= length (eg_uf g) -> truthful (length (eg_uf g)) nu (k g)
  | PAdd n k => later (fun M nu' => forall i, i < M -> nu' i = F (nop n) (nu' <$> nch n) -> truthful M nu' (k i))
  | PUnion a b _ k | PUnionTrusted a b _ k => nu a = nu b /\ later (fun M nu' => forall v, truthful M nu' (k v))
  | PSetData i d k | PPoke i d k => says d (nu i) /\ later (fun M nu' => truthful M nu' k)
  | PRetain _ _ k => later (fun M nu' => truthful M nu' k)
  | PRebuild k => later (fun M nu' => forall n, truthful M nu' (k n))
  end.
(** The hook of the analysis states only what is true. *)
Definition truthful_hook : Prop := forall id N nu, truthful N nu (an_modify A id).

(** The data of every class are true of its value. *)
Definition data_true (nu : nat -> V) (g : egraph) : Prop := forall i d, class_data g i = Some d -> says d (nu i).

(** * Rules and hooks of the runner *)
(** The matched class [e] and the ids bound by [s] are among the [N] known ones. *)
Definition match_known (N e : nat) (s : subst) : Prop := e < N /\ forall v i, subst_get s v = Some i -> i < N.
(** Given that [P] holds of the values of the matched class and the variables: what the
    condition does is true, and if it answers yes then [phi] holds of these values. *)
Definition condition_true (P : V -> (nat -> V) -> Prop) (c : condition Op D) (phi : V -> (nat -> V) -> Prop) : Prop :=
  match c with
  | CEqual p1 p2 => forall t1 t2 x th, ExprTree p1 t1 -> ExprTree p2 t2 -> P x th -> peval F th t1 = peval F th t2 -> phi x th
  | CFn _ body test =>
      (forall e s N nu, match_known N e s -> P (nu e) (value_of nu (subst_get s)) -> truthful N nu (body e s)) /\
      forall e s g nu, true_state nu g -> match_known (length (eg_uf g)) e s -> P (nu e) (value_of nu (subst_get s)) ->
        test e s g = true -> phi (nu e) (value_of nu (subst_get s))
  end.
(** The applier only states consequences of [P], given values of the variables in [bnd]. *)
Fixpoint applier_true (bnd : nat -> Prop) (P : V -> (nat -> V) -> Prop) (a : applier Op D) : Prop :=
  match a with
  | APattern p => forall t x th, ExprTree p t -> P x th -> x = peval F th t
  | AMulti asts => forall x th, P x th -> exists th', (forall v, bnd v -> th' v = th v) /\ Forall (clause_true F th') asts
  | ACond c a => exists phi, condition_true P c phi /\ applier_true bnd (fun x th => P x th /\ phi x th) a
  | AFn _ body _ => forall e s N nu, match_known N e s -> P (nu e) (value_of nu (subst_get s)) -> truthful N nu (body e s)
  end.
Definition rule_true (rw : rewrite Op D) : Prop :=
  applier_true (fun v => v ∈ searcher_vars (rw_searcher rw)) (premise F (rw_searcher rw)) (rw_applier rw).
Definition hook_truthful {Cl} (h : hook Op D Cl) : Prop := forall cl i N nu, truthful N nu (hk_body h cl i).
End truth.
