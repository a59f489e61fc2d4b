(** Shared basics: results with explicit panics and fuel exhaustion. *)
From stdpp Require Export prelude list gmap fin_maps sorting.

(** Outcome of a modelled Rust function.
    [Panic] stands for every Rust panic (failed assert, missing key, index out of
    bounds, [unwrap] on [None]); [OutOfFuel] is the model's own marker for a loop that
    was cut off.  Theorems say explicitly when neither can occur. *)
Inductive res (A : Type) : Type :=
| Ok (a : A)
| Panic
| OutOfFuel.
Arguments Ok {A} _.
Arguments Panic {A}.
Arguments OutOfFuel {A}.

Global Instance res_ret : MRet res := fun A a => Ok a.
Global Instance res_bind : MBind res := fun A B f m =>
  match m with Ok a => f a | Panic => Panic | OutOfFuel => OutOfFuel end.
Global Instance res_fmap : FMap res := fun A B f m =>
  match m with Ok a => Ok (f a) | Panic => Panic | OutOfFuel => OutOfFuel end.

(** [expect o]: Rust's [Option::unwrap] / map indexing. *)
Definition expect {A} (o : option A) : res A :=
  match o with Some a => Ok a | None => Panic end.

(** [assert b]: Rust's [assert!]. *)
Definition assert (b : bool) : res unit := if b then Ok tt else Panic.

Lemma bind_Ok {A B} (m : res A) (f : A -> res B) b :
  (m ≫= f) = Ok b -> exists a, m = Ok a /\ f a = Ok b.
Proof. destruct m; cbn; intros; try discriminate; eauto. Qed.

Lemma expect_Ok {A} (o : option A) a : expect o = Ok a <-> o = Some a.
Proof. destruct o; cbn; split; congruence. Qed.

Lemma assert_Ok b u : assert b = Ok u -> b = true.
Proof. destruct b; cbn; congruence. Qed.

(** Invert a successful monadic computation in a hypothesis. *)
Ltac inv_res :=
  repeat match goal with
  | H : Ok _ = Ok _ |- _ => injection H; clear H; intros; subst
  | H : Panic = Ok _ |- _ => discriminate H
  | H : OutOfFuel = Ok _ |- _ => discriminate H
  | H : (_ ≫= _) = Ok _ |- _ =>
      apply bind_Ok in H; destruct H as (? & ? & H); cbn beta iota in H
  | H : expect _ = Ok _ |- _ => apply expect_Ok in H
  | H : assert _ = Ok _ |- _ => apply assert_Ok in H
  | H : mret _ = Ok _ |- _ => unfold mret, res_ret in H
  end.
