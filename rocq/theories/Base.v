(** * Base: results of Python calls, exceptions as values.

    Models nothing of /repo by itself: it fixes how a Python call is represented.
    A call either returns ([Ok]), raises a Python exception ([Raise]) or leaves the
    modelled fragment ([Stop], see [stop]). *)
From Coq Require Export List Bool ZArith QArith Qround Qabs String Ascii Lia Arith.
Export ListNotations.
Open Scope list_scope.
Open Scope Z_scope.

(** Python exceptions that the modelled code raises.  [SelfInit] is the AssertionError of
    [Associative.__post_init__] (src/simpy/expr.py:283-284) when [Prod([t], skip_checks=True)]
    (resp. [Sum]) gets a [t] that already is a Prod (Sum): [__init__] (expr.py:1178-1182,
    903-910) first overwrites [t.terms] with [[t]].  It is kept apart from [AssertionError]
    because the operand [t] has been destroyed when it is raised. *)
Inductive exn : Type :=
| ValueError | AssertionError | NotImplementedError | ZeroDivisionError | TypeError
| AttributeError | KeyError | IndexError | SelfInit.

(** Ways in which a run leaves the modelled fragment (never a Python-visible result):
    [OutOfFuel] recursion bound of the model exhausted; [Coincidence] strict mode only: a
    rational equal to the binary64 value of pi or e was compared with pi or e;
    [Unmodelled] a Float object would be created; [Cycle] Python would return an object that
    contains itself; [Domain] guarded runs only: a power, log or trig value was requested outside
    the domain under consideration (see Funcs.v). *)
Inductive stop : Type := OutOfFuel | Coincidence | Unmodelled | Cycle | Domain.

Inductive res (A : Type) : Type :=
| Ok : A -> res A
| Raise : exn -> res A
| Stop : stop -> res A.
Arguments Ok {A} _.
Arguments Raise {A} _.
Arguments Stop {A} _.

Definition bind {A B} (r : res A) (f : A -> res B) : res B :=
  match r with Ok a => f a | Raise e => Raise e | Stop s => Stop s end.

Notation "x <- r ;; f" := (bind r (fun x => f))
  (at level 100, r at next level, right associativity).
Notation "' p <- r ;; f" := (bind r (fun x => match x with p => f end))
  (at level 100, p pattern, r at next level, right associativity).

Fixpoint mapM {A B} (f : A -> res B) (l : list A) : res (list B) :=
  match l with
  | [] => Ok []
  | a :: r => b <- f a;; bs <- mapM f r;; Ok (b :: bs)
  end.

Fixpoint foldM {A B} (f : B -> A -> res B) (l : list A) (b : B) : res B :=
  match l with
  | [] => Ok b
  | a :: r => b' <- f b a;; foldM f r b'
  end.

(** Python's [any(f(x) for x in l)] and [all(...)] with exceptions, left to right, lazy. *)
Fixpoint anyM {A} (f : A -> res bool) (l : list A) : res bool :=
  match l with
  | [] => Ok false
  | a :: r => b <- f a;; if b then Ok true else anyM f r
  end.
Fixpoint allM {A} (f : A -> res bool) (l : list A) : res bool :=
  match l with
  | [] => Ok true
  | a :: r => b <- f a;; if b then allM f r else Ok false
  end.

Fixpoint filterM {A} (f : A -> res bool) (l : list A) : res (list A) :=
  match l with
  | [] => Ok []
  | a :: r => b <- f a;; r' <- filterM f r;; Ok (if b : bool then a :: r' else r')
  end.

(** [rle r1 r2]: [r2] is what [r1] would have been with more fuel / in faithful mode. *)
Definition rle {A} (r1 r2 : res A) : Prop :=
  match r1 with Stop _ => True | _ => r1 = r2 end.

Definition is_ok {A} (r : res A) : bool := match r with Ok _ => true | _ => false end.

Lemma bind_ok {A B} (r : res A) (f : A -> res B) (b : B) :
  bind r f = Ok b -> exists a, r = Ok a /\ f a = Ok b.
Proof. destruct r; simpl; intros H; try discriminate; eauto. Qed.

Lemma rle_refl {A} (r : res A) : rle r r.
Proof. destruct r; simpl; auto. Qed.

Lemma rle_trans {A} (a b c : res A) : rle a b -> rle b c -> rle a c.
Proof. destruct a; simpl; auto; intros <-; auto. Qed.

Lemma rle_stop {A} s (r : res A) : rle (Stop s) r.
Proof. exact I. Qed.

Arguments rle : simpl never.

Lemma rle_bind {A B} (r1 r2 : res A) (f g : A -> res B) :
  rle r1 r2 -> (forall a, rle (f a) (g a)) -> rle (bind r1 f) (bind r2 g).
Proof.
  unfold rle; destruct r1; intros H Hf; simpl; auto; subst r2; simpl; auto.
  apply Hf.
Qed.

Lemma rle_mapM {A B} (f g : A -> res B) l :
  (forall a, rle (f a) (g a)) -> rle (mapM f l) (mapM g l).
Proof.
  intros H; induction l as [|a l IH]; simpl; [apply rle_refl|].
  apply rle_bind; auto; intros b; apply rle_bind; auto; intros; apply rle_refl.
Qed.

Lemma rle_foldM {A B} (f g : B -> A -> res B) l : forall b,
  (forall b a, rle (f b a) (g b a)) -> rle (foldM f l b) (foldM g l b).
Proof.
  induction l as [|a l IH]; simpl; intros b H; [apply rle_refl|].
  apply rle_bind; auto.
Qed.

Lemma rle_anyM {A} (f g : A -> res bool) l :
  (forall a, rle (f a) (g a)) -> rle (anyM f l) (anyM g l).
Proof.
  intros H; induction l as [|a l IH]; simpl; [apply rle_refl|].
  apply rle_bind; auto; intros []; auto using rle_refl.
Qed.

Lemma rle_allM {A} (f g : A -> res bool) l :
  (forall a, rle (f a) (g a)) -> rle (allM f l) (allM g l).
Proof.
  intros H; induction l as [|a l IH]; simpl; [apply rle_refl|].
  apply rle_bind; auto; intros []; auto using rle_refl.
Qed.

Lemma rle_filterM {A} (f g : A -> res bool) l :
  (forall a, rle (f a) (g a)) -> rle (filterM f l) (filterM g l).
Proof.
  intros H; induction l as [|a l IH]; simpl; [apply rle_refl|].
  apply rle_bind; auto; intros b; apply rle_bind; auto; intros; apply rle_refl.
Qed.

Lemma mapM_ok {A B} (f : A -> res B) l l' :
  mapM f l = Ok l' -> Forall2 (fun a b => f a = Ok b) l l'.
Proof.
  revert l'; induction l as [|a l IH]; simpl; intros l' H.
  - injection H as <-; constructor.
  - apply bind_ok in H as (b & Hb & H). apply bind_ok in H as (bs & Hbs & H).
    injection H as <-. constructor; auto.
Qed.

(** Inverts a hypothesis [bind .. = Ok ..] completely. *)
Ltac inv_ok :=
  repeat match goal with
  | H : bind _ _ = Ok _ |- _ => apply bind_ok in H as (? & ? & H)
  | H : Ok _ = Ok _ |- _ => injection H; clear H; intros; try subst
  | H : Raise _ = Ok _ |- _ => discriminate H
  | H : Stop _ = Ok _ |- _ => discriminate H
  end.
