(** * Sem: the meaning of expression trees over the real numbers.

    Independent of the code: this is the specification the constructors are measured against.
    [ev rho e] is the real value of the tree [e] when symbol [s] has value [rho s];
    [wd rho e] says that the tree is defined at [rho]. *)
From Verif Require Export Expr.
From Coq Require Export Reals Ratan Qreals Lra.

Definition env := string -> R.

(** Real power: [exp (x * ln b)] for positive [b]; integer powers for the other bases
    (0^0 = 1 as in Python). *)
Definition rpow (b x : R) : R :=
  if Rlt_dec 0 b then Rpower b x
  else if Req_EM_T b 0 then (if Req_EM_T x 0 then 1 else 0)%R
  else powerRZ b (Int_part x).

Definition tev (f : trig) (v : R) : R :=
  match f with
  | Sin => sin v | Cos => cos v | Tan => sin v / cos v
  | Csc => / sin v | Sec => / cos v | Cot => cos v / sin v
  | Asin => asin v | Acos => acos v | Atan => atan v
  end%R.

Definition Rsum (l : list R) : R := fold_right Rplus 0%R l.
Definition Rprod (l : list R) : R := fold_right Rmult 1%R l.

(** Wildcards ([Any_]) and the infinities have no real value ([wd] excludes them). *)
Fixpoint ev (rho : env) (e : expr) : R :=
  match e with
  | ERat q => Q2R q
  | EPi => PI
  | EE => exp 1
  | EInf | ENegInf | EAny _ => 0
  | ESym s => rho s
  | ESum ts => Rsum (map (ev rho) ts)
  | EProd ts => Rprod (map (ev rho) ts)
  | EPow b x => rpow (ev rho b) (ev rho x)
  | ELog i b => ln (ev rho i) / ln (ev rho b)
  | ETrig f i => tev f (ev rho i)
  | EAbs i => Rabs (ev rho i)
  end%R.

(** [e] is positive, and so is every factor / inner base into which the power rules may
    split it. *)
Fixpoint rp (rho : env) (e : expr) : Prop :=
  (0 < ev rho e)%R /\
  match e with
  | EProd ts => is_sub e = true \/
      (fix all (l : list expr) : Prop :=
         match l with [] => True | t :: r => rp rho t /\ all r end) ts
  | EPow b _ => rp rho b
  | _ => True
  end.

(** Domain of [b ^ x]: an integer literal exponent (non-negative if [b] is 0), or a base that
    is positive in the sense of [rp]. *)
Definition pdom (rho : env) (b x : expr) : Prop :=
  (exists q, x = ERat q /\ qisint q = true /\ (ev rho b <> 0%R \/ (0 <= q)%Q)) \/ rp rho b.

Definition tdom (f : trig) (v : R) : Prop :=
  match f with
  | Tan | Sec => cos v <> 0%R
  | Csc | Cot => sin v <> 0%R
  | Asin | Acos => (-1 <= v <= 1)%R
  | _ => True
  end.

Definition one_const (ts : list expr) : Prop := (List.length (filter is_acc ts) <= 1)%nat.

(** Definedness.  The clause [one_const] for products is a shape condition (at most one numeric
    factor) that every product built by the constructors satisfies. *)
Fixpoint wd (rho : env) (e : expr) : Prop :=
  match e with
  | ERat _ | EPi | EE | ESym _ => True
  | EInf | ENegInf | EAny _ => False
  | ESum ts =>
      (fix all (l : list expr) : Prop :=
         match l with [] => True | t :: r => wd rho t /\ all r end) ts
  | EProd ts =>
      (fix all (l : list expr) : Prop :=
         match l with [] => True | t :: r => wd rho t /\ all r end) ts /\ one_const ts
  | EPow b x => wd rho b /\ wd rho x /\ pdom rho b x
  | ELog i b => wd rho i /\ wd rho b /\ rp rho i /\ (0 < ev rho b)%R /\ ev rho b <> 1%R
  | ETrig f i => wd rho i /\ tdom f (ev rho i)
  | EAbs i => wd rho i
  end.

(** The float test of expr.py:748-750 is exact: an accepted integer is the real power. *)
Definition fpow_exact (f : Z -> Q -> option Z) : Prop :=
  forall a x m, (0 < a)%Z -> (0 < x)%Q -> f a x = Some m -> IZR m = Rpower (IZR a) (Q2R x).

Lemma rp_unfold rho e : rp rho e <->
  (0 < ev rho e)%R /\
  match e with
  | EProd ts => is_sub e = true \/ Forall (rp rho) ts
  | EPow b _ => rp rho b
  | _ => True
  end.
Proof.
  assert (A : forall l, (fix all (l : list expr) : Prop :=
         match l with [] => True | t :: r => rp rho t /\ all r end) l <-> Forall (rp rho) l).
  { induction l as [|t l IH]; split; intros H; auto.
    - destruct H; constructor; auto; apply IH; auto.
    - inversion H; subst; split; auto; apply IH; auto. }
  destruct e; cbn -[is_sub ev]; try tauto. rewrite A. tauto.
Qed.

Lemma wd_sum rho ts : wd rho (ESum ts) <-> Forall (wd rho) ts.
Proof.
  cbn. induction ts as [|t l IH]; split; intros H; auto.
  - destruct H; constructor; auto; apply IH; auto.
  - inversion H; subst; split; auto; apply IH; auto.
Qed.
Lemma wd_prod rho ts : wd rho (EProd ts) <-> Forall (wd rho) ts /\ one_const ts.
Proof.
  cbn. assert (A : (fix all (l : list expr) : Prop :=
         match l with [] => True | t :: r => wd rho t /\ all r end) ts <-> Forall (wd rho) ts).
  { induction ts as [|t l IH]; split; intros H; auto.
    - destruct H; constructor; auto; apply IH; auto.
    - inversion H; subst; split; auto; apply IH; auto. }
  rewrite A; tauto.
Qed.
