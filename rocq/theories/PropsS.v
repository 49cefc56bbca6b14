(** * PropsS: evalf() (C86). *)
From Verif Require Import Base Expr Sem RealLemmas Evalf.
Local Open Scope R_scope.

(** ** Specification *)
(** An arithmetic is exact for the interpretation [val] if every operation that returns gives the exact
    result, and numbers that compare equal are equal. *)
Record exact (A : farith) (val : A -> R) : Prop := {
  x_of : forall q f, f_of A q = Ok f -> val f = Q2R q;
  x_pi : val (f_pi A) = PI;
  x_e : val (f_e A) = exp 1;
  x_eqz : forall f z, f_eqz A f z = true -> val f = IZR z;
  x_eq : forall f g, f_eq A f g = true -> val f = val g;
  x_add : forall f g, val (f_add A f g) = val f + val g;
  x_mul : forall f g, val (f_mul A f g) = val f * val g;
  x_pow : forall f g h, f_pow A f g = Ok h -> val h = rpow (val f) (val g);
  x_log : forall f h, f_log A f = Ok h -> val h = ln (val f);
  x_trig : forall t f h, f_trig A t f = Ok h -> val h = tev t (val f);
  x_abs : forall f, val (f_abs A f) = Rabs (val f) }.
(** the value of a result *)
Definition nval {A : farith} (val : A -> R) (v : num A) : R := match v with NZ z => IZR z | NF f => val f end.

(** the expression with every logarithm replaced by the natural one *)
Fixpoint natural (e : expr) : expr :=
  match e with
  | ESum ts => ESum (map natural ts)
  | EProd ts => EProd (map natural ts)
  | EPow b x => EPow (natural b) (natural x)
  | ELog i _ => ELog (natural i) EE
  | ETrig f i => ETrig f (natural i)
  | EAbs i => EAbs (natural i)
  | _ => e
  end.
Fixpoint no_infinity (e : expr) : Prop :=
  match e with
  | EInf | ENegInf => False
  | ESum ts | EProd ts => (fix all l := match l with [] => True | t :: r => no_infinity t /\ all r end) ts
  | EPow b x | ELog b x => no_infinity b /\ no_infinity x
  | ETrig _ i | EAbs i => no_infinity i
  | _ => True
  end.

(** ** Every result of evalf, in every arithmetic *)
Section Any.
Context (A : farith).
(** Rats that occur are natural numbers *)
Definition nat_num (v : num A) : Prop := match v with NZ z => (0 <= z)%Z | NF _ => True end.

Lemma n_op_nat oz of v w r : (forall a b, (0 <= a)%Z -> (0 <= b)%Z -> (0 <= oz a b)%Z) ->
  n_op A oz of v w = Ok r -> nat_num v -> nat_num w -> nat_num r.
Proof.
  intros Hz H Hv Hw. destruct v, w; cbn in H; try (injection H as <-; cbn; apply Hz; assumption);
    repeat (apply bind_ok in H as (? & _ & H)); injection H as <-; exact I.
Qed.
Lemma foldM_nat (g : num A -> num A -> res (num A)) l : (forall v w r, g v w = Ok r -> nat_num v -> nat_num w -> nat_num r) ->
  forall a r, foldM g l a = Ok r -> nat_num a -> Forall nat_num l -> nat_num r.
Proof.
  intros Hg. induction l as [|x l IH]; intros a r H Ha Hl; cbn in H; [injection H as <-; auto|].
  apply bind_ok in H as (b & Hb & H). inversion Hl; subst. eapply IH; eauto.
Qed.
Lemma acc_sum_nat l r : acc_sum A l = Ok r -> Forall nat_num l -> nat_num r.
Proof.
  intros H Hl. destruct l as [|x [|y l]]; cbn [acc_sum] in H.
  - injection H as <-. cbn. lia.
  - injection H as <-. now inversion Hl.
  - eapply foldM_nat; [|exact H|cbn; lia|exact Hl]. intros. eapply n_op_nat; [|eauto|auto|auto]. lia.
Qed.
Lemma acc_prod_nat l r : acc_prod A l = Ok r -> Forall nat_num l -> nat_num r.
Proof.
  intros H Hl. destruct l as [|x [|y l]]; cbn [acc_prod] in H.
  - injection H as <-. cbn. lia.
  - injection H as <-. now inversion Hl.
  - eapply foldM_nat; [|exact H|cbn; lia|exact Hl]. intros. eapply n_op_nat; [|eauto|auto|auto]. intros; lia.
Qed.
Lemma e_pow_nat b x r : e_pow A b x = Ok r -> nat_num b -> nat_num x -> nat_num r.
Proof.
  unfold e_pow. intros H Hb Hx. destruct (n_is A x 0); [injection H as <-; cbn; lia|].
  destruct (n_is A x 1); [injection H as <-; auto|]. destruct (n_is A b 1); [injection H as <-; cbn; lia|].
  destruct b as [k|f], x as [n|g].
  - destruct (n <? 0)%Z; [discriminate|]. injection H as <-. cbn in *. apply Z.pow_nonneg; auto.
  - repeat (apply bind_ok in H as (? & _ & H)). injection H as <-. exact I.
  - repeat (apply bind_ok in H as (? & _ & H)). injection H as <-. exact I.
  - repeat (apply bind_ok in H as (? & _ & H)). injection H as <-. exact I.
Qed.
Lemma Forall_filter {B} (P : B -> Prop) f l : Forall P l -> Forall P (filter f l).
Proof. rewrite !Forall_forall. intros H x Hx. apply filter_In in Hx. apply H. tauto. Qed.
Lemma groups_nat k : forall l r, groups A k l = Ok r -> Forall nat_num l -> Forall nat_num r.
Proof.
  induction k as [|k IH]; intros l r H Hl; [destruct l; injection H as <-; constructor|].
  destruct l as [|v l]; [injection H as <-; constructor|]. cbn [groups] in H. inversion Hl; subst.
  apply bind_ok in H as (t & Ht & H). apply bind_ok in H as (ts & Hts & H). injection H as <-. constructor.
  - destruct (filter _ l); [injection Ht as <-; auto|]. eapply e_pow_nat; eauto. cbn. lia.
  - eapply IH; eauto. now apply Forall_filter.
Qed.
Lemma mapM_Forall2 {B C} (f : B -> res C) l : forall r, mapM f l = Ok r -> Forall2 (fun a b => f a = Ok b) l r.
Proof.
  induction l as [|a l IH]; intros r H; cbn in H; [injection H as <-; constructor|].
  apply bind_ok in H as (b & Hb & H). apply bind_ok in H as (bs & Hbs & H). injection H as <-. constructor; auto.
Qed.

(** evalf returns a natural number or a float *)
Lemma evalf_nat s e : forall v, evalf A s e = Ok v -> nat_num v.
Proof.
  induction e as [q| | | | | | |ts IH|ts IH|b x IHb IHx|i b IHi IHb|f i IHi|i IHi] using expr_ind'; intros v H; rewrite ?evalf_sum, ?evalf_prod in H; cbn [evalf] in H;
    try discriminate; try (injection H as <-; exact I).
  - apply bind_ok in H as (f & _ & H). injection H as <-. exact I.
  - apply bind_ok in H as (l & Hl & H). apply mapM_Forall2 in Hl.
    assert (N : Forall nat_num l). { clear H. revert l Hl. induction IH; intros l' F2; inversion F2; subst; constructor; eauto. }
    destruct l as [|a l]; [injection H as <-; cbn; lia|]. unfold e_sum in H. apply bind_ok in H as (w & Hw & H). injection H as <-.
    destruct (n_is A w 0); [cbn; lia|]. eapply acc_sum_nat; eauto.
  - apply bind_ok in H as (l & Hl & H). apply mapM_Forall2 in Hl.
    assert (N : Forall nat_num l). { clear H. revert l Hl. induction IH; intros l' F2; inversion F2; subst; constructor; eauto. }
    unfold e_prod in H. apply bind_ok in H as (g & Hg & H). apply groups_nat in Hg; auto.
    destruct g as [|a g]; [injection H as <-; cbn; lia|]. apply bind_ok in H as (w & Hw & H). injection H as <-.
    apply acc_prod_nat in Hw; auto. destruct (n_is A w 0); auto. destruct (n_is A w 1); auto. cbn. lia.
  - apply bind_ok in H as (v1 & H1 & H). apply bind_ok in H as (v2 & H2 & H). eapply e_pow_nat; eauto.
  - repeat (apply bind_ok in H as (? & _ & H)). injection H as <-. exact I.
  - apply bind_ok in H as (v1 & H1 & H). destruct f; try discriminate; repeat (apply bind_ok in H as (? & _ & H)); injection H as <-; exact I.
  - apply bind_ok in H as (v1 & H1 & H). injection H as <-. destruct v1; cbn; auto. lia.
Qed.
End Any.

(** Whenever evalf returns, the result is a float or a natural number. *)
Theorem c86_result A s e v : evalf A s e = Ok v -> (exists f, v = NF f) \/ (exists n, v = NZ (Z.of_nat n)).
Proof.
  intros H. apply evalf_nat in H. destruct v as [z|f]; [right|left; eauto]. exists (Z.to_nat z). f_equal. cbn in H. lia.
Qed.
(** An expression that contains a symbol has no numerical value, whatever is passed for the symbols. *)
Theorem c86_symbols A s e v r : contains v e = true -> evalf A s e <> Ok r.
Proof.
  revert r. induction e as [q| | | | | | |ts IH|ts IH|b x IHb IHx|i b IHi IHb|f i IHi|i IHi] using expr_ind'; intros r C H;
    cbn [contains] in C; rewrite ?evalf_sum, ?evalf_prod in H; cbn [evalf] in H; try discriminate.
  - apply bind_ok in H as (l & Hl & _). apply mapM_Forall2 in Hl. apply existsb_exists in C as (t & It & Ct).
    rewrite Forall_forall in IH. clear -IH Hl It Ct. induction Hl; [destruct It|]. destruct It as [->|It].
    + eapply IH; [now left|exact Ct|eassumption].
    + apply IHHl; auto. intros. eapply IH; [right|..]; eauto.
  - apply bind_ok in H as (l & Hl & _). apply mapM_Forall2 in Hl. apply existsb_exists in C as (t & It & Ct).
    rewrite Forall_forall in IH. clear -IH Hl It Ct. induction Hl; [destruct It|]. destruct It as [->|It].
    + eapply IH; [now left|exact Ct|eassumption].
    + apply IHHl; auto. intros. eapply IH; [right|..]; eauto.
  - apply bind_ok in H as (v1 & H1 & H). apply bind_ok in H as (v2 & H2 & _). apply orb_prop in C as [C|C]; eauto; [eapply IHb|eapply IHx]; eauto.
  - apply bind_ok in H as (v1 & H1 & H). apply bind_ok in H as (v2 & H2 & _). apply orb_prop in C as [C|C]; eauto; [eapply IHi|eapply IHb]; eauto.
  - apply bind_ok in H as (v1 & H1 & H). eapply IHi; eauto.
  - apply bind_ok in H as (v1 & H1 & H). eapply IHi; eauto.
Qed.

(** The substitutions passed to evalf never matter. *)
Theorem c86_subs_ignored A s1 s2 e : evalf A s1 e = evalf A s2 e.
Proof.
  induction e as [q| | | | | | |ts IH|ts IH|b x IHb IHx|i b IHi IHb|f i IHi|i IHi] using expr_ind'; rewrite ?evalf_sum, ?evalf_prod; cbn [evalf]; auto.
  - assert (E : mapM (evalf A s1) ts = mapM (evalf A s2) ts); [|now rewrite E].
    induction IH as [|t l Ht Hl IHl]; [reflexivity|]. cbn [mapM]. now rewrite Ht, IHl.
  - assert (E : mapM (evalf A s1) ts = mapM (evalf A s2) ts); [|now rewrite E].
    induction IH as [|t l Ht Hl IHl]; [reflexivity|]. cbn [mapM]. now rewrite Ht, IHl.
  - now rewrite IHb, IHx.
  - now rewrite IHi, IHb.
  - now rewrite IHi.
  - now rewrite IHi.
Qed.

(** ** The value *)
Section Exact.
Context (A : farith) (val : A -> R) (HA : exact A val).
Local Notation V := (nval val).

Lemma n_is_val v z : n_is A v z = true -> V v = IZR z.
Proof. destruct v; cbn; intros H; [apply Z.eqb_eq in H; now subst|now apply (x_eqz _ _ HA)]. Qed.
Lemma n_eq_val v w : n_eq A v w = true -> V v = V w.
Proof.
  destruct v as [k|f], w as [l|g]; intros H.
  - cbn in H. apply Z.eqb_eq in H. now subst.
  - symmetry. now apply (n_is_val (NF g) k).
  - now apply (n_is_val (NF f) l).
  - now apply (x_eq _ _ HA).
Qed.
Lemma n_float_val v f : n_float A v = Ok f -> val f = V v.
Proof.
  destruct v as [z|g]; cbn; intros H; [|now injection H as ->]. apply (x_of _ _ HA) in H. rewrite H.
  unfold Q2R, inject_Z. cbn. field.
Qed.
Lemma n_op_val oz of v w r (o : R -> R -> R) : (forall a b, IZR (oz a b) = o (IZR a) (IZR b)) ->
  (forall f g, val (of f g) = o (val f) (val g)) -> n_op A oz of v w = Ok r -> V r = o (V v) (V w).
Proof.
  intros Hz Hf H. unfold n_op in H. destruct v as [k|f], w as [l|g].
  - injection H as <-. apply Hz.
  - apply bind_ok in H as (a & Ha & H). apply bind_ok in H as (b & Hb & H). injection H as <-.
    cbn [nval]. rewrite Hf. f_equal; [apply (n_float_val (NZ k) a)|apply (n_float_val (NF g) b)]; assumption.
  - apply bind_ok in H as (a & Ha & H). apply bind_ok in H as (b & Hb & H). injection H as <-.
    cbn [nval]. rewrite Hf. f_equal; [apply (n_float_val (NF f) a)|apply (n_float_val (NZ l) b)]; assumption.
  - apply bind_ok in H as (a & Ha & H). apply bind_ok in H as (b & Hb & H). injection H as <-.
    cbn [nval]. rewrite Hf. f_equal; [apply (n_float_val (NF f) a)|apply (n_float_val (NF g) b)]; assumption.
Qed.
Lemma n_add_val v w r : n_add A v w = Ok r -> V r = V v + V w.
Proof. apply n_op_val; [apply plus_IZR|apply (x_add _ _ HA)]. Qed.
Lemma n_mul_val v w r : n_mul A v w = Ok r -> V r = V v * V w.
Proof. apply n_op_val; [apply mult_IZR|apply (x_mul _ _ HA)]. Qed.
Lemma fold_add_val l : forall a r, foldM (n_add A) l a = Ok r -> V r = V a + Rsum (map V l).
Proof.
  induction l as [|x l IH]; intros a r H; cbn in H |- *; [injection H as <-; ring|].
  apply bind_ok in H as (b & Hb & H). apply n_add_val in Hb. rewrite (IH _ _ H), Hb. unfold Rsum. ring.
Qed.
Lemma fold_mul_val l : forall a r, foldM (n_mul A) l a = Ok r -> V r = V a * Rprod (map V l).
Proof.
  induction l as [|x l IH]; intros a r H; cbn in H |- *; [injection H as <-; ring|].
  apply bind_ok in H as (b & Hb & H). apply n_mul_val in Hb. rewrite (IH _ _ H), Hb. unfold Rprod. ring.
Qed.
Lemma acc_sum_val l r : acc_sum A l = Ok r -> V r = Rsum (map V l).
Proof.
  intros H. destruct l as [|x [|y l]]; unfold acc_sum in H; [|injection H as <-; cbn; ring|]; apply fold_add_val in H; rewrite H; cbn; ring.
Qed.
Lemma acc_prod_val l r : acc_prod A l = Ok r -> V r = Rprod (map V l).
Proof.
  intros H. destruct l as [|x [|y l]]; unfold acc_prod in H; [|injection H as <-; cbn; ring|]; apply fold_mul_val in H; rewrite H; cbn; ring.
Qed.
Lemma e_sum_val l r : e_sum A l = Ok r -> V r = Rsum (map V l).
Proof.
  intros H. destruct l as [|x l]; [injection H as <-; reflexivity|]. unfold e_sum in H.
  apply bind_ok in H as (v & Hv & H). injection H as <-. apply acc_sum_val in Hv. rewrite <- Hv.
  destruct (n_is A v 0) eqn:E; [|reflexivity]. apply n_is_val in E. now rewrite E.
Qed.
Lemma e_pow_val b x r : e_pow A b x = Ok r -> V r = rpow (V b) (V x).
Proof.
  unfold e_pow. intros H. destruct (n_is A x 0) eqn:E0.
  { injection H as <-. apply n_is_val in E0. now rewrite E0, rpow_0. }
  destruct (n_is A x 1) eqn:E1.
  { injection H as <-. apply n_is_val in E1. now rewrite E1, rpow_1. }
  destruct (n_is A b 1) eqn:E2.
  { injection H as <-. apply n_is_val in E2. now rewrite E2, rpow_1_l. }
  assert (K : forall b x, (f <- n_float A b;; g <- n_float A x;; h <- f_pow A f g;; Ok (NF h)) = Ok r -> V r = rpow (V b) (V x)).
  { clear -HA. intros b x H. apply bind_ok in H as (f & Hf & H). apply bind_ok in H as (g & Hg & H). apply bind_ok in H as (h & Hh & H).
    injection H as <-. cbn [nval]. rewrite (x_pow _ _ HA _ _ _ Hh). f_equal; now apply n_float_val. }
  destruct b as [k|f], x as [n|g]; try (exact (K _ _ H)).
  destruct (Z.ltb_spec n 0) as [L|L]; [discriminate|]. injection H as <-. cbn [nval].
  rewrite rpow_int by (right; lia). rewrite <- (Z2Nat.id n) by lia. rewrite <- pow_powerRZ. symmetry. apply pow_IZR.
Qed.
Lemma filter_le {B} (f : B -> bool) l : (List.length (filter f l) <= List.length l)%nat.
Proof. induction l as [|a l IH]; cbn; [lia|]. destruct (f a); cbn; lia. Qed.
Lemma Rprod_split p (l : list (num A)) :
  Rprod (map V l) = Rprod (map V (filter p l)) * Rprod (map V (filter (fun w => negb (p w)) l)).
Proof. induction l as [|x l IH]; cbn; [ring|]. unfold Rprod in *. rewrite IH. destruct (p x); cbn; ring. Qed.
Lemma Rprod_const (x : R) (l : list (num A)) : (forall w, In w l -> V w = x) -> Rprod (map V l) = x ^ List.length l.
Proof.
  induction l as [|w l IH]; intros H; cbn; [reflexivity|]. unfold Rprod in *. rewrite IH by (intros; apply H; now right).
  f_equal. apply H. now left.
Qed.
Lemma groups_val k : forall l r, (List.length l <= k)%nat -> groups A k l = Ok r -> Rprod (map V r) = Rprod (map V l).
Proof.
  induction k as [|k IH]; intros l r L H; [destruct l; [injection H as <-; reflexivity|cbn in L; lia]|].
  destruct l as [|v l]; [injection H as <-; reflexivity|]. cbn [groups] in H.
  apply bind_ok in H as (t & Ht & H). apply bind_ok in H as (ts & Hts & H). injection H as <-.
  apply IH in Hts.
  2:{ cbn in L. pose proof (filter_le (fun w => negb (n_eq A w v)) l). lia. }
  cbn [map]. change (V t * Rprod (map V ts) = V v * Rprod (map V l)). rewrite Hts, (Rprod_split (fun w => n_eq A w v) l).
  rewrite (Rprod_const (V v) (filter (fun w => n_eq A w v) l)).
  2:{ intros w Hw. apply filter_In in Hw as [_ Hw]. now apply n_eq_val. }
  rewrite <- Rmult_assoc. f_equal. destruct (filter (fun w => n_eq A w v) l) as [|w ws] eqn:E.
  - injection Ht as <-. cbn. ring.
  - apply e_pow_val in Ht. rewrite Ht. cbn [nval]. rewrite rpow_int by (right; lia). rewrite <- pow_powerRZ. cbn. ring.
Qed.
Lemma e_prod_val l r : e_prod A l = Ok r -> V r = Rprod (map V l).
Proof.
  intros H. unfold e_prod in H. apply bind_ok in H as (g & Hg & H). apply groups_val in Hg; [|lia]. rewrite <- Hg.
  destruct g as [|a g]; [injection H as <-; reflexivity|]. apply bind_ok in H as (c & Hc & H). apply acc_prod_val in Hc. rewrite <- Hc.
  destruct (n_is A c 0) eqn:E0; [now injection H as <-|]. destruct (n_is A c 1) eqn:E1; injection H as <-; auto.
  apply n_is_val in E1. now rewrite E1.
Qed.

Lemma evalf_val s rho e : no_infinity e -> forall v, evalf A s e = Ok v -> V v = ev rho (natural e).
Proof.
  induction e as [q| | | | | | |ts IH|ts IH|b x IHb IHx|i b IHi IHb|f i IHi|i IHi] using expr_ind'; intros N v H; rewrite ?evalf_sum, ?evalf_prod in H; cbn [evalf] in H;
    cbn [natural ev] in *; cbn [no_infinity] in N; try discriminate; try tauto.
  - apply bind_ok in H as (f & Hf & H). injection H as <-. now apply (x_of _ _ HA).
  - injection H as <-. apply (x_pi _ _ HA).
  - injection H as <-. apply (x_e _ _ HA).
  - apply bind_ok in H as (l & Hl & H). apply e_sum_val in H. rewrite H. apply mapM_Forall2 in Hl. clear H. f_equal.
    revert l Hl. induction IH as [|t ts Ht _ IHt]; intros l F2; inversion F2; subst; [reflexivity|]. destruct N. cbn [map].
    f_equal; [now apply Ht|now apply IHt].
  - apply bind_ok in H as (l & Hl & H). apply e_prod_val in H. rewrite H. apply mapM_Forall2 in Hl. clear H. f_equal.
    revert l Hl. induction IH as [|t ts Ht _ IHt]; intros l F2; inversion F2; subst; [reflexivity|]. destruct N. cbn [map].
    f_equal; [now apply Ht|now apply IHt].
  - destruct N as [Nb Nx]. apply bind_ok in H as (v1 & H1 & H). apply bind_ok in H as (v2 & H2 & H). apply e_pow_val in H. rewrite H. f_equal; auto.
  - destruct N as [Ni Nb]. apply bind_ok in H as (v1 & H1 & H). apply bind_ok in H as (v2 & H2 & H). apply bind_ok in H as (f & Hf & H).
    apply bind_ok in H as (g & Hg & H). injection H as <-. cbn [nval]. rewrite (x_log _ _ HA _ _ Hg), (n_float_val _ _ Hf), (IHi Ni _ H1).
    rewrite ln_exp. field.
  - apply bind_ok in H as (v1 & H1 & H). destruct f; try discriminate;
      apply bind_ok in H as (a & Ha & H); apply bind_ok in H as (g & Hg & H); injection H as <-; cbn [nval];
      rewrite (x_trig _ _ HA _ _ _ Hg), (n_float_val _ _ Ha), (IHi N _ H1); reflexivity.
  - apply bind_ok in H as (v1 & H1 & H). injection H as <-. rewrite <- (IHi N _ H1).
    destruct v1; cbn [nval]; [apply abs_IZR|apply (x_abs _ _ HA)].
Qed.
End Exact.

(** Up to rounding, evalf gives the value of the expression with all logarithms read as natural ones. *)
Theorem c86_value A val s rho e v : exact A val -> no_infinity e -> evalf A s e = Ok v -> nval val v = ev rho (natural e).
Proof. intros HA N H. eapply evalf_val; eauto. Qed.

(** ** The real numbers as an exact arithmetic: evalf returns on every expression it supports *)
Definition pow_real (a y : R) : res R :=
  if Rlt_dec 0 a then Ok (Rpower a y)
  else if Req_EM_T a 0 then
    (if Rlt_dec y 0 then Raise ZeroDivisionError else Ok (if Req_EM_T y 0 then 1 else 0))
  else if Req_EM_T y (IZR (Int_part y)) then Ok (powerRZ a (Int_part y)) else Raise AssertionError.
Definition log_real (a : R) : res R := if Rlt_dec 0 a then Ok (ln a) else Raise ValueError.
Definition trig_real (t : trig) (a : R) : res R :=
  match t with
  | Asin | Acos => if Rle_dec (-1) a then if Rle_dec a 1 then Ok (tev t a) else Raise ValueError else Raise ValueError
  | _ => Ok (tev t a)
  end.
Definition Reals : farith := {|
  F := R; f_of := fun q => Ok (Q2R q); f_pi := PI; f_e := exp 1; f_inf := 0; f_ninf := 0;
  f_eqz := fun a z => if Req_EM_T a (IZR z) then true else false;
  f_eq := fun a b => if Req_EM_T a b then true else false;
  f_add := Rplus; f_mul := Rmult; f_pow := pow_real; f_log := log_real; f_trig := trig_real; f_abs := Rabs |}.
Lemma Reals_exact : exact Reals (fun x => x).
Proof.
  constructor; cbn; auto.
  - intros q f H. now injection H as <-.
  - intros f z. destruct (Req_EM_T f (IZR z)); [auto|discriminate].
  - intros f g. destruct (Req_EM_T f g); [auto|discriminate].
  - intros f g h. unfold pow_real, rpow. destruct (Rlt_dec 0 f); [now intros [= <-]|]. destruct (Req_EM_T f 0).
    + destruct (Rlt_dec g 0); [discriminate|]. now intros [= <-].
    + destruct (Req_EM_T g (IZR (Int_part g))); [|discriminate]. now intros [= <-].
  - intros f h. unfold log_real. destruct (Rlt_dec 0 f); [|discriminate]. now intros [= <-].
  - intros t f h. unfold trig_real. destruct t; try (now intros [= <-]);
      (destruct (Rle_dec (-1) f); [|discriminate]; destruct (Rle_dec f 1); [|discriminate]; now intros [= <-]).
Qed.

(** The expressions evalf supports: no symbols, wildcards, infinities, csc, sec, cot; logarithms to base e;
    every power, logarithm and function value exists. *)
Fixpoint supported (e : expr) : Prop :=
  match e with
  | ERat _ | EPi | EE => True
  | EInf | ENegInf | EAny _ | ESym _ => False
  | ESum ts | EProd ts => (fix all l := match l with [] => True | t :: r => supported t /\ all r end) ts
  | EPow b x =>
      let a := ev (fun _ => 0) b in
      let y := ev (fun _ => 0) x in
      supported b /\ supported x /\
      (0 < a \/ (a = 0 /\ 0 <= y) \/ (a <> 0 /\ exists k, y = IZR k))
  | ELog i b => b = EE /\ supported i /\ 0 < ev (fun _ => 0) i
  | ETrig f i => supported i /\ match f with Csc | Sec | Cot => False | _ => tdom f (ev (fun _ => 0) i) end
  | EAbs i => supported i
  end.

Lemma supported_natural e : supported e -> natural e = e.
Proof.
  induction e as [q| | | | | | |ts IH|ts IH|b x IHb IHx|i b IHi IHb|f i IHi|i IHi] using expr_ind'; cbn [supported natural]; intros H; auto.
  - f_equal. induction IH as [|t r Ht _ IHr]; [reflexivity|]. destruct H as [H1 H2]. cbn [map]. f_equal; [apply Ht; exact H1|apply IHr; exact H2].
  - f_equal. induction IH as [|t r Ht _ IHr]; [reflexivity|]. destruct H as [H1 H2]. cbn [map]. f_equal; [apply Ht; exact H1|apply IHr; exact H2].
  - destruct H as (A & B & _). f_equal; auto.
  - destruct H as (-> & B & _). f_equal; auto.
  - destruct H as (A & _). f_equal; auto.
  - f_equal; auto.
Qed.
Lemma supported_finite e : supported e -> no_infinity e.
Proof.
  induction e as [q| | | | | | |ts IH|ts IH|b x IHb IHx|i b IHi IHb|f i IHi|i IHi] using expr_ind'; cbn [supported no_infinity]; intros H; auto.
  - induction IH as [|t r Ht _ IHr]; [exact I|]. destruct H as [H1 H2]. split; [apply Ht; exact H1|apply IHr; exact H2].
  - induction IH as [|t r Ht _ IHr]; [exact I|]. destruct H as [H1 H2]. split; [apply Ht; exact H1|apply IHr; exact H2].
  - destruct H as (A & B & _). split; auto.
  - destruct H as (-> & B & _). split; auto. exact I.
  - destruct H as (A & _). auto.
Qed.

Section Total.
Local Notation V := (nval (A := Reals) (fun x => x)).
Lemma n_float_total v : n_float Reals v = Ok (V v).
Proof. destruct v as [z|f]; cbn; auto. f_equal. unfold Q2R, inject_Z. cbn. field. Qed.
Lemma n_op_total oz of v w : exists r, n_op Reals oz of v w = Ok r.
Proof. destruct v, w; cbn; eauto. Qed.
Lemma fold_total oz of l : forall a, exists r, foldM (n_op Reals oz of) l a = Ok r.
Proof. induction l as [|x l IH]; intros a; cbn; eauto. destruct (n_op_total oz of a x) as [r ->]. apply IH. Qed.
Lemma e_sum_total l : exists r, e_sum Reals l = Ok r.
Proof.
  destruct l as [|x l]; cbn [e_sum]; eauto.
  assert (T : exists v, acc_sum Reals (x :: l) = Ok v) by (destruct l; cbn [acc_sum]; eauto; apply fold_total).
  destruct T as [v ->]. cbn. eauto.
Qed.
Lemma acc_prod_total l : exists r, acc_prod Reals l = Ok r.
Proof. destruct l as [|x [|y l]]; cbn [acc_prod]; eauto; apply fold_total. Qed.
(** a power that exists *)
Lemma e_pow_total b x : nat_num Reals b -> nat_num Reals x ->
  (0 < V b \/ (V b = 0 /\ 0 <= V x) \/ (V b <> 0 /\ exists k, V x = IZR k)) -> exists r, e_pow Reals b x = Ok r.
Proof.
  intros Nb Nx D. unfold e_pow. destruct (n_is Reals x 0); [eauto|]. destruct (n_is Reals x 1); [eauto|].
  destruct (n_is Reals b 1); [eauto|].
  assert (P : exists h, pow_real (V b) (V x) = Ok h).
  { unfold pow_real. destruct (Rlt_dec 0 (V b)); [eauto|]. destruct (Req_EM_T (V b) 0).
    - destruct (Rlt_dec (V x) 0); [|eauto]. lra.
    - destruct D as [D|[D|[_ [k D]]]]; try lra. destruct (Req_EM_T (V x) (IZR (Int_part (V x)))) as [E|E]; [eauto|].
      exfalso. apply E. rewrite D. f_equal. symmetry.
      pose proof (base_Int_part (IZR k)) as [B1 B2]. apply le_IZR in B1.
      assert (IZR (Int_part (IZR k)) - IZR k > -1) by lra. rewrite <- minus_IZR in H.
      assert (- 1 < Int_part (IZR k) - k)%Z by (apply lt_IZR; lra). lia. }
  destruct P as [h Hh].
  assert (K : exists r, (f <- n_float Reals b;; g <- n_float Reals x;; h <- f_pow Reals f g;; Ok (NF h)) = Ok r).
  { rewrite !n_float_total. cbn [bind]. change (f_pow Reals) with pow_real. rewrite Hh. cbn. eauto. }
  destruct b as [k|f], x as [n|g]; auto. cbn in Nx. destruct (Z.ltb_spec n 0); [lia|eauto].
Qed.
Lemma groups_total k : forall l, Forall (nat_num Reals) l -> exists r, groups Reals k l = Ok r.
Proof.
  induction k as [|k IH]; intros l N; [destruct l; cbn; eauto|]. destruct l as [|v l]; [cbn; eauto|].
  inversion N as [|? ? Nv Nl]; subst. cbn [groups].
  destruct (IH (filter (fun w => negb (n_eq Reals w v)) l)) as [ts ->]; [now apply Forall_filter|].
  destruct (filter (fun w => n_eq Reals w v) l) as [|w ws]; [cbn; eauto|].
  destruct (e_pow_total v (NZ (Z.of_nat (S (List.length (w :: ws)))))) as [t ->]; auto.
  - cbn. lia.
  - destruct (Req_dec (V v) 0) as [E|E].
    + right. left. split; [exact E|]. cbn [nval]. apply IZR_le. lia.
    + right. right. split; [exact E|]. cbn [nval]. eauto.
  - cbn. eauto.
Qed.
End Total.

Theorem c86_total s rho e : supported e -> exists v, evalf Reals s e = Ok v /\ nval (A := Reals) (fun x => x) v = ev rho e.
Proof.
  intros S0. assert (T : exists v, evalf Reals s e = Ok v).
  2:{ destruct T as [v Hv]. exists v. split; [exact Hv|]. rewrite <- (supported_natural e S0) at 1.
      eapply c86_value; [apply Reals_exact|now apply supported_finite|exact Hv]. }
  induction e as [q| | | | | | |ts IH|ts IH|b x IHb IHx|i b IHi IHb|f i IHi|i IHi] using expr_ind'; rewrite ?evalf_sum, ?evalf_prod; cbn [evalf];
    cbn [supported] in S0; try tauto; try (eexists; reflexivity).
  - assert (T : exists l, mapM (evalf Reals s) ts = Ok l).
    { induction IH as [|t ts Ht _ IHt]; [cbn; eauto|]. destruct S0 as [S1 S2]. destruct (Ht S1) as [v Hv]. destruct (IHt S2) as [vs Hvs].
      cbn [mapM]. rewrite Hv, Hvs. cbn. eauto. }
    destruct T as [l ->]. apply e_sum_total.
  - assert (T : exists l, mapM (evalf Reals s) ts = Ok l).
    { induction IH as [|t ts Ht _ IHt]; [cbn; eauto|]. destruct S0 as [S1 S2]. destruct (Ht S1) as [v Hv]. destruct (IHt S2) as [vs Hvs].
      cbn [mapM]. rewrite Hv, Hvs. cbn. eauto. }
    destruct T as [l Hl]. rewrite Hl. cbn [bind]. unfold e_prod.
    assert (N : Forall (nat_num Reals) l).
    { apply mapM_Forall2 in Hl. clear -Hl. induction Hl; constructor; auto. eapply evalf_nat; eauto. }
    destruct (groups_total (List.length l) l N) as [g ->]. cbn [bind]. destruct g as [|a g]; [eauto|].
    destruct (acc_prod_total (a :: g)) as [r ->]. cbn. destruct (n_is Reals r 0); eauto. 
  - destruct S0 as (Sb & Sx & D). destruct (IHb Sb) as [v Hv]. destruct (IHx Sx) as [w Hw]. rewrite Hv, Hw. cbn [bind].
    apply e_pow_total; [eapply evalf_nat; eauto|eapply evalf_nat; eauto|].
    rewrite (c86_value _ _ _ (fun _ => 0) _ _ Reals_exact (supported_finite _ Sb) Hv), (supported_natural _ Sb).
    rewrite (c86_value _ _ _ (fun _ => 0) _ _ Reals_exact (supported_finite _ Sx) Hw), (supported_natural _ Sx). exact D.
  - destruct S0 as (-> & Si & D). destruct (IHi Si) as [v Hv]. rewrite Hv. cbn [bind evalf]. rewrite n_float_total. cbn [bind].
    rewrite (c86_value _ _ _ (fun _ => 0) _ _ Reals_exact (supported_finite _ Si) Hv), (supported_natural _ Si).
    change (f_log Reals) with log_real. unfold log_real. destruct (Rlt_dec 0 (ev (fun _ => 0) i)); [|lra]. cbn. eauto.
  - destruct S0 as (Si & D). destruct (IHi Si) as [v Hv]. rewrite Hv. cbn [bind].
    pose proof (c86_value _ _ _ (fun _ => 0) _ _ Reals_exact (supported_finite _ Si) Hv) as E. rewrite (supported_natural _ Si) in E.
    destruct f; try tauto; rewrite n_float_total; cbn [bind]; rewrite E; change (f_trig Reals) with trig_real; cbn [trig_real bind]; eauto;
      cbn in D; (destruct (Rle_dec (-1) (ev (fun _ => 0) i)); [|lra]); (destruct (Rle_dec (ev (fun _ => 0) i) 1); [|lra]); cbn; eauto.
  - destruct (IHi S0) as [v ->]. cbn. eauto.
Qed.

(** ** What evalf does not do *)
(** The expression contains csc, sec or cot. *)
Fixpoint has_reciprocal (e : expr) : Prop :=
  match e with
  | ESum ts | EProd ts => (fix any l := match l with [] => False | t :: r => has_reciprocal t \/ any r end) ts
  | EPow b x | ELog b x => has_reciprocal b \/ has_reciprocal x
  | ETrig f i => f = Csc \/ f = Sec \/ f = Cot \/ has_reciprocal i
  | EAbs i => has_reciprocal i
  | _ => False
  end.
(** It has no numerical value in any arithmetic. *)
Theorem c86_reciprocal_refuted A s e r : has_reciprocal e -> evalf A s e <> Ok r.
Proof.
  revert r. induction e as [q| | | | | | |ts IH|ts IH|b x IHb IHx|i b IHi IHb|f i IHi|i IHi] using expr_ind'; intros r C H;
    cbn [has_reciprocal] in C; rewrite ?evalf_sum, ?evalf_prod in H; cbn [evalf] in H; try contradiction.
  - apply bind_ok in H as (l & Hl & _). apply mapM_Forall2 in Hl. clear r. revert l Hl.
    induction IH as [|t ts Ht _ IHt]; intros l F2; [contradiction|]. inversion F2; subst. destruct C as [C|C]; [eapply Ht; eauto|eapply IHt; eauto].
  - apply bind_ok in H as (l & Hl & _). apply mapM_Forall2 in Hl. clear r. revert l Hl.
    induction IH as [|t ts Ht _ IHt]; intros l F2; [contradiction|]. inversion F2; subst. destruct C as [C|C]; [eapply Ht; eauto|eapply IHt; eauto].
  - apply bind_ok in H as (v1 & H1 & H). apply bind_ok in H as (v2 & H2 & _). destruct C as [C|C]; [eapply IHb|eapply IHx]; eauto.
  - apply bind_ok in H as (v1 & H1 & H). apply bind_ok in H as (v2 & H2 & _). destruct C as [C|C]; [eapply IHi|eapply IHb]; eauto.
  - apply bind_ok in H as (v1 & H1 & H). destruct C as [->|[->|[->|C]]]; try discriminate. eapply IHi; eauto.
  - apply bind_ok in H as (v1 & H1 & H). eapply IHi; eauto.
Qed.
(** csc(2).evalf() and x.evalf({"x": 1}) raise TypeError *)
Theorem c86_type_error :
  evalf Reals [] (ETrig Csc (ERat 2)) = Raise TypeError /\
  (forall A s, evalf A (("x"%string, ERat 1) :: s) (ESym "x") = Raise TypeError).
Proof. split; reflexivity. Qed.
(** log(5, 4).evalf() is the natural logarithm of 5, also in exact arithmetic *)
Theorem c86_log_base_refuted A val s v : exact A val -> evalf A s (ELog (ERat 5) (ERat 4)) = Ok v ->
  nval val v = ln 5 /\ nval val v <> ev (fun _ => 0) (ELog (ERat 5) (ERat 4)).
Proof.
  intros HA H. pose proof (c86_value A val s (fun _ => 0) (ELog (ERat 5) (ERat 4)) v HA (conj I I) H) as X. clear H. cbn [natural ev] in X.
  rewrite ln_exp in X. replace (Q2R 5) with 5 in * by (unfold Q2R; cbn; field).
  assert (E : nval val v = ln 5) by (rewrite X; field). split; [exact E|]. rewrite E. cbn [ev].
  replace (Q2R 5) with 5 by (unfold Q2R; cbn; field). replace (Q2R 4) with 4 by (unfold Q2R; cbn; field). clear X E. intros X.
  assert (L5 : 0 < ln 5) by (rewrite <- ln_1; apply ln_increasing; lra).
  assert (L4 : 1 < ln 4).
  { rewrite <- (ln_exp 1). apply ln_increasing; [apply exp_pos|]. pose proof exp_le_3. lra. }
  apply (Rmult_eq_compat_r (ln 4)) in X. unfold Rdiv in X. rewrite Rmult_assoc, Rinv_l in X by lra.
  assert (ln 5 * 1 < ln 5 * ln 4) by (apply Rmult_lt_compat_l; lra). lra.
Qed.

(** ** Instances *)
(** 2 pi + 2^(1/2) * log(3) * 2^(1/2) + |cos(5)| - 7 *)
Definition c86_e : expr :=
  ESum [EProd [ERat 2; EPi]; EProd [EPow (ERat 2) (ERat (1 # 2)); ELog (ERat 3) EE; EPow (ERat 2) (ERat (1 # 2))];
        EAbs (ETrig Cos (ERat 5)); ERat (-7)].
Example c86_ex : supported c86_e.
Proof. cbn. unfold Q2R; cbn. repeat split; auto; try lra; left; lra. Qed.
Example c86_ex_value : exists v, evalf Reals [] c86_e = Ok v /\
  nval (A := Reals) (fun x => x) v = 2 * PI + 2 * ln 3 + Rabs (cos 5) - 7.
Proof.
  destruct (c86_total [] (fun _ => 0) c86_e c86_ex) as (v & Hv & E). exists v. split; [exact Hv|]. rewrite E.
  cbn [ev c86_e map Rsum Rprod fold_right tev]. rewrite ln_exp.
  replace (Q2R 2) with 2 by (unfold Q2R; cbn; field). replace (Q2R 3) with 3 by (unfold Q2R; cbn; field).
  replace (Q2R 5) with 5 by (unfold Q2R; cbn; field). replace (Q2R (-7)) with (-7) by (unfold Q2R; cbn; field).
  replace (Q2R (1 # 2)) with (/ 2) by (unfold Q2R; cbn; field). rewrite rpow_pos by lra.
  assert (S2 : Rpower 2 (/ 2) * Rpower 2 (/ 2) = 2).
  { rewrite <- Rpower_plus. replace (/ 2 + / 2) with 1 by field. apply Rpower_1. lra. }
  set (r := Rpower 2 (/ 2)) in *. transitivity (2 * PI + r * r * ln 3 + Rabs (cos 5) - 7); [field|now rewrite S2].
Qed.
