(** * FragLib: differentiation and expansion are total on polynomials. *)
From Verif Require Import Atoms Calc Expand Frag.
From Coq Require Import Lqa Qpower.
Open Scope Z_scope.

Lemma mapM_total {A B} (f : A -> res B) (P : A -> Prop) (R : B -> Prop) l :
  (forall a, P a -> exists b, f a = Ok b /\ R b) -> Forall P l -> exists l', mapM f l = Ok l' /\ Forall R l'.
Proof.
  intros Hf. induction 1 as [|a l Ha _ (l' & E & Hl)]; [exists []; auto|].
  destruct (Hf a Ha) as (b & Eb & Hb). exists (b :: l'). split; auto. simpl. rewrite Eb. cbn [bind]. rewrite E. reflexivity.
Qed.

Section Diff.
Context (X : Q -> Prop) (XC : forall p q, (p == q)%Q -> X p -> X q) (XA : forall p q, X p -> X q -> X (p + q)%Q) (X1 : X 1%Q).
Context (XD : forall q, X q -> ~ (q == 0)%Q -> X (q - 1)%Q).
Notation atom := (atom X). Notation fac := (fac X). Notation mono := (mono X). Notation poly := (poly X).
Hint Constructors Frag.atom Frag.fac Frag.mono Frag.poly : core.
Context (dom : expr -> bool) (c : cfg) (n : nat).
Hypothesis HD : forall s q, X q -> pow_always (ESym s) (ERat q) || dom (EPow (ESym s) (ERat q)) = true.
Notation fk := (F dom c (8 + n)).

Lemma diff_atom d v a : atom a -> exists r, diffE fk (2 + d) v a = Ok r /\ mono r.
Proof.
  assert (B : forall s b, exists r, diffE fk (1 + b) v (ESym s) = Ok r /\ mono r).
  { intros s b. exists (if String.eqb s v then ERat 1 else ERat 0). split; auto. destruct (String.eqb s v); auto. }
  intros [s Hs|s q Hs Hq H0]; [apply B|].
  change (2 + d)%nat with (S (S d)). cbn [diffE]. change (negb (contains v (ERat q))) with true. cbn [op_sub bind]. unfold rat.
  assert (Xq : X (Qred (q - 1))) by (eapply XC; [symmetry; apply Qred_correct|]; auto).
  assert (P : exists p, op_pow fk (ESym s) (ERat (Qred (q - 1))) = Ok p /\ mono p).
  { unfold op_pow. change (k_pow fk (ESym s) (ERat (Qred (q - 1)))) with
      (guard (pow_always (ESym s) (ERat (Qred (q - 1))) || dom (EPow (ESym s) (ERat (Qred (q - 1)))))
         (k_pow (K c (8 + n)) (ESym s) (ERat (Qred (q - 1))))).
    rewrite HD by auto. cbn [guard]. rewrite (k_pow_sym c (7 + n)).
    destruct (Qeq_bool (Qred (q - 1)) 0) eqn:E0; [exists (ERat 1); auto|].
    destruct (Qeq_bool (Qred (q - 1)) 1); [exists (ESym s); auto|].
    exists (EPow (ESym s) (ERat (Qred (q - 1)))). split; auto. apply mono_fac, fac_at, at_pow; auto.
    intros E. apply Qeq_bool_iff in E. congruence. }
  destruct P as (p & -> & Mp). cbn [bind].
  destruct (op_mul_mono X XC XA X1 c (4 + n) (ERat q) p) as (m & E & Mm); auto.
  change (op_mul fk (ERat q) p) with (op_mul (K c (4 + (4 + n))) (ERat q) p). rewrite E. cbn [bind].
  apply (op_mul_mono X XC XA X1 c (4 + n) m); auto. destruct (String.eqb s v); auto.
Qed.
Lemma diff_fac d v a : fac a -> exists r, diffE fk (2 + d) v a = Ok r /\ mono r.
Proof. intros [e A|q]; [now apply diff_atom|]. exists (ERat 0). auto. Qed.
Lemma fac_mono l : Forall fac l -> Forall mono l.
Proof. apply Forall_impl. auto. Qed.
Lemma diff_prod_mono_ok d v l : Forall fac l -> forall pre, Forall fac pre ->
  exists ps, diff_prod fk (diffE fk (2 + d) v) pre l = Ok ps /\ Forall mono ps.
Proof.
  induction 1 as [|t l T H IH]; intros pre Hp; [exists []; auto|]. cbn [diff_prod].
  destruct (diff_fac d v t T) as (t' & -> & Mt). cbn [bind].
  destruct (k_prod_monos X XC XA X1 c (4 + n) (t' :: pre ++ l)) as (p & Ep & Mp).
  { constructor; auto. apply Forall_app. split; now apply fac_mono. }
  change (k_prod fk (t' :: pre ++ l)) with (k_prod (K c (4 + (4 + n))) (t' :: pre ++ l)). rewrite Ep. cbn [bind].
  destruct (IH (pre ++ [t])) as (ps & -> & Ms); [apply Forall_app; auto|]. cbn [bind]. eauto.
Qed.
Lemma diff_mono d v e : mono e -> exists r, diffE fk (3 + d) v e = Ok r /\ poly r.
Proof.
  intros [e' F'|ts L F' R N].
  - destruct (diff_fac (1 + d) v e' F') as (r & E & M). exists r. auto.
  - change (3 + d)%nat with (S (2 + d)). cbn [diffE]. destruct (diff_prod_mono_ok d v ts F' []) as (ps & E & Ms); auto.
    rewrite E. cbn [bind].
    apply (k_sum_poly X c n). eapply Forall_impl; [|exact Ms]. auto.
Qed.
Theorem diff_poly d v e : poly e -> exists r, diffE fk (4 + d) v e = Ok r /\ poly r.
Proof.
  intros [e' M|ts L F'].
  - exact (diff_mono (1 + d) v e' M).
  - change (4 + d)%nat with (S (3 + d)). cbn [diffE]. destruct (mapM_total (diffE fk (3 + d) v) mono poly ts (diff_mono d v) F') as (ps & E & P).
    rewrite E. cbn [bind]. exact (k_sum_poly X c n ps P).
Qed.
End Diff.

(** ** Powers with a natural exponent *)
Definition natq (q : Q) : Prop := qisint q = true /\ (0 <= q)%Q.
Lemma natq_0 q : natq q -> ~ (q == 0)%Q -> (1 <= q)%Q.
Proof.
  intros [A B] C. pose proof (numer_int q A) as E. rewrite E in B, C |- *. unfold Qle in *. simpl in *.
  assert (numer q <> 0) by (intros D; apply C; rewrite D; reflexivity). lia.
Qed.
Lemma natq_qeq p q : (p == q)%Q -> natq p -> natq q.
Proof. intros E [A B]. split; [now rewrite <- (qisint_qeq _ _ E)|now rewrite <- E]. Qed.
Lemma natq_inject z : 0 <= z -> natq (inject_Z z).
Proof. intros H. split; [apply RealLemmas.qisint_inject|]. unfold Qle. simpl. lia. Qed.
Lemma natq_is q : natq q -> (q == inject_Z (numer q))%Q /\ 0 <= numer q.
Proof. intros [A B]. pose proof (numer_int q A) as E. split; auto. rewrite E in B. unfold Qle in B. simpl in B. lia. Qed.
Lemma natq_add p q : natq p -> natq q -> natq (p + q)%Q.
Proof.
  intros A B. destruct (natq_is p A) as [Ep Hp], (natq_is q B) as [Eq Hq].
  apply (natq_qeq (inject_Z (numer p + numer q))); [now rewrite inject_Z_plus, <- Ep, <- Eq|apply natq_inject; lia].
Qed.
Lemma natq_mul p q : natq p -> natq q -> natq (p * q)%Q.
Proof.
  intros A B. destruct (natq_is p A) as [Ep Hp], (natq_is q B) as [Eq Hq].
  apply (natq_qeq (inject_Z (numer p * numer q))); [now rewrite inject_Z_mult, <- Ep, <- Eq|apply natq_inject; nia].
Qed.
Lemma natq_pred q : natq q -> ~ (q == 0)%Q -> natq (q - 1)%Q.
Proof.
  intros A B. destruct (natq_is q A) as [Eq Hq]. assert (numer q <> 0) by (intros D; apply B; rewrite Eq, D; reflexivity).
  apply (natq_qeq (inject_Z (numer q - 1))); [|apply natq_inject; lia].
  unfold Z.sub. rewrite inject_Z_plus, <- Eq. reflexivity.
Qed.
Lemma qmod2_even q : qis0 (qmod q 2) = true -> exists z, (q == 2 * inject_Z z)%Q.
Proof. intros H. apply qis0_iff in H. unfold qmod in H. exists (Qfloor (q / 2)). lra. Qed.
Lemma even_not_inv q1 q2 : qis0 (qmod q1 2) = true -> natq q2 -> ~ (q2 == 0)%Q -> Qeq_bool q1 (/ q2) = false.
Proof.
  intros H N Z. destruct (Qeq_bool q1 (/ q2)) eqn:E; auto. exfalso. apply Qeq_bool_iff in E.
  destruct (qmod2_even q1 H) as (z & Hz). destruct (natq_is q2 N) as [E2 _].
  assert (M : (q1 * q2 == 1)%Q) by (rewrite E, Qmult_comm; now apply Qmult_inv_r).
  rewrite Hz, E2 in M. change 2%Q with (inject_Z 2) in M. rewrite <- !inject_Z_mult in M. unfold Qeq in M. cbn [Qnum Qden inject_Z] in M. lia.
Qed.

Section Pow.
Context (X : Q -> Prop) (XC : forall p q, (p == q)%Q -> X p -> X q) (XA : forall p q, X p -> X q -> X (p + q)%Q) (X1 : X 1%Q).
Context (XM : forall p q, X p -> natq q -> ~ (q == 0)%Q -> X (p * q)%Q).
Notation atom := (atom X). Notation fac := (fac X). Notation mono := (mono X). Notation poly := (poly X).
Hint Constructors Frag.atom Frag.fac Frag.mono Frag.poly : core.

Lemma op_neg_coef c n a : mono a -> exists r, op_neg (K c (4 + n)) a = Ok r /\ mono r /\ (coef r == - coef a)%Q.
Proof.
  intros A. destruct (k_prod_mono X XC XA X1 c n [ERat (-1); a]) as (r & E & P & C & _); auto.
  assert (C' : (coef r == - coef a)%Q) by (rewrite C; simpl; ring).
  destruct A as [e [a [s Hs|s q Hs Hq H0]|q]|ts L F R N]; try (exists r; auto; fail).
  exists (rat (- q)). split; [reflexivity|]. split; [apply mono_fac, fac_rat|apply Qred_correct].
Qed.
Lemma k_pow_xsym c n s q : X q -> s <> ""%string -> exists r, k_pow (K c (1 + n)) (ESym s) (ERat q) = Ok r /\ mono r.
Proof.
  intros Hq Hs. change (1 + n)%nat with (S n). rewrite (k_pow_sym c n).
  destruct (Qeq_bool q 0) eqn:E0; [exists (ERat 1); auto|].
  destruct (Qeq_bool q 1); [exists (ESym s); auto|].
  exists (EPow (ESym s) (ERat q)). split; auto. apply mono_fac, fac_at, at_pow; auto.
  intros E. apply Qeq_bool_iff in E. congruence.
Qed.
(** single factors *)
Lemma k_pow_fac c n a q : natq q -> ~ (q == 0)%Q -> fac a -> exists r, k_pow (K c (2 + n)) a (ERat q) = Ok r /\ mono r.
Proof.
  intros Nq Z F. assert (Xq : X q) by (apply (XC (1 * q)); [ring|auto]).
  destruct F as [a [s Hs|s q1 Hs Hq H0]|p].
  - exact (k_pow_xsym c (1 + n) s q Xq Hs).
  - change (K c (2 + n)) with (build c (K c (1 + n))). cbn [build k_pow]. unfold pow_body.
    destruct (isq (ERat q) 0) eqn:E0; [apply isq_rat in E0; contradiction|].
    destruct (isq (ERat q) 1); [exists (EPow (ESym s) (ERat q1)); auto|].
    change (isq (EPow (ESym s) (ERat q1)) 1) with false. cbn [is_acc andb].
    assert (D : exists r, (m <- op_mul (K c (1 + n)) (ERat q1) (ERat q);; op_pow (K c (1 + n)) (ESym s) m) = Ok r /\ mono r).
    { cbn [op_mul bind op_pow]. unfold rat. apply k_pow_xsym; auto. eapply XC; [symmetry; apply Qred_correct|]. auto. }
    unfold mult_exp. destruct (qis0 (qmod q1 2)) eqn:Ev; [|exact D].
    destruct (qis0 q) eqn:Q0; [apply qis0_iff in Q0; contradiction|]. rewrite even_not_inv by auto. exact D.
  - destruct Nq as [Ni Nn]. destruct (k_pow_int c (1 + n) p q Ni (fun _ => Nn)) as (r & E & Hr). exists (ERat r). auto.
Qed.
(** monomials *)
Lemma k_pow_mono_nsub c n e q : natq q -> ~ (q == 0)%Q -> mono e -> (is_prod e = true -> is_sub e = false) ->
  exists r, k_pow (K c (5 + n)) e (ERat q) = Ok r /\ mono r.
Proof.
  intros Nq Z [e' F|ts L F R N] Hs.
  - exact (k_pow_fac c (3 + n) e' q Nq Z F).
  - change (K c (5 + n)) with (build c (K c (4 + n))). cbn [build k_pow]. unfold pow_body.
    destruct (isq (ERat q) 0) eqn:E0; [apply isq_rat in E0; contradiction|].
    destruct (isq (ERat q) 1); [exists (EProd ts); auto|].
    change (isq (EProd ts) 1) with false. cbn [is_acc andb]. rewrite Hs by reflexivity. cbn [is_prod negb andb children].
    destruct (mapM_total (fun t => k_pow (K c (4 + n)) t (ERat q)) fac mono ts) as (l' & -> & Ml); auto.
    { intros a A. exact (k_pow_fac c (2 + n) a q Nq Z A). }
    cbn [bind]. exact (k_prod_monos X XC XA X1 c n l' Ml).
Qed.
Theorem k_pow_mono c n e q : natq q -> mono e -> exists r, k_pow (K c (6 + n)) e (ERat q) = Ok r /\ mono r.
Proof.
  intros Nq M. destruct (Qeq_bool q 0) eqn:E0.
  { exists (ERat 1). split; auto. change (K c (6 + n)) with (build c (K c (5 + n))). cbn [build k_pow]. unfold pow_body, isq. now rewrite E0. }
  assert (Z : ~ (q == 0)%Q) by (intros E; apply Qeq_bool_iff in E; congruence).
  destruct (is_prod e && is_sub e) eqn:S.
  - apply andb_prop in S as [S1 S2]. destruct M as [e' F|ts L F R N]; [exfalso; destruct F as [? []|]; discriminate|].
    change (K c (6 + n)) with (build c (K c (5 + n))). cbn [build k_pow]. unfold pow_body.
    change (isq (ERat q) 0) with (Qeq_bool q 0). rewrite E0.
    destruct (isq (ERat q) 1); [exists (EProd ts); auto|].
    change (isq (EProd ts) 1) with false. cbn [is_acc andb]. rewrite S2. cbn [is_prod negb andb pow_tail].
    unfold pow_tail. rewrite S2. destruct Nq as [Ni Nn]. rewrite Ni. cbn [andb].
    destruct (op_neg_coef c (1 + n) (EProd ts)) as (nb & En & Mn & Cn); auto.
    change (4 + (1 + n))%nat with (5 + n)%nat in En. rewrite En. cbn [bind].
    pose proof (sub_prod_coef ts R S2) as P. simpl in Cn.
    assert (Sn : is_prod nb = true -> is_sub nb = false).
    { intros Hp. destruct Mn as [e' F'|ts' L' F' R' N']; [exfalso; destruct F' as [? []|]; discriminate|].
      apply nneg_sub, coef_pos_nneg; auto. cbn [coef] in Cn. lra. }
    destruct (k_pow_mono_nsub c n nb q (conj Ni Nn) Z Mn Sn) as (r & Er & Mr).
    rewrite Er. cbn [bind]. destruct (Z.even (numer q)); [eauto|].
    destruct (op_neg_mono X XC XA X1 c (1 + n) r Mr) as (r' & Er' & Mr'). eauto.
  - apply (k_pow_mono_nsub c (1 + n)); auto. intros Hp. rewrite Hp in S. exact S.
Qed.
End Pow.

(** ** Expanding *)
(** What expand is meant for: sums, products and natural powers of polynomials with natural
    exponents.  The base of a power is a sum that is not a pure subtraction (all coefficients
    negative): the constructors never build such a power. *)
Notation nmono := (mono natq). Notation npoly := (poly natq). Notation nfac := (fac natq).
Definition simple_base (t : expr) : bool := match t with ESym _ | EPow (ESym _) _ => true | _ => false end.
Inductive factored : expr -> Prop :=
| fx_mono e : nmono e -> factored e
| fx_sum ts : (2 <= List.length ts)%nat -> Forall (fun t => factored t /\ is_sum t = false) ts -> factored (ESum ts)
| fx_prod ts : (2 <= List.length ts)%nat -> Forall (fun t => factored t /\ is_prod t = false) ts ->
    (List.length (rats ts) <= 1)%nat -> NoDup (flat_map names (filter simple_base ts)) -> factored (EProd ts)
| fx_pow ts q : (2 <= List.length ts)%nat -> Forall nmono ts -> is_sub (ESum ts) = false ->
    natq q -> (2 <= q)%Q -> factored (EPow (ESum ts) (ERat q)).

Fixpoint height (e : expr) : nat :=
  match e with
  | ESum ts | EProd ts => S (fold_right Nat.max 0%nat (map height ts))
  | EPow b x | ELog b x => S (Nat.max (height b) (height x))
  | ETrig _ i | EAbs i => S (height i)
  | _ => 1%nat
  end.
Lemma height_in t ts : In t ts -> (height t <= fold_right Nat.max 0%nat (map height ts))%nat.
Proof. induction ts as [|a ts IH]; intros []; simpl; [subst; lia|]. specialize (IH H). lia. Qed.

Lemma flen {A} (f : A -> bool) l : (List.length (filter f l) <= List.length l)%nat.
Proof. induction l as [|a l IH]; simpl; auto. destruct (f a); simpl; lia. Qed.
Lemma one_natq : natq 1.
Proof. split; [reflexivity|discriminate]. Qed.

Section Expand.
Hint Constructors Frag.atom Frag.fac Frag.mono Frag.poly factored : core.
Let N1 : natq 1%Q := one_natq.
Let NM : forall p q, natq p -> natq q -> ~ (q == 0)%Q -> natq (p * q)%Q := fun p q A B _ => natq_mul p q A B.
Context (dom : expr -> bool) (c : cfg) (n : nat).
Notation fk := (F dom c (8 + n)).

Lemma numden_factored ts : Forall (fun t => factored t /\ is_prod t = false) ts -> 
  exists m d, numden_go fk ts = Ok (m, d) /\ Forall (fun t => In t ts \/ exists z, t = ratz z) m /\
    Forall (fun t => exists z, 0 < z /\ t = ratz z) d /\ (List.length d <= List.length (rats ts))%nat /\
    (List.length (rats m) <= List.length (rats ts))%nat.
Proof.
  induction 1 as [|t ts [T P] H (m & d & IH & I1 & I2 & I3 & I4)]; cbn [numden_go].
  - exists [], []. repeat split; auto.
  - assert (W : Forall (fun u => In u (t :: ts) \/ exists z, u = ratz z) m).
    { eapply Forall_impl; [|exact I1]. intros a [A|A]; simpl; auto. }
    assert (Keep : is_rat t = false -> exists m0 d0, Ok (t :: m, d) = Ok (m0, d0) /\ Forall (fun u => In u (t :: ts) \/ exists z, u = ratz z) m0 /\
      Forall (fun t => exists z, 0 < z /\ t = ratz z) d0 /\ (List.length d0 <= List.length (rats (t :: ts)))%nat /\
      (List.length (rats m0) <= List.length (rats (t :: ts)))%nat).
    { intros R. exists (t :: m), d. split; auto. split; [constructor; simpl; auto|]. unfold rats. simpl. rewrite R. auto. }
    destruct T as [e M|us L F|us L F R N|us q L F S Nq Q2]; [destruct M as [e [e' [s Hs|s q Hs [Hi Hq] H0]|q]|us L F R N]| | |].
    + cbn [decon_pow]. rewrite IH. cbn [bind]. apply Keep. reflexivity.
    + cbn [decon_pow]. rewrite IH. cbn [bind]. rewrite (proj2 (qlt0_f q)) by auto. apply Keep. reflexivity.
    + rewrite IH. cbn [bind]. eexists _, _. split; [reflexivity|]. unfold rats in *. cbn [filter is_rat List.length]. repeat split.
      * destruct (numer q =? 1); auto. constructor; eauto.
      * destruct (denom q =? 1); auto. constructor; auto. exists (denom q). split; auto. apply RealLemmas.denom_pos.
      * destruct (denom q =? 1); simpl; lia.
      * destruct (numer q =? 1); simpl; lia.
    + discriminate.
    + cbn [decon_pow]. rewrite IH. cbn [bind]. apply Keep. reflexivity.
    + discriminate.
    + cbn [decon_pow]. rewrite IH. cbn [bind]. rewrite (proj2 (qlt0_f q)) by lra. apply Keep. reflexivity.
Qed.
Lemma acc_rats ts : Forall (fun t => factored t /\ is_prod t = false) ts -> filter is_acc ts = rats ts.
Proof.
  induction 1 as [|t ts [T P] H IH]; auto. unfold rats in *. simpl. rewrite IH.
  destruct T as [e M|us L F|us L F R N|us q L F S Nq Q2]; [destruct M as [e [e' [s Hs|s q Hs [Hi Hq] H0]|q]|us L F R N]| | |]; reflexivity || discriminate.
Qed.
Definition nofac (t : expr) : Prop := factored t /\ is_prod t = false.
Lemma rat_nofac z : nofac (ratz z).
Proof. split; auto. apply fx_mono, mono_fac, fac_rat. Qed.
Lemma numdenF_factored ts : Forall nofac ts -> (List.length (rats ts) <= 1)%nat ->
  exists m z, 0 < z /\ numdenF fk ts = Ok (m, ratz z) /\
    ((exists ms, m = EProd ms /\ Forall (fun t => In t ts \/ exists z, t = ratz z) ms) \/ In m ts \/ exists z, m = ratz z).
Proof.
  intros H R. unfold numdenF. destruct (numden_factored ts H) as (m & d & -> & I1 & I2 & I3 & I4). cbn [bind].
  assert (Hm : Forall nofac m).
  { eapply Forall_impl; [|exact I1]. intros a [A|(z & ->)]; [|apply rat_nofac]. rewrite Forall_forall in H. auto. }
  assert (Hd : Forall nofac d).
  { eapply Forall_impl; [|exact I2]. intros a (z & _ & ->). apply rat_nofac. }
  assert (G : one_constb m && one_constb d = true).
  { unfold one_constb. rewrite (acc_rats m Hm), (acc_rats d Hd). apply andb_true_intro. rewrite !Nat.leb_le. split; [lia|].
    unfold rats. pose proof (flen is_rat d). lia. }
  rewrite G, orb_true_r. cbn [guard].
  assert (D : exists z, 0 < z /\ prod_skip d = Ok (ratz z)).
  { destruct d as [|a [|b d]]; [exists 1; split; auto; lia| |simpl in I3; lia].
    inversion I2 as [|? ? (z & Hz & ->) _]; subst. exists z. auto. }
  destruct D as (z & Hz & ->).
  destruct m as [|a [|b m]].
  - simpl. exists (ERat 1), z. repeat split; auto. right. right. exists 1. reflexivity.
  - inversion Hm as [|? ? [_ Hp] _]; subst. inversion I1 as [|? ? Ha _]; subst.
    assert (E : prod_skip [a] = Ok a) by (destruct a; try reflexivity; discriminate).
    rewrite E. cbn [bind]. exists a, z. repeat split; auto.
  - assert (E : prod_skip (a :: b :: m) = Ok (EProd (a :: b :: m))) by (destruct a; reflexivity).
    rewrite E. cbn [bind]. exists (EProd (a :: b :: m)), z. repeat split; auto. left. eauto.
Qed.

Lemma expandable_fac t : nfac t -> expandable fk t = Ok false.
Proof.
  intros [e [s Hs|s q Hs [Hi Hq] H0]|q]; try reflexivity. cbn [expandable power_expandable is_sum]. now rewrite andb_false_r.
Qed.
Lemma fac_nofac l : Forall nfac l -> Forall nofac l.
Proof. apply Forall_impl. intros a A. split; auto. destruct A as [e [s Hs|s q Hs [Hi Hq] H0]|q]; reflexivity. Qed.
Lemma expandable_nmono t : nmono t -> expandable fk t = Ok false.
Proof.
  intros [e F|ts L F R N]; [now apply expandable_fac|]. cbn [expandable].
  match goal with |- (b <- ?a is_sum ts;; _) = _ => assert (A : a is_sum ts = Ok false) end.
  { clear -F. induction F as [|t ts T F IH]; auto. 
    rewrite (expandable_fac t T). cbn [bind]. rewrite IH. destruct T as [e [s Hs|s q Hs [Hi Hq] H0]|q]; reflexivity. }
  rewrite A. cbn [bind]. destruct (numdenF_factored ts (fac_nofac ts F) R) as (m & z & Hz & -> & _). reflexivity.
Qed.
Lemma expandable_nsum ts : Forall nmono ts -> expandable fk (ESum ts) = Ok false.
Proof.
  intros F. cbn [expandable]. induction F as [|t ts T F IH]; auto. rewrite (expandable_nmono t T). cbn [bind]. exact IH.
Qed.
Lemma poly_nsum t : npoly t -> is_sum t = false -> nmono t.
Proof. intros [e M|ts L F] S; auto. discriminate. Qed.
Lemma nmono_fac t : nmono t -> is_prod t = false -> nfac t.
Proof. intros [e F|ts L F R N] P; auto. discriminate. Qed.

Definition anyE (f : expr -> bool) := fix any (l : list expr) : res bool :=
  match l with [] => Ok false | t :: r => if f t then Ok true else b <- expandable fk t;; if b : bool then Ok true else any r end.
Lemma anyE_cons f t r : anyE f (t :: r) = (if f t then Ok true else b <- expandable fk t;; if b : bool then Ok true else anyE f r).
Proof. reflexivity. Qed.
Lemma expandable_sum_eq ts : expandable fk (ESum ts) = anyE (fun _ => false) ts.
Proof. induction ts as [|t ts IH]; [reflexivity|]. rewrite anyE_cons, <- IH. reflexivity. Qed.
Lemma expandable_prod_eq ts : expandable fk (EProd ts) = (b <- anyE is_sum ts;;
  if b : bool then Ok true else '(_, d) <- numdenF fk ts;; Ok (match d with EProd ds => existsb is_sum ds | _ => false end)).
Proof.
  cbn [expandable]. f_equal. induction ts as [|t ts IH]; [reflexivity|]. rewrite anyE_cons, <- IH. reflexivity.
Qed.
Lemma anyE_ok f ts : (forall t, In t ts -> factored t -> exists b, expandable fk t = Ok b /\ (b = false -> npoly t)) ->
  Forall (fun t => factored t) ts -> exists b, anyE f ts = Ok b /\ (b = false -> Forall (fun t => npoly t /\ f t = false) ts).
Proof.
  intros IH F. induction F as [|t ts T F IHl]; [exists false; auto|]. rewrite anyE_cons.
  destruct (f t) eqn:Ef; [exists true; split; [auto|discriminate]|].
  destruct (IH t) as (b & -> & Hb); [left; auto|auto|]. cbn [bind]. destruct b; [exists true; split; [auto|discriminate]|].
  destruct IHl as (b & -> & Hl); [intros; apply IH; simpl; auto|]. exists b. split; auto.
Qed.

(** expandable answers; "no" means fully expanded *)
Lemma expandable_factored e : factored e -> exists b, expandable fk e = Ok b /\ (b = false -> npoly e).
Proof.
  induction e as [q| | | | |s| |ts IH|ts IH|b x IHb IHx|i b IHi IHb|f i IHi|i IHi] using expr_ind'; intros H;
    try (exists false; split; [reflexivity|]; intros _; inversion H; subst; auto; fail);
    try (exfalso; inversion H as [? M| | |]; subst; inversion M as [? F|]; subst; inversion F as [? A|]; subst; inversion A; fail).
  - rewrite Forall_forall in IH. inversion H as [? M|? L F| |]; subst; [exfalso; inversion M as [? F'|]; subst; inversion F' as [? A|]; subst; inversion A|].
    destruct (anyE_ok (fun _ => false) ts IH) as (b & E & Hb).
    { eapply Forall_impl; [|exact F]. intros a []. auto. }
    exists b. split; [rewrite expandable_sum_eq; exact E|]. intros B. apply poly_sum; auto. specialize (Hb B).
    rewrite Forall_forall in *. intros t Ht. apply poly_nsum; [apply Hb; auto|apply F; auto].
  - rewrite Forall_forall in IH. inversion H as [? M| |? L F R Nd|]; subst.
    { exists false. split; auto. now apply expandable_nmono. }
    destruct (anyE_ok is_sum ts IH) as (b & E & Hb).
    { eapply Forall_impl; [|exact F]. intros a []. auto. }
    rewrite expandable_prod_eq, E. cbn [bind]. destruct b; [exists true; split; [auto|discriminate]|].
    destruct (numdenF_factored ts F R) as (m & z & Hz & -> & _). cbn [bind]. exists false. split; auto. intros _.
    specialize (Hb eq_refl). assert (Ff : Forall nfac ts).
    { rewrite Forall_forall in *. intros t Ht. apply nmono_fac; [apply poly_nsum; apply Hb; auto|apply F; auto]. }
    apply poly_mono, mono_prod; auto.
    assert (Eq : flat_map names (filter simple_base ts) = flat_map names ts).
    { clear -Ff. induction Ff as [|t ts T F IH]; auto. destruct T as [e [s Hs|s q Hs [Hi Hq] H0]|q]; simpl; rewrite ?IH; auto. }
    now rewrite <- Eq.
  - inversion H as [? M| | |us q L F S Nq Q2]; subst.
    { exists false. split; auto. inversion M as [? F'|]; subst. now apply expandable_fac. }
    cbn [expandable]. unfold power_expandable. rewrite (proj1 Nq).
    assert (Q1 : Qeq_bool (Qabs q) 1 = false).
    { apply Bool.not_true_is_false. rewrite Qeq_bool_iff, Qabs_pos by lra. lra. }
    rewrite Q1. exists true. split; [reflexivity|discriminate].
Qed.

Lemma fk_pow b x : k_pow fk b x = guard (pow_always b x || dom (EPow b x)) (k_pow (K c (8 + n)) b x).
Proof. reflexivity. Qed.
Lemma pow_always_nat b q : natq q -> pow_always b (ERat q) = true.
Proof.
  intros [A B]. apply qlt0_f in B. unfold pow_always. destruct b; rewrite ?A, ?B; cbn [negb]; rewrite ?orb_true_r; auto.
Qed.
Lemma multi_ok us m p : Forall nmono us -> us <> [] -> List.length p = List.length us -> Forall (fun v => 0 <= v) p -> zsum p = m ->
  exists r, multi_term fk us m p = Ok r /\ nmono r.
Proof.
  intros F Ne L P Hz. unfold multi_term.
  assert (C : Forall (fun tp => nmono (fst tp) /\ 0 <= snd tp) (combine us p)).
  { apply Forall_forall. intros [t v] Hi. simpl. rewrite Forall_forall in F, P. split; [apply F; eapply in_combine_l; eauto|apply P; eapply in_combine_r; eauto]. }
  destruct (mapM_total (fun tp => k_pow fk (fst tp) (ratz (snd tp))) (fun tp => nmono (fst tp) /\ 0 <= snd tp) nmono (combine us p)) as (ps & -> & Mp); auto.
  { intros tp [H1 H2]. rewrite fk_pow. unfold ratz. rewrite (pow_always_nat _ _ (natq_inject _ H2)). cbn [orb guard].
    exact (k_pow_mono natq natq_qeq natq_add N1 NM c (2 + n) (fst tp) _ (natq_inject _ H2) H1). }
  cbn [bind]. destruct (multinomial_spec p m) as (z & -> & _); auto; [destruct p, us; simpl in *; congruence|lia|].
  cbn [bind]. apply (k_prod_monos natq natq_qeq natq_add N1 c (4 + n)). constructor; auto. apply mono_fac, fac_rat.
Qed.
Lemma k_pow_nsum us q : is_sub (ESum us) = false -> ~ (q == 0)%Q -> ~ (q == 1)%Q -> natq q ->
  k_pow fk (ESum us) (ERat q) = Ok (EPow (ESum us) (ERat q)).
Proof.
  intros S H0 H1 Nq. rewrite fk_pow. rewrite (pow_always_nat _ _ Nq). cbn [orb guard].
  change (K c (8 + n)) with (build c (K c (7 + n))). cbn [build k_pow]. unfold pow_body.
  rewrite (proj2 (isq_rat_f q 0) H0), (proj2 (isq_rat_f q 1) H1). change (isq (ESum us) 1) with false. cbn [is_acc andb is_prod].
  unfold pow_tail. rewrite S. reflexivity.
Qed.
Lemma mono_flat (l : list (list expr)) : Forall (Forall nmono) l -> Forall (Forall nmono) (cart l).
Proof.
  induction 1 as [|a l A H IH]; simpl; [repeat constructor|]. apply Forall_forall. intros x Hx. apply in_flat_map in Hx as (t & Ht & Hx).
  apply in_map_iff in Hx as (y & <- & Hy). rewrite Forall_forall in A, IH. constructor; auto.
Qed.
Lemma split_sums_poly l : Forall npoly l -> Forall (Forall nmono) (fst (split_sums l)) /\ Forall nmono (snd (split_sums l)).
Proof.
  induction 1 as [|t l T H [A B]]; simpl; auto. destruct T as [e M|us L F].
  - assert (Hd : split_sums (e :: l) = (let '(s, o) := split_sums l in (s, e :: o))).
    { destruct M as [e [e' [s Hs|s q Hs [Hi Hq] H0]|q]|ts L F R N]; reflexivity. }
    simpl in Hd. rewrite Hd. destruct (split_sums l); simpl in *; split; auto.
  - destruct (split_sums l); simpl in *; split; auto.
Qed.

(** expand returns, and what it returns is fully expanded *)
Theorem expand_factored : forall d e, factored e -> (height e <= d)%nat ->
  exists r, (b <- expandable fk e;; if b : bool then expandE fk d e else Ok e) = Ok r /\ npoly r.
Proof.
  pose proof (k_prod_monos natq natq_qeq natq_add N1 c (4 + n)) as KP.
  pose proof (k_sum_poly natq c n) as KS.
  induction d as [|d IH]; intros e H Hh; [destruct e; simpl in Hh; lia|].
  destruct (expandable_factored e H) as (b & Eb & Hb). rewrite Eb. cbn [bind]. destruct b; [|eauto].
  cbn [expandE]. rewrite Eb. cbn [bind].
  assert (In1 : forall ts t, In t ts -> factored t -> (S (fold_right Nat.max 0%nat (map height ts)) <= S d)%nat ->
    exists r, (b <- expandable fk t;; if b : bool then expandE fk d t else Ok t) = Ok r /\ npoly r).
  { intros ts t Ht Ft Hd. apply IH; auto. pose proof (height_in t ts Ht). lia. }
  assert (Rt : forall q, exists r, (b <- expandable fk (ERat q);; if b : bool then expandE fk d (ERat q) else Ok (ERat q)) = Ok r /\ npoly r).
  { intros q. exists (ERat q). split; auto. }
  destruct H as [e M|ts L F|ts L F R N|us q L F S Nq Q2].
  - rewrite (expandable_nmono e M) in Eb. discriminate.
  - match goal with |- context [mapM ?g ts] =>
      destruct (mapM_total g (fun t => In t ts /\ factored t) npoly ts) as (l' & -> & Pl) end.
    { intros a [Ha Fa]. apply (In1 ts); auto. }
    { rewrite Forall_forall in *. intros t Ht. split; auto. apply F; auto. }
    cbn [bind]. apply KS; auto.
  - destruct (numdenF_factored ts F R) as (m & z & Hz & -> & Hm). cbn [bind].
    change (expandable fk (ratz z)) with (@Ok bool false). cbn [bind].
    assert (D : exists dts, (d0 <- k_pow fk (ratz z) (ERat (-1));; Ok [d0]) = Ok dts /\ Forall nmono dts).
    { rewrite fk_pow. assert (G : pow_always (ratz z) (ERat (-1)) = true).
      { unfold pow_always, ratz. assert (qgt0 (inject_Z z) = true) as ->; auto. apply qgt0_iff. unfold Qlt. simpl. lia. }
      rewrite G. cbn [orb guard]. unfold ratz.
      destruct (k_pow_int c (7 + n) (inject_Z z) (-1) eq_refl) as (r & Er & _).
      { intros E. exfalso. unfold Qeq in E. simpl in E. lia. }
      change (S (7 + n))%nat with (8 + n)%nat in Er. rewrite Er. cbn [bind]. exists [ERat r]. split; auto. }
    destruct D as (dts & D & Fd). change (match ratz z with EProd ds => mapM (inv_factor fk) ds | _ => d0 <- k_pow fk (ratz z) (ERat (-1));; Ok [d0] end) with (d0 <- k_pow fk (ratz z) (ERat (-1));; Ok [d0]). rewrite D. cbn [bind].
    assert (Tm : forall t, In t ts \/ (exists z, t = ratz z) -> exists r, (b <- expandable fk t;; if b : bool then expandE fk d t else Ok t) = Ok r /\ npoly r).
    { intros t [Ht|(z' & ->)]; [|apply Rt]. apply (In1 ts); auto. rewrite Forall_forall in F. apply F. auto. }
    assert (Single : (In m ts \/ exists z, m = ratz z) -> exists r,
      (num' <- (b <- expandable fk m;; if b : bool then expandE fk d m else Ok m);;
       match num' with
       | ESum us => terms <- mapM (fun u => k_prod fk (u :: dts)) us;; k_sum fk terms
       | _ => k_prod fk (num' :: dts)
       end) = Ok r /\ npoly r).
    { intros Hm'. destruct (Tm m Hm') as (m' & -> & Pm). cbn [bind].
      destruct Pm as [m' Mm|us' L' F'].
      - destruct (KP (m' :: dts)) as (r & Er & Mr); [auto|]. exists r. split; auto.
        destruct Mm as [? [? []|]|]; exact Er.
      - destruct (mapM_total (fun u => k_prod fk (u :: dts)) nmono nmono us') as (l' & -> & Ml); auto.
        { intros a A. apply KP. auto. }
        cbn [bind]. apply KS. eapply Forall_impl; [|exact Ml]. auto. }
    destruct Hm as [(ms & -> & Hms)|Hm].
    + match goal with |- context [mapM ?g ms] => destruct (mapM_total g _ npoly ms Tm Hms) as (l' & -> & Pl) end.
      cbn [bind]. destruct (split_sums_poly l' Pl) as [A B]. destruct (split_sums l') as [sums other]. simpl in A, B.
      destruct sums as [|s0 sums].
      * destruct (KP (other ++ dts)) as (r & Er & Mr); [apply Forall_app; auto|]. exists r. split; auto.
      * destruct (mapM_total (fun us => k_prod fk (other ++ us ++ dts)) (Forall nmono) nmono (cart (s0 :: sums))) as (l2 & -> & Ml).
        { intros a Ha. apply KP. apply Forall_app. split; auto. apply Forall_app. auto. }
        { now apply mono_flat. }
        cbn [bind]. apply KS. eapply Forall_impl; [|exact Ml]. auto.
    + assert (Np : is_prod m = false).
      { destruct Hm as [Hm|(z' & ->)]; [|reflexivity]. rewrite Forall_forall in F. apply F. auto. }
      destruct (Single Hm) as (r & Er & Pr). exists r. split; auto. destruct m; try exact Er. discriminate.
  - rewrite (expandable_nsum us F). cbn [bind].
    change (expandable fk (ERat q)) with (@Ok bool false). cbn [bind].
    rewrite k_pow_nsum; auto; try lra. cbn [bind].
    assert (Pe : power_expandable (ESum us) (ERat q) = true).
    { unfold power_expandable. rewrite (proj1 Nq).
      assert (Q1 : Qeq_bool (Qabs q) 1 = false).
      { apply Bool.not_true_is_false. rewrite Qeq_bool_iff, Qabs_pos by lra. lra. }
      now rewrite Q1. }
    rewrite Pe. destruct (mapM_total (multi_term fk us (Z.abs (numer q)))
      (fun p => List.length p = List.length us /\ Forall (fun v => 0 <= v) p /\ zsum p = Z.abs (numer q)) nmono
      (generate_permutations (List.length us) (Z.abs (numer q)))) as (l' & -> & Ml).
    { intros p (A & B & C). apply multi_ok; auto. destruct us; [simpl in L; lia|discriminate]. }
    { apply Forall_forall. intros p Hp. now apply generate_permutations_spec in Hp. }
    cbn [bind]. destruct (KS l') as (s & Es & Ps); [eapply Forall_impl; [|exact Ml]; auto|].
    change (k_sum fk l') with (k_sum (K c (8 + n)) l'). rewrite Es. cbn [bind].
    rewrite (proj2 (qlt0_f q)) by lra.
    assert (One : forall t, k_pow fk t (ERat 1) = Ok t).
    { intros t. rewrite fk_pow. rewrite (pow_always_nat t 1 N1). reflexivity. }
    unfold op_pow. destruct s; try (rewrite One; eexists; split; [reflexivity|exact Ps]).
    assert (Hq : qis0 q0 && qlt0 1 = false) by now rewrite andb_false_r.
    rewrite Hq. change (qisint 1) with true. cbv iota. eexists. split; [reflexivity|]. apply poly_mono, mono_fac, fac_rat.
Qed.
End Expand.
