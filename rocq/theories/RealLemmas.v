(** * RealLemmas: facts about Q, Q2R and [rpow] used by the soundness proofs. *)
From Verif Require Export Sem.
From Coq Require Export Permutation.
Open Scope R_scope.
#[global] Arguments Qred : simpl never.
#[global] Arguments Q2R : simpl never.
#[global] Arguments Qplus : simpl never.
#[global] Arguments Qminus : simpl never.
#[global] Arguments Qmult : simpl never.
#[global] Arguments Qdiv : simpl never.
#[global] Arguments Qinv : simpl never.
#[global] Arguments Qopp : simpl never.
#[global] Arguments Qabs : simpl never.
#[global] Arguments numer : simpl never.
#[global] Arguments denom : simpl never.
#[global] Arguments rpow : simpl never.

Lemma Q2R_red q : Q2R (Qred q) = Q2R q.
Proof. apply Qeq_eqR, Qred_correct. Qed.

Lemma ev_rat rho q : ev rho (rat q) = Q2R q.
Proof. apply Q2R_red. Qed.

Lemma Q2R_0 : Q2R 0 = 0. Proof. unfold Q2R; simpl; lra. Qed.
Lemma Q2R_1 : Q2R 1 = 1. Proof. unfold Q2R; simpl; lra. Qed.
Lemma Q2R_m1 : Q2R (-1) = -1. Proof. unfold Q2R; simpl; lra. Qed.
Lemma Q2R_inject z : Q2R (inject_Z z) = IZR z.
Proof. unfold Q2R; simpl. rewrite Rinv_1; lra. Qed.

Lemma Q2R_numden q : Q2R q = IZR (numer q) / IZR (denom q).
Proof. rewrite <- (Q2R_red q). reflexivity. Qed.

Lemma denom_pos q : (0 < denom q)%Z.
Proof. unfold denom; lia. Qed.
Lemma denom_IZR_pos q : 0 < IZR (denom q).
Proof. apply IZR_lt, denom_pos. Qed.

Lemma qisint_Q2R q : qisint q = true -> Q2R q = IZR (numer q).
Proof.
  unfold qisint; intros H; apply Z.eqb_eq in H. rewrite Q2R_numden, H. field.
Qed.
Lemma qisint_eq q : qisint q = true -> (q == inject_Z (numer q))%Q.
Proof.
  intros H. apply eqR_Qeq. rewrite qisint_Q2R; auto. now rewrite Q2R_inject.
Qed.

Lemma Qred_inject z : Qred (inject_Z z) = inject_Z z.
Proof.
  unfold Qred, inject_Z. destruct (Z.ggcd z 1) as [g [a b]] eqn:E.
  pose proof (Z.ggcd_correct_divisors z 1) as H1. rewrite E in H1.
  pose proof (Z.ggcd_gcd z 1) as H2. rewrite E in H2; simpl in H2.
  rewrite Z.gcd_1_r in H2. subst g. destruct H1 as [H3 H4].
  assert (Hb : b = 1%Z) by lia. assert (Ha : a = z) by lia. clear - Ha Hb. subst a b. reflexivity.
Qed.
Lemma numer_compat p q : (p == q)%Q -> numer p = numer q.
Proof. intros H. unfold numer. now rewrite (Qred_complete _ _ H). Qed.
Lemma denom_compat p q : (p == q)%Q -> denom p = denom q.
Proof. intros H. unfold denom. now rewrite (Qred_complete _ _ H). Qed.
Lemma qisint_compat p q : (p == q)%Q -> qisint p = qisint q.
Proof. intros H. unfold qisint. now rewrite (denom_compat _ _ H). Qed.
Lemma numer_inject z : numer (inject_Z z) = z.
Proof. unfold numer. now rewrite Qred_inject. Qed.
Lemma qisint_inject z : qisint (inject_Z z) = true.
Proof. unfold qisint, denom. now rewrite Qred_inject. Qed.
Lemma qisint_of_Z q z : (q == inject_Z z)%Q -> qisint q = true /\ numer q = z.
Proof.
  intros H. rewrite (qisint_compat _ _ H), (numer_compat _ _ H).
  split; [apply qisint_inject | apply numer_inject].
Qed.
Lemma qisint_Z q z : Q2R q = IZR z -> qisint q = true /\ numer q = z.
Proof. intros H. apply qisint_of_Z, eqR_Qeq. now rewrite Q2R_inject. Qed.

Lemma qis0_true q : qis0 q = true -> Q2R q = 0.
Proof. unfold qis0; intros H; apply Qeq_bool_eq in H. rewrite (Qeq_eqR _ _ H); apply Q2R_0. Qed.
Lemma qis0_false q : qis0 q = false -> Q2R q <> 0.
Proof.
  unfold qis0; intros H E. rewrite <- Q2R_0 in E. apply eqR_Qeq in E.
  apply Qeq_bool_iff in E. congruence.
Qed.
Lemma Q2R_sgn q : Q2R q = IZR (Qnum q) * / IZR (Zpos (Qden q)).
Proof. reflexivity. Qed.
Lemma qden_pos q : 0 < / IZR (Zpos (Qden q)).
Proof. apply Rinv_0_lt_compat, IZR_lt; lia. Qed.
Lemma qlt0_true q : qlt0 q = true -> Q2R q < 0.
Proof.
  unfold qlt0; intros H; apply Z.ltb_lt in H. rewrite Q2R_sgn.
  pose proof (qden_pos q). apply IZR_lt in H. nra.
Qed.
Lemma qlt0_false q : qlt0 q = false -> 0 <= Q2R q.
Proof.
  unfold qlt0; intros H; apply Z.ltb_ge in H. rewrite Q2R_sgn.
  pose proof (qden_pos q). apply IZR_le in H. nra.
Qed.
Lemma qgt0_true q : qgt0 q = true -> 0 < Q2R q.
Proof.
  unfold qgt0; intros H; apply Z.ltb_lt in H. rewrite Q2R_sgn.
  pose proof (qden_pos q). apply IZR_lt in H. nra.
Qed.
Lemma qgt0_false q : qgt0 q = false -> Q2R q <= 0.
Proof.
  unfold qgt0; intros H; apply Z.ltb_ge in H. rewrite Q2R_sgn.
  pose proof (qden_pos q). apply IZR_le in H. nra.
Qed.
Lemma Qeq_bool_true p q : Qeq_bool p q = true -> Q2R p = Q2R q.
Proof. intros H; apply Qeq_eqR, Qeq_bool_eq, H. Qed.
Lemma Qeq_bool_false p q : Qeq_bool p q = false -> Q2R p <> Q2R q.
Proof. intros H E; apply eqR_Qeq, Qeq_bool_iff in E; congruence. Qed.
Lemma Qle_Q2R p q : (p <= q)%Q <-> Q2R p <= Q2R q.
Proof. split; [apply Qle_Rle | apply Rle_Qle]. Qed.
Lemma Qlt_Q2R p q : (p < q)%Q <-> Q2R p < Q2R q.
Proof. split; [apply Qlt_Rlt | apply Rlt_Qlt]. Qed.
Lemma Q2R_nonneg q : (0 <= q)%Q <-> 0 <= Q2R q.
Proof. rewrite Qle_Q2R, Q2R_0; tauto. Qed.
Lemma Q2R_Qabs q : Q2R (Qabs q) = Rabs (Q2R q).
Proof.
  destruct (Qlt_le_dec q 0) as [H|H].
  - pose proof H as H'. apply Qlt_Q2R in H'. rewrite Q2R_0 in H'.
    rewrite (Qeq_eqR _ (-q)%Q), Q2R_opp, Rabs_left; auto.
    rewrite Qabs_neg; [reflexivity | apply Qlt_le_weak; auto].
  - pose proof H as H'. apply Qle_Q2R in H'. rewrite Q2R_0 in H'.
    rewrite (Qeq_eqR _ q), Rabs_right; auto; [lra|].
    rewrite Qabs_pos; [reflexivity | auto].
Qed.

Lemma numer_pos q : 0 < Q2R q -> (0 < numer q)%Z.
Proof.
  rewrite Q2R_numden; intros H. apply lt_IZR. pose proof (denom_IZR_pos q) as D.
  apply Rinv_0_lt_compat in D. unfold Rdiv in H.
  destruct (Rlt_dec 0 (IZR (numer q))); auto. nra.
Qed.
Lemma numer_neg q : Q2R q < 0 -> (numer q < 0)%Z.
Proof.
  rewrite Q2R_numden; intros H. apply lt_IZR. pose proof (denom_IZR_pos q) as D.
  apply Rinv_0_lt_compat in D. unfold Rdiv in H.
  destruct (Rlt_dec (IZR (numer q)) 0); auto. nra.
Qed.
Lemma numer_neq0 q : Q2R q <> 0 -> (numer q <> 0)%Z.
Proof. rewrite Q2R_numden; intros H E. rewrite E in H. apply H. unfold Rdiv; ring. Qed.

(** ** rpow *)

Lemma Int_part_IZR z : Int_part (IZR z) = z.
Proof.
  unfold Int_part. enough (up (IZR z) = z + 1)%Z by lia.
  symmetry. apply tech_up; rewrite plus_IZR; lra.
Qed.

Lemma rpow_pos b x : 0 < b -> rpow b x = Rpower b x.
Proof. intros H; unfold rpow; destruct (Rlt_dec 0 b); auto; lra. Qed.

Lemma rpow_int b n : (b <> 0 \/ (0 <= n)%Z) -> rpow b (IZR n) = powerRZ b n.
Proof.
  intros H. unfold rpow. destruct (Rlt_dec 0 b) as [Hb|Hb].
  - rewrite powerRZ_Rpower; auto.
  - destruct (Req_EM_T b 0) as [Hz|Hz].
    + destruct H as [H|H]; [contradiction|]. subst b.
      destruct (Req_EM_T (IZR n) 0) as [E|E].
      * apply eq_IZR in E. subst n. reflexivity.
      * destruct n as [|p|p]; [contradiction E; reflexivity| |lia].
        simpl. rewrite pow_ne_zero; auto. pose proof (Pos2Nat.is_pos p); lia.
    + now rewrite Int_part_IZR.
Qed.

Lemma rpow_0 b : rpow b 0 = 1.
Proof.
  replace 0 with (IZR 0) by reflexivity. rewrite rpow_int; [reflexivity|right; lia].
Qed.
Lemma rpow_1 b : rpow b 1 = b.
Proof.
  replace 1 with (IZR 1) by reflexivity. rewrite rpow_int; [|right; lia].
  simpl; ring.
Qed.
Lemma rpow_m1 b : b <> 0 -> rpow b (-1) = / b.
Proof.
  intros H. replace (-1) with (IZR (-1)) by reflexivity. rewrite rpow_int; [|left; auto].
  simpl. now rewrite Rmult_1_r.
Qed.
Lemma rpow_1_l x : rpow 1 x = 1.
Proof. rewrite rpow_pos; [|lra]. unfold Rpower. rewrite ln_1, Rmult_0_r. apply exp_0. Qed.

Lemma rpow_gt0 b x : 0 < b -> 0 < rpow b x.
Proof. intros H; rewrite rpow_pos; auto. apply exp_pos. Qed.

Lemma rpow_ge0 b x : 0 <= b -> 0 <= rpow b x.
Proof.
  intros [H|H]; [left; now apply rpow_gt0|]. subst b.
  unfold rpow. destruct (Rlt_dec 0 0); [lra|].
  destruct (Req_EM_T 0 0); [|lra]. destruct (Req_EM_T x 0); lra.
Qed.

Lemma rpow_plus b x y : 0 < b -> rpow b (x + y) = rpow b x * rpow b y.
Proof. intros H; rewrite !rpow_pos; auto. apply Rpower_plus. Qed.
Lemma rpow_mult b x y : 0 < b -> rpow (rpow b x) y = rpow b (x * y).
Proof.
  intros H. rewrite (rpow_pos b), (rpow_pos b); auto. rewrite rpow_pos by apply exp_pos.
  apply Rpower_mult.
Qed.
Lemma rpow_Rmult a b x : 0 < a -> 0 < b -> rpow (a * b) x = rpow a x * rpow b x.
Proof.
  intros Ha Hb. rewrite !rpow_pos; auto; [|nra]. unfold Rpower.
  rewrite ln_mult; auto. rewrite Rmult_plus_distr_l. apply exp_plus.
Qed.
Lemma rpow_opp b x : 0 < b -> rpow b (- x) = / rpow b x.
Proof. intros H; rewrite !rpow_pos; auto. apply Rpower_Ropp. Qed.
Lemma rpow_inv_base b x : 0 < b -> rpow (/ b) x = / rpow b x.
Proof.
  intros H. rewrite !rpow_pos; auto using Rinv_0_lt_compat. unfold Rpower.
  rewrite ln_Rinv; auto. rewrite Ropp_mult_distr_r_reverse. apply exp_Ropp.
Qed.

(** integer powers *)
Lemma powerRZ_nonneg_pow b n : (0 <= n)%Z -> powerRZ b n = b ^ Z.to_nat n.
Proof. destruct n; simpl; intros H; auto; lia. Qed.

Lemma powerRZ_plus b m n : (b <> 0 \/ (0 <= m /\ 0 <= n)%Z) ->
  powerRZ b (m + n) = powerRZ b m * powerRZ b n.
Proof.
  intros [H|[Hm Hn]]; [now apply powerRZ_add|].
  rewrite !powerRZ_nonneg_pow; try lia. rewrite Z2Nat.inj_add; auto. apply pow_add.
Qed.

Lemma powerRZ_neg_even b n : Z.even n = true -> powerRZ (- b) n = powerRZ b n.
Proof.
  intros H. apply Z.even_spec in H as [m ->].
  assert (P : forall k : nat, (- b) ^ (2 * k) = b ^ (2 * k)).
  { intros j. rewrite !pow_mult. f_equal. ring. }
  destruct m as [|p|p]; simpl; auto.
  - change (Pos.to_nat (p~0)) with (Pos.to_nat (2 * p)). rewrite Pos2Nat.inj_mul.
    apply P.
  - change (Pos.to_nat (p~0)) with (Pos.to_nat (2 * p)). rewrite Pos2Nat.inj_mul.
    f_equal. apply P.
Qed.
Lemma powerRZ_mult_distr b c n : (b <> 0 /\ c <> 0) \/ (0 <= n)%Z ->
  powerRZ (b * c) n = powerRZ b n * powerRZ c n.
Proof.
  intros H. destruct n as [|p|p]; simpl; [ring | apply Rpow_mult_distr |].
  rewrite Rpow_mult_distr. apply Rinv_mult.
Qed.
Lemma powerRZ_m1_odd n : Z.even n = false -> powerRZ (-1) n = -1.
Proof.
  intros H. rewrite <- Z.negb_odd in H. apply negb_false_iff, Z.odd_spec in H as [m ->].
  rewrite powerRZ_add by lra. replace (-1) with (- (1)) at 1 by ring.
  rewrite powerRZ_neg_even by (rewrite Z.even_mul; reflexivity).
  rewrite powerRZ_R1. simpl. ring.
Qed.
Lemma powerRZ_neg_odd b n : Z.even n = false -> powerRZ (- b) n = - powerRZ b n.
Proof.
  intros H. replace (- b) with (-1 * b) by ring.
  destruct n as [|p|p]; [discriminate H| |].
  - rewrite powerRZ_mult_distr by (right; lia). rewrite powerRZ_m1_odd; auto. ring.
  - destruct (Req_dec b 0) as [->|Hb].
    + simpl. rewrite Rmult_0_r, !pow_ne_zero; try (pose proof (Pos2Nat.is_pos p); lia).
      rewrite Rinv_0. ring.
    + rewrite powerRZ_mult_distr by (left; split; auto; lra). rewrite powerRZ_m1_odd; auto. ring.
Qed.
Lemma powerRZ_neq0 b n : b <> 0 -> powerRZ b n <> 0.
Proof. apply powerRZ_NOR. Qed.
Lemma powerRZ_powerRZ b m n : powerRZ (powerRZ b m) n = powerRZ b (m * n).
Proof.
  assert (P : forall p q, powerRZ b (Zpos p * Zpos q) = (b ^ Pos.to_nat p) ^ Pos.to_nat q).
  { intros p q. simpl. rewrite Pos2Nat.inj_mul. apply pow_mult. }
  destruct m as [|p|p], n as [|q|q]; simpl; auto; try apply pow1; try now rewrite pow1, Rinv_1.
  - now rewrite <- pow_mult, <- Pos2Nat.inj_mul.
  - now rewrite <- pow_mult, <- Pos2Nat.inj_mul.
  - now rewrite pow_inv, <- pow_mult, <- Pos2Nat.inj_mul.
  - now rewrite pow_inv, Rinv_inv, <- pow_mult, <- Pos2Nat.inj_mul.
Qed.

(** ** lists *)
Lemma Rsum_app l m : Rsum (l ++ m) = Rsum l + Rsum m.
Proof. induction l as [|a l IH]; simpl; [ring|rewrite IH; ring]. Qed.
Lemma Rprod_app l m : Rprod (l ++ m) = Rprod l * Rprod m.
Proof. induction l as [|a l IH]; simpl; [ring|rewrite IH; ring]. Qed.
Lemma Rsum_perm l m : Permutation l m -> Rsum l = Rsum m.
Proof. induction 1; simpl; try lra. Qed.
Lemma Rprod_perm l m : Permutation l m -> Rprod l = Rprod m.
Proof. induction 1; simpl; auto; [now rewrite IHPermutation | ring | congruence]. Qed.
