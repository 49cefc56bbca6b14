(** * PropsI2: powers of and by the infinities (C66). *)
From Coquelicot Require Import Coquelicot.
From Verif Require Import Base Expr Kernel Mono Sort Funcs Sem RealLemmas Sound PropsI Frag.
From Coq Require Import Lqa.
From Coq Require Lra.
(** powers: [x * ... * x], and limits for an infinite exponent *)
Fixpoint epow (x : Rbar) (k : nat) : Rbar := match k with O => Finite 1 | S k' => Rbar_mult x (epow x k') end.
Lemma epow_p k : epow p_infty (S k) = p_infty.
Proof.
  induction k as [|k IH]; [cbn|change (epow p_infty (S (S k))) with (Rbar_mult p_infty (epow p_infty (S k))); now rewrite IH].
  unfold Rbar_mult, Rbar_mult'. destruct (Rle_dec 0 1) as [L|L]; [destruct (Rle_lt_or_eq_dec 0 1 L)|]; auto; Lra.lra.
Qed.
Lemma epow_m k : epow m_infty (S k) = if Nat.odd (S k) then m_infty else p_infty.
Proof.
  induction k as [|k IH].
  - cbn. unfold Rbar_mult, Rbar_mult'. destruct (Rle_dec 0 1) as [L|L]; [destruct (Rle_lt_or_eq_dec 0 1 L)|]; auto; Lra.lra.
  - change (epow m_infty (S (S k))) with (Rbar_mult m_infty (epow m_infty (S k))). rewrite IH, (Nat.odd_succ (S k)), <- Nat.negb_odd. destruct (Nat.odd (S k)); reflexivity.
Qed.
Theorem c66_pow c n b x k : ext b = Some x -> x = p_infty \/ x = m_infty -> (1 <= k)%nat ->
  exists m, op_pow (K c (S n)) b (ratz (Z.of_nat k)) = Ok m /\ ext m = Some (epow x k).
Proof.
  intros Hb Hx Hk. destruct k as [|k]; [lia|]. unfold ratz. set (q := inject_Z (Z.of_nat (S k))).
  assert (Q0 : isq (ERat q) 0 = false) by (apply isq_rat_f; intros E; unfold Qeq in E; cbn in E; lia).
  assert (Gt : qgt0 q = true) by reflexivity.
  assert (B : b = EInf \/ b = ENegInf). { destruct b; try discriminate; auto. injection Hb as <-. destruct Hx; discriminate. }
  assert (E : op_pow (K c (S n)) b (ERat q) = pow_body c (K c n) b (ERat q)) by (destruct B as [->| ->]; reflexivity).
  rewrite E. unfold pow_body. rewrite Q0. destruct (isq (ERat q) 1) eqn:Q1.
  - exists b. split; [reflexivity|]. rewrite Hb. apply isq_rat in Q1. unfold Qeq in Q1. cbn [Qnum Qden inject_Z q] in Q1. assert (k = 0)%nat by lia. subst k.
    destruct Hx as [->| ->]; [now rewrite epow_p|now rewrite epow_m].
  - destruct B as [->| ->]; injection Hb as <-; cbn [is_acc andb isq acc_pow inf_pow]; rewrite Gt; cbn [bind].
    + eexists. split; [reflexivity|]. now rewrite epow_p.
    + unfold q. rewrite qisint_inject, numer_inject. cbn [andb]. eexists. split; [reflexivity|]. rewrite epow_m.
      assert (Od : Z.odd (Z.of_nat (S k)) = Nat.odd (S k)). { generalize (S k). intros j. induction j as [|j IH]; [reflexivity|]. rewrite Nat2Z.inj_succ, Z.odd_succ, <- Z.negb_odd, IH, Nat.odd_succ, <- Nat.negb_odd. reflexivity. }
      rewrite Od. destruct (Nat.odd (S k)); reflexivity.
Qed.
Theorem c66_pow_infinite c n p : (0 < p)%Q ->
  ((1 < p)%Q -> op_pow (K c (S n)) (ERat p) EInf = Ok EInf /\ is_lim_seq (fun k => (Q2R p ^ k)%R) p_infty) /\
  ((p < 1)%Q -> op_pow (K c (S n)) (ERat p) ENegInf = Ok EInf /\ is_lim_seq (fun k => (/ Q2R p ^ k)%R) p_infty).
Proof.
  intros Hp. assert (Ab : (Qabs p == p)%Q) by (apply Qabs_pos; lra). split; intros H.
  - split.
    + change (op_pow (K c (S n)) (ERat p) EInf) with (pow_body c (K c n) (ERat p) EInf). unfold pow_body. rewrite (proj2 (isq_rat_f p 1)) by lra. cbn [isq]. cbn [is_acc andb acc_pow inf_pow]. replace (Qle_bool (Qabs p) 1) with false; [reflexivity|].
      symmetry. apply not_true_iff_false. rewrite Qle_bool_iff, Ab. lra.
    + apply is_lim_seq_geom_p. apply Qreals.Qlt_Rlt in H. now rewrite RMicromega.Q2R_1 in H.
  - split.
    + change (op_pow (K c (S n)) (ERat p) ENegInf) with (pow_body c (K c n) (ERat p) ENegInf). unfold pow_body. rewrite (proj2 (isq_rat_f p 1)) by lra. cbn [isq]. cbn [is_acc andb acc_pow inf_pow]. replace (Qle_bool 1 (Qabs p)) with false; [reflexivity|].
      symmetry. apply not_true_iff_false. rewrite Qle_bool_iff, Ab. lra.
    + apply Qreals.Qlt_Rlt in H, Hp. rewrite RMicromega.Q2R_1 in H. rewrite RMicromega.Q2R_0 in Hp.
      apply is_lim_seq_ext with (fun k => ((/ Q2R p) ^ k)%R); [intros k; apply pow_inv|]. apply is_lim_seq_geom_p. rewrite <- Rinv_1. apply Rinv_lt_contravar; Lra.lra.
Qed.
(** (-inf)**3, inf**4, 2**inf and (1/2)**(-inf) *)
Example c66_pow_ex : let k := K exact_cfg 5 in op_pow k ENegInf (ratz 3) = Ok ENegInf /\ op_pow k EInf (ratz 4) = Ok EInf /\
  op_pow k (ERat 2) EInf = Ok EInf /\ op_pow k (ERat (1 # 2)) ENegInf = Ok EInf.
Proof. vm_compute. repeat split. Qed.
