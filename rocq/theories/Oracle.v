(** * Oracle: the exact integer-root oracle of Kernel.v meets the assumption [fpow_exact]; the
    oracle with binary64 rounding does not. *)
From Verif Require Import Sem Kernel RealLemmas.
Open Scope R_scope.

Lemma numer_denom_Q2R x : Q2R x * IZR (denom x) = IZR (numer x).
Proof.
  unfold numer, denom. rewrite <- (Qeq_eqR _ _ (Qred_correct x)). unfold Q2R. field.
  now apply not_0_IZR.
Qed.

Lemma Rpower_IZR_pow (a : Z) (p : Z) : (0 < a)%Z -> (0 <= p)%Z ->
  Rpower (IZR a) (IZR p) = IZR (a ^ p).
Proof.
  intros Ha Hp. apply IZR_lt in Ha. rewrite <- (Z2Nat.id p) by auto.
  rewrite <- INR_IZR_INZ, Rpower_pow by auto. now rewrite pow_IZR.
Qed.

Theorem fpow_exact_oracle_exact : fpow_exact fpow_exact_oracle.
Proof.
  intros a x m Ha Hx H. unfold fpow_exact_oracle in H.
  destruct ((0 <? a)%Z && (0 <? numer x)%Z) eqn:E; [|discriminate].
  destruct ((iroot (denom x) (a ^ numer x) ^ denom x =? a ^ numer x)%Z &&
            (0 <? iroot (denom x) (a ^ numer x))%Z) eqn:E2; [|discriminate].
  injection H as H. rewrite H in E2. apply andb_prop in E as [_ Hp]. apply andb_prop in E2 as [E2 Hm].
  apply Z.ltb_lt in Hp, Hm. apply Z.eqb_eq in E2.
  assert (Hd : (0 < denom x)%Z) by (unfold denom; lia).
  assert (HR : Rpower (IZR m) (IZR (denom x)) = Rpower (IZR a) (IZR (numer x))).
  { rewrite !Rpower_IZR_pow by lia. now rewrite E2. }
  rewrite <- numer_denom_Q2R, <- Rpower_mult in HR.
  assert (Hd' : 0 < IZR (denom x)) by now apply IZR_lt.
  assert (Hm' : 0 < IZR m) by now apply IZR_lt.
  rewrite <- (Rpower_1 (IZR m)) by auto.
  rewrite <- (Rpower_1 (Rpower (IZR a) (Q2R x))) by (unfold Rpower; apply exp_pos).
  rewrite <- (Rinv_r (IZR (denom x))) by lra.
  rewrite <- !(Rpower_mult _ (IZR (denom x))). now rewrite HR.
Qed.

Theorem fpow_b64_not_exact : ~ fpow_exact fpow_b64.
Proof.
  intros H. specialize (H (2 ^ 106 + 1)%Z (1 # 2)%Q (2 ^ 53)%Z).
  assert (E : fpow_b64 (2 ^ 106 + 1) (1 # 2) = Some (2 ^ 53)%Z) by (vm_compute; reflexivity).
  specialize (H ltac:(lia) ltac:(reflexivity) E).
  assert (S : Rpower (IZR (2 ^ 106 + 1)) (Q2R (1 # 2)) * Rpower (IZR (2 ^ 106 + 1)) (Q2R (1 # 2)) = IZR (2 ^ 106 + 1)).
  { rewrite <- Rpower_plus. replace (Q2R (1 # 2) + Q2R (1 # 2)) with 1 by (unfold Q2R; simpl; lra).
    apply Rpower_1. apply IZR_lt. reflexivity. }
  rewrite <- H, <- mult_IZR in S. apply eq_IZR in S. vm_compute in S. discriminate.
Qed.
