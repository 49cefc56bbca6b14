(** * PropsA: the property theorems about the constructors (C01-C10, C23, C40, C41, C48, C50-C52).

    Reading guide.  [op_add (K c n) a b] is the model of the Python expression [a + b], evaluated
    with recursion bound [n]; likewise [op_sub], [op_mul], [op_div], [op_pow], [op_neg], [op_abs],
    and [mkSum c n ts] is [Sum(ts)], [mkProd c n ts] is [Prod(ts)], [mkPow c n b x] is
    [Power(b, x)], [reprE c n e] is [repr(e)].  [c] fixes the float oracle; [faithful c] is the
    plain code, [strictly c] the code that stops when it compares pi or e with the rational that has
    the same binary64 value (Expr.coin).  [ev rho e] / [wd rho e] (Sem.v) are the real value of [e]
    at the assignment [rho] and its definedness. *)
From Verif Require Import Base Expr Kernel Mono Sem RealLemmas Sound SoundPow Atoms Agree Sort Oracle Numbers Funcs.
From Coq Require Import Sorting.Permutation Machin.
From Coq Require Lqa.
Local Open Scope R_scope.

Notation no_pie l := (Forall (fun e => plain e = true) l).

Lemma sound_strictly c n : fpow_exact (fpow c) -> Sound (K (strictly c) n).
Proof. intros H. now apply K_sound. Qed.
Lemma faithful_le c n m : (n <= m)%nat -> kle (K (strictly c) n) (K (faithful c) m).
Proof. intros H. apply K_mono; auto. split; simpl; auto. Qed.

(** Lifting agreement of strict and plain runs to the operators. *)
Section PlainOps.
Context (c : cfg) (n : nat).
Notation ks := (K (strictly c) n).
Notation kf := (K c n).
Let HH := K_plain (strictly c) n.
Let HA := K_agree (strictly c) c n (sc_strictly c).
Lemma plain_add a b : plain a = true -> plain b = true -> op_add ks a b = op_add kf a b.
Proof. intros. eapply rlc_rall; [now apply op_add_agr|]. eapply op_add_her; eauto using plain_her. Qed.
Lemma plain_sub a b : plain a = true -> plain b = true -> op_sub ks a b = op_sub kf a b.
Proof. intros. eapply rlc_rall; [now apply op_sub_agr|]. eapply op_sub_her; eauto using plain_her. Qed.
Lemma plain_mul a b : plain a = true -> plain b = true -> op_mul ks a b = op_mul kf a b.
Proof. intros. eapply rlc_rall; [now apply op_mul_agr|]. eapply op_mul_her; eauto using plain_her. Qed.
Lemma plain_div a b : plain a = true -> plain b = true -> op_div ks a b = op_div kf a b.
Proof. intros. eapply rlc_rall; [now apply op_div_agr|]. eapply op_div_her; eauto using plain_her. Qed.
Lemma plain_opow a b : plain a = true -> plain b = true -> op_pow ks a b = op_pow kf a b.
Proof. intros. eapply rlc_rall; [now apply op_pow_agr|]. eapply op_pow_her; eauto using plain_her. Qed.
Lemma plain_neg a : plain a = true -> op_neg ks a = op_neg kf a.
Proof. intros. eapply rlc_rall; [now apply op_neg_agr|]. eapply op_neg_her; eauto using plain_her. Qed.
Lemma plain_oabs a : plain a = true -> op_abs ks a = op_abs kf a.
Proof. intros. eapply rlc_rall; [now apply op_abs_agr|]. eapply op_abs_her; eauto using plain_her. Qed.
End PlainOps.

(** ** C01: sums *)
Section C01.
Context (c : cfg) (HX : fpow_exact (fpow c)).

Theorem c01_sum n m rho ts e : (n <= m)%nat -> Forall (wd rho) ts ->
  mkSum (strictly c) n ts = Ok e ->
  mkSum (faithful c) m ts = Ok e /\ wd rho e /\ ev rho e = Rsum (map (ev rho) ts).
Proof.
  intros Hn W H. split.
  - eapply rle_ok; [apply (le_sum _ _ (faithful_le c n m Hn))|exact H].
  - eapply (s_sum _ (sound_strictly c n HX)); eauto.
Qed.
Theorem c01_add n m rho a b e : (n <= m)%nat -> wd rho a -> wd rho b ->
  op_add (K (strictly c) n) a b = Ok e ->
  op_add (K (faithful c) m) a b = Ok e /\ wd rho e /\ ev rho e = ev rho a + ev rho b.
Proof.
  intros Hn Wa Wb H. split.
  - eapply rle_ok; [apply op_add_mono, (faithful_le c n m Hn)|exact H].
  - eapply op_add_sound; eauto using sound_strictly.
Qed.
Theorem c01_sub n m rho a b e : (n <= m)%nat -> wd rho a -> wd rho b ->
  op_sub (K (strictly c) n) a b = Ok e ->
  op_sub (K (faithful c) m) a b = Ok e /\ wd rho e /\ ev rho e = ev rho a - ev rho b.
Proof.
  intros Hn Wa Wb H. split.
  - eapply rle_ok; [apply op_sub_mono, (faithful_le c n m Hn)|exact H].
  - eapply op_sub_sound; eauto using sound_strictly.
Qed.
Theorem c01_neg n m rho a e : (n <= m)%nat -> wd rho a ->
  op_neg (K (strictly c) n) a = Ok e ->
  op_neg (K (faithful c) m) a = Ok e /\ wd rho e /\ ev rho e = - ev rho a.
Proof.
  intros Hn Wa H. split.
  - eapply rle_ok; [apply op_neg_mono, (faithful_le c n m Hn)|exact H].
  - eapply op_neg_sound; eauto using sound_strictly.
Qed.
(** The plain code on operands without pi, e and logarithms. *)
Theorem c01_sum_plain n rho ts e : no_pie ts -> Forall (wd rho) ts ->
  mkSum c n ts = Ok e -> wd rho e /\ ev rho e = Rsum (map (ev rho) ts).
Proof.
  intros P W H. unfold mkSum in H. rewrite <- plain_sum in H by auto.
  eapply (s_sum _ (sound_strictly c n HX)); eauto.
Qed.
Theorem c01_ops_plain n rho a b e : plain a = true -> plain b = true -> wd rho a -> wd rho b ->
  (op_add (K c n) a b = Ok e -> wd rho e /\ ev rho e = ev rho a + ev rho b) /\
  (op_sub (K c n) a b = Ok e -> wd rho e /\ ev rho e = ev rho a - ev rho b) /\
  (op_neg (K c n) a = Ok e -> wd rho e /\ ev rho e = - ev rho a).
Proof.
  intros Pa Pb Wa Wb. rewrite <- plain_add, <- plain_sub, <- plain_neg by auto.
  split; [|split]; intros H.
  - eapply op_add_sound; eauto using sound_strictly.
  - eapply op_sub_sound; eauto using sound_strictly.
  - eapply op_neg_sound; eauto using sound_strictly.
Qed.
End C01.

Notation sx := (ESym "x"). Notation sy := (ESym "y").

(** Non-vacuity: 2x + 3y - 2x + 1 + y  is  4y + 1, in both modes. *)
Example c01_ex :
  let ts := [EProd [ERat 2; sx]; EProd [ERat 3; sy]; EProd [ERat (-2); sx]; ERat 1; sy] in
  mkSum strict_cfg 9 ts = Ok (ESum [EProd [ERat 4; sy]; ERat 1]) /\ no_pie ts /\
  forall rho, Forall (wd rho) ts.
Proof.
  split; [vm_compute; reflexivity|]. split; [repeat constructor|].
  intros rho. repeat constructor; simpl; auto.
Qed.

(** ** C02: products *)
Section C02.
Context (c : cfg) (HX : fpow_exact (fpow c)).

Theorem c02_prod n m rho ts e : (n <= m)%nat -> Forall (wd rho) ts ->
  mkProd (strictly c) n ts = Ok e ->
  mkProd (faithful c) m ts = Ok e /\ wd rho e /\ ev rho e = Rprod (map (ev rho) ts).
Proof.
  intros Hn W H. split.
  - eapply rle_ok; [apply (le_prod _ _ (faithful_le c n m Hn))|exact H].
  - eapply (s_prod _ (sound_strictly c n HX)); eauto.
Qed.
Theorem c02_mul n m rho a b e : (n <= m)%nat -> wd rho a -> wd rho b ->
  op_mul (K (strictly c) n) a b = Ok e ->
  op_mul (K (faithful c) m) a b = Ok e /\ wd rho e /\ ev rho e = ev rho a * ev rho b.
Proof.
  intros Hn Wa Wb H. split.
  - eapply rle_ok; [apply op_mul_mono, (faithful_le c n m Hn)|exact H].
  - eapply op_mul_sound; eauto using sound_strictly.
Qed.
Theorem c02_div n m rho a b e : (n <= m)%nat -> wd rho a -> wd rho b -> ev rho b <> 0 ->
  op_div (K (strictly c) n) a b = Ok e ->
  op_div (K (faithful c) m) a b = Ok e /\ wd rho e /\ ev rho e = ev rho a / ev rho b.
Proof.
  intros Hn Wa Wb Nb H. split.
  - eapply rle_ok; [apply op_div_mono, (faithful_le c n m Hn)|exact H].
  - eapply op_div_sound; eauto using sound_strictly.
Qed.
Theorem c02_prod_plain n rho ts e : no_pie ts -> Forall (wd rho) ts ->
  mkProd c n ts = Ok e -> wd rho e /\ ev rho e = Rprod (map (ev rho) ts).
Proof.
  intros P W H. unfold mkProd in H. rewrite <- plain_prod in H by auto.
  eapply (s_prod _ (sound_strictly c n HX)); eauto.
Qed.
Theorem c02_ops_plain n rho a b e : plain a = true -> plain b = true -> wd rho a -> wd rho b ->
  (op_mul (K c n) a b = Ok e -> wd rho e /\ ev rho e = ev rho a * ev rho b) /\
  (ev rho b <> 0 -> op_div (K c n) a b = Ok e -> wd rho e /\ ev rho e = ev rho a / ev rho b).
Proof.
  intros Pa Pb Wa Wb. rewrite <- plain_mul, <- plain_div by auto.
  split; [intros H|intros Nb H].
  - eapply op_mul_sound; eauto using sound_strictly.
  - eapply op_div_sound; eauto using sound_strictly.
Qed.
End C02.

(** Non-vacuity: x * y * 2 * x^2 * (3/2)  is  3 * x^3 * y. *)
Example c02_ex :
  let ts := [sx; sy; ERat 2; EPow sx (ERat 2); ERat (3#2)] in
  mkProd strict_cfg 9 ts = Ok (EProd [ERat 3; sy; EPow sx (ERat 3)]) /\ no_pie ts /\
  forall rho, Forall (wd rho) ts.
Proof.
  split; [vm_compute; reflexivity|]. split; [repeat constructor|].
  intros rho. repeat constructor; simpl; auto. exists 2%Q. repeat split; auto. right. discriminate.
Qed.

(** ** C03: powers on the safe domain *)
Section C03.
Context (c : cfg) (HX : fpow_exact (fpow c)).
Theorem c03_power n m rho b x e : (n <= m)%nat -> wd rho b -> wd rho x -> pdom rho b x ->
  mkPow (strictly c) n b x = Ok e ->
  mkPow (faithful c) m b x = Ok e /\ wd rho e /\ ev rho e = rpow (ev rho b) (ev rho x).
Proof.
  intros Hn Wb Wx D H. split.
  - eapply rle_ok; [apply (le_pow _ _ (faithful_le c n m Hn))|exact H].
  - eapply (s_pow _ (sound_strictly c n HX)); eauto.
Qed.
Theorem c03_pow n m rho b x e : (n <= m)%nat -> wd rho b -> wd rho x -> pdom rho b x ->
  op_pow (K (strictly c) n) b x = Ok e ->
  op_pow (K (faithful c) m) b x = Ok e /\ wd rho e /\ ev rho e = rpow (ev rho b) (ev rho x).
Proof.
  intros Hn Wb Wx D H. split.
  - eapply rle_ok; [apply op_pow_mono, (faithful_le c n m Hn)|exact H].
  - eapply op_pow_sound; eauto using sound_strictly.
Qed.
Theorem c03_pow_plain n rho b x e : plain b = true -> plain x = true ->
  wd rho b -> wd rho x -> pdom rho b x ->
  op_pow (K c n) b x = Ok e -> wd rho e /\ ev rho e = rpow (ev rho b) (ev rho x).
Proof.
  intros Pb Px Wb Wx D H. rewrite <- plain_opow in H by auto. eapply op_pow_sound; eauto using sound_strictly.
Qed.
(** Every integer literal power, of every base that is not 0 where the exponent is negative. *)
Theorem c03_int_power n rho b z e : plain b = true -> wd rho b -> (ev rho b <> 0 \/ (0 <= z)%Z) ->
  op_pow (K c n) b (ratz z) = Ok e -> wd rho e /\ ev rho e = rpow (ev rho b) (IZR z).
Proof.
  intros Pb Wb D H.
  assert (E : ev rho (ratz z) = IZR z) by (simpl; unfold Q2R; simpl; field).
  rewrite <- E. eapply c03_pow_plain; eauto; [exact I|]. left. exists (inject_Z z).
  split; auto. split; [|destruct D as [D|D]; auto; right; unfold Qle; simpl; lia].
  apply qisint_inject.
Qed.
End C03.

(** Non-vacuity: ((x+1)^2)^3 = (x+1)^6 everywhere; (4 x^3)^(1/2) = 2 * x^(3/2) for x > 0. *)
Example c03_ex :
  mkPow strict_cfg 9 (EPow (ESum [sx; ERat 1]) (ERat 2)) (ERat 3) = Ok (EPow (ESum [sx; ERat 1]) (ERat 6)) /\
  mkPow strict_cfg 9 (EProd [ERat 4; EPow sx (ERat 3)]) (ERat (1#2)) = Ok (EProd [ERat 2; EPow sx (ERat (3#2))]) /\
  (forall rho, 0 < rho "x"%string -> pdom rho (EProd [ERat 4; EPow sx (ERat 3)]) (ERat (1#2))).
Proof.
  split; [vm_compute; reflexivity|]. split; [vm_compute; reflexivity|].
  intros rho H. right.
  assert (P : 0 < rpow (rho "x"%string) (Q2R 3)).
  { unfold rpow. destruct (Rlt_dec 0 (rho "x"%string)); [|tauto]. apply exp_pos. }
  assert (Q4 : Q2R 4 = 4) by (unfold Q2R; simpl; field).
  simpl. rewrite Q4. split; [rewrite Rmult_1_r; apply Rmult_lt_0_compat; lra|].
  right. repeat split; auto; lra.
Qed.

(** ** C04: power of a power, power of a product, outside the safe domain *)

Ltac qz := repeat match goal with H : context [Qeq _ _] |- _ => unfold Qeq, inject_Z in H; cbn [Qnum Qden] in H end;
  unfold Qeq, inject_Z, Qdiv, Qmult; cbn [Qnum Qden Qinv]; lia.

Lemma qmod_even j : qis0 (qmod (inject_Z (2 * j)) 2) = true.
Proof.
  apply Qeq_bool_iff. unfold qmod.
  assert (E : (inject_Z (2 * j) / 2 == inject_Z j)%Q) by (rewrite inject_Z_mult; field).
  rewrite (Qfloor_comp _ _ E), Qfloor_Z. rewrite inject_Z_mult. field.
Qed.

(** The value of (b^2j)^((2i+1)/2j), for a negative b, is positive. *)
Lemma rpow_even_pos x j q : x < 0 -> 0 < rpow (rpow x (IZR (2 * j))) q.
Proof.
  intros H. assert (0 < powerRZ x (2 * j)).
  { replace (powerRZ x (2 * j)) with (powerRZ (- x) (2 * j)).
    - apply powerRZ_lt. lra.
    - apply powerRZ_neg_even. rewrite Z.even_mul. reflexivity. }
  rewrite rpow_int by (left; lra). now apply rpow_gt0.
Qed.
Lemma powerRZ_odd_neg x i : x < 0 -> powerRZ x (2 * i + 1) < 0.
Proof.
  intros H. replace x with (- - x) by ring. rewrite powerRZ_neg_odd.
  - assert (0 < powerRZ (- x) (2 * i + 1)) by (apply powerRZ_lt; lra). lra.
  - rewrite Z.even_add, Z.even_mul. reflexivity.
Qed.

(** For every symbol, every even m = 2j <> 0 and every n = (2i+1)/(2j) other than 1/m: the code
    returns s^(2i+1) for (s^m)^n, and wherever the symbol is negative the result is negative
    although the power it stands for is positive. *)
Theorem c04_collapse_wrong_sign c k s i j :
  (j <> 0)%Z -> (i <> 0)%Z ->
  let m := inject_Z (2 * j) in
  let n := Qred (inject_Z (2 * i + 1) / inject_Z (2 * j)) in
  mkPow c (S (S k)) (EPow (ESym s) (ERat m)) (ERat n) = Ok (EPow (ESym s) (ratz (2 * i + 1))) /\
  forall rho, rho s < 0 ->
    ev rho (EPow (ESym s) (ratz (2 * i + 1))) < 0 < rpow (rpow (rho s) (Q2R m)) (Q2R n).
Proof.
  intros Hj Hi m n.
  assert (NJ : ~ (inject_Z (2 * j) == 0)%Q) by qz.
  assert (En : (m * n == inject_Z (2 * i + 1))%Q).
  { unfold n. rewrite Qred_correct. unfold m. field. exact NJ. }
  assert (N0 : ~ (n == 0)%Q).
  { intros E. rewrite E, Qmult_0_r in En. unfold Qeq, inject_Z in En. cbn [Qnum Qden] in En. lia. }
  assert (N1 : ~ (n == 1)%Q).
  { intros E. rewrite E, Qmult_1_r in En. unfold m, Qeq, inject_Z in En. cbn [Qnum Qden] in En. lia. }
  assert (NI : ~ (m == / n)%Q).
  { intros E. rewrite E in En. rewrite Qmult_comm, Qmult_inv_r in En by auto. unfold Qeq, inject_Z in En. cbn [Qnum Qden] in En. lia. }
  assert (B : forall a b : Q, ~ (a == b)%Q -> Qeq_bool a b = false).
  { intros a b H. destruct (Qeq_bool a b) eqn:E; auto. apply Qeq_bool_iff in E. tauto. }
  pose proof (qmod_even j : qis0 (qmod m 2) = true) as EM.
  assert (RM : Qred (m * n) = inject_Z (2 * i + 1)).
  { rewrite (Qred_complete _ _ En). apply Qred_inject. }
  split.
  - unfold mkPow. change (K c (S (S k))) with (build c (build c (K c k))).
    cbn [k_pow build]. unfold pow_body at 1. cbn [isq is_acc andb].
    rewrite !B by auto. unfold mult_exp. rewrite EM. unfold qis0 at 1. rewrite B by auto. rewrite B by auto.
    cbn [op_mul bind]. unfold rat. rewrite RM. cbn [op_pow]. unfold build at 1. cbn [k_pow]. unfold pow_body.
    cbn [isq is_acc andb is_prod]. rewrite !B by qz.
    unfold pow_tail. cbn [is_sub andb]. reflexivity.
  - intros rho Hr. unfold m. rewrite Q2R_inject. split; [|now apply rpow_even_pos].
    cbn [ev ratz]. rewrite Q2R_inject, rpow_int by (left; lra). now apply powerRZ_odd_neg.
Qed.

(** The right half: (b^(2j))^(1/(2j)), j > 0, is |b| for every b, negative and 0 included. *)
Theorem c04_even_root_is_abs c k rho b j e : fpow_exact (fpow c) -> (0 < j)%Z -> wd rho b ->
  let m := inject_Z (2 * j) in
  mkPow (strictly c) k (EPow b (ERat m)) (ERat (Qred (/ m))) = Ok e ->
  wd rho e /\ ev rho e = Rabs (ev rho b) /\ rpow (rpow (ev rho b) (Q2R m)) (Q2R (/ m)) = Rabs (ev rho b).
Proof.
  intros HX Hj W m H.
  assert (NM : ~ (m == 0)%Q) by (unfold m; qz).
  assert (V : rpow (rpow (ev rho b) (Q2R m)) (Q2R (/ m)) = Rabs (ev rho b)).
  { unfold m. rewrite Q2R_inject, Q2R_inv by auto. fold m. unfold m at 1. rewrite Q2R_inject.
    assert (P : 0 < IZR (2 * j)) by (apply IZR_lt; lia).
    rewrite rpow_int by (right; lia).
    replace (powerRZ (ev rho b) (2 * j)) with (powerRZ (Rabs (ev rho b)) (2 * j)).
    2:{ destruct (Rcase_abs (ev rho b)) as [L|L].
        - rewrite Rabs_left by auto. apply powerRZ_neg_even. rewrite Z.even_mul. reflexivity.
        - rewrite Rabs_right by auto. reflexivity. }
    destruct (Req_EM_T (ev rho b) 0) as [E|E].
    - rewrite E, Rabs_R0. rewrite powerRZ_nonneg_pow, pow_i by lia.
      unfold rpow. destruct (Rlt_dec 0 0); [lra|]. destruct (Req_EM_T 0 0); [|lra].
      destruct (Req_EM_T (/ IZR (2 * j)) 0) as [Z|Z]; auto. exfalso. revert Z. apply Rinv_neq_0_compat. lra.
    - assert (PA : 0 < Rabs (ev rho b)) by now apply Rabs_pos_lt.
      rewrite <- rpow_int by (left; lra). rewrite rpow_mult by auto. rewrite Rinv_r by lra. apply rpow_1. }
  split; [|split]; auto; [apply (proj1 (A := wd rho e) (B := ev rho e = Rabs (ev rho b)))|apply (proj2 (A := wd rho e))];
  (destruct k as [|k]; [discriminate H|];
   unfold mkPow in H; change (K (strictly c) (S k)) with (build (strictly c) (K (strictly c) k)) in H;
   cbn [k_pow build] in H; unfold pow_body in H; cbn [isq is_acc andb] in H;
   assert (B : forall a b : Q, ~ (a == b)%Q -> Qeq_bool a b = false) by
     (intros a0 b0 HB; destruct (Qeq_bool a0 b0) eqn:E; auto; apply Qeq_bool_iff in E; tauto);
   assert (EI : (Qred (/ m) == / m)%Q) by apply Qred_correct;
   assert (N0 : ~ (Qred (/ m) == 0)%Q) by
     (rewrite EI; intros E; apply NM; rewrite <- (Qinv_involutive m), E; reflexivity);
   assert (N1 : ~ (Qred (/ m) == 1)%Q) by
     (rewrite EI; intros E; assert (E' : (m == 1)%Q) by (rewrite <- (Qinv_involutive m), E; reflexivity);
      unfold m, Qeq, inject_Z in E'; cbn [Qnum Qden] in E'; lia);
   rewrite !B in H by auto; unfold mult_exp in H;
   pose proof (qmod_even j : qis0 (qmod m 2) = true) as EM;
   rewrite EM in H; unfold qis0 in H at 1; rewrite B in H by auto;
   assert (EQ : Qeq_bool m (/ Qred (/ m)) = true) by
     (apply Qeq_bool_iff; rewrite EI; now rewrite Qinv_involutive);
   rewrite EQ in H; eapply (s_abs _ (sound_strictly c k HX)); eauto).
Qed.

(** Splitting a product: for two negative symbols the square root of the product is a real
    number, and the expression returned is undefined. *)
Theorem c04_split_undefined : 
  mkPow exact_cfg 9 (EProd [sx; sy]) (ERat (1#2)) = Ok (EProd [EPow sx (ERat (1#2)); EPow sy (ERat (1#2))]) /\
  forall rho, rho "x"%string < 0 -> rho "y"%string < 0 ->
    0 < rho "x"%string * rho "y"%string /\ ~ wd rho (EProd [EPow sx (ERat (1#2)); EPow sy (ERat (1#2))]).
Proof.
  split; [vm_compute; reflexivity|]. intros rho Hx Hy. split; [nra|].
  intros W. apply wd_prod in W as [W _]. apply Forall_inv in W. destruct W as (_ & _ & D).
  destruct D as [(q & E & I & _)|D].
  - injection E as <-. discriminate I.
  - simpl in D. lra.
Qed.

(** ** C05: rational arithmetic *)
Theorem c05_field c n p q :
  op_add (K c n) (ERat p) (ERat q) = Ok (rat (p + q)) /\
  op_sub (K c n) (ERat p) (ERat q) = Ok (rat (p - q)) /\
  op_mul (K c n) (ERat p) (ERat q) = Ok (rat (p * q)) /\
  op_neg (K c n) (ERat p) = Ok (rat (- p)) /\
  op_abs (K c n) (ERat p) = Ok (rat (Qabs p)) /\
  (~ (q == 0)%Q -> op_div (K c n) (ERat p) (ERat q) = Ok (rat (p / q))).
Proof.
  repeat split; auto. intros H. unfold op_div. destruct (qis0 q) eqn:E; auto.
  apply Qeq_bool_iff in E. tauto.
Qed.
(** [rat r] is the number r in lowest terms. *)
Theorem c05_lowest_terms rho r : exists r', rat r = ERat r' /\ (r' == r)%Q /\
  Z.gcd (Qnum r') (Zpos (Qden r')) = 1%Z /\ ev rho (rat r) = Q2R r.
Proof.
  exists (Qred r). split; [reflexivity|]. split; [apply Qred_correct|]. split; [|apply ev_rat].
  unfold Qred. destruct r as [a b].
  pose proof (Z.ggcd_gcd a (Zpos b)) as G. pose proof (Z.ggcd_correct_divisors a (Zpos b)) as D.
  destruct (Z.ggcd a (Zpos b)) as [g [aa bb]] eqn:E. cbn [fst snd] in *. destruct D as [D1 D2].
  assert (Pg : (0 < g)%Z).
  { subst g. pose proof (Z.gcd_nonneg a (Zpos b)). assert (Z.gcd a (Zpos b) <> 0)%Z; [|lia].
    intros Z0. apply Z.gcd_eq_0_r in Z0. discriminate. }
  assert (Pb : (0 < bb)%Z) by nia. cbn [Qnum Qden]. rewrite Z2Pos.id by auto.
  assert (Z.gcd (g * aa) (g * bb) = g)%Z by congruence. rewrite Z.gcd_mul_mono_l in H.
  rewrite Z.abs_eq in H by lia. nia.
Qed.
(** Integer powers. *)
Theorem c05_int_power c n p z : ~ ((p == 0)%Q /\ (z < 0)%Z) ->
  op_pow (K c n) (ERat p) (ratz z) = Ok (rat (p ^ z)).
Proof.
  intros H. unfold op_pow, ratz. rewrite qisint_inject, numer_inject.
  destruct (qis0 p && qlt0 (inject_Z z)) eqn:E; auto. apply andb_prop in E as [E1 E2].
  exfalso. apply H. split; [now apply Qeq_bool_iff|]. unfold qlt0 in E2. simpl in E2. lia.
Qed.
Theorem c05_zero_power c n p z : (p == 0)%Q -> (z < 0)%Z ->
  op_pow (K c n) (ERat p) (ratz z) = Raise ZeroDivisionError.
Proof.
  intros H1 H2. unfold op_pow, ratz. apply Qeq_bool_iff in H1. unfold qis0. rewrite H1.
  unfold qlt0. simpl. apply Z.ltb_lt in H2. now rewrite H2.
Qed.
(** Division by zero: never a finite number. *)
Theorem c05_div_zero c n p : Qred p = p ->
  op_div (K c (S (S n))) (ERat p) (ERat 0) =
    if qis0 p then Stop Unmodelled else if qgt0 p then Ok EInf else Ok ENegInf.
Proof.
  intros HR. assert (H1 : Qred (1 * p) = p) by (rewrite (Qred_complete _ _ (Qmult_1_l p)); auto).
  unfold op_div. cbn [qis0 Qeq_bool Qnum Qden Zeq_bool Z.compare Z.mul].
  change (qis0 0) with true. cbv iota.
  change (K c (S (S n))) with (build c (K c (S n))). cbn [build k_pow k_prod].
  assert (P : pow_body c (K c (S n)) (ERat 0) (ERat (-1)) = Ok EInf) by reflexivity.
  rewrite P. cbn [bind]. unfold prod_body, combine_prod. cbn [flat_prod flat_map flat_prod1 app List.length].
  cbn [combine_prod_go decon_pow split_base]. unfold py_eq. cbn [coin eeqb]. rewrite andb_false_r. cbn [bind].
  cbn [add_term is_acc fst snd]. unfold acc_prod, foldM, val_mul, val_sign. cbn [bind]. cbn. rewrite H1.
  destruct p as [a b]. unfold qis0, qgt0, Qeq_bool. cbn [Qnum Qden]. destruct a; try reflexivity.
Qed.
(** Floor division and remainder. *)
Theorem c05_floordiv_mod p q a b : ~ (q == 0)%Q ->
  rat_floordiv (ERat p) (ERat q) = Ok a -> rat_mod (ERat p) (ERat q) = Ok b ->
  exists d r, a = ratz d /\ b = ERat r /\ (p == q * inject_Z d + r)%Q /\
    ((0 < q -> 0 <= r /\ r < q) /\ (q < 0 -> q < r /\ r <= 0))%Q.
Proof.
  intros Hq Ha Hb. unfold rat_floordiv, rat_mod in *.
  destruct (qis0 q) eqn:E; [apply Qeq_bool_iff in E; tauto|].
  injection Ha as <-. injection Hb as <-. exists (Qfloor (p / q)), (Qred (qmod p q)).
  split; auto. split; auto. rewrite !Qred_correct. unfold qmod. split; [ring|].
  pose proof (Qfloor_le (p / q)) as L. pose proof (Qlt_floor (p / q)) as U.
  set (f := Qfloor (p / q)) in *. rewrite inject_Z_plus in U.
  assert (D : (p == q * (p / q))%Q) by (field; auto). set (t := (p / q)%Q) in *.
  change (inject_Z 1) with 1%Q in U. set (g := inject_Z f) in *.
  clearbody g. clear f. clearbody t. split; intros S.
  - assert (A1 : (0 <= q * (t - g))%Q) by (apply Qmult_le_0_compat; Lqa.lra).
    assert (A2 : (0 < q * (g + 1 - t))%Q) by (apply Qmult_lt_0_compat; Lqa.lra). split; Lqa.lra.
  - assert (A1 : (0 <= (- q) * (t - g))%Q) by (apply Qmult_le_0_compat; Lqa.lra).
    assert (A2 : (0 < (- q) * (g + 1 - t))%Q) by (apply Qmult_lt_0_compat; Lqa.lra). split; Lqa.lra.
Qed.
Theorem c05_reciprocal rho p e : rat_reciprocal (ERat p) = Ok e -> ev rho e = / Q2R p.
Proof.
  unfold rat_reciprocal. destruct (qis0 p) eqn:E; [discriminate|]. intros H. injection H as <-.
  apply qis0_false in E. rewrite ev_rat. pose proof (numer_neq0 _ E). pose proof (denom_pos p).
  rewrite Q2R_Zdiv by (apply not_0_IZR; auto). rewrite (Q2R_numden p). field. split; apply not_0_IZR; lia.
Qed.
Example c05_ex : rat_floordiv (ERat (-7#2)) (ERat 2) = Ok (ERat (-2)) /\ rat_mod (ERat (-7#2)) (ERat 2) = Ok (ERat (1#2)).
Proof. split; vm_compute; reflexivity. Qed.

(** ** C06: numeric powers *)
Theorem c06_numeric_power c n rho p q e : fpow_exact (fpow c) ->
  (0 < p)%Q \/ (~ (p == 0)%Q /\ qisint q = true) ->
  op_pow (K c n) (ERat p) (ERat q) = Ok e ->
  wd rho e /\ ev rho e = rpow (Q2R p) (Q2R q).
Proof.
  intros HX D H. eapply (c03_pow_plain c HX n rho (ERat p) (ERat q)); eauto; try exact I.
  destruct D as [D|[D I]].
  - right. apply rp_ERat. apply Qlt_Q2R in D. now rewrite Q2R_0 in D.
  - left. exists q. repeat split; auto. left. simpl. intros E. apply D. apply eqR_Qeq. now rewrite Q2R_0.
Qed.
(** [rpow] is the usual power. *)
Theorem c06_rpow_meaning : (forall b x, 0 < b -> rpow b x = Rpower b x) /\
  (forall b z, b <> 0 -> rpow b (IZR z) = powerRZ b z).
Proof. split; intros; [now apply rpow_pos|apply rpow_int; auto]. Qed.
Example c06_ex :
  op_pow (K exact_cfg 9) (ERat (8#27)) (ERat (-2#3)) = Ok (ERat (9#4)) /\
  op_pow (K exact_cfg 9) (ERat (3#4)) (ERat (1#2)) = Ok (EProd [ERat (1#2); EPow (ERat 3) (ERat (1#2))]).
Proof. split; vm_compute; reflexivity. Qed.

(** ** C07: negative bases and the binary64 perfect-power test *)
Lemma powerRZ_Rpower x z : 0 < x -> powerRZ x z = Rpower x (IZR z).
Proof. intros H. rewrite <- rpow_pos by auto. rewrite rpow_int; auto. left. lra. Qed.

Lemma neg_frac_step c k p q e : Sound k -> Q2R p < 0 -> qisint q = false -> Z.even (denom q) = false ->
  ((numer p =? 1) || (negb (denom p =? 1) && qlt0 q))%Z = false ->
  acc_pow c k (ERat p) (ERat q) = Ok e -> exists r, e = Some r /\
  forall rho, wd rho r /\ ev rho r = - Rpower (- Q2R p) (Q2R q).
Proof.
  intros HS Hp Hq Hd HB H. unfold acc_pow in H.
  destruct (qis0 p) eqn:Z0; [apply qis0_true in Z0; lra|].
  assert (IA : qisint (Qabs q) = false).
  { unfold Qabs. destruct q as [a b]. destruct a; auto. simpl. unfold qisint in *. rewrite <- Hq. f_equal.
    change (Z.pos p0 # b) with (- (Z.neg p0 # b))%Q. unfold denom. now rewrite Qred_opp. }
  pose proof (numer_neg _ Hp) as NN. apply Z.ltb_lt in NN. 
  cbv zeta in H. unfold int_pow in H. rewrite IA, NN in H.
  assert (E1 : qlt0 p = true).
  { destruct (qlt0 p) eqn:E; auto. apply qlt0_false in E. lra. }
  rewrite HB, Hd, E1 in H. cbn [andb] in H.
  (apply bind_ok in H as (r & Hr & H); apply bind_ok in H as (s & Hs & H); injection H as <-;
   exists s; split; auto; intros rho;
   assert (PP : 0 < Q2R (- p)) by (rewrite Q2R_opp; lra);
   apply (s_pow _ HS rho) in Hr as [W1 V1]; try exact I;
   [|right; apply rp_ERat; now rewrite Q2R_red];
   eapply op_mul_sound in Hs as [W2 V2]; eauto; [|exact I];
   split; auto; rewrite V2, V1; cbn [ev]; rewrite ev_rat, Q2R_m1, rpow_pos by auto; rewrite Q2R_opp; ring).
Qed.

Theorem c07_negative_base c n rho p q e : fpow_exact (fpow c) ->
  (p < 0)%Q -> qisint q = false -> Z.odd (denom q) = true ->
  mkPow c n (ERat p) (ERat q) = Ok e ->
  wd rho e /\ ev rho e = - Rpower (- Q2R p) (Q2R q).
Proof.
  intros HX Hp Hq Ho H. apply Qlt_Q2R in Hp. rewrite Q2R_0 in Hp.
  unfold mkPow in H. rewrite <- plain_pow in H by reflexivity.
  assert (Hd : Z.even (denom q) = false) by (rewrite <- Z.negb_odd, Ho; auto).
  assert (ND : forall p q, Q2R p < 0 -> qisint q = false -> k_pow (K (strictly c) n) (ERat p) (ERat q) = Ok e ->
     exists n', n = S n' /\ exists o, acc_pow (strictly c) (K (strictly c) n') (ERat p) (ERat q) = Ok o /\ (forall r, o = Some r -> e = r)).
  { clear. intros p q Hp Hq H. destruct n as [|n']; [discriminate|]. exists n'. split; auto.
    cbn [K build k_pow] in H. unfold pow_body in H. cbn [isq is_acc andb] in H.
    destruct (Qeq_bool q 0) eqn:E0.
    { apply Qeq_bool_iff in E0. rewrite (qisint_compat _ _ E0) in Hq. discriminate. }
    destruct (Qeq_bool q 1) eqn:E1.
    { apply Qeq_bool_iff in E1. rewrite (qisint_compat _ _ E1) in Hq. discriminate. }
    destruct (Qeq_bool p 1) eqn:E2.
    { apply Qeq_bool_true in E2. rewrite Q2R_1 in E2. lra. }
    apply bind_ok in H as (o & Ho & H). exists o. split; auto. intros r ->. congruence. }
  destruct (ND p q Hp Hq H) as (n' & -> & o & Ho' & He).
  destruct ((numer p =? 1) || (negb (denom p =? 1) && qlt0 q))%Z eqn:HB.
  2:{ destruct (neg_frac_step _ _ _ _ _ (sound_strictly c n' HX) Hp Hq Hd HB Ho') as (r & Hr & V). rewrite (He _ Hr). apply V. }
  (* reciprocal first *)
  assert (N1 : (numer p =? 1)%Z = false) by (apply Z.eqb_neq; apply numer_neg in Hp; lia).
  rewrite N1 in HB. cbn [orb] in HB. apply andb_prop in HB as [HB1 HB2].
  unfold acc_pow in Ho'.
  destruct (qis0 p) eqn:Z0; [apply qis0_true in Z0; lra|].
  assert (IA : qisint (Qabs q) = false).
  { unfold Qabs. destruct q as [a b]. destruct a; auto. simpl. unfold qisint in *. rewrite <- Hq. f_equal.
    change (Z.pos p0 # b) with (- (Z.neg p0 # b))%Q. unfold denom. now rewrite Qred_opp. }
  pose proof (numer_neg _ Hp) as NN. apply Z.ltb_lt in NN.
  cbv zeta in Ho'. unfold int_pow in Ho'. rewrite IA, NN, N1, HB1, HB2 in Ho'. cbn [andb orb] in Ho'.
  assert (Hr : k_pow (K (strictly c) n') (rat (/ p)) (rat (- q)) = Ok e).
  { (apply bind_ok in Ho' as (r & Hr & Ho'); injection Ho' as <-; rewrite Hr; f_equal; symmetry; now apply He). }
  clear Ho' He. 
  assert (NP : Q2R p <> 0) by lra.
  assert (Hp' : Q2R (Qred (/ p)) < 0) by (rewrite Q2R_red, Q2R_invq by auto; now apply Rinv_lt_0_compat).
  assert (Eq' : (Qred (- q) == - q)%Q) by apply Qred_correct.
  assert (DN : denom (- q) = denom q).
  { unfold denom. now rewrite Qred_opp. }
  assert (Hq' : qisint (Qred (- q)) = false) by (rewrite (qisint_compat _ _ Eq'); unfold qisint in *; now rewrite DN).
  assert (Hd' : Z.even (denom (Qred (- q))) = false) by (rewrite (denom_compat _ _ Eq'), DN; auto).
  destruct n' as [|n'']; [discriminate|]. cbn [K build k_pow] in Hr. unfold pow_body, rat in Hr. cbn [isq is_acc andb] in Hr.
  destruct (Qeq_bool (Qred (- q)) 0) eqn:E0.
  { apply Qeq_bool_iff in E0. rewrite (qisint_compat _ _ E0) in Hq'. discriminate. }
  destruct (Qeq_bool (Qred (- q)) 1) eqn:E1.
  { apply Qeq_bool_iff in E1. rewrite (qisint_compat _ _ E1) in Hq'. discriminate. }
  destruct (Qeq_bool (Qred (/ p)) 1) eqn:E2.
  { apply Qeq_bool_true in E2. rewrite Q2R_1 in E2. lra. }
  apply bind_ok in Hr as (o' & Hr & He).
  assert (HB' : ((numer (Qred (/ p)) =? 1) || (negb (denom (Qred (/ p)) =? 1) && qlt0 (Qred (- q))))%Z = false).
  { apply orb_false_iff. split; [apply Z.eqb_neq; apply numer_neg in Hp'; lia|].
    apply andb_false_iff. right. destruct (qlt0 (Qred (- q))) eqn:L; auto.
    apply qlt0_true in L, HB2. rewrite Q2R_red, Q2R_opp in L. lra. }
  destruct (neg_frac_step _ _ _ _ _ (sound_strictly c n'' HX) Hp' Hq' Hd' HB' Hr) as (r & -> & V).
  injection He as <-. destruct (V rho) as [W V']. split; auto. rewrite V', !Q2R_red, Q2R_invq, Q2R_opp by auto.
  f_equal. unfold Rpower. f_equal. replace (- / Q2R p) with (/ - Q2R p) by (field; auto). rewrite ln_Rinv by lra. ring.
Qed.

(** So for p < 0 and q = a/b in lowest terms, b odd, b > 1: the result is the real b-th root of
    p^a when a is odd and is minus that root when a is even. *)
Theorem c07_sign c n rho p q e : fpow_exact (fpow c) ->
  (p < 0)%Q -> qisint q = false -> Z.odd (denom q) = true ->
  mkPow c n (ERat p) (ERat q) = Ok e ->
  forall r, powerRZ r (denom q) = powerRZ (Q2R p) (numer q) ->
    if Z.even (numer q) then ev rho e = - r /\ 0 < r else ev rho e = r.
Proof.
  intros HX Hp Hq Ho H r Hr. destruct (c07_negative_base c n rho p q e HX Hp Hq Ho H) as [_ V].
  apply Qlt_Q2R in Hp. rewrite Q2R_0 in Hp. pose proof (denom_pos q) as PD.
  assert (Oe : Z.even (denom q) = false) by (rewrite <- Z.negb_odd, Ho; auto).
  assert (Root : forall s, 0 < s -> powerRZ s (denom q) = powerRZ (- Q2R p) (numer q) -> s = Rpower (- Q2R p) (Q2R q)).
  { intros s Ps Es. rewrite !powerRZ_Rpower in Es by lra. apply (f_equal ln) in Es. rewrite !ln_Rpower in Es.
    unfold Rpower. rewrite <- (exp_ln s Ps). f_equal. rewrite Q2R_numden. pose proof (denom_IZR_pos q).
    apply (Rmult_eq_reg_l (IZR (denom q))); [|lra]. rewrite Es. field. lra. }
  assert (R0 : r <> 0).
  { intros ->. assert (P0 : powerRZ (Q2R p) (numer q) <> 0) by (apply powerRZ_neq0; lra).
    rewrite powerRZ_nonneg_pow, pow_i in Hr by lia. lra. }
  destruct (Z.even (numer q)) eqn:Ev.
  - assert (Pr : 0 < powerRZ r (denom q)).
    { rewrite Hr. rewrite <- powerRZ_neg_even by auto. apply powerRZ_lt. lra. }
    assert (P : 0 < r).
    { destruct (Rlt_le_dec 0 r) as [|L]; auto. exfalso.
      replace r with (- - r) in Pr by ring. rewrite powerRZ_neg_odd in Pr by auto.
      assert (0 < powerRZ (- r) (denom q)) by (apply powerRZ_lt; lra). lra. }
    split; auto. rewrite V. f_equal. symmetry. apply Root; auto. rewrite Hr. now rewrite powerRZ_neg_even.
  - assert (Nr : powerRZ r (denom q) < 0).
    { rewrite Hr. replace (Q2R p) with (- - Q2R p) by ring. rewrite powerRZ_neg_odd by auto.
      assert (0 < powerRZ (- Q2R p) (numer q)) by (apply powerRZ_lt; lra). lra. }
    assert (P : r < 0).
    { destruct (Rlt_le_dec r 0) as [|L]; auto. exfalso. assert (0 < powerRZ r (denom q)) by (apply powerRZ_lt; lra). lra. }
    rewrite V. rewrite <- (Root (- r)); [ring|lra|].
    rewrite powerRZ_neg_odd, Hr by auto. now rewrite powerRZ_neg_odd by auto.
Qed.
Example c07_ex : mkPow exact_cfg 9 (ERat (-3#2)) (ERat (2#3)) = Ok (EProd [ERat (-1); EPow (ERat (3#2)) (ERat (2#3))])
  /\ (-3#2 < 0)%Q /\ qisint (2#3) = false /\ Z.odd (denom (2#3)) = true /\ Z.even (numer (2#3)) = true.
Proof. repeat split. Qed.

(** With the rounding of binary64 the perfect-power test accepts 2^106 + 1 as a perfect square. *)
Theorem c07_float_root_refuted :
  sqrtE (K b64_cfg 9) (ratz (2 ^ 106 + 1)) = Ok (ratz (2 ^ 53)) /\
  (2 ^ 53 * 2 ^ 53 <> 2 ^ 106 + 1)%Z.
Proof. split; [vm_compute; reflexivity|lia]. Qed.
