(** * FSound: the guarded library preserves real values. *)
From Verif Require Export SoundPow Funcs.
From Coq Require Import Classical.
Open Scope R_scope.

(** asin(sin(x)), acos(cos(x)), atan(tan(x)) are rewritten to x: right on the principal range
    only; asin(csc(x)), acos(sec(x)), atan(cot(x)) are rewritten to 1/x, never right. *)
Definition inv_dom (rho : env) (f : trig) (i : expr) : Prop :=
  match f, i with
  | Asin, ETrig Sin j => - (PI / 2) <= ev rho j <= PI / 2
  | Acos, ETrig Cos j => 0 <= ev rho j <= PI
  | Atan, ETrig Tan j => - (PI / 2) < ev rho j < PI / 2
  | Asin, ETrig Csc _ | Acos, ETrig Sec _ | Atan, ETrig Cot _ => False
  | _, _ => True
  end.

(** The node [t] (power, log, trig) is defined at [rho], its operands being defined; for an
    absolute value: it is differentiable there with the derivative of its argument. *)
Definition node_ok (rho : env) (t : expr) : Prop :=
  match t with
  | EPow b x => pdom rho b x
  | ELog i b => rp rho i /\ 0 < ev rho b /\ ev rho b <> 1
  | ETrig f i => tdom f (ev rho i) /\ inv_dom rho f i
  | EAbs i => 0 < ev rho i
  | _ => True
  end.

Record GSound (rho : env) (k : kern) : Prop := {
  g_sum : forall ts e, k_sum k ts = Ok e -> Forall (wd rho) ts ->
    wd rho e /\ ev rho e = Rsum (map (ev rho) ts);
  g_prod : forall ts e, k_prod k ts = Ok e -> Forall (wd rho) ts ->
    wd rho e /\ ev rho e = Rprod (map (ev rho) ts);
  g_pow : forall b x e, k_pow k b x = Ok e -> wd rho b -> wd rho x ->
    pdom rho b x /\ wd rho e /\ ev rho e = rpow (ev rho b) (ev rho x);
  g_abs : forall i e, k_abs k i = Ok e -> wd rho i -> wd rho e /\ ev rho e = Rabs (ev rho i) }.

Record FSound (rho : env) (fk : fkern) : Prop := {
  f_k :> GSound rho fk;
  f_eq : forall a b, k_eq fk a b = Ok true -> a = b;
  f_neq : forall s, k_eq fk (ESym s) (ESym s) <> Ok false;
  f_log : forall i b e, k_log fk i b = Ok e -> wd rho i -> wd rho b ->
    node_ok rho (ELog i b) /\ wd rho e /\ ev rho e = ln (ev rho i) / ln (ev rho b);
  f_trig : forall f i e, k_trig fk f i = Ok e -> wd rho i ->
    tdom f (ev rho i) /\ wd rho e /\ ev rho e = tev f (ev rho i);
  f_strict : k_strict fk = true;
  f_node : forall t, k_node fk t = true -> node_ok rho t }.

Lemma guard_ok {A} b (r : res A) a : guard b r = Ok a -> b = true /\ r = Ok a.
Proof. destruct b; simpl; intros H; [auto | discriminate]. Qed.

Lemma pow_always_ok rho b x : pow_always b x = true -> wd rho x -> pdom rho b x.
Proof.
  intros H Wx.
  assert (G : forall q, x = ERat q -> qisint q && negb (qlt0 q) = true -> pdom rho b x).
  { intros q -> Hq. apply andb_prop in Hq as [Hi Hn]. apply negb_true_iff in Hn.
    left. exists q. split; [reflexivity|]. split; auto. right. apply Q2R_nonneg. now apply qlt0_false. }
  destruct b; simpl in H; try discriminate;
    try (destruct x; try discriminate; try (now (eapply G; eauto)); fail).
  - destruct x; try (right; apply rp_ERat; now apply qgt0_true).
    apply orb_prop in H as [H|H]; [right; apply rp_ERat; now apply qgt0_true|].
    apply andb_prop in H as [Hi H]. left. exists q0. split; [reflexivity|]. split; auto.
    apply orb_prop in H as [H|H]; apply negb_true_iff in H.
    + left. simpl. now apply qis0_false.
    + right. apply Q2R_nonneg. now apply qlt0_false.
  - right. apply rp_unfold. simpl. split; auto. apply PI_RGT_0.
  - right. apply rp_unfold. simpl. split; auto. apply exp_pos.
Qed.

Lemma gk_sound rho dom k : Sound k -> (forall t, dom t = true -> node_ok rho t) ->
  GSound rho (gk dom k).
Proof.
  intros HS HD. constructor; simpl.
  - intros. eapply s_sum; eauto.
  - intros. eapply s_prod; eauto.
  - intros b x e H Wb Wx. apply guard_ok in H as [Hg H].
    assert (P : pdom rho b x).
    { apply orb_prop in Hg as [Hg|Hg]; [now apply pow_always_ok|]. now apply HD in Hg. }
    split; auto. eapply s_pow; eauto.
  - intros. eapply s_abs; eauto.
Qed.

(** ** Operators over a guarded kernel *)
Section Ops.
Context (rho : env) (k : kern) (HG : GSound rho k).

Lemma wd_rat q : wd rho (rat q). Proof. exact I. Qed.

Lemma g_add a b e : op_add k a b = Ok e -> wd rho a -> wd rho b ->
  wd rho e /\ ev rho e = ev rho a + ev rho b.
Proof.
  intros H Wa Wb. unfold op_add in H.
  assert (G : k_sum k [a; b] = Ok e -> wd rho e /\ ev rho e = ev rho a + ev rho b).
  { intros G. apply (g_sum _ _ HG) in G as [G1 G2]; [|repeat constructor; auto].
    split; auto. rewrite G2. simpl. ring. }
  destruct a; auto. destruct b; auto. inv_ok. split; simpl; auto. now rewrite Q2R_red, Q2R_plus.
Qed.

Lemma g_mul a b e : op_mul k a b = Ok e -> wd rho a -> wd rho b ->
  wd rho e /\ ev rho e = ev rho a * ev rho b.
Proof.
  intros H Wa Wb. unfold op_mul in H.
  assert (G : k_prod k [a; b] = Ok e -> wd rho e /\ ev rho e = ev rho a * ev rho b).
  { intros G. apply (g_prod _ _ HG) in G as [G1 G2]; [|repeat constructor; auto].
    split; auto. rewrite G2. simpl. ring. }
  destruct a; auto. destruct b; auto. inv_ok. split; simpl; auto. now rewrite Q2R_red, Q2R_mult.
Qed.

Lemma g_sub a b e : op_sub k a b = Ok e -> wd rho a -> wd rho b ->
  wd rho e /\ ev rho e = ev rho a - ev rho b.
Proof.
  intros H Wa Wb. unfold op_sub in H.
  assert (G : (m <- op_mul k (ERat (-1)) b;; op_add k a m) = Ok e ->
     wd rho e /\ ev rho e = ev rho a - ev rho b).
  { intros G. apply bind_ok in G as (m & Hm & G). apply g_mul in Hm as [M1 M2]; simpl; auto.
    apply g_add in G as [G1 G2]; auto. split; auto. rewrite G2, M2. simpl. rewrite Q2R_m1. ring. }
  destruct a; auto. destruct b; auto. inv_ok. split; simpl; auto. now rewrite Q2R_red, Q2R_minus.
Qed.

Lemma pdom_m1 b : pdom rho b (ERat (-1)) -> ev rho b <> 0.
Proof.
  intros [(q & E & _ & [H|H])|H]; auto.
  - injection E as <-. exfalso. revert H. compute. auto.
  - apply rp_gt0 in H. lra.
Qed.

Lemma g_div a b e : op_div k a b = Ok e -> wd rho a -> wd rho b ->
  ev rho b <> 0 /\ wd rho e /\ ev rho e = ev rho a / ev rho b.
Proof.
  intros H Wa Wb. unfold op_div in H.
  assert (G : (i <- k_pow k b (ERat (-1));; k_prod k [a; i]) = Ok e ->
     ev rho b <> 0 /\ wd rho e /\ ev rho e = ev rho a / ev rho b).
  { intros G. apply bind_ok in G as (m & Hm & G).
    apply (g_pow _ _ HG) in Hm as (M0 & M1 & M2); simpl; auto. apply pdom_m1 in M0.
    apply (g_prod _ _ HG) in G as [G1 G2]; [|repeat constructor; auto]. split; auto. split; auto.
    rewrite G2. simpl. rewrite M2. simpl. rewrite Q2R_m1, rpow_m1 by auto. unfold Rdiv. ring. }
  destruct a; auto. destruct b; auto. destruct (qis0 q0) eqn:E; auto. inv_ok.
  apply qis0_false in E. split; auto. split; simpl; auto. rewrite Q2R_red. apply Q2R_div.
  intros Z. apply E. rewrite (Qeq_eqR _ _ Z). apply Q2R_0.
Qed.

Lemma g_opow b x e : op_pow k b x = Ok e -> wd rho b -> wd rho x ->
  pdom rho b x /\ wd rho e /\ ev rho e = rpow (ev rho b) (ev rho x).
Proof.
  intros H Wb Wx. unfold op_pow in H.
  assert (G : k_pow k b x = Ok e -> pdom rho b x /\ wd rho e /\ ev rho e = rpow (ev rho b) (ev rho x))
    by (intros G; eapply (g_pow _ _ HG) in G; eauto).
  destruct b; auto. destruct x; auto.
  destruct (qis0 q && qlt0 q0) eqn:EZ; [discriminate|].
  destruct (qisint q0) eqn:Ei; auto. inv_ok.
  assert (D : Q2R q <> 0 \/ 0 <= Q2R q0).
  { apply andb_false_iff in EZ as [EZ|EZ]; [left; now apply qis0_false | right; now apply qlt0_false]. }
  split.
  { left. exists q0. repeat split; auto. destruct D; [auto|right; now apply Q2R_nonneg]. }
  split; simpl; auto. rewrite Q2R_red, Q2R_Qpower, (qisint_Q2R _ Ei), rpow_int; auto.
  destruct D as [D|D]; auto. right. rewrite (qisint_Q2R _ Ei) in D. now apply le_IZR.
Qed.

Lemma g_neg e : forall r, op_neg k e = Ok r -> wd rho e -> wd rho r /\ ev rho r = - ev rho e.
Proof.
  assert (G : forall e r, op_mul k (ERat (-1)) e = Ok r -> wd rho e ->
    wd rho r /\ ev rho r = - ev rho e).
  { intros e0 r G W. apply g_mul in G as [G1 G2]; simpl; auto. split; auto. rewrite G2.
    simpl. rewrite Q2R_m1. ring. }
  induction e as [q| | | | | | |ts IH|ts IH|b x IHb IHx| | |] using expr_ind'; intros r H W;
    try (apply G; assumption); try (destruct W; fail).
  - cbn [op_neg] in H. apply bind_ok in H as (ts' & Ht & H). apply wd_sum in W.
    assert (A : Forall (wd rho) ts' /\ Rsum (map (ev rho) ts') = - Rsum (map (ev rho) ts)).
    { clear H. revert ts' Ht. induction IH as [|t l Hx Hl IHl]; intros ts' Ht.
      - inv_ok. split; auto. simpl. ring.
      - inversion W; subst. apply bind_ok in Ht as (t' & Ht' & Ht). apply bind_ok in Ht as (r' & Hr' & Ht).
        inv_ok. apply Hx in Ht' as [A1 A2]; auto. apply IHl in Hr' as [B1 B2]; auto.
        split; auto. simpl. rewrite A2, B2. ring. }
    destruct A as [A1 A2]. apply (g_sum _ _ HG) in H as [B1 B2]; auto. split; auto. now rewrite B2, A2.
Qed.

Lemma g_oabs e r : op_abs k e = Ok r -> wd rho e -> wd rho r /\ ev rho r = Rabs (ev rho e).
Proof.
  intros H W. unfold op_abs in H. destruct e; try (apply (g_abs _ _ HG) in H; auto; fail);
    try (destruct W; fail).
  inv_ok. split; simpl; auto. now rewrite Q2R_red, Q2R_Qabs.
Qed.

Lemma g_sqrt e r : sqrtE k e = Ok r -> wd rho e -> 0 < ev rho e /\ wd rho r /\ ev rho r = sqrt (ev rho e).
Proof.
  intros H W. apply g_opow in H as (H0 & H1 & H2); simpl; auto.
  assert (P : 0 < ev rho e).
  { destruct H0 as [(q & E & Hi & _)|H0]; [|now apply rp_gt0]. injection E as <-. discriminate. }
  split; auto. split; auto. rewrite H2, rpow_pos by auto. simpl.
  rewrite <- Rpower_sqrt by auto. f_equal. unfold Q2R; simpl. lra.
Qed.
End Ops.

(** ** Special values *)
Section Trig.
Context (rho : env) (k : kern) (HG : GSound rho k).

Lemma over_sqrt2_sound z r : over_sqrt2 k z = Ok r -> wd rho r /\ ev rho r = Q2R z / sqrt 2.
Proof.
  unfold over_sqrt2. intros H. apply bind_ok in H as (s & Hs & H).
  apply (g_sqrt rho k HG) in Hs as (_ & S1 & S2); simpl; auto.
  apply (g_div rho k HG) in H as (_ & D1 & D2); simpl; auto. split; auto. rewrite D2, S2. simpl.
  do 2 f_equal. unfold Q2R; simpl; lra.
Qed.
Lemma sqrt3_2_sound r : sqrt3_2 k = Ok r -> wd rho r /\ ev rho r = sqrt 3 / 2.
Proof.
  unfold sqrt3_2. intros H. apply bind_ok in H as (s & Hs & H).
  apply (g_sqrt rho k HG) in Hs as (_ & S1 & S2); simpl; auto.
  apply (g_div rho k HG) in H as (_ & D1 & D2); simpl; auto. split; auto. rewrite D2, S2. simpl.
  f_equal; [f_equal|]; unfold Q2R; simpl; lra.
Qed.
Lemma nsqrt3_2_sound r : nsqrt3_2 k = Ok r -> wd rho r /\ ev rho r = - (sqrt 3 / 2).
Proof.
  unfold nsqrt3_2. intros H. apply bind_ok in H as (s & Hs & H). apply bind_ok in H as (m & Hm & H).
  apply (g_sqrt rho k HG) in Hs as (_ & S1 & S2); simpl; auto.
  apply (g_neg rho k HG) in Hm as [M1 M2]; auto.
  apply (g_div rho k HG) in H as (_ & D1 & D2); simpl; auto. split; auto. rewrite D2, M2, S2. simpl.
  replace (Q2R 3) with 3 by (unfold Q2R; simpl; lra). replace (Q2R 2) with 2 by (unfold Q2R; simpl; lra).
  field.
Qed.

Lemma sin_PI_minus x : sin (PI - x) = sin x.
Proof. rewrite sin_minus, sin_PI, cos_PI. ring. Qed.
Lemma cos_PI_minus x : cos (PI - x) = - cos x.
Proof. rewrite cos_minus, sin_PI, cos_PI. ring. Qed.
Lemma sin_PI_plus x : sin (PI + x) = - sin x.
Proof. rewrite sin_plus, sin_PI, cos_PI. ring. Qed.
Lemma cos_PI_plus x : cos (PI + x) = - cos x.
Proof. rewrite cos_plus, sin_PI, cos_PI. ring. Qed.
Lemma sin_2PI_minus x : sin (2 * PI - x) = - sin x.
Proof. rewrite sin_minus, sin_2PI, cos_2PI. ring. Qed.
Lemma cos_2PI_minus x : cos (2 * PI - x) = cos x.
Proof. rewrite cos_minus, sin_2PI, cos_2PI. ring. Qed.

Ltac qval := unfold Q2R; simpl; field.

(** Exact values of sine and cosine at the 16 tabulated angles. *)
Lemma sin_table_sound q r : lookup_q q (sin_table k) = Ok r -> wd rho r /\ ev rho r = sin (Q2R q * PI).
Proof.
  intros H. unfold sin_table in H. cbn [lookup_q] in H.
  repeat match type of H with
  | (if Qeq_bool ?p q then _ else _) = _ => destruct (Qeq_bool p q) eqn:?E
  end; try discriminate H;
  match goal with E : Qeq_bool ?p q = true |- _ => apply Qeq_bool_true in E; rewrite <- E; clear E end;
  repeat match goal with E : Qeq_bool _ _ = false |- _ => clear E end;
  try (injection H as <-; split; [exact I|]; cbn [ev]);
  try (apply over_sqrt2_sound in H as [H1 H2]; split; [exact H1|]; rewrite H2; clear H1 H2);
  try (apply sqrt3_2_sound in H as [H1 H2]; split; [exact H1|]; rewrite H2; clear H1 H2);
  try (apply nsqrt3_2_sound in H as [H1 H2]; split; [exact H1|]; rewrite H2; clear H1 H2).
  - rewrite Q2R_0, Rmult_0_l, sin_0; auto.
  - replace (Q2R (1 # 6) * PI) with (PI / 6) by qval. rewrite sin_PI6. qval.
  - replace (Q2R (1 # 4) * PI) with (PI / 4) by qval. rewrite sin_PI4. now rewrite Q2R_1.
  - replace (Q2R (1 # 3) * PI) with (PI / 3) by qval. now rewrite sin_PI3.
  - replace (Q2R (1 # 2) * PI) with (PI / 2) by qval. rewrite sin_PI2. qval.
  - replace (Q2R (2 # 3) * PI) with (PI - PI / 3) by qval. now rewrite sin_PI_minus, sin_PI3.
  - replace (Q2R (3 # 4) * PI) with (PI - PI / 4) by qval. rewrite sin_PI_minus, sin_PI4. now rewrite Q2R_1.
  - replace (Q2R (5 # 6) * PI) with (PI - PI / 6) by qval. rewrite sin_PI_minus, sin_PI6. qval.
  - rewrite Q2R_1, Rmult_1_l, sin_PI. apply Q2R_0.
  - replace (Q2R (7 # 6) * PI) with (PI + PI / 6) by qval. rewrite sin_PI_plus, sin_PI6. qval.
  - replace (Q2R (5 # 4) * PI) with (PI + PI / 4) by qval. rewrite sin_PI_plus, sin_PI4, Q2R_m1. field.
    apply sqrt2_neq_0.
  - replace (Q2R (4 # 3) * PI) with (PI + PI / 3) by qval. now rewrite sin_PI_plus, sin_PI3.
  - replace (Q2R (3 # 2) * PI) with (PI + PI / 2) by qval. rewrite sin_PI_plus, sin_PI2. qval.
  - replace (Q2R (5 # 3) * PI) with (2 * PI - PI / 3) by qval. now rewrite sin_2PI_minus, sin_PI3.
  - replace (Q2R (7 # 4) * PI) with (2 * PI - PI / 4) by qval. rewrite sin_2PI_minus, sin_PI4, Q2R_m1. field.
    apply sqrt2_neq_0.
  - replace (Q2R (11 # 6) * PI) with (2 * PI - PI / 6) by qval. rewrite sin_2PI_minus, sin_PI6. qval.
Qed.

Lemma cos_table_sound q r : lookup_q q (cos_table k) = Ok r -> wd rho r /\ ev rho r = cos (Q2R q * PI).
Proof.
  intros H. unfold cos_table in H. cbn [lookup_q] in H.
  repeat match type of H with
  | (if Qeq_bool ?p q then _ else _) = _ => destruct (Qeq_bool p q) eqn:?E
  end; try discriminate H;
  match goal with E : Qeq_bool ?p q = true |- _ => apply Qeq_bool_true in E; rewrite <- E; clear E end;
  repeat match goal with E : Qeq_bool _ _ = false |- _ => clear E end;
  try (injection H as <-; split; [exact I|]; cbn [ev]);
  try (apply over_sqrt2_sound in H as [H1 H2]; split; [exact H1|]; rewrite H2; clear H1 H2);
  try (apply sqrt3_2_sound in H as [H1 H2]; split; [exact H1|]; rewrite H2; clear H1 H2);
  try (apply nsqrt3_2_sound in H as [H1 H2]; split; [exact H1|]; rewrite H2; clear H1 H2).
  - rewrite Q2R_0, Rmult_0_l, cos_0. apply Q2R_1.
  - replace (Q2R (1 # 6) * PI) with (PI / 6) by qval. now rewrite cos_PI6.
  - replace (Q2R (1 # 4) * PI) with (PI / 4) by qval. rewrite cos_PI4. now rewrite Q2R_1.
  - replace (Q2R (1 # 3) * PI) with (PI / 3) by qval. rewrite cos_PI3. qval.
  - replace (Q2R (1 # 2) * PI) with (PI / 2) by qval. rewrite cos_PI2. qval.
  - replace (Q2R (2 # 3) * PI) with (PI - PI / 3) by qval. rewrite cos_PI_minus, cos_PI3. qval.
  - replace (Q2R (3 # 4) * PI) with (PI - PI / 4) by qval. rewrite cos_PI_minus, cos_PI4, Q2R_m1. field.
    apply sqrt2_neq_0.
  - replace (Q2R (5 # 6) * PI) with (PI - PI / 6) by qval. now rewrite cos_PI_minus, cos_PI6.
  - rewrite Q2R_1, Rmult_1_l, cos_PI. apply Q2R_m1.
  - replace (Q2R (7 # 6) * PI) with (PI + PI / 6) by qval. now rewrite cos_PI_plus, cos_PI6.
  - replace (Q2R (5 # 4) * PI) with (PI + PI / 4) by qval. rewrite cos_PI_plus, cos_PI4, Q2R_m1. field.
    apply sqrt2_neq_0.
  - replace (Q2R (4 # 3) * PI) with (PI + PI / 3) by qval. rewrite cos_PI_plus, cos_PI3. qval.
  - replace (Q2R (3 # 2) * PI) with (PI + PI / 2) by qval. rewrite cos_PI_plus, cos_PI2. qval.
  - replace (Q2R (5 # 3) * PI) with (2 * PI - PI / 3) by qval. rewrite cos_2PI_minus, cos_PI3. qval.
  - replace (Q2R (7 # 4) * PI) with (2 * PI - PI / 4) by qval. rewrite cos_2PI_minus, cos_PI4.
    now rewrite Q2R_1.
  - replace (Q2R (11 # 6) * PI) with (2 * PI - PI / 6) by qval. now rewrite cos_2PI_minus, cos_PI6.
Qed.

Lemma special_sound f q r : special k f q = Ok r -> 
  wd rho r /\ ev rho r = tev f (Q2R q * PI).
Proof.
  intros H. unfold special in H. destruct f; try discriminate H.
  - now apply sin_table_sound.
  - now apply cos_table_sound.
  - apply bind_ok in H as (a & Ha & H). apply bind_ok in H as (b & Hb & H).
    apply sin_table_sound in Ha as [A1 A2]. apply cos_table_sound in Hb as [B1 B2].
    apply (g_div rho k HG) in H as (_ & D1 & D2); auto. split; auto. rewrite D2, A2, B2. reflexivity.
  - apply bind_ok in H as (a & Ha & H). apply sin_table_sound in Ha as [A1 A2].
    apply (g_div rho k HG) in H as (_ & D1 & D2); simpl; auto. split; auto. rewrite D2, A2. simpl.
    rewrite Q2R_1. unfold Rdiv; ring.
  - apply bind_ok in H as (a & Ha & H). apply cos_table_sound in Ha as [A1 A2].
    apply (g_div rho k HG) in H as (_ & D1 & D2); simpl; auto. split; auto. rewrite D2, A2. simpl.
    rewrite Q2R_1. unfold Rdiv; ring.
  - apply bind_ok in H as (a & Ha & H). apply bind_ok in H as (b & Hb & H).
    apply cos_table_sound in Ha as [A1 A2]. apply sin_table_sound in Hb as [B1 B2].
    apply (g_div rho k HG) in H as (_ & D1 & D2); auto. split; auto. rewrite D2, A2, B2. reflexivity.
Qed.

(** ** Periodicity *)
Lemma sin_per_Z x n : sin (x + 2 * IZR n * PI) = sin x.
Proof.
  destruct (Z_le_gt_dec 0 n) as [Hn|Hn].
  - rewrite <- (Z2Nat.id n) by auto. rewrite <- INR_IZR_INZ. apply sin_period.
  - rewrite <- (sin_period (x + 2 * IZR n * PI) (Z.to_nat (- n))). f_equal.
    rewrite INR_IZR_INZ, Z2Nat.id by lia. rewrite opp_IZR. ring.
Qed.
Lemma cos_per_Z x n : cos (x + 2 * IZR n * PI) = cos x.
Proof.
  destruct (Z_le_gt_dec 0 n) as [Hn|Hn].
  - rewrite <- (Z2Nat.id n) by auto. rewrite <- INR_IZR_INZ. apply cos_period.
  - rewrite <- (cos_period (x + 2 * IZR n * PI) (Z.to_nat (- n))). f_equal.
    rewrite INR_IZR_INZ, Z2Nat.id by lia. rewrite opp_IZR. ring.
Qed.

(** sin and cos both keep or both flip their sign under a shift by n * pi. *)
Lemma shift_pi x n : (sin (x + IZR n * PI) = sin x /\ cos (x + IZR n * PI) = cos x) \/
  (sin (x + IZR n * PI) = - sin x /\ cos (x + IZR n * PI) = - cos x).
Proof.
  destruct (Z.Even_or_Odd n) as [[m ->]|[m ->]].
  - left. rewrite mult_IZR. split; [apply sin_per_Z | apply cos_per_Z].
  - right. rewrite plus_IZR, mult_IZR.
    replace (x + (2 * IZR m + 1) * PI) with ((PI + x) + 2 * IZR m * PI) by ring.
    rewrite sin_per_Z, cos_per_Z. now rewrite sin_PI_plus, cos_PI_plus.
Qed.

Lemma tev_period f x n : is_inverse f = false ->
  tev f (x + Q2R (period f) * IZR n * PI) = tev f x.
Proof.
  intros Hf. 
  assert (E2 : Q2R 2 = 2) by (unfold Q2R; simpl; lra).
  assert (T : forall g, (g = Tan \/ g = Cot) -> tev g (x + Q2R 1 * IZR n * PI) = tev g x).
  { intros g Hg. rewrite Q2R_1, Rmult_1_l.
    destruct (shift_pi x n) as [[S C]|[S C]]; destruct Hg as [-> | ->]; simpl; rewrite S, C; auto;
    unfold Rdiv; rewrite Rinv_opp; ring. }
  destruct f; try discriminate Hf; simpl period; try (apply T; auto; fail); rewrite E2; simpl;
    now rewrite ?sin_per_Z, ?cos_per_Z.
Qed.
Lemma tev_period2 f x n : is_inverse f = false -> tev f (x + 2 * IZR n * PI) = tev f x.
Proof.
  intros Hf. destruct f; try discriminate Hf; simpl; now rewrite ?sin_per_Z, ?cos_per_Z.
Qed.

Lemma qmod_Q2R q p : Q2R p <> 0 -> exists n, Q2R q = Q2R (qmod q p) + Q2R p * IZR n.
Proof.
  intros Hp. exists (Qfloor (q / p)). unfold qmod. rewrite Q2R_minus, Q2R_mult, Q2R_inject. ring.
Qed.

Lemma find_period_sound f l t : find_period k (period f) l = Ok (Some t) -> Forall (wd rho) l ->
  wd rho t /\ exists n, ev rho t = Q2R (period f) * IZR n * PI.
Proof.
  assert (Hp : Q2R (period f) <> 0) by (destruct f; unfold Q2R; simpl; lra).
  induction l as [|u l IH]; cbn [find_period]; intros H W; [discriminate|]. inversion W; subst.
  destruct (has_pi u); auto. apply bind_ok in H as (co & Hco & H).
  destruct co; auto. destruct (qis0 (qmod q (period f))) eqn:E; auto. inv_ok. split; auto.
  apply (g_div rho k HG) in Hco as (_ & _ & D); simpl; auto. simpl in D.
  destruct (qmod_Q2R q _ Hp) as [n Hn]. apply qis0_true in E. exists n.
  rewrite E in Hn. rewrite Rplus_0_l in Hn. rewrite <- Hn, D. field. apply PI_neq0.
Qed.


Lemma double_simp_sound f g j r : double_simp k f g j = Ok r -> wd rho j -> tdom g (ev rho j) ->
  wd rho r /\ ev rho r = tev f (tev g (ev rho j)).
Proof.
  intros H W T. unfold double_simp in H.
  assert (E2 : Q2R 2 = 2) by (unfold Q2R; simpl; lra).
  assert (SQ : forall q, op_pow k j (ERat 2) = Ok q -> wd rho q /\ ev rho q = Rsqr (ev rho j)).
  { intros q Hq. apply (g_opow rho k HG) in Hq as (_ & Q1 & Q2); simpl; auto. split; auto. rewrite Q2.
    simpl. rewrite E2. replace 2 with (IZR 2) by reflexivity. rewrite rpow_int by (right; lia).
    simpl. unfold Rsqr. ring. }
  assert (M : forall r0, (sq <- op_pow k j (ERat 2);; m <- op_sub k (ERat 1) sq;; sqrtE k m) = Ok r0 ->
     wd rho r0 /\ 0 < 1 - Rsqr (ev rho j) /\ ev rho r0 = sqrt (1 - Rsqr (ev rho j))).
  { intros r0 Hr. apply bind_ok in Hr as (q & Hq & Hr). apply bind_ok in Hr as (m & Hm & Hr).
    apply SQ in Hq as [Q1 Q2]. apply (g_sub rho k HG) in Hm as [M1 M2]; simpl; auto.
    apply (g_sqrt rho k HG) in Hr as (R0 & R1 & R2); auto. rewrite M2, Q2 in *. simpl in *.
    rewrite Q2R_1 in *. auto. }
  assert (P : forall r0, (sq <- op_pow k j (ERat 2);; m <- op_add k (ERat 1) sq;; sqrtE k m) = Ok r0 ->
     wd rho r0 /\ ev rho r0 = sqrt (1 + Rsqr (ev rho j))).
  { intros r0 Hr. apply bind_ok in Hr as (q & Hq & Hr). apply bind_ok in Hr as (m & Hm & Hr).
    apply SQ in Hq as [Q1 Q2]. apply (g_add rho k HG) in Hm as [M1 M2]; simpl; auto.
    apply (g_sqrt rho k HG) in Hr as (R0 & R1 & R2); auto. rewrite M2, Q2 in *. simpl in *.
    rewrite Q2R_1 in *. auto. }
  destruct f, g; try discriminate H; simpl in T |- *.
  - apply M in H as (H1 & H2 & H3). split; auto. rewrite H3, sin_acos; auto.
  - apply bind_ok in H as (d & Hd & H). apply P in Hd as [D1 D2].
    apply (g_div rho k HG) in H as (_ & H1 & H2); auto. split; auto. rewrite H2, D2, sin_atan. reflexivity.
  - apply M in H as (H1 & H2 & H3). split; auto. rewrite H3, cos_asin; auto.
  - apply bind_ok in H as (d & Hd & H). apply P in Hd as [D1 D2].
    apply (g_div rho k HG) in H as (_ & H1 & H2); simpl; auto. split; auto.
    rewrite H2, D2, cos_atan. simpl. now rewrite Q2R_1.
  - apply bind_ok in H as (d & Hd & H). apply M in Hd as (D1 & D2 & D3).
    apply (g_div rho k HG) in H as (_ & H1 & H2); auto. split; auto.
    rewrite H2, D3, sin_asin, cos_asin; auto.
  - apply bind_ok in H as (d & Hd & H). apply M in Hd as (D1 & D2 & D3).
    apply (g_div rho k HG) in H as (_ & H1 & H2); auto. split; auto.
    rewrite H2, D3, sin_acos, cos_acos; auto.
Qed.

Lemma tev_recip (v : R) :
  tev Csc v = / tev Sin v /\ tev Sec v = / tev Cos v /\ (tev Cot v = / tev Tan v).
Proof. simpl. repeat split. unfold Rdiv. rewrite Rinv_mult, Rinv_inv. ring. Qed.

Lemma one_over e r : op_div k (ERat 1) e = Ok r -> wd rho e ->
  ev rho e <> 0 /\ wd rho r /\ ev rho r = / ev rho e.
Proof.
  intros H W. apply (g_div rho k HG) in H as (H0 & H1 & H2); simpl; auto. split; auto. split; auto.
  rewrite H2. simpl. rewrite Q2R_1. unfold Rdiv; ring.
Qed.

Lemma sin_atan_tan v : sin (atan v) / cos (atan v) = v.
Proof. change (tan (atan v) = v). apply tan_atan. Qed.

Lemma trig_inner_sound f i r : trig_inner k f i = Ok r -> wd rho i -> tdom f (ev rho i) ->
  inv_dom rho f i -> wd rho r /\ ev rho r = tev f (ev rho i).
Proof.
  intros H W T I. unfold trig_inner in H.
  assert (D : Ok (ETrig f i) = Ok r -> wd rho r /\ ev rho r = tev f (ev rho i)).
  { intros [= <-]. simpl; auto. }
  destruct i as [| | | | | | | | | | |g j|]; auto. destruct W as [W Tg].
  destruct (tev_recip (tev g (ev rho j))) as (RC & RS & RT).
  destruct f, g; cbn [is_inverse Bool.eqb trig_func trig_eqb reciprocal_class] in H; auto;
    cbn [ev] in *;
    try (apply double_simp_sound in H; auto; fail);
    try (apply bind_ok in H as (d & Hd & H); apply double_simp_sound in Hd as [D1 D2]; auto;
         apply one_over in H as (H0 & H1 & H2); auto; split; auto; rewrite H2, D2;
         rewrite ?RC, ?RS, ?RT; reflexivity);
    try (destruct I; fail);
    try (injection H as <-; split; [assumption|]; simpl; simpl in Tg, I);
    try (apply one_over in H as (H0 & H1 & H2); auto; split; auto; rewrite H2; simpl; simpl in Tg).
  all: try (symmetry; first [now apply sin_asin | now apply cos_acos | now apply sin_atan_tan
            | now apply asin_sin | now apply acos_cos | change (atan (tan (ev rho j)) = ev rho j); now apply atan_tan]).
  all: try (now rewrite ?sin_asin, ?cos_acos by auto).
  - rewrite <- (sin_atan_tan (ev rho j)) at 1. unfold Rdiv. rewrite Rinv_mult, Rinv_inv. ring.
Qed.

Lemma trig_base_sound f i r : trig_base k f i = Ok r -> wd rho i -> tdom f (ev rho i) ->
  inv_dom rho f i -> wd rho r /\ ev rho r = tev f (ev rho i).
Proof.
  intros H W T I. unfold trig_base in H. destruct (isq i 0) eqn:E0.
  { apply special_sound in H as [H1 H2]. split; auto. rewrite H2, (isq_ev rho _ _ E0), Q2R_0.
    now rewrite Rmult_0_l. }
  destruct (negb (is_inverse f) && has_pi i) eqn:EP; [|now apply trig_inner_sound].
  apply andb_prop in EP as [EP _]. apply negb_true_iff in EP.
  apply bind_ok in H as (co & Hco & H). cbv zeta in H.
  assert (R : match i with
      | ESum ts =>
          o <- find_period k (period f) ts;;
          match o with
          | Some t => d <- op_sub k i t;; Ok (ETrig f d)
          | None => trig_inner k f i
          end
      | _ => trig_inner k f i
      end = Ok r -> wd rho r /\ ev rho r = tev f (ev rho i)).
  { intros R. destruct i; try (now apply trig_inner_sound).
    apply bind_ok in R as (o & Ho & R). destruct o as [t|]; [|now apply trig_inner_sound].
    apply find_period_sound in Ho as [O1 [n O2]]; [|now apply wd_sum].
    apply bind_ok in R as (d & Hd & R). apply (g_sub rho k HG) in Hd as [D1 D2]; auto. inv_ok.
    assert (TE : tev f (ev rho (ESum ts)) = tev f (ev rho d)).
    { rewrite <- (tev_period f (ev rho d) n EP). f_equal. rewrite D2, O2. ring. }
    split; [|now rewrite TE]. split; auto. revert T.
    assert (TD : tdom f (ev rho (ESum ts)) -> tdom f (ev rho d)).
    { replace (ev rho d) with (ev rho (ESum ts) + Q2R (period f) * IZR (- n) * PI).
      2:{ rewrite D2, O2, opp_IZR. ring. }
      assert (E2 : Q2R 2 = 2) by (unfold Q2R; simpl; lra).
      generalize (ev rho (ESum ts)) (- n)%Z. clear - EP. intros v m.
      destruct f; try discriminate EP; simpl; auto; try (rewrite Q2R_1, Rmult_1_l; destruct (shift_pi v m) as [[Hs1 Hc1]|[Hs1 Hc1]]; rewrite ?Hs1, ?Hc1; lra);
      replace (Q2R 2) with 2 by (unfold Q2R; simpl; lra); rewrite ?sin_per_Z, ?cos_per_Z; auto. }
    auto. }
  destruct co; auto. destruct (existsb _ _); auto.
  apply special_sound in H as [H1 H2]. split; auto. rewrite H2.
  apply (g_div rho k HG) in Hco as (_ & _ & D); simpl; auto. simpl in D.
  destruct (qmod_Q2R q 2) as [n Hn]; [unfold Q2R; simpl; lra|].
  replace (ev rho i) with (Q2R (qmod q 2) * PI + 2 * IZR n * PI).
  - symmetry. now apply tev_period2.
  - assert (E : ev rho i = Q2R q * PI) by (rewrite D; field; apply PI_neq0).
    rewrite E, Hn. replace (Q2R 2) with 2 by (unfold Q2R; simpl; lra). ring.
Qed.

Lemma mk_trig_sound n : forall f i r, mk_trig k n f i = Ok r -> wd rho i -> tdom f (ev rho i) ->
  inv_dom rho f i -> wd rho r /\ ev rho r = tev f (ev rho i).
Proof.
  induction n as [|n IH]; cbn [mk_trig]; intros f i r H W T I; [discriminate|].
  assert (B : trig_base k f i = Ok r -> wd rho r /\ ev rho r = tev f (ev rho i))
    by (intros; now apply trig_base_sound).
  assert (N : (f = Sin \/ f = Tan) -> (m <- op_neg k i;; r <- mk_trig k n f m;; op_neg k r) = Ok r ->
    wd rho r /\ ev rho r = tev f (ev rho i)).
  { intros Hf N. apply bind_ok in N as (m & Hm & N). apply bind_ok in N as (s & Hs & N).
    apply (g_neg rho k HG) in Hm as [M1 M2]; auto.
    apply IH in Hs as [S1 S2]; auto.
    - apply (g_neg rho k HG) in N as [N1 N2]; auto. split; auto. rewrite N2, S2, M2.
      destruct Hf as [-> | ->]; simpl; rewrite sin_neg, ?cos_neg; unfold Rdiv; ring.
    - rewrite M2. destruct Hf as [-> | ->]; simpl; auto. rewrite cos_neg. auto.
    - destruct Hf as [-> | ->]; exact Logic.I. }
  destruct f; auto.
  - destruct (is_sub i); auto.
  - apply bind_ok in H as (r0 & H0 & H). apply trig_base_sound in H0 as [A1 A2]; auto.
    assert (D : Ok r0 = Ok r -> wd rho r /\ ev rho r = tev Cos (ev rho i)) by (intros [= <-]; auto).
    destruct r0 as [| | | | | | | | | | |g j|]; auto. destruct g; auto. destruct (is_sub i); auto.
    apply bind_ok in H as (m & Hm & H). apply (g_neg rho k HG) in Hm as [M1 M2]; auto. inv_ok.
    split; [simpl; auto|]. simpl. now rewrite M2, cos_neg.
  - destruct (is_sub i); auto.
Qed.
End Trig.

Lemma mk_log_sound rho c i b e : strict c = true -> mk_log c i b = Ok e -> wd rho i -> wd rho b ->
  node_ok rho (ELog i b) -> wd rho e /\ ev rho e = ln (ev rho i) / ln (ev rho b).
Proof.
  intros Hs H Wi Wb (Ri & Gb & Nb). unfold mk_log in H.
  assert (Lb : ln (ev rho b) <> 0).
  { intros E. apply Nb. apply ln_inv; auto; [lra|]. now rewrite ln_1. }
  destruct (isq i 1) eqn:E1.
  { inv_ok. split; simpl; auto. rewrite (isq_ev rho _ _ E1), Q2R_1, ln_1, Q2R_0. unfold Rdiv; ring. }
  apply bind_ok in H as (v & Hv & H). destruct v.
  { inv_ok. apply (py_eq_true c Hs) in Hv. subst. split; simpl; auto. rewrite Q2R_1. now field. }
  assert (D : Ok (ELog i b) = Ok e -> wd rho e /\ ev rho e = ln (ev rho i) / ln (ev rho b)).
  { intros [= <-]. split; [|reflexivity]. cbn [wd]. tauto. }
  destruct i; auto. apply bind_ok in H as (w & Hw & H). destruct w; auto.
  apply (py_eq_true c Hs) in Hw. subst.
  assert (Hx : Ok i2 = Ok e -> wd rho e /\ ev rho e = ln (ev rho (EPow b i2)) / ln (ev rho b)).
  { intros [= <-]. destruct Wi as (_ & W2 & _). split; auto. simpl. rewrite rpow_pos by auto.
    unfold Rpower. rewrite ln_exp. now field. }
  destruct i2; auto. discriminate.
Qed.

(** The guarded library is sound at every assignment at which the oracle is right. *)
Theorem F_sound rho dom c n : strict c = true -> fpow_exact (fpow c) ->
  (forall t, dom t = true -> node_ok rho t) -> FSound rho (F dom c n).
Proof.
  intros Hs Hf HD.
  assert (HG : GSound rho (gk dom (K c n))) by (apply gk_sound; auto; now apply K_sound).
  constructor; simpl; auto.
  - intros a b H. now apply (py_eq_true c Hs) in H.
  - intros s. unfold py_eq. cbn. rewrite Hs, String.eqb_refl. discriminate.
  - intros i b e H Wi Wb. apply guard_ok in H as [Hg H]. apply HD in Hg. split; auto.
    now apply (mk_log_sound rho c).
  - intros f i e H W. apply guard_ok in H as [Hg H].
    assert (N : tdom f (ev rho i) /\ inv_dom rho f i).
    { apply orb_prop in Hg as [Hg|Hg]; [destruct f; try discriminate; simpl; auto|].
      now apply HD in Hg. }
    destruct N as [N1 N2]. split; auto. eapply mk_trig_sound; eauto.
Qed.
