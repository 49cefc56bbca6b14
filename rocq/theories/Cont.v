(** * Cont: a defined expression depends continuously on each symbol (needed for definite integrals). *)
From Coquelicot Require Import Coquelicot.
From Verif Require Import Base Expr Sem RealLemmas CalcSound.
Open Scope R_scope.

Lemma asin_ge1 y : 1 <= y -> asin y = PI / 2.
Proof. intros H. unfold asin. destruct (Rle_dec y (-1)); [lra|]. destruct (Rle_dec 1 y); lra. Qed.
Lemma asin_le1 y : y <= -1 -> asin y = - (PI / 2).
Proof. intros H. unfold asin. destruct (Rle_dec y (-1)); lra. Qed.

Lemma asin_hi e y : 0 < e < PI -> sin (PI / 2 - e) < y -> PI / 2 - e < asin y.
Proof.
  intros He Hy. destruct (Rle_lt_dec 1 y) as [H|H]; [rewrite asin_ge1 by lra; lra|].
  pose proof (SIN_bound (PI / 2 - e)). pose proof (asin_bound y) as Ab.
  destruct (Rlt_le_dec (PI / 2 - e) (asin y)) as [|L]; auto. exfalso.
  assert (S : sin (asin y) <= sin (PI / 2 - e)) by (apply sin_incr_1; lra).
  rewrite sin_asin in S by lra. lra.
Qed.
Lemma cont_asin_1 : continuous asin 1.
Proof.
  intros P [eps HP]. unfold filtermap. pose proof PI_RGT_0 as Hpi.
  set (e := Rmin (eps / 2) 1). assert (He : 0 < e <= 1 /\ e < eps).
  { unfold e. destruct eps as [ep Hep]; simpl. split; [split|]; unfold Rmin; destruct (Rle_dec (ep / 2) 1); lra. }
  pose proof PI2_1 as P1.
  assert (Hd : 0 < 1 - sin (PI / 2 - e)).
  { pose proof (sin_increasing_1 (PI / 2 - e) (PI / 2)) as S. rewrite sin_PI2 in S. lra. }
  exists (mkposreal _ Hd). intros y Hy. apply HP. change (Rabs (y - 1) < 1 - sin (PI / 2 - e)) in Hy.
  change (Rabs (asin y - asin 1) < eps). rewrite (asin_ge1 1) by lra.
  assert (L : PI / 2 - e < asin y). { apply asin_hi; [lra|]. apply Rabs_def2 in Hy. lra. }
  pose proof (asin_bound y). apply Rabs_def1; lra.
Qed.
Lemma cont_asin y : continuous asin y.
Proof.
  destruct (Rlt_le_dec y 1) as [H1|H1].
  - destruct (Rlt_le_dec (-1) y) as [H2|H2].
    + apply (@ex_derive_continuous R_AbsRing R_NormedModule). eexists. apply is_derive_asin. lra.
    + destruct (Req_EM_T y (-1)) as [->|N].
      * apply (continuous_ext (fun t => - asin (- t))). { intros t. rewrite <- asin_opp. now rewrite Ropp_involutive. }
        apply (continuous_opp (V := R_NormedModule) (fun t => asin (- t))).
        apply (continuous_comp Ropp asin); [apply (continuous_opp (V := R_NormedModule) (fun t => t)); apply continuous_id|].
        replace (- (-1)) with 1 by lra. apply cont_asin_1.
      * apply (continuous_ext_loc _ (fun _ => - (PI / 2))); [|apply continuous_const].
        assert (L : y < -1) by lra. eapply filter_imp; [|apply (locally_interval (y - 1) (-1) y); lra].
        intros z Hz. cbn in Hz. symmetry. apply asin_le1. lra.
  - destruct (Req_EM_T y 1) as [->|N]; [apply cont_asin_1|].
    apply (continuous_ext_loc _ (fun _ => (PI / 2))); [|apply continuous_const].
    eapply filter_imp; [|apply (locally_interval 1 (y + 1) y); lra].
    intros z Hz. cbn in Hz. symmetry. apply asin_ge1. lra.
Qed.
Lemma cont_acos y : continuous acos y.
Proof.
  apply (continuous_ext (fun t => PI / 2 - asin t)).
  - intros t. unfold acos, asin. destruct (Rle_dec t (-1)) as [A|A]; [destruct (Rle_dec 1 t); lra|].
    destruct (Rle_dec 1 t) as [D|D]; [lra|]. reflexivity.
  - apply (continuous_minus (V := R_NormedModule) (fun _ => PI / 2) asin); [apply continuous_const|apply cont_asin].
Qed.

Lemma cont_powerRZ y z : (y <> 0 \/ (0 <= z)%Z) -> continuous (fun t => powerRZ t z) y.
Proof.
  intros H. destruct (Z.eq_dec z 0) as [->|N].
  - apply (continuous_ext (fun _ => 1)); [reflexivity|apply continuous_const].
  - apply (@ex_derive_continuous R_AbsRing R_NormedModule). eexists. apply is_derive_powerRZ. destruct H; auto. right. lia.
Qed.
Lemma cont_pos (f : R -> R) x : continuous f x -> 0 < f x -> locally x (fun y => 0 < f y).
Proof. intros C H. apply C. exists (mkposreal _ H). intros y Hy. change (Rabs (y - f x) < f x) in Hy. apply Rabs_def2 in Hy. lra. Qed.
Lemma cont_neq (f : R -> R) x : continuous f x -> f x <> 0 -> locally x (fun y => f y <> 0).
Proof.
  intros C H. assert (P : 0 < Rabs (f x)) by now apply Rabs_pos_lt.
  apply (C (fun y => y <> 0)). exists (mkposreal _ P). intros y Hy.
  change (Rabs (y - f x) < Rabs (f x)) in Hy. intros ->. rewrite Rminus_0_l, Rabs_Ropp in Hy. lra.
Qed.
Lemma cont_mult (f g : R -> R) x : continuous f x -> continuous g x -> continuous (fun t => f t * g t) x.
Proof. intros A B. exact (continuous_mult (K := R_AbsRing) f g x A B). Qed.
Lemma cont_plus (f g : R -> R) x : continuous f x -> continuous g x -> continuous (fun t => f t + g t) x.
Proof. intros A B. exact (continuous_plus (V := R_NormedModule) f g x A B). Qed.
Lemma cont_inv (f : R -> R) x : continuous f x -> f x <> 0 -> continuous (fun t => / f t) x.
Proof. intros A B. apply (continuous_comp f Rinv); auto. now apply continuous_Rinv. Qed.
Lemma cont_rpow (f g : R -> R) x : continuous f x -> continuous g x -> 0 < f x -> continuous (fun t => rpow (f t) (g t)) x.
Proof.
  intros A B P. apply (continuous_ext_loc _ (fun t => exp (g t * ln (f t)))).
  - eapply filter_imp; [|apply (cont_pos f x A P)]. intros t Ht. cbn in Ht. now rewrite rpow_pos.
  - apply (continuous_comp (fun t => g t * ln (f t)) exp).
    + apply cont_mult; auto. apply (continuous_comp f ln); auto.
      apply (@ex_derive_continuous R_AbsRing R_NormedModule). eexists. now apply is_derive_ln.
    + apply (@ex_derive_continuous R_AbsRing R_NormedModule). eexists. apply is_derive_exp.
Qed.
Lemma cont_tev (f : trig) (g : R -> R) x : continuous g x -> tdom f (g x) -> continuous (fun t => tev f (g t)) x.
Proof.
  intros A D.
  assert (Cs : continuous (fun t => sin (g t)) x).
  { apply (continuous_comp g sin); auto. apply (@ex_derive_continuous R_AbsRing R_NormedModule). eexists. apply is_derive_sin. }
  assert (Cc : continuous (fun t => cos (g t)) x).
  { apply (continuous_comp g cos); auto. apply (@ex_derive_continuous R_AbsRing R_NormedModule). eexists. apply is_derive_cos. }
  destruct f; cbn [tev tdom] in *; auto; unfold Rdiv; try (apply cont_mult; auto); try (now apply cont_inv).
  - apply (continuous_comp g asin); auto. apply cont_asin.
  - apply (continuous_comp g acos); auto. apply cont_acos.
  - apply (continuous_comp g atan); auto. apply (@ex_derive_continuous R_AbsRing R_NormedModule). eexists. apply is_derive_atan.
Qed.

(** At a point where the expression is defined its value is continuous in every symbol. *)
Theorem ev_continuous rho v e : wd rho e -> continuous (fun t => ev (upd rho v t) e) (rho v).
Proof.
  assert (U : upd rho v (rho v) = rho).
  { apply FunctionalExtensionality.functional_extensionality. intros s. apply upd_same. }
  induction e as [q| | | | |s| |ts IH|ts IH|b x IHb IHx|i b IHi IHb|f i IHi|i IHi] using expr_ind'; intros W; cbn [ev];
    try (apply continuous_const).
  - unfold upd. destruct (String.eqb s v); [apply continuous_id|apply continuous_const].
  - apply wd_sum in W. induction IH as [|t l Ht Hl IHl]; cbn; [apply continuous_const|].
    inversion W; subst. apply cont_plus; auto.
  - apply wd_prod in W as [W _]. induction IH as [|t l Ht Hl IHl]; cbn; [apply continuous_const|].
    inversion W; subst. apply cont_mult; auto.
  - destruct W as (Wb & Wx & P). destruct P as [(q & -> & Hq & D)|P].
    + cbn [ev]. apply qisint_Q2R in Hq as E. assert (D' : ev rho b <> 0 \/ (0 <= numer q)%Z).
      { destruct D as [D|D]; [now left|]. right. apply Q2R_nonneg in D. rewrite E in D. now apply le_IZR. }
      assert (D2 : locally (rho v) (fun t => ev (upd rho v t) b <> 0 \/ (0 <= numer q)%Z)).
      { destruct D' as [D'|D'].
        - eapply filter_imp; [|apply (cont_neq _ _ (IHb Wb)); now rewrite U]. intros t Ht; now left.
        - apply filter_forall. now right. }
      apply (continuous_ext_loc _ (fun t => powerRZ (ev (upd rho v t) b) (numer q))).
      { eapply filter_imp; [|exact D2]. intros t Ht. rewrite E. now rewrite rpow_int. }
      apply (continuous_comp (fun t => ev (upd rho v t) b) (fun y => powerRZ y (numer q))); auto.
      apply cont_powerRZ. now rewrite U.
    + apply rp_unfold in P as [P _]. apply cont_rpow; auto. now rewrite U.
  - destruct W as (Wi & Wb & P & B1 & B2). apply rp_unfold in P as [P _].
    assert (L : forall e, continuous (fun t => ev (upd rho v t) e) (rho v) -> 0 < ev rho e ->
                continuous (fun t => ln (ev (upd rho v t) e)) (rho v)).
    { intros e C Pe. apply (continuous_comp (fun t => ev (upd rho v t) e) ln); auto.
      apply (@ex_derive_continuous R_AbsRing R_NormedModule). eexists. apply is_derive_ln. now rewrite U. }
    unfold Rdiv. apply cont_mult; auto. apply cont_inv; auto. rewrite U. intros E. apply B2. apply ln_inv; [lra|lra|rewrite E, ln_1; auto].
  - destruct W as [W D]. apply cont_tev; auto. now rewrite U.
  - apply (continuous_comp (fun t => ev (upd rho v t) i) Rabs); auto. apply continuous_Rabs.
Qed.

Lemma wd_finite rho e : wd rho e -> finite e = true.
Proof.
  induction e as [q| | | | |s| |ts IH|ts IH|b x IHb IHx|i b IHi IHb|f i IHi|i IHi] using expr_ind'; intros W; cbn [finite]; auto.
  - apply wd_sum in W. apply forallb_forall. rewrite Forall_forall in *. auto.
  - apply wd_prod in W as [W _]. apply forallb_forall. rewrite Forall_forall in *. auto.
  - destruct W as (A & B & _). now rewrite IHb, IHx.
  - destruct W as (A & B & _). now rewrite IHi, IHb.
  - destruct W as [A _]. auto.
Qed.
