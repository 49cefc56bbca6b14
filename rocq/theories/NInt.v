(** * NInt: substitution and integration of normal forms (for C77). *)
From Coquelicot Require Import Coquelicot.
From Verif Require Import Base Expr Kernel Mono Sort Funcs Calc Expand Combi Sem RealLemmas Sound SoundPow Agree Simp Table Search Frag FragNum FragLib PropsA PropsC PropsB PropsK
  FragInt PropsL CanonR PropsM NForm NUniq NOps NExp.
From Coq Require Import Sorting.Sorted Sorting.Permutation.
Local Ltac splits := repeat match goal with |- _ /\ _ => split end.
Local Open Scope R_scope.

Section Subs.
Context (dom : expr -> bool) (c : cfg) (n : nat).
Notation fk := (F dom c (8 + n)).
Notation nform := (nform natq c). Notation nt0 := (nt0 natq c).
Let KP := k_prod_nt natq natq_qeq natq_add one_natq c (8 + n).
Let KS := k_sum_nf natq c (8 + n).
Context (m : list (string * expr)) (Hm : forall s t, assoc s m = Some t -> nt0 t).
Lemma subs_fac_nt t r : fac natq t -> nice t -> subs fk m t = Ok r -> nt0 r.
Proof.
  intros Ft Nt E. pose proof (nice_nt0 natq c t Ft Nt) as N0.
  destruct Ft as [t [s Hs|s q Hs Hq H0]|q]; cbn [subs] in E.
  - injection E as <-. destruct (assoc s m) eqn:A; eauto.
  - cbn [bind] in E. rewrite fk_pow, (pow_always_nat _ q Hq) in E. cbn [orb guard] in E.
    destruct Nt as (I & Lq & _). assert (B : nt0 match assoc s m with Some v => v | None => ESym s end).
    { destruct (assoc s m) eqn:A; eauto. apply (nice_nt0 natq c); [constructor; now constructor|exact I]. }
    exact (k_pow_nt c (8 + n) _ q r Hq Lq B E).
  - injection E as <-. auto.
Qed.
Definition go_subs := fix go (l : list expr) : res (list expr) :=
  match l with [] => Ok [] | t :: r => t' <- subs fk m t;; r' <- go r;; Ok (t' :: r') end.
Lemma go_inv (P Q : expr -> Prop) l l' : (forall t r, P t -> subs fk m t = Ok r -> Q r) -> Forall P l -> go_subs l = Ok l' -> Forall Q l'.
Proof.
  intros H F. revert l'. induction F as [|t l T F IH]; intros l' E; cbn [go_subs] in E; [injection E as <-; constructor|].
  apply bind_ok in E as (t' & Et & E). apply bind_ok in E as (r' & Er & E). injection E as <-. constructor; eauto.
Qed.
Lemma subs_nt t r : nt0 t -> subs fk m t = Ok r -> nt0 r.
Proof.
  intros A E. assert (Fl : Forall (fac natq) (flat_prod1 t) /\ Forall nice (flat_prod1 t)).
  { destruct (flat_nt0 natq c [t]) as (B & D); [auto|]. unfold flat_prod in B, D. cbn [flat_map] in B, D. rewrite app_nil_r in B, D. auto. }
  destruct (is_prod t) eqn:Pe.
  - destruct t as [| | | | | | | |l| | | |]; try discriminate. pose proof (nt0_mono natq c _ A) as M.
    inversion M as [? Fc|? L Fc R N]; subst; [inversion Fc as [? B|]; subst; inversion B|].
    assert (Q : flat_prod1 (EProd l) = l) by (apply (flat_prod_fac natq l Fc)). rewrite Q in Fl. destruct Fl as (F1 & F2).
    cbn [subs] in E. fold go_subs in E. apply bind_ok in E as (l' & El & E). apply (KP l'); auto.
    apply (go_inv (fun t => fac natq t /\ nice t) nt0 l); auto; [intros ? ? [] ?; eapply subs_fac_nt; eauto|]. rewrite Forall_forall in *. auto.
  - assert (Q : flat_prod1 t = [t]) by (destruct t; try reflexivity; discriminate). rewrite Q in Fl. destruct Fl as (F1 & F2).
    inversion F1; inversion F2; subst. eapply subs_fac_nt; eauto.
Qed.
Theorem subs_nf t r : nform t -> subs fk m t = Ok r -> nform r.
Proof.
  intros A E. destruct (is_sum t) eqn:S; [|apply nt0_nform; apply (subs_nt t); auto; now apply nform_nt0].
  destruct t as [| | | | | | |ts| | | | |]; try discriminate. destruct (nform_sum natq c ts A) as (Ft & _).
  cbn [subs] in E. fold go_subs in E. apply bind_ok in E as (l' & El & E). apply (KS l'); auto.
  apply (go_inv nt0 nform ts); auto. intros t r' T Er. apply nt0_nform. now apply (subs_nt t).
Qed.
End Subs.

Section Int.
Context (dom : expr -> bool) (rng : string -> expr -> bool) (nm : nat -> string) (c : cfg) (HX : fpow_exact (fpow c)) (n d : nat) (v : string) (Hv : ident v).
Notation fk := (F dom c (8 + n)).
Notation nform := (nform natq c). Notation nt0 := (nt0 natq c).
(** the antiderivative that is 0 where the variable is 0 *)
Definition at0 (r : expr) : Prop := forall rho, ev (upd rho v 0) r = 0.
Let KP := k_prod_nt natq natq_qeq natq_add one_natq c (8 + n).
Let NP := nform_plain c. Let NW := nform_wd c.
Lemma mul0 a b r : nt0 a -> nt0 b -> at0 b -> op_mul (K c (8 + n)) a b = Ok r -> at0 r.
Proof.
  intros A B Z E rho. apply nt0_nform in A, B.
  destruct (c02_ops_plain c HX (8 + n) (upd rho v 0) a b r (NP a A) (NP b B) (NW _ a A) (NW _ b B)) as (V & _).
  destruct (V E) as (_ & ->). rewrite Z. ring.
Qed.
Lemma pow0 q r : natq q -> ~ (q == 0)%Q -> k_pow (K c (8 + n)) (ESym v) (ERat q) = Ok r -> at0 r.
Proof.
  intros Nq Q0 E rho. change (8 + n)%nat with (S (7 + n)) in E. rewrite k_pow_sym in E. destruct (Qeq_bool q 0) eqn:E0; [now apply Qeq_bool_iff in E0|].
  destruct (Qeq_bool q 1); injection E as <-; cbn [ev].
  - unfold upd. now rewrite String.eqb_refl.
  - assert (U : upd rho v 0 v = 0) by (unfold upd; now rewrite String.eqb_refl). rewrite U.
    destruct Nq as [A B]. pose proof (qisint_eq q A) as Ez. pose proof (qisint_Q2R q A) as Zq. set (z := numer q) in *. clearbody z.
    assert (Zp : (0 < z)%Z). { rewrite Ez in B, Q0. unfold Qle in B. unfold Qeq in Q0. cbn in B, Q0. lia. }
    rewrite Zq, rpow_int by (right; lia). destruct z as [|z|z]; try lia. cbn. apply pow_i, Pos2Nat.is_pos.
Qed.
Lemma table0 t r : fac natq t -> nt0 t -> table fk v t = Ok (Some r) -> at0 r.
Proof.
  intros T Nt. assert (Nv : nt0 (ESym v)) by (apply nform_nt0; [now apply nform_sym|reflexivity]).
  assert (Zv : at0 (ESym v)) by (intros rho; cbn; unfold upd; now rewrite String.eqb_refl).
  assert (KQ : forall q p, natq q -> lowest q -> ~ (q == 0)%Q -> k_pow fk (ESym v) (ERat q) = Ok p -> nt0 p /\ at0 p).
  { intros q p Nq Lq Q0. rewrite fk_pow, (pow_always_nat _ _ Nq). cbn [orb guard]. intros E. split; [exact (k_pow_nt c (8 + n) _ q p Nq Lq Nv E)|exact (pow0 q p Nq Q0 E)]. }
  unfold table. destruct (contains v t) eqn:C; cbn [negb].
  2:{ intros E. apply bind_ok in E as (p & Ep & E). injection E as <-. exact (mul0 t (ESym v) p Nt Nv Zv Ep). }
  destruct T as [e [s Hs|s q Hs Hq H0]|q]; [| |discriminate].
  - intros E. apply bind_ok in E as (p & Ep & E). apply bind_ok in E as (p' & Ep' & E). injection E as <-.
    destruct (KQ 2%Q p) as (Np & Zp); auto; [split; [reflexivity|discriminate]|reflexivity|discriminate|].
    apply (mul0 (ERat (1 # 2)) p p'); auto. now apply nt0_rat.
  - cbn [contains] in C. rewrite orb_false_r in C. apply String.eqb_eq in C. subst s. cbn [is_var contains negb]. rewrite String.eqb_refl. cbn [andb].
    assert (E1 : isq (ERat q) (-1) = false).
    { apply isq_rat_f. intros E. destruct Hq as [_ Hq]. rewrite E in Hq. now apply Hq. }
    rewrite E1. cbn [op_add bind].
    assert (N2 : natq (Qred (q + 1))) by (apply (natq_qeq (q + 1)); [symmetry; apply Qred_correct|apply natq_add; auto using one_natq]).
    assert (N3 : ~ (Qred (q + 1) == 0)%Q).
    { intros E. rewrite Qred_correct in E. destruct Hq as [_ Hq]. assert (0 < q + 1)%Q by (apply (Qlt_le_trans _ 1); [reflexivity|]; rewrite <- (Qplus_0_l 1) at 1; now apply Qplus_le_l).
      rewrite E in H. discriminate. }
    assert (E2 : qis0 (Qred (q + 1)) = false) by (destruct (qis0 (Qred (q + 1))) eqn:E; auto; exfalso; now apply qis0_iff in E).
    unfold op_div, rat. rewrite E2. cbn [bind]. intros E. apply bind_ok in E as (p & Ep & E). apply bind_ok in E as (p' & Ep' & E). injection E as <-.
    destruct (KQ _ p N2 (lowest_red _) N3 Ep) as (Np & Zp). exact (mul0 (ERat (Qred (1 / Qred (q + 1)))) p p' (nt0_rat natq c _ (lowest_red _)) Np Zp Ep').
Qed.
Theorem integrate_nf bf k fin e : nform e -> (factors e <= d)%nat ->
  exists r, integrate fk rng nm d bf k fin e v = Ok (Some r) /\ nform r /\ at0 r.
Proof.
  intros A Hd. apply (integrate_nat dom rng nm c n d v) with (CM := nt0) (CP := nform) (CS := at0); auto.
  - apply Hv.
  - apply nt0_mono.
  - apply nform_poly.
  - apply nt0_nform.
  - intros t T. destruct (is_sum t) eqn:S; [|left; now apply nform_nt0].
    destruct t as [| | | | | | |ts| | | | |]; try discriminate. right. exists ts. split; auto. apply (nform_sum natq c ts T).
  - intros ts T. destruct (flat_nt0 natq c [EProd ts]) as (B & D); [auto|]. pose proof (nt0_mono natq c _ T) as M.
    inversion M as [? Fc|? L Fc R N]; subst; [inversion Fc as [? G|]; inversion G|].
    unfold flat_prod in B, D. cbn [flat_map] in B, D. rewrite app_nil_r in B, D.
    assert (Q : flat_prod1 (EProd ts) = ts) by (apply (flat_prod_fac natq ts Fc)). rewrite Q in B, D. rewrite Forall_forall in *. intros t Ht. apply (nice_nt0 natq c); auto.
  - intros l r H E. apply (k_sum_nf natq c (8 + n) l r); auto. eapply Forall_impl; [|exact H]. apply nt0_nform.
  - apply nform_nt0; [now apply nform_sym|reflexivity].
  - intros q L. now apply nt0_rat.
  - intros q r Nq Lq E. refine (k_pow_nt c (8 + n) _ q r Nq Lq _ E). apply nform_nt0; [now apply nform_sym|reflexivity].
  - apply table0.
  - apply mul0.
  - intros l r H Z E rho.
    destruct (c01_sum_plain c HX (8 + n) (upd rho v 0) l r) as (_ & V); auto.
    + eapply Forall_impl; [|exact H]. intros t T. now apply NP, nt0_nform.
    + eapply Forall_impl; [|exact H]. intros t T. now apply NW, nt0_nform.
    + rewrite V. clear -Z. induction Z as [|t l T F IH]; cbn [map Rsum fold_right]; [reflexivity|]. rewrite (T rho). unfold Rsum in IH. rewrite IH. ring.
Qed.
End Int.
