(** * PropsY: coefficients of polynomials (C91) and partial fractions (C33), without conditions. *)
From Coquelicot Require Import Coquelicot.
From Verif Require Import Base Expr Kernel Mono Sort Funcs Calc Expand Combi Sem RealLemmas Sound SoundPow Agree Oracle CalcSound Simp Table Poly Trans Search Frag FragNum FragLib
  PropsA PropsC PropsB PropsK FragInt PropsL CanonR PropsM NForm NUniq NOps NExp NInt PropsO Her HerLib PropsJ Regex PolyTot.
From Coq Require Import Lqa.
From Coq Require Lra.
Local Ltac splits := repeat match goal with |- _ /\ _ => split end.
Close Scope R_scope.
Local Open Scope nat_scope.

Section Coeffs.
Context (c : cfg) (HX : fpow_exact (fpow c)) (v : string).
Let c' := faithful c.
Let HX' : fpow_exact (fpow c') := HX.
Notation nform := (nform natq c'). Notation nt0 := (nt0 natq c').
Notation only := (only v).

Lemma only_within e : only e <-> PropsJ.within (fun s => s = v) e.
Proof. reflexivity. Qed.
Lemma only_expanded n d e r : expanded (PF c n) d e = Ok r -> only e -> only r.
Proof.
  unfold expanded. intros H O. apply bind_ok in H as (b & _ & H). destruct b; [|injection H as <-; auto].
  exact (by_expand _ _ _ _ (kept c n d _ (within_her (fun s => s = v))) e r H O).
Qed.
(** the coefficient list of [e]: what it has to be *)
Definition coeffs_of (e : expr) (l : list Q) : Prop :=
  (forall rho, ev rho e = rpoly l (rho v)) /\ Forall lowest l /\ l <> [] /\ ((l = [0%Q]) \/ ~ (last l 0 == 0)%Q).
Lemma tcp_mfx n d e : mfx c' e -> only e -> 6 <= d ->
  exists r, expanded (PF c (8 + n)) d e = Ok r /\ nform r /\ only r /\ (forall rho, ev rho r = ev rho e) /\ to_const_polynomial (PF c (8 + n)) d v e = to_poly (PF c (8 + n)) v [] (ERat 1) r.
Proof.
  intros M O Hd. destruct (expanded_total c HX n d e M Hd) as (r & E & Fr & V & _).
  pose proof (only_expanded _ _ _ _ E O) as Or.
  exists r. splits; auto. unfold to_const_polynomial, expand_if. unfold expanded in E. rewrite E. reflexivity.
Qed.
Lemma coeffs_nform r : nform r -> only r -> exists l, (forall fk, to_poly fk v [] (ERat 1) r = Ok (map ERat l)) /\ coeffs_of r l /\ (is_sum r = true -> 2 <= List.length l).
Proof.
  intros Fr Or. destruct (to_poly_nform c' v r Fr Or) as (l & El & Lw & Vl & Z & L2). exists l. splits; auto. unfold coeffs_of. splits; auto.
  + destruct Z as [(_ & ->)|(N & _)]; [discriminate|exact N].
  + destruct Z as [(_ & ->)|(_ & N)]; auto.
Qed.
(** ** Back to an expression *)
Lemma pow_v n i : ident v -> (0 <= i)%Z -> exists p, op_pow (PF c (8 + n)) (ESym v) (ratz i) = Ok p /\ nt0 p /\ forall rho, ev rho p = (rho v ^ Z.to_nat i)%R.
Proof.
  intros Hv Hi. unfold ratz.
  assert (Nq : natq (inject_Z i)) by (rewrite <- (Z2Nat.id i Hi); apply natq_nat).
  rewrite (pow_K c n (ESym v) _ Nq). change (op_pow (K (faithful c) (8 + n)) (ESym v) (ERat (inject_Z i))) with (k_pow (K (faithful c) (8 + n)) (ESym v) (ERat (inject_Z i))).
  destruct (k_pow_xsym natq c' (7 + n) v (inject_Z i) Nq ltac:(apply Hv)) as (p & E & _). change (1 + (7 + n)) with (8 + n) in E. fold c'. exists p. splits; auto.
  - exact (pow_sym_nt c' (7 + n) v (inject_Z i) p Hv Nq (lowest_z i) E).
  - intros rho. destruct (c03_int_power c' HX' (8 + n) rho (ESym v) i p eq_refl Logic.I) as (_ & V); [right; lia|exact E|].
    rewrite V, rpow_int by (right; lia). cbn [ev]. rewrite <- (Z2Nat.id i Hi) at 1. symmetry. apply pow_powerRZ.
Qed.
Lemma mul_nt n a b : nt0 a -> nt0 b -> exists r, op_mul (PF c (8 + n)) a b = Ok r /\ nt0 r /\ forall rho, ev rho r = (ev rho a * ev rho b)%R.
Proof.
  intros A B. assert (G : exists r, op_mul (K c' (8 + n)) a b = Ok r).
  { destruct (k_prod_total natq natq_qeq natq_add one_natq c' (4 + n) [a; b]) as (r & E & _); [auto|]. unfold op_mul. destruct a, b; try (exists r; exact E). eexists; reflexivity. }
  destruct G as (r & E). exists r. split; [exact E|]. split; [exact (op_mul_nt natq natq_qeq natq_add one_natq c' (8 + n) a b r A B E)|].
  pose proof (nt0_nform natq c' a A) as Fa. pose proof (nt0_nform natq c' b B) as Fb.
  intros rho. destruct (c02_ops_plain c' HX' (8 + n) rho a b r (nform_plain c' a Fa) (nform_plain c' b Fb) (nform_wd c' rho a Fa) (nform_wd c' rho b Fb)) as (V & _). now apply V.
Qed.
Lemma poly_expr_total n : ident v -> forall l i acc, (0 <= i)%Z -> Forall lowest l -> nform acc ->
  exists r, poly_expr_go (PF c (8 + n)) v i acc (map ERat l) = Ok r /\ nform r /\ forall rho, ev rho r = (ev rho acc + rho v ^ Z.to_nat i * rpoly l (rho v))%R.
Proof.
  intros Hv. induction l as [|a l IH]; intros i acc Hi Ll A; cbn [map poly_expr_go].
  - exists acc. splits; auto. intros rho. cbn [rpoly fold_right]. Lra.lra.
  - inversion Ll as [|? ? La Ll']; subst. destruct (pow_v n i Hv Hi) as (p & -> & Np & Vp). cbn [bind].
    destruct (mul_nt n (ERat a) p (nt0_rat natq c' a La) Np) as (m & -> & Nm & Vm). cbn [bind].
    destruct (op_add_total c HX n acc m A (nt0_nform natq c' m Nm)) as (s & -> & Fs & Vs). cbn [bind].
    destruct (IH (i + 1)%Z s ltac:(lia) Ll' Fs) as (r & E & Fr & Vr). exists r. splits; auto.
    intros rho. rewrite Vr, Vs, Vm, Vp. cbn [ev rpoly fold_right]. fold (rpoly l (rho v)). rewrite Z2Nat.inj_add, Nat.add_1_r by lia. cbn [pow]. Lra.lra.
Qed.
Lemma roundtrip n e l : ident v -> nform e -> Forall lowest l -> (forall rho, ev rho e = rpoly l (rho v)) ->
  polynomial_to_expr (PF c (8 + n)) v (map ERat l) = Ok e.
Proof.
  intros Hv Fe Ll V. unfold polynomial_to_expr. destruct (poly_expr_total n Hv l 0 (ERat 0) ltac:(lia) Ll) as (r & E & Fr & Vr); [apply nform_rat; reflexivity|].
  rewrite E. f_equal. apply (nform_unique natq c' HX'); auto. intros rho _. rewrite Vr, V. cbn [ev Z.to_nat pow]. rewrite RMicromega.Q2R_0. Lra.lra.
Qed.

(** ** C91 *)
(** [l] is the coefficient list of the function [f] of [v]: no leading zero, and the zero polynomial is [0] *)
Definition is_coeffs (l : list Q) (f : env -> R) : Prop :=
  (forall rho, f rho = rpoly l (rho v)) /\ l <> [] /\ (l = [0%Q] \/ ~ (last l 0 == 0)%Q).
Lemma run_nform p e : allowed p -> computes c p e -> nform e /\ forall rho, ev rho e = pval p rho.
Proof.
  intros A C. destruct (prun_total c HX p A) as (e' & C' & F & V & _). rewrite (computes_unique c p e e' C C'). auto.
Qed.
Theorem c91_coefficients p e : ident v -> allowed p -> computes c p e -> only e ->
  exists l, is_coeffs l (pval p) /\
    (forall m d, 12 <= m -> 6 <= d -> to_const_polynomial (PF c m) d v e = Ok (map ERat l)) /\
    (forall m, 12 <= m -> polynomial_to_expr (PF c m) v (map ERat l) = Ok e).
Proof.
  intros Hv A C O. destruct (run_nform p e A C) as (F & V). destruct (coeffs_nform e F O) as (l & E & (Vl & Lw & Ne & Z) & _).
  exists l. splits.
  - unfold is_coeffs. splits; auto. intros rho. now rewrite <- V, Vl.
  - intros m d Hm Hd. destruct (tcp_mfx (m - 8) d e (mfx_nf c' e F) O Hd) as (r & _ & Fr & _ & Vr & Er). replace (8 + (m - 8)) with m in Er by lia. rewrite Er.
    replace r with e; [apply E|]. apply (nform_unique natq c' HX'); auto.
  - intros m Hm. replace m with (8 + (m - 8)) by lia. apply roundtrip; auto.
Qed.
Theorem c91_product p q e f : ident v -> allowed p -> allowed q -> computes c p e -> computes c q f -> only e -> only f ->
  exists l, is_coeffs l (fun rho => pval p rho * pval q rho)%R /\
    forall m d, 12 <= m -> 6 <= d -> (z <- op_mul (PF c m) e f;; to_const_polynomial (PF c m) d v z) = Ok (map ERat l).
Proof.
  intros Hv A B C D O P. destruct (run_nform p e A C) as (F & V), (run_nform q f B D) as (G & W).
  destruct (prun_total c HX (PMul p q) (conj A B)) as (r0 & _ & F0 & V0 & _). cbn [pval] in V0.
  assert (H : forall m d, 12 <= m -> 6 <= d -> exists z r, op_mul (PF c m) e f = Ok z /\ nform r /\ only r /\ (forall rho, ev rho r = ev rho r0) /\ to_const_polynomial (PF c m) d v z = to_poly (PF c m) v [] (ERat 1) r).
  { intros m d Hm Hd. destruct (op_mul_total c' HX' (m - 12) e f F G) as (z & Ez & Mz).
    assert (Ez' : op_mul (PF c m) e f = Ok z). { replace m with (12 + (m - 12)) by lia. exact Ez. }
    assert (Oz : only z) by exact (by_mul _ _ _ _ (kept c m d _ (within_her (fun s => s = v))) e f z Ez' O P).
    destruct (tcp_mfx (m - 8) d z Mz Oz Hd) as (r & _ & Fr & Or & Vr & Er). replace (8 + (m - 8)) with m in Er by lia.
    exists z, r. splits; auto. intros rho. rewrite Vr, V0, <- V, <- W.
    destruct (c02_ops_plain c' HX' (12 + (m - 12)) rho e f z (nform_plain c' e F) (nform_plain c' f G) (nform_wd c' rho e F) (nform_wd c' rho f G)) as (Vm & _). now apply Vm. }
  assert (O0 : only r0). { destruct (H 12 6 ltac:(lia) ltac:(lia)) as (z & r & _ & Fr & Or & Vr & _). replace r0 with r; auto. apply (nform_unique natq c' HX'); auto. }
  destruct (coeffs_nform r0 F0 O0) as (l & E & (Vl & Lw & Ne & Z) & _). exists l. split.
  - unfold is_coeffs. splits; auto. intros rho. now rewrite <- V0, Vl.
  - intros m d Hm Hd. destruct (H m d Hm Hd) as (z & r & -> & Fr & Or & Vr & Er). cbn [bind]. rewrite Er. replace r with r0; [apply E|]. apply (nform_unique natq c' HX'); auto.
Qed.
Theorem c91_power p k e : ident v -> allowed p -> computes c p e -> only e ->
  exists l, is_coeffs l (fun rho => pval p rho ^ k)%R /\
    forall m d, 12 <= m -> 6 <= d -> (z <- op_pow (PF c m) e (ratz (Z.of_nat k));; to_const_polynomial (PF c m) d v z) = Ok (map ERat l).
Proof.
  intros Hv A C O. destruct (run_nform p e A C) as (F & V).
  destruct (prun_total c HX (PPow p k) A) as (r0 & _ & F0 & V0 & _). cbn [pval] in V0.
  assert (H : forall m d, 12 <= m -> 6 <= d -> exists z r, op_pow (PF c m) e (ratz (Z.of_nat k)) = Ok z /\ nform r /\ only r /\ (forall rho, ev rho r = ev rho r0) /\ to_const_polynomial (PF c m) d v z = to_poly (PF c m) v [] (ERat 1) r).
  { intros m d Hm Hd. destruct (op_pow_total c' HX' (m - 11) e _ F (natq_nat k) (lowest_z _)) as (z & Ez & Mz).
    assert (Ez' : op_pow (PF c m) e (ratz (Z.of_nat k)) = Ok z).
    { replace m with (8 + (m - 8)) by lia. unfold ratz. rewrite (pow_K c (m - 8) e _ (natq_nat k)). replace (8 + (m - 8)) with (11 + (m - 11)) by lia. exact Ez. }
    assert (Oz : only z) by exact (by_power _ _ _ _ (kept c m d _ (within_her (fun s => s = v))) e _ z Ez' O (fun s (H : In s (names (ratz (Z.of_nat k)))) => match H with end)).
    destruct (tcp_mfx (m - 8) d z Mz Oz Hd) as (r & _ & Fr & Or & Vr & Er). replace (8 + (m - 8)) with m in Er by lia.
    exists z, r. splits; auto. intros rho. rewrite Vr, V0, <- V.
    destruct (c03_int_power c' HX' (11 + (m - 11)) rho e (Z.of_nat k) z (nform_plain c' e F) (nform_wd c' rho e F)) as (_ & Vm); [right; lia|exact Ez|].
    rewrite Vm, rpow_int by (right; lia). rewrite <- pow_powerRZ. reflexivity. }
  assert (O0 : only r0). { destruct (H 12 6 ltac:(lia) ltac:(lia)) as (z & r & _ & Fr & Or & Vr & _). replace r0 with r; auto. apply (nform_unique natq c' HX'); auto. }
  destruct (coeffs_nform r0 F0 O0) as (l & E & (Vl & Lw & Ne & Z) & _). exists l. split.
  - unfold is_coeffs. splits; auto. intros rho. now rewrite <- V0, Vl.
  - intros m d Hm Hd. destruct (H m d Hm Hd) as (z & r & -> & Fr & Or & Vr & Er). cbn [bind]. rewrite Er. replace r with r0; [apply E|]. apply (nform_unique natq c' HX'); auto.
Qed.
End Coeffs.
(** the hypotheses are met: p = (x - 1)(x + 2/3), q = x + 1 and p * q, q^3 *)
Definition ex91 : pexp := PMul (PSub (PSym "x") (PNum 1)) (PAdd (PSym "x") (PNum (2 # 3))).
Definition ex91q : pexp := PAdd (PSym "x") (PNum 1).
Lemma c91_ex : ident "x" /\ allowed ex91 /\ allowed ex91q /\ exists e f, run12 ex91 = Ok e /\ run12 ex91q = Ok f /\ only "x" e /\ only "x" f /\
  to_const_polynomial (PF exact_cfg 12) 6 "x" e = Ok (map ERat [(-2 # 3); (-1 # 3); 1]%Q) /\
  (z <- op_mul (PF exact_cfg 12) e f;; to_const_polynomial (PF exact_cfg 12) 6 "x" z) = Ok (map ERat [(-2 # 3); (-1); (2 # 3); 1]%Q) /\
  (z <- op_pow (PF exact_cfg 12) f (ratz 3);; to_const_polynomial (PF exact_cfg 12) 6 "x" z) = Ok (map ERat [1; 3; 3; 1]%Q).
Proof.
  pose proof ident_x. split; [auto|]. split; [cbn; tauto|]. split; [cbn; tauto|]. do 2 eexists. split; [vm_compute; reflexivity|]. split; [vm_compute; reflexivity|].
  split; [intros s; cbn; intuition|]. split; [intros s; cbn; intuition|]. split; [vm_compute; reflexivity|]. split; vm_compute; reflexivity.
Qed.
