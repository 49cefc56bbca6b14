(** * PropsL: integrate is total and right on polynomials (C72-C74).

    [poly natq]: polynomials in any number of symbols with rational coefficients and natural
    exponents, in the shape the constructors give them (Frag.v).  [factors e] is the largest number
    of factors in a term (plus one for a sum); the recursion allowance must be at least that. *)
From Coquelicot Require Import Coquelicot.
From Verif Require Import Base Expr Kernel Mono Funcs FMono Calc Sem RealLemmas Sound SoundPow Atoms Agree Oracle
  FSound CalcSound Cont Combi Expand ExpandSound Factor Regex Simp Pts Match TrigSimp Poly PolyQ Table Trans TransMono TransSound
  Search SearchMono SearchSound Shape Interval PropsA PropsC PropsD PropsE PropsF PropsG Frag FragNum FragLib PropsJ PropsK FragInt.
Local Open Scope R_scope.

(** ** C72: integrate on polynomials *)
Definition everywhere : box := fun _ _ => True.
Lemma every_open v : openv everywhere v.
Proof. intros t _. apply filter_true. Qed.
Lemma every_in rho : inB everywhere rho.
Proof. intros s. exact I. Qed.
Lemma never_right rho : right_at rho (fun _ => false).
Proof. intros t H. discriminate. Qed.
Lemma never_rng : rng_ok everywhere (fun _ _ => false).
Proof. intros y u H. discriminate. Qed.
Lemma poly_everywhere e : poly natq e -> wdB everywhere e.
Proof. intros P rho _. apply (poly_wd natq); auto. intros; now apply natq_wd. Qed.

Theorem c72_integrate c m d v nm bf k fin e : fpow_exact (fpow c) -> (8 <= m)%nat -> v <> ""%string -> poly natq e -> (factors e <= d)%nat ->
  exists r, integrate (PF c m) (fun _ _ => true) nm d bf k fin e v = Ok (Some r) /\ poly natq r /\
    (forall s, In s (names r) -> In s (names e) \/ s = v) /\
    forall rho t, is_derive (fun s => ev (upd rho v s) r) t (ev (upd rho v t) e).
Proof.
  intros HX Hm Hv P Hd. replace m with (8 + (m - 8))%nat by lia. set (n := (m - 8)%nat).
  destruct (integrate_poly (fun _ => false) (fun _ _ => false) nm (strictly c) n d v Hv bf k fin e P Hd) as (r & E & Pr).
  destruct (c60_integrate c HX (fun _ => false) (fun _ _ => false) everywhere (fun rho _ => never_right rho) never_rng
    (8 + n) (8 + n) (Nat.le_refl _) d d (Nat.le_refl _) nm bf k fin e v r (every_open v) (poly_everywhere e P) E) as [E' A].
  destruct (c68_scope c (fun _ => false) (fun _ _ => false) (8 + n) (8 + n) (Nat.le_refl _) d d (Nat.le_refl _) nm bf k fin e v r E) as [_ N].
  exists r. split; [exact E'|]. split; [exact Pr|]. split; [exact N|]. intros rho t.
  destruct (A (upd rho v t) (every_in _)) as [_ D]. rewrite upd_eq in D. eapply is_derive_ext; [|exact D].
  intros s. simpl. now rewrite upd_upd_eq.
Qed.
(** 3/2 x^4 y - x + y^2 + 7, in x *)
Example c72_ex :
  let e := ESum [EProd [ERat (-3#2); EPow sx (ERat 4); sy]; sx; EPow sy (ERat 2); ERat 7] in
  poly natq e /\ factors e = 4%nat /\
  integrate (PF exact_cfg 12) (fun _ _ => true) unm 12 false 3 true e "x" =
    Ok (Some (ESum [EProd [sx; EPow sy (ERat 2)]; EProd [ERat (-3#10); sy; EPow sx (ERat 5)]; EProd [ERat (1#2); EPow sx (ERat 2)]; EProd [ERat 7; sx]])).
Proof. split; [exact c70_ex|]. split; [reflexivity|vm_compute; reflexivity]. Qed.

(** ** C73: substituting monomials into a polynomial *)
Section Subs.
Context (dom : expr -> bool) (c : cfg) (n : nat) (m : list (string * expr)) (Hm : forall s e, assoc s m = Some e -> mono natq e).
Notation fk := (F dom c (8 + n)).
Lemma subs_atom t : atom natq t -> exists r, subs fk m t = Ok r /\ mono natq r.
Proof.
  assert (B : forall s, s <> ""%string -> exists r, subs fk m (ESym s) = Ok r /\ mono natq r).
  { intros s Hs. cbn [subs]. destruct (assoc s m) as [e|] eqn:E; [exists e; eauto|]. exists (ESym s). split; auto. now apply mono_fac, fac_at, at_sym. }
  intros [s Hs|s q Hs Hq H0]; [now apply B|]. destruct (B s Hs) as (r & E & M).
  destruct (k_pow_mono natq natq_qeq natq_add one_natq (fun p q0 A B _ => natq_mul p q0 A B) c (2 + n) r q Hq M) as (p & Ep & Mp).
  exists p. split; auto. change (subs fk m (EPow (ESym s) (ERat q))) with (b' <- subs fk m (ESym s);; k_pow fk b' (ERat q)).
  rewrite E. cbn [bind]. rewrite (fk_pow dom c n), (pow_always_nat r q Hq). exact Ep.
Qed.
Lemma subs_fac t : fac natq t -> exists r, subs fk m t = Ok r /\ mono natq r.
Proof. intros [a A|q]; [now apply subs_atom|]. exists (ERat q). split; auto. apply mono_fac, fac_rat. Qed.
Lemma subs_mono_poly t : mono natq t -> exists r, subs fk m t = Ok r /\ mono natq r.
Proof.
  intros [a A|ts L F R N]; [now apply subs_fac|]. cbn [subs].
  match goal with |- exists r, (ts' <- ?g ts;; _) = Ok r /\ _ => assert (G : exists ts', g ts = Ok ts' /\ Forall (mono natq) ts') end.
  { clear -F Hm. induction F as [|u l U F (l' & E & Fl)]; [exists []; auto|]. destruct (subs_fac u U) as (r & Er & M).
    exists (r :: l'). rewrite Er. cbn [bind]. rewrite E. cbn [bind]. auto. }
  destruct G as (ts' & -> & G). cbn [bind]. exact (k_prod_monos natq natq_qeq natq_add one_natq c (4 + n) ts' G).
Qed.
Lemma subs_poly t : poly natq t -> exists r, subs fk m t = Ok r /\ poly natq r.
Proof.
  intros [a A|ts L F].
  { destruct (subs_mono_poly a A) as (r & E & M). exists r. split; auto. now apply poly_mono. }
  cbn [subs].
  match goal with |- exists r, (ts' <- ?g ts;; _) = Ok r /\ _ => assert (G : exists ts', g ts = Ok ts' /\ Forall (poly natq) ts') end.
  { clear -F Hm. induction F as [|u l U F (l' & E & Fl)]; [exists []; auto|]. destruct (subs_mono_poly u U) as (r & Er & M).
    exists (r :: l'). rewrite Er. cbn [bind]. rewrite E. cbn [bind]. split; auto. constructor; auto. now apply poly_mono. }
  destruct G as (ts' & -> & G). cbn [bind]. exact (k_sum_poly natq c n ts' G).
Qed.
End Subs.

Theorem c73_subs c m s e : fpow_exact (fpow c) -> (8 <= m)%nat -> (forall x t, assoc x s = Some t -> mono natq t) -> poly natq e ->
  exists r, subs (PF c m) s e = Ok r /\ poly natq r /\ forall rho, ev rho r = ev (upds rho s) e.
Proof.
  intros HX Hm Hs P. replace m with (8 + (m - 8))%nat by lia. set (n := (m - 8)%nat).
  destruct (subs_poly (fun _ => false) (strictly c) n s Hs e P) as (r & E & Pr). exists r.
  assert (W : forall rho t, poly natq t -> wd rho t) by (intros rho t Pt; apply (poly_wd natq); auto; intros; now apply natq_wd).
  assert (G : forall rho, subs (PF c (8 + n)) s e = Ok r /\ wd rho r /\ ev rho r = ev (upds rho s) e).
  { intros rho. apply (c14_subs c HX (fun _ => false) (8 + n) (8 + n) (Nat.le_refl _) rho s e r); auto.
    - apply never_right.
    - intros x t Ht. apply W. apply poly_mono. eauto.
    - apply (wd_finite rho). now apply W. }
  split; [apply (G (fun _ => 0))|]. split; [exact Pr|]. intros rho. apply (G rho).
Qed.

(** (x + 2 x y^2) with x := -3 y^2, y := x *)
Example c73_ex :
  let e := ESum [sx; EProd [ERat 2; sx; EPow sy (ERat 2)]] in
  let s := [("x"%string, EProd [ERat (-3); EPow sy (ERat 2)]); ("y"%string, sx)] in
  poly natq e /\ (forall x t, assoc x s = Some t -> mono natq t) /\
  subs (PF exact_cfg 12) s e = Ok (ESum [EProd [ERat (-6); EPow sx (ERat 2); EPow sy (ERat 2)]; EProd [ERat (-3); EPow sy (ERat 2)]]).
Proof.
  split; [apply (polyb_ok _ natqb); [exact natqb_ok|reflexivity]|]. split; [|vm_compute; reflexivity].
  intros x t. cbv zeta. cbn [assoc]. destruct (String.eqb "x" x); [intros E; injection E as <-; apply (monob_ok _ natqb); [exact natqb_ok|reflexivity]|].
  destruct (String.eqb "y" x); [intros E; injection E as <-; apply (monob_ok _ natqb); [exact natqb_ok|reflexivity]|discriminate].
Qed.

(** ** C74: definite integrals of polynomials *)
Section Bounds.
Context (dom : expr -> bool) (rng : string -> expr -> bool) (nm : nat -> string) (c : cfg) (n d : nat) (v : string) (Hv : v <> ""%string).
Lemma bounds_poly bf k e a b : poly natq e -> (factors e <= d)%nat -> mono natq a -> mono natq b ->
  exists r, integrate_bounds (F dom c (9 + n)) rng nm d bf k e v a b = Ok (Some r) /\ poly natq r.
Proof.
  intros P Hd Ma Mb. unfold integrate_bounds.
  destruct (integrate_poly dom rng nm c (1 + n) d v Hv bf k false e P Hd) as (r & E & Pr). change (8 + (1 + n))%nat with (9 + n)%nat in E. rewrite E. cbn [bind].
  assert (Sb : forall x, mono natq x -> exists t, subs (F dom c (9 + n)) [(v, x)] r = Ok t /\ poly natq t).
  { intros x Mx. apply (subs_poly dom c (1 + n)); auto. intros s t Ht. cbn [assoc] in Ht. destruct (String.eqb v s); [|discriminate]. now injection Ht as <-. }
  destruct (Sb b Mb) as (fb & -> & Pb). destruct (Sb a Ma) as (fa & -> & Pa). cbn [bind].
  destruct (op_sub_poly natq natq_qeq natq_add one_natq c n fb fa Pb Pa) as (t & Et & Pt).
  assert (Et' : op_sub (F dom c (9 + n)) fb fa = Ok t) by exact Et. rewrite Et'. cbn [bind].
  pose proof (simplify_npoly dom c (1 + n) d t Pt) as Es. change (8 + (1 + n))%nat with (9 + n)%nat in Es. rewrite Es. cbn [bind]. eauto.
Qed.
End Bounds.

Theorem c74_definite c m d v nm bf k e a b : fpow_exact (fpow c) -> (9 <= m)%nat -> v <> ""%string -> poly natq e -> (factors e <= d)%nat ->
  mono natq a -> mono natq b ->
  exists r, integrate_bounds (PF c m) (fun _ _ => true) nm d bf k e v a b = Ok (Some r) /\ poly natq r /\
    forall rho, is_RInt (fun t => ev (upd rho v t) e) (ev rho a) (ev rho b) (ev rho r).
Proof.
  intros HX Hm Hv P Hd Ma Mb. replace m with (9 + (m - 9))%nat by lia. set (n := (m - 9)%nat).
  destruct (bounds_poly (fun _ => false) (fun _ _ => false) nm (strictly c) n d v Hv bf k e a b P Hd Ma Mb) as (r & E & Pr). exists r.
  assert (W : forall rho t, poly natq t -> wd rho t) by (intros rho t Pt; apply (poly_wd natq); auto; intros; now apply natq_wd).
  assert (G : forall rho, integrate_bounds (PF c (9 + n)) (fun _ _ => true) nm d bf k e v a b = Ok (Some r) /\ wd rho r /\
    is_RInt (fun t => ev (upd rho v t) e) (ev rho a) (ev rho b) (ev rho r)).
  { intros rho. apply (c47_definite c HX (fun _ => false) (fun _ _ => false) everywhere (fun rho _ => never_right rho) never_rng
      (9 + n) (9 + n) (Nat.le_refl _) d d (Nat.le_refl _) nm bf k e v a b r rho (every_open v) (poly_everywhere e P) (every_in rho)); auto.
    - apply W. now apply poly_mono.
    - apply W. now apply poly_mono.
    - intros t _. exact I. }
  split; [apply (G (fun _ => 0))|]. split; [exact Pr|]. intros rho. apply (G rho).
Qed.

Lemma qeval_poly v q e : poly natq e -> (forall s, In s (names e) -> s = v) -> exists z, qeval [(v, q)] e = Some z.
Proof.
  assert (Fc : forall t, fac natq t -> (forall s, In s (names t) -> s = v) -> exists z, qeval [(v, q)] t = Some z).
  { intros t [a [s Hs|s p Hs Hp H0]|p] H; cbn [qeval assoc].
    - rewrite (H s) by now left. rewrite String.eqb_refl. eauto.
    - rewrite (H s) by now left. rewrite String.eqb_refl. destruct Hp as [A B]. apply qlt0_f in B. rewrite A, B. rewrite orb_true_r. cbn [andb]. eauto.
    - eauto. }
  assert (Fm : forall t, mono natq t -> (forall s, In s (names t) -> s = v) -> exists z, qeval [(v, q)] t = Some z).
  { intros t [a A|ts L Fs R N] H; [now apply Fc|]. clear L R N. change (names (EProd ts)) with (flat_map names ts) in H.
    cbn [qeval]. induction Fs as [|u l U Fs IH]; [eexists; reflexivity|].
    cbn [fold_right]. cbn [flat_map] in H. destruct (Fc u U) as (z & ->); [intros s Hs; apply H; apply in_or_app; now left|].
    destruct IH as (w & ->); [intros s Hs; apply H; apply in_or_app; now right|]. eauto. }
  intros [t M|ts L Fs] H; [now apply Fm|]. clear L. change (names (ESum ts)) with (flat_map names ts) in H.
  cbn [qeval]. induction Fs as [|u l U Fs IH]; [eexists; reflexivity|].
  cbn [fold_right]. cbn [flat_map] in H. destruct (Fm u U) as (z & ->); [intros s Hs; apply H; apply in_or_app; now left|].
  destruct IH as (w & ->); [intros s Hs; apply H; apply in_or_app; now right|]. eauto.
Qed.
(** one variable, rational bounds: the answer is a number *)
Theorem c74_number c m d v nm bf k e a b : fpow_exact (fpow c) -> (9 <= m)%nat -> v <> ""%string -> poly natq e -> (factors e <= d)%nat ->
  (forall s, In s (names e) -> s = v) ->
  exists q, integrate_bounds (PF c m) (fun _ _ => true) nm d bf k e v (ERat a) (ERat b) = Ok (Some (ERat q)) /\
    forall rho, is_RInt (fun t => ev (upd rho v t) e) (Q2R a) (Q2R b) (Q2R q).
Proof.
  intros HX Hm Hv P Hd Hn.
  assert (MR : forall q, mono natq (ERat q)) by (intros; apply mono_fac, fac_rat).
  destruct (c74_definite c m d v nm bf k e (ERat a) (ERat b) HX Hm Hv P Hd (MR a) (MR b)) as (r & E & Pr & G).
  destruct (c72_integrate c m d v nm bf k false e HX ltac:(lia) Hv P Hd) as (F0 & EF & PF0 & N & _).
  assert (N0 : forall s, In s (names F0) -> s = v) by (intros s Hs; destruct (N s Hs); auto).
  pose proof E as E1. unfold integrate_bounds in E1. rewrite EF in E1. cbn [bind] in E1.
  assert (Sb : forall q, exists q', subs (PropsC.PF c m) [(v, ERat q)] F0 = Ok (ERat q')).
  { intros q. destruct (qeval_poly v q F0 PF0 N0) as (z & Ez). destruct (c69_evaluate c m [(v, q)] F0 z ltac:(lia) Ez) as (q' & Eq & _). eauto. }
  destruct (Sb b) as (qb & Eb). destruct (Sb a) as (qa & Ea). rewrite Eb, Ea in E1. cbn [bind] in E1.
  change (op_sub (PropsC.PF c m) (ERat qb) (ERat qa)) with (Ok (rat (qb - qa))) in E1. cbn [bind] in E1.
  assert (Es : simplifyE (PropsC.PF c m) d (rat (qb - qa)) = Ok (rat (qb - qa))).
  { unfold PropsC.PF. replace m with (8 + (m - 8))%nat by lia. apply simplify_npoly. apply poly_mono, mono_fac, fac_rat. }
  rewrite Es in E1. cbn [bind] in E1. injection E1 as <-. exists (Qred (qb - qa)). split; [exact E|exact G].
Qed.
(** int_(-1/2)^3 (x^3 - 2x) dx = 735/64;   int_0^y x y dx = y^3/2 *)
Example c74_ex :
  let e := ESum [EPow sx (ERat 3); EProd [ERat (-2); sx]] in
  (poly natq e /\ factors e = 3%nat /\
   integrate_bounds (PF exact_cfg 12) (fun _ _ => true) unm 5 false 3 e "x" (ERat (-1#2)) (ERat 3) = Ok (Some (ERat (735#64)))) /\
  integrate_bounds (PF exact_cfg 12) (fun _ _ => true) unm 5 false 3 (EProd [sx; sy]) "x" (ERat 0) sy = Ok (Some (EProd [ERat (1#2); EPow sy (ERat 3)])).
Proof.
  split; [|vm_compute; reflexivity]. split; [apply (polyb_ok _ natqb); [exact natqb_ok|reflexivity]|]. split; [reflexivity|vm_compute; reflexivity].
Qed.
