(** * PropsV: Sum.factor on polynomials (C89). *)
From Coquelicot Require Import Coquelicot.
From Verif Require Import Base Expr Kernel Mono Sort Funcs FMono Calc Expand Combi Sem RealLemmas Sound SoundPow Agree Oracle Factor Frag FragNum FragLib PropsA PropsC PropsB PropsK CanonR PropsM NForm NUniq NOps NExp PropsO PropsP NFac.
From Coq Require Import Sorting.Permutation.
Local Ltac splits := repeat match goal with |- _ /\ _ => split end.
Local Open Scope R_scope.

(** ** C89
    [p] is any polynomial program (additions, subtractions, products, natural powers, derivatives,
    integrals, ... of symbols and rational numbers) whose result is the sum of the terms [ts].
    p.factor() (Sum.factor, src/simpy/expr.py:956-1026) returns, and its result is the product of a
    monomial [g] and the sum of the terms [us]:
    - every symbol has in [g] the smallest of its exponents in the terms, so some remaining term
      does not contain it;
    - the remaining coefficients are integers, one of them is 1 or -1, and the numeric factor of [g]
      is negative exactly when every coefficient is; unless the coefficients are not all integer
      multiples of the first one, when the numeric factor of [g] can also be 1;
    - expanding the result gives back the very same sum. *)
Section C89.
Context (c : cfg) (HX : fpow_exact (fpow c)).
Theorem c89_factor p ts : allowed p -> computes c p (ESum ts) ->
  exists e g us,
    (forall m, (12 <= m)%nat -> factorE (PF c m) ts = Ok e) /\
    ((exists l, e = EProd l /\ Permutation l (ESum us :: monfactors g)) \/ (e = ESum ts /\ (g = ERat 1 \/ g = ERat (-1)))) /\
    (forall m d, (12 <= m)%nat -> (6 <= d)%nat -> expanded (PF c m) d e = Ok (ESum ts)) /\
    (forall rho, ev rho e = pval p rho /\ ev rho g * ev rho (ESum us) = pval p rho) /\
    mono natq g /\ Forall (mono natq) us /\ List.length us = List.length ts /\
    (forall v, (forall t, In t ts -> (degree v g <= degree v t)%Q) /\ (exists t, In t ts /\ (degree v g == degree v t)%Q) /\ (exists u, In u us /\ (degree v u == 0)%Q)) /\
    ((coeff g = 1%Q /\ ~ forall t, In t ts -> exists z, (coeff t == inject_Z z * coeff (hd (ERat 0) ts))%Q) \/
     (forall u, In u us -> exists z, (coeff u == inject_Z z)%Q) /\ (exists u, In u us /\ (Qabs (coeff u) == 1)%Q) /\
     ((coeff g < 0)%Q <-> forall t, In t ts -> (coeff t < 0)%Q)).
Proof.
  intros A C. destruct (prun_total c HX p A) as (e0 & C0 & N0 & V0 & _). pose proof (computes_unique c p _ _ C C0) as E0. subst e0. clear C0.
  pose proof N0 as (L & FL & NL & OL & EL).
  assert (HL : (2 <= List.length L)%nat /\ ts = map term L).
  { destruct L as [|t [|u L]]; [discriminate EL| |unfold sum_of in EL; injection EL as ->; split; [cbn; lia|reflexivity]].
    exfalso. unfold sum_of in EL. cbn [map] in EL. inversion FL as [|? ? T _]; subst. pose proof (term_mono natq (faithful c) t T) as M. rewrite <- EL in M. inversion M as [? F|]; subst. inversion F as [? At|]; subst; inversion At. }
  destruct HL as (HL & ->). clear EL.
  destruct (factor_total c HX 0 L FL NL HL N0) as (g & W & e & Tg & FW & LW & NW & Ef & Sh & Ex & Ve & Cg & (W' & PW & HW) & Dg).
  assert (FW' : Forall (nterm natq (faithful c)) W') by (eapply Permutation_Forall; [symmetry; exact PW|exact FW]).
  assert (Mt : forall t, nterm natq (faithful c) t -> mono natq (term t)) by (intros t; apply (term_mono natq (faithful c))).
  assert (Pair : forall t, In t L -> exists w, In w W /\ nterm natq (faithful c) w /\ nterm natq (faithful c) t /\ forall rho, positive rho -> ev rho (term t) = ev rho (term g) * ev rho (term w)).
  { intros t Ht. assert (H : exists w, In w W' /\ forall rho, positive rho -> ev rho (term t) = ev rho (term g) * ev rho (term w)).
    { clear -HW Ht. induction HW as [|a b L W V _ IH]; [destruct Ht|]. destruct Ht as [->|Ht]; [exists b; split; [now left|auto]|]. destruct (IH Ht) as (w & Hw & Vw). exists w. split; [now right|auto]. }
    destruct H as (w & Hw & Vw). exists w. rewrite Forall_forall in FL, FW'. splits; auto. eapply Permutation_in; eauto. }
  assert (Pair' : forall w, In w W -> exists t, In t L /\ nterm natq (faithful c) w /\ nterm natq (faithful c) t /\ forall rho, positive rho -> ev rho (term t) = ev rho (term g) * ev rho (term w)).
  { intros w Hw. assert (H : exists t, In t L /\ forall rho, positive rho -> ev rho (term t) = ev rho (term g) * ev rho (term w)).
    { apply (Permutation_in w (Permutation_sym PW)) in Hw. clear -HW Hw. induction HW as [|a b L W V _ IH]; [destruct Hw|]. destruct Hw as [->|Hw]; [exists a; split; [now left|auto]|]. destruct (IH Hw) as (t & Ht & Vt). exists t. split; [now right|auto]. }
    destruct H as (t & Ht & Vt). exists t. rewrite Forall_forall in FL, FW. splits; auto. }
  assert (Cf : forall t, nterm natq (faithful c) t -> coeff (term t) = fst t) by (intros [a l] T; now apply (term_coeff natq (faithful c))).
  exists e, (term g), (map term W). split; [|split; [|split; [|split; [|split; [|split; [|split; [|split]]]]]]].
  - intros m Hm. eapply rle_ok; [|exact Ef]. apply factorE_mono. unfold PF. apply F_mono; [intros x Hx; exact Hx|apply cle_refl|exact Hm].
  - destruct Sh as [Sh|Sh]; auto.
  - intros m d Hm Hd. destruct (factor_total c HX (m - 12) L FL NL HL N0) as (g2 & W2 & e2 & _ & _ & _ & _ & Ef2 & _ & Ex2 & _).
    replace (12 + (m - 12))%nat with m in * by lia.
    assert (e2 = e) as ->; [|now apply Ex2].
    assert (Ef' : factorE (PF c m) (map term L) = Ok e) by (eapply rle_ok; [|exact Ef]; apply factorE_mono; unfold PF; apply F_mono; [intros x Hx; exact Hx|apply cle_refl|exact Hm]).
    rewrite Ef' in Ef2. now injection Ef2.
  - intros rho. destruct (Ve rho) as (V1 & V2). rewrite <- V2, V1, V0. auto.
  - auto.
  - apply Forall_forall. intros x Hx. apply in_map_iff in Hx as (w & <- & Hw). rewrite Forall_forall in FW. auto.
  - now rewrite !map_length.
  - intros v. destruct (Dg v) as (D1 & D2). rewrite Forall_forall in D1. split; [|split].
    + intros t Ht. apply in_map_iff in Ht as (x & <- & Hx). auto.
    + apply Exists_exists in D2 as (t & Ht & E). exists (term t). split; auto. now apply in_map.
    + apply Exists_exists in D2 as (t & Ht & E). destruct (Pair t Ht) as (w & Hw & Nw & Nt & V). exists (term w). split; [now apply in_map|].
      destruct (deg_mul natq natq natq (faithful c) v t g w Nt Tg Nw V) as (D & _). rewrite <- E in D. rewrite <- (Qplus_inj_l _ _ (degree v (term g))), <- D. ring.
  - destruct Cg as [(Cg & Nf)|(C1 & C2 & C3)].
    { left. rewrite Cf by auto. split; auto. intros H. apply Nf. apply Forall_forall. intros a Ha. apply in_map_iff in Ha as (x & <- & Hx). rewrite Forall_forall in FL.
      destruct (H (term x) (in_map term _ _ Hx)) as (z & Z). rewrite Cf in Z by auto. exists z. rewrite Z. destruct L as [|x0 L]; [destruct Hx|]. cbn [map hd]. rewrite Cf by (apply FL; now left). reflexivity. }
    right. rewrite (Cf g Tg). rewrite Forall_forall in C1.
    assert (Zg : ~ (fst g == 0)%Q) by apply Tg. split; [|split].
    + intros u Hu. apply in_map_iff in Hu as (w & <- & Hw). destruct (Pair' w Hw) as (t & Ht & Nw & Nt & V).
      destruct (C1 (fst t) (in_map fst _ _ Ht)) as (z & Z). exists z. destruct (deg_mul natq natq natq (faithful c) ""%string t g w Nt Tg Nw V) as (_ & D). rewrite !Cf in D by auto. rewrite Cf by auto.
      apply (Qmult_inj_l _ _ (fst g)); auto. rewrite <- D, Z. ring.
    + apply Exists_exists in C2 as (a & Ha & E). apply in_map_iff in Ha as (t & <- & Ht). destruct (Pair t Ht) as (w & Hw & Nw & Nt & V). exists (term w). split; [now apply in_map|].
      destruct (deg_mul natq natq natq (faithful c) ""%string t g w Nt Tg Nw V) as (_ & D). rewrite !Cf in D by auto. rewrite Cf by auto.
      rewrite D, Qabs_Qmult in E. pose proof (qabs_gt0 (fst g) Zg) as P. apply (Qmult_inj_l _ _ (Qabs (fst g))); [intros Z; rewrite Z in P; now apply Qlt_irrefl in P|]. rewrite <- E. ring.
    + rewrite C3. rewrite Forall_forall. split.
      * intros H t Ht. apply in_map_iff in Ht as (x & <- & Hx). rewrite Forall_forall in FL. rewrite Cf by auto. apply H. now apply in_map.
      * intros H a Ha. apply in_map_iff in Ha as (x & <- & Hx). rewrite Forall_forall in FL. rewrite <- (Cf x) by auto. apply H. now apply in_map.
Qed.
End C89.

(** ** Examples *)
(** 6 x^3 y - 4 x^2 y^2 + 2 x^2 y = 2 x^2 y (3 x - 2 y + 1) *)
Definition ex_f : pexp := PAdd (PSub (PMul (PNum 6) (PMul (PPow px 3) py)) (PMul (PNum 4) (PMul (PPow px 2) (PPow py 2)))) (PMul (PNum 2) (PMul (PPow px 2) py)).
Definition ex_g : pexp := PAdd (PAdd (PMul (PNum 2) (PPow px 2)) (PMul (PNum 4) px)) (PNum 6).
Definition ts_of (e : expr) : list expr := match e with ESum ts => ts | _ => [] end.

Lemma c89_example :
  allowed ex_f /\ allowed ex_g /\
  run12 ex_f = Ok (ESum [EProd [ERat 6; ESym "y"; EPow (ESym "x") (ERat 3)]; EProd [ERat 2; ESym "y"; EPow (ESym "x") (ERat 2)]; EProd [ERat (-4); EPow (ESym "x") (ERat 2); EPow (ESym "y") (ERat 2)]]) /\
  bind (run12 ex_f) (fun e => factorE (PF exact_cfg 12) (ts_of e)) =
    Ok (EProd [ERat 2; ESym "y"; ESum [EProd [ERat 3; ESym "x"]; EProd [ERat (-2); ESym "y"]; ERat 1]; EPow (ESym "x") (ERat 2)]) /\
  bind (run12 ex_g) (fun e => factorE (PF exact_cfg 12) (ts_of e)) =
    Ok (EProd [ERat 2; ESum [EPow (ESym "x") (ERat 2); EProd [ERat 2; ESym "x"]; ERat 3]]).
Proof.
  pose proof ident_x. pose proof ident_y. split; [cbn; tauto|]. split; [cbn; tauto|]. split; [vm_compute; reflexivity|]. split; vm_compute; reflexivity.
Qed.
(** Whether a common divisor of the coefficients is taken out depends on the order of the terms:
    2 divides every coefficient of 6 x^2 + 4 x + 2, which is returned as it is, and
    6 x^2 + 2 x + 4 becomes 2 (3 x^2 + x + 2). *)
Definition ex_h (a b d : Q) : pexp := PAdd (PAdd (PMul (PNum a) (PPow px 2)) (PMul (PNum b) px)) (PNum d).
Theorem c89_divisor_refuted :
  (exists ts, run12 (ex_h 6 4 2) = Ok (ESum ts) /\ (forall t, In t ts -> exists z, (coeff t == inject_Z z * 2)%Q) /\ factorE (PF exact_cfg 12) ts = Ok (ESum ts)) /\
  (exists ts, run12 (ex_h 6 2 4) = Ok (ESum ts) /\ factorE (PF exact_cfg 12) ts = Ok (EProd [ERat 2; ESum [EProd [ERat 3; EPow (ESym "x") (ERat 2)]; ESym "x"; ERat 2]])).
Proof.
  split.
  - exists [EProd [ERat 6; EPow (ESym "x") (ERat 2)]; EProd [ERat 4; ESym "x"]; ERat 2]. split; [vm_compute; reflexivity|]. split; [|vm_compute; reflexivity].
    intros t [<-|[<-|[<-|[]]]]; [exists 3%Z|exists 2%Z|exists 1%Z]; reflexivity.
  - exists [EProd [ERat 6; EPow (ESym "x") (ERat 2)]; EProd [ERat 2; ESym "x"]; ERat 4]. split; vm_compute; reflexivity.
Qed.
