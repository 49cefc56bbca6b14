(** * LinProps: simplify and integrate on a polynomial in v plus a combination of sin and cos of linear
    functions of v (C96).

    [tpoly v e] (LinTot.v): [e] is a number, one of  v, v^k (k a positive integer), sin(a), cos(a)  with
    a = v, k v, v + b or k v + b (k, b rational, not 0),  a rational multiple of one of these, or a sum of at
    least two such terms; in the shape the constructors give (sin(-a) is stored as - sin(a): [is_sub a = false]). *)
From Coquelicot Require Import Coquelicot.
From Verif Require Import Base Expr Kernel Mono Funcs FMono Calc Sem RealLemmas Sound SoundPow Atoms Agree Oracle
  FSound CalcSound Cont Combi Expand ExpandSound Factor Regex Simp Pts Match TrigSimp Poly PolyQ Table Trans TransMono TransSound
  Search SearchMono SearchSound Shape Interval PropsA PropsC PropsD PropsE PropsF PropsG Frag FragNum FragLib PropsJ PropsK FragInt PropsL FragX FragXLib FragG PropsT LinTot IntTree2 LinInt.
Close Scope R_scope.
Local Open Scope nat_scope.

Lemma lterm_wd v a rho : lterm v a -> wd rho a.
Proof. intros [->|(k & _ & _ & ->)]; [exact Logic.I|]. cbn [wd]. split; [repeat split; auto|]. unfold one_const. cbn [filter is_acc]. simpl. lia. Qed.
Lemma lin_wd v i rho : lin v i -> wd rho i.
Proof. intros (_ & [H|(a & b & H & _ & ->)]); [now apply (lterm_wd v)|]. cbn [wd]. split; [now apply (lterm_wd v)|]. repeat split; auto. Qed.
Lemma tx_wd v x rho : tx v x -> wd rho x.
Proof. intros [|q N Z|f i [-> | ->] Hi]; [exact Logic.I|now apply natq_wd| |]; (split; [now apply (lin_wd v)|exact Logic.I]). Qed.
Lemma tmono_wd v t rho : tmono v t -> wd rho t.
Proof. intros [q|x T|q x Z T|q x Z T]; [exact Logic.I|now apply (tx_wd v)| |]; pose proof (tx_wd v x rho T); (cbn [wd]; split; [repeat split; auto|]); unfold one_const; cbn [filter is_acc]; destruct T; simpl; lia. Qed.
Lemma tpoly_wd v t rho : tpoly v t -> wd rho t.
Proof. intros [M|(ts & -> & _ & F)]; [now apply (tmono_wd v)|]. cbn [wd]. induction F as [|a l A F IH]; cbn; auto. split; auto. now apply (tmono_wd v). Qed.

(** simplify succeeds and changes nothing *)
Theorem c96_simplify c m d v e : fpow_exact (fpow c) -> (16 <= m)%nat -> (1 <= d)%nat -> v <> ""%string -> tpoly v e ->
  exists r, simplifyE (PropsC.PF c m) d e = Ok r /\ tpoly v r /\ forall rho, ev rho r = ev rho e.
Proof.
  intros HX Hm Hd Hv P. replace m with (16 + (m - 16))%nat by lia. set (n := (m - 16)%nat). destruct d as [|d]; [lia|].
  destruct (simplify_t v Hv (fun _ => false) (strictly c) n d e P) as (r & E & Pr). exists r.
  assert (G : forall rho, simplifyE (PropsC.PF c (16 + n)) (S d) e = Ok r /\ wd rho r /\ ev rho r = ev rho e).
  { intros rho. apply (c53_simplify c HX (fun _ => false) (16 + n) (16 + n) (Nat.le_refl _) (S d) rho e r (never_right rho) (tpoly_wd v e rho P) E). }
  split; [exact (proj1 (G (fun _ => 0%R)))|]. split; [exact Pr|]. intros rho. apply G.
Qed.
Lemma any_rng : rng_ok everywhere (fun _ _ => true).
Proof. intros y u _. split; [apply every_open|]. intros rho _. exact Logic.I. Qed.
(** integrate succeeds, and its answer is an antiderivative at every point.  [nm] is the supply of names of
    the substitution variables, none of which is the variable of integration. *)
Theorem c96_integrate c m d v nm bf k fin e : fpow_exact (fpow c) -> (16 <= m)%nat -> (5 <= d)%nat -> v <> ""%string ->
  (forall x, nm x <> v /\ nm x <> ""%string) -> tpoly v e ->
  exists r, integrate (PropsC.PF c m) (fun _ _ => true) nm d bf k fin e v = Ok (Some r) /\ tpoly v r /\
    forall rho t, is_derive (fun s => ev (upd rho v s) r) t (ev (upd rho v t) e).
Proof.
  intros HX Hm Hd Hv Hnm P. replace m with (16 + (m - 16))%nat by lia. set (n := (m - 16)%nat).
  destruct (integrate_lin (fun _ => false) (fun _ _ => true) nm (strictly c) n d v Hv Hnm (fun _ _ => eq_refl)) with (bf := bf) (k := k) (fin := fin) (e := e) as (r & E & Pr); auto; try lia.
  destruct (c60_integrate c HX (fun _ => false) (fun _ _ => true) everywhere (fun rho _ => never_right rho) any_rng
    (16 + n) (16 + n) (Nat.le_refl _) d d (Nat.le_refl _) nm bf k fin e v r (every_open v) (fun rho _ => tpoly_wd v e rho P) E) as [E' A].
  exists r. split; [exact E'|]. split; [exact Pr|]. intros rho t.
  destruct (A (upd rho v t) (every_in _)) as [_ D]. rewrite upd_eq in D. eapply is_derive_ext; [|exact D].
  intros s. simpl. now rewrite upd_upd_eq.
Qed.
(** x^2 + 3 sin(2x + 1) - cos(x - 1/2) + 5 *)
Local Notation sx := (ESym "x").
Example c96_ex :
  let e := ESum [EPow sx (ERat 2); EProd [ERat 3; ETrig Sin (ESum [EProd [ERat 2; sx]; ERat 1])]; EProd [ERat (-1); ETrig Cos (ESum [sx; ERat (-1#2)])]; ERat 5] in
  tpoly "x" e /\ (forall x, unm x <> "x"%string /\ unm x <> ""%string) /\
  (exists r, simplifyE (PropsC.PF exact_cfg 18) 4 e = Ok r /\ tpoly "x" r) /\
  integrate (PropsC.PF exact_cfg 18) (fun _ _ => true) unm 5 false 3 true e "x" =
    Ok (Some (ESum [EProd [ERat (-1); ETrig Sin (ESum [sx; ERat (-1#2)])]; EProd [ERat (-3#2); ETrig Cos (ESum [EProd [ERat 2; sx]; ERat 1])]; EProd [ERat (1#3); EPow sx (ERat 3)]; EProd [ERat 5; sx]])).
Proof.
  intros e. assert (P : tpoly "x" e).
  { right. eexists. split; [reflexivity|]. split; [simpl; lia|].
    constructor; [apply tm_x, tx_pow; [split; [reflexivity|discriminate]|discriminate]|].
    constructor; [apply tm_qx; [discriminate|apply tx_trig; [auto|]]|].
    { split; [reflexivity|right]. exists (EProd [ERat 2; sx]), 1%Q. split; [right; exists 2%Q; repeat split; auto; discriminate|]. split; [discriminate|reflexivity]. }
    constructor; [apply tm_qx; [discriminate|apply tx_trig; [auto|]]|].
    { split; [reflexivity|right]. exists sx, (-1#2)%Q. split; [left; reflexivity|]. split; [discriminate|reflexivity]. }
    constructor; constructor. }
  split; [exact P|]. split; [intros x; unfold unm; destruct x as [|x]; split; discriminate|]. split; [|vm_compute; reflexivity].
  destruct (c96_simplify exact_cfg 18 4 "x" e) as (r & E & Pr & _); eauto; try lia; try discriminate. exact fpow_exact_oracle_exact.
Qed.
