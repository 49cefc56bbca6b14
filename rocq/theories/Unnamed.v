(** * Unnamed: integrate without naming the variable (C94). *)
From Coquelicot Require Import Coquelicot.
From Verif Require Import Base Expr Kernel Mono Funcs FMono Calc Sem RealLemmas Sound SoundPow Atoms Agree Oracle
  FSound CalcSound Cont Combi Expand ExpandSound Factor Regex Simp Pts Match TrigSimp Poly PolyQ Table Trans TransMono TransSound
  Search SearchMono SearchSound Shape Interval PropsA PropsC PropsD PropsE PropsF PropsG Frag FragNum FragLib PropsJ PropsK FragInt PropsL.
Local Open Scope R_scope.

(** [v] is the one symbol of [e] *)
Definition sole (e : expr) (v : string) : Prop := forall s, contains s e = true <-> s = v.
Lemma sole_symbols e v : sole e v <-> symbols e = [v].
Proof.
  split; intros H.
  - pose proof (NoDup_nodup string_dec (names e)) as N. fold (symbols e) in N.
    assert (I : forall s, In s (symbols e) <-> s = v) by (intros s; rewrite <- (contains_symbols s e); apply H).
    destruct (symbols e) as [|w [|w' l]].
    + destruct (proj2 (I v) eq_refl).
    + f_equal. apply I. now left.
    + exfalso. assert (w = v) by (apply I; now left). assert (w' = v) by (apply I; right; now left). inversion N as [|? ? A B]; subst. apply A. now left.
  - intros s. rewrite (contains_symbols s e), H. simpl. split; [intros [->|[]]; auto|intros ->; auto].
Qed.

(** with exactly one symbol, that symbol is meant *)
Theorem c94_one fk rng nm n bf k e v a b : sole e v ->
  integrate_api fk rng nm n bf k e BNone = integrate_api fk rng nm n bf k e (BVar v) /\
  integrate_api fk rng nm n bf k e (BPair a b) = integrate_api fk rng nm n bf k e (BTriple v a b).
Proof. intros H. apply sole_symbols in H. unfold integrate_api. now rewrite H. Qed.
(** with none or several, integrate raises ValueError, before any work is done *)
Theorem c94_error fk rng nm n bf k e a b : (forall v, ~ sole e v) ->
  integrate_api fk rng nm n bf k e BNone = Raise ValueError /\ integrate_api fk rng nm n bf k e (BPair a b) = Raise ValueError.
Proof.
  intros H. unfold integrate_api. destruct (symbols e) as [|v [|w l]] eqn:S; auto. exfalso. apply (H v). now apply sole_symbols.
Qed.
(** conversely an answer means that there was exactly one, and it is the integral in it *)
Theorem c94_answer fk rng nm n bf k e r : integrate_api fk rng nm n bf k e BNone = Ok r ->
  exists v, sole e v /\ integrate fk rng nm n bf k true e v = Ok r.
Proof.
  intros H. unfold integrate_api in H. destruct (symbols e) as [|v [|w l]] eqn:S; try discriminate. exists v. split; auto. now apply sole_symbols.
Qed.
Lemma sole_names e v : sole e v -> forall s, In s (names e) -> s = v.
Proof. intros H s Hs. apply H. now apply contains_names. Qed.
(** polynomials in one symbol: integrate(e) is an antiderivative, integrate(e, (a, b)) is a number, the integral *)
Theorem c94_polynomial c m d nm bf k e v : fpow_exact (fpow c) -> (9 <= m)%nat -> v <> ""%string -> poly natq e -> sole e v -> (IntTree.factors e <= d)%nat ->
  (exists r, integrate_api (PropsC.PF c m) (fun _ _ => true) nm d bf k e BNone = Ok (Some r) /\ poly natq r /\
     forall rho t, is_derive (fun s => ev (upd rho v s) r) t (ev (upd rho v t) e)) /\
  forall a b, exists q, integrate_api (PropsC.PF c m) (fun _ _ => true) nm d bf k e (BPair (ERat a) (ERat b)) = Ok (Some (ERat q)) /\
     forall rho, is_RInt (fun t => ev (upd rho v t) e) (Q2R a) (Q2R b) (Q2R q).
Proof.
  intros HX Hm Hv P Hs Hd. split.
  - destruct (c72_integrate c m d v nm bf k true e HX ltac:(lia) Hv P Hd) as (r & E & Pr & _ & D). exists r. split; [|auto].
    rewrite (proj1 (c94_one _ _ _ _ _ _ e v (ERat 0) (ERat 0) Hs)). exact E.
  - intros a b. destruct (c74_number c m d v nm bf k e a b HX Hm Hv P Hd (sole_names e v Hs)) as (q & E & R0). exists q. split; [|exact R0].
    rewrite (proj2 (c94_one _ _ _ _ _ _ e v (ERat a) (ERat b) Hs)). exact E.
Qed.
(** integrate(x^2 - 1/2), integrate(x^2 - 1/2, (0, 1)), integrate(x*y), integrate(3, (0, 1)) *)
Local Notation sx := (ESym "x"). Local Notation sy := (ESym "y").
Example c94_ex :
  let api := integrate_api (PropsC.PF exact_cfg 14) (fun _ _ => true) unm 12 false 3 in
  let e := ESum [EPow sx (ERat 2); ERat (-1#2)] in
  poly natq e /\ sole e "x" /\
  api e BNone = Ok (Some (ESum [EProd [ERat (1#3); EPow sx (ERat 3)]; EProd [ERat (-1#2); sx]])) /\
  api e (BPair (ERat 0) (ERat 1)) = Ok (Some (ERat (-1#6))) /\
  api (EProd [sx; sy]) BNone = Raise ValueError /\ api (ERat 3) (BPair (ERat 0) (ERat 1)) = Raise ValueError.
Proof.
  split; [apply (polyb_ok _ natqb); [exact natqb_ok|reflexivity]|]. split; [now apply sole_symbols|].
  split; [vm_compute; reflexivity|]. split; [vm_compute; reflexivity|]. split; reflexivity.
Qed.
