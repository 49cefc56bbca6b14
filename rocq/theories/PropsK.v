(** * PropsK: the library is total and exact on numbers and polynomials (C69-C71).

    These are statements about the plain code ([PF c m]) that say it returns: it does not raise,
    does not loop and does not stop short.  A monomial ([mono X], Frag.v) is a number, a symbol, a
    power of a symbol with a rational exponent in [X], or a product of such factors with at most one
    number and distinct symbols; a polynomial ([poly X]) is a monomial or a sum of monomials.
    [natq], [intq], [anyq]: natural, integer, arbitrary exponents. *)
From Coquelicot Require Import Coquelicot.
From Verif Require Import Base Expr Kernel Mono Funcs FMono Calc Sem RealLemmas Sound SoundPow Atoms Agree Oracle
  FSound CalcSound Combi Expand ExpandSound Factor Regex PropsA PropsC Frag FragNum FragLib.
From Coq Require Lqa.
Local Open Scope R_scope.

(** ** C69: numbers *)
Theorem c69_evaluate c m vals e q : (2 <= m)%nat -> qeval vals e = Some q ->
  exists q', subs (PF c m) (numbers vals) e = Ok (ERat q') /\ (q' == q)%Q.
Proof. intros Hm H. replace m with (2 + (m - 2))%nat by lia. now apply subs_numbers. Qed.
(** [qeval] is the real value *)
Theorem c69_value vals e q : qeval vals e = Some q ->
  forall rho, (forall s v, assoc s vals = Some v -> rho s = Q2R v) -> ev rho e = Q2R q.
Proof.
  intros H rho Hv. revert q H.
  induction e as [q0| | | | |s| |ts IH|ts IH|b x IHb IHx|i b IHi IHb|f i IHi|i IHi] using expr_ind'; intros q H; try discriminate; simpl in H.
  - injection H as <-. reflexivity.
  - simpl. auto.
  - simpl. revert q H. induction IH as [|t l Ht Hl IHl]; intros q H; simpl in *.
    + injection H as <-. unfold Q2R. simpl. lra.
    + destruct (qeval vals t) as [a|]; [|discriminate].
      match type of H with match ?r with _ => _ end = _ => destruct r as [b|]; [|discriminate] end.
      injection H as <-. rewrite Qreals.Q2R_plus, (Ht a eq_refl), (IHl b eq_refl). reflexivity.
  - simpl. revert q H. induction IH as [|t l Ht Hl IHl]; intros q H; simpl in *.
    + injection H as <-. unfold Q2R. simpl. lra.
    + destruct (qeval vals t) as [a|]; [|discriminate].
      match type of H with match ?r with _ => _ end = _ => destruct r as [b|]; [|discriminate] end.
      injection H as <-. rewrite Qreals.Q2R_mult, (Ht a eq_refl), (IHl b eq_refl). reflexivity.
  - destruct (qeval vals b) as [p|]; [|discriminate]. destruct (qeval vals x) as [z|]; [|discriminate].
    destruct (qisint z) eqn:Iz; [|discriminate]. cbn [andb] in H. destruct (negb (qis0 p) || negb (qlt0 z)) eqn:G; [|discriminate].
    injection H as <-. simpl. rewrite (IHb p eq_refl), (IHx z eq_refl), (qisint_Q2R z Iz).
    assert (D : (~ (p == 0)%Q) \/ (0 <= numer z)%Z).
    { apply orb_prop in G as [G|G]; [left; intros E; apply qis0_iff in E; now rewrite E in G|right].
      destruct (natq_is z); auto. split; auto. apply qlt0_f. now destruct (qlt0 z). }
    rewrite RMicromega.Q2RpowerRZ by (destruct D; [auto|right; lia]). apply rpow_int.
    destruct D as [D|D]; [left|right; auto]. intros E. apply D. apply Qreals.eqR_Qeq. now rewrite E, RMicromega.Q2R_0.
  - destruct (qeval vals i) as [a|]; [|discriminate]. injection H as <-. simpl. rewrite (IHi a eq_refl). symmetry. apply Q2R_Qabs.
Qed.
Example c69_ex :
  let e := ESum [EProd [ERat (3#2); EPow sx (ESum [sy; ERat 1])]; EPow (ESum [sx; EAbs sy]) (ERat (-2)); sy] in
  qeval [("x"%string, 2%Q); ("y"%string, (-4)%Q)] e <> None.
Proof. vm_compute. discriminate. Qed.

(** ** C70: diff of polynomials *)
Definition intq (q : Q) : Prop := qisint q = true.
Definition anyq (q : Q) : Prop := True.

Lemma poly_wd (X : Q -> Prop) rho e : (forall s q, X q -> wd rho (EPow (ESym s) (ERat q))) -> poly X e -> wd rho e.
Proof.
  intros HX. assert (Fc : forall t, fac X t -> wd rho t).
  { intros t [a [s Hs|s q Hs Hq H0]|q]; [exact I|auto|exact I]. }
  assert (M : forall t, mono X t -> wd rho t).
  { intros t [a F|ts L F R N]; [auto|]. apply wd_prod. split.
    - eapply Forall_impl; [|exact F]. auto.
    - unfold one_const. destruct (atom_filter X ts F) as (_ & _ & ->). exact R. }
  intros [t T|ts L F]; [auto|]. apply wd_sum. eapply Forall_impl; [|exact F]. auto.
Qed.
Lemma natq_wd rho s q : natq q -> wd rho (EPow (ESym s) (ERat q)).
Proof. intros [A B]. simpl. repeat split. left. exists q. auto. Qed.
Lemma intq_qeq p q : (p == q)%Q -> intq p -> intq q.
Proof. intros E. unfold intq. now rewrite (qisint_qeq _ _ E). Qed.
Lemma intq_add p q : intq p -> intq q -> intq (p + q)%Q.
Proof.
  intros A B. apply (intq_qeq (inject_Z (numer p + numer q))); [|apply qisint_inject].
  rewrite inject_Z_plus, <- (qisint_eq p A), <- (qisint_eq q B). reflexivity.
Qed.

Section Diff.
Context (X : Q -> Prop) (XC : forall p q, (p == q)%Q -> X p -> X q) (XA : forall p q, X p -> X q -> X (p + q)%Q) (X1 : X 1%Q)
  (XD : forall q, X q -> ~ (q == 0)%Q -> X (q - 1)%Q).
Context (c : cfg) (HX : fpow_exact (fpow c)) (dom : expr -> bool).
Hypothesis HD : forall s q, X q -> pow_always (ESym s) (ERat q) || dom (EPow (ESym s) (ERat q)) = true.
Lemma diff_poly_plain m d v e : (8 <= m)%nat -> (4 <= d)%nat -> poly X e ->
  exists e', diffE (PF c m) d v e = Ok e' /\ poly X e' /\
    forall rho a b, (forall t, a < t < b -> right_at (upd rho v t) dom) ->
      (forall t s q, a < t < b -> X q -> wd (upd rho v t) (EPow (ESym s) (ERat q))) ->
      forall t, a < t < b -> is_derive (fun s => ev (upd rho v s) e) t (ev (upd rho v t) e').
Proof.
  intros Hm Hd P. replace m with (8 + (m - 8))%nat by lia. replace d with (4 + (d - 4))%nat by lia.
  destruct (diff_poly X XC XA X1 XD dom (strictly c) (m - 8) HD (d - 4) v e P) as (e' & E & P').
  exists e'. split; [|split; auto].
  - eapply rle_ok; [apply diffE_mono; [apply (GF_le dom c (8 + (m - 8)) _ (Nat.le_refl _))|reflexivity]|exact E].
  - intros rho a b R W t Ht. destruct (c11_diff c HX dom (8 + (m - 8)) _ (Nat.le_refl _) (4 + (d - 4)) rho v a b e e' R) as [_ A]; auto.
    + intros u Hu. apply (poly_wd X); auto.
    + apply A; auto.
Qed.
End Diff.

(** natural exponents: everywhere *)
Theorem c70_diff c m d v e : fpow_exact (fpow c) -> (8 <= m)%nat -> (4 <= d)%nat -> poly natq e ->
  exists e', diffE (PF c m) d v e = Ok e' /\ poly natq e' /\
    forall rho t, is_derive (fun s => ev (upd rho v s) e) t (ev (upd rho v t) e').
Proof.
  intros HX Hm Hd P.
  destruct (diff_poly_plain natq natq_qeq natq_add one_natq natq_pred c HX (fun _ => false)
    (fun s q H => eq_trans (orb_false_r _) (pow_always_nat (ESym s) q H)) m d v e Hm Hd P) as (e' & E & P' & D).
  exists e'. split; auto. split; auto. intros rho t. apply (D rho (t - 1) (t + 1)); [|intros; now apply natq_wd|lra].
  intros u _ x Hx. discriminate.
Qed.
(** integer exponents: where no symbol is 0 *)
Definition dom_int (t : expr) : bool := match t with EPow (ESym _) (ERat q) => qisint q | _ => false end.
Theorem c70_diff_laurent c m d v e : fpow_exact (fpow c) -> (8 <= m)%nat -> (4 <= d)%nat -> poly intq e ->
  exists e', diffE (PF c m) d v e = Ok e' /\ poly intq e' /\
    forall rho t, t <> 0 -> (forall s, rho s <> 0) -> is_derive (fun s => ev (upd rho v s) e) t (ev (upd rho v t) e').
Proof.
  intros HX Hm Hd P.
  assert (XD : forall q, intq q -> ~ (q == 0)%Q -> intq (q - 1)).
  { intros q A _. apply (intq_add q (-1) A eq_refl). }
  destruct (diff_poly_plain intq intq_qeq intq_add eq_refl XD c HX dom_int
    (fun s q H => proj2 (orb_true_iff _ _) (or_intror H)) m d v e Hm Hd P) as (e' & E & P' & D).
  exists e'. split; auto. split; auto. intros rho t Ht Hr.
  assert (Hab : exists a b, a < t < b /\ forall u, a < u < b -> u <> 0).
  { destruct (Rlt_le_dec 0 t); [exists 0, (t + 1)|exists (t - 1), 0]; split; try lra; intros; lra. }
  destruct Hab as (a & b & Hab & Hu).
  assert (G : forall u s, a < u < b -> upd rho v u s <> 0).
  { intros u s H. unfold upd. destruct (String.eqb _ _); auto. }
  apply (D rho a b); auto.
  - intros u H [| | | | | | | | |[] []| | |] Hx; try discriminate. simpl in *.
    left. exists q. repeat split; auto. left. apply (G u); auto.
  - intros u s q H Hq. simpl. repeat split; auto. left. exists q. repeat split; auto. left. apply (G u); auto.
Qed.
(** any rational exponents: where all symbols are positive *)
Definition dom_sym (t : expr) : bool := match t with EPow (ESym _) (ERat q) => true | _ => false end.
Theorem c70_diff_rational c m d v e : fpow_exact (fpow c) -> (8 <= m)%nat -> (4 <= d)%nat -> poly anyq e ->
  exists e', diffE (PF c m) d v e = Ok e' /\ poly anyq e' /\
    forall rho t, 0 < t -> (forall s, 0 < rho s) -> is_derive (fun s => ev (upd rho v s) e) t (ev (upd rho v t) e').
Proof.
  intros HX Hm Hd P.
  destruct (diff_poly_plain anyq (fun _ _ _ _ => I) (fun _ _ _ _ => I) I (fun _ _ _ => I) c HX dom_sym
    (fun s q H => orb_true_r _) m d v e Hm Hd P) as (e' & E & P' & D).
  exists e'. split; auto. split; auto. intros rho t Ht Hr.
  assert (G : forall u s, 0 < u -> pdom (upd rho v u) (ESym s) (ERat 0) /\ rp (upd rho v u) (ESym s)).
  { intros u s H. assert (Rp : rp (upd rho v u) (ESym s)).
    { simpl. unfold upd. destruct (String.eqb _ _); auto. }
    split; auto. now right. }
  apply (D rho 0 (t + 1)); [| |lra].
  - intros u H [| | | | | | | | |[] []| | |] Hx; try discriminate. right. apply (G u). lra.
  - intros u s q H Hq. simpl. repeat split; auto. right. apply (G u). lra.
Qed.
(** a checker, for the examples *)
Fixpoint nodups (l : list string) : bool := match l with [] => true | s :: r => negb (existsb (String.eqb s) r) && nodups r end.
Lemma nodups_ok l : nodups l = true -> NoDup l.
Proof.
  induction l as [|s l IH]; simpl; intros H; constructor; apply andb_prop in H as [A B]; auto.
  intros Hi. apply negb_true_iff in A. apply Bool.not_true_iff_false in A. apply A. apply existsb_exists. exists s. split; auto. apply String.eqb_refl.
Qed.
Definition facb (xb : Q -> bool) (e : expr) : bool :=
  match e with
  | ERat _ => true
  | ESym s => negb (String.eqb s "")
  | EPow (ESym s) (ERat q) => negb (String.eqb s "") && xb q && negb (qis0 q)
  | _ => false
  end.
Definition monob (xb : Q -> bool) (e : expr) : bool :=
  match e with
  | EProd ts => Nat.leb 2 (List.length ts) && forallb (facb xb) ts && Nat.leb (List.length (rats ts)) 1 && nodups (flat_map names ts)
  | _ => facb xb e
  end.
Definition polyb (xb : Q -> bool) (e : expr) : bool :=
  match e with ESum ts => Nat.leb 2 (List.length ts) && forallb (monob xb) ts | _ => monob xb e end.
Lemma facb_ok (X : Q -> Prop) xb e : (forall q, xb q = true -> X q) -> facb xb e = true -> fac X e.
Proof.
  intros HX H. assert (S : forall s, negb (String.eqb s "") = true -> s <> ""%string) by (intros s A ->; discriminate).
  destruct e as [q| | | | |s| | | |[| | | | |s| | | | | | |] [q| | | | | | | | | | | |]| | |]; try discriminate; simpl in H.
  - apply fac_rat.
  - apply fac_at, at_sym; auto.
  - apply andb_prop in H as [H A]. apply andb_prop in H as [H B]. apply fac_at, at_pow; auto.
    intros E. apply qis0_iff in E. now rewrite E in A.
Qed.
Lemma monob_ok (X : Q -> Prop) xb e : (forall q, xb q = true -> X q) -> monob xb e = true -> mono X e.
Proof.
  intros HX H. destruct e; try (apply mono_fac; now apply (facb_ok X xb)).
  simpl in H. apply andb_prop in H as [H D]. apply andb_prop in H as [H C]. apply andb_prop in H as [A B].
  apply mono_prod; [now apply Nat.leb_le| |now apply Nat.leb_le|now apply nodups_ok].
  apply Forall_forall. intros t Ht. apply (facb_ok X xb); auto. rewrite forallb_forall in B. auto.
Qed.
Lemma polyb_ok (X : Q -> Prop) xb e : (forall q, xb q = true -> X q) -> polyb xb e = true -> poly X e.
Proof.
  intros HX H. destruct e; try (apply poly_mono; now apply (monob_ok X xb)).
  simpl in H. apply andb_prop in H as [A B]. apply poly_sum; [now apply Nat.leb_le|].
  apply Forall_forall. intros t Ht. apply (monob_ok X xb); auto. rewrite forallb_forall in B. auto.
Qed.
Definition natqb (q : Q) : bool := qisint q && negb (qlt0 q).
Lemma natqb_ok q : natqb q = true -> natq q.
Proof. intros H. apply andb_prop in H as [A B]. split; auto. apply qlt0_f. now destruct (qlt0 q). Qed.

Example c70_ex : poly natq (ESum [EProd [ERat (-3#2); EPow sx (ERat 4); sy]; sx; EPow sy (ERat 2); ERat 7]).
Proof. apply (polyb_ok _ natqb); [exact natqb_ok|reflexivity]. Qed.
Example c70_laurent_ex : poly intq (ESum [EProd [ERat (-3#2); EPow sx (ERat (-4)); sy]; sx; EPow sy (ERat (-1)); ERat 7]).
Proof. apply (polyb_ok _ qisint); [auto|reflexivity]. Qed.
Example c70_rational_ex : poly anyq (ESum [EProd [ERat (-3#2); EPow sx (ERat (-4#3)); sy]; EPow sx (ERat (1#2)); EPow sy (ERat (-1)); ERat 7]).
Proof. apply (polyb_ok _ (fun _ => true)); [constructor|reflexivity]. Qed.

(** ** C71: expand multiplies out *)
Lemma factored_wd rho e : factored e -> wd rho e.
Proof.
  induction e as [q| | | | |s| |ts IH|ts IH|b x IHb IHx|i b IHi IHb|f i IHi|i IHi] using expr_ind'; intros H;
    try (inversion H as [? M| | |]; subst; apply (poly_wd natq); [intros; now apply natq_wd|now apply poly_mono]).
  - inversion H as [? M|? L F| |]; subst; [inversion M as [? F'|]; subst; inversion F' as [? A|]; subst; inversion A|].
    apply wd_sum. rewrite Forall_forall in *. intros t Ht. apply IH; auto. apply F; auto.
  - inversion H as [? M| |? L F R N|]; subst.
    { apply (poly_wd natq); [intros; now apply natq_wd|now apply poly_mono]. }
    apply wd_prod. split.
    + rewrite Forall_forall in *. intros t Ht. apply IH; auto. apply F; auto.
    + unfold one_const. rewrite (acc_rats ts F). exact R.
  - inversion H as [? M| | |us q L F S Nq Q2]; subst.
    { apply (poly_wd natq); [intros; now apply natq_wd|now apply poly_mono]. }
    change (wd rho (ESum us) /\ wd rho (ERat q) /\ pdom rho (ESum us) (ERat q)).
    split; [|split; [exact I|left; exists q; destruct Nq; auto]].
    apply (poly_wd natq); [intros; now apply natq_wd|]. now apply poly_sum.
Qed.
Theorem c71_expand c m d e : fpow_exact (fpow c) -> (8 <= m)%nat -> (height e <= d)%nat -> factored e ->
  (exists r, (b <- expandable (PF c m) e;; if b : bool then expandE (PF c m) d e else Ok e) = Ok r /\
    poly natq r /\ expandable (PF c m) r = Ok false /\ forall rho, ev rho r = ev rho e) /\
  (expandable (PF c m) e = Ok false <-> poly natq e).
Proof.
  intros HX Hm Hd H. replace m with (8 + (m - 8))%nat by lia. set (n := (m - 8)%nat). set (dom := fun _ : expr => false).
  assert (NX : forall t, poly natq t -> expandable (PF c (8 + n)) t = Ok false).
  { intros t [e' M|ts L F]; [apply (expandable_nmono nodom (faithful c) n e' M)|apply (expandable_nsum nodom (faithful c) n ts F)]. }
  destruct (expandable_factored dom (strictly c) n e H) as (b & Eb & Hb).
  pose proof (GF_le dom c (8 + n) (8 + n) (Nat.le_refl _)) as L.
  assert (Eb' : expandable (PF c (8 + n)) e = Ok b) by (eapply rle_ok; [apply expandable_mono; exact L|exact Eb]).
  split.
  - destruct (expand_factored dom (strictly c) n d e H Hd) as (r & Er & Pr). exists r. rewrite Eb in Er. rewrite Eb'. cbn [bind] in *.
    destruct b.
    + split; [eapply rle_ok; [apply expandE_mono; [exact L|reflexivity]|exact Er]|]. split; auto. split; auto.
      intros rho. destruct (c15_expand c HX dom (8 + n) (8 + n) (Nat.le_refl _) d rho e r) as (_ & _ & A); auto.
      * intros t Ht. discriminate.
      * now apply factored_wd.
    + injection Er as <-. auto.
  - split; [intros E; apply Hb; rewrite Eb' in E; congruence|]. intros P. now apply NX.
Qed.
Lemma nmono_c ts : forallb (monob natqb) ts = true -> Forall (mono natq) ts.
Proof. intros H. apply Forall_forall. intros t Ht. apply (monob_ok _ natqb _ natqb_ok). rewrite forallb_forall in H. auto. Qed.
(** -2 x (x + y)^3 (x - 1) + (x y - 2) y *)
Example c71_ex : factored (ESum [EProd [ERat (-2); sx; EPow (ESum [sx; sy]) (ERat 3); ESum [sx; ERat (-1)]]; EProd [ESum [EProd [sx; sy]; ERat (-2)]; sy]]).
Proof.
  assert (A : forall t, mono natq t -> is_prod t = false -> factored t /\ is_prod t = false) by (intros; split; auto; now apply fx_mono).
  assert (B : forall ts, Nat.leb 2 (List.length ts) = true -> forallb (monob natqb) ts = true -> forallb (fun t => negb (is_sum t)) ts = true -> factored (ESum ts)).
  { intros ts L F S. apply Nat.leb_le in L. apply fx_sum; auto. apply nmono_c in F. rewrite forallb_forall in S. rewrite Forall_forall in *.
    intros t Ht. split; [apply fx_mono; auto|]. specialize (S t Ht). now destruct (is_sum t). }
  assert (M : forall t, monob natqb t = true -> mono natq t) by (intros t Ht; now apply (monob_ok _ natqb _ natqb_ok)).
  apply fx_sum; [simpl; lia|]. constructor; [|constructor; [|constructor]]; split; auto.
  - apply fx_prod; [simpl; lia| |simpl; lia|apply nodups_ok; reflexivity].
    constructor; [apply A; [apply M|]; reflexivity|]. constructor; [apply A; [apply M|]; reflexivity|].
    constructor; [split; [|reflexivity]; apply fx_pow; [simpl; lia|apply nmono_c; reflexivity|reflexivity|apply natqb_ok; reflexivity|discriminate]|].
    constructor; [split; [|reflexivity]; apply B; reflexivity|constructor].
  - apply fx_prod; [simpl; lia| |simpl; lia|apply nodups_ok; reflexivity].
    constructor; [split; [|reflexivity]; apply B; reflexivity|]. constructor; [apply A; [apply M|]; reflexivity|constructor].
Qed.
(** Refuted without the condition on bases: expand does not always multiply out.  The cube of
    x(-x-1) - x^2, built by the constructors, expands to -(2x^2+x)^3, which is still expandable. *)
Theorem c71_expand_incomplete_refuted :
  exists e r,
    (p <- k_sum (PF exact_cfg 12) [EProd [ERat (-1); sx]; ERat (-1)];; b <- k_prod (PF exact_cfg 12) [sx; p];;
     t <- k_sum (PF exact_cfg 12) [b; EProd [ERat (-1); EPow sx (ERat 2)]];; k_pow (PF exact_cfg 12) t (ERat 3)) = Ok e /\
    expandE (PF exact_cfg 12) 12 e = Ok r /\ expandable (PF exact_cfg 12) r = Ok true.
Proof. do 2 eexists. split; [vm_compute; reflexivity|]. split; [vm_compute; reflexivity|vm_compute; reflexivity]. Qed.
