(** * NFac: division by monomials and Sum.factor on polynomials (for C89). *)
From Coquelicot Require Import Coquelicot.
From Verif Require Import Base Expr Kernel Mono Sort Funcs Calc Expand Combi Sem RealLemmas Sound SoundPow Agree Factor Frag FragNum FragLib PropsA PropsC PropsB PropsK CanonR PropsM NForm NUniq NOps NExp PropsO NInv PropsP.
From Coq Require Import Sorting.Sorted Sorting.Permutation.
Local Ltac splits := repeat match goal with |- _ /\ _ => split end.
Local Open Scope Z_scope.

(** ** Degrees and coefficients of monomials (specification) *)
(** the exponent of the symbol [v] *)
Fixpoint degree (v : string) (e : expr) : Q :=
  match e with
  | ESym s => if String.eqb s v then 1 else 0
  | EPow (ESym s) (ERat q) => if String.eqb s v then q else 0
  | EProd ts => fold_right Qplus 0%Q (map (degree v) ts)
  | _ => 0
  end%Q.
(** the numeric factor *)
Definition coeff (e : expr) : Q := match e with ERat q => q | EProd (ERat q :: _) => q | _ => 1%Q end.
Definition dgl (v : string) (l : list expr) : Q := fold_right Qplus 0%Q (map (degree v) l).

Local Open Scope R_scope.
Section Deg.
Context (X : Q -> Prop) (c : cfg).
Notation nt0 := (nt0 X c). Notation nterm := (nterm X c). Notation natom := (natom X). Notation natoms := (natoms X c).
Lemma atom_deg v x : natom x -> ev (two v) x = Rpower 2 (Q2R (degree v x)).
Proof.
  intros A. destruct A as [s Hs|s q Hs Hq Hl H0 H1]; cbn [degree ev].
  - unfold two. destruct (String.eqb s v); [rewrite RMicromega.Q2R_1, Rpower_1 by lra; reflexivity|rewrite RMicromega.Q2R_0, Rpower_O by lra; reflexivity].
  - rewrite rpow_pos by apply two_pos. unfold two. destruct (String.eqb s v); [reflexivity|]. rewrite RMicromega.Q2R_0, Rpower_O by lra.
    unfold Rpower. rewrite ln_1, Rmult_0_r. apply exp_0.
Qed.
Lemma mval_deg v l : Forall natom l -> mval (two v) l = Rpower 2 (Q2R (dgl v l)).
Proof.
  induction 1 as [|x l A _ IH]; [unfold mval, dgl; cbn; rewrite RMicromega.Q2R_0, Rpower_O by lra; reflexivity|].
  rewrite mval_cons, IH, (atom_deg v x A), <- Rpower_plus. f_equal. unfold dgl. cbn [map fold_right]. now rewrite Qreals.Q2R_plus.
Qed.
Lemma term_deg v a l : nterm (a, l) -> (degree v (term (a, l)) == dgl v l)%Q.
Proof.
  intros (La & _). cbn [fst] in La. destruct (term_cases a l La) as [(-> & ->)|[(Ne & -> & ->)|(Ne & H1 & ->)]].
  - reflexivity.
  - destruct l as [|x [|y l]]; [congruence| |reflexivity]. unfold dgl. cbn [map fold_right]. ring.
  - unfold dgl. cbn [degree map fold_right]. ring.
Qed.
Lemma term_coeff a l : nterm (a, l) -> coeff (term (a, l)) = a.
Proof.
  intros (La & _ & F & _). cbn [fst snd] in *. destruct (term_cases a l La) as [(-> & ->)|[(Ne & -> & ->)|(Ne & H1 & ->)]]; try reflexivity.
  destruct l as [|x [|y l]]; [congruence| |]; inversion F as [|? ? A _]; subst; destruct A; reflexivity.
Qed.
Lemma two_deg v t : nterm t -> ev (two v) (term t) = ev one (term t) * Rpower 2 (Q2R (degree v (term t))).
Proof.
  destruct t as [a l]. intros T. pose proof T as (_ & _ & (F & _)). cbn [snd] in F. rewrite !(term_val X c) by auto. cbn [fst snd].
  rewrite (mval_one X) by auto. rewrite mval_deg by auto. rewrite Rmult_1_r. f_equal. f_equal. apply Qreals.Qeq_eqR. symmetry. now apply term_deg.
Qed.
Lemma one_coeff t : nterm t -> ev one (term t) = Q2R (coeff (term t)).
Proof.
  destruct t as [a l]. intros T. pose proof T as (_ & _ & (F & _)). cbn [snd] in F. rewrite (term_val X c) by auto. cbn [fst snd].
  rewrite (mval_one X) by auto. rewrite term_coeff by auto. ring.
Qed.
Lemma term_nonzero rho t : positive rho -> nterm t -> ev rho (term t) <> 0.
Proof.
  intros P T. rewrite (term_val X c) by auto. destruct t as [a l], T as (_ & H0 & (F & _)). cbn [fst snd] in *.
  apply Rmult_integral_contrapositive_currified.
  - intros E. apply H0. apply Qreals.eqR_Qeq. now rewrite E, RMicromega.Q2R_0.
  - apply Rgt_not_eq. clear -P F. unfold mval. induction F as [|x l A _ IH]; cbn; [lra|]. apply Rmult_lt_0_compat; auto. now apply (atom_pos X).
Qed.
End Deg.
Lemma rpower2_ne q : Rpower 2 q <> 0.
Proof. apply Rgt_not_eq. apply exp_pos. Qed.
Lemma deg_mul X Y Z c v t u w : nterm X c t -> nterm Y c u -> nterm Z c w -> (forall rho, positive rho -> ev rho (term t) = ev rho (term u) * ev rho (term w)) ->
  (degree v (term t) == degree v (term u) + degree v (term w))%Q /\ (coeff (term t) == coeff (term u) * coeff (term w))%Q.
Proof.
  intros T U W H. pose proof (H one one_pos) as H1. split.
  - pose proof (H (two v) (two_pos v)) as H2. rewrite (two_deg X c v t T), (two_deg Y c v u U), (two_deg Z c v w W), H1 in H2.
    apply Qreals.eqR_Qeq. rewrite Qreals.Q2R_plus. apply rpower2_inj. rewrite Rpower_plus.
    pose proof (term_nonzero Y c one u one_pos U). pose proof (term_nonzero Z c one w one_pos W).
    apply (Rmult_eq_reg_l (ev one (term u) * ev one (term w))); [lra|]. now apply Rmult_integral_contrapositive_currified.
  - apply Qreals.eqR_Qeq. rewrite Qreals.Q2R_mult. now rewrite <- (one_coeff X c t T), <- (one_coeff Y c u U), <- (one_coeff Z c w W).
Qed.

(** ** Division of a monomial by a monomial *)
Section Div.
Context (c : cfg) (HX : fpow_exact (fpow c)).
Let c' := faithful c.
Let HX' : fpow_exact (fpow c') := HX.
Notation nt0 := (nt0 anyq c'). Notation nterm := (nterm anyq c').
Lemma pf_pow n a b : k_pow (PF c (S n)) a b = k_pow (K c' (S n)) a b.
Proof.
  change (k_pow (PF c (S n)) a b) with (guard (pow_always a b || true) (k_pow (K c' (S n)) a b)). now rewrite orb_true_r.
Qed.
Lemma pf_div n a b : op_div (PF c (S n)) a b = op_div (K c' (S n)) a b.
Proof. unfold op_div. now rewrite pf_pow. Qed.
Theorem div_total n t u : nterm t -> nterm u ->
  exists w, nterm w /\ op_div (PF c (6 + n)) (term t) (term u) = Ok (term w) /\ forall rho, positive rho -> ev rho (term t) = ev rho (term u) * ev rho (term w).
Proof.
  intros T U. change (6 + n)%nat with (S (5 + n)). rewrite pf_div. change (S (5 + n)) with (6 + n)%nat.
  assert (Ht : nt0 (term t)) by (right; eauto). assert (Hu : nt0 (term u)) by (right; eauto).
  assert (G : exists r, op_div (K c' (6 + n)) (term t) (term u) = Ok r /\ nt0 r).
  { destruct (inv_total c' n u U) as (i & Ei & Ni).
    destruct (k_prod_total anyq AC AC I c' (2 + n) [term t; i]) as (r & Er & Nr); [auto|]. change (4 + (2 + n))%nat with (6 + n)%nat in Er.
    unfold op_div. destruct (term t) eqn:Et; try (rewrite Ei; cbn [bind]; eauto; fail).
    destruct (term u) eqn:Eu; try (rewrite Ei; cbn [bind]; eauto; fail). destruct (qis0 q0); [rewrite Ei; cbn [bind]; eauto|].
    eexists; split; [reflexivity|]. apply nt0_rat, lowest_red. }
  destruct G as (r & E & Nr). rewrite E.
  assert (V : forall rho, positive rho -> ev rho r = ev rho (term t) / ev rho (term u)).
  { intros rho P. destruct (c02_ops_plain c' HX' (6 + n) rho (term t) (term u) r) as (_ & V).
    - apply (nform_plain' c). now apply nt0_nform.
    - apply (nform_plain' c). now apply nt0_nform.
    - apply PropsP.pos_wd; [exact P|]. apply poly_mono. now apply (nt0_mono anyq c').
    - apply PropsP.pos_wd; [exact P|]. apply poly_mono. now apply (nt0_mono anyq c').
    - apply V; auto. now apply (term_nonzero anyq c'). }
  destruct Nr as [->|(w & W & ->)].
  - exfalso. specialize (V one one_pos). cbn [ev] in V. rewrite RMicromega.Q2R_0 in V.
    pose proof (term_nonzero anyq c' one t one_pos T). pose proof (term_nonzero anyq c' one u one_pos U).
    apply H. apply (Rmult_eq_reg_r (/ ev one (term u))); [|now apply Rinv_neq_0_compat]. unfold Rdiv in V. rewrite <- V. ring.
  - exists w. splits; auto. intros rho P. rewrite V by auto. field. now apply (term_nonzero anyq c').
Qed.
End Div.

(** ** Natural exponents *)
Lemma natq_sub p q : natq p -> natq q -> (q <= p)%Q -> natq (p - q)%Q.
Proof.
  intros P Q L. destruct (natq_is p P) as (Ep & _), (natq_is q Q) as (Eq & _). revert Ep Eq. generalize (numer p) (numer q). intros zp zq Ep Eq.
  eapply natq_qeq; [|apply (natq_inject (zp - zq))].
  - rewrite Ep, Eq. unfold Qeq, Qminus, Qplus, Qopp. cbn. lia.
  - rewrite Ep, Eq in L. unfold Qle in L. cbn in L. lia.
Qed.
Section NatDeg.
Context (c : cfg).
Notation nterm := (nterm natq c). Notation natom := (natom natq).
Lemma natq0 : natq 0. Proof. split; [reflexivity|discriminate]. Qed.
Lemma atom_natdeg v x : natom x -> natq (degree v x).
Proof. intros [s Hs|s q Hs Hq Hl H0 H1]; cbn [degree]; destruct (String.eqb s v); auto using natq0, one_natq. Qed.
Lemma dgl_nat v l : Forall natom l -> natq (dgl v l).
Proof. induction 1 as [|x l A _ IH]; [apply natq0|]. unfold dgl. cbn [map fold_right]. apply natq_add; auto. now apply atom_natdeg. Qed.
Lemma natom_any x : natom x -> NForm.natom anyq x.
Proof. intros [s Hs|s q Hs Hq Hl H0 H1]; constructor; auto. exact I. Qed.
Lemma nterm_any t : nterm t -> NForm.nterm anyq c t.
Proof. intros (A & B & F & N & O). unfold NForm.nterm, natoms. splits; auto. eapply Forall_impl; [|exact F]. apply natom_any. Qed.
(** the exponents of a quotient *)
Lemma quot_nat t u w : nterm t -> nterm u -> NForm.nterm anyq c w ->
  (forall rho, positive rho -> ev rho (term t) = ev rho (term u) * ev rho (term w)) ->
  (forall v, (degree v (term u) <= degree v (term t))%Q) -> nterm w.
Proof.
  intros T U W V D. destruct w as [b m]. pose proof W as (Lb & Hb & F & N & O). cbn [fst snd] in *. unfold NForm.nterm, natoms. cbn [fst snd]. splits; auto.
  apply Forall_forall. intros x Hx. pose proof F as F'. rewrite Forall_forall in F'. pose proof (F' x Hx) as A.
  destruct (atom_name anyq x A) as (s & Es).
  assert (Nx : natq (xpo x)).
  { destruct (deg_mul natq natq anyq c s t u (b, m) T U W V) as (E & _).
    assert (Ex : (degree s (term (b, m)) == xpo x)%Q).
    { rewrite (term_deg anyq c) by exact W. apply Qreals.eqR_Qeq. apply rpower2_inj. rewrite <- (mval_deg anyq) by auto. now apply (mval_two_in anyq). }
    eapply natq_qeq; [|apply (natq_sub (degree s (term t)) (degree s (term u)))].
    - rewrite <- Ex, E. ring.
    - destruct t as [a l]. eapply natq_qeq; [symmetry; apply (term_deg natq c); auto|]. apply dgl_nat. apply T.
    - destruct u as [a l]. eapply natq_qeq; [symmetry; apply (term_deg natq c); auto|]. apply dgl_nat. apply U.
    - apply D. }
  destruct A as [s' Hs|s' q Hs Hq Hl H0 H1]; constructor; auto.
Qed.
Lemma mval_quot X Y Z t u w rho : NForm.nterm X c t -> NForm.nterm Y c u -> NForm.nterm Z c w ->
  (forall rho, positive rho -> ev rho (term t) = ev rho (term u) * ev rho (term w)) -> positive rho ->
  mval rho (snd t) = mval rho (snd u) * mval rho (snd w).
Proof.
  intros T U W V P. pose proof (V one one_pos) as V1. pose proof (V rho P) as V2.
  destruct t as [a l], u as [b m], w as [d k]. pose proof T as (_ & Ha & (Ft & _)). pose proof U as (_ & _ & (Fu & _)). pose proof W as (_ & _ & (Fw & _)). cbn [fst snd] in *.
  rewrite (term_val X c) in V1, V2 by auto. rewrite (term_val Y c) in V1, V2 by auto. rewrite (term_val Z c) in V1, V2 by auto. cbn [fst snd] in *.
  rewrite (mval_one X), (mval_one Y), (mval_one Z) in V1 by auto.
  apply (Rmult_eq_reg_l (Q2R a)); [rewrite V2; replace (Q2R a) with (Q2R b * Q2R d) by lra; ring|].
  intros E. apply Ha. apply Qreals.eqR_Qeq. now rewrite E, RMicromega.Q2R_0.
Qed.
End NatDeg.

(** ** The factors of terms *)
Section Facs.
Context (c : cfg) (HX : fpow_exact (fpow c)) (n : nat).
Let c' := faithful c.
Notation fk := (PF c (12 + n)).
Notation nterm := (nterm natq c'). Notation natom := (natom natq). Notation natoms := (natoms natq c').
Definition sf (x : expr) : Factor.fac := match x with EPow b (ERat q) => (b, Qabs q, qgt0 q) | _ => (x, 1%Q, true) end.
Fixpoint lk (v : string) (cs : list Factor.fac) : Q :=
  match cs with
  | [] => 0%Q
  | ((ESym s, q), _) :: r => if String.eqb s v then q else lk v r
  | _ :: r => lk v r
  end.
Definition symfac (f : Factor.fac) : Prop := exists s q, f = ((ESym s, q), true) /\ ident s /\ natq q /\ (0 < q)%Q.
Definition sfs (cs : list Factor.fac) : Prop := Forall symfac cs /\ NoDup (map (fun f => fst (fst f)) cs).

Lemma df_atoms l : Forall natom l -> df_factors (EProd l) = Ok (map sf l).
Proof.
  intros F. cbn [df_factors]. induction F as [|x l A F IH]; [reflexivity|].
  destruct A as [s Hs|s q Hs Hq Hl H0 H1]; cbn [is_acc df_factors map sf]; unfold bind at 1; rewrite IH; reflexivity.
Qed.
Lemma df_term a l : nterm (a, l) -> (l <> [] -> df_factors (term (a, l)) = Ok (map sf l)) /\ (l = [] -> df_factors (term (a, l)) = Ok [((ERat a, 1%Q), true)]) /\
  df_coeff (term (a, l)) = Ok (ERat a).
Proof.
  intros T. pose proof T as (La & _ & F & _). cbn [fst snd] in *. splits.
  - intros Ne. destruct (term_cases a l La) as [(-> & ->)|[(_ & -> & ->)|(_ & H1 & ->)]]; [congruence| |].
    + destruct l as [|x [|y l]]; [congruence| |now apply df_atoms]. inversion F as [|? ? A _]; subst. destruct A; reflexivity.
    + rewrite <- (df_atoms l F). reflexivity.
  - intros ->. rewrite term_nil. reflexivity.
  - destruct l as [|x l]; [rewrite term_nil; reflexivity|]. pose proof (decon_term natq c' a (x :: l) T ltac:(discriminate)) as D.
    destruct (term_cases a (x :: l) La) as [(E & _)|[(_ & -> & E)|(_ & H1 & E)]]; [discriminate| |]; rewrite E in *.
    + destruct l as [|y l]; [inversion F as [|? ? A _]; subst; destruct A; reflexivity|]. unfold df_coeff. rewrite D. reflexivity.
    + unfold df_coeff. rewrite D. reflexivity.
Qed.
Lemma qabs_natq q : natq q -> (Qabs q == q)%Q.
Proof. intros (_ & P). now apply Qabs_pos. Qed.
Lemma pos_natq q : natq q -> ~ (q == 0)%Q -> (0 < q)%Q.
Proof. intros N Z. pose proof (natq_0 q N Z). eapply Qlt_le_trans; [|exact H]. reflexivity. Qed.
Lemma sf_sym x : natom x -> symfac (sf x) /\ exists s, names x = [s] /\ fst (fst (sf x)) = ESym s /\ (snd (fst (sf x)) == degree s x)%Q /\ forall v, v <> s -> degree v x = 0%Q.
Proof.
  intros [s Hs|s q Hs Hq Hl H0 H1]; cbn [sf names degree fst snd].
  - split; [exists s, 1%Q; splits; auto using one_natq; reflexivity|]. exists s. rewrite String.eqb_refl. splits; auto; [reflexivity|]. intros v Hv.
    destruct (String.eqb_spec s v); congruence.
  - split.
    + exists s, (Qabs q). pose proof (pos_natq q Hq H0) as P. assert (G : qgt0 q = true) by now apply qgt0_iff. rewrite G. splits; auto.
      * eapply natq_qeq; [symmetry; now apply qabs_natq|auto].
      * now rewrite qabs_natq.
    + exists s. rewrite String.eqb_refl. splits; auto; [now apply qabs_natq|]. intros v Hv. destruct (String.eqb_spec s v); congruence.
Qed.
Lemma lk_cons v s q b r : lk v (((ESym s, q), b) :: r) = if String.eqb s v then q else lk v r.
Proof. reflexivity. Qed.
Lemma dgl_out v l : Forall natom l -> ~ In v (flat_map names l) -> (dgl v l == 0)%Q.
Proof.
  induction 1 as [|x l A F IH]; intros N; [reflexivity|]. unfold dgl in *. cbn [map fold_right flat_map] in *.
  destruct (sf_sym x A) as (_ & s & Es & _ & _ & D). rewrite Es in N. rewrite IH by (intros H; apply N; now right). rewrite D; [reflexivity|]. intros ->. apply N. now left.
Qed.
Lemma lk_atoms v l : Forall natom l -> NoDup (flat_map names l) -> (lk v (map sf l) == dgl v l)%Q.
Proof.
  induction 1 as [|x l A F IH]; intros N; [reflexivity|]. cbn [map]. destruct (sf_sym x A) as ((s' & q & E & _) & s & Es & Eb & Eq & D). rewrite E in *. cbn [fst snd] in *. injection Eb as ->.
  cbn [flat_map] in N. rewrite Es in N. inversion N as [|? ? Ni Nd]; subst. rewrite lk_cons. unfold dgl in *. cbn [map fold_right].
  destruct (String.eqb_spec s v) as [->|Ne].
  - rewrite Eq. pose proof (dgl_out v l F Ni) as Z. unfold dgl in Z. rewrite Z. ring.
  - rewrite IH by auto. rewrite (D v) by congruence. ring.
Qed.
Lemma sfs_atoms l : natoms l -> sfs (map sf l).
Proof.
  intros (F & N & _). split.
  - induction F as [|x l A F IH]; constructor; [now apply sf_sym|]. apply IH. cbn [flat_map] in N. destruct (sf_sym x A) as (_ & s & Es & _). rewrite Es in N. now inversion N.
  - assert (E : map (fun f => fst (fst f)) (map sf l) = map ESym (flat_map names l)).
    { clear N. induction F as [|x l A F IH]; [reflexivity|]. cbn [map flat_map]. destruct (sf_sym x A) as (_ & s & Es & Eb & _). rewrite Es, Eb, IH. reflexivity. }
    rewrite E. apply FinFun.Injective_map_NoDup; auto. intros a b H. now injection H.
Qed.

(** ** Comparing the factors *)
Lemma repr_num_sym a s : lowest a -> ident s -> String.eqb (str_Q a) s = false /\ String.eqb s (str_Q a) = false.
Proof.
  intros La Hs. assert (G : str_Q a <> s).
  { intros E. pose proof (same_repr natq c' HX 1 (ERat a) (ESym s) s) as H.
    assert (V : forall rho, positive rho -> ev rho (ERat a) = ev rho (ESym s)).
    { apply H; try reflexivity.
      - apply mono_fac, fac_rat.
      - apply mono_fac, fac_at, at_sym. now apply ident_ne.
      - constructor.
      - constructor; [exact Hs|constructor].
      - change (Ok (str_Q a) = Ok s). now rewrite E. }
    pose proof (V one one_pos) as V1. pose proof (V (two s) (two_pos s)) as V2. cbn [ev] in *. unfold one, two in *. rewrite String.eqb_refl in V2. lra. }
  split; apply String.eqb_neq; congruence.
Qed.
Lemma find_sym s q l : sfs l -> exists o, find_fac fk ((ESym s, q), true) l = Ok o /\
  match o with Some q' => lk s l = q' /\ natq q' /\ (0 < q')%Q | None => lk s l = 0%Q end.
Proof.
  intros (F & _). induction F as [|f l (s' & q' & -> & Is & Nq & Pq) F IH]; [exists None; auto|]. cbn [find_fac fst snd].
  change (k_repr fk (ESym s)) with (Ok s). change (k_repr fk (ESym s')) with (Ok s'). cbn [bind Bool.eqb]. rewrite andb_true_r. rewrite lk_cons, String.eqb_sym.
  destruct (String.eqb s' s); [|exact IH]. exists (Some q'). auto.
Qed.
Lemma find_sym_num s q a : ident s -> lowest a -> find_fac fk ((ESym s, q), true) [((ERat a, 1%Q), true)] = Ok None.
Proof.
  intros Hs La. cbn [find_fac fst snd]. change (k_repr fk (ESym s)) with (Ok s). change (k_repr fk (ERat a)) with (Ok (str_Q a)). cbn [bind].
  rewrite (proj2 (repr_num_sym a s La Hs)). reflexivity.
Qed.
Lemma find_num_sym a l : lowest a -> sfs l -> find_fac fk ((ERat a, 1%Q), true) l = Ok None.
Proof.
  intros La (F & _). induction F as [|f l (s' & q' & -> & Is & Nq & Pq) F IH]; [reflexivity|]. cbn [find_fac fst snd].
  change (k_repr fk (ESym s')) with (Ok s'). change (k_repr fk (ERat a)) with (Ok (str_Q a)). cbn [bind].
  rewrite (proj1 (repr_num_sym a s' La Is)). exact IH.
Qed.
Lemma lk_out v l : Forall symfac l -> ~ In (ESym v) (map (fun f => fst (fst f)) l) -> lk v l = 0%Q.
Proof.
  induction 1 as [|f l (s & q & -> & _) F IH]; intros N; [reflexivity|]. rewrite lk_cons. cbn [map fst] in N. destruct (String.eqb_spec s v) as [->|Ne]; [exfalso; apply N; now left|].
  apply IH. intros H. apply N. now right.
Qed.
Lemma lk_nonneg v l : Forall symfac l -> natq (lk v l).
Proof. induction 1 as [|f l (s & q & -> & _ & Nq & _) F IH]; [apply natq0|]. rewrite lk_cons. destruct (String.eqb s v); auto. Qed.
Lemma qmin_le a b : (qmin a b <= a)%Q /\ (qmin a b <= b)%Q /\ (qmin a b = a \/ qmin a b = b).
Proof.
  unfold qmin. destruct (Qle_bool a b) eqn:E.
  - apply Qle_bool_iff in E. splits; auto. apply Qle_refl.
  - assert (H : ~ (a <= b)%Q) by (intros H; apply Qle_bool_iff in H; congruence). apply Qnot_le_lt in H. splits; auto; [now apply Qlt_le_weak|apply Qle_refl].
Qed.
Lemma qmin_0 a : natq a -> qmin a 0 = 0%Q \/ (qmin a 0 = a /\ (a == 0)%Q).
Proof. intros (_ & P). destruct (qmin_le a 0) as (A & B & [C|C]); auto. right. split; auto. rewrite C in B. now apply Qle_antisym. Qed.
(** one round over the surviving common factors *)
Lemma step_sfs cs l : sfs cs -> sfs l -> exists r, common_step fk cs l = Ok r /\ sfs r /\
  incl (map (fun f => fst (fst f)) r) (map (fun f => fst (fst f)) cs) /\ forall v, (lk v r == qmin (lk v cs) (lk v l))%Q.
Proof.
  intros (F & N) L. induction F as [|f cs (s & q & -> & Is & Nq & Pq) F IH].
  - exists []. splits; [reflexivity|split; [constructor|constructor]|apply incl_refl|]. intros v. cbn [lk]. pose proof (lk_nonneg v l (proj1 L)) as (_ & P). unfold qmin. apply Qle_bool_iff in P. rewrite P. reflexivity.
  - cbn [map fst] in N. inversion N as [|? ? Ni Nd]; subst. destruct (IH Nd) as (r & E & (Fr & Nr) & Ir & V). cbn [common_step].
    destruct (find_sym s q l L) as (o & Eo & Ho). rewrite Eo, E. cbn [bind fst snd]. destruct o as [q'|].
    + destruct Ho as (Lq & Nq' & Pq'). exists (((ESym s, qmin q q'), true) :: r). splits; [reflexivity|split| |].
      * constructor; auto. exists s, (qmin q q'). destruct (qmin_le q q') as (_ & _ & [-> | ->]); auto.
      * cbn [map fst]. constructor; auto.
      * cbn [map fst]. intros x [<-|H]; [now left|right; auto].
      * intros v. rewrite !lk_cons. destruct (String.eqb_spec s v) as [<-|Ne]; [rewrite Lq; reflexivity|apply V].
    + exists r. splits; [reflexivity|split; auto| |].
      * intros x H. right. now apply Ir.
      * intros v. rewrite lk_cons. destruct (String.eqb_spec s v) as [<-|Ne]; [|apply V].
        rewrite Ho. rewrite (lk_out s r Fr) by (intros H; apply Ni; now apply Ir). destruct (qmin_0 q Nq) as [->|(-> & Z)]; [reflexivity|now rewrite Z].
Qed.
Lemma step_sfs_num cs a : sfs cs -> lowest a -> common_step fk cs [((ERat a, 1%Q), true)] = Ok [].
Proof.
  intros (F & _) La. induction F as [|f cs (s & q & -> & Is & Nq & Pq) F IH]; [reflexivity|]. cbn [common_step]. rewrite find_sym_num by auto. cbn [bind]. now rewrite IH.
Qed.
Definition facs_of (t : Q * list expr) : list Factor.fac := match snd t with [] => [((ERat (fst t), 1%Q), true)] | _ => map sf (snd t) end.
Lemma step_term cs t : sfs cs -> nterm t -> exists r, common_step fk cs (facs_of t) = Ok r /\ sfs r /\ forall v, (lk v r == qmin (lk v cs) (dgl v (snd t)))%Q.
Proof.
  intros C T. destruct t as [a [|x l]]; unfold facs_of; cbn [fst snd]; pose proof T as (La & _ & A); cbn [fst snd] in *.
  - exists []. rewrite step_sfs_num by auto. splits; [reflexivity|split; constructor|]. intros v. cbn [lk]. change (dgl v []) with 0%Q.
    destruct (qmin_0 (lk v cs) (lk_nonneg v cs (proj1 C))) as [->|(-> & Z)]; [reflexivity|now rewrite Z].
  - destruct (step_sfs cs (map sf (x :: l)) C (sfs_atoms _ A)) as (r & E & S & _ & V). exists r. splits; auto. intros v. rewrite V.
    pose proof (lk_atoms v (x :: l) (proj1 A) (proj1 (proj2 A))) as Q. revert Q. generalize (lk v (map sf (x :: l))) (dgl v (x :: l)). intros p q Q.
    unfold qmin. rewrite Q. destruct (Qle_bool (lk v cs) q); [reflexivity|exact Q].
Qed.
Lemma fold_terms L : Forall nterm L -> forall cs, sfs cs -> exists r, foldM (common_step fk) (map facs_of L) cs = Ok r /\ sfs r /\ forall v,
  (lk v r <= lk v cs)%Q /\ Forall (fun t => (lk v r <= dgl v (snd t))%Q) L /\ ((lk v r == lk v cs)%Q \/ Exists (fun t => (lk v r == dgl v (snd t))%Q) L).
Proof.
  induction 1 as [|t L T F IH]; intros cs C.
  - exists cs. splits; [reflexivity|auto|]. intros v. splits; [apply Qle_refl|constructor|left; reflexivity].
  - cbn [map foldM]. destruct (step_term cs t C T) as (r1 & E1 & S1 & V1). rewrite E1. cbn [bind]. destruct (IH r1 S1) as (r & E & S & V). exists r. splits; auto. intros v.
    destruct (V v) as (A & B & D). specialize (V1 v). destruct (qmin_le (lk v cs) (dgl v (snd t))) as (Q1 & Q2 & Q3). splits.
    + rewrite V1 in A. eapply Qle_trans; eauto.
    + constructor; auto. rewrite V1 in A. eapply Qle_trans; eauto.
    + destruct D as [D|D]; [|right; now right]. rewrite V1 in D. destruct Q3 as [Q3|Q3]; rewrite Q3 in D; [now left|right; now left].
Qed.
(** the common factors of two or more terms with different powers *)
Lemma common_terms t u L : Forall nterm (t :: u :: L) -> snd t <> snd u -> exists r, foldM (common_step fk) (map facs_of (u :: L)) (facs_of t) = Ok r /\ sfs r /\ forall v,
  Forall (fun t => (lk v r <= dgl v (snd t))%Q) (t :: u :: L) /\ Exists (fun t => (lk v r == dgl v (snd t))%Q) (t :: u :: L).
Proof.
  intros F Ne. inversion F as [|? ? T F']; subst. destruct t as [a [|x l]].
  - destruct u as [b [|y m]]; [exfalso; now apply Ne|]. cbn [map foldM]. change (facs_of (a, [])) with [((ERat a, 1%Q), true)]. change (facs_of (b, y :: m)) with (map sf (y :: m)).
    inversion F' as [|? ? U F'']; subst. pose proof U as (_ & _ & Am). cbn [snd] in Am. pose proof T as (La & _). cbn [fst] in La.
    assert (E1 : common_step fk [((ERat a, 1%Q), true)] (map sf (y :: m)) = Ok []).
    { cbn [common_step]. rewrite find_num_sym by (auto; now apply sfs_atoms). reflexivity. }
    rewrite E1. cbn [bind]. destruct (fold_terms L F'' []) as (r & E & S & V); [split; constructor|]. exists r. splits; auto. intros v.
    destruct (V v) as (A & B & D). cbn [lk] in A, D. assert (Z : (lk v r == 0)%Q) by (apply Qle_antisym; auto; apply (lk_nonneg v r (proj1 S))). split.
    + constructor; [exact A|]. constructor; auto. rewrite Z. apply (dgl_nat v (y :: m)). apply Am.
    + left. exact Z.
  - pose proof T as (_ & _ & Al). cbn [snd] in Al. destruct (fold_terms (u :: L) F' (map sf (x :: l)) (sfs_atoms _ Al)) as (r & E & S & V). exists r. splits; auto. intros v.
    destruct (V v) as (A & B & D). pose proof (lk_atoms v (x :: l) (proj1 Al) (proj1 (proj2 Al))) as Q. rewrite Q in A, D. split; [constructor; auto|].
    destruct D as [D|D]; [now left|now right].
Qed.

(** ** The common monomial *)
Notation nt0 := (nt0 natq c'). Notation nform := (nform natq c').
Fixpoint pv (rho : env) (cs : list Factor.fac) : R :=
  match cs with
  | [] => 1
  | ((ESym s, q), _) :: r => Rpower (rho s) (Q2R q) * pv rho r
  | _ :: r => pv rho r
  end.
Lemma pv_one cs : Forall symfac cs -> pv one cs = 1.
Proof.
  induction 1 as [|f cs (s & q & -> & _) F IH]; [reflexivity|]. cbn [pv]. rewrite IH. unfold one, Rpower. rewrite ln_1, Rmult_0_r, exp_0. ring.
Qed.
Lemma pv_out v cs : Forall symfac cs -> ~ In (ESym v) (map (fun f => fst (fst f)) cs) -> pv (two v) cs = 1.
Proof.
  induction 1 as [|f cs (s & q & -> & _) F IH]; intros N; [reflexivity|]. cbn [pv map fst] in *. rewrite IH by (intros H; apply N; now right).
  unfold two. destruct (String.eqb_spec s v) as [->|Ne]; [exfalso; apply N; now left|]. unfold Rpower. rewrite ln_1, Rmult_0_r, exp_0. ring.
Qed.
Lemma pv_two v cs : sfs cs -> pv (two v) cs = Rpower 2 (Q2R (lk v cs)).
Proof.
  intros (F & N). induction F as [|f cs (s & q & -> & _) F IH]; [cbn; now rewrite RMicromega.Q2R_0, Rpower_O by lra|]. cbn [map fst] in N. inversion N as [|? ? Ni Nd]; subst.
  rewrite lk_cons. cbn [pv]. destruct (String.eqb_spec s v) as [->|Ne].
  - rewrite pv_out by auto. unfold two. rewrite String.eqb_refl. ring.
  - rewrite IH by auto. unfold two at 1. destruct (String.eqb_spec s v); [congruence|]. unfold Rpower at 1. rewrite ln_1, Rmult_0_r, exp_0. ring.
Qed.
Lemma pow_value s q : ident s -> natq q -> exists r, k_pow fk (ESym s) (rat q) = Ok r /\ nt0 r /\ forall rho, positive rho -> ev rho r = Rpower (rho s) (Q2R q).
Proof.
  intros Hs Nq. change (12 + n)%nat with (S (11 + n)). rewrite pf_pow. unfold rat. fold c'.
  assert (Q' : forall rho, Rpower (rho s) (Q2R (Qred q)) = Rpower (rho s) (Q2R q)) by (intros rho; f_equal; apply Qreals.Qeq_eqR, Qred_correct).
  assert (G : exists r, k_pow (K c' (S (11 + n))) (ESym s) (ERat (Qred q)) = Ok r /\ forall rho, positive rho -> ev rho r = Rpower (rho s) (Q2R q)).
  { rewrite k_pow_sym. destruct (Qeq_bool (Qred q) 0) eqn:E0; [|destruct (Qeq_bool (Qred q) 1) eqn:E1].
    - exists (ERat 1). split; auto. intros rho P. apply Qeq_bool_iff, Qreals.Qeq_eqR in E0. rewrite <- Q', E0, RMicromega.Q2R_0, Rpower_O by auto. cbn. apply RMicromega.Q2R_1.
    - exists (ESym s). split; auto. intros rho P. apply Qeq_bool_iff, Qreals.Qeq_eqR in E1. rewrite <- Q', E1, RMicromega.Q2R_1, Rpower_1 by auto. reflexivity.
    - exists (EPow (ESym s) (ERat (Qred q))). split; auto. intros rho P. cbn [ev]. rewrite rpow_pos by apply P. apply Q'. }
  destruct G as (r & E & V). exists r. splits; auto. refine (pow_symx_nt natq c' (11 + n) s (Qred q) r Hs _ _ E); [|apply lowest_red].
  eapply natq_qeq; [symmetry; apply Qred_correct|exact Nq].
Qed.
Lemma makeprod_total cs : sfs cs -> exists t, nterm t /\ makeprod fk cs = Ok (term t) /\ fst t = 1%Q /\ forall v, (degree v (term t) == lk v cs)%Q.
Proof.
  intros S. assert (G : exists r, makeprod fk cs = Ok r /\ nt0 r /\ forall rho, positive rho -> ev rho r = pv rho cs).
  { assert (M : exists ps, mapM (fun f : expr * Q * bool => k_pow fk (fst (fst f)) (if snd f : bool then rat (snd (fst f)) else rat (- snd (fst f)))) cs = Ok ps /\ Forall nt0 ps /\ forall rho, positive rho -> Rprod (map (ev rho) ps) = pv rho cs).
    { destruct S as (F & _). induction F as [|f cs (s & q & -> & Is & Nq & _) F IH]; [exists []; splits; [reflexivity|constructor|reflexivity]|].
      destruct IH as (ps & E & Np & V). destruct (pow_value s q Is Nq) as (r & Er & Nr & Vr). exists (r :: ps). cbn [mapM fst snd]. rewrite Er. cbn [bind]. rewrite E. splits; [reflexivity|auto|].
      intros rho P. unfold Rprod in *. cbn [map fold_right pv]. now rewrite V, Vr. }
    destruct M as (ps & E & Np & V). destruct cs as [|f cs]; [exists (ERat 1); splits; [reflexivity|apply nt0_rat; reflexivity|intros; cbn; apply RMicromega.Q2R_1]|].
    unfold makeprod. rewrite E. cbn [bind].
    destruct (k_prod_total natq natq_qeq natq_add one_natq c' (8 + n) ps Np) as (r & Er & Nr).
    exists r. splits; auto. intros rho P. rewrite <- V by auto.
    apply (c02_prod_plain c' HX (12 + n) rho ps r); auto.
    - eapply Forall_impl; [|exact Np]. intros t T. apply (nform_plain c'). now apply nt0_nform.
    - eapply Forall_impl; [|exact Np]. intros t T. apply (nform_wd c'). now apply nt0_nform. }
  destruct G as (r & E & Nr & V). pose proof (V one one_pos) as V1. rewrite pv_one in V1 by apply S. destruct Nr as [->|(t & T & ->)].
  - exfalso. cbn in V1. rewrite RMicromega.Q2R_0 in V1. lra.
  - exists t. splits; auto.
    + pose proof V1 as V1'. rewrite (one_coeff natq c' t T) in V1'. destruct t as [a l]. rewrite (term_coeff natq c' a l T) in V1'. cbn [fst].
      apply lowest_eq; [apply T|reflexivity|]. apply Qreals.eqR_Qeq. now rewrite V1', RMicromega.Q2R_1.
    + intros v. pose proof (V (two v) (two_pos v)) as V2. rewrite (two_deg natq c' v t T), V1, pv_two in V2 by auto. apply Qreals.eqR_Qeq, rpower2_inj. lra.
Qed.

(** ** The common coefficient *)
Definition dvd (q x : Q) : Prop := exists z, (x == inject_Z z * q)%Q.
Lemma dvd_refl q : dvd q q. Proof. exists 1%Z. change (inject_Z 1) with 1%Q. ring. Qed.
Lemma dvd_trans p q r : dvd p q -> dvd q r -> dvd p r.
Proof. intros (x & X) (y & Y). exists (y * x)%Z. rewrite Y, X, inject_Z_mult. ring. Qed.
Lemma dvd_abs q x : dvd (Qabs q) x <-> dvd q x.
Proof.
  destruct (Qlt_le_dec q 0) as [L|L].
  - assert (E : (Qabs q == - q)%Q) by (apply Qabs_neg; now apply Qlt_le_weak). split; intros (z & Z); exists (- z)%Z; rewrite inject_Z_opp, Z, E; ring.
  - assert (E : (Qabs q == q)%Q) by now apply Qabs_pos. split; intros (z & Z); exists z; rewrite Z, E; reflexivity.
Qed.
Lemma dvd_qeq p q x y : (p == q)%Q -> (x == y)%Q -> dvd p x -> dvd q y.
Proof. intros E F (z & Z). exists z. now rewrite <- E, <- F. Qed.
Lemma den1 x y : is_den1 (rat (x / y)) = Ok (qisint (x / y)).
Proof. unfold is_den1, rat, qisint, denom. now rewrite (Qred_complete _ _ (Qred_correct (x / y))). Qed.
Lemma qint_dvd x y : ~ (y == 0)%Q -> qisint (x / y) = true -> dvd y x.
Proof. intros Z H. apply qisint_eq in H. exists (numer (x / y)). rewrite <- H. field. exact Z. Qed.
Lemma dvd_qint x y : ~ (y == 0)%Q -> dvd y x -> qisint (x / y) = true.
Proof. intros Z (z & E). apply (qisint_of_Z (x / y) z). rewrite E. field. exact Z. Qed.
Lemma dvd_le q x : ~ (x == 0)%Q -> dvd q x -> (Qabs q <= Qabs x)%Q.
Proof.
  intros Z (z & E). rewrite E. rewrite Qabs_Qmult. assert (Hz : z <> 0%Z) by (intros ->; apply Z; rewrite E; ring).
  assert (H1 : (1 <= Qabs (inject_Z z))%Q) by (change (Qabs (inject_Z z)) with (inject_Z (Z.abs z)); change 1%Q with (inject_Z 1); rewrite <- Zle_Qle; lia).
  setoid_replace (Qabs q) with (1 * Qabs q)%Q at 1 by ring. apply Qmult_le_compat_r; auto. apply Qabs_nonneg.
Qed.
Lemma qabs_gt0 a : ~ (a == 0)%Q -> (0 < Qabs a)%Q.
Proof.
  intros Z. destruct (Qlt_le_dec a 0) as [L|L].
  - rewrite Qabs_neg by now apply Qlt_le_weak. clear Z. unfold Qlt, Qopp in *. cbn in *. lia.
  - rewrite Qabs_pos by auto. apply Qle_lteq in L as [L|L]; auto. exfalso. apply Z. now symmetry.
Qed.
Lemma op_div_rat a b : ~ (b == 0)%Q -> op_div fk (ERat a) (ERat b) = Ok (rat (a / b)).
Proof. intros Z. unfold op_div. destruct (qis0 b) eqn:E; [apply qis0_iff in E; contradiction|reflexivity]. Qed.
Lemma cc_total l : Forall (fun a => ~ (a == 0)%Q) l -> forall cc, (0 < cc)%Q -> lowest cc ->
  exists o, common_coeff fk (ERat cc) (map ERat l) = Ok o /\
    ((o = None /\ ~ Forall (dvd cc) l) \/ exists q, o = Some (ERat q) /\ lowest q /\ (0 < q)%Q /\ dvd q cc /\ Forall (dvd q) l /\ ((q == cc)%Q \/ Exists (fun a => (q == Qabs a)%Q) l)).
Proof.
  induction 1 as [|a l Za F IH]; intros cc Pc Lc.
  - exists (Some (ERat cc)). split; [reflexivity|]. right. exists cc. splits; auto using dvd_refl. left. reflexivity.
  - assert (Zc : ~ (cc == 0)%Q) by (intros E; rewrite E in Pc; now apply Qlt_irrefl in Pc).
    cbn [common_coeff map]. rewrite !op_div_rat by auto. cbn [bind]. rewrite !den1.
    assert (D : (d <- (if qisint (a / cc) : bool then Ok true else Ok (qisint (cc / a)));; (if d : bool then
        x <- op_abs fk (ERat a);; y <- op_abs fk (ERat cc);; m <- min_num x y;; common_coeff fk m (map ERat l) else Ok None)) =
        if qisint (a / cc) || qisint (cc / a) then common_coeff fk (if Qle_bool (Qred (Qabs a)) (Qred (Qabs cc)) then rat (Qabs a) else rat (Qabs cc)) (map ERat l) else Ok None).
    { destruct (qisint (a / cc)); [reflexivity|]. destruct (qisint (cc / a)); reflexivity. }
    cbn [bind]. rewrite D. clear D. destruct (qisint (a / cc) || qisint (cc / a)) eqn:E.
    2:{ exists None. split; auto. left. split; auto. intros Fd. inversion Fd as [|? ? Da _]; subst. apply dvd_qint in Da; auto. rewrite Da in E. discriminate. }
    set (p := if Qle_bool (Qred (Qabs a)) (Qred (Qabs cc)) then Qabs a else Qabs cc).
    assert (Ep : (if Qle_bool (Qred (Qabs a)) (Qred (Qabs cc)) then rat (Qabs a) else rat (Qabs cc)) = ERat (Qred p)) by (unfold p; destruct (Qle_bool _ _); reflexivity).
    rewrite Ep. clear Ep.
    assert (Pa : (0 < Qabs a)%Q) by now apply qabs_gt0.
    assert (Ec : (Qabs cc == cc)%Q) by (apply Qabs_pos; now apply Qlt_le_weak).
    assert (Pp : (0 < p)%Q) by (unfold p; destruct (Qle_bool _ _); [auto|now rewrite Ec]).
    assert (Dp : dvd p cc /\ dvd p a).
    { assert (H : dvd cc a \/ dvd a cc) by (apply orb_prop in E as [E'|E']; apply qint_dvd in E'; auto).
      unfold p. destruct (Qle_bool _ _) eqn:L.
      - apply Qle_bool_iff in L. rewrite !Qred_correct in L. destruct H as [H|H].
        + pose proof (dvd_le cc a Za H) as L'. assert (Q : (Qabs a == Qabs cc)%Q) by now apply Qle_antisym. split; [|apply dvd_abs, dvd_refl].
          eapply dvd_qeq; [rewrite Q, Ec; reflexivity|reflexivity|apply dvd_refl].
        + split; apply dvd_abs; auto using dvd_refl.
      - assert (L' : ~ (Qabs a <= Qabs cc)%Q) by (intros L'; rewrite <- (Qred_correct (Qabs a)), <- (Qred_correct (Qabs cc)) in L'; apply Qle_bool_iff in L'; congruence).
        destruct H as [H|H]; [split; apply dvd_abs; auto using dvd_refl|]. exfalso. apply L'. now apply dvd_le. }
    destruct (IH (Qred p)) as (o & Eo & Ho); [now rewrite Qred_correct|apply lowest_red|]. exists o. split; auto. destruct Ho as [(-> & Nf)|(q & -> & Lq & Pq & Dq & Fq & Hq)].
    { left. split; auto. intros Fd. apply Nf. inversion Fd as [|? ? Da Fd']; subst. eapply Forall_impl; [|exact Fd']. intros x Hx.
      pose proof (dvd_le cc a Za Da) as L'. eapply dvd_qeq; [|reflexivity|exact Hx]. rewrite Qred_correct. unfold p. destruct (Qle_bool _ _) eqn:L; [|now symmetry].
      apply Qle_bool_iff in L. rewrite !Qred_correct in L. rewrite <- Ec. now apply Qle_antisym. }
    right.
    exists q. splits; auto.
    + eapply dvd_trans; [eapply dvd_qeq; [reflexivity|apply Qred_correct|exact Dq]|apply Dp].
    + constructor; auto. eapply dvd_trans; [eapply dvd_qeq; [reflexivity|apply Qred_correct|exact Dq]|apply Dp].
    + destruct Hq as [Hq|Hq]; [|right; now right]. rewrite Qred_correct in Hq. revert Hq. unfold p. destruct (Qle_bool _ _); intros Hq; [right; now left|left; now rewrite Hq].
Qed.
Lemma neg_all l : allM lt0 (map ERat l) = Ok (forallb qlt0 l).
Proof. induction l as [|a l IH]; [reflexivity|]. cbn [map allM lt0 bind forallb]. destruct (qlt0 a); auto. Qed.

(** ** The common factor *)
Lemma mapM_terms {A} (f : expr -> res A) (g : Q * list expr -> A) L : Forall (fun t => f (term t) = Ok (g t)) L -> mapM f (map term L) = Ok (map g L).
Proof. induction 1 as [|t L H _ IH]; [reflexivity|]. cbn [map mapM]. rewrite H. cbn [bind]. now rewrite IH. Qed.
Lemma df_facs t : nterm t -> df_factors (term t) = Ok (facs_of t) /\ df_coeff (term t) = Ok (ERat (fst t)).
Proof.
  destruct t as [a l]. intros T. destruct (df_term a l T) as (A & B & D). split; auto. unfold facs_of. cbn [fst snd]. destruct l; [now apply B|]. apply A. discriminate.
Qed.
(** What the coefficient [q] of the common factor can be. *)
Definition content (q : Q) (l : list Q) : Prop :=
  (q = 1%Q /\ ~ Forall (dvd (hd 1%Q l)) l) \/ (Forall (dvd q) l /\ Exists (fun a => (Qabs q == Qabs a)%Q) l /\ ((q < 0)%Q <-> Forall (fun a => (a < 0)%Q) l)).
Theorem common_total t u L : Forall nterm (t :: u :: L) -> snd t <> snd u ->
  exists g, nterm g /\ common_expr fk (map term (t :: u :: L)) = Ok (term g) /\ content (fst g) (map fst (t :: u :: L)) /\
    forall v, Forall (fun t => (degree v (term g) <= degree v (term t))%Q) (t :: u :: L) /\ Exists (fun t => (degree v (term g) == degree v (term t))%Q) (t :: u :: L).
Proof.
  intros F Ne. unfold common_expr.
  rewrite (mapM_terms df_coeff (fun t => ERat (fst t))) by (eapply Forall_impl; [|exact F]; intros; now apply df_facs). cbn [bind].
  rewrite (mapM_terms df_factors facs_of) by (eapply Forall_impl; [|exact F]; intros; now apply df_facs). cbn [bind].
  destruct (common_terms t u L F Ne) as (cs & Ec & Sc & Vc).
  change (map facs_of (t :: u :: L)) with (facs_of t :: map facs_of (u :: L)). change (map (fun t => ERat (fst t)) (t :: u :: L)) with (ERat (fst t) :: map (fun t => ERat (fst t)) (u :: L)).
  cbv iota beta. rewrite Ec. cbn [bind].
  inversion F as [|? ? T F']; subst. pose proof T as (Lt & Zt & _).
  change (op_abs fk (ERat (fst t))) with (Ok (rat (Qabs (fst t)))). cbn [bind].
  assert (Em : map (fun t => ERat (fst t)) (u :: L) = map ERat (map fst (u :: L))) by now rewrite map_map.
  destruct (cc_total (map fst (u :: L))) with (cc := Qred (Qabs (fst t))) as (o & Eo & Ho).
  { apply Forall_forall. intros a Ha. apply in_map_iff in Ha as (x & <- & Hx). rewrite Forall_forall in F'. apply (F' x Hx). }
  { rewrite Qred_correct. now apply qabs_gt0. }
  { apply lowest_red. }
  rewrite Em. change (rat (Qabs (fst t))) with (ERat (Qred (Qabs (fst t)))). rewrite Eo. cbn [bind].
  change (ERat (fst t) :: map ERat (map fst (u :: L))) with (map ERat (map fst (t :: u :: L))). rewrite neg_all. cbn [bind].
  destruct (makeprod_total cs Sc) as (m & Nm & Epm & Cm & Dm).
  assert (Deg : forall v x, In x (t :: u :: L) -> (degree v (term x) == dgl v (snd x))%Q).
  { intros v [a l] Hx. apply (term_deg natq c'). rewrite Forall_forall in F. now apply F. }
  assert (Fin : forall g, nterm g -> (forall v, (degree v (term g) == degree v (term m))%Q) -> forall v,
    Forall (fun t => (degree v (term g) <= degree v (term t))%Q) (t :: u :: L) /\ Exists (fun t => (degree v (term g) == degree v (term t))%Q) (t :: u :: L)).
  { intros g Hg Dg v. destruct (Vc v) as (A & B). split.
    - rewrite Forall_forall in A |- *. intros x Hx. rewrite Dg, Dm, Deg by auto. auto.
    - apply Exists_exists in B as (x & Hx & B). apply Exists_exists. exists x. split; auto. rewrite Dg, Dm, Deg by auto. exact B. }
  destruct Ho as [(-> & Nf)|(q & -> & Lq & Pq & Dq & Fq & Hq)].
  - cbn [bind]. rewrite Epm. cbn [bind]. exists m. splits; auto.
    { left. split; auto. intros Fd. apply Nf. cbn [map hd] in Fd. inversion Fd as [|? ? _ Fd']; subst. eapply Forall_impl; [|exact Fd']. intros x Hx.
      eapply dvd_qeq; [symmetry; apply Qred_correct|reflexivity|]. now apply dvd_abs. }
    apply Fin; [auto|reflexivity].
  - set (b := forallb qlt0 (map fst (t :: u :: L))). set (q' := if b then Qred (q * -1) else q).
    assert (Eq : (if b : bool then x <- op_mul fk (ERat q) (ERat (-1));; Ok (Some x) else Ok (Some (ERat q))) = Ok (Some (ERat q'))).
    { unfold q'. destruct b; reflexivity. }
    rewrite Eq. cbn [bind]. rewrite Epm. cbn [bind].
    assert (Zq : ~ (q' == 0)%Q).
    { unfold q'. destruct b; rewrite ?Qred_correct; intros E; [assert ((q == 0)%Q) as E' by (setoid_replace q with (- (q * -1))%Q by ring; rewrite E; reflexivity)|rename E into E']; rewrite E' in Pq; now apply Qlt_irrefl in Pq. }
    assert (Lq' : lowest q') by (unfold q'; destruct b; auto using lowest_red).
    assert (G : exists g, nt0 g /\ op_mul fk (term m) (ERat q') = Ok g /\ forall rho, ev rho g = ev rho (term m) * Q2R q').
    { destruct (op_mul_mono natq natq_qeq natq_add one_natq c' (8 + n) (term m) (ERat q')) as (g & Eg & _); [apply (term_mono natq c'); auto|apply mono_fac, fac_rat|].
      assert (Hm : nt0 (term m)) by (right; eauto). assert (Hq' : nt0 (ERat q')) by now apply nt0_rat.
      exists g. splits.
      - exact (op_mul_nt natq natq_qeq natq_add one_natq c' (12 + n) (term m) (ERat q') g Hm Hq' Eg).
      - exact Eg.
      - intros rho. destruct (c02_ops_plain c' HX (12 + n) rho (term m) (ERat q') g) as (V & _); auto.
        + apply (nform_plain c'). now apply nt0_nform.
        + apply (nform_wd c'). now apply nt0_nform.
        + exact I.
        + now apply V. }
    destruct G as (g & Ng & Eg & Vg). rewrite Eg.
    assert (Tq : nterm (q', [])) by now apply term_rat. 
    destruct Ng as [->|(g' & Tg & ->)].
    { exfalso. specialize (Vg one). cbn [ev] in Vg. rewrite RMicromega.Q2R_0 in Vg. symmetry in Vg. apply Rmult_integral in Vg as [Vg|Vg].
      - exact (term_nonzero natq c' one m one_pos Nm Vg).
      - apply Zq. apply Qreals.eqR_Qeq. now rewrite Vg, RMicromega.Q2R_0. }
    assert (Vt : forall rho, positive rho -> ev rho (term g') = ev rho (term m) * ev rho (term (q', []))) by (intros rho _; rewrite term_nil; apply Vg).
    exists g'. splits; auto.
    + destruct (deg_mul natq natq natq c' ""%string g' m (q', []) Tg Nm Tq Vt) as (_ & Cg). destruct g' as [ag lg], m as [am lm].
      rewrite (term_coeff natq c') in Cg by auto. rewrite (term_coeff natq c') in Cg by auto. rewrite (term_coeff natq c') in Cg by auto. cbn [fst] in *. subst am.
      assert (ag = q') as ->. { apply lowest_eq; auto; [apply Tg|]. rewrite Cg. ring. }
      right. assert (Aq : (Qabs q' == q)%Q).
      { unfold q'. destruct b; rewrite ?Qred_correct; [rewrite Qabs_Qmult; change (Qabs (-1)) with 1%Q; rewrite Qmult_1_r|]; apply Qabs_pos; now apply Qlt_le_weak. }
      assert (Dv : forall x, dvd q x -> dvd q' x).
      { intros x Hx. apply dvd_abs. eapply dvd_qeq; [symmetry; exact Aq|reflexivity|exact Hx]. }
      splits.
      * cbn [map]. constructor.
        -- apply Dv. eapply dvd_trans; [exact Dq|]. eapply dvd_qeq; [symmetry; apply Qred_correct|reflexivity|]. apply dvd_abs, dvd_refl.
        -- eapply Forall_impl; [|exact Fq]. exact Dv.
      * cbn [map]. destruct Hq as [Hq|Hq]; [left; rewrite Aq, Hq; apply Qred_correct|right]. eapply Exists_impl; [|exact Hq]. intros a Ha. cbn beta in *. now rewrite Aq.
      * unfold q'. assert (Hb : b = true <-> Forall (fun a => (a < 0)%Q) (map fst (t :: u :: L))).
        { unfold b. rewrite forallb_forall, Forall_forall. split; intros H x Hx; apply qlt0_iff; auto. }
        destruct b; split; intros H; try tauto.
        -- rewrite Qred_correct. clear -Pq. unfold Qlt, Qmult in *. cbn in *. lia.
        -- exfalso. apply (Qlt_irrefl 0). eapply Qlt_trans; eauto.
        -- exfalso. assert (false = true) by tauto. discriminate.
    + apply Fin; auto. intros v. destruct (deg_mul natq natq natq c' v g' m (q', []) Tg Nm Tq Vt) as (Dg & _). rewrite Dg. rewrite term_nil. cbn [degree]. ring.
Qed.

(** ** The product of the common factor and the remaining sum *)
(** the factors of a monomial, without the number 1 (specification) *)
Definition monfactors (g : expr) : list expr :=
  match g with EProd l => l | ERat q => if Qeq_bool q 1 then [] else [g] | _ => [g] end.
Lemma flat_term_eq a l : nterm (a, l) ->
  flat_prod1 (term (a, l)) = (if Qeq_bool a 1 then match l with [] => [ERat a] | _ => [] end else [ERat a]) ++ l /\
  monfactors (term (a, l)) = (if Qeq_bool a 1 then [] else [ERat a]) ++ l.
Proof.
  intros T. pose proof T as (La & _ & F & _). cbn [fst snd] in *.
  assert (Fl : flat_prod l = l) by (apply (flat_prod_fac natq); apply atoms_fac; now apply natoms_atoms).
  destruct (term_cases a l La) as [(-> & ->)|[(Ne & -> & ->)|(Ne & H1 & ->)]].
  - cbn [flat_prod1 monfactors]. destruct (Qeq_bool a 1); auto.
  - change (Qeq_bool 1 1) with true. cbv iota. destruct l as [|x [|y l]]; [congruence| |].
    + inversion F as [|? ? A _]; subst. destruct A; auto.
    + cbn [flat_prod1 monfactors app]. split; [exact Fl|reflexivity].
  - rewrite (qeqb_false a 1 H1). cbn [flat_prod1 monfactors flat_map app]. unfold flat_prod in Fl. rewrite Fl. auto.
Qed.
Lemma prod_unlike' k l o r : flat_prod l = l -> ForallOrdPairs (unbase2 c') l -> filter is_acc l = o ->
  (o = [] \/ exists a, o = [ERat a] /\ ~ (a == 0)%Q) -> k_prod (K c' (S k)) l = Ok r ->
  exists nc, nc = nonacc l ++ filter (fun t => negb (isq t 1)) o /\
    ((nc = [] /\ r = ERat 1) \/ nc = [r] \/
     (2 <= List.length nc)%nat /\ exists s, Permutation nc s /\ (r = EProd s \/ exists t us, s = [t; ESum us] /\ isq t (-1) = true /\ op_neg (K c' k) (ESum us) = Ok r)).
Proof.
  intros Fl U Ea A. change (K c' (S k)) with (build c' (K c' k)). cbn [build k_prod]. unfold prod_body. rewrite Fl. unfold combine_prod.
  rewrite combine_prod_unlike by auto. cbn [bind]. intros E. apply bind_ok in E as (nc & En & E). exists nc. split.
  - rewrite Ea in En. destruct A as [->|(a & -> & Z)]; [injection En as <-; now rewrite app_nil_r|]. cbn [acc_prod bind filter] in *.
    rewrite (proj2 (isq_rat_f a 0) Z) in En. destruct (isq (ERat a) 1); injection En as <-; cbn [negb]; [now rewrite app_nil_r|reflexivity].
  - destruct nc as [|t [|x nc]]; [injection E as <-; auto|injection E as <-; auto|]. right. right. split; [cbn; lia|].
    apply bind_ok in E as (s & Es & E). apply sort_terms_spec in Es as [_ P]. exists s. split; auto.
    destruct s as [|a [|b [|? ?]]]; try (injection E as <-; auto; fail).
    + destruct b; try (injection E as <-; auto; fail). destruct (isq a (-1)) eqn:Q; [right; eauto 6|injection E as <-; auto].
    + destruct b; injection E as <-; auto.
Qed.
Lemma mul_shape g us e : nterm g -> nform (ESum us) -> op_mul (K c' (12 + n)) (term g) (ESum us) = Ok e ->
  (nform e /\ (term g = ERat 1 \/ term g = ERat (-1))) \/ exists l, e = EProd l /\ Permutation l (ESum us :: monfactors (term g)).
Proof.
  destruct g as [a l]. intros T Sn E. destruct (flat_term_eq a l T) as (Ef & Em). set (o := if Qeq_bool a 1 then match l with [] => [ERat a] | _ => [] end else [ERat a]) in *.
  pose proof T as (La & Za & Al). cbn [fst snd] in *.
  assert (O : opt_num o) by (unfold o; destruct (Qeq_bool a 1); [destruct l|]; unfold opt_num; eauto).
  assert (Bb : big c' (ESum us)) by (left; eauto).
  assert (E' : k_prod (K c' (12 + n)) [term (a, l); ESum us] = Ok e) by (revert E; unfold op_mul; destruct (term (a, l)); auto).
  assert (Fl : flat_prod [term (a, l); ESum us] = (o ++ l) ++ [ESum us]).
  { unfold flat_prod. cbn [flat_map]. rewrite app_nil_r, Ef. reflexivity. }
  assert (P : Permutation (ESum us :: o ++ l) ((o ++ l) ++ [ESum us])) by apply Permutation_cons_append.
  destruct (big_list c' _ o l _ Bb O Al P) as (F1 & F2 & F3 & F4).
  assert (E2 : k_prod (K c' (S (11 + n))) ((o ++ l) ++ [ESum us]) = Ok e).
  { rewrite <- E'. change (12 + n)%nat with (S (11 + n)). change (K c' (S (11 + n))) with (build c' (K c' (11 + n))). cbn [build k_prod]. unfold prod_body. rewrite Fl. now rewrite F1. }
  assert (Oz : o = [] \/ exists b, o = [ERat b] /\ ~ (b == 0)%Q).
  { unfold o; destruct (Qeq_bool a 1); [destruct l|]; eauto. }
  destruct (prod_unlike' (11 + n) _ o e F1 F2 F3 Oz E2) as (nc & -> & H).
  assert (Pn : Permutation (ESum us :: monfactors (term (a, l))) (nonacc ((o ++ l) ++ [ESum us]) ++ filter (fun t => negb (isq t 1)) o)).
  { rewrite <- F4, Em. assert (Fo : filter (fun t => negb (isq t 1)) o = if Qeq_bool a 1 then [] else [ERat a]).
    { unfold o. destruct (Qeq_bool a 1) eqn:Q; [|cbn [filter isq]; rewrite Q; reflexivity]. destruct l; [|reflexivity]. cbn [filter isq]. rewrite Q. reflexivity. }
    rewrite Fo. cbn [app]. constructor. apply Permutation_app_comm. }
  revert H Pn. generalize (nonacc ((o ++ l) ++ [ESum us]) ++ filter (fun t => negb (isq t 1)) o). intros nc H Pn.
  destruct H as [(-> & _)|[->|(_ & s & Ps & H)]].
  - apply Permutation_sym, Permutation_nil in Pn. discriminate.
  - apply Permutation_sym, Permutation_length_1_inv in Pn. injection Pn as <- Hm. left. split; auto. left.
    rewrite Em in Hm. apply app_eq_nil in Hm as (Ho & ->). rewrite term_nil. destruct (Qeq_bool a 1) eqn:Q; [|discriminate]. apply Qeq_bool_iff in Q. f_equal. now apply lowest_eq.
  - rewrite Ps in Pn. destruct H as [->|(t & us' & -> & Et & En)]; [right; exists s; split; auto; now symmetry|]. left.
    assert (Hm : exists x, monfactors (term (a, l)) = [x] /\ x = t /\ us' = us).
    { pose proof (Permutation_length Pn) as Hl. cbn [List.length] in Hl. destruct (monfactors (term (a, l))) as [|x [|y m]]; try discriminate. exists x.
      apply Permutation_length_2_inv in Pn as [Pn|Pn]; [|injection Pn as P1 P2; subst; auto]. exfalso. injection Pn as P1 _. subst t. discriminate. }
    destruct Hm as (x & Hm & -> & ->). split; [exact (op_neg_nf natq natq_qeq natq_add one_natq c' (11 + n) (ESum us) e Sn En)|]. right.
    rewrite Em in Hm. destruct (Qeq_bool a 1) eqn:Q.
    + cbn [app] in Hm. subst l. destruct Al as (F & _). inversion F as [|? ? A _]; subst. destruct A; discriminate.
    + cbn [app] in Hm. injection Hm as <- ->. rewrite term_nil. apply isq_rat in Et. f_equal. now apply lowest_eq.
Qed.

(** ** Sum.factor *)
Lemma quot_nodup g L W : nterm g -> Forall2 (fun t w => nterm t /\ nterm w /\ forall rho, positive rho -> ev rho (term t) = ev rho (term g) * ev rho (term w)) L W ->
  NoDup (map snd L) -> NoDup (map snd W).
Proof.
  intros G H. induction H as [|t w L W (T & Nw & V) H IH]; intros N; [constructor|]. cbn [map] in *. inversion N as [|? ? Ni Nd]; subst. constructor; auto.
  intros Hi. apply Ni. apply in_map_iff in Hi as (w' & Ew & Hw). clear -H Hw Ew T Nw V G HX. induction H as [|t' w2 L W (T' & Nw' & V') H IH]; [destruct Hw|].
  destruct Hw as [->|Hw]; [left|right; auto]. cbn. symmetry. apply (natoms_eq natq c' HX); [apply T|apply T'|]. intros rho P.
  rewrite (mval_quot c' natq natq natq t g w rho T G Nw V P), (mval_quot c' natq natq natq t' g w' rho T' G Nw' V' P). now rewrite Ew.
Qed.
Lemma lc_sum rho W : Forall nterm W -> Rsum (map (ev rho) (map term W)) = lc rho W.
Proof. induction 1 as [|w W T F IH]; [reflexivity|]. unfold Rsum, lc in *. cbn [map fold_right]. now rewrite IH, (term_val natq c'). Qed.
Theorem factor_total L : Forall nterm L -> NoDup (map snd L) -> (2 <= List.length L)%nat -> nform (ESum (map term L)) ->
  exists g W e, nterm g /\ Forall nterm W /\ List.length W = List.length L /\ nform (ESum (map term W)) /\
    factorE fk (map term L) = Ok e /\
    ((e = ESum (map term L) /\ (term g = ERat 1 \/ term g = ERat (-1))) \/ exists l, e = EProd l /\ Permutation l (ESum (map term W) :: monfactors (term g))) /\
    (forall d, (6 <= d)%nat -> expanded fk d e = Ok (ESum (map term L))) /\
    (forall rho, ev rho e = ev rho (ESum (map term L)) /\ ev rho e = ev rho (term g) * ev rho (ESum (map term W))) /\
    content (fst g) (map fst L) /\
    (exists W', Permutation W' W /\ Forall2 (fun t w => forall rho, positive rho -> ev rho (term t) = ev rho (term g) * ev rho (term w)) L W') /\
    forall v, Forall (fun t => (degree v (term g) <= degree v (term t))%Q) L /\ Exists (fun t => (degree v (term g) == degree v (term t))%Q) L.
Proof.
  intros F N Hl NL. destruct L as [|t [|u L]]; [cbn in Hl; lia|cbn in Hl; lia|].
  assert (Ne : snd t <> snd u) by (cbn [map] in N; inversion N as [|? ? Ni _]; subst; intros E; apply Ni; left; auto).
  destruct (common_total t u L F Ne) as (g & Tg & Eg & Cg & Dg). set (LL := t :: u :: L) in *.
  assert (Q : exists W, mapM (fun t => op_div fk t (term g)) (map term LL) = Ok (map term W) /\ Forall2 (fun t w => nterm t /\ nterm w /\ forall rho, positive rho -> ev rho (term t) = ev rho (term g) * ev rho (term w)) LL W).
  { assert (D : forall v, Forall (fun t => (degree v (term g) <= degree v (term t))%Q) LL) by (intros v; apply Dg). revert F D. generalize LL. clear -Tg HX. intros M F.
    induction F as [|t M T F IH]; intros D; [exists []; split; [reflexivity|constructor]|].
    destruct IH as (W & E & H). { intros v. specialize (D v). now inversion D. }
    destruct (div_total c HX (6 + n) t g (nterm_any c' t T) (nterm_any c' g Tg)) as (w & Hw & Ew & Vw). change (6 + (6 + n))%nat with (12 + n)%nat in Ew.
    exists (w :: W). cbn [map mapM]. rewrite Ew. cbn [bind]. rewrite E. split; [reflexivity|]. constructor; auto. splits; auto.
    apply (quot_nat c' t g w); auto. intros v. specialize (D v). now inversion D. }
  destruct Q as (W & EW & HW).
  assert (FW : Forall nterm W) by (clear -HW; induction HW as [|a b L0 W (_ & H & _) _ IH]; constructor; auto).
  pose proof (quot_nodup g LL W Tg HW N) as NW.
  assert (LW : List.length W = List.length LL) by (clear -HW; induction HW as [|a b L0 W _ _ IH]; cbn [List.length]; congruence).
  assert (NfW : Forall nform (map term W)).
  { apply Forall_forall. intros x Hx. apply in_map_iff in Hx as (w & <- & Hw). rewrite Forall_forall in FW. apply nt0_nform. right. eauto. }
  destruct (k_sum_total natq c' (4 + n) (map term W) NfW) as (s & Es & Ns).
  assert (Vs : forall rho, ev rho s = lc rho W).
  { intros rho. rewrite <- lc_sum by auto. apply (c01_sum_plain c' HX (12 + n) rho (map term W) s); auto.
    - eapply Forall_impl; [|exact NfW]. apply (nform_plain c').
    - eapply Forall_impl; [|exact NfW]. intros x. apply (nform_wd c'). }
  pose proof Ns as (W2 & FW2 & NW2 & OW2 & ->).
  assert (PW : Permutation W W2).
  { assert (V : forall rho, positive rho -> lc rho W = lc rho W2) by (intros rho _; rewrite <- Vs; now apply (lc_val natq c')).
    apply NoDup_Permutation; eauto using NoDup_map_inv. intros x. split; apply (nform_incl natq c'); auto. intros. symmetry. auto. }
  assert (Sum : sum_of (map term W2) = ESum (map term W2)).
  { pose proof (Permutation_length PW) as P. rewrite LW in P. unfold LL in P. destruct W2 as [|a [|b W2]]; [discriminate|discriminate|reflexivity]. }
  rewrite Sum in *.
  assert (Ng : nform (term g)) by (apply nt0_nform; right; eauto).
  destruct (op_mul_total c' HX n (term g) (ESum (map term W2)) Ng Ns) as (e & Ee & Me).
  assert (Ef : factorE fk (map term LL) = Ok e).
  { unfold factorE. rewrite Eg. cbn [bind]. rewrite EW. cbn [bind]. change (k_sum fk (map term W)) with (k_sum (K c' (8 + (4 + n))) (map term W)). rewrite Es. exact Ee. }
  assert (Ve : forall rho, ev rho e = ev rho (term g) * ev rho (ESum (map term W2))).
  { intros rho. destruct (c02_ops_plain c' HX (12 + n) rho (term g) (ESum (map term W2)) e) as (V & _); auto using (nform_plain c'), (nform_wd c'). now apply V. }
  assert (Vp : forall rho, positive rho -> ev rho e = ev rho (ESum (map term LL))).
  { intros rho P. rewrite Ve, Vs, <- lc_sum by auto. change (ev rho (ESum (map term LL))) with (Rsum (map (ev rho) (map term LL))).
    clear -HW P. induction HW as [|a b L0 W (_ & _ & V) _ IH]; unfold Rsum in *; cbn [map fold_right]; [ring|]. rewrite Rmult_plus_distr_l, IH, V by auto. ring. }
  assert (X : forall d, (6 <= d)%nat -> expanded fk d e = Ok (ESum (map term LL)) /\ forall rho, ev rho (ESum (map term LL)) = ev rho e).
  { intros d Hd. destruct (expanded_total c HX (4 + n) d e Me Hd) as (r & Er & Nr & Vr & _). change (8 + (4 + n))%nat with (12 + n)%nat in Er. rewrite Er.
    assert (r = ESum (map term LL)) as ->; [|auto]. apply (nform_unique natq c' HX); auto. intros rho P. now rewrite Vr, Vp. }
  exists g, W2, e. splits; auto.

  - now rewrite <- (Permutation_length PW).
  - destruct (mul_shape g _ e Tg Ns Ee) as [(Ne' & H)|H]; [left|now right]. split; auto. apply (nform_unique natq c' HX); auto.
  - intros d Hd. now apply X.
  - intros rho. split; auto. symmetry. now apply (X 6%nat).
  - exists W. split; auto. clear -HW. induction HW as [|a b L0 W (_ & _ & V) _ IH]; constructor; auto.
Qed.
End Facs.
