(** * NInv: the inverse of a monomial with rational exponents (for C80 and C89). *)
From Coquelicot Require Import Coquelicot.
From Verif Require Import Base Expr Kernel Mono Sort Funcs Calc Expand Combi Sem RealLemmas Sound SoundPow Agree Factor Frag FragNum FragLib PropsA PropsC PropsB PropsK CanonR PropsM NForm NUniq NOps NExp PropsO.
From Coq Require Import Sorting.Sorted Sorting.Permutation.
Local Ltac splits := repeat match goal with |- _ /\ _ => split end.
Local Open Scope Z_scope.
Local Notation AC := (fun _ _ _ _ => I).

(** ** Inverses of monomials *)
Section Inv.
Context (c : cfg).
Notation nt0 := (nt0 anyq c). Notation nterm := (nterm anyq c).
Definition nz (t : expr) : Prop := forall q, t = ERat q -> ~ (q == 0)%Q.
Lemma pow_sym_total n s q : ident s -> lowest q -> exists r, k_pow (K c (S n)) (ESym s) (ERat q) = Ok r /\ nt0 r.
Proof.
  intros Hs L. assert (G : exists r, k_pow (K c (S n)) (ESym s) (ERat q) = Ok r) by (rewrite k_pow_sym; destruct (Qeq_bool q 0); [eauto|]; destruct (Qeq_bool q 1); eauto).
  destruct G as (r & E). exists r. split; auto. eapply (pow_symx_nt anyq c); eauto. exact I.
Qed.
Lemma term_nz t : nterm t -> Forall nz (flat_prod1 (term t)).
Proof.
  destruct t as [a l]. intros (La & H0 & (F & _)). cbn [fst snd] in *.
  assert (Fz : Forall nz l) by (eapply Forall_impl; [|exact F]; intros x A q ->; inversion A).
  assert (Fl : flat_prod l = l) by (apply (flat_prod_fac anyq); apply atoms_fac; now apply natoms_atoms).
  destruct (term_cases a l La) as [(-> & ->)|[(Ne & -> & ->)|(Ne & H1 & ->)]].
  - repeat constructor. intros q E. injection E as <-. exact H0.
  - destruct l as [|x [|y l]]; [congruence| |].
    + inversion F; subst. inversion Fz; subst. destruct (natom_shape anyq x H2) as (P & _). destruct x; try discriminate; repeat constructor; auto.
    + cbn [flat_prod1]. change (Forall nz (flat_prod (x :: y :: l))). now rewrite Fl.
  - change (Forall nz (ERat a :: flat_prod l)). rewrite Fl. constructor; auto. intros q E. injection E as <-. exact H0.
Qed.
Lemma even_not_inv' q1 q2 : qis0 (qmod q1 2) = true -> qisint q2 = true -> ~ (q2 == 0)%Q -> Qeq_bool q1 (/ q2) = false.
Proof.
  intros H N Z. destruct (Qeq_bool q1 (/ q2)) eqn:E; auto. exfalso. apply Qeq_bool_iff in E.
  destruct (qmod2_even q1 H) as (z & Hz). pose proof (numer_int q2 N) as Hw.
  assert (M : (q1 * q2 == 1)%Q) by (rewrite E, Qmult_comm; now apply Qmult_inv_r).
  rewrite Hz, Hw in M. change 2%Q with (inject_Z 2) in M. rewrite <- !inject_Z_mult in M. unfold Qeq in M. cbn [Qnum Qden inject_Z] in M. lia.
Qed.
Context (q : Q) (Iq : qisint q = true) (Lq : lowest q) (Zq : ~ (q == 0)%Q).
Lemma inv_fac n t : fac anyq t -> nice t -> nz t -> exists r, k_pow (K c (2 + n)) t (ERat q) = Ok r /\ nt0 r.
Proof.
  intros F Na Z. destruct F as [a [s Hs|s q1 Hs Hq H0]|p].
  - now apply pow_sym_total.
  - cbn in Na. destruct Na as (Is & L1 & H1). change (K c (2 + n)) with (build c (K c (1 + n))). cbn [build k_pow]. unfold pow_body.
    rewrite (proj2 (isq_rat_f q 0) Zq). destruct (isq (ERat q) 1).
    { eexists. split; [reflexivity|]. right. exists (1%Q, [EPow (ESym s) (ERat q1)]). split; [|reflexivity]. apply (natom_term anyq c). now constructor. }
    change (isq (EPow (ESym s) (ERat q1)) 1) with false. cbn [is_acc andb].
    assert (D : exists r, (m <- op_mul (K c (1 + n)) (ERat q1) (ERat q);; op_pow (K c (1 + n)) (ESym s) m) = Ok r /\ nt0 r).
    { cbn [op_mul bind op_pow]. unfold rat. apply pow_sym_total; [exact Is|apply lowest_red]. }
    unfold mult_exp. destruct (qis0 (qmod q1 2)) eqn:Ev; [|exact D].
    destruct (qis0 q) eqn:Q0; [apply qis0_iff in Q0; contradiction|]. rewrite even_not_inv' by auto. exact D.
  - specialize (Z p eq_refl). destruct (k_pow_int c (1 + n) p q Iq (fun H => False_ind _ (Z H))) as (r & E & _).
    exists (ERat r). split; [exact E|]. apply nt0_rat. eapply (pow_rat_lowest c (K c (1 + n)) p q); [exact Na|exact Iq|contradiction|exact E].
Qed.
Lemma inv_nsub n t : nterm t -> (is_prod (term t) = true -> is_sub (term t) = false) -> exists r, k_pow (K c (5 + n)) (term t) (ERat q) = Ok r /\ nt0 r.
Proof.
  intros T Hs. pose proof (term_nz t T) as Z. destruct (flat_term anyq c t T) as (F & Nc). set (e := term t) in *.
  destruct (is_prod e) eqn:Pe.
  - destruct e as [| | | | | | | |l| | | |] eqn:Ee; try discriminate. pose proof (term_mono anyq c t T) as M. fold e in M. rewrite Ee in M.
    inversion M as [? Fc|? L Fc R N]; subst; [inversion Fc as [? A|]; subst; inversion A|].
    assert (E : flat_prod1 (EProd l) = l) by (apply (flat_prod_fac anyq l Fc)). rewrite E in *.
    change (K c (5 + n)) with (build c (K c (4 + n))). cbn [build k_pow]. unfold pow_body.
    rewrite (proj2 (isq_rat_f q 0) Zq). destruct (isq (ERat q) 1) eqn:E1; [eexists; split; [reflexivity|]; right; exists t; split; [exact T|symmetry; eassumption]|]. change (isq (EProd l) 1) with false. cbn [is_acc andb]. rewrite Hs by reflexivity. cbn [is_prod negb andb children].
    destruct (mapM_total (fun t => k_pow (K c (4 + n)) t (ERat q)) (fun t => fac anyq t /\ nice t /\ nz t) nt0 l) as (l' & -> & Ml).
    { intros a (A & B & C). exact (inv_fac (2 + n) a A B C). }
    { rewrite Forall_forall in *. auto. }
    cbn [bind]. apply (k_prod_total anyq AC AC I c n l' Ml).
  - assert (E : flat_prod1 e = [e]) by (destruct e; try reflexivity; discriminate). rewrite E in *. inversion F; inversion Nc; inversion Z; subst.
    now apply (inv_fac (3 + n)).
Qed.
Theorem pow_total n t : nterm t -> exists r, k_pow (K c (6 + n)) (term t) (ERat q) = Ok r /\ nt0 r.
Proof.
  intros T. destruct (is_prod (term t) && is_sub (term t)) eqn:S; [|apply (inv_nsub (1 + n) t T); intros Hp; rewrite Hp in S; exact S].
  apply andb_prop in S as [S1 S2]. pose proof (term_mono anyq c t T) as M.
  assert (Ne : nt0 (term t)) by (right; eauto).
  destruct (op_neg_coef anyq AC AC I c (1 + n) (term t) M) as (nb & En & Mb & Cb). change (4 + (1 + n))%nat with (5 + n)%nat in En.
  pose proof (op_neg_nt anyq AC AC I c _ _ _ Ne En) as Nb.
  destruct (term t) as [| | | | | | | |l| | | |] eqn:Et; try discriminate.
  inversion M as [? F|? L F R N]; subst; [inversion F as [? A|]; subst; inversion A|].
  pose proof (sub_prod_coef l R S2) as P. cbn [coef] in Cb.
  change (K c (6 + n)) with (build c (K c (5 + n))). cbn [build k_pow]. unfold pow_body.
  rewrite (proj2 (isq_rat_f q 0) Zq). destruct (isq (ERat q) 1) eqn:E1; [eexists; split; [reflexivity|]; right; exists t; split; [exact T|symmetry; eassumption]|]. change (isq (EProd l) 1) with false. cbn [is_acc andb]. rewrite S2. cbn [is_prod negb andb].
  unfold pow_tail. rewrite S2. rewrite Iq. cbn [andb]. rewrite En. cbn [bind]. 
  destruct Nb as [->|(u & U & ->)].
  { exfalso. cbn [coef] in Cb. apply (Qlt_irrefl 0). rewrite Cb at 2. clear -P. unfold Qlt, Qopp in *. cbn in *. lia. }
  assert (Hs : is_prod (term u) = true -> is_sub (term u) = false).
  { intros Hp. apply Bool.not_true_is_false. intros Sn. destruct (term u) as [| | | | | | | |l'| | | |] eqn:Eu; try discriminate.
    inversion Mb as [? F'|? L' F' R' N']; subst; [inversion F' as [? A|]; subst; inversion A|].
    pose proof (sub_prod_coef l' R' Sn) as P'. cbn [coef] in Cb. rewrite Cb in P'. apply (Qlt_irrefl 0).
    eapply Qlt_trans; [|exact P]. clear -P'. unfold Qlt, Qopp in *. cbn in *. lia. }
  destruct (inv_nsub n u U Hs) as (r & Er & Nr). rewrite Er. cbn [bind]. destruct (Z.even (numer q)); [eauto|].
  destruct (op_neg_coef anyq AC AC I c (1 + n) r (nt0_mono anyq c r Nr)) as (r' & Er' & _). change (4 + (1 + n))%nat with (5 + n)%nat in Er'.
  exists r'. split; auto. exact (op_neg_nt anyq AC AC I c _ _ _ Nr Er').
Qed.
End Inv.
Theorem inv_total c n t : nterm anyq c t -> exists r, k_pow (K c (6 + n)) (term t) (ERat (-1)) = Ok r /\ nt0 anyq c r.
Proof. apply pow_total; [reflexivity|reflexivity|discriminate]. Qed.

