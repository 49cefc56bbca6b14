(** * NOps: subtraction, products, powers and expansion of normal forms (for C77). *)
From Coquelicot Require Import Coquelicot.
From Verif Require Import Base Expr Kernel Mono Sort Funcs Calc Expand Combi Sem RealLemmas Sound SoundPow Agree Frag FragNum FragLib PropsA PropsC PropsB PropsK CanonR PropsM NForm NUniq.
From Coq Require Import Sorting.Sorted Sorting.Permutation.
Local Ltac splits := repeat match goal with |- _ /\ _ => split end.
Local Open Scope Z_scope.

(** ** Polynomials are plain *)
Section Plain.
Context (X : Q -> Prop).
Lemma mono_plain e : mono X e -> Agree.plain e = true.
Proof.
  assert (G : forall t, fac X t -> Agree.plain t = true) by (intros t [a []|]; reflexivity).
  intros [t T|ts L F R N]; [auto|]. cbn [Agree.plain]. apply forallb_forall. rewrite Forall_forall in F. auto.
Qed.
Lemma poly_plain e : poly X e -> Agree.plain e = true.
Proof.
  intros [t T|ts L F]; [now apply mono_plain|]. cbn [Agree.plain]. apply forallb_forall. rewrite Forall_forall in F. intros; apply mono_plain; auto.
Qed.
End Plain.

Lemma plain_nofloat e : Agree.plain e = true -> no_float e.
Proof.
  unfold no_float. induction e as [q| | | | |s| |ts IH|ts IH|b x IHb IHx|i b IHi IHb|f i IHi|i IHi] using expr_ind'; intros H; try discriminate; try reflexivity.
  - cbn [Agree.plain gcontains is_pie] in *. apply Bool.not_true_is_false. intros E. apply existsb_exists in E as (t & Ht & E).
    rewrite Forall_forall in IH. rewrite forallb_forall in H. pose proof (IH t Ht (H t Ht)) as G. congruence.
  - cbn [Agree.plain gcontains is_pie] in *. apply Bool.not_true_is_false. intros E. apply existsb_exists in E as (t & Ht & E).
    rewrite Forall_forall in IH. rewrite forallb_forall in H. pose proof (IH t Ht (H t Ht)) as G. congruence.
  - cbn [Agree.plain gcontains is_pie] in *. apply andb_prop in H as [A B]. now rewrite IHb, IHx.
  - cbn [Agree.plain gcontains is_pie] in *. auto.
  - cbn [Agree.plain gcontains is_pie] in *. auto.
Qed.

(** ** Subtraction *)
Section Sub.
Context (X : Q -> Prop) (XC : forall p q, (p == q)%Q -> X p -> X q) (XA : forall p q, X p -> X q -> X (p + q)%Q) (X1 : X 1%Q).
Context (c : cfg).
Notation nform := (nform X c). Notation nt0 := (nt0 X c).
Lemma neg_sum n ts r : nform (ESum ts) -> k_prod (K c n) [ERat (-1); ESum ts] = Ok r -> nform r.
Proof.
  intros P H. pose proof (nform_poly X c _ P) as Pp.
  pose proof (rle_ok _ _ _ (le_prod _ _ (K_mono c c n (9 + n) (cle_refl c) ltac:(lia)) _) H) as E. clear H. revert E.
  change (K c (9 + n)) with (build c (K c (8 + n))). cbn [build k_prod]. unfold prod_body.
  change (flat_prod [ERat (-1); ESum ts]) with [ERat (-1); ESum ts]. unfold combine_prod.
  cbn [List.length combine_prod_go decon_pow split_base]. unfold py_eq. cbn [coin eeqb]. rewrite andb_false_r.
  cbn [bind split_base decon_pow combine_prod_go add_term is_acc fst snd acc_prod]. change (isq (ERat (-1)) 0) with false.
  change (isq (ERat (-1)) 1) with false. cbn [bind app]. unfold sort_terms. cbn [foldM insert_term bind].
  destruct (nwf_poly X _ Pp) as (m & Em).
  assert (L : lt_terms (K c (8 + n)) (ERat (-1)) (ESum ts) = Ok true).
  { unfold lt_terms. rewrite Em. cbn [nwf bind Nat.eqb andb symboless_nest]. destruct m; reflexivity. }
  rewrite L. cbn [bind]. change (isq (ERat (-1)) (-1)) with true. cbv iota. apply (op_neg_nf X XC XA X1). exact P.
Qed.
Lemma op_mul_m1 n b r : nform b -> op_mul (K c n) (ERat (-1)) b = Ok r -> nform r.
Proof.
  intros B. destruct (is_sum b) eqn:S.
  - destruct b; try discriminate. now apply neg_sum.
  - intros E. eapply nt0_nform, op_mul_nt; eauto; [apply nt0_rat; reflexivity|now apply nform_nt0].
Qed.
Theorem op_sub_nf n a b r : nform a -> nform b -> op_sub (K c n) a b = Ok r -> nform r.
Proof.
  intros A B. assert (G : (m <- op_mul (K c n) (ERat (-1)) b;; op_add (K c n) a m) = Ok r -> nform r).
  { intros E. apply bind_ok in E as (m & Em & E). eapply (op_add_nf X c); [exact A| |exact E]. eapply op_mul_m1; eauto. }
  unfold op_sub. destruct a, b; auto. intros E. injection E as <-. apply nform_rat, lowest_red.
Qed.
End Sub.

(** ** Powers of terms *)
Section Nat.
Context (c : cfg).
Notation nform := (nform natq c). Notation nt0 := (nt0 natq c). Notation nterm := (nterm natq c). Notation natom := (natom natq). Notation natoms := (natoms natq c).
Let N1 : natq 1%Q := one_natq.
Let KP := k_prod_nt natq natq_qeq natq_add N1 c.

Lemma pow_sym_nt n s q r : ident s -> natq q -> lowest q -> k_pow (K c (S n)) (ESym s) (ERat q) = Ok r -> nt0 r.
Proof.
  intros I Nq Lq. rewrite k_pow_sym. destruct (Qeq_bool q 0) eqn:E0; [intros E; injection E as <-; apply nt0_rat; reflexivity|].
  destruct (Qeq_bool q 1) eqn:E1; intros E; injection E as <-.
  - right. exists (1%Q, [ESym s]). split; [|reflexivity]. apply (natom_term natq c (ESym s)). now constructor.
  - right. exists (1%Q, [EPow (ESym s) (ERat q)]). split; [|reflexivity]. apply (natom_term natq c). constructor; auto; now apply Qeq_bool_neq.
Qed.
Lemma pow_fac_nt n a q r : natq q -> lowest q -> fac natq a -> nice a -> k_pow (K c (2 + n)) a (ERat q) = Ok r -> nt0 r.
Proof.
  intros Nq Lq F Na. destruct (Qeq_dec q 0) as [Z|Z].
  { change (K c (2 + n)) with (build c (K c (1 + n))). cbn [build k_pow]. unfold pow_body. rewrite (proj2 (isq_rat q 0) Z).
    intros E. injection E as <-. apply nt0_rat. reflexivity. }
  destruct F as [a [s Hs|s q1 Hs Hq H0]|p].
  - exact (pow_sym_nt (1 + n) s q r Na Nq Lq).
  - cbn in Na. destruct Na as (I & L1 & H1). change (K c (2 + n)) with (build c (K c (1 + n))). cbn [build k_pow]. unfold pow_body.
    rewrite (proj2 (isq_rat_f q 0) Z). destruct (isq (ERat q) 1).
    { intros E. injection E as <-. right. exists (1%Q, [EPow (ESym s) (ERat q1)]). split; [|reflexivity]. apply (natom_term natq c). now constructor. }
    change (isq (EPow (ESym s) (ERat q1)) 1) with false. cbn [is_acc andb].
    assert (D : (m <- op_mul (K c (1 + n)) (ERat q1) (ERat q);; op_pow (K c (1 + n)) (ESym s) m) = Ok r -> nt0 r).
    { cbn [op_mul bind op_pow]. unfold rat. apply pow_sym_nt; auto; [|apply lowest_red]. eapply natq_qeq; [symmetry; apply Qred_correct|]. now apply natq_mul. }
    unfold mult_exp. destruct (qis0 (qmod q1 2)) eqn:Ev; [|exact D].
    destruct (qis0 q) eqn:Q0; [apply qis0_iff in Q0; contradiction|]. rewrite even_not_inv by auto. exact D.
  - intros E. destruct Nq as [Ni Nn]. destruct (k_pow_int c (1 + n) p q Ni (fun _ => Nn)) as (v & E' & _).
    change (S (1 + n)) with (2 + n)%nat in E'. rewrite E in E'. injection E' as ->. apply nt0_rat.
    apply (pow_rat_lowest c (K c (1 + n)) p q); auto.
Qed.
Lemma mapM_inv {A B} (f : A -> res B) (P : A -> Prop) (R : B -> Prop) l :
  (forall a b, P a -> f a = Ok b -> R b) -> Forall P l -> forall l', mapM f l = Ok l' -> Forall R l'.
Proof.
  intros Hf. induction 1 as [|a l Ha _ IH]; intros l' E; cbn [mapM] in E; [injection E as <-; constructor|].
  apply bind_ok in E as (b & Eb & E). apply bind_ok in E as (l2 & El & E). injection E as <-. constructor; eauto.
Qed.
Lemma pow_nsub_nt n e q r : natq q -> lowest q -> nt0 e -> (is_prod e = true -> is_sub e = false) -> k_pow (K c (5 + n)) e (ERat q) = Ok r -> nt0 r.
Proof.
  intros Nq Lq Ne Hs. pose proof (nt0_mono natq c e Ne) as M.
  assert (Fl : Forall (fac natq) (flat_prod1 e) /\ Forall nice (flat_prod1 e)).
  { destruct (flat_nt0 natq c [e]) as (A & B); [auto|]. unfold flat_prod in A, B. cbn [flat_map] in A, B. rewrite app_nil_r in A, B. auto. }
  destruct (is_prod e) eqn:Pe.
  - destruct e as [| | | | | | | |l| | | |]; try discriminate. inversion M as [? F|? L F R N]; subst; [inversion F as [? A|]; subst; inversion A|].
    assert (E : flat_prod1 (EProd l) = l) by (apply (flat_prod_fac natq l F)). rewrite E in Fl. destruct Fl as (_ & Fn).
    change (K c (5 + n)) with (build c (K c (4 + n))). cbn [build k_pow]. unfold pow_body.
    destruct (isq (ERat q) 0); [intros Q; injection Q as <-; apply nt0_rat; reflexivity|].
    destruct (isq (ERat q) 1); [intros Q; injection Q as <-; auto|].
    change (isq (EProd l) 1) with false. cbn [is_acc andb]. rewrite Hs by reflexivity. cbn [is_prod negb andb children].
    intros Q. apply bind_ok in Q as (l' & Em & Q). apply (KP (4 + n)%nat l'); auto. revert Em.
    apply (mapM_inv _ (fun t => fac natq t /\ nice t)).
    + intros a b (Fa & Na). exact (pow_fac_nt (2 + n) a q b Nq Lq Fa Na).
    + rewrite Forall_forall in *. auto.
  - assert (E : flat_prod1 e = [e]) by (destruct e; try reflexivity; discriminate). rewrite E in Fl. destruct Fl as (A & B).
    inversion A; inversion B; subst. now apply (pow_fac_nt (3 + n)).
Qed.
Lemma is_sub_term a l : nterm (a, l) -> is_sub (term (a, l)) = qlt0 a.
Proof.
  intros (La & H0 & F & _). cbn [fst snd] in *. destruct (term_cases a l La) as [(-> & ->)|[(Ne & -> & ->)|(Ne & H1 & ->)]].
  - reflexivity.
  - destruct l as [|x [|y l]]; [congruence| |]; inversion F as [|? ? A _]; subst; destruct A; reflexivity.
  - reflexivity.
Qed.
Theorem k_pow_nt n e q r : natq q -> lowest q -> nt0 e -> k_pow (K c n) e (ERat q) = Ok r -> nt0 r.
Proof.
  intros Nq Lq Ne H. pose proof (rle_ok _ _ _ (le_pow _ _ (K_mono c c n (6 + n) (cle_refl c) ltac:(lia)) _ _) H) as E. clear H.
  destruct (is_prod e && is_sub e) eqn:S; [|apply (pow_nsub_nt (1 + n) e q); auto; intros Hp; rewrite Hp in S; exact S].
  apply andb_prop in S as [S1 S2]. revert E. change (K c (6 + n)) with (build c (K c (5 + n))). cbn [build k_pow]. unfold pow_body.
  destruct (isq (ERat q) 0); [intros Q; injection Q as <-; apply nt0_rat; reflexivity|].
  destruct (isq (ERat q) 1); [intros Q; injection Q as <-; auto|].
  destruct e as [| | | | | | | |l| | | |]; try discriminate. change (isq (EProd l) 1) with false. cbn [is_acc andb]. rewrite S2. cbn [is_prod negb andb].
  unfold pow_tail. rewrite S2, (proj1 Nq). cbn [andb]. intros Q. apply bind_ok in Q as (nb & En & Q).
  pose proof (op_neg_nt natq natq_qeq natq_add N1 c _ _ _ Ne En) as Nb.
  assert (Sb : is_sub nb = false).
  { destruct (op_neg_coef natq natq_qeq natq_add N1 c (1 + n) (EProd l) (nt0_mono natq c _ Ne)) as (nb' & En' & Mb & Cb).
    change (4 + (1 + n))%nat with (5 + n)%nat in En'. rewrite En in En'. injection En' as <-.
    pose proof (nt0_mono natq c _ Ne) as M. inversion M as [? F|? L F R N]; subst; [inversion F as [? A|]; subst; inversion A|].
    pose proof (sub_prod_coef l R S2) as P. cbn [coef] in Cb.
    apply Bool.not_true_is_false. intros Sn. destruct (is_prod nb) eqn:Pn.
    - destruct Mb as [e' F'|ts' L' F' R' N']; [destruct F' as [? []|]; discriminate|].
      pose proof (sub_prod_coef ts' R' Sn) as P'. cbn [coef] in Cb. rewrite Cb in P'. apply (Qlt_irrefl 0).
      eapply Qlt_trans; [|exact P]. clear -P'. unfold Qlt, Qopp in *. cbn in *. lia.
    - destruct Mb as [e' F'|ts' L' F' R' N']; [|discriminate]. destruct F' as [? []|q']; try discriminate. cbn [coef is_sub] in *.
      apply qlt0_iff in Sn. rewrite Cb in Sn. apply (Qlt_irrefl 0). eapply Qlt_trans; [|exact P]. clear -Sn. unfold Qlt, Qopp in *. cbn in *. lia. }
  destruct (Z.even (numer q)).
  - apply (pow_nsub_nt n nb q r); auto.
  - apply bind_ok in Q as (p & Ep & Q). eapply (op_neg_nt natq natq_qeq natq_add N1 c); [|exact Q]. apply (pow_nsub_nt n nb q p); auto.
Qed.
End Nat.

(** ** Powers of sums *)
Section Sums.
Context (c : cfg) (HX : fpow_exact (fpow c)).
Notation nform := (nform natq c). Notation nt0 := (nt0 natq c). Notation nterm := (nterm natq c). Notation natom := (natom natq). Notation natoms := (natoms natq c).
Let N1 : natq 1%Q := one_natq.

Lemma term_at_one t : nterm t -> ev one (term t) = Q2R (fst t).
Proof. intros T. rewrite (term_val natq c) by auto. rewrite (mval_one natq) by apply T. lra. Qed.
Lemma sub_term_neg t : nterm t -> is_sub (term t) = true -> (ev one (term t) < 0)%R.
Proof.
  intros T S. rewrite term_at_one by auto. destruct t as [a l]. rewrite (is_sub_term c a l T) in S. apply qlt0_iff in S.
  apply Qreals.Qlt_Rlt in S. rewrite RMicromega.Q2R_0 in S. exact S.
Qed.
Lemma sub_nform_neg e : nform e -> is_sub e = true -> (ev one e < 0)%R.
Proof.
  intros (L & F & N & O & ->) S. destruct L as [|t [|u L]]; unfold sum_of in *; cbn [map] in *.
  - discriminate.
  - apply sub_term_neg; auto. now inversion F.
  - change (ev one (ESum (term t :: term u :: map term L))) with (Rsum (map (ev one) (map term (t :: u :: L)))).
    change (forallb is_sub (map term (t :: u :: L)) = true) in S.
    revert F S. generalize (u :: L). clear. intros L F S. revert t F S. induction L as [|u L IH]; intros t F S.
    + unfold Rsum. cbn [map fold_right]. cbn [map forallb] in S. inversion F; subst. apply andb_prop in S as [S _]. pose proof (sub_term_neg t H1 S). lra.
    + unfold Rsum in *. cbn [map fold_right] in *. inversion F; subst. cbn [forallb] in S. apply andb_prop in S as [S S']. pose proof (sub_term_neg t H1 S).
      specialize (IH u H2 S'). lra.
Qed.
Lemma nform_plain e : nform e -> Agree.plain e = true.
Proof. intros H. apply (poly_plain natq). now apply (nform_poly natq c). Qed.
Lemma nform_wd rho e : nform e -> wd rho e.
Proof. intros H. apply (poly_wd natq); [intros; now apply natq_wd|]. now apply (nform_poly natq c). Qed.
Lemma neg_not_sub n e r : nform e -> is_sub e = true -> op_neg (K c n) e = Ok r -> is_sub r = false.
Proof.
  intros A S E. pose proof (op_neg_nf natq natq_qeq natq_add N1 c _ _ _ A E) as R.
  destruct (c01_ops_plain c HX n one e e r (nform_plain e A) (nform_plain e A) (nform_wd one e A) (nform_wd one e A)) as (_ & _ & V).
  destruct (V E) as (_ & V'). pose proof (sub_nform_neg e A S). apply Bool.not_true_is_false. intros S'. pose proof (sub_nform_neg r R S'). lra.
Qed.

(** ** What expand is applied to *)
Inductive nfx : expr -> Prop :=
| nfx_nf e : nform e -> nfx e
| nfx_sum ts : (2 <= List.length ts)%nat -> Forall (fun t => nfx t /\ is_sum t = false) ts -> (poly natq (ESum ts) -> nform (ESum ts)) -> nfx (ESum ts)
| nfx_prod ts : (2 <= List.length ts)%nat -> Forall (fun t => nfx t /\ is_prod t = false) ts -> (List.length (rats ts) <= 1)%nat ->
    NoDup (flat_map names (filter simple_base ts)) -> (poly natq (EProd ts) -> nform (EProd ts)) -> nfx (EProd ts)
| nfx_pow ts q : nform (ESum ts) -> is_sub (ESum ts) = false -> natq q -> (2 <= q)%Q -> nfx (EPow (ESum ts) (ERat q)).

Lemma nform_factored e : nform e -> factored e.
Proof.
  intros A. destruct (is_sum e) eqn:S.
  - destruct e as [| | | | | | |ts| | | | |]; try discriminate. destruct (nform_sum natq c ts A) as (F & L). apply fx_sum; auto.
    eapply Forall_impl; [|exact F]. intros t T. apply (nt0_mono natq c) in T. split; [now apply fx_mono|].
    destruct T as [? [? []|]|]; reflexivity.
  - apply fx_mono. apply (nt0_mono natq c). now apply nform_nt0.
Qed.
Fixpoint nfx_factored e (H : nfx e) {struct H} : factored e.
Proof.
  destruct H as [e A|ts L F P|ts L F R N P|ts q A S Nq Q2].
  - now apply nform_factored.
  - apply fx_sum; auto. clear -F nfx_factored. induction F as [|t ts [T S] F IH]; constructor; auto.
  - apply fx_prod; auto. clear -F nfx_factored. induction F as [|t ts [T S] F IH]; constructor; auto.
  - destruct (nform_sum natq c ts A) as (F & L). apply fx_pow; auto. eapply Forall_impl; [|exact F]. intros t. apply (nt0_mono natq c).
Qed.
(** factors of an unexpanded product that are not symbols, powers of symbols or numbers *)
Definition big (t : expr) : Prop :=
  (exists ts, t = ESum ts /\ nform t) \/ (exists ts q, t = EPow (ESum ts) (ERat q) /\ nform (ESum ts) /\ is_sub (ESum ts) = false /\ natq q /\ (2 <= q)%Q).
Lemma big_nfx t : big t -> nfx t /\ is_prod t = false /\ is_rat t = false /\ is_acc t = false /\ simple_base t = false /\ ~ fac natq t.
Proof.
  intros [(ts & -> & A)|(ts & q & -> & A & S & Nq & Q2)]; splits; try reflexivity; try (now constructor);
    intros F; inversion F as [? B|]; subst; inversion B.
Qed.
Lemma nfx_prod_intro l : (2 <= List.length l)%nat -> Forall (fun t => natom t \/ (exists q, t = ERat q /\ lowest q) \/ big t) l ->
  (List.length (rats l) <= 1)%nat -> NoDup (flat_map names (filter simple_base l)) -> Exists big l -> nfx (EProd l).
Proof.
  intros L F R N B. apply nfx_prod; auto.
  - eapply Forall_impl; [|exact F]. intros t [A|[(q & -> & Lq)|Bt]].
    + destruct (natom_shape natq t A) as (P & _). split; auto. apply nfx_nf, nt0_nform. right. exists (1%Q, [t]).
      destruct (natom_term natq c t A). auto.
    + split; [|reflexivity]. apply nfx_nf. now apply nform_rat.
    + destruct (big_nfx t Bt) as (A1 & A2 & _). auto.
  - intros P. exfalso. inversion P as [? M|]; subst. inversion M as [? Fc|? L' F' R' N']; subst; [inversion Fc as [? A|]; subst; inversion A|].
    apply Exists_exists in B as (t & Ht & Bt). rewrite Forall_forall in F'. exact (proj2 (proj2 (proj2 (proj2 (proj2 (big_nfx t Bt))))) (F' t Ht)).
Qed.
(** with a bound on the height, for the recursion depth of expand *)
Definition mfx (e : expr) : Prop := nfx e /\ (height e <= 6)%nat.
Lemma height_list ts k : Forall (fun t => (height t <= k)%nat) ts -> (fold_right Nat.max 0%nat (map height ts) <= k)%nat.
Proof. induction 1 as [|t ts T F IH]; cbn [map fold_right]; lia. Qed.
Lemma height_fac t : fac natq t -> (height t <= 2)%nat.
Proof. intros [a []|]; cbn; lia. Qed.
Lemma height_mono t : mono natq t -> (height t <= 3)%nat.
Proof.
  intros [e F|ts L F R N]; [apply height_fac in F; lia|]. cbn [height]. pose proof (height_list ts 2). assert (Forall (fun t => (height t <= 2)%nat) ts); [|specialize (H H0); lia].
  eapply Forall_impl; [|exact F]. apply height_fac.
Qed.
Lemma height_nform e : nform e -> (height e <= 4)%nat.
Proof.
  intros A. apply (nform_poly natq c) in A. destruct A as [e M|ts L F]; [apply height_mono in M; lia|]. cbn [height].
  pose proof (height_list ts 3). assert (Forall (fun t => (height t <= 3)%nat) ts); [|specialize (H H0); lia].
  eapply Forall_impl; [|exact F]. apply height_mono.
Qed.
Lemma height_big t : big t -> (height t <= 5)%nat.
Proof.
  intros [(ts & -> & A)|(ts & q & -> & A & _)]; pose proof (height_nform _ A); [lia|]. change (height (EPow (ESum ts) (ERat q))) with (S (Nat.max (height (ESum ts)) 1)). lia.
Qed.
Lemma mfx_nf e : nform e -> mfx e.
Proof. intros A. pose proof (height_nform e A). split; [now apply nfx_nf|lia]. Qed.
Lemma mfx_pow ts q : nform (ESum ts) -> is_sub (ESum ts) = false -> natq q -> (2 <= q)%Q -> mfx (EPow (ESum ts) (ERat q)).
Proof. intros A S Nq Q2. assert (B : big (EPow (ESum ts) (ERat q))) by (right; exists ts, q; auto). pose proof (height_big _ B). split; [now apply nfx_pow|lia]. Qed.
Lemma big_mfx t : big t -> mfx t.
Proof. intros B. pose proof (height_big _ B). split; [now apply big_nfx|lia]. Qed.
Lemma mfx_prod_intro l : (2 <= List.length l)%nat -> Forall (fun t => natom t \/ (exists q, t = ERat q /\ lowest q) \/ big t) l ->
  (List.length (rats l) <= 1)%nat -> NoDup (flat_map names (filter simple_base l)) -> Exists big l -> mfx (EProd l).
Proof.
  intros L F R N B. split; [now apply nfx_prod_intro|]. cbn [height]. pose proof (height_list l 5). assert (Forall (fun t => (height t <= 5)%nat) l); [|specialize (H H0); lia].
  eapply Forall_impl; [|exact F]. intros t [A|[(q & -> & _)|A]]; [|cbn; lia|now apply height_big]. destruct (natom_shape natq t A) as (_ & _ & _ & _ & Ft & _). apply height_fac in Ft. lia.
Qed.
Lemma perm_names l s : Permutation l s -> NoDup (flat_map names (filter simple_base l)) -> NoDup (flat_map names (filter simple_base s)).
Proof. intros P. apply Permutation_NoDup. apply Permutation_flat_map. now apply filter_perm. Qed.

(** ** Products whose factors have different bases *)
Lemma prod_unlike n l r : flat_prod l = l -> ForallOrdPairs (unbase2 c) l ->
  (filter is_acc l = [] \/ exists a, filter is_acc l = [ERat a]) -> k_prod (K c (S n)) l = Ok r ->
  (exists a, filter is_acc l = [ERat a] /\ (a == 0)%Q /\ r = ERat a) \/
  exists nc, (nc = nonacc l \/ exists a, filter is_acc l = [ERat a] /\ nc = nonacc l ++ [ERat a]) /\
    ((nc = [] /\ r = ERat 1) \/ nc = [r] \/
     (2 <= List.length nc)%nat /\ exists s, Permutation nc s /\ (r = EProd s \/ exists t us, s = [t; ESum us] /\ op_neg (K c n) (ESum us) = Ok r)).
Proof.
  intros Fl U A. change (K c (S n)) with (build c (K c n)). cbn [build k_prod]. unfold prod_body. rewrite Fl. unfold combine_prod.
  rewrite combine_prod_unlike by auto. cbn [bind]. intros E. apply bind_ok in E as (nc & En & E).
  assert (Fin : (nc = [] /\ r = ERat 1) \/ nc = [r] \/
     (2 <= List.length nc)%nat /\ exists s, Permutation nc s /\ (r = EProd s \/ exists t us, s = [t; ESum us] /\ op_neg (K c n) (ESum us) = Ok r)).
  { clear -E. destruct nc as [|t [|u nc]]; [injection E as <-; auto|injection E as <-; auto|]. right. right. split; [cbn; lia|].
    apply bind_ok in E as (s & Es & E). apply sort_terms_spec in Es as [_ P]. exists s. split; auto.
    destruct s as [|a [|b [|? ?]]]; try (injection E as <-; auto; fail).
    - destruct b; try (injection E as <-; auto; fail). destruct (isq a (-1)); [right; eauto|injection E as <-; auto].
    - destruct b; injection E as <-; auto. }
  destruct A as [A|(a & A)]; rewrite A in En |- *.
  - injection En as <-. right. exists (nonacc l). auto.
  - cbn [acc_prod bind] in En. destruct (isq (ERat a) 0) eqn:E0.
    + injection En as <-. left. exists a. apply isq_rat in E0. injection E as <-. auto.
    + right. exists nc. split; auto. destruct (isq (ERat a) 1); injection En as <-; eauto.
Qed.

Lemma pe_false a b : Agree.plain a = true -> Agree.plain b = true -> eeqb a b = false -> py_eq c a b = Ok false.
Proof. intros A B E. unfold py_eq. now rewrite plain_coin, andb_false_r, E. Qed.
Lemma unbase_intro t u : Agree.plain (fst (decon_pow t)) = true -> Agree.plain (fst (decon_pow u)) = true ->
  eeqb (fst (decon_pow t)) (fst (decon_pow u)) = false -> eeqb (fst (decon_pow u)) (fst (decon_pow t)) = false -> unbase2 c t u.
Proof. intros A B E1 E2. split; now apply pe_false. Qed.
Lemma unbase_sym t u : unbase2 c t u -> unbase2 c u t.
Proof. unfold unbase2. tauto. Qed.
Lemma unbase_natoms l : Forall natom l -> NoDup (flat_map names l) -> ForallOrdPairs (unbase2 c) l.
Proof.
  induction 1 as [|x l A F IH]; intros N; constructor.
  - apply Forall_forall. intros y Hy. rewrite Forall_forall in F. pose proof (F y Hy) as B.
    assert (D : names x <> names y).
    { destruct (atom_name natq x A) as (s & Es). cbn [flat_map] in N. rewrite Es in N |- *. inversion N as [|? ? Nin _]; subst. intros E.
      apply Nin. apply in_flat_map. exists y. split; auto. rewrite <- E. now left. }
    assert (E : forall s t : string, [s] <> [t] -> eeqb (ESym s) (ESym t) = false).
    { intros s t H. cbn. destruct (String.eqb_spec s t); congruence. }
    destruct A, B; cbn in D; apply unbase_intro; cbn [decon_pow fst]; try reflexivity; apply E; congruence.
  - apply IH. cbn [flat_map] in N. destruct (atom_name natq x A) as (s & Es). rewrite Es in N. now inversion N.
Qed.
Lemma big_base b : big b -> exists ts, fst (decon_pow b) = ESum ts /\ nform (ESum ts).
Proof. intros [(ts & -> & A)|(ts & q & -> & A & _)]; exists ts; auto. Qed.
(** the factors of [t], in the order of the code, with a big factor *)
Definition opt_num (o : list expr) : Prop := o = [] \/ exists a, o = [ERat a] /\ lowest a.
Lemma nt0_factors t : nt0 t -> exists o l, flat_prod1 t = o ++ l /\ opt_num o /\ natoms l.
Proof.
  intros [->|([a l] & T & ->)].
  - exists [ERat 0], []. splits; [reflexivity|right; exists 0%Q; split; reflexivity|]. unfold NForm.natoms. splits; [constructor|constructor|apply ordered_nil].
  - pose proof T as (La & H0 & Al). cbn [fst snd] in *. pose proof (natoms_atoms natq l (proj1 Al)) as (Fa & _).
    assert (Fl : flat_prod l = l) by (apply (flat_prod_fac natq); now apply atoms_fac).
    destruct (term_cases a l La) as [(-> & ->)|[(Ne & -> & ->)|(Ne & H1 & ->)]].
    + exists [ERat a], []. splits; [reflexivity|right; eauto|auto].
    + exists [], l. splits; [|now left|auto]. destruct l as [|x [|y l]]; [congruence| |].
      * destruct Al as (F & _). inversion F as [|? ? Ax _]; subst. destruct (natom_shape natq x Ax) as (P & _). destruct x; try reflexivity. discriminate.
      * cbn [flat_prod1]. exact Fl.
    + exists [ERat a], l. splits; [|right; eauto|auto]. cbn [flat_prod1 flat_map app]. unfold flat_prod in Fl. now rewrite Fl.
Qed.
Lemma fop_big b o l : big b -> opt_num o -> natoms l -> ForallOrdPairs (unbase2 c) (b :: o ++ l).
Proof.
  intros B O (F & N & _). destruct (big_base b B) as (ts & Eb & A). pose proof (nform_plain _ A) as P. constructor.
  - apply Forall_app. split.
    + destruct O as [->|(a & -> & La)]; constructor; [|constructor]. apply unbase_intro; rewrite ?Eb; cbn [decon_pow fst]; auto.
    + eapply Forall_impl; [|exact F]. intros x Ax. apply unbase_intro; rewrite ?Eb; destruct Ax; cbn [decon_pow fst]; auto.
  - pose proof (unbase_natoms l F N) as U. destruct O as [->|(a & -> & La)]; auto. cbn [app]. constructor; auto.
    eapply Forall_impl; [|exact F]. intros x Ax. apply unbase_intro; destruct Ax; reflexivity.
Qed.
Lemma natoms_acc l : Forall natom l -> filter is_acc l = [] /\ nonacc l = l /\ rats l = [] /\ filter simple_base l = l.
Proof.
  induction 1 as [|x l A F (I1 & I2 & I3 & I4)]; auto. unfold nonacc, rats in *. cbn [filter].
  destruct (natom_shape natq x A) as (_ & _ & -> & -> & _). cbn [negb]. rewrite I1, I2, I3, I4. destruct A; auto.
Qed.
Lemma big_list b o l0 l : big b -> opt_num o -> natoms l0 -> Permutation (b :: o ++ l0) l ->
  flat_prod l = l /\ ForallOrdPairs (unbase2 c) l /\ filter is_acc l = o /\ Permutation (b :: l0) (nonacc l).
Proof.
  intros B O A P. pose proof A as (F & N & _). destruct (big_nfx b B) as (_ & Pb & Rb & Ab & Sb & _). destruct (natoms_acc l0 F) as (I1 & I2 & I3 & I4). splits.
  - apply flat_prod_id. apply forallb_forall. intros x Hx. apply (Permutation_in x (Permutation_sym P)) in Hx. destruct Hx as [<-|Hx]; [now rewrite Pb|].
    apply in_app_iff in Hx as [Hx|Hx]; [destruct O as [->|(a & -> & La)]; [destruct Hx|destruct Hx as [<-|[]]; reflexivity]|].
    rewrite Forall_forall in F. destruct (natom_shape natq x (F x Hx)) as (-> & _). reflexivity.
  - eapply ForallOrdPairs_perm; [exact unbase_sym|exact P|now apply fop_big].
  - pose proof (filter_perm is_acc _ _ P) as Q. cbn [filter] in Q. rewrite Ab, filter_app, I1, app_nil_r in Q.
    assert (E : filter is_acc o = o) by (destruct O as [->|(a & -> & La)]; reflexivity). rewrite E in Q.
    destruct O as [->|(a & -> & La)]; [now apply Permutation_nil in Q|]. now apply Permutation_length_1_inv in Q.
  - pose proof (filter_perm (fun t => negb (is_acc t)) _ _ P) as Q. fold (nonacc l) in Q. rewrite <- Q. cbn [filter]. rewrite Ab. cbn [negb].
    rewrite filter_app. fold (nonacc o) (nonacc l0). rewrite I2. assert (E : nonacc o = []) by (destruct O as [->|(a & -> & La)]; reflexivity).
    rewrite E. reflexivity.
Qed.
Lemma big_sorted b l0 x s : big b -> natoms l0 -> opt_num x -> (2 <= List.length (b :: l0 ++ x))%nat -> Permutation (b :: l0 ++ x) s -> mfx (EProd s).
Proof.
  intros B A O L P. pose proof A as (F & N & _). destruct (big_nfx b B) as (_ & Pb & Rb & Ab & Sb & _). destruct (natoms_acc l0 F) as (I1 & I2 & I3 & I4).
  apply mfx_prod_intro.
  - now rewrite <- (Permutation_length P).
  - eapply Permutation_Forall; [exact P|]. constructor; [auto|]. apply Forall_app. split; [eapply Forall_impl; [|exact F]; auto|].
    destruct O as [->|(a & -> & La)]; constructor; [right; left; eauto|constructor].
  - rewrite <- (rats_perm _ _ P). unfold rats. cbn [filter]. rewrite Rb, filter_app. fold (rats l0). rewrite I3. cbn [app].
    destruct O as [->|(a & -> & La)]; cbn; lia.
  - eapply perm_names; [exact P|]. cbn [filter]. rewrite Sb, filter_app, I4. assert (E : filter simple_base x = []) by (destruct O as [->|(a & -> & La)]; reflexivity).
    now rewrite E, app_nil_r.
  - apply Exists_exists. exists b. split; auto. eapply Permutation_in; [exact P|now left].
Qed.
Lemma prod_big n b o l0 l r : big b -> opt_num o -> natoms l0 -> Permutation (b :: o ++ l0) l -> k_prod (K c (S n)) l = Ok r -> mfx r.
Proof.
  intros B O A P E. destruct (big_list b o l0 l B O A P) as (Fl & U & Fa & Pn).
  assert (O' : filter is_acc l = [] \/ exists a, filter is_acc l = [ERat a]) by (rewrite Fa; destruct O as [->|(a & -> & La)]; eauto).
  destruct (prod_unlike n l r Fl U O' E) as [(a & Ea & Z & ->)|(nc & Hn & H)].
  - rewrite Fa in Ea. destruct O as [->|(a' & -> & La)]; [discriminate|]. injection Ea as ->. apply mfx_nf. now apply nform_rat.
  - assert (Pc : exists x, opt_num x /\ Permutation (b :: l0 ++ x) nc).
    { destruct Hn as [->|(a & Ea & ->)]; [exists []; rewrite app_nil_r; split; auto; now left|]. exists [ERat a]. rewrite Fa in Ea.
      destruct O as [->|(a' & -> & La)]; [discriminate|]. injection Ea as ->. split; [right; eauto|].
      change (b :: l0 ++ [ERat a]) with ((b :: l0) ++ [ERat a]). now apply Permutation_app_tail. }
    destruct Pc as (x & Ox & Px). destruct H as [(-> & ->)|[->|(L & s & Ps & H)]].
    + apply Permutation_sym, Permutation_nil in Px. discriminate.
    + apply Permutation_sym, Permutation_length_1_inv in Px. injection Px as <- _. now apply big_mfx.
    + rewrite Ps in Px. destruct H as [->|(t & us & -> & En)].
      * eapply big_sorted; eauto. rewrite (Permutation_length Px), <- (Permutation_length Ps). auto.
      * apply mfx_nf. eapply (op_neg_nf natq natq_qeq natq_add N1 c); [|exact En].
        assert (Hi : In (ESum us) (b :: l0 ++ x)) by (eapply Permutation_in; [symmetry; exact Px|right; now left]).
        destruct Hi as [Hb|Hi]; [destruct B as [(ts & -> & B)|(ts & q & -> & _)]; [congruence|discriminate]|].
        exfalso. apply in_app_iff in Hi as [Hi|Hi]; [destruct A as (F & _); rewrite Forall_forall in F; specialize (F _ Hi); inversion F|].
        destruct Ox as [->|(a & -> & La)]; [destruct Hi|destruct Hi as [Hi|[]]; discriminate].
Qed.

(** ** Powers of sums *)
Lemma pow_nsub n us q : is_sub (ESum us) = false -> natq q -> (2 <= q)%Q -> k_pow (K c (S n)) (ESum us) (ERat q) = Ok (EPow (ESum us) (ERat q)).
Proof.
  intros S Nq Q2. change (K c (Datatypes.S n)) with (build c (K c n)). cbn [build k_pow]. unfold pow_body.
  rewrite (proj2 (isq_rat_f q 0)), (proj2 (isq_rat_f q 1)).
  - change (isq (ESum us) 1) with false. cbn [is_acc andb is_prod]. unfold pow_tail. now rewrite S.
  - intros E. rewrite E in Q2. compute in Q2. congruence.
  - intros E. rewrite E in Q2. compute in Q2. congruence.
Qed.
Lemma neg_pow n us q r : nform (ESum us) -> is_sub (ESum us) = false -> natq q -> (2 <= q)%Q -> op_neg (K c (S n)) (EPow (ESum us) (ERat q)) = Ok r -> mfx r.
Proof.
  intros A S Nq Q2 E. change (k_prod (K c (Datatypes.S n)) [ERat (-1); EPow (ESum us) (ERat q)] = Ok r) in E. revert E.
  apply (prod_big n (EPow (ESum us) (ERat q)) [ERat (-1)] []).
  - right. exists us, q. auto.
  - right. exists (-1)%Q. split; reflexivity.
  - unfold NForm.natoms. splits; [constructor|constructor|apply ordered_nil].
  - cbn [app]. constructor.
Qed.
Theorem pow_sum n ts q r : nform (ESum ts) -> natq q -> lowest q -> (2 <= q)%Q -> k_pow (K c n) (ESum ts) (ERat q) = Ok r -> mfx r.
Proof.
  intros A Nq Lq Q2 H. pose proof (rle_ok _ _ _ (le_pow _ _ (K_mono c c n (3 + n) (cle_refl c) ltac:(lia)) _ _) H) as E. clear H.
  destruct (is_sub (ESum ts)) eqn:S.
  - revert E. change (K c (3 + n)) with (build c (K c (2 + n))). cbn [build k_pow]. unfold pow_body.
    rewrite (proj2 (isq_rat_f q 0)), (proj2 (isq_rat_f q 1)); [|intros E; rewrite E in Q2; compute in Q2; congruence..].
    change (isq (ESum ts) 1) with false. cbn [is_acc andb is_prod]. unfold pow_tail. rewrite S, (proj1 Nq). cbn [andb].
    intros E. apply bind_ok in E as (nb & En & E). pose proof (op_neg_nf natq natq_qeq natq_add N1 c _ _ _ A En) as Nb.
    pose proof (neg_not_sub _ _ _ A S En) as Sb. destruct (is_sum nb) eqn:Is.
    + destruct nb as [| | | | | | |us| | | | |]; try discriminate.
      change (k_pow (K c (2 + n)) (ESum us) (ERat q)) with (k_pow (K c (Datatypes.S (1 + n))) (ESum us) (ERat q)) in E. rewrite pow_nsub in E by auto. cbn [bind] in E.
      destruct (Z.even (numer q)); [injection E as <-; now apply mfx_pow|]. exact (neg_pow (1 + n) us q r Nb Sb Nq Q2 E).
    + pose proof (nform_nt0 natq c nb Nb Is) as Tb. apply mfx_nf, nt0_nform.
      destruct (Z.even (numer q)); [exact (k_pow_nt c _ nb q r Nq Lq Tb E)|]. apply bind_ok in E as (p & Ep & E).
      eapply (op_neg_nt natq natq_qeq natq_add N1 c); [|exact E]. exact (k_pow_nt c _ nb q p Nq Lq Tb Ep).
  - change (3 + n)%nat with (Datatypes.S (2 + n)) in E. rewrite pow_nsub in E by auto. injection E as <-. now apply mfx_pow.
Qed.
Theorem op_pow_nfx n e q r : nform e -> natq q -> lowest q -> op_pow (K c n) e (ERat q) = Ok r -> mfx r.
Proof.
  intros A Nq Lq. assert (G : k_pow (K c n) e (ERat q) = Ok r -> mfx r).
  { destruct (is_sum e) eqn:S.
    - destruct e as [| | | | | | |ts| | | | |]; try discriminate. destruct (Qlt_le_dec q 2) as [Q|Q]; [|now apply pow_sum].
      intros E. destruct n as [|n]; [discriminate|]. cbn [K build k_pow] in E. unfold pow_body in E.
      assert (D : (q == 0)%Q \/ (q == 1)%Q).
      { destruct (natq_is q Nq) as (Eq & Hq). rewrite Eq in Q |- *. unfold Qlt in Q. cbn in Q. assert (numer q = 0 \/ numer q = 1) as [->| ->] by lia; [left|right]; reflexivity. }
      destruct D as [D|D].
      + rewrite (proj2 (isq_rat q 0) D) in E. injection E as <-. apply mfx_nf, nform_rat. reflexivity.
      + rewrite (proj2 (isq_rat_f q 0)), (proj2 (isq_rat q 1) D) in E; [injection E as <-; now apply mfx_nf|]. rewrite D. discriminate.
    - intros E. apply mfx_nf, nt0_nform. exact (k_pow_nt c n e q r Nq Lq (nform_nt0 natq c e A S) E). }
  unfold op_pow. destruct e; auto. destruct (qis0 q0 && qlt0 q); [discriminate|]. destruct (qisint q); auto.
  intros E. injection E as <-. apply mfx_nf, nform_rat, lowest_red.
Qed.

(** ** Products *)
Lemma mul_sums n ts us r : nform (ESum ts) -> nform (ESum us) -> k_prod (K c (S n)) [ESum ts; ESum us] = Ok r -> mfx r.
Proof.
  intros A B. pose proof (nform_plain _ A) as Pa. pose proof (nform_plain _ B) as Pb.
  destruct (eeqb (ESum us) (ESum ts)) eqn:E.
  - change (K c (S n)) with (build c (K c n)). cbn [build k_prod]. unfold prod_body.
    change (flat_prod [ESum ts; ESum us]) with [ESum ts; ESum us]. unfold combine_prod. cbn [List.length combine_prod_go decon_pow split_base].
    unfold py_eq. rewrite plain_coin, andb_false_r, E by auto. cbn [bind op_add split_base].
    change (isq (rat (1 + 1)) 0) with false. change (isq (rat (1 + 1)) 1) with false. cbv iota. intros H.
    apply bind_ok in H as (nc & Hn & H). apply bind_ok in Hn as ([nc0 cs] & Hp & Hn). apply bind_ok in Hp as (p & Ep & Hp).
    assert (Np : mfx p).
    { apply (pow_sum n ts (Qred (1 + 1)) p A); [split; [reflexivity|discriminate]|apply lowest_red|discriminate|exact Ep]. }
    cbn [combine_prod_go bind] in Hp. unfold add_term in Hp. cbn [fst snd] in Hp. destruct (is_acc p); injection Hp as <- <-.
    + cbn [acc_prod bind] in Hn. destruct (isq p 0); [injection Hn as <-; injection H as <-; auto|].
      destruct (isq p 1); injection Hn as <-; injection H as <-; auto. apply mfx_nf, nform_rat. reflexivity.
    + injection Hn as <-. injection H as <-. auto.
  - intros H.
    assert (E' : eeqb (ESum ts) (ESum us) = false).
    { apply Bool.not_true_is_false. intros Q. assert (NF : forall e, Agree.plain e = true -> no_float e) by apply plain_nofloat.
      apply c40_eq_is_identity in Q; auto. rewrite Q, eeqb_refl in E. discriminate. }
    assert (U : ForallOrdPairs (unbase2 c) [ESum ts; ESum us]).
    { constructor; [|repeat constructor]. constructor; [|constructor]. now apply unbase_intro. }
    destruct (prod_unlike n [ESum ts; ESum us] r eq_refl U (or_introl eq_refl) H) as [(a & Ea & _)|(nc & Hn & H')]; [discriminate|].
    destruct Hn as [->|(a & Ea & _)]; [|discriminate]. change (nonacc [ESum ts; ESum us]) with [ESum ts; ESum us] in H'.
    destruct H' as [(Q & _)|[Q|(L & s & P & [->|(t & vs & -> & En)])]]; try discriminate.
    + apply mfx_prod_intro.
      * now rewrite <- (Permutation_length P).
      * eapply Permutation_Forall; [exact P|]. constructor; [|constructor; [|constructor]]; right; right; left; eauto.
      * rewrite <- (rats_perm _ _ P). cbn. lia.
      * eapply perm_names; [exact P|]. constructor.
      * apply Exists_exists. exists (ESum ts). split; [eapply Permutation_in; [exact P|now left]|left; eauto].
    + apply mfx_nf. eapply (op_neg_nf natq natq_qeq natq_add N1 c); [|exact En].
      assert (Hi : In (ESum vs) [ESum ts; ESum us]) by (eapply Permutation_in; [symmetry; exact P|right; now left]).
      destruct Hi as [<-|[<-|[]]]; auto.
Qed.
Theorem op_mul_nfx n a b r : nform a -> nform b -> op_mul (K c n) a b = Ok r -> mfx r.
Proof.
  intros A B. assert (G : k_prod (K c n) [a; b] = Ok r -> mfx r).
  { destruct n as [|n]; [discriminate|]. destruct (is_sum a) eqn:Sa, (is_sum b) eqn:Sb.
    - destruct a; try discriminate. destruct b; try discriminate. now apply mul_sums.
    - pose proof (nform_nt0 natq c b B Sb) as T. destruct (nt0_factors b T) as (o & l & E & O & Al).
      assert (Fl : flat_prod [a; b] = a :: o ++ l).
      { unfold flat_prod. cbn [flat_map]. rewrite app_nil_r, E. destruct a; try discriminate. reflexivity. }
      intros H. assert (Bb : big a) by (destruct a; try discriminate; left; eauto).
      apply (prod_big n a o l (a :: o ++ l)); auto. rewrite <- H. cbn [K build k_prod]. unfold prod_body. rewrite Fl.
      now rewrite (proj1 (big_list a o l (a :: o ++ l) Bb O Al (Permutation_refl _))).
    - pose proof (nform_nt0 natq c a A Sa) as T. destruct (nt0_factors a T) as (o & l & E & O & Al).
      assert (Fl : flat_prod [a; b] = (o ++ l) ++ [b]).
      { unfold flat_prod. cbn [flat_map]. rewrite app_nil_r, E. destruct b; try discriminate. reflexivity. }
      intros H. assert (Bb : big b) by (destruct b; try discriminate; left; eauto).
      assert (P : Permutation (b :: o ++ l) ((o ++ l) ++ [b])) by apply Permutation_cons_append.
      apply (prod_big n b o l ((o ++ l) ++ [b])); auto. rewrite <- H. cbn [K build k_prod]. unfold prod_body. rewrite Fl.
      now rewrite (proj1 (big_list b o l _ Bb O Al P)).
    - intros H. apply mfx_nf, nt0_nform. eapply (k_prod_nt natq natq_qeq natq_add N1 c); [|exact H].
      constructor; [now apply nform_nt0|]. constructor; [now apply nform_nt0|constructor]. }
  unfold op_mul. destruct a, b; auto. intros E. injection E as <-. apply mfx_nf, nform_rat, lowest_red.
Qed.
End Sums.
