(** * Frag: the constructors are total on generalised polynomials.

    A monomial is a product of a rational number and rational powers of distinct symbols, a
    polynomial a sum of monomials.  On these the plain constructors (any float oracle, strict or
    not) return, they do not raise, loop or leave the model, and the result is again a monomial or
    a polynomial.  [X] selects the allowed exponents. *)
From Verif Require Export Atoms.
From Coq Require Import Lqa Qpower.
Open Scope Z_scope.

(** ** Specification: monomials and polynomials *)
Section Spec.
Context (X : Q -> Prop).
Inductive atom : expr -> Prop :=
| at_sym s : s <> ""%string -> atom (ESym s)
| at_pow s q : s <> ""%string -> X q -> ~ (q == 0)%Q -> atom (EPow (ESym s) (ERat q)).
Inductive fac : expr -> Prop :=
| fac_at a : atom a -> fac a
| fac_rat q : fac (ERat q).
Definition rats (l : list expr) : list expr := filter is_rat l.
Inductive mono : expr -> Prop :=
| mono_fac e : fac e -> mono e
| mono_prod ts : (2 <= List.length ts)%nat -> Forall fac ts -> (List.length (rats ts) <= 1)%nat ->
    NoDup (flat_map names ts) -> mono (EProd ts).
Inductive poly : expr -> Prop :=
| poly_mono e : mono e -> poly e
| poly_sum ts : (2 <= List.length ts)%nat -> Forall mono ts -> poly (ESum ts).
End Spec.

(** the rational coefficient *)
Definition ratval (e : expr) : Q := match e with ERat q => q | _ => 1%Q end.
Fixpoint ratprod (l : list expr) : Q :=
  match l with [] => 1%Q | t :: r => (ratval t * ratprod r)%Q end.
Definition coef (e : expr) : Q := match e with ERat q => q | EProd ts => ratprod ts | _ => 1%Q end.

Lemma ratprod_app l m : (ratprod (l ++ m) == ratprod l * ratprod m)%Q.
Proof. induction l as [|a l IH]; simpl; [ring|]. rewrite IH. ring. Qed.

Lemma isq_rat p q : isq (ERat p) q = true <-> (p == q)%Q.
Proof. unfold isq. apply Qeq_bool_iff. Qed.
Lemma isq_rat_f p q : isq (ERat p) q = false <-> ~ (p == q)%Q.
Proof. rewrite <- isq_rat. destruct (isq (ERat p) q); split; congruence. Qed.
Lemma qeqb_eq p q : qeqb p q = true -> p = q.
Proof.
  unfold qeqb. intros H. apply andb_prop in H as [A B]. apply Z.eqb_eq in A. apply Pos.eqb_eq in B.
  destruct p, q; simpl in *; congruence.
Qed.
Lemma qred_red q : Qred (Qred q) = Qred q.
Proof. apply Qred_complete, Qred_correct. Qed.
Lemma numer_qeq p q : (p == q)%Q -> numer p = numer q.
Proof. intros H. unfold numer. now rewrite (Qred_complete _ _ H). Qed.
Lemma denom_qeq p q : (p == q)%Q -> denom p = denom q.
Proof. intros H. unfold denom. now rewrite (Qred_complete _ _ H). Qed.
Lemma qisint_qeq p q : (p == q)%Q -> qisint p = qisint q.
Proof. intros H. unfold qisint. now rewrite (denom_qeq _ _ H). Qed.
Lemma qsgn_qeq p q : (p == q)%Q -> Z.sgn (Qnum p) = Z.sgn (Qnum q).
Proof. unfold Qeq. destruct p as [a b], q as [d e]; simpl. intros H. nia. Qed.
Lemma qlt0_iff q : qlt0 q = true <-> (q < 0)%Q.
Proof. unfold qlt0, Qlt. simpl. rewrite Z.ltb_lt. lia. Qed.
Lemma qlt0_f q : qlt0 q = false <-> (0 <= q)%Q.
Proof. unfold qlt0, Qle. simpl. rewrite Z.ltb_ge. lia. Qed.
Lemma qgt0_iff q : qgt0 q = true <-> (0 < q)%Q.
Proof. unfold qgt0, Qlt. simpl. rewrite Z.ltb_lt. lia. Qed.
Lemma qis0_iff q : qis0 q = true <-> (q == 0)%Q.
Proof. apply Qeq_bool_iff. Qed.
Lemma numer_int q : qisint q = true -> (q == inject_Z (numer q))%Q.
Proof.
  unfold qisint, denom, numer. intros H. apply Z.eqb_eq in H. rewrite <- (Qred_correct q) at 1.
  destruct (Qred q) as [a b]. simpl in *. unfold Qeq, inject_Z. simpl. assert (b = 1%positive) by lia. subst. lia.
Qed.

(** ** Numbers only *)
Section Num.
Context (c : cfg) (k : kern).

Lemma int_pow_int a q : qisint q = true -> int_pow c a (Qabs q) = Some (a ^ Z.abs (numer q)).
Proof.
  intros H. unfold int_pow. assert (E : (Qabs q == inject_Z (Z.abs (numer q)))%Q).
  { rewrite (numer_int _ H) at 1. reflexivity. }
  rewrite (qisint_qeq _ _ E), (numer_qeq _ _ E), RealLemmas.qisint_inject, RealLemmas.numer_inject. auto.
Qed.
Lemma numden_q p : (p == inject_Z (numer p) / inject_Z (denom p))%Q.
Proof.
  unfold numer, denom. rewrite <- (Qred_correct p) at 1. destruct (Qred p) as [a b]. cbn [Qnum Qden].
  rewrite Qmake_Qdiv. reflexivity.
Qed.
Lemma numer_0 p : numer p = 0 -> (p == 0)%Q.
Proof. intros H. rewrite (numden_q p), H. unfold Qdiv. change (inject_Z 0) with 0%Q. ring. Qed.
Lemma numer_sgn p : Z.sgn (numer p) = Z.sgn (Qnum p).
Proof. unfold numer. apply qsgn_qeq, Qred_correct. Qed.
Lemma inj0 a : ~ (inject_Z a == 0)%Q -> a <> 0.
Proof. intros H ->. now apply H. Qed.
Lemma inj_pow_abs a z : (inject_Z (a ^ Z.abs z) == inject_Z a ^ Z.abs z)%Q.
Proof. apply Zpower_Qpower. lia. Qed.

(** a rational to a non-zero integer power (no 0 to a negative power) *)
Lemma acc_pow_int p q : qisint q = true -> ~ (q == 0)%Q -> ((p == 0)%Q -> (0 < q)%Q) ->
  exists r, acc_pow c k (ERat p) (ERat q) = Ok (Some (ERat r)) /\ (r == p ^ numer q)%Q.
Proof.
  intros Hi H0 Hp. unfold acc_pow. pose proof (numer_int _ Hi) as Eq.
  destruct (qis0 p) eqn:E0.
  - apply qis0_iff in E0. specialize (Hp E0). rewrite (proj2 (qgt0_iff q) Hp). exists 0%Q. split; auto.
    rewrite E0. symmetry. apply Qpower_0. intros E. rewrite E in Eq. rewrite Eq in Hp. discriminate.
  - assert (N0 : ~ (p == 0)%Q) by (intros E; apply qis0_iff in E; congruence).
    rewrite !int_pow_int by auto.
    assert (Na : numer p <> 0) by (intros E; apply N0; now apply numer_0).
    pose proof (RealLemmas.denom_pos p) as Pd.
    destruct (qgt0 q) eqn:G.
    + exists (Qred (inject_Z (numer p ^ Z.abs (numer q)) / inject_Z (denom p ^ Z.abs (numer q)))). split; auto.
      rewrite Qred_correct, !inj_pow_abs. apply qgt0_iff in G.
      assert (Z.abs (numer q) = numer q) as ->.
      { apply Z.abs_eq. rewrite Eq in G. unfold Qlt in G. simpl in G. lia. }
      rewrite <- Qdiv_power, <- numden_q. reflexivity.
    + exists (Qred (inject_Z (denom p ^ Z.abs (numer q)) / inject_Z (numer p ^ Z.abs (numer q)))). split; auto.
      rewrite Qred_correct, !inj_pow_abs.
      assert (L : numer q < 0).
      { assert (~ (0 < q)%Q) by (intros E; apply qgt0_iff in E; congruence).
        assert (numer q <> 0) by (intros E; apply H0; rewrite Eq, E; reflexivity).
        rewrite Eq in H. unfold Qlt in H. simpl in H. lia. }
      assert (Z.abs (numer q) = - numer q) as -> by lia.
      rewrite <- Qdiv_power, Qpower_opp, <- Qinv_power.
      assert (E : (/ (inject_Z (denom p) / inject_Z (numer p)) == p)%Q).
      { rewrite (numden_q p) at 3. unfold Qdiv. rewrite Qinv_mult_distr, Qinv_involutive. ring. }
      now rewrite E.
Qed.
Lemma pow_body_int p q : qisint q = true -> ((p == 0)%Q -> (0 <= q)%Q) ->
  exists r, pow_body c k (ERat p) (ERat q) = Ok (ERat r) /\ (r == p ^ numer q)%Q.
Proof.
  intros Hi Hp. unfold pow_body.
  destruct (isq (ERat q) 0) eqn:E0.
  { exists 1%Q. split; auto. apply isq_rat in E0. rewrite (numer_qeq _ _ E0). reflexivity. }
  destruct (isq (ERat q) 1) eqn:E1.
  { exists p. split; auto. apply isq_rat in E1. rewrite (numer_qeq _ _ E1). change (numer 1) with 1. rewrite Qpower_1_r. reflexivity. }
  destruct (isq (ERat p) 1) eqn:E2.
  { exists 1%Q. split; auto. apply isq_rat in E2. rewrite E2, Qpower_1. reflexivity. }
  cbn [is_acc andb]. apply isq_rat_f in E0.
  destruct (acc_pow_int p q Hi E0) as (r & -> & Hr).
  { intros E. specialize (Hp E). destruct (Qlt_le_dec 0 q); auto. exfalso. apply E0. apply Qle_antisym; auto. }
  exists r. auto.
Qed.

(** sums *)
Definition ratsum (l : list expr) : Q := fold_right (fun t r => (ratval t + r)%Q) 0%Q l.
Lemma foldM_val_add l : Forall (fun t => is_rat t = true) l -> forall a,
  exists r, foldM val_add l (ERat a) = Ok (ERat r) /\ (r == a + ratsum l)%Q.
Proof.
  induction 1 as [|t l Ht _ IH]; intros a; simpl.
  - exists a. split; auto. ring.
  - destruct t; try discriminate. destruct (IH (Qred (a + q))) as (r & E & Hr). exists r. split; auto.
    rewrite Hr, Qred_correct. simpl. ring.
Qed.
Lemma foldM_val_mul l : Forall (fun t => is_rat t = true) l -> forall a,
  exists r, foldM val_mul l (ERat a) = Ok (ERat r) /\ (r == a * ratprod l)%Q.
Proof.
  induction 1 as [|t l Ht _ IH]; intros a; simpl.
  - exists a. split; auto. ring.
  - destruct t; try discriminate. destruct (IH (Qred (a * q))) as (r & E & Hr). exists r. split; auto.
    rewrite Hr, Qred_correct. simpl. ring.
Qed.
Lemma acc_sum_rats l : Forall (fun t => is_rat t = true) l ->
  exists r, acc_sum l = Ok (ERat r) /\ (r == ratsum l)%Q.
Proof.
  intros H. destruct (foldM_val_add l H 0%Q) as (r & E & Hr). unfold acc_sum.
  destruct l as [|t [|u l]]; try (exists r; split; auto; rewrite Hr; ring).
  inversion H; subst. destruct t; try discriminate. exists q. split; auto. simpl. ring.
Qed.
Lemma acc_prod_rats l : Forall (fun t => is_rat t = true) l ->
  exists r, acc_prod l = Ok (ERat r) /\ (r == ratprod l)%Q.
Proof.
  intros H. destruct (foldM_val_mul l H 1%Q) as (r & E & Hr). unfold acc_prod.
  destruct l as [|t [|u l]]; try (exists r; split; auto; rewrite Hr; ring).
  inversion H; subst. destruct t; try discriminate. exists q. split; auto. simpl. ring.
Qed.
End Num.

(** ** Products of factors *)
Section Fac.
Context (X : Q -> Prop) (XC : forall p q, (p == q)%Q -> X p -> X q) (XA : forall p q, X p -> X q -> X (p + q)%Q) (X1 : X 1%Q).
Notation atom := (atom X). Notation fac := (fac X). Notation mono := (mono X). Notation poly := (poly X).
Hint Constructors Frag.atom Frag.fac Frag.mono Frag.poly : core.

(** [cs_eqb] on factors never meets a coincidence *)
Lemma fac_base t : fac t -> (exists s q, decon_pow t = (ESym s, ERat q) /\ names t = [s] /\ X q /\ is_rat t = false /\ ratval t = 1%Q /\ s <> ""%string) \/
  (exists q, t = ERat q).
Proof. intros [a [s Hs|s q Hs Hq H0]|q]; [left; exists s, 1%Q|left; exists s, q|right]; simpl; eauto 10. Qed.

Lemma split_base_sym c k s p l : X p -> Forall fac l ->
  exists h p' rest, split_base c k (ESym s) (ERat p) l = Ok (h, ERat p', rest) /\ X p' /\ Forall fac rest /\
    (ratprod rest == ratprod l)%Q /\ (List.length rest <= List.length l)%nat /\ ~ In s (flat_map names rest) /\
    incl (flat_map names rest) (flat_map names l) /\ (NoDup (flat_map names l) -> NoDup (flat_map names rest)).
Proof.
  intros Hp H. revert p Hp. induction H as [|t l Ht Hl IH]; intros p Hp.
  - exists false, p, []. simpl. repeat split; auto; try (intros []; fail); try reflexivity. intros x [].
  - cbn [split_base]. destruct (fac_base t Ht) as [(s' & q & E & En & Xq & Hr & Hv & Hne)|(q & ->)].
    + rewrite E. unfold py_eq. cbn [coin]. rewrite andb_false_r. cbn [bind eeqb].
      destruct (String.eqb s' s) eqn:Es.
      * cbn [op_add bind]; unfold rat. destruct (IH (Qred (p + q))) as (h & p' & rest & -> & H1 & H2 & H3 & H4 & H5 & H6 & H7).
        { eapply XC; [symmetry; apply Qred_correct|]. auto. }
        exists true, p', rest. cbn [bind ratprod List.length flat_map]. rewrite Hv, En. repeat split; auto.
        -- rewrite H3. ring.
        -- intros x Hx. right. auto.
        -- intros N. simpl in N. inversion N; auto.
      * destruct (IH p Hp) as (h & p' & rest & -> & H1 & H2 & H3 & H4 & H5 & H6 & H7).
        exists h, p', (t :: rest). cbn [bind ratprod List.length flat_map]. rewrite En. repeat split; auto.
        -- now rewrite H3.
        -- lia.
        -- simpl. intros [->|Hs]; [now rewrite String.eqb_refl in Es|auto].
        -- apply incl_app_app; auto. apply incl_refl.
        -- simpl. intros N. inversion N; subst. constructor; auto.
    + cbn [decon_pow py_eq]. unfold py_eq. cbn [coin]. rewrite andb_false_r. cbn [bind eeqb].
      destruct (IH p Hp) as (h & p' & rest & -> & H1 & H2 & H3 & H4 & H5 & H6 & H7).
      exists h, p', (ERat q :: rest). cbn [bind ratprod List.length flat_map names app]. repeat split; auto.
      * now rewrite H3.
      * lia.
Qed.

Lemma split_base_rat c k q l : Forall fac l -> forall p, qisint p = true -> (0 < p)%Q ->
  exists h p' rest, split_base c k (ERat q) (ERat p) l = Ok (h, ERat p', rest) /\ qisint p' = true /\ (p <= p')%Q /\
    (q ^ numer p' * ratprod rest == q ^ numer p * ratprod l)%Q /\ Forall fac rest /\
    (List.length rest <= List.length l)%nat /\ flat_map names rest = flat_map names l /\
    (h = false -> p' = p).
Proof.
  induction 1 as [|t l Ht Hl IH]; intros p Hi Hp.
  - exists false, p, []. simpl. repeat split; auto; try lra.
  - cbn [split_base]. destruct (fac_base t Ht) as [(s' & q' & E & En & Xq & Hr & Hv & Hne)|(q' & ->)].
    + rewrite E. unfold py_eq. cbn [coin]. rewrite andb_false_r. cbn [bind eeqb].
      destruct (IH p Hi Hp) as (h & p' & rest & -> & H1 & H2 & H3 & H4 & H5 & H6 & H7).
      exists h, p', (t :: rest). cbn [bind ratprod List.length flat_map]. rewrite Hv, En, H6. repeat split; auto; try lia.
      rewrite !Qmult_1_l. exact H3.
    + cbn [decon_pow]. unfold py_eq. cbn [coin]. rewrite andb_false_r. cbn [bind eeqb].
      destruct (qeqb q' q) eqn:E.
      * apply qeqb_eq in E. subst q'. cbn [op_add bind]; unfold rat.
        assert (Ei : (Qred (p + 1) == inject_Z (numer p + 1))%Q).
        { rewrite Qred_correct, inject_Z_plus. rewrite (numer_int _ Hi) at 1. reflexivity. }
        assert (P1 : (0 < Qred (p + 1))%Q) by (rewrite Qred_correct; lra).
        destruct (IH (Qred (p + 1))) as (h & p' & rest & -> & H1 & H2 & H3 & H4 & H5 & H6 & H7); auto.
        { rewrite (qisint_qeq _ _ Ei). apply RealLemmas.qisint_inject. }
        exists true, p', rest. cbn [bind ratprod ratval List.length flat_map names app]. repeat split; auto.
        -- rewrite Qred_correct in H2. lra.
        -- rewrite H3. rewrite (numer_qeq _ _ Ei), RealLemmas.numer_inject.
           assert (Pn : 0 < numer p). { rewrite (numer_int _ Hi) in Hp. unfold Qlt in Hp. simpl in Hp. lia. }
           destruct (Qeq_dec q 0) as [Z|Z].
           ++ rewrite Z. rewrite !Qpower_0 by lia. ring.
           ++ rewrite Qpower_plus by auto. rewrite Qpower_1_r. ring.
        -- discriminate.
      * destruct (IH p Hi Hp) as (h & p' & rest & -> & H1 & H2 & H3 & H4 & H5 & H6 & H7).
        exists h, p', (ERat q' :: rest). cbn [bind ratprod ratval List.length flat_map names app]. repeat split; auto; try lia.
        transitivity (q' * (q ^ numer p' * ratprod rest))%Q; [ring|]. rewrite H3. ring.
Qed.

Lemma rat_is t : is_rat t = true -> exists q, t = ERat q.
Proof. destruct t; try discriminate. eauto. Qed.
Lemma k_pow_sym c n s q : k_pow (K c (S n)) (ESym s) (ERat q) =
  if Qeq_bool q 0 then Ok (ERat 1) else if Qeq_bool q 1 then Ok (ESym s) else Ok (EPow (ESym s) (ERat q)).
Proof. reflexivity. Qed.
Lemma k_pow_int c n p q : qisint q = true -> ((p == 0)%Q -> (0 <= q)%Q) ->
  exists r, k_pow (K c (S n)) (ERat p) (ERat q) = Ok (ERat r) /\ (r == p ^ numer q)%Q.
Proof. intros. apply pow_body_int; auto. Qed.

Lemma combine_prod_go_fac c n : forall f l, Forall fac l -> (List.length l <= f)%nat ->
  exists nc cs, combine_prod_go c (K c (S n)) f l = Ok (nc, cs) /\ Forall atom nc /\
    Forall (fun t => is_rat t = true) cs /\ (ratprod cs == ratprod l)%Q /\
    NoDup (flat_map names nc) /\ incl (flat_map names nc) (flat_map names l).
Proof.
  induction f as [|f IH]; intros l Hl Hf.
  - destruct l; simpl in Hf; [|lia]. exists [], []. simpl. repeat split; auto; try constructor. apply incl_refl.
  - destruct l as [|t l]; [exists [], []; simpl; repeat split; auto; try constructor; apply incl_refl|].
    inversion Hl as [|? ? Ht Hl']; subst. cbn [combine_prod_go]. simpl in Hf.
    destruct (fac_base t Ht) as [(s & q & E & En & Xq & Hr & Hv & Hne)|(q & ->)].
    + rewrite E. destruct (split_base_sym c (K c (S n)) s q l Xq Hl') as (h & p' & rest & -> & H1 & H2 & H3 & H4 & H5 & H6 & H7).
      cbn [bind]. destruct (IH rest H2 ltac:(lia)) as (nc & cs & Er & I1 & I2 & I3 & I4 & I5).
      assert (Ni : ~ In s (flat_map names nc)) by (intros Hs; apply H5; auto).
      assert (Inc : incl (flat_map names nc) (flat_map names l)) by (eapply incl_tran; eauto).
      assert (Tail : forall a, atom a -> names a = [s] -> Forall atom (a :: nc) /\
        Forall (fun t => is_rat t = true) cs /\ (ratprod cs == ratprod (t :: l))%Q /\
        NoDup (flat_map names (a :: nc)) /\ incl (flat_map names (a :: nc)) (flat_map names (t :: l))).
      { intros a Ha Na. repeat split; auto.
        - cbn [ratprod]. rewrite Hv, I3, H3. ring.
        - cbn [flat_map]. rewrite Na. simpl. constructor; auto.
        - cbn [flat_map]. rewrite Na, En. apply incl_app_app; auto. apply incl_refl. }
      destruct h.
      * destruct (isq (ERat p') 0) eqn:E0.
        { rewrite Er. exists nc, cs. repeat split; auto.
          - cbn [ratprod]. rewrite Hv, I3, H3. ring.
          - cbn [flat_map]. now apply incl_appr. }
        destruct (isq (ERat p') 1) eqn:E1.
        { rewrite Er. cbn [bind]. exists (ESym s :: nc), cs. split; [reflexivity|]. apply Tail; auto. }
        rewrite k_pow_sym. unfold isq in E0, E1. rewrite E0, E1. cbn [bind]. rewrite Er. cbn [bind].
        exists (EPow (ESym s) (ERat p') :: nc), cs. split; [reflexivity|]. apply Tail; auto.
        constructor; auto. intros Z. apply Qeq_bool_iff in Z. congruence.
      * rewrite Er. cbn [bind]. exists (t :: nc), cs. split; [|apply Tail; auto].
        -- unfold add_term. destruct t; try discriminate; try reflexivity; exfalso; inversion Ht as [? A|]; inversion A.
        -- destruct Ht as [a A|q']; [auto|discriminate].
    + cbn [decon_pow]. destruct (split_base_rat c (K c (S n)) q l Hl' 1%Q eq_refl ltac:(lra)) as (h & p' & rest & -> & H1 & H2 & H3 & H4 & H5 & H6 & H7).
      cbn [bind]. destruct (IH rest H4 ltac:(lia)) as (nc & cs & Er & I1 & I2 & I3 & I4 & I5).
      change (numer 1) with 1 in H3. rewrite Qpower_1_r in H3.
      destruct h.
      * destruct (isq (ERat p') 0) eqn:E0; [apply isq_rat in E0; lra|].
        destruct (isq (ERat p') 1) eqn:E1.
        { rewrite Er. cbn [bind]. exists nc, (ERat q :: cs). split; [reflexivity|]. repeat split; auto.
          - apply isq_rat in E1. cbn [ratprod ratval]. rewrite I3, <- H3, (numer_qeq _ _ E1). change (numer 1) with 1.
            rewrite Qpower_1_r. ring.
          - cbn [flat_map names app]. rewrite <- H6. auto. }
        destruct (k_pow_int c n q p' H1 ltac:(intros; lra)) as (r & -> & Hr). cbn [bind]. rewrite Er. cbn [bind].
        exists nc, (ERat r :: cs). split; [reflexivity|]. repeat split; auto.
        -- cbn [ratprod ratval]. rewrite I3, Hr. exact H3.
        -- cbn [flat_map names app]. rewrite <- H6. auto.
      * rewrite Er. cbn [bind]. exists nc, (ERat q :: cs). split; [reflexivity|]. repeat split; auto.
        -- cbn [ratprod ratval]. rewrite I3. rewrite (H7 eq_refl) in H3. change (numer 1) with 1 in H3. rewrite Qpower_1_r in H3. exact H3.
        -- cbn [flat_map names app]. rewrite <- H6. auto.
Qed.

(** Printing a factor *)
Lemma str_nonempty s : s <> ""%string -> exists a, String.get 0 s = Some a.
Proof. destruct s; [congruence|]. simpl. eauto. Qed.
Lemma last_nonempty s : s <> ""%string -> exists a, last_char s = Some a.
Proof.
  unfold last_char. intros H. destruct s as [|a s]; [congruence|]. cbn [String.length]. clear H.
  revert a. induction s as [|b s IH]; intros a; [simpl; eauto|]. exact (IH b).
Qed.
Lemma repr_sym c n s : k_repr (K c (S n)) (ESym s) = Ok s.
Proof. reflexivity. Qed.
Lemma repr_rat c n q : k_repr (K c (S n)) (ERat q) = Ok (str_Q q).
Proof. reflexivity. Qed.
Lemma repr_pow_pos c n s q : s <> ""%string -> qlt0 q = false ->
  exists r, k_repr (K c (S (S n))) (EPow (ESym s) (ERat q)) = Ok r.
Proof.
  intros Hs Hq. change (K c (S (S n))) with (build c (K c (S n))). cbn [build k_repr repr_body].
  destruct (isq (ERat q) (-1)) eqn:E.
  { unfold pow_term_repr. rewrite repr_sym. cbn [bind]. eauto. }
  rewrite Hq. destruct (Qeq_bool q (1 # 2)).
  - unfold repr_fn. rewrite repr_sym. cbn [bind]. destruct (str_nonempty s Hs) as (a & ->), (last_nonempty s Hs) as (b & ->). eauto.
  - unfold pow_term_repr. rewrite repr_sym, repr_rat. cbn [bind]. eauto.
Qed.
Lemma repr_atom c n t : atom t -> exists r, k_repr (K c (S (S (S n)))) t = Ok r.
Proof.
  intros [s Hs|s q Hs Hq H0]; [exists s; reflexivity|]. destruct (qlt0 q) eqn:L; [|now apply repr_pow_pos].
  change (K c (S (S (S n)))) with (build c (K c (S (S n)))). cbn [build k_repr repr_body].
  destruct (isq (ERat q) (-1)) eqn:E.
  { unfold pow_term_repr. rewrite repr_sym. cbn [bind]. eauto. }
  rewrite L. unfold rat. rewrite k_pow_sym. destruct (Qeq_bool (Qred (- q)) 0); [cbn [bind]; rewrite repr_rat; cbn [bind]; eauto|].
  destruct (Qeq_bool (Qred (- q)) 1); [cbn [bind]; rewrite repr_sym; cbn [bind]; eauto|].
  cbn [bind]. destruct (repr_pow_pos c n s (Qred (- q)) Hs) as (r & ->); [|cbn [bind]; eauto].
  apply qlt0_f. rewrite Qred_correct. apply qlt0_iff in L. lra.
Qed.
Lemma repr_fac c n t : fac t -> exists r, k_repr (K c (S (S (S n)))) t = Ok r.
Proof. intros [a A|q]; [now apply repr_atom|exists (str_Q q); reflexivity]. Qed.

(** Sorting terms that print *)
Definition sortable (c : cfg) (n : nat) (t : expr) : Prop :=
  (exists m, nwf t = Ok m) /\ (exists q, const_power t = Ok q) /\ exists r, k_repr (K c n) t = Ok r.
Lemma lt_terms_ok c n a b : sortable c n a -> sortable c n b -> exists r, lt_terms (K c n) a b = Ok r.
Proof.
  intros ((ma & Ea) & (qa & Qa) & ra & Ra) ((mb & Eb) & (qb & Qb) & rb & Rb).
  unfold lt_terms, repr_lt. rewrite Ea, Eb, Qa, Qb, Ra, Rb. cbn [bind].
  repeat match goal with |- context[if ?x then _ else _] => destruct x end; eauto.
Qed.
Lemma insert_ok c n x l : sortable c n x -> Forall (sortable c n) l -> exists s, insert_term (K c n) x l = Ok s.
Proof.
  intros Hx H. induction H as [|y l Hy Hl IH]; cbn [insert_term]; eauto.
  destruct (lt_terms_ok c n x y Hx Hy) as (b & ->). cbn [bind]. destruct b; eauto.
  destruct IH as (s & ->). cbn [bind]. eauto.
Qed.
Lemma sort_ok c n l : Forall (sortable c n) l -> exists s, sort_terms (K c n) l = Ok s /\ Permutation l s.
Proof.
  intros H. assert (G : exists s, sort_terms (K c n) l = Ok s).
  { unfold sort_terms. assert (A : Forall (sortable c n) []) by constructor. revert A. generalize (@nil expr).
    induction H as [|x l Hx Hl IH]; intros acc A; cbn [foldM]; eauto.
    destruct (insert_ok c n x acc Hx A) as (s & E). rewrite E. cbn [bind]. apply IH.
    apply Sound.insert_perm in E. eapply Permutation_Forall; [exact E|]. constructor; auto. }
  destruct G as (s & E). exists s. split; auto. now apply Sound.sort_perm in E.
Qed.
Lemma sortable_fac c n t : fac t -> sortable c (S (S (S n))) t.
Proof.
  intros H. split; [|split; [|now apply repr_fac]].
  - destruct H as [a [s Hs|s q Hs Hq H0]|q]; simpl; eauto.
  - unfold const_power. destruct H as [a [s Hs|s q Hs Hq H0]|q]; simpl; eauto.
Qed.

(** ** Prod([...]) of factors *)
Lemma rats_app l m : rats (l ++ m) = rats l ++ rats m.
Proof. apply filter_app. Qed.
Lemma rats_atoms l : Forall atom l -> rats l = [].
Proof. induction 1 as [|a l A H IH]; auto. simpl. rewrite IH. now destruct A. Qed.
Lemma rats_perm l m : Permutation l m -> List.length (rats l) = List.length (rats m).
Proof.
  unfold rats. induction 1; simpl; auto; try congruence.
  - destruct (is_rat x); simpl; congruence.
  - destruct (is_rat x), (is_rat y); simpl; congruence.
Qed.
Lemma ratprod_perm l m : Permutation l m -> (ratprod l == ratprod m)%Q.
Proof. induction 1; simpl; try reflexivity; [now rewrite IHPermutation|ring|etransitivity; eauto]. Qed.
Lemma ratprod_atoms l : Forall atom l -> (ratprod l == 1)%Q.
Proof. induction 1 as [|a l A H IH]; simpl; [reflexivity|]. rewrite IH. destruct A; simpl; ring. Qed.
Lemma flat_prod_fac l : Forall fac l -> flat_prod l = l.
Proof.
  induction 1 as [|a l A H IH]; auto. unfold flat_prod in *. simpl. rewrite IH.
  now destruct A as [a [s Hs|s q Hs Hq H0]|q].
Qed.

Lemma prod_body_fac c n l : Forall fac l ->
  exists r, prod_body c (K c (S (S (S n)))) l = Ok r /\ mono r /\ (coef r == ratprod l)%Q /\
    incl (names r) (flat_map names l).
Proof.
  intros H. unfold prod_body. rewrite (flat_prod_fac l H). unfold combine_prod.
  destruct (combine_prod_go_fac c (S (S n)) (List.length l) l H (Nat.le_refl _)) as (nc & cs & -> & I1 & I2 & I3 & I4 & I5).
  cbn [bind].
  assert (Fin : forall ts, (exists q, ts = nc ++ [ERat q] /\ (q == ratprod l)%Q) \/ (ts = nc /\ (ratprod l == 1)%Q) ->
    exists r, match ts with
      | [] => Ok (ERat 1)
      | [t] => Ok t
      | _ => s <- sort_terms (K c (S (S (S n)))) ts;;
             match s with
             | [t0; ESum us] => if isq t0 (-1) then op_neg (K c (S (S (S n)))) (ESum us) else Ok (EProd s)
             | _ => Ok (EProd s)
             end
      end = Ok r /\ mono r /\ (coef r == ratprod l)%Q /\ incl (names r) (flat_map names l)).
  { intros ts Hts.
    assert (Ff : Forall fac ts).
    { destruct Hts as [(q & -> & _)|[-> _]]; [apply Forall_app; split; [|repeat constructor]|];
        (eapply Forall_impl; [|exact I1]; auto). }
    assert (Fr : (List.length (rats ts) <= 1)%nat).
    { destruct Hts as [(q & -> & _)|[-> _]]; [rewrite rats_app|]; rewrite (rats_atoms nc I1); simpl; lia. }
    assert (Fn : flat_map names ts = flat_map names nc).
    { destruct Hts as [(q & -> & _)|[-> _]]; auto. rewrite flat_map_app. simpl. now rewrite app_nil_r. }
    assert (Fp : (ratprod ts == ratprod l)%Q).
    { destruct Hts as [(q & -> & E)|[-> E]]; [rewrite ratprod_app; simpl|]; rewrite (ratprod_atoms nc I1); [rewrite E; ring|now rewrite E]. }
    destruct ts as [|t [|u ts]].
    - exists (ERat 1). split; [reflexivity|]. simpl in Fp. repeat split; auto. intros x [].
    - exists t. inversion Ff; subst. split; [reflexivity|]. split; [auto|]. split.
      + simpl in Fp. destruct H2 as [a [s Hs|s q Hs Hq H0]|q]; simpl in *; rewrite <- Fp; ring.
      + simpl in Fn. rewrite app_nil_r in Fn. rewrite Fn. auto.
    - destruct (sort_ok c (S (S (S n))) (t :: u :: ts)) as (s & -> & P).
      { eapply Forall_impl; [|exact Ff]. intros a A. now apply sortable_fac. }
      cbn [bind]. exists (EProd s).
      assert (Fs : Forall fac s) by (eapply Permutation_Forall; eauto).
      split; [|split; [|split]].
      + destruct s as [|a [|b [|? ?]]]; auto; [|now destruct b]. inversion Fs as [|? ? _ F2]; subst. inversion F2 as [|? ? F3 _]; subst.
        destruct F3 as [b [s' Hs|s' q Hs Hq H0]|q]; reflexivity.
      + apply mono_prod; auto.
        * apply Permutation_length in P. simpl in P. lia.
        * apply rats_perm in P. lia.
        * eapply Permutation_NoDup; [|exact I4]. rewrite <- Fn. now apply Permutation_flat_map.
      + simpl. rewrite <- (ratprod_perm _ _ P). exact Fp.
      + simpl. intros x Hx. apply I5. rewrite <- Fn. eapply Permutation_in; [|exact Hx].
        symmetry. now apply Permutation_flat_map. }
  destruct cs as [|t cs].
  - cbn [bind]. destruct (Fin nc) as (r & E & R). { right. split; auto. now rewrite <- I3. } exists r. split; auto.
  - destruct (acc_prod_rats (t :: cs) I2) as (q & E & Hq). rewrite E. cbn [bind]. rewrite I3 in Hq.
    destruct (isq (ERat q) 0) eqn:E0.
    { cbn [bind]. exists (ERat q). repeat split; auto. intros x []. }
    destruct (isq (ERat q) 1) eqn:E1.
    + cbn [bind]. destruct (Fin nc) as (r & Er & R). { right. split; auto. apply isq_rat in E1. now rewrite <- Hq. }
      exists r. split; auto.
    + cbn [bind]. destruct (Fin (nc ++ [ERat q])) as (r & Er & R). { left. eauto. }
      exists r. split; auto.
Qed.
Lemma flat_fac_of t : mono t -> Forall fac (flat_prod1 t) /\ (ratprod (flat_prod1 t) == coef t)%Q /\ flat_map names (flat_prod1 t) = names t.
Proof.
  intros [e F|ts L F R N].
  - assert (E : flat_prod1 e = [e]) by now destruct F as [a [s Hs|s q Hs Hq H0]|q].
    rewrite E. simpl. rewrite app_nil_r. repeat split; auto. destruct F as [a [s Hs|s q Hs Hq H0]|q]; simpl; ring.
  - pose proof (flat_prod_fac ts F) as E. unfold flat_prod in E. cbn [flat_prod1]. rewrite E. repeat split; auto; reflexivity.
Qed.
Definition coefprod (l : list expr) : Q := fold_right (fun t r => (coef t * r)%Q) 1%Q l.
Lemma flat_fac_list l : Forall mono l -> Forall fac (flat_prod l) /\ (ratprod (flat_prod l) == coefprod l)%Q /\
  flat_map names (flat_prod l) = flat_map names l.
Proof.
  induction 1 as [|t l Ht Hl (IH1 & IH2 & IH3)]; simpl; [repeat split; auto; reflexivity|].
  destruct (flat_fac_of t Ht) as (A & B & C). repeat split.
  - apply Forall_app. auto.
  - rewrite ratprod_app, B, IH2. reflexivity.
  - rewrite flat_map_app, C, IH3. reflexivity.
Qed.
(** Prod of monomials is a monomial *)
Theorem k_prod_mono c n l : Forall mono l ->
  exists r, k_prod (K c (4 + n)) l = Ok r /\ mono r /\ (coef r == coefprod l)%Q /\ incl (names r) (flat_map names l).
Proof.
  intros H. destruct (flat_fac_list l H) as (A & B & C).
  destruct (prod_body_fac c n (flat_prod l) A) as (r & E & M & Cf & I). exists r. split; [|split; [|split]]; auto.
  - change (K c (4 + n)) with (build c (K c (S (S (S n))))). cbn [build k_prod]. unfold prod_body in *.
    now rewrite (flat_prod_fac _ A) in E.
  - now rewrite Cf, B.
  - now rewrite <- C.
Qed.
End Fac.

(** ** Printing a product of factors *)
Section Repr.
Notation any := (fun _ : Q => True).
Notation gfac := (Frag.fac any).
(** positive powers and integers *)
Inductive ifac : expr -> Prop :=
| if_sym s : s <> ""%string -> ifac (ESym s)
| if_pow s q : s <> ""%string -> (0 < q)%Q -> ifac (EPow (ESym s) (ERat q))
| if_rat q : qisint q = true -> ifac (ERat q).
Definition nneg (l : list expr) : Prop := Forall (fun t => match t with ERat q => (0 <= q)%Q | _ => True end) l.

Hint Unfold nneg : core.
Lemma ifac_gfac t : ifac t -> gfac t.
Proof. intros [s H|s q H P|q H]; constructor; constructor; auto. lra. Qed.
Lemma ifac_gfacs l : Forall ifac l -> Forall gfac l.
Proof. apply Forall_impl. exact ifac_gfac. Qed.
Lemma numden_ifac k l : Forall ifac l -> exists n, numden_go k l = Ok (n, []) /\ Forall ifac n.
Proof.
  induction 1 as [|t l T H (n & IH & F)]; cbn [numden_go]; [eauto|].
  pose proof T as T'. destruct T as [s Hs|s q Hs P|q Hi].
  - cbn [decon_pow]. rewrite IH. cbn [bind]. simpl. eauto.
  - cbn [decon_pow]. rewrite IH. cbn [bind]. rewrite (proj2 (qlt0_f q)) by lra. eauto.
  - rewrite IH. cbn [bind]. unfold qisint in Hi. rewrite Hi. destruct (numer q =? 1); [eauto|]. eexists. split; [reflexivity|].
    constructor; auto. constructor. apply RealLemmas.qisint_inject.
Qed.
Lemma numden_gfac c m l : Forall gfac l -> exists n d, numden_go (K c (S m)) l = Ok (n, d) /\
  Forall ifac n /\ Forall ifac d /\ nneg d /\ (List.length (rats n) <= List.length (rats l))%nat /\ (nneg l -> nneg n).
Proof.
  induction 1 as [|t l T H (n & d & IH & I1 & I2 & I3 & I4 & I5)]; cbn [numden_go].
  - exists [], []. repeat split; auto; constructor.
  - assert (NR : nneg (t :: l) -> nneg n) by (intros N; inversion N; auto).
    destruct T as [a [s Hs|s q Hs _ H0]|q].
    + cbn [decon_pow]. rewrite IH. cbn [bind]. simpl. exists (ESym s :: n), d. split; [reflexivity|]. split; [constructor; auto; now constructor|]. repeat split; auto.
      intros N. constructor; [exact I|exact (NR N)].
    + cbn [decon_pow]. rewrite IH. cbn [bind]. destruct (qlt0 q) eqn:L.
      * apply qlt0_iff in L. destruct (Qeq_bool q (-1)) eqn:E1.
        { exists n, (ESym s :: d). repeat split; auto; constructor; auto. now constructor. }
        unfold rat. rewrite k_pow_sym.
        assert (E0 : Qeq_bool (Qred (- q)) 0 = false).
        { apply Bool.not_true_is_false. rewrite Qeq_bool_iff, Qred_correct. lra. }
        assert (E2 : Qeq_bool (Qred (- q)) 1 = false).
        { apply Bool.not_true_is_false. rewrite Qeq_bool_iff, Qred_correct. intros E. apply Qeq_bool_neq in E1. apply E1. lra. }
        rewrite E0, E2. cbn [bind]. exists n, (EPow (ESym s) (ERat (Qred (- q))) :: d). repeat split; auto; constructor; auto.
        constructor; auto. rewrite Qred_correct. lra.
      * apply qlt0_f in L. exists (EPow (ESym s) (ERat q) :: n), d. split; [reflexivity|].
        split; [constructor; auto; constructor; auto; lra|]. repeat split; auto.
        intros N. constructor; [exact I|exact (NR N)].
    + rewrite IH. cbn [bind]. eexists _, _. split; [reflexivity|].
      assert (Z : forall z, ifac (ratz z)) by (intros z; constructor; apply RealLemmas.qisint_inject).
      repeat split.
      * destruct (numer q =? 1); auto.
      * destruct (denom q =? 1); auto.
      * destruct (denom q =? 1); auto. constructor; auto. simpl. pose proof (RealLemmas.denom_pos q).
        unfold Qle, inject_Z. simpl. lia.
      * destruct (numer q =? 1); simpl; lia.
      * intros N. inversion N; subst. destruct (numer q =? 1); auto. constructor; [|exact (NR N)]. simpl.
        assert (0 <= numer q). { pose proof (numer_sgn q). unfold Qle in H2. simpl in H2. lia. }
        unfold Qle, inject_Z. simpl. lia.
Qed.
Lemma prod_skip_gfac l : Forall gfac l -> exists e, prod_skip l = Ok e /\ (e = EProd l \/ gfac e).
Proof.
  intros H. destruct l as [|t [|u l]]; simpl.
  - exists (ERat 1). split; auto. right. apply fac_rat.
  - inversion H; subst. exists t. split; auto. now destruct H2 as [a [s Hs|s q Hs _ H0]|q].
  - exists (EProd (t :: u :: l)). split; auto. now destruct t.
Qed.
Lemma ptr_fac c n t : gfac t -> exists s, prod_term_repr (K c (3 + n)) t = Ok s.
Proof. intros H. unfold prod_term_repr. change (3 + n)%nat with (S (S (S n))). destruct (repr_fac _ c n t H) as (r & ->). cbn [bind]. eauto. Qed.
Lemma ptrs_fac c n l : Forall gfac l -> exists s, mapM (prod_term_repr (K c (3 + n))) l = Ok s.
Proof.
  induction 1 as [|t l T H (s & IH)]; cbn [mapM]; [eauto|].
  destruct (ptr_fac c n t T) as (r & ->). cbn [bind]. rewrite IH. cbn [bind]. eauto.
Qed.
Lemma repr_prod_int c n l : Forall ifac l -> is_sub (EProd l) = false -> exists r, k_repr (K c (4 + n)) (EProd l) = Ok r.
Proof.
  intros H S. change (K c (4 + n)) with (build c (K c (3 + n))). cbn [build k_repr repr_body]. rewrite S.
  unfold numden. destruct (numden_ifac (K c (3 + n)) l H) as (m & -> & F). cbn [bind].
  pose proof (ifac_gfacs l H) as G.
  destruct (prod_skip_gfac m (ifac_gfacs m F)) as (e & -> & _). cbn [bind prod_skip].
  destruct (ptrs_fac c n l G) as (ss & ->). cbn [bind]. simpl. eauto.
Qed.

Lemma nneg_sub l : nneg l -> is_sub (EProd l) = false.
Proof. intros H. destruct l as [|[]]; auto. inversion H; subst. simpl. now apply qlt0_f. Qed.
Lemma repr_gprod c n l : Forall gfac l -> is_sub (EProd l) = false ->
  (forall m, Forall ifac m -> (List.length (rats m) <= List.length (rats l))%nat -> (nneg l -> nneg m) -> is_sub (EProd m) = true ->
     exists r, k_repr (K c (4 + n)) (EProd m) = Ok r) ->
  exists r, k_repr (K c (5 + n)) (EProd l) = Ok r.
Proof.
  intros H S Hm. change (K c (5 + n)) with (build c (K c (4 + n))). cbn [build k_repr repr_body]. rewrite S.
  unfold numden. destruct (numden_gfac c (3 + n) l H) as (m & d & E & I1 & I2 & I3 & I4 & I5).
  change (Datatypes.S (3 + n)) with (4 + n)%nat in E. rewrite E. cbn [bind].
  destruct (prod_skip_gfac m (ifac_gfacs m I1)) as (en & -> & Cn).
  destruct (prod_skip_gfac d (ifac_gfacs d I2)) as (ed & -> & Cd). cbn [bind].
  destruct (isq ed 1).
  { destruct (ptrs_fac c (1 + n) l H) as (ss & Es). change (3 + (1 + n))%nat with (4 + n)%nat in Es. rewrite Es. cbn [bind]. eauto. }
  assert (Rn : exists s, (if is_prod en then k_repr (K c (4 + n)) en else prod_term_repr (K c (4 + n)) en) = Ok s).
  { destruct Cn as [->|G].
    - cbn [is_prod]. destruct (is_sub (EProd m)) eqn:Sm; [now apply Hm|now apply repr_prod_int].
    - destruct (is_prod en) eqn:P; [exfalso; destruct G as [? []|]; discriminate|]. now apply (ptr_fac c (1 + n)). }
  assert (Rd : exists s, (if is_prod ed then s <- k_repr (K c (4 + n)) ed;; Ok (parens s) else prod_term_repr (K c (4 + n)) ed) = Ok s).
  { destruct Cd as [->|G].
    - cbn [is_prod]. destruct (repr_prod_int c n d I2 (nneg_sub d I3)) as (s & ->). cbn [bind]. eauto.
    - destruct (is_prod ed) eqn:P; [exfalso; destruct G as [? []|]; discriminate|]. now apply (ptr_fac c (1 + n)). }
  destruct Rn as (s1 & ->), Rd as (s2 & ->). cbn [bind]. eauto.
Qed.
Lemma repr_prod_nneg c n l : Forall gfac l -> nneg l -> exists r, k_repr (K c (5 + n)) (EProd l) = Ok r.
Proof.
  intros H N. apply repr_gprod; auto. { now apply nneg_sub. }
  intros m _ _ Nm S. rewrite (nneg_sub m (Nm N)) in S. discriminate.
Qed.
Lemma coef_pos_nneg ts : (List.length (rats ts) <= 1)%nat -> (0 <= ratprod ts)%Q -> nneg ts.
Proof.
  induction ts as [|t ts IH]; intros L P; [constructor|]. unfold rats in L. simpl in L.
  destruct (is_rat t) eqn:E.
  - destruct t; try discriminate. simpl in L.
    assert (R0 : filter is_rat ts = []) by (destruct (filter is_rat ts); simpl in L; [auto|lia]).
    assert (A : nneg ts /\ (ratprod ts == 1)%Q).
    { clear -R0. induction ts as [|t ts IH]; simpl in *; [split; [constructor|reflexivity]|].
      destruct (is_rat t) eqn:E; [discriminate|]. destruct (IH R0) as [A B]. split.
      - constructor; auto. now destruct t.
      - rewrite B. destruct t; try discriminate; reflexivity. }
    destruct A as [A B]. constructor; auto. cbn [ratprod ratval] in P. rewrite B in P. lra.
  - constructor; [now destruct t|]. apply IH; [exact L|]. destruct t; try discriminate; cbn [ratprod ratval] in P; lra.
Qed.
Lemma sub_prod_coef ts : (List.length (rats ts) <= 1)%nat -> is_sub (EProd ts) = true -> (ratprod ts < 0)%Q.
Proof.
  destruct ts as [|[] ts]; try discriminate. cbn [is_sub rats filter is_rat List.length]. intros L S. apply qlt0_iff in S.
  assert (R0 : filter is_rat ts = []) by (destruct (filter is_rat ts); simpl in L; [auto|lia]).
  assert (B : (ratprod ts == 1)%Q).
  { clear -R0. induction ts as [|t ts IH]; simpl in *; [reflexivity|].
    destruct (is_rat t) eqn:E; [discriminate|]. rewrite (IH R0). destruct t; try discriminate; reflexivity. }
  cbn [ratprod ratval]. rewrite B. lra.
Qed.
Let tt1 : forall p q : Q, (p == q)%Q -> True -> True := fun _ _ _ _ => I.
Let tt2 : forall p q : Q, True -> True -> True := fun _ _ _ _ => I.
Lemma repr_prod_sub c n l : Forall gfac l -> (List.length (rats l) <= 1)%nat -> is_sub (EProd l) = true ->
  exists r, k_repr (K c (6 + n)) (EProd l) = Ok r.
Proof.
  intros H R S. change (K c (6 + n)) with (build c (K c (5 + n))). cbn [build k_repr repr_body]. rewrite S. cbn [op_mul].
  assert (Hm : Forall gfac (l ++ [ERat (-1)])) by (apply Forall_app; split; auto; repeat constructor).
  destruct (prod_body_fac any tt1 tt2 I c (1 + n) _ Hm) as (e & E & M & C & _).
  assert (E' : k_prod (K c (5 + n)) [EProd l; ERat (-1)] = Ok e).
  { change (K c (5 + n)) with (build c (K c (4 + n))). cbn [build k_prod]. unfold prod_body in *.
    rewrite (flat_prod_fac any _ Hm) in E. change (flat_prod [EProd l; ERat (-1)]) with (flat_prod l ++ [ERat (-1)]).
    rewrite (flat_prod_fac any l H). exact E. }
  rewrite E'. cbn [bind].
  assert (P : (0 < coef e)%Q).
  { rewrite C, ratprod_app. pose proof (sub_prod_coef l R S). cbn [ratprod ratval]. lra. }
  destruct M as [e F|ts L F Rt N].
  - destruct (is_prod e) eqn:Pe; [exfalso; destruct F as [? []|]; discriminate|].
    destruct (ptr_fac c (2 + n) e F) as (s & Es). change (3 + (2 + n))%nat with (5 + n)%nat in Es. rewrite Es. cbn [bind]. eauto.
  - cbn [is_prod]. cbn [coef] in P. assert (Nn : nneg ts) by (apply coef_pos_nneg; auto; lra).
    rewrite (nneg_sub ts Nn). destruct (repr_prod_nneg c n ts F Nn) as (s & ->). cbn [bind]. eauto.
Qed.
Lemma repr_prod c n l : Forall gfac l -> (List.length (rats l) <= 1)%nat -> exists r, k_repr (K c (7 + n)) (EProd l) = Ok r.
Proof.
  intros H R. destruct (is_sub (EProd l)) eqn:S.
  - exact (repr_prod_sub c (1 + n) l H R S).
  - apply (repr_gprod c (2 + n)); auto. intros m Hm Rm _ Sm. apply (repr_prod_sub c n); auto; [now apply ifac_gfacs|lia].
Qed.
End Repr.

(** ** Sums of monomials, negation, difference *)
Section Sums.
Context (X : Q -> Prop) (XC : forall p q, (p == q)%Q -> X p -> X q) (XA : forall p q, X p -> X q -> X (p + q)%Q) (X1 : X 1%Q).
Notation atom := (atom X). Notation fac := (fac X). Notation mono := (mono X). Notation poly := (poly X).
Hint Constructors Frag.atom Frag.fac Frag.mono Frag.poly : core.

Lemma fac_any t : fac t -> Frag.fac (fun _ => True) t.
Proof. intros [a [s Hs|s q Hs Hq H0]|q]; constructor; constructor; auto. Qed.
Lemma facs_any l : Forall fac l -> Forall (Frag.fac (fun _ => True)) l.
Proof. apply Forall_impl. exact fac_any. Qed.
Lemma repr_mono c n t : mono t -> exists r, k_repr (K c (7 + n)) t = Ok r.
Proof.
  intros [e F|ts L F R N].
  - exact (repr_fac X c (4 + n) e F).
  - apply repr_prod; auto. now apply facs_any.
Qed.

Lemma nwf_fac t : fac t -> exists m, nwf t = Ok m.
Proof. intros [a [s Hs|s q Hs Hq H0]|q]; simpl; eauto. Qed.
Lemma prod_skip_fac l : Forall fac l -> exists e, prod_skip l = Ok e.
Proof. intros F. destruct (prod_skip_gfac l (facs_any l F)) as (e & E & _). eauto. Qed.
Lemma Forall_filter {A} (P : A -> Prop) f l : Forall P l -> Forall P (filter f l).
Proof. induction 1; simpl; auto. destruct (f x); auto. Qed.
Lemma rcf_mono t : mono t -> exists p, rcf t = Ok p.
Proof.
  intros [e F|ts L F R N].
  - destruct F as [a [s Hs|s q Hs Hq H0]|q]; simpl; eauto.
  - cbn [rcf]. destruct (prod_skip_fac (filter has_symany ts) (Forall_filter _ _ _ F)) as (a & ->).
    destruct (prod_skip_fac (filter (fun t => negb (has_symany t)) ts) (Forall_filter _ _ _ F)) as (b & ->).
    cbn [bind]. eauto.
Qed.
Lemma nwf_mono t : mono t -> exists m, nwf t = Ok m.
Proof.
  intros M. pose proof M as M0. destruct M as [e F|ts L F R N]; [now apply nwf_fac|].
  cbn [nwf]. destruct (rcf_mono _ M0) as (p & ->). cbn [bind].
  match goal with |- exists m, (ns <- ?g ts;; _) = Ok m => assert (G : exists ns, g ts = Ok ns) end.
  { clear -F. induction F as [|t l T H (ns & IH)]; [eauto|]. rewrite IH. destruct (has_symany t); [|eauto].
    destruct (nwf_fac t T) as (m & ->). cbn [bind]. eauto. }
  destruct G as (ns & ->). cbn [bind]. destruct ns as [|a [|b ns]]; eauto.
Qed.
Lemma sortable_mono c n t : mono t -> sortable c (7 + n) t.
Proof.
  intros M. split; [now apply nwf_mono|]. split; [|now apply repr_mono].
  unfold const_power. destruct (rcf_mono t M) as ([a b] & ->). cbn [bind].
  destruct a as [| | | | | | | | |? []| | |]; eauto.
Qed.

Lemma is_acc_mono t : mono t -> is_acc t = is_rat t.
Proof. intros [e [a [s Hs|s q Hs Hq H0]|q]|ts L F R N]; reflexivity. Qed.
Lemma atom_filter l : Forall fac l -> Forall atom (filter (fun t => negb (is_acc t)) l) /\ Forall (fun t => is_rat t = true) (filter is_acc l) /\
  filter is_acc l = rats l.
Proof.
  induction 1 as [|t l T H (A & B & C)]; [simpl; auto|]. unfold rats in *. simpl. destruct T as [a [s Hs|s q Hs Hq H0]|q]; simpl; auto.
  rewrite C. repeat split; auto. rewrite <- C. auto.
Qed.
Lemma names_filter l : Forall fac l -> flat_map names (filter (fun t => negb (is_acc t)) l) = flat_map names l.
Proof. induction 1 as [|t l T H IH]; auto. simpl. destruct T as [a [s Hs|s q Hs Hq H0]|q]; simpl; rewrite IH; auto. Qed.
Lemma filter_len l : Forall fac l -> (List.length (rats l) + List.length (filter (fun t => negb (is_acc t)) l) = List.length l)%nat.
Proof. induction 1 as [|t l T H IH]; auto. unfold rats in *. simpl. destruct T as [a [s Hs|s q Hs Hq H0]|q]; simpl; lia. Qed.

Lemma decon_prod_mono t cs ncf : mono t -> is_rat t = false -> decon_prod t = (cs, ncf) ->
  Forall (fun t => is_rat t = true) cs /\ Forall atom ncf /\ ncf <> [] /\ NoDup (flat_map names ncf).
Proof.
  intros [e F|ts L F R N] Hr E.
  - assert (E' : decon_prod e = ([ERat 1], [e])) by now destruct F as [a [s Hs|s q Hs Hq H0]|q].
    rewrite E' in E. injection E as <- <-. destruct F as [a A|q]; [|discriminate]. repeat split; auto; try discriminate.
    simpl. rewrite app_nil_r. destruct A; simpl; repeat constructor; auto.
  - cbn [decon_prod] in E. injection E as <- <-. destruct (atom_filter ts F) as (A & B & C). repeat split; auto.
    + destruct (filter is_acc ts); auto.
    + intros E. pose proof (filter_len ts F) as Hl. rewrite E in Hl. simpl in Hl. lia.
    + rewrite names_filter; auto.
Qed.
Lemma coin_fac a b : fac a -> fac b -> coin a b = false.
Proof. intros [? [s Hs|s q Hs Hq H0]|q] [? [s' Hs'|s' q' Hs' Hq' H0']|q']; reflexivity. Qed.
Lemma coinl_fac l m : Forall fac l -> Forall fac m -> coinl l m = false.
Proof. intros H. revert m. induction H as [|a l A H IH]; intros m Hm; simpl; auto. destruct Hm; auto. rewrite coin_fac, IH; auto. Qed.
Lemma atoms_fac l : Forall atom l -> Forall fac l.
Proof. apply Forall_impl. auto. Qed.
Lemma decon_prod_facs t cs ncf : mono t -> decon_prod t = (cs, ncf) -> Forall fac ncf /\ Forall (fun t => is_rat t = true) cs.
Proof.
  intros M E. destruct (is_rat t) eqn:R.
  - destruct t; try discriminate. simpl in E. injection E as <- <-. auto.
  - destruct (decon_prod_mono t cs ncf M R E) as (A & B & _). split; auto. now apply atoms_fac.
Qed.
Lemma split_like_mono c ncf l : Forall fac ncf -> Forall mono l ->
  exists hits rest, split_like c ncf l = Ok (hits, rest) /\ Forall (fun t => is_rat t = true) hits /\ Forall mono rest /\
    (List.length rest <= List.length l)%nat.
Proof.
  intros F H. induction H as [|t l T H (hits & rest & IH & I1 & I2 & I3)]; cbn [split_like]; [exists [], []; auto|].
  destruct (decon_prod t) as [cs ncf2] eqn:E. destruct (decon_prod_facs t cs ncf2 T E) as (A & B).
  unfold py_eql. rewrite (coinl_fac _ _ F A), andb_false_r. cbn [bind]. rewrite IH. cbn [bind].
  destruct (eeqbl ncf ncf2).
  - exists (cs ++ hits), rest. repeat split; auto. apply Forall_app; auto. simpl. lia.
  - exists hits, (t :: rest). repeat split; auto. simpl. lia.
Qed.
Lemma prod_skip_atoms l : Forall atom l -> l <> [] -> NoDup (flat_map names l) ->
  exists e, prod_skip l = Ok e /\ mono e.
Proof.
  intros A Ne N. destruct l as [|a [|b l]]; [congruence| |].
  - inversion A; subst. exists a. split; auto. now destruct H1.
  - exists (EProd (a :: b :: l)). split; [now destruct a|]. apply mono_prod; auto.
    + simpl; lia.
    + now apply atoms_fac.
    + rewrite (rats_atoms X) by auto. simpl; lia.
Qed.
Lemma combine_sum_go_mono c : forall f l, Forall mono l -> (List.length l <= f)%nat ->
  exists nc cs, combine_sum_go c f l = Ok (nc, cs) /\ Forall mono nc /\ Forall (fun t => is_rat t = true) cs.
Proof.
  induction f as [|f IH]; intros l Hl Hf; (destruct l as [|t l]; [exists [], []; auto|]); [simpl in Hf; lia|].
  inversion Hl as [|? ? T Hl']; subst. cbn [combine_sum_go]. simpl in Hf. rewrite (is_acc_mono t T).
  destruct (is_rat t) eqn:R.
  - destruct (IH l Hl' ltac:(lia)) as (nc & cs & -> & A & B). cbn [bind]. exists nc, (t :: cs). auto.
  - destruct (decon_prod t) as [coeffs ncf] eqn:E. destruct (decon_prod_mono t _ _ T R E) as (D1 & D2 & D3 & D4).
    destruct (split_like_mono c ncf l (atoms_fac _ D2) Hl') as (hits & rest & -> & I1 & I2 & I3). cbn [bind].
    destruct (IH rest I2 ltac:(lia)) as (nc & cs & -> & A & B). cbn [bind].
    destruct hits as [|h hits]; [exists (t :: nc), cs; auto|].
    destruct (acc_sum_rats (coeffs ++ h :: hits)) as (q & -> & _); [apply Forall_app; auto|]. cbn [bind].
    destruct (isq (ERat q) 0); [exists nc, cs; auto|].
    destruct (isq (ERat q) 1).
    + destruct (prod_skip_atoms ncf D2 D3 D4) as (e & -> & Me). cbn [bind]. exists (e :: nc), cs. auto.
    + assert (Ep : prod_skip (ERat q :: ncf) = Ok (EProd (ERat q :: ncf))) by (destruct ncf; [congruence|reflexivity]).
      rewrite Ep. cbn [bind]. exists (EProd (ERat q :: ncf) :: nc), cs. repeat split; auto. constructor; auto.
      apply mono_prod; auto.
      * destruct ncf; [congruence|simpl; lia].
      * constructor; auto. now apply atoms_fac.
      * unfold rats. simpl. fold (rats ncf). rewrite (rats_atoms X) by auto. simpl; lia.
Qed.
Lemma sum_body_mono c n l : Forall mono l -> exists r, sum_body c (K c (7 + n)) l = Ok r /\ poly r.
Proof.
  intros H. unfold sum_body, combine_sum.
  assert (Fl : flat_sum l = l).
  { clear -H. induction H as [|t l T H IH]; auto. unfold flat_sum in *. simpl. rewrite IH.
    destruct T as [e [a [s Hs|s q Hs Hq H0]|q]|ts L F R N]; reflexivity. }
  rewrite Fl. destruct (combine_sum_go_mono c (List.length l) l H (Nat.le_refl _)) as (nc & cs & -> & A & B). cbn [bind].
  assert (Fin : forall ts, Forall mono ts -> exists r, match ts with
      | [] => Ok (ERat 0) | [t] => Ok t | _ => s <- sort_terms (K c (7 + n)) ts;; Ok (ESum (rev s)) end = Ok r /\ poly r).
  { intros ts F. destruct ts as [|t [|u ts]].
    - exists (ERat 0). auto.
    - exists t. inversion F; subst. auto.
    - destruct (sort_ok c (7 + n) (t :: u :: ts)) as (s & -> & P).
      { eapply Forall_impl; [|exact F]. intros a Ha. now apply sortable_mono. }
      cbn [bind]. exists (ESum (rev s)). split; auto. apply poly_sum.
      + rewrite rev_length. apply Permutation_length in P. simpl in P. lia.
      + apply Forall_rev. eapply Permutation_Forall; eauto. }
  destruct cs as [|t cs].
  - cbn [bind]. apply Fin. auto.
  - destruct (acc_sum_rats (t :: cs) B) as (q & -> & _). cbn [bind].
    destruct (isq (ERat q) 0); cbn [bind]; apply Fin; auto. apply Forall_app. auto.
Qed.
Lemma flat_poly t : poly t -> Forall mono (flat_sum1 t).
Proof.
  assert (G : forall e, mono e -> flat_sum1 e = [e]).
  { intros e M. destruct M as [e [a [s Hs|s q Hs Hq H0]|q]|ts L F R N]; reflexivity. }
  intros [e M|ts L F].
  - rewrite (G e M). auto.
  - cbn [flat_sum1]. clear L. induction F as [|t0 l0 T F IH]; simpl; auto. rewrite (G t0 T). simpl. auto.
Qed.
(** Sum of polynomials is a polynomial *)
Theorem k_sum_poly c n l : Forall poly l -> exists r, k_sum (K c (8 + n)) l = Ok r /\ poly r.
Proof.
  intros H. assert (F : Forall mono (flat_sum l)).
  { unfold flat_sum. induction H as [|t l T H IH]; simpl; auto. apply Forall_app. split; auto. now apply flat_poly. }
  destruct (sum_body_mono c n (flat_sum l) F) as (r & E & P). exists r. split; auto.
  change (K c (8 + n)) with (build c (K c (7 + n))). cbn [build k_sum]. unfold sum_body in *.
  assert (Fl : flat_sum (flat_sum l) = flat_sum l).
  { clear -F. induction F as [|t l' T H IH]; auto. unfold flat_sum at 1. simpl. fold (flat_sum l'). rewrite IH.
    destruct T as [e [a [s Hs|s q Hs Hq H0]|q]|ts L F R N]; reflexivity. }
  now rewrite Fl in E.
Qed.
Lemma k_prod_monos c n l : Forall mono l -> exists r, k_prod (K c (4 + n)) l = Ok r /\ mono r.
Proof. intros H. destruct (k_prod_mono X XC XA X1 c n l H) as (r & E & M & _). eauto. Qed.
Theorem op_add_poly c n a b : poly a -> poly b -> exists r, op_add (K c (8 + n)) a b = Ok r /\ poly r.
Proof.
  intros A B. destruct (k_sum_poly c n [a; b]) as (r & E & P); [auto|].
  unfold op_add. destruct a, b; eauto. exists (rat (q + q0)). split; [reflexivity|apply poly_mono, mono_fac, fac_rat].
Qed.
Theorem op_mul_mono c n a b : mono a -> mono b -> exists r, op_mul (K c (4 + n)) a b = Ok r /\ mono r.
Proof.
  intros A B. destruct (k_prod_monos c n [a; b]) as (r & E & P); [auto|].
  unfold op_mul. destruct a, b; eauto. exists (rat (q * q0)). split; [reflexivity|apply mono_fac, fac_rat].
Qed.
Lemma op_neg_mono c n a : mono a -> exists r, op_neg (K c (4 + n)) a = Ok r /\ mono r.
Proof.
  intros A. destruct (op_mul_mono c n (ERat (-1)) a) as (r & E & P); auto.
  destruct A as [e [a [s Hs|s q Hs Hq H0]|q]|ts L F R N]; try (exists r; auto; fail).
Qed.
Theorem op_neg_poly c n a : poly a -> exists r, op_neg (K c (8 + n)) a = Ok r /\ poly r.
Proof.
  intros [e M|ts L F].
  - destruct (op_neg_mono c (4 + n) e M) as (r & E & P). exists r. auto.
  - cbn [op_neg]. match goal with |- exists r, (ts' <- ?g ts;; _) = Ok r /\ _ => assert (G : exists ts', g ts = Ok ts' /\ Forall mono ts') end.
    { clear L. induction F as [|t l T F (l' & E & Fl')]; [eauto|]. destruct (op_neg_mono c (4 + n) t T) as (r & Er & M).
      change (4 + (4 + n))%nat with (8 + n)%nat in Er. rewrite Er. cbn [bind]. rewrite E. cbn [bind]. eauto. }
    destruct G as (ts' & -> & F'). cbn [bind]. apply k_sum_poly. eapply Forall_impl; [|exact F']. auto.
Qed.
Lemma nwf_poly t : poly t -> exists m, nwf t = Ok m.
Proof.
  intros [e M|ts L F]; [now apply nwf_mono|]. cbn [nwf]. destruct (has_symany (ESum ts)); [|eauto].
  match goal with |- exists r, (ts' <- ?g ts;; _) = Ok r => assert (G : exists ts', g ts = Ok ts') end.
  { clear L. induction F as [|u l T F (l' & E)]; [eauto|]. destruct (nwf_mono u T) as (m & ->). cbn [bind]. rewrite E. cbn [bind]. eauto. }
  destruct G as (ts' & ->). cbn [bind]. eauto.
Qed.
(** multiplying a sum by -1 distributes *)
Lemma k_prod_neg_sum c n ts : poly (ESum ts) ->
  exists r, k_prod (K c (9 + n)) [ERat (-1); ESum ts] = Ok r /\ poly r.
Proof.
  intros P. change (K c (9 + n)) with (build c (K c (8 + n))). cbn [build k_prod]. unfold prod_body.
  change (flat_prod [ERat (-1); ESum ts]) with [ERat (-1); ESum ts]. unfold combine_prod.
  cbn [List.length combine_prod_go decon_pow split_base]. unfold py_eq. cbn [coin eeqb]. rewrite andb_false_r.
  cbn [bind split_base decon_pow combine_prod_go add_term is_acc fst snd acc_prod]. change (isq (ERat (-1)) 0) with false.
  change (isq (ERat (-1)) 1) with false. cbn [bind app]. unfold sort_terms. cbn [foldM insert_term bind].
  destruct (nwf_poly _ P) as (m & Em).
  assert (L : lt_terms (K c (8 + n)) (ERat (-1)) (ESum ts) = Ok true).
  { unfold lt_terms. rewrite Em. cbn [nwf bind Nat.eqb andb symboless_nest]. destruct m; reflexivity. }
  rewrite L. cbn [bind]. change (isq (ERat (-1)) (-1)) with true. cbv iota. now apply op_neg_poly.
Qed.
Theorem op_sub_poly c n a b : poly a -> poly b -> exists r, op_sub (K c (9 + n)) a b = Ok r /\ poly r.
Proof.
  intros A B.
  assert (M : exists r, op_mul (K c (9 + n)) (ERat (-1)) b = Ok r /\ poly r).
  { destruct B as [b B|ts L F].
    - destruct (op_mul_mono c (5 + n) (ERat (-1)) b) as (r & E & P); auto. exists r. auto.
    - apply k_prod_neg_sum. auto. }
  destruct M as (m & E & P). destruct (op_add_poly c (1 + n) a m A P) as (r & Er & Pr).
  unfold op_sub. destruct a, b; try (rewrite E; cbn [bind]; exists r; auto; fail).
  exists (rat (q - q0)). split; [reflexivity|apply poly_mono, mono_fac, fac_rat].
Qed.
End Sums.
