(** * FragX: the constructors are total on polynomials in opaque bases.

    The same development as Frag.v with the symbols replaced by any class [B] of opaque bases:
    symbols, applied functions, absolute values, logarithms that print and cannot be confused with a number.  A monomial
    is a product of a rational number and rational powers of distinct bases, a polynomial a sum of
    monomials.  [X] selects the allowed exponents of each base. *)
From Verif Require Import Frag.
From Coq Require Import Lqa Qpower.
Open Scope Z_scope.

(** an expression that Sum, Prod and Power treat as a unit *)
Definition opq (b : expr) : bool := match b with ESym _ | ETrig _ _ | ELog _ _ | EAbs _ | EAny _ => true | _ => false end.

(** ** Specification: monomials and polynomials over [B] *)
Section Spec.
Context (B : expr -> Prop) (X : expr -> Q -> Prop).
Inductive oatom : expr -> Prop :=
| oat_b b : B b -> oatom b
| oat_pow b q : B b -> X b q -> ~ (q == 0)%Q -> oatom (EPow b (ERat q)).
Inductive ofac : expr -> Prop :=
| ofac_at a : oatom a -> ofac a
| ofac_rat q : ofac (ERat q).
(** the bases of a factor *)
Definition bases (t : expr) : list expr := match t with ERat _ => [] | EPow b _ => [b] | _ => [t] end.
Inductive omono : expr -> Prop :=
| omono_fac e : ofac e -> omono e
| omono_prod ts : (2 <= List.length ts)%nat -> Forall ofac ts -> (List.length (rats ts) <= 1)%nat ->
    NoDup (flat_map bases ts) -> omono (EProd ts).
Inductive opoly : expr -> Prop :=
| opoly_mono e : omono e -> opoly e
| opoly_sum ts : (2 <= List.length ts)%nat -> Forall omono ts -> opoly (ESum ts).
End Spec.

(** what [B] has to be *)
Record opaqueJ (j : nat) (B : expr -> Prop) : Prop := {
  op_shape : forall b, B b -> opq b = true;
  op_coin : forall a b, B a -> B b -> coin a b = false;
  op_eq : forall a b, B a -> B b -> eeqb a b = true -> a = b;
  op_nwf : forall b, B b -> exists m, nwf b = Ok m;
  op_repr : forall c n b, B b -> exists r, k_repr (K c (3 + j + n)) b = Ok r /\ r <> ""%string
}.
Arguments op_shape {j B}. Arguments op_coin {j B}. Arguments op_eq {j B}. Arguments op_nwf {j B}. Arguments op_repr {j B}.
Notation opaque := (opaqueJ 0).

(** ** Products of factors *)
Section Fac.
Context {j : nat} (B : expr -> Prop) (HB : opaqueJ j B).
Context (X : expr -> Q -> Prop) (XC : forall b p q, (p == q)%Q -> X b p -> X b q) (XA : forall b p q, X b p -> X b q -> X b (p + q)%Q) (X1 : forall b, B b -> X b 1%Q).
Notation atom := (oatom B X). Notation fac := (ofac B X). Notation mono := (omono B X). Notation poly := (opoly B X).
Hint Constructors oatom ofac omono opoly : core.
Local Ltac opb := repeat match goal with H : B ?b |- _ => is_var b; let G := fresh "G" in pose proof (op_shape HB b H) as G; destruct b; try discriminate G; clear G end.

Lemma base_facts b : B b -> decon_pow b = (b, ERat 1) /\ is_rat b = false /\ ratval b = 1%Q /\ bases b = [b] /\ is_acc b = false /\ flat_prod1 b = [b] /\
  flat_sum1 b = [b] /\ is_sub b = false /\ is_prod b = false /\ is_sum b = false.
Proof. intros H. opb; repeat split; reflexivity. Qed.
Lemma base_coin a b : B a -> B b -> coin a b = false.
Proof. apply (op_coin HB). Qed.
Lemma base_rat b q : B b -> coin b (ERat q) = false /\ eeqb b (ERat q) = false /\ coin (ERat q) b = false /\ eeqb (ERat q) b = false.
Proof. intros H. opb; repeat split; reflexivity. Qed.
Lemma py_eq_ok c a b : coin a b = false -> py_eq c a b = Ok (eeqb a b).
Proof. intros H. unfold py_eq. now rewrite H, andb_false_r. Qed.

Lemma fac_base t : fac t -> (exists b q, decon_pow t = (b, ERat q) /\ bases t = [b] /\ X b q /\ is_rat t = false /\ ratval t = 1%Q /\ B b /\ is_acc t = false) \/
  (exists q, t = ERat q).
Proof.
  intros [a [s Hs|s q Hs Hq H0]|q]; [left; exists s, 1%Q|left; exists s, q|right; eauto].
  - destruct (base_facts s Hs) as (A1 & A2 & A3 & A4 & A5 & _). repeat split; auto.
  - simpl. repeat split; auto.
Qed.

Lemma split_base_sym c k s p l : B s -> X s p -> Forall fac l ->
  exists h p' rest, split_base c k s (ERat p) l = Ok (h, ERat p', rest) /\ X s p' /\ Forall fac rest /\
    (ratprod rest == ratprod l)%Q /\ (List.length rest <= List.length l)%nat /\ ~ In s (flat_map bases rest) /\
    incl (flat_map bases rest) (flat_map bases l) /\ (NoDup (flat_map bases l) -> NoDup (flat_map bases rest)).
Proof.
  intros Bs Hp H. revert p Hp. induction H as [|t l Ht Hl IH]; intros p Hp.
  - exists false, p, []. simpl. repeat split; auto; try (intros []; fail); try reflexivity. intros x [].
  - cbn [split_base]. destruct (fac_base t Ht) as [(s' & q & E & En & Xq & Hr & Hv & Hne & _)|(q & ->)].
    + rewrite E. rewrite py_eq_ok by now apply base_coin. cbn [bind].
      destruct (eeqb s' s) eqn:Es.
      * pose proof (op_eq HB s' s Hne Bs Es). subst s'. cbn [op_add bind]; unfold rat. destruct (IH (Qred (p + q))) as (h & p' & rest & -> & H1 & H2 & H3 & H4 & H5 & H6 & H7).
        { eapply XC; [symmetry; apply Qred_correct|]. auto. }
        exists true, p', rest. cbn [bind ratprod List.length flat_map]. rewrite Hv, En. repeat split; auto.
        -- rewrite H3. ring.
        -- intros x Hx. right. auto.
        -- intros N. simpl in N. inversion N; auto.
      * destruct (IH p Hp) as (h & p' & rest & -> & H1 & H2 & H3 & H4 & H5 & H6 & H7).
        exists h, p', (t :: rest). cbn [bind ratprod List.length flat_map]. rewrite En. repeat split; auto.
        -- now rewrite H3.
        -- lia.
        -- simpl. intros [->|Hs]; [now rewrite eeqb_refl in Es|auto].
        -- apply incl_app_app; auto. apply incl_refl.
        -- simpl. intros N. inversion N; subst. constructor; auto.
    + cbn [decon_pow]. destruct (base_rat s q Bs) as (A1 & A2 & A3 & A4). rewrite py_eq_ok by auto. rewrite A4. cbn [bind].
      destruct (IH p Hp) as (h & p' & rest & -> & H1 & H2 & H3 & H4 & H5 & H6 & H7).
      exists h, p', (ERat q :: rest). cbn [bind ratprod List.length flat_map bases app]. repeat split; auto.
      * now rewrite H3.
      * lia.
Qed.

Lemma split_base_rat c k q l : Forall fac l -> forall p, qisint p = true -> (0 < p)%Q ->
  exists h p' rest, split_base c k (ERat q) (ERat p) l = Ok (h, ERat p', rest) /\ qisint p' = true /\ (p <= p')%Q /\
    (q ^ numer p' * ratprod rest == q ^ numer p * ratprod l)%Q /\ Forall fac rest /\
    (List.length rest <= List.length l)%nat /\ flat_map bases rest = flat_map bases l /\
    (h = false -> p' = p).
Proof.
  induction 1 as [|t l Ht Hl IH]; intros p Hi Hp.
  - exists false, p, []. simpl. repeat split; auto; try lra.
  - cbn [split_base]. destruct (fac_base t Ht) as [(s' & q' & E & En & Xq & Hr & Hv & Hne & _)|(q' & ->)].
    + rewrite E. destruct (base_rat s' q Hne) as (A1 & A2 & A3 & A4). rewrite py_eq_ok by auto. rewrite A2. cbn [bind].
      destruct (IH p Hi Hp) as (h & p' & rest & -> & H1 & H2 & H3 & H4 & H5 & H6 & H7).
      exists h, p', (t :: rest). cbn [bind ratprod List.length flat_map]. rewrite Hv, En, H6. repeat split; auto; try lia.
      rewrite !Qmult_1_l. exact H3.
    + cbn [decon_pow]. unfold py_eq. cbn [coin]. rewrite andb_false_r. cbn [bind eeqb].
      destruct (qeqb q' q) eqn:E.
      * apply qeqb_eq in E. subst q'. cbn [op_add bind]; unfold rat.
        assert (Ei : (Qred (p + 1) == inject_Z (numer p + 1))%Q).
        { rewrite Qred_correct, inject_Z_plus. rewrite (numer_int _ Hi) at 1. reflexivity. }
        assert (P1 : (0 < Qred (p + 1))%Q) by (rewrite Qred_correct; lra).
        destruct (IH (Qred (p + 1))) as (h & p' & rest & -> & H1 & H2 & H3 & H4 & H5 & H6 & H7); auto.
        { rewrite (qisint_qeq _ _ Ei). apply RealLemmas.qisint_inject. }
        exists true, p', rest. cbn [bind ratprod ratval List.length flat_map bases app]. repeat split; auto.
        -- rewrite Qred_correct in H2. lra.
        -- rewrite H3. rewrite (numer_qeq _ _ Ei), RealLemmas.numer_inject.
           assert (Pn : 0 < numer p). { rewrite (numer_int _ Hi) in Hp. unfold Qlt in Hp. simpl in Hp. lia. }
           destruct (Qeq_dec q 0) as [Z|Z].
           ++ rewrite Z. rewrite !Qpower_0 by lia. ring.
           ++ rewrite Qpower_plus by auto. rewrite Qpower_1_r. ring.
        -- discriminate.
      * destruct (IH p Hi Hp) as (h & p' & rest & -> & H1 & H2 & H3 & H4 & H5 & H6 & H7).
        exists h, p', (ERat q' :: rest). cbn [bind ratprod ratval List.length flat_map bases app]. repeat split; auto; try lia.
        transitivity (q' * (q ^ numer p' * ratprod rest))%Q; [ring|]. rewrite H3. ring.
Qed.

Lemma k_pow_base c n s q : B s -> k_pow (K c (S n)) s (ERat q) =
  if Qeq_bool q 0 then Ok (ERat 1) else if Qeq_bool q 1 then Ok s else Ok (EPow s (ERat q)).
Proof. intros H. opb; reflexivity. Qed.

Lemma combine_prod_go_fac c n : forall f l, Forall fac l -> (List.length l <= f)%nat ->
  exists nc cs, combine_prod_go c (K c (S n)) f l = Ok (nc, cs) /\ Forall atom nc /\
    Forall (fun t => is_rat t = true) cs /\ (ratprod cs == ratprod l)%Q /\
    NoDup (flat_map bases nc) /\ incl (flat_map bases nc) (flat_map bases l).
Proof.
  induction f as [|f IH]; intros l Hl Hf.
  - destruct l; simpl in Hf; [|lia]. exists [], []. simpl. repeat split; auto; try constructor. apply incl_refl.
  - destruct l as [|t l]; [exists [], []; simpl; repeat split; auto; try constructor; apply incl_refl|].
    inversion Hl as [|? ? Ht Hl']; subst. cbn [combine_prod_go]. simpl in Hf.
    destruct (fac_base t Ht) as [(s & q & E & En & Xq & Hr & Hv & Hne & Ha)|(q & ->)].
    + rewrite E. destruct (split_base_sym c (K c (S n)) s q l Hne Xq Hl') as (h & p' & rest & -> & H1 & H2 & H3 & H4 & H5 & H6 & H7).
      cbn [bind]. destruct (IH rest H2 ltac:(lia)) as (nc & cs & Er & I1 & I2 & I3 & I4 & I5).
      assert (Ni : ~ In s (flat_map bases nc)) by (intros Hs; apply H5; auto).
      assert (Inc : incl (flat_map bases nc) (flat_map bases l)) by (eapply incl_tran; eauto).
      assert (Tail : forall a, atom a -> bases a = [s] -> Forall atom (a :: nc) /\
        Forall (fun t => is_rat t = true) cs /\ (ratprod cs == ratprod (t :: l))%Q /\
        NoDup (flat_map bases (a :: nc)) /\ incl (flat_map bases (a :: nc)) (flat_map bases (t :: l))).
      { intros a A Na. repeat split; auto.
        - cbn [ratprod]. rewrite Hv, I3, H3. ring.
        - cbn [flat_map]. rewrite Na. simpl. constructor; auto.
        - cbn [flat_map]. rewrite Na, En. apply incl_app_app; auto. apply incl_refl. }
      destruct h.
      * destruct (isq (ERat p') 0) eqn:E0.
        { rewrite Er. exists nc, cs. repeat split; auto.
          - cbn [ratprod]. rewrite Hv, I3, H3. ring.
          - cbn [flat_map]. now apply incl_appr. }
        destruct (base_facts s Hne) as (_ & _ & _ & Bs & As & _).
        destruct (isq (ERat p') 1) eqn:E1.
        { rewrite Er. cbn [bind]. exists (s :: nc), cs. split; [unfold add_term; now rewrite As|]. apply Tail; auto. }
        rewrite k_pow_base by auto. unfold isq in E0, E1. rewrite E0, E1. cbn [bind]. rewrite Er. cbn [bind].
        exists (EPow s (ERat p') :: nc), cs. split; [reflexivity|]. apply Tail; auto.
        apply oat_pow; auto. intros Z. apply Qeq_bool_iff in Z. congruence.
      * rewrite Er. cbn [bind]. exists (t :: nc), cs. split; [|apply Tail; auto].
        -- unfold add_term. now rewrite Ha.
        -- destruct Ht as [a A|q']; [auto|discriminate].
    + cbn [decon_pow]. destruct (split_base_rat c (K c (S n)) q l Hl' 1%Q eq_refl ltac:(lra)) as (h & p' & rest & -> & H1 & H2 & H3 & H4 & H5 & H6 & H7).
      cbn [bind]. destruct (IH rest H4 ltac:(lia)) as (nc & cs & Er & I1 & I2 & I3 & I4 & I5).
      change (numer 1) with 1 in H3. rewrite Qpower_1_r in H3.
      destruct h.
      * destruct (isq (ERat p') 0) eqn:E0; [apply isq_rat in E0; lra|].
        destruct (isq (ERat p') 1) eqn:E1.
        { rewrite Er. cbn [bind]. exists nc, (ERat q :: cs). split; [reflexivity|]. repeat split; auto.
          - apply isq_rat in E1. cbn [ratprod ratval]. rewrite I3, <- H3, (numer_qeq _ _ E1). change (numer 1) with 1.
            rewrite Qpower_1_r. ring.
          - cbn [flat_map bases app]. rewrite <- H6. auto. }
        destruct (k_pow_int c n q p' H1 ltac:(intros; lra)) as (r & -> & Hr). cbn [bind]. rewrite Er. cbn [bind].
        exists nc, (ERat r :: cs). split; [reflexivity|]. repeat split; auto.
        -- cbn [ratprod ratval]. rewrite I3, Hr. exact H3.
        -- cbn [flat_map bases app]. rewrite <- H6. auto.
      * rewrite Er. cbn [bind]. exists nc, (ERat q :: cs). split; [reflexivity|]. repeat split; auto.
        -- cbn [ratprod ratval]. rewrite I3. rewrite (H7 eq_refl) in H3. change (numer 1) with 1 in H3. rewrite Qpower_1_r in H3. exact H3.
        -- cbn [flat_map bases app]. rewrite <- H6. auto.
Qed.

(** Printing a factor *)
Lemma repr_rat c n q : k_repr (K c (S n)) (ERat q) = Ok (str_Q q).
Proof. reflexivity. Qed.
Lemma repr_pow_pos c n s q : B s -> qlt0 q = false ->
  exists r, k_repr (K c (4 + j + n)) (EPow s (ERat q)) = Ok r.
Proof.
  intros Hs Hq. change (K c (4 + j + n)) with (build c (K c (3 + j + n))). cbn [build k_repr repr_body].
  destruct (op_repr HB c n s Hs) as (r & Er & Ne).
  destruct (isq (ERat q) (-1)) eqn:E.
  { unfold pow_term_repr. rewrite Er. cbn [bind]. eauto. }
  rewrite Hq. destruct (Qeq_bool q (1 # 2)).
  - unfold repr_fn. rewrite Er. cbn [bind]. destruct (str_nonempty r Ne) as (a & ->), (last_nonempty r Ne) as (b & ->). eauto.
  - unfold pow_term_repr. rewrite Er. change (3 + j + n)%nat with (S (2 + j + n)). rewrite repr_rat. cbn [bind]. eauto.
Qed.
Lemma repr_atom c n t : atom t -> exists r, k_repr (K c (5 + j + n)) t = Ok r.
Proof.
  intros [s Hs|s q Hs Hq H0].
  { destruct (op_repr HB c (2 + n) s Hs) as (r & Er & _). replace (3 + j + (2 + n))%nat with (5 + j + n)%nat in Er by lia. exists r. exact Er. }
  destruct (qlt0 q) eqn:L; [|replace (5 + j + n)%nat with (4 + j + (1 + n))%nat by lia; exact (repr_pow_pos c (1 + n) s q Hs L)].
  change (K c (5 + j + n)) with (build c (K c (4 + j + n))). cbn [build k_repr repr_body].
  destruct (op_repr HB c (1 + n) s Hs) as (r & Er & _). replace (3 + j + (1 + n))%nat with (4 + j + n)%nat in Er by lia.
  destruct (isq (ERat q) (-1)) eqn:E.
  { unfold pow_term_repr. rewrite Er. cbn [bind]. eauto. }
  rewrite L. unfold rat. change (4 + j + n)%nat with (S (3 + j + n)). rewrite k_pow_base by auto. destruct (Qeq_bool (Qred (- q)) 0); [cbn [bind]; rewrite repr_rat; cbn [bind]; eauto|].
  destruct (Qeq_bool (Qred (- q)) 1); [cbn [bind]; change (S (3 + j + n)) with (4 + j + n)%nat; rewrite Er; cbn [bind]; eauto|].
  cbn [bind]. destruct (repr_pow_pos c n s (Qred (- q)) Hs) as (r' & Er'); [|change (S (3 + j + n)) with (4 + j + n)%nat; rewrite Er'; cbn [bind]; eauto].
  apply qlt0_f. rewrite Qred_correct. apply qlt0_iff in L. lra.
Qed.
Lemma repr_fac c n t : fac t -> exists r, k_repr (K c (5 + j + n)) t = Ok r.
Proof. intros [a A|q]; [now apply repr_atom|exists (str_Q q); reflexivity]. Qed.

Lemma nwf_fac t : fac t -> exists m, nwf t = Ok m.
Proof.
  intros [a [s Hs|s q Hs Hq H0]|q]; [exact (op_nwf HB s Hs)| |simpl; eauto]. destruct (op_nwf HB s Hs) as (m & E).
  cbn [nwf]. destruct (has_symany _); [|eauto]. rewrite E. cbn [bind]. eauto.
Qed.
Lemma sortable_fac c n t : fac t -> sortable c (5 + j + n) t.
Proof.
  intros H. split; [now apply nwf_fac|split; [|now apply repr_fac]].
  unfold const_power. destruct H as [a [s Hs|s q Hs Hq H0]|q]; opb; simpl; eauto.
Qed.

(** ** Prod([...]) of factors *)
Lemma rats_atoms l : Forall atom l -> rats l = [].
Proof. induction 1 as [|a l A H IH]; auto. simpl. rewrite IH. destruct A as [s Hs|s q Hs Hq H0]; auto. opb; reflexivity. Qed.
Lemma ratprod_atoms l : Forall atom l -> (ratprod l == 1)%Q.
Proof. induction 1 as [|a l A H IH]; simpl; [reflexivity|]. rewrite IH. destruct A as [s Hs|s q Hs Hq H0]; [opb|]; simpl; ring. Qed.
Lemma flat_prod_fac l : Forall fac l -> flat_prod l = l.
Proof.
  induction 1 as [|a l A H IH]; auto. unfold flat_prod in *. simpl. rewrite IH.
  destruct A as [a [s Hs|s q Hs Hq H0]|q]; auto. opb; reflexivity.
Qed.
Lemma ratval_fac t : fac t -> (coef t == ratval t)%Q.
Proof. intros [a [s Hs|s q Hs Hq H0]|q]; try reflexivity. opb; reflexivity. Qed.

Lemma prod_body_fac c n l : Forall fac l ->
  exists r, prod_body c (K c (5 + j + n)) l = Ok r /\ mono r /\ (coef r == ratprod l)%Q /\
    (forall b, In b (flat_map bases (flat_prod1 r)) -> In b (flat_map bases l)).
Proof.
  intros H. unfold prod_body. rewrite (flat_prod_fac l H). unfold combine_prod.
  destruct (combine_prod_go_fac c (4 + j + n) (List.length l) l H (Nat.le_refl _)) as (nc & cs & E0 & I1 & I2 & I3 & I4 & I5).
  change (S (4 + j + n)) with (5 + j + n)%nat in E0. rewrite E0. cbn [bind].
  assert (Fin : forall ts, (exists q, ts = nc ++ [ERat q] /\ (q == ratprod l)%Q) \/ (ts = nc /\ (ratprod l == 1)%Q) ->
    exists r, match ts with
      | [] => Ok (ERat 1)
      | [t] => Ok t
      | _ => s <- sort_terms (K c (5 + j + n)) ts;;
             match s with
             | [t0; ESum us] => if isq t0 (-1) then op_neg (K c (5 + j + n)) (ESum us) else Ok (EProd s)
             | _ => Ok (EProd s)
             end
      end = Ok r /\ mono r /\ (coef r == ratprod l)%Q /\ (forall b, In b (flat_map bases (flat_prod1 r)) -> In b (flat_map bases l))).
  { intros ts Hts.
    assert (Ff : Forall fac ts).
    { destruct Hts as [(q & -> & _)|[-> _]]; [apply Forall_app; split; [|repeat constructor]|];
        (eapply Forall_impl; [|exact I1]; auto). }
    assert (Fr : (List.length (rats ts) <= 1)%nat).
    { destruct Hts as [(q & -> & _)|[-> _]]; [rewrite rats_app|]; rewrite (rats_atoms nc I1); simpl; lia. }
    assert (Fn : flat_map bases ts = flat_map bases nc).
    { destruct Hts as [(q & -> & _)|[-> _]]; auto. rewrite flat_map_app. simpl. now rewrite app_nil_r. }
    assert (Fp : (ratprod ts == ratprod l)%Q).
    { destruct Hts as [(q & -> & E)|[-> E]]; [rewrite ratprod_app; simpl|]; rewrite (ratprod_atoms nc I1); [rewrite E; ring|now rewrite E]. }
    destruct ts as [|t [|u ts]].
    - exists (ERat 1). split; [reflexivity|]. simpl in Fp. repeat split; auto. intros x [].
    - exists t. inversion Ff; subst. split; [reflexivity|]. split; [auto|]. split.
      + simpl in Fp. rewrite (ratval_fac t H2). rewrite <- Fp. ring.
      + pose proof (flat_prod_fac [t] Ff) as Ep. unfold flat_prod in Ep. simpl in Ep. rewrite app_nil_r in Ep. rewrite Ep, Fn. auto.
    - destruct (sort_ok c (5 + j + n) (t :: u :: ts)) as (s & -> & P).
      { eapply Forall_impl; [|exact Ff]. intros a A. now apply sortable_fac. }
      cbn [bind]. exists (EProd s).
      assert (Fs : Forall fac s) by (eapply Permutation_Forall; eauto).
      split; [|split; [|split]].
      + destruct s as [|a [|b [|? ?]]]; auto; [|now destruct b]. inversion Fs as [|? ? _ F2]; subst. inversion F2 as [|? ? F3 _]; subst.
        destruct F3 as [b [s' Hs|s' q Hs Hq H0]|q]; try reflexivity. opb; reflexivity.
      + apply omono_prod; auto.
        * apply Permutation_length in P. simpl in P. lia.
        * apply rats_perm in P. lia.
        * eapply Permutation_NoDup; [|exact I4]. rewrite <- Fn. now apply Permutation_flat_map.
      + simpl. rewrite <- (ratprod_perm _ _ P). exact Fp.
      + cbn [flat_prod1]. fold (flat_prod s). rewrite (flat_prod_fac s Fs). intros x Hx. apply I5. rewrite <- Fn. eapply Permutation_in; [|exact Hx].
        symmetry. now apply Permutation_flat_map. }
  destruct cs as [|t cs].
  - cbn [bind]. destruct (Fin nc) as (r & E & R). { right. split; auto. now rewrite <- I3. } exists r. split; auto.
  - destruct (acc_prod_rats (t :: cs) I2) as (q & E & Hq). rewrite E. cbn [bind]. rewrite I3 in Hq.
    destruct (isq (ERat q) 0) eqn:E1.
    { cbn [bind]. exists (ERat q). repeat split; auto. intros x []. }
    destruct (isq (ERat q) 1) eqn:E2.
    + cbn [bind]. destruct (Fin nc) as (r & Er & R). { right. split; auto. apply isq_rat in E2. now rewrite <- Hq. }
      exists r. split; auto.
    + cbn [bind]. destruct (Fin (nc ++ [ERat q])) as (r & Er & R). { left. eauto. }
      exists r. split; auto.
Qed.
Lemma flat_fac_of t : mono t -> Forall fac (flat_prod1 t) /\ (ratprod (flat_prod1 t) == coef t)%Q.
Proof.
  intros [e F|ts L F R N].
  - assert (E : flat_prod1 e = [e]) by (destruct F as [a [s Hs|s q Hs Hq H0]|q]; auto; opb; reflexivity).
    rewrite E. cbn [ratprod]. split; auto. rewrite (ratval_fac e F). ring.
  - pose proof (flat_prod_fac ts F) as E. unfold flat_prod in E. cbn [flat_prod1]. rewrite E. repeat split; auto; reflexivity.
Qed.
Lemma flat_fac_list l : Forall mono l -> Forall fac (flat_prod l) /\ (ratprod (flat_prod l) == coefprod l)%Q.
Proof.
  induction 1 as [|t l Ht Hl (IH1 & IH2)]; simpl; [repeat split; auto; reflexivity|].
  destruct (flat_fac_of t Ht) as (A & C). split.
  - apply Forall_app. auto.
  - rewrite ratprod_app, C, IH2. reflexivity.
Qed.
(** Prod of monomials is a monomial *)
Theorem k_prod_mono c n l : Forall mono l ->
  exists r, k_prod (K c (6 + j + n)) l = Ok r /\ mono r /\ (coef r == coefprod l)%Q /\
    (forall b, In b (flat_map bases (flat_prod1 r)) -> In b (flat_map bases (flat_prod l))).
Proof.
  intros H. destruct (flat_fac_list l H) as (A & C).
  destruct (prod_body_fac c n (flat_prod l) A) as (r & E & M & Cf & I). exists r. split; [|split; [|split]]; auto.
  - change (K c (6 + j + n)) with (build c (K c (5 + j + n))). cbn [build k_prod]. unfold prod_body in *.
    now rewrite (flat_prod_fac _ A) in E.
  - now rewrite Cf, C.
Qed.
End Fac.

(** ** Printing a product of factors *)
Section Repr.
Context {j : nat} (B : expr -> Prop) (HB : opaqueJ j B).
Notation any := (fun (_ : expr) (_ : Q) => True).
Notation gfac := (ofac B any).
Local Ltac opb := repeat match goal with H : B ?b |- _ => is_var b; let G := fresh "G" in pose proof (op_shape HB b H) as G; destruct b; try discriminate G; clear G end.
(** positive powers and integers *)
Inductive oifac : expr -> Prop :=
| oif_b s : B s -> oifac s
| oif_pow s q : B s -> (0 < q)%Q -> oifac (EPow s (ERat q))
| oif_rat q : qisint q = true -> oifac (ERat q).
Notation ifac := oifac.

Hint Unfold nneg : core.
Lemma ifac_gfac t : ifac t -> gfac t.
Proof. intros [s H|s q H P|q H]; [apply ofac_at, oat_b|apply ofac_at, oat_pow|apply ofac_rat]; auto. lra. Qed.
Lemma ifac_gfacs l : Forall ifac l -> Forall gfac l.
Proof. apply Forall_impl. exact ifac_gfac. Qed.
Lemma numden_base k s l : B s -> numden_go k (s :: l) = ('(n, d) <- numden_go k l;; Ok (s :: n, d)).
Proof. intros H. opb; reflexivity. Qed.
Lemma numden_ifac k l : Forall ifac l -> exists n, numden_go k l = Ok (n, []) /\ Forall ifac n.
Proof.
  induction 1 as [|t l T H (n & IH & F)]; [cbn; eauto|].
  pose proof T as T'. destruct T as [s Hs|s q Hs P|q Hi].
  - rewrite numden_base, IH by auto. cbn [bind]. eauto.
  - cbn [numden_go decon_pow]. rewrite IH. cbn [bind]. rewrite (proj2 (qlt0_f q)) by lra. eauto.
  - cbn [numden_go]. rewrite IH. cbn [bind]. unfold qisint in Hi. rewrite Hi. destruct (numer q =? 1); [eauto|]. eexists. split; [reflexivity|].
    constructor; auto. apply oif_rat. apply RealLemmas.qisint_inject.
Qed.
Lemma nneg_cons s l : B s -> nneg (s :: l) <-> nneg l.
Proof. intros H. unfold nneg. split; intros N; [inversion N; auto|]. constructor; auto. opb; exact I. Qed.
Lemma rats_cons s l : B s -> rats (s :: l) = rats l.
Proof. intros H. unfold rats. opb; reflexivity. Qed.
Lemma numden_gfac c m l : Forall gfac l -> exists n d, numden_go (K c (S m)) l = Ok (n, d) /\
  Forall ifac n /\ Forall ifac d /\ nneg d /\ (List.length (rats n) <= List.length (rats l))%nat /\ (nneg l -> nneg n).
Proof.
  induction 1 as [|t l T H (n & d & IH & I1 & I2 & I3 & I4 & I5)].
  - exists [], []. repeat split; auto; constructor.
  - assert (NR : nneg (t :: l) -> nneg n) by (intros N; inversion N; auto).
    destruct T as [a [s Hs|s q Hs _ H0]|q].
    + rewrite numden_base, IH by auto. cbn [bind]. exists (s :: n), d. split; [reflexivity|]. split; [constructor; auto; now apply oif_b|]. rewrite !rats_cons by auto. repeat split; auto.
      intros N. apply nneg_cons; auto.
    + cbn [numden_go decon_pow]. rewrite IH. cbn [bind]. destruct (qlt0 q) eqn:L.
      * apply qlt0_iff in L. destruct (Qeq_bool q (-1)) eqn:E1.
        { exists n, (s :: d). repeat split; auto; [constructor; auto; now apply oif_b|now apply nneg_cons]. }
        unfold rat. rewrite (k_pow_base B HB) by auto.
        assert (E0 : Qeq_bool (Qred (- q)) 0 = false).
        { apply Bool.not_true_is_false. rewrite Qeq_bool_iff, Qred_correct. lra. }
        assert (E2 : Qeq_bool (Qred (- q)) 1 = false).
        { apply Bool.not_true_is_false. rewrite Qeq_bool_iff, Qred_correct. intros E. apply Qeq_bool_neq in E1. apply E1. lra. }
        rewrite E0, E2. cbn [bind]. exists n, (EPow s (ERat (Qred (- q))) :: d). repeat split; auto; constructor; auto.
        apply oif_pow; auto. rewrite Qred_correct. lra.
      * apply qlt0_f in L. exists (EPow s (ERat q) :: n), d. split; [reflexivity|].
        split; [constructor; auto; apply oif_pow; auto; lra|]. repeat split; auto.
        intros N. constructor; [exact I|exact (NR N)].
    + cbn [numden_go]. rewrite IH. cbn [bind]. eexists _, _. split; [reflexivity|].
      assert (Z : forall z, ifac (ratz z)) by (intros z; apply oif_rat; apply RealLemmas.qisint_inject).
      repeat split.
      * destruct (numer q =? 1); auto.
      * destruct (denom q =? 1); auto.
      * destruct (denom q =? 1); auto. constructor; auto. simpl. pose proof (RealLemmas.denom_pos q).
        unfold Qle, inject_Z. simpl. lia.
      * destruct (numer q =? 1); simpl; lia.
      * intros N. inversion N; subst. destruct (numer q =? 1); auto. constructor; [|exact (NR N)]. simpl.
        assert (0 <= numer q). { pose proof (numer_sgn q). unfold Qle in H2. simpl in H2. lia. }
        unfold Qle, inject_Z. simpl. lia.
Qed.
Lemma prod_skip_gfac l : Forall gfac l -> exists e, prod_skip l = Ok e /\ (e = EProd l \/ gfac e).
Proof.
  intros H. destruct l as [|t [|u l]]; simpl.
  - exists (ERat 1). split; auto. right. apply ofac_rat.
  - inversion H; subst. exists t. split; auto. destruct H2 as [a [s Hs|s q Hs _ H0]|q]; try reflexivity. opb; reflexivity.
  - exists (EProd (t :: u :: l)). split; auto. now destruct t.
Qed.
Lemma gfac_noprod t : gfac t -> is_prod t = false.
Proof. intros [a [s Hs|s q Hs _ H0]|q]; try reflexivity. opb; reflexivity. Qed.
Lemma ptr_fac c n t : gfac t -> exists s, prod_term_repr (K c (5 + j + n)) t = Ok s.
Proof. intros H. unfold prod_term_repr. destruct (repr_fac B HB _ c n t H) as (r & ->). cbn [bind]. eauto. Qed.
Lemma ptrs_fac c n l : Forall gfac l -> exists s, mapM (prod_term_repr (K c (5 + j + n))) l = Ok s.
Proof.
  induction 1 as [|t l T H (s & IH)]; cbn [mapM]; [eauto|].
  destruct (ptr_fac c n t T) as (r & ->). cbn [bind]. rewrite IH. cbn [bind]. eauto.
Qed.
Lemma repr_prod_int c n l : Forall ifac l -> is_sub (EProd l) = false -> exists r, k_repr (K c (6 + j + n)) (EProd l) = Ok r.
Proof.
  intros H S. change (K c (6 + j + n)) with (build c (K c (5 + j + n))). cbn [build k_repr repr_body]. rewrite S.
  unfold numden. destruct (numden_ifac (K c (5 + j + n)) l H) as (m & -> & F). cbn [bind].
  pose proof (ifac_gfacs l H) as G.
  destruct (prod_skip_gfac m (ifac_gfacs m F)) as (e & -> & _). cbn [bind prod_skip].
  destruct (ptrs_fac c n l G) as (ss & ->). cbn [bind]. simpl. eauto.
Qed.
Lemma repr_gprod c n l : Forall gfac l -> is_sub (EProd l) = false ->
  (forall m, Forall ifac m -> (List.length (rats m) <= List.length (rats l))%nat -> (nneg l -> nneg m) -> is_sub (EProd m) = true ->
     exists r, k_repr (K c (6 + j + n)) (EProd m) = Ok r) ->
  exists r, k_repr (K c (7 + j + n)) (EProd l) = Ok r.
Proof.
  intros H S Hm. change (K c (7 + j + n)) with (build c (K c (6 + j + n))). cbn [build k_repr repr_body]. rewrite S.
  unfold numden. destruct (numden_gfac c (5 + j + n) l H) as (m & d & E & I1 & I2 & I3 & I4 & I5).
  change (Datatypes.S (5 + j + n)) with (6 + j + n)%nat in E. rewrite E. cbn [bind].
  destruct (prod_skip_gfac m (ifac_gfacs m I1)) as (en & -> & Cn).
  destruct (prod_skip_gfac d (ifac_gfacs d I2)) as (ed & -> & Cd). cbn [bind].
  destruct (isq ed 1).
  { destruct (ptrs_fac c (1 + n) l H) as (ss & Es). replace (5 + j + (1 + n))%nat with (6 + j + n)%nat in Es by lia. rewrite Es. cbn [bind]. eauto. }
  assert (Rn : exists s, (if is_prod en then k_repr (K c (6 + j + n)) en else prod_term_repr (K c (6 + j + n)) en) = Ok s).
  { destruct Cn as [->|G].
    - cbn [is_prod]. destruct (is_sub (EProd m)) eqn:Sm; [now apply Hm|now apply repr_prod_int].
    - rewrite (gfac_noprod en G). replace (6 + j + n)%nat with (5 + j + (1 + n))%nat by lia. now apply (ptr_fac c (1 + n)). }
  assert (Rd : exists s, (if is_prod ed then s <- k_repr (K c (6 + j + n)) ed;; Ok (parens s) else prod_term_repr (K c (6 + j + n)) ed) = Ok s).
  { destruct Cd as [->|G].
    - cbn [is_prod]. destruct (repr_prod_int c n d I2 (nneg_sub d I3)) as (s & ->). cbn [bind]. eauto.
    - rewrite (gfac_noprod ed G). replace (6 + j + n)%nat with (5 + j + (1 + n))%nat by lia. now apply (ptr_fac c (1 + n)). }
  destruct Rn as (s1 & ->), Rd as (s2 & ->). cbn [bind]. eauto.
Qed.
Lemma repr_prod_nneg c n l : Forall gfac l -> nneg l -> exists r, k_repr (K c (7 + j + n)) (EProd l) = Ok r.
Proof.
  intros H N. apply repr_gprod; auto. { now apply nneg_sub. }
  intros m _ _ Nm S. rewrite (nneg_sub m (Nm N)) in S. discriminate.
Qed.
Let tt1 : forall (b : expr) (p q : Q), (p == q)%Q -> True -> True := fun _ _ _ _ _ => I.
Let tt2 : forall (b : expr) (p q : Q), True -> True -> True := fun _ _ _ _ _ => I.
Lemma repr_prod_sub c n l : Forall gfac l -> (List.length (rats l) <= 1)%nat -> is_sub (EProd l) = true ->
  exists r, k_repr (K c (8 + j + n)) (EProd l) = Ok r.
Proof.
  intros H R S. change (K c (8 + j + n)) with (build c (K c (7 + j + n))). cbn [build k_repr repr_body]. rewrite S. cbn [op_mul].
  assert (Hm : Forall gfac (l ++ [ERat (-1)])) by (apply Forall_app; split; auto; repeat constructor).
  destruct (prod_body_fac B HB any tt1 tt2 (fun _ _ => I) c (1 + n) _ Hm) as (e & E & M & C & _). replace (5 + j + (1 + n))%nat with (6 + j + n)%nat in E by lia.
  assert (E' : k_prod (K c (7 + j + n)) [EProd l; ERat (-1)] = Ok e).
  { change (K c (7 + j + n)) with (build c (K c (6 + j + n))). cbn [build k_prod]. unfold prod_body in *.
    rewrite (flat_prod_fac B HB any _ Hm) in E. change (flat_prod [EProd l; ERat (-1)]) with (flat_prod l ++ [ERat (-1)]).
    rewrite (flat_prod_fac B HB any l H). exact E. }
  rewrite E'. cbn [bind].
  assert (P : (0 < coef e)%Q).
  { rewrite C, ratprod_app. pose proof (sub_prod_coef l R S). cbn [ratprod ratval]. lra. }
  destruct M as [e F|ts L F Rt N].
  - rewrite (gfac_noprod e F).
    destruct (ptr_fac c (2 + n) e F) as (s & Es). replace (5 + j + (2 + n))%nat with (7 + j + n)%nat in Es by lia. rewrite Es. cbn [bind]. eauto.
  - cbn [is_prod]. cbn [coef] in P. assert (Nn : nneg ts) by (apply coef_pos_nneg; auto; lra).
    rewrite (nneg_sub ts Nn). destruct (repr_prod_nneg c n ts F Nn) as (s & ->). cbn [bind]. eauto.
Qed.
Lemma repr_prod c n l : Forall gfac l -> (List.length (rats l) <= 1)%nat -> exists r, k_repr (K c (9 + j + n)) (EProd l) = Ok r.
Proof.
  intros H R. destruct (is_sub (EProd l)) eqn:S.
  - replace (9 + j + n)%nat with (8 + j + (1 + n))%nat by lia. exact (repr_prod_sub c (1 + n) l H R S).
  - replace (9 + j + n)%nat with (7 + j + (2 + n))%nat by lia. apply (repr_gprod c (2 + n)); auto. intros m Hm Rm _ Sm. replace (6 + j + (2 + n))%nat with (8 + j + n)%nat by lia. apply (repr_prod_sub c n); auto; [now apply ifac_gfacs|lia].
Qed.
End Repr.

(** ** Sums of monomials, negation, difference *)
Section Sums.
Context {j : nat} (B : expr -> Prop) (HB : opaqueJ j B).
Context (X : expr -> Q -> Prop) (XC : forall b p q, (p == q)%Q -> X b p -> X b q) (XA : forall b p q, X b p -> X b q -> X b (p + q)%Q) (X1 : forall b, B b -> X b 1%Q).
Notation atom := (oatom B X). Notation fac := (ofac B X). Notation mono := (omono B X). Notation poly := (opoly B X).
Hint Constructors oatom ofac omono opoly : core.
Local Ltac opb := repeat match goal with H : B ?b |- _ => is_var b; let G := fresh "G" in pose proof (op_shape HB b H) as G; destruct b; try discriminate G; clear G end.
Local Ltac ofacs F := destruct F as [?a [?s ?Hs|?s ?q ?Hs ?Hq ?H0]|?q]; try reflexivity; try (opb; reflexivity).

Lemma fac_any t : fac t -> ofac B (fun _ _ => True) t.
Proof. intros [a [s Hs|s q Hs Hq H0]|q]; [apply ofac_at, oat_b|apply ofac_at, oat_pow|apply ofac_rat]; auto. Qed.
Lemma facs_any l : Forall fac l -> Forall (ofac B (fun _ _ => True)) l.
Proof. apply Forall_impl. exact fac_any. Qed.
Lemma repr_mono c n t : mono t -> exists r, k_repr (K c (9 + j + n)) t = Ok r.
Proof.
  intros [e F|ts L F R N].
  - replace (9 + j + n)%nat with (5 + j + (4 + n))%nat by lia. exact (repr_fac B HB X c (4 + n) e F).
  - apply (repr_prod B HB); auto. now apply facs_any.
Qed.
Lemma prod_skip_fac l : Forall fac l -> exists e, prod_skip l = Ok e.
Proof. intros F. destruct (prod_skip_gfac B HB l (facs_any l F)) as (e & E & _). eauto. Qed.
Lemma rcf_mono t : mono t -> exists p, rcf t = Ok p.
Proof.
  intros [e F|ts L F R N].
  - exists (e, ERat 1). ofacs F.
  - cbn [rcf]. destruct (prod_skip_fac (filter has_symany ts) (Forall_filter _ _ _ F)) as (a & ->).
    destruct (prod_skip_fac (filter (fun t => negb (has_symany t)) ts) (Forall_filter _ _ _ F)) as (b & ->).
    cbn [bind]. eauto.
Qed.
Lemma nwf_mono t : mono t -> exists m, nwf t = Ok m.
Proof.
  intros M. pose proof M as M0. destruct M as [e F|ts L F R N]; [now apply (nwf_fac B HB X)|].
  cbn [nwf]. destruct (rcf_mono _ M0) as (p & ->). cbn [bind].
  match goal with |- exists m, (ns <- ?g ts;; _) = Ok m => assert (G : exists ns, g ts = Ok ns) end.
  { clear -F HB. induction F as [|t l T H (ns & IH)]; [eauto|]. rewrite IH. destruct (has_symany t); [|eauto].
    destruct (nwf_fac B HB X t T) as (m & ->). cbn [bind]. eauto. }
  destruct G as (ns & ->). cbn [bind]. destruct ns as [|a [|b ns]]; eauto.
Qed.
Lemma sortable_mono c n t : mono t -> sortable c (9 + j + n) t.
Proof.
  intros M. split; [now apply nwf_mono|]. split; [|now apply repr_mono].
  unfold const_power. destruct (rcf_mono t M) as ([a b] & ->). cbn [bind].
  destruct a as [| | | | | | | | |? []| | |]; eauto.
Qed.

Lemma is_acc_mono t : mono t -> is_acc t = is_rat t.
Proof. intros [e F|ts L F R N]; [ofacs F|reflexivity]. Qed.
Lemma atom_noacc a : atom a -> is_acc a = false /\ is_rat a = false.
Proof. intros [s Hs|s q Hs Hq H0]; [opb|]; split; reflexivity. Qed.
Lemma atom_filter l : Forall fac l -> Forall atom (filter (fun t => negb (is_acc t)) l) /\ Forall (fun t => is_rat t = true) (filter is_acc l) /\
  filter is_acc l = rats l.
Proof.
  induction 1 as [|t l T H (A1 & A2 & C)]; [simpl; auto|]. unfold rats in *. cbn [filter]. destruct T as [a A|q].
  - destruct (atom_noacc a A) as [-> ->]. cbn [negb]. auto.
  - cbn [is_acc is_rat negb]. rewrite C. repeat split; auto. rewrite <- C. auto.
Qed.
Lemma names_filter l : Forall fac l -> flat_map bases (filter (fun t => negb (is_acc t)) l) = flat_map bases l.
Proof. induction 1 as [|t l T H IH]; auto. cbn [filter]. destruct T as [a A|q]; [destruct (atom_noacc a A) as [-> _]|]; cbn [negb is_acc flat_map]; rewrite IH; auto. Qed.
Lemma filter_len l : Forall fac l -> (List.length (rats l) + List.length (filter (fun t => negb (is_acc t)) l) = List.length l)%nat.
Proof. induction 1 as [|t l T H IH]; auto. unfold rats in *. cbn [filter]. destruct T as [a A|q]; [destruct (atom_noacc a A) as [-> ->]|]; simpl; lia. Qed.

Lemma atom_bases a : atom a -> exists b, bases a = [b].
Proof. intros [s Hs|s q Hs Hq H0]; [opb|]; simpl; eauto. Qed.
Lemma decon_prod_mono t cs ncf : mono t -> is_rat t = false -> decon_prod t = (cs, ncf) ->
  Forall (fun t => is_rat t = true) cs /\ Forall atom ncf /\ ncf <> [] /\ NoDup (flat_map bases ncf).
Proof.
  intros [e F|ts L F R N] Hr E.
  - assert (E' : decon_prod e = ([ERat 1], [e])) by (ofacs F; discriminate).
    rewrite E' in E. injection E as <- <-. destruct F as [a A|q]; [|discriminate]. repeat split; auto; try discriminate.
    simpl. rewrite app_nil_r. destruct (atom_bases a A) as (b & ->). repeat constructor; auto.
  - cbn [decon_prod] in E. injection E as <- <-. destruct (atom_filter ts F) as (A & A2 & C). repeat split; auto.
    + destruct (filter is_acc ts); auto.
    + intros E. pose proof (filter_len ts F) as Hl. rewrite E in Hl. simpl in Hl. lia.
    + rewrite names_filter; auto.
Qed.
Lemma coin_fac a b : fac a -> fac b -> coin a b = false.
Proof.
  intros [a1 [s Hs|s q Hs Hq H0]|q] [a2 [s' Hs'|s' q' Hs' Hq' H0']|q']; try reflexivity.
  - now apply (op_coin HB).
  - opb; reflexivity.
  - opb; reflexivity.
  - opb; reflexivity.
  - cbn [coin]. now rewrite (op_coin HB).
  - opb; reflexivity.
Qed.
Lemma coinl_fac l m : Forall fac l -> Forall fac m -> coinl l m = false.
Proof. intros H. revert m. induction H as [|a l A H IH]; intros m Hm; simpl; auto. destruct Hm; auto. rewrite coin_fac, IH; auto. Qed.
Lemma atoms_fac l : Forall atom l -> Forall fac l.
Proof. apply Forall_impl. auto. Qed.
Lemma decon_prod_facs t cs ncf : mono t -> decon_prod t = (cs, ncf) -> Forall fac ncf /\ Forall (fun t => is_rat t = true) cs.
Proof.
  intros M E. destruct (is_rat t) eqn:R.
  - destruct t; try discriminate. simpl in E. injection E as <- <-. auto.
  - destruct (decon_prod_mono t cs ncf M R E) as (A & A2 & _). split; auto. now apply atoms_fac.
Qed.
Lemma split_like_mono c ncf l : Forall fac ncf -> Forall mono l ->
  exists hits rest, split_like c ncf l = Ok (hits, rest) /\ Forall (fun t => is_rat t = true) hits /\ Forall mono rest /\
    (List.length rest <= List.length l)%nat.
Proof.
  intros F H. induction H as [|t l T H (hits & rest & IH & I1 & I2 & I3)]; cbn [split_like]; [exists [], []; auto|].
  destruct (decon_prod t) as [cs ncf2] eqn:E. destruct (decon_prod_facs t cs ncf2 T E) as (A & A2).
  unfold py_eql. rewrite (coinl_fac _ _ F A), andb_false_r. cbn [bind]. rewrite IH. cbn [bind].
  destruct (eeqbl ncf ncf2).
  - exists (cs ++ hits), rest. repeat split; auto. apply Forall_app; auto. simpl. lia.
  - exists hits, (t :: rest). repeat split; auto. simpl. lia.
Qed.
Lemma prod_skip_atoms l : Forall atom l -> l <> [] -> NoDup (flat_map bases l) ->
  exists e, prod_skip l = Ok e /\ mono e.
Proof.
  intros A Ne N. destruct l as [|a [|b l]]; [congruence| |].
  - inversion A as [|? ? A1 _]; subst. exists a. split; auto. destruct A1 as [s Hs|s q Hs Hq H0]; [opb|]; reflexivity.
  - exists (EProd (a :: b :: l)). split; [now destruct a|]. apply omono_prod; auto.
    + simpl; lia.
    + now apply atoms_fac.
    + rewrite (rats_atoms B HB X) by auto. simpl; lia.
Qed.
Lemma combine_sum_go_mono c : forall f l, Forall mono l -> (List.length l <= f)%nat ->
  exists nc cs, combine_sum_go c f l = Ok (nc, cs) /\ Forall mono nc /\ Forall (fun t => is_rat t = true) cs.
Proof.
  induction f as [|f IH]; intros l Hl Hf; (destruct l as [|t l]; [exists [], []; auto|]); [simpl in Hf; lia|].
  inversion Hl as [|? ? T Hl']; subst. cbn [combine_sum_go]. simpl in Hf. rewrite (is_acc_mono t T).
  destruct (is_rat t) eqn:R.
  - destruct (IH l Hl' ltac:(lia)) as (nc & cs & -> & A & A2). cbn [bind]. exists nc, (t :: cs). auto.
  - destruct (decon_prod t) as [coeffs ncf] eqn:E. destruct (decon_prod_mono t _ _ T R E) as (D1 & D2 & D3 & D4).
    destruct (split_like_mono c ncf l (atoms_fac _ D2) Hl') as (hits & rest & -> & I1 & I2 & I3). cbn [bind].
    destruct (IH rest I2 ltac:(lia)) as (nc & cs & -> & A & A2). cbn [bind].
    destruct hits as [|h hits]; [exists (t :: nc), cs; auto|].
    destruct (acc_sum_rats (coeffs ++ h :: hits)) as (q & -> & _); [apply Forall_app; auto|]. cbn [bind].
    destruct (isq (ERat q) 0); [exists nc, cs; auto|].
    destruct (isq (ERat q) 1).
    + destruct (prod_skip_atoms ncf D2 D3 D4) as (e & -> & Me). cbn [bind]. exists (e :: nc), cs. auto.
    + assert (Ep : prod_skip (ERat q :: ncf) = Ok (EProd (ERat q :: ncf))) by (destruct ncf; [congruence|reflexivity]).
      rewrite Ep. cbn [bind]. exists (EProd (ERat q :: ncf) :: nc), cs. repeat split; auto. constructor; auto.
      apply omono_prod; auto.
      * destruct ncf; [congruence|simpl; lia].
      * constructor; auto. now apply atoms_fac.
      * unfold rats. simpl. fold (rats ncf). rewrite (rats_atoms B HB X) by auto. simpl; lia.
Qed.
Lemma flat_mono e : mono e -> flat_sum1 e = [e].
Proof. intros [t F|ts L F R N]; [ofacs F|reflexivity]. Qed.
Lemma sum_body_mono c n l : Forall mono l -> exists r, sum_body c (K c (9 + j + n)) l = Ok r /\ poly r.
Proof.
  intros H. unfold sum_body, combine_sum.
  assert (Fl : flat_sum l = l).
  { clear -H HB. induction H as [|t l T H IH]; auto. unfold flat_sum in *. simpl. now rewrite IH, (flat_mono t T). }
  rewrite Fl. destruct (combine_sum_go_mono c (List.length l) l H (Nat.le_refl _)) as (nc & cs & -> & A & A2). cbn [bind].
  assert (Fin : forall ts, Forall mono ts -> exists r, match ts with
      | [] => Ok (ERat 0) | [t] => Ok t | _ => s <- sort_terms (K c (9 + j + n)) ts;; Ok (ESum (rev s)) end = Ok r /\ poly r).
  { intros ts F. destruct ts as [|t [|u ts]].
    - exists (ERat 0). auto.
    - exists t. inversion F; subst. auto.
    - destruct (sort_ok c (9 + j + n) (t :: u :: ts)) as (s & -> & P).
      { eapply Forall_impl; [|exact F]. intros a Ha. now apply sortable_mono. }
      cbn [bind]. exists (ESum (rev s)). split; auto. apply opoly_sum.
      + rewrite rev_length. apply Permutation_length in P. simpl in P. lia.
      + apply Forall_rev. eapply Permutation_Forall; eauto. }
  destruct cs as [|t cs].
  - cbn [bind]. apply Fin. auto.
  - destruct (acc_sum_rats (t :: cs) A2) as (q & -> & _). cbn [bind].
    destruct (isq (ERat q) 0); cbn [bind]; apply Fin; auto. apply Forall_app. auto.
Qed.
Lemma flat_poly t : poly t -> Forall mono (flat_sum1 t).
Proof.
  intros [e M|ts L F].
  - rewrite (flat_mono e M). auto.
  - cbn [flat_sum1]. clear L. induction F as [|t0 l0 T F IH]; simpl; auto. rewrite (flat_mono t0 T). simpl. auto.
Qed.
(** Sum of polynomials is a polynomial *)
Theorem k_sum_polyJ c n l : Forall poly l -> exists r, k_sum (K c (10 + j + n)) l = Ok r /\ poly r.
Proof.
  intros H. assert (F : Forall mono (flat_sum l)).
  { unfold flat_sum. induction H as [|t l T H IH]; simpl; auto. apply Forall_app. split; auto. now apply flat_poly. }
  destruct (sum_body_mono c n (flat_sum l) F) as (r & E & P). exists r. split; auto.
  change (K c (10 + j + n)) with (build c (K c (9 + j + n))). cbn [build k_sum]. unfold sum_body in *.
  assert (Fl : flat_sum (flat_sum l) = flat_sum l).
  { clear -F HB. induction F as [|t l' T H IH]; auto. unfold flat_sum at 1. simpl. fold (flat_sum l'). now rewrite IH, (flat_mono t T). }
  now rewrite Fl in E.
Qed.
Lemma k_prod_monosJ c n l : Forall mono l -> exists r, k_prod (K c (6 + j + n)) l = Ok r /\ mono r.
Proof. intros H. destruct (k_prod_mono B HB X XC XA X1 c n l H) as (r & E & M & _). eauto. Qed.
Theorem op_add_polyJ c n a b : poly a -> poly b -> exists r, op_add (K c (10 + j + n)) a b = Ok r /\ poly r.
Proof.
  intros A A2. destruct (k_sum_polyJ c n [a; b]) as (r & E & P); [auto|].
  unfold op_add. destruct a, b; eauto. exists (rat (q + q0)). split; [reflexivity|apply opoly_mono, omono_fac, ofac_rat].
Qed.
Theorem op_mul_monoJ c n a b : mono a -> mono b -> exists r, op_mul (K c (6 + j + n)) a b = Ok r /\ mono r.
Proof.
  intros A A2. destruct (k_prod_monosJ c n [a; b]) as (r & E & P); [auto|].
  unfold op_mul. destruct a, b; eauto. exists (rat (q * q0)). split; [reflexivity|apply omono_fac, ofac_rat].
Qed.
Lemma op_neg_monoJ c n a : mono a -> exists r, op_neg (K c (6 + j + n)) a = Ok r /\ mono r.
Proof.
  intros A. destruct (op_mul_monoJ c n (ERat (-1)) a) as (r & E & P); auto.
  exists r. split; auto. rewrite <- E. destruct A as [e F|ts L F R N]; [|reflexivity]. ofacs F.
Qed.
Theorem op_neg_polyJ c n a : poly a -> exists r, op_neg (K c (10 + j + n)) a = Ok r /\ poly r.
Proof.
  intros [e M|ts L F].
  - destruct (op_neg_monoJ c (4 + n) e M) as (r & E & P). replace (6 + j + (4 + n))%nat with (10 + j + n)%nat in E by lia. exists r. auto.
  - cbn [op_neg]. match goal with |- exists r, (ts' <- ?g ts;; _) = Ok r /\ _ => assert (G : exists ts', g ts = Ok ts' /\ Forall mono ts') end.
    { clear L. induction F as [|t l T F (l' & E & Fl')]; [eauto|]. destruct (op_neg_monoJ c (4 + n) t T) as (r & Er & M).
      replace (6 + j + (4 + n))%nat with (10 + j + n)%nat in Er by lia. rewrite Er. cbn [bind]. rewrite E. cbn [bind]. eauto. }
    destruct G as (ts' & -> & F'). cbn [bind]. apply k_sum_polyJ. eapply Forall_impl; [|exact F']. auto.
Qed.
Lemma nwf_poly t : poly t -> exists m, nwf t = Ok m.
Proof.
  intros [e M|ts L F]; [now apply nwf_mono|]. cbn [nwf]. destruct (has_symany (ESum ts)); [|eauto].
  match goal with |- exists r, (ts' <- ?g ts;; _) = Ok r => assert (G : exists ts', g ts = Ok ts') end.
  { clear L. induction F as [|u l T F (l' & E)]; [eauto|]. destruct (nwf_mono u T) as (m & ->). cbn [bind]. rewrite E. cbn [bind]. eauto. }
  destruct G as (ts' & ->). cbn [bind]. eauto.
Qed.
(** multiplying a sum by -1 distributes *)
Lemma k_prod_neg_sum c n ts : poly (ESum ts) ->
  exists r, k_prod (K c (11 + j + n)) [ERat (-1); ESum ts] = Ok r /\ poly r.
Proof.
  intros P. change (K c (11 + j + n)) with (build c (K c (10 + j + n))). cbn [build k_prod]. unfold prod_body.
  change (flat_prod [ERat (-1); ESum ts]) with [ERat (-1); ESum ts]. unfold combine_prod.
  cbn [List.length combine_prod_go decon_pow split_base]. unfold py_eq. cbn [coin eeqb]. rewrite andb_false_r.
  cbn [bind split_base decon_pow combine_prod_go add_term is_acc fst snd acc_prod]. change (isq (ERat (-1)) 0) with false.
  change (isq (ERat (-1)) 1) with false. cbn [bind app]. unfold sort_terms. cbn [foldM insert_term bind].
  destruct (nwf_poly _ P) as (m & Em).
  assert (L : lt_terms (K c (10 + j + n)) (ERat (-1)) (ESum ts) = Ok true).
  { unfold lt_terms. rewrite Em. cbn [nwf bind Nat.eqb andb symboless_nest]. destruct m; reflexivity. }
  rewrite L. cbn [bind]. change (isq (ERat (-1)) (-1)) with true. cbv iota. now apply op_neg_polyJ.
Qed.
Theorem op_sub_polyJ c n a b : poly a -> poly b -> exists r, op_sub (K c (11 + j + n)) a b = Ok r /\ poly r.
Proof.
  intros A A2.
  assert (M : exists r, op_mul (K c (11 + j + n)) (ERat (-1)) b = Ok r /\ poly r).
  { destruct A2 as [b A2|ts L F].
    - destruct (op_mul_monoJ c (5 + n) (ERat (-1)) b) as (r & E & P); auto. replace (6 + j + (5 + n))%nat with (11 + j + n)%nat in E by lia. exists r. auto.
    - apply k_prod_neg_sum. auto. }
  destruct M as (m & E & P). destruct (op_add_polyJ c (1 + n) a m A P) as (r & Er & Pr). replace (10 + j + (1 + n))%nat with (11 + j + n)%nat in Er by lia.
  unfold op_sub. destruct a, b; try (rewrite E; cbn [bind]; exists r; auto; fail).
  exists (rat (q - q0)). split; [reflexivity|apply opoly_mono, omono_fac, ofac_rat].
Qed.
End Sums.

(** the case of bases that print with recursion bound 3 *)
Section Zero.
Context (B : expr -> Prop) (HB : opaque B) (X : expr -> Q -> Prop).
Theorem k_sum_poly c n l : Forall (opoly B X) l -> exists r, k_sum (K c (10 + n)) l = Ok r /\ opoly B X r.
Proof. exact (k_sum_polyJ B HB X c n l). Qed.
Theorem op_add_poly c n a b : opoly B X a -> opoly B X b -> exists r, op_add (K c (10 + n)) a b = Ok r /\ opoly B X r.
Proof. exact (op_add_polyJ B HB X c n a b). Qed.
Context (XC : forall b p q, (p == q)%Q -> X b p -> X b q) (XA : forall b p q, X b p -> X b q -> X b (p + q)%Q) (X1 : forall b, B b -> X b 1%Q).
Theorem k_prod_monos c n l : Forall (omono B X) l -> exists r, k_prod (K c (6 + n)) l = Ok r /\ omono B X r.
Proof. exact (k_prod_monosJ B HB X XC XA X1 c n l). Qed.
Theorem op_mul_mono c n a b : omono B X a -> omono B X b -> exists r, op_mul (K c (6 + n)) a b = Ok r /\ omono B X r.
Proof. exact (op_mul_monoJ B HB X XC XA X1 c n a b). Qed.
Lemma op_neg_mono c n a : omono B X a -> exists r, op_neg (K c (6 + n)) a = Ok r /\ omono B X r.
Proof. exact (op_neg_monoJ B HB X XC XA X1 c n a). Qed.
Theorem op_neg_poly c n a : opoly B X a -> exists r, op_neg (K c (10 + n)) a = Ok r /\ opoly B X r.
Proof. exact (op_neg_polyJ B HB X XC XA X1 c n a). Qed.
Theorem op_sub_poly c n a b : opoly B X a -> opoly B X b -> exists r, op_sub (K c (11 + n)) a b = Ok r /\ opoly B X r.
Proof. exact (op_sub_polyJ B HB X XC XA X1 c n a b). Qed.
End Zero.
