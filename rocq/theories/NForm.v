(** * NForm: polynomials have a normal form, and the constructors produce it (for C77).

    A term is a nonzero rational coefficient and a list of powers of distinct symbols, in the order
    of _sort_terms; a normal form is a sum of terms with different lists of powers, in the order of
    Sum.  Exponents are rational numbers in [X], in lowest terms, not 0 or 1. *)
From Coquelicot Require Import Coquelicot.
From Verif Require Import Base Expr Kernel Mono Sort Sound Frag FragLib CanonR.
From Coq Require Import Sorting.Sorted Sorting.Permutation.
Local Ltac splits := repeat match goal with |- _ /\ _ => split end.
Local Open Scope Z_scope.

(** ** Specification *)
Definition lowest (q : Q) : Prop := Qred q = q.
Section Spec.
Context (X : Q -> Prop) (c : cfg).
Inductive natom : expr -> Prop :=
| na_sym s : ident s -> natom (ESym s)
| na_pow s q : ident s -> X q -> lowest q -> ~ (q == 0)%Q -> ~ (q == 1)%Q -> natom (EPow (ESym s) (ERat q)).
(** in the order of _sort_terms *)
Definition ordered (l : list expr) : Prop := exists m, StronglySorted (ltk (K c m)) l.
Definition natoms (l : list expr) : Prop := Forall natom l /\ NoDup (flat_map names l) /\ ordered l.
Definition nterm (t : Q * list expr) : Prop := lowest (fst t) /\ ~ (fst t == 0)%Q /\ natoms (snd t).
Definition term (t : Q * list expr) : expr :=
  let (a, l) := t in
  if Qeq_bool a 1 then match l with [] => ERat a | [x] => x | _ => EProd l end
  else match l with [] => ERat a | _ => EProd (ERat a :: l) end.
Definition sum_of (l : list expr) : expr := match l with [] => ERat 0 | [t] => t | _ => ESum l end.
Definition nform (e : expr) : Prop :=
  exists L, Forall nterm L /\ NoDup (map snd L) /\ ordered (rev (map term L)) /\ e = sum_of (map term L).
(** a term or 0 *)
Definition nt0 (e : expr) : Prop := e = ERat 0 \/ exists t, nterm t /\ e = term t.
End Spec.

Arguments term t : simpl never.
Arguments sum_of l : simpl never.
Lemma lowest_red q : lowest (Qred q).
Proof. apply qred_red. Qed.
Lemma lowest_eq p q : lowest p -> lowest q -> (p == q)%Q -> p = q.
Proof. unfold lowest. intros A B E. rewrite <- A, <- B. now apply Qred_complete. Qed.
Lemma lowest_z z : lowest (inject_Z z).
Proof.
  unfold lowest. pose proof (RealLemmas.numer_inject z) as A. pose proof (RealLemmas.qisint_inject z) as B.
  unfold qisint, denom in B. unfold numer in A. apply Z.eqb_eq in B. destruct (Qred (inject_Z z)) as [a b]. cbn in *. subst a.
  unfold inject_Z. f_equal. lia.
Qed.
Lemma ident_ne s : ident s -> s <> ""%string.
Proof. now intros (_ & H & _). Qed.

Section NF.
Context (X : Q -> Prop) (XC : forall p q, (p == q)%Q -> X p -> X q) (XA : forall p q, X p -> X q -> X (p + q)%Q) (X1 : X 1%Q).
Context (c : cfg).
Notation natom := (natom X). Notation natoms := (natoms X c). Notation nterm := (nterm X c). Notation nform := (nform X c). Notation nt0 := (nt0 X c).
Notation ordered := (ordered c).
Notation atom := (atom X). Notation fac := (fac X). Notation mono := (mono X). Notation poly := (poly X).

(** ** Order *)
Lemma ltk_fuel n m a b : (n <= m)%nat -> ltk (K c n) a b -> ltk (K c m) a b.
Proof.
  intros L (na & nb & Ha & Hb & H). exists na, nb. splits; auto.
  assert (R : rle_repr (K c n) a b -> rle_repr (K c m) a b).
  { intros (ra & rb & Ra & Rb & S). exists ra, rb. splits; auto.
    - exact (rle_ok _ _ _ (le_repr _ _ (K_mono c c n m (cle_refl c) L) a) Ra).
    - exact (rle_ok _ _ _ (le_repr _ _ (K_mono c c n m (cle_refl c) L) b) Rb). }
  destruct H as [H|[E H]]; [auto|]. right. split; auto. destruct H as [[H0 H]|[H0 (pa & pb & Pa & Pb & H)]].
  - left. split; auto. destruct H as [H|[E2 H]]; auto.
  - right. split; auto. exists pa, pb. splits; auto. destruct H as [H|[E2 H]]; auto.
Qed.
Lemma sorted_fuel n m l : (n <= m)%nat -> StronglySorted (ltk (K c n)) l -> StronglySorted (ltk (K c m)) l.
Proof.
  intros L. induction 1 as [|a l S IH F]; constructor; auto. eapply Forall_impl; [|exact F]. intros b. now apply ltk_fuel.
Qed.
Lemma ordered_nil : ordered [].
Proof. exists 0%nat. constructor. Qed.
Lemma ordered_one a : ordered [a].
Proof. exists 0%nat. repeat constructor. Qed.

(** ** Factors *)
Definition nice (e : expr) : Prop :=
  match e with
  | ESym s => ident s
  | EPow (ESym s) (ERat q) => ident s /\ lowest q /\ ~ (q == 1)%Q
  | ERat q => lowest q
  | _ => False
  end.
Lemma natom_atom e : natom e -> atom e /\ nice e.
Proof. intros [s I|s q I Hx Hl H0 H1]; cbn; splits; auto; constructor; auto using ident_ne. Qed.
Lemma atom_natom e : atom e -> nice e -> natom e.
Proof. intros [s Hs|s q Hs Hx H0]; cbn; [|intros (I & Hl & H1)]; constructor; auto. Qed.
Lemma natoms_atoms l : Forall natom l -> Forall atom l /\ Forall nice l.
Proof. induction 1 as [|a l A F [I J]]; auto. destruct (natom_atom a A). auto. Qed.
Lemma atoms_natoms l : Forall atom l -> Forall nice l -> Forall natom l.
Proof. induction 1 as [|a l A F IH]; intros N; inversion N; subst; auto using atom_natom. Qed.

Lemma split_base_nice k b l : forall p h x rest, Forall nice l -> lowest p ->
  split_base c k b (ERat p) l = Ok (h, x, rest) -> Forall nice rest /\ exists p', x = ERat p' /\ lowest p'.
Proof.
  induction l as [|t l IH]; intros p h x rest N Hp; cbn [split_base].
  - intros E. injection E as <- <- <-. eauto.
  - inversion N as [|? ? Nt Nl]; subst.
    assert (D : exists ob q, decon_pow t = (ob, ERat q) /\ lowest q).
    { destruct t; try contradiction; cbn [decon_pow].
      - exists (ERat q), 1%Q. split; reflexivity.
      - exists (ESym s), 1%Q. split; reflexivity.
      - cbn in Nt. destruct t1; try contradiction. destruct t2; try contradiction. destruct Nt as (_ & L & _). eauto. }
    destruct D as (ob & q & -> & Lq). intros E. apply bind_ok in E as (bb & _ & E). destruct bb.
    + cbn [op_add bind] in E. apply bind_ok in E as ([[h' x'] rest'] & E' & E). injection E as <- <- <-.
      unfold rat in E'. exact (IH _ _ _ _ Nl (lowest_red _) E').
    + apply bind_ok in E as ([[h' x'] rest'] & E' & E). injection E as <- <- <-.
      destruct (IH _ _ _ _ Nl Hp E') as (A & B). split; auto.
Qed.
Lemma pow_rat_lowest k p q r : lowest p -> qisint q = true -> ((p == 0)%Q -> (0 <= q)%Q) -> pow_body c k (ERat p) (ERat q) = Ok (ERat r) -> lowest r.
Proof.
  intros Hp Hi H0. unfold pow_body. destruct (isq (ERat q) 0) eqn:E0; [intros E; injection E as <-; reflexivity|].
  destruct (isq (ERat q) 1); [intros E; injection E as <-; auto|].
  destruct (isq (ERat p) 1); [intros E; injection E as <-; reflexivity|].
  cbn [is_acc andb]. unfold acc_pow. rewrite !int_pow_int by auto.
  destruct (qis0 p) eqn:Zp.
  - apply qis0_iff in Zp. specialize (H0 Zp). apply isq_rat_f in E0.
    assert (G : qgt0 q = true). { apply qgt0_iff. destruct (Qlt_le_dec 0 q); auto. exfalso. apply E0. now apply Qle_antisym. }
    rewrite G. cbn [bind]. intros E. injection E as <-. reflexivity.
  - cbn [bind]. destruct (qgt0 q); unfold rat; intros E; injection E as <-; apply lowest_red.
Qed.
Lemma combine_prod_go_nice n : forall f l, Forall fac l -> Forall nice l -> (List.length l <= f)%nat ->
  exists nc cs, combine_prod_go c (K c (S n)) f l = Ok (nc, cs) /\ Forall nice nc /\ Forall nice cs.
Proof.
  induction f as [|f IH]; intros l Hl Nl Hf.
  - destruct l; simpl in Hf; [|lia]. exists [], []. auto.
  - destruct l as [|t l]; [exists [], []; auto|].
    inversion Hl as [|? ? Ht Hl']; inversion Nl as [|? ? Nt Nl']; subst. cbn [combine_prod_go]. simpl in Hf.
    destruct (fac_base X X1 t Ht) as [(s & q & E & En & Xq & Hr & Hv & Hne)|(q & ->)].
    + rewrite E. destruct (split_base_sym X XC XA X1 c (K c (S n)) s q l Xq Hl') as (h & p' & rest & Es & H1 & H2 & H3 & H4 & H5 & H6 & H7).
      rewrite Es. cbn [bind].
      assert (Lq : lowest q). { destruct Ht as [a [s' Hs'|s' q' Hs' Hq' H0']|]; cbn in E; inversion E; subst; try reflexivity. cbn in Nt. tauto. }
      assert (Is : ident s). { destruct Ht as [a [s' Hs'|s' q' Hs' Hq' H0']|]; cbn in E; inversion E; subst; cbn in Nt; tauto. }
      destruct (split_base_nice _ _ _ _ _ _ _ Nl' Lq Es) as (Nr & p2 & Ep & Lp). injection Ep as <-.
      destruct (IH rest H2 Nr ltac:(lia)) as (nc & cs & Er & I1 & I2). rewrite Er.
      assert (Tail : forall a, nice a -> exists nc0 cs0, Ok (add_term a (nc, cs)) = Ok (nc0, cs0) /\ Forall nice nc0 /\ Forall nice cs0).
      { intros a Na. unfold add_term. destruct (is_acc a); eexists _, _; split; try reflexivity; auto. }
      destruct h; [|cbn [bind]; now apply Tail].
      destruct (isq (ERat p') 0) eqn:E0; [exists nc, cs; auto|].
      destruct (isq (ERat p') 1) eqn:E1; cbn [bind]; [now apply Tail|].
      rewrite k_pow_sym. unfold isq in E0, E1. rewrite E0, E1. cbn [bind]. apply Tail. cbn. splits; auto. now apply Qeq_bool_neq.
    + cbn [decon_pow]. destruct (split_base_rat X X1 c (K c (S n)) q l Hl' 1%Q eq_refl ltac:(reflexivity)) as (h & p' & rest & Es & H1 & H2 & H3 & H4 & H5 & H6 & H7).
      rewrite Es. cbn [bind]. assert (L1 : lowest 1) by reflexivity.
      assert (Tail : forall nc cs, Forall nice nc -> Forall nice cs -> exists nc0 cs0, @Ok (list expr * list expr) (nc, ERat q :: cs) = Ok (nc0, cs0) /\ Forall nice nc0 /\ Forall nice cs0).
      { intros nc cs A B. exists nc, (ERat q :: cs). splits; auto. }
      destruct (split_base_nice _ _ _ _ _ _ _ Nl' L1 Es) as (Nr & p2 & Ep & Lp). injection Ep as <-.
      destruct (IH rest H4 Nr ltac:(lia)) as (nc & cs & Er & I1 & I2). rewrite Er.
      destruct h; [|now apply Tail].
      destruct (isq (ERat p') 0) eqn:E0; [exists nc, cs; auto|].
      destruct (isq (ERat p') 1) eqn:E1; cbn [bind]; [now apply Tail|].
      assert (P0 : (q == 0)%Q -> (0 <= p')%Q). { intros _. eapply Qle_trans; [|exact H2]. discriminate. }
      destruct (k_pow_int c n q p' H1 P0) as (r & Ek & _). rewrite Ek. cbn [bind]. unfold add_term. cbn [is_acc fst snd].
      exists nc, (ERat r :: cs). splits; auto. constructor; auto. cbn. eapply (pow_rat_lowest (K c n) q p'); eauto.
Qed.
Lemma acc_prod_lowest l q : Forall (fun t => is_rat t = true) l -> Forall nice l -> acc_prod l = Ok (ERat q) -> lowest q.
Proof.
  intros R N. unfold acc_prod.
  assert (G : forall l, Forall (fun t => is_rat t = true) l -> forall a r, lowest a -> foldM val_mul l (ERat a) = Ok (ERat r) -> lowest r).
  { clear. induction 1 as [|t l T F IH]; intros a r La; cbn [foldM]; [intros E; injection E as <-; auto|].
    destruct t; try discriminate. cbn [val_mul bind]. unfold rat. apply IH. apply lowest_red. }
  destruct l as [|t [|u l]]; try (apply G; [auto|reflexivity]). intros E. injection E as ->. inversion N; auto.
Qed.
Lemma acc_sum_lowest l q : Forall (fun t => is_rat t = true) l -> Forall nice l -> acc_sum l = Ok (ERat q) -> lowest q.
Proof.
  intros R N. unfold acc_sum.
  assert (G : forall l, Forall (fun t => is_rat t = true) l -> forall a r, lowest a -> foldM val_add l (ERat a) = Ok (ERat r) -> lowest r).
  { clear. induction 1 as [|t l T F IH]; intros a r La; cbn [foldM]; [intros E; injection E as <-; auto|].
    destruct t; try discriminate. cbn [val_add bind]. unfold rat. apply IH. apply lowest_red. }
  destruct l as [|t [|u l]]; try (apply G; [auto|reflexivity]). intros E. injection E as ->. inversion N; auto.
Qed.

(** ** Terms *)
Ltac ntspl := unfold NForm.nterm, NForm.natoms; cbn [fst snd]; splits.
Lemma term_one l : l <> [] -> term (1%Q, l) = match l with [x] => x | _ => EProd l end.
Proof. destruct l as [|a [|b l]]; [congruence|reflexivity..]. Qed.
Lemma qeqb_false a b : ~ (a == b)%Q -> Qeq_bool a b = false.
Proof. intros H. apply Bool.not_true_is_false. intros E. apply H. now apply Qeq_bool_iff. Qed.
Lemma term_ne a l : l <> [] -> ~ (a == 1)%Q -> term (a, l) = EProd (ERat a :: l).
Proof. intros N H. unfold term. rewrite (qeqb_false a 1 H). destruct l; [congruence|reflexivity]. Qed.
Lemma term_nil a : term (a, []) = ERat a.
Proof. unfold term. destruct (Qeq_bool a 1); reflexivity. Qed.
Lemma term_cases a l : lowest a -> (l = [] /\ term (a, l) = ERat a) \/ (l <> [] /\ a = 1%Q /\ term (a, l) = match l with [x] => x | _ => EProd l end) \/
  (l <> [] /\ ~ (a == 1)%Q /\ term (a, l) = EProd (ERat a :: l)).
Proof.
  intros La. destruct l as [|x l]; [left; split; [auto|apply term_nil]|]. right. destruct (Qeq_dec a 1) as [E|E].
  - left. assert (a = 1%Q) as -> by (apply lowest_eq; auto; reflexivity). splits; auto; discriminate.
  - right. splits; auto; [discriminate|]. apply term_ne; auto; discriminate.
Qed.
Lemma natom_shape x : natom x -> is_prod x = false /\ is_sum x = false /\ is_rat x = false /\ is_acc x = false /\ fac x /\ nice x.
Proof. intros A. destruct (natom_atom x A) as (B & N). splits; auto; try (destruct A; reflexivity). now apply fac_at. Qed.
Lemma term_mono t : nterm t -> mono (term t).
Proof.
  destruct t as [a l]. intros (La & H0 & F & N & O). cbn [fst snd] in *. destruct (natoms_atoms l F) as (Fa & Fn).
  assert (Ff : Forall fac l) by now apply atoms_fac.
  destruct (term_cases a l La) as [(-> & ->)|[(Ne & -> & ->)|(Ne & H1 & ->)]].
  - apply mono_fac, fac_rat.
  - destruct l as [|x [|y l]]; [congruence| |].
    + apply mono_fac. inversion Ff; auto.
    + apply mono_prod; auto; [cbn; lia|]. rewrite (rats_atoms X) by auto. cbn. lia.
  - apply mono_prod; auto.
    + destruct l; [congruence|cbn; lia].
    + constructor; auto. apply fac_rat.
    + unfold rats. cbn [filter is_rat]. fold (rats l). rewrite (rats_atoms X) by auto. cbn. lia.
Qed.
Lemma nt0_mono e : nt0 e -> mono e.
Proof. intros [->|(t & T & ->)]; [apply mono_fac, fac_rat|now apply term_mono]. Qed.
Lemma term_rat a : ~ (a == 0)%Q -> lowest a -> nterm (a, []).
Proof. intros H L. ntspl; auto; [constructor|apply ordered_nil]. Qed.
Lemma nt0_rat a : lowest a -> nt0 (ERat a).
Proof.
  intros L. destruct (Qeq_dec a 0) as [E|E]; [left; f_equal; apply lowest_eq; auto; reflexivity|].
  right. exists (a, []). split; [now apply term_rat|]. now rewrite term_nil.
Qed.
Lemma natom_term x : natom x -> nterm (1%Q, [x]) /\ term (1%Q, [x]) = x.
Proof.
  intros A. split; [|reflexivity]. ntspl; [reflexivity|discriminate|auto| |apply ordered_one].
  destruct A; cbn; repeat constructor; auto.
Qed.
(** factors of a term *)
Lemma flat_term t : nterm t -> Forall fac (flat_prod1 (term t)) /\ Forall nice (flat_prod1 (term t)).
Proof.
  destruct t as [a l]. intros (La & H0 & F & N & O). cbn [fst snd] in *. destruct (natoms_atoms l F) as (Fa & Fn).
  assert (Ff : Forall fac l) by now apply atoms_fac.
  assert (Fl : flat_prod l = l) by now apply (flat_prod_fac X).
  destruct (term_cases a l La) as [(-> & ->)|[(Ne & -> & ->)|(Ne & H1 & ->)]].
  - cbn. split; (constructor; [|constructor]); [apply fac_rat|exact La].
  - destruct l as [|x [|y l]]; [congruence| |].
    + destruct (natom_shape x) as (P & _); [now inversion F|]. assert (E : flat_prod1 x = [x]) by (destruct x; try reflexivity; discriminate).
      rewrite E. split; auto.
    + cbn [flat_prod1]. unfold flat_prod in Fl. rewrite Fl. auto.
  - cbn [flat_prod1 flat_map app]. unfold flat_prod in Fl. rewrite Fl. split; constructor; auto. apply fac_rat.
Qed.
Lemma flat_nt0 l : Forall nt0 l -> Forall fac (flat_prod l) /\ Forall nice (flat_prod l).
Proof.
  induction 1 as [|t l T F [A B]]; [split; constructor|]. unfold flat_prod in *. cbn [flat_map]. rewrite !Forall_app.
  destruct T as [->|(u & T & ->)].
  - cbn. splits; auto; (constructor; [|constructor]); [apply fac_rat|reflexivity].
  - destruct (flat_term u T). auto.
Qed.
Lemma nwf_natom x : natom x -> exists n, nwf x = Ok (S n).
Proof. intros [s I|s q I Hx Hl H0 H1]; cbn; eauto. Qed.
(** the number comes first *)
Lemma sorted_rat_first m s q nc : Forall natom nc -> StronglySorted (ltk (K c m)) s -> Permutation (nc ++ [ERat q]) s ->
  exists l, s = ERat q :: l /\ Permutation nc l.
Proof.
  intros F S P. destruct s as [|x s]; [symmetry in P; apply Permutation_nil in P; destruct nc; discriminate|].
  assert (Ix : In x (nc ++ [ERat q])) by (rewrite P; now left). apply in_app_or in Ix as [Ix|[<-|[]]].
  - exfalso. rewrite Forall_forall in F. pose proof (F x Ix) as A.
    assert (Iq : In (ERat q) (x :: s)) by (rewrite <- P; apply in_or_app; right; now left).
    destruct Iq as [->|Iq]; [inversion A|]. inversion S as [|? ? _ Fs]; subst. rewrite Forall_forall in Fs.
    destruct (Fs _ Iq) as (na & nb & Ea & Eb & H). destruct (nwf_natom x A) as (k & Ek). rewrite Ek in Ea. injection Ea as <-.
    cbn in Eb. injection Eb as <-. destruct H as [H|[H _]]; lia.
  - exists s. split; auto. rewrite <- Permutation_cons_append in P. now apply Permutation_cons_inv in P.
Qed.
Lemma sorted_cons_inv {A} (R : A -> A -> Prop) a l : StronglySorted R (a :: l) -> StronglySorted R l.
Proof. now inversion 1. Qed.
(** ** Prod of terms is a term *)
Lemma prod_body_nt n l r : Forall nt0 l -> prod_body c (K c (S (S (S n)))) l = Ok r -> nt0 r.
Proof.
  intros H. destruct (flat_nt0 l H) as (Ff & Fn). unfold prod_body, combine_prod. generalize dependent (flat_prod l). clear l H. intros l Ff Fn.
  destruct (combine_prod_go_fac X XC XA X1 c (S (S n)) (List.length l) l Ff (Nat.le_refl _)) as (nc & cs & E & I1 & I2 & I3 & I4 & I5).
  destruct (combine_prod_go_nice (S (S n)) (List.length l) l Ff Fn (Nat.le_refl _)) as (nc' & cs' & E' & J1 & J2).
  rewrite E in E'. injection E' as <- <-. rewrite E. cbn [bind]. clear E. pose proof (atoms_natoms nc I1 J1) as Na.
  assert (Perm : forall s, StronglySorted (ltk (K c (S (S (S n))))) s -> Permutation nc s -> natoms s).
  { intros s S P. ntspl; [eapply Permutation_Forall; eauto| |exists (Datatypes.S (Datatypes.S (Datatypes.S n))); auto].
    eapply Permutation_NoDup; [|exact I4]. now apply Permutation_flat_map. }
  assert (NS : forall s r, Forall fac s -> match s with
             | [t0; ESum us] => if isq t0 (-1) then op_neg (K c (S (S (S n)))) (ESum us) else Ok (EProd s)
             | _ => Ok (EProd s)
             end = Ok r -> r = EProd s).
  { intros s r' Fs. destruct s as [|a [|b [|? ?]]]; try (intros Q; injection Q as <-; reflexivity).
    - inversion Fs as [|? ? _ F2]; subst. inversion F2 as [|? ? F3 _]; subst.
      destruct F3 as [b [s' Hs|s' q Hs Hq H0]|q]; intros Q; injection Q as <-; reflexivity.
    - destruct b; intros Q; injection Q as <-; reflexivity. }
  assert (One : match nc with
      | [] => Ok (ERat 1)
      | [t] => Ok t
      | _ => s <- sort_terms (K c (S (S (S n)))) nc;;
             match s with
             | [t0; ESum us] => if isq t0 (-1) then op_neg (K c (S (S (S n)))) (ESum us) else Ok (EProd s)
             | _ => Ok (EProd s)
             end
      end = Ok r -> nt0 r).
  { destruct nc as [|t [|u nc]].
    - intros Q. injection Q as <-. apply nt0_rat. reflexivity.
    - intros Q. injection Q as <-. right. exists (1%Q, [t]). inversion Na; subst. now destruct (natom_term t H1).
    - intros Q. apply bind_ok in Q as (s & Es & Q). apply sort_terms_spec in Es as [Ss P]. pose proof (Perm s Ss P) as Ns.
      apply NS in Q as ->; [|apply atoms_fac; now apply natoms_atoms, Ns].
      right. exists (1%Q, s). split; [ntspl; [reflexivity|discriminate|apply Ns..]|].
      apply Permutation_length in P. destruct s as [|? [|? ?]]; try discriminate. reflexivity. }
  destruct cs as [|t cs]; [cbn [bind]; exact One|].
  destruct (acc_prod_rats (t :: cs) I2) as (q & Eq & _). rewrite Eq. cbn [bind].
  pose proof (acc_prod_lowest _ q I2 J2 Eq) as Lq.
  destruct (isq (ERat q) 0) eqn:E0; [cbn [bind]; intros Q; injection Q as <-; now apply nt0_rat|].
  destruct (isq (ERat q) 1) eqn:E1; [cbn [bind]; exact One|]. cbn [bind]. apply isq_rat_f in E0, E1.
  destruct (nc ++ [ERat q]) as [|t0 [|u0 l0]] eqn:En.
  - destruct nc; discriminate.
  - destruct nc as [|? [|? ?]]; try discriminate. injection En as <-. intros Q. injection Q as <-. now apply nt0_rat.
  - rewrite <- En. intros Q. apply bind_ok in Q as (s & Es & Q). apply sort_terms_spec in Es as [Ss P].
    apply NS in Q as ->; [|eapply Permutation_Forall; [exact P|]; apply Forall_app; split; [now apply atoms_fac|repeat constructor; apply fac_rat]].
    destruct (sorted_rat_first _ s q nc Na Ss P) as (s' & -> & P'). pose proof (Perm s' (sorted_cons_inv _ _ _ Ss) P') as Ns.
    right. exists (q, s'). split; [ntspl; auto; apply Ns|]. symmetry. apply term_ne; auto.
    intros ->. symmetry in P'. apply Permutation_nil in P'. subst. discriminate.
Qed.
Theorem k_prod_nt n l r : Forall nt0 l -> k_prod (K c n) l = Ok r -> nt0 r.
Proof.
  intros F E. pose proof (rle_ok _ _ _ (le_prod _ _ (K_mono c c n (4 + n) (cle_refl c) ltac:(lia)) l) E) as E'.
  exact (prod_body_nt n l r F E').
Qed.
Theorem k_prod_total n l : Forall nt0 l -> exists r, k_prod (K c (4 + n)) l = Ok r /\ nt0 r.
Proof.
  intros F. destruct (k_prod_monos X XC XA X1 c n l) as (r & E & _); [eapply Forall_impl; [|exact F]; apply nt0_mono|].
  exists r. split; auto. eapply k_prod_nt; eauto.
Qed.

(** ** Sum of normal forms is a normal form *)
Lemma eeqb_natom a b : natom a -> natom b -> eeqb a b = true -> a = b.
Proof.
  intros [s I|s q I Hx Hl H0 H1] [s' I'|s' q' I' Hx' Hl' H0' H1']; cbn; try discriminate.
  - intros E. apply String.eqb_eq in E. congruence.
  - intros E. apply andb_prop in E as [A B]. apply String.eqb_eq in A. apply qeqb_eq in B. congruence.
Qed.
Lemma eeqbl_natom l : Forall natom l -> forall m, Forall natom m -> eeqbl l m = true -> l = m.
Proof.
  induction 1 as [|a l A F IH]; intros [|b m] G; cbn [eeqbl]; try discriminate; auto.
  inversion G; subst. intros E. apply andb_prop in E as [E1 E2]. f_equal; auto using eeqb_natom.
Qed.
Lemma eeqbl_refl l : eeqbl l l = true.
Proof. induction l; cbn [eeqbl]; auto. rewrite eeqb_refl. auto. Qed.
Lemma filter_natoms l : Forall natom l -> filter is_acc l = [] /\ filter (fun t => negb (is_acc t)) l = l.
Proof.
  induction 1 as [|x l A F [I J]]; auto. cbn [filter]. destruct (natom_shape x A) as (_ & _ & _ & -> & _). cbn [negb]. rewrite I, J. auto.
Qed.
Lemma decon_term a l : nterm (a, l) -> l <> [] -> decon_prod (term (a, l)) = ([ERat a], l).
Proof.
  intros (La & H0 & F & N & O) Ne. cbn [fst snd] in *. destruct (filter_natoms l F) as (E1 & E2).
  destruct (term_cases a l La) as [(-> & _)|[(_ & -> & ->)|(_ & H1 & ->)]]; [congruence| |].
  - destruct l as [|x [|y l]]; [congruence| |].
    + destruct (natom_shape x) as (P & _); [now inversion F|]. destruct x; try reflexivity; discriminate.
    + cbn [decon_prod]. now rewrite E1, E2.
  - cbn [decon_prod filter is_acc negb]. rewrite E1, E2. reflexivity.
Qed.
Lemma term_acc a l : nterm (a, l) -> l <> [] -> is_acc (term (a, l)) = false.
Proof.
  intros (La & H0 & F & N & O) Ne. cbn [fst snd] in *.
  destruct (term_cases a l La) as [(-> & _)|[(_ & -> & ->)|(_ & H1 & ->)]]; [congruence| |reflexivity].
  destruct l as [|x [|y l]]; [congruence| |reflexivity]. apply natom_shape. now inversion F.
Qed.
(** what a summand is: a number or a term with symbols *)
Lemma nt0_cases e : nt0 e -> (exists q, e = ERat q /\ lowest q) \/ (exists a l, nterm (a, l) /\ l <> [] /\ e = term (a, l)).
Proof.
  intros [->|([a l] & T & ->)]; [left; exists 0%Q; split; reflexivity|]. destruct l as [|x l]; [left|right].
  - exists a. rewrite term_nil. split; auto. apply T.
  - exists a, (x :: l). splits; auto. discriminate.
Qed.
Definition ats (e : expr) : list expr := snd (decon_prod e).
Lemma split_like_nt ncf l : Forall natom ncf -> ncf <> [] -> Forall nt0 l -> forall hits rest, split_like c ncf l = Ok (hits, rest) ->
  Forall (fun t => is_rat t = true) hits /\ Forall nice hits /\ Forall nt0 rest /\ Forall (fun t => ats t <> ncf) rest /\ incl rest l /\
  (List.length rest <= List.length l)%nat.
Proof.
  intros Fn Ne F. induction F as [|t l T F IH]; intros hits rest; cbn [split_like].
  - intros E. injection E as <- <-. splits; auto. apply incl_refl.
  - destruct (decon_prod t) as [cs ncf2] eqn:D. intros E. apply bind_ok in E as (b & Eb & E). apply bind_ok in E as ([hs rs] & Er & E).
    destruct (IH hs rs Er) as (I1 & I2 & I3 & I4 & I5 & I6).
    unfold py_eql in Eb. destruct (strict c && coinl ncf ncf2); [discriminate|]. injection Eb as Eb.
    destruct (nt0_cases t T) as [(q & -> & Lq)|(a & l2 & T2 & Ne2 & ->)].
    + cbn in D. injection D as <- <-.
      assert (b = false) as ->.
      { rewrite <- Eb. destruct ncf as [|x ncf]; [congruence|]. inversion Fn as [|? ? Ax _]; subst. cbn [eeqbl]. destruct Ax; reflexivity. }
      injection E as <- <-. splits; auto.
      * constructor; auto. unfold ats. cbn. intros <-. inversion Fn as [|? ? Ax _]; subst. inversion Ax.
      * intros x [<-|Hx]; [now left|right; auto].
      * cbn. lia.
    + rewrite (decon_term a l2 T2 Ne2) in D. injection D as <- <-. destruct T2 as (La & H0 & Fa & N & O). cbn [fst snd] in *.
      destruct b; injection E as <- <-.
      * cbn [app]. splits; auto; try (constructor; [exact La|auto]; fail); [intros x Hx; right; auto|cbn; lia].
      * splits; auto.
        -- constructor; auto. unfold ats. rewrite (decon_term a l2); [|ntspl; auto|auto]. cbn. intros ->. rewrite eeqbl_refl in Eb. discriminate.
        -- intros x [<-|Hx]; [now left|right; auto].
        -- cbn. lia.
Qed.
Lemma combine_sum_nt : forall f l nc cs, Forall nt0 l -> combine_sum_go c f l = Ok (nc, cs) ->
  Forall (fun t => is_rat t = true) cs /\ Forall nice cs /\
  exists L, nc = map term L /\ Forall nterm L /\ Forall (fun t => snd t <> []) L /\ NoDup (map snd L) /\ incl (map snd L) (map ats l).
Proof.
  induction f as [|f IH]; intros l nc cs F; (destruct l as [|t l]; [intros E; injection E as <- <-; splits; auto; exists []; splits; auto; [constructor|apply incl_refl]|]); [discriminate|].
  cbn [combine_sum_go]. inversion F as [|? ? T Fl]; subst. destruct (nt0_cases t T) as [(q & -> & Lq)|(a & l2 & T2 & Ne2 & ->)].
  - cbn [is_acc]. intros E. apply bind_ok in E as ([nc' cs'] & Er & E). injection E as <- <-.
    destruct (IH _ _ _ Fl Er) as (I1 & I2 & L & -> & I3 & I4 & I5 & I6). splits; auto. exists L. splits; auto.
    cbn [map]. intros x Hx. right. auto.
  - rewrite (term_acc a l2 T2 Ne2), (decon_term a l2 T2 Ne2). intros E. apply bind_ok in E as ([hits rest] & Es & E).
    apply bind_ok in E as ([nc' cs'] & Er & E). pose proof T2 as (La & H0 & Fa & N & O). cbn [fst snd] in *.
    destruct (split_like_nt l2 l Fa Ne2 Fl hits rest Es) as (S1 & S2 & S3 & S4 & S5 & S6).
    destruct (IH _ _ _ S3 Er) as (I1 & I2 & L & -> & I3 & I4 & I5 & I6).
    assert (Nin : ~ In l2 (map snd L)).
    { intros Hi. apply I6 in Hi. apply in_map_iff in Hi as (u & Eu & Hu). rewrite Forall_forall in S4. exact (S4 u Hu Eu). }
    assert (Inc : incl (map snd L) (map ats (term (a, l2) :: l))).
    { intros x Hx. apply I6 in Hx. apply in_map_iff in Hx as (u & <- & Hu). right. apply in_map. auto. }
    assert (Tail : forall b, nterm (b, l2) -> exists L0, term (b, l2) :: map term L = map term L0 /\ Forall nterm L0 /\ Forall (fun t => snd t <> []) L0 /\
      NoDup (map snd L0) /\ incl (map snd L0) (map ats (term (a, l2) :: l))).
    { intros b Tb. exists ((b, l2) :: L). splits; auto; [constructor; auto|]. cbn [map snd]. intros x [<-|Hx]; [|auto].
      left. unfold ats. now rewrite (decon_term a l2 T2 Ne2). }
    destruct hits as [|h hits]; [injection E as <- <-; splits; auto|].
    apply bind_ok in E as (co & Eco & E).
    assert (R : Forall (fun t => is_rat t = true) ([ERat a] ++ h :: hits)) by (constructor; auto).
    assert (Nn : Forall nice ([ERat a] ++ h :: hits)) by (constructor; auto).
    destruct (acc_sum_rats _ R) as (q & Eq & _). rewrite Eq in Eco. injection Eco as <-.
    pose proof (acc_sum_lowest _ q R Nn Eq) as Lq.
    destruct (isq (ERat q) 0) eqn:E0; [injection E as <- <-; splits; auto; exists L; splits; auto|]. apply isq_rat_f in E0.
    destruct (isq (ERat q) 1) eqn:E1.
    + apply isq_rat in E1. assert (q = 1%Q) as -> by (apply lowest_eq; auto; reflexivity).
      assert (Tb : nterm (1%Q, l2)) by (ntspl; auto; reflexivity).
      assert (Ep : prod_skip l2 = Ok (term (1%Q, l2))).
      { rewrite (term_one l2 Ne2). destruct l2 as [|x [|y l2]]; [congruence| |destruct x; reflexivity].
        destruct (natom_shape x) as (P & _); [now inversion Fa|]. destruct x; try reflexivity. discriminate. }
      rewrite Ep in E. cbn [bind] in E. injection E as <- <-. splits; auto.
    + apply isq_rat_f in E1. assert (Tb : nterm (q, l2)) by (ntspl; auto).
      assert (Ep : prod_skip (ERat q :: l2) = Ok (term (q, l2))) by (rewrite (term_ne q l2 Ne2 E1); destruct l2; [congruence|reflexivity]).
      rewrite Ep in E. cbn [bind] in E. injection E as <- <-. splits; auto.
Qed.
Lemma flat_sum_mono l : Forall mono l -> flat_sum l = l.
Proof.
  induction 1 as [|t l T H IH]; auto. unfold flat_sum in *. simpl. rewrite IH.
  destruct T as [e [a [s Hs|s q Hs Hq H0]|q]|ts L F R N]; reflexivity.
Qed.
Lemma sum_of_perm m L s : Forall nterm L -> NoDup (map snd L) -> (2 <= List.length L)%nat -> sort_terms (K c m) (map term L) = Ok s -> nform (ESum (rev s)).
Proof.
  intros F N Ln E. apply sort_terms_spec in E as [Ss P]. apply Permutation_sym, Permutation_map_inv in P as (L' & -> & P).
  exists (rev L'). splits.
  - apply Forall_rev. eapply Permutation_Forall; [|exact F]. now symmetry.
  - eapply Permutation_NoDup; [|exact N]. apply Permutation_map. rewrite P. apply Permutation_rev.
  - rewrite <- map_rev, rev_involutive. exists m. auto.
  - rewrite map_rev. apply Permutation_length in P. destruct L' as [|x [|y L']]; cbn in P; try lia.
    unfold sum_of. destruct (rev (map term (x :: y :: L'))) as [|u [|v w]] eqn:R; auto; apply (f_equal (@List.length expr)) in R; rewrite rev_length in R; discriminate.
Qed.
Lemma sum_body_nt m l r : Forall nt0 l -> sum_body c (K c m) l = Ok r -> nform r.
Proof.
  intros F. unfold sum_body, combine_sum. rewrite flat_sum_mono by (eapply Forall_impl; [|exact F]; apply nt0_mono).
  intros E. apply bind_ok in E as (nc & En & E). apply bind_ok in En as ([nc0 cs] & Eg & En).
  destruct (combine_sum_nt _ _ _ _ F Eg) as (R & Nn & L & -> & I3 & I4 & I5 & I6).
  assert (Fin : forall L, Forall nterm L -> NoDup (map snd L) -> match map term L with
      | [] => Ok (ERat 0) | [t] => Ok t | _ => s <- sort_terms (K c m) (map term L);; Ok (ESum (rev s)) end = Ok r -> nform r).
  { clear. intros L F N E. destruct L as [|t [|u L]].
    - injection E as <-. exists []. splits; auto. apply ordered_nil.
    - injection E as <-. exists [t]. splits; auto. apply ordered_one.
    - cbn [map] in E. apply bind_ok in E as (s & Es & E). injection E as <-. eapply sum_of_perm; eauto. cbn. lia. }
  destruct cs as [|t cs].
  - injection En as <-. now apply (Fin L).
  - apply bind_ok in En as (k0 & Ek & En). destruct (acc_sum_rats _ R) as (q & Eq & _). rewrite Eq in Ek. injection Ek as <-.
    pose proof (acc_sum_lowest _ q R Nn Eq) as Lq. destruct (isq (ERat q) 0) eqn:E0; injection En as <-; [now apply (Fin L)|].
    apply isq_rat_f in E0. rewrite <- (term_nil q) in E. change [term (q, [])] with (map term [(q, [])]) in E. rewrite <- map_app in E. revert E. apply Fin.
    + apply Forall_app. split; auto. constructor; auto. now apply term_rat.
    + rewrite map_app. cbn [map snd]. eapply Permutation_NoDup; [apply Permutation_cons_append|]. constructor; auto.
      intros Hi. apply in_map_iff in Hi as (u & Eu & Hu). rewrite Forall_forall in I4. exact (I4 u Hu Eu).
Qed.
Lemma nform_terms e : nform e -> Forall nt0 (flat_sum1 e).
Proof.
  intros (L & F & N & O & ->).
  assert (G : Forall nt0 (map term L)).
  { apply Forall_forall. intros x Hx. apply in_map_iff in Hx as (t & <- & Ht). right. rewrite Forall_forall in F. eauto. }
  assert (M : Forall mono (map term L)) by (eapply Forall_impl; [|exact G]; apply nt0_mono).
  pose proof (flat_sum_mono _ M) as Fl. destruct L as [|t [|u L]].
  - cbn. constructor; [now left|constructor].
  - unfold sum_of. cbn [map] in *. unfold flat_sum in Fl. cbn [flat_map] in Fl. rewrite app_nil_r in Fl. now rewrite Fl.
  - unfold sum_of. cbn [map]. cbn [flat_sum1]. unfold flat_sum in Fl. cbn [map] in Fl. rewrite Fl. exact G.
Qed.
Lemma nform_poly e : nform e -> poly e.
Proof.
  intros (L & F & N & O & ->).
  assert (M : Forall mono (map term L)).
  { apply Forall_forall. intros x Hx. apply in_map_iff in Hx as (t & <- & Ht). apply term_mono. rewrite Forall_forall in F. auto. }
  unfold sum_of. destruct L as [|t [|u L]]; cbn [map] in *.
  - apply poly_mono, mono_fac, fac_rat.
  - apply poly_mono. now inversion M.
  - apply poly_sum; auto. cbn. lia.
Qed.
Lemma flat_nforms l : Forall nform l -> Forall nt0 (flat_sum l).
Proof. induction 1 as [|e l E F IH]; [constructor|]. unfold flat_sum in *. cbn [flat_map]. apply Forall_app. auto using nform_terms. Qed.
Theorem k_sum_nf n l r : Forall nform l -> k_sum (K c n) l = Ok r -> nform r.
Proof.
  intros F E. destruct n as [|n]; [discriminate|]. cbn [K build k_sum] in E. pose proof (flat_nforms l F) as G.
  apply (sum_body_nt n (flat_sum l)); auto. unfold sum_body in *.
  now rewrite (flat_sum_mono (flat_sum l)) by (eapply Forall_impl; [|exact G]; apply nt0_mono).
Qed.
Lemma nt0_nform e : nt0 e -> nform e.
Proof.
  intros [->|(t & T & ->)]; [exists []|exists [t]]; splits; auto; [constructor|apply ordered_nil|repeat constructor; intros []|apply ordered_one].
Qed.
Lemma nform_nt0 e : nform e -> is_sum e = false -> nt0 e.
Proof.
  intros (L & F & N & O & ->) S. destruct L as [|t [|u L]]; [left; reflexivity|right; exists t; split; [now inversion F|reflexivity]|discriminate].
Qed.
Lemma nform_sum ts : nform (ESum ts) -> Forall nt0 ts /\ (2 <= List.length ts)%nat.
Proof.
  intros H. pose proof (nform_poly _ H) as P. destruct H as (L & F & N & O & E).
  destruct L as [|t [|u L]].
  - discriminate.
  - exfalso. unfold sum_of in E. cbn [map] in E. pose proof (term_mono t) as M. rewrite <- E in M. inversion F; subst.
    specialize (M H1). inversion M as [? Ff|]; subst. inversion Ff as [? A|]; subst. inversion A.
  - unfold sum_of in E. cbn [map] in E. injection E as ->. split; [|cbn; lia].
    rewrite Forall_forall in F. constructor; [right; exists t; split; auto; apply F; now left|].
    constructor; [right; exists u; split; auto; apply F; right; now left|].
    apply Forall_forall. intros x Hx. apply in_map_iff in Hx as (v & <- & Hv). right. exists v. split; auto. apply F. right. now right.
Qed.
Theorem k_sum_total n l : Forall nform l -> exists r, k_sum (K c (8 + n)) l = Ok r /\ nform r.
Proof.
  intros F. destruct (k_sum_poly X c n l) as (r & E & _); [eapply Forall_impl; [|exact F]; apply nform_poly|].
  exists r. split; auto. eapply k_sum_nf; eauto.
Qed.
Lemma nform_rat q : lowest q -> nform (ERat q).
Proof. intros L. apply nt0_nform, nt0_rat. auto. Qed.
Lemma nform_sym s : ident s -> nform (ESym s).
Proof. intros I. apply nt0_nform. right. exists (1%Q, [ESym s]). apply (natom_term (ESym s)). now constructor. Qed.

(** ** Operators *)
Theorem op_add_nf n a b r : nform a -> nform b -> op_add (K c n) a b = Ok r -> nform r.
Proof.
  intros A B. assert (G : k_sum (K c n) [a; b] = Ok r -> nform r) by (apply k_sum_nf; auto).
  unfold op_add. destruct a, b; auto. intros E. injection E as <-. apply nform_rat, lowest_red.
Qed.
Lemma op_mul_nt n a b r : nt0 a -> nt0 b -> op_mul (K c n) a b = Ok r -> nt0 r.
Proof.
  intros A B. assert (G : k_prod (K c n) [a; b] = Ok r -> nt0 r) by (apply k_prod_nt; auto).
  unfold op_mul. destruct a, b; auto. intros E. injection E as <-. apply nt0_rat, lowest_red.
Qed.
Lemma op_neg_nt n a r : nt0 a -> op_neg (K c n) a = Ok r -> nt0 r.
Proof.
  intros A. assert (M : nt0 (ERat (-1))) by (apply nt0_rat; reflexivity).
  assert (G : op_mul (K c n) (ERat (-1)) a = Ok r -> nt0 r) by now apply op_mul_nt.
  pose proof (nt0_mono a A) as Ma. destruct Ma as [e [a [s Hs|s q Hs Hq H0]|q]|ts L F R N]; auto.
Qed.
Theorem op_neg_nf n a r : nform a -> op_neg (K c n) a = Ok r -> nform r.
Proof.
  intros A. destruct (is_sum a) eqn:S; [|intros E; eapply nt0_nform, op_neg_nt; eauto; now apply nform_nt0].
  destruct a; try discriminate. destruct (nform_sum _ A) as (F & _). cbn [op_neg]. intros E. apply bind_ok in E as (ts' & E & Es).
  eapply k_sum_nf; [|exact Es]. clear -F E XC XA X1. revert ts' E. induction F as [|t l T F IH]; intros ts' E.
  - injection E as <-. constructor.
  - apply bind_ok in E as (t' & Et & E). apply bind_ok in E as (l' & El & E). injection E as <-. constructor; auto.
    eapply nt0_nform, op_neg_nt; eauto.
Qed.
End NF.
