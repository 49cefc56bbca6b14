(** * PDiv: dividing a polynomial by a linear polynomial always succeeds (C31). *)
From Coquelicot Require Import Coquelicot.
From Verif Require Import Base Expr Kernel Mono Sort Funcs FMono Calc Expand Combi Sem RealLemmas Sound SoundPow Agree Oracle CalcSound Simp Table Poly PolyQ Trans TransMono Search Frag FragNum FragLib
  PropsA PropsC PropsB PropsK FragInt PropsL CanonR PropsM NForm NUniq NOps NExp NInt PropsO Her HerLib PropsJ Regex PolyTot PropsY PFrac.
From Coq Require Import Lqa Sorting.Permutation Sorting.Sorted.
From Coq Require Lra.
Local Ltac splits := repeat match goal with |- _ /\ _ => split end.
Close Scope R_scope.
Local Open Scope nat_scope.

(** ** Polynomials that agree at the rationals agree everywhere *)
Lemma dense (f : R -> R) : continuity f -> (forall q, f (Q2R q) = 0%R) -> forall x, f x = 0%R.
Proof.
  intros C H x. destruct (Req_dec (f x) 0) as [E|N]; auto. exfalso.
  destruct (C x (Rabs (f x)) (Rabs_pos_lt _ N)) as (al & Ha & Hal). destruct (archimed_cor1 al Ha) as (n & Hn & Pn).
  assert (In : (0 < INR n)%R) by now apply lt_0_INR.
  set (z := up (x * INR n)). destruct (archimed (x * INR n)) as (U1 & U2). fold z in U1, U2.
  set (y := Q2R (z # Pos.of_nat n)).
  assert (Ey : y = (IZR z / INR n)%R).
  { unfold y, Q2R. cbn [Qnum Qden]. unfold Rdiv. do 2 f_equal. rewrite INR_IZR_INZ. f_equal. rewrite <- positive_nat_Z, Nat2Pos.id by lia. reflexivity. }
  assert (Y1 : (y - x = (IZR z - x * INR n) / INR n)%R) by (rewrite Ey; field; Lra.lra).
  assert (Yp : (0 < y - x)%R) by (rewrite Y1; apply Rdiv_lt_0_compat; Lra.lra).
  assert (Yq : (y - x <= / INR n)%R). { rewrite Y1. unfold Rdiv. rewrite <- (Rmult_1_l (/ INR n)) at 2. apply Rmult_le_compat_r; [left; now apply Rinv_0_lt_compat|Lra.lra]. }
  specialize (Hal y). cbn in Hal. unfold R_dist in Hal. rewrite (H (z # Pos.of_nat n) : f y = 0%R) in Hal.
  assert (L : (Rabs (0 - f x) < Rabs (f x))%R).
  { apply Hal. split; [split; [exact Logic.I|Lra.lra]|]. rewrite Rabs_right by Lra.lra. Lra.lra. }
  rewrite Rminus_0_l, Rabs_Ropp in L. Lra.lra.
Qed.
Lemma rpoly_cont l : continuity (fun x => rpoly l x).
Proof.
  induction l as [|a l IH]; [apply continuity_const; intros x y; reflexivity|]. cbn [rpoly fold_right].
  apply (continuity_plus (fun _ => Q2R a) (fun x => x * rpoly l x)%R); [apply continuity_const; intros x y; reflexivity|].
  apply (continuity_mult (fun x => x) (fun x => rpoly l x)); [apply derivable_continuous, derivable_id|exact IH].
Qed.
Lemma rpoly_q l x : rpoly l (Q2R x) = Q2R (qpoly l x).
Proof. induction l as [|a l IH]; cbn [rpoly qpoly fold_right]; [symmetry; apply RMicromega.Q2R_0|]. fold (rpoly l (Q2R x)). rewrite IH, Q2R_plus, Q2R_mult. reflexivity. Qed.
Lemma division_real num den rem quo : (forall x, qpoly num x == qpoly quo x * qpoly den x + qpoly rem x)%Q ->
  forall x, rpoly num x = (rpoly quo x * rpoly den x + rpoly rem x)%R.
Proof.
  intros H x. apply Rminus_diag_uniq. apply (dense (fun x => rpoly num x - (rpoly quo x * rpoly den x + rpoly rem x))%R).
  - apply (continuity_minus (fun x => rpoly num x)); [apply rpoly_cont|]. apply (continuity_plus (fun x => rpoly quo x * rpoly den x)%R); [|apply rpoly_cont].
    apply (continuity_mult (fun x => rpoly quo x)); apply rpoly_cont.
  - intros q. rewrite !rpoly_q, <- Q2R_mult, <- Q2R_plus, <- (Qreals.Qeq_eqR _ _ (H q)). Lra.lra.
Qed.

(** ** The loop keeps coefficients in lowest terms *)
Section Low.
Context (fk : fkern).
Definition low (t : expr) : Prop := exists q, t = ERat q /\ lowest q.
Lemma low_rat q : low (rat q).
Proof. exists (Qred q). split; [reflexivity|apply lowest_red]. Qed.
Lemma low_map l : Forall low (map ERat l) <-> Forall lowest l.
Proof.
  induction l as [|a l IH]; cbn [map]; split; intros H; try constructor; inversion H as [|? ? A B]; subst.
  - destruct A as (q & E & L). now injection E as ->.
  - now apply IH.
  - exists a. auto.
  - now apply IH.
Qed.
Lemma low_rid l : Forall low l -> Forall low (rid_zeros l).
Proof.
  induction 1 as [|a l A H IH]; cbn [rid_zeros]; [constructor|]. destruct (rid_zeros l); [destruct (isq a 0); auto|]; constructor; auto.
Qed.
Lemma low_set i x l : low x -> Forall low l -> Forall low (set_nth i x l).
Proof. intros X H. revert i. induction H as [|a l A H IH]; intros [|i]; cbn [set_nth]; constructor; auto. Qed.
Lemma low_sub : forall l m r, Forall low l -> Forall low m -> sub_arr fk l m = Ok r -> Forall low r.
Proof.
  induction l as [|a l IH]; intros [|b m] r Hl Hm E; cbn [sub_arr] in E; try discriminate; [injection E as <-; constructor|].
  inversion Hl as [|? ? A Hl']; inversion Hm as [|? ? B Hm']; subst. apply bind_ok in E as (s & Es & E). apply bind_ok in E as (r' & Er & E). injection E as <-.
  constructor; [|eapply IH; eauto]. destruct A as (p & -> & _), B as (q & -> & _). cbn in Es. injection Es as <-. apply low_rat.
Qed.
Lemma low_scale q : low q -> forall l m, Forall low l -> mapM (fun t => op_mul fk t q) l = Ok m -> Forall low m.
Proof.
  intros (z & -> & _). induction l as [|a l IH]; intros m H E; cbn [mapM] in E; [injection E as <-; constructor|].
  inversion H as [|? ? A Hl]; subst. apply bind_ok in E as (s & Es & E). apply bind_ok in E as (r & Er & E). injection E as <-. constructor; [|eapply IH; eauto].
  destruct A as (p & -> & _). cbn in Es. injection Es as <-. apply low_rat.
Qed.
Lemma low_last l t : Forall low l -> lastM l = Ok t -> low t.
Proof. induction 1 as [|a l A H IH]; [discriminate|]. cbn [lastM]. destruct l; [intros E; now injection E as <-|exact IH]. Qed.
Lemma lastM_q l q : lastM (map ERat l) = Ok (ERat q) -> last l 0%Q = q.
Proof. induction l as [|a l IH]; [discriminate|]. destruct l as [|b l]; cbn [map lastM last] in *; [congruence|exact IH]. Qed.
Lemma low_loop den : Forall lowest den -> ~ (last den 0 == 0)%Q -> forall n num quo rem quo',
  Forall low num -> Forall low quo -> pd_loop fk n num (map ERat den) quo = Ok (rem, quo') -> k_strict fk = false -> Forall low rem /\ Forall low quo'.
Proof.
  intros Ld Nz. assert (Ld' := proj2 (low_map den) Ld). induction n as [|n IH]; intros num quo rem quo' Ln Lq E St; cbn [pd_loop] in E; [discriminate|].
  destruct (Nat.ltb (List.length num) (List.length (map ERat den))); [injection E as <- <-; auto|].
  apply bind_ok in E as (ln & E1 & E). apply bind_ok in E as (ld & E2 & E). apply bind_ok in E as (q & E3 & E). rewrite St in E. cbn [negb orb guard] in E.
  apply bind_ok in E as (m & E4 & E). apply bind_ok in E as (num' & E5 & E).
  destruct (low_last _ _ Ln E1) as (x & -> & _). destruct (low_last _ _ Ld' E2) as (y & -> & _). apply lastM_q in E2. rewrite E2 in Nz.
  assert (Lq' : low q). { cbn [op_div] in E3. unfold qis0 in E3. rewrite (qeqb_false y 0 Nz) in E3. injection E3 as <-. apply low_rat. }
  eapply IH; [| |exact E|exact St].
  - apply low_rid. eapply low_sub; [exact Ln| |exact E5]. apply Forall_app. split; [|exact (low_scale q Lq' _ _ Ld' E4)].
    apply Forall_forall. intros t Ht. apply repeat_spec in Ht. subst. exists 0%Q. split; reflexivity.
  - now apply low_set.
Qed.
End Low.

Section PD.
Context (c : cfg) (HX : fpow_exact (fpow c)) (v : string) (Hv : ident v).
Let c' := faithful c.
Let HX' : fpow_exact (fpow c') := HX.
Notation nform := (nform natq c'). Notation nt0 := (nt0 natq c'). Notation nterm := (nterm natq c').
Notation only := (only v).
Notation lin := (lin v).
Notation dp d := (EPow d (ERat (-1))).
Notation den := (den c v).

(** ** Adding a quotient to a polynomial *)
Lemma sum_list_total n xs l : flat_sum xs = l -> ForallOrdPairs (unlike2 c') l -> Forall (sortable c' (9 + n)) l ->
  (forall t, In t l -> is_acc t = true -> exists q, t = ERat q) -> exists r, k_sum (K c' (10 + n)) xs = Ok r.
Proof.
  intros Fl U S A. change (K c' (10 + n)) with (build c' (K c' (9 + n))). cbn [build k_sum]. unfold sum_body. rewrite Fl. unfold combine_sum.
  rewrite combine_sum_unlike by exact U. cbn [bind].
  assert (Fin : forall nc, Forall (sortable c' (9 + n)) nc -> exists r, match nc with [] => Ok (ERat 0) | [t] => Ok t | _ => s <- sort_terms (K c' (9 + n)) nc;; Ok (ESum (rev s)) end = Ok r).
  { intros nc H. destruct (sort_ok c' (9 + n) nc H) as (s & E & _). destruct nc as [|t [|u nc]]; eauto. rewrite E. cbn [bind]. eauto. }
  assert (Nc : Forall (sortable c' (9 + n)) (nonacc l)). { apply Forall_forall. intros t Ht. apply filter_In in Ht as (Ht & _). rewrite Forall_forall in S. auto. }
  assert (Ac : Forall (fun t => exists q, t = ERat q) (filter is_acc l)). { apply Forall_forall. intros t Ht. apply filter_In in Ht as (Ht & At). eauto. }
  assert (Sum : exists q, acc_sum (filter is_acc l) = Ok (ERat q)).
  { assert (G : forall m a, Forall (fun t => exists q, t = ERat q) m -> exists q, foldM val_add m (ERat a) = Ok (ERat q)).
    { induction m as [|t m IH]; intros a Hm; cbn [foldM]; [eauto|]. inversion Hm as [|? ? (q & ->) Hm']; subst. cbn [val_add bind]. unfold rat. now apply IH. }
    unfold acc_sum. destruct (filter is_acc l) as [|t [|u m]]; [exists 0%Q; reflexivity|inversion Ac as [|? ? (q & ->) _]; eauto|]. now apply G. }
  destruct Sum as (q & Eq). rewrite Eq. assert (Nq : Forall (sortable c' (9 + n)) (nonacc l ++ [ERat q])). { apply Forall_app. split; auto. constructor; [apply (rat_sortable c)|constructor]. }
  destruct (filter is_acc l); cbn [bind]; [now apply Fin|]. destruct (isq (ERat q) 0); cbn [bind]; now apply Fin.
Qed.
Lemma eql_ff l m : eeqbl l m = false -> py_eql c' l m = Ok false.
Proof. intros E. unfold py_eql. cbn [strict c' faithful andb]. now rewrite E. Qed.
Lemma unlike_terms t u : nterm t -> nterm u -> snd t <> snd u -> unlike2 c' (term t) (term u).
Proof.
  destruct t as [a l], u as [b m]. cbn [snd]. intros T U N.
  assert (Tm := T). assert (Um := U). destruct T as (_ & _ & Fl & _), U as (_ & _ & Fm & _). cbn [snd] in Fl, Fm.
  assert (G : forall x a, natom natq x -> eeqb (ERat a) x = false /\ eeqb x (ERat a) = false) by (intros x z [s Hs|s q _ _ _ _ _]; auto).
  unfold unlike2. destruct l as [|x l], m as [|y m]; [congruence| | |].
  - rewrite term_nil, (decon_term natq c' b (y :: m) Um) by discriminate. cbn [decon_prod snd]. inversion Fm as [|? ? Hy _]; subst. destruct (G y a Hy) as (E1 & E2). split; apply eql_ff; cbn [eeqbl]; rewrite ?E1, ?E2; reflexivity.
  - rewrite term_nil, (decon_term natq c' a (x :: l) Tm) by discriminate. cbn [decon_prod snd]. inversion Fl as [|? ? Hx _]; subst. destruct (G x b Hx) as (E1 & E2). split; apply eql_ff; cbn [eeqbl]; rewrite ?E1, ?E2; reflexivity.
  - rewrite (decon_term natq c' a _ Tm), (decon_term natq c' b _ Um) by discriminate. cbn [snd]. split; apply eql_ff, not_true_iff_false; intros E; apply (eeqbl_natom natq) in E; auto; congruence.
Qed.
Lemma unlike_quot t a d : nterm t -> den d -> ~ (a == 0)%Q -> unlike2 c' (term t) (quot a d) /\ unlike2 c' (ERat 0) (quot a d).
Proof.
  intros T D Na. destruct t as [b l]. assert (Tm := T). destruct T as (_ & _ & Fl & _). cbn [snd] in Fl.
  assert (Q : snd (decon_prod (quot a d)) = [dp d]). { unfold quot. rewrite (qeqb_false a 0 Na). destruct (Qeq_bool a 1); reflexivity. }
  assert (G : forall x, natom natq x -> eeqb (dp d) x = false /\ eeqb x (dp d) = false).
  { intros x [s Hs|s q Hs [Nq Pq] _ _ _]; auto. assert (E : qeqb (-1) q = false /\ qeqb q (-1) = false).
    { split; apply not_true_iff_false; intros E; apply qeqb_eq in E; subst q; lra. }
    cbn [eeqb]. destruct E as (-> & ->). now rewrite !andb_false_r. }
  unfold unlike2. rewrite Q. split; [|split; reflexivity]. destruct l as [|x l].
  - rewrite term_nil. split; reflexivity.
  - rewrite (decon_term natq c' b _ Tm) by discriminate. cbn [snd]. inversion Fl as [|? ? Hx _]; subst. destruct (G x Hx) as (E1 & E2). split; apply eql_ff; cbn [eeqbl]; rewrite ?E1, ?E2; reflexivity.
Qed.
Lemma term_flat t : nterm t -> is_sum (term t) = false /\ (is_acc (term t) = true -> exists q, term t = ERat q).
Proof.
  destruct t as [a l]. intros (_ & _ & Fl & _). cbn [snd] in Fl. unfold term. destruct (Qeq_bool a 1), l as [|x [|y l]]; cbn; split; try reflexivity; eauto; try discriminate;
    inversion Fl as [|? ? [s Hs|s q Hs _ _ _ _] _]; subst; cbn; auto; discriminate.
Qed.
Lemma add_poly_quot n Q a d : nform Q -> den d -> lowest a -> exists r, op_add (K c' (12 + n)) Q (quot a d) = Ok r.
Proof.
  intros F D La. destruct (Qeq_bool a 0) eqn:Z.
  { assert (Fq : nform (quot a d)) by (unfold quot; rewrite Z; now apply nform_rat). destruct (op_add_total c HX (4 + n) Q (quot a d) F Fq) as (r & E & _). exists r. exact E. }
  assert (Na : ~ (a == 0)%Q) by (intros E; apply Qeq_bool_iff in E; congruence).
  destruct F as (L & FL & ND & Ord & EQ).
  assert (H : exists r, k_sum (K c' (12 + n)) [Q; quot a d] = Ok r).
  { assert (Fq : is_sum (quot a d) = false) by (unfold quot; rewrite Z; destruct (Qeq_bool a 1); reflexivity).
    assert (Sq := sortable_quot c v n a d D La). fold c' in Sq.
    destruct L as [|t L].
    - apply (sum_list_total (2 + n) _ [ERat 0; quot a d]).
      + subst Q. cbn [map]. unfold sum_of. apply flat_sum_id. cbn [forallb is_sum]. rewrite Fq. reflexivity.
      + constructor; [|repeat constructor]. constructor; [|constructor]. assert (T1 : nterm (1%Q, [])).
        { unfold NForm.nterm. splits; [reflexivity|intros E; discriminate E|apply natoms_0]. }
        apply (unlike_quot _ a d T1 D Na).
      + constructor; [apply (rat_sortable c)|]. constructor; [exact Sq|constructor].
      + intros u [<-|[<-|[]]]; eauto. unfold quot. rewrite Z. destruct (Qeq_bool a 1); discriminate.
    - apply (sum_list_total (2 + n) _ (map term (t :: L) ++ [quot a d])).
      + assert (Fm : forallb (fun t => negb (is_sum t)) (map term (t :: L)) = true).
        { apply forallb_forall. intros u Hu. apply in_map_iff in Hu as (w & <- & Hw). rewrite Forall_forall in FL. now rewrite (proj1 (term_flat w (FL w Hw))). }
        assert (E : flat_sum [Q; quot a d] = flat_sum (map term (t :: L) ++ [quot a d])).
        { unfold flat_sum. rewrite flat_map_app. cbn [flat_map]. f_equal. subst Q. unfold sum_of. destruct L as [|u L]; cbn [map]; [cbn [flat_map]; now rewrite app_nil_r|reflexivity]. }
        rewrite E. apply flat_sum_id. rewrite forallb_app, Fm. cbn [forallb]. now rewrite Fq.
      + clear EQ Ord. induction FL as [|w M W FL IH]; cbn [map app]; [constructor; constructor|]. cbn [map] in ND. inversion ND as [|? ? Nw ND']; subst. constructor; [|now apply IH].
        apply Forall_app. split; [|constructor; [now apply unlike_quot|constructor]]. apply Forall_forall. intros u Hu. apply in_map_iff in Hu as (z & <- & Hz). rewrite Forall_forall in FL.
        apply unlike_terms; auto. intros E. apply Nw. rewrite E. apply in_map, Hz.
      + apply Forall_app. split; [|constructor; [exact Sq|constructor]]. apply Forall_forall. intros u Hu. apply in_map_iff in Hu as (z & <- & Hz). rewrite Forall_forall in FL.
        apply (fuel_sort c' (8 + (3 + n))); [lia|]. apply sortable_poly. apply (nform_poly natq c'), (nt0_nform natq c'). right. eauto.
      + intros u Hu. apply in_app_iff in Hu as [Hu|[<-|[]]]; [|unfold quot; rewrite Z; destruct (Qeq_bool a 1); discriminate].
        apply in_map_iff in Hu as (z & <- & Hz). rewrite Forall_forall in FL. exact (proj2 (term_flat z (FL z Hz))). }
  destruct H as (r & E). exists r. rewrite <- E. unfold op_add, quot. rewrite Z. destruct (Qeq_bool a 1); now destruct Q.
Qed.
(** ** Numerator and denominator *)
Definition nfac (t : expr) : Prop := numfac v t \/ natom natq t.
Lemma numden_nfac k : forall ts N D, filter recip ts = map (fun d => dp d) D -> filter (fun t => negb (recip t)) ts = N -> Forall nfac N -> numden_go k ts = Ok (N, D).
Proof.
  induction ts as [|t ts IH]; intros N D F1 F2 FN.
  - cbn in F1, F2. destruct D; [|discriminate]. subst N. reflexivity.
  - cbn [filter] in F1, F2. destruct (recip t) eqn:Rt; cbn [negb] in F2.
    + destruct D as [|d D]; [discriminate|]. cbn [map] in F1. injection F1 as -> F1. cbn [numden_go decon_pow]. rewrite (IH N D F1 F2 FN). reflexivity.
    + subst N. inversion FN as [|? ? Ht FN']; subst. pose proof (IH _ D F1 eq_refl FN') as E. destruct Ht as [[(z & -> & Hz)|[->|(us & ->)]]|[s Hs|s q Hs [_ Pq] _ _ _]].
      * unfold ratz. cbn [numden_go]. rewrite E. cbn [bind]. rewrite numer_inject, denom_inject. change (1 =? 1)%Z with true. apply Z.eqb_neq in Hz. rewrite Hz. reflexivity.
      * cbn [numden_go decon_pow]. rewrite E. reflexivity.
      * cbn [numden_go decon_pow]. rewrite E. reflexivity.
      * cbn [numden_go decon_pow]. rewrite E. reflexivity.
      * cbn [numden_go decon_pow]. rewrite E. cbn [bind]. rewrite (proj2 (qlt0_f q) Pq). reflexivity.
Qed.
(** the numeric factor of the numerator, if there is one, is an integer *)
Definition int_factor (P : expr) : Prop := forall q, In (ERat q) (factors_of P) -> qisint q = true.
Lemma num_poly P : nform P -> int_factor P -> Forall nfac (factors_of P) /\ prod_skip (factors_of P) = Ok P.
Proof.
  intros (L & FL & _ & _ & ->) I1. destruct L as [|[a l] [|u L]]; cbn [map] in *.
  - split; [|reflexivity]. constructor; [|constructor]. left. left. exists 0%Z. split; [reflexivity|lia].
  - unfold sum_of in *. inversion FL as [|? ? (La & Za & Fl & _) _]; subst. cbn [fst snd] in *.
    assert (Ri : forall b, lowest b -> qisint b = true -> Qeq_bool b 1 = false -> nfac (ERat b)).
    { intros b Lb Ib Eb. left. left. exists (numer b). assert (G := lowest_int b Lb Ib). split; [unfold ratz; congruence|]. intros E. rewrite E in G. subst b. discriminate. }
    assert (Na : forall x, natom natq x -> isq x 1 = false) by (intros x []; reflexivity).
    unfold term in *. destruct (Qeq_bool a 1) eqn:E1.
    + destruct l as [|x [|y l]].
      * unfold factors_of. cbn [isq]. rewrite E1. split; [constructor|]. cbn. apply Qeq_bool_eq in E1. do 2 f_equal. transitivity (Qred a); [|exact La]. now rewrite (Qred_complete _ _ E1).
      * inversion Fl as [|? ? Hx _]; subst. assert (E : factors_of x = [x]) by (destruct Hx; reflexivity). rewrite E. split; [constructor; [now right|constructor]|destruct Hx; reflexivity].
      * cbn [factors_of]. split; [eapply Forall_impl; [|exact Fl]; intros; now right|destruct x; reflexivity].
    + destruct l as [|x l].
      * unfold factors_of in *. cbn [isq] in *. rewrite E1 in *. split; [|reflexivity]. constructor; [|constructor]. apply Ri; auto. apply I1. unfold factors_of. cbn [isq]. rewrite E1. now left.
      * cbn [factors_of] in *. split; [|reflexivity]. constructor; [apply Ri; auto; apply I1; now left|]. eapply Forall_impl; [|exact Fl]; intros; now right.
  - split; [|reflexivity]. constructor; [|constructor]. left. right. right. eexists. reflexivity.
Qed.
Lemma numden_poly m ts d P : filter recip ts = [dp d] -> den d -> filter (fun t => negb (recip t)) ts = factors_of P -> nform P -> int_factor P ->
  numdenF (PF c m) ts = Ok (P, d).
Proof.
  intros F1 D F2 F I1. destruct (num_poly P F I1) as (FN & SK). unfold numdenF.
  rewrite (numden_nfac _ ts _ [d] F1 F2 FN). cbn [bind]. change (k_strict (PF c m)) with false. cbn [negb orb guard]. rewrite SK. pose proof D as (_ & _ & _ & [->|(us & ->)] & _); reflexivity.
Qed.
Lemma symbols_one ts d : filter recip ts = [dp d] -> den d -> (forall t, In t ts -> only t) -> symbols (EProd ts) = [v].
Proof.
  intros F1 D O. unfold symbols. cbn [names].
  assert (A : forall s, In s (flat_map names ts) -> s = v) by (intros s Hs; apply in_flat_map in Hs as (t & Ht & Hs); exact (O t Ht s Hs)).
  assert (B : In v (flat_map names ts)).
  { apply in_flat_map. exists (dp d). split; [apply (filter_In recip); rewrite F1; now left|]. cbn [names]. apply in_app_iff. left. pose proof D as (_ & _ & C & _). now apply names_contains. }
  assert (G : forall l, (forall s, In s l -> s = v) -> In v l -> nodup string_dec l = [v]).
  { induction l as [|x l IH]; intros A1 B1; [destruct B1|]. assert (x = v) by (apply A1; now left). subst x. cbn [nodup]. destruct (in_dec string_dec v l) as [Iv|Nv].
    - apply IH; auto. intros s Hs. apply A1. now right.
    - f_equal. destruct l as [|y l]; [reflexivity|]. exfalso. apply Nv. left. apply A1. right. now left. }
  now apply G.
Qed.
Lemma names_factors P ts d : filter recip ts = [dp d] -> den d -> filter (fun t => negb (recip t)) ts = factors_of P -> only P -> forall t, In t ts -> only t.
Proof.
  intros F1 D F2 O t Ht. destruct (recip t) eqn:R.
  - assert (I1 : In t (filter recip ts)) by now apply filter_In. rewrite F1 in I1. destruct I1 as [<-|[]]. intros s Hs. cbn [names] in Hs. rewrite app_nil_r in Hs. pose proof D as (_ & Od & _). now apply Od.
  - assert (I1 : In t (filter (fun t => negb (recip t)) ts)) by (apply filter_In; now rewrite R). rewrite F2 in I1. intros s Hs. apply O. unfold factors_of in I1.
    destruct P; cbn [isq] in I1; try (destruct I1 as [<-|[]]; exact Hs); try (match type of I1 with context[if ?b then _ else _] => destruct b end; [destruct I1|destruct I1 as [<-|[]]; exact Hs]). cbn [names]. apply in_flat_map. eauto.
Qed.
(** ** The transform *)
Definition quotient_form (a b : Q) (P r : expr) : Prop :=
  forall rho, (Q2R a * rho v + Q2R b <> 0)%R -> wd rho r /\ ev rho r = (ev rho P / (Q2R a * rho v + Q2R b))%R.
Lemma const_form e q : nform e -> lowest q -> (forall rho, ev rho e = Q2R q) -> e = ERat q.
Proof. intros F L V. apply (nform_unique natq c' HX'); [exact F|now apply nform_rat|intros rho _; apply V]. Qed.
Theorem pdiv_total ts P a b : denominator a b -> nform P -> only P -> contains v P = true -> int_factor P ->
  filter recip ts = [dp (lin a b)] -> filter (fun t => negb (recip t)) ts = factors_of P ->
  exists d0, forall n d, d0 <= d -> exists Q x r, poly_division (PF c (12 + n)) d v (EProd ts) = Ok (Some r) /\ nform Q /\ (exists l, forall rho, ev rho Q = rpoly l (rho v)) /\ lowest x /\
    op_add (PF c (12 + n)) Q (quot x (lin a b)) = Ok r /\ (forall rho, ev rho P = (ev rho Q * (Q2R a * rho v + Q2R b) + Q2R x)%R) /\ quotient_form a b P r.
Proof.
  intros D1 F O C I1 F1 F2. pose proof (den_lin c v Hv a b D1) as Dn. set (dd := lin a b) in *. pose proof D1 as (La & Lb & Za & _).
  destruct (coeffs_nform c v P F O) as (l & El & (Vl & Ll & Nl & Zl) & _).
  assert (L2 : 2 <= List.length l).
  { destruct l as [|q [|? ?]]; [congruence| |cbn; lia]. exfalso. inversion Ll as [|? ? Lq _]; subst. rewrite (const_form P q F Lq) in C; [discriminate|]. intros rho. rewrite Vl. cbn. Lra.lra. }
  exists (6 + List.length l). intros n d Hd.
  assert (Ed : lin_coeffs a b = [b; a]) by (unfold lin_coeffs; now rewrite (qeqb_false a 0 Za)).
  destruct (tcp_mfx c HX v (4 + n) d P (mfx_nf c' _ F) O ltac:(lia)) as (P' & _ & F' & _ & V' & Ep). change (8 + (4 + n)) with (12 + n) in Ep.
  replace P' with P in Ep by (apply (nform_unique natq c' HX'); auto). rewrite El in Ep.
  pose proof (tcp_lin c HX v Hv (4 + n) d a b ltac:(lia) La Lb) as El1. change (8 + (4 + n)) with (12 + n) in El1. rewrite Ed in El1. fold dd in El1.
  destruct (division_lift (PF c (12 + n)) eq_refl l [b; a] d ltac:(discriminate) Za ltac:(lia)) as (rem & quo & Er & Lr & Vd).
  destruct (low_loop (PF c (12 + n)) [b; a] ltac:(constructor; [|constructor]; auto) Za d _ _ _ _ (proj2 (low_map l) Ll) ltac:(apply Forall_forall; intros t Ht; apply repeat_spec in Ht; subst; exists 0%Q; split; reflexivity) Er eq_refl) as (Lrem & Lquo).
  apply low_map in Lrem, Lquo. pose proof (division_real l [b; a] rem quo Vd) as VR. cbn [List.length] in Lr.
  set (x := match rem with [] => 0%Q | y :: _ => y end).
  assert (Lx : lowest x) by (unfold x; destruct rem; [reflexivity|inversion Lrem; auto]).
  assert (Vx : forall z, rpoly rem z = Q2R x). { intros z. unfold x. destruct rem as [|y [|? ?]]; cbn in Lr |- *; [now rewrite RMicromega.Q2R_0|Lra.lra|lia]. }
  pose proof (roundtrip c HX v (4 + n) (ERat x) rem Hv (nform_rat natq c' x Lx) Lrem ltac:(intros rho; symmetry; apply Vx)) as Re.
  pose proof (roundtrip c HX v (4 + n) dd [b; a] Hv ltac:(apply Dn) ltac:(constructor; [|constructor]; auto) ltac:(intros rho; unfold dd; rewrite (lin_val c v Hv) by auto; cbn; Lra.lra)) as De.
  destruct (poly_expr_total c HX v (4 + n) Hv quo 0 (ERat 0) ltac:(lia) Lquo ltac:(apply nform_rat; reflexivity)) as (Q & Eq & FQ & VQ).
  change (8 + (4 + n)) with (12 + n) in Re, De, Eq.
  destruct (add_poly_quot n Q x dd FQ Dn Lx) as (r & Ea). assert (Ea' : op_add (PF c (12 + n)) Q (quot x dd) = Ok r) by exact Ea.
  pose proof (div_quot c v (2 + n) x dd Dn) as Dv. change (10 + (2 + n)) with (12 + n) in Dv.
  assert (VP : forall rho, ev rho P = (ev rho Q * (Q2R a * rho v + Q2R b) + Q2R x)%R).
  { intros rho. rewrite Vl, VR, Vx, VQ. cbn [ev Z.to_nat pow rpoly fold_right]. rewrite RMicromega.Q2R_0. fold (rpoly quo (rho v)). Lra.lra. }
  exists Q, x, r. splits; auto.
  - unfold poly_division. rewrite (symbols_one ts dd F1 Dn (names_factors P ts dd F1 Dn F2 O)). rewrite String.eqb_refl. cbn [negb].
    rewrite (numden_poly (12 + n) ts dd P F1 Dn F2 F I1). cbn [bind]. assert (I0 : isq dd 1 = false) by (pose proof Dn as (_ & _ & _ & [->|(us & ->)] & _); reflexivity). rewrite I0, Ep, El1. cbn [bind catchA].
    assert (Lt : Nat.ltb (List.length (map ERat l)) (List.length (map ERat [b; a])) = false) by (apply Nat.ltb_ge; rewrite !map_length; exact L2). rewrite Lt.
    unfold poly_div. assert (Er2 : pd_loop (PF c (12 + n)) d (map ERat l) (map ERat [b; a]) (repeat (ERat 0) (List.length (map ERat l) - List.length (map ERat [b; a]) + 1)) = Ok (map ERat rem, map ERat quo)) by (rewrite !map_length; exact Er).
    rewrite Er2. cbn [bind]. rewrite Re. cbn [bind]. rewrite De. cbn [bind]. rewrite Dv. cbn [bind]. unfold polynomial_to_expr. rewrite Eq. cbn [bind]. rewrite Ea'. reflexivity.
  - exists quo. intros rho. rewrite VQ. cbn [ev Z.to_nat pow]. rewrite RMicromega.Q2R_0. Lra.lra.
  - intros rho W. destruct (quot_val c HX v rho x dd Dn) as (Wx & Vq); [unfold dd; rewrite (lin_val c v Hv) by auto; exact W|].
    destruct (c01_ops_plain c' HX' (12 + n) rho Q (quot x dd) r (nform_plain c' Q FQ) (quot_plain c v x dd Dn) (nform_wd c' rho Q FQ) Wx) as (Va & _). destruct (Va Ea) as (Wr & Vr). split; [exact Wr|].
    rewrite Vr, Vq, VP. unfold dd. rewrite (lin_val c v Hv) by auto. field. exact W.
Qed.
End PD.

(** ** C30 *)
(** The numerator is any polynomial in [v] computed by a polynomial program [p], the denominator any linear
    polynomial, the factors in any order: the transform applies, without monitoring, and returns a polynomial plus a
    constant over the denominator; P = Q * (a v + b) + x. *)
Theorem c30_total c v ts p P a b : fpow_exact (fpow c) -> ident v -> denominator a b -> allowed p -> computes c p P -> only v P -> contains v P = true -> int_factor P ->
  filter recip ts = [EPow (lin v a b) (ERat (-1))] -> filter (fun t => negb (recip t)) ts = factors_of P ->
  exists d0 Q x r l,
    (forall m d, 12 <= m -> d0 <= d -> poly_division (PF c m) d v (EProd ts) = Ok (Some r)) /\
    (forall m, 12 <= m -> op_add (PF c m) Q (quot x (lin v a b)) = Ok r) /\
    (forall rho, ev rho Q = rpoly l (rho v)) /\
    (forall rho, pval p rho = (ev rho Q * (Q2R a * rho v + Q2R b) + Q2R x)%R) /\
    (forall rho, (Q2R a * rho v + Q2R b <> 0)%R -> wd rho r /\ ev rho r = (pval p rho / (Q2R a * rho v + Q2R b))%R).
Proof.
  intros HX Hv D A C O Cv I1 F1 F2. destruct (run_nform c HX p P A C) as (F & V).
  destruct (pdiv_total c HX v Hv ts P a b D F O Cv I1 F1 F2) as (d0 & H). destruct (H 0 d0 (le_n _)) as (Q & x & r & E & FQ & (l & VQ) & Lx & Ea & VP & VR).
  change (12 + 0) with 12 in E, Ea. exists d0, Q, x, r, l. splits; auto.
  - intros m d Hm Hd. eapply rle_ok; [|exact E]. apply poly_division_mono; [|exact Hd]. unfold PF. apply F_mono; [intros z Hz; exact Hz|apply cle_refl|exact Hm].
  - intros m Hm. assert (Hk : kle (K (faithful c) 12) (K (faithful c) m)) by (apply K_mono; [apply cle_refl|exact Hm]). exact (rle_ok _ _ _ (op_add_mono _ _ Hk _ _) Ea).
  - intros rho. now rewrite <- V, VP.
  - intros rho W. rewrite <- V. now apply VR.
Qed.
(** the instance x^3 / (2x - 3), as the operators build it *)
Definition exdiv : res expr :=
  p <- op_pow (PF exact_cfg 12) (ESym "x") (ERat 3);; t <- op_mul (PF exact_cfg 12) (ERat 2) (ESym "x");; b <- op_sub (PF exact_cfg 12) t (ERat 3);; op_div (PF exact_cfg 12) p b.
Lemma c30_ex : exists ts P, exdiv = Ok (EProd ts) /\ denominator 2 (-3) /\ allowed (PPow (PSym "x") 3) /\ run12 (PPow (PSym "x") 3) = Ok P /\ only "x" P /\ contains "x" P = true /\ int_factor P /\
  filter recip ts = [EPow (lin "x" 2 (-3)) (ERat (-1))] /\ filter (fun t => negb (recip t)) ts = factors_of P /\
  poly_division (PF exact_cfg 12) 12 "x" (EProd ts) =
    Ok (Some (ESum [EProd [ERat (27 # 8); EPow (ESum [EProd [ERat 2; ESym "x"]; ERat (-3)]) (ERat (-1))]; EProd [ERat (1 # 2); EPow (ESym "x") (ERat 2)]; EProd [ERat (3 # 4); ESym "x"]; ERat (9 # 8)])).
Proof.
  pose proof ident_x. do 2 eexists. split; [vm_compute; reflexivity|].
  split; [unfold denominator; splits; try reflexivity; try (intros E; discriminate E); left; reflexivity|]. split; [cbn; tauto|]. split; [vm_compute; reflexivity|].
  split; [intros s; cbn; intuition|]. split; [reflexivity|]. split; [intros q [E|[]]; discriminate E|]. split; [vm_compute; reflexivity|]. split; vm_compute; reflexivity.
Qed.
