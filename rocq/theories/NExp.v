(** * NExp: multiplying, taking powers, expanding and differentiating normal forms returns normal
    forms (for C77). *)
From Coquelicot Require Import Coquelicot.
From Verif Require Import Base Expr Kernel Mono Sort Funcs Calc Expand Combi Sem RealLemmas Sound SoundPow Agree Frag FragNum FragLib PropsA PropsC PropsB PropsK CanonR PropsM NForm NUniq NOps.
From Coq Require Import Sorting.Sorted Sorting.Permutation.
Local Ltac splits := repeat match goal with |- _ /\ _ => split end.
Local Open Scope Z_scope.

Section Total.
Context (c : cfg) (HX : fpow_exact (fpow c)).
Notation nform := (nform natq c). Notation nt0 := (nt0 natq c). Notation natoms := (natoms natq c). Notation natom := (natom natq).
Notation mfx := (mfx c). Notation big := (big c).
Let N1 : natq 1%Q := one_natq.

(** ** The constructors return *)
Lemma fuel_sort n m t : (n <= m)%nat -> sortable c n t -> sortable c m t.
Proof.
  intros L (A & B & r & R). unfold sortable. splits; auto. exists r. exact (rle_ok _ _ _ (le_repr _ _ (K_mono c c n m (cle_refl c) L) t) R).
Qed.
Lemma sortable_poly n t : poly natq t -> sortable c (8 + n) t.
Proof.
  intros P. unfold sortable. splits; [now apply (nwf_poly natq)| |now apply (repr_poly_total natq)].
  destruct P as [t M|ts L F]; [|unfold const_power; cbn; eauto]. now apply (sortable_mono natq c 0 t M).
Qed.
Lemma sortable_big n t : big t -> sortable c (9 + n) t.
Proof.
  intros [(ts & -> & A)|(ts & q & -> & A & S & Nq & Q2)].
  - apply (fuel_sort (8 + n)); [lia|]. apply sortable_poly. now apply (nform_poly natq c).
  - pose proof (nform_poly natq c _ A) as P. unfold sortable. splits.
    + destruct (nwf_poly natq _ P) as (m & E). cbn [nwf] in *. destruct (has_symany (EPow (ESum ts) (ERat q))); [|eauto].
      cbn [nwf] in E |- *. rewrite E. cbn [bind]. eauto.
    + unfold const_power. cbn. eauto.
    + change (K c (9 + n)) with (build c (K c (8 + n))). cbn [build k_repr repr_body].
      assert (E1 : isq (ERat q) (-1) = false) by (apply isq_rat_f; intros E; rewrite E in Q2; compute in Q2; congruence). rewrite E1.
      rewrite (proj2 (qlt0_f q)) by apply Nq.
      assert (E2 : Qeq_bool q (1 # 2) = false) by (apply qeqb_false; intros E; rewrite E in Q2; compute in Q2; congruence). rewrite E2.
      unfold pow_term_repr. destruct (repr_poly_total natq c n _ P) as (s & ->). cbn [bind].
      change (K c (8 + n)) with (build c (K c (7 + n))). cbn [build k_repr repr_body bind]. eauto.
Qed.
Lemma prod_unlike_total n l : flat_prod l = l -> ForallOrdPairs (unbase2 c) l ->
  (filter is_acc l = [] \/ exists a, filter is_acc l = [ERat a]) -> Forall (sortable c n) l ->
  (forall us, In (ESum us) l -> exists r, op_neg (K c n) (ESum us) = Ok r) -> exists r, k_prod (K c (S n)) l = Ok r.
Proof.
  intros Fl U A So Ng. change (K c (S n)) with (build c (K c n)). cbn [build k_prod]. unfold prod_body. rewrite Fl. unfold combine_prod.
  rewrite combine_prod_unlike by auto. cbn [bind].
  assert (Fin : forall nc, incl nc l -> exists r, match nc with
      | [] => Ok (ERat 1)
      | [t] => Ok t
      | _ => s <- sort_terms (K c n) nc;;
             match s with
             | [t0; ESum us] => if isq t0 (-1) then op_neg (K c n) (ESum us) else Ok (EProd s)
             | _ => Ok (EProd s)
             end
      end = Ok r).
  { intros nc I. destruct nc as [|t [|u nc]]; eauto. destruct (sort_ok c n (t :: u :: nc)) as (s & -> & P).
    { rewrite Forall_forall in *. auto. }
    cbn [bind]. destruct s as [|a [|b [|? ?]]]; eauto; [|destruct b; eauto]. destruct b; eauto. destruct (isq a (-1)); eauto.
    apply Ng, I. eapply Permutation_in; [symmetry; exact P|right; now left]. }
  assert (I : incl (nonacc l) l) by (intros x Hx; now apply filter_In in Hx).
  destruct A as [A|(a & A)]; rewrite A; cbn [acc_prod bind]; [now apply Fin|].
  assert (Ia : In (ERat a) l) by (apply (filter_In is_acc); rewrite A; now left).
  destruct (isq (ERat a) 0); cbn [bind]; [eauto|]. destruct (isq (ERat a) 1); cbn [bind]; apply Fin; auto.
  intros x Hx. apply in_app_iff in Hx as [Hx|[<-|[]]]; auto.
Qed.
Lemma prod_big_total n b o l0 l : big b -> opt_num o -> natoms l0 -> Permutation (b :: o ++ l0) l -> exists r, k_prod (K c (10 + n)) l = Ok r.
Proof.
  intros B O A P. destruct (big_list c b o l0 l B O A P) as (Fl & U & Fa & Pn). pose proof A as (F & _).
  apply (prod_unlike_total (9 + n)); auto.
  - rewrite Fa. destruct O as [->|(a & -> & La)]; eauto.
  - eapply Permutation_Forall; [exact P|]. constructor; [now apply sortable_big|].
    assert (G : forall t, fac natq t -> sortable c (9 + n) t) by (intros t Ft; apply (fuel_sort 3); [lia|]; now apply (sortable_fac natq)).
    apply Forall_app. split.
    + destruct O as [->|(a & -> & La)]; constructor; [apply G, fac_rat|constructor].
    + eapply Forall_impl; [|exact F]. intros x Ax. apply G. now apply (natom_shape natq).
  - intros us Hi. apply (Permutation_in _ (Permutation_sym P)) in Hi. destruct Hi as [->|Hi].
    + destruct B as [(ts & E & B)|(ts & q & E & _)]; [|discriminate].
      destruct (op_neg_poly natq natq_qeq natq_add N1 c (1 + n) (ESum us)) as (r & Er & _); eauto. now apply (nform_poly natq c).
    + exfalso. apply in_app_iff in Hi as [Hi|Hi]; [destruct O as [->|(a & -> & La)]; [destruct Hi|destruct Hi as [Hi|[]]; discriminate]|].
      rewrite Forall_forall in F. specialize (F _ Hi). inversion F.
Qed.
Lemma neg_total n e : nform e -> exists r, op_neg (K c (8 + n)) e = Ok r.
Proof.
  intros A. destruct (op_neg_poly natq natq_qeq natq_add N1 c n e) as (r & E & _); eauto. now apply (nform_poly natq c).
Qed.
Lemma pow_sum_total n ts q : nform (ESum ts) -> natq q -> lowest q -> (2 <= q)%Q -> exists r, k_pow (K c (11 + n)) (ESum ts) (ERat q) = Ok r.
Proof.
  intros A Nq Lq Q2. destruct (is_sub (ESum ts)) eqn:S; [|rewrite (pow_nsub c (10 + n)); eauto].
  change (K c (11 + n)) with (build c (K c (10 + n))). cbn [build k_pow]. unfold pow_body.
  rewrite (proj2 (isq_rat_f q 0)), (proj2 (isq_rat_f q 1)); [|intros E; rewrite E in Q2; compute in Q2; congruence..].
  change (isq (ESum ts) 1) with false. cbn [is_acc andb is_prod]. unfold pow_tail. rewrite S, (proj1 Nq). cbn [andb].
  destruct (neg_total (2 + n) _ A) as (nb & En). change (8 + (2 + n))%nat with (10 + n)%nat in En. rewrite En. cbn [bind].
  pose proof (op_neg_nf natq natq_qeq natq_add N1 c _ _ _ A En) as Nb. pose proof (neg_not_sub c HX _ _ _ A S En) as Sb.
  destruct (is_sum nb) eqn:Is.
  - destruct nb as [| | | | | | |us| | | | |]; try discriminate. rewrite (pow_nsub c (9 + n)) by auto. cbn [bind].
    destruct (Z.even (numer q)); [eauto|].
    change (exists r, k_prod (K c (10 + n)) [ERat (-1); EPow (ESum us) (ERat q)] = Ok r).
    apply (prod_big_total n (EPow (ESum us) (ERat q)) [ERat (-1)] []).
    + right. exists us, q. auto.
    + right. exists (-1)%Q. split; reflexivity.
    + unfold NForm.natoms. splits; [constructor|constructor|apply ordered_nil].
    + cbn [app]. constructor.
  - pose proof (nform_nt0 natq c nb Nb Is) as Tb. pose proof (nt0_mono natq c nb Tb) as Mb.
    destruct (k_pow_mono natq natq_qeq natq_add N1 (fun p q A B _ => natq_mul p q A B) c (4 + n) nb q Nq Mb) as (p & Ep & Mp).
    change (6 + (4 + n))%nat with (10 + n)%nat in Ep. rewrite Ep. cbn [bind]. destruct (Z.even (numer q)); [eauto|].
    destruct (op_neg_mono natq natq_qeq natq_add N1 c (6 + n) p Mp) as (r & Er & _). eauto.
Qed.
Theorem op_pow_total n e q : nform e -> natq q -> lowest q -> exists r, op_pow (K c (11 + n)) e (ERat q) = Ok r /\ mfx r.
Proof.
  intros A Nq Lq. assert (G : exists r, op_pow (K c (11 + n)) e (ERat q) = Ok r).
  { assert (H : exists r, k_pow (K c (11 + n)) e (ERat q) = Ok r).
    { destruct (is_sum e) eqn:S.
      - destruct e as [| | | | | | |ts| | | | |]; try discriminate. destruct (Qlt_le_dec q 2) as [Q|Q]; [|now apply pow_sum_total].
        assert (D : (q == 0)%Q \/ (q == 1)%Q).
        { destruct (natq_is q Nq) as (Eq & Hq). rewrite Eq in Q |- *. unfold Qlt in Q. cbn in Q. assert (numer q = 0 \/ numer q = 1) as [->| ->] by lia; [left|right]; reflexivity. }
        change (K c (11 + n)) with (build c (K c (10 + n))). cbn [build k_pow]. unfold pow_body. destruct D as [D|D].
        + rewrite (proj2 (isq_rat q 0) D). eauto.
        + rewrite (proj2 (isq_rat_f q 0)), (proj2 (isq_rat q 1) D); [eauto|]. rewrite D. discriminate.
      - destruct (k_pow_mono natq natq_qeq natq_add N1 (fun p q A B _ => natq_mul p q A B) c (5 + n) e q Nq) as (p & Ep & Mp); [|eauto].
        apply (nt0_mono natq c). now apply nform_nt0. }
    unfold op_pow. destruct e; auto. rewrite (proj2 (qlt0_f q)) by apply Nq. rewrite andb_false_r, (proj1 Nq). eauto. }
  destruct G as (r & E). exists r. split; auto. exact (op_pow_nfx c HX _ e q r A Nq Lq E).
Qed.
Lemma mul_sums_total n ts us : nform (ESum ts) -> nform (ESum us) -> exists r, k_prod (K c (12 + n)) [ESum ts; ESum us] = Ok r.
Proof.
  intros A B. pose proof (nform_plain c _ A) as Pa. pose proof (nform_plain c _ B) as Pb.
  destruct (eeqb (ESum us) (ESum ts)) eqn:E.
  - change (K c (12 + n)) with (build c (K c (11 + n))). cbn [build k_prod]. unfold prod_body.
    change (flat_prod [ESum ts; ESum us]) with [ESum ts; ESum us]. unfold combine_prod. cbn [List.length combine_prod_go decon_pow split_base].
    unfold py_eq. rewrite plain_coin, andb_false_r, E by auto. cbn [bind op_add split_base].
    change (isq (rat (1 + 1)) 0) with false. change (isq (rat (1 + 1)) 1) with false. cbv iota.
    destruct (pow_sum_total n ts (Qred (1 + 1)) A) as (p & Ep); [split; [reflexivity|discriminate]|apply lowest_red|discriminate|].
    change (rat (1 + 1)) with (ERat (Qred (1 + 1))). rewrite Ep. cbn [combine_prod_go bind]. unfold add_term. cbn [fst snd]. destruct (is_acc p); cbn [bind].
    + cbn [acc_prod bind]. destruct (isq p 0); cbn [bind]; [eauto|]. destruct (isq p 1); cbn [bind app]; eauto.
    + eauto.
  - assert (E' : eeqb (ESum ts) (ESum us) = false).
    { apply Bool.not_true_is_false. intros Q. apply c40_eq_is_identity in Q; try now apply plain_nofloat. rewrite Q, eeqb_refl in E. discriminate. }
    apply (prod_unlike_total (11 + n)); auto.
    + constructor; [|repeat constructor]. constructor; [|constructor]. now apply unbase_intro.
    + constructor; [|constructor; [|constructor]]; apply (sortable_poly (3 + n)); now apply (nform_poly natq c).
    + intros vs [<-|[<-|[]]]; now apply (neg_total (3 + n)).
Qed.
Theorem op_mul_total n a b : nform a -> nform b -> exists r, op_mul (K c (12 + n)) a b = Ok r /\ mfx r.
Proof.
  intros A B. assert (G : exists r, op_mul (K c (12 + n)) a b = Ok r).
  { assert (H : exists r, k_prod (K c (12 + n)) [a; b] = Ok r).
    { destruct (is_sum a) eqn:Sa, (is_sum b) eqn:Sb.
      - destruct a; try discriminate. destruct b; try discriminate. now apply mul_sums_total.
      - pose proof (nform_nt0 natq c b B Sb) as T. destruct (nt0_factors c b T) as (o & l & E & O & Al).
        assert (Fl : flat_prod [a; b] = a :: o ++ l).
        { unfold flat_prod. cbn [flat_map]. rewrite app_nil_r, E. destruct a; try discriminate. reflexivity. }
        assert (Bb : big a) by (destruct a; try discriminate; left; eauto).
        destruct (prod_big_total (2 + n) a o l (a :: o ++ l) Bb O Al (Permutation_refl _)) as (r & Er). exists r. rewrite <- Er.
        change (K c (10 + (2 + n))) with (build c (K c (11 + n))). change (K c (12 + n)) with (build c (K c (11 + n))). cbn [build k_prod]. unfold prod_body. rewrite Fl.
        now rewrite (proj1 (big_list c a o l (a :: o ++ l) Bb O Al (Permutation_refl _))).
      - pose proof (nform_nt0 natq c a A Sa) as T. destruct (nt0_factors c a T) as (o & l & E & O & Al).
        assert (Fl : flat_prod [a; b] = (o ++ l) ++ [b]).
        { unfold flat_prod. cbn [flat_map]. rewrite app_nil_r, E. destruct b; try discriminate. reflexivity. }
        assert (Bb : big b) by (destruct b; try discriminate; left; eauto).
        assert (P : Permutation (b :: o ++ l) ((o ++ l) ++ [b])) by apply Permutation_cons_append.
        destruct (prod_big_total (2 + n) b o l _ Bb O Al P) as (r & Er). exists r. rewrite <- Er.
        change (K c (10 + (2 + n))) with (build c (K c (11 + n))). change (K c (12 + n)) with (build c (K c (11 + n))). cbn [build k_prod]. unfold prod_body. rewrite Fl.
        now rewrite (proj1 (big_list c b o l _ Bb O Al P)).
      - destruct (k_prod_total natq natq_qeq natq_add N1 c (8 + n) [a; b]) as (r & Er & _); [|eauto].
        constructor; [now apply nform_nt0|]. constructor; [now apply nform_nt0|constructor]. }
    unfold op_mul. destruct a, b; try exact H; eexists; reflexivity. }
  destruct G as (r & E). exists r. split; auto. exact (op_mul_nfx c HX _ a b r A B E).
Qed.
End Total.

(** ** expand *)
Section Expand.
Context (dom : expr -> bool) (c : cfg) (n : nat).
Notation fk := (F dom c (8 + n)).
Notation nform := (nform natq c). Notation nt0 := (nt0 natq c). Notation nfx := (nfx c).
Let N1 : natq 1%Q := one_natq.
Let KP := k_prod_nt natq natq_qeq natq_add N1 c (8 + n).
Let KS := k_sum_nf natq c (8 + n).
Lemma nfx_poly_nform e : nfx e -> poly natq e -> nform e.
Proof.
  intros [e' A|ts L G P|ts L G R N P|ts q A S Nq Q2] H; auto.
  exfalso. inversion H as [? M|]; subst. inversion M as [? Fc|]; subst. inversion Fc as [? B|]; subst. inversion B.
Qed.
Lemma split_sums_nf l : Forall nform l -> Forall (Forall nt0) (fst (split_sums l)) /\ Forall nt0 (snd (split_sums l)).
Proof.
  induction 1 as [|t l T H [A B]]; [split; constructor|]. destruct (is_sum t) eqn:S.
  - destruct t; try discriminate. cbn [split_sums]. destruct (split_sums l); cbn [fst snd] in *. split; auto. constructor; auto. now apply (nform_sum natq c).
  - assert (Hd : split_sums (t :: l) = (let '(s, o) := split_sums l in (s, t :: o))) by (destruct t; try reflexivity; discriminate).
    rewrite Hd. destruct (split_sums l); cbn [fst snd] in *. split; auto. constructor; auto. now apply nform_nt0.
Qed.
Lemma cart_nt (l : list (list expr)) : Forall (Forall nt0) l -> Forall (Forall nt0) (cart l).
Proof.
  induction 1 as [|a l A H IH]; cbn [cart]; [repeat constructor|]. apply Forall_forall. intros x Hx. apply in_flat_map in Hx as (t & Ht & Hx).
  apply in_map_iff in Hx as (y & <- & Hy). rewrite Forall_forall in A, IH. constructor; auto.
Qed.
Lemma multi_nt us m p r : Forall nt0 us -> Forall (fun v => 0 <= v) p -> multi_term fk us m p = Ok r -> nt0 r.
Proof.
  intros G P. unfold multi_term. intros E. apply bind_ok in E as (ps & Ep & E). apply bind_ok in E as (z & Ez & E). destruct z as [z|]; [|discriminate].
  apply (KP (ratz z :: ps)); auto. constructor; [apply nt0_rat, lowest_z|]. revert Ep. apply (mapM_inv _ (fun tp => nt0 (fst tp) /\ 0 <= snd tp)).
  - intros [t v] b [Ht Hv]. cbn [fst snd] in *. rewrite fk_pow. unfold ratz. rewrite (pow_always_nat _ _ (natq_inject _ Hv)). cbn [orb guard].
    apply (k_pow_nt c); auto; [now apply natq_inject|apply lowest_z].
  - apply Forall_forall. intros [t v] Hi. cbn [fst snd]. rewrite Forall_forall in G, P. split; [apply G; eapply in_combine_l; eauto|apply P; eapply in_combine_r; eauto].
Qed.
Theorem expand_nf : forall d e r, nfx e -> (height e <= d)%nat ->
  (b <- expandable fk e;; if b : bool then expandE fk d e else Ok e) = Ok r -> nform r.
Proof.
  induction d as [|d IH]; intros e r H Hh; [destruct e; cbn in Hh; lia|]. pose proof (nfx_factored c e H) as Fe.
  destruct (expandable_factored dom c n e Fe) as (b & Eb & Hb). rewrite Eb. cbn [bind].
  destruct b; [|intros Q; injection Q as <-; auto using nfx_poly_nform]. cbn [expandE]. rewrite Eb. cbn [bind].
  pose (exp1 := fun t => b <- expandable fk t;; if b : bool then expandE fk d t else Ok t).
  assert (In1 : forall ts t r, In t ts -> nfx t -> (S (fold_right Nat.max 0%nat (map height ts)) <= S d)%nat -> exp1 t = Ok r -> nform r).
  { intros ts t r' Ht Ft Hd. apply IH; auto. pose proof (height_in t ts Ht). lia. }
  assert (Rt : forall q r, lowest q -> exp1 (ERat q) = Ok r -> nform r).
  { intros q r' Lq E. injection E as <-. now apply nform_rat. }
  assert (Tn : forall l, Forall nt0 l -> Forall nform l) by (intros l; apply Forall_impl; apply nt0_nform).
  destruct H as [e A|ts L G P|ts L G R N P|us q A S Nq Q2].
  - exfalso. pose proof (nform_poly natq c e A) as Pe. destruct Pe as [e' M|ts L F'].
    + rewrite (expandable_nmono dom c n e' M) in Eb. discriminate.
    + rewrite (expandable_nsum dom c n ts F') in Eb. discriminate.
  - intros E. apply bind_ok in E as (ts' & Em & E). apply (KS ts'); auto. revert Em. apply (mapM_inv _ (fun t => In t ts /\ nfx t)).
    + intros a b0 [Ha Na]. exact (In1 ts a b0 Ha Na Hh).
    + rewrite Forall_forall in *. intros t Ht. split; auto. now apply G.
  - assert (Gf : Forall (fun t => factored t /\ is_prod t = false) ts) by (eapply Forall_impl; [|exact G]; intros t [A B]; split; auto; now apply (nfx_factored c)).
    destruct (numdenF_factored dom c n ts Gf R) as (m & z & Hz & -> & Hm). cbn [bind].
    change (expandable fk (ratz z)) with (@Ok bool false). cbn [bind].
    change (match ratz z with EProd ds => mapM (inv_factor fk) ds | _ => d0 <- k_pow fk (ratz z) (ERat (-1));; Ok [d0] end) with (d0 <- k_pow fk (ratz z) (ERat (-1));; Ok [d0]).
    rewrite fk_pow. assert (Gd : pow_always (ratz z) (ERat (-1)) = true).
    { unfold pow_always, ratz. assert (qgt0 (inject_Z z) = true) as ->; auto. apply qgt0_iff. unfold Qlt. cbn. lia. }
    rewrite Gd. cbn [orb guard]. unfold ratz at 1.
    assert (Zn : (inject_Z z == 0)%Q -> (0 <= -1)%Q) by (intros E; exfalso; unfold Qeq in E; cbn in E; lia).
    destruct (k_pow_int c (7 + n) (inject_Z z) (-1) eq_refl Zn) as (v & Ev & _).
    assert (Lv : lowest v) by (apply (pow_rat_lowest c (K c (7 + n)) (inject_Z z) (-1)); auto using lowest_z).
    change (S (7 + n))%nat with (8 + n)%nat in Ev. rewrite Ev. cbn [bind]. assert (Nv : nt0 (ERat v)) by now apply nt0_rat.
    assert (Tm : forall t r, In t ts \/ (exists z, t = ratz z) -> exp1 t = Ok r -> nform r).
    { intros t r' [Ht|(z' & ->)]; [|apply Rt, lowest_z]. apply (In1 ts); auto. rewrite Forall_forall in G. apply G. auto. }
    assert (Single : (In m ts \/ exists z, m = ratz z) ->
      (num' <- exp1 m;; match num' with
       | ESum us => terms <- mapM (fun u => k_prod fk (u :: [ERat v])) us;; k_sum fk terms
       | _ => k_prod fk (num' :: [ERat v])
       end) = Ok r -> nform r).
    { intros Hm' E. apply bind_ok in E as (m' & Em & E). pose proof (Tm m m' Hm' Em) as Nm. destruct (is_sum m') eqn:Sm.
      - destruct m' as [| | | | | | |us| | | | |]; try discriminate. destruct (nform_sum natq c us Nm) as (Fu & _).
        apply bind_ok in E as (terms & Et & E). apply (KS terms); auto. apply Tn. revert Et. apply (mapM_inv _ nt0); auto.
        intros a b0 Na. apply KP. auto.
      - apply nt0_nform. apply (KP (m' :: [ERat v])); [constructor; [now apply nform_nt0|auto]|]. destruct m'; try exact E. discriminate. }
    destruct Hm as [(ms & -> & Hms)|Hm].
    + intros E. apply bind_ok in E as (l' & El & E).
      assert (Nl : Forall nform l') by (revert El; apply (mapM_inv _ (fun t => In t ts \/ exists z, t = ratz z)); auto; intros a b0 Ha; now apply Tm).
      destruct (split_sums_nf l' Nl) as [A B]. destruct (split_sums l') as [sums other]. cbn [fst snd] in A, B.
      destruct sums as [|s0 sums].
      * apply nt0_nform. apply (KP (other ++ [ERat v])); auto. apply Forall_app; auto.
      * apply bind_ok in E as (terms & Et & E). apply (KS terms); auto. apply Tn. revert Et. apply (mapM_inv _ (Forall nt0)).
        -- intros a b0 Ha. apply KP. apply Forall_app. split; auto. apply Forall_app. auto.
        -- now apply cart_nt.
    + assert (Np : is_prod m = false).
      { destruct Hm as [Hm|(z' & ->)]; [|reflexivity]. rewrite Forall_forall in G. apply G. auto. }
      intros E. apply Single; auto. destruct m; try exact E. discriminate.
  - destruct (nform_sum natq c us A) as (Fu & Lu). assert (Mu : Forall (mono natq) us) by (eapply Forall_impl; [|exact Fu]; apply nt0_mono).
    rewrite (expandable_nsum dom c n us Mu). cbn [bind].
    change (expandable fk (ERat q)) with (@Ok bool false). cbn [bind].
    assert (Q0 : ~ (q == 0)%Q) by (intros E; rewrite E in Q2; compute in Q2; congruence).
    assert (Q1' : ~ (q == 1)%Q) by (intros E; rewrite E in Q2; compute in Q2; congruence).
    rewrite k_pow_nsum by auto. cbn [bind].
    destruct (power_expandable (ESum us) (ERat q)) eqn:Pe.
    + intros E. apply bind_ok in E as (terms & Et & E). apply bind_ok in E as (s & Es & E).
      assert (Ns : nform s).
      { apply (KS terms); auto. apply Tn. revert Et. apply (mapM_inv _ (fun p => Forall (fun v => 0 <= v) p)).
        - intros p t Hp. apply multi_nt; auto.
        - apply Forall_forall. intros p Hp. now apply generate_permutations_spec in Hp. }
      rewrite (proj2 (qlt0_f q)) in E by apply Nq.
      assert (One : forall t, k_pow fk t (ERat 1) = Ok t).
      { intros t. rewrite fk_pow. rewrite (pow_always_nat t 1 N1). reflexivity. }
      unfold op_pow in E. destruct s; try (rewrite One in E; injection E as <-; exact Ns).
      destruct (qis0 q0 && qlt0 1); [discriminate|]. change (qisint 1) with true in E. cbv iota in E. injection E as <-. apply nform_rat, lowest_red.
    + exfalso. unfold power_expandable in Pe. rewrite (proj1 Nq) in Pe.
      assert (Q1 : Qeq_bool (Qabs q) 1 = false).
      { apply qeqb_false. rewrite Qabs_pos by apply Nq. exact Q1'. }
      rewrite Q1 in Pe. discriminate.
Qed.
End Expand.

(** ** diff *)
Section Diff.
Context (X : Q -> Prop) (XC : forall p q, (p == q)%Q -> X p -> X q) (XA : forall p q, X p -> X q -> X (p + q)%Q) (X1 : X 1%Q).
Context (XD : forall q, X q -> ~ (q == 0)%Q -> X (q - 1)%Q).
Context (dom : expr -> bool) (c : cfg) (n : nat).
Notation fk := (F dom c (8 + n)).
Notation nform := (nform X c). Notation nt0 := (nt0 X c).
Let KP := k_prod_nt X XC XA X1 c (8 + n).
Let KS := k_sum_nf X c (8 + n).
Let OM a b r : nt0 a -> nt0 b -> op_mul fk a b = Ok r -> nt0 r.
Proof.
  intros A B. assert (G : k_prod (K c (8 + n)) [a; b] = Ok r -> nt0 r) by (apply KP; auto).
  unfold op_mul. destruct a, b; auto. intros E. injection E as <-. apply nt0_rat, lowest_red.
Qed.
Lemma pow_symx_nt m s q r : ident s -> X q -> lowest q -> k_pow (K c (S m)) (ESym s) (ERat q) = Ok r -> nt0 r.
Proof.
  intros I Nq Lq. rewrite k_pow_sym. destruct (Qeq_bool q 0) eqn:E0; [intros E; injection E as <-; apply nt0_rat; reflexivity|].
  destruct (Qeq_bool q 1) eqn:E1; intros E; injection E as <-.
  - right. exists (1%Q, [ESym s]). split; [|reflexivity]. apply (natom_term X c (ESym s)). now constructor.
  - right. exists (1%Q, [EPow (ESym s) (ERat q)]). split; [|reflexivity]. apply (natom_term X c). constructor; auto; now apply Qeq_bool_neq.
Qed.
Lemma nice_nt0 t : fac X t -> nice t -> nt0 t.
Proof.
  intros [a A|q] Nt; [|now apply nt0_rat]. right. exists (1%Q, [a]). destruct (natom_term X c a) as (T & E); [now apply atom_natom|]. auto.
Qed.
Lemma diff_fac_nt d v t r : fac X t -> nice t -> diffE fk d v t = Ok r -> nt0 r.
Proof.
  intros Ft Nt E. destruct d as [|d]; [discriminate|].
  assert (Z1 : nt0 (ERat 1)) by (apply nt0_rat; reflexivity). assert (Z0 : nt0 (ERat 0)) by (apply nt0_rat; reflexivity).
  destruct Ft as [t [s Hs|s q Hs Hq H0]|q]; cbn [diffE] in E.
  - injection E as <-. destruct (String.eqb s v); auto.
  - destruct Nt as (I & Lq & _). change (negb (contains v (ERat q))) with true in E. cbn [op_sub bind] in E. unfold rat in E.
    apply bind_ok in E as (p & Ep & E). apply bind_ok in E as (m & Em & E). apply bind_ok in E as (b & Eb & E).
    assert (Nb : nt0 b) by (destruct d as [|d]; [discriminate|]; cbn [diffE] in Eb; injection Eb as <-; destruct (String.eqb s v); auto).
    assert (Np : nt0 p).
    { unfold op_pow in Ep. rewrite fk_pow in Ep. destruct (pow_always (ESym s) (ERat (Qred (q - 1))) || dom (EPow (ESym s) (ERat (Qred (q - 1))))); [|discriminate].
      cbn [guard] in Ep. apply (pow_symx_nt (7 + n) s (Qred (q - 1))); auto; [|apply lowest_red]. eapply XC; [symmetry; apply Qred_correct|]. auto. }
    assert (Nm : nt0 m) by (apply (OM _ _ _ (nt0_rat X c q Lq) Np Em)).
    apply (OM _ _ _ Nm Nb E).
  - injection E as <-. auto.
Qed.
Lemma diff_prod_nt d v l : Forall (fun t => fac X t /\ nice t) l -> forall pre ps, Forall (fun t => fac X t /\ nice t) pre ->
  diff_prod fk (diffE fk d v) pre l = Ok ps -> Forall nt0 ps.
Proof.
  induction 1 as [|t l [Ft Nt] H IH]; intros pre ps Hp; cbn [diff_prod]; intros E; [injection E as <-; constructor|].
  apply bind_ok in E as (t' & Et & E). apply bind_ok in E as (p & Ep & E). apply bind_ok in E as (ps' & Es & E). injection E as <-.
  constructor.
  - apply (KP (t' :: pre ++ l)); auto. constructor; [eapply diff_fac_nt; eauto|].
    apply Forall_app. split; (eapply Forall_impl; [|eassumption]); intros a [A B]; now apply nice_nt0.
  - apply (IH (pre ++ [t]) ps'); auto. apply Forall_app. auto.
Qed.
Lemma diff_nt d v e r : nt0 e -> diffE fk d v e = Ok r -> nform r.
Proof.
  intros A E. assert (Fl : Forall (fac X) (flat_prod1 e) /\ Forall nice (flat_prod1 e)).
  { destruct (flat_nt0 X c [e]) as (B & D); [auto|]. unfold flat_prod in B, D. cbn [flat_map] in B, D. rewrite app_nil_r in B, D. auto. }
  destruct (is_prod e) eqn:Pe.
  - destruct e as [| | | | | | | |l| | | |]; try discriminate. pose proof (nt0_mono X c _ A) as M.
    inversion M as [? Fc|? L Fc R N]; subst; [inversion Fc as [? B|]; subst; inversion B|].
    assert (Q : flat_prod1 (EProd l) = l) by (apply (flat_prod_fac X l Fc)). rewrite Q in Fl. destruct Fl as (F1 & F2).
    destruct d as [|d]; [discriminate|]. cbn [diffE] in E. apply bind_ok in E as (ps & Ep & E).
    apply (KS ps); auto. assert (G : Forall nt0 ps); [|eapply Forall_impl; [|exact G]; apply nt0_nform].
    apply (diff_prod_nt d v l) with (pre := []); auto. rewrite Forall_forall in *. auto.
  - assert (Q : flat_prod1 e = [e]) by (destruct e; try reflexivity; discriminate). rewrite Q in Fl. destruct Fl as (F1 & F2).
    inversion F1; inversion F2; subst. apply nt0_nform. eapply diff_fac_nt; eauto.
Qed.
Theorem diff_nf d v e r : nform e -> diffE fk d v e = Ok r -> nform r.
Proof.
  intros A E. destruct (is_sum e) eqn:S; [|apply (diff_nt d v e r); auto; now apply nform_nt0].
  destruct e as [| | | | | | |ts| | | | |]; try discriminate. destruct (nform_sum X c ts A) as (Ft & _).
  destruct d as [|d]; [discriminate|]. cbn [diffE] in E. apply bind_ok in E as (ts' & Em & E). apply (KS ts'); auto.
  revert Em. apply (mapM_inv _ nt0); auto. intros a b. apply diff_nt.
Qed.
End Diff.
