(** * SoundPow: Power and Abs preserve real values; the soundness of the whole kernel. *)
From Verif Require Export Sound.
From Coq Require Import Qpower.
Open Scope R_scope.

Lemma IZR_Zpow a n : (0 <= n)%Z -> IZR (a ^ n) = powerRZ (IZR a) n.
Proof.
  intros H. rewrite powerRZ_nonneg_pow; auto. rewrite pow_IZR. now rewrite Z2Nat.id.
Qed.

Lemma powerRZ_opp b n : powerRZ b (- n) = / powerRZ b n.
Proof. destruct n; simpl; auto; try now rewrite Rinv_1. now rewrite Rinv_inv. Qed.

Lemma powerRZ_Rinv b n : powerRZ (/ b) n = / powerRZ b n.
Proof.
  destruct n; simpl; [now rewrite Rinv_1 | apply pow_inv | now rewrite pow_inv].
Qed.

Lemma Q2R_Qpower p n : Q2R (Qpower p n) = powerRZ (Q2R p) n.
Proof.
  assert (P : forall j, Q2R (Qpower_positive p j) = Q2R p ^ Pos.to_nat j).
  { intros j. induction j as [|j IH] using Pos.peano_ind.
    - simpl. ring.
    - rewrite <- Pos.add_1_l. rewrite (Qeq_eqR _ _ (Qpower_plus_positive _ _ _)).
      rewrite Q2R_mult, IH, Pos2Nat.inj_add, pow_add. simpl. ring. }
  destruct n as [|j|j]; simpl; auto.
  - apply Q2R_1.
  - change (Q2R (/ Qpower_positive p j) = / (Q2R p ^ Pos.to_nat j)). rewrite <- P.
    set (v := Qpower_positive p j).
    destruct (Qeq_dec v 0) as [E|E].
    + rewrite (Qeq_eqR _ _ E), Q2R_0, Rinv_0.
      rewrite <- Q2R_0. apply Qeq_eqR. rewrite E. reflexivity.
    + now apply Q2R_inv.
Qed.

Lemma Rprod_neq0_in rho ts t : Rprod (map (ev rho) ts) <> 0 -> In t ts -> ev rho t <> 0.
Proof.
  induction ts as [|u l IH]; simpl; [tauto|]. intros H [->|Hi].
  - intros E; rewrite E in H; apply H; ring.
  - apply IH; auto. intros E; rewrite E in H; apply H; ring.
Qed.

Lemma Rprod_gt0 rho ts : Forall (rp rho) ts -> 0 < Rprod (map (ev rho) ts).
Proof.
  induction 1 as [|t l Ht Hl IH]; simpl; [lra|]. apply rp_gt0 in Ht. nra.
Qed.

Lemma strictly_positive_sound rho e : strictly_positive e = Ok true -> 0 <= ev rho e.
Proof.
  induction e as [q| | | | | | |ts IH|ts IH|b x IHb IHx| | |] using expr_ind'; intros H;
    cbn [strictly_positive] in H; try discriminate.
  - inv_ok. apply negb_true_iff in H. now apply qlt0_false.
  - simpl. left; apply PI_RGT_0.
  - simpl. left; apply exp_pos.
  - cbn [ev]. induction ts as [|t l IHl]; simpl; [lra|]. inversion IH; subst.
    apply bind_ok in H as (b & Hb & H). destruct b; [|discriminate].
    specialize (IHl ltac:(auto) H). apply H2 in Hb. lra.
  - cbn [ev]. induction ts as [|t l IHl]; simpl; [lra|]. inversion IH; subst.
    apply bind_ok in H as (b & Hb & H). destruct b; [|discriminate].
    specialize (IHl ltac:(auto) H). apply H2 in Hb. now apply Rmult_le_pos.
  - cbn [ev]. apply rpow_ge0. auto.
Qed.

Section Step.
Context (c : cfg) (k : kern) (Hstrict : strict c = true) (Hf : fpow_exact (fpow c)) (HS : Sound k).

Lemma int_pow_sound a ax m : int_pow c a ax = Some m -> 0 < Q2R ax -> (a <> 0)%Z ->
  (qisint ax = true \/ (0 < a)%Z) -> IZR m = rpow (IZR a) (Q2R ax).
Proof.
  unfold int_pow. intros H Hx Ha Hd. destruct (qisint ax) eqn:E.
  - injection H as <-. pose proof (numer_pos _ Hx) as Hn. rewrite (qisint_Q2R _ E).
    rewrite rpow_int by (right; lia). apply IZR_Zpow; lia.
  - destruct Hd as [Hd|Hd]; [discriminate|].
    destruct (Z.ltb_spec a 0); [lia|].
    rewrite rpow_pos by (apply IZR_lt; auto). eapply Hf; eauto.
    apply Qlt_Q2R. now rewrite Q2R_0.
Qed.

Lemma rpow_frac p v : Q2R p <> 0 -> (0 < Q2R p \/ exists n, v = IZR n) ->
  rpow (Q2R p) v = rpow (IZR (numer p)) v / rpow (IZR (denom p)) v.
Proof.
  intros Hp H. pose proof (denom_IZR_pos p) as Hd. rewrite (Q2R_numden p) at 1.
  destruct H as [H|[n ->]].
  - pose proof (numer_pos _ H) as Hn. apply IZR_lt in Hn. unfold Rdiv.
    rewrite rpow_Rmult; auto using Rinv_0_lt_compat. now rewrite rpow_inv_base.
  - apply numer_neq0 in Hp. assert (Hn : IZR (numer p) <> 0) by (now apply not_0_IZR).
    rewrite !rpow_int; try (left; auto; lra).
    2:{ left. unfold Rdiv. apply Rmult_integral_contrapositive_currified; auto.
        apply Rinv_neq_0_compat; lra. }
    unfold Rdiv. rewrite powerRZ_mult_distr.
    + now rewrite powerRZ_Rinv.
    + left; split; auto. apply Rinv_neq_0_compat; lra.
Qed.

Lemma rpow_neg_v b v : b <> 0 -> (0 < b \/ exists n, v = IZR n) -> rpow b (- v) = / rpow b v.
Proof.
  intros Hb [H|[n ->]]; [now apply rpow_opp|].
  rewrite <- opp_IZR. rewrite !rpow_int by auto. apply powerRZ_opp.
Qed.

Lemma rpow_neq0 b v : b <> 0 -> rpow b v <> 0.
Proof.
  intros H. destruct (Rlt_dec 0 b) as [Hb|Hb].
  - pose proof (rpow_gt0 b v Hb); lra.
  - unfold rpow. destruct (Rlt_dec 0 b); [lra|]. destruct (Req_EM_T b 0); [contradiction|].
    now apply powerRZ_NOR.
Qed.

Lemma Q2R_Zdiv m d : IZR d <> 0 -> Q2R (inject_Z m / inject_Z d) = IZR m / IZR d.
Proof.
  intros H. rewrite Q2R_div, !Q2R_inject; auto.
  intros E. apply Qeq_eqR in E. rewrite Q2R_inject, Q2R_0 in E. auto.
Qed.
Lemma Q2R_invq q : Q2R q <> 0 -> Q2R (/ q) = / Q2R q.
Proof.
  intros H. apply Q2R_inv. intros E. apply H. rewrite (Qeq_eqR _ _ E). apply Q2R_0.
Qed.

Lemma rp_ERat rho q : 0 < Q2R q -> rp rho (ERat q).
Proof. intros H. apply rp_unfold. simpl; auto. Qed.
Lemma wd_pow_pos rho p x : 0 < Q2R p -> wd rho x -> wd rho (EPow (ERat p) x).
Proof. intros H Hx. simpl. repeat split; auto. right. now apply rp_ERat. Qed.

Lemma acc_pow_sound rho p q r : acc_pow c k (ERat p) (ERat q) = Ok r ->
  Q2R q <> 0 -> pdom rho (ERat p) (ERat q) ->
  match r with Some e => wd rho e /\ ev rho e = rpow (Q2R p) (Q2R q) | None => True end.
Proof.
  intros H Hq Hd. unfold acc_pow in H.
  assert (Hd' : 0 < Q2R p \/ (qisint q = true /\ (Q2R p <> 0 \/ 0 <= Q2R q))).
  { destruct Hd as [(q' & E & Hi & Hd)|Hd].
    - injection E as <-. right. split; auto. rewrite <- Q2R_nonneg. simpl in Hd. tauto.
    - apply rp_gt0 in Hd. auto. }
  destruct (qis0 p) eqn:E0.
  { apply qis0_true in E0. destruct Hd' as [Hd'|[Hi [Hd'|Hd']]]; try lra.
    inv_ok. destruct (qgt0 q) eqn:Eg.
    - split; simpl; auto. rewrite E0, Q2R_0, (qisint_Q2R _ Hi).
      apply qgt0_true in Eg. apply numer_pos in Eg.
      rewrite rpow_int by (right; lia). rewrite powerRZ_nonneg_pow by lia.
      rewrite pow_ne_zero; auto. lia.
    - apply qgt0_false in Eg. lra. }
  apply qis0_false in E0.
  assert (Hax : 0 < Q2R (Qabs q)) by (rewrite Q2R_Qabs; now apply Rabs_pos_lt).
  assert (Hdom : forall v, (v = Q2R q \/ v = Q2R (Qabs q)) -> 0 < Q2R p \/ exists n, v = IZR n).
  { intros v Hv. destruct Hd' as [Hd'|[Hi _]]; auto. right.
    destruct Hv as [->| ->].
    - exists (numer q). now apply qisint_Q2R.
    - exists (Z.abs (numer q)). rewrite Q2R_Qabs, (qisint_Q2R _ Hi). symmetry; apply abs_IZR. }
  assert (Hint : qisint (Qabs q) = true \/ 0 < Q2R p).
  { destruct (Hdom _ (or_intror eq_refl)) as [?|[n Hn]]; auto. left.
    now apply qisint_Z in Hn. }
  assert (Nnum : (numer p <> 0)%Z) by (now apply numer_neq0).
  assert (Hnum : forall m, int_pow c (numer p) (Qabs q) = Some m ->
     IZR m = rpow (IZR (numer p)) (Q2R (Qabs q))).
  { intros m Hm. apply int_pow_sound; auto. destruct Hint; auto. right. now apply numer_pos. }
  assert (Hden : forall d, int_pow c (denom p) (Qabs q) = Some d ->
     IZR d = rpow (IZR (denom p)) (Q2R (Qabs q))).
  { intros m Hm. pose proof (denom_pos p). apply int_pow_sound; auto; lia. }
  assert (Dpos : 0 < IZR (denom p)) by apply denom_IZR_pos.
  pose proof (rpow_gt0 _ (Q2R (Qabs q)) Dpos) as Dp.
  assert (NR : IZR (numer p) <> 0) by (now apply not_0_IZR).
  pose proof (rpow_neq0 _ (Q2R (Qabs q)) NR) as Np.
  assert (Vpos : 0 < Q2R q -> rpow (Q2R p) (Q2R q) =
     rpow (IZR (numer p)) (Q2R (Qabs q)) / rpow (IZR (denom p)) (Q2R (Qabs q))).
  { intros Hp. assert (EA : Q2R (Qabs q) = Q2R q) by (rewrite Q2R_Qabs; apply Rabs_right; lra).
    rewrite EA. apply rpow_frac; auto. }
  assert (Vneg : Q2R q < 0 -> rpow (Q2R p) (Q2R q) =
     rpow (IZR (denom p)) (Q2R (Qabs q)) / rpow (IZR (numer p)) (Q2R (Qabs q))).
  { intros Hp. assert (EA : Q2R q = - Q2R (Qabs q)).
    { rewrite Q2R_Qabs, Rabs_left; lra. }
    rewrite EA at 1. rewrite rpow_neg_v; auto. rewrite rpow_frac; auto.
    field. split; auto; lra. }
  destruct (int_pow c (numer p) (Qabs q)) as [m|] eqn:En;
  destruct (int_pow c (denom p) (Qabs q)) as [d|] eqn:Ed.
  { inv_ok. specialize (Hnum _ eq_refl). specialize (Hden _ eq_refl).
    destruct (qgt0 q) eqn:Eg.
    - apply qgt0_true in Eg. split; simpl; auto. rewrite Q2R_red, Q2R_Zdiv by (rewrite Hden; lra).
      rewrite Vpos; auto. now rewrite Hnum, Hden.
    - apply qgt0_false in Eg. split; simpl; auto. rewrite Q2R_red, Q2R_Zdiv by (now rewrite Hnum).
      rewrite Vneg; [|lra]. now rewrite Hnum, Hden. }
  all: assert (Ppos : 0 < Q2R p) by
    (destruct Hint as [Hint|Hint]; auto; unfold int_pow in En, Ed; rewrite Hint in En, Ed; discriminate).
  all: destruct ((numer p =? 1)%Z || negb (denom p =? 1)%Z && qlt0 q) eqn:EC.
  all: try (inv_ok; match goal with HP : k_pow k _ _ = Ok _ |- _ =>
      apply (s_pow k HS rho) in HP as [P1 P2]; simpl; auto;
      [split; auto; rewrite P2; simpl; rewrite !Q2R_red, Q2R_opp, Q2R_invq by auto;
       rewrite rpow_inv_base by auto; rewrite rpow_opp by auto; apply Rinv_inv
      | right; apply rp_ERat; rewrite Q2R_red, Q2R_invq by auto; now apply Rinv_0_lt_compat] end; fail).
  all: assert (Lp : qlt0 p = false) by
    (destruct (qlt0 p) eqn:EL; auto; apply qlt0_true in EL; lra).
  all: rewrite Lp, andb_false_r in H; cbn [andb] in H.
  all: apply orb_false_elim in EC as [EC1 EC2].
  all: pose proof (numer_pos _ Ppos) as NP.
  all: try (specialize (Hnum _ eq_refl)); try (specialize (Hden _ eq_refl)).
  - (* num = Some m, den = None *)
    destruct (m =? 1)%Z eqn:Em; [inv_ok; auto|].
    assert (Hans : forall q', wd rho (EProd [ratz m; EPow (ratz (denom p)) (rat q')])).
    { intros q'. apply wd_prod. split; [|unfold one_const; simpl; auto].
      constructor; [simpl; auto|]. constructor; auto. apply wd_pow_pos; simpl; auto.
      now rewrite Q2R_inject. }
    assert (Vans : ev rho (EProd [ratz m; EPow (ratz (denom p)) (rat (- q))]) =
              rpow (IZR (numer p)) (Q2R (Qabs q)) * rpow (IZR (denom p)) (- Q2R q)).
    { simpl. rewrite Q2R_red, Q2R_opp, !Q2R_inject, Hnum. ring. }
    destruct (qgt0 q) eqn:Eg; inv_ok.
    + apply qgt0_true in Eg. split; auto. rewrite Vans, Vpos; auto.
      rewrite rpow_opp by auto. rewrite Q2R_Qabs, Rabs_right by lra. reflexivity.
    + apply qgt0_false in Eg.
      assert (Lq : qlt0 q = true).
      { destruct (qlt0 q) eqn:EL; auto. apply qlt0_false in EL. lra. }
      rewrite Lq, andb_true_r in EC2. apply negb_false_iff, Z.eqb_eq in EC2.
      rewrite EC2 in *. rewrite rpow_1_l in *.
      apply (op_div_sound k HS rho) in H0 as [A1 A2]; auto; [|simpl; auto|].
      * split; auto. rewrite A2. rewrite Vans, Vneg by lra. simpl. rewrite Q2R_1. field; auto.
      * rewrite Vans. rewrite Rmult_1_r; auto.
  - (* num = None, den = Some d *)
    destruct (d =? 1)%Z eqn:Em; [inv_ok; auto|].
    assert (Hd0 : IZR d <> 0) by (rewrite Hden; lra).
    assert (Hans : wd rho (EProd [rat (/ inject_Z d); EPow (ratz (numer p)) (ERat q)])).
    { apply wd_prod. split; [|unfold one_const; simpl; auto].
      constructor; [simpl; auto|]. constructor; auto. apply wd_pow_pos; simpl; auto.
      rewrite Q2R_inject. now apply IZR_lt. }
    destruct (qgt0 q) eqn:Eg; inv_ok.
    + apply qgt0_true in Eg. split; auto. simpl. rewrite Q2R_red, Q2R_invq, !Q2R_inject, Hden by
        (rewrite Q2R_inject; auto).
      rewrite Vpos; auto. rewrite Q2R_Qabs, Rabs_right by lra. unfold Rdiv; ring.
    + exfalso. apply qgt0_false in Eg.
      assert (Lq : qlt0 q = true).
      { destruct (qlt0 q) eqn:EL; auto. apply qlt0_false in EL. lra. }
      rewrite Lq, andb_true_r in EC2. apply negb_false_iff, Z.eqb_eq in EC2.
      rewrite EC2, rpow_1_l in Hden. apply eq_IZR in Hden. apply Z.eqb_neq in Em. auto.
  - inv_ok; auto.
Qed.

Lemma op_pow_sound rho b x e : op_pow k b x = Ok e -> wd rho b -> wd rho x -> pdom rho b x ->
  wd rho e /\ ev rho e = rpow (ev rho b) (ev rho x).
Proof.
  intros H Wb Wx Hd. unfold op_pow in H.
  assert (G : k_pow k b x = Ok e -> wd rho e /\ ev rho e = rpow (ev rho b) (ev rho x))
    by (intros G; eapply (s_pow k HS rho) in G; eauto).
  destruct b; auto. destruct x; auto.
  destruct (qis0 q && qlt0 q0) eqn:EZ; [discriminate|].
  destruct (qisint q0) eqn:Ei; auto. inv_ok. split; simpl; auto.
  rewrite Q2R_red, Q2R_Qpower. rewrite (qisint_Q2R _ Ei). rewrite rpow_int; auto.
  apply andb_false_iff in EZ as [EZ|EZ].
  - left. now apply qis0_false.
  - right. apply qlt0_false in EZ. rewrite (qisint_Q2R _ Ei) in EZ. now apply le_IZR.
Qed.

Lemma qmod2_even q : qis0 (qmod q 2) = true -> exists j, Q2R q = 2 * IZR j.
Proof.
  intros H. apply qis0_true in H. unfold qmod in H. rewrite Q2R_minus, Q2R_mult, Q2R_inject in H.
  exists (Qfloor (q / 2)). replace (Q2R 2) with 2 in H by (unfold Q2R; simpl; lra). lra.
Qed.

Lemma mult_exp_sound rho b0 x0 x e : mult_exp k b0 x0 x = Ok e ->
  wd rho (EPow b0 x0) -> wd rho x -> pdom rho (EPow b0 x0) x -> 
  wd rho e /\ ev rho e = rpow (ev rho (EPow b0 x0)) (ev rho x).
Proof.
  intros H (Wb & Wx0 & P0) Wx P.
  assert (G : forall m, op_mul k x0 x = Ok m -> wd rho m /\ pdom rho b0 m /\
     rpow (rpow (ev rho b0) (ev rho x0)) (ev rho x) = rpow (ev rho b0) (ev rho m)).
  { intros m Hm. destruct (op_mul_sound k HS rho _ _ _ Hm Wx0 Wx) as [M1 M2]. split; auto.
    assert (R : rp rho b0 -> pdom rho b0 m /\
      rpow (rpow (ev rho b0) (ev rho x0)) (ev rho x) = rpow (ev rho b0) (ev rho m)).
    { intros R. split; [right; auto|]. rewrite M2. apply rpow_mult. now apply rp_gt0. }
    apply pdom_rp_or in P as [(n & En & Dn & q & -> & Iq & Nq)|P].
    2:{ apply rp_unfold in P as [_ P]. auto. }
    apply pdom_rp_or in P0 as [(n0 & En0 & Dn0 & q0 & -> & Iq0 & Nq0)|P0]; auto.
    clear R. simpl in Hm. injection Hm as <-. simpl in En, En0, M2.
    assert (D : ev rho b0 <> 0 \/ (0 <= n0 * n)%Z).
    { destruct (Req_dec (ev rho b0) 0) as [Z|Z]; auto. right.
      destruct Dn0 as [?|Dn0]; [contradiction|].
      destruct (Z.eq_dec n0 0) as [->|Zn]; [lia|].
      destruct Dn as [Dn|Dn]; [|nia].
      exfalso. apply Dn. simpl. rewrite En0, rpow_int by auto. rewrite Z.
      rewrite powerRZ_nonneg_pow by auto. rewrite pow_ne_zero; auto. lia. }
    split.
    - apply (pdom_int rho b0 _ (n0 * n)); auto. rewrite M2, En, En0. now rewrite mult_IZR.
    - simpl. rewrite M2, En0, En, <- mult_IZR. rewrite (rpow_int (ev rho b0)) by auto.
      rewrite rpow_int. 2:{ simpl in Dn. rewrite En0, rpow_int in Dn; auto. }
      rewrite rpow_int by auto. apply powerRZ_powerRZ. }
  assert (DF : (m <- op_mul k x0 x;; op_pow k b0 m) = Ok e ->
     wd rho e /\ ev rho e = rpow (ev rho (EPow b0 x0)) (ev rho x)).
  { intros D. inv_ok. apply G in H0 as (G1 & G2 & G3). apply (op_pow_sound rho) in D as [D1 D2]; auto.
    split; auto. rewrite D2. simpl. auto. }
  unfold mult_exp in H.
  destruct x0 as [q1| | | | | | | | | | | |]; auto. destruct x as [q2| | | | | | | | | | | |]; auto.
  destruct (qis0 (qmod q1 2)) eqn:Ev; auto.
  destruct (qis0 q2) eqn:E2; [discriminate|]. destruct (Qeq_bool q1 (/ q2)) eqn:ER; auto.
  apply qis0_false in E2. apply Qeq_bool_true in ER. rewrite Q2R_invq in ER by auto.
  apply qmod2_even in Ev as [j Hj].
  assert (R : rp rho b0).
  { apply pdom_rp_or in P as [(n & En & Dn & q & Eq & Iq & Nq)|P].
    - exfalso. simpl in En. rewrite ER in Hj. rewrite En in Hj, E2.
      assert (HJ : 1 = IZR (2 * j * n)).
      { rewrite !mult_IZR. rewrite <- Hj. field; auto. }
      apply eq_IZR in HJ. lia.
    - apply rp_unfold in P as [_ P]. auto. }
  apply (s_abs k HS rho) in H as [A1 A2]; auto. split; auto. rewrite A2.
  pose proof (rp_gt0 _ _ R) as R'. cbn [ev]. rewrite rpow_mult by auto. rewrite ER.
  rewrite Rinv_l by auto. rewrite rpow_1. apply Rabs_right. lra.
Qed.

Lemma mapM_pow_sound rho x ts ts' : mapM (fun t => k_pow k t x) ts = Ok ts' ->
  Forall (wd rho) ts -> wd rho x -> pdom rho (EProd ts) x -> is_sub (EProd ts) = false ->
  Forall (wd rho) ts' /\ Rprod (map (ev rho) ts') = rpow (Rprod (map (ev rho) ts)) (ev rho x).
Proof.
  intros H W Wx P Hs.
  assert (PP : (Forall (rp rho) ts) \/ (exists n, ev rho x = IZR n /\
      (Rprod (map (ev rho) ts) <> 0 \/ (0 <= n)%Z) /\ Forall (fun t => pdom rho t x) ts)).
  { apply pdom_rp_or in P as [(n & En & Dn & q & -> & Iq & Nq)|P].
    - right. exists n. repeat split; auto. apply Forall_forall. intros t Ht.
      apply (pdom_int rho t _ n); auto. cbn [ev] in Dn. destruct Dn as [Dn|Dn]; auto.
      left. eapply Rprod_neq0_in; eauto.
    - left. apply rp_unfold in P as [_ [P|P]]; auto. congruence. }
  clear P Hs. revert ts' H. destruct PP as [PP|(n & En & Dn & PP)].
  - induction ts as [|t l IH]; cbn [mapM]; intros ts' H; inv_ok.
    + split; auto. simpl. now rewrite rpow_1_l.
    + inversion W; subst. inversion PP; subst.
      apply (s_pow k HS rho) in H0 as [A1 A2]; auto; [|right; auto].
      apply IH in H1 as [B1 B2]; auto. split; auto. simpl. rewrite A2, B2.
      symmetry. apply rpow_Rmult; [now apply rp_gt0 | now apply Rprod_gt0].
  - rewrite En. induction ts as [|t l IH]; cbn [mapM]; intros ts' H; inv_ok.
    + split; auto. simpl. now rewrite rpow_1_l.
    + inversion W; subst. inversion PP; subst.
      assert (Dl : ev rho t <> 0 /\ Rprod (map (ev rho) l) <> 0 \/ (0 <= n)%Z).
      { destruct Dn as [Dn|Dn]; auto. left. simpl in Dn.
        split; intros E; apply Dn; rewrite E; ring. }
      apply (s_pow k HS rho) in H0 as [A1 A2]; auto.
      apply IH in H1 as [B1 B2]; auto.
      2:{ destruct Dl as [[_ Dl]|Dl]; auto. }
      split; auto. simpl. rewrite A2, B2, En.
      rewrite !rpow_int; try tauto.
      * symmetry. apply powerRZ_mult_distr. tauto.
Qed.

Lemma find_log_spec b l : forall pre i rest, find_log c b pre l = Ok (Some (i, rest)) ->
  exists l1 l2, l = l1 ++ ELog i b :: l2 /\ rest = pre ++ l1 ++ l2.
Proof.
  induction l as [|t l IH]; intros pre i rest H; [discriminate|].
  assert (G : find_log c b (pre ++ [t]) l = Ok (Some (i, rest)) ->
    exists l1 l2, t :: l = l1 ++ ELog i b :: l2 /\ rest = pre ++ l1 ++ l2).
  { intros G. apply IH in G as (l1 & l2 & -> & ->). exists (t :: l1), l2. split; auto.
    now rewrite <- !app_assoc. }
  destruct t; try (apply G; exact H). cbn [find_log] in H.
  apply bind_ok in H as (v & Hv & H). destruct v; auto. inv_ok.
  apply (py_eq_true c Hstrict) in Hv. subst. exists [], l. split; auto.
Qed.

Lemma rpow_log b i v : 0 < b -> b <> 1 -> 0 < i -> rpow b (ln i / ln b * v) = rpow i v.
Proof.
  intros Hb H1 Hi. rewrite !rpow_pos by auto. unfold Rpower. f_equal.
  assert (ln b <> 0).
  { intros E. apply H1. apply ln_inv; auto; [lra|]. now rewrite ln_1. }
  field; auto.
Qed.

Lemma pow_tail_sound rho b x e : pow_tail k b x = Ok e -> wd rho b -> wd rho x -> pdom rho b x ->
  wd rho e /\ ev rho e = rpow (ev rho b) (ev rho x).
Proof.
  intros H Wb Wx P.
  assert (D : Ok (EPow b x) = Ok e -> wd rho e /\ ev rho e = rpow (ev rho b) (ev rho x)).
  { intros [= <-]. simpl; auto. }
  unfold pow_tail in H.
  destruct x; try (match type of H with context [if ?b then _ else _] => destruct b end; auto; fail);
    try destruct Wx.
  destruct (is_sub b && qisint q) eqn:E; auto. apply andb_prop in E as [_ Hi].
  apply bind_ok in H as (nb & Hn & H). apply (op_neg_sound k HS rho) in Hn as [N1 N2]; auto.
  assert (Pn : pdom rho nb (ERat q) /\ (ev rho b <> 0 \/ (0 <= numer q)%Z)).
  { assert (A : ev rho b <> 0 \/ (0 <= numer q)%Z).
    { apply pdom_rp_or in P as [(n & En & Dn & q' & [= <-] & _ & Nq)|P]; [now rewrite Nq|].
      left. apply rp_gt0 in P. lra. }
    split; auto. apply (pdom_int rho nb q (numer q)); [now apply qisint_Q2R|].
    rewrite N2. destruct A; auto. left; lra. }
  destruct Pn as [Pn A]. cbn [ev]. rewrite (qisint_Q2R _ Hi), (rpow_int (ev rho b)) by auto.
  assert (A' : - ev rho b <> 0 \/ (0 <= numer q)%Z) by (destruct A; auto; left; lra).
  destruct (Z.even (numer q)) eqn:Ev.
  - apply (s_pow k HS rho) in H as [P1 P2]; auto; [|exact I]. split; auto. rewrite P2, N2. cbn [ev].
    rewrite (qisint_Q2R _ Hi), rpow_int by auto. now apply powerRZ_neg_even.
  - apply bind_ok in H as (p & Hp & H).
    apply (s_pow k HS rho) in Hp as [P1 P2]; auto; [|exact I].
    apply (op_neg_sound k HS rho) in H as [Q1 Q2]; auto. split; auto.
    rewrite Q2, P2, N2. cbn [ev]. rewrite (qisint_Q2R _ Hi), rpow_int by auto.
    rewrite powerRZ_neg_odd by auto. ring.
Qed.

Lemma one_const_app_remove l1 t l2 : one_const (l1 ++ t :: l2) -> one_const (l1 ++ l2).
Proof.
  unfold one_const. rewrite !filter_app, !app_length. simpl. destruct (is_acc t); simpl; lia.
Qed.

Lemma pow_body_sound rho b x e : pow_body c k b x = Ok e -> wd rho b -> wd rho x ->
  pdom rho b x -> wd rho e /\ ev rho e = rpow (ev rho b) (ev rho x).
Proof.
  intros H Wb Wx P. unfold pow_body in H.
  destruct (isq x 0) eqn:X0.
  { inv_ok. rewrite (isq_ev rho _ _ X0), Q2R_0, rpow_0. split; simpl; auto. apply Q2R_1. }
  destruct (isq x 1) eqn:X1.
  { inv_ok. rewrite (isq_ev rho _ _ X1), Q2R_1, rpow_1. auto. }
  destruct (isq b 1) eqn:B1.
  { inv_ok. rewrite (isq_ev rho _ _ B1), Q2R_1, rpow_1_l. split; simpl; auto. apply Q2R_1. }
  destruct (is_acc b && is_acc x) eqn:EA.
  { apply andb_prop in EA as [EA1 EA2]. destruct (acc_wd rho b EA1 Wb) as [p ->].
    destruct (acc_wd rho x EA2 Wx) as [q ->]. apply bind_ok in H as (r & Hr & H).
    assert (Hq : Q2R q <> 0).
    { simpl in X0. apply Qeq_bool_false in X0. now rewrite Q2R_0 in X0. }
    pose proof (acc_pow_sound rho p q r Hr Hq P) as A.
    destruct r as [e'|]; inv_ok; auto. simpl; auto. }
  clear EA.
  assert (Tail : pow_tail k b x = Ok e -> wd rho e /\ ev rho e = rpow (ev rho b) (ev rho x))
    by (intros T; now apply pow_tail_sound).
  assert (NP : is_pow b = false -> (if is_prod b && negb (is_sub b) then
          ts <- mapM (fun t => k_pow k t x) (children b);; k_prod k ts
        else
          match x with
          | ELog i lb =>
              e <- py_eq c b lb;;
              if e : bool then Ok i else pow_tail k b x
          | EProd xs =>
              r <- find_log c b [] xs;;
              match r with
              | Some (i, rest) => rest' <- prod_skip rest;; k_pow k i rest'
              | None => pow_tail k b x
              end
          | _ => pow_tail k b x
          end) = Ok e -> wd rho e /\ ev rho e = rpow (ev rho b) (ev rho x)).
  { clear H. intros _ H. destruct (is_prod b && negb (is_sub b)) eqn:EP.
    - apply andb_prop in EP as [E1 E2]. apply negb_true_iff in E2.
      destruct b; try discriminate. cbn [children] in H.
      apply bind_ok in H as (ts' & Ht & H). apply wd_prod in Wb as [Wb _].
      apply (mapM_pow_sound rho) in Ht as [A1 A2]; auto.
      apply (s_prod k HS rho) in H as [B1' B2]; auto. split; auto. rewrite B2, A2. reflexivity.
    - destruct x as [| | | | | | | |xs| |i lb| |]; auto.
      + apply bind_ok in H as (r & Hr & H). destruct r as [[i rest]|]; auto.
        apply find_log_spec in Hr as (l1 & l2 & -> & ->). simpl in H.
        apply wd_prod in Wx as [Wx Oc]. apply Forall_app in Wx as [W1 W2].
        inversion W2 as [|? ? WL W3]; subst. destruct WL as (Wi & _ & Ri & Gb & Nb).
        apply bind_ok in H as (rest & Hr & H).
        apply (prod_skip_sound rho) in Hr as [R1 R2].
        2:{ apply Forall_app; auto. }
        2:{ eapply one_const_app_remove; eauto. }
        apply (s_pow k HS rho) in H as [Q1 Q2]; auto; [|right; auto].
        split; auto. rewrite Q2, R2. cbn [ev]. rewrite !map_app, !Rprod_app. cbn [map].
        transitivity (rpow (ev rho b) (ln (ev rho i) / ln (ev rho b) *
          (Rprod (map (ev rho) l1) * Rprod (map (ev rho) l2)))).
        * symmetry. apply rpow_log; auto. now apply rp_gt0.
        * f_equal. simpl. ring.
      + apply bind_ok in H as (v & Hv & H). destruct v; auto. inv_ok.
        apply (py_eq_true c Hstrict) in Hv. subst lb.
        destruct Wx as (Wi & _ & Ri & Gb & Nb). split; auto. cbn [ev].
        rewrite <- (Rmult_1_r (ln (ev rho e) / ln (ev rho b))).
        rewrite rpow_log; auto. now rewrite rpow_1. now apply rp_gt0. }
  destruct b; try (apply NP; [reflexivity | exact H]).
  now apply mult_exp_sound.
Qed.

Lemma abs_body_sound rho i e : abs_body k i = Ok e -> wd rho i ->
  wd rho e /\ ev rho e = Rabs (ev rho i).
Proof.
  intros H W. unfold abs_body in H.
  assert (G : (if is_sub i then
        n <- op_neg k i;;
        r <- k_abs k n;;
        Ok (match r with EAbs _ => EAbs i | _ => r end)
      else
        p <- strictly_positive i;;
        if p : bool then Ok i else Ok (EAbs i)) = Ok e -> wd rho e /\ ev rho e = Rabs (ev rho i)).
  { clear H. intros H. destruct (is_sub i).
    - apply bind_ok in H as (n & Hn & H). apply bind_ok in H as (r & Hr & H).
      apply (op_neg_sound k HS rho) in Hn as [N1 N2]; auto.
      apply (s_abs k HS rho) in Hr as [R1 R2]; auto.
      assert (V : ev rho r = Rabs (ev rho i)) by (rewrite R2, N2; apply Rabs_Ropp).
      destruct r; inv_ok; auto.
    - apply bind_ok in H as (p & Hp & H). destruct p; inv_ok.
      + split; auto. symmetry. apply Rabs_right. apply strictly_positive_sound with (rho := rho) in Hp. lra.
      + simpl; auto. }
  destruct i; auto; inv_ok.
  - split; simpl; auto. now rewrite Q2R_red, Q2R_Qabs.
  - split; auto. simpl. symmetry; apply Rabs_right. pose proof PI_RGT_0; lra.
  - split; auto. simpl. symmetry; apply Rabs_right. pose proof (exp_pos 1); lra.
Qed.

Lemma build_sound : Sound (build c k).
Proof.
  constructor; intros; simpl in *.
  - eapply sum_body_sound; eauto.
  - eapply prod_body_sound; eauto.
  - eapply pow_body_sound; eauto.
  - eapply abs_body_sound; eauto.
Qed.
End Step.

Lemma kbot_sound : Sound kbot.
Proof. constructor; intros; discriminate. Qed.

Theorem K_sound c n : strict c = true -> fpow_exact (fpow c) -> Sound (K c n).
Proof.
  intros H1 H2. induction n as [|n IH]; simpl; [apply kbot_sound | now apply build_sound].
Qed.
