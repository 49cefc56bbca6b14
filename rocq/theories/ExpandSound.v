(** * ExpandSound: numerator_denominator and expand keep the value. *)
From Verif Require Export Expand FSound.
Open Scope R_scope.

Lemma pair_ok {A B} (a n : A) (b d : B) : Ok (a, b) = Ok (n, d) -> n = a /\ d = b.
Proof. intros H. inversion H. auto. Qed.

Section S.
Context (rho : env) (fk : fkern) (HF : FSound rho fk).
Let HG : GSound rho fk := f_k _ _ HF.

Lemma one_constb_ok ts : one_constb ts = true -> one_const ts.
Proof. unfold one_constb, one_const. apply Nat.leb_le. Qed.

(** A product with a rational factor counts at most one: what remains has none. *)
Lemma pdom_neg b q : pdom rho b (ERat q) -> qlt0 q = true -> ev rho b <> 0.
Proof.
  intros [(q' & E & Hi & [H|H])|H] Hq; auto.
  - injection E as <-. apply qlt0_true in Hq. apply Q2R_nonneg in H. lra.
  - apply rp_gt0 in H. lra.
Qed.

Lemma rpow_opp_gen b x : pdom rho b x -> ev rho b <> 0 ->
  rpow (ev rho b) (ev rho x) * rpow (ev rho b) (- ev rho x) = 1.
Proof.
  intros P N. destruct (Rlt_dec 0 (ev rho b)) as [Hb|Hb].
  - rewrite rpow_opp by auto. field. apply Rgt_not_eq, rpow_gt0; auto.
  - destruct P as [(q & -> & Hi & _)|P]; [|apply rp_gt0 in P; contradiction].
    simpl. rewrite (qisint_Q2R _ Hi), <- opp_IZR, !rpow_int by auto.
    rewrite powerRZ_opp. field. now apply powerRZ_neq0.
Qed.

Lemma numden_go_sound ts : forall n d, numden_go fk ts = Ok (n, d) -> Forall (wd rho) ts ->
  Forall (wd rho) n /\ Forall (wd rho) d /\ Rprod (map (ev rho) d) <> 0 /\
  Rprod (map (ev rho) ts) * Rprod (map (ev rho) d) = Rprod (map (ev rho) n).
Proof.
  induction ts as [|t ts IH]; intros n d H W.
  - simpl in H. inv_ok. simpl. repeat split; auto; lra.
  - inversion W as [|? ? Wt Wts]; subst.
    assert (C : forall q, t = ERat q -> Forall (wd rho) n /\ Forall (wd rho) d /\ Rprod (map (ev rho) d) <> 0 /\
      Rprod (map (ev rho) (t :: ts)) * Rprod (map (ev rho) d) = Rprod (map (ev rho) n)).
    { intros q ->. cbn [numden_go] in H. apply bind_ok in H as ([n0 d0] & H0 & H).
      destruct (IH _ _ H0 Wts) as (A & B & D & E). apply pair_ok in H as [-> ->].
      pose proof (Q2R_numden q) as Eq. pose proof (denom_IZR_pos q) as Dp.
      split; [destruct (numer q =? 1)%Z; auto; constructor; simpl; auto|].
      split; [destruct (denom q =? 1)%Z; auto; constructor; simpl; auto|].
      assert (N : Rprod (map (ev rho) (if (numer q =? 1)%Z then n0 else ratz (numer q) :: n0)) =
        IZR (numer q) * Rprod (map (ev rho) n0)).
      { destruct (Z.eqb_spec (numer q) 1) as [->|_]; [ring|]. simpl. now rewrite Q2R_inject. }
      assert (D' : Rprod (map (ev rho) (if (denom q =? 1)%Z then d0 else ratz (denom q) :: d0)) =
        IZR (denom q) * Rprod (map (ev rho) d0)).
      { destruct (Z.eqb_spec (denom q) 1) as [->|_]; [ring|]. simpl. now rewrite Q2R_inject. }
      rewrite N, D'. split; [apply Rmult_integral_contrapositive; split; auto; lra|].
      simpl. rewrite Eq, <- E. field. lra. }
    assert (G : forall b x, decon_pow t = (b, x) -> 
      ('(n, d) <- numden_go fk ts;;
      match x with
      | ERat q =>
          if qlt0 q then
            if Qeq_bool q (-1) then Ok (n, b :: d)
            else p <- k_pow fk b (rat (- q));; Ok (n, p :: d)
          else Ok (t :: n, d)
      | ENegInf => p <- k_pow fk b EInf;; Ok (n, p :: d)
      | _ => Ok (t :: n, d)
      end) = Ok (n, d) -> Forall (wd rho) n /\ Forall (wd rho) d /\ Rprod (map (ev rho) d) <> 0 /\
      Rprod (map (ev rho) (t :: ts)) * Rprod (map (ev rho) d) = Rprod (map (ev rho) n)).
    { intros b x Hbx G. destruct (decon_pow_sound rho _ _ _ Hbx Wt) as (Wb & Wx & Px & Et).
      apply bind_ok in G as ([n0 d0] & H0 & G). destruct (IH _ _ H0 Wts) as (A & B & D & E).
      assert (Keep : Ok (t :: n0, d0) = Ok (n, d) -> Forall (wd rho) n /\ Forall (wd rho) d /\ Rprod (map (ev rho) d) <> 0 /\
        Rprod (map (ev rho) (t :: ts)) * Rprod (map (ev rho) d) = Rprod (map (ev rho) n)).
      { intros [= <- <-]. repeat split; auto. simpl. rewrite <- E. ring. }
      destruct x; try (exact (Keep G)); try (destruct Wx; fail).
      destruct (qlt0 q) eqn:Eq; [|exact (Keep G)].
      pose proof (pdom_neg _ _ Px Eq) as Nb. pose proof (rpow_opp_gen _ _ Px Nb) as Ho.
      destruct (Qeq_bool q (-1)) eqn:E1.
      - injection G as <- <-. repeat split; auto.
        + simpl. apply Rmult_integral_contrapositive. auto.
        + apply Qeq_bool_true in E1. simpl in Et |- *. rewrite Et, E1, <- E, Q2R_m1, rpow_m1 by auto.
          field. auto.
      - apply bind_ok in G as (p & Hp & G). injection G as <- <-.
        apply (g_pow _ _ HG) in Hp as (P0 & P1 & P2); [|auto|exact I].
        simpl in P2. rewrite Q2R_red, Q2R_opp in P2.
        assert (Ep : ev rho t * ev rho p = 1) by (rewrite Et, P2; exact Ho).
        repeat split; auto.
        + simpl. apply Rmult_integral_contrapositive. split; auto. intros Z. rewrite Z in Ep. lra.
        + simpl. rewrite <- E. transitivity ((ev rho t * ev rho p) * (Rprod (map (ev rho) ts) * Rprod (map (ev rho) d0))); [ring|].
          rewrite Ep. ring. }
    cbn [numden_go] in H. destruct t as [q| | | | | | | | | | | |]; [exact (C q eq_refl)|..];
      (eapply G; [reflexivity|exact H]).
Qed.

Lemma numdenF_sound ts n d : numdenF fk ts = Ok (n, d) -> Forall (wd rho) ts ->
  wd rho n /\ wd rho d /\ ev rho d <> 0 /\ Rprod (map (ev rho) ts) = ev rho n / ev rho d.
Proof.
  intros H W. unfold numdenF in H. apply bind_ok in H as ([n0 d0] & H0 & H).
  destruct (numden_go_sound _ _ _ H0 W) as (A & B & D & E).
  apply guard_ok in H as [Hg H]. rewrite (f_strict _ _ HF) in Hg. apply andb_prop in Hg as [O1 O2].
  apply one_constb_ok in O1, O2.
  apply bind_ok in H as (ne & Hn & H). apply bind_ok in H as (de & Hd & H). injection H as <- <-.
  apply (prod_skip_sound rho) in Hn as [N1 N2]; auto. apply (prod_skip_sound rho) in Hd as [D1 D2]; auto.
  rewrite N2, D2. repeat split; auto. rewrite <- E. field. auto.
Qed.

Definition good (e e' : expr) : Prop := wd rho e' /\ ev rho e' = ev rho e.

Lemma good_list ts ts' : Forall2 good ts ts' -> Forall (wd rho) ts' /\ map (ev rho) ts' = map (ev rho) ts.
Proof.
  induction 1 as [|t t' l l' [H1 H2] _ [I1 I2]]; simpl; split; auto. now rewrite H2, I2.
Qed.

Lemma inv_factor_sound t r : inv_factor fk t = Ok r -> wd rho t -> ev rho t <> 0 ->
  wd rho r /\ ev rho r = / ev rho t.
Proof.
  intros H W N. assert (D : k_pow fk t (ERat (-1)) = Ok r -> wd rho r /\ ev rho r = / ev rho t).
  { intros D. apply (g_pow _ _ HG) in D as (_ & D1 & D2); [|auto|exact I]. split; auto. rewrite D2.
    simpl. rewrite Q2R_m1. now apply rpow_m1. }
  destruct t; try exact (D H). simpl in H. clear D. apply bind_ok in H as (x' & Hx & H).
  destruct W as (Wb & Wx & Px). apply (g_neg _ _ HG) in Hx as [X1 X2]; auto.
  apply (g_pow _ _ HG) in H as (P' & R1 & R2); auto. split; auto. rewrite R2, X2.
  simpl in N |- *.
  destruct (Req_EM_T (ev rho t1) 0) as [Z|Z].
  - (* base 0: both exponents are non-negative literals, hence the exponent is 0 *)
    destruct Px as [(q & -> & Hi & [Hq|Hq])|Px]; [contradiction| |apply rp_gt0 in Px; lra].
    destruct P' as [(q' & -> & Hi' & [Hq'|Hq'])|P']; [contradiction| |apply rp_gt0 in P'; lra].
    simpl in X2 |- *. apply Q2R_nonneg in Hq, Hq'. rewrite X2 in Hq'.
    assert (E : Q2R q = 0) by lra. rewrite E, Ropp_0, rpow_0. lra.
  - pose proof (rpow_opp_gen _ _ Px Z) as Ho.
    apply Rmult_eq_reg_l with (rpow (ev rho t1) (ev rho t2)); auto. rewrite Ho. field. auto.
Qed.

Lemma inv_factors_sound l : forall l', mapM (inv_factor fk) l = Ok l' -> Forall (wd rho) l ->
  Rprod (map (ev rho) l) <> 0 ->
  Forall (wd rho) l' /\ Rprod (map (ev rho) l') = / Rprod (map (ev rho) l).
Proof.
  induction l as [|t l IH]; intros l' H W N; cbn [mapM] in H.
  - injection H as <-. simpl. split; auto. lra.
  - apply bind_ok in H as (t' & Ht & H). apply bind_ok in H as (l1 & Hl & H). injection H as <-.
    inversion W; subst. simpl in N.
    assert (N1 : ev rho t <> 0) by (intros Z; apply N; rewrite Z; ring).
    assert (N2 : Rprod (map (ev rho) l) <> 0) by (intros Z; apply N; rewrite Z; ring).
    destruct (inv_factor_sound _ _ Ht) as [A1 A2]; auto. destruct (IH _ Hl) as [B1 B2]; auto.
    split; auto. simpl. rewrite A2, B2. field. auto.
Qed.

(** distribution *)
Lemma split_sums_sound l : forall s o, split_sums l = (s, o) -> Forall (wd rho) l ->
  Forall (Forall (wd rho)) s /\ Forall (wd rho) o /\
  Rprod (map (ev rho) l) = Rprod (map (fun us => Rsum (map (ev rho) us)) s) * Rprod (map (ev rho) o).
Proof.
  induction l as [|t l IH]; intros s o H W.
  - injection H as <- <-. simpl. repeat split; auto; lra.
  - inversion W as [|? ? Wt Wl]; subst. cbn [split_sums] in H.
    destruct (split_sums l) as [s0 o0]. destruct (IH _ _ eq_refl Wl) as (A & B & E).
    assert (D : (s0, t :: o0) = (s, o) -> Forall (Forall (wd rho)) s /\ Forall (wd rho) o /\
       Rprod (map (ev rho) (t :: l)) = Rprod (map (fun us => Rsum (map (ev rho) us)) s) * Rprod (map (ev rho) o)).
    { intros [= <- <-]. repeat split; auto. simpl. rewrite E. ring. }
    destruct t; try (now apply D). injection H as <- <-. apply wd_sum in Wt. repeat split; auto.
    simpl. rewrite E. ring.
Qed.

Lemma cart_sound {A} (f : A -> R) (ls : list (list A)) :
  Rsum (map (fun c => Rprod (map f c)) (cart ls)) = Rprod (map (fun l => Rsum (map f l)) ls).
Proof.
  induction ls as [|l ls IH]; [simpl; ring|].
  cbn [cart map]. change (Rprod (Rsum (map f l) :: map (fun l => Rsum (map f l)) ls)) with
    (Rsum (map f l) * Rprod (map (fun l => Rsum (map f l)) ls)). rewrite <- IH. clear IH.
  set (cs := cart ls). induction l as [|x l IH]; [simpl; ring|].
  cbn [flat_map map]. rewrite map_app, Rsum_app, IH. clear IH. simpl. rewrite Rmult_plus_distr_r. f_equal.
  rewrite map_map. induction cs as [|c cs IH]; simpl; [ring|]. simpl in IH. rewrite IH. ring.
Qed.

Lemma cart_wd ls : Forall (Forall (wd rho)) ls -> Forall (Forall (wd rho)) (cart ls).
Proof.
  induction 1 as [|l ls Hl _ IH]; [repeat constructor|]. cbn [cart].
  apply Forall_flat_map. eapply Forall_impl; [|exact Hl]. intros x Hx.
  apply Forall_map. eapply Forall_impl; [|exact IH]. auto.
Qed.

Lemma mapM_prod_sound (g : list expr -> list expr) (v : list expr -> R) l : forall l',
  mapM (fun us => k_prod fk (g us)) l = Ok l' ->
  (forall us, In us l -> Forall (wd rho) (g us) /\ Rprod (map (ev rho) (g us)) = v us) ->
  Forall (wd rho) l' /\ Rsum (map (ev rho) l') = Rsum (map v l).
Proof.
  induction l as [|t l IH]; intros l' H W; cbn [mapM] in H.
  - injection H as <-. simpl. auto.
  - apply bind_ok in H as (t' & Ht & H). apply bind_ok in H as (l1 & Hl & H). injection H as <-.
    destruct (W t) as [W1 W2]; [now left|]. apply (g_prod _ _ HG) in Ht as [A1 A2]; auto.
    destruct (IH _ Hl) as [B1 B2]. { intros us Hu. apply W. now right. }
    split; auto. simpl. now rewrite A2, B2, W2.
Qed.

(** multinomial expansion *)
Lemma powers_sound us : forall p ps, Forall (fun v => (0 <= v)%Z) p ->
  mapM (fun tp => k_pow fk (fst tp) (ratz (snd tp))) (combine us p) = Ok ps ->
  Forall (wd rho) us -> 
  Forall (wd rho) ps /\ Rprod (map (ev rho) ps) = powers (map (ev rho) us) p.
Proof.
  induction us as [|u us IH]; intros p ps Hp H W.
  - injection H as <-. split; auto.
  - destruct p as [|v p]; [injection H as <-; split; auto|]. cbn [combine mapM fst snd] in H.
    apply bind_ok in H as (t' & Ht & H). apply bind_ok in H as (l1 & Hl & H). injection H as <-.
    inversion W; subst. inversion Hp; subst.
    apply (g_pow _ _ HG) in Ht as (_ & A1 & A2); [|auto|exact I].
    destruct (IH p l1) as [B1 B2]; auto. split; auto. simpl. rewrite A2, B2. simpl.
    rewrite Q2R_inject, rpow_int by auto. now rewrite powerRZ_nonneg_pow.
Qed.

Lemma multi_terms_sound us m l : forall l', us <> [] ->
  (forall p, In p l -> List.length p = List.length us /\ Forall (fun v => (0 <= v)%Z) p /\ zsum p = m) ->
  mapM (multi_term fk us m) l = Ok l' -> Forall (wd rho) us ->
  Forall (wd rho) l' /\
  Rsum (map (ev rho) l') = lsum (map (fun p => IZR (coeff p m) * powers (map (ev rho) us) p) l).
Proof.
  intros l' Hne. revert l'. induction l as [|p l IH]; intros l' Hl H W; cbn [mapM] in H.
  - injection H as <-. split; auto.
  - apply bind_ok in H as (t' & Ht & H). apply bind_ok in H as (l1 & Hl1 & H). injection H as <-.
    destruct (IH l1) as [B1 B2]; auto. { intros; apply Hl; now right. }
    destruct (Hl p) as (L & Hp & Hs); [now left|].
    unfold multi_term in Ht. apply bind_ok in Ht as (ps & Hps & Ht). apply bind_ok in Ht as (c & Hc & Ht).
    destruct c as [z|s]; [|discriminate].
    destruct (powers_sound _ _ _ Hp Hps W) as [P1 P2].
    apply (g_prod _ _ HG) in Ht as [A1 A2]; [|constructor; [exact I|auto]].
    split; auto. simpl. rewrite A2, B2. simpl. rewrite Q2R_inject, P2. unfold coeff at 2. rewrite Hc. reflexivity.
Qed.

Lemma lsum_Rsum l : lsum l = Rsum l. Proof. reflexivity. Qed.

Theorem expandE_sound n : forall e e', expandE fk n e = Ok e' -> wd rho e -> good e e'.
Proof.
  induction n as [|n IH]; cbn [expandE]; intros e e' H W; [discriminate|]. cbv zeta in H.
  assert (IH1 : forall t t', (b <- expandable fk t;; if b : bool then expandE fk n t else Ok t) = Ok t' ->
    wd rho t -> good t t').
  { intros t t' Ht Wt. apply bind_ok in Ht as (b & _ & Ht). destruct b; auto. injection Ht as <-. split; auto. }
  assert (IHl : forall ts ts', mapM (fun t => b <- expandable fk t;; if b : bool then expandE fk n t else Ok t) ts = Ok ts' ->
    Forall (wd rho) ts -> Forall2 good ts ts').
  { intros ts ts' Ht Wts. apply mapM_ok in Ht. induction Ht; inversion Wts; subst; constructor; auto. }
  destruct e as [q| | | | |s| |ts|ts|b x|i lb|f i|i]; try discriminate H; try (destruct W; fail).
  - (* sum *)
    apply bind_ok in H as (bb & _ & H). destruct bb; [|discriminate].
    apply bind_ok in H as (ts' & Ht & H). apply wd_sum in W. destruct (good_list _ _ (IHl _ _ Ht W)) as [A B].
    apply (g_sum _ _ HG) in H as [S1 S2]; auto. split; auto. rewrite S2, B. reflexivity.
  - (* product *)
    apply bind_ok in H as (bb & _ & H). destruct bb; [|discriminate].
    apply bind_ok in H as ([num den] & Hnd & H). apply wd_prod in W as [W _].
    apply numdenF_sound in Hnd as (Wn & Wd & Nd & End); auto.
    apply bind_ok in H as (den' & Hden & H). apply IH1 in Hden as [D1 D2]; auto.
    apply bind_ok in H as (dts & Hdts & H).
    assert (DT : Forall (wd rho) dts /\ Rprod (map (ev rho) dts) = / ev rho den).
    { assert (G : (d <- k_pow fk den' (ERat (-1));; Ok [d]) = Ok dts ->
        Forall (wd rho) dts /\ Rprod (map (ev rho) dts) = / ev rho den).
      { intros G. apply bind_ok in G as (d & Hd & G). injection G as <-.
        apply (g_pow _ _ HG) in Hd as (_ & A1 & A2); [|auto|exact I]. split; auto.
        simpl. rewrite A2, D2. simpl. rewrite Q2R_m1, rpow_m1 by auto. ring. }
      destruct den'; try exact (G Hdts). clear G. apply wd_prod in D1 as [D1 _].
      change (ev rho (EProd ts0)) with (Rprod (map (ev rho) ts0)) in D2. rewrite <- D2 in *.
      now apply inv_factors_sound. }
    destruct DT as [T1 T2]. unfold good. change (ev rho (EProd ts)) with (Rprod (map (ev rho) ts)).
    rewrite End. unfold Rdiv. rewrite <- T2.
    assert (One : (num' <- (b <- expandable fk num;; if b : bool then expandE fk n num else Ok num);;
            match num' with
            | ESum us => terms <- mapM (fun u => k_prod fk (u :: dts)) us;; k_sum fk terms
            | _ => k_prod fk (num' :: dts)
            end) = Ok e' -> wd rho e' /\ ev rho e' = ev rho num * Rprod (map (ev rho) dts)).
    { intros G. apply bind_ok in G as (num' & Hn & G). apply IH1 in Hn as [N1 N2]; auto.
      assert (P : k_prod fk (num' :: dts) = Ok e' -> wd rho e' /\ ev rho e' = ev rho num * Rprod (map (ev rho) dts)).
      { intros P. apply (g_prod _ _ HG) in P as [P1 P2]; auto. split; auto. rewrite P2. simpl. now rewrite N2. }
      destruct num'; try exact (P G). clear P. apply bind_ok in G as (terms & Ht & G). apply wd_sum in N1.
      assert (M : forall us l', mapM (fun u => k_prod fk (u :: dts)) us = Ok l' -> Forall (wd rho) us ->
        Forall (wd rho) l' /\ Rsum (map (ev rho) l') = Rsum (map (ev rho) us) * Rprod (map (ev rho) dts)).
      { clear -HG T1. induction us as [|u us IHu]; intros l' M WM; cbn [mapM] in M.
        - injection M as <-. simpl. split; auto. ring.
        - apply bind_ok in M as (t' & Ht & M). apply bind_ok in M as (l1 & Hl & M). injection M as <-.
          inversion WM; subst. destruct (IHu _ Hl) as [B1 B2]; auto.
          apply (g_prod _ _ HG) in Ht as [A1 A2]; auto. split; auto. simpl. rewrite A2, B2. simpl. ring. }
      destruct (M _ _ Ht N1) as [M1 M2]. apply (g_sum _ _ HG) in G as [S1 S2]; auto. split; auto.
      rewrite S2, M2, <- N2. reflexivity. }
    destruct num as [| | | | | | | |ns| | | |]; try exact (One H). clear One.
    apply bind_ok in H as (ns' & Hns & H). apply wd_prod in Wn as [Wn _].
    destruct (good_list _ _ (IHl _ _ Hns Wn)) as [A B].
    destruct (split_sums ns') as [sums other] eqn:Es.
    destruct (split_sums_sound _ _ _ Es A) as (S1 & S2 & S3). rewrite B in S3.
    change (ev rho (EProd ns)) with (Rprod (map (ev rho) ns)). rewrite S3.
    destruct sums as [|s0 sums].
    + apply (g_prod _ _ HG) in H as [P1 P2]; [|apply Forall_app; auto]. split; auto.
      rewrite P2, map_app, Rprod_app. simpl. ring.
    + apply bind_ok in H as (terms & Ht & H).
      destruct (mapM_prod_sound (fun us => other ++ us ++ dts)
        (fun us => Rprod (map (ev rho) us) * (Rprod (map (ev rho) other) * Rprod (map (ev rho) dts))) _ _ Ht) as [M1 M2].
      { intros us Hu. pose proof (cart_wd _ S1) as CW. rewrite Forall_forall in CW. split.
        - apply Forall_app; split; auto. apply Forall_app; split; auto.
        - rewrite !map_app, !Rprod_app. ring. }
      apply (g_sum _ _ HG) in H as [R1 R2]; auto. split; auto. rewrite R2, M2.
      rewrite <- (cart_sound (ev rho)).
      set (w := Rprod (map (ev rho) other) * Rprod (map (ev rho) dts)).
      transitivity (Rsum (map (fun c => Rprod (map (ev rho) c)) (cart (s0 :: sums))) * w).
      * generalize (cart (s0 :: sums)) as cs. induction cs as [|c cs IHc]; cbn [map Rsum fold_right]; [simpl; ring|].
        unfold Rsum in IHc. rewrite IHc. ring.
      * unfold w. ring.
  - (* power *)
    apply bind_ok in H as (bb & _ & H). destruct bb; [|discriminate].
    apply bind_ok in H as (b' & Hb & H). apply bind_ok in H as (x' & Hx & H).
    apply bind_ok in H as (new & Hnew & H). destruct W as (Wb & Wx & Px).
    apply IH1 in Hb as [B1 B2]; auto. apply IH1 in Hx as [X1 X2]; auto.
    apply (g_pow _ _ HG) in Hnew as (_ & N1 & N2); auto. rewrite B2, X2 in N2.
    unfold good. change (ev rho (EPow b x)) with (rpow (ev rho b) (ev rho x)). rewrite <- N2.
    assert (D : Ok new = Ok e' -> wd rho e' /\ ev rho e' = ev rho new) by (intros [= <-]; auto).
    destruct new as [| | | | | | | | |nb nx| | |]; try exact (D H).
    destruct nb; try exact (D H). destruct nx; try exact (D H).
    destruct (power_expandable (ESum ts) (ERat q)) eqn:PE; [|exact (D H)]. clear D.
    apply bind_ok in H as (terms & Ht & H). apply bind_ok in H as (s & Hs & H).
    destruct N1 as (Wn & _ & Pn). pose proof Wn as Wn'. apply wd_sum in Wn.
    simpl in PE. apply andb_prop in PE as [PE _]. apply andb_prop in PE as [Hi Hq].
    set (m := Z.abs (numer q)) in *.
    assert (Hm : (0 <= m)%Z) by (unfold m; lia).
    assert (V : wd rho s /\ ev rho s = (Rsum (map (ev rho) ts)) ^ Z.to_nat m).
    { destruct ts as [|t0 ts0].
      - (* empty base: no composition of a positive number into zero parts *)
        assert (E : terms = [] /\ m <> 0%Z).
        { unfold generate_permutations in Ht. cbn [List.length generate] in Ht.
          destruct (Z.eqb_spec 0 m) as [E|E].
          - rewrite <- E in Ht. discriminate Ht.
          - injection Ht as <-. split; auto. }
        destruct E as [-> Em].
        apply (g_sum _ _ HG) in Hs as [S1 S2]; [|constructor].
        split; auto. rewrite S2. simpl. rewrite pow_i; auto. lia.
      - assert (Hne : t0 :: ts0 <> []) by discriminate.
        destruct (multi_terms_sound (t0 :: ts0) m _ terms Hne
          (fun p Hp => proj1 (generate_permutations_spec _ _ _) Hp) Ht Wn) as [M1 M2].
        apply (g_sum _ _ HG) in Hs as [S1 S2]; auto. split; auto. rewrite S2, M2.
        rewrite <- (map_length (ev rho) (t0 :: ts0)), multinomial_theorem; auto. discriminate. }
    destruct V as [V1 V2].
    apply (g_opow _ _ HG) in H as (P0 & R1 & R2); [|auto|destruct (qlt0 q); exact I]. split; auto. rewrite R2.
    simpl ev at 3. simpl ev at 3. rewrite (qisint_Q2R _ Hi).
    destruct (qlt0 q) eqn:Eq.
    + apply qlt0_true, numer_neg in Eq. simpl ev at 2. rewrite Q2R_m1.
      assert (Ns : ev rho s <> 0) by (apply (pdom_neg _ _ P0); reflexivity).
      rewrite rpow_m1 by auto. rewrite V2 in Ns |- *.
      assert (Nt : Rsum (map (ev rho) ts) <> 0).
      { intros Z. rewrite Z in Ns. apply Ns. apply pow_i. unfold m. lia. }
      rewrite rpow_int by auto. replace (numer q) with (- m)%Z by (unfold m; lia).
      rewrite powerRZ_opp, powerRZ_nonneg_pow by auto. reflexivity.
    + apply qlt0_false in Eq. rewrite (qisint_Q2R _ Hi) in Eq. apply le_IZR in Eq.
      simpl ev at 2. rewrite Q2R_1, rpow_1, V2.
      rewrite rpow_int by auto. replace (numer q) with m by (unfold m; lia).
      rewrite powerRZ_nonneg_pow by auto. reflexivity.
  - (* log *)
    apply bind_ok in H as (bb & _ & H). destruct bb; [|discriminate]. apply guard_ok in H as [Hg H].
    rewrite (f_strict _ _ HF) in Hg. simpl in Hg. destruct lb; try discriminate Hg.
    apply bind_ok in H as (i' & Hi & H). destruct W as (Wi & _ & _). apply IH in Hi as [I1 I2]; auto.
    apply (f_log _ _ HF) in H as (_ & L1 & L2); [|auto|exact I]. split; auto. rewrite L2, I2. reflexivity.
  - apply bind_ok in H as (bb & _ & H). destruct bb; [|discriminate].
    apply bind_ok in H as (i' & Hi & H). destruct W as (Wi & _). apply IH in Hi as [I1 I2]; auto.
    apply (f_trig _ _ HF) in H as (_ & L1 & L2); auto. split; auto. rewrite L2, I2. reflexivity.
  - apply bind_ok in H as (bb & _ & H). destruct bb; [|discriminate].
    apply bind_ok in H as (i' & Hi & H). apply IH in Hi as [I1 I2]; auto.
    apply (g_abs _ _ HG) in H as [L1 L2]; auto. split; auto. rewrite L2, I2. reflexivity.
Qed.
End S.

(** Calling expand() on what is not expandable raises AssertionError, and only then. *)
Theorem expand_not_expandable fk n e : expandable fk e = Ok false ->
  expandE fk (S n) e = Raise AssertionError.
Proof.
  intros H. cbn [expandE]. cbv zeta. destruct e; try reflexivity; rewrite ?H; try reflexivity; simpl in H |- *.
  - apply bind_ok in H as (b & Hb & H). rewrite Hb. destruct b; [discriminate|reflexivity].
  - rewrite H. reflexivity.
  - rewrite H. reflexivity.
Qed.
