(** * FragInt: the integration search succeeds on polynomials (for C72).

    For an arbitrary polynomial with natural exponents the whole search is followed: simplify, the
    safe transforms (Additivity and PullConstant until single factors are left), the table, and the
    way back.  Everything here holds for any [dom], [rng] and [cfg], so for the plain code and for
    the monitored code. *)
From Coquelicot Require Import Coquelicot.
From Verif Require Import Base Expr Kernel Mono Funcs FMono Calc Sem RealLemmas Sound Atoms Combi Expand Factor Regex Simp TrigSimp Table Trans
  Search SearchMono SearchSound Shape PropsG Frag FragNum FragLib.
From Verif Require Export IntTree.
From Coq Require Import Permutation.
Close Scope R_scope.
Open Scope nat_scope.
Local Notation append := Search.append.


Lemma split_base_len c k b x l h x' rest : split_base c k b x l = Ok (h, x', rest) -> List.length rest <= List.length l.
Proof.
  revert x h x' rest. induction l as [|t l IH]; intros x h x' rest H; cbn [split_base] in H.
  - injection H as <- <- <-. auto.
  - destruct (decon_pow t) as [ob oe]. apply bind_ok in H as (eqb & _ & H). destruct eqb.
    + apply bind_ok in H as (e' & _ & H). apply bind_ok in H as ([[h1 x1] r1] & H1 & H). injection H as <- <- <-. apply IH in H1. simpl. lia.
    + apply bind_ok in H as ([[h1 x1] r1] & H1 & H). injection H as <- <- <-. apply IH in H1. simpl. lia.
Qed.
Lemma add_term_len t p : List.length (fst (add_term t p)) + List.length (snd (add_term t p)) = S (List.length (fst p) + List.length (snd p)).
Proof. destruct p as [a b]. unfold add_term. destruct (is_acc t); simpl; lia. Qed.
Lemma combine_prod_go_len c k f : forall l nc cs, combine_prod_go c k f l = Ok (nc, cs) -> List.length nc + List.length cs <= List.length l.
Proof.
  induction f as [|f IH]; intros [|t l] nc cs H; cbn [combine_prod_go] in H; try discriminate; try (injection H as <- <-; simpl; lia).
  destruct (decon_pow t) as [b x]. apply bind_ok in H as ([[h ex] rest] & H1 & H). apply split_base_len in H1. simpl.
  assert (G : forall u, (p <- combine_prod_go c k f rest;; Ok (add_term u p)) = Ok (nc, cs) -> List.length nc + List.length cs <= S (List.length l)).
  { intros u E. apply bind_ok in E as ([a d] & E1 & E). apply IH in E1. pose proof (add_term_len u (a, d)) as A. injection E as E. rewrite E in A. simpl in A. lia. }
  destruct h; [|eauto]. destruct (isq ex 0); [apply IH in H; lia|]. destruct (isq ex 1); [eauto|].
  apply bind_ok in H as (t' & _ & H). eauto.
Qed.
Lemma insert_term_len k x l s : insert_term k x l = Ok s -> List.length s = S (List.length l).
Proof.
  revert s. induction l as [|y l IH]; intros s H; cbn [insert_term] in H; [injection H as <-; auto|].
  apply bind_ok in H as (b & _ & H). destruct b; [injection H as <-; auto|]. apply bind_ok in H as (r & Hr & H). injection H as <-. simpl. f_equal. auto.
Qed.
Lemma sort_terms_len k l s : sort_terms k l = Ok s -> List.length s = List.length l.
Proof.
  unfold sort_terms. assert (G : forall acc, foldM (fun acc x => insert_term k x acc) l acc = Ok s -> List.length s = List.length l + List.length acc).
  { induction l as [|x l IH]; intros acc H; cbn [foldM] in H; [injection H as <-; auto|]. apply bind_ok in H as (a & Ha & H). apply insert_term_len in Ha.
    apply IH in H. rewrite H, Ha. simpl. lia. }
  intros H. apply G in H. simpl in H. lia.
Qed.

Section Int.
Context (X : Q -> Prop) (Xeq : forall p q, (p == q)%Q -> X p -> X q) (Xadd : forall p q, X p -> X q -> X (p + q)%Q) (X1 : X 1%Q).
Notation facX := (fac X). Notation monoX := (mono X). Notation polyX := (poly X).
Hint Constructors Frag.atom Frag.fac Frag.mono Frag.poly : core.

Lemma fac_nfac t : facX t -> nfac t = 1.
Proof. intros [e [s Hs|s q Hs Hq H0]|q]; reflexivity. Qed.
Lemma prod_nfac ts : Forall facX ts -> nfac (EProd ts) = List.length ts.
Proof. intros F. unfold nfac. cbn [flat_prod1]. fold (flat_prod ts). now rewrite (flat_prod_fac X ts F). Qed.
Lemma mono_pos t : monoX t -> 1 <= nfac t.
Proof. intros [e F|ts L F R N]; [rewrite (fac_nfac e F); auto|]. rewrite prod_nfac; auto; lia. Qed.
Lemma prod_len c n l r : Forall facX l -> l <> [] -> k_prod (K c (4 + n)) l = Ok r -> nfac r <= List.length l.
Proof.
  intros F Ne H. change (K c (4 + n)) with (build c (K c (3 + n))) in H. cbn [build k_prod] in H. unfold prod_body in H.
  rewrite (flat_prod_fac X l F) in H. unfold combine_prod in H.
  destruct (combine_prod_go_fac X Xeq Xadd X1 c (2 + n) (List.length l) l F (Nat.le_refl _)) as (nc & cs & E & A1 & A2 & _).
  change (S (2 + n)) with (3 + n) in E. rewrite E in H. apply combine_prod_go_len in E. cbn [bind] in H.
  assert (L0 : 1 <= List.length l) by (destruct l; [congruence|simpl; lia]).
  apply bind_ok in H as (ts & Ht & H).
  assert (B : List.length ts <= List.length l /\ Forall facX ts).
  { assert (Fn : Forall facX nc) by (eapply Forall_impl; [|exact A1]; auto).
    destruct cs as [|k0 cs]; [injection Ht as <-; split; auto; lia|]. destruct (acc_prod_rats (k0 :: cs) A2) as (q & Eq & _). rewrite Eq in Ht. cbn [bind] in Ht.
    simpl in E. destruct (isq (ERat q) 0); [injection Ht as <-; split; auto|]. destruct (isq (ERat q) 1); injection Ht as <-; [split; auto; lia|].
    rewrite app_length. simpl. split; [lia|]. apply Forall_app. auto. }
  destruct B as [B1 B2]. destruct ts as [|t [|u ts]].
  - injection H as <-. unfold nfac. simpl. lia.
  - injection H as <-. inversion B2; subst. rewrite fac_nfac; auto.
  - apply bind_ok in H as (s & Hs & H). pose proof (sort_terms_len _ _ _ Hs) as Ls. apply Sound.sort_perm in Hs.
    assert (Fs : Forall facX s) by (eapply Permutation_Forall; eauto).
    assert (R : r = EProd s).
    { destruct s as [|a [|b [|? ?]]]; try (injection H as <-; reflexivity); [|destruct b; injection H as <-; reflexivity].
      inversion Fs as [|? ? _ F2]; subst. inversion F2 as [|? ? F3 _]; subst. destruct F3 as [b' [s' Hs'|s' q Hs' Hq H0]|q]; injection H as <-; reflexivity. }
    subst r. rewrite prod_nfac by auto. simpl in *. lia.
Qed.

Context (dom : expr -> bool) (rng : string -> expr -> bool) (nm : nat -> string) (c : cfg) (n d : nat) (v : string) (Hv : v <> ""%string).
Notation fk := (F dom c (8 + n)).
(** [CM], [CP]: the integrands (single terms; terms and sums), any classes of monomials and of sums of them that pulling out a factor keeps *)
Context (CM CP : expr -> Prop) (MN : forall t, CM t -> monoX t) (PN : forall t, CP t -> polyX t) (MP : forall t, CM t -> CP t)
  (Pcase : forall t, CP t -> CM t \/ exists ts, t = ESum ts /\ Forall CM ts) (Mprod : forall ts, CM (EProd ts) -> Forall CM ts)
  (Mrest : forall pre t l r, CM (EProd (pre ++ t :: l)) -> k_prod (K c (8 + n)) (pre ++ l) = Ok r -> CM r)
  (Exp : forall t, polyX t -> expandable fk t = Ok false).
(** [SM], [SP]: the antiderivatives (of single terms; of sums), any classes that contain what the table gives and that the way back keeps *)
Context (SM SP : expr -> Prop) (SMP : forall t, SM t -> SP t)
  (Stab : forall t, facX t -> CM t -> exists r, table fk v t = Ok (Some r) /\ SM r)
  (Smul : forall k t, CM k -> contains v k = false -> SM t -> exists r, op_mul fk k t = Ok r /\ SM r)
  (Ssum : forall l, Forall SM l -> exists r, k_sum fk l = Ok r /\ SP r).

Lemma fac_contains t : facX t -> contains v t = true -> names t = [v].
Proof.
  intros [e [s Hs|s q Hs Hq H0]|q]; simpl; try discriminate; rewrite ?orb_false_r; intros E; apply String.eqb_eq in E; now subst.
Qed.
Lemma two_vars pre : Forall facX pre -> Forall (fun t => contains v t = true) pre -> NoDup (flat_map names pre) -> List.length pre <= 1.
Proof.
  intros F C N. destruct pre as [|a [|b pre]]; simpl; auto. exfalso.
  inversion F as [|? ? Fa F']; subst. inversion F' as [|? ? Fb _]; subst. inversion C as [|? ? Ca C']; subst. inversion C' as [|? ? Cb _]; subst.
  simpl in N. rewrite (fac_contains a Fa Ca), (fac_contains b Fb Cb) in N. simpl in N. inversion N as [|? ? H _]; subst. apply H. now left.
Qed.
Lemma pull_prod ts : CM (EProd ts) -> exists t p, pull_const fk v (EProd ts) = Ok (Some (t, p)) /\ CM t /\ contains v t = false /\ CM p /\ nfac p < nfac (EProd ts).
Proof.
  intros M0. pose proof (Mprod ts M0) as FM. pose proof (MN _ M0) as M1. inversion M1 as [? M'|? L F R N]; subst; [inversion M' as [? A|]; inversion A|]. rewrite (prod_nfac ts F).
  unfold pull_const.
  assert (G : forall l pre, ts = pre ++ l -> Forall (fun t => contains v t = true) pre ->
    exists t p, pull_go fk v pre l = Ok (Some (t, p)) /\ CM t /\ contains v t = false /\ CM p /\ nfac p < List.length ts).
  { induction l as [|t l IH]; intros pre E C; cbn [pull_go].
    - exfalso. rewrite app_nil_r in E. subst pre. pose proof (two_vars ts F C N). lia.
    - destruct (contains v t) eqn:Ct; cbn [negb].
      + apply IH; [now rewrite <- app_assoc|]. apply Forall_app. auto.
      + rewrite E in F, FM, M0. apply Forall_app in FM as [FM1 FM2]. inversion FM2 as [|? ? FMt FM3]; subst. apply Forall_app in F as [F1 F2]. inversion F2 as [|? ? Ft F3]; subst.
        assert (Fr : Forall facX (pre ++ l)) by (apply Forall_app; auto).
        destruct (k_prod_monos X Xeq Xadd X1 c (4 + n) (pre ++ l)) as (p & Ep & Mp); [eapply Forall_impl; [|exact Fr]; auto|].
        exists t, p. change (k_prod fk (pre ++ l)) with (k_prod (K c (4 + (4 + n))) (pre ++ l)). rewrite Ep. cbn [bind]. splits; auto.
        { apply (Mrest pre t l); auto. }
        assert (Ne : pre ++ l <> []). { intros E. apply app_eq_nil in E as [-> ->]. simpl in L. lia. }
        pose proof (prod_len c (4 + n) (pre ++ l) p Fr Ne Ep) as Lp. rewrite app_length in *. simpl. lia. }
  apply (G ts []); auto.
Qed.

(** a single factor is left alone by the safe transforms *)
Lemma expand_none t : polyX t -> expand_step fk d t = Ok None.
Proof.
  intros P. unfold expand_step. rewrite (Exp t P). reflexivity.
Qed.
Lemma linear_none y t : facX t -> linear_usub fk rng d v y t = Ok None.
Proof.
  intros T. unfold linear_usub. destruct (Nat.ltb (countE (ESym v) t) 1) eqn:E; auto.
  destruct T as [e [s Hs|s q Hs Hq H0]|q].
  - cbn [linear_check contains]. destruct (String.eqb s v) eqn:Es; cbn [negb linear_of bind]; auto.
    exfalso. apply Nat.ltb_ge in E. cbn in E. rewrite ?Es, ?(String.eqb_sym v s), ?Es in E. simpl in E. lia.
  - cbn [linear_check contains]. rewrite orb_false_r. destruct (String.eqb s v) eqn:Es; cbn [negb linear_of bind]; auto.
    exfalso. apply Nat.ltb_ge in E. cbn in E. rewrite ?Es, ?(String.eqb_sym v s), ?Es in E. simpl in E. lia.
  - discriminate.
Qed.
Lemma safe_fac (h : heap) x i q : nth_error h i = Some q -> nd_v q = v -> facX (nd_e q) -> safe_step fk rng nm d (h, x) i = Ok (h, x).
Proof.
  intros Hq Ev T. unfold safe_step. rewrite (get_some _ _ _ Hq). cbn [bind]. rewrite Ev.
  pose proof (expand_none (nd_e q) (poly_mono _ _ (mono_fac _ _ T))) as E1. pose proof (linear_none (nm x) (nd_e q) T) as E2.
  assert (E3 : poly_division fk d v (nd_e q) = Ok None).
  { unfold poly_division. destruct (symbols (nd_e q)) as [|s [|s' l]]; auto. destruct T as [e [s' Hs|s' q' Hs Hq' H0]|q']; reflexivity. }
  assert (E4 : (if is_id IComplete (last_tr ex_pa h i) then Ok None else expand_step fk d (nd_e q)) = Ok None) by (rewrite E1; now destruct (is_id _ _)).
  assert (E5 : forall A (f : list expr -> A) z, match nd_e q with ESum ts => f ts | _ => z end = z).
  { intros A f z. destruct T as [e [s' Hs|s' q' Hs Hq' H0]|q']; reflexivity. }
  rewrite E5.
  assert (E6 : pull_const fk v (nd_e q) = Ok None) by (destruct T as [e [s' Hs|s' q' Hs Hq' H0]|q']; reflexivity).
  assert (E7 : partial_fractions fk d v (nd_e q) = Ok None) by (destruct T as [e [s' Hs|s' q' Hs Hq' H0]|q']; reflexivity).
  rewrite E6. cbn [bind]. rewrite E7. cbn [bind]. rewrite E3. cbn [bind]. rewrite E4. cbn [bind]. rewrite E2. reflexivity.
Qed.

Lemma poly_quiet (p : expr -> bool) t : (forall q, p (ERat q) = false) -> (forall s, p (ESym s) = false) -> (forall b x, p (EPow b x) = false) ->
  (forall ts, p (EProd ts) = false) -> (forall ts, p (ESum ts) = false) -> polyX t -> gcontains p t = false.
Proof.
  intros P1 P2 P3 P4 P5.
  assert (Fc : forall t, facX t -> gcontains p t = false).
  { intros u [e [s Hs|s q Hs Hq H0]|q]; cbn [gcontains]; rewrite ?P1, ?P2, ?P3; cbn; rewrite ?P1, ?P2, ?P3; auto. }
  assert (Mc : forall t, monoX t -> gcontains p t = false).
  { intros u [e Fe|ts L Fs R N]; auto. cbn [gcontains]. rewrite P4. cbn [orb]. clear -Fc Fs. induction Fs as [|a l A H IH]; auto. cbn [existsb]. now rewrite (Fc a A), IH. }
  intros [e M|ts L Fs]; auto. cbn [gcontains]. rewrite P5. cbn [orb]. clear -Mc Fs. induction Fs as [|a l A H IH]; auto. cbn [existsb]. now rewrite (Mc a A), IH.
Qed.
Lemma simplify_poly t : polyX t -> simplifyE fk d t = Ok t.
Proof.
  intros P. unfold simplifyE, expand_if. rewrite (Exp t P). cbn [bind]. unfold has_trig, has_log. rewrite poly_quiet by auto. cbn [bind]. rewrite poly_quiet by auto. cbn [bind]. unfold is_simpler. now rewrite Nat.ltb_irrefl.
Qed.

Theorem integrate_gen bf k fin e : CP e -> factors e <= d ->
  exists r, SP r /\ integrate fk rng nm d bf k fin e v = (if fin then (s <- simplifyE fk d r;; Ok (Some s)) else Ok (Some r)).
Proof.
  intros P Ld. apply (integrate_tree fk rng nm d v CM CP facX) with (SM := SM) (e := e); auto.
  - intros t M. apply mono_pos. auto.
  - intros t T. destruct (MN t T) as [e' [a [s Hs|s q Hs Hq H0]|q]|ts L F R N]; reflexivity.
  - intros t M. destruct (MN t M); subst; eauto.
  - intros t Pe Fq. destruct (Pcase t Pe) as [?|(ts & Et & _)]; auto. rewrite Et in Fq. inversion Fq as [? A|]; inversion A.
  - intros t Pe. destruct (Pcase t Pe) as [?|(ts & -> & Ms)]; auto. right. exists ts. splits; auto.
    pose proof (PN _ Pe) as P'; inversion P' as [? M|? L2 _]; subst; [inversion M as [? Fc|]; inversion Fc as [? A|]; inversion A|]. destruct ts; [simpl in L2; lia|discriminate].
  - exact pull_prod.
  - intros h x i q Hq Ev F _. now apply (safe_fac h x i q).
  - apply simplify_poly. auto.
Qed.
End Int.

(** ** Natural exponents: every factor is in the table, antiderivatives are of the same kind *)
Section Nat.
Context (dom : expr -> bool) (rng : string -> expr -> bool) (nm : nat -> string) (c : cfg) (n d : nat) (v : string) (Hv : v <> ""%string).
Notation fk := (F dom c (8 + n)). Notation X := natq. Notation nat_fac := (fac natq).
Hint Constructors Frag.atom Frag.fac Frag.mono Frag.poly : core.
Let N1 : natq 1%Q := one_natq.
(** any class [CM] of monomials and [CP] of sums of them that the constructors keep (instances: all; the normal forms of NForm.v) *)
Context (CM CP : expr -> Prop) (MN : forall t, CM t -> nmono t) (PN : forall t, CP t -> npoly t) (MP : forall t, CM t -> CP t)
  (Pcase : forall t, CP t -> CM t \/ exists ts, t = ESum ts /\ Forall CM ts) (Mprod : forall ts, CM (EProd ts) -> Forall CM ts)
  (Kprod : forall l r, Forall CM l -> k_prod (K c (8 + n)) l = Ok r -> CM r)
  (Ksum : forall l r, Forall CM l -> k_sum (K c (8 + n)) l = Ok r -> CP r)
  (Msym : CM (ESym v)) (Mrat : forall q, Qred q = q -> CM (ERat q))
  (Mpow : forall q r, natq q -> Qred q = q -> k_pow (K c (8 + n)) (ESym v) (ERat q) = Ok r -> CM r).
(** and any property [CS] of antiderivatives that the table gives and the way back keeps *)
Context (CS : expr -> Prop) (Stab : forall t r, nat_fac t -> CM t -> table fk v t = Ok (Some r) -> CS r)
  (Smul : forall k t r, CM k -> CM t -> CS t -> op_mul (K c (8 + n)) k t = Ok r -> CS r)
  (Ssum : forall l r, Forall CM l -> Forall CS l -> k_sum (K c (8 + n)) l = Ok r -> CS r).
Lemma Mmul a b r : CM a -> CM b -> op_mul (K c (8 + n)) a b = Ok r -> CM r.
Proof.
  intros A B. assert (G : k_prod (K c (8 + n)) [a; b] = Ok r -> CM r) by (apply Kprod; auto).
  unfold op_mul. destruct a, b; auto. intros E. injection E as <-. apply Mrat. apply Qred_complete, Qred_correct.
Qed.

Lemma table_fac t : nat_fac t -> CM t -> exists r, table fk v t = Ok (Some r) /\ CM r.
Proof.
  intros T Mt.
  assert (OM : forall a b, CM a -> CM b -> exists r, op_mul fk a b = Ok r /\ CM r).
  { intros a b A B. destruct (op_mul_mono natq natq_qeq natq_add N1 c (4 + n) a b (MN a A) (MN b B)) as (r & E & _). exists r. split; [exact E|]. exact (Mmul a b r A B E). }
  assert (KP : forall q, natq q -> Qred q = q -> exists r, k_pow fk (ESym v) (ERat q) = Ok r /\ CM r).
  { intros q Nq Lq. rewrite fk_pow, (pow_always_nat _ _ Nq). cbn [orb guard]. destruct (k_pow_xsym natq c (7 + n) v q Nq Hv) as (r & E & _). exists r. split; [exact E|]. exact (Mpow q r Nq Lq E). }
  unfold table. destruct (contains v t) eqn:C; cbn [negb].
  2:{ destruct (OM t (ESym v)) as (r & E & Mr); auto. exists r. split; auto. now rewrite E. }
  destruct T as [e [s Hs|s q Hs Hq H0]|q]; [| |discriminate].
  - destruct (KP 2%Q) as (p & -> & Mp); [split; [reflexivity|discriminate]|reflexivity|]. cbn [bind].
    destruct (OM (ERat (1 # 2)) p) as (r & E & Mr); auto. exists r. split; auto. now rewrite E.
  - cbn [contains] in C. rewrite orb_false_r in C. apply String.eqb_eq in C. subst s. cbn [is_var contains negb]. rewrite String.eqb_refl. cbn [andb].
    assert (E1 : isq (ERat q) (-1) = false).
    { apply isq_rat_f. intros E. destruct Hq as [_ Hq]. rewrite E in Hq. now apply Hq. }
    rewrite E1. cbn [op_add bind].
    assert (N2 : natq (Qred (q + 1))) by (apply (natq_qeq (q + 1)); [symmetry; apply Qred_correct|apply natq_add; auto]).
    assert (E2 : qis0 (Qred (q + 1)) = false).
    { destruct (qis0 (Qred (q + 1))) eqn:E; auto. exfalso. apply qis0_iff in E. rewrite Qred_correct in E.
      destruct Hq as [_ Hq]. assert (0 < q + 1)%Q by (apply (Qlt_le_trans _ 1); [reflexivity|]; rewrite <- (Qplus_0_l 1) at 1; now apply Qplus_le_l).
      rewrite E in H. discriminate. }
    unfold op_div, rat. rewrite E2. cbn [bind]. destruct (KP _ N2) as (p & -> & Mp); [apply Qred_complete, Qred_correct|]. cbn [bind].
    destruct (OM (ERat (Qred (1 / Qred (q + 1)))) p) as (r & E & Mr); auto; [apply Mrat, Qred_complete, Qred_correct|]. exists r. split; auto. now rewrite E.
Qed.


Theorem integrate_nat bf k fin e : CP e -> factors e <= d ->
  exists r, integrate fk rng nm d bf k fin e v = Ok (Some r) /\ CP r /\ CS r.
Proof.
  intros P Ld. assert (Ex : forall t, npoly t -> expandable fk t = Ok false) by (intros t [a A|ts L Fs]; [now apply expandable_nmono|now apply expandable_nsum]).
  destruct (integrate_gen natq natq_qeq natq_add N1 dom rng nm c n d v CM CP MN PN MP Pcase Mprod) with (SM := fun t => CM t /\ CS t) (SP := fun t => CP t /\ CS t)
    (bf := bf) (k := k) (fin := fin) (e := e) as (r & (Pr & Sr) & E); auto.
  - intros pre t l r M E. apply Mprod in M. apply Forall_app in M as [A B]. inversion B; subst. apply (Kprod (pre ++ l)); auto. apply Forall_app. auto.
  - intros t []. auto.
  - intros t T M. destruct (table_fac t T M) as (r & E & Mr). exists r. splits; eauto.
  - intros a b A _ [B SB]. destruct (op_mul_mono natq natq_qeq natq_add N1 c (4 + n) a b (MN a A) (MN b B)) as (r & E & _). exists r. split; [exact E|]. split; [exact (Mmul a b r A B E)|exact (Smul a b r A B SB E)].
  - intros l Fl. assert (FM : Forall CM l) by (eapply Forall_impl; [|exact Fl]; now intros a []). assert (FS : Forall CS l) by (eapply Forall_impl; [|exact Fl]; now intros a []).
    destruct (k_sum_poly natq c n l) as (r & E & _); [eapply Forall_impl; [|exact FM]; auto|]. exists r. split; [exact E|]. split; [exact (Ksum l r FM E)|exact (Ssum l r FM FS E)].
  - exists r. splits; auto. rewrite E. destruct fin; auto. rewrite (simplify_poly natq dom c n d Ex r (PN r Pr)). reflexivity.
Qed.
End Nat.
Lemma simplify_npoly dom c n d t : npoly t -> simplifyE (F dom c (8 + n)) d t = Ok t.
Proof. apply simplify_poly. intros u [a A|ts L Fs]; [now apply expandable_nmono|now apply expandable_nsum]. Qed.
(** all polynomials *)
Theorem integrate_poly dom rng nm c n d v : v <> ""%string -> forall bf k fin e, npoly e -> factors e <= d ->
  exists r, integrate (F dom c (8 + n)) rng nm d bf k fin e v = Ok (Some r) /\ npoly r.
Proof.
  intros Hv bf k fin e P Ld.
  destruct (integrate_nat dom rng nm c n d v Hv (mono natq) (poly natq)) with (CS := fun _ : expr => True) (bf := bf) (k := k) (fin := fin) (e := e) as (r & E & Pr & _); auto.
  - intros t H. now apply poly_mono.
  - intros t [a A|ts L Fs]; eauto.
  - intros ts H. inversion H as [? A|? L Fc R N]; subst; [inversion A as [? B|]; inversion B|]. eapply Forall_impl; [|exact Fc]. intros a. apply mono_fac.
  - intros l r H E. destruct (k_prod_monos natq natq_qeq natq_add one_natq c (4 + n) l H) as (r' & E' & M). change (4 + (4 + n)) with (8 + n) in E'. rewrite E in E'. injection E' as <-. exact M.
  - intros l r H E. destruct (k_sum_poly natq c n l) as (r' & E' & M); [eapply Forall_impl; [|exact H]; intros a; apply poly_mono|]. rewrite E in E'. injection E' as <-. exact M.
  - apply mono_fac, fac_at, at_sym. exact Hv.
  - intros q _. apply mono_fac, fac_rat.
  - intros q r Nq _ E. destruct (k_pow_xsym natq c (7 + n) v q Nq Hv) as (r' & E' & M). assert (Q := eq_trans (eq_sym E) E'). injection Q as <-. exact M.
  - eauto.
Qed.
