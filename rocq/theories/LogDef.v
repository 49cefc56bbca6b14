(** * LogDef: definite integrals of sums of monomials with integer exponents over intervals without zero (C95). *)
From Coquelicot Require Import Coquelicot.
From Coq Require Lqa.
From Verif Require Import Base Expr Kernel Mono Funcs FMono Calc Sem RealLemmas Sound SoundPow Atoms Agree Oracle
  FSound CalcSound Cont Combi Expand ExpandSound Factor Regex Simp Pts Match TrigSimp Poly PolyQ Table Trans TransMono TransSound
  Search SearchMono SearchSound Shape Interval PropsA PropsC PropsD PropsE PropsF PropsG Frag FragNum FragLib PropsJ PropsK FragInt PropsL FragX FragXLib TrigTot PropsT.
Close Scope R_scope.
Local Open Scope nat_scope.
Ltac splits := repeat match goal with |- _ /\ _ => split end.

(** symbols, log|v|, and logarithms of positive numbers *)
Definition lnum (b : expr) : Prop := exists p, (0 < p)%Q /\ ~ (p == 1)%Q /\ ~ (p == q_e)%Q /\ b = ELog (ERat p) EE.
Definition symlnum (v : string) (b : expr) : Prop := symlog v b \/ lnum b.
Definition lpoly (v : string) : expr -> Prop := opoly (symlnum v) (expo intq).
(** the natural logarithm of the number [q] can be taken: its argument |q| is not zero and not the double next to e *)
Definition logable (q : Q) : Prop := ~ (q == 0)%Q /\ ~ (Qabs q == q_e)%Q.

Lemma symlnum_opaque v : opaque (symlnum v).
Proof.
  pose proof (symlog_opaque v) as O. constructor.
  - intros b [H|(p & P & N1 & N2 & ->)]; [now apply O|reflexivity].
  - intros a b [A|(p & P & N1 & N2 & ->)] [A2|(p' & P' & N1' & N2' & ->)]; [now apply O| | |reflexivity].
    + destruct A as [(s & Hs & ->)| ->]; reflexivity.
    + destruct A2 as [(s & Hs & ->)| ->]; reflexivity.
  - intros a b A A2 E. apply eqb_coin; auto. clear E. destruct A as [[(s & Hs & ->)| ->]|(p & P & N1 & N2 & ->)], A2 as [[(s' & Hs' & ->)| ->]|(p' & P' & N1' & N2' & ->)]; reflexivity.
  - intros b [H|(p & P & N1 & N2 & ->)]; [now apply O|]. eexists. reflexivity.
  - intros c n b [H|(p & P & N1 & N2 & ->)]; [now apply O|].
    change (3 + 0 + n) with (S (S (S n))). change (k_repr (K c (S (S (S n))))) with (repr_body c (K c (S (S n)))). cbn [repr_body]. unfold log_label, py_eq. cbn [coin eeqb]. rewrite andb_false_r. cbn [bind].
    unfold repr_fn. change (k_repr (K c (S (S n))) (ERat p)) with (Ok (str_Q p)). cbn [bind].
    pose proof (str_Q_ne p) as N. destruct (str_nonempty _ N) as (a & ->), (last_nonempty _ N) as (b & ->). destruct (Ascii.eqb a "("%char && Ascii.eqb b ")"%char); eexists; (split; [reflexivity|discriminate]).
Qed.

Section Def.
Context (dom : expr -> bool) (c : cfg) (n : nat) (v : string) (Hv : v <> ""%string).
Context (HD : forall s q, intq q -> dom (EPow (ESym s) (ERat q)) = true) (HL : dom (logabs v) = true) (HN : forall p, (0 < p)%Q -> dom (ELog (ERat p) EE) = true).
Notation fk := (F dom c (11 + n)).
Notation Bv := (symlog v). Notation Bn := (symlnum v). Notation XB := (expo intq).
Let OP := symlnum_opaque v.
Hint Constructors oatom ofac omono opoly : core.

Lemma iopp q : intq q -> intq (- q).
Proof. intros Hq. unfold intq in *. unfold qisint, denom in *. now rewrite Qred_opp. Qed.
Notation XBe := (XB_eq intq intq_qeq). Notation XBa := (XB_add intq intq_add).
Lemma XB1 b : Bn b -> XB b 1%Q.
Proof. intros _. destruct b; cbn [expo]; apply one_natq. Qed.
Lemma XBd b q : Bn b -> XB b q -> pow_always b (ERat q) || dom (EPow b (ERat q)) = true.
Proof. intros [H|(p & P & N1 & N2 & ->)] X; [now apply (XB_dom intq dom v HD)|]. cbn [expo] in X. now rewrite pow_always_nat. Qed.
Lemma XBn b q : Bn b -> XB b q -> (q < 0)%Q -> pow_always b (rat (- q)) || dom (EPow b (rat (- q))) = true.
Proof. intros [H|(p & P & N1 & N2 & ->)] X L; [now apply (XB_neg intq intq_qeq iopp dom v HD)|]. cbn [expo] in X. destruct X. Lqa.lra. Qed.
Lemma XBx k b : Bn b -> expandable (F dom c k) b = Ok false.
Proof. intros [[(s & Hs & ->)| ->]|(p & P & N1 & N2 & ->)]; reflexivity. Qed.

(** the logarithm of a number *)
Lemma klog_q q : logable q -> exists r, k_log fk (ERat (Qred (Qabs q))) EE = Ok r /\ (r = ERat 0 \/ lnum r).
Proof.
  intros [Z N]. assert (P : (0 < Qred (Qabs q))%Q).
  { rewrite Qred_correct. destruct (Q_dec q 0) as [[L|L]|E]; [rewrite Qabs_neg; Lqa.lra|rewrite Qabs_pos; Lqa.lra|contradiction]. }
  change (k_log fk (ERat (Qred (Qabs q))) EE) with (guard (dom (ELog (ERat (Qred (Qabs q))) EE)) (mk_log c (ERat (Qred (Qabs q))) EE)). rewrite HN by auto. cbn [guard].
  unfold mk_log. destruct (isq (ERat (Qred (Qabs q))) 1) eqn:E1; [exists (ERat 0); auto|]. unfold py_eq.
  assert (E : qeqb (Qred (Qabs q)) q_e = false).
  { apply Bool.not_true_is_false. intros E. apply N. apply Sound.qeqb_eq in E. rewrite <- E. symmetry. apply Qred_correct. }
  cbn [coin eeqb]. rewrite E, andb_false_r. cbn [bind]. eexists. split; [reflexivity|]. right. exists (Qred (Qabs q)). splits; auto; [now apply isq_rat_f|]. now rewrite Qred_correct.
Qed.
Section At.
Context (a : Q) (Ha : logable a).
Notation sb := (subs fk [(v, ERat a)]).
Lemma sub_v : sb (ESym v) = Ok (ERat a).
Proof. cbn [subs assoc]. now rewrite String.eqb_refl. Qed.
Lemma sub_base b : Bv b -> exists r, sb b = Ok r /\ (Bn r \/ exists p, r = ERat p /\ (b = ESym v /\ p = a \/ b = logabs v)).
Proof.
  intros [(s & Hs & ->)| ->].
  - destruct (String.eqb_spec v s) as [<-|N]; [rewrite sub_v; exists (ERat a); split; [reflexivity|right; exists a; auto]|]. exists (ESym s). split; [|left; left; left; eauto].
    cbn [subs assoc]. apply String.eqb_neq in N. now rewrite N.
  - destruct (klog_q a Ha) as (r & E & H). unfold logabs. change (sb (ELog (EAbs (ESym v)) EE)) with (i' <- (i1 <- sb (ESym v);; k_abs fk i1);; k_log fk i' EE). rewrite sub_v. cbn [bind].
    change (k_abs fk (ERat a)) with (Ok (ERat (Qred (Qabs a)))). cbn [bind]. rewrite E.
    exists r. split; [reflexivity|]. destruct H as [->|H]; [right; eauto|left; now right].
Qed.
Lemma sub_fac t : ofac Bv XB t -> exists r, sb t = Ok r /\ omono Bn XB r.
Proof.
  intros [x [b Hb|b q Hb Hq H0]|q].
  - destruct (sub_base b Hb) as (y & Ey & H). rewrite Ey. exists y. split; auto. destruct H as [H|(p & -> & _)]; auto.
  - destruct (sub_base b Hb) as (r & E & H). change (sb (EPow b (ERat q))) with (b' <- sb b;; k_pow fk b' (ERat q)). rewrite E. cbn [bind]. destruct H as [H|(p & -> & H)].
    + change fk with (F dom c (10 + (1 + n))). apply (fk_pow_mono Bn OP XB dom c (1 + n) XBd); auto. destruct Hb as [(s & Hs & ->)| ->]; cbn [expo] in Hq.
      * cbn [subs assoc] in E. destruct (String.eqb v s); injection E as <-; [exfalso|exact Hq]. destruct H as [[(s0 & _ & [=])|[=]]|(p & _ & _ & _ & [=])].
      * destruct H as [[(s0 & Hs0 & ->)| ->]|(p & P & N1 & N2 & ->)]; [|exact Hq|exact Hq]. exact (proj1 Hq).
    + change (k_pow fk (ERat p) (ERat q)) with (guard (pow_always (ERat p) (ERat q) || dom (EPow (ERat p) (ERat q))) (k_pow (K c (11 + n)) (ERat p) (ERat q))).
      assert (G : qisint q = true /\ ((p == 0)%Q -> (0 <= q)%Q) /\ pow_always (ERat p) (ERat q) = true).
      { destruct H as [(-> & ->)| ->]; cbn [expo logabs] in Hq.
        - destruct Ha as [Z _]. splits; [exact Hq|intros E0; contradiction|]. cbn [pow_always]. unfold intq in Hq. rewrite Hq.
          assert (E0 : qis0 a = false) by (apply Bool.not_true_is_false; intros T; apply qis0_iff in T; contradiction). rewrite E0. cbn. now rewrite ?orb_true_r.
        - splits; [apply Hq|intros _; apply Hq|now apply pow_always_nat]. }
      destruct G as (G1 & G2 & ->). cbn [orb guard]. destruct (k_pow_int c (10 + n) p q G1 G2) as (r & Er & _). change (S (10 + n)) with (11 + n) in Er. rewrite Er. eauto.
  - exists (ERat q). auto.
Qed.
Lemma sub_mono t : omono Bv XB t -> exists r, sb t = Ok r /\ omono Bn XB r.
Proof.
  intros [e Fe|ts L F R N]; [now apply sub_fac|]. cbn [subs]. match goal with |- exists r, (ts' <- ?g ts;; _) = Ok r /\ _ => assert (G : exists ts', g ts = Ok ts' /\ Forall (omono Bn XB) ts') end.
  { clear -F Ha HD HL HN Hv OP. induction F as [|u l U F (l' & E & Fl)]; [exists []; auto|]. destruct (sub_fac u U) as (r & Er & M). exists (r :: l'). rewrite Er. cbn [bind]. rewrite E. cbn [bind]. auto. }
  destruct G as (ts' & -> & G). cbn [bind]. exact (k_prod_monos Bn OP XB XBe XBa XB1 c (5 + n) ts' G).
Qed.
Lemma sub_poly t : logpoly intq v t -> exists r, sb t = Ok r /\ lpoly v r.
Proof.
  intros [e M|ts L F]; [destruct (sub_mono e M) as (r & E & Mr); exists r; split; auto; now apply opoly_mono|].
  cbn [subs]. match goal with |- exists r, (ts' <- ?g ts;; _) = Ok r /\ _ => assert (G : exists ts', g ts = Ok ts' /\ Forall (lpoly v) ts') end.
  { clear -F Ha HD HL HN Hv OP. induction F as [|u l U F (l' & E & Fl)]; [exists []; auto|]. destruct (sub_mono u U) as (r & Er & M). exists (r :: l'). rewrite Er. cbn [bind]. rewrite E. cbn [bind].
    split; auto. constructor; auto. now apply opoly_mono. }
  destruct G as (ts' & -> & G). cbn [bind]. exact (k_sum_poly Bn OP XB c (1 + n) ts' G).
Qed.
End At.
Lemma walk_n b : Bn b -> exists h, walk fk (fun t => first_perform [log_perform fk] t) b = Ok (b, h).
Proof.
  intros [H|(p & P & N1 & N2 & ->)]; [exact (walk_bases dom c (1 + n) v HL b H)|].
  exists true. cbn [walk first_perform log_perform is_e]. rewrite orb_true_r. cbn [guard]. unfold logE.
  change (k_log fk (ERat p) EE) with (guard (dom (ELog (ERat p) EE)) (mk_log c (ERat p) EE)). rewrite HN by auto. cbn [guard]. unfold mk_log, py_eq.
  assert (E1 : isq (ERat p) 1 = false) by now apply isq_rat_f. assert (E : qeqb p q_e = false) by (apply Bool.not_true_is_false; intros E; apply N2; apply Sound.qeqb_eq in E; now rewrite E).
  cbn [coin eeqb]. rewrite E1, E, andb_false_r. reflexivity.
Qed.
Context (rng : string -> expr -> bool) (nm : nat -> string) (d : nat).
Lemma bounds_log bf k e a b : poly intq e -> IntTree.factors e <= d -> logable a -> logable b ->
  exists r, integrate_bounds fk rng nm d bf k e v (ERat a) (ERat b) = Ok (Some r) /\ lpoly v r.
Proof.
  intros P Hd Ha Hb. unfold integrate_bounds.
  destruct (integrate_pow intq intq_qeq intq_add eq_refl iopp dom rng nm c (1 + n) d v Hv HD HL bf k false e P Hd) as (r & E & Pr).
  change (10 + (1 + n)) with (11 + n) in E. rewrite E. cbn [bind].
  destruct (sub_poly b Hb r Pr) as (fb & -> & Pb). destruct (sub_poly a Ha r Pr) as (fa & -> & Pa). cbn [bind].
  destruct (op_sub_poly Bn OP XB XBe XBa XB1 c n fb fa Pb Pa) as (t & Et & Pt). assert (Et' : op_sub fk fb fa = Ok t) by exact Et. rewrite Et'. cbn [bind].
  destruct (simplify_opoly Bn OP XB XBe XBa XB1 dom c (1 + n) XBd XBn (XBx _) d t) as (s & Es & Ps); auto.
  - intros b0 [[(s & Hs & ->)| ->]|(p & P0 & N1 & N2 & ->)]; reflexivity.
  - exact walk_n.
  - change (10 + (1 + n)) with (11 + n) in Es. rewrite Es. cbn [bind]. eauto.
Qed.
End Def.

(** ** C95: the plain code *)
Local Open Scope R_scope.
(** the domain oracle: integer powers of symbols, log|s|, and logarithms of positive numbers *)
Definition dom_lnum (t : expr) : bool :=
  match t with EPow (ESym _) (ERat q) => qisint q | ELog (EAbs (ESym _)) EE => true | ELog (ERat p) EE => qlt0 (- p) | _ => false end.
Lemma dom_lnum_right rho : (forall s, rho s <> 0) -> right_at rho dom_lnum.
Proof.
  intros Hr t H. destruct t as [| | | | | | | | |b x|i b| |]; try discriminate; cbn [dom_lnum] in H.
  - destruct b; try discriminate. destruct x as [q| | | | | | | | | | | |]; try discriminate. left. exists q. repeat split; auto. left. apply Hr.
  - destruct i as [p| | | | | | | | | | | |i]; try discriminate; [|destruct i; try discriminate]; (destruct b; try discriminate); (split; [|split; [apply exp_pos|apply exp1_ne1]]); apply rp_unfold; (split; [|auto]); cbn [ev].
    + apply qlt0_true in H. rewrite Q2R_opp in H. Lra.lra.
    + now apply Rabs_pos_lt.
Qed.
(** the values between two numbers of one sign have that sign *)
Lemma between_sign a b t : 0 < a * b -> Rmin a b <= t <= Rmax a b -> 0 < a * t.
Proof.
  intros H [L U]. destruct (Rlt_or_le 0 a) as [P|P].
  - assert (0 < b) by (apply Rmult_lt_reg_l with a; Lra.lra). apply Rmult_lt_0_compat; auto. unfold Rmin in L. destruct (Rle_dec a b); Lra.lra.
  - assert (a <> 0) by (intros ->; Lra.lra). assert (a < 0) by Lra.lra. assert (b < 0). { apply Ropp_lt_cancel. rewrite Ropp_0. apply Rmult_lt_reg_l with (- a); [Lra.lra|]. replace (- a * - b) with (a * b) by ring. Lra.lra. }
    assert (t < 0). { unfold Rmax in U. destruct (Rle_dec a b); Lra.lra. } replace (a * t) with (- a * - t) by ring. apply Rmult_lt_0_compat; Lra.lra.
Qed.
Theorem c95_definite c m d v nm bf k e a b : fpow_exact (fpow c) -> (11 <= m)%nat -> v <> ""%string -> poly intq e -> (IntTree.factors e <= d)%nat ->
  (0 < a * b)%Q -> ~ (Qabs a == q_e)%Q -> ~ (Qabs b == q_e)%Q ->
  exists r, integrate_bounds (PropsC.PF c m) (fun _ _ => true) nm d bf k e v (ERat a) (ERat b) = Ok (Some r) /\
    (forall s, In s (names r) -> In s (names e) /\ s <> v) /\
    forall rho, (forall s, In s (names e) -> s <> v -> rho s <> 0) ->
      wd rho r /\ is_RInt (fun t => ev (upd rho v t) e) (Q2R a) (Q2R b) (ev rho r).
Proof.
  intros HX Hm Hv P Hd Hab Na Nb. replace m with (11 + (m - 11))%nat by lia. set (n := (m - 11)%nat).
  assert (Za : ~ (a == 0)%Q) by (intros E; rewrite E in Hab; Lqa.lra). assert (Zb : ~ (b == 0)%Q) by (intros E; rewrite E in Hab; Lqa.lra).
  assert (Hab' : 0 < Q2R a * Q2R b). { rewrite <- Q2R_mult, <- RMicromega.Q2R_0. now apply Qreals.Qlt_Rlt. }
  assert (Za' : Q2R a <> 0) by (intros E; rewrite E in Hab'; Lra.lra).
  destruct (bounds_log dom_lnum (strictly c) n v Hv (fun s q H => H) eq_refl) with (rng := fun (_ : string) (_ : expr) => false) (nm := nm) (d := d) (bf := bf) (k := k) (e := e) (a := a) (b := b) as (r & E & Pr); auto.
  { intros p Hp. cbn [dom_lnum]. apply qlt0_iff. Lqa.lra. }
  { split; auto. } { split; auto. }
  destruct (c68_definite c dom_lnum (fun _ _ => false) (11 + n) (11 + n) (Nat.le_refl _) d d (Nat.le_refl _) nm bf k e v (ERat a) (ERat b) r E) as [E' N].
  exists r. split; [exact E'|].
  assert (N' : forall s, In s (names r) -> In s (names e) /\ s <> v) by (intros s Hs; destruct (N s Hs) as [H|[[]|[]]]; exact H).
  split; [exact N'|]. intros rho Hr.
  set (B := fun (s : string) x => if String.eqb s v then 0 < Q2R a * x else x <> 0).
  assert (Bnz : forall s x, B s x -> x <> 0).
  { intros s x H. unfold B in H. destruct (String.eqb s v); [|exact H]. intros ->. Lra.lra. }
  assert (HB : forall rho, inB B rho -> right_at rho dom_lnum) by (intros sg Hs; apply dom_lnum_right; intros s; exact (Bnz s _ (Hs s))).
  assert (HR : rng_ok B (fun _ _ => false)) by (intros y u H; discriminate).
  assert (We : wdB B e).
  { intros sg Hs. apply (poly_wd intq); auto. intros s q Hq. split; [exact Logic.I|]. split; [exact Logic.I|]. left. exists q. repeat split; auto. left. exact (Bnz s _ (Hs s)). }
  assert (Ho : openv B v).
  { intros t Ht. unfold B in *. rewrite String.eqb_refl in *. assert (C : continuous (fun x => Q2R a * x) t) by (apply (continuous_mult (fun _ => Q2R a) (fun x => x)); [apply continuous_const|apply continuous_id]).
    apply (C (fun y => 0 < y)). now apply open_gt. }
  set (sg := fun s => if String.eqb s v then Q2R a else if in_dec string_dec s (names e) then rho s else 1).
  assert (Hs : inB B sg).
  { intros s. unfold B, sg. destruct (String.eqb s v) eqn:Ev.
    - apply Rsqr_pos_lt in Za'. exact Za'.
    - apply String.eqb_neq in Ev. destruct (in_dec string_dec s (names e)); auto. }
  destruct (c47_definite c HX dom_lnum (fun _ _ => false) B HB HR (11 + n) (11 + n) (Nat.le_refl _) d d (Nat.le_refl _) nm bf k e v (ERat a) (ERat b) r sg Ho We Hs Logic.I Logic.I) as (_ & W & R0).
  { cbn [ev]. intros t Ht. unfold B. rewrite String.eqb_refl. eapply between_sign; eauto. }
  { exact E. }
  assert (Eq : forall s, In s (names e) -> s <> v -> sg s = rho s).
  { intros s Hi Nv. unfold sg. apply String.eqb_neq in Nv. rewrite Nv. destruct (in_dec string_dec s (names e)); [auto|contradiction]. }
  assert (Ar : forall s, contains s r = true -> sg s = rho s) by (intros s Hc; apply contains_names in Hc; apply N' in Hc as [H1 H2]; auto).
  split; [exact (wd_agree sg rho r Ar W)|]. rewrite <- (ev_ext sg rho r Ar). eapply is_RInt_ext; [|exact R0]. intros t _. cbn beta.
  apply ev_ext. intros s Hc. apply contains_names in Hc. apply upd_ext. intros Nv. now apply Eq.
Qed.
(** 3/(5x) + x^-3 + x y  from -3 to -2;  1/x from 1/2 to 1 *)
Local Notation sx := (ESym "x"). Local Notation sy := (ESym "y").
Example c95_ex :
  let e := ESum [EProd [ERat (3#5); EPow sx (ERat (-1))]; EPow sx (ERat (-3)); EProd [sx; sy]] in
  poly intq e /\ IntTree.factors e = 3%nat /\ (0 < (-3) * (-2))%Q /\ ~ (Qabs (-3) == q_e)%Q /\ ~ (Qabs (-2) == q_e)%Q /\
  integrate_bounds (PropsC.PF exact_cfg 14) (fun _ _ => true) unm 12 false 3 e "x" (ERat (-3)) (ERat (-2)) =
    Ok (Some (ESum [EProd [ERat (-5#2); sy]; EProd [ERat (3#5); ELog (ERat 2) EE]; EProd [ERat (-3#5); ELog (ERat 3) EE]; ERat (-5#72)])) /\
  integrate_bounds (PropsC.PF exact_cfg 14) (fun _ _ => true) unm 12 false 3 (EPow sx (ERat (-1))) "x" (ERat (1#2)) (ERat 1) =
    Ok (Some (EProd [ERat (-1); ELog (ERat (1#2)) EE])).
Proof.
  split; [apply (polyb_ok _ qisint); [auto|reflexivity]|]. split; [reflexivity|]. split; [reflexivity|]. split; [discriminate|]. split; [discriminate|]. split; vm_compute; reflexivity.
Qed.
