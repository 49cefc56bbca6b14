(** * PropsP: sums of monomials with rational exponents (C80).

    Programs of sums, differences, negations, derivatives, products, quotients and integer powers of powers x ** q with any
    rational q (roots and reciprocals included): the library runs them to the end, exactly where the symbols are
    positive, and == decides whether two of them are the same function there. *)
From Coquelicot Require Import Coquelicot.
From Verif Require Import Base Expr Kernel Mono Sort Funcs Calc Combi Sem RealLemmas Sound SoundPow Agree Oracle CalcSound Table Frag FragNum FragLib
  PropsA PropsC PropsB PropsK CanonR PropsM NForm NUniq NOps NExp PropsO NInv.
Local Ltac splits := repeat match goal with |- _ /\ _ => split end.
Local Open Scope R_scope.

(** ** Specification *)
Inductive lexp :=
| LNum (q : Q) | LPow (s : string) (q : Q) | LMul (a b : lexp) | LDiv (a b : lexp) | LExp (a : lexp) (z : Z) | LAdd (a b : lexp) | LSub (a b : lexp) | LNeg (a : lexp) | LDiff (v : string) (a : lexp).
Fixpoint lval (p : lexp) (rho : env) : R :=
  match p with
  | LNum q => Q2R q
  | LPow s q => Rpower (rho s) (Q2R q)
  | LMul a b => lval a rho * lval b rho
  | LDiv a b => lval a rho / lval b rho
  | LExp a z => powerRZ (lval a rho) z
  | LAdd a b => lval a rho + lval b rho
  | LSub a b => lval a rho - lval b rho
  | LNeg a => - lval a rho
  | LDiff v a => Derive (fun t => lval a (upd rho v t)) (rho v)
  end.
Fixpoint lrun (fk : fkern) (d : nat) (p : lexp) : res expr :=
  match p with
  | LNum q => Ok (rat q)
  | LPow s q => op_pow fk (ESym s) (rat q)
  | LMul a b => x <- lrun fk d a;; y <- lrun fk d b;; op_mul fk x y
  | LDiv a b => x <- lrun fk d a;; y <- lrun fk d b;; op_div fk x y
  | LExp a z => x <- lrun fk d a;; op_pow fk x (ratz z)
  | LAdd a b => x <- lrun fk d a;; y <- lrun fk d b;; op_add fk x y
  | LSub a b => x <- lrun fk d a;; y <- lrun fk d b;; op_sub fk x y
  | LNeg a => x <- lrun fk d a;; op_neg fk x
  | LDiff v a => x <- lrun fk d a;; diffE fk d v x
  end.
(** only monomials are multiplied, divided and raised to integer powers, ... *)
Fixpoint lmono (p : lexp) : Prop :=
  match p with LNum _ | LPow _ _ => True | LMul a b | LDiv a b => lmono a /\ lmono b | LExp a _ | LNeg a => lmono a | _ => False end.
(** ... not 0 in a denominator or to a negative power *)
Fixpoint lnz (p : lexp) : Prop :=
  match p with LNum q => ~ (q == 0)%Q | LMul a b | LDiv a b => lnz a /\ lnz b | LExp a _ | LNeg a => lnz a | _ => True end.
Fixpoint lallowed (p : lexp) : Prop :=
  match p with
  | LNum _ => True | LPow s _ => ident s
  | LMul a b => (lallowed a /\ lmono a) /\ (lallowed b /\ lmono b)
  | LDiv a b => (lallowed a /\ lmono a) /\ (lallowed b /\ lmono b /\ lnz b)
  | LExp a z => lallowed a /\ lmono a /\ (lnz a \/ (0 <= z)%Z)
  | LAdd a b | LSub a b => lallowed a /\ lallowed b
  | LNeg a | LDiff _ a => lallowed a
  end.
Definition lcomputes (c : cfg) (p : lexp) (e : expr) : Prop :=
  forall m d, (12 <= m)%nat -> (4 <= d)%nat -> lrun (PF c m) d p = Ok e.

(** ** Proof *)
Notation AC := (fun _ _ _ _ => I). 
Section Run.
Context (c : cfg) (HX : fpow_exact (fpow c)).
Let c' := faithful c.
Let HX' : fpow_exact (fpow c') := HX.
Notation nform := (nform anyq c'). Notation nt0 := (nt0 anyq c').
Lemma pos_wd rho e : positive rho -> poly anyq e -> wd rho e.
Proof.
  intros P. apply poly_wd. intros s q _. simpl. repeat split; auto. right. simpl. split; [apply P|exact I].
Qed.
Lemma nform_plain' e : nform e -> Agree.plain e = true.
Proof. intros H. apply (poly_plain anyq). now apply (nform_poly anyq c'). Qed.
Lemma settle' (run : nat -> nat -> res expr) (V : env -> R) (Q : expr -> Prop) :
  (forall m d, (4 <= d)%nat -> exists e, run (12 + m)%nat d = Ok e /\ nform e /\ (forall rho, positive rho -> ev rho e = V rho) /\ Q e) ->
  exists e, (forall m d, (12 <= m)%nat -> (4 <= d)%nat -> run m d = Ok e) /\ nform e /\ (forall rho, positive rho -> ev rho e = V rho) /\ Q e.
Proof.
  intros H. destruct (H 0%nat 4%nat (Nat.le_refl _)) as (e & _ & N & Ve & Qe). exists e. splits; auto.
  intros m d Hm Hd. destruct (H (m - 12)%nat d Hd) as (r & E & N' & Vr & _). replace (12 + (m - 12))%nat with m in E by lia.
  rewrite E. f_equal. apply (nform_unique anyq c' HX'); auto. intros rho P. now rewrite Ve, Vr.
Qed.
Lemma nt0_nsum' e : nt0 e -> is_sum e = false.
Proof. intros N. pose proof (nt0_mono anyq c' e N) as M. destruct M as [t [a []|]|]; reflexivity. Qed.
Lemma pos_upd rho v t : positive rho -> 0 < t -> positive (upd rho v t).
Proof. intros P T s. unfold upd. destruct (String.eqb s v); auto. Qed.
Lemma lnz_val p rho : positive rho -> lmono p -> lnz p -> lval p rho <> 0.
Proof.
  intros P. induction p as [q|s q|a IHa b IHb|a IHa b IHb|a IHa z|a IHa b IHb|a IHa b IHb|a IHa|v a IHa]; cbn [lmono lnz lval]; intros M Z; try tauto.
  - intros E. apply Z. apply Qreals.eqR_Qeq. now rewrite E, RMicromega.Q2R_0.
  - unfold Rpower. apply Rgt_not_eq, exp_pos.
  - apply Rmult_integral_contrapositive. tauto.
  - unfold Rdiv. apply Rmult_integral_contrapositive. split; [tauto|]. apply Rinv_neq_0_compat. tauto.
  - apply powerRZ_NOR. tauto.
  - apply Ropp_neq_0_compat. tauto.
Qed.
Theorem lrun_total p : lallowed p ->
  exists e, lcomputes c p e /\ nform e /\ (forall rho, positive rho -> ev rho e = lval p rho) /\ (lmono p -> is_sum e = false).
Proof.
  unfold lcomputes. pose proof nform_plain' as NP.
  assert (NW : forall rho e, positive rho -> nform e -> wd rho e) by (intros rho e P N; apply pos_wd; auto; now apply (nform_poly anyq c')).
  induction p as [q|s q|a IHa b IHb|a IHa b IHb|a IHa z|a IHa b IHb|a IHa b IHb|a IHa|v a IHa]; cbn [lallowed lrun lval lmono]; intros N.
  - exists (rat q). splits; auto; [apply nform_rat, lowest_red|]. intros rho _. cbn [ev rat]. apply Qreals.Qeq_eqR, Qred_correct.
  - apply settle'. intros m d _. unfold op_pow, rat.
    assert (G : k_pow (PF c (12 + m)) (ESym s) (ERat (Qred q)) = k_pow (K c' (S (11 + m))) (ESym s) (ERat (Qred q))).
    { change (k_pow (PF c (12 + m)) (ESym s) (ERat (Qred q))) with (guard (pow_always (ESym s) (ERat (Qred q)) || true) (k_pow (K c' (S (11 + m))) (ESym s) (ERat (Qred q)))). rewrite orb_true_r. reflexivity. }
    rewrite G. rewrite k_pow_sym.
    assert (Q' : forall rho, Rpower (rho s) (Q2R (Qred q)) = Rpower (rho s) (Q2R q)) by (intros rho; f_equal; apply Qreals.Qeq_eqR, Qred_correct).
    destruct (Qeq_bool (Qred q) 0) eqn:E0; [|destruct (Qeq_bool (Qred q) 1) eqn:E1].
    + exists (ERat 1). splits; auto; [apply nform_rat; reflexivity|]. intros rho P. apply Qeq_bool_iff, Qreals.Qeq_eqR in E0. rewrite <- Q', E0, RMicromega.Q2R_0, Rpower_O by auto. cbn. apply RMicromega.Q2R_1.
    + exists (ESym s). splits; auto; [now apply nform_sym|]. intros rho P. apply Qeq_bool_iff, Qreals.Qeq_eqR in E1. rewrite <- Q', E1, RMicromega.Q2R_1, Rpower_1 by auto. reflexivity.
    + exists (EPow (ESym s) (ERat (Qred q))). splits; auto.
      * apply nt0_nform. right. exists (1%Q, [EPow (ESym s) (ERat (Qred q))]). split; [|reflexivity]. apply (natom_term anyq c'). constructor; auto; try (now apply Qeq_bool_neq); [exact I|apply lowest_red].
      * intros rho P. cbn [ev]. rewrite rpow_pos by apply P. apply Q'.
  - destruct N as [[Na Ma] [Nb Mb]]. destruct (IHa Na) as (x & Ex & Fx & Vx & Sx), (IHb Nb) as (y & Ey & Fy & Vy & Sy).
    apply settle'. intros m d Hd. rewrite Ex, Ey by lia. cbn [bind].
    assert (Nx : nt0 x) by (apply nform_nt0; auto). assert (Ny : nt0 y) by (apply nform_nt0; auto).
    destruct (op_mul_mono anyq AC AC I c' (8 + m) x y (nt0_mono anyq c' x Nx) (nt0_mono anyq c' y Ny)) as (r & E & _).
    pose proof (op_mul_nt anyq AC AC I c' (12 + m) x y r Nx Ny E) as Nr.
    exists r. splits; auto; [now apply nt0_nform| |intros _; now apply nt0_nsum'].
    intros rho P. destruct (c02_ops_plain c' HX' (12 + m) rho x y r (NP x Fx) (NP y Fy) (NW rho x P Fx) (NW rho y P Fy)) as (V & _). rewrite <- Vx, <- Vy by auto. now apply V.
  - destruct N as [[Na Ma] (Nb & Mb & Zb)]. destruct (IHa Na) as (x & Ex & Fx & Vx & Sx), (IHb Nb) as (y & Ey & Fy & Vy & Sy).
    apply settle'. intros m d Hd. rewrite Ex, Ey by lia. cbn [bind].
    assert (Nx : nt0 x) by (apply nform_nt0; auto). assert (Ny : nt0 y) by (apply nform_nt0; auto).
    destruct Ny as [->|(t & T & Et)].
    { exfalso. apply (lnz_val b (fun _ => 1) (fun _ => Rlt_0_1) Mb Zb). rewrite <- Vy by (intros s; apply Rlt_0_1). cbn. apply RMicromega.Q2R_0. }
    destruct (inv_total c' (6 + m) t T) as (w & Ew & Nw). rewrite <- Et in Ew.
    assert (G : forall k, k_pow k y (ERat (-1)) = Ok w -> (forall l, k_prod k l = k_prod (K c' (12 + m)) l) -> exists r, op_div k x y = Ok r /\ nt0 r /\ op_div (K c' (12 + m)) x y = Ok r).
    { intros k Ek Kp. destruct (k_prod_total anyq AC AC I c' (8 + m) [x; w]) as (r & Er & Nr); [auto|]. change (K c' (4 + (8 + m))) with (K c' (12 + m)) in Er.
      assert (Gen : forall k, k_pow k y (ERat (-1)) = Ok w -> (forall l, k_prod k l = k_prod (K c' (12 + m)) l) -> (i <- k_pow k y (ERat (-1));; k_prod k [x; i]) = Ok r).
      { intros k0 E0 E1. rewrite E0. cbn [bind]. now rewrite E1. }
      assert (Z : forall q, y = ERat q -> qis0 q = false).
      { intros q ->. apply Bool.not_true_is_false. intros Q. apply qis0_iff in Q. apply (lnz_val b (fun _ => 1) (fun _ => Rlt_0_1) Mb Zb). rewrite <- Vy by (intros s; apply Rlt_0_1).
        cbn [ev]. rewrite (Qreals.Qeq_eqR _ _ Q). apply RMicromega.Q2R_0. }
      pose proof (Gen k Ek Kp) as G1. pose proof (Gen _ Ew (fun l => eq_refl)) as G2.
      unfold op_div. destruct x; try (exists r; now splits). destruct y; try (exists r; now splits).
      rewrite (Z _ eq_refl). eexists. splits; [reflexivity| |reflexivity]. apply nt0_rat, lowest_red. }
    destruct (G (PF c (12 + m))) as (r & E & Nr & D).
    { change (k_pow (PF c (12 + m)) y (ERat (-1))) with (guard (pow_always y (ERat (-1)) || true) (k_pow (K c' (12 + m)) y (ERat (-1)))). rewrite orb_true_r. exact Ew. }
    { intros l. reflexivity. }
    exists r. splits; [exact E|now apply nt0_nform| |intros _; now apply nt0_nsum'].
    intros rho P. destruct (c02_ops_plain c' HX' (12 + m) rho x y r (NP x Fx) (NP y Fy) (NW rho x P Fx) (NW rho y P Fy)) as (_ & V). rewrite <- Vx, <- Vy by auto. apply V; [|exact D].
    rewrite Vy by auto. now apply lnz_val.
  - destruct N as (Na & Ma & Zz). destruct (IHa Na) as (x & Ex & Fx & Vx & Sx).
    apply settle'. intros m d Hd. rewrite Ex by lia. cbn [bind].
    assert (Nx : nt0 x) by (apply nform_nt0; auto).
    assert (Z0 : (forall rho, positive rho -> ev rho x <> 0) \/ (0 <= z)%Z).
    { destruct Zz as [Zz|Zz]; [left|now right]. intros rho P. rewrite Vx by auto. now apply lnz_val. }
    assert (Lz : lowest (inject_Z z)) by apply lowest_z.
    assert (G : forall k, (forall w, k_pow (K c' (12 + m)) x (ratz z) = Ok w -> k_pow k x (ratz z) = Ok w) ->
      exists r, op_pow k x (ratz z) = Ok r /\ nt0 r /\ op_pow (K c' (12 + m)) x (ratz z) = Ok r).
    { intros k Hk. destruct Nx as [->|(t & T & Et)].
      - assert (Zp : (0 <= z)%Z) by (destruct Z0 as [Z0|Z0]; [exfalso; apply (Z0 (fun _ => 1) (fun _ => Rlt_0_1)); cbn; apply RMicromega.Q2R_0|exact Z0]).
        unfold op_pow, ratz. assert (Q : qlt0 (inject_Z z) = false) by (apply Bool.not_true_is_false; intros Q; apply qlt0_iff in Q; unfold Qlt, inject_Z in Q; cbn [Qnum Qden] in Q; lia). rewrite Q, andb_false_r, qisint_inject.
        eexists. splits; [reflexivity| |reflexivity]. apply nt0_rat, lowest_red.
      - assert (E : exists w, k_pow (K c' (12 + m)) x (ratz z) = Ok w /\ nt0 w).
        { destruct (Qeq_dec (inject_Z z) 0) as [Q|Q].
          - exists (ERat 1). split; [|apply nt0_rat; reflexivity]. change (K c' (12 + m)) with (build c' (K c' (11 + m))). cbn [build k_pow]. unfold pow_body, ratz. now rewrite (proj2 (isq_rat _ 0) Q).
          - rewrite Et. apply (pow_total c' (inject_Z z) (qisint_inject z) Lz Q (6 + m) t T). }
        destruct E as (w & Ew & Nw). pose proof (Hk w Ew) as Ek. unfold op_pow.
        destruct x; try (exists w; now splits). unfold ratz in *.
        rewrite qisint_inject. destruct (qis0 q && qlt0 (inject_Z z)) eqn:Q.
        + exfalso. apply andb_prop in Q as [Q1 Q2]. apply qis0_iff in Q1. destruct Z0 as [Z0|Z0].
          * apply (Z0 (fun _ => 1) (fun _ => Rlt_0_1)). cbn [ev]. rewrite (Qreals.Qeq_eqR _ _ Q1). apply RMicromega.Q2R_0.
          * apply qlt0_iff in Q2. unfold Qlt, inject_Z in Q2. cbn [Qnum Qden] in Q2. lia.
        + eexists. splits; [reflexivity| |reflexivity]. apply nt0_rat, lowest_red. }
    destruct (G (PF c (12 + m))) as (r & E & Nr & D).
    { intros w Ew. change (k_pow (PF c (12 + m)) x (ratz z)) with (guard (pow_always x (ratz z) || true) (k_pow (K c' (12 + m)) x (ratz z))). rewrite orb_true_r. exact Ew. }
    exists r. splits; [exact E|now apply nt0_nform| |intros _; now apply nt0_nsum'].
    intros rho P. assert (Z1 : ev rho x <> 0 \/ (0 <= z)%Z) by (destruct Z0; auto).
    destruct (c03_int_power c' HX' (12 + m) rho x z r (NP x Fx) (NW rho x P Fx) Z1 D) as (_ & V). rewrite V, rpow_int by exact Z1. now rewrite Vx.
  - destruct N as [Na Nb]. destruct (IHa Na) as (x & Ex & Fx & Vx & _), (IHb Nb) as (y & Ey & Fy & Vy & _).
    apply settle'. intros m d Hd. rewrite Ex, Ey by lia. cbn [bind].
    assert (G : exists r, op_add (K c' (8 + (4 + m))) x y = Ok r).
    { destruct (k_sum_total anyq c' (4 + m) [x; y]) as (r & E & _); [auto|]. unfold op_add. destruct x, y; try (exists r; exact E). eexists; reflexivity. }
    destruct G as (r & E). exists r. split; [exact E|]. split; [exact (op_add_nf anyq c' (8 + (4 + m)) x y r Fx Fy E)|]. split; [|tauto].
    intros rho P. destruct (c01_ops_plain c' HX' (8 + (4 + m)) rho x y r (NP x Fx) (NP y Fy) (NW rho x P Fx) (NW rho y P Fy)) as (V & _). rewrite <- Vx, <- Vy by auto. now apply V.
  - destruct N as [Na Nb]. destruct (IHa Na) as (x & Ex & Fx & Vx & _), (IHb Nb) as (y & Ey & Fy & Vy & _).
    apply settle'. intros m d Hd. rewrite Ex, Ey by lia. cbn [bind].
    destruct (op_sub_poly anyq AC AC I c' (3 + m) x y (nform_poly anyq c' x Fx) (nform_poly anyq c' y Fy)) as (r & E & _).
    exists r. split; [exact E|]. split; [exact (op_sub_nf anyq AC AC I c' (9 + (3 + m)) x y r Fx Fy E)|]. split; [|tauto].
    intros rho P. destruct (c01_ops_plain c' HX' (9 + (3 + m)) rho x y r (NP x Fx) (NP y Fy) (NW rho x P Fx) (NW rho y P Fy)) as (_ & V & _). rewrite <- Vx, <- Vy by auto. now apply V.
  - destruct (IHa N) as (x & Ex & Fx & Vx & Sx). apply settle'. intros m d Hd. rewrite Ex by lia. cbn [bind].
    destruct (op_neg_poly anyq AC AC I c' (4 + m) x (nform_poly anyq c' x Fx)) as (r & E & _).
    exists r. split; [exact E|]. split; [exact (op_neg_nf anyq AC AC I c' (8 + (4 + m)) x r Fx E)|]. split.
    + intros rho P. destruct (c01_ops_plain c' HX' (8 + (4 + m)) rho x x r (NP x Fx) (NP x Fx) (NW rho x P Fx) (NW rho x P Fx)) as (_ & _ & V). rewrite <- Vx by auto. now apply V.
    + intros M. apply nt0_nsum'. refine (op_neg_nt anyq AC AC I c' (8 + (4 + m)) x r _ E). apply nform_nt0; auto.
  - destruct (IHa N) as (x & Ex & Fx & Vx & _). apply settle'. intros m d Hd. rewrite Ex by lia. cbn [bind].
    destruct (c70_diff_rational c (12 + m) d v x HX ltac:(lia) Hd (nform_poly anyq c' x Fx)) as (r & E & _ & V).
    exists r. split; [exact E|]. split; [refine (diff_nf anyq AC AC I (fun _ _ _ => I) nodom c' (4 + m) d v x r Fx E)|]. split; [|tauto].
    intros rho P. symmetry. replace (ev rho r) with (ev (upd rho v (rho v)) r) by now rewrite rho_upd. apply is_derive_unique.
    eapply is_derive_ext_loc; [|exact (V rho (rho v) (P v) P)].
    exists (mkposreal (rho v) (P v)). intros t Ht. cbn beta. apply Vx. apply pos_upd; auto.
    unfold ball in Ht. cbn in Ht. unfold AbsRing_ball, abs, minus, plus, opp in Ht. cbn in Ht. apply Rabs_def2 in Ht. lra.
Qed.
End Run.

(** ** The theorems *)
Section C80.
Context (c : cfg) (HX : fpow_exact (fpow c)).
Theorem c80_computes p : lallowed p -> exists e, lcomputes c p e /\ forall rho, (forall s, 0 < rho s) -> ev rho e = lval p rho.
Proof. intros A. destruct (lrun_total c HX p A) as (e & E & _ & V & _). eauto. Qed.
Theorem c80_equality p q e f : lallowed p -> lallowed q -> lcomputes c p e -> lcomputes c q f ->
  (eeqb e f = true <-> forall rho, (forall s, 0 < rho s) -> lval p rho = lval q rho).
Proof.
  intros Ap Aq Ce Cf. destruct (lrun_total c HX p Ap) as (e' & Ce' & Ne & Ve & _), (lrun_total c HX q Aq) as (f' & Cf' & Nf & Vf & _).
  assert (U : forall p e f, lcomputes c p e -> lcomputes c p f -> e = f).
  { intros p0 e0 f0 E F. specialize (E 12%nat 4%nat ltac:(lia) ltac:(lia)). rewrite (F 12%nat 4%nat ltac:(lia) ltac:(lia)) in E. now injection E. }
  rewrite <- (U p e e' Ce Ce') in *. rewrite <- (U q f f' Cf Cf') in *.
  rewrite c40_eq_is_identity by (apply plain_nofloat; eapply nform_plain'; eauto). split.
  - intros <- rho P. now rewrite <- Ve, <- Vf.
  - intros H. apply (nform_unique anyq (faithful c) HX); auto. intros rho P. rewrite Ve, Vf; auto.
Qed.
(** a sum commutes and associates, and derivatives are linear, whatever the exponents *)
Definition lconfirmed (p q : lexp) : Prop := exists e f, lcomputes c p e /\ lcomputes c q f /\ eeqb e f = true.
Lemma lconfirm p q : lallowed p -> lallowed q -> (forall rho, (forall s, 0 < rho s) -> lval p rho = lval q rho) -> lconfirmed p q.
Proof.
  intros Ap Aq H. destruct (c80_computes p Ap) as (e & Ce & _), (c80_computes q Aq) as (f & Cf & _). exists e, f. splits; auto. now apply (c80_equality p q).
Qed.
Theorem c80_laws a b d s p q : lallowed a -> lallowed b -> lallowed d -> ident s ->
  lconfirmed (LAdd a b) (LAdd b a) /\ lconfirmed (LAdd (LAdd a b) d) (LAdd a (LAdd b d)) /\ lconfirmed (LSub (LAdd a b) b) a /\ lconfirmed (LSub a a) (LNum 0) /\
  lconfirmed (LMul (LPow s p) (LPow s q)) (LPow s (p + q)) /\ lconfirmed (LDiff s (LPow s q)) (LMul (LNum q) (LPow s (q - 1))).
Proof.
  intros A B D Hs. splits; apply lconfirm; cbn [lallowed lmono]; auto; intros rho P; cbn [lval]; rewrite ?RMicromega.Q2R_0; try ring.
  - rewrite <- Rpower_plus. f_equal. now rewrite Qreals.Q2R_plus.
  - rewrite (Derive_ext _ (fun t => Rpower t (Q2R q))) by (intros t; unfold upd; now rewrite String.eqb_refl).
    apply is_derive_unique. apply is_derive_Reals. replace (Q2R (q - 1)) with (Q2R q - 1) by (rewrite Qreals.Q2R_minus, RMicromega.Q2R_1; reflexivity).
    now apply derivable_pt_lim_power.
Qed.
(** division undoes multiplication, and 1 / x ** q is x ** (-q) *)
Theorem c80_division a b s q : (lallowed a /\ lmono a) -> (lallowed b /\ lmono b /\ lnz b) -> ident s ->
  lconfirmed (LDiv (LMul a b) b) a /\ lconfirmed (LMul (LDiv a b) b) a /\ lconfirmed (LDiv b b) (LNum 1) /\ lconfirmed (LDiv (LNum 1) (LPow s q)) (LPow s (- q)).
Proof.
  intros A (B & Mb & Zb) Hs. splits; apply lconfirm; cbn [lallowed lmono lnz]; try tauto; intros rho P; cbn [lval]; rewrite ?RMicromega.Q2R_1.
  1-3: pose proof (lnz_val b rho P Mb Zb); now field.
  rewrite Qreals.Q2R_opp, Rpower_Ropp. unfold Rdiv. ring.
Qed.
(** the laws of integer powers, for monomials with nonzero coefficients *)
Theorem c80_powers a b z w : (lallowed a /\ lmono a /\ lnz a) -> (lallowed b /\ lmono b /\ lnz b) ->
  lconfirmed (LExp (LMul a b) z) (LMul (LExp a z) (LExp b z)) /\ lconfirmed (LMul (LExp a z) (LExp a w)) (LExp a (z + w)) /\
  lconfirmed (LExp (LExp a z) w) (LExp a (z * w)) /\ lconfirmed (LExp a (-1)) (LDiv (LNum 1) a).
Proof.
  intros (A & Ma & Za) (B & Mb & Zb). splits; apply lconfirm; cbn [lallowed lmono lnz]; try tauto; intros rho P; cbn [lval]; rewrite ?RMicromega.Q2R_1;
    pose proof (lnz_val a rho P Ma Za) as Ha; pose proof (lnz_val b rho P Mb Zb) as Hb.
  - apply powerRZ_mult.
  - symmetry. now apply powerRZ_add.
  - apply powerRZ_powerRZ.
  - cbn [powerRZ]. change (Pos.to_nat 1) with 1%nat. rewrite pow_1. unfold Rdiv. ring.
Qed.
End C80.

(** ** Example: d/dx (x^(3/2) y^(-1) - 2 / x) *)
Definition ex_l : lexp := LDiff "x" (LSub (LMul (LPow "x" (3 # 2)) (LPow "y" (-1))) (LDiv (LNum 2) (LPow "x" 1))).
Definition ex_l2 : lexp := LAdd (LMul (LNum 2) (LPow "x" (-2))) (LMul (LNum (3 # 2)) (LMul (LPow "y" (-1)) (LPow "x" (1 # 2)))).
Lemma c80_example : lallowed ex_l /\ lallowed ex_l2 /\ lrun (PF exact_cfg 12) 4 ex_l = lrun (PF exact_cfg 12) 4 ex_l2 /\
  lrun (PF exact_cfg 12) 4 ex_l = Ok (ESum [EProd [ERat (3 # 2); EPow (ESym "y") (ERat (-1)); EPow (ESym "x") (ERat (1 # 2))]; EProd [ERat 2; EPow (ESym "x") (ERat (-2))]]).
Proof.
  pose proof ident_x. pose proof ident_y. split; [cbn; repeat split; auto; discriminate|]. split; [cbn; tauto|]. split; vm_compute; reflexivity.
Qed.
(** (2 x^(1/2) / y)^(-2) = y^2 / (4 x) *)
Definition ex_p : lexp := LExp (LDiv (LMul (LNum 2) (LPow "x" (1 # 2))) (LPow "y" 1)) (-2).
Lemma c80_powers_example : lallowed ex_p /\ lmono ex_p /\ lnz ex_p /\
  lrun (PF exact_cfg 12) 4 ex_p = Ok (EProd [ERat (1 # 4); EPow (ESym "x") (ERat (-1)); EPow (ESym "y") (ERat 2)]).
Proof.
  pose proof ident_x. pose proof ident_y. split; [cbn; repeat split; auto; try (left; repeat split); discriminate|]. split; [cbn; tauto|].
  split; [cbn; repeat split; discriminate|]. vm_compute; reflexivity.
Qed.
