(** * PropsO: exact polynomial arithmetic (C77).

    A user's computation with polynomials is a [pexp]: numbers, symbols, +, -, unary -, * and ** with
    a natural exponent (each product and power expanded, [p.expand() if p.expandable() else p]), diff,
    substitution of monomials, integrate without and with bounds.  [pval] is what it means: a real
    function of the symbols, diff and integrate being the derivative and the integral of calculus.
    The library computes every such program to the end, the result has the value of the program, and
    Python's == on two results says whether the two programs are the same function. *)
From Coquelicot Require Import Coquelicot.
From Verif Require Import Base Expr Kernel Mono Sort Funcs Calc Expand Combi Sem RealLemmas Sound SoundPow Agree Oracle CalcSound Simp Table Search Frag FragNum FragLib
  PropsA PropsC PropsB PropsK FragInt PropsL CanonR PropsM NForm NUniq NOps NExp NInt.
Local Ltac splits := repeat match goal with |- _ /\ _ => split end.
Local Open Scope R_scope.

(** ** Specification *)
Inductive pexp :=
| PNum (q : Q) | PSym (s : string) | PAdd (a b : pexp) | PSub (a b : pexp) | PNeg (a : pexp)
| PMul (a b : pexp) | PPow (a : pexp) (k : nat) | PDiff (v : string) (a : pexp)
| PSubst (v : string) (b a : pexp) | PInt (v : string) (a : pexp) | PDef (v : string) (lo hi a : pexp).
(** what the program means *)
Fixpoint pval (p : pexp) (rho : env) : R :=
  match p with
  | PNum q => Q2R q
  | PSym s => rho s
  | PAdd a b => pval a rho + pval b rho
  | PSub a b => pval a rho - pval b rho
  | PNeg a => - pval a rho
  | PMul a b => pval a rho * pval b rho
  | PPow a k => pval a rho ^ k
  | PDiff v a => Derive (fun t => pval a (upd rho v t)) (rho v)
  | PSubst v b a => pval a (upd rho v (pval b rho))
  | PInt v a => RInt (fun t => pval a (upd rho v t)) 0 (rho v)
  | PDef v lo hi a => RInt (fun t => pval a (upd rho v t)) (pval lo rho) (pval hi rho)
  end.
(** how the library runs it; [nm], [bf] and [k] are the names, the strategy and the number of rounds of the search of integrate *)
Definition expanded (fk : fkern) (d : nat) (e : expr) : res expr :=
  b <- expandable fk e;; if b : bool then expandE fk d e else Ok e.
Definition got (o : option expr) : res expr := match o with Some r => Ok r | None => Raise NotImplementedError end.
Fixpoint prun (fk : fkern) (nm : nat -> string) (bf : bool) (k d : nat) (p : pexp) : res expr :=
  let run := prun fk nm bf k d in
  match p with
  | PNum q => Ok (rat q)
  | PSym s => Ok (ESym s)
  | PAdd a b => x <- run a;; y <- run b;; op_add fk x y
  | PSub a b => x <- run a;; y <- run b;; op_sub fk x y
  | PNeg a => x <- run a;; op_neg fk x
  | PMul a b => x <- run a;; y <- run b;; z <- op_mul fk x y;; expanded fk d z
  | PPow a j => x <- run a;; z <- op_pow fk x (ratz (Z.of_nat j));; expanded fk d z
  | PDiff v a => x <- run a;; diffE fk d v x
  | PSubst v b a => y <- run b;; x <- run a;; subs fk [(v, y)] x
  | PInt v a => x <- run a;; o <- integrate_api fk (fun _ _ => true) nm d bf k x (BVar v);; got o
  | PDef v lo hi a => l <- run lo;; h <- run hi;; x <- run a;; o <- integrate_api fk (fun _ _ => true) nm d bf k x (BTriple v l h);; got o
  end.
(** products of numbers and symbols *)
Fixpoint pmono (p : pexp) : Prop :=
  match p with
  | PNum _ | PSym _ => True
  | PMul a b => pmono a /\ pmono b
  | PNeg a | PPow a _ => pmono a
  | _ => False
  end.
(** the symbols' names are names (not empty, not a number, not "pi"/"e" or a function's name); only monomials are
    substituted and used as bounds *)
Fixpoint allowed (p : pexp) : Prop :=
  match p with
  | PNum _ => True | PSym s => ident s
  | PAdd a b | PSub a b | PMul a b => allowed a /\ allowed b
  | PNeg a | PPow a _ | PDiff _ a => allowed a
  | PSubst v b a => allowed b /\ pmono b /\ allowed a
  | PInt v a => ident v /\ allowed a
  | PDef v lo hi a => ident v /\ (allowed lo /\ pmono lo) /\ (allowed hi /\ pmono hi) /\ allowed a
  end.
(** the library's result: the same for every search strategy, and for every bound on the recursion from some on *)
Definition computes (c : cfg) (p : pexp) (e : expr) : Prop :=
  exists d0, forall m nm bf k d, (12 <= m)%nat -> (d0 <= d)%nat -> prun (PF c m) nm bf k d p = Ok e.

(** ** Proof *)
Section Run.
Context (c : cfg) (HX : fpow_exact (fpow c)).
Let c' := faithful c.
Let HX' : fpow_exact (fpow c') := HX.
Notation nform := (nform natq c'). Notation nt0 := (nt0 natq c').
Let NP := nform_plain c'. Let NW := nform_wd c'.
Lemma expanded_total n d e : mfx c' e -> (6 <= d)%nat ->
  exists r, expanded (PF c (8 + n)) d e = Ok r /\ nform r /\ (forall rho, ev rho r = ev rho e) /\ (nt0 e -> is_sum r = false).
Proof.
  intros [A H] Hd. assert (Hd' : (height e <= d)%nat) by lia.
  destruct (c71_expand c (8 + n) d e HX ltac:(lia) Hd' (nfx_factored c' e A)) as ((r & E & _ & _ & V) & _).
  exists r. splits; auto. { exact (expand_nf nodom c' n d e r A Hd' E). }
  intros N. pose proof (nt0_mono natq c' e N) as M. assert (X : expandable (PF c (8 + n)) e = Ok false) by exact (expandable_nmono nodom c' n e M). rewrite X in E. cbn [bind] in E. injection E as <-.
  destruct M as [t [a []|]|]; reflexivity.
Qed.
Lemma pow_K n a q : natq q -> op_pow (PF c (8 + n)) a (ERat q) = op_pow (K c' (8 + n)) a (ERat q).
Proof.
  intros Nq. assert (G : k_pow (PF c (8 + n)) a (ERat q) = k_pow (K c' (8 + n)) a (ERat q)).
  { unfold PF. rewrite fk_pow. rewrite (pow_always_nat a q Nq). reflexivity. }
  unfold op_pow. destruct a; auto. destruct (qis0 q0 && qlt0 q); auto. destruct (qisint q); auto.
Qed.
Lemma natq_nat k : natq (inject_Z (Z.of_nat k)).
Proof. split; [apply qisint_inject|]. unfold Qle. cbn. lia. Qed.
(** whatever computes the normal form of a given function computes the same expression *)
Lemma settle (run : nat -> (nat -> string) -> bool -> nat -> nat -> res expr) (V : env -> R) (Q : expr -> Prop) d0 :
  (forall m nm bf k d, (d0 <= d)%nat -> exists e, run (12 + m)%nat nm bf k d = Ok e /\ nform e /\ (forall rho, ev rho e = V rho) /\ Q e) ->
  exists e, (exists d0, forall m nm bf k d, (12 <= m)%nat -> (d0 <= d)%nat -> run m nm bf k d = Ok e) /\ nform e /\ (forall rho, ev rho e = V rho) /\ Q e.
Proof.
  intros H. destruct (H 0%nat (fun _ => ""%string) true 0%nat d0 (Nat.le_refl _)) as (e & _ & N & Ve & Qe). exists e. splits; auto.
  exists d0. intros m nm bf k d Hm Hd. destruct (H (m - 12)%nat nm bf k d Hd) as (r & E & N' & Vr & _). replace (12 + (m - 12))%nat with m in E by lia.
  rewrite E. f_equal. apply (nform_unique natq c' HX'); auto. intros rho _. now rewrite Ve, Vr.
Qed.
Lemma nsum_nt0 e : nform e -> is_sum e = false -> nt0 e.
Proof. apply nform_nt0. Qed.
Lemma nt0_nsum e : nt0 e -> is_sum e = false.
Proof. intros N. pose proof (nt0_mono natq c' e N) as M. destruct M as [t [a []|]|]; reflexivity. Qed.
Lemma op_add_total n x y : nform x -> nform y -> exists r, op_add (PF c (8 + n)) x y = Ok r /\ nform r /\ forall rho, ev rho r = ev rho x + ev rho y.
Proof.
  intros Fx Fy. assert (G : exists r, op_add (K c' (8 + n)) x y = Ok r).
  { destruct (k_sum_total natq c' n [x; y]) as (r & E & _); [auto|]. unfold op_add. destruct x, y; try (exists r; exact E). eexists; reflexivity. }
  destruct G as (r & E). exists r. split; [exact E|]. split; [exact (op_add_nf natq c' (8 + n) x y r Fx Fy E)|].
  intros rho. destruct (c01_ops_plain c' HX' (8 + n) rho x y r (NP x Fx) (NP y Fy) (NW rho x Fx) (NW rho y Fy)) as (V & _). now apply V.
Qed.
Lemma op_sub_total n x y : nform x -> nform y -> exists r, op_sub (PF c (9 + n)) x y = Ok r /\ nform r /\ forall rho, ev rho r = ev rho x - ev rho y.
Proof.
  intros Fx Fy. destruct (op_sub_poly natq natq_qeq natq_add one_natq c' n x y (nform_poly natq c' x Fx) (nform_poly natq c' y Fy)) as (r & E & _).
  exists r. split; [exact E|]. split; [exact (op_sub_nf natq natq_qeq natq_add one_natq c' (9 + n) x y r Fx Fy E)|].
  intros rho. destruct (c01_ops_plain c' HX' (9 + n) rho x y r (NP x Fx) (NP y Fy) (NW rho x Fx) (NW rho y Fy)) as (_ & V & _). now apply V.
Qed.
Lemma op_neg_total n x : nform x -> exists r, op_neg (PF c (8 + n)) x = Ok r /\ nform r /\ (forall rho, ev rho r = - ev rho x) /\ (nt0 x -> is_sum r = false).
Proof.
  intros Fx. destruct (op_neg_poly natq natq_qeq natq_add one_natq c' n x (nform_poly natq c' x Fx)) as (r & E & _).
  exists r. split; [exact E|]. split; [exact (op_neg_nf natq natq_qeq natq_add one_natq c' (8 + n) x r Fx E)|]. split.
  - intros rho. destruct (c01_ops_plain c' HX' (8 + n) rho x x r (NP x Fx) (NP x Fx) (NW rho x Fx) (NW rho x Fx)) as (_ & _ & V). now apply V.
  - intros N. apply nt0_nsum. exact (op_neg_nt natq natq_qeq natq_add one_natq c' (8 + n) x r N E).
Qed.
Lemma mul_total n d x y : nform x -> nform y -> (6 <= d)%nat ->
  exists r, (z <- op_mul (PF c (12 + n)) x y;; expanded (PF c (12 + n)) d z) = Ok r /\ nform r /\ (forall rho, ev rho r = ev rho x * ev rho y) /\ (nt0 x -> nt0 y -> is_sum r = false).
Proof.
  intros Fx Fy Hd. destruct (op_mul_total c' HX' n x y Fx Fy) as (z & Ez & Mz).
  assert (Ez' : op_mul (PF c (12 + n)) x y = Ok z) by exact Ez. rewrite Ez'. cbn [bind].
  destruct (expanded_total (4 + n) d z Mz Hd) as (r & E & Fr & Vr & S). exists r. split; [exact E|]. splits; auto.
  - intros rho. rewrite Vr. destruct (c02_ops_plain c' HX' (12 + n) rho x y z (NP x Fx) (NP y Fy) (NW rho x Fx) (NW rho y Fy)) as (V & _). now apply V.
  - intros Nx Ny. apply S. exact (op_mul_nt natq natq_qeq natq_add one_natq c' (12 + n) x y z Nx Ny Ez).
Qed.
Lemma pow_total n d x j : nform x -> (6 <= d)%nat ->
  exists r, (z <- op_pow (PF c (12 + n)) x (ratz (Z.of_nat j));; expanded (PF c (12 + n)) d z) = Ok r /\ nform r /\ (forall rho, ev rho r = ev rho x ^ j) /\ (nt0 x -> is_sum r = false).
Proof.
  intros Fx Hd. unfold ratz. assert (Lk : lowest (inject_Z (Z.of_nat j))) by apply lowest_z.
  destruct (op_pow_total c' HX' (1 + n) x _ Fx (natq_nat j) Lk) as (z & Ez & Mz).
  change (11 + (1 + n))%nat with (8 + (4 + n))%nat in Ez. change (12 + n)%nat with (8 + (4 + n))%nat.
  rewrite (pow_K (4 + n) x _ (natq_nat j)), Ez. cbn [bind].
  destruct (expanded_total (4 + n) d z Mz Hd) as (r & E & Fr & Vr & S). exists r. split; [exact E|]. splits; auto.
  - intros rho. rewrite Vr. destruct (c03_int_power c' HX' (8 + (4 + n)) rho x (Z.of_nat j) z (NP x Fx) (NW rho x Fx)) as (_ & V); [right; lia|exact Ez|].
    rewrite V, rpow_int by (right; lia). rewrite <- pow_powerRZ. reflexivity.
  - intros Nx. apply S. revert Ez. unfold op_pow. assert (G : k_pow (K c' (8 + (4 + n))) x (ERat (inject_Z (Z.of_nat j))) = Ok z -> nt0 z).
    { intros G. exact (k_pow_nt c' _ x _ z (natq_nat j) Lk Nx G). }
    destruct x; auto. destruct (qis0 q && qlt0 (inject_Z (Z.of_nat j))); [discriminate|]. destruct (qisint (inject_Z (Z.of_nat j))); auto.
    intros Ez. injection Ez as <-. apply nt0_rat, lowest_red.
Qed.
Lemma diff_total n d v x : nform x -> (4 <= d)%nat ->
  exists r, diffE (PF c (8 + n)) d v x = Ok r /\ nform r /\ forall rho, ev rho r = Derive (fun t => ev (upd rho v t) x) (rho v).
Proof.
  intros Fx Hd. destruct (c70_diff c (8 + n) d v x HX ltac:(lia) Hd (nform_poly natq c' x Fx)) as (r & E & _ & V).
  exists r. split; [exact E|]. split.
  - refine (diff_nf natq natq_qeq natq_add one_natq natq_pred nodom c' n d v x r Fx E).
  - intros rho. symmetry. replace (ev rho r) with (ev (upd rho v (rho v)) r) by now rewrite rho_upd. apply is_derive_unique, V.
Qed.
Lemma subs_total n v y x : nt0 y -> nform x ->
  exists r, subs (PF c (8 + n)) [(v, y)] x = Ok r /\ nform r /\ forall rho, ev rho r = ev (upd rho v (ev rho y)) x.
Proof.
  intros Ny Fx. destruct (c73_subs c (8 + n) [(v, y)] x HX ltac:(lia)) as (r & E & _ & V); [|exact (nform_poly natq c' x Fx)|].
  - intros s t. cbn [assoc]. destruct (String.eqb v s); [|discriminate]. intros H. injection H as <-. exact (nt0_mono natq c' y Ny).
  - exists r. split; [exact E|]. split.
    + refine (subs_nf nodom c' n [(v, y)] _ x r Fx E). intros s t. cbn [assoc]. destruct (String.eqb v s); [|discriminate]. intros H. now injection H as <-.
    + intros rho. rewrite V. f_equal. apply FunctionalExtensionality.functional_extensionality. intros s. unfold upds, upd. cbn [assoc].
      rewrite (String.eqb_sym s v). now destruct (String.eqb v s).
Qed.
Lemma poly_cont rho v x : nform x -> forall t, continuous (fun s => ev (upd rho v s) x) t.
Proof.
  intros Fx t. destruct (c70_diff c 8 4 v x HX ltac:(lia) ltac:(lia) (nform_poly natq c' x Fx)) as (r & _ & _ & V).
  apply (ex_derive_continuous (fun s => ev (upd rho v s) x)). eexists. apply V.
Qed.
Lemma int_total n d v nm bf k x fin : ident v -> nform x -> (factors x <= d)%nat ->
  exists r, integrate (PF c (8 + n)) (fun _ _ => true) nm d bf k fin x v = Ok (Some r) /\ nform r /\
    forall rho, ev rho r = RInt (fun t => ev (upd rho v t) x) 0 (rho v).
Proof.
  intros Hv Fx Hd. destruct (integrate_nf nodom (fun _ _ => true) nm c' HX' n d v Hv bf k fin x Fx Hd) as (r & E & Fr & Zr).
  destruct (c72_integrate c (8 + n) d v nm bf k fin x HX ltac:(lia) ltac:(apply Hv) (nform_poly natq c' x Fx) Hd) as (r' & E' & _ & _ & V).
  assert (R : r' = r). { assert (Q := eq_trans (eq_sym E') E). now injection Q. } subst r'.
  exists r. split; [exact E|]. split; [exact Fr|]. intros rho. symmetry. apply is_RInt_unique.
  assert (G : is_RInt (fun t => ev (upd rho v t) x) 0 (rho v) (minus (ev (upd rho v (rho v)) r) (ev (upd rho v 0) r))).
  { apply (is_RInt_derive (fun t => ev (upd rho v t) r)); intros t _; [apply V|now apply poly_cont]. }
  rewrite rho_upd, (Zr rho) in G. unfold minus, plus, opp in G. cbn in G. now replace (ev rho r + - 0) with (ev rho r) in G by ring.
Qed.
Lemma def_total n d v nm bf k x lo hi : ident v -> nform x -> (factors x <= d)%nat -> nt0 lo -> nt0 hi ->
  exists r, integrate_bounds (PF c (9 + n)) (fun _ _ => true) nm d bf k x v lo hi = Ok (Some r) /\ nform r /\
    forall rho, ev rho r = RInt (fun t => ev (upd rho v t) x) (ev rho lo) (ev rho hi).
Proof.
  intros Hv Fx Hd Nl Nh.
  destruct (c74_definite c (9 + n) d v nm bf k x lo hi HX ltac:(lia) ltac:(apply Hv) (nform_poly natq c' x Fx) Hd (nt0_mono natq c' _ Nl) (nt0_mono natq c' _ Nh)) as (r & E & _ & V).
  exists r. split; [exact E|]. split; [|intros rho; symmetry; apply is_RInt_unique, V].
  unfold integrate_bounds in E. destruct (int_total (1 + n) d v nm bf k x false Hv Fx Hd) as (F0 & EF & FF & _). change (8 + (1 + n))%nat with (9 + n)%nat in EF.
  rewrite EF in E. cbn [bind] in E.
  destruct (subs_total (1 + n) v hi F0 Nh FF) as (fb & Eb & Fb & _). destruct (subs_total (1 + n) v lo F0 Nl FF) as (fa & Ea & Fa & _).
  change (8 + (1 + n))%nat with (9 + n)%nat in Eb, Ea. rewrite Eb, Ea in E. cbn [bind] in E.
  destruct (op_sub_total n fb fa Fb Fa) as (t & Et & Ft & _). rewrite Et in E. cbn [bind] in E.
  pose proof (simplify_npoly nodom c' (1 + n) d t (nform_poly natq c' t Ft)) as Es. assert (Es' : simplifyE (PF c (9 + n)) d t = Ok t) by exact Es. rewrite Es' in E. cbn [bind] in E. injection E as <-. exact Ft.
Qed.

Theorem prun_total p : allowed p ->
  exists e, computes c p e /\ nform e /\ (forall rho, ev rho e = pval p rho) /\ (pmono p -> is_sum e = false).
Proof.
  unfold computes.
  induction p as [q|s|a IHa b IHb|a IHa b IHb|a IHa|a IHa b IHb|a IHa j|v a IHa|v b IHb a IHa|v a IHa|v lo IHl hi IHh a IHa]; cbn [allowed prun pval pmono]; intros N.
  - exists (rat q). splits; auto; [exists 0%nat; auto|apply nform_rat, lowest_red|]. intros rho. cbn [ev rat]. apply Qreals.Qeq_eqR, Qred_correct.
  - exists (ESym s). splits; auto; [exists 0%nat; auto|now apply nform_sym].
  - destruct N as [Na Nb]. destruct (IHa Na) as (x & (d1 & Ex) & Fx & Vx & _), (IHb Nb) as (y & (d2 & Ey) & Fy & Vy & _).
    apply (settle _ _ _ (d1 + d2)). intros m nm bf k d Hd. rewrite Ex, Ey by lia. cbn [bind].
    destruct (op_add_total (4 + m) x y Fx Fy) as (r & E & Fr & Vr). exists r. splits; auto; [|tauto]. intros rho. now rewrite Vr, Vx, Vy.
  - destruct N as [Na Nb]. destruct (IHa Na) as (x & (d1 & Ex) & Fx & Vx & _), (IHb Nb) as (y & (d2 & Ey) & Fy & Vy & _).
    apply (settle _ _ _ (d1 + d2)). intros m nm bf k d Hd. rewrite Ex, Ey by lia. cbn [bind].
    destruct (op_sub_total (3 + m) x y Fx Fy) as (r & E & Fr & Vr). exists r. splits; auto; [|tauto]. intros rho. now rewrite Vr, Vx, Vy.
  - destruct (IHa N) as (x & (d1 & Ex) & Fx & Vx & Sx).
    apply (settle _ _ _ d1). intros m nm bf k d Hd. rewrite Ex by lia. cbn [bind].
    destruct (op_neg_total (4 + m) x Fx) as (r & E & Fr & Vr & S). exists r. splits; auto; [intros rho; now rewrite Vr, Vx|]. intros Pm. apply S, nsum_nt0; auto.
  - destruct N as [Na Nb]. destruct (IHa Na) as (x & (d1 & Ex) & Fx & Vx & Sx), (IHb Nb) as (y & (d2 & Ey) & Fy & Vy & Sy).
    apply (settle _ _ _ (6 + d1 + d2)). intros m nm bf k d Hd. rewrite Ex, Ey by lia. cbn [bind].
    destruct (mul_total m d x y Fx Fy ltac:(lia)) as (r & E & Fr & Vr & S). exists r. splits; auto; [intros rho; now rewrite Vr, Vx, Vy|].
    intros [Pa Pb]. apply S; apply nsum_nt0; auto.
  - destruct (IHa N) as (x & (d1 & Ex) & Fx & Vx & Sx).
    apply (settle _ _ _ (6 + d1)). intros m nm bf k d Hd. rewrite Ex by lia. cbn [bind].
    destruct (pow_total m d x j Fx ltac:(lia)) as (r & E & Fr & Vr & S). exists r. splits; auto; [intros rho; now rewrite Vr, Vx|].
    intros Pa. apply S, nsum_nt0; auto.
  - destruct (IHa N) as (x & (d1 & Ex) & Fx & Vx & _).
    apply (settle _ _ _ (4 + d1)). intros m nm bf k d Hd. rewrite Ex by lia. cbn [bind].
    destruct (diff_total (4 + m) d v x Fx ltac:(lia)) as (r & E & Fr & Vr). exists r. splits; auto; [|tauto].
    intros rho. rewrite Vr. apply Derive_ext. intros t. apply Vx.
  - destruct N as (Nb & Pb & Na). destruct (IHa Na) as (x & (d1 & Ex) & Fx & Vx & _), (IHb Nb) as (y & (d2 & Ey) & Fy & Vy & Sy).
    apply (settle _ _ _ (d1 + d2)). intros m nm bf k d Hd. rewrite Ex, Ey by lia. cbn [bind].
    destruct (subs_total (4 + m) v y x (nsum_nt0 y Fy (Sy Pb)) Fx) as (r & E & Fr & Vr). exists r. splits; auto; [|tauto].
    intros rho. now rewrite Vr, Vx, Vy.
  - destruct N as (Hv & Na). destruct (IHa Na) as (x & (d1 & Ex) & Fx & Vx & _).
    apply (settle _ _ _ (factors x + d1)). intros m nm bf k d Hd. rewrite Ex by lia. cbn [bind]. unfold integrate_api.
    destruct (int_total (4 + m) d v nm bf k x true Hv Fx ltac:(lia)) as (r & E & Fr & Vr). exists r.
    change (8 + (4 + m))%nat with (12 + m)%nat in E. rewrite E. cbn [bind got]. splits; auto; [|tauto].
    intros rho. rewrite Vr. apply RInt_ext. intros t _. apply Vx.
  - destruct N as (Hv & (Nl & Pl) & (Nh & Ph) & Na).
    destruct (IHl Nl) as (l & (d1 & El) & Fl & Vl & Sl), (IHh Nh) as (h & (d2 & Eh) & Fh & Vh & Sh), (IHa Na) as (x & (d3 & Ex) & Fx & Vx & _).
    apply (settle _ _ _ (factors x + d1 + d2 + d3)). intros m nm bf k d Hd. rewrite El, Eh, Ex by lia. cbn [bind]. unfold integrate_api.
    destruct (def_total (3 + m) d v nm bf k x l h Hv Fx ltac:(lia) (nsum_nt0 l Fl (Sl Pl)) (nsum_nt0 h Fh (Sh Ph))) as (r & E & Fr & Vr). exists r.
    change (9 + (3 + m))%nat with (12 + m)%nat in E. rewrite E. cbn [bind got]. splits; auto; [|tauto].
    intros rho. rewrite Vr, Vl, Vh. apply RInt_ext. intros t _. apply Vx.
Qed.
End Run.

(** ** The theorems *)
Section C77.
Context (c : cfg) (HX : fpow_exact (fpow c)).
(** every program is computed to the end, and exactly *)
Theorem c77_computes p : allowed p -> exists e, computes c p e /\ forall rho, ev rho e = pval p rho.
Proof. intros A. destruct (prun_total c HX p A) as (e & E & _ & V & _). eauto. Qed.
Lemma computes_unique p e f : computes c p e -> computes c p f -> e = f.
Proof.
  intros (d1 & E1) (d2 & E2). specialize (E1 12%nat (fun _ => ""%string) true 0%nat (d1 + d2)%nat ltac:(lia) ltac:(lia)).
  rewrite (E2 12%nat (fun _ => ""%string) true 0%nat (d1 + d2)%nat ltac:(lia) ltac:(lia)) in E1. now injection E1.
Qed.
(** == on the results decides whether two programs are the same function *)
Theorem c77_equality p q e f : allowed p -> allowed q -> computes c p e -> computes c q f ->
  (eeqb e f = true <-> forall rho, pval p rho = pval q rho).
Proof.
  intros Ap Aq Ce Cf. destruct (prun_total c HX p Ap) as (e' & Ce' & Ne & Ve & _), (prun_total c HX q Aq) as (f' & Cf' & Nf & Vf & _).
  rewrite <- (computes_unique p e e' Ce Ce') in *. rewrite <- (computes_unique q f f' Cf Cf') in *.
  rewrite c40_eq_is_identity by (apply plain_nofloat; eapply nform_plain; eauto). split.
  - intros <- rho. now rewrite <- Ve, <- Vf.
  - intros H. apply (nform_unique natq (faithful c) HX); auto. intros rho _. now rewrite Ve, Vf.
Qed.
(** which is settled by the points with positive coordinates *)
Theorem c77_positive p q e f : allowed p -> allowed q -> computes c p e -> computes c q f ->
  (eeqb e f = true <-> forall rho, (forall s, 0 < rho s) -> pval p rho = pval q rho).
Proof.
  intros Ap Aq Ce Cf. split; [intros H rho _; now apply (c77_equality p q e f)|].
  intros H. destruct (prun_total c HX p Ap) as (e' & Ce' & Ne & Ve & _), (prun_total c HX q Aq) as (f' & Cf' & Nf & Vf & _).
  rewrite <- (computes_unique p e e' Ce Ce') in *. rewrite <- (computes_unique q f f' Cf Cf') in *.
  rewrite c40_eq_is_identity by (apply plain_nofloat; eapply nform_plain; eauto).
  apply (nform_unique natq (faithful c) HX); auto. intros rho P. rewrite Ve, Vf. auto.
Qed.

(** *** Laws that == confirms *)
Definition confirmed (p q : pexp) : Prop := exists e f, computes c p e /\ computes c q f /\ eeqb e f = true.
Lemma confirm p q : allowed p -> allowed q -> (forall rho, pval p rho = pval q rho) -> confirmed p q.
Proof.
  intros Ap Aq H. destruct (c77_computes p Ap) as (e & Ce & _), (c77_computes q Aq) as (f & Cf & _). exists e, f. splits; auto. now apply (c77_equality p q).
Qed.
Theorem c77_ring a b d : allowed a -> allowed b -> allowed d ->
  confirmed (PAdd a b) (PAdd b a) /\ confirmed (PAdd (PAdd a b) d) (PAdd a (PAdd b d)) /\
  confirmed (PMul a b) (PMul b a) /\ confirmed (PMul (PMul a b) d) (PMul a (PMul b d)) /\
  confirmed (PMul a (PAdd b d)) (PAdd (PMul a b) (PMul a d)) /\
  confirmed (PSub a a) (PNum 0) /\ confirmed (PSub a b) (PAdd a (PNeg b)) /\ confirmed (PMul a (PNum 1)) a /\ confirmed (PAdd a (PNum 0)) a.
Proof.
  intros A B D. splits; apply confirm; cbn [allowed]; auto; intros rho; cbn [pval]; rewrite ?RMicromega.Q2R_0, ?RMicromega.Q2R_1; ring.
Qed.
Theorem c77_powers a b j k : allowed a -> allowed b ->
  confirmed (PMul (PPow a j) (PPow a k)) (PPow a (j + k)) /\ confirmed (PPow (PPow a j) k) (PPow a (j * k)) /\
  confirmed (PPow (PMul a b) k) (PMul (PPow a k) (PPow b k)) /\
  confirmed (PPow (PAdd a b) 2) (PAdd (PPow a 2) (PAdd (PMul (PNum 2) (PMul a b)) (PPow b 2))).
Proof.
  intros A B. splits; apply confirm; cbn [allowed]; auto; intros rho; cbn [pval].
  - symmetry. apply pow_add.
  - symmetry. apply pow_mult.
  - apply Rpow_mult_distr.
  - replace (Q2R 2) with 2 by (unfold Q2R; cbn; field). ring.
Qed.

(** calculus *)
Lemma pval_smooth p : allowed p -> forall v rho t, ex_derive (fun s => pval p (upd rho v s)) t.
Proof.
  intros A v rho t. destruct (prun_total c HX p A) as (e & _ & N & V & _).
  destruct (c70_diff c 8 4 v e HX ltac:(lia) ltac:(lia) (nform_poly natq (faithful c) e N)) as (r & _ & _ & D).
  eapply ex_derive_ext; [|eexists; apply (D rho t)]. intros s. apply V.
Qed.
Lemma pval_cont p : allowed p -> forall v rho t, continuous (fun s => pval p (upd rho v s)) t.
Proof. intros A v rho t. now apply (ex_derive_continuous (fun s => pval p (upd rho v s))), pval_smooth. Qed.
Lemma pval_int p : allowed p -> forall v rho a b, ex_RInt (fun s => pval p (upd rho v s)) a b.
Proof. intros A v rho a b. apply (ex_RInt_continuous (fun s => pval p (upd rho v s))). intros t _. now apply pval_cont. Qed.
Lemma upd2 rho v s t : upd (upd rho v s) v t = upd rho v t.
Proof. apply FunctionalExtensionality.functional_extensionality. intros x. unfold upd. now destruct (String.eqb x v). Qed.
Lemma upd_here rho v t : upd rho v t v = t.
Proof. unfold upd. now rewrite String.eqb_refl. Qed.
Theorem c77_diff_rules v a b q : allowed a -> allowed b ->
  confirmed (PDiff v (PAdd a b)) (PAdd (PDiff v a) (PDiff v b)) /\
  confirmed (PDiff v (PMul (PNum q) a)) (PMul (PNum q) (PDiff v a)) /\
  confirmed (PDiff v (PMul a b)) (PAdd (PMul (PDiff v a) b) (PMul a (PDiff v b))).
Proof.
  intros A B. pose proof (pval_smooth a A) as Sa. pose proof (pval_smooth b B) as Sb. splits; apply confirm; cbn [allowed]; auto; intros rho; cbn [pval].
  - rewrite (Derive_plus (fun t => pval a (upd rho v t)) (fun t => pval b (upd rho v t))); auto.
  - apply (Derive_scal (fun t => pval a (upd rho v t))).
  - rewrite (Derive_mult (fun t => pval a (upd rho v t)) (fun t => pval b (upd rho v t))); auto. now rewrite rho_upd.
Qed.
(** the fundamental theorem, both ways, and the integral over two adjacent intervals *)
Theorem c77_fundamental v a : ident v -> allowed a ->
  confirmed (PDiff v (PInt v a)) a /\ confirmed (PInt v (PDiff v a)) (PSub a (PSubst v (PNum 0) a)).
Proof.
  intros Hv A. split; apply confirm; cbn [allowed pmono]; auto; intros rho; cbn [pval].
  - rewrite (Derive_ext _ (RInt (fun s => pval a (upd rho v s)) 0)).
    + rewrite (Derive_RInt (fun s => pval a (upd rho v s)) 0 (rho v)); [now rewrite rho_upd| |].
      * exists (mkposreal 1 Rlt_0_1). intros y _. now apply pval_int.
      * now apply pval_cont.
    + intros t. rewrite upd_here. apply RInt_ext. intros s _. now rewrite upd2.
  - apply is_RInt_unique. destruct (prun_total c HX a A) as (e & _ & N & V & _).
    destruct (c70_diff c 8 4 v e HX ltac:(lia) ltac:(lia) (nform_poly natq (faithful c) e N)) as (r & Er & _ & D).
    assert (Nr : nform natq (faithful c) r) by (refine (diff_nf natq natq_qeq natq_add one_natq natq_pred nodom (faithful c) 0 4 v e r N Er)).
    assert (G : is_RInt (fun t => ev (upd rho v t) r) 0 (rho v) (minus (ev (upd rho v (rho v)) e) (ev (upd rho v 0) e))).
    { apply (is_RInt_derive (fun t => ev (upd rho v t) e)); intros t _; [apply D|now apply (poly_cont c HX)]. }
    rewrite rho_upd, !V in G. unfold minus, plus, opp in G. cbn in G. rewrite RMicromega.Q2R_0.
    eapply is_RInt_ext; [|exact G]. intros t _. cbn beta. symmetry. apply is_derive_unique. rewrite upd_here.
    eapply is_derive_ext; [|exact (D rho t)]. intros s. cbn beta. rewrite upd2. apply V.
Qed.
Theorem c77_definite v a lo mid hi : ident v -> allowed a -> allowed lo -> pmono lo -> allowed mid -> pmono mid -> allowed hi -> pmono hi ->
  confirmed (PDef v lo hi a) (PSub (PSubst v hi (PInt v a)) (PSubst v lo (PInt v a))) /\
  confirmed (PAdd (PDef v lo mid a) (PDef v mid hi a)) (PDef v lo hi a).
Proof.
  intros Hv A L L' M M' H H'. split; apply confirm; cbn [allowed]; auto; try tauto; intros rho; cbn [pval].
  - rewrite !upd_here. assert (E : forall x y, RInt (fun t => pval a (upd (upd rho v x) v t)) 0 y = RInt (fun t => pval a (upd rho v t)) 0 y).
    { intros x y. apply RInt_ext. intros s _. now rewrite upd2. }
    rewrite !E. rewrite <- (RInt_Chasles (fun t => pval a (upd rho v t)) 0 (pval lo rho) (pval hi rho)) by now apply pval_int.
    unfold plus. cbn. ring.
  - apply (RInt_Chasles (fun t => pval a (upd rho v t))); now apply pval_int.
Qed.
(** mixed derivatives commute *)
Lemma pow_cont2 (f : R -> R -> R) x y k : continuity_2d_pt f x y -> continuity_2d_pt (fun u v => f u v ^ k) x y.
Proof. intros H. induction k as [|k IH]; cbn; [apply continuity_2d_pt_const|now apply (continuity_2d_pt_mult f (fun u v => f u v ^ k))]. Qed.
Lemma poly_cont2 rho v w e x y : poly natq e -> continuity_2d_pt (fun s t => ev (upd (upd rho v s) w t) e) x y.
Proof.
  assert (Sc : forall s, continuity_2d_pt (fun a b => ev (upd (upd rho v a) w b) (ESym s)) x y).
  { intros s. cbn [ev]. unfold upd. destruct (String.eqb s w); [apply continuity_2d_pt_id2|]. destruct (String.eqb s v); [apply continuity_2d_pt_id1|apply continuity_2d_pt_const]. }
  assert (Fc : forall t, fac natq t -> continuity_2d_pt (fun a b => ev (upd (upd rho v a) w b) t) x y).
  { intros t [a [s Hs|s q Hs [A B] H0]|q]; [apply Sc| |cbn [ev]; apply continuity_2d_pt_const].
    pose proof (qisint_Q2R q A) as Zq. pose proof (qisint_eq q A) as Ez.
    apply (continuity_2d_pt_ext (fun a b => (ev (upd (upd rho v a) w b) (ESym s)) ^ Z.to_nat (numer q))); [|apply pow_cont2, Sc].
    intros u z. cbn [ev]. rewrite Zq. assert (P : (0 <= numer q)%Z) by (rewrite Ez in B; unfold Qle in B; cbn in B; lia).
    rewrite rpow_int by (right; exact P). rewrite <- (Z2Nat.id (numer q) P) at 2. now rewrite <- pow_powerRZ. }
  assert (Mc : forall t, mono natq t -> continuity_2d_pt (fun a b => ev (upd (upd rho v a) w b) t) x y).
  { intros t [a A|ts L Fs R0 N]; [auto|]. cbn [ev]. clear L R0 N. induction Fs as [|a l A Fs IH]; [cbn; apply continuity_2d_pt_const|].
    apply (continuity_2d_pt_mult (fun u t => ev (upd (upd rho v u) w t) a)); auto. }
  intros [t M|ts L Fs]; [auto|]. cbn [ev]. clear L. induction Fs as [|a l A Fs IH]; [cbn; apply continuity_2d_pt_const|].
  apply (continuity_2d_pt_plus (fun u t => ev (upd (upd rho v u) w t) a)); auto.
Qed.
Lemma upd_swap rho v w a b : v <> w -> upd (upd rho v a) w b = upd (upd rho w b) v a.
Proof.
  intros N. apply FunctionalExtensionality.functional_extensionality. intros s. unfold upd. destruct (String.eqb s w) eqn:E; auto.
  apply String.eqb_eq in E. subst s. destruct (String.eqb w v) eqn:E'; auto. apply String.eqb_eq in E'. congruence.
Qed.
Theorem c77_mixed v w a : allowed a -> confirmed (PDiff v (PDiff w a)) (PDiff w (PDiff v a)).
Proof.
  intros A. apply confirm; cbn [allowed]; auto. intros rho. cbn [pval]. destruct (String.eqb v w) eqn:Evw; [apply String.eqb_eq in Evw; now subst|].
  assert (N : v <> w) by (intros ->; rewrite String.eqb_refl in Evw; discriminate).
  set (f := fun u t => pval a (upd (upd rho v u) w t)).
  assert (E1 : forall u, upd rho v u w = rho w) by (intros u; unfold upd; now rewrite (String.eqb_sym w v), Evw).
  assert (E2 : forall u, upd rho w u v = rho v) by (intros u; unfold upd; now rewrite Evw).
  rewrite (Derive_ext _ (fun u => Derive (fun t => f u t) (rho w))) by (intros u; now rewrite E1).
  rewrite (Derive_ext (fun t => Derive _ (upd rho w t v)) (fun t => Derive (fun u => f u t) (rho v))).
  2:{ intros t. rewrite E2. apply Derive_ext. intros u. unfold f. now rewrite upd_swap by auto. }
  assert (Pd : forall x p, allowed p -> exists r, allowed (PDiff x p) /\ poly natq r /\ forall g, ev g r = Derive (fun t => pval p (upd g x t)) (g x)).
  { intros x p Ap. destruct (prun_total c HX (PDiff x p) Ap) as (r & _ & Nr & Vr & _). exists r. splits; auto. exact (nform_poly natq _ r Nr). }
  assert (Dt : forall u t, Derive (fun t => f u t) t = pval (PDiff w a) (upd (upd rho v u) w t)).
  { intros u t. cbn [pval]. rewrite upd_here. apply Derive_ext. intros s. unfold f. now rewrite upd2. }
  assert (Du : forall u t, Derive (fun u => f u t) u = pval (PDiff v a) (upd (upd rho v u) w t)).
  { intros u t. rewrite upd_swap by auto. cbn [pval]. rewrite upd_here. apply Derive_ext. intros s. unfold f. now rewrite upd2, upd_swap by auto. }
  assert (Sv : forall p, allowed p -> forall u t, ex_derive (fun u => pval p (upd (upd rho v u) w t)) u).
  { intros p Ap u t. eapply ex_derive_ext; [|exact (pval_smooth p Ap v (upd rho w t) u)]. intros s. cbn beta. now rewrite upd_swap by auto. }
  apply (Schwarz f (rho v) (rho w)).
  - apply locally_2d_forall. intros u t. splits.
    + now apply Sv.
    + apply (pval_smooth a A w (upd rho v u) t).
    + apply (ex_derive_ext (fun u => pval (PDiff w a) (upd (upd rho v u) w t))); [intros z; now rewrite Dt|]. now apply (Sv (PDiff w a)).
    + apply (ex_derive_ext (fun t => pval (PDiff v a) (upd (upd rho v u) w t))); [intros z; now rewrite Du|]. now apply (pval_smooth (PDiff v a) A).
  - destruct (Pd v (PDiff w a) A) as (r & _ & Pr & Vr). apply (continuity_2d_pt_ext (fun u t => ev (upd (upd rho v u) w t) r)); [|now apply poly_cont2].
    intros u t. rewrite Vr. rewrite upd_swap by auto. rewrite upd_here. apply Derive_ext. intros z. rewrite Dt. now rewrite upd2, upd_swap by auto.
  - destruct (Pd w (PDiff v a) A) as (r & _ & Pr & Vr). apply (continuity_2d_pt_ext (fun u t => ev (upd (upd rho v u) w t) r)); [|now apply poly_cont2].
    intros u t. rewrite Vr. rewrite upd_here. apply Derive_ext. intros z. rewrite Du. now rewrite upd2.
Qed.
End C77.

(** ** Examples *)
Definition px := PSym "x". Definition py := PSym "y".
Definition run12 (p : pexp) : res expr := prun (PF exact_cfg 12) (fun _ => "u"%string) false 3 20 p.
(** d/dx of the integral of (x + 2y)^3 dx from x to 2x, and the same polynomial written out *)
Definition ex_p : pexp := PDiff "x" (PDef "x" px (PMul (PNum 2) px) (PPow (PAdd px (PMul (PNum 2) py)) 3)).
Definition ex_q : pexp := PAdd (PMul (PNum 15) (PPow px 3)) (PAdd (PMul (PMul (PNum 42) (PPow px 2)) py) (PAdd (PMul (PNum 36) (PMul px (PPow py 2))) (PMul (PNum 8) (PPow py 3)))).
Lemma ident_x : ident "x". Proof. apply identb_ok. reflexivity. Qed.
Lemma ident_y : ident "y". Proof. apply identb_ok. reflexivity. Qed.
Lemma c77_example : allowed ex_p /\ allowed ex_q /\ run12 ex_p = run12 ex_q /\
  run12 ex_p = Ok (ESum [EProd [ERat 42; ESym "y"; EPow (ESym "x") (ERat 2)]; EProd [ERat 36; ESym "x"; EPow (ESym "y") (ERat 2)];
    EProd [ERat 8; EPow (ESym "y") (ERat 3)]; EProd [ERat 15; EPow (ESym "x") (ERat 3)]]).
Proof.
  pose proof ident_x. pose proof ident_y. split; [cbn; tauto|]. split; [cbn; tauto|]. split; vm_compute; reflexivity.
Qed.
(** Without expanding, == does not see that 3 (x + 1) + y - 2 (x + 1) is x + y + 1: the constructor leaves a sum inside
    a sum, which expandable() does not report. *)
Theorem c77_unexpanded_refuted : exists e f,
  (s <- op_add (PF exact_cfg 12) (ESym "x") (ERat 1);; a <- op_mul (PF exact_cfg 12) (ERat 3) s;; b <- op_mul (PF exact_cfg 12) (ERat 2) s;;
   t <- op_add (PF exact_cfg 12) a (ESym "y");; op_sub (PF exact_cfg 12) t b) = Ok e /\
  (s <- op_add (PF exact_cfg 12) (ESym "x") (ESym "y");; op_add (PF exact_cfg 12) s (ERat 1)) = Ok f /\
  eeqb e f = false /\ expandable (PF exact_cfg 12) e = Ok false /\ forall rho, ev rho e = ev rho f.
Proof.
  do 2 eexists. split; [vm_compute; reflexivity|]. split; [vm_compute; reflexivity|]. split; [vm_compute; reflexivity|]. split; [vm_compute; reflexivity|].
  intros rho. cbn. ring.
Qed.
