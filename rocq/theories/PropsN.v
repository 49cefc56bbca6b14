(** * PropsN: LaTeX text reads back to the value (C76). *)
From Coquelicot Require Import Coquelicot.
From Coq Require Import DecimalString.
From Verif Require Import Base Expr Kernel Mono Sem RealLemmas Sound SoundPow Atoms Oracle Numbers Frag FragNum FragLib PropsK Canon Read CanonR ReadRepr ReadTex TexRepr PropsM.
From Verif Require Latex.
Import Latex(group, bracketfy, latex_Q, term_latex, base_latex, sum_latex, latex_body, latexE).
Local Open Scope nat_scope.
Local Ltac splits := repeat match goal with |- _ /\ _ => split end.

(** ** C76: the LaTeX text of a canonical expression *)
(** as [canonical] (PropsM.v), but symbols are single letters other than e, and exponents and function
    arguments are arbitrary *)
Definition tex_canonical (c : cfg) : expr -> Prop := canon tname anything anything (surd c).
Theorem c76_latex_reads c m n e s : fpow_exact (fpow c) -> tex_canonical c e -> latexE c (K c m) n e = Ok s ->
  exists t, tex_reads s t /\ forall rho, wd rho e -> tval rho t = ev rho e.
Proof.
  intros Hc C H. apply (latex_same c m (exact_one c Hc)) in H; auto. apply tsum_of in H as (_ & t & Gt & Vt). exists t. split; auto. now apply TG_reads.
Qed.
(** Expressions with the same LaTeX text have the same value *)
Theorem c76_injective c m m' n n' e f s : fpow_exact (fpow c) -> tex_canonical c e -> tex_canonical c f ->
  latexE c (K c m) n e = Ok s -> latexE c (K c m') n' f = Ok s -> forall rho, wd rho e -> wd rho f -> ev rho e = ev rho f.
Proof.
  intros Hc Ce Cf He Hf rho We Wf. destruct (c76_latex_reads c m n e s Hc Ce He) as (t & Rt & Vt). destruct (c76_latex_reads c m' n' f s Hc Cf Hf) as (u & Ru & Vu).
  rewrite <- Vt, <- Vu by auto. now rewrite (tex_unique s t u).
Qed.
(** repr() and latex() of an expression read back to the same value *)
Theorem c76_agrees_with_repr c m n n' e s r : fpow_exact (fpow c) -> tex_canonical c e -> canonical c e -> latexE c (K c m) n e = Ok s -> reprE c n' e = Ok r ->
  exists t u, tex_reads s t /\ reads r u /\ forall rho, wd rho e -> tval rho t = tval rho u.
Proof.
  intros Hc Ct Cr Hs Hr. destruct (c76_latex_reads c m n e s Hc Ct Hs) as (t & Rt & Vt). destruct (c75_reads c n' e r Hc Cr Hr) as (u & Ru & Vu).
  exists t, u. splits; auto. intros rho W. rewrite Vt, Vu; auto.
Qed.

(** ** polynomials *)
Lemma fac_tex c X t : fac X t -> Forall tname (names t) -> tex_canonical c t /\ is_prod t = false /\ is_sum t = false.
Proof.
  intros [a [s Hs|s q Hs Hq H0]|q] N; (split; [|split; reflexivity]).
  - inversion N; subst. now constructor.
  - inversion N; subst. apply cn_pow; auto; [constructor; auto|]. intros _. exact I.
  - constructor.
Qed.
Lemma mono_tex c X t : mono X t -> Forall tname (names t) -> tex_canonical c t /\ is_sum t = false /\ neg_sum t = false.
Proof.
  intros [e F|ts L F R N] I.
  - destruct (fac_tex c X e F I) as (C & P & S). splits; auto. destruct e; try reflexivity; discriminate.
  - splits; auto.
    + apply cn_prod; auto; [intros ->; cbn in L; lia| |now apply facs_apart with X]. rewrite Forall_forall in *. intros u Hu.
      destruct (fac_tex c X u (F u Hu)) as (C & P & S); auto. apply Forall_forall. intros x Hx. apply I. cbn [names]. apply in_flat_map. eauto.
    + cbn [neg_sum]. destruct ts as [|a [|b [|d ts]]]; auto; destruct a; auto; destruct b; auto. exfalso. inversion F as [|? ? _ F']; subst. inversion F' as [|? ? Fb _]; subst.
      inversion Fb as [? A|]; subst; inversion A.
Qed.
Lemma poly_tex c X e : poly X e -> Forall tname (names e) -> tex_canonical c e.
Proof.
  intros [t M|ts L F] I; [now apply mono_tex with X|]. apply cn_sum; [intros ->; cbn in L; lia|]. rewrite Forall_forall in *. intros u Hu.
  apply mono_tex with X; auto. apply Forall_forall. intros x Hx. apply I. cbn [names]. apply in_flat_map. eauto.
Qed.
Section Total.
Context (c : cfg) (m : nat).
Notation k := (K c (4 + m)).
Notation gfac := (fac anyq).
Lemma latex_fac n t : gfac t -> exists s, latexE c k (2 + n) t = Ok s.
Proof.
  intros [a [s Hs|s q Hs Hq H0]|q]; cbn [Nat.add latexE latex_body]; eauto. unfold base_latex. cbn [bind].
  destruct (isq (ERat q) (1 # 2)); [eauto|]. destruct (isq (ERat q) (-1 # 2)); [eauto|]. cbn [bind latex_body]. eauto.
Qed.
Lemma term_fac n t : gfac t -> exists s, term_latex (latexE c k (2 + n)) t = Ok s.
Proof. intros F. unfold term_latex. destruct (latex_fac n t F) as (s & ->). cbn [bind]. eauto. Qed.
Lemma terms_fac n l : Forall gfac l -> exists ss, mapM (term_latex (latexE c k (2 + n))) l = Ok ss.
Proof. induction 1 as [|t l T H (ss & IH)]; cbn [mapM]; [eauto|]. destruct (term_fac n t T) as (r & ->). cbn [bind]. rewrite IH. cbn [bind]. eauto. Qed.
Lemma latex_int n l : Forall ifac l -> is_sub (EProd l) = false -> exists s, latexE c k (3 + n) (EProd l) = Ok s.
Proof.
  intros H S. change (3 + n) with (Datatypes.S (2 + n)). cbn [latexE latex_body]. rewrite S. unfold numden.
  destruct (numden_ifac k l H) as (a & -> & F). cbn [bind]. destruct (prod_skip_gfac a (ifac_gfacs a F)) as (e & -> & _). cbn [bind prod_skip].
  change (isq (ERat 1) 1) with true. cbv iota. destruct (terms_fac n l (ifac_gfacs l H)) as (ss & ->). cbn [bind]. eauto.
Qed.
Lemma latex_gprod n l : Forall gfac l -> is_sub (EProd l) = false ->
  (forall a, Forall ifac a -> (List.length (rats a) <= List.length (rats l))%nat -> (nneg l -> nneg a) -> is_sub (EProd a) = true -> exists r, latexE c k (3 + n) (EProd a) = Ok r) ->
  exists s, latexE c k (4 + n) (EProd l) = Ok s.
Proof.
  intros H S Ha. change (4 + n) with (Datatypes.S (3 + n)). cbn [latexE latex_body]. rewrite S. unfold numden.
  destruct (numden_gfac c (3 + m) l H) as (a & d & E & I1 & I2 & I3 & I4 & I5). change (Datatypes.S (3 + m)) with (4 + m) in E. rewrite E. cbn [bind].
  destruct (prod_skip_gfac a (ifac_gfacs a I1)) as (en & -> & Cn). destruct (prod_skip_gfac d (ifac_gfacs d I2)) as (ed & -> & Cd). cbn [bind].
  destruct (isq ed 1); [destruct (terms_fac (1 + n) l H) as (ss & E1); change (2 + (1 + n)) with (3 + n) in E1; rewrite E1; cbn [bind]; eauto|].
  assert (Rn : exists s, latexE c k (3 + n) en = Ok s).
  { destruct Cn as [-> |G0]; [|exact (latex_fac (1 + n) en G0)]. destruct (is_sub (EProd a)) eqn:Sa; [now apply Ha|now apply latex_int]. }
  assert (Rd : exists s, latexE c k (3 + n) ed = Ok s).
  { destruct Cd as [-> |G0]; [|exact (latex_fac (1 + n) ed G0)]. apply latex_int; auto. now apply nneg_sub. }
  destruct Rn as (s1 & ->), Rd as (s2 & ->). cbn [bind]. eauto.
Qed.
Lemma latex_nneg n l : Forall gfac l -> nneg l -> exists s, latexE c k (4 + n) (EProd l) = Ok s.
Proof. intros H N. apply latex_gprod; auto; [now apply nneg_sub|]. intros a _ _ Na S. rewrite (nneg_sub a (Na N)) in S. discriminate. Qed.
Lemma latex_sub n l : Forall gfac l -> (List.length (rats l) <= 1)%nat -> is_sub (EProd l) = true -> exists s, latexE c k (5 + n) (EProd l) = Ok s.
Proof.
  intros H R S. change (5 + n) with (Datatypes.S (4 + n)). cbn [latexE latex_body]. rewrite S. cbn [op_mul].
  assert (Hm : Forall gfac (l ++ [ERat (-1)])) by (apply Forall_app; split; auto; repeat constructor).
  destruct (prod_body_fac anyq (fun _ _ _ _ => I) (fun _ _ _ _ => I) I c m _ Hm) as (e & E & M & C & _).
  assert (E' : k_prod k [EProd l; ERat (-1)] = Ok e).
  { change k with (build c (K c (3 + m))). cbn [build k_prod]. unfold prod_body in *. rewrite (flat_prod_fac anyq _ Hm) in E.
    change (flat_prod [EProd l; ERat (-1)]) with (flat_prod l ++ [ERat (-1)]). rewrite (flat_prod_fac anyq l H). exact E. }
  rewrite E'. cbn [bind].
  destruct M as [e F|ts L F Rt N].
  - destruct (is_prod e) eqn:Pe; [exfalso; destruct F as [? []|]; discriminate|]. destruct (term_fac (2 + n) e F) as (s & Es). change (2 + (2 + n)) with (4 + n) in Es. rewrite Es. cbn [bind]. eauto.
  - cbn [is_prod]. assert (P : (0 <= ratprod ts)%Q).
    { cbn [coef] in C. apply Qlt_le_weak. rewrite C, ratprod_app. pose proof (sub_prod_coef l R S) as B. cbn [ratprod ratval]. setoid_replace (ratprod l * (-1 * 1))%Q with (- ratprod l)%Q by ring.
      apply (Qopp_lt_compat _ 0) in B. exact B. }
    assert (Nn : nneg ts) by (apply coef_pos_nneg; auto). destruct (latex_nneg n ts F Nn) as (s & ->). cbn [bind]. eauto.
Qed.
Lemma latex_mono n t : mono anyq t -> exists s, latexE c k (6 + n) t = Ok s.
Proof.
  intros [e F|ts L F R N]; [exact (latex_fac (4 + n) e F)|]. destruct (is_sub (EProd ts)) eqn:S; [exact (latex_sub (1 + n) ts F R S)|].
  apply (latex_gprod (2 + n)); auto. intros a Ha Ra _ Sa. apply (latex_sub n); auto; [now apply ifac_gfacs|lia].
Qed.
Lemma latex_rest n l : Forall (mono anyq) l -> exists s, sum_latex k (latexE c k (6 + n)) l = Ok s.
Proof.
  induction 1 as [|t l M _ (s & E)]; cbn [sum_latex]; [eauto|]. rewrite E. destruct (is_sub t).
  - destruct (op_neg_mono anyq (fun _ _ _ _ => I) (fun _ _ _ _ => I) I c m t M) as (r & -> & Pr). cbn [bind]. destruct (latex_mono n r Pr) as (u & ->). cbn [bind]. eauto.
  - destruct (latex_mono n t M) as (u & ->). cbn [bind]. eauto.
Qed.
Lemma latex_poly n e : poly anyq e -> exists s, latexE c k (7 + n) e = Ok s.
Proof.
  intros [t M|ts L F]; [exact (latex_mono (1 + n) t M)|]. destruct ts as [|t ts]; [cbn in L; lia|]. inversion F as [|? ? Mt Mts]; subst.
  change (7 + n) with (Datatypes.S (6 + n)). cbn [latexE latex_body]. destruct (latex_mono n t Mt) as (u & ->). cbn [bind]. destruct (latex_rest n ts Mts) as (v & ->). cbn [bind]. eauto.
Qed.
End Total.
Lemma poly_any X e : poly X e -> poly anyq e.
Proof. intros [t M|ts L F]; [apply poly_mono; eapply mono_any; eauto|]. apply poly_sum; auto. eapply Forall_impl; [|exact F]. intros u; apply mono_any. Qed.
(** Every polynomial (rational exponents) in one-letter symbols has a LaTeX text, and it reads back to its value. *)
Theorem c76_polynomials c m n X e : fpow_exact (fpow c) -> 4 <= m -> 7 <= n -> poly X e -> Forall tname (names e) ->
  exists s t, latexE c (K c m) n e = Ok s /\ tex_reads s t /\ forall rho, wd rho e -> tval rho t = ev rho e.
Proof.
  intros Hc Hm Hn P I. replace n with (7 + (n - 7)) by lia. replace m with (4 + (m - 4)) by lia. destruct (latex_poly c (m - 4) (n - 7) e (poly_any X e P)) as (s & E). exists s.
  destruct (c76_latex_reads c _ _ e s Hc (poly_tex c X e P I) E) as (t & R & V). exists t. auto.
Qed.

(** ** A checker (exact oracle), for examples *)
Definition tnameb (s : string) : bool := match s with String a ""%string => letter a && negb (Ascii.eqb a "e") | _ => false end.
Fixpoint texb (e : expr) : bool :=
  match e with
  | ERat _ | EPi | EE => true
  | ESym s => tnameb s
  | ESum ts => negb (is_nil ts) && forallb texb ts && forallb (fun t => negb (is_sum t) && negb (neg_sum t)) ts
  | EProd ts => negb (is_nil ts) && forallb texb ts && forallb (fun t => negb (is_prod t)) ts && Nat.leb (List.length (rats ts)) 1 && apartsb (nonrats ts)
  | EPow b (ERat q) => texb b && negb (is_pow b) &&
      match b with ERat p => qisint p && qeqb p (inject_Z (numer p)) && (1 <? numer p)%Z && surdb (numer p) (Qabs q) | _ => true end &&
      (negb (qlt0 q) || negb (is_prod b) && negb (is_sub b && qisint q))
  | EPow b x => texb b && texb x && negb (is_pow b) && negb (is_rat x) && match b with ERat p => qgt0 p | _ => true end
  | ETrig _ i => texb i
  | ELog i b => texb i && match b with EE => true | _ => false end
  | EAbs i => texb i
  | _ => false
  end.
Lemma tnameb_ok s : tnameb s = true -> tname s.
Proof.
  destruct s as [|a [|b s]]; try discriminate. cbn [tnameb]. rewrite andb_true_iff, negb_true_iff. intros [A B]. exists a. splits; auto. now apply Ascii.eqb_neq.
Qed.
Lemma texb_ok e : texb e = true -> tex_canonical exact_cfg e.
Proof.
  unfold tex_canonical. induction e as [q| | | | |s| |ts IH|ts IH|b x IHb IHx|i b IHi IHb|f i IHi|i IHi] using expr_ind'; cbn [texb]; intros H; try discriminate; try (constructor; fail).
  - apply cn_sym. now apply tnameb_ok.
  - rewrite !andb_true_iff in H. destruct H as [[A B] D]. rewrite forallb_forall in B, D. rewrite Forall_forall in IH. apply cn_sum; [intros ->; discriminate|].
    apply Forall_forall. intros t Ht. specialize (D t Ht). rewrite andb_true_iff, !negb_true_iff in D. destruct D. splits; auto.
  - rewrite !andb_true_iff in H. destruct H as [[[[A B] D] E] F]. rewrite forallb_forall in B, D. rewrite Forall_forall in IH. apply cn_prod; [intros ->; discriminate| | |now apply apartsb_ok].
    + apply Forall_forall. intros t Ht. specialize (D t Ht). rewrite negb_true_iff in D. auto.
    + now apply Nat.leb_le.
  - assert (X : (exists q, x = ERat q) \/ texb b && texb x && negb (is_pow b) && negb (is_rat x) && match b with ERat p => qgt0 p | _ => true end = true).
    { destruct x; auto. left. eauto. }
    destruct X as [(q & ->)|X].
    + rewrite !andb_true_iff, !negb_true_iff in H. destruct H as [[[A B] D] E]. apply cn_pow; auto.
      * destruct b; auto. right. rewrite !andb_true_iff in D. destruct D as [[[D1 D2] D3] D4]. apply qeqb_eq in D2. exists (numer q0). splits; [unfold ratz; now rewrite <- D2|lia|now apply surdb_ok].
      * intros L. rewrite L in E. cbn [negb orb] in E. rewrite andb_true_iff, !negb_true_iff in E. exact E.
      * intros _. exact I.
    + rewrite !andb_true_iff, !negb_true_iff in X. destruct X as [[[[A B] D] E] J]. apply cn_powx; auto; [exact I|]. intros p ->. now apply qgt0_iff.
  - rewrite !andb_true_iff in H. destruct H as [A D]. destruct b; try discriminate. apply cn_ln; auto. exact I.
  - apply cn_trig; auto. exact I.
  - apply cn_abs; auto.
Qed.

(** Expressions made by the constructors (those of C75, the two that repr() misprints, and others), their LaTeX
    texts, and the hypothesis of [c76_latex_reads]. *)
Definition tex (e : expr) : option string := match latexE exact_cfg (K exact_cfg 20) 20 e with Ok s => Some s | _ => None end.
Definition tex_samples : list expr := samples ++
  [power EE (power x (ERat (-1))); ETrig Sin (prod [sum [x; ERat 1]; sum [y; ERat 1]]); power (ETrig Atan x) (ERat (-1)); power x (ERat (-1 # 2)); EAbs (power x (ERat 12));
   prod [ERat (1 # 2); x]; power (ERat (2 # 3)) x; prod [EPi; power (prod [ERat 2; x]) (ERat (1 # 2))]].
Lemma c76_example : Forall (tex_canonical exact_cfg) tex_samples /\ map tex tex_samples = map Some
  ["-\frac {2 \cdot x^2}{3 \cdot y^2}"; "-\frac {3 \cdot e^x}{\sqrt{2} \cdot (y + x)}"; "(y + x)^{\frac 32}"; "e^{-x} \cdot (x - 1)";
   "2 \cdot x \cdot (y + x) - \frac {\cos (2 \cdot x)}2 - \frac 73"; "\ln (|y + x|)"; "x^{y^x}"; "e^{x^{-1}}"; "\sin ((x + 1) \cdot (y + 1))"; "\tan^{-1} (x)^{-1}"; "{\sqrt{x}}^{-1}";
   "\left| x^{12} \right|"; "\frac x2"; "(\frac 23)^x"; "\pi \cdot \sqrt{2} \cdot \sqrt{x}"]%string /\
  tex_reads "-\frac {2 \cdot x^2}{3 \cdot y^2}" (TNeg (TBin ODiv (TBin OMul (TNum 2) (TBin OPow (TName "x") (TNum 2))) (TBin OMul (TNum 3) (TBin OPow (TName "y") (TNum 2))))).
Proof.
  split; [|split; [vm_compute; reflexivity|]].
  - apply Forall_forall. intros e He. apply texb_ok. assert (A : forallb texb tex_samples = true) by (vm_compute; reflexivity).
    rewrite forallb_forall in A. auto.
  - exists 30. intros n Hn. replace n with (30 + (n - 30)) by lia. generalize (n - 30). intros k. reflexivity.
Qed.
Lemma c76_polynomials_example : exists s t, latexE exact_cfg (K exact_cfg 4) 7 (prod [ERat (-2); x; power y (ERat (1 # 2))]) = Ok s /\ tex_reads s t /\
  forall rho, wd rho (prod [ERat (-2); x; power y (ERat (1 # 2))]) -> tval rho t = ev rho (prod [ERat (-2); x; power y (ERat (1 # 2))]).
Proof.
  apply (c76_polynomials exact_cfg 4 7 anyq); [exact fpow_exact_oracle_exact|lia|lia| |].
  - apply poly_mono. apply (monob_ok anyq (fun _ => true)); [intros; exact I|]. vm_compute. reflexivity.
  - assert (E : names (prod [ERat (-2); x; power y (ERat (1 # 2))]) = ["y"; "x"]%string \/ names (prod [ERat (-2); x; power y (ERat (1 # 2))]) = ["x"; "y"]%string) by (vm_compute; auto).
    destruct E as [-> | ->]; repeat constructor; apply tnameb_ok; reflexivity.
Qed.
(** A symbol called e is printed like Euler's number. *)
Theorem c76_name_refuted : exists s t rho, latexE exact_cfg (K exact_cfg 1) 1 (ESym "e") = Ok s /\ tex_reads s t /\ wd rho (ESym "e") /\ tval rho t <> ev rho (ESym "e").
Proof.
  exists "e"%string, (TName "e"), (fun _ => 0%R). splits; [reflexivity| |exact I|].
  - exists 10. intros n Hn. replace n with (10 + (n - 10)) by lia. generalize (n - 10). intros k. reflexivity.
  - cbn [tval ev]. change (String.eqb "e" "pi") with false. change (String.eqb "e" "e") with true. cbv iota. pose proof (exp_pos 1). lra.
Qed.
