(** * PropsM: printed formulas read back to the value (C75). *)
From Coquelicot Require Import Coquelicot.
From Coq Require Import DecimalString.
From Verif Require Import Base Expr Kernel Mono Sem RealLemmas Sound SoundPow Atoms Oracle Numbers Frag FragNum FragLib PropsK Canon Read CanonR ReadRepr.
Local Open Scope nat_scope.
Local Ltac splits := repeat match goal with |- _ /\ _ => split end.

(** ** C75: the text of a canonical expression *)
Definition canonical (c : cfg) : expr -> Prop := canon ident (unbracketed c) plain (surd c).
Lemma exact_one c : fpow_exact (fpow c) -> forall x d, (0 < x)%Q -> fpow c 1 x = Some d -> d = 1%Z.
Proof.
  intros H x d Hx E. apply H in E; auto; [|lia]. unfold Rpower in E. rewrite ln_1, Rmult_0_r, exp_0 in E. now apply eq_IZR.
Qed.
Theorem c75_reads c n e s : fpow_exact (fpow c) -> canonical c e -> reprE c n e = Ok s ->
  exists t, reads s t /\ forall rho, wd rho e -> tval rho t = ev rho e.
Proof.
  intros Hc C H. destruct (repr_same c (exact_one c Hc) n e s C H) as (t & Gt & Vt). exists t. split; auto. apply G_reads. eapply g_up; eauto.
Qed.
(** Expressions that print alike have the same value *)
Theorem c75_injective c n m e f s : fpow_exact (fpow c) -> canonical c e -> canonical c f -> reprE c n e = Ok s -> reprE c m f = Ok s ->
  forall rho, wd rho e -> wd rho f -> ev rho e = ev rho f.
Proof.
  intros Hc Ce Cf He Hf rho We Wf. destruct (c75_reads c n e s Hc Ce He) as (t & Rt & Vt). destruct (c75_reads c m f s Hc Cf Hf) as (u & Ru & Vu).
  rewrite <- Vt, <- Vu by auto. now rewrite (reads_unique s t u).
Qed.

(** ** polynomials *)
Lemma ident_head s a : ident s -> String.get 0 s = Some a -> idchar a = true.
Proof.
  intros (H & _) E. destruct s as [|b s]; [discriminate|]. cbn in E. injection E as ->. cbn [all_id] in H. now apply andb_prop in H.
Qed.
Lemma sym_unbracketed c s : ident s -> unbracketed c (ESym s).
Proof.
  intros I n u H. destruct n; [discriminate|]. injection H as <-. unfold bracketed. destruct (String.get 0 s) as [a|] eqn:E; auto.
  destruct (last_char s) as [b|]; auto. apply ident_head in E; auto. destruct (Ascii.eqb_spec a "("); auto. subst. discriminate.
Qed.
Lemma fac_canonical c X t : fac X t -> Forall ident (names t) -> canonical c t /\ is_prod t = false /\ is_sum t = false.
Proof.
  intros [a [s Hs|s q Hs Hq H0]|q] N; (split; [|split; reflexivity]).
  - inversion N; subst. now constructor.
  - inversion N; subst. apply cn_pow; auto; [constructor; auto|]. intros _. now apply sym_unbracketed.
  - constructor.
Qed.
Lemma facs_apart X ts : Forall (fac X) ts -> NoDup (flat_map names ts) -> ForallOrdPairs apart (nonrats ts).
Proof.
  assert (B : forall t, fac X t -> is_rat t = false -> exists s, base t = ESym s /\ names t = [s]).
  { intros t [a [s Hs|s q Hs Hq H0]|q] R; [exists s; auto..|discriminate]. }
  induction 1 as [|t ts Ft Fts IH]; intros N; [constructor|]. cbn [nonrats filter]. fold (nonrats ts). cbn [flat_map] in N.
  destruct (is_rat t) eqn:R; cbn [negb]; [apply IH; destruct t; try discriminate; exact N|]. destruct (B t Ft R) as (s & Eb & En). rewrite En in N. cbn [app] in N.
  inversion N as [|? ? Nin N']; subst. constructor; auto. rewrite Forall_forall. intros u Hu. apply nonrats_in in Hu as [Hu Ru].
  rewrite Forall_forall in Fts. destruct (B u (Fts u Hu) Ru) as (s' & Eb' & En'). unfold apart. rewrite Eb, Eb'. cbn [eeqb].
  assert (D : s <> s'). { intros ->. apply Nin. apply in_flat_map. exists u. split; auto. rewrite En'. now left. }
  split; apply String.eqb_neq; auto.
Qed.
Lemma mono_canonical c X t : mono X t -> Forall ident (names t) -> canonical c t /\ is_sum t = false /\ neg_sum t = false.
Proof.
  intros [e F|ts L F R N] I.
  - destruct (fac_canonical c X e F I) as (C & P & S). splits; auto. destruct e; try reflexivity; discriminate.
  - splits; auto.
    + apply cn_prod; auto; [intros ->; cbn in L; lia| |now apply facs_apart with X]. rewrite Forall_forall in *. intros u Hu.
      destruct (fac_canonical c X u (F u Hu)) as (C & P & S); auto. apply Forall_forall. intros x Hx. apply I. cbn [names]. apply in_flat_map. eauto.
    + cbn [neg_sum]. destruct ts as [|a [|b [|d ts]]]; auto; destruct a; auto; destruct b; auto. exfalso. inversion F as [|? ? _ F']; subst. inversion F' as [|? ? Fb _]; subst.
      inversion Fb as [? A|]; subst; inversion A.
Qed.
Lemma poly_canonical c X e : poly X e -> Forall ident (names e) -> canonical c e.
Proof.
  intros [t M|ts L F] I; [now apply mono_canonical with X|]. apply cn_sum; [intros ->; cbn in L; lia|]. rewrite Forall_forall in *. intros u Hu.
  apply mono_canonical with X; auto. apply Forall_forall. intros x Hx. apply I. cbn [names]. apply in_flat_map. eauto.
Qed.
Lemma fac_any X t : fac X t -> fac anyq t.
Proof. intros [a [s Hs|s q Hs Hq H0]|q]; constructor; constructor; auto. exact I. Qed.
Lemma mono_any X t : mono X t -> mono anyq t.
Proof. intros [e F|ts L F R N]; [apply mono_fac; eauto using fac_any|]. apply mono_prod; auto. eapply Forall_impl; [|exact F]. intros u; apply fac_any. Qed.
Lemma repr_mono_total X c n t : mono X t -> exists s, k_repr (K c (7 + n)) t = Ok s.
Proof. intros M. apply (repr_mono anyq). now apply mono_any with X. Qed.
Lemma rest_total X c n l : Forall (mono X) l -> exists s, sum_repr_rest (K c (7 + n)) l = Ok s.
Proof.
  induction 1 as [|t l M _ (s & E)]; cbn [sum_repr_rest]; [eauto|]. rewrite E. destruct (is_sub t).
  - destruct (op_neg_mono anyq (fun _ _ _ _ => I) (fun _ _ _ _ => I) I c (3 + n) t (mono_any X t M)) as (r & Er & Pr).
    change (4 + (3 + n)) with (7 + n) in Er. rewrite Er. cbn [bind]. destruct (repr_mono_total anyq c n r Pr) as (u & ->). cbn [bind]. eauto.
  - destruct (repr_mono_total X c n t M) as (u & ->). cbn [bind]. eauto.
Qed.
Lemma repr_poly_total X c n e : poly X e -> exists s, k_repr (K c (8 + n)) e = Ok s.
Proof.
  intros [t M|ts L F]; [exact (repr_mono_total X c (1 + n) t M)|]. destruct ts as [|t ts]; [cbn in L; lia|]. inversion F as [|? ? Mt Mts]; subst.
  change (K c (8 + n)) with (build c (K c (7 + n))). cbn [build k_repr repr_body].
  destruct (repr_mono_total X c n t Mt) as (u & ->). cbn [bind]. destruct (rest_total X c n ts Mts) as (v & ->). cbn [bind]. eauto.
Qed.
(** Every polynomial (rational exponents) prints, and the text reads back to its value. *)
Theorem c75_polynomials c n X e : fpow_exact (fpow c) -> (8 <= n)%nat -> poly X e -> Forall ident (names e) ->
  exists s t, reprE c n e = Ok s /\ reads s t /\ forall rho, wd rho e -> tval rho t = ev rho e.
Proof.
  intros Hc Hn P I. replace n with (8 + (n - 8)) by lia. destruct (repr_poly_total X c (n - 8) e P) as (s & E). exists s.
  destruct (c75_reads c _ e s Hc (poly_canonical c X e P I) E) as (t & R & V). exists t. auto.
Qed.

(** ** A checker for canonical expressions (exact oracle), for examples *)
Definition identb (s : string) : bool :=
  all_id s && negb (String.eqb s "") && negb (is_fun s) && match NilZero.uint_of_string s with None => true | _ => false end &&
  negb (String.eqb s "pi") && negb (String.eqb s "e").
Definition unbr (m : nat) (i : expr) : bool := match k_repr (K exact_cfg m) i with Ok s => negb (bracketed s) | _ => false end.
Definition surdb (z : Z) (x : Q) : bool := negb (qisint x) && match fpow_exact_oracle z x with None => true | _ => false end.
Definition apartb (t u : expr) : bool := negb (eeqb (base t) (base u)) && negb (eeqb (base u) (base t)).
Fixpoint apartsb (l : list expr) : bool := match l with [] => true | t :: r => forallb (apartb t) r && apartsb r end.
Definition is_nil {A} (l : list A) : bool := match l with [] => true | _ => false end.
Fixpoint canonb (m : nat) (e : expr) : bool :=
  match e with
  | ERat _ | EPi | EE => true
  | ESym s => identb s
  | ESum ts => negb (is_nil ts) && forallb (canonb m) ts && forallb (fun t => negb (is_sum t) && negb (neg_sum t)) ts
  | EProd ts => negb (is_nil ts) && forallb (canonb m) ts && forallb (fun t => negb (is_prod t)) ts && Nat.leb (List.length (rats ts)) 1 && apartsb (nonrats ts)
  | EPow b (ERat q) => canonb m b && negb (is_pow b) &&
      match b with ERat p => qisint p && qeqb p (inject_Z (numer p)) && (1 <? numer p)%Z && surdb (numer p) (Qabs q) | _ => true end &&
      (negb (qlt0 q) || negb (is_prod b) && negb (is_sub b && qisint q)) && (negb (Qeq_bool (Qabs q) (1 # 2)) || unbr m b)
  | EPow b x => canonb m b && canonb m x && negb (is_pow b) && negb (is_rat x) && negb (recip x) && match b with ERat p => qgt0 p | _ => true end
  | ETrig _ i => canonb m i && unbr m i
  | ELog i b => canonb m i && unbr m i && match b with EE => true | _ => false end
  | EAbs i => canonb m i
  | _ => false
  end.
Lemma identb_ok s : identb s = true -> ident s.
Proof.
  unfold identb, ident. rewrite !andb_true_iff, !negb_true_iff. intros [[[[[A B] D] E] F] G0]. apply String.eqb_neq in B, F, G0.
  destruct (NilZero.uint_of_string s); [discriminate|]. splits; auto.
Qed.
Lemma unbr_ok m i : unbr m i = true -> unbracketed exact_cfg i.
Proof.
  unfold unbr. intros H n s E. destruct (k_repr (K exact_cfg m) i) as [u| |] eqn:Em; try discriminate. apply negb_true_iff in H.
  assert (A : k_repr (K exact_cfg (n + m)) i = Ok s) by (eapply rle_ok; [|exact E]; apply le_repr, K_mono; [apply cle_refl|lia]).
  assert (B : k_repr (K exact_cfg (n + m)) i = Ok u) by (eapply rle_ok; [|exact Em]; apply le_repr, K_mono; [apply cle_refl|lia]). congruence.
Qed.
Lemma surdb_ok z x : surdb z x = true -> surd exact_cfg z x.
Proof.
  unfold surdb, surd. intros H y E. apply andb_prop in H as [A B]. apply negb_true_iff in A. rewrite (qisint_qeq _ _ E). split; auto.
  cbn [exact_cfg fpow] in *. unfold fpow_exact_oracle in *. rewrite (numer_qeq _ _ E), (denom_qeq _ _ E). destruct (if _ : bool then _ else _); [discriminate|reflexivity].
Qed.
Lemma apartsb_ok l : apartsb l = true -> ForallOrdPairs apart l.
Proof.
  induction l as [|t l IH]; intros H; [constructor|]. cbn [apartsb] in H. apply andb_prop in H as [A B]. constructor; auto.
  rewrite forallb_forall in A. apply Forall_forall. intros u Hu. specialize (A u Hu). unfold apartb in A. rewrite andb_true_iff, !negb_true_iff in A. exact A.
Qed.
Lemma canonb_ok m e : canonb m e = true -> canonical exact_cfg e.
Proof.
  unfold canonical. induction e as [q| | | | |s| |ts IH|ts IH|b x IHb IHx|i b IHi IHb|f i IHi|i IHi] using expr_ind'; cbn [canonb]; intros H; try discriminate; try (constructor; fail).
  - apply cn_sym. now apply identb_ok.
  - rewrite !andb_true_iff in H. destruct H as [[A B] D]. rewrite forallb_forall in B, D. rewrite Forall_forall in IH. apply cn_sum; [intros ->; discriminate|].
    apply Forall_forall. intros t Ht. specialize (D t Ht). rewrite andb_true_iff, !negb_true_iff in D. destruct D. splits; auto.
  - rewrite !andb_true_iff in H. destruct H as [[[[A B] D] E] F]. rewrite forallb_forall in B, D. rewrite Forall_forall in IH. apply cn_prod; [intros ->; discriminate| | |now apply apartsb_ok].
    + apply Forall_forall. intros t Ht. specialize (D t Ht). rewrite negb_true_iff in D. auto.
    + now apply Nat.leb_le.
  - assert (X : (exists q, x = ERat q) \/ canonb m b && canonb m x && negb (is_pow b) && negb (is_rat x) && negb (recip x) && match b with ERat p => qgt0 p | _ => true end = true).
    { destruct x; auto. left. eauto. }
    destruct X as [(q & ->)|X].
    + rewrite !andb_true_iff, !negb_true_iff in H. destruct H as [[[[A B] D] E] F]. apply cn_pow; auto.
      * destruct b; auto. right. rewrite !andb_true_iff in D. destruct D as [[[D1 D2] D3] D4]. apply qeqb_eq in D2. exists (numer q0). splits; [unfold ratz; now rewrite <- D2|lia|now apply surdb_ok].
      * intros L. rewrite L in E. cbn [negb orb] in E. rewrite andb_true_iff, !negb_true_iff in E. exact E.
      * intros L. apply Qeq_bool_iff in L. rewrite L in F. cbn [negb orb] in F. eapply unbr_ok; eauto.
    + rewrite !andb_true_iff, !negb_true_iff in X. destruct X as [[[[[A B] D] E] F] J]. apply cn_powx; auto. intros p ->. now apply qgt0_iff.
  - rewrite !andb_true_iff in H. destruct H as [[A B] D]. destruct b; try discriminate. apply cn_ln; auto. eapply unbr_ok; eauto.
  - rewrite !andb_true_iff in H. destruct H as [A B]. apply cn_trig; auto. eapply unbr_ok; eauto.
  - apply cn_abs; auto.
Qed.

(** Expressions made by the constructors, their texts, and the hypothesis of [c75_reads]. *)
Definition mk (r : res expr) : expr := match r with Ok e => e | _ => EInf end.
Definition sum (l : list expr) := mk (mkSum exact_cfg 20 l).
Definition prod (l : list expr) := mk (mkProd exact_cfg 20 l).
Definition power b x := mk (mkPow exact_cfg 20 b x).
Definition x := ESym "x". Definition y := ESym "y".
Definition text (e : expr) : option string := match reprE exact_cfg 20 e with Ok s => Some s | _ => None end.
Definition samples : list expr :=
  [prod [x; x; ERat (-2 # 3); power y (ERat (-2))];
   prod [ERat (-3); power (ERat 2) (ERat (-1 # 2)); power EE x; power (sum [x; y]) (ERat (-1))];
   power (sum [x; y]) (ERat (3 # 2));
   prod [power EE (prod [ERat (-1); x]); sum [x; ERat (-1)]];
   sum [prod [ERat 2; sum [x; y]; x]; prod [ERat (-1 # 2); ETrig Cos (prod [ERat 2; x])]; ERat (-7 # 3)];
   ELog (EAbs (sum [x; y])) EE; power x (power y x)].
Lemma c75_example : Forall (canonical exact_cfg) samples /\
  map text samples = map Some ["-2*x^2/(3*y^2)"; "-3*e^x/(sqrt(2)*(y + x))"; "(y + x)^(3/2)"; "e^(-x)*(x - 1)"; "2*x*(y + x) - cos(2*x)/2 - 7/3"; "ln(|y + x|)"; "x^y^x"]%string /\
  reads "e^(-x)*(x - 1)" (TBin OMul (TBin OPow (TName "e") (TNeg (TName "x"))) (TBin OSub (TName "x") (TNum 1))).
Proof.
  split; [|split; [vm_compute; reflexivity|]].
  - apply Forall_forall. intros e He. apply (canonb_ok 20). assert (A : forallb (canonb 20) samples = true) by (vm_compute; reflexivity).
    rewrite forallb_forall in A. auto.
  - exists 20. intros n Hn. replace n with (20 + (n - 20)) by lia. generalize (n - 20). intros k. reflexivity.
Qed.
Lemma c75_polynomials_example : exists s t, reprE exact_cfg 8 (prod [ERat (-2); x; power y (ERat (1 # 2))]) = Ok s /\ reads s t /\
  forall rho, wd rho (prod [ERat (-2); x; power y (ERat (1 # 2))]) -> tval rho t = ev rho (prod [ERat (-2); x; power y (ERat (1 # 2))]).
Proof.
  apply (c75_polynomials exact_cfg 8 anyq); [exact fpow_exact_oracle_exact|lia| |].
  - apply poly_mono. apply (monob_ok anyq (fun _ => true)); [intros; exact I|]. vm_compute. reflexivity.
  - assert (E : names (prod [ERat (-2); x; power y (ERat (1 # 2))]) = ["y"; "x"]%string \/ names (prod [ERat (-2); x; power y (ERat (1 # 2))]) = ["x"; "y"]%string) by (vm_compute; auto).
    destruct E as [-> | ->]; repeat constructor; apply identb_ok; reflexivity.
Qed.

(** What is excluded is really misprinted: e^(1/x) prints as e^1/x ... *)
Theorem c75_exponent_refuted : exists e s t rho,
  mkPow exact_cfg 20 EE (EPow x (ERat (-1))) = Ok e /\ reprE exact_cfg 20 e = Ok s /\ s = "e^1/x"%string /\ reads s t /\ wd rho e /\ tval rho t <> ev rho e.
Proof.
  exists (EPow EE (EPow x (ERat (-1)))), "e^1/x"%string, (TBin ODiv (TBin OPow (TName "e") (TNum 1)) (TName "x")), (fun _ => 2%R).
  splits; try (vm_compute; reflexivity).
  - exists 20. intros n Hn. replace n with (20 + (n - 20)) by lia. generalize (n - 20). intros k. reflexivity.
  - cbn. splits; auto; [left; exists (-1)%Q; splits; auto; left; cbn; lra|]. right. cbn. split; auto. apply exp_pos.
  - cbn [tval apply_op ev x]. change (String.eqb "e" "pi") with false. change (String.eqb "e" "e") with true. change (String.eqb "x" "pi") with false. change (String.eqb "x" "e") with false. cbv iota.
    rewrite Q2R_m1, (rpow_m1 2) by lra. rewrite rpow_1, rpow_pos by apply exp_pos. unfold Rpower. rewrite ln_exp, Rmult_1_r.
    assert (E : (exp 1 = exp (/ 2) * exp (/ 2))%R) by (rewrite <- exp_plus; f_equal; lra). pose proof exp_le_3 as B. pose proof (exp_pos (/ 2)) as P0. intros X.
    rewrite E in X. assert (Y : exp (/ 2) = 2%R) by (apply Rmult_eq_reg_r with (exp (/ 2) / 2)%R; [|apply Rgt_not_eq; lra]; lra).
    rewrite Y in E. lra.
Qed.
(** ... and a function of a product of sums loses its parentheses. *)
Theorem c75_argument_refuted : exists e s t rho,
  mkProd exact_cfg 20 [sum [x; ERat 1]; sum [y; ERat 1]] = Ok e /\ reprE exact_cfg 20 (ETrig Sin e) = Ok s /\ s = "sin(x + 1)*(y + 1)"%string /\ reads s t /\
  wd rho (ETrig Sin e) /\ tval rho t <> ev rho (ETrig Sin e).
Proof.
  exists (EProd [ESum [x; ERat 1]; ESum [y; ERat 1]]), "sin(x + 1)*(y + 1)"%string,
    (TBin OMul (TCall "sin" (TBin OAdd (TName "x") (TNum 1))) (TBin OAdd (TName "y") (TNum 1))), (fun s => if String.eqb s "x" then PI / 2 - 1 else 1)%R.
  splits; try (vm_compute; reflexivity).
  - exists 20. intros n Hn. replace n with (20 + (n - 20)) by lia. generalize (n - 20). intros k. reflexivity.
  - cbn. splits; auto. unfold one_const. cbn. lia.
  - cbn [tval apply_op ev x y map tev]. change (String.eqb "x" "pi") with false. change (String.eqb "x" "e") with false. change (String.eqb "y" "pi") with false. change (String.eqb "y" "e") with false.
    change (String.eqb "x" "x") with true. change (String.eqb "y" "x") with false. cbv iota. change (apply_fun "sin") with sin. unfold Rprod, Rsum. cbn [fold_right map ev].
    rewrite Q2R_1. replace (PI / 2 - 1 + 1)%R with (PI / 2)%R by lra. replace ((PI / 2 - 1 + (1 + 0)) * ((1 + (1 + 0)) * 1))%R with PI by lra. rewrite sin_PI2, sin_PI. lra.
Qed.
