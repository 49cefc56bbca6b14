(** * PropsT: integrate on sums of monomials with negative and fractional exponents (C87). *)
From Coquelicot Require Import Coquelicot.
From Verif Require Import Base Expr Kernel Mono Funcs FMono Calc Sem RealLemmas Sound SoundPow Atoms Agree Oracle
  FSound CalcSound Cont Combi Expand ExpandSound Factor Regex Simp Pts Match TrigSimp Poly PolyQ Table Trans TransMono TransSound
  Search SearchMono SearchSound Shape Interval PropsA PropsC PropsD PropsE PropsF PropsG Frag FragNum FragLib PropsJ PropsK FragInt PropsL FragX FragXLib.
Close Scope R_scope.
Local Open Scope nat_scope.
Ltac splits := repeat match goal with |- _ /\ _ => split end.

(** ** Specification *)
(** the antiderivative of 1/v *)
Definition logabs (v : string) : expr := ELog (EAbs (ESym v)) EE.
(** symbols, and log|v| *)
Definition symlog (v : string) (b : expr) : Prop := (exists s, s <> ""%string /\ b = ESym s) \/ b = logabs v.
(** exponents: [XQ] for a symbol, natural for log|v| *)
Definition expo (XQ : Q -> Prop) (b : expr) (q : Q) : Prop := match b with ESym _ => XQ q | _ => natq q end.
(** sums of monomials in the symbols and log|v| *)
Definition logpoly (XQ : Q -> Prop) (v : string) : expr -> Prop := opoly (symlog v) (expo XQ).

Lemma symlog_opaque v : opaque (symlog v).
Proof.
  constructor.
  - intros b [(s & Hs & ->)| ->]; reflexivity.
  - intros a b [(s & Hs & ->)| ->] [(s' & Hs' & ->)| ->]; reflexivity.
  - intros a b [(s & Hs & ->)| ->] [(s' & Hs' & ->)| ->] E; try discriminate; auto. simpl in E. apply String.eqb_eq in E. now subst.
  - intros b [(s & Hs & ->)| ->]; [eexists; reflexivity|]. unfold logabs. cbn [nwf has_symany]. eexists. reflexivity.
  - intros c n b [(s & Hs & ->)| ->].
    + exists s. split; [reflexivity|exact Hs].
    + change (3 + 0 + n) with (S (S (S n))). unfold logabs. change (k_repr (K c (S (S (S n))))) with (repr_body c (K c (S (S n)))). cbn [repr_body]. unfold log_label, py_eq. cbn [coin eeqb]. rewrite andb_false_r. cbn [bind].
      unfold repr_fn. change (k_repr (K c (S (S n))) (EAbs (ESym v))) with (Ok (append "|" (append v "|"))). cbn [bind].
      assert (N : append "|" (append v "|") <> ""%string) by (destruct v; discriminate).
      destruct (str_nonempty _ N) as (a & ->), (last_nonempty _ N) as (b & ->). destruct (Ascii.eqb a "("%char && Ascii.eqb b ")"%char); eexists; (split; [reflexivity|discriminate]).
Qed.

Section Run.
Context (XQ : Q -> Prop) (Xeq : forall p q, (p == q)%Q -> XQ p -> XQ q) (Xadd : forall p q, XQ p -> XQ q -> XQ (p + q)%Q) (X1 : XQ 1%Q) (Xopp : forall q, XQ q -> XQ (- q)%Q).
Context (dom : expr -> bool) (rng : string -> expr -> bool) (nm : nat -> string) (c : cfg) (n d : nat) (v : string) (Hv : v <> ""%string).
Context (HD : forall s q, XQ q -> dom (EPow (ESym s) (ERat q)) = true) (HL : dom (logabs v) = true).
Notation fk := (F dom c (10 + n)).
Notation Bv := (symlog v). Notation XB := (expo XQ).
Let OP := symlog_opaque v.
Hint Constructors Frag.atom Frag.fac Frag.mono Frag.poly oatom ofac omono opoly : core.

Lemma XB_eq b p q : (p == q)%Q -> XB b p -> XB b q.
Proof. destruct b; cbn [expo]; try apply natq_qeq. apply Xeq. Qed.
Lemma XB_add b p q : XB b p -> XB b q -> XB b (p + q)%Q.
Proof. destruct b; cbn [expo]; try apply natq_add. apply Xadd. Qed.
Lemma XB_1 b : Bv b -> XB b 1%Q.
Proof. intros _. destruct b; cbn [expo]; auto; apply one_natq. Qed.
Lemma XB_dom b q : Bv b -> XB b q -> pow_always b (ERat q) || dom (EPow b (ERat q)) = true.
Proof.
  intros [(s & Hs & ->)| ->] H; cbn [expo logabs] in H; [rewrite (HD s q H); apply orb_true_r|]. now rewrite pow_always_nat.
Qed.
Lemma XB_neg b q : Bv b -> XB b q -> (q < 0)%Q -> pow_always b (rat (- q)) || dom (EPow b (rat (- q))) = true.
Proof.
  intros [(s & Hs & ->)| ->] H L; cbn [expo logabs] in H.
  - unfold rat. rewrite HD; [apply orb_true_r|]. eapply Xeq; [symmetry; apply Qred_correct|]. now apply Xopp.
  - exfalso. destruct H as [_ H]. apply (Qlt_not_le _ _ L H).
Qed.
Lemma XB_exp b : Bv b -> expandable fk b = Ok false.
Proof. intros [(s & Hs & ->)| ->]; reflexivity. Qed.

(** the monomials in the symbols are among them *)
Lemma fac_o t : fac XQ t -> ofac Bv XB t.
Proof. intros [a [s Hs|s q Hs Hq H0]|q]; [apply ofac_at, oat_b|apply ofac_at, oat_pow|apply ofac_rat]; auto; left; eauto. Qed.
Lemma bases_o l : Forall (fac XQ) l -> flat_map bases l = map ESym (flat_map names l).
Proof. induction 1 as [|t l T H IH]; auto. simpl. rewrite IH, map_app. f_equal. destruct T as [a [s Hs|s q Hs Hq H0]|q]; reflexivity. Qed.
Lemma mono_o t : mono XQ t -> omono Bv XB t.
Proof.
  intros [a A|ts L Fs R N]; [now apply omono_fac, fac_o|]. apply omono_prod; auto.
  - eapply Forall_impl; [|exact Fs]. exact fac_o.
  - rewrite bases_o by auto. apply FinFun.Injective_map_NoDup; auto. intros x y E. now injection E.
Qed.
Lemma poly_o t : poly XQ t -> logpoly XQ v t.
Proof.
  intros [a A|ts L Fs]; [now apply opoly_mono, mono_o|]. apply opoly_sum; auto. eapply Forall_impl; [|exact Fs]. exact mono_o.
Qed.

Lemma fk_log_abs : k_log fk (EAbs (ESym v)) EE = Ok (logabs v).
Proof. change (k_log fk (EAbs (ESym v)) EE) with (guard (dom (logabs v)) (mk_log c (EAbs (ESym v)) EE)). rewrite HL. cbn [guard]. unfold mk_log, py_eq. cbn [isq coin eeqb]. rewrite andb_false_r. reflexivity. Qed.
Lemma omul a b : omono Bv XB a -> omono Bv XB b -> exists r, op_mul fk a b = Ok r /\ omono Bv XB r.
Proof. intros A A2. exact (op_mul_mono Bv OP XB XB_eq XB_add XB_1 c (4 + n) a b A A2). Qed.
Lemma table_pow t : fac XQ t -> exists r, table fk v t = Ok (Some r) /\ omono Bv XB r.
Proof.
  intros T. pose proof (mono_o t (mono_fac XQ t T)) as Mt.
  assert (Ms : omono Bv XB (ESym v)) by (apply omono_fac, ofac_at, oat_b; left; eauto).
  assert (Mr : forall q, omono Bv XB (ERat q)) by auto.
  assert (KP : forall q, XQ q -> exists r, k_pow fk (ESym v) (ERat q) = Ok r /\ omono Bv XB r).
  { intros q Hq. apply (fk_pow_mono Bv OP XB dom c n XB_dom); [left; eauto|exact Hq]. }
  unfold table. destruct (contains v t) eqn:C; cbn [negb].
  2:{ destruct (omul t (ESym v)) as (r & E & M); auto. exists r. split; auto. now rewrite E. }
  destruct T as [e [s Hs|s q Hs Hq H0]|q]; [| |discriminate].
  - destruct (KP 2%Q) as (p & -> & Mp); [eapply Xeq; [|apply (Xadd _ _ X1 X1)]; reflexivity|]. cbn [bind].
    destruct (omul (ERat (1 # 2)) p) as (r & E & M); auto. exists r. split; auto. now rewrite E.
  - cbn [contains] in C. rewrite orb_false_r in C. apply String.eqb_eq in C. subst s. cbn [is_var contains negb]. rewrite String.eqb_refl. cbn [andb].
    destruct (isq (ERat q) (-1)) eqn:E1.
    { cbn [op_abs]. change (k_abs fk (ESym v)) with (Ok (EAbs (ESym v))). cbn [bind]. rewrite fk_log_abs. cbn [bind]. exists (logabs v). split; auto.
      apply omono_fac, ofac_at, oat_b. now right. }
    cbn [op_add bind].
    assert (N2 : XQ (Qred (q + 1))) by (apply (Xeq (q + 1)); [symmetry; apply Qred_correct|apply Xadd; auto]).
    assert (E2 : qis0 (Qred (q + 1)) = false).
    { destruct (qis0 (Qred (q + 1))) eqn:E; auto. exfalso. apply qis0_iff in E. rewrite Qred_correct in E. apply isq_rat_f in E1. apply E1.
      rewrite <- (Qplus_inj_r _ _ 1). rewrite E. reflexivity. }
    unfold op_div, rat. rewrite E2. cbn [bind]. destruct (KP _ N2) as (p & -> & Mp). cbn [bind].
    destruct (omul (ERat (Qred (1 / Qred (q + 1)))) p) as (r & E & M); auto. exists r. split; auto. now rewrite E.
Qed.

Lemma walk_bases b : Bv b -> exists h, walk fk (fun t => first_perform [log_perform fk] t) b = Ok (b, h).
Proof.
  intros [(s & Hs & ->)| ->]; [exists false; reflexivity|]. exists true. unfold logabs. cbn [walk first_perform log_perform is_e]. rewrite orb_true_r. cbn [guard].
  unfold logE. rewrite fk_log_abs. reflexivity.
Qed.
Theorem integrate_pow bf k fin e : poly XQ e -> factors e <= d ->
  exists r, integrate fk rng nm d bf k fin e v = Ok (Some r) /\ logpoly XQ v r.
Proof.
  intros P Ld.
  assert (Ex : forall t, poly XQ t -> expandable (F dom c (8 + (2 + n))) t = Ok false).
  { intros t Pt. exact (expandable_opoly Bv OP XB dom c n XB_neg XB_exp t (poly_o t Pt)). }
  destruct (integrate_gen XQ Xeq Xadd X1 dom rng nm c (2 + n) d v (mono XQ) (poly XQ)) with (SM := omono Bv XB) (SP := opoly Bv XB)
    (bf := bf) (k := k) (fin := fin) (e := e) as (r & Pr & E); auto.
  - intros t [a A|ts L Fs]; eauto.
  - intros ts H. inversion H as [? A|? L Fc R N]; subst; [inversion A as [? B0|]; inversion B0|]. eapply Forall_impl; [|exact Fc]. auto.
  - intros pre t l r M Er. inversion M as [? A|? L Fc R N]; subst; [inversion A as [? B0|]; inversion B0|]. apply Forall_app in Fc as [F1 F2]. inversion F2; subst.
    destruct (Frag.k_prod_monos XQ Xeq Xadd X1 c (6 + n) (pre ++ l)) as (r' & E' & M'); [apply Forall_app; split; (eapply Forall_impl; [|eassumption]; auto)|].
    change (4 + (6 + n)) with (8 + (2 + n)) in E'. rewrite Er in E'. injection E' as <-. exact M'.
  - intros t T _. exact (table_pow t T).
  - intros a b A _ B0. apply omul; auto. now apply mono_o.
  - intros l Fl. exact (k_sum_poly Bv OP XB c n l ltac:(eapply Forall_impl; [|exact Fl]; auto)).
  - change (8 + (2 + n)) with (10 + n) in E. rewrite E. destruct fin; [|eauto].
    destruct (simplify_opoly Bv OP XB XB_eq XB_add XB_1 dom c n XB_dom XB_neg XB_exp d r) as (s & Es & Ps); auto.
    + intros b [(s & Hs & ->)| ->]; reflexivity.
    + exact walk_bases.
    + rewrite Es. cbn [bind]. eauto.
Qed.
End Run.

(** ** C87: the plain code *)
Local Open Scope R_scope.
(** the domain oracle: powers of symbols with exponents [xb], and log|s| *)
Definition dom_log (xb : Q -> bool) (t : expr) : bool :=
  match t with EPow (ESym _) (ERat q) => xb q | ELog (EAbs (ESym _)) EE => true | _ => false end.
Lemma dom_log_right xb rho : (forall s, rho s <> 0) -> (forall s q, xb q = true -> pdom rho (ESym s) (ERat q)) -> right_at rho (dom_log xb).
Proof.
  intros Hr Hp t H. destruct t as [| | | | | | | | |b x|i b| |]; try discriminate; cbn [dom_log] in H.
  - destruct b; try discriminate. destruct x; try discriminate. now apply Hp.
  - destruct i as [| | | | | | | | | | | |i]; try discriminate. destruct i; try discriminate. destruct b; try discriminate. split; [|split; [apply exp_pos|apply exp1_ne1]].
    apply rp_unfold. split; auto. cbn [ev]. now apply Rabs_pos_lt.
Qed.
Lemma upd_ext rho sigma v t s : (s <> v -> rho s = sigma s) -> upd rho v t s = upd sigma v t s.
Proof. intros H. unfold upd. destruct (String.eqb s v) eqn:E; auto. apply H. intros ->. now rewrite String.eqb_refl in E. Qed.

(** definedness depends on the symbols that occur *)
Lemma rp_agree rho sg e : (forall s, contains s e = true -> rho s = sg s) -> rp rho e -> rp sg e.
Proof.
  induction e as [q| | | | |s| |ts IH|ts IH|b x IHb IHx|i b IHi IHb|f i IHi|i IHi] using expr_ind'; intros H R; apply rp_unfold in R as [R1 R2]; apply rp_unfold;
    (split; [now rewrite <- (ev_ext rho sg)|]); auto.
  - destruct R2 as [R2|R2]; [now left|right]. rewrite Forall_forall in *. intros t Ht. apply IH; auto. intros s Hs. apply H. cbn [contains]. apply existsb_exists. eauto.
  - apply IHb; auto. intros s Hs. apply H. cbn [contains]. now rewrite Hs.
Qed.
Lemma wd_agree rho sg e : (forall s, contains s e = true -> rho s = sg s) -> wd rho e -> wd sg e.
Proof.
  induction e as [q| | | | |s| |ts IH|ts IH|b x IHb IHx|i b IHi IHb|f i IHi|i IHi] using expr_ind'; intros H W; [exact W|exact W|exact W|exact W|exact W|exact W|exact W| | | | | |].
  - apply wd_sum in W. apply wd_sum. rewrite Forall_forall in *. intros t Ht. apply IH; auto. intros s Hs. apply H. cbn [contains]. apply existsb_exists. eauto.
  - apply wd_prod in W as [W1 W2]. apply wd_prod. split; auto. rewrite Forall_forall in *. intros t Ht. apply IH; auto. intros s Hs. apply H. cbn [contains]. apply existsb_exists. eauto.
  - destruct W as (W1 & W2 & W3). assert (Hb : forall s, contains s b = true -> rho s = sg s) by (intros s Hs; apply H; cbn [contains]; now rewrite Hs).
    assert (Hx : forall s, contains s x = true -> rho s = sg s) by (intros s Hs; apply H; cbn [contains]; rewrite Hs; apply orb_true_r).
    split; [auto|]. split; [auto|]. destruct W3 as [(q & -> & Hq & Hz)|W3]; [left; exists q; repeat split; auto; now rewrite <- (ev_ext rho sg b Hb)|right; now apply (rp_agree rho sg)].
  - destruct W as (W1 & W2 & W3 & W4 & W5). assert (Hi : forall s, contains s i = true -> rho s = sg s) by (intros s Hs; apply H; cbn [contains]; now rewrite Hs).
    assert (Hb : forall s, contains s b = true -> rho s = sg s) by (intros s Hs; apply H; cbn [contains]; rewrite Hs; apply orb_true_r).
    cbn [wd]. rewrite <- (ev_ext rho sg b Hb). split; [auto|]. split; [auto|]. split; [now apply (rp_agree rho sg)|]. auto.
  - destruct W as (W1 & W2). split; [auto|]. now rewrite <- (ev_ext rho sg i H).
  - apply IHi; auto.
Qed.

Section Plain.
Context (XQ : Q -> Prop) (xb : Q -> bool) (Hxb : forall q, xb q = true <-> XQ q).
Context (Xeq : forall p q, (p == q)%Q -> XQ p -> XQ q) (Xadd : forall p q, XQ p -> XQ q -> XQ (p + q)%Q) (X1 : XQ 1%Q) (Xopp : forall q, XQ q -> XQ (- q)%Q).
Context (c : cfg) (HX : fpow_exact (fpow c)) (m d : nat) (v : string) (nm : nat -> string) (bf : bool) (k : nat) (fin : bool) (e : expr).
Context (Hm : (10 <= m)%nat) (Hv : v <> ""%string) (P : poly XQ e) (Hd : (factors e <= d)%nat).
(** [ok]: the values allowed for a symbol; every allowed assignment has an open box of allowed assignments around it *)
Context (ok : R -> Prop) (ok0 : forall x, ok x -> x <> 0) (okp : forall rho s q, ok (rho s) -> XQ q -> pdom rho (ESym s) (ERat q))
  (ok1 : ok 1) (okopen : forall t, ok t -> locally t ok).
Theorem integrate_plain :
  exists r, integrate (PF c m) (fun _ _ => true) nm d bf k fin e v = Ok (Some r) /\ logpoly XQ v r /\
    (forall s, In s (names r) -> In s (names e) \/ s = v) /\
    forall rho, (forall s, In s (names e) -> ok (rho s)) -> ok (rho v) ->
      wd rho r /\ is_derive (fun t => ev (upd rho v t) r) (rho v) (ev rho e).
Proof.
  replace m with (10 + (m - 10))%nat by lia. set (n := (m - 10)%nat).
  destruct (integrate_pow XQ Xeq Xadd X1 Xopp (dom_log xb) (fun _ _ => false) nm (strictly c) n d v Hv (fun s q H => proj2 (Hxb q) H) eq_refl bf k fin e P Hd) as (r & E & Pr).
  set (B := fun (_ : string) x => ok x).
  assert (HB : forall rho, inB B rho -> right_at rho (dom_log xb)).
  { intros rho Hr. apply dom_log_right; [intros s; apply ok0, Hr|]. intros s q H. apply okp; [apply Hr|now apply Hxb]. }
  assert (HR : rng_ok B (fun _ _ => false)) by (intros y u H; discriminate).
  assert (We : wdB B e).
  { intros rho Hr. apply (poly_wd XQ); auto. intros s q Hq. split; [exact I|]. split; [exact I|]. apply okp; auto. apply Hr. }
  destruct (c60_integrate c HX (dom_log xb) (fun _ _ => false) B HB HR (10 + n) (10 + n) (Nat.le_refl _) d d (Nat.le_refl _) nm bf k fin e v r okopen We E) as [E' A].
  destruct (c68_scope c (dom_log xb) (fun _ _ => false) (10 + n) (10 + n) (Nat.le_refl _) d d (Nat.le_refl _) nm bf k fin e v r E) as [_ N].
  exists r. split; [exact E'|]. split; [exact Pr|]. split; [exact N|]. intros rho Hr Hrv.
  set (sg := fun s => if in_dec string_dec s (v :: names e) then rho s else 1).
  assert (Hs : inB B sg).
  { intros s. unfold B, sg. destruct (in_dec string_dec s (v :: names e)) as [[<-|Hi]|Hi]; auto. }
  assert (Eq : forall s, In s (v :: names e) -> sg s = rho s).
  { intros s Hi. unfold sg. destruct (in_dec string_dec s (v :: names e)); [auto|contradiction]. }
  destruct (A sg Hs) as [Wr D]. rewrite (Eq v) in D by now left.
  assert (Er : forall t, ev (upd sg v t) r = ev (upd rho v t) r).
  { intros t. apply ev_ext. intros s Hc. apply contains_names in Hc. apply upd_ext. intros Nv. apply Eq. destruct (N s Hc) as [Hi| ->]; [now right|congruence]. }
  split.
  - apply (wd_agree sg rho r); [|exact Wr]. intros s Hc. apply contains_names in Hc. apply Eq. destruct (N s Hc) as [Hi| ->]; [now right|now left].
  - replace (ev rho e) with (ev sg e); [eapply is_derive_ext; [|exact D]; exact Er|].
    apply ev_ext. intros s Hc. apply contains_names in Hc. apply Eq. now right.
Qed.
End Plain.

(** any rational exponents: an antiderivative at all positive values of the symbols *)
Theorem c87_integrate c m d v nm bf k fin e : fpow_exact (fpow c) -> (10 <= m)%nat -> v <> ""%string -> poly anyq e -> (factors e <= d)%nat ->
  exists r, integrate (PF c m) (fun _ _ => true) nm d bf k fin e v = Ok (Some r) /\ logpoly anyq v r /\
    (forall s, In s (names r) -> In s (names e) \/ s = v) /\
    forall rho, (forall s, In s (names e) -> 0 < rho s) -> 0 < rho v ->
      wd rho r /\ is_derive (fun t => ev (upd rho v t) r) (rho v) (ev rho e).
Proof.
  intros HX Hm Hv P Hd.
  apply (integrate_plain anyq (fun _ => true) (fun q => conj (fun _ => I) (fun _ => eq_refl)) (fun _ _ _ _ => I) (fun _ _ _ _ => I) I (fun _ _ => I) c HX m d v nm bf k fin e Hm Hv P Hd (fun x => 0 < x)).
  - intros x Hx. lra.
  - intros rho s q Hs _. right. apply rp_unfold. split; [exact Hs|exact I].
  - lra.
  - intros t Ht. apply (open_gt 0 t Ht).
Qed.
(** integer exponents: an antiderivative at all non-zero values of the symbols *)
Theorem c87_laurent c m d v nm bf k fin e : fpow_exact (fpow c) -> (10 <= m)%nat -> v <> ""%string -> poly intq e -> (factors e <= d)%nat ->
  exists r, integrate (PF c m) (fun _ _ => true) nm d bf k fin e v = Ok (Some r) /\ logpoly intq v r /\
    (forall s, In s (names r) -> In s (names e) \/ s = v) /\
    forall rho, (forall s, In s (names e) -> rho s <> 0) -> rho v <> 0 ->
      wd rho r /\ is_derive (fun t => ev (upd rho v t) r) (rho v) (ev rho e).
Proof.
  intros HX Hm Hv P Hd.
  apply (integrate_plain intq qisint (fun q => conj (fun H => H) (fun H => H)) intq_qeq intq_add eq_refl) with (ok := fun x => x <> 0).
  - intros q Hq. unfold intq in *. unfold qisint, denom in *. now rewrite Qred_opp.
  - exact HX.
  - exact Hm.
  - exact Hv.
  - exact P.
  - exact Hd.
  - intros x Hx. exact Hx.
  - intros rho s q Hs Hq. left. exists q. repeat split; auto.
  - exact R1_neq_R0.
  - intros t Ht. apply open_neq. exact Ht.
Qed.

Local Notation sx := (ESym "x"). Local Notation sy := (ESym "y").
(** 3 y x^-1 + x^(-1/2) - 2 x^(2/3) y^-2 *)
Example c87_ex :
  let e := ESum [EProd [ERat 3; EPow sx (ERat (-1)); sy]; EPow sx (ERat (-1#2)); EProd [ERat (-2); EPow sx (ERat (2#3)); EPow sy (ERat (-2))]] in
  poly anyq e /\ factors e = 4%nat /\
  integrate (PF exact_cfg 14) (fun _ _ => true) unm 12 false 3 true e "x" =
    Ok (Some (ESum [EProd [ERat 3; sy; logabs "x"]; EProd [ERat (-6 # 5); EPow sy (ERat (-2)); EPow sx (ERat (5 # 3))]; EProd [ERat 2; EPow sx (ERat (1 # 2))]])).
Proof. split; [apply (polyb_ok _ (fun _ => true)); [constructor|reflexivity]|]. split; [reflexivity|vm_compute; reflexivity]. Qed.

(** y^2 x^-1 + x^-2: integer exponents, antiderivative at non-zero values *)
Example c87_laurent_ex :
  let e := ESum [EProd [EPow sx (ERat (-1)); EPow sy (ERat 2)]; EPow sx (ERat (-2))] in
  poly intq e /\ factors e = 3%nat /\
  exists r, integrate (PF exact_cfg 14) (fun _ _ => true) unm 12 false 3 true e "x" = Ok (Some r) /\ In "x"%string (names r).
Proof.
  split; [apply (polyb_ok _ qisint); [intros q H; exact H|reflexivity]|]. split; [reflexivity|].
  eexists. split; [vm_compute; reflexivity|vm_compute; auto].
Qed.
