(** * PropsU: diff on trigonometric polynomials (C88). *)
From Coquelicot Require Import Coquelicot.
From Verif Require Import Base Expr Kernel Mono Funcs FMono Calc Sem RealLemmas Sound SoundPow Atoms Agree Oracle
  FSound CalcSound Cont Combi Expand ExpandSound Factor Regex Simp Pts PropsA PropsC PropsD Frag FragNum FragLib PropsJ PropsK CanonR PropsM NForm NUniq FragX FragXLib PropsT.
Close Scope R_scope.
Local Open Scope nat_scope.
Ltac splits := repeat match goal with |- _ /\ _ => split end.

(** ** Specification *)
(** arguments: a symbol, or an integer multiple 2s, 3s, .. *)
Definition targ (i : expr) : Prop :=
  exists s, s <> ""%string /\ (i = ESym s \/ exists z, (2 <= z)%Z /\ i = EProd [ERat (inject_Z z); ESym s]).
(** bases: symbols from [ss], functions from [T] of arguments from [args], and (if [lg]) log s *)
Definition tbase (ss : string -> Prop) (T : trig -> Prop) (args : expr -> Prop) (lg : bool) (b : expr) : Prop :=
  (exists s, s <> ""%string /\ ss s /\ b = ESym s) \/
  (exists f i, T f /\ targ i /\ args i /\ b = ETrig f i) \/
  (lg = true /\ exists s, s <> ""%string /\ ss s /\ b = ELog (ESym s) EE).

Lemma coin_arg i j : targ i -> targ j -> coin i j = false.
Proof. intros (s & Hs & [->|(z & Hz & ->)]) (s' & Hs' & [->|(z' & Hz' & ->)]); reflexivity. Qed.
Lemma repr_arg c n i : targ i -> exists r, k_repr (K c (2 + n)) i = Ok r /\ r <> ""%string.
Proof.
  intros (s & Hs & [->|(z & Hz & ->)]); [exists s; split; [reflexivity|exact Hs]|].
  change (2 + n) with (S (S n)). change (k_repr (K c (S (S n)))) with (repr_body c (K c (S n))). cbn [repr_body is_sub].
  assert (L : qlt0 (inject_Z z) = false) by (apply qlt0_f; change 0%Q with (inject_Z 0); rewrite <- Zle_Qle; lia). rewrite L.
  unfold numden. cbn [numden_go decon_pow]. rewrite (RealLemmas.numer_inject z). unfold denom. rewrite Qred_inject. cbn [inject_Z Qden].
  assert (N1 : (z =? 1)%Z = false) by (apply Z.eqb_neq; lia). change (qlt0 1) with false. cbn [bind]. rewrite N1. cbn [Z.eqb Pos.eqb bind prod_skip isq Qeq_bool].
  change (Qeq_bool 1 1) with true. cbn [mapM]. unfold prod_term_repr. change (k_repr (K c (S n)) (ESym s)) with (Ok s). cbn [bind is_sum islongsymbol orb].
  unfold ratz. cbn [bind isq]. change (Qeq_bool 1 1) with true. change (k_repr (K c (S n)) (ERat (inject_Z z))) with (Ok (str_Q (inject_Z z))). cbn [bind String.concat].
  eexists. split; [reflexivity|]. destruct (str_Q (inject_Z z)) as [|a t]; [|discriminate]. cbn [append]. discriminate.
Qed.
Lemma nwf_arg i : targ i -> exists m, nwf i = Ok m.
Proof. intros (s & Hs & [->|(z & Hz & ->)]); [eexists; reflexivity|]. eexists. cbn [nwf has_symany rcf filter negb prod_skip bind existsb orb andb]. reflexivity. Qed.
Lemma arg_symany i : targ i -> has_symany i = true.
Proof. intros (s & Hs & [->|(z & Hz & ->)]); reflexivity. Qed.

Lemma tbase_opaque ss T args lg : opaque (tbase ss T args lg).
Proof.
  assert (C : forall a b, tbase ss T args lg a -> tbase ss T args lg b -> coin a b = false).
  { intros a b [(s & Hs & _ & ->)|[(f & i & _ & Hi & _ & ->)|(_ & s & Hs & _ & ->)]] [(s' & Hs' & _ & ->)|[(f' & i' & _ & Hi' & _ & ->)|(_ & s' & Hs' & _ & ->)]]; try reflexivity.
    cbn [coin]. now apply coin_arg. }
  constructor; auto.
  - intros b [(s & Hs & _ & ->)|[(f & i & _ & Hi & _ & ->)|(_ & s & Hs & _ & ->)]]; reflexivity.
  - intros a b A B0 E. apply eqb_coin; auto.
  - intros b [(s & Hs & _ & ->)|[(f & i & _ & Hi & _ & ->)|(_ & s & Hs & _ & ->)]]; [eexists; reflexivity| |eexists; reflexivity].
    destruct (nwf_arg i Hi) as (m & E). cbn [nwf has_symany]. rewrite (arg_symany i Hi), E. cbn [bind]. eexists. reflexivity.
  - intros c n b [(s & Hs & _ & ->)|[(f & i & _ & Hi & _ & ->)|(_ & s & Hs & _ & ->)]]; change (3 + 0 + n) with (3 + n).
    + exists s. split; [reflexivity|exact Hs].
    + destruct (repr_arg c n i Hi) as (r & E & N). change (3 + n) with (S (2 + n)). change (k_repr (K c (S (2 + n)))) with (repr_body c (K c (2 + n))). cbn [repr_body]. unfold repr_fn. rewrite E. cbn [bind].
      destruct (str_nonempty _ N) as (a & ->), (last_nonempty _ N) as (z & ->). eexists. split; [reflexivity|]. destruct (_ && _), f; discriminate.
    + change (3 + n) with (S (S (S n))). change (k_repr (K c (S (S (S n))))) with (repr_body c (K c (S (S n)))). cbn [repr_body]. unfold log_label, py_eq. cbn [coin eeqb]. rewrite andb_false_r. cbn [bind].
      unfold repr_fn. change (k_repr (K c (S (S n))) (ESym s)) with (Ok s). cbn [bind].
      destruct (str_nonempty _ Hs) as (a & ->), (last_nonempty _ Hs) as (z & ->). eexists. split; [reflexivity|]. destruct (_ && _); discriminate.
Qed.

(** ** diff on polynomials in opaque bases *)
Section Diff.
Context (B : expr -> Prop) (HB : opaque B).
Context (X : expr -> Q -> Prop) (XC : forall b p q, (p == q)%Q -> X b p -> X b q) (XA : forall b p q, X b p -> X b q -> X b (p + q)%Q) (X1 : forall b, B b -> X b 1%Q)
  (XD : forall b q, X b q -> ~ (q == 0)%Q -> X b (q - 1)%Q).
Notation atom := (oatom B X). Notation fac := (ofac B X). Notation mono := (omono B X). Notation poly := (opoly B X).
Hint Constructors oatom ofac omono opoly : core.
Context (dom : expr -> bool) (c : cfg) (n : nat).
Notation fk := (F dom c (10 + n)).
Context (HD : forall b q, B b -> X b q -> pow_always b (ERat q) || dom (EPow b (ERat q)) = true).
Lemma omul2 a b : mono a -> mono b -> exists r, op_mul fk a b = Ok r /\ mono r.
Proof. intros A A2. exact (op_mul_mono B HB X XC XA X1 c (4 + n) a b A A2). Qed.
Lemma oneg2 a : mono a -> exists r, op_neg fk a = Ok r /\ mono r.
Proof. intros A. exact (op_neg_mono B HB X XC XA X1 c (4 + n) a A). Qed.
Lemma opow2 b q : B b -> X b q -> exists r, op_pow fk b (ERat q) = Ok r /\ mono r.
Proof.
  intros Hb Hq. assert (E : op_pow fk b (ERat q) = k_pow fk b (ERat q)).
  { pose proof (op_shape HB b Hb) as S. destruct b; try discriminate; reflexivity. }
  rewrite E. exact (fk_pow_mono B HB X dom c n HD b q Hb Hq).
Qed.
Lemma odiv2 q b : B b -> X b (-1)%Q -> exists r, op_div fk (ERat q) b = Ok r /\ mono r.
Proof.
  intros Hb Hq. assert (E : op_div fk (ERat q) b = (i <- k_pow fk b (ERat (-1));; k_prod fk [ERat q; i])).
  { pose proof (op_shape HB b Hb) as S. destruct b; try discriminate; reflexivity. }
  rewrite E. destruct (fk_pow_mono B HB X dom c n HD b (-1) Hb Hq) as (r & -> & Mr). cbn [bind].
  exact (k_prod_monos B HB X XC XA X1 c (4 + n) [ERat q; r] ltac:(auto)).
Qed.
(** [k]: depth at which the bases are differentiated *)
Context (k : nat) (v : string) (HK : forall b d, B b -> exists r, diffE fk (k + d) v b = Ok r /\ mono r).
Lemma diff_opow b q d : (exists r, diffE fk d v b = Ok r /\ mono r) -> B b -> X b q -> ~ (q == 0)%Q -> exists r, diffE fk (S d) v (EPow b (ERat q)) = Ok r /\ mono r.
Proof.
  intros (b' & Eb & Mb) Hb Hq H0. cbn [diffE]. change (negb (contains v (ERat q))) with true. cbn [op_sub bind]. unfold rat.
  assert (Xq : X b (Qred (q - 1))) by (eapply XC; [symmetry; apply Qred_correct|]; auto).
  destruct (opow2 b _ Hb Xq) as (p & -> & Mp). cbn [bind].
  destruct (omul2 (ERat q) p) as (m & E & Mm); auto. rewrite E. cbn [bind]. rewrite Eb. cbn [bind]. now apply omul2.
Qed.
Lemma diff_ofac a d : fac a -> exists r, diffE fk (S (k + d)) v a = Ok r /\ mono r.
Proof.
  intros [e [b Hb|b q Hb Hq H0]|q]; [|apply diff_opow; auto|exists (ERat 0); auto].
  replace (S (k + d)) with (k + S d) by lia. auto.
Qed.
Lemma ofac_mono l : Forall fac l -> Forall mono l.
Proof. apply Forall_impl. auto. Qed.
Lemma diff_oprod d l : Forall fac l -> forall pre, Forall fac pre ->
  exists ps, diff_prod fk (diffE fk (S (k + d)) v) pre l = Ok ps /\ Forall mono ps.
Proof.
  induction 1 as [|t l T H IH]; intros pre Hp; [exists []; auto|]. cbn [diff_prod].
  destruct (diff_ofac t d T) as (t' & -> & Mt). cbn [bind].
  destruct (k_prod_monos B HB X XC XA X1 c (4 + n) (t' :: pre ++ l)) as (p & Ep & Mp).
  { constructor; auto. apply Forall_app. split; now apply ofac_mono. }
  change (k_prod fk (t' :: pre ++ l)) with (k_prod (K c (6 + (4 + n))) (t' :: pre ++ l)). rewrite Ep. cbn [bind].
  destruct (IH (pre ++ [t])) as (ps & -> & Ms); [apply Forall_app; auto|]. cbn [bind]. eauto.
Qed.
Lemma diff_omono d e : mono e -> exists r, diffE fk (S (S (k + d))) v e = Ok r /\ poly r.
Proof.
  intros [e' F'|ts L F' R N].
  - destruct (diff_ofac e' (S d) F') as (r & E & M). exists r. replace (S (S (k + d))) with (S (k + S d)) by lia. auto.
  - change (diffE fk (S (S (k + d))) v (EProd ts)) with (ps <- diff_prod fk (diffE fk (S (k + d)) v) [] ts;; k_sum fk ps).
    destruct (diff_oprod d ts F' []) as (ps & E & Ms); auto.
    rewrite E. cbn [bind]. apply (k_sum_poly B HB X c n). eapply Forall_impl; [|exact Ms]. auto.
Qed.
Theorem diff_opoly d e : poly e -> exists r, diffE fk (S (S (S (k + d)))) v e = Ok r /\ poly r.
Proof.
  intros [e' M|ts L F'].
  - replace (S (S (S (k + d)))) with (S (S (k + S d))) by lia. now apply diff_omono.
  - change (diffE fk (S (S (S (k + d)))) v (ESum ts)) with (ts' <- mapM (diffE fk (S (S (k + d))) v) ts;; k_sum fk ts').
    destruct (mapM_total (diffE fk (S (S (k + d))) v) mono poly ts (diff_omono d) F') as (ps & E & P).
    rewrite E. cbn [bind]. exact (k_sum_poly B HB X c n ps P).
Qed.
End Diff.
Lemma k_prod_zero c n s : k_prod (K c (S n)) [ERat 0; ESym s] = Ok (ERat 0).
Proof.
  change (K c (S n)) with (build c (K c n)). cbn [build k_prod]. unfold prod_body, combine_prod.
  cbn [flat_prod flat_map flat_prod1 app List.length combine_prod_go decon_pow split_base]. unfold py_eq. cbn [coin eeqb]. rewrite andb_false_r. reflexivity.
Qed.
Lemma mk_trig_arg k m f i : targ i -> is_inverse f = false -> mk_trig k (S m) f i = Ok (ETrig f i).
Proof.
  intros (s & Hs & [->|(z & Hz & ->)]) I; [destruct f; try discriminate; reflexivity|].
  assert (L : qlt0 (inject_Z z) = false) by (apply qlt0_f; change 0%Q with (inject_Z 0); rewrite <- Zle_Qle; lia).
  assert (A : trig_base k f (EProd [ERat (inject_Z z); ESym s]) = Ok (ETrig f (EProd [ERat (inject_Z z); ESym s]))).
  { unfold trig_base. cbn [isq has_pi existsb orb]. rewrite andb_false_r. reflexivity. }
  cbn [mk_trig is_sub]. rewrite L, A. destruct f; try discriminate; cbn [bind]; reflexivity.
Qed.

Section Trig.
Context (ss : string -> Prop) (T : trig -> Prop) (args : expr -> Prop) (lg : bool).
Notation B := (tbase ss T args lg).
Let HB : opaque B := tbase_opaque ss T args lg.
Context (X : expr -> Q -> Prop) (XC : forall b p q, (p == q)%Q -> X b p -> X b q) (XA : forall b p q, X b p -> X b q -> X b (p + q)%Q) (X1 : forall b, B b -> X b 1%Q)
  (XD : forall b q, X b q -> ~ (q == 0)%Q -> X b (q - 1)%Q).
Notation atom := (oatom B X). Notation fac := (ofac B X). Notation mono := (omono B X). Notation poly := (opoly B X).
Hint Constructors oatom ofac omono opoly : core.
Context (dom : expr -> bool) (c : cfg) (n : nat).
Notation fk := (F dom c (10 + n)).
Context (HD : forall b q, B b -> X b q -> pow_always b (ERat q) || dom (EPow b (ERat q)) = true)
  (HT : forall f i, T f -> targ i -> args i -> trig_always f || dom (ETrig f i) = true).
(** [T] is closed under differentiation *)
Context (TI : forall f, T f -> is_inverse f = false) (T1 : T Sin -> T Cos) (T2 : T Cos -> T Sin) (T3 : T Tan -> T Sec) (T4 : T Sec -> T Tan) (T5 : T Csc -> T Sin) (T6 : T Cot -> T Tan)
  (X5 : T Csc -> forall i, X (ETrig Sin i) (-1)%Q) (X6 : T Cot -> forall i, X (ETrig Tan i) (-1)%Q) (XL : lg = true -> forall s, X (ESym s) (-1)%Q).
Lemma darg v d i : targ i -> exists q, diffE fk (2 + d) v i = Ok (ERat q).
Proof.
  assert (S1 : forall s d, diffE fk (S d) v (ESym s) = Ok (ERat (if String.eqb s v then 1 else 0))) by (intros s d0; cbn [diffE]; destruct (String.eqb s v); reflexivity).
  intros (s & Hs & [->|(z & Hz & ->)]); [eexists; exact (S1 s (S d))|].
  change (diffE fk (2 + d) v (EProd [ERat (inject_Z z); ESym s])) with
    (ps <- (p <- k_prod (K c (S (9 + n))) [ERat 0; ESym s];; ps <- (t' <- diffE fk (S d) v (ESym s);; q <- k_prod (K c (2 + (8 + n))) [t'; ERat (inject_Z z)];; Ok [q]);; Ok (p :: ps));; k_sum (K c (S (9 + n))) ps).
  rewrite k_prod_zero. cbn [bind]. rewrite S1. cbn [bind].
  destruct (k_prod_rats c (8 + n) [ERat (if String.eqb s v then 1 else 0); ERat (inject_Z z)]) as (q & -> & _); [auto|]. cbn [bind].
  destruct (k_sum_rats c (9 + n) [ERat 0; ERat q]) as (q' & -> & _); eauto.
Qed.
Lemma ktrig f i : T f -> targ i -> args i -> k_trig fk f i = Ok (ETrig f i).
Proof.
  intros Hf Hi Ha. change (k_trig fk f i) with (guard (trig_always f || dom (ETrig f i)) (mk_trig (gk dom (K c (10 + n))) (S (9 + n)) f i)).
  rewrite (HT f i) by auto. cbn [guard]. apply mk_trig_arg; auto.
Qed.
Lemma mtrig f i : T f -> targ i -> args i -> mono (ETrig f i).
Proof. intros. apply omono_fac, ofac_at, oat_b. right. left. eauto 6. Qed.
Let mul := omul2 B HB X XC XA X1 dom c n.
Let neg := oneg2 B HB X XC XA X1 dom c n.
Let pow := opow2 B HB X dom c n HD.
Let div := odiv2 B HB X XC XA X1 dom c n HD.
Lemma btrig f i : T f -> targ i -> args i -> B (ETrig f i).
Proof. intros. right. left. eauto 6. Qed.
Lemma dsimple v d f i : T f -> targ i -> args i -> (match f with Sin | Cos | Tan | Sec => True | _ => False end) -> exists r, diffE fk (3 + d) v (ETrig f i) = Ok r /\ mono r.
Proof.
  intros Hf Hi Ha Hs. destruct (darg v d i Hi) as (q & E). change (3 + d) with (S (2 + d)). destruct f; try contradiction; cbn [diffE].
  - rewrite (ktrig Cos) by auto. cbn [bind]. rewrite E. cbn [bind]. apply mul; auto using mtrig.
  - rewrite (ktrig Sin) by auto. cbn [bind]. destruct (neg (ETrig Sin i)) as (g & -> & Mg); [auto using mtrig|]. cbn [bind]. rewrite E. cbn [bind]. apply mul; auto.
  - rewrite (ktrig Sec) by auto. cbn [bind]. destruct (pow (ETrig Sec i) 2%Q) as (g & -> & Mg); [auto using btrig| |].
    { eapply XC; [|apply (XA _ _ _ (X1 _ (btrig Sec i (T3 Hf) Hi Ha)) (X1 _ (btrig Sec i (T3 Hf) Hi Ha)))]. reflexivity. }
    cbn [bind]. rewrite E. cbn [bind]. apply mul; auto.
  - rewrite (ktrig Sec) by auto. cbn [bind]. rewrite (ktrig Tan) by auto. cbn [bind].
    destruct (mul (ETrig Sec i) (ETrig Tan i)) as (m & -> & Mm); [auto using mtrig|auto using mtrig|]. cbn [bind]. rewrite E. cbn [bind]. apply mul; auto.
Qed.
Lemma drecip v d f i : T f -> targ i -> args i -> (match f with Sin | Tan => True | _ => False end) -> X (ETrig f i) (-1)%Q ->
  exists r, (g <- op_div fk (ERat 1) (ETrig f i);; diffE fk (4 + d) v g) = Ok r /\ mono r.
Proof.
  intros Hf Hi Ha Hs Hx.
  assert (E : op_div fk (ERat 1) (ETrig f i) = Ok (EPow (ETrig f i) (ERat (-1)))).
  { change (op_div fk (ERat 1) (ETrig f i)) with (j <- k_pow fk (ETrig f i) (ERat (-1));; k_prod (K c (S (9 + n))) [ERat 1; j]).
    rewrite (fk_pow_base B HB dom c n) by auto using btrig. change (Qeq_bool (-1) 0) with false. change (Qeq_bool (-1) 1) with false. cbn [bind].
    change (K c (S (9 + n))) with (build c (K c (9 + n))). cbn [build k_prod]. unfold prod_body, combine_prod.
    cbn [flat_prod flat_map flat_prod1 app List.length combine_prod_go decon_pow split_base]. unfold py_eq. cbn [coin eeqb]. rewrite andb_false_r. reflexivity. }
  rewrite E. cbn [bind]. change (4 + d) with (S (3 + d)). apply (diff_opow B HB X XC XA X1 XD dom c n HD); auto using btrig.
  - apply dsimple; auto. destruct f; auto.
  - discriminate.
Qed.
Lemma dbase v b d : B b -> exists r, diffE fk (5 + d) v b = Ok r /\ mono r.
Proof.
  intros [(s & Hs & Is & ->)|[(f & i & Hf & Hi & Ha & ->)|(L & s & Hs & Is & ->)]].
  - exists (ERat (if String.eqb s v then 1 else 0)). split; auto. change (5 + d) with (S (4 + d)). cbn [diffE]. destruct (String.eqb s v); reflexivity.
  - assert (NI := TI f Hf). destruct f; try discriminate.
    + exact (dsimple v (2 + d) Sin i Hf Hi Ha I).
    + exact (dsimple v (2 + d) Cos i Hf Hi Ha I).
    + exact (dsimple v (2 + d) Tan i Hf Hi Ha I).
    + change (5 + d) with (S (4 + d)). cbn [diffE]. rewrite (ktrig Sin) by auto. cbn [bind]. apply drecip; auto.
    + exact (dsimple v (2 + d) Sec i Hf Hi Ha I).
    + change (5 + d) with (S (4 + d)). cbn [diffE]. rewrite (ktrig Tan) by auto. cbn [bind]. apply drecip; auto.
  - change (5 + d) with (S (S (3 + d))). change (diffE fk (S (S (3 + d))) v (ELog (ESym s) EE)) with
      (guard (negb (strict c) || true || negb (contains v (ELog (ESym s) EE))) (i' <- diffE fk (S (3 + d)) v (ESym s);; op_div fk i' (ESym s))).
    rewrite orb_true_r. cbn [orb guard diffE bind]. destruct (String.eqb s v); apply div; auto; left; eauto.
Qed.
Theorem diff_trig v d e : poly e -> exists r, diffE fk (8 + d) v e = Ok r /\ poly r.
Proof. intros P. exact (diff_opoly B HB X XC XA X1 XD dom c n HD 5 v (dbase v) d e P). Qed.
End Trig.

(** ** Monotonicity in the class of bases *)
(** the arguments of the trigonometric functions in an expression *)
Fixpoint targs (e : expr) : list expr :=
  match e with
  | ESum ts | EProd ts => flat_map targs ts
  | EPow b x => targs b ++ targs x
  | ELog i b => targs i ++ targs b
  | ETrig _ i => [i]
  | EAbs i => targs i
  | _ => []
  end.
Section Sub.
Context (ss ss' : string -> Prop) (T : trig -> Prop) (aa aa' : expr -> Prop) (lg : bool) (X : expr -> Q -> Prop).
Let B := tbase ss T aa lg. Let B' := tbase ss' T aa' lg.
(** everything that occurs in [t] is allowed by the second class *)
Let occ (t : expr) : Prop := (forall s, In s (names t) -> ss' s) /\ (forall i, In i (targs t) -> aa' i).
Lemma sub_base b : B b -> occ b -> B' b.
Proof.
  intros [(s & Hs & Is & ->)|[(f & i & Hf & Hi & Ha & ->)|(L & s & Hs & Is & ->)]] [O1 O2]; [left|right; left|right; right].
  - exists s. splits; auto. apply O1. now left.
  - exists f, i. splits; auto. apply O2. now left.
  - split; auto. exists s. splits; auto. apply O1. now left.
Qed.
Lemma sub_fac t : ofac B X t -> occ t -> ofac B' X t.
Proof.
  intros [a [b Hb|b q Hb Hq H0]|q] O; [apply ofac_at, oat_b, sub_base; auto|apply ofac_at, oat_pow; auto|apply ofac_rat].
  apply sub_base; auto. destruct O as [O1 O2]. cbn [names targs] in *. rewrite app_nil_r in *. split; auto.
Qed.
Lemma sub_facs (P P' : expr -> Prop) l : (forall t, P t -> occ t -> P' t) -> Forall P l -> (forall s, In s (flat_map names l) -> ss' s) -> (forall i, In i (flat_map targs l) -> aa' i) -> Forall P' l.
Proof.
  intros H Fl O1 O2. rewrite Forall_forall in *. intros t Ht. apply H; auto. split; intros y Hy; [apply O1|apply O2]; apply in_flat_map; eauto.
Qed.
Lemma sub_mono t : omono B X t -> occ t -> omono B' X t.
Proof.
  intros [a A|ts L Fs R N] O; [now apply omono_fac, sub_fac|]. apply omono_prod; auto. destruct O as [O1 O2]. exact (sub_facs _ _ ts sub_fac Fs O1 O2).
Qed.
Lemma sub_poly t : opoly B X t -> occ t -> opoly B' X t.
Proof.
  intros [a A|ts L Fs] O; [now apply opoly_mono, sub_mono|]. apply opoly_sum; auto. destruct O as [O1 O2]. exact (sub_facs _ _ ts sub_mono Fs O1 O2).
Qed.
End Sub.
Lemma opoly_wd (B : expr -> Prop) (X : expr -> Q -> Prop) rho e : (forall b, B b -> wd rho b) -> (forall b q, B b -> X b q -> pdom rho b (ERat q)) -> (forall b, B b -> is_acc b = false) -> opoly B X e -> wd rho e.
Proof.
  intros Hb Hp Ha. assert (Fc : forall t, ofac B X t -> wd rho t).
  { intros t [a [b B0|b q B0 Hq H0]|q]; [auto| |exact I]. split; [auto|]. split; [exact I|]. auto. }
  assert (A : forall l, Forall (ofac B X) l -> filter is_acc l = rats l).
  { induction 1 as [|t l T H IH]; auto. unfold rats in *. cbn [filter]. rewrite IH. destruct T as [a [b B0|b q B0 Hq H0]|q]; auto. rewrite (Ha b B0). specialize (Ha b B0). destruct b; auto; discriminate. }
  assert (M : forall t, omono B X t -> wd rho t).
  { intros t [a F|ts L F R N]; [auto|]. apply wd_prod. split; [eapply Forall_impl; [|exact F]; auto|]. unfold one_const. now rewrite (A ts F). }
  intros [t T|ts L F]; [auto|]. apply wd_sum. eapply Forall_impl; [|exact F]. auto.
Qed.

Local Open Scope R_scope.
Definition alls (_ : string) : Prop := True. Definition alle (_ : expr) : Prop := True.
(** ** C88: sums of products of natural powers of symbols and sines and cosines of s, 2s, 3s, .. *)
Definition sincos (f : trig) : Prop := f = Sin \/ f = Cos.
Definition scpoly : expr -> Prop := opoly (tbase alls sincos alle false) (fun _ => natq).
Lemma sc_wd rho e : scpoly e -> wd rho e.
Proof.
  apply (opoly_wd (tbase alls sincos alle false) (fun _ => natq)); auto.
  - intros b [(s & Hs & _ & ->)|[(f & i & [->| ->] & (s & Hs & [->|(z & Hz & ->)]) & _ & ->)|(L & _)]]; [| | | | |discriminate]; cbn [wd tdom]; repeat split; unfold one_const; simpl; auto.
  - intros b q _ [A1 A2]. left. exists q. auto.
  - intros b [(s & Hs & _ & ->)|[(f & i & _ & _ & _ & ->)|(L & _)]]; [reflexivity|reflexivity|discriminate].
Qed.
Lemma diff_sc c n d v e : fpow_exact (fpow c) -> scpoly e -> exists r, diffE (GF (fun _ => false) c (10 + n)) (8 + d) v e = Ok r /\ scpoly r /\
    forall rho t, is_derive (fun s => ev (upd rho v s) e) t (ev (upd rho v t) r).
Proof.
  intros HX P.
  assert (HT : forall f i, sincos f -> targ i -> alle i -> trig_always f || false = true) by (intros f i [->| ->]; reflexivity).
  assert (NO : forall f, sincos f -> f <> Csc /\ f <> Cot /\ f <> Tan /\ f <> Sec) by (intros f [->| ->]; repeat split; discriminate).
  destruct (diff_trig alls sincos alle false (fun _ => natq) (fun _ => natq_qeq) (fun _ => natq_add) (fun _ _ => one_natq) (fun _ => natq_pred) (fun _ => false) (strictly c) n
    (fun b q _ H => eq_trans (orb_false_r _) (pow_always_nat b q H)) HT
    ltac:(intros f [->| ->]; reflexivity) ltac:(right; auto) ltac:(left; auto)
    ltac:(intros H; now destruct (NO _ H) as (_ & _ & ? & _)) ltac:(intros H; now destruct (NO _ H) as (_ & _ & _ & ?))
    ltac:(intros H; now destruct (NO _ H) as (? & _)) ltac:(intros H; now destruct (NO _ H) as (_ & ? & _))
    ltac:(intros H; now destruct (NO _ H) as (? & _)) ltac:(intros H; now destruct (NO _ H) as (_ & ? & _)) ltac:(discriminate) v d e P) as (r & E & Pr).
  exists r. split; [exact E|split; auto].
  intros rho t. destruct (c11_diff c HX (fun _ => false) (10 + n) _ (Nat.le_refl _) (8 + d) rho v (t - 1) (t + 1) e r) as [_ A]; auto.
  - intros u _ x Hx. discriminate.
  - intros u _. now apply sc_wd.
  - apply A. lra.
Qed.
Theorem c88_diff c m d v e : fpow_exact (fpow c) -> (10 <= m)%nat -> (8 <= d)%nat -> scpoly e ->
  exists r, diffE (PF c m) d v e = Ok r /\ scpoly r /\
    forall rho t, is_derive (fun s => ev (upd rho v s) e) t (ev (upd rho v t) r).
Proof.
  intros HX Hm Hd P. destruct (diff_sc c 0 0 v e HX P) as (r & E & Pr & D). exists r. split; [|split; auto].
  eapply rle_ok; [apply diffE_mono; [apply (GF_le (fun _ => false) c (10 + 0) m Hm)|exact Hd]|exact E].
Qed.

(** ** All six functions, and logarithms *)
Definition six (f : trig) : Prop := is_inverse f = false.
(** exponents: integer for the functions, natural for log s, and natural (integer if logarithms are allowed) for symbols *)
Definition texp (lg : bool) (b : expr) (q : Q) : Prop := match b with ETrig _ _ => intq q | ESym _ => if lg then intq q else natq q | _ => natq q end.
Definition trigpoly (lg : bool) : expr -> Prop := opoly (tbase alls six alle lg) (texp lg).
(** the points considered: no function vanishes or is undefined; if there are logarithms, symbols are positive *)
Definition regular (lg : bool) (rho : env) (e : expr) : Prop :=
  (forall i, In i (targs e) -> sin (ev rho i) <> 0 /\ cos (ev rho i) <> 0) /\ (lg = true -> forall s, In s (names e) -> 0 < rho s).

Definition memb (i : expr) (l : list expr) : bool := existsb (fun j => eeqb i j && negb (coin i j)) l.
Lemma memb_in i l : memb i l = true -> In i l.
Proof. intros H. apply existsb_exists in H as (j & Hj & H). apply andb_prop in H as [A C]. apply negb_true_iff in C. now rewrite (eqb_coin i j C A). Qed.
Lemma in_memb i l : targ i -> In i l -> memb i l = true.
Proof. intros T H. apply existsb_exists. exists i. split; auto. rewrite eeqb_refl, coin_arg; auto. Qed.
Definition dom_trig (lg : bool) (names : list string) (args : list expr) (t : expr) : bool :=
  match t with
  | ETrig f i => negb (is_inverse f) && memb i args
  | EPow (ETrig f i) (ERat q) => negb (is_inverse f) && memb i args && qisint q
  | EPow (ESym s) (ERat q) => lg && qisint q && existsb (String.eqb s) names
  | _ => false
  end.
Lemma tfun_reg f x : is_inverse f = false -> sin x <> 0 -> cos x <> 0 -> tdom f x /\ tev f x <> 0.
Proof.
  intros I S C. assert (SC : sin x / cos x <> 0) by (apply Rmult_integral_contrapositive_currified; [auto|now apply Rinv_neq_0_compat]).
  assert (CS : cos x / sin x <> 0) by (apply Rmult_integral_contrapositive_currified; [auto|now apply Rinv_neq_0_compat]).
  destruct f; try discriminate; cbn [tdom tev]; (split; [auto|]); auto; try (now apply Rinv_neq_0_compat).
Qed.

Lemma locally_all {A} (l : list A) (P : A -> R -> Prop) t : (forall a, In a l -> locally t (P a)) -> locally t (fun u => forall a, In a l -> P a u).
Proof.
  induction l as [|a l IH]; intros H; [apply filter_forall; intros u b []|].
  apply (filter_imp (fun u => P a u /\ forall b, In b l -> P b u)); [intros u [A1 A2] b [<-|Hb]; auto|].
  apply filter_and; [apply H; now left|]. apply IH. intros b Hb. apply H. now right.
Qed.
Lemma upd_at rho v s : upd rho v (rho v) s = rho s.
Proof. unfold upd. destruct (String.eqb s v) eqn:E; auto. apply String.eqb_eq in E. now subst. Qed.
Lemma ev_upd_at rho v e : ev (upd rho v (rho v)) e = ev rho e.
Proof. apply ev_ext. intros s _. apply upd_at. Qed.
Lemma sym_cont rho v s t : continuous (fun u => upd rho v u s) t.
Proof. unfold upd. destruct (String.eqb s v); [apply continuous_id|apply continuous_const]. Qed.
Lemma arg_cont rho v i t : targ i -> continuous (fun u => ev (upd rho v u) i) t.
Proof.
  intros (s & Hs & [->|(z & Hz & ->)]); [apply sym_cont|].
  apply (continuous_ext (fun u => mult (Q2R (inject_Z z)) (upd rho v u s))); [intros u; cbn [ev map Rprod fold_right]; unfold mult; simpl; ring|].
  apply (continuous_mult (K := R_AbsRing)); [apply continuous_const|apply sym_cont].
Qed.
Lemma regular_open lg rho v e : (forall i, In i (targs e) -> targ i) -> regular lg rho e -> locally (rho v) (fun t => regular lg (upd rho v t) e).
Proof.
  intros Ht [R1 R2]. apply filter_and.
  - apply locally_all. intros i Hi. apply filter_and.
    + assert (C : continuous (fun u => sin (ev (upd rho v u) i)) (rho v)) by (apply continuous_comp; [apply arg_cont; auto|apply continuous_sin]).
      apply (C (fun x => x <> 0)). apply open_neq. rewrite ev_upd_at. now apply R1.
    + assert (C : continuous (fun u => cos (ev (upd rho v u) i)) (rho v)) by (apply continuous_comp; [apply arg_cont; auto|apply continuous_cos]).
      apply (C (fun x => x <> 0)). apply open_neq. rewrite ev_upd_at. now apply R1.
  - destruct lg; [|apply filter_forall; discriminate].
    apply (filter_imp (fun u => forall s, In s (names e) -> 0 < upd rho v u s)); [auto|]. apply locally_all. intros s Hs.
    apply (sym_cont rho v s (rho v) (fun x => 0 < x)). apply open_gt. rewrite upd_at. now apply R2.
Qed.
Lemma trigpoly_targs (B : expr -> Prop) (X : expr -> Q -> Prop) e : (forall b, B b -> forall i, In i (targs b) -> targ i) -> opoly B X e -> forall i, In i (targs e) -> targ i.
Proof.
  intros HB. assert (Fc : forall t, ofac B X t -> forall i, In i (targs t) -> targ i).
  { intros t [a [b B0|b q B0 Hq H0]|q] i Hi; [eapply HB; eauto| |destruct Hi]. cbn [targs] in Hi. rewrite app_nil_r in Hi. eapply HB; eauto. }
  assert (M : forall t, omono B X t -> forall i, In i (targs t) -> targ i).
  { intros t [a A|ts L Fs R N] i Hi; [eapply Fc; eauto|]. cbn [targs] in Hi. apply in_flat_map in Hi as (u & Hu & Hi). rewrite Forall_forall in Fs. eapply Fc; eauto. }
  intros [a A|ts L Fs] i Hi; [eapply M; eauto|]. cbn [targs] in Hi. apply in_flat_map in Hi as (u & Hu & Hi). rewrite Forall_forall in Fs. eapply M; eauto.
Qed.
Lemma texp_eq lg b p q : (p == q)%Q -> texp lg b p -> texp lg b q.
Proof. intros E. destruct b, lg; cbn [texp]; first [now apply natq_qeq|now apply intq_qeq]. Qed.
Lemma texp_add lg b p q : texp lg b p -> texp lg b q -> texp lg b (p + q)%Q.
Proof. destruct b, lg; cbn [texp]; first [apply natq_add|apply intq_add]. Qed.
Lemma texp_1 lg b : texp lg b 1%Q.
Proof. destruct b, lg; cbn [texp]; first [apply one_natq|exact (eq_refl : intq 1)]. Qed.
Lemma texp_pred lg b q : texp lg b q -> ~ (q == 0)%Q -> texp lg b (q - 1)%Q.
Proof. assert (I1 : forall q, intq q -> intq (q - 1)) by (intros p A; apply (intq_add p (-1) A eq_refl)). destruct b, lg; cbn [texp]; auto using natq_pred. Qed.

Theorem c88_trig lg c m d v e : fpow_exact (fpow c) -> (10 <= m)%nat -> (8 <= d)%nat -> trigpoly lg e ->
  exists r, diffE (PF c m) d v e = Ok r /\ trigpoly lg r /\
    forall rho, regular lg rho e -> wd rho r /\ is_derive (fun t => ev (upd rho v t) e) (rho v) (ev rho r).
Proof.
  intros HX Hm Hd P. replace m with (10 + (m - 10))%nat by lia. replace d with (8 + (d - 8))%nat by lia. set (n := (m - 10)%nat).
  set (ss := fun s => In s (names e)). set (aa := fun i => In i (targs e)). set (dom := dom_trig lg (names e) (targs e)).
  assert (At : forall i, In i (targs e) -> targ i).
  { apply (trigpoly_targs (tbase alls six alle lg) (texp lg)); auto.
    intros b [(s & Hs & _ & ->)|[(f & i & _ & Hi & _ & ->)|(L & s & Hs & _ & ->)]] j Hj; cbn [targs app In] in Hj; intuition congruence. }
  assert (P' : opoly (tbase ss six aa lg) (texp lg) e) by (apply (sub_poly alls ss six alle aa); auto; split; auto).
  assert (HD : forall b q, tbase ss six aa lg b -> texp lg b q -> pow_always b (ERat q) || dom (EPow b (ERat q)) = true).
  { intros b q [(s & Hs & Is & ->)|[(f & i & Hf & Hi & Ha & ->)|(L & s & Hs & Is & ->)]] Hq; cbn [texp] in Hq.
    - destruct lg; [|now rewrite pow_always_nat]. apply orb_true_intro. right. cbn [dom dom_trig]. unfold dom, dom_trig. rewrite Hq. apply existsb_exists. exists s. split; auto. apply String.eqb_refl.
    - apply orb_true_intro. right. unfold dom, dom_trig. rewrite Hf, Hq, (in_memb i) by auto. reflexivity.
    - now rewrite pow_always_nat. }
  assert (HT : forall f i, six f -> targ i -> aa i -> trig_always f || dom (ETrig f i) = true).
  { intros f i Hf Hi Ha. apply orb_true_intro. right. unfold dom, dom_trig. rewrite Hf, (in_memb i) by auto. reflexivity. }
  destruct (diff_trig ss six aa lg (texp lg) (texp_eq lg) (texp_add lg) (fun b _ => texp_1 lg b) (texp_pred lg) dom (strictly c) n HD HT
    ltac:(auto) ltac:(reflexivity) ltac:(reflexivity) ltac:(reflexivity) ltac:(reflexivity) ltac:(reflexivity) ltac:(reflexivity)
    ltac:(intros; reflexivity) ltac:(intros; reflexivity) ltac:(intros ->; intros; reflexivity) v (d - 8)%nat e P') as (r & E & Pr).
  exists r. split; [|split].
  - eapply rle_ok; [apply diffE_mono; [apply (GF_le dom c (10 + n) _ (Nat.le_refl _))|reflexivity]|exact E].
  - apply (sub_poly ss alls six aa alle); auto. split; intros; exact I.
  - intros rho Rg. destruct (regular_open lg rho v e At Rg) as [eps He].
    assert (Rt : forall t, rho v - eps < t < rho v + eps -> regular lg (upd rho v t) e).
    { intros t Ht. apply He. unfold ball. simpl. unfold AbsRing_ball, abs, minus, plus, opp. simpl. apply Rabs_def1; lra. }
    assert (Ps := cond_pos eps).
    destruct (c11_diff c HX dom (10 + n) _ (Nat.le_refl _) (8 + (d - 8)) rho v (rho v - eps) (rho v + eps) e r) as [_ A]; auto.
    + intros t Ht x Hx. destruct (Rt t Ht) as [R1 R2]. destruct x as [| | | | | | | | |b x| |f i|]; try discriminate; cbn [dom dom_trig] in Hx; unfold dom, dom_trig in Hx.
      * destruct b as [| | | | |s| | | | | |f i|]; try discriminate; destruct x as [q| | | | | | | | | | | |]; try discriminate; apply andb_prop in Hx as [H1 H2]; apply andb_prop in H1 as [H0 H1].
        { left. exists q. repeat split; auto. left. apply existsb_exists in H2 as (s' & Hs & Es). apply String.eqb_eq in Es. subst s'. specialize (R2 H0 s Hs). cbn [ev]. lra. }
        { left. exists q. repeat split; auto. left. apply negb_true_iff in H0. apply memb_in in H1. destruct (R1 i H1). now apply tfun_reg. }
      * apply andb_prop in Hx as [H0 H1]. apply negb_true_iff in H0. apply memb_in in H1. destruct (R1 i H1). split; [now apply tfun_reg|]. destruct f; try discriminate; exact I.
    + intros t Ht. destruct (Rt t Ht) as [R1 R2]. apply (opoly_wd (tbase ss six aa lg) (texp lg)); auto.
      * intros b [(s & Hs & Is & ->)|[(f & i & Hf & Hi & Ha & ->)|(L & s & Hs & Is & ->)]]; [exact I| |].
        { destruct (R1 i Ha). split; [|now apply tfun_reg]. destruct Hi as (s & Hs & [->|(z & Hz & ->)]); [exact I|]. apply wd_prod. split; [repeat constructor|unfold one_const; simpl; auto]. }
        { cbn [wd]. splits; auto. apply rp_unfold. split; [cbn [ev]; auto|exact I]. apply exp_pos. apply exp1_ne1. }
      * intros b q [(s & Hs & Is & ->)|[(f & i & Hf & Hi & Ha & ->)|(L & s & Hs & Is & ->)]] Hq; cbn [texp] in Hq; left; exists q.
        { destruct lg; [|destruct Hq; auto]. splits; auto. left. specialize (R2 eq_refl s Is). cbn [ev]. lra. }
        { splits; auto. left. destruct (R1 i Ha). now apply tfun_reg. }
        { destruct Hq; auto. }
      * intros b [(s & Hs & _ & ->)|[(f & i & _ & _ & _ & ->)|(L & s & _ & _ & ->)]]; reflexivity.
    + destruct (A (rho v)) as [A1 A2]; [lra|]. split.
      * apply (wd_agree (upd rho v (rho v)) rho r); auto. intros s _. apply upd_at.
      * now rewrite ev_upd_at in A2.
Qed.

(** ** Programs over trigonometric sums: numbers, symbols, sin(k s), cos(k s) for any integer k,
    products of monomials, sums, differences, negations and derivatives *)
Inductive sexp :=
| SNum (q : Q) | SSym (s : string) | SSin (k : Z) (s : string) | SCos (k : Z) (s : string)
| SMul (a b : sexp) | SAdd (a b : sexp) | SSub (a b : sexp) | SNeg (a : sexp) | SDiff (v : string) (a : sexp).
Fixpoint sval (p : sexp) (rho : env) : R :=
  match p with
  | SNum q => Q2R q
  | SSym s => rho s
  | SSin k s => sin (IZR k * rho s)
  | SCos k s => cos (IZR k * rho s)
  | SMul a b => sval a rho * sval b rho
  | SAdd a b => sval a rho + sval b rho
  | SSub a b => sval a rho - sval b rho
  | SNeg a => - sval a rho
  | SDiff v a => Derive (fun t => sval a (upd rho v t)) (rho v)
  end.
Fixpoint srun (fk : fkern) (d : nat) (p : sexp) : res expr :=
  match p with
  | SNum q => Ok (rat q)
  | SSym s => Ok (ESym s)
  | SSin k s => i <- op_mul fk (ratz k) (ESym s);; k_trig fk Sin i
  | SCos k s => i <- op_mul fk (ratz k) (ESym s);; k_trig fk Cos i
  | SMul a b => x <- srun fk d a;; y <- srun fk d b;; op_mul fk x y
  | SAdd a b => x <- srun fk d a;; y <- srun fk d b;; op_add fk x y
  | SSub a b => x <- srun fk d a;; y <- srun fk d b;; op_sub fk x y
  | SNeg a => x <- srun fk d a;; op_neg fk x
  | SDiff v a => x <- srun fk d a;; diffE fk d v x
  end.
(** only monomials are multiplied *)
Fixpoint smono (p : sexp) : Prop :=
  match p with SNum _ | SSym _ | SSin _ _ | SCos _ _ => True | SMul a b => smono a /\ smono b | SNeg a => smono a | _ => False end.
Fixpoint sallowed (p : sexp) : Prop :=
  match p with
  | SNum _ => True | SSym s | SSin _ s | SCos _ s => ident s
  | SMul a b => (sallowed a /\ smono a) /\ (sallowed b /\ smono b)
  | SAdd a b | SSub a b => sallowed a /\ sallowed b
  | SNeg a | SDiff _ a => sallowed a
  end.

Lemma mk_sin k m i : mk_trig k (S m) Sin i = if is_sub i then m' <- op_neg k i;; r <- mk_trig k m Sin m';; op_neg k r else trig_base k Sin i.
Proof. reflexivity. Qed.
Lemma mk_cos k m i : mk_trig k (S m) Cos i = (r <- trig_base k Cos i;; match r with ETrig Cos _ => if is_sub i then m <- op_neg k i;; Ok (ETrig Cos m) else Ok r | _ => Ok r end).
Proof. reflexivity. Qed.
Section Prog.
Context (c : cfg) (HX : fpow_exact (fpow c)).
Notation sc := (strictly c).
Notation B := (tbase alls sincos alle false). Notation X := (fun (_ : expr) => natq).
Notation mono := (omono B X).
Let HB : opaque B := tbase_opaque alls sincos alle false.
Let nd := fun _ : expr => false.
(** the library at recursion bound 12, monitored *)
Notation gf := (GF nd c 12).
Lemma multiple k s : ident s -> exists i, op_mul (K sc 12) (ratz k) (ESym s) = Ok i /\ (forall rho, ev rho i = IZR k * rho s) /\
  (i = ERat 0 \/ i = ESym s \/ (k <> 1)%Z /\ (k <> 0)%Z /\ i = EProd [ratz k; ESym s]).
Proof.
  intros Hs. assert (A : nt0 anyq sc (ratz k)) by (apply nt0_rat, Qred_inject). assert (S1 : nform anyq sc (ESym s)) by now apply nform_sym.
  assert (S0 : nt0 anyq sc (ESym s)) by (apply nform_nt0; auto).
  destruct (Frag.op_mul_mono anyq (fun _ _ _ _ => I) (fun _ _ _ _ => I) I sc 8 (ratz k) (ESym s) (nt0_mono anyq sc _ A) (nt0_mono anyq sc _ S0)) as (i & E & _).
  change (4 + 8)%nat with 12%nat in E. exists i. split; [exact E|].
  assert (V : forall rho, ev rho i = IZR k * rho s).
  { intros rho. destruct (c02_mul c HX 12 12 rho (ratz k) (ESym s) i (Nat.le_refl _) I I E) as (_ & _ & ->). unfold ratz. cbn [ev]. now rewrite Q2R_inject. }
  split; [exact V|]. pose proof (op_mul_nt anyq (fun _ _ _ _ => I) (fun _ _ _ _ => I) I sc 12 _ _ _ A S0 E) as Ni.
  assert (U : forall j, nform anyq sc j -> (forall rho, ev rho j = IZR k * rho s) -> i = j).
  { intros j Nj Vj. apply (nform_unique anyq sc HX); auto using nt0_nform. intros rho _. now rewrite V, Vj. }
  destruct (Z.eq_dec k 0) as [->|K0]; [left; apply U; [apply nform_rat; reflexivity|intros rho; cbn [ev]; rewrite RMicromega.Q2R_0; simpl; ring]|].
  destruct (Z.eq_dec k 1) as [->|K1]; [right; left; apply U; [exact S1|intros rho; cbn [ev]; ring]|].
  right; right. splits; auto. apply U.
  - apply nt0_nform. right. exists (inject_Z k, [ESym s]). split.
    + destruct (natom_term anyq sc (ESym s)) as [(_ & _ & N) _]; [now constructor|]. repeat split; try apply N; [apply Qred_inject|].
      cbn [fst]. change 0%Q with (inject_Z 0). rewrite inject_Z_injective. exact K0.
    + unfold term. replace (Qeq_bool (inject_Z k) 1) with false; [reflexivity|]. symmetry. apply Bool.not_true_is_false. rewrite Qeq_bool_iff. change 1%Q with (inject_Z 1). rewrite inject_Z_injective. exact K1.
  - intros rho. unfold ratz. cbn [ev map Rprod fold_right]. rewrite Q2R_inject. ring.
Qed.
Lemma negated k s : ident s -> (k < 0)%Z -> exists j, op_neg (K sc 12) (EProd [ratz k; ESym s]) = Ok j /\ targ j /\ forall rho, ev rho j = - (IZR k * rho s).
Proof.
  intros Hs Hk. set (i := EProd [ratz k; ESym s]).
  assert (Nat : nterm anyq sc (inject_Z k, [ESym s]) /\ (k <> 1)%Z).
  { split; [|lia]. destruct (natom_term anyq sc (ESym s)) as [(_ & _ & N) _]; [now constructor|]. repeat split; try apply N; [apply Qred_inject|].
    cbn [fst]. change 0%Q with (inject_Z 0). rewrite inject_Z_injective. lia. }
  assert (TE : forall z, (z <> 1)%Z -> term (inject_Z z, [ESym s]) = EProd [ratz z; ESym s]).
  { intros z Hz. unfold term. replace (Qeq_bool (inject_Z z) 1) with false; [reflexivity|]. symmetry. apply Bool.not_true_is_false. rewrite Qeq_bool_iff. change 1%Q with (inject_Z 1). rewrite inject_Z_injective. exact Hz. }
  destruct Nat as [Nt K1]. assert (Ni : nt0 anyq sc i) by (right; exists (inject_Z k, [ESym s]); split; [exact Nt|now rewrite TE]).
  destruct (Frag.op_neg_mono anyq (fun _ _ _ _ => I) (fun _ _ _ _ => I) I sc 8 i (nt0_mono anyq sc _ Ni)) as (j & E & _).
  change (4 + 8)%nat with 12%nat in E. exists j. split; [exact E|].
  assert (Wi : forall rho, wd rho i) by (intros rho; apply wd_prod; split; [repeat constructor|unfold one_const; simpl; auto]).
  assert (V : forall rho, ev rho j = - (IZR k * rho s)).
  { intros rho. destruct (c01_neg c HX 12 12 rho i j (Nat.le_refl _) (Wi rho) E) as (_ & _ & ->). unfold i, ratz. cbn [ev map Rprod fold_right]. rewrite Q2R_inject. ring. }
  split; [|exact V]. pose proof (op_neg_nt anyq (fun _ _ _ _ => I) (fun _ _ _ _ => I) I sc 12 _ _ Ni E) as Nj.
  assert (U : forall j', nform anyq sc j' -> (forall rho, ev rho j' = - (IZR k * rho s)) -> j = j').
  { intros j' Nj' Vj. apply (nform_unique anyq sc HX); auto using nt0_nform. intros rho _. now rewrite V, Vj. }
  exists s. split; [now destruct Hs|].
  destruct (Z.eq_dec k (-1)) as [->|K2]; [left; apply U; [now apply nform_sym|intros rho; cbn [ev]; ring]|].
  right. exists (- k)%Z. split; [lia|]. apply U.
  - apply nt0_nform. right. exists (inject_Z (- k), [ESym s]). split; [|symmetry; apply TE; lia].
    destruct Nt as (_ & _ & N). repeat split; try apply N; [apply Qred_inject|]. cbn [fst]. change 0%Q with (inject_Z 0). rewrite inject_Z_injective. lia.
  - intros rho. cbn [ev map Rprod fold_right]. rewrite Q2R_inject, opp_IZR. ring.
Qed.
Lemma sfun f k s : sincos f -> ident s -> exists i e, op_mul gf (ratz k) (ESym s) = Ok i /\ k_trig gf f i = Ok e /\ mono e /\ wd (fun _ => 0) i /\ (forall rho, wd rho i) /\ forall rho, ev rho i = IZR k * rho s.
Proof.
  intros Hf Hs. destruct (multiple k s Hs) as (i & E & V & C). exists i.
  assert (Wi : forall rho, wd rho i).
  { intros rho. destruct C as [->|[->|(_ & _ & ->)]]; [exact I|exact I|]. apply wd_prod; split; [repeat constructor|unfold one_const; simpl; auto]. }
  assert (G : k_trig gf f i = mk_trig (gk nd (K sc 12)) 12 f i).
  { change (k_trig gf f i) with (guard (trig_always f || false) (mk_trig (gk nd (K sc 12)) 12 f i)). destruct Hf as [->| ->]; reflexivity. }
  assert (IF : is_inverse f = false) by (destruct Hf as [->| ->]; reflexivity).
  assert (M : forall j, targ j -> mono (ETrig f j)) by (intros j Tj; apply omono_fac, ofac_at, oat_b; right; left; exists f, j; splits; auto; exact I).
  assert (T : forall j, targ j -> exists e, mk_trig (gk nd (K sc 12)) 12 f j = Ok e /\ mono e) by (intros j Tj; exists (ETrig f j); split; auto; now apply mk_trig_arg).
  assert (R : exists e, k_trig gf f i = Ok e /\ mono e).
  { rewrite G. destruct C as [->|[->|(K1 & K0 & ->)]].
    - destruct Hf as [->| ->]; eexists; (split; [reflexivity|apply omono_fac, ofac_rat]).
    - apply T. exists s. split; [now destruct Hs|]. now left.
    - destruct (Z_lt_le_dec k 0) as [L|L]; [|apply T; exists s; split; [now destruct Hs|]; right; exists k; split; [lia|reflexivity]].
      destruct (negated k s Hs L) as (j & Ej & Tj & _).
      assert (Q : qlt0 (inject_Z k) = true) by (apply qlt0_iff; change 0%Q with (inject_Z 0); rewrite <- Zlt_Qlt; lia).
      assert (A : trig_base (gk nd (K sc 12)) f (EProd [ratz k; ESym s]) = Ok (ETrig f (EProd [ratz k; ESym s]))).
      { unfold trig_base, ratz. cbn [isq has_pi existsb orb]. rewrite andb_false_r. reflexivity. }
      destruct Hf as [->| ->]; [rewrite mk_sin|rewrite mk_cos].
      + unfold ratz in *. cbn [is_sub]. rewrite Q. change (op_neg (gk nd (K sc 12))) with (op_neg (K sc 12)). rewrite Ej. cbn [bind].
        rewrite mk_trig_arg by auto. cbn [bind].
        exact (op_neg_mono B HB X (fun _ => natq_qeq) (fun _ => natq_add) (fun _ _ => one_natq) sc 6 (ETrig Sin j) (M j Tj)).
      + rewrite A. cbn [bind]. unfold ratz in *. cbn [is_sub]. rewrite Q. change (op_neg (gk nd (K sc 12))) with (op_neg (K sc 12)). rewrite Ej. cbn [bind]. eauto. }
  destruct R as (e & Ee & Me). exists e. splits; auto.
Qed.
Theorem srun_total p : sallowed p -> exists e, srun gf 8 p = Ok e /\ scpoly e /\ (smono p -> mono e) /\ forall rho, ev rho e = sval p rho.
Proof.
  pose proof sc_wd as W.
  assert (SF : forall f k s, sincos f -> ident s -> exists e, (i <- op_mul gf (ratz k) (ESym s);; k_trig gf f i) = Ok e /\ mono e /\ forall rho, ev rho e = tev f (IZR k * rho s)).
  { intros f k s Hf Hs. destruct (sfun f k s Hf Hs) as (i & e & Ei & Ee & Me & _ & Wi & Vi). exists e. rewrite Ei. cbn [bind]. splits; auto.
    intros rho. assert (HF : FSound rho gf) by (apply GF_sound; [exact HX|intros x Hx; discriminate]).
    destruct (f_trig _ _ HF f i e Ee (Wi rho)) as (_ & _ & ->). now rewrite Vi. }
  induction p as [q|s|k s|k s|a IHa b IHb|a IHa b IHb|a IHa b IHb|a IHa|v a IHa]; cbn [sallowed srun sval smono]; intros N.
  - exists (rat q). unfold rat. splits; auto; [apply opoly_mono, omono_fac, ofac_rat|intros _; apply omono_fac, ofac_rat|]. intros rho. cbn [ev]. apply Qreals.Qeq_eqR, Qred_correct.
  - assert (M : mono (ESym s)) by (apply omono_fac, ofac_at, oat_b; left; exists s; splits; auto; [now destruct N|exact I]).
    exists (ESym s). splits; auto. now apply opoly_mono.
  - destruct (SF Sin k s (or_introl eq_refl) N) as (e & E & M & V). exists e. splits; auto. now apply opoly_mono.
  - destruct (SF Cos k s (or_intror eq_refl) N) as (e & E & M & V). exists e. splits; auto. now apply opoly_mono.
  - destruct N as [[Na Ma] [Nb Mb]]. destruct (IHa Na) as (x & Ex & Px & Mx & Vx), (IHb Nb) as (y & Ey & Py & My & Vy). rewrite Ex, Ey. cbn [bind].
    destruct (op_mul_mono B HB X (fun _ => natq_qeq) (fun _ => natq_add) (fun _ _ => one_natq) sc 6 x y (Mx Ma) (My Mb)) as (r & E & Mr).
    exists r. split; [exact E|]. split; [now apply opoly_mono|]. split; [auto|]. intros rho. destruct (c02_mul c HX 12 12 rho x y r (Nat.le_refl _) (W _ _ Px) (W _ _ Py) E) as (_ & _ & ->). now rewrite Vx, Vy.
  - destruct N as [Na Nb]. destruct (IHa Na) as (x & Ex & Px & _ & Vx), (IHb Nb) as (y & Ey & Py & _ & Vy). rewrite Ex, Ey. cbn [bind].
    destruct (op_add_poly B HB X sc 2 x y Px Py) as (r & E & Pr).
    exists r. split; [exact E|]. split; [exact Pr|]. split; [intros []|]. intros rho. destruct (c01_add c HX 12 12 rho x y r (Nat.le_refl _) (W _ _ Px) (W _ _ Py) E) as (_ & _ & ->). now rewrite Vx, Vy.
  - destruct N as [Na Nb]. destruct (IHa Na) as (x & Ex & Px & _ & Vx), (IHb Nb) as (y & Ey & Py & _ & Vy). rewrite Ex, Ey. cbn [bind].
    destruct (op_sub_poly B HB X (fun _ => natq_qeq) (fun _ => natq_add) (fun _ _ => one_natq) sc 1 x y Px Py) as (r & E & Pr).
    exists r. split; [exact E|]. split; [exact Pr|]. split; [intros []|]. intros rho. destruct (c01_sub c HX 12 12 rho x y r (Nat.le_refl _) (W _ _ Px) (W _ _ Py) E) as (_ & _ & ->). now rewrite Vx, Vy.
  - destruct (IHa N) as (x & Ex & Px & Mx & Vx). rewrite Ex. cbn [bind].
    destruct (op_neg_poly B HB X (fun _ => natq_qeq) (fun _ => natq_add) (fun _ _ => one_natq) sc 2 x Px) as (r & E & Pr).
    exists r. split; [exact E|]. split; [exact Pr|]. split.
    + intros Ma. destruct (op_neg_mono B HB X (fun _ => natq_qeq) (fun _ => natq_add) (fun _ _ => one_natq) sc 6 x (Mx Ma)) as (r' & E' & Mr).
      change (10 + 2)%nat with (6 + 6)%nat in E. rewrite E in E'. injection E' as <-. exact Mr.
    + intros rho. destruct (c01_neg c HX 12 12 rho x r (Nat.le_refl _) (W _ _ Px) E) as (_ & _ & ->). now rewrite Vx.
  - destruct (IHa N) as (x & Ex & Px & _ & Vx). rewrite Ex. cbn [bind].
    destruct (diff_sc c 2 0 v x HX Px) as (r & E & Pr & D). exists r. split; [exact E|]. split; [exact Pr|]. split; [intros []|].
    intros rho. symmetry. specialize (D rho (rho v)). rewrite ev_upd_at in D. apply is_derive_unique. eapply is_derive_ext; [|exact D]. intros t. apply Vx.
Qed.
Lemma srun_le m d p : (12 <= m)%nat -> (8 <= d)%nat -> rle (srun gf 8 p) (srun (PF c m) d p).
Proof.
  intros Hm Hd. assert (L : fle gf (PF c m)) by (apply GF_le; exact Hm). pose proof (fle_k _ _ L) as LK.
  induction p as [q|s|k s|k s|a IHa b IHb|a IHa b IHb|a IHa b IHb|a IHa|v a IHa]; cbn [srun]; mono.
  now apply diffE_mono.
Qed.
Theorem c88_computes p : sallowed p -> exists e, (forall m d, (12 <= m)%nat -> (8 <= d)%nat -> srun (PF c m) d p = Ok e) /\ forall rho, ev rho e = sval p rho.
Proof.
  intros A. destruct (srun_total p A) as (e & E & _ & _ & V). exists e. split; auto. intros m d Hm Hd. eapply rle_ok; [now apply srun_le|exact E].
Qed.
End Prog.

Local Notation sx := (ESym "x"). Local Notation sy := (ESym "y").
(** d/dx (x^2 sin(-2x) - 3 cos x cos y) *)
Example c88_ex :
  let p := SDiff "x" (SSub (SMul (SMul (SSym "x") (SSym "x")) (SSin (-2) "x")) (SMul (SMul (SNum 3) (SCos 1 "x")) (SCos 1 "y"))) in
  sallowed p /\ srun (PF exact_cfg 12) 8 p =
    Ok (ESum [EProd [ERat 3; ETrig Cos sy; ETrig Sin sx]; EProd [ERat (-2); sx; ETrig Sin (EProd [ERat 2; sx])]; EProd [ERat (-2); ETrig Cos (EProd [ERat 2; sx]); EPow sx (ERat 2)]]).
Proof. split; [cbn [sallowed smono]; unfold ident; splits; first [exact I|reflexivity|discriminate]|vm_compute; reflexivity]. Qed.
(** y tan(2x) + csc(x)^2 log(y) *)
Example c88_trig_ex :
  let e := ESum [EProd [sy; ETrig Tan (EProd [ERat 2; sx])]; EProd [EPow (ETrig Csc sx) (ERat 2); ELog sy EE]] in
  trigpoly true e /\ regular true (fun _ => 1 / 2) e.
Proof.
  assert (BY : tbase alls six alle true sy) by (left; exists "y"%string; splits; [discriminate|exact I|reflexivity]).
  assert (BL : tbase alls six alle true (ELog sy EE)) by (right; right; split; auto; exists "y"%string; splits; [discriminate|exact I|reflexivity]).
  assert (BT : tbase alls six alle true (ETrig Tan (EProd [ERat 2; sx]))).
  { right; left. exists Tan, (EProd [ERat 2; sx]). splits; auto; [reflexivity| |exact I]. exists "x"%string. split; [discriminate|]. right. exists 2%Z. split; [lia|reflexivity]. }
  assert (BC : tbase alls six alle true (ETrig Csc sx)).
  { right; left. exists Csc, sx. splits; auto; [reflexivity| |exact I]. exists "x"%string. split; [discriminate|]. now left. }
  split.
  - apply opoly_sum; [simpl; lia|]. constructor; [|constructor; [|constructor]]; apply omono_prod; try (simpl; lia).
    + repeat (apply Forall_cons; [apply ofac_at, oat_b; assumption|]). apply Forall_nil.
    + cbn. repeat constructor; cbn; intuition discriminate.
    + constructor; [apply ofac_at, oat_pow; [exact BC|reflexivity|discriminate]|]. constructor; [apply ofac_at, oat_b; assumption|constructor].
    + cbn. repeat constructor; cbn; intuition discriminate.
  - assert (P2 : PI / 2 > 1) by (pose proof PI2_1; lra). assert (G : forall x, 0 < x <= 1 -> sin x <> 0 /\ cos x <> 0).
    { intros x Hx. split; apply Rgt_not_eq; [apply sin_gt_0; lra|apply cos_gt_0; lra]. }
    split; [|intros _ s _; lra]. intros i Hi. cbn in Hi. destruct Hi as [<-|[<-|[]]]; apply G; cbn [ev map Rprod fold_right]; [|lra].
    replace (Q2R 2) with 2 by (unfold Q2R; simpl; lra). lra.
Qed.
