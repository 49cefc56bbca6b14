(** * LinDef: derivatives and definite integrals of polynomials plus sines and cosines of linear functions (C97). *)
From Coquelicot Require Import Coquelicot.
From Coq Require Lqa.
From Verif Require Import Base Expr Kernel Mono Funcs FMono Calc Sem RealLemmas Sound SoundPow Atoms Agree Oracle
  FSound CalcSound Cont Combi Expand ExpandSound Factor Regex Simp Pts Match TrigSimp Poly PolyQ Table Trans TransMono TransSound
  Search SearchMono SearchSound Shape Interval PropsA PropsC PropsD PropsE PropsF PropsG Frag FragNum FragLib PropsJ PropsK FragInt PropsL FragX FragXLib FragG PropsT TrigTot TrigDef LinTot IntTree2 LinInt LinProps.
Close Scope R_scope.
Local Open Scope nat_scope.

(** ** diff *)
Section Eqs.
Context (fk : fkern) (d : nat) (v : string).
Lemma dE_rat q : diffE fk (S d) v (ERat q) = Ok (ERat 0).
Proof. reflexivity. Qed.
Lemma dE_sym : diffE fk (S d) v (ESym v) = Ok (ERat 1).
Proof. cbn [diffE]. now rewrite String.eqb_refl. Qed.
Lemma dE_sum ts : diffE fk (S d) v (ESum ts) = (ts' <- mapM (diffE fk d v) ts;; k_sum fk ts').
Proof. reflexivity. Qed.
Lemma dE_prod ts : diffE fk (S d) v (EProd ts) = (ps <- diff_prod fk (diffE fk d v) [] ts;; k_sum fk ps).
Proof. reflexivity. Qed.
Lemma dE_pow q : diffE fk (S d) v (EPow (ESym v) (ERat q)) = (x1 <- op_sub fk (ERat q) (ERat 1);; p <- op_pow fk (ESym v) x1;; m <- op_mul fk (ERat q) p;; b' <- diffE fk d v (ESym v);; op_mul fk m b').
Proof. reflexivity. Qed.
Lemma dE_sin i : diffE fk (S d) v (ETrig Sin i) = (f <- k_trig fk Cos i;; i' <- diffE fk d v i;; op_mul fk f i').
Proof. reflexivity. Qed.
Lemma dE_cos i : diffE fk (S d) v (ETrig Cos i) = (f <- k_trig fk Sin i;; g <- op_neg fk f;; i' <- diffE fk d v i;; op_mul fk g i').
Proof. reflexivity. Qed.
Lemma neg_trig f i : op_neg fk (ETrig f i) = op_mul fk (ERat (-1)) (ETrig f i).
Proof. reflexivity. Qed.
End Eqs.
Section Diff.
Context (dom : expr -> bool) (c : cfg) (n : nat) (v : string) (Hv : v <> ""%string).
Notation fk := (F dom c (16 + n)).
Notation tm := (LinTot.tmono v). Notation tp := (LinTot.tpoly v). Notation tx := (LinTot.tx v).
Hint Constructors LinTot.tx LinTot.tmono : core.
Lemma lxs_q q : LinTot.xs (ERat q) = [].
Proof. reflexivity. Qed.
Lemma lxs_le t : tm t -> List.length (LinTot.xs t) <= 1.
Proof. intros M. apply (LinTot.xs_tx v t M). Qed.
Lemma mulr t q : tm t -> exists r, op_mul fk t (ERat q) = Ok r /\ tm r.
Proof.
  intros M. assert (G : exists r, k_prod fk [t; ERat q] = Ok r /\ tm r).
  { apply (LinTot.tprod v Hv c (4 + n)); auto. cbn [flat_map]. rewrite lxs_q, !app_nil_r. now apply lxs_le. }
  destruct t; try exact G. cbn [op_mul]. eexists. split; [reflexivity|]. constructor.
Qed.
Lemma mull t q : tm t -> exists r, op_mul fk (ERat q) t = Ok r /\ tm r.
Proof.
  intros M. assert (G : exists r, k_prod fk [ERat q; t] = Ok r /\ tm r).
  { apply (LinTot.tprod v Hv c (4 + n)); auto. cbn [flat_map]. rewrite lxs_q, !app_nil_r. now apply lxs_le. }
  destruct t; try exact G. cbn [op_mul]. eexists. split; [reflexivity|]. constructor.
Qed.
Lemma diff_tx d x : tx x -> exists r, diffE fk (S (S (S (S d)))) v x = Ok r /\ tm r.
Proof.
  intros [|q N Z|f i Hf Hi].
  - exists (ERat 1). rewrite dE_sym. auto.
  - rewrite dE_pow. cbn [op_sub bind]. set (q1 := Qred (q - 1)).
    assert (N1 : natq q1). { unfold q1. eapply natq_qeq; [symmetry; apply Qred_correct|]. now apply natq_pred. }
    assert (P : exists p, op_pow fk (ESym v) (rat (q - 1)) = Ok p /\ tm p).
    { unfold rat. fold q1. change (op_pow fk (ESym v) (ERat q1)) with (guard (pow_always (ESym v) (ERat q1) || dom (EPow (ESym v) (ERat q1))) (k_pow (K c (S (15 + n))) (ESym v) (ERat q1))).
      rewrite (pow_always_nat _ q1 N1), k_pow_sym. cbn [orb guard]. destruct (Qeq_bool q1 0) eqn:E0; [eauto|]. destruct (Qeq_bool q1 1) eqn:E1; [eauto|].
      eexists. split; [reflexivity|]. apply LinTot.tm_x, LinTot.tx_pow; auto. intros Z1. apply Qeq_bool_neq in E0. contradiction. }
    destruct P as (p & -> & Mp). cbn [bind]. destruct (mull p q Mp) as (m & -> & Mm). cbn [bind]. rewrite dE_sym. cbn [bind]. now apply mulr.
  - destruct (diff_lin v dom c n d i Hi) as (q & Nq & E). assert (C : tm (ETrig Cos i) /\ tm (ETrig Sin i)) by (split; apply LinTot.tm_x, LinTot.tx_trig; auto). destruct C as [MC MS].
    destruct Hf as [-> | ->].
    + rewrite dE_sin, (LinTot.ktrig_t v dom c n Cos i), E; auto. cbn [bind]. now apply mulr.
    + rewrite dE_cos, (LinTot.ktrig_t v dom c n Sin i); auto. cbn [bind]. rewrite neg_trig. destruct (mull (ETrig Sin i) (-1) MS) as (r & Er & Mr). rewrite Er. cbn [bind].
      rewrite E. cbn [bind]. now apply mulr.
Qed.
Lemma diff_tmono d t : tm t -> exists r, diffE fk (S (S (S (S (S d))))) v t = Ok r /\ tp r.
Proof.
  assert (P2 : forall a b, tm a -> tm b -> List.length (LinTot.xs a) + List.length (LinTot.xs b) <= 1 -> exists r, k_prod fk [a; b] = Ok r /\ tp r).
  { intros a b Ma Mb L. destruct (LinTot.tprod v Hv c (4 + n) [a; b]) as (r & E & M); [auto| |exists r; split; [exact E|now left]].
    cbn [flat_map]. rewrite app_nil_r, app_length. exact L. }
  intros [q|x T|q x Z T|q x Z T].
  - exists (ERat 0). rewrite dE_rat. split; [reflexivity|]. left. constructor.
  - destruct (diff_tx (S d) x T) as (r & E & M). exists r. split; [exact E|now left].
  - destruct (diff_tx d x T) as (x' & E & M). rewrite dE_prod. cbn [diff_prod List.app]. rewrite dE_rat, E. cbn [bind].
    destruct (P2 (ERat 0) x) as (r1 & E1 & M1); auto. { rewrite lxs_q. apply lxs_le. auto. }
    rewrite E1. cbn [bind]. destruct (P2 x' (ERat q)) as (r2 & E2 & M2); auto. { rewrite lxs_q, Nat.add_0_r. now apply lxs_le. }
    rewrite E2. cbn [bind]. apply (LinTot.tsum v Hv c n). auto.
  - destruct (diff_tx d x T) as (x' & E & M). rewrite dE_prod. cbn [diff_prod List.app]. rewrite dE_rat, E. cbn [bind].
    destruct (P2 x' (ERat q)) as (r2 & E2 & M2); auto. { rewrite lxs_q, Nat.add_0_r. now apply lxs_le. }
    rewrite E2. cbn [bind]. destruct (P2 (ERat 0) x) as (r1 & E1 & M1); auto. { rewrite lxs_q. apply lxs_le. auto. }
    rewrite E1. cbn [bind]. apply (LinTot.tsum v Hv c n). auto.
Qed.
Lemma diff_tpoly d t : tp t -> exists r, diffE fk (S (S (S (S (S (S d)))))) v t = Ok r /\ tp r.
Proof.
  intros [M|(ts & -> & _ & Fs)]; [exact (diff_tmono (S d) t M)|]. rewrite dE_sum.
  assert (G : exists l, mapM (diffE fk (S (S (S (S (S d))))) v) ts = Ok l /\ Forall tp l).
  { induction Fs as [|t l T _ (l' & E & Fl)]; [exists []; auto|]. destruct (diff_tmono d t T) as (r & Er & Mr). exists (r :: l'). cbn [mapM]. rewrite Er. cbn [bind]. rewrite E. cbn [bind]. auto. }
  destruct G as (l & E & Fl). rewrite E. cbn [bind]. now apply (LinTot.tsum v Hv c n).
Qed.
End Diff.

(** ** Putting a rational number for v *)
Section Def.
Context (dom : expr -> bool) (c : cfg) (n : nat) (v : string) (Hv : v <> ""%string).
Notation fk := (F dom c (16 + n)).
Notation tm := (TrigTot.tmono v true). Notation tp := (TrigTot.tpoly v true).
Hint Constructors TrigTot.tx TrigTot.tmono : core.
Section At.
Context (a : Q).
Notation sb := (subs fk [(v, ERat a)]).
Lemma sub_lterm t : lterm v t -> exists q, sb t = Ok (ERat q).
Proof.
  intros [->|(k & _ & _ & ->)]; [exists a; apply (sub_v dom c (5 + n) v a)|]. cbn [subs]. pose proof (sub_v dom c (5 + n) v a) as E. cbn [subs] in E.
  change (F dom c (11 + (5 + n))) with fk in E. rewrite E. cbn [bind].
  destruct (k_prod_rats c (14 + n) [ERat k; ERat a]) as (q & Eq & _); [repeat constructor|]. exists q. exact Eq.
Qed.
Lemma sub_lin i : lin v i -> exists q, sb i = Ok (ERat q).
Proof.
  intros (_ & [H|(t & b & H & _ & ->)]); [now apply sub_lterm|]. destruct (sub_lterm t H) as (q & E). cbn [subs] in E |- *. rewrite E. cbn [bind].
  destruct (k_sum_rats c (15 + n) [ERat q; ERat b]) as (p & Ep & _); [repeat constructor|]. exists p. exact Ep.
Qed.
Lemma sub_ltx x : LinTot.tx v x -> exists r, sb x = Ok r /\ tm r.
Proof.
  intros [|q N Z|f i Hf Hi].
  - apply (sub_tx dom c (5 + n) v Hv a); auto.
  - apply (sub_tx dom c (5 + n) v Hv a); auto.
  - destruct (sub_lin i Hi) as (q & E). change (sb (ETrig f i)) with (i' <- sb i;; k_trig fk f i'). rewrite E. cbn [bind]. apply (ktrig_q dom c (5 + n) v Hv f q Hf).
Qed.
Lemma sub_ltmono t : LinTot.tmono v t -> exists r, sb t = Ok r /\ tm r.
Proof.
  intros [q|x T|q x Z T|q x Z T].
  - exists (ERat q). split; [reflexivity|constructor].
  - now apply sub_ltx.
  - destruct (sub_ltx x T) as (r & E & M). cbn [subs] in E |- *. rewrite E. cbn [bind].
    apply (TrigTot.tprod v true Hv c (10 + n)); auto. cbn [flat_map]. rewrite xs_q. cbn [app]. rewrite app_nil_r. apply (TrigTot.xs_tx v true r M).
  - destruct (sub_ltx x T) as (r & E & M). cbn [subs] in E |- *. rewrite E. cbn [bind].
    apply (TrigTot.tprod v true Hv c (10 + n)); auto. cbn [flat_map]. rewrite xs_q. rewrite !app_nil_r. apply (TrigTot.xs_tx v true r M).
Qed.
Lemma sub_ltpoly t : LinTot.tpoly v t -> exists r, sb t = Ok r /\ tp r.
Proof.
  intros [M|(ts & -> & _ & Fs)].
  - destruct (sub_ltmono t M) as (r & E & Mr). exists r. split; auto. now left.
  - cbn [subs]. match goal with |- exists r, (ts' <- ?g ts;; _) = Ok r /\ _ => assert (G : exists ts', g ts = Ok ts' /\ Forall tp ts') end.
    { induction Fs as [|u l U _ (l' & E & Fl)]; [exists []; auto|]. destruct (sub_ltmono u U) as (r & Er & Mr).
      exists (r :: l'). rewrite Er. cbn [bind]. rewrite E. cbn [bind]. split; auto. constructor; auto. now left. }
    destruct G as (ts' & -> & G). cbn [bind]. exact (TrigTot.tsum v true Hv c (6 + n) ts' G).
Qed.
End At.
Context (rng : string -> expr -> bool) (nm : nat -> string) (d : nat) (Hnm : forall x, nm x <> v /\ nm x <> ""%string) (Hrng : forall y u, rng y u = true).
Lemma bounds_lin bf k e a b : 5 <= d -> LinTot.tpoly v e ->
  exists r, integrate_bounds fk rng nm d bf k e v (ERat a) (ERat b) = Ok (Some r) /\ tp r.
Proof.
  intros L P. unfold integrate_bounds.
  destruct (integrate_lin dom rng nm c n d v Hv Hnm Hrng) with (bf := bf) (k := k) (fin := false) (e := e) as (r & E & Pr); auto; try lia.
  rewrite E. cbn [bind].
  destruct (sub_ltpoly b r Pr) as (fb & -> & Pb). destruct (sub_ltpoly a r Pr) as (fa & -> & Pa). cbn [bind].
  destruct (sub_t dom c (5 + n) v Hv fb fa Pb Pa) as (t & Et & Pt). change (F dom c (11 + (5 + n))) with fk in Et. rewrite Et. cbn [bind].
  assert (X : exists d', d = S d') by (destruct d; [lia|eauto]). destruct X as (d' & ->).
  destruct (TrigTot.simplify_t v true Hv dom c (6 + n) d' t Pt) as (s & Es & Ps). change (10 + (6 + n)) with (16 + n) in Es. rewrite Es. cbn [bind]. eauto.
Qed.
End Def.

(** ** C97 *)
Open Scope R_scope.
(** diff succeeds on these expressions and is the derivative at every point *)
Theorem c97_diff c m d v e : fpow_exact (fpow c) -> (16 <= m)%nat -> (6 <= d)%nat -> v <> ""%string -> LinTot.tpoly v e ->
  exists r, diffE (PropsC.PF c m) d v e = Ok r /\ LinTot.tpoly v r /\
    forall rho t, is_derive (fun s => ev (upd rho v s) e) t (ev (upd rho v t) r).
Proof.
  intros HX Hm Hd Hv P. replace m with (16 + (m - 16))%nat by lia. set (n := (m - 16)%nat). replace d with (6 + (d - 6))%nat by lia.
  destruct (diff_tpoly (fun _ => false) (strictly c) n v Hv (d - 6) e P) as (r & E & Pr). exists r.
  split; [eapply rle_ok; [apply diffE_mono; [apply (GF_le (fun _ => false) c (16 + n) (16 + n) (Nat.le_refl _))|apply Nat.le_refl]|exact E]|]. split; [exact Pr|]. intros rho t.
  destruct (c11_diff c HX (fun _ => false) (16 + n) _ (Nat.le_refl _) (6 + (d - 6)) rho v (t - 1) (t + 1) e r) as [_ A]; auto.
  - intros u _ x Hx. discriminate.
  - intros u _. now apply (LinProps.tpoly_wd v).
  - apply A. Lra.lra.
Qed.
(** differentiating the antiderivative gives the integrand back *)
Theorem c97_diff_back c m d v nm bf k fin e : fpow_exact (fpow c) -> (16 <= m)%nat -> (6 <= d)%nat -> v <> ""%string ->
  (forall x, nm x <> v /\ nm x <> ""%string) -> LinTot.tpoly v e ->
  exists r e', integrate (PropsC.PF c m) (fun _ _ => true) nm d bf k fin e v = Ok (Some r) /\ diffE (PropsC.PF c m) d v r = Ok e' /\
    forall rho, ev rho e' = ev rho e.
Proof.
  intros HX Hm Hd Hv Hnm P. destruct (c96_integrate c m d v nm bf k fin e HX Hm ltac:(lia) Hv Hnm P) as (r & E & Pr & D).
  destruct (c97_diff c m d v r HX Hm Hd Hv Pr) as (e' & E' & _ & D'). exists r, e'. split; [exact E|]. split; [exact E'|].
  intros rho. pose proof (is_derive_unique _ _ _ (D rho (rho v))) as U. rewrite (is_derive_unique _ _ _ (D' rho (rho v))) in U. now rewrite !rho_upd in U.
Qed.
Lemma lin_names v i s : lin v i -> In s (names i) -> s = v.
Proof.
  assert (L : forall a, lterm v a -> In s (names a) -> s = v).
  { intros a [->|(k & _ & _ & ->)] H; cbn [names flat_map app] in H; destruct H as [H|H]; try contradiction; auto. }
  intros (_ & [H|(a & b & H & _ & ->)]); [now apply L|]. cbn [names flat_map]. rewrite !app_nil_r. now apply L.
Qed.
Lemma ltpoly_names v e s : LinTot.tpoly v e -> In s (names e) -> s = v.
Proof.
  assert (X : forall x, LinTot.tx v x -> In s (names x) -> s = v).
  { intros x [|q N Z|f i Hf Hi] H; cbn [names] in H; [| |now apply (lin_names v i)]; destruct H as [H|H]; try contradiction; auto. }
  assert (M : forall t, LinTot.tmono v t -> In s (names t) -> s = v).
  { intros t [q|x T|q x Z T|q x Z T] H; cbn [names flat_map] in H; rewrite ?app_nil_r in H; eauto. contradiction. }
  intros [Me|(ts & -> & _ & Fs)] H; [now apply (M e)|]. change (names (ESum ts)) with (flat_map names ts) in H.
  apply in_flat_map in H as (t & Ht & Hs). rewrite Forall_forall in Fs. eauto.
Qed.
(** definite integrals between rational bounds: the answer has no symbols, and is the integral *)
Theorem c97_definite c m d v nm bf k e a b : fpow_exact (fpow c) -> (16 <= m)%nat -> (5 <= d)%nat -> v <> ""%string ->
  (forall x, nm x <> v /\ nm x <> ""%string) -> LinTot.tpoly v e ->
  exists r, integrate_bounds (PropsC.PF c m) (fun _ _ => true) nm d bf k e v (ERat a) (ERat b) = Ok (Some r) /\
    names r = [] /\ (forall rho, wd rho r) /\
    forall rho, is_RInt (fun t => ev (upd rho v t) e) (Q2R a) (Q2R b) (ev rho r).
Proof.
  intros HX Hm Hd Hv Hnm P. replace m with (16 + (m - 16))%nat by lia. set (n := (m - 16)%nat).
  destruct (bounds_lin (fun _ => false) (strictly c) n v Hv (fun _ _ => true) nm d Hnm (fun _ _ => eq_refl) bf k e a b Hd P) as (r & E & Pr). exists r.
  assert (G : forall rho, integrate_bounds (PropsC.PF c (16 + n)) (fun _ _ => true) nm d bf k e v (ERat a) (ERat b) = Ok (Some r) /\ wd rho r /\
    is_RInt (fun t => ev (upd rho v t) e) (ev rho (ERat a)) (ev rho (ERat b)) (ev rho r)).
  { intros rho. apply (c47_definite c HX (fun _ => false) (fun _ _ => true) everywhere (fun rho _ => never_right rho) any_rng
      (16 + n) (16 + n) (Nat.le_refl _) d d (Nat.le_refl _) nm bf k e v (ERat a) (ERat b) r rho (every_open v) (fun rho _ => LinProps.tpoly_wd v e rho P) (every_in rho)); auto; try exact Logic.I.
    intros t _. exact Logic.I. }
  destruct (c68_definite c (fun _ => false) (fun _ _ => true) (16 + n) (16 + n) (Nat.le_refl _) d d (Nat.le_refl _) nm bf k e v (ERat a) (ERat b) r E) as [_ N].
  split; [apply (G (fun _ => 0))|]. split.
  - destruct (names r) as [|s l]; auto. exfalso. destruct (N s (or_introl eq_refl)) as [[H1 H2]|[[]|[]]]. apply H2. eapply ltpoly_names; eauto.
  - split; intros rho; apply (G rho).
Qed.
(** 3 x^2 + sin(2x - 1) - cos(x/3) from 0 to 1 *)
Local Notation sx := (ESym "x").
Example c97_ex :
  let e := ESum [EProd [ERat 3; EPow sx (ERat 2)]; ETrig Sin (ESum [EProd [ERat 2; sx]; ERat (-1)]); EProd [ERat (-1); ETrig Cos (EProd [ERat (1#3); sx])]] in
  LinTot.tpoly "x" e /\
  diffE (PropsC.PF exact_cfg 18) 6 "x" e =
    Ok (ESum [EProd [ERat 2; ETrig Cos (ESum [EProd [ERat 2; sx]; ERat (-1)])]; EProd [ERat (1#3); ETrig Sin (EProd [ERat (1#3); sx])]; EProd [ERat 6; sx]]) /\
  integrate_bounds (PropsC.PF exact_cfg 18) (fun _ _ => true) unm 5 false 3 e "x" (ERat 0) (ERat 1) =
    Ok (Some (ESum [EProd [ERat (-3); ETrig Sin (ERat (1#3))]; ERat 1])).
Proof.
  intros e. split; [|split; vm_compute; reflexivity].
  right. eexists. split; [reflexivity|]. split; [simpl; lia|].
  constructor; [apply LinTot.tm_qx; [discriminate|apply LinTot.tx_pow; [split; [reflexivity|discriminate]|discriminate]]|].
  constructor; [apply LinTot.tm_x, LinTot.tx_trig; [auto|]|].
  { split; [reflexivity|right]. exists (EProd [ERat 2; sx]), (-1)%Q. split; [right; exists 2%Q; repeat split; auto; discriminate|]. split; [discriminate|reflexivity]. }
  constructor; [apply LinTot.tm_qx; [discriminate|apply LinTot.tx_trig; [auto|]]|]; [|constructor].
  split; [reflexivity|left]. right. exists (1#3)%Q. repeat split; auto; discriminate.
Qed.
