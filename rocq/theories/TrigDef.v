(** * TrigDef: definite integrals of polynomials plus sines and cosines between rational bounds (C93). *)
From Coquelicot Require Import Coquelicot.
From Coq Require Lqa.
From Verif Require Import Base Expr Kernel Mono Funcs FMono Calc Sem RealLemmas Sound SoundPow Atoms Agree Oracle
  FSound CalcSound Cont Combi Expand ExpandSound Factor Regex Simp Pts Match TrigSimp Poly PolyQ Table Trans TransMono TransSound
  Search SearchMono SearchSound Shape Interval PropsA PropsC PropsD PropsE PropsF PropsG Frag FragNum FragLib PropsJ PropsK FragInt PropsL FragX FragXLib FragG TrigTot PropsU PropsW.
Close Scope R_scope.
Local Open Scope nat_scope.

Section Def.
Context (dom : expr -> bool) (c : cfg) (n : nat) (v : string) (Hv : v <> ""%string).
Notation fk := (F dom c (11 + n)).
Notation tm := (tmono v true). Notation tp := (tpoly v true).
Hint Constructors TrigTot.tx TrigTot.tmono : core.
Let HB := tb_opaque v true Hv.

Lemma neg_t t : tm t -> exists r, op_neg (K c (6 + n)) t = Ok r /\ tm r.
Proof.
  intros M. assert (G : exists r, k_prod (K c (6 + n)) [ERat (-1); t] = Ok r /\ tm r).
  { apply (tprod v true Hv c n); auto. cbn [flat_map]. change (xs (ERat (-1))) with (@nil expr). cbn [app]. rewrite app_nil_r. apply (xs_tx v true t M). }
  destruct M as [q|x [|q N Z|f i Hf Hi]|q x Z T|q x Z T]; try exact G. eexists. split; [reflexivity|]. constructor.
Qed.
Lemma ktrig_q f q : f = Sin \/ f = Cos -> exists r, k_trig fk f (ERat q) = Ok r /\ tm r.
Proof.
  intros Hf.
  change (k_trig fk f (ERat q)) with (guard (trig_always f || dom (ETrig f (ERat q))) (mk_trig (gk dom (K c (11 + n))) (11 + n) f (ERat q))).
  assert (G : exists r, mk_trig (gk dom (K c (11 + n))) (11 + n) f (ERat q) = Ok r /\ tm r).
  2:{ destruct G as (r & E & M). exists r. rewrite E. split; auto. destruct Hf as [-> | ->]; reflexivity. }
  destruct (Q_dec q 0) as [[L|L]|Z].
  - assert (P : (0 < Qred (- q))%Q) by (rewrite Qred_correct; Lqa.lra).
    assert (S1 : is_sub (ERat q) = true) by (cbn [is_sub]; apply qlt0_iff; exact L).
    assert (Z0 : isq (ERat q) 0 = false) by (apply isq_rat_f; Lqa.lra).
    assert (T : trig_base (gk dom (K c (11 + n))) f (ERat q) = Ok (ETrig f (ERat q))). { unfold trig_base. rewrite Z0. destruct Hf as [-> | ->]; reflexivity. }
    destruct Hf as [-> | ->].
    + change (11 + n) with (S (S (9 + n))) at 2. cbn [mk_trig]. rewrite S1. cbn [op_neg bind]. unfold rat.
      pose proof (mk_trig_pos (gk dom (K c (11 + n))) (9 + n) Sin (Qred (- q)) (or_introl eq_refl) P) as E. cbn [mk_trig] in E. rewrite E. cbn [bind].
      destruct (tprod v true Hv c (5 + n) [ERat (-1); ETrig Sin (ERat (Qred (- q)))]) as (r & Er & Mr).
      { constructor; [constructor|constructor; [|constructor]]. apply tm_x, tx_trig; auto. right. eauto. }
      { simpl. lia. }
      exists r. split; [exact Er|exact Mr].
    + change (11 + n) with (S (10 + n)) at 2. cbn [mk_trig]. rewrite T, S1. cbn [op_neg bind]. unfold rat.
      eexists. split; [reflexivity|]. apply tm_x, tx_trig; auto. right. eauto.
  - change (11 + n) with (S (10 + n)) at 2. rewrite (mk_trig_pos _ _ f q Hf L). eexists. split; [reflexivity|]. apply tm_x, tx_trig; auto. right. eauto.
  - assert (Z0 : isq (ERat q) 0 = true) by now apply isq_rat.
    assert (S1 : is_sub (ERat q) = false) by (cbn [is_sub]; apply qlt0_f; Lqa.lra).
    assert (T : exists q', trig_base (gk dom (K c (11 + n))) f (ERat q) = Ok (ERat q')). { unfold trig_base. rewrite Z0. destruct Hf as [-> | ->]; eexists; reflexivity. }
    destruct T as (q' & T). exists (ERat q'). split; [|constructor]. change (11 + n) with (S (10 + n)) at 2. destruct Hf as [-> | ->]; cbn [mk_trig]; rewrite ?S1, T; reflexivity.
Qed.
(** putting a rational number for v *)
Section At.
Context (a : Q).
Notation sb := (subs fk [(v, ERat a)]).
Lemma sub_v : sb (ESym v) = Ok (ERat a).
Proof. cbn [subs assoc]. now rewrite String.eqb_refl. Qed.
Lemma sub_tx x : tx v false x -> exists r, sb x = Ok r /\ tm r.
Proof.
  intros [|q N Z|f i Hf [->|[[=] _]]].
  - rewrite sub_v. eauto.
  - change (sb (EPow (ESym v) (ERat q))) with (b' <- sb (ESym v);; k_pow fk b' (ERat q)). rewrite sub_v. cbn [bind].
    change (k_pow fk (ERat a) (ERat q)) with (guard (pow_always (ERat a) (ERat q) || dom (EPow (ERat a) (ERat q))) (k_pow (K c (11 + n)) (ERat a) (ERat q))).
    rewrite (pow_always_nat _ q N). cbn [orb guard]. destruct N as [N1 N2].
    destruct (k_pow_int c (10 + n) a q N1) as (r & E & _).
    { intros E. Lqa.lra. }
    change (S (10 + n)) with (11 + n) in E. rewrite E. exists (ERat r). eauto.
  - change (sb (ETrig f (ESym v))) with (i' <- sb (ESym v);; k_trig fk f i'). rewrite sub_v. cbn [bind]. destruct (ktrig_q f a Hf) as (r & E & M). eauto.
Qed.
Lemma xs_q q : xs (ERat q) = [].
Proof. reflexivity. Qed.
Lemma sub_tmono t : tmono v false t -> exists r, sb t = Ok r /\ tm r.
Proof.
  intros [q|x T|q x Z T|q x Z T].
  - exists (ERat q). split; [reflexivity|constructor].
  - destruct (sub_tx x T) as (r & E & M). eauto.
  - destruct (sub_tx x T) as (r & E & M). cbn [subs] in E |- *. rewrite E. cbn [bind].
    apply (tprod v true Hv c (5 + n)); auto. cbn [flat_map]. rewrite xs_q. cbn [app]. rewrite app_nil_r. apply (xs_tx v true r M).
  - destruct (sub_tx x T) as (r & E & M). cbn [subs] in E |- *. rewrite E. cbn [bind].
    apply (tprod v true Hv c (5 + n)); auto. cbn [flat_map]. rewrite xs_q. rewrite !app_nil_r. apply (xs_tx v true r M).
Qed.
Lemma sub_tpoly t : tpoly v false t -> exists r, sb t = Ok r /\ tp r.
Proof.
  intros [M|(ts & -> & _ & F)].
  - destruct (sub_tmono t M) as (r & E & Mr). exists r. split; auto. now left.
  - cbn [subs]. match goal with |- exists r, (ts' <- ?g ts;; _) = Ok r /\ _ => assert (G : exists ts', g ts = Ok ts' /\ Forall tp ts') end.
    { induction F as [|u l U F (l' & E & Fl)]; [exists []; auto|]. destruct (sub_tmono u U) as (r & Er & Mr).
      exists (r :: l'). rewrite Er. cbn [bind]. rewrite E. cbn [bind]. split; auto. constructor; auto. now left. }
    destruct G as (ts' & -> & G). cbn [bind]. exact (tsum v true Hv c (1 + n) ts' G).
Qed.
End At.
(** subtraction *)
Lemma neg_sum ts : Forall tm ts -> exists r, op_neg (K c (10 + n)) (ESum ts) = Ok r /\ tp r.
Proof.
  intros F. cbn [op_neg]. match goal with |- exists r, (ts' <- ?g ts;; _) = Ok r /\ _ => assert (G : exists ts', g ts = Ok ts' /\ Forall tm ts') end.
  { induction F as [|t l T F (l' & E & Fl')]; [eauto|]. destruct (tprod v true Hv c (4 + n) [ERat (-1); t]) as (r & Er & M).
    { auto. }
    { cbn [flat_map]. rewrite xs_q. cbn [app]. rewrite app_nil_r. apply (xs_tx v true t T). }
    assert (N : exists r, op_neg (K c (10 + n)) t = Ok r /\ tm r).
    { destruct T as [q|x [|q N Z|f i Hf Hi]|q x Z T|q x Z T]; try (exists r; split; [exact Er|exact M]). eexists. split; [reflexivity|]. constructor. }
    destruct N as (r' & N & M'). rewrite N. cbn [bind]. rewrite E. cbn [bind]. eauto. }
  destruct G as (ts' & -> & F'). cbn [bind]. apply (tsum v true Hv c n). eapply Forall_impl; [|exact F']. intros t M. now left.
Qed.
Lemma prod_neg_sum ts : 2 <= List.length ts -> Forall tm ts -> exists r, k_prod (K c (11 + n)) [ERat (-1); ESum ts] = Ok r /\ tp r.
Proof.
  intros L2 P. change (K c (11 + n)) with (build c (K c (10 + n))). cbn [build k_prod]. unfold prod_body.
  change (flat_prod [ERat (-1); ESum ts]) with [ERat (-1); ESum ts]. unfold combine_prod.
  cbn [List.length combine_prod_go decon_pow split_base]. unfold py_eq. cbn [coin eeqb]. rewrite andb_false_r.
  cbn [bind split_base decon_pow combine_prod_go add_term is_acc fst snd acc_prod]. change (isq (ERat (-1)) 0) with false.
  change (isq (ERat (-1)) 1) with false. cbn [bind app]. unfold sort_terms. cbn [foldM insert_term bind].
  destruct (nwf_poly (tb v true) HB natx (ESum ts)) as (m & Em). { apply (tpoly_poly v true). right. eauto. }
  assert (L : lt_terms (K c (10 + n)) (ERat (-1)) (ESum ts) = Ok true).
  { unfold lt_terms. rewrite Em. cbn [nwf bind Nat.eqb andb symboless_nest]. destruct m; reflexivity. }
  rewrite L. cbn [bind]. change (isq (ERat (-1)) (-1)) with true. cbv iota. now apply neg_sum.
Qed.
Lemma sub_t a b : tp a -> tp b -> exists r, op_sub fk a b = Ok r /\ tp r.
Proof.
  intros A A2.
  assert (M : exists r, op_mul fk (ERat (-1)) b = Ok r /\ tp r).
  { destruct A2 as [M|(ts & -> & L & F)].
    - destruct (tprod v true Hv c (5 + n) [ERat (-1); b]) as (r & Er & Mr).
      { auto. }
      { cbn [flat_map]. rewrite xs_q. cbn [app]. rewrite app_nil_r. apply (xs_tx v true b M). }
      destruct M as [q|x [|q N Z|f i Hf Hi]|q x Z T|q x Z T]; try (exists r; split; [exact Er|now left]). eexists. split; [reflexivity|]. left. constructor.
    - exact (prod_neg_sum ts L F). }
  destruct M as (m & E & P).
  assert (Sm : exists r, op_add fk a m = Ok r /\ tp r).
  { destruct (tsum v true Hv c (1 + n) [a; m]) as (r & Er & Mr); [auto|]. unfold op_add. destruct a, m; try (exists r; split; [exact Er|exact Mr]). eexists. split; [reflexivity|]. left. constructor. }
  unfold op_sub. destruct a, b; try (rewrite E; exact Sm).
  eexists. split; [reflexivity|]. left. constructor.
Qed.
Context (rng : string -> expr -> bool) (nm : nat -> string) (d : nat).
Lemma bounds_t bf k e a b : 3 <= d -> tpoly v false e ->
  exists r, integrate_bounds fk rng nm d bf k e v (ERat a) (ERat b) = Ok (Some r) /\ tp r.
Proof.
  intros L P. unfold integrate_bounds.
  destruct (integrate_t dom rng nm c (1 + n) d v Hv bf k false e L P) as (r & E & Pr).
  change (10 + (1 + n)) with (11 + n) in E. rewrite E. cbn [bind].
  destruct (sub_tpoly b r Pr) as (fb & -> & Pb). destruct (sub_tpoly a r Pr) as (fa & -> & Pa). cbn [bind].
  destruct (sub_t fb fa Pb Pa) as (t & -> & Pt). cbn [bind]. destruct d as [|d']; [lia|].
  destruct (simplify_t v true Hv dom c (1 + n) d' t Pt) as (s & Es & Ps). change (10 + (1 + n)) with (11 + n) in Es. rewrite Es. cbn [bind]. eauto.
Qed.
End Def.

(** ** C93 *)
Open Scope R_scope.
Lemma tpoly_names v e s : tpoly v false e -> In s (names e) -> s = v.
Proof.
  assert (X : forall x, tx v false x -> In s (names x) -> s = v).
  { intros x [|q N Z|f i Hf [->|[[=] _]]] H; cbn [names] in H; destruct H as [H|H]; try contradiction; auto. }
  assert (M : forall t, tmono v false t -> In s (names t) -> s = v).
  { intros t [q|x T|q x Z T|q x Z T] H; cbn [names flat_map] in H; rewrite ?app_nil_r in H; eauto. contradiction. }
  intros [Me|(ts & -> & _ & F)] H; [now apply (M e)|]. change (names (ESum ts)) with (flat_map names ts) in H.
  apply in_flat_map in H as (t & Ht & Hs). rewrite Forall_forall in F. eauto.
Qed.
Theorem c93_definite c m d v nm bf k e a b : fpow_exact (fpow c) -> (11 <= m)%nat -> (3 <= d)%nat -> v <> ""%string -> tpoly v false e ->
  exists r, integrate_bounds (PropsC.PF c m) (fun _ _ => true) nm d bf k e v (ERat a) (ERat b) = Ok (Some r) /\
    names r = [] /\ (forall rho, wd rho r) /\
    forall rho, is_RInt (fun t => ev (upd rho v t) e) (Q2R a) (Q2R b) (ev rho r).
Proof.
  intros HX Hm Hd Hv P. replace m with (11 + (m - 11))%nat by lia. set (n := (m - 11)%nat).
  destruct (bounds_t (fun _ => false) (strictly c) n v Hv (fun _ _ => false) nm d bf k e a b Hd P) as (r & E & Pr). exists r.
  assert (G : forall rho, integrate_bounds (PropsC.PF c (11 + n)) (fun _ _ => true) nm d bf k e v (ERat a) (ERat b) = Ok (Some r) /\ wd rho r /\
    is_RInt (fun t => ev (upd rho v t) e) (ev rho (ERat a)) (ev rho (ERat b)) (ev rho r)).
  { intros rho. apply (c47_definite c HX (fun _ => false) (fun _ _ => false) everywhere (fun rho _ => never_right rho) never_rng
      (11 + n) (11 + n) (Nat.le_refl _) d d (Nat.le_refl _) nm bf k e v (ERat a) (ERat b) r rho (every_open v) (fun rho _ => tpoly_wd v false e rho P) (every_in rho)); auto; try exact Logic.I.
    intros t _. exact Logic.I. }
  destruct (c68_definite c (fun _ => false) (fun _ _ => false) (11 + n) (11 + n) (Nat.le_refl _) d d (Nat.le_refl _) nm bf k e v (ERat a) (ERat b) r E) as [_ N].
  split; [apply (G (fun _ => 0))|]. split.
  - destruct (names r) as [|s l]; auto. exfalso. destruct (N s (or_introl eq_refl)) as [[H1 H2]|[[]|[]]]. apply H2. eapply tpoly_names; eauto.
  - split; intros rho; apply (G rho).
Qed.
(** x - 3 sin x from 0 to 2;  cos x from -1 to 1/2 *)
Local Notation sx := (ESym "x").
Example c93_ex :
  let e := ESum [sx; EProd [ERat (-3); ETrig Sin sx]] in
  tpoly "x" false e /\
  integrate_bounds (PropsC.PF exact_cfg 14) (fun _ _ => true) unm 4 false 3 e "x" (ERat 0) (ERat 2) =
    Ok (Some (ESum [EProd [ERat 3; ETrig Cos (ERat 2)]; ERat (-1)])) /\
  integrate_bounds (PropsC.PF exact_cfg 14) (fun _ _ => true) unm 4 false 3 (ETrig Cos sx) "x" (ERat (-1)) (ERat (1#2)) =
    Ok (Some (ESum [ETrig Sin (ERat (1#2)); ETrig Sin (ERat 1)])).
Proof.
  intros e. split; [|split; vm_compute; reflexivity].
  right. eexists. split; [reflexivity|]. split; [simpl; lia|].
  constructor; [apply tm_x, tx_v|]. constructor; [apply tm_qx; [discriminate|apply tx_trig; [auto|now left]]|]. constructor.
Qed.
