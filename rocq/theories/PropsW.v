(** * PropsW: simplify and integrate on a polynomial in v plus a combination of sin(v) and cos(v) (C90).

    [tpoly v e] (TrigTot.v): [e] is a number, one of  v, v^k (k a positive integer), sin(v), cos(v),  a
    rational multiple of one of these, or a sum of at least two such terms; in the shape the
    constructors give. *)
From Coquelicot Require Import Coquelicot.
From Verif Require Import Base Expr Kernel Mono Funcs FMono Calc Sem RealLemmas Sound SoundPow Atoms Agree Oracle
  FSound CalcSound Cont Combi Expand ExpandSound Factor Regex Simp Pts Match TrigSimp Poly PolyQ Table Trans TransMono TransSound
  Search SearchMono SearchSound Shape Interval PropsA PropsC PropsD PropsE PropsF PropsG Frag FragNum FragLib PropsJ PropsK FragInt PropsL FragX FragXLib FragG TrigTot PropsU.
Close Scope R_scope.
Local Open Scope nat_scope.
Ltac splits := repeat match goal with |- _ /\ _ => split end.

Section Run.
Context (dom : expr -> bool) (rng : string -> expr -> bool) (nm : nat -> string) (c : cfg) (n d : nat) (v : string) (Hv : v <> ""%string).
Notation fk := (F dom c (10 + n)).
Notation tx := (tx v false). Notation tmono := (tmono v false). Notation tpoly := (tpoly v false).
Hint Constructors TrigTot.tx TrigTot.tmono : core.
(** the terms that are looked up in the integral table *)
Definition tleaf (t : expr) : Prop := (exists q, t = ERat q) \/ tx t.

Lemma tx_v_in x : tx x -> contains v x = true /\ nfac x = 1 /\ is_sum x = false /\ is_prod x = false.
Proof. intros [|q N Z|f ? F [->|[[=] _]]]; cbn; rewrite String.eqb_refl; auto. Qed.
Lemma tnfac t : tmono t -> 1 <= nfac t <= 2 /\ is_sum t = false.
Proof.
  intros [q|x T|q x Z T|q x Z T].
  - cbn. lia.
  - destruct (tx_v_in x T) as (_ & -> & -> & _). lia.
  - destruct T; cbn; lia.
  - destruct T; cbn; lia.
Qed.
Lemma tfactors e : tpoly e -> factors e <= 3.
Proof.
  intros [T|(ts & -> & _ & Fs)].
  - destruct (tnfac e T) as [L S]. unfold factors. destruct e; try lia. discriminate.
  - cbn [factors]. apply le_n_S. induction Fs as [|t ts T Fs IH]; [simpl; lia|]. cbn [map fold_right]. destruct (tnfac t T). lia.
Qed.
Lemma k_prod1 x : tx x -> k_prod fk [x] = Ok x.
Proof. intros [|q N Z|f ? F [->|[[=] _]]]; reflexivity. Qed.
Lemma tmul q t : tmono t -> exists r, op_mul fk (ERat q) t = Ok r /\ tmono r.
Proof.
  intros T. assert (G : exists r, k_prod fk [ERat q; t] = Ok r /\ tmono r).
  { apply (tprod v false Hv c (4 + n)); auto. cbn [flat_map]. rewrite app_nil_r. apply (xs_tx v false t T). }
  destruct t; try exact G. cbn [op_mul]. eexists. split; [reflexivity|]. constructor.
Qed.
Lemma table_t t : tleaf t -> exists r, table fk v t = Ok (Some r) /\ tmono r.
Proof.
  intros [(q & ->)|T].
  - unfold table. cbn [contains negb]. destruct (tmul q (ESym v)) as (r & -> & M); auto. cbn [bind]. eauto.
  - unfold table. rewrite (proj1 (tx_v_in t T)). cbn [negb]. destruct T as [|q N Z|f ? Hf [->|[[=] _]]].
    + assert (E : k_pow fk (ESym v) (ERat 2) = Ok (EPow (ESym v) (ERat 2))).
      { rewrite (fk_pow_base (tb v false) (tb_opaque v false Hv) dom c n (ESym v) 2 (or_introl eq_refl)); [reflexivity|]. rewrite (pow_always_nat _ 2); [reflexivity|split; [reflexivity|discriminate]]. }
      rewrite E. cbn [bind]. destruct (tmul (1 # 2) (EPow (ESym v) (ERat 2))) as (r & -> & M); [|cbn [bind]; eauto].
      apply tm_x, tx_pow; [split; [reflexivity|discriminate]|discriminate].
    + cbn [is_var contains negb]. rewrite String.eqb_refl. cbn [andb].
      assert (E1 : isq (ERat q) (-1) = false). { apply isq_rat_f. intros E. destruct N as [_ N]. rewrite E in N. now apply N. }
      rewrite E1. cbn [op_add bind].
      assert (N2 : natq (Qred (q + 1))) by (apply (natq_qeq (q + 1)); [symmetry; apply Qred_correct|apply natq_add; auto using one_natq]).
      assert (P2 : ~ (Qred (q + 1) == 0)%Q).
      { rewrite Qred_correct. intros E. destruct N as [_ N]. assert (0 < q + 1)%Q by (apply (Qlt_le_trans _ 1); [reflexivity|]; rewrite <- (Qplus_0_l 1) at 1; now apply Qplus_le_l).
        rewrite E in H. discriminate. }
      assert (E2 : qis0 (Qred (q + 1)) = false). { destruct (qis0 (Qred (q + 1))) eqn:E; auto. exfalso. apply qis0_iff in E. auto. }
      unfold op_div, rat. rewrite E2. cbn [bind].
      rewrite (fk_pow_base (tb v false) (tb_opaque v false Hv) dom c n (ESym v) _ (or_introl eq_refl)); [|now rewrite (pow_always_nat _ _ N2)].
      assert (E3 : Qeq_bool (Qred (q + 1)) 0 = false) by (apply Bool.not_true_is_false; rewrite Qeq_bool_iff; exact P2). rewrite E3.
      destruct (Qeq_bool (Qred (q + 1)) 1); cbn [bind].
      * destruct (tmul (Qred (1 / Qred (q + 1))) (ESym v)) as (r & -> & M); auto. cbn [bind]. eauto.
      * destruct (tmul (Qred (1 / Qred (q + 1))) (EPow (ESym v) (ERat (Qred (q + 1))))) as (r & -> & M); auto. cbn [bind]. eauto.
    + assert (E0 : eq_with_var v "x" (ESym v) (ESym "x") = true) by (cbn [eq_with_var]; now rewrite !String.eqb_refl).
      destruct Hf as [-> | ->].
      * assert (Et : table_loop v (ETrig Sin (ESym v)) (std_trig fk) = (a <- (k <- k_trig fk Cos (ESym v);; op_neg fk k);; Ok (Some a))).
        { unfold std_trig. cbn [table_loop].
          assert (E : eq_with_var v "x" (ETrig Sin (ESym v)) (ETrig Sin (ESym "x")) = true) by exact E0. now rewrite E. }
        rewrite Et. change (k_trig fk Cos (ESym v)) with (Ok (ETrig Cos (ESym v))). cbn [bind].
        destruct (tmul (-1) (ETrig Cos (ESym v))) as (r & E & M); [apply tm_x, tx_trig; [auto|now left]|]. unfold op_neg. rewrite E. cbn [bind]. eauto.
      * assert (Et : table_loop v (ETrig Cos (ESym v)) (std_trig fk) = (a <- k_trig fk Sin (ESym v);; Ok (Some a))).
        { unfold std_trig. cbn [table_loop].
          assert (E1 : eq_with_var v "x" (ETrig Cos (ESym v)) (ETrig Sin (ESym "x")) = false) by reflexivity.
          assert (E : eq_with_var v "x" (ETrig Cos (ESym v)) (ETrig Cos (ESym "x")) = true) by exact E0. now rewrite E1, E. }
        rewrite Et. change (k_trig fk Sin (ESym v)) with (Ok (ETrig Sin (ESym v))). cbn [bind]. eexists. split; [reflexivity|]. apply tm_x, tx_trig; [auto|now left].
Qed.

(** the safe transforms *)
Lemma pull_t ts : tmono (EProd ts) -> exists t p, pull_const fk v (EProd ts) = Ok (Some (t, p)) /\ tmono t /\ contains v t = false /\ tmono p /\ nfac p < nfac (EProd ts).
Proof.
  intros M. inversion M as [q|x T|q x Z T|q x Z T]; subst; [inversion T| |]; destruct (tx_v_in x T) as (C & N1 & _).
  - exists (ERat q), x. unfold pull_const. cbn [pull_go contains negb List.app]. rewrite (k_prod1 x T). cbn [bind]. splits; auto. destruct T; cbn; lia.
  - exists (ERat q), x. unfold pull_const. cbn [pull_go contains negb]. rewrite C. cbn [negb List.app pull_go contains]. rewrite (k_prod1 x T). cbn [bind]. splits; auto. destruct T; cbn; lia.
Qed.
Lemma tleaf_mono t : tleaf t -> tmono t.
Proof. intros [(q & ->)|T]; auto. Qed.
Lemma expand_t t : tmono t -> expand_step fk d t = Ok None.
Proof. intros M. unfold expand_step. rewrite (expandable_t v false Hv dom c n t); [reflexivity|now left]. Qed.
Lemma linear_t y t : tleaf t -> linear_usub fk rng d v y t = Ok None.
Proof.
  intros T. unfold linear_usub. destruct (Nat.ltb (countE (ESym v) t) 1) eqn:E; auto.
  destruct T as [(q & ->)|[|q N Z|f ? Hf [->|[[=] _]]]].
  - discriminate.
  - cbn [linear_check contains]. rewrite String.eqb_refl. reflexivity.
  - cbn [linear_check contains]. rewrite String.eqb_refl. reflexivity.
  - cbn [linear_check contains]. rewrite String.eqb_refl. reflexivity.
Qed.
Lemma safe_t (h : heap) x i q : nth_error h i = Some q -> nd_v q = v -> tleaf (nd_e q) -> tmono (nd_e q) -> safe_step fk rng nm d (h, x) i = Ok (h, x).
Proof.
  intros Hq Ev T M. unfold safe_step. rewrite (get_some _ _ _ Hq). cbn [bind]. rewrite Ev.
  pose proof (expand_t (nd_e q) M) as E1. pose proof (linear_t (nm x) (nd_e q) T) as E2.
  assert (E3 : poly_division fk d v (nd_e q) = Ok None).
  { unfold poly_division. destruct (symbols (nd_e q)) as [|s [|s' l]]; auto. destruct T as [(q' & ->)|[|q' N Z|f ? Hf [->|[[=] _]]]]; reflexivity. }
  assert (E4 : (if is_id IComplete (last_tr ex_pa h i) then Ok None else expand_step fk d (nd_e q)) = Ok None) by (rewrite E1; now destruct (is_id _ _)).
  assert (E5 : forall A (f : list expr -> A) z, match nd_e q with ESum ts => f ts | _ => z end = z).
  { intros A f z. destruct T as [(q' & ->)|[|q' N Z|f' ? Hf [->|[[=] _]]]]; reflexivity. }
  rewrite E5.
  assert (E6 : pull_const fk v (nd_e q) = Ok None) by (destruct T as [(q' & ->)|[|q' N Z|f' ? Hf [->|[[=] _]]]]; reflexivity).
  assert (E7 : partial_fractions fk d v (nd_e q) = Ok None) by (destruct T as [(q' & ->)|[|q' N Z|f' ? Hf [->|[[=] _]]]]; reflexivity).
  rewrite E6. cbn [bind]. rewrite E7. cbn [bind]. rewrite E3. cbn [bind]. rewrite E4. cbn [bind]. rewrite E2. reflexivity.
Qed.
Lemma integrate_t bf k fin e : 3 <= d -> tpoly e -> exists r, integrate fk rng nm d bf k fin e v = Ok (Some r) /\ tpoly r.
Proof.
  intros L P. destruct d as [|d'] eqn:Ed; [lia|]. destruct (simplify_t v false Hv dom c n d' e P) as (e1 & E1 & P1). rewrite <- Ed in E1 |- *.
  destruct (integrate_tree fk rng nm d v tmono tpoly tleaf) with (SM := tmono) (SP := tpoly) (bf := bf) (k := k) (fin := fin) (e0 := e) (e := e1) as (r & Pr & E); auto.
  - intros t M. now apply tnfac.
  - intros t M. now apply tnfac.
  - intros t [q|x T|q x Z T|q x Z T]; [left; left; eauto|left; right; auto| |]; right; eauto.
  - intros t _. apply tleaf_mono.
  - intros t M. now left.
  - intros t [M|(ts & -> & L2 & F2)]; [auto|right]. exists ts. splits; auto. intros ->. simpl in L2. lia.
  - exact pull_t.
  - exact safe_t.
  - intros t M. now left.
  - intros t T _. now apply table_t.
  - intros q t M C T. assert (exists p, q = ERat p) as (p & ->).
    { destruct M as [p|x Tx|p x Z Tx|p x Z Tx]; [eauto| | |]; exfalso; destruct (tx_v_in x Tx) as (Cx & _); cbn [contains existsb] in C; rewrite ?Cx in C; discriminate. }
    now apply tmul.
  - intros l Fl. apply (tsum v false Hv c n). eapply Forall_impl; [|exact Fl]. intros a M. now left.
  - pose proof (tfactors e1 P1). lia.
  - destruct fin; [|eauto]. destruct (simplify_t v false Hv dom c n d' r Pr) as (r2 & E2 & P2). rewrite Ed in E. rewrite E2 in E. cbn [bind] in E. rewrite Ed. eauto.
Qed.
End Run.

(** ** C90 *)
Open Scope R_scope.
Lemma tx_wd v num x rho : tx v num x -> wd rho x.
Proof. intros [|q N Z|f i [-> | ->] Hi]; [exact Logic.I|now apply natq_wd| |]; dar Hi; split; exact Logic.I. Qed.
Lemma tmono_wd v num t rho : tmono v num t -> wd rho t.
Proof. intros [q|x T|q x Z T|q x Z T]; [exact Logic.I|now apply (tx_wd v num)| |]; pose proof (tx_wd v num x rho T); (cbn [wd]; split; [repeat split; auto|]); unfold one_const; cbn [filter is_acc]; destruct T; simpl; lia. Qed.
Lemma tpoly_wd v num t rho : tpoly v num t -> wd rho t.
Proof. intros [M|(ts & -> & _ & F)]; [now apply (tmono_wd v num)|]. cbn [wd]. induction F as [|a l A F IH]; cbn; auto. split; auto. now apply (tmono_wd v num). Qed.

(** simplify succeeds and changes nothing *)
Theorem c90_simplify c m d v num e : fpow_exact (fpow c) -> (10 <= m)%nat -> (1 <= d)%nat -> v <> ""%string -> tpoly v num e ->
  exists r, simplifyE (PropsC.PF c m) d e = Ok r /\ tpoly v num r /\ forall rho, ev rho r = ev rho e.
Proof.
  intros HX Hm Hd Hv P. replace m with (10 + (m - 10))%nat by lia. set (n := (m - 10)%nat). destruct d as [|d]; [lia|].
  destruct (simplify_t v num Hv (fun _ => false) (strictly c) n d e P) as (r & E & Pr). exists r.
  assert (G : forall rho, simplifyE (PropsC.PF c (10 + n)) (S d) e = Ok r /\ wd rho r /\ ev rho r = ev rho e).
  { intros rho. apply (c53_simplify c HX (fun _ => false) (10 + n) (10 + n) (Nat.le_refl _) (S d) rho e r (never_right rho) (tpoly_wd v num e rho P) E). }
  split; [exact (proj1 (G (fun _ => 0)))|]. split; [exact Pr|]. intros rho. apply G.
Qed.
(** integrate succeeds, and its answer is an antiderivative at every point *)
Theorem c90_integrate c m d v nm bf k fin e : fpow_exact (fpow c) -> (10 <= m)%nat -> (3 <= d)%nat -> v <> ""%string -> tpoly v false e ->
  exists r, integrate (PropsC.PF c m) (fun _ _ => true) nm d bf k fin e v = Ok (Some r) /\ tpoly v false r /\
    forall rho t, is_derive (fun s => ev (upd rho v s) r) t (ev (upd rho v t) e).
Proof.
  intros HX Hm Hd Hv P. replace m with (10 + (m - 10))%nat by lia. set (n := (m - 10)%nat).
  destruct (integrate_t (fun _ => false) (fun _ _ => false) nm (strictly c) n d v Hv bf k fin e Hd P) as (r & E & Pr).
  destruct (c60_integrate c HX (fun _ => false) (fun _ _ => false) everywhere (fun rho _ => never_right rho) never_rng
    (10 + n) (10 + n) (Nat.le_refl _) d d (Nat.le_refl _) nm bf k fin e v r (every_open v) (fun rho _ => tpoly_wd v false e rho P) E) as [E' A].
  exists r. split; [exact E'|]. split; [exact Pr|]. intros rho t.
  destruct (A (upd rho v t) (every_in _)) as [_ D]. rewrite upd_eq in D. eapply is_derive_ext; [|exact D].
  intros s. simpl. now rewrite upd_upd_eq.
Qed.
(** differentiating the antiderivative succeeds and gives the integrand back *)
Lemma tpoly_sc v e : v <> ""%string -> tpoly v false e -> scpoly e.
Proof.
  intros Hv P. pose proof (tpoly_poly v false e P) as Q. clear P.
  assert (Bb : forall b, tb v false b -> tbase alls sincos alle false b).
  { intros b [->|(f & i & [-> | ->] & [->|[[=] _]] & ->)]; [left; exists v; repeat split; auto|right; left; exists Sin, (ESym v)|right; left; exists Cos, (ESym v)];
    (split; [unfold sincos; auto|]); (split; [exists v; auto|]); (split; [exact Logic.I|reflexivity]). }
  assert (A : forall x, oatom (tb v false) natx x -> oatom (tbase alls sincos alle false) (fun _ => natq) x).
  { intros x [b Hb|b q Hb Hq H0]; [apply oat_b; auto|apply oat_pow; auto]. }
  assert (Fc : forall x, ofac (tb v false) natx x -> ofac (tbase alls sincos alle false) (fun _ => natq) x).
  { intros x [a Ha|q]; [apply ofac_at; auto|apply ofac_rat]. }
  assert (M : forall x, omono (tb v false) natx x -> omono (tbase alls sincos alle false) (fun _ => natq) x).
  { intros x [a Ha|ts L Fs R N]; [apply omono_fac; auto|apply omono_prod; auto]. eapply Forall_impl; [|exact Fs]. auto. }
  destruct Q as [a Ha|ts L Fs]; [apply opoly_mono; auto|apply opoly_sum; auto]. eapply Forall_impl; [|exact Fs]. auto.
Qed.
Theorem c90_diff_back c m d v nm bf k fin e : fpow_exact (fpow c) -> (10 <= m)%nat -> (8 <= d)%nat -> v <> ""%string -> tpoly v false e ->
  exists r e', integrate (PropsC.PF c m) (fun _ _ => true) nm d bf k fin e v = Ok (Some r) /\ diffE (PropsC.PF c m) d v r = Ok e' /\
    forall rho, ev rho e' = ev rho e.
Proof.
  intros HX Hm Hd Hv P. destruct (c90_integrate c m d v nm bf k fin e HX Hm ltac:(lia) Hv P) as (r & E & Pr & D).
  destruct (c88_diff c m d v r HX Hm Hd (tpoly_sc v r Hv Pr)) as (e' & E' & _ & D'). exists r, e'. split; [exact E|]. split; [exact E'|].
  intros rho. pose proof (is_derive_unique _ _ _ (D rho (rho v))) as U. rewrite (is_derive_unique _ _ _ (D' rho (rho v))) in U. now rewrite !rho_upd in U.
Qed.
(** x^2/2 - 3 sin x + cos x + 5 *)
Local Notation sx := (ESym "x").
Example c90_ex :
  let e := ESum [EProd [ERat (1#2); EPow sx (ERat 2)]; EProd [ERat (-3); ETrig Sin sx]; ETrig Cos sx; ERat 5] in
  tpoly "x" false e /\
  (exists r, simplifyE (PropsC.PF exact_cfg 14) 4 e = Ok r /\ tpoly "x" false r) /\
  integrate (PropsC.PF exact_cfg 14) (fun _ _ => true) unm 4 false 3 true e "x" =
    Ok (Some (ESum [EProd [ERat (1#6); EPow sx (ERat 3)]; ETrig Sin sx; EProd [ERat 3; ETrig Cos sx]; EProd [ERat 5; sx]])).
Proof.
  intros e. assert (P : tpoly "x" false e).
  { right. eexists. split; [reflexivity|]. split; [simpl; lia|].
    constructor; [apply tm_qx; [discriminate|apply tx_pow; [split; [reflexivity|discriminate]|discriminate]]|].
    constructor; [apply tm_qx; [discriminate|apply tx_trig; [auto|now left]]|]. constructor; [apply tm_x, tx_trig; [auto|now left]|]. constructor; constructor. }
  split; [exact P|]. split; [|vm_compute; reflexivity].
  destruct (c90_simplify exact_cfg 14 4 "x" false e) as (r & E & Pr & _); eauto; try lia; try discriminate. exact fpow_exact_oracle_exact.
Qed.
