(** * PropsF: the integration search (C26, C29, C35, C36, C47, C60-C62).

    Reading guide: as PropsE.v.  [integrate fk rng nm d bf k fin e v] is Integration.integrate(e, v,
    final=fin) with the option breadth_first = bf, given time for k further rounds; [nm] names the new
    variables.  A heap is the list of Node objects (Search.v); node 0 is the root. *)
From Coquelicot Require Import Coquelicot.
From Verif Require Import Base Expr Kernel Mono Funcs FMono Calc Sem RealLemmas Sound SoundPow Atoms Agree Oracle
  FSound CalcSound Cont Combi Expand ExpandSound Factor Regex Simp Pts Match TrigSimp Poly PolyQ Table Trans TransMono TransSound
  Search SearchMono SearchSound Shape Interval PropsA PropsC PropsD PropsE.
Local Open Scope R_scope.

(** ** Specifications *)
(** u v - u' v: [u'] is [du], and the integrand is u * w' *)
Definition parts_of (B : box) (v : string) (e u du w : expr) : Prop :=
  wdB B u /\ wdB B du /\ wdB B w /\
  forall rho, inB B rho -> is_derive (fun t => ev (upd rho v t) u) (rho v) (ev rho du) /\
    exists dw, is_derive (fun t => ev (upd rho v t) w) (rho v) dw /\ ev rho e = ev rho u * dw.

(** A search tree in which each step is locally correct: the integrand of a node and the integrands of its
    children are related as the transform demands, and a solution stored at a node is a solution. *)
Definition value_at (h : heap) (i : nat) (r : env) : R := match nth_error h i with Some q => ev r (nd_e q) | None => 0 end.
Record locally_ok (B : box) (h : heap) : Prop := {
  lo_tree : Tree h;
  lo_def : forall i q, nth_error h i = Some q -> wdB B (nd_e q) /\ openv B (nd_v q) /\ nd_only q = None;
  lo_sol : forall i q F, nth_error h i = Some q -> nd_sol q = Some F -> AntiOn B (nd_v q) (fun r => ev r (nd_e q)) F;
  lo_edge : forall i q p m, nth_error h i = Some q -> nd_p q = Some p -> nth_error h p = Some m ->
    match nd_t q with
    | Some (TPull k) => nd_v q = nd_v m /\ contains (nd_v m) k = false /\ wdB B k /\
                        forall r, inB B r -> ev r (nd_e m) = ev r k * ev r (nd_e q)
    | Some (TUSub _ u) => USub B (nd_v m) (nd_v q) u (fun r => ev r (nd_e m)) (fun r => ev r (nd_e q))
    | Some (TId _) => nd_v q = nd_v m /\ forall r, inB B r -> ev r (nd_e m) = ev r (nd_e q)
    | Some TAdd => (forall j, In j (nd_kids m) -> exists q', nth_error h j = Some q' /\ nd_t q' = Some TAdd /\ nd_v q' = nd_v m) /\
                   forall r, inB B r -> ev r (nd_e m) = Rsum (map (fun j => value_at h j r) (nd_kids m))
    | None => False
    end }.

Section Main.
Context (c : cfg) (HX : fpow_exact (fpow c)) (dom : expr -> bool) (rng : string -> expr -> bool)
  (B : box) (HB : forall rho, inB B rho -> right_at rho dom) (HR : rng_ok B rng)
  (n m : nat) (Hn : (n <= m)%nat) (d d' : nat) (Hd : (d <= d')%nat).
Notation gf := (GF dom c n).
Notation pf := (PF c m).
Let L : fle gf pf := GF_le dom c n m Hn.
Let S : BSound B gf := fun rho Hr => GF_sound dom c n rho HX (HB rho Hr).
Notation anyr := (fun (_ : string) (_ : expr) => true).
Let LR : forall y u, rng y u = true -> anyr y u = true := fun _ _ _ => eq_refl.

(** ** C60: a result of integrate is an antiderivative *)
Theorem c60_integrate nm bf k fin e v F : openv B v -> wdB B e ->
  integrate gf rng nm d bf k fin e v = Ok (Some F) ->
  integrate pf anyr nm d' bf k fin e v = Ok (Some F) /\ AntiOn B v (fun r => ev r e) F.
Proof.
  intros Ho We H. split.
  - eapply rle_ok; [apply integrate_mono; [exact L|exact LR|exact Hd]|exact H].
  - intros rho Hr. exact (integrate_sound B gf S rng HR nm d rho Hr bf k fin e v F H We Ho rho Hr).
Qed.

(** ** C47: definite integrals *)
Theorem c47_definite nm bf k e v a b r rho : openv B v -> wdB B e -> inB B rho -> wd rho a -> wd rho b ->
  (forall t, Rmin (ev rho a) (ev rho b) <= t <= Rmax (ev rho a) (ev rho b) -> B v t) ->
  integrate_bounds gf rng nm d bf k e v a b = Ok (Some r) ->
  integrate_bounds pf anyr nm d' bf k e v a b = Ok (Some r) /\ wd rho r /\
  is_RInt (fun t => ev (upd rho v t) e) (ev rho a) (ev rho b) (ev rho r).
Proof.
  intros Ho We Hr Wa Wb Hab H. split; [eapply rle_ok; [apply integrate_bounds_mono; [exact L|exact LR|exact Hd]|exact H]|].
  unfold integrate_bounds in H. apply bind_ok in H as (o & HF & H). destruct o as [F|]; [|discriminate].
  apply (integrate_sound B gf S rng HR nm d rho Hr) in HF; auto.
  apply bind_ok in H as (fb & Hb & H). apply bind_ok in H as (fa & Ha & H). apply bind_ok in H as (df & Hdf & H).
  apply bind_ok in H as (r0 & Hs & H). injection H as <-.
  assert (U : forall x t, B v (ev rho x) -> wd rho x -> subs gf [(v, x)] F = Ok t -> wd rho t /\ ev rho t = ev (upd rho v (ev rho x)) F).
  { intros x t Bx Wx Ht. destruct (subs_sound rho gf (S rho Hr) [(v, x)]) with (e := F) (e' := t) as [A1 A2]; auto.
    - intros s e0 He. cbn [assoc] in He. destruct (String.eqb v s); [|discriminate]. injection He as <-. exact Wx.
    - apply (wd_finite rho). now apply HF.
    - split; auto. rewrite A2. apply ev_ext. intros s _. unfold upds, upd. cbn [assoc]. rewrite (String.eqb_sym s v). now destruct (String.eqb v s). }
  assert (Ba : B v (ev rho a)) by (apply Hab; split; [apply Rmin_l|apply Rmax_l]).
  assert (Bb : B v (ev rho b)) by (apply Hab; split; [apply Rmin_r|apply Rmax_r]).
  apply U in Hb as [Wfb Efb]; auto. apply U in Ha as [Wfa Efa]; auto.
  destruct (g_sub _ _ (S rho Hr) _ _ _ Hdf Wfb Wfa) as [Wd Ed].
  destruct (simplifyE_sound rho gf (S rho Hr) d df r0 Hs Wd) as [Wr Er].
  split; [exact Wr|]. rewrite Er, Ed, Efb, Efa.
  assert (HD : forall t, Rmin (ev rho a) (ev rho b) <= t <= Rmax (ev rho a) (ev rho b) ->
     is_derive (fun t => ev (upd rho v t) F) t (ev (upd rho v t) e) /\ continuous (fun t => ev (upd rho v t) e) t).
  { intros t Ht. apply Hab in Ht. assert (It : inB B (upd rho v t)) by now apply inB_upd.
    destruct (HF _ It) as [_ D]. pose proof (ev_continuous (upd rho v t) v e (We _ It)) as C. rewrite upd_eq in D, C.
    split.
    - eapply is_derive_ext; [|exact D]. intros s. cbn. now rewrite upd_upd_eq.
    - eapply continuous_ext; [|exact C]. intros s. cbn. now rewrite upd_upd_eq. }
  apply (is_RInt_derive (V := R_CompleteNormedModule) (fun t => ev (upd rho v t) F) (fun t => ev (upd rho v t) e)); intros t Ht; now apply HD.
Qed.

(** ** C29: integration by parts *)
Theorem c29_check nm h x i v e u du w x' : openv B v -> wdB B e ->
  bp_check gf rng nm d h x i v e = Ok (Some (u, du, w), x') ->
  bp_check pf anyr nm d' h x i v e = Ok (Some (u, du, w), x') /\ parts_of B v e u du w.
Proof.
  intros Ho We H. split; [eapply rle_ok; [apply bp_check_mono; [exact L|exact LR|exact Hd]|exact H]|].
  pose proof (fun rho0 H0 => bp_check_sound B gf S rng HR nm d rho0 H0 h x i v e u du w x' H Ho We) as X.
  split; [|split; [|split]]; intros rho Hr; destruct (X rho Hr) as (X1 & X2 & X3 & X4); auto.
Qed.
(** u*w plus a solution for -u'w *)
Theorem c29_sum v e u du w p F G : openv B v -> parts_of B v e u du w ->
  op_mul gf u w = Ok p -> AntiOn B v (fun r => - (ev r du * ev r w)) F -> op_add gf p F = Ok G ->
  AntiOn B v (fun r => ev r e) G.
Proof.
  intros Ho (Wu & Wd & Ww & HP) Hp HA HG.
  assert (V : forall r, inB B r -> wd r G /\ ev r G = ev r u * ev r w + ev r F).
  { intros r Hr. destruct (g_mul _ _ (S r Hr) _ _ _ Hp (Wu r Hr) (Ww r Hr)) as [A1 A2].
    destruct (g_add _ _ (S r Hr) _ _ _ HG A1 (proj1 (HA r Hr))) as [B1 B2]. split; auto. rewrite B2, A2. auto. }
  intros rho Hr. split; [now apply V|]. apply (box_ext B v Ho rho (fun r => ev r u * ev r w + ev r F)); auto.
  { intros r Hb. now apply V. }
  destruct (HP rho Hr) as (D1 & dw & D2 & E). destruct (HA rho Hr) as [_ D3]. rewrite E.
  eapply is_derive_eq; [apply (is_derive_plus (V := R_NormedModule) (fun t => ev (upd rho v t) u * ev (upd rho v t) w));
    [apply (is_derive_mult (fun t => ev (upd rho v t) u) (fun t => ev (upd rho v t) w)); [exact D1|exact D2|intros; apply Rmult_comm]|exact D3]|].
  unfold plus, mult; simpl. rewrite rho_upd. ring.
Qed.
(** the new integrand is [f] times the old one: u w / (1 - f) *)
Theorem c29_cyclic v e u du w p f k G : openv B v -> parts_of B v e u du w ->
  op_mul gf u w = Ok p -> wdB B f -> contains v f = false ->
  (forall r, inB B r -> - (ev r du * ev r w) = ev r f * ev r e) ->
  op_sub gf (ERat 1) f = Ok k -> contains v k = false -> op_div gf p k = Ok G ->
  AntiOn B v (fun r => ev r e) G.
Proof.
  intros Ho HP Hp Wf Cf Ef Hk Ck HG.
  destruct (one_minus B gf S f k Hk Wf) as [Wk Ek].
  assert (P : AntiOn B v (fun r => ev r e - ev r f * ev r e) p).
  { destruct HP as (Wu & Wd & Ww & HP).
    assert (V : forall r, inB B r -> wd r p /\ ev r p = ev r u * ev r w).
    { intros r Hr. apply (g_mul _ _ (S r Hr) _ _ _ Hp); auto. }
    intros rho Hr. split; [now apply V|]. apply (box_ext B v Ho rho (fun r => ev r u * ev r w)); auto.
    { intros r Hb. now apply V. }
    destruct (HP rho Hr) as (D1 & dw & D2 & E). rewrite <- Ef, E by auto.
    eapply is_derive_eq; [apply (is_derive_mult (fun t => ev (upd rho v t) u) (fun t => ev (upd rho v t) w)); [exact D1|exact D2|intros; apply Rmult_comm]|].
    unfold plus, mult; simpl. rewrite rho_upd. ring. }
  destruct (AntiOn_divc B gf S v _ k p G Ho P Ck Wk HG) as [A N]. eapply AntiOn_fext; [exact A|].
  intros r Hr. cbv beta. specialize (N r Hr). rewrite Ek in * by auto. field. auto.
Qed.
(** the integrand comes back after two steps: e = p' + k1 e1 and e1 = p1' + k2 e give the solution
    p / (1 - k1 k2) + k1 (p1 / (1 - k1 k2)) *)
Theorem c29_cyclic_two v e e1 p p1 k1 k2 f k q q1 s G : openv B v ->
  AntiOn B v (fun r => ev r e - ev r k1 * ev r e1) p -> AntiOn B v (fun r => ev r e1 - ev r k2 * ev r e) p1 ->
  wdB B k1 -> wdB B k2 -> contains v k1 = false ->
  op_mul gf k1 k2 = Ok f -> op_sub gf (ERat 1) f = Ok k -> contains v k = false ->
  op_div gf p k = Ok q -> op_div gf p1 k = Ok q1 -> op_mul gf k1 q1 = Ok s -> op_add gf q s = Ok G ->
  AntiOn B v (fun r => ev r e) G.
Proof.
  intros Ho P P1 W1 W2 C1 Hf Hk Ck Hq Hq1 Hs HG.
  assert (Vf : forall r, inB B r -> wd r f /\ ev r f = ev r k1 * ev r k2).
  { intros r Hr. apply (g_mul _ _ (S r Hr) _ _ _ Hf); auto. }
  destruct (one_minus B gf S f k Hk) as [Wk Ek]; [intros r Hr; now apply Vf|].
  destruct (AntiOn_divc B gf S v _ k p q Ho P Ck Wk Hq) as [A N].
  destruct (AntiOn_divc B gf S v _ k p1 q1 Ho P1 Ck Wk Hq1) as [A1 _].
  pose proof (AntiOn_scale B v Ho gf S _ k1 q1 s A1 C1 W1 Hs) as A2.
  assert (V : forall r, inB B r -> wd r G /\ ev r G = ev r q + ev r s).
  { intros r Hr. apply (g_add _ _ (S r Hr) _ _ _ HG); [now apply A|now apply A2]. }
  intros rho Hr. split; [now apply V|]. apply (box_ext B v Ho rho (fun r => ev r q + ev r s)); auto.
  { intros r Hb. now apply V. }
  eapply is_derive_eq; [apply (is_derive_plus (V := R_NormedModule) (fun t => ev (upd rho v t) q) (fun t => ev (upd rho v t) s));
    [now apply A|now apply A2]|].
  unfold plus; simpl. specialize (N rho Hr). rewrite Ek in * by auto. destruct (Vf rho Hr) as [_ ->]. rewrite (proj2 (Vf rho Hr)) in N. field. auto.
Qed.

(** ** C36: solutions are carried back correctly *)
Lemma locally_inv h : locally_ok B h -> Inv B h.
Proof.
  intros [HT HD HSol HE]. exists (value_at h). intros i q Hq. destruct (HD _ _ Hq) as (W & O & N). destruct (HT _ _ Hq) as (K & _ & P).
  constructor; auto.
  - intros _ r _. unfold value_at. now rewrite Hq.
  - intros F HF. eapply AntiOn_fext; [eapply HSol; eauto|]. intros r _. unfold value_at. now rewrite Hq.
  - intros p Hp. rewrite Hp in P. destruct P as (Lt & mm & Hm & I). exists mm. split; [exact Hm|]. split; [exact Lt|]. split; [exact I|].
    intros _. specialize (HE i q p mm Hq Hp Hm). unfold Edge.
    assert (Vp : forall r, value_at h p r = ev r (nd_e mm)) by (intros r; unfold value_at; now rewrite Hm).
    assert (Vi : forall r, value_at h i r = ev r (nd_e q)) by (intros r; unfold value_at; now rewrite Hq).
    destruct (nd_t q) as [[k| |k u|k]|]; [| | | |contradiction].
    + destruct HE as (E1 & E2 & E3 & E4). split; [exact E1|]. split; [exact E2|]. split; [exact E3|]. intros r Hr. rewrite Vp, Vi. auto.
    + destruct HE as [E1 E2]. split; [exact E1|]. intros r Hr. rewrite Vp. auto.
    + eapply USub_ext; [| |exact HE]; intros r Hr; now rewrite ?Vp, ?Vi.
    + destruct HE as [E1 E2]. split; [exact E1|]. intros r Hr. rewrite Vp, Vi. auto.
Qed.
Theorem c36_go_backwards h h' F : locally_ok B h -> go_backwards gf h = Ok (h', F) ->
  go_backwards pf h = Ok (h', F) /\
  exists q, nth_error h 0 = Some q /\ AntiOn B (nd_v q) (fun r => ev r (nd_e q)) F.
Proof.
  intros HL H. split; [eapply rle_ok; [apply go_backwards_mono; exact L|exact H]|].
  assert (X : exists q, nth_error h 0 = Some q).
  { unfold go_backwards in H. apply bind_ok in H as (b & Hb & _). unfold solved in Hb. cbn [solved_go] in Hb.
    apply bind_ok in Hb as (q & Hq & _). apply get_ok in Hq. eauto. }
  destruct X as [q Hq]. exists q. split; [exact Hq|].
  assert (R : Root (nd_e q) (nd_v q) h).
  { exists q. splits; auto. destruct (lo_tree B h HL _ _ Hq) as (_ & _ & P). destruct (nd_p q); auto. lia. }
  intros rho0 H0. pose proof (locally_inv h HL) as HI.
  destruct (go_backwards_step B gf S rho0 H0 h h' F HI H) as ((I' & E) & q' & Hq' & HF).
  assert (A : AntiOn B (nd_v q) (fun r => ev r (nd_e q)) F) by (eapply root_sol; [exact I'|eapply Root_ext; eauto|eauto]).
  exact (A rho0 H0).
Qed.
(** the whole step in the tree: ByParts at some node of a locally correct tree (any of the three cases), then
    carrying solutions back, gives an antiderivative at the root *)
Theorem c29_tree nm h0 x x' h h1 h2 i q t F : locally_ok B h -> nth_error h i = Some q ->
  bp_check gf rng nm d h0 x i (nd_v q) (nd_e q) = Ok (Some t, x') ->
  bp_forward gf h i (nd_v q) (nd_e q) t = Ok h1 -> go_backwards gf h1 = Ok (h2, F) ->
  bp_forward pf h i (nd_v q) (nd_e q) t = Ok h1 /\ go_backwards pf h1 = Ok (h2, F) /\
  exists q0, nth_error h 0 = Some q0 /\ AntiOn B (nd_v q0) (fun r => ev r (nd_e q0)) F.
Proof.
  intros HL Hq HC HF HG. destruct t as [[u du] w].
  split; [eapply rle_ok; [apply bp_forward_mono; exact L|exact HF]|].
  split; [eapply rle_ok; [apply go_backwards_mono; exact L|exact HG]|].
  assert (X : exists q, nth_error h 0 = Some q) by (destruct h; [destruct i; discriminate|eexists; reflexivity]).
  destruct X as [q0 Hq0]. exists q0. split; [exact Hq0|].
  assert (R : Root (nd_e q0) (nd_v q0) h).
  { exists q0. splits; auto. destruct (lo_tree B h HL _ _ Hq0) as (_ & _ & P). destruct (nd_p q0); auto. lia. }
  intros rho0 H0. pose proof (locally_inv h HL) as HI. destruct (lo_def B h HL _ _ Hq) as (Wq & Oq & _).
  pose proof (bp_check_sound B gf S rng HR nm d rho0 H0 h0 x i _ _ u du w x' HC Oq Wq) as BP0.
  pose proof (bp_forward_step B gf S nm d rho0 H0 h i (nd_v q) (nd_e q) u du w h1 q HI HF Hq eq_refl eq_refl BP0) as [I1 E1].
  destruct (go_backwards_step B gf S rho0 H0 h1 h2 F I1 HG) as ((I2 & E2) & q' & Hq' & HF').
  assert (A : AntiOn B (nd_v q0) (fun r => ev r (nd_e q0)) F).
  { eapply root_sol; [exact I2|eapply Root_ext; [eapply Root_ext; [exact R|exact E1]|exact E2]|eauto]. }
  exact (A rho0 H0).
Qed.
End Main.

(** ** Without hypotheses on oracles: boxes of open intervals *)
(** For any list of open rational intervals, one per restricted symbol: the oracles are computed (Interval.v), and
    [cert] computes that the integrand is defined there. *)
Theorem c60_certified bx n m d d' (Hn : (n <= m)%nat) (Hd : (d <= d')%nat) nm bf k fin e v F :
  cert (ivdom bx) e = true ->
  integrate (GF (ivdom bx) exact_cfg n) (ivrng bx) nm d bf k fin e v = Ok (Some F) ->
  integrate (PF exact_cfg m) (fun _ _ => true) nm d' bf k fin e v = Ok (Some F) /\
  AntiOn (box_of bx) v (fun r => ev r e) F.
Proof.
  intros C H.
  apply (c60_integrate exact_cfg fpow_exact_oracle_exact (ivdom bx) (ivrng bx) (box_of bx) (fun rho Hr => ivdom_right bx rho Hr)
    (ivrng_ok bx) n m Hn d d' Hd nm bf k fin e v F (box_of_open bx v)); auto.
  apply cert_wdB with (dom := ivdom bx); auto. intros rho Hr. now apply ivdom_right.
Qed.

(** ** The hypotheses are met *)
Fixpoint unm (k : nat) : string := match k with O => "u"%string | S k => String "_" (unm k) end.
(** 0 < x < 1, and every intermediate variable positive *)
Definition bpos : ibox := cons ("x"%string, (Some 0%Q, Some 1%Q)) (cons ("u"%string, (Some 0%Q, None)) (cons ("_u"%string, (Some 0%Q, None)) nil)).
Notation gp := (GF (ivdom bpos) exact_cfg 40).
Notation intp := (integrate gp (ivrng bpos) unm 40 false 25 true).
Lemma half_pos : inB (box_of bpos) half.
Proof.
  intros s. unfold box_of, bpos, half. cbn [bnds].
  destruct (String.eqb s "x"); [|destruct (String.eqb s "u"); [|destruct (String.eqb s "_u")]]; cbn [fst snd]; unfold Q2R; simpl; lra.
Qed.
Ltac certp := apply cert_wdB with (dom := ivdom bpos); [intros rho Hr; now apply ivdom_right|vm_compute; reflexivity].
(** x^2; x sin x; ln x; x^2 e^x; x e^(x^2); (x+5)/((x+1)(x+2)) *)
Example c60_ex :
  intp (EPow sx (ERat 2)) "x" = Ok (Some (EProd [ERat (1 # 3); EPow sx (ERat 3)])) /\
  intp (EProd [sx; ETrig Sin sx]) "x" = Ok (Some (ESum [EProd [ERat (-1); sx; ETrig Cos sx]; ETrig Sin sx])) /\
  intp (ELog sx EE) "x" = Ok (Some (ESum [EProd [sx; ELog sx EE]; EProd [ERat (-1); sx]])) /\
  (exists F, intp (EProd [EPow sx (ERat 2); EPow EE sx]) "x" = Ok (Some F)) /\
  intp (EProd [sx; EPow EE (EPow sx (ERat 2))]) "x" = Ok (Some (EProd [ERat (1 # 2); EPow EE (EPow sx (ERat 2))])) /\
  (exists F, intp (EProd [ESum [sx; ERat 5]; EPow (ESum [sx; ERat 1]) (ERat (-1)); EPow (ESum [sx; ERat 2]) (ERat (-1))]) "x" = Ok (Some F)) /\
  cert (ivdom bpos) (ELog sx EE) = true /\ inB (box_of bpos) half.
Proof.
  split; [vm_compute; reflexivity|]. split; [vm_compute; reflexivity|]. split; [vm_compute; reflexivity|].
  split; [eexists; vm_compute; reflexivity|]. split; [vm_compute; reflexivity|]. split; [eexists; vm_compute; reflexivity|].
  split; [vm_compute; reflexivity|exact half_pos].
Qed.
(** so the antiderivative of ln x is the expected one *)
Example c60_log : AntiOn (box_of bpos) "x" (fun r => ln (r "x"%string))
  (ESum [EProd [sx; ELog sx EE]; EProd [ERat (-1); sx]]).
Proof.
  destruct c60_ex as (_ & _ & H & _ & _ & _ & C & _).
  apply (c60_certified bpos 40 40 40 40 (le_n _) (le_n _)) in H as [_ H]; [|exact C].
  eapply AntiOn_fext; [exact H|]. intros r _. cbn [ev]. rewrite ln_exp. field.
Qed.
(** the integral of x^2 from 1/4 to 1/2 *)
Example c47_ex : integrate_bounds gp (ivrng bpos) unm 40 false 25 (EPow sx (ERat 2)) "x" (ERat (1 # 4)) (ERat (1 # 2)) = Ok (Some (ERat (7 # 192))) /\
  wdB (box_of bpos) (EPow sx (ERat 2)) /\
  (forall t, Rmin (Q2R (1 # 4)) (Q2R (1 # 2)) <= t <= Rmax (Q2R (1 # 4)) (Q2R (1 # 2)) -> box_of bpos "x"%string t).
Proof.
  split; [vm_compute; reflexivity|]. split; [certp|]. intros t Ht. unfold box_of, bpos. cbn. unfold Q2R in *; simpl in *.
  rewrite Rmin_left, Rmax_right in Ht by lra. lra.
Qed.
(** u = x and dv = sin x; for cos x sin x the new integrand is -1 times the old one *)
Example c29_ex :
  bp_check gp (ivrng bpos) unm 40 [mkroot (EProd [sx; ETrig Sin sx]) "x"] 0 0 "x" (EProd [sx; ETrig Sin sx])
    = Ok (Some (sx, ERat 1, EProd [ERat (-1); ETrig Cos sx]), 0%nat) /\
  (let e := EProd [ETrig Cos sx; ETrig Sin sx] in
   bp_check gp (ivrng bpos) unm 40 [mkroot e "x"] 0 0 "x" e
    = Ok (Some (ETrig Cos sx, EProd [ERat (-1); ETrig Sin sx], EProd [ERat (-1); ETrig Cos sx]), 0%nat) /\
   op_mul gp (ETrig Cos sx) (EProd [ERat (-1); ETrig Cos sx]) = Ok (EProd [ERat (-1); EPow (ETrig Cos sx) (ERat 2)]) /\
   op_sub gp (ERat 1) (ERat (-1)) = Ok (ERat 2) /\
   op_div gp (EProd [ERat (-1); EPow (ETrig Cos sx) (ERat 2)]) (ERat 2) = Ok (EProd [ERat (-1 # 2); EPow (ETrig Cos sx) (ERat 2)]) /\
   (forall r, - (ev r (EProd [ERat (-1); ETrig Sin sx]) * ev r (EProd [ERat (-1); ETrig Cos sx])) = ev r (ERat (-1)) * ev r e) /\
   wdB (box_of bpos) e).
Proof.
  split; [vm_compute; reflexivity|]. cbv zeta. split; [vm_compute; reflexivity|]. split; [vm_compute; reflexivity|].
  split; [vm_compute; reflexivity|]. split; [vm_compute; reflexivity|]. split; [|certp].
  intros r. cbn [ev map Rprod fold_right tev]. rewrite Q2R_m1. ring.
Qed.

(** the tree the search builds for x e^(x^2): the substitution u = x^2 gives (1/2) e^u, and pulling out 1/2 gives e^u,
    which the table solves *)
Definition nd0 (e : expr) (v : string) (t : option tr) (p : option nat) (ty : ntype) (s : option expr) (ks : list nat) : node :=
  {| nd_e := e; nd_v := v; nd_t := t; nd_p := p; nd_ty := ty; nd_sol := s; nd_fill := false; nd_kids := ks; nd_only := None |}.
Definition ex_tree : heap :=
  [nd0 (EProd [sx; EPow EE (EPow sx (ERat 2))]) "x" None None UNSET None [1%nat];
   nd0 (EProd [ERat (1 # 2); EPow EE (ESym "u")]) "u" (Some (TUSub UPoly (EPow sx (ERat 2)))) (Some 0%nat) UNSET None [2%nat];
   nd0 (EPow EE (ESym "u")) "u" (Some (TPull (ERat (1 # 2)))) (Some 1%nat) SOLUTION (Some (EPow EE (ESym "u"))) []].
Example c36_ex : locally_ok (box_of bpos) ex_tree /\
  exists h', go_backwards gp ex_tree = Ok (h', EProd [ERat (1 # 2); EPow EE (EPow sx (ERat 2))]).
Proof.
  assert (BS : BSound (box_of bpos) gp).
  { intros rho Hr. apply GF_sound; [exact fpow_exact_oracle_exact|now apply ivdom_right]. }
  split; [|eexists; vm_compute; reflexivity]. constructor.
  - intros i q H. destruct i as [|[|[|i]]]; [..|destruct i; discriminate]; injection H as <-; cbn.
    + split; [intros k [<-|[]]; split; [lia|eexists; cbn; eauto]|]. split; [repeat constructor; simpl; tauto|reflexivity].
    + split; [intros k [<-|[]]; split; [lia|eexists; cbn; eauto]|]. split; [repeat constructor; simpl; tauto|].
      split; [lia|]. eexists. cbn. split; [reflexivity|cbn; auto].
    + split; [intros k []|]. split; [constructor|]. split; [lia|]. eexists. cbn. split; [reflexivity|cbn; auto].
  - intros i q H. destruct i as [|[|[|i]]]; [..|destruct i; discriminate]; injection H as <-; cbn [nd_e nd_v nd_only nd0];
      (split; [certp|split; [apply box_of_open|reflexivity]]).
  - intros i q F H HF. destruct i as [|[|[|i]]]; [..|destruct i; discriminate]; injection H as <-; cbn in HF; try discriminate.
    injection HF as <-. cbn [nd_e nd_v nd0].
    apply (table_sound (box_of bpos) "u" (box_of_open bpos "u") gp BS); [vm_compute; reflexivity|certp].
  - intros i q p mm H Hp Hm. destruct i as [|[|[|i]]]; [..|destruct i; discriminate]; injection H as <-; cbn in Hp; try discriminate;
      injection Hp as <-; injection Hm as <-; cbn [nd_t nd_e nd_v nd0].
    + apply (poly_usub_sound (box_of bpos) "x" (box_of_open bpos "x") gp BS (ivrng bpos) (ivrng_ok bpos) "u" (ex_intro _ half half_pos) 40%nat); [vm_compute; reflexivity|certp].
    + split; [reflexivity|]. split; [reflexivity|]. split; [certp|]. intros r _. cbn [ev map Rprod fold_right]. lra.
Qed.

(** ** What the plain code gets wrong *)
Notation plf := (PF exact_cfg 40).
Notation intpl := (integrate plf (fun _ _ => true) unm 40 false 25 true).

(** C26, C29: for e^(-x) tan x the by-parts step finds a new integrand that is already above in the tree; the child
    is dropped, the AND node keeps only the part u*v, and the result is 0. *)
Theorem c29_dropped_child_refuted :
  let e := EProd [EPow EE (EProd [ERat (-1); sx]); ETrig Tan sx] in
  intpl e "x" = Ok (Some (ERat 0)) /\
  forall rho, 0 < rho "x"%string < 1 -> wd rho e /\ ~ is_derive (fun t => ev (upd rho "x" t) (ERat 0)) (rho "x"%string) (ev rho e).
Proof.
  cbv zeta. split; [vm_compute; reflexivity|]. intros rho Hx. pose proof pi_gt_3.
  assert (0 < cos (rho "x"%string)) by (apply cos_gt_0; lra). assert (0 < sin (rho "x"%string)) by (apply sin_gt_0; lra).
  split.
  - apply wd_prod. split; [|unfold one_const; simpl; lia]. repeat (apply Forall_cons || apply Forall_nil).
    + split; [exact I|]. split; [apply wd_prod; split; [repeat constructor|unfold one_const; simpl; lia]|]. right. apply rp_unfold. split; auto.
      cbn [ev]. apply exp_pos.
    + split; [exact I|]. cbn [tdom ev]. lra.
  - intros D. assert (Z : ev rho (EProd [EPow EE (EProd [ERat (-1); sx]); ETrig Tan sx]) = 0).
    { apply is_derive_unique in D. rewrite <- D. apply is_derive_unique. cbn [ev]. apply (is_derive_const (V := R_NormedModule)). }
    revert Z. cbn [ev map Rprod fold_right tev]. rewrite Rmult_1_r. apply Rgt_not_eq. apply Rmult_gt_0_compat.
    + rewrite rpow_pos by apply exp_pos. unfold Rpower. apply exp_pos.
    + rewrite Rmult_1_r. apply Rdiv_lt_0_compat; auto.
Qed.

(** C47: a pole between the bounds is not noticed: 1/x^2 from -1 to 1 "is" -2, although the integrand is positive. *)
Theorem c47_pole_refuted :
  let e := EPow sx (ERat (-2)) in
  integrate_bounds plf (fun _ _ => true) unm 40 false 25 e "x" (ERat (-1)) (ERat 1) = Ok (Some (ERat (-2))) /\
  forall rho, (forall t, t <> 0 -> 0 < ev (upd rho "x" t) e) /\
    ~ is_RInt (fun t => ev (upd rho "x" t) e) (ev rho (ERat (-1))) (ev rho (ERat 1)) (ev rho (ERat (-2))).
Proof.
  cbv zeta. split; [vm_compute; reflexivity|]. intros rho.
  assert (P : forall t, t <> 0 -> 0 < ev (upd rho "x" t) (EPow sx (ERat (-2)))).
  { intros t Ht. cbn [ev]. unfold upd. simpl String.eqb. cbv iota. unfold rpow.
    destruct (Rlt_dec 0 t); [unfold Rpower; apply exp_pos|]. destruct (Req_EM_T t 0); [contradiction|].
    replace (Int_part (Q2R (-2))) with (-2)%Z.
    - cbn. apply Rinv_0_lt_compat. change (Pos.to_nat 2) with 2%nat. cbn [pow]. destruct (Rtotal_order t 0) as [Lt|[E|Gt]]; [nra|contradiction|contradiction].
    - symmetry. replace (Q2R (-2)) with (IZR (-2)) by (unfold Q2R; simpl; lra). apply Int_part_IZR. }
  split; [exact P|]. intros H.
  assert (0 <= ev rho (ERat (-2))); [|cbn [ev] in *; unfold Q2R in *; simpl in *; lra].
  cbn [ev] in H. rewrite Q2R_1, Q2R_m1 in H.
  pose proof (is_RInt_const (V := R_NormedModule) (-1) 1 0) as H0. replace (scal (1 - -1) (0 : R_NormedModule)) with 0 in H0 by (unfold scal; simpl; unfold mult; simpl; ring).
  eapply (is_RInt_le (fun _ => 0)); [|exact H0|exact H|]; [lra|]. intros t _.
  destruct (Req_dec t 0) as [->|N]; [|left; now apply P].
  cbn [ev]. unfold upd. simpl String.eqb. cbv iota. unfold rpow. destruct (Rlt_dec 0 0); [lra|]. destruct (Req_EM_T 0 0); [|contradiction].
  destruct (Req_EM_T _ 0); lra.
Qed.

(** C62: integrands for which integrate raises: cot(x)^2, 1/(x^2 (x^2+1)), 1/((x+1)(x^2+1)), x^x e^x, e^(a x) sin(b x) *)
Theorem c62_raises_refuted :
  intpl (EPow (ETrig Cot sx) (ERat 2)) "x" = Raise AssertionError /\
  intpl (EProd [EPow sx (ERat (-2)); EPow (ESum [EPow sx (ERat 2); ERat 1]) (ERat (-1))]) "x" = Raise AssertionError /\
  intpl (EProd [EPow (ESum [sx; ERat 1]) (ERat (-1)); EPow (ESum [EPow sx (ERat 2); ERat 1]) (ERat (-1))]) "x" = Raise ValueError /\
  intpl (EProd [EPow sx sx; EPow EE sx]) "x" = Raise NotImplementedError /\
  intpl (EProd [EPow EE (EProd [ESym "a"; sx]); ETrig Sin (EProd [ESym "b"; sx])]) "x" = Raise ValueError.
Proof. repeat split; vm_compute; reflexivity. Qed.
(** ... with 1/(x-1)^2 the search makes a node whose integrand is infinite, and the choice of the next node raises
    TypeError because Infinity has no nesting cache; with ln(x)/(x+1)^2 the result is infinite *)
Theorem c62_infinite_refuted :
  intpl (EPow (ESum [EPow sx (ERat 2); EProd [ERat (-2); sx]; ERat 1]) (ERat (-1))) "x" = Raise TypeError /\
  intpl (EProd [ELog sx EE; EPow (ESum [sx; ERat 1]) (ERat (-2))]) "x"
    = Ok (Some (EProd [EInf; ESum [EProd [sx; ELog sx EE]; EProd [ERat (-1); sx]]])).
Proof. split; vm_compute; reflexivity. Qed.
(** ... and 1/(x+1)^2 itself raises TypeError: its expansion is completed to a square with nothing left over *)
Theorem c62_square_refuted : intpl (EPow (ESum [sx; ERat 1]) (ERat (-2))) "x" = Raise TypeError.
Proof. vm_compute; reflexivity. Qed.
(** sin(x)|x|: right for x > 0 only *)
Theorem c60_abs_refuted :
  let e := EProd [ETrig Sin sx; EAbs sx] in
  let F := ESum [EProd [ERat (-1); ETrig Cos sx; EAbs sx]; ETrig Sin sx] in
  intpl e "x" = Ok (Some F) /\
  forall rho, -1 < rho "x"%string < 0 -> wd rho e /\ ~ is_derive (fun t => ev (upd rho "x" t) F) (rho "x"%string) (ev rho e).
Proof.
  cbv zeta. split; [vm_compute; reflexivity|]. intros rho Hx. set (x := rho "x"%string) in *.
  split; [apply wd_prod; split; [repeat (apply Forall_cons || apply Forall_nil); cbn; auto|unfold one_const; simpl; lia]|].
  assert (EE0 : ev rho (EProd [ETrig Sin sx; EAbs sx]) = - (x * sin x)).
  { cbn [ev map Rprod fold_right tev]. fold x. rewrite Rabs_left by lra. ring. }
  rewrite EE0.
  assert (D0 : is_derive (fun t => ev (upd rho "x" t) (ESum [EProd [ERat (-1); ETrig Cos sx; EAbs sx]; ETrig Sin sx])) x (2 * cos x - x * sin x)).
  { apply (is_derive_ext_loc (fun t => t * cos t + sin t)).
    - eapply filter_imp; [|apply (locally_interval (-1) 0 x); exact Hx]. simpl. intros t Ht.
      cbn [ev map Rprod Rsum fold_right tev]. unfold upd. simpl String.eqb. cbv iota. rewrite Q2R_m1, Rabs_left by lra. ring.
    - auto_derive; auto. ring. }
  intros D. apply is_derive_unique in D. apply is_derive_unique in D0. rewrite D0 in D. pose proof pi_gt_3.
  assert (0 < cos x) by (apply cos_gt_0; lra). lra.
Qed.
