(** * CalcSound: subs evaluates at the substituted point; diff is the derivative. *)
From Coquelicot Require Export Coquelicot.
From Verif Require Export FSound Calc.
From Verif Require Export Expr.
Open Scope R_scope.

(** ** Specification vocabulary *)

(** The assignment [rho] with [v] set to [t]. *)
Definition upd (rho : env) (v : string) (t : R) : env :=
  fun s => if String.eqb s v then t else rho s.

(** The assignment in which every name bound in [m] has the value of its replacement. *)
Definition upds (rho : env) (m : list (string * expr)) : env :=
  fun s => match assoc s m with Some e => ev rho e | None => rho s end.

(** No infinity and no wildcard occurs in [e]. *)
Fixpoint finite (e : expr) : bool :=
  match e with
  | EInf | ENegInf | EAny _ => false
  | ESum ts | EProd ts => forallb finite ts
  | EPow b x => finite b && finite x
  | ELog i b => finite i && finite b
  | ETrig _ i | EAbs i => finite i
  | _ => true
  end.

Lemma ev_ext rho sigma e : (forall s, contains s e = true -> rho s = sigma s) ->
  ev rho e = ev sigma e.
Proof.
  induction e as [q| | | | |s| |ts IH|ts IH|b x IHb IHx|i b IHi IHb|f i IHi|i IHi] using expr_ind';
    intros H; cbn [ev contains] in *; auto.
  - apply H. apply String.eqb_refl.
  - f_equal. apply map_ext_in. intros t Ht. rewrite Forall_forall in IH. apply IH; auto.
    intros s Hs. apply H. apply existsb_exists; eauto.
  - f_equal. apply map_ext_in. intros t Ht. rewrite Forall_forall in IH. apply IH; auto.
    intros s Hs. apply H. apply existsb_exists; eauto.
  - f_equal; [apply IHb | apply IHx]; intros s Hs; apply H; rewrite Hs; auto using orb_true_r.
  - rewrite IHi, IHb; auto; intros s Hs; apply H; rewrite Hs; auto using orb_true_r.
  - rewrite IHi; auto.
  - rewrite IHi; auto.
Qed.

Lemma ev_upd_notin rho v t e : contains v e = false -> ev (upd rho v t) e = ev rho e.
Proof.
  intros H. apply ev_ext. intros s Hs. unfold upd. destruct (String.eqb_spec s v); auto. congruence.
Qed.
Lemma upd_same rho v : forall s, upd rho v (rho v) s = rho s.
Proof. intros s. unfold upd. destruct (String.eqb_spec s v); congruence. Qed.
Lemma upd_eq rho v t : upd rho v t v = t.
Proof. unfold upd. now rewrite String.eqb_refl. Qed.
Lemma upd_upd rho v t s x : upd (upd rho v t) v s x = upd rho v s x.
Proof. unfold upd. destruct (String.eqb x v); auto. Qed.

(** ** subs *)
Section Subs.
Context (rho : env) (fk : fkern) (HF : FSound rho fk).

Lemma subs_sound m : (forall s e, assoc s m = Some e -> wd rho e) ->
  forall e e', subs fk m e = Ok e' -> finite e = true ->
  wd rho e' /\ ev rho e' = ev (upds rho m) e.
Proof.
  intros Hm.
  induction e as [q| | | | |s| |ts IH|ts IH|b x IHb IHx|i b IHi IHb|f i IHi|i IHi] using expr_ind';
    intros e' H Hfin; cbn [subs finite] in *; try discriminate.
  - injection H as <-. simpl; auto.
  - injection H as <-. simpl; auto.
  - injection H as <-. simpl; auto.
  - injection H as <-. cbn [ev]. unfold upds. destruct (assoc s m) eqn:E; simpl; eauto.
  - apply bind_ok in H as (ts' & Ht & H).
    assert (A : Forall (wd rho) ts' /\ map (ev rho) ts' = map (ev (upds rho m)) ts).
    { clear H. revert ts' Ht Hfin. induction IH as [|t l Hx Hl IHl]; intros ts' Ht Hfin; simpl in *; inv_ok; auto.
      apply andb_prop in Hfin as [F1 F2].
      apply Hx in H as [A1 A2]; auto. apply IHl in H0 as [B1 B2]; auto. split; auto. simpl. now rewrite A2, B2. }
    destruct A as [A1 A2]. apply (g_sum _ _ HF) in H as [B1 B2]; auto. split; auto. rewrite B2, A2. auto.
  - apply bind_ok in H as (ts' & Ht & H).
    assert (A : Forall (wd rho) ts' /\ map (ev rho) ts' = map (ev (upds rho m)) ts).
    { clear H. revert ts' Ht Hfin. induction IH as [|t l Hx Hl IHl]; intros ts' Ht Hfin; simpl in *; inv_ok; auto.
      apply andb_prop in Hfin as [F1 F2].
      apply Hx in H as [A1 A2]; auto. apply IHl in H0 as [B1 B2]; auto. split; auto. simpl. now rewrite A2, B2. }
    destruct A as [A1 A2]. apply (g_prod _ _ HF) in H as [B1 B2]; auto. split; auto. rewrite B2, A2. auto.
  - apply bind_ok in H as (b' & Hb & H). apply bind_ok in H as (x' & Hx & H).
    apply andb_prop in Hfin as [F1 F2].
    apply IHb in Hb as [A1 A2]; auto. apply IHx in Hx as [B1 B2]; auto.
    apply (g_pow _ _ HF) in H as (_ & C1 & C2); auto. split; auto. rewrite C2, A2, B2. auto.
  - apply bind_ok in H as (b' & Hb & H). apply bind_ok in H as (x' & Hx & H).
    apply andb_prop in Hfin as [F1 F2].
    apply IHi in Hb as [A1 A2]; auto. apply IHb in Hx as [B1 B2]; auto.
    apply (f_log _ _ HF) in H as (_ & C1 & C2); auto. split; auto. rewrite C2, A2, B2. auto.
  - apply bind_ok in H as (b' & Hb & H). apply IHi in Hb as [A1 A2]; auto.
    apply (f_trig _ _ HF) in H as (_ & C1 & C2); auto. split; auto. rewrite C2, A2. auto.
  - apply bind_ok in H as (b' & Hb & H). apply IHi in Hb as [A1 A2]; auto.
    apply (g_abs _ _ HF) in H as (C1 & C2); auto. split; auto. rewrite C2, A2. auto.
Qed.
End Subs.

(** ** Derivatives of the elementary functions *)

Lemma is_derive_eq (f : R -> R) x (l l' : R) : is_derive f x l -> l = l' -> is_derive f x l'.
Proof. now intros H <-. Qed.

Lemma is_derive_pow_nat x (n : nat) : is_derive (fun y => y ^ n) x (INR n * x ^ pred n).
Proof. apply is_derive_Reals. apply derivable_pt_lim_pow. Qed.

Lemma is_derive_powerRZ x n : (x <> 0 \/ (1 <= n)%Z) ->
  is_derive (fun y => powerRZ y n) x (IZR n * powerRZ x (n - 1)).
Proof.
  intros H. destruct n as [|p|p].
  - simpl. eapply is_derive_eq; [apply (is_derive_const 1)|]. rewrite Rmult_0_l. reflexivity.
  - replace (powerRZ x (Z.pos p - 1)) with (x ^ pred (Pos.to_nat p)).
    + eapply is_derive_eq; [apply is_derive_pow_nat|]. rewrite INR_IZR_INZ. f_equal. f_equal. lia.
    + rewrite powerRZ_nonneg_pow by lia. f_equal. lia.
  - destruct H as [H|H]; [|lia]. simpl.
    assert (Hp : x ^ Pos.to_nat p <> 0) by now apply pow_nonzero.
    eapply is_derive_eq.
    + apply is_derive_inv; [apply is_derive_pow_nat|exact Hp].
    + assert (Hs : Pos.to_nat p = S (pred (Pos.to_nat p))) by lia.
      rewrite Pos2Nat.inj_add. simpl. rewrite INR_IZR_INZ.
      replace (Z.of_nat (Pos.to_nat p)) with (Z.pos p) by lia.
      change (IZR (Z.neg p)) with (- IZR (Z.pos p)). rewrite pow_add, pow_1.
      rewrite Hs at 2 3 4. simpl. rewrite Hs in Hp. simpl in Hp.
      assert (x ^ pred (Pos.to_nat p) <> 0) by now apply pow_nonzero.
      field. split; auto.
Qed.

Lemma is_derive_Rpower_base x a : 0 < x -> is_derive (fun y => Rpower y a) x (a * Rpower x (a - 1)).
Proof. intros H. apply is_derive_Reals. now apply derivable_pt_lim_power. Qed.

Lemma is_derive_Rpower_exp a x : is_derive (fun y => Rpower a y) x (ln a * Rpower a x).
Proof.
  unfold Rpower. auto_derive; auto. ring.
Qed.

Lemma is_derive_sin x : is_derive sin x (cos x).
Proof. apply is_derive_Reals, derivable_pt_lim_sin. Qed.
Lemma is_derive_cos x : is_derive cos x (- sin x).
Proof. apply is_derive_Reals, derivable_pt_lim_cos. Qed.
Lemma is_derive_ln x : 0 < x -> is_derive ln x (/ x).
Proof. intros. apply is_derive_Reals. now apply derivable_pt_lim_ln. Qed.
Lemma is_derive_atan x : is_derive atan x (/ (1 + x²)).
Proof. replace (x²) with (x ^ 2) by (unfold Rsqr; ring). apply is_derive_Reals. apply derivable_pt_lim_atan. Qed.
Lemma is_derive_asin x : -1 < x < 1 -> is_derive asin x (/ sqrt (1 - x²)).
Proof.
  intros H. apply is_derive_Reals.
  replace (/ sqrt (1 - x²)) with (1 / sqrt (1 - x²)) by (unfold Rdiv; ring).
  rewrite <- (derive_pt_asin x H). apply derive_pt_eq_1 with (pr := derivable_pt_asin x H). reflexivity.
Qed.
Lemma is_derive_acos x : -1 < x < 1 -> is_derive acos x (- / sqrt (1 - x²)).
Proof.
  intros H. apply is_derive_Reals.
  replace (- / sqrt (1 - x²)) with (-1 / sqrt (1 - x²)) by (unfold Rdiv; ring).
  rewrite <- (derive_pt_acos x H). apply derive_pt_eq_1 with (pr := derivable_pt_acos x H). reflexivity.
Qed.

Lemma is_derive_comp' (f g : R -> R) x df dg : is_derive f (g x) df -> is_derive g x dg ->
  is_derive (fun y => f (g y)) x (df * dg).
Proof. intros Hf Hg. eapply is_derive_eq; [apply (is_derive_comp f g); eauto|]. unfold scal; simpl; unfold mult; simpl. ring. Qed.

(** A function with a derivative keeps its strict sign near the point. *)
Lemma derive_pos_loc (f : R -> R) x l : is_derive f x l -> 0 < f x -> locally x (fun y => 0 < f y).
Proof.
  intros Hd Hp. assert (C : continuous f x) by (apply (@ex_derive_continuous R_AbsRing R_NormedModule); now exists l).
  apply (C (fun z => 0 < z)). apply (open_gt 0). exact Hp.
Qed.
Lemma derive_neg_loc (f : R -> R) x l : is_derive f x l -> f x < 0 -> locally x (fun y => f y < 0).
Proof.
  intros Hd Hp. assert (C : continuous f x) by (apply (@ex_derive_continuous R_AbsRing R_NormedModule); now exists l).
  apply (C (fun z => z < 0)). apply (open_lt 0). exact Hp.
Qed.
Lemma derive_neq_loc (f : R -> R) x l : is_derive f x l -> f x <> 0 -> locally x (fun y => f y <> 0).
Proof.
  intros Hd Hn. destruct (Rlt_dec (f x) 0) as [H|H].
  - eapply filter_imp; [|eapply derive_neg_loc; eauto]. simpl; intros; lra.
  - eapply filter_imp; [|eapply derive_pos_loc; [exact Hd|lra]]. simpl; intros; lra.
Qed.

Lemma locally_interval (a b x : R) : a < x < b -> locally x (fun y => a < y < b).
Proof.
  intros [H1 H2]. apply filter_and; [now apply (open_gt a) | now apply (open_lt b)].
Qed.

Lemma is_derive_Rsum (fs : list (R -> R)) (ls : list R) x :
  Forall2 (fun f l => is_derive f x l) fs ls ->
  is_derive (fun y => Rsum (map (fun f => f y) fs)) x (Rsum ls).
Proof.
  induction 1 as [|f l fs ls Hf _ IH]; simpl.
  - apply (is_derive_const 0).
  - apply (is_derive_plus f _ x l _ Hf IH).
Qed.

(** ** diff *)
Section Diff.
Context (fk : fkern) (rho : env) (v : string) (a b : R).
Let sg (t : R) : env := upd rho v t.
Context (HF : forall t, a < t < b -> FSound (sg t) fk).

(** [e'] is defined and the derivative of [e] on the whole interval. *)
Definition DerivOn (e e' : expr) : Prop := forall t, a < t < b ->
  wd (sg t) e' /\ is_derive (fun s => ev (sg s) e) t (ev (sg t) e').

Lemma const_derive e t : contains v e = false -> is_derive (fun s => ev (sg s) e) t 0.
Proof.
  intros H. apply (is_derive_ext (fun _ => ev rho e)).
  - intros s. symmetry. now apply ev_upd_notin.
  - apply (is_derive_const (ev rho e)).
Qed.

Lemma pow_base_derive (f : R -> R) t (x : R) df :
  is_derive f t df -> 0 < f t -> is_derive (fun s => rpow (f s) x) t (x * rpow (f t) (x - 1) * df).
Proof.
  intros Hf Hp. apply is_derive_ext_loc with (f := fun s => Rpower (f s) x).
  - eapply filter_imp; [|eapply derive_pos_loc; eauto]. simpl. intros s Hs. now rewrite rpow_pos.
  - rewrite rpow_pos by auto. apply (is_derive_comp' (fun y => Rpower y x) f); auto.
    now apply is_derive_Rpower_base.
Qed.

Lemma pow_int_derive (f : R -> R) t n df :
  is_derive f t df -> (f t <> 0 \/ (1 <= n)%Z) ->
  is_derive (fun s => rpow (f s) (IZR n)) t (IZR n * rpow (f t) (IZR n - 1) * df).
Proof.
  intros Hf Hn.
  assert (E : rpow (f t) (IZR n - 1) = powerRZ (f t) (n - 1)).
  { rewrite <- minus_IZR. apply rpow_int. destruct Hn; auto. right; lia. }
  rewrite E. apply is_derive_ext_loc with (f := fun s => powerRZ (f s) n).
  - destruct Hn as [Hn|Hn].
    + eapply filter_imp; [|eapply derive_neq_loc; eauto]. simpl. intros s Hs. rewrite rpow_int; auto.
    + apply filter_forall. intros s. rewrite rpow_int; auto. right; lia.
  - apply (is_derive_comp' (fun y => powerRZ y n) f); auto. now apply is_derive_powerRZ.
Qed.

Lemma diff_prod_derive d : (forall e e', d e = Ok e' -> (forall t, a < t < b -> wd (sg t) e) -> DerivOn e e') ->
  forall l pre ps, diff_prod fk d pre l = Ok ps ->
  (forall t, a < t < b -> Forall (wd (sg t)) (pre ++ l)) ->
  forall t, a < t < b -> Forall (wd (sg t)) ps /\
  is_derive (fun s => Rprod (map (ev (sg s)) l)) t
    (match Req_EM_T (Rprod (map (ev (sg t)) pre)) 0 with
     | left _ => Derive (fun s => Rprod (map (ev (sg s)) l)) t
     | right _ => Rsum (map (ev (sg t)) ps) / Rprod (map (ev (sg t)) pre)
     end) /\
  Rsum (map (ev (sg t)) ps) = Rprod (map (ev (sg t)) pre) * Derive (fun s => Rprod (map (ev (sg s)) l)) t.
Proof.
  intros Hd. induction l as [|u l IH]; intros pre ps H W t Ht; cbn [diff_prod] in H; inv_ok.
  - split; auto. simpl. rewrite Derive_const.
    assert (D0 : is_derive (fun _ : R => 1) t 0) by apply (is_derive_const 1).
    split; [|ring]. destruct (Req_EM_T _ _); auto. unfold Rdiv. rewrite Rmult_0_l. auto.
  - rename x into u'. rename x0 into p. rename x1 into ps.
    assert (Wu : forall t, a < t < b -> wd (sg t) u).
    { intros s Hs. specialize (W s Hs). apply Forall_app in W as [_ W]. now inversion W. }
    assert (Wl : forall t, a < t < b -> Forall (wd (sg t)) (pre ++ l)).
    { intros s Hs. specialize (W s Hs). apply Forall_app in W as [W1 W]. inversion W; subst.
      apply Forall_app; auto. }
    destruct (Hd _ _ H0 Wu t Ht) as [U1 U2].
    assert (Wt : Forall (wd (sg t)) (u' :: pre ++ l)) by (constructor; auto).
    destruct (g_prod _ _ (HF t Ht) _ _ H1 Wt) as [P1 P2].
    specialize (IH (pre ++ [u]) ps H2).
    assert (W' : forall t, a < t < b -> Forall (wd (sg t)) ((pre ++ [u]) ++ l)).
    { intros s Hs. rewrite <- app_assoc. now apply W. }
    destruct (IH W' t Ht) as (I1 & I2 & I3). clear IH.
    assert (DL : is_derive (fun s => Rprod (map (ev (sg s)) l)) t
       (Derive (fun s => Rprod (map (ev (sg s)) l)) t)).
    { apply Derive_correct. eexists. exact I2. }
    set (dl := Derive (fun s => Rprod (map (ev (sg s)) l)) t) in *.
    assert (DU : is_derive (fun s => Rprod (map (ev (sg s)) (u :: l))) t
      (ev (sg t) u' * Rprod (map (ev (sg t)) l) + ev (sg t) u * dl)).
    { simpl. apply (is_derive_mult (fun s => ev (sg s) u) (fun s => Rprod (map (ev (sg s)) l)) t _ _ U2 DL).
      intros; apply Rmult_comm. }
    pose proof (is_derive_unique _ _ _ DU) as DE.
    change (Derive (fun s : R => Rprod (map (ev (sg s)) (u :: l))) t = 
       ev (sg t) u' * Rprod (map (ev (sg t)) l) + ev (sg t) u * dl) in DE. rewrite DE.
    assert (S : Rsum (map (ev (sg t)) (p :: ps)) =
       Rprod (map (ev (sg t)) pre) * (ev (sg t) u' * Rprod (map (ev (sg t)) l) + ev (sg t) u * dl)).
    { simpl. rewrite I3, P2. simpl. rewrite !map_app, !Rprod_app. simpl. ring. }
    split; [constructor; auto|]. split; [|exact S].
    eapply is_derive_eq; [exact DU|].
    destruct (Req_EM_T (Rprod (map (ev (sg t)) pre)) 0) as [Z|Z]; [reflexivity|]. rewrite S. field; auto.
Qed.

Lemma ev_upd_fun e t : ev (sg t) e = ev (sg t) e. Proof. reflexivity. Qed.

Ltac wdt := simpl; auto.

Theorem diffE_sound n : forall e e', diffE fk n v e = Ok e' ->
  (forall t, a < t < b -> wd (sg t) e) -> DerivOn e e'.
Proof.
  induction n as [|n IH]; cbn [diffE]; intros e e' H W; [discriminate|].
  intros t Ht. pose proof (HF t Ht) as HFt. pose proof (f_k _ _ HFt) as HG.
  assert (Wt := W t Ht).
  destruct e as [q| | | | |s| |ts|ts|u x|i lb|f i|i]; try discriminate; try (destruct Wt; fail).
  - injection H as <-. split; [exact I|]. simpl. rewrite Q2R_0. apply (is_derive_const (Q2R q)).
  - injection H as <-. split; [exact I|]. simpl. rewrite Q2R_0. apply (is_derive_const PI).
  - injection H as <-. split; [exact I|]. simpl. rewrite Q2R_0. apply (is_derive_const (exp 1)).
  - (* symbol *)
    injection H as <-. simpl. unfold sg, upd. destruct (String.eqb s v) eqn:E; simpl; split; auto.
    + rewrite Q2R_1. apply (is_derive_id t).
    + rewrite Q2R_0. apply (is_derive_const (rho s)).
  - (* sum *)
    apply bind_ok in H as (ts' & Ht' & H). apply mapM_ok in Ht'.
    assert (A : Forall2 DerivOn ts ts').
    { clear H HG HFt Wt. induction Ht' as [|u u' l l' Hu _ IHl]; constructor.
      - apply IH; auto. intros s Hs. specialize (W s Hs). apply wd_sum in W. now inversion W.
      - apply IHl. intros s Hs. specialize (W s Hs). apply wd_sum in W. apply wd_sum. now inversion W. }
    assert (Wts : Forall (wd (sg t)) ts').
    { clear -A Ht. induction A as [|u u' l l' Hu _ IHl]; constructor; auto. now apply Hu. }
    destruct (g_sum _ _ HG _ _ H Wts) as [S1 S2]. split; auto. rewrite S2.
    apply is_derive_ext with (f := fun s => Rsum (map (fun f => f s) (map (fun u s => ev (sg s) u) ts))).
    { intros s. simpl. now rewrite map_map. }
    apply is_derive_Rsum. clear -A Ht. induction A as [|u u' l l' Hu _ IHl]; simpl; constructor; auto.
    now apply Hu.
  - (* product *)
    apply bind_ok in H as (ps & Hps & H).
    assert (Wl : forall t, a < t < b -> Forall (wd (sg t)) ([] ++ ts)).
    { intros s Hs. simpl. now apply (proj1 (wd_prod (sg s) ts) (W s Hs)). }
    destruct (diff_prod_derive _ IH _ _ _ Hps Wl t Ht) as (P1 & P2 & P3). simpl in P2, P3.
    destruct (g_sum _ _ HG _ _ H P1) as [S1 S2]. split; auto. rewrite S2, P3, Rmult_1_l.
    apply Derive_correct. eexists. exact P2.
  - (* power *)
    destruct (negb (contains v x)) eqn:Cx; [|destruct (negb (contains v u)) eqn:Cu; [|discriminate]].
    + apply negb_true_iff in Cx.
      apply bind_ok in H as (x1 & Hx1 & H). apply bind_ok in H as (p & Hp & H).
      apply bind_ok in H as (m & Hm & H). apply bind_ok in H as (u' & Hu' & H).
      destruct Wt as (Wu & Wx & Px).
      apply (g_sub _ _ HG) in Hx1 as [X1 X2]; [|auto|exact I].
      apply (g_opow _ _ HG) in Hp as (P0 & P1 & P2); auto.
      apply (g_mul _ _ HG) in Hm as [M1 M2]; auto.
      assert (Wu' : forall t, a < t < b -> wd (sg t) u) by (intros s Hs; apply (W s Hs)).
      destruct (IH _ _ Hu' Wu' t Ht) as [U1 U2].
      apply (g_mul _ _ HG) in H as [R1 R2]; auto. split; auto. rewrite R2, M2, P2, X2.
      change (ev (sg t) (ERat 1)) with (Q2R 1). rewrite Q2R_1.
      apply is_derive_ext with (f := fun s => rpow (ev (sg s) u) (ev (sg t) x)).
      { intros s. simpl. f_equal. unfold sg. now rewrite !ev_upd_notin. }
      destruct (Rlt_dec 0 (ev (sg t) u)) as [Hpos|Hneg]; [now apply pow_base_derive|].
      destruct Px as [(q & -> & Hi & Hq)|Px]; [|apply rp_gt0 in Px; contradiction].
      assert (D : ev (sg t) u <> 0 \/ (1 <= numer q)%Z).
      { destruct P0 as [(q' & -> & Hi' & Hq')|P0]; [|apply rp_gt0 in P0; contradiction].
        destruct Hq' as [Hq'|Hq']; auto. right. simpl in X2. rewrite Q2R_1 in X2.
        apply Q2R_nonneg in Hq'. rewrite X2, (qisint_Q2R _ Hi) in Hq'.
        apply le_IZR. lra. }
      simpl. rewrite (qisint_Q2R _ Hi). now apply pow_int_derive.
    + apply negb_true_iff in Cu.
      apply bind_ok in H as (l & Hl & H). apply bind_ok in H as (m & Hm & H).
      apply bind_ok in H as (x' & Hx' & H).
      destruct Wt as (Wu & Wx & Px).
      apply (f_log _ _ HFt) in Hl as ((L0 & _) & L1 & L2); [|auto|exact I]. apply rp_gt0 in L0.
      apply (g_mul _ _ HG) in Hm as [M1 M2]; [|auto|simpl; auto].
      assert (Wx' : forall t, a < t < b -> wd (sg t) x) by (intros s Hs; apply (W s Hs)).
      destruct (IH _ _ Hx' Wx' t Ht) as [U1 U2].
      apply (g_mul _ _ HG) in H as [R1 R2]; auto. split; auto. rewrite R2, M2, L2. simpl.
      rewrite ln_exp, Rdiv_1.
      apply is_derive_ext with (f := fun s => Rpower (ev (sg t) u) (ev (sg s) x)).
      { intros s. unfold sg at 3. rewrite (ev_upd_notin rho v s u Cu), <- (ev_upd_notin rho v t u Cu).
        fold (sg t). now rewrite rpow_pos. }
      rewrite rpow_pos by auto.
      apply (is_derive_comp' (fun y => Rpower (ev (sg t) u) y) (fun s => ev (sg s) x)); auto.
      apply is_derive_Rpower_exp.
  - (* log *)
    apply guard_ok in H as [Hg H]. rewrite (f_strict _ _ HFt) in Hg. simpl in Hg.
    apply bind_ok in H as (i' & Hi' & H). destruct Wt as (Wi & Wb & Ri & Gb & Nb).
    assert (Wi' : forall t, a < t < b -> wd (sg t) i) by (intros s Hs; apply (W s Hs)).
    destruct (IH _ _ Hi' Wi' t Ht) as [U1 U2].
    apply (g_div _ _ HG) in H as (D0 & D1 & D2); auto. split; auto. rewrite D2.
    apply rp_gt0 in Ri.
    destruct (contains v (ELog i lb)) eqn:C.
    + simpl in C. rewrite C, orb_false_r in Hg. destruct lb; try discriminate.
      apply is_derive_ext with (f := fun s => ln (ev (sg s) i)).
      { intros s. simpl. now rewrite ln_exp, Rdiv_1. }
      eapply is_derive_eq; [apply (is_derive_comp' ln); [now apply is_derive_ln | exact U2]|].
      unfold Rdiv; ring.
    + assert (Ci : contains v i = false) by (simpl in C; now apply orb_false_elim in C).
      pose proof (is_derive_unique _ _ _ U2) as E. rewrite (is_derive_unique _ _ _ (const_derive i t Ci)) in E.
      rewrite <- E. unfold Rdiv. rewrite Rmult_0_l. now apply const_derive.
  - (* trig *)
    destruct Wt as [Wi Ti].
    assert (Wi' : forall t, a < t < b -> wd (sg t) i) by (intros s Hs; apply (W s Hs)).
    assert (SQ : forall q, op_pow fk i (ERat 2) = Ok q -> wd (sg t) q /\ ev (sg t) q = (ev (sg t) i)²).
    { intros q Hq. apply (g_opow _ _ HG) in Hq as (_ & Q1 & Q2); [|auto|exact I]. split; auto. rewrite Q2.
      simpl. replace (Q2R 2) with (IZR 2) by (unfold Q2R; simpl; lra).
      rewrite rpow_int by (right; lia). simpl. unfold Rsqr. ring. }
    destruct f; inv_ok.
    + rename x into f. rename x0 into i'.
      apply (f_trig _ _ HFt) in H0 as (_ & A1 & A2); auto. destruct (IH _ _ H1 Wi' t Ht) as [U1 U2].
      apply (g_mul _ _ HG) in H as [R1 R2]; auto. split; auto. rewrite R2, A2. simpl.
      apply (is_derive_comp' sin); auto. apply is_derive_sin.
    + rename x into f. rename x0 into g. rename x1 into i'.
      apply (f_trig _ _ HFt) in H0 as (_ & A1 & A2); auto.
      apply (g_neg _ _ HG) in H1 as [B1 B2]; auto. destruct (IH _ _ H2 Wi' t Ht) as [U1 U2].
      apply (g_mul _ _ HG) in H as [R1 R2]; auto. split; auto. rewrite R2, B2, A2. simpl.
      apply (is_derive_comp' cos); auto. apply is_derive_cos.
    + rename x into f. rename x0 into g. rename x1 into i'.
      apply (f_trig _ _ HFt) in H0 as (_ & A1 & A2); auto.
      apply (g_opow _ _ HG) in H1 as (_ & B1 & B2); [|auto|exact I]. destruct (IH _ _ H2 Wi' t Ht) as [U1 U2].
      apply (g_mul _ _ HG) in H as [R1 R2]; auto. split; auto. rewrite R2, B2, A2. simpl in *.
      replace (Q2R 2) with (IZR 2) by (unfold Q2R; simpl; lra). rewrite rpow_int by (right; lia). simpl.
      apply (is_derive_comp' (fun y => sin y / cos y)); auto.
      auto_derive; auto. field_simplify; auto. f_equal.
      pose proof (sin2_cos2 (ev (sg t) i)) as E. unfold Rsqr in E. simpl. lra.
    + (* csc *)
      rename x into f. rename x0 into g.
      assert (Wg : forall t, a < t < b -> wd (sg t) g /\ ev (sg t) g = / sin (ev (sg t) i)).
      { intros s Hs. destruct (f_trig _ _ (HF s Hs) _ _ _ H0) as (_ & A1 & A2); auto.
        destruct (g_div _ _ (HF s Hs) _ _ _ H1 I A1) as (B0 & B1 & B2). split; auto.
        rewrite B2, A2. simpl. rewrite Q2R_1. unfold Rdiv; ring. }
      destruct (IH _ _ H (fun s Hs => proj1 (Wg s Hs)) t Ht) as [U1 U2]. split; auto.
      eapply is_derive_ext_loc; [|exact U2].
      eapply filter_imp; [|apply (locally_interval a b t Ht)]. simpl. intros s Hs.
      now rewrite (proj2 (Wg s Hs)).
    + rename x into f. rename x0 into g. rename x1 into m. rename x2 into i'.
      apply (f_trig _ _ HFt) in H0 as (_ & A1 & A2); auto.
      apply (f_trig _ _ HFt) in H1 as (_ & B1 & B2); auto.
      apply (g_mul _ _ HG) in H2 as [M1 M2]; auto. destruct (IH _ _ H3 Wi' t Ht) as [U1 U2].
      apply (g_mul _ _ HG) in H as [R1 R2]; auto. split; auto. rewrite R2, M2, B2, A2. simpl in *.
      apply (is_derive_comp' (fun y => / cos y)); auto.
      auto_derive; auto. field; auto.
    + rename x into f. rename x0 into g.
      assert (Wg : forall t, a < t < b -> wd (sg t) g /\ ev (sg t) g = cos (ev (sg t) i) / sin (ev (sg t) i)).
      { intros s Hs. destruct (f_trig _ _ (HF s Hs) _ _ _ H0) as (_ & A1 & A2); auto.
        destruct (g_div _ _ (HF s Hs) _ _ _ H1 I A1) as (B0 & B1 & B2). split; auto.
        rewrite B2, A2. simpl. rewrite Q2R_1. unfold Rdiv. rewrite Rinv_mult, Rinv_inv. ring. }
      destruct (IH _ _ H (fun s Hs => proj1 (Wg s Hs)) t Ht) as [U1 U2]. split; auto.
      eapply is_derive_ext_loc; [|exact U2].
      eapply filter_imp; [|apply (locally_interval a b t Ht)]. simpl. intros s Hs.
      now rewrite (proj2 (Wg s Hs)).
    + apply SQ in H0 as [Q1 Q2]. apply (g_sub _ _ HG) in H1 as [S1 S2]; [|exact I|auto].
      apply (g_sqrt _ _ HG) in H2 as (T0 & T1 & T2); auto.
      apply (g_div _ _ HG) in H3 as (D0 & D1 & D2); [|exact I|auto].
      destruct (IH _ _ H4 Wi' t Ht) as [U1 U2].
      apply (g_mul _ _ HG) in H as [R1 R2]; auto. split; auto. rewrite R2, D2, T2, S2, Q2.
      rewrite S2, Q2 in T0. simpl in T0 |- *. rewrite Q2R_1 in *.
      eapply is_derive_eq; [apply (is_derive_comp' asin); [apply is_derive_asin|exact U2]|].
      * unfold Rsqr in T0. simpl in Ti. split; nra.
      * unfold Rdiv; ring.
    + apply SQ in H0 as [Q1 Q2]. apply (g_sub _ _ HG) in H1 as [S1 S2]; [|exact I|auto].
      apply (g_sqrt _ _ HG) in H2 as (T0 & T1 & T2); auto.
      apply (g_div _ _ HG) in H3 as (D0 & D1 & D2); [|exact I|auto].
      destruct (IH _ _ H4 Wi' t Ht) as [U1 U2].
      apply (g_mul _ _ HG) in H as [R1 R2]; auto. split; auto. rewrite R2, D2, T2, S2, Q2.
      rewrite S2, Q2 in T0. simpl in T0 |- *. rewrite Q2R_1, Q2R_m1 in *.
      eapply is_derive_eq; [apply (is_derive_comp' acos); [apply is_derive_acos|exact U2]|].
      * unfold Rsqr in T0. simpl in Ti. split; nra.
      * unfold Rdiv; ring.
    + apply SQ in H0 as [Q1 Q2]. apply (g_add _ _ HG) in H1 as [S1 S2]; [|exact I|auto].
      apply (g_div _ _ HG) in H2 as (D0 & D1 & D2); [|exact I|auto].
      destruct (IH _ _ H3 Wi' t Ht) as [U1 U2].
      apply (g_mul _ _ HG) in H as [R1 R2]; auto. split; auto. rewrite R2, D2, S2, Q2. simpl.
      rewrite Q2R_1.
      eapply is_derive_eq; [apply (is_derive_comp' atan); [apply is_derive_atan|exact U2]|].
      unfold Rdiv; ring.
  - (* abs *)
    apply guard_ok in H as [Hg H]. rewrite (f_strict _ _ HFt) in Hg. simpl in Hg.
    assert (Wi' : forall t, a < t < b -> wd (sg t) i) by (intros s Hs; apply (W s Hs)).
    destruct (IH _ _ H Wi' t Ht) as [U1 U2]. split; auto.
    apply orb_prop in Hg as [Hg|Hg].
    + apply negb_true_iff in Hg.
      pose proof (is_derive_unique _ _ _ U2) as E. rewrite (is_derive_unique _ _ _ (const_derive i t Hg)) in E.
      rewrite <- E. now apply const_derive.
    + apply (f_node _ _ HFt) in Hg. simpl in Hg.
      eapply is_derive_ext_loc; [|exact U2].
      eapply filter_imp; [|apply (derive_pos_loc _ _ _ U2 Hg)]. simpl. intros s Hs.
      symmetry. apply Rabs_right. lra.
Qed.
End Diff.
