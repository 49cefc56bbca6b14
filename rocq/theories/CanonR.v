(** * CanonR: values of canonical expressions under negation and splitting into numerator and
    denominator (for C75, C76). *)
From Coquelicot Require Import Coquelicot.
From Verif Require Import Base Expr Kernel Sem RealLemmas Sound SoundPow Atoms ExpandSound Frag Canon Read.
From Coq Require Import DecimalString Permutation.
Local Ltac splits := repeat match goal with |- _ /\ _ => split end.

(** ** What kind of phrase an expression is printed as *)
Definition lvl (e : expr) : level :=
  match e with
  | ESum _ => LSum
  | EProd _ => LProd
  | ERat q => if (denom q =? 1)%Z then (if qlt0 q then LUnary else LAtom) else LProd
  | EPow _ (ERat q) => if qlt0 q then LProd else if Qeq_bool q (1 # 2) then LAtom else LPow
  | EPow _ _ => LPow
  | _ => LAtom
  end.
Definition rank (l : level) : nat := match l with LAtom => 0 | LPow => 1 | LUnary => 2 | LProd => 3 | LSum => 4 end.
Lemma g_le l l' ts t : (rank l <= rank l')%nat -> G l ts t -> G l' ts t.
Proof. destruct l, l'; cbn [rank]; intros; try lia; auto using g_ap, g_pu, g_um, g_ms. Qed.

(** a symbol name the reader takes as a name *)
Definition ident (s : string) : Prop :=
  all_id s = true /\ s <> ""%string /\ is_fun s = false /\ NilZero.uint_of_string s = None /\ s <> "pi"%string /\ s <> "e"%string.
(** the text starts with a left and ends with a right parenthesis *)
Definition bracketed (s : string) : bool :=
  match String.get 0 s, last_char s with Some f, Some l => Ascii.eqb f "(" && Ascii.eqb l ")" | _, _ => false end.

Section Generic.
Context (c : cfg) (Nm : string -> Prop) (Ar Ex : expr -> Prop).
Hypothesis H1 : forall x d, (0 < x)%Q -> fpow c 1 x = Some d -> d = 1%Z.
Notation canon := (canon Nm Ar Ex (surd c)).
Notation cfac := (fun t => canon t /\ is_prod t = false).
Lemma canon_const ts : Forall cfac ts -> (List.length (rats ts) <= 1)%nat -> one_const ts.
Proof.
  intros F L. unfold one_const. replace (filter is_acc ts) with (rats ts); auto. unfold rats. clear L.
  induction F as [|t ts [C _] _ IH]; auto. cbn [filter]. rewrite (canon_acc c _ _ _ t C), IH. reflexivity.
Qed.
Lemma perm_prod rho a b : Permutation a b -> (Rprod (map (ev rho) a) = Rprod (map (ev rho) b))%R.
Proof. induction 1; cbn [map Rprod fold_right] in *; unfold Rprod in *; cbn [fold_right] in *; try lra; congruence. Qed.
Lemma perm_rats a b : Permutation a b -> List.length (rats a) = List.length (rats b).
Proof. intros P. unfold rats. induction P; cbn [filter] in *; auto; try congruence; repeat (destruct (is_rat _)); cbn [List.length]; auto. Qed.
Lemma apart_perm a b : Permutation a b -> ForallOrdPairs apart a -> ForallOrdPairs apart b.
Proof.
  assert (S : forall x y, apart x y -> apart y x) by (intros x y [A B]; split; auto).
  induction 1 as [|x a b P IH|x y l|a b d P1 I1 P2 I2]; intros H; auto.
  - inversion H; subst. constructor; auto. rewrite <- P. auto.
  - inversion H as [|? ? F G']; subst. inversion G' as [|? ? F' G'']; subst. inversion F; subst. constructor; [constructor; auto|]. constructor; auto.
Qed.
Lemma nonrats_perm a b : Permutation a b -> Permutation (nonrats a) (nonrats b).
Proof. unfold nonrats. induction 1; cbn [filter]; auto; repeat (destruct (is_rat _)); cbn [negb]; auto; [constructor|etransitivity; eauto]. Qed.
Lemma canon_perm a b : a <> [] -> Permutation a b -> Forall cfac a -> (List.length (rats a) <= 1)%nat -> ForallOrdPairs apart (nonrats a) -> canon (EProd b).
Proof.
  intros N P F L O. apply cn_prod.
  - intros ->. apply Permutation_sym, Permutation_nil in P. auto.
  - now rewrite <- P.
  - now rewrite <- (perm_rats _ _ P).
  - eapply apart_perm; [apply nonrats_perm; eauto|auto].
Qed.
Lemma canon_good t : canon t -> is_prod t = false -> is_rat t = false -> good t.
Proof.
  intros C P R. split; [rewrite (canon_acc c _ _ _ t C); auto|]. split; auto. intros p. unfold base. destruct C as [q| | |s Hs|us Hu Fu|us Hu Fu Ru Au|b q Cb Pb Rb Sb Ab|b x Cb Cx Pb Rx Cx' Px|f i Ci Ai|i Ci Ai|i Ci]; try discriminate; cbn [decon_pow fst]; intros E; try discriminate; auto.
  destruct Rb as [Rb|(z & -> & Hz & _)]; [subst; discriminate|]. injection E as <-. unfold Qlt. simpl. lia.
Qed.
Lemma Rprod_app a b : (Rprod (a ++ b) = Rprod a * Rprod b)%R.
Proof. unfold Rprod. induction a as [|x a IH]; cbn [app fold_right]; [lra|]. rewrite IH. ring. Qed.

(** negating a term that starts with a minus *)
Lemma neg_ok n t e : canon t -> is_prod t = true -> is_sub t = true ->
  k_prod (K c n) [ERat (-1); t] = Ok e \/ k_prod (K c n) [t; ERat (-1)] = Ok e ->
  canon e /\ (is_sum e = true -> neg_sum t = true) /\ forall rho, wd rho t -> wd rho e /\ (ev rho e = - ev rho t)%R.
Proof.
  intros C P Sb H. destruct t as [| | | | | | | |ts| | | |]; try discriminate. destruct ts as [|t0 r]; [discriminate|]. destruct t0; try discriminate.
  cbn [is_sub] in Sb. apply qlt0_iff in Sb. inversion C as [| | | | |? Nn F L O| | | | |]; subst. inversion F as [|? ? _ Fr]; subst.
  assert (Lr : rats r = []) by (unfold rats in *; cbn [filter is_rat List.length] in L; destruct (filter is_rat r); auto; cbn in L; lia).
  assert (Rr : forall u, In u r -> is_rat u = false).
  { intros u Hu. destruct (is_rat u) eqn:E; auto. assert (X : In u (rats r)) by (unfold rats; apply filter_In; auto). now rewrite Lr in X. }
  assert (Nr : nonrats r = r).
  { clear -Rr. induction r as [|u r IH]; auto. cbn [nonrats filter]. rewrite (Rr u) by now left. cbn [negb]. f_equal. apply IH. intros; apply Rr. now right. }
  assert (Or : ForallOrdPairs apart r) by (cbn [nonrats filter is_rat negb] in O; fold (nonrats r) in O; now rewrite Nr in O).
  assert (Gr : Forall good r).
  { rewrite Forall_forall in *. intros u Hu. destruct (Fr u Hu). apply canon_good; auto. }
  assert (X : exists z fs, (z == - q)%Q /\ ((fs = r /\ (z == 1)%Q) \/ fs = r ++ [ERat z]) /\ prod_of fs e).
  { destruct H as [H|H]; eapply (neg_prod c n q r _ e Sb Gr Or); [left; reflexivity|exact H|right; reflexivity|exact H]. }
  destruct X as (z & fs & Vz & Hf & Pf). clear H.
  assert (Ez : Q2R z = (- Q2R q)%R) by (rewrite <- Q2R_opp; now apply Qeq_eqR).
  assert (Ff : Forall cfac fs).
  { destruct Hf as [[-> _]| ->]; auto. apply Forall_app. split; auto. constructor; auto. split; [constructor|reflexivity]. }
  assert (Lf : (List.length (rats fs) <= 1)%nat).
  { destruct Hf as [[-> _]| ->]; unfold rats in *; [rewrite Lr; cbn; lia|]. rewrite filter_app, Lr. cbn. lia. }
  assert (Of : ForallOrdPairs apart (nonrats fs)).
  { destruct Hf as [[-> _]| ->]; [now rewrite Nr|]. unfold nonrats in *. rewrite filter_app, Nr. cbn [filter is_rat negb]. now rewrite app_nil_r. }
  assert (Vf : forall rho, (Rprod (map (ev rho) fs) = - ev rho (EProd (ERat q :: r)))%R).
  { intros rho. cbn [ev map]. unfold Rprod at 2. cbn [fold_right]. change (fold_right Rmult 1 (map (ev rho) r))%R with (Rprod (map (ev rho) r)).
    destruct Hf as [[-> E1]| ->].
    - apply Qeq_eqR in E1. rewrite Ez, Q2R_1 in E1. assert (E2 : Q2R q = (-1)%R) by lra. rewrite E2. lra.
    - rewrite map_app, Rprod_app. unfold Rprod at 2. cbn [map ev fold_right]. rewrite Ez. lra. }
  assert (Wf : forall rho, wd rho (EProd (ERat q :: r)) -> Forall (wd rho) fs).
  { intros rho W. apply wd_prod in W as [W _]. inversion W; subst. destruct Hf as [[-> _]| ->]; auto. apply Forall_app. split; [assumption|]. constructor; [exact I|constructor]. }
  destruct fs as [|u [|v fs]]; cbn [prod_of] in Pf.
  - subst e. split; [constructor|]. split; [discriminate|]. intros rho W. split; [exact I|]. rewrite <- Vf. cbn. apply Q2R_1.
  - subst e. inversion Ff as [|? ? [Cu Pu] _]; subst. split; auto. split.
    + intros Su. destruct Hf as [[E Z1]|E].
      * subst r. destruct u; try discriminate. cbn [neg_sum]. apply Qeq_bool_iff. assert (X : (q == - z)%Q) by (rewrite Vz; ring). rewrite X, Z1. reflexivity.
      * exfalso. destruct r as [|x r']; cbn [app] in E; [inversion E; subst; discriminate Su|]. destruct r'; discriminate.
    + intros rho W. specialize (Wf rho W). inversion Wf; subst. split; auto. rewrite <- Vf. cbn. lra.
  - destruct Pf as (s & -> & Pf). split; [apply (canon_perm (u :: v :: fs)); auto; discriminate|]. split; [discriminate|]. intros rho W. split.
    + apply wd_prod. split; [rewrite <- Pf; auto|]. apply canon_const; [now rewrite <- Pf|]. now rewrite <- (perm_rats _ _ Pf).
    + cbn [ev]. rewrite <- (perm_prod rho _ _ Pf). apply Vf.
Qed.

(** ** Numerator and denominator *)
(** how a factor is printed: sums in parentheses *)
Definition flvl (t : expr) : level := if is_sum t then LAtom else lvl t.
Lemma lvl_ratz z : (rank (lvl (ratz z)) <= 2)%nat.
Proof. cbn [ratz lvl]. unfold denom. rewrite RealLemmas.Qred_inject. simpl. destruct (qlt0 _); simpl; lia. Qed.
Lemma flvl_keep t : canon t -> is_prod t = false -> is_rat t = false -> recip t = false -> (rank (flvl t) <= 1)%nat.
Proof.
  intros C P R X. destruct C as [q| | |s Hs|us Hu Fu|us Hu Fu Ru Au|b q Cb Pb Rb Sb Ab|b x Cb Cx Pb Rx Cx' Px|f i Ci Ai|i Ci Ai|i Ci]; try discriminate; cbn [flvl is_sum lvl rank]; try lia.
  - cbn [recip] in X. rewrite X. destruct (Qeq_bool q (1 # 2)); cbn [rank]; lia.
  - destruct x; try discriminate; cbn [rank]; lia.
Qed.
Lemma base_atom b : canon b -> is_pow b = false -> is_prod b = false -> is_rat b = false -> flvl b = LAtom.
Proof. intros C P R X. destruct C; try discriminate; reflexivity. Qed.
Definition fine (t : expr) : Prop := canon t /\ is_prod t = false /\ (rank (flvl t) <= 2)%nat.
Lemma fine_ratz z : fine (ratz z).
Proof. split; [constructor|]. split; [reflexivity|]. apply lvl_ratz. Qed.
Lemma inv_base b q : canon (EPow b (ERat q)) -> (q == -1)%Q -> is_rat b = false /\ is_prod b = false /\ canon b /\ is_pow b = false.
Proof.
  intros C E. inversion C as [| | | | | |? ? Cb Pb Rb Sb Ab|? ? ? ? ? X| | |]; subst; [|discriminate].
  assert (L : qlt0 q = true) by (apply qlt0_iff; rewrite E; reflexivity). destruct (Sb L) as [S1 _]. splits; auto.
  destruct Rb as [Rb|(z & -> & Hz & Iz)]; auto. exfalso. destruct (Iz (1%Q)) as [J _]; [|discriminate]. rewrite E. reflexivity.
Qed.
Lemma pow_flip b q y : canon (EPow b (ERat q)) -> qlt0 q = true -> (y == - q)%Q -> fine (EPow b (ERat y)).
Proof.
  intros C L E. inversion C as [| | | | | |? ? Cb Pb Rb Sb Ab|? ? ? ? ? X| | |]; subst; [|discriminate].
  apply qlt0_iff in L as L'. assert (Ea : (Qabs y == Qabs q)%Q) by (rewrite E; apply Qabs_opp).
  assert (Ly : qlt0 y = false) by (apply qlt0_f; rewrite E; apply Qlt_le_weak; rewrite <- (Qopp_involutive 0); apply Qopp_lt_compat; exact L').
  split; [|split; [reflexivity|]].
  - apply cn_pow; auto.
    + destruct Rb as [Rb|(z & -> & Hz & Iz)]; auto. right. exists z. splits; auto. intros w Hw. apply Iz. now rewrite Hw.
    + rewrite Ly. discriminate.
    + rewrite Ea. auto.
  - cbn [flvl is_sum lvl]. rewrite Ly. destruct (Qeq_bool y (1 # 2)); cbn [rank]; lia.
Qed.
Lemma nd_fine ts n d : nd ts n d -> Forall cfac ts -> Forall fine n /\ Forall fine d /\ Forall (fun t => isq t 1 = false) d /\ (d = [] -> Forall fine ts).
Proof.
  induction 1 as [|q r n d H IH|t r n d Rt Xt H IH|b q r n d Eq H IH|b q y r n d Lq Nq Ey H IH]; intros F.
  - splits; auto.
  - inversion F as [|? ? _ F']; subst. destruct (IH F') as (I1 & I2 & I3 & I4). splits.
    + destruct (numer q =? 1)%Z; auto. constructor; auto. apply fine_ratz.
    + destruct (denom q =? 1)%Z; auto. constructor; auto. apply fine_ratz.
    + destruct (denom q =? 1)%Z eqn:E; auto. constructor; auto. unfold ratz. apply isq_rat_f. intros X. apply Z.eqb_neq in E. apply E. unfold Qeq in X. cbn [inject_Z Qnum Qden] in X. lia.
    + destruct (denom q =? 1)%Z eqn:E; [|discriminate]. intros X. constructor; auto. split; [constructor|]. split; [reflexivity|].
      cbn [flvl is_sum lvl]. rewrite E. destruct (qlt0 q); cbn [rank]; lia.
  - inversion F as [|? ? [Ct Pt] F']; subst. destruct (IH F') as (I1 & I2 & I3 & I4).
    assert (fine t) by (split; [auto|split; [auto|]]; pose proof (flvl_keep t Ct Pt Rt Xt); lia). splits; auto.
  - inversion F as [|? ? [Ct Pt] F']; subst. destruct (IH F') as (I1 & I2 & I3 & I4). destruct (inv_base b q Ct Eq) as (B1 & B2 & B3 & B4).
    assert (fine b) by (split; [auto|split; [auto|]]; rewrite base_atom by auto; cbn; lia). splits; auto; [|discriminate].
    constructor; auto. destruct b; try discriminate; reflexivity.
  - inversion F as [|? ? [Ct Pt] F']; subst. destruct (IH F') as (I1 & I2 & I3 & I4). pose proof (pow_flip b q y Ct Lq Ey). splits; auto. discriminate.
Qed.
Lemma nd_shape ts n d : nd ts n d -> Forall cfac ts -> (List.length (rats n) <= List.length (rats ts))%nat /\ (List.length (rats d) <= List.length (rats ts))%nat /\
  (forall u, Forall (apart u) (nonrats ts) -> Forall (apart u) (nonrats n) /\ Forall (apart u) (nonrats d)) /\
  (ForallOrdPairs apart (nonrats ts) -> ForallOrdPairs apart (nonrats n) /\ ForallOrdPairs apart (nonrats d)).
Proof.
  induction 1 as [|q r n d H IH|t r n d Rt Xt H IH|b q r n d Eq H IH|b q y r n d Lq Nq Ey H IH]; intros F.
  - cbn. splits; auto.
  - inversion F as [|? ? _ F']; subst. destruct (IH F') as (I1 & I2 & I3 & I4). unfold rats, nonrats in *. 
    destruct (numer q =? 1)%Z, (denom q =? 1)%Z; cbn [filter ratz is_rat negb List.length] in *; splits; try lia; auto.
  - inversion F as [|? ? _ F']; subst. destruct (IH F') as (I1 & I2 & I3 & I4). unfold rats, nonrats in *. cbn [filter]. rewrite Rt. cbn [negb]. splits; auto.
    + intros u Fu. inversion Fu; subst. destruct (I3 u) as [J1 J2]; auto.
    + intros O. inversion O as [|? ? O1 O2]; subst. destruct (I4 O2). destruct (I3 t O1). split; auto. now constructor.
  - inversion F as [|? ? [Ct _] F']; subst. destruct (IH F') as (I1 & I2 & I3 & I4). destruct (inv_base b q Ct Eq) as (B1 & B2 & B3 & B4).
    assert (Eb : base b = b) by (unfold base; destruct b; try discriminate; reflexivity).
    unfold rats, nonrats in *. cbn [filter is_rat negb]. rewrite B1. cbn [negb]. splits; auto.
    + intros u Fu. inversion Fu as [|? ? [A1 A2] Fu']; subst. destruct (I3 u) as [J1 J2]; auto. split; auto. constructor; auto. unfold apart. rewrite Eb. split; auto.
    + intros O. inversion O as [|? ? O1 O2]; subst. destruct (I4 O2). destruct (I3 b) as [J1 J2]; [eapply Forall_impl; [|exact O1]; intros u [A1 A2]; unfold apart; rewrite Eb; split; auto|].
      split; auto. now constructor.
  - inversion F as [|? ? [Ct _] F']; subst. destruct (IH F') as (I1 & I2 & I3 & I4). unfold rats, nonrats in *. cbn [filter is_rat negb]. splits; auto.
    + intros u Fu. inversion Fu as [|? ? [A1 A2] Fu']; subst. destruct (I3 u) as [J1 J2]; auto. split; auto. constructor; auto. split; auto.
    + intros O. inversion O as [|? ? O1 O2]; subst. destruct (I4 O2). destruct (I3 (EPow b (ERat y))) as [J1 J2]; [eapply Forall_impl; [|exact O1]; intros u [A1 A2]; split; auto|].
      split; auto. now constructor.
Qed.
Lemma pow_recip rho b q y : wd rho (EPow b (ERat q)) -> qlt0 q = true -> (y == - q)%Q ->
  wd rho (EPow b (ERat y)) /\ ev rho (EPow b (ERat y)) <> 0%R /\ (ev rho (EPow b (ERat q)) = / ev rho (EPow b (ERat y)))%R.
Proof.
  intros (Wb & _ & P) L E. pose proof (pdom_neg rho b q P L) as N. assert (Eq : Q2R y = (- Q2R q)%R) by (rewrite <- Q2R_opp; now apply Qeq_eqR).
  apply qlt0_iff in L. splits.
  - split; auto. split; [exact I|]. destruct P as [(q' & X & Hi & Hq)|P]; [|now right]. left. injection X as <-. exists y. splits; auto.
    rewrite (qisint_qeq _ _ E). unfold qisint, denom in *. rewrite Qred_opp. now destruct (Qred q).
  - cbn [ev]. now apply rpow_neq0.
  - cbn [ev]. pose proof (rpow_opp_gen rho b (ERat q) P N) as X. cbn [ev] in X. rewrite Eq. apply Rmult_eq_reg_r with (rpow (ev rho b) (- Q2R q)); [|now apply rpow_neq0].
    rewrite X. rewrite Rinv_l; auto. now apply rpow_neq0.
Qed.
Lemma nd_value ts n d : nd ts n d -> forall rho, Forall (wd rho) ts -> Forall (wd rho) n /\ Forall (wd rho) d /\ Rprod (map (ev rho) d) <> 0%R /\
  (Rprod (map (ev rho) ts) = Rprod (map (ev rho) n) / Rprod (map (ev rho) d))%R.
Proof.
  unfold Rprod. induction 1 as [|q r n d H IH|t r n d Rt Xt H IH|b q r n d Eq H IH|b q y r n d Lq Nq Ey H IH]; intros rho W;
    [|inversion W as [|? ? Wt Wr]; subst; destruct (IH rho Wr) as (I1 & I2 & I3 & I4); cbn [map fold_right]; rewrite I4..].
  - cbn. splits; auto; lra.
  - assert (Dq : IZR (denom q) <> 0%R) by (apply not_0_IZR; unfold denom; lia). cbn [ev]. rewrite (Q2R_numden q).
    assert (E1 : forall z l, (fold_right Rmult 1 (map (ev rho) (if z =? 1 then l else ratz z :: l)) = IZR z * fold_right Rmult 1 (map (ev rho) l))%R%Z).
    { intros z l. destruct (Z.eqb_spec z 1) as [->|E]; [lra|]. cbn [map fold_right ratz ev]. rewrite Q2R_inject. reflexivity. }
    rewrite !E1. splits.
    + destruct (numer q =? 1)%Z; [assumption|constructor; [exact I|assumption]].
    + destruct (denom q =? 1)%Z; [assumption|constructor; [exact I|assumption]].
    + now apply Rmult_integral_contrapositive_currified.
    + field. auto.
  - splits; auto. unfold Rdiv. ring.
  - assert (Lq : qlt0 q = true) by (apply qlt0_iff; rewrite Eq; reflexivity). destruct Wt as (Wb & _ & P). pose proof (pdom_neg rho b q P Lq) as N.
    splits; auto.
    cbn [ev]. replace (Q2R q) with (-1)%R by (rewrite <- Q2R_m1; symmetry; now apply Qeq_eqR). rewrite rpow_m1 by auto. field. auto.
  - destruct (pow_recip rho b q y Wt Lq Ey) as (W1 & W2 & W3). rewrite W3. splits; auto. field. auto.
Qed.

Lemma nd_prod_canon fs : fs <> [] -> Forall fine fs -> (List.length (rats fs) <= 1)%nat -> ForallOrdPairs apart (nonrats fs) -> canon (EProd fs).
Proof.
  intros Ne F L O. apply (canon_perm fs); auto; try (eapply Forall_impl; [|exact F]; intros u (U1 & U2 & U3)); auto.
Qed.
Lemma part_canon fs e : Forall fine fs -> (List.length (rats fs) <= 1)%nat -> ForallOrdPairs apart (nonrats fs) -> prod_skip fs = Ok e ->
  canon e /\ (is_prod e = false -> (rank (flvl e) <= 2)%nat) /\ forall rho, Forall (wd rho) fs -> wd rho e /\ ev rho e = Rprod (map (ev rho) fs).
Proof.
  intros F L O E. destruct fs as [|t [|u fs]]; cbn [prod_skip] in E.
  - injection E as <-. splits; [constructor|intros _; change (flvl (ERat 1)) with LAtom; cbn; lia|]. intros rho _; split; [exact I|cbn; apply Q2R_1].
  - inversion F as [|? ? (C & P & K0) _]; subst. assert (E' : e = t) by (destruct t; try discriminate; congruence). subst e. splits; auto.
    intros rho W. inversion W; subst. split; auto. unfold Rprod. cbn. ring.
  - assert (E' : e = EProd (t :: u :: fs)) by (destruct t; congruence). clear E. subst e.
    assert (C : canon (EProd (t :: u :: fs))) by (apply nd_prod_canon; auto; discriminate). splits; auto; [discriminate|].
    intros rho W. split; [|reflexivity]. apply wd_prod. split; auto. apply canon_const; auto. eapply Forall_impl; [|exact F]; intros v (V1 & V2 & V3); auto.
Qed.
End Generic.
