(** * PropsB: structural properties of the constructors (C08-C10, C23, C40, C41, C48, C50-C52).
    See the reading guide in PropsA.v. *)
From Verif Require Import Base Expr Kernel Mono Sem RealLemmas Sound SoundPow Atoms Agree Sort Oracle PropsA.
From Coq Require Import Sorting.Permutation Machin.
Local Open Scope R_scope.

(** ** C08: operand order *)

(** The terms of a sum, in any order, give the same sum: no term is itself a sum, no two are
    merged, at most one is a number, and different terms print differently. *)
Theorem c08_sum_order c n ts1 ts2 e1 e2 : Permutation ts1 ts2 ->
  forallb (fun t => negb (is_sum t)) ts1 = true ->
  ForallOrdPairs (unlike2 c) ts1 ->
  (List.length (filter is_acc ts1) <= 1)%nat ->
  distinct_repr (K c n) ts1 ->
  mkSum c (S n) ts1 = Ok e1 -> mkSum c (S n) ts2 = Ok e2 -> e1 = e2.
Proof. apply sum_body_perm. Qed.
Theorem c08_prod_order c n ts1 ts2 e1 e2 : Permutation ts1 ts2 ->
  forallb (fun t => negb (is_prod t)) ts1 = true ->
  ForallOrdPairs (unbase2 c) ts1 ->
  (List.length (filter is_acc ts1) <= 1)%nat ->
  distinct_repr (K c n) ts1 ->
  mkProd c (S n) ts1 = Ok e1 -> mkProd c (S n) ts2 = Ok e2 -> e1 = e2.
Proof. apply prod_body_perm. Qed.
(** Sorting alone, whatever the terms. *)
Theorem c08_sort c n l1 l2 s1 s2 : Permutation l1 l2 -> distinct_repr (K c n) l1 ->
  sort_terms (K c n) l1 = Ok s1 -> sort_terms (K c n) l2 = Ok s2 ->
  s1 = s2 /\ Permutation l1 s1.
Proof.
  intros P D H1 H2. split; [eapply sort_terms_perm; eauto|]. now apply sort_terms_spec in H1.
Qed.

Example c08_ex :
  let ts := [sx; EPow sy (ERat 2); ERat 3; ETrig Sin sx] in
  ForallOrdPairs (unlike2 exact_cfg) ts /\ distinct_repr (K exact_cfg 8) ts /\
  mkSum exact_cfg 9 ts = Ok (ESum [EPow sy (ERat 2); ETrig Sin sx; sx; ERat 3]) /\
  mkSum exact_cfg 9 (rev ts) = Ok (ESum [EPow sy (ERat 2); ETrig Sin sx; sx; ERat 3]).
Proof.
  split; [repeat constructor|]. split; [|split; vm_compute; reflexivity].
  intros a b s Ha Hb.
  repeat (destruct Ha as [<-|Ha]; [|]); try destruct Ha;
  repeat (destruct Hb as [<-|Hb]; [|]); try destruct Hb; auto; vm_compute; congruence.
Qed.

(** ** C09: flatness is violated *)
Definition nested_sum (e : expr) : bool := match e with ESum ts => existsb is_sum ts | _ => false end.
Definition nested_prod (e : expr) : bool := match e with EProd ts => existsb is_prod ts | _ => false end.

(** y + 3*(x+2) - 2*(x+2) is returned as a Sum with a Sum inside. *)
Theorem c09_nested_sum_refuted :
  let k := K exact_cfg 9 in
  exists a b d r e,
    op_add k sx (ERat 2) = Ok a /\ op_mul k (ERat 3) a = Ok b /\ op_mul k (ERat 2) a = Ok d /\
    op_add k sy b = Ok r /\ op_sub k r d = Ok e /\ nested_sum e = true.
Proof.
  exists (ESum [sx; ERat 2]), (EProd [ERat 3; ESum [sx; ERat 2]]), (EProd [ERat 2; ESum [sx; ERat 2]]),
    (ESum [EProd [ERat 3; ESum [sx; ERat 2]]; sy]), (ESum [ESum [sx; ERat 2]; sy]).
  repeat split; vm_compute; reflexivity.
Qed.
(** Prod([s, s, x]) with s = (3/4)^(1/4) is returned as a Prod with a Prod inside. *)
Theorem c09_nested_prod_refuted :
  let k := K exact_cfg 9 in
  exists s e, op_pow k (ERat (3#4)) (ERat (1#4)) = Ok s /\ k_prod k [s; s; sx] = Ok e /\ nested_prod e = true.
Proof. eexists _, _. split; [vm_compute; reflexivity|]. split; vm_compute; reflexivity. Qed.

(** The positive half: when no two terms merge and none is itself a sum (product), the result is
    flat. *)
Lemma in_sorted_flat k l s (f : expr -> bool) : sort_terms k l = Ok s -> existsb f l = false -> existsb f s = false.
Proof.
  intros H E. apply sort_terms_spec in H as [_ P]. destruct (existsb f s) eqn:X; auto.
  apply existsb_exists in X as (x & Hx & Fx). rewrite <- E. symmetry. apply existsb_exists. exists x. split; auto.
  now rewrite P.
Qed.
Theorem c09_flat_sum c n ts e : forallb (fun t => negb (is_sum t)) ts = true ->
  ForallOrdPairs (unlike2 c) ts -> (List.length (filter is_acc ts) <= 1)%nat ->
  mkSum c (S n) ts = Ok e -> nested_sum e = false.
Proof.
  intros NS U O H. unfold mkSum in H. cbn [K build k_sum] in H. unfold sum_body in H. rewrite flat_sum_id in H by auto.
  apply bind_ok in H as (l & L & H). destruct (sum_nc_perm c _ _ _ (Permutation_refl ts) U O L) as (_ & _ & _ & I).
  assert (F : existsb is_sum l = false).
  { destruct (existsb is_sum l) eqn:X; auto. apply existsb_exists in X as (x & Hx & Fx).
    rewrite forallb_forall in NS. apply I, NS in Hx. now rewrite Fx in Hx. }
  destruct l as [|t [|u l]].
  - injection H as <-. auto.
  - injection H as <-. simpl in F. rewrite orb_false_r in F. destruct t; auto; discriminate.
  - apply bind_ok in H as (s & S & H). injection H as <-. cbn [nested_sum].
    destruct (existsb is_sum (rev s)) eqn:X; auto. apply existsb_exists in X as (x & Hx & Fx). apply in_rev in Hx.
    apply in_sorted_flat with (f := is_sum) in S; auto. rewrite <- S. symmetry. apply existsb_exists. eauto.
Qed.

(** ** C10: x - x and x / x *)
(** Expressions that are not themselves a sum, product, power or number. *)
Definition atomic (e : expr) : bool :=
  match e with ESym _ | EPi | EE | ELog _ _ | ETrig _ _ | EAbs _ => true | _ => false end.

Lemma py_eq_refl c e : py_eq c e e = Ok true.
Proof. unfold py_eq. now rewrite coin_refl, andb_false_r, eeqb_refl. Qed.
Lemma atomic_neq_m1 c x : atomic x = true -> py_eq c x (ERat (-1)) = Ok false.
Proof. destruct x; try discriminate; intros _; unfold py_eq; simpl; now rewrite andb_false_r. Qed.

Theorem c10_div_self c n x : atomic x = true -> op_div (K c (S n)) x x = Ok (ERat 1).
Proof.
  intros A. set (k := K c n).
  assert (P : k_pow (K c (S n)) x (ERat (-1)) = Ok (EPow x (ERat (-1)))) by (destruct x; try discriminate; reflexivity).
  assert (Q : k_prod (K c (S n)) [x; EPow x (ERat (-1))] = Ok (ERat 1)).
  { cbn [K build k_prod]. unfold prod_body, combine_prod.
    assert (F : flat_prod [x; EPow x (ERat (-1))] = [x; EPow x (ERat (-1))]) by (destruct x; try discriminate; reflexivity).
    rewrite F. cbn [List.length combine_prod_go].
    assert (D : decon_pow x = (x, ERat 1)) by (destruct x; try discriminate; reflexivity).
    rewrite D. cbn [split_base decon_pow]. rewrite py_eq_refl. cbn [bind op_add split_base].
    change (isq (rat (1 + -1)) 0) with true. cbv iota. reflexivity. }
  unfold op_div. rewrite P. cbn [bind]. rewrite Q. destruct x; try discriminate; reflexivity.
Qed.
Theorem c10_sub_self c n x e : atomic x = true -> op_sub (K c (S n)) x x = Ok e -> e = ERat 0.
Proof.
  intros A H. assert (H' : (m <- op_mul (K c (S n)) (ERat (-1)) x;; op_add (K c (S n)) x m) = Ok e).
  { destruct x; try discriminate; exact H. }
  clear H. apply bind_ok in H' as (m & Hm & H).
  assert (M : m = EProd [ERat (-1); x] \/ m = EProd [x; ERat (-1)]).
  { assert (Hp : k_prod (K c (S n)) [ERat (-1); x] = Ok m) by (destruct x; try discriminate; exact Hm). clear Hm.
    cbn [K build k_prod] in Hp. unfold prod_body, combine_prod in Hp.
    assert (F : flat_prod [ERat (-1); x] = [ERat (-1); x]) by (destruct x; try discriminate; reflexivity).
    rewrite F in Hp. cbn [List.length combine_prod_go decon_pow split_base] in Hp.
    assert (D : decon_pow x = (x, ERat 1)) by (destruct x; try discriminate; reflexivity).
    rewrite D in Hp. rewrite atomic_neq_m1 in Hp by auto. cbn [bind] in Hp.
    cbn [combine_prod_go] in Hp. rewrite D in Hp. cbn [split_base bind] in Hp.
    assert (NA : is_acc x = false) by (destruct x; try discriminate; reflexivity).
    unfold add_term in Hp. rewrite NA in Hp. cbn [is_acc fst snd bind] in Hp.
    unfold acc_prod in Hp. cbn [bind] in Hp. change (isq (ERat (-1)) 0) with false in Hp.
    change (isq (ERat (-1)) 1) with false in Hp. cbn [app bind] in Hp.
    apply bind_ok in Hp as (s & Hs & Hp). apply sort_terms_spec in Hs as [_ Ps].
    apply Permutation_length_2_inv in Ps as [->| ->].
    - destruct x; try discriminate; injection Hp as <-; auto.
    - destruct x; try discriminate; injection Hp as <-; auto. }
  assert (Hs : k_sum (K c (S n)) [x; m] = Ok e) by (destruct x; try discriminate; exact H). clear H.
  cbn [K build k_sum] in Hs. unfold sum_body, combine_sum in Hs.
  assert (F : flat_sum [x; m] = [x; m]) by (destruct M as [-> | ->]; destruct x; try discriminate; reflexivity).
  rewrite F in Hs. cbn [List.length combine_sum_go] in Hs.
  assert (NA : is_acc x = false) by (destruct x; try discriminate; reflexivity).
  assert (D : decon_prod x = ([ERat 1], [x])) by (destruct x; try discriminate; reflexivity).
  assert (Dm : decon_prod m = ([ERat (-1)], [x])).
  { destruct M as [-> | ->]; cbn [decon_prod filter is_acc negb]; rewrite NA; reflexivity. }
  rewrite NA, D in Hs. cbn [split_like] in Hs. rewrite Dm in Hs.
  assert (E : py_eql c [x] [x] = Ok true).
  { unfold py_eql. cbn [coinl eeqbl]. rewrite coin_refl, eeqb_refl. cbn. now rewrite andb_false_r. }
  rewrite E in Hs. cbn [bind app] in Hs. cbn in Hs.
  change (Qeq_bool (Qred (Qred (0 + 1) + -1)) 0) with true in Hs. cbn in Hs. congruence.
Qed.
(** For symbols (of any name) the subtraction always completes. *)
Theorem c10_sub_symbol c n s : op_sub (K c (S n)) (ESym s) (ESym s) = Ok (ERat 0).
Proof.
  destruct (op_sub (K c (S n)) (ESym s) (ESym s)) as [e|x|x] eqn:E.
  - f_equal. eapply c10_sub_self; eauto. reflexivity.
  - exfalso. cbn [op_sub op_mul op_add K build k_prod k_sum] in E. unfold prod_body, combine_prod in E. cbn in E.
    unfold py_eq in E. cbn in E. rewrite andb_false_r in E. cbn in E.
    unfold sum_body, combine_sum in E. cbn in E. unfold py_eql in E. cbn in E. rewrite andb_false_r, String.eqb_refl in E. discriminate.
  - exfalso. cbn [op_sub op_mul op_add K build k_prod k_sum] in E. unfold prod_body, combine_prod in E. cbn in E.
    unfold py_eq in E. cbn in E. rewrite andb_false_r in E. cbn in E.
    unfold sum_body, combine_sum in E. cbn in E. unfold py_eql in E. cbn in E. rewrite andb_false_r, String.eqb_refl in E. discriminate.
Qed.

(** ** C23: absolute values *)
Theorem c23_abs c n m rho i e : fpow_exact (fpow c) -> (n <= m)%nat -> wd rho i ->
  op_abs (K (strictly c) n) i = Ok e ->
  op_abs (K (faithful c) m) i = Ok e /\ wd rho e /\ ev rho e = Rabs (ev rho i).
Proof.
  intros HX Hn W H. split.
  - eapply rle_ok; [apply op_abs_mono, (faithful_le c n m Hn)|exact H].
  - unfold op_abs in H.
    assert (G : k_abs (K (strictly c) n) i = Ok e -> wd rho e /\ ev rho e = Rabs (ev rho i))
      by (intros G; eapply (s_abs _ (sound_strictly c n HX)); eauto).
    destruct i; auto; try (destruct W; fail). injection H as <-. split; [exact I|].
    rewrite ev_rat. simpl. apply Q2R_Qabs.
Qed.
Theorem c23_abs_plain c n rho i e : fpow_exact (fpow c) -> plain i = true -> wd rho i ->
  op_abs (K c n) i = Ok e -> wd rho e /\ ev rho e = Rabs (ev rho i).
Proof.
  intros HX P W H. rewrite <- plain_oabs in H by auto.
  eapply (c23_abs c n n rho i e HX (le_n n) W H).
Qed.
(** Structural evenness fails for every symbol: abs(-s) is |-s|, not |s|. *)
Theorem c23_evenness_refuted c n s :
  op_neg (K c (S n)) (ESym s) = Ok (EProd [ERat (-1); ESym s]) /\
  op_abs (K c (S (S (S n)))) (EProd [ERat (-1); ESym s]) = Ok (EAbs (EProd [ERat (-1); ESym s])) /\
  op_abs (K c (S n)) (ESym s) = Ok (EAbs (ESym s)).
Proof.
  assert (M : forall k, prod_body c k [ERat (-1); ESym s] = Ok (EProd [ERat (-1); ESym s])).
  { intros k. unfold prod_body, combine_prod. cbn. unfold py_eq. cbn. rewrite andb_false_r. reflexivity. }
  split; [cbn; apply M|]. split; [|reflexivity].
  assert (B : prod_body c (build c (K c n)) [ERat (-1); EProd [ERat (-1); ESym s]] = Ok (ESym s)).
  { unfold prod_body, combine_prod. cbn. unfold py_eq. cbn. rewrite andb_false_r. cbn. reflexivity. }
  cbn [op_abs K build k_abs]. unfold abs_body. cbn [is_sub]. change (qlt0 (-1)) with true. cbv iota.
  cbn [op_neg op_mul build k_prod]. rewrite B. reflexivity.
Qed.
Example c23_ex : op_abs (K strict_cfg 9) (ESum [EPow sx (ERat 2); ERat 1]) = Ok (EAbs (ESum [EPow sx (ERat 2); ERat 1]))
  /\ op_abs (K strict_cfg 9) (EProd [ERat (-2); EPi]) = Ok (EProd [ERat 2; EPi]).
Proof. split; vm_compute; reflexivity. Qed.

(** ** C40: equality *)
(** No pi and no e (not even as the base of a natural logarithm). *)
Definition no_float (e : expr) : Prop := gcontains is_pie e = false.
Lemma no_float_coin a : forall b, no_float a -> no_float b -> coin a b = false.
Proof.
  unfold no_float.
  assert (L : forall l, Forall (fun a => forall b, gcontains is_pie a = false -> gcontains is_pie b = false -> coin a b = false) l ->
     forall m, existsb (gcontains is_pie) l = false -> existsb (gcontains is_pie) m = false -> coinl l m = false).
  { induction 1 as [|x l Hx _ IH]; intros [|y m] H1 H2; auto. simpl in *.
    apply orb_false_iff in H1 as [A B], H2 as [C D]. rewrite Hx, IH; auto. }
  induction a as [q| | | | |s| |ts IH|ts IH|b1 x1 IHb IHx|i1 b1 IHi IHb|f i1 IHi|i1 IHi] using expr_ind';
    intros b H1 H3; destruct b; try discriminate; try reflexivity.
  - apply (L ts IH); auto.
  - apply (L ts IH); auto.
  - cbn in *. apply orb_false_iff in H1 as [A B], H3 as [C D]. rewrite IHb, IHx; auto.
  - cbn in *. apply orb_false_iff in H1 as [A B], H3 as [C D]. rewrite IHi, IHb; auto.
  - apply IHi; auto.
  - apply IHi; auto.
Qed.
(** Without pi and e, [a == b] is exactly identity of trees; hence it is an equivalence and equal
    expressions have equal values. *)
Theorem c40_eq_is_identity a b : no_float a -> no_float b -> (eeqb a b = true <-> a = b).
Proof.
  intros Ha Hb. split; [|intros <-; apply eeqb_refl].
  apply eqb_coin. now apply no_float_coin.
Qed.
Theorem c40_equivalence a b d : no_float a -> no_float b -> no_float d ->
  eeqb a a = true /\ (eeqb a b = true -> eeqb b a = true) /\
  (eeqb a b = true -> eeqb b d = true -> eeqb a d = true) /\
  (eeqb a b = true -> forall rho, ev rho a = ev rho b).
Proof.
  intros Ha Hb Hd. split; [apply eeqb_refl|]. split; [|split].
  - intros H. apply c40_eq_is_identity in H as ->; auto. apply eeqb_refl.
  - intros H1 H2. apply c40_eq_is_identity in H1 as ->; auto.
  - intros H rho. apply c40_eq_is_identity in H as ->; auto.
Qed.
(** For all expressions, when the comparison does not meet a coincidence. *)
Theorem c40_eq_strict c a b : py_eq (strictly c) a b = Ok true -> a = b.
Proof.
  unfold py_eq. simpl. destruct (coin a b) eqn:E; [discriminate|]. intros H. injection H as H.
  now apply eqb_coin.
Qed.

(** Bounds for pi. *)
Definition ratan_q (x : Q) (n : nat) : Q := (Qpower x (Z.of_nat (2 * n + 1)) / inject_Z (Z.of_nat (2 * n + 1)))%Q.
Definition tg_q (n : nat) : Q := ((2 * ratan_q (1#3) n + ratan_q (1#7) n) * (if Nat.even n then 1 else -1))%Q.
Fixpoint sum_q (n : nat) : Q := match n with O => tg_q O | S m => Qred (sum_q m + tg_q n) end.
Lemma ratan_q_ok x n : Q2R (ratan_q x n) = Ratan_seq (Q2R x) n.
Proof.
  unfold ratan_q, Ratan_seq. unfold Qdiv. rewrite Q2R_mult, Q2R_inv, Q2R_inject, Q2R_Qpower.
  - rewrite <- INR_IZR_INZ. rewrite <- pow_powerRZ. reflexivity.
  - unfold Qeq. simpl Qnum. lia.
Qed.
Lemma tg_q_ok n : Q2R (tg_q n) = tg_alt PI_2_3_7_tg n.
Proof.
  unfold tg_q, tg_alt, PI_2_3_7_tg. rewrite Q2R_mult, Q2R_plus, Q2R_mult, !ratan_q_ok.
  replace (Q2R 2) with 2 by (unfold Q2R; simpl; field). replace (Q2R (1#3)) with (/3) by (unfold Q2R; simpl; field).
  replace (Q2R (1#7)) with (/7) by (unfold Q2R; simpl; field).
  assert (S : (-1) ^ n = Q2R (if Nat.even n then 1 else -1)).
  { induction n as [|n IH]; [simpl; now rewrite Q2R_1|]. cbn [pow]. rewrite IH.
    rewrite Nat.even_succ, <- Nat.negb_even. destruct (Nat.even n); simpl; rewrite ?Q2R_1, ?Q2R_m1; ring. }
  rewrite S. ring.
Qed.
Lemma sum_q_ok n : Q2R (sum_q n) = sum_f_R0 (tg_alt PI_2_3_7_tg) n.
Proof.
  induction n as [|n IH]; cbn [sum_q sum_f_R0]; [apply tg_q_ok|]. now rewrite Q2R_red, Q2R_plus, IH, tg_q_ok.
Qed.
Lemma pi_gt_q_pi : Q2R q_pi < PI.
Proof.
  pose proof (proj1 (PI_2_3_7_ineq 8)) as H. rewrite <- sum_q_ok in H.
  assert (L : (q_pi < 4 * sum_q (S (2 * 8)))%Q) by (vm_compute; reflexivity).
  apply Qlt_Q2R in L. rewrite Q2R_mult in L. replace (Q2R 4) with 4 in L by (unfold Q2R; simpl; field). lra.
Qed.

(** With pi and e, equality is not symmetric and identifies different numbers, and pi plus the
    rational equal to its double is returned as 2*pi: the value changes. *)
Theorem c40_coincidence_refuted :
  eeqb (ERat q_e) EE = true /\ eeqb EE (ERat q_e) = false /\
  eeqb EPi (ERat q_pi) = true /\ (forall rho, ev rho EPi <> ev rho (ERat q_pi)) /\
  op_add (K exact_cfg 9) EPi (ERat q_pi) = Ok (EProd [ERat 2; EPi]) /\
  (forall rho, ev rho (EProd [ERat 2; EPi]) <> ev rho EPi + ev rho (ERat q_pi)).
Proof.
  split; [reflexivity|]. split; [reflexivity|]. split; [reflexivity|].
  split; [intros rho; simpl; pose proof pi_gt_q_pi; lra|].
  split; [vm_compute; reflexivity|]. intros rho. simpl. pose proof pi_gt_q_pi.
  replace (Q2R 2) with 2 by (unfold Q2R; simpl; field). lra.
Qed.

(** ** C41: different expressions that print identically *)
Theorem c41_repr_collision_refuted :
  let k := K exact_cfg 9 in
  exists a b p e1 e2 s rho,
    op_add k sx (ERat 1) = Ok a /\ (q <- op_pow k sy (ERat 2);; op_add k q (ERat 1)) = Ok b /\
    op_mul k a b = Ok p /\ e1 = ETrig Sin p /\ op_mul k (ETrig Sin a) b = Ok e2 /\
    k_repr k e1 = Ok s /\ k_repr k e2 = Ok s /\ wd rho e1 /\ wd rho e2 /\ ev rho e1 <> ev rho e2.
Proof.
  exists (ESum [sx; ERat 1]), (ESum [EPow sy (ERat 2); ERat 1]),
    (EProd [ESum [sx; ERat 1]; ESum [EPow sy (ERat 2); ERat 1]]),
    (ETrig Sin (EProd [ESum [sx; ERat 1]; ESum [EPow sy (ERat 2); ERat 1]])),
    (EProd [ETrig Sin (ESum [sx; ERat 1]); ESum [EPow sy (ERat 2); ERat 1]]),
    "sin(x + 1)*(y^2 + 1)"%string,
    (fun s => if String.eqb s "x" then PI / 2 - 1 else 1).
  do 7 (split; [vm_compute; reflexivity|]).
  assert (D : forall rho, pdom rho sy (ERat 2)).
  { intros rho. left. exists 2%Q. repeat split; auto. right. discriminate. }
  split; [simpl; repeat split; auto; unfold one_const; simpl; lia|]. split; [simpl; repeat split; auto; unfold one_const; simpl; lia|].
  simpl. rewrite Q2R_1. replace (rpow 1 (Q2R 2)) with 1 by (now rewrite rpow_1_l).
  replace ((PI / 2 - 1 + (1 + 0)) * ((1 + (1 + 0)) * 1)) with PI by field.
  replace (PI / 2 - 1 + (1 + 0)) with (PI / 2) by ring. rewrite sin_PI, sin_PI2. lra.
Qed.

(** ** C48: logarithms with an integer base cannot be printed *)
Theorem c48_repr_log_raises c n i b : qisint b = true ->
  reprE c (S n) (ELog i (ERat b)) = Raise NotImplementedError.
Proof.
  intros H. unfold reprE. cbn [K build k_repr repr_body]. unfold log_label, py_eq. cbn [coin eeqb].
  assert (E : qeqb b q_e = false).
  { destruct (qeqb b q_e) eqn:E; auto. apply qeqb_eq in E. subst. discriminate. }
  rewrite E, andb_false_r. cbn [bind]. now rewrite H.
Qed.
Theorem c48_sum_of_logs_refuted :
  op_add (K exact_cfg 9) (ELog sx (ERat 2)) (ELog sy (ERat 2)) = Raise NotImplementedError.
Proof. vm_compute. reflexivity. Qed.
(** For every two such logarithms, in a sum that must sort them by printed form. *)
Theorem c48_sorting_logs_raises c n i j b d : qisint b = true ->
  nwf (ELog i (ERat b)) = Ok d -> nwf (ELog j (ERat b)) = Ok d -> d <> 0%nat ->
  lt_terms (K c (S n)) (ELog i (ERat b)) (ELog j (ERat b)) = Raise NotImplementedError.
Proof.
  intros H Hi Hj Hd. unfold lt_terms. rewrite Hi, Hj. cbn [bind].
  destruct (Nat.eqb_spec d 0); [congruence|]. cbn [andb]. rewrite Nat.eqb_refl. cbn [const_power rcf bind].
  cbn [Qeq_bool]. unfold repr_lt. pose proof (c48_repr_log_raises c n i b H) as R. unfold reprE in R.
  change (Qeq_bool 1 1) with true. cbv iota. rewrite R. reflexivity.
Qed.

(** ** C50: recursion depth *)
(** Enough recursion depth is enough: a constructor that returns or raises with bound [n] gives the
    same outcome with every larger bound. *)
Theorem c50_fuel_irrelevant c n m : (n <= m)%nat ->
  (forall ts e, mkSum c n ts = Ok e -> mkSum c m ts = Ok e) /\
  (forall ts x, mkSum c n ts = Raise x -> mkSum c m ts = Raise x) /\
  (forall ts e, mkProd c n ts = Ok e -> mkProd c m ts = Ok e) /\
  (forall ts x, mkProd c n ts = Raise x -> mkProd c m ts = Raise x) /\
  (forall b x e, mkPow c n b x = Ok e -> mkPow c m b x = Ok e) /\
  (forall b x y, mkPow c n b x = Raise y -> mkPow c m b x = Raise y) /\
  (forall i e, mkAbs c n i = Ok e -> mkAbs c m i = Ok e) /\
  (forall i s, reprE c n i = Ok s -> reprE c m i = Ok s).
Proof.
  intros H. pose proof (K_mono c c n m (cle_refl c) H) as M.
  assert (R : forall A (r1 r2 : res A) x, rle r1 r2 -> r1 = Raise x -> r2 = Raise x) by (intros A r1 r2 x L ->; symmetry; exact L).
  repeat split; intros.
  - eapply rle_ok; [apply (le_sum _ _ M)|auto].
  - eapply R; [apply (le_sum _ _ M)|auto].
  - eapply rle_ok; [apply (le_prod _ _ M)|auto].
  - eapply R; [apply (le_prod _ _ M)|auto].
  - eapply rle_ok; [apply (le_pow _ _ M)|auto].
  - eapply R; [apply (le_pow _ _ M)|auto].
  - eapply rle_ok; [apply (le_abs _ _ M)|auto].
  - eapply rle_ok; [apply (le_repr _ _ M)|auto].
Qed.
(** Two bounds that both suffice agree. *)
Theorem c50_deterministic c n m ts e1 e2 : mkSum c n ts = Ok e1 -> mkSum c m ts = Ok e2 -> e1 = e2.
Proof.
  intros H1 H2. destruct (Nat.le_ge_cases n m) as [L|L]; destruct (c50_fuel_irrelevant c _ _ L) as [A _].
  - apply A in H1. congruence.
  - apply A in H2. congruence.
Qed.

(** ** C51: no new symbols *)
Theorem c51_no_new_symbols c n v :
  (forall ts e, mkSum c n ts = Ok e -> contains v e = true -> exists t, In t ts /\ contains v t = true) /\
  (forall ts e, mkProd c n ts = Ok e -> contains v e = true -> exists t, In t ts /\ contains v t = true) /\
  (forall b x e, mkPow c n b x = Ok e -> contains v e = true -> contains v b = true \/ contains v x = true) /\
  (forall i e, mkAbs c n i = Ok e -> contains v e = true -> contains v i = true).
Proof.
  assert (HE : forall P, Her P -> KHer True P (K c n)) by (intros P HP; apply K_her; auto).
  assert (HP : Her (fun e => contains v e = false)).
  { apply mkHer; cbn [contains]; auto.
    - intros ts. induction ts as [|t ts IH]; simpl; split; auto; intros H.
      + apply orb_false_iff in H as [A B]. constructor; auto. now apply IH.
      + inversion H; subst. apply orb_false_iff. split; auto. now apply IH.
    - intros ts. induction ts as [|t ts IH]; simpl; split; auto; intros H.
      + apply orb_false_iff in H as [A B]. constructor; auto. now apply IH.
      + inversion H; subst. apply orb_false_iff. split; auto. now apply IH.
    - intros. apply orb_false_iff.
    - intros i b H. now apply orb_false_iff.
    - tauto. }
  specialize (HE _ HP).
  assert (L : forall ts, Forall (fun e => contains v e = false) ts \/ exists t, In t ts /\ contains v t = true).
  { induction ts as [|t ts IH]; [left; constructor|]. destruct (contains v t) eqn:E; [right; exists t; simpl; auto|].
    destruct IH as [IH|(u & Hu & Eu)]; [left; constructor; auto|right; exists u; simpl; auto]. }
  split; [|split; [|split]].
  - intros ts e H C. destruct (L ts) as [N|N]; auto. pose proof (kh_sum _ _ _ HE ts N) as R.
    unfold mkSum in H. rewrite H in R. simpl in R. congruence.
  - intros ts e H C. destruct (L ts) as [N|N]; auto. pose proof (kh_prod _ _ _ HE ts N) as R.
    unfold mkProd in H. rewrite H in R. simpl in R. congruence.
  - intros b x e H C. destruct (contains v b) eqn:B; auto. destruct (contains v x) eqn:X; auto.
    pose proof (kh_pow _ _ _ HE b x B X) as R. unfold mkPow in H. rewrite H in R. simpl in R. congruence.
  - intros i e H C. destruct (contains v i) eqn:I; auto.
    pose proof (kh_abs _ _ _ HE i I) as R. unfold mkAbs in H. rewrite H in R. simpl in R. congruence.
Qed.

(** ** C52: results without pi, e and logarithms stay so; there the plain code never meets a
    coincidence, i.e. strict and plain runs are the same run. *)
Theorem c52_strict_is_plain c n :
  (forall ts, no_pie ts -> mkSum (strictly c) n ts = mkSum c n ts) /\
  (forall ts, no_pie ts -> mkProd (strictly c) n ts = mkProd c n ts) /\
  (forall b x, plain b = true -> plain x = true -> mkPow (strictly c) n b x = mkPow c n b x) /\
  (forall ts e, no_pie ts -> mkSum c n ts = Ok e -> plain e = true) /\
  (forall ts e, no_pie ts -> mkProd c n ts = Ok e -> plain e = true) /\
  (forall b x e, plain b = true -> plain x = true -> mkPow c n b x = Ok e -> plain e = true).
Proof.
  repeat split; intros.
  - now apply plain_sum.
  - now apply plain_prod.
  - now apply plain_pow.
  - pose proof (kh_sum _ _ _ (K_plain c n) ts H) as R. unfold mkSum in *. now rewrite H0 in R.
  - pose proof (kh_prod _ _ _ (K_plain c n) ts H) as R. unfold mkProd in *. now rewrite H0 in R.
  - pose proof (kh_pow _ _ _ (K_plain c n) b x H H0) as R. unfold mkPow in *. now rewrite H1 in R.
Qed.
