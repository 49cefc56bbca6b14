(** * PFrac: partial fractions over rational linear denominators always succeed (C33). *)
From Coquelicot Require Import Coquelicot.
From Verif Require Import Base Expr Kernel Mono Sort Funcs FMono Calc Expand Combi Sem RealLemmas Sound SoundPow Agree Oracle CalcSound Simp Table Poly PolyQ Trans TransMono Search Frag FragNum FragLib
  PropsA PropsC PropsB PropsK FragInt PropsL CanonR PropsM NForm NUniq NOps NExp NInt PropsO Her HerLib PropsJ Regex PolyTot PropsY.
From Coq Require Import Lqa Sorting.Permutation Sorting.Sorted.
From Coq Require Lra.
Local Ltac splits := repeat match goal with |- _ /\ _ => split end.
Close Scope R_scope.
Local Open Scope nat_scope.

(** ** Specification: a*v + b, written as the constructors write it *)
Definition lin_terms (v : string) (a b : Q) : list (Q * list expr) :=
  (if Qeq_bool a 0 then [] else [(a, [ESym v])]) ++ (if Qeq_bool b 0 then [] else [(b, [])]).
Definition lin (v : string) (a b : Q) : expr := sum_of (map term (lin_terms v a b)).
(** a*v + b can stand in a denominator: not a number, not a product, not a negated sum *)
Definition denominator (a b : Q) : Prop := lowest a /\ lowest b /\ ~ (a == 0)%Q /\ ((b == 0)%Q -> a = 1%Q) /\ ((0 < a)%Q \/ (0 < b)%Q).
Definition recip (t : expr) : bool := match t with EPow _ (ERat q) => Qeq_bool q (-1) | _ => false end.
(** the factors of a numerator *)
Definition factors_of (e : expr) : list expr := match e with EProd l => l | _ => if isq e 1 then [] else [e] end.

Section PF.
Context (c : cfg) (HX : fpow_exact (fpow c)) (v : string) (Hv : ident v).
Let c' := faithful c.
Let HX' : fpow_exact (fpow c') := HX.
Notation nform := (nform natq c'). Notation nt0 := (nt0 natq c').
Notation only := (only v).
Notation lin := (lin v).

Lemma natoms_v : natoms natq c' [ESym v].
Proof. unfold natoms. splits; [constructor; [now constructor|constructor]|cbn; constructor; [auto|constructor]|exists 0; repeat constructor]. Qed.
Lemma natoms_0 : natoms natq c' [].
Proof. unfold natoms. splits; [constructor|constructor|exists 0; constructor]. Qed.
Lemma lin_nterm a b : lowest a -> lowest b -> Forall (nterm natq c') (lin_terms v a b).
Proof.
  intros La Lb. unfold lin_terms. apply Forall_app. split.
  - destruct (Qeq_bool a 0) eqn:E; constructor; [|constructor]. unfold nterm. splits; auto; [intros Z; apply Qeq_bool_iff in Z; cbn in Z; congruence|apply natoms_v].
  - destruct (Qeq_bool b 0) eqn:E; constructor; [|constructor]. unfold nterm. splits; auto; [intros Z; apply Qeq_bool_iff in Z; cbn in Z; congruence|apply natoms_0].
Qed.
Lemma term_v a : term (a, [ESym v]) = if Qeq_bool a 1 then ESym v else EProd [ERat a; ESym v].
Proof. reflexivity. Qed.
Lemma lin_nform a b : lowest a -> lowest b -> nform (lin a b).
Proof.
  intros La Lb. exists (lin_terms v a b). splits; auto using lin_nterm; unfold lin_terms; destruct (Qeq_bool a 0), (Qeq_bool b 0); cbn [app map snd rev].
  - constructor.
  - repeat constructor. auto.
  - repeat constructor. auto.
  - constructor; [cbn; intuition discriminate|]. repeat constructor. auto.
  - apply ordered_nil.
  - apply ordered_one.
  - apply ordered_one.
  - exists 0. constructor; [repeat constructor|]. constructor; [|constructor]. rewrite term_nil, term_v.
    exists 0. destruct (Qeq_bool a 1); [exists 1|exists 1]; splits; auto; reflexivity.
Qed.
Lemma lin_names a b : only (lin a b).
Proof.
  intros s. unfold lin, lin_terms, sum_of. rewrite term_v || idtac. destruct (Qeq_bool a 0), (Qeq_bool b 0); cbn [app map]; rewrite ?term_nil, ?term_v; destruct (Qeq_bool a 1); cbn; intuition.
Qed.
Lemma lin_val rho a b : lowest a -> lowest b -> ev rho (lin a b) = (Q2R a * rho v + Q2R b)%R.
Proof.
  intros La Lb. unfold PFrac.lin. rewrite (lc_val natq c' rho _ (lin_nterm a b La Lb)). unfold lin_terms.
  assert (V : mval rho [ESym v] = rho v) by (unfold mval; cbn; ring).
  assert (V0 : mval rho [] = 1%R) by reflexivity.
  destruct (Qeq_bool a 0) eqn:Ea, (Qeq_bool b 0) eqn:Eb; cbn [app]; unfold lc; cbn [fold_right fst snd]; rewrite ?V, ?V0;
    try (apply Qeq_bool_eq in Ea; rewrite (Qreals.Qeq_eqR _ _ Ea), RMicromega.Q2R_0); try (apply Qeq_bool_eq in Eb; rewrite (Qreals.Qeq_eqR _ _ Eb), RMicromega.Q2R_0); Lra.lra.
Qed.

(** *** The denominators *)
Definition den (d : expr) : Prop := nform d /\ only d /\ contains v d = true /\ (d = ESym v \/ exists ts, d = ESum ts) /\ is_sub d = false.
Lemma den_lin a b : denominator a b -> den (lin a b).
Proof.
  intros (La & Lb & Za & Zb & Sb). unfold den. split; [now apply lin_nform|]. split; [apply lin_names|].
  unfold PFrac.lin, lin_terms. assert (Ea : Qeq_bool a 0 = false) by now apply qeqb_false. rewrite Ea.
  destruct (Qeq_bool b 0) eqn:Eb; cbn [app map]; rewrite ?term_nil, ?term_v.
  - rewrite (Zb (Qeq_bool_eq _ _ Eb)). unfold sum_of. cbn. rewrite String.eqb_refl. auto.
  - unfold sum_of. splits.
    + destruct (Qeq_bool a 1); cbn; rewrite String.eqb_refl; reflexivity.
    + right. eauto.
    + assert (G : qlt0 a && qlt0 b = false).
      { apply andb_false_iff. destruct Sb as [Sb|Sb]; [left|right]; apply qlt0_f; lra. }
      destruct (Qeq_bool a 1); cbn; rewrite ?andb_true_r; auto.
Qed.
Lemma den_pow n d : den d -> k_pow (K c' (S n)) d (ERat (-1)) = Ok (EPow d (ERat (-1))).
Proof.
  intros (_ & _ & _ & [->|(ts & ->)] & Sb); [reflexivity|]. change (K c' (S n)) with (build c' (K c' n)). cbn [build k_pow]. unfold pow_body.
  cbn [isq is_acc andb is_prod]. change (Qeq_bool (-1) 0) with false. change (Qeq_bool (-1) 1) with false. cbn [andb]. unfold pow_tail. rewrite Sb. reflexivity.
Qed.
Lemma den_repr n d : den d -> exists s, k_repr (K c' (8 + n)) d = Ok s.
Proof. intros (F & _). apply (repr_poly_total natq). now apply (nform_poly natq c'). Qed.
Lemma contains_sym : forall d, contains v d = true -> has_symany d = true.
Proof.
  fix IH 1. intros d. destruct d as [q| | | | |s|s|ts|ts|b x|i b|f i|i]; cbn [contains has_symany]; intros C; auto; try discriminate.
  - induction ts as [|t ts IHl]; cbn [existsb] in *; [discriminate|]. apply orb_true_iff in C as [C|C]; apply orb_true_iff; [left; now apply IH|right; now apply IHl].
  - induction ts as [|t ts IHl]; cbn [existsb] in *; [discriminate|]. apply orb_true_iff in C as [C|C]; apply orb_true_iff; [left; now apply IH|right; now apply IHl].
  - apply orb_true_iff in C as [C|C]; apply orb_true_iff; [left|right]; now apply IH.
  - apply orb_true_iff in C as [C|C]; apply orb_true_iff; [left|right]; now apply IH.
Qed.
Lemma den_sym d : den d -> has_symany d = true.
Proof. intros (_ & _ & C & _). now apply contains_sym. Qed.
Notation dp d := (EPow d (ERat (-1))).
Lemma den_nwf d : den d -> exists m, nwf (dp d) = Ok (S m).
Proof.
  intros D. pose proof D as (F & _). destruct (nwf_poly natq d (nform_poly natq c' d F)) as (m & E).
  cbn [nwf has_symany]. rewrite (den_sym d D). cbn [orb]. rewrite E. cbn [bind]. eauto.
Qed.
Lemma den_sortable n d : den d -> sortable c' (9 + n) (dp d).
Proof.
  intros D. unfold sortable. splits.
  - destruct (den_nwf d D) as (m & ->). eauto.
  - unfold const_power. cbn. eauto.
  - change (K c' (9 + n)) with (build c' (K c' (8 + n))). cbn [build k_repr repr_body]. change (isq (ERat (-1)) (-1)) with true. cbn iota. unfold pow_term_repr.
    destruct (den_repr n d D) as (s & ->). cbn [bind]. eauto.
Qed.
Lemma rat_sortable n a : sortable c' (9 + n) (ERat a).
Proof. unfold sortable. splits; [cbn; eauto|unfold const_power; cbn; eauto|]. exists (str_Q a). reflexivity. Qed.
Lemma sort_quot n d a : den d -> sort_terms (K c' (9 + n)) [dp d; ERat a] = Ok [ERat a; dp d] /\ sort_terms (K c' (9 + n)) [ERat a; dp d] = Ok [ERat a; dp d].
Proof.
  intros D. destruct (den_nwf d D) as (m & E). unfold sort_terms. cbn [foldM insert_term bind]. unfold lt_terms. rewrite E. cbn [nwf bind Nat.eqb andb Nat.ltb Nat.leb]. auto.
Qed.
(** *** a / d *)
Definition quot (a : Q) (d : expr) : expr := if Qeq_bool a 0 then ERat a else if Qeq_bool a 1 then dp d else EProd [ERat a; dp d].
Lemma eq_den d b : den d -> eeqb d (ERat b) = false /\ eeqb (ERat b) d = false.
Proof. intros (_ & _ & _ & [->|(ts & ->)] & _); auto. Qed.
Lemma prod_quot n a d : den d -> k_prod (K c' (10 + n)) [ERat a; dp d] = Ok (quot a d).
Proof.
  intros D. change (K c' (10 + n)) with (build c' (K c' (9 + n))). cbn [build k_prod]. unfold prod_body. change (flat_prod [ERat a; dp d]) with [ERat a; dp d].
  unfold combine_prod. rewrite combine_prod_unlike.
  2:{ constructor; [|repeat constructor]. constructor; [|constructor]. unfold unbase2, py_eq. cbn [decon_pow fst strict c' faithful andb]. destruct (eq_den d a D) as (-> & ->). auto. }
  change (filter is_acc [ERat a; dp d]) with [ERat a]. change (nonacc [ERat a; dp d]) with [dp d]. cbn [bind acc_prod isq]. unfold quot.
  destruct (Qeq_bool a 0); [reflexivity|]. destruct (Qeq_bool a 1); [reflexivity|]. cbn [bind app]. destruct (sort_quot n d a D) as (-> & _). reflexivity.
Qed.
Lemma op_div_quot n a d : den d -> op_div (K c' (10 + n)) (ERat a) d = Ok (quot a d).
Proof.
  intros D. pose proof D as (_ & _ & _ & Sh & _). unfold op_div. destruct Sh as [->|(ts & ->)]; change (10 + n) with (S (9 + n)) at 1; rewrite (den_pow _ _ D); cbn [bind]; now apply prod_quot.
Qed.
(** *** It prints *)
Lemma numden_den k d : den d -> numden_go k [d] = Ok ([d], []).
Proof. intros (_ & _ & _ & [->|(ts & ->)] & _); reflexivity. Qed.
Lemma numden_2 k q d : den d -> numden_go k [ERat q; d] = Ok (if (numer q =? 1)%Z then [d] else [ratz (numer q); d], if (denom q =? 1)%Z then [] else [ratz (denom q)]).
Proof. intros D. change (numden_go k [ERat q; d]) with ('(n, d') <- numden_go k [d];; Ok (if (numer q =? 1)%Z then n else ratz (numer q) :: n, if (denom q =? 1)%Z then d' else ratz (denom q) :: d')). now rewrite (numden_den k d D). Qed.
Lemma prod_skip2 a b : prod_skip [a; b] = Ok (EProd [a; b]).
Proof. now destruct a. Qed.
Lemma denom_inject z : denom (inject_Z z) = 1%Z.
Proof. unfold denom. now rewrite Qred_inject. Qed.
Lemma repr_scaled n z d : den d -> (0 < z)%Z -> exists s, k_repr (K c' (9 + n)) (EProd [ratz z; d]) = Ok s.
Proof.
  intros D Hz. change (K c' (9 + n)) with (build c' (K c' (8 + n))). cbn [build k_repr repr_body]. unfold is_sub, ratz.
  assert (G : qlt0 (inject_Z z) = false) by (apply qlt0_f; unfold Qle; cbn; lia). rewrite G.
  unfold numden. rewrite (numden_2 _ _ d D). cbn [bind]. rewrite denom_inject. change (1 =? 1)%Z with true. cbn iota.
  assert (E : exists e, prod_skip (if (numer (inject_Z z) =? 1)%Z then [d] else [ratz (numer (inject_Z z)); d]) = Ok e).
  { pose proof D as (_ & _ & _ & Sh & _). destruct (numer (inject_Z z) =? 1)%Z; [destruct Sh as [->|(ts & ->)]|]; eexists; reflexivity. }
  destruct E as (e & E). setoid_rewrite E. cbn [bind prod_skip]. change (isq (ERat 1) 1) with true. cbn iota. cbn [mapM]. unfold prod_term_repr.
  change (k_repr (K c' (8 + n)) (ERat (inject_Z z))) with (Ok (str_Q (inject_Z z))). destruct (den_repr n d D) as (s & ->). cbn [bind]. eauto.
Qed.
Lemma repr_pos n a d : den d -> (0 <= a)%Q -> exists s, k_repr (K c' (10 + n)) (EProd [ERat a; dp d]) = Ok s.
Proof.
  intros D Ha. change (K c' (10 + n)) with (build c' (K c' (9 + n))). cbn [build k_repr repr_body]. unfold is_sub. rewrite (proj2 (qlt0_f a)) by exact Ha.
  unfold numden. cbn [numden_go decon_pow]. change (qlt0 (-1)) with true. change (Qeq_bool (-1) (-1)) with true. cbn [bind]. cbn iota. cbn [bind].
  assert (N : exists z, prod_skip (if (numer a =? 1)%Z then [] else [ratz (numer a)]) = Ok (ratz z)).
  { destruct (numer a =? 1)%Z; [exists 1%Z|eexists]; reflexivity. }
  destruct N as (z & N). setoid_rewrite N. cbn [bind].
  assert (Dn : exists e, prod_skip (if (denom a =? 1)%Z then [d] else [ratz (denom a); d]) = Ok e /\ (e = d \/ e = EProd [ratz (denom a); d])).
  { pose proof D as (_ & _ & _ & Sh & _). destruct (denom a =? 1)%Z; [destruct Sh as [->|(ts & ->)]|]; eexists; split; try reflexivity; auto. }
  destruct Dn as (e & -> & He). cbn [bind].
  assert (I1 : isq e 1 = false). { pose proof D as (_ & _ & _ & Sh & _). destruct He as [->| ->]; [destruct Sh as [->|(ts & ->)]|]; reflexivity. }
  rewrite I1. unfold ratz at 1. cbn [is_prod]. unfold prod_term_repr at 1. change (k_repr (K c' (9 + n)) (ratz z)) with (Ok (str_Q (inject_Z z))). cbn [bind].
  destruct He as [->| ->].
  - pose proof D as (_ & _ & _ & Sh & _). replace (is_prod d) with false by (destruct Sh as [->|(ts & ->)]; reflexivity). unfold prod_term_repr. destruct (den_repr (1 + n) d D) as (s & Es).
    change (8 + (1 + n)) with (9 + n) in Es. rewrite Es. cbn [bind]. eauto.
  - cbn [is_prod]. destruct (repr_scaled n (denom a) d D (denom_pos a)) as (s & ->). cbn [bind]. eauto.
Qed.
Lemma prod_neg n a d : den d -> lowest a -> k_prod (K c' (10 + n)) [EProd [ERat a; dp d]; ERat (-1)] = Ok (quot (Qred (a * -1)) d).
Proof.
  intros D La. change (K c' (10 + n)) with (build c' (K c' (9 + n))). cbn [build k_prod]. unfold prod_body. change (flat_prod [EProd [ERat a; dp d]; ERat (-1)]) with [ERat a; dp d; ERat (-1)].
  assert (G : combine_prod c' (K c' (9 + n)) [ERat a; dp d; ERat (-1)] = Ok (let q := Qred (a * -1) in if Qeq_bool q 0 then [ERat q] else if Qeq_bool q 1 then [dp d] else [dp d; ERat q])).
  { destruct (eq_den d a D) as (E1 & E2). destruct (eq_den d (-1) D) as (E3 & E4).
    unfold combine_prod. cbn [List.length combine_prod_go decon_pow split_base]. unfold py_eq. cbn [strict c' faithful andb bind]. rewrite E1. cbn [bind].
    destruct (eeqb (ERat (-1)) (ERat a)) eqn:Ea; cbn [bind].
    - apply qeqb_eq in Ea. subst a. change (op_add (K c' (9 + n)) (ERat 1) (ERat 1)) with (Ok (ERat 2)). cbn [bind]. change (isq (ERat 2) 0) with false. change (isq (ERat 2) 1) with false.
      cbn iota. change (k_pow (K c' (9 + n)) (ERat (-1)) (ERat 2)) with (Ok (ERat 1)). cbn [bind]. reflexivity.
    - cbn [combine_prod_go decon_pow split_base]. unfold py_eq. cbn [strict c' faithful andb bind]. rewrite E4. cbn [bind add_term is_acc fst snd combine_prod_go decon_pow split_base].
      cbn [acc_prod foldM val_mul bind]. 
      change (val_mul (rat (1 * a)) (ERat (-1))) with (Ok (rat (Qred (1 * a) * -1))). cbn [bind].
      assert (Eq : rat (Qred (1 * a) * -1) = ERat (Qred (a * -1))) by (unfold rat; f_equal; apply Qred_complete; rewrite Qred_correct; ring).
      rewrite Eq. cbn [isq]. destruct (Qeq_bool (Qred (a * -1)) 0); [reflexivity|]. now destruct (Qeq_bool (Qred (a * -1)) 1). }
  rewrite G. cbn [bind]. unfold quot. cbv zeta. destruct (Qeq_bool (Qred (a * -1)) 0); [reflexivity|]. destruct (Qeq_bool (Qred (a * -1)) 1); [reflexivity|]. destruct (sort_quot n d (Qred (a * -1)) D) as (-> & _). reflexivity.
Qed.
Lemma repr_quot n a d : den d -> lowest a -> exists s, k_repr (K c' (11 + n)) (quot a d) = Ok s.
Proof.
  intros D La. unfold quot. destruct (Qeq_bool a 0); [exists (str_Q a); reflexivity|]. destruct (Qeq_bool a 1).
  - destruct (den_sortable (2 + n) d D) as (_ & _ & R). exact R.
  - destruct (Qlt_le_dec a 0) as [Ha|Ha]; [|exact (repr_pos (1 + n) a d D Ha)].
    change (K c' (11 + n)) with (build c' (K c' (10 + n))). cbn [build k_repr repr_body]. unfold is_sub at 1. rewrite (proj2 (qlt0_iff a)) by exact Ha.
    change (op_mul (K c' (10 + n)) (EProd [ERat a; dp d]) (ERat (-1))) with (k_prod (K c' (10 + n)) [EProd [ERat a; dp d]; ERat (-1)]).
    rewrite (prod_neg n a d D La). cbn [bind]. set (q := Qred (a * -1)).
    assert (Hq : (0 < q)%Q) by (unfold q; rewrite Qred_correct; lra).
    unfold quot. replace (Qeq_bool q 0) with false by (symmetry; apply qeqb_false; lra). destruct (Qeq_bool q 1); cbn [is_prod].
    + unfold prod_term_repr. destruct (den_sortable (1 + n) d D) as (_ & _ & s & R). change (9 + (1 + n)) with (10 + n) in R. rewrite R. cbn [bind]. eauto.
    + unfold is_sub. rewrite (proj2 (qlt0_f q)) by lra. destruct (repr_pos n q d D) as (s & R); [lra|]. rewrite R. cbn [bind]. eauto.
Qed.
Lemma sortable_quot n a d : den d -> lowest a -> sortable c' (11 + n) (quot a d).
Proof.
  intros D La. unfold sortable. split; [|split; [|now apply repr_quot]]; unfold quot; destruct (Qeq_bool a 0), (Qeq_bool a 1); cbn [nwf]; eauto; try (unfold const_power; cbn; eauto; fail).
  - destruct (den_nwf d D) as (m & E). eauto.
  - destruct (den_nwf d D) as (m & E). cbn [nwf has_symany] in E |- *. unfold rcf. cbn [filter has_symany]. rewrite (den_sym d D) in E |- *. cbn [orb] in E |- *. cbn [negb prod_skip bind]. apply bind_ok in E as (x & -> & E). cbn [bind]. eauto.
  - unfold const_power, rcf. cbn [filter has_symany]. rewrite (den_sym d D). cbn [orb negb prod_skip bind]. eauto.
Qed.
Lemma sum_pair n x y : flat_sum [x; y] = [x; y] -> unlike2 c' x y -> sortable c' (9 + n) x -> sortable c' (9 + n) y ->
  (forall t, In t [x; y] -> is_acc t = true -> exists q, t = ERat q) -> exists r, k_sum (K c' (10 + n)) [x; y] = Ok r.
Proof.
  intros Fl U Sx Sy A. change (K c' (10 + n)) with (build c' (K c' (9 + n))). cbn [build k_sum]. unfold sum_body. rewrite Fl. unfold combine_sum.
  rewrite combine_sum_unlike by (constructor; [constructor; [exact U|constructor]|repeat constructor]). cbn [bind].
  assert (Fin : forall nc, Forall (sortable c' (9 + n)) nc -> exists r, match nc with [] => Ok (ERat 0) | [t] => Ok t | _ => s <- sort_terms (K c' (9 + n)) nc;; Ok (ESum (rev s)) end = Ok r).
  { intros nc H. destruct (sort_ok c' (9 + n) nc H) as (s & E & _). destruct nc as [|t [|u nc]]; eauto. rewrite E. cbn [bind]. eauto. }
  assert (Nc : Forall (sortable c' (9 + n)) (nonacc [x; y])). { apply Forall_forall. intros t Ht. apply filter_In in Ht as ([<-|[<-|[]]] & _); auto. }
  assert (Ac : forall t, In t (filter is_acc [x; y]) -> exists q, t = ERat q). { intros t Ht. apply filter_In in Ht as (Ht & At). eauto. }
  assert (Sum : exists q, acc_sum (filter is_acc [x; y]) = Ok (ERat q)).
  { cbn [filter] in *. destruct (is_acc x), (is_acc y).
    - destruct (Ac x) as (p & ->); [now left|]. destruct (Ac y) as (q & ->); [right; now left|]. eexists. reflexivity.
    - destruct (Ac x) as (p & ->); [now left|]. eexists. reflexivity.
    - destruct (Ac y) as (p & ->); [now left|]. eexists. reflexivity.
    - exists 0%Q. reflexivity. }
  destruct Sum as (q & Eq). rewrite Eq. assert (Nq : Forall (sortable c' (9 + n)) (nonacc [x; y] ++ [ERat q])). { apply Forall_app. split; auto. constructor; [apply rat_sortable|constructor]. }
  destruct (filter is_acc [x; y]); cbn [bind]; [now apply Fin|]. destruct (isq (ERat q) 0); cbn [bind]; now apply Fin.
Qed.
Lemma eql_f x y : eeqb x y = false -> py_eql c' [x] [y] = Ok false.
Proof. intros E. unfold py_eql. cbn. rewrite E. reflexivity. Qed.
Lemma add_quot n a b d1 d2 : den d1 -> den d2 -> eeqb d1 d2 = false -> eeqb d2 d1 = false -> lowest a -> lowest b ->
  exists r, op_add (K c' (12 + n)) (quot a d1) (quot b d2) = Ok r.
Proof.
  intros D1 D2 N1 N2 La Lb.
  destruct (Qeq_bool a 0 && Qeq_bool b 0) eqn:Z.
  { apply andb_true_iff in Z as (Za & Zb). unfold quot. rewrite Za, Zb. eexists. reflexivity. }
  assert (H : exists r, k_sum (K c' (12 + n)) [quot a d1; quot b d2] = Ok r).
  { apply (sum_pair (2 + n)).
    - unfold quot. destruct (Qeq_bool a 0), (Qeq_bool a 1), (Qeq_bool b 0), (Qeq_bool b 1); reflexivity.
    - unfold unlike2, quot in *. destruct (Qeq_bool a 0), (Qeq_bool a 1), (Qeq_bool b 0), (Qeq_bool b 1); try discriminate; cbn [decon_prod snd filter is_acc negb]; split; apply eql_f; cbn [eeqb]; rewrite ?N1, ?N2; reflexivity.
    - now apply sortable_quot.
    - now apply sortable_quot.
    - intros t [<-|[<-|[]]]; unfold quot; [destruct (Qeq_bool a 0), (Qeq_bool a 1)|destruct (Qeq_bool b 0), (Qeq_bool b 1)]; cbn; intros; try discriminate; eauto. }
  destruct H as (r & E). unfold op_add. revert Z E. unfold quot. destruct (Qeq_bool a 0), (Qeq_bool a 1), (Qeq_bool b 0), (Qeq_bool b 1); intros Z E; try discriminate; eauto.
Qed.
(** *** The two denominators differ *)
Lemma lin_eqb a1 b1 a2 b2 : denominator a1 b1 -> denominator a2 b2 -> ~ (a1 * b2 - a2 * b1 == 0)%Q -> eeqb (lin a1 b1) (lin a2 b2) = false.
Proof.
  intros (La & Lb & Za & Zb & _) (Lc & Ld & Zc & Zd & _) Det. apply not_true_iff_false. intros E. apply Det.
  revert E. unfold PFrac.lin, lin_terms. rewrite (qeqb_false a1 0 Za), (qeqb_false a2 0 Zc). cbn [app].
  destruct (Qeq_bool b1 0) eqn:E1, (Qeq_bool b2 0) eqn:E2; cbn [map]; rewrite ?term_nil, ?term_v; unfold sum_of.
  - apply Qeq_bool_eq in E1, E2. rewrite E1, E2. intros _. ring.
  - rewrite (Zb (Qeq_bool_eq _ _ E1)). discriminate.
  - rewrite (Zd (Qeq_bool_eq _ _ E2)). destruct (Qeq_bool a1 1); discriminate.
  - assert (G : Qeq_bool a1 1 = true -> Qeq_bool a2 1 = true -> (a1 == a2)%Q) by (intros G1 G2; apply Qeq_bool_eq in G1, G2; now rewrite G1, G2).
    destruct (Qeq_bool a1 1), (Qeq_bool a2 1); cbn [eeqb]; rewrite ?andb_true_r, ?andb_true_iff; intros E; try (destruct E; discriminate).
    + destruct E as (_ & E). apply qeqb_eq in E. subst. rewrite (G eq_refl eq_refl). ring.
    + destruct E as ((Ea & _) & E). apply qeqb_eq in E, Ea. subst. ring.
Qed.
Lemma div_quot n a d : den d -> op_div (PF c (10 + n)) (ERat a) d = Ok (quot a d).
Proof.
  intros D. pose proof D as (_ & _ & _ & Sh & _). unfold op_div.
  assert (P : k_pow (PF c (10 + n)) d (ERat (-1)) = Ok (dp d)).
  { change (k_pow (PF c (10 + n)) d (ERat (-1))) with (guard (pow_always d (ERat (-1)) || true) (k_pow (K c' (S (9 + n))) d (ERat (-1)))). rewrite orb_true_r. cbn [guard]. exact (den_pow (9 + n) d D). }
  destruct Sh as [->|(ts & ->)]; rewrite P; cbn [bind]; exact (prod_quot n a _ D).
Qed.
(** *** Numerator and denominator *)
Definition numfac (t : expr) : Prop := (exists z, t = ratz z /\ z <> 1%Z) \/ t = ESym v \/ exists ts, t = ESum ts.
Lemma numden_split k : forall ts N D, filter recip ts = map (fun d => dp d) D -> filter (fun t => negb (recip t)) ts = N -> Forall numfac N -> numden_go k ts = Ok (N, D).
Proof.
  induction ts as [|t ts IH]; intros N D F1 F2 FN.
  - cbn in F1, F2. destruct D; [|discriminate]. subst N. reflexivity.
  - cbn [filter] in F1, F2. destruct (recip t) eqn:Rt; cbn [negb] in F2.
    + destruct D as [|d D]; [discriminate|]. cbn [map] in F1. injection F1 as -> F1. cbn [numden_go decon_pow]. rewrite (IH N D F1 F2 FN). reflexivity.
    + subst N. inversion FN as [|? ? Ht FN']; subst. pose proof (IH _ D F1 eq_refl FN') as E. destruct Ht as [(z & -> & Hz)|[->|(us & ->)]].
      * unfold ratz. cbn [numden_go]. rewrite E. cbn [bind]. rewrite numer_inject, denom_inject. change (1 =? 1)%Z with true. apply Z.eqb_neq in Hz. rewrite Hz. reflexivity.
      * cbn [numden_go decon_pow]. rewrite E. reflexivity.
      * cbn [numden_go decon_pow]. rewrite E. reflexivity.
Qed.
(** the numeric factor of p*v + q, if there is one, is an integer *)
Definition integral (p q : Q) : Prop := ((q == 0)%Q -> qisint p = true) /\ ((p == 0)%Q -> qisint q = true).
Lemma lowest_int q : lowest q -> qisint q = true -> q = inject_Z (numer q).
Proof. intros L H. transitivity (Qred q); [symmetry; exact L|]. rewrite (Qred_complete _ _ (numer_int q H)). apply Qred_inject. Qed.
Lemma num_lin p q : lowest p -> lowest q -> integral p q -> Forall numfac (factors_of (lin p q)) /\ prod_skip (factors_of (lin p q)) = Ok (lin p q).
Proof.
  intros Lp Lq (Ip & Iq). unfold PFrac.lin, lin_terms. destruct (Qeq_bool p 0) eqn:Ep, (Qeq_bool q 0) eqn:Eq; cbn [app map]; rewrite ?term_nil, ?term_v; unfold sum_of.
  - split; [|reflexivity]. constructor; [|constructor]. left. exists 0%Z. split; [reflexivity|lia].
  - unfold factors_of. destruct (isq (ERat q) 1) eqn:E1.
    + split; [constructor|]. cbn in E1 |- *. apply Qeq_bool_eq in E1. do 2 f_equal. transitivity (Qred q); [|exact Lq]. now rewrite (Qred_complete _ _ E1).
    + split; [|reflexivity]. constructor; [|constructor]. left. exists (numer q). split.
      * unfold ratz. f_equal. apply lowest_int; auto. apply Iq. now apply Qeq_bool_eq.
      * intros E. assert (G := lowest_int q Lq (Iq (Qeq_bool_eq _ _ Ep))). rewrite E in G. subst q. discriminate.
  - destruct (Qeq_bool p 1) eqn:E1.
    + split; [|reflexivity]. constructor; [|constructor]. right. now left.
    + split; [|reflexivity]. unfold factors_of. constructor; [|constructor; [right; now left|constructor]]. left. exists (numer p).
      assert (G := lowest_int p Lp (Ip (Qeq_bool_eq _ _ Eq))). split; [unfold ratz; congruence|]. intros E. rewrite E in G. subst p. discriminate.
  - split; [|reflexivity]. constructor; [|constructor]. right. right. eauto.
Qed.
Lemma numden_lin m ts d1 d2 p q : filter recip ts = [dp d1; dp d2] -> filter (fun t => negb (recip t)) ts = factors_of (lin p q) ->
  lowest p -> lowest q -> integral p q -> numdenF (PF c m) ts = Ok (lin p q, EProd [d1; d2]).
Proof.
  intros F1 F2 Lp Lq Ip. destruct (num_lin p q Lp Lq Ip) as (FN & SK). unfold numdenF.
  rewrite (numden_split _ ts _ [d1; d2] F1 F2 FN). cbn [bind]. change (k_strict (PF c m)) with false. cbn [negb orb guard]. rewrite SK, prod_skip2. reflexivity.
Qed.
(** *** Their coefficients *)
Definition lin_coeffs (p q : Q) : list Q := if Qeq_bool p 0 then [q] else [q; p].
Lemma red1 q : lowest q -> rat (q * 1) = ERat q.
Proof. intros L. unfold rat. f_equal. transitivity (Qred q); [|exact L]. apply Qred_complete. ring. Qed.
Lemma red1l q : lowest q -> rat (1 * q) = ERat q.
Proof. intros L. unfold rat. f_equal. transitivity (Qred q); [|exact L]. apply Qred_complete. ring. Qed.
Lemma red0 q : lowest q -> rat (0 + q) = ERat q.
Proof. intros L. unfold rat. f_equal. transitivity (Qred q); [|exact L]. apply Qred_complete. ring. Qed.
Lemma to_poly_lin fk p q : k_strict fk = false -> lowest p -> lowest q -> to_poly fk v [] (ERat 1) (lin p q) = Ok (map ERat (lin_coeffs p q)).
Proof.
  intros St Lp Lq. unfold PFrac.lin, lin_terms, lin_coeffs. destruct (Qeq_bool p 0) eqn:Ep, (Qeq_bool q 0) eqn:Eq; cbn [app map]; rewrite ?term_nil, ?term_v; unfold sum_of.
  - assert (q = 0%Q) as -> by (apply Qeq_bool_eq in Eq; transitivity (Qred q); [symmetry; exact Lq|now rewrite (Qred_complete _ _ Eq)]). reflexivity.
  - cbn [to_poly contains negb]. unfold add_answer. cbn [op_mul bind add_at]. now rewrite (red1 q Lq).
  - assert (q = 0%Q) as -> by (apply Qeq_bool_eq in Eq; transitivity (Qred q); [symmetry; exact Lq|now rewrite (Qred_complete _ _ Eq)]).
    destruct (Qeq_bool p 1) eqn:E1; cbn [to_poly contains existsb orb]; rewrite String.eqb_refl; cbn [negb orb]; rewrite ?St; cbn [negb orb guard]; unfold add_answer; cbn [op_mul bind add_at].
    + assert (p = 1%Q) as -> by (apply Qeq_bool_eq in E1; transitivity (Qred p); [symmetry; exact Lp|now rewrite (Qred_complete _ _ E1)]). reflexivity.
    + now rewrite (red1l p Lp).
  - destruct (Qeq_bool p 1) eqn:E1; cbn [to_poly contains existsb orb]; rewrite String.eqb_refl; cbn [negb orb]; rewrite ?St; cbn [negb orb guard]; unfold add_answer; cbn [op_mul bind add_at op_add].
    + assert (p = 1%Q) as -> by (apply Qeq_bool_eq in E1; transitivity (Qred p); [symmetry; exact Lp|now rewrite (Qred_complete _ _ E1)]). cbn [bind]. rewrite (red1 q Lq). cbn [op_add]. now rewrite (red0 q Lq).
    + rewrite (red1l p Lp), (red1 q Lq). cbn [bind op_add]. now rewrite (red0 q Lq).
Qed.
Lemma tcp_lin n d p q : 6 <= d -> lowest p -> lowest q -> to_const_polynomial (PF c (8 + n)) d v (lin p q) = Ok (map ERat (lin_coeffs p q)).
Proof.
  intros Hd Lp Lq. pose proof (lin_nform p q Lp Lq) as F. destruct (tcp_mfx c HX v n d (lin p q) (mfx_nf c' _ F) (lin_names p q) Hd) as (r & _ & Fr & _ & Vr & ->).
  replace r with (lin p q) by (apply (nform_unique natq c' HX'); auto). now apply to_poly_lin.
Qed.
Lemma Q2R_n0 q : ~ (q == 0)%Q -> Q2R q <> 0%R.
Proof. intros N E. apply N. apply Qreals.eqR_Qeq. now rewrite E, RMicromega.Q2R_0. Qed.
Lemma rpoly_affine l : List.length l <= 2 -> (rpoly l 1 + rpoly l (-1) = 2 * rpoly l 0)%R.
Proof. destruct l as [|a [|b [|? ?]]]; cbn; intros L; try lia; Lra.lra. Qed.
Lemma lin_sym a b : denominator a b -> lin a b = ESym v -> (b == 0)%Q.
Proof.
  intros (_ & _ & Za & _). unfold PFrac.lin, lin_terms. rewrite (qeqb_false a 0 Za). destruct (Qeq_bool b 0) eqn:E; [intros _; now apply Qeq_bool_eq|].
  cbn [app map]. unfold sum_of. discriminate.
Qed.
Lemma tcp_den n d a1 b1 a2 b2 : 6 <= d -> denominator a1 b1 -> denominator a2 b2 -> ~ ((b1 == 0)%Q /\ (b2 == 0)%Q) ->
  exists l, to_const_polynomial (PF c (8 + n)) d v (EProd [lin a1 b1; lin a2 b2]) = Ok l /\ 3 <= List.length l.
Proof.
  intros Hd D1 D2 Det. pose proof (den_lin a1 b1 D1) as Dn1. pose proof (den_lin a2 b2 D2) as Dn2.
  assert (M : mfx c' (EProd [lin a1 b1; lin a2 b2])).
  { destruct Dn1 as (F1 & _ & _ & Sh1 & _), Dn2 as (F2 & _ & _ & Sh2 & _).
    assert (Nv : natom natq (ESym v)) by now constructor.
    destruct Sh1 as [E1|(ts1 & E1)], Sh2 as [E2|(ts2 & E2)]; [exfalso; apply Det; split; [exact (lin_sym a1 b1 D1 E1)|exact (lin_sym a2 b2 D2 E2)]|rewrite E1 in *; rewrite E2 in *..].
    - apply mfx_prod_intro; [cbn; lia| |cbn; lia|cbn; constructor; [auto|constructor]|].
      + constructor; [auto|]. constructor; [|constructor]. right. right. left. eauto.
      + right. left. left. eauto.
    - apply mfx_prod_intro; [cbn; lia| |cbn; lia|cbn; constructor; [auto|constructor]|].
      + constructor; [|constructor; [auto|constructor]]. right. right. left. eauto.
      + left. left. eauto.
    - apply mfx_prod_intro; [cbn; lia| |cbn; lia|cbn; constructor|].
      + constructor; [|constructor; [|constructor]]; right; right; left; eauto.
      + left. left. eauto. }
  assert (O : only (EProd [lin a1 b1; lin a2 b2])).
  { intros s Hs. cbn [names flat_map] in Hs. rewrite app_nil_r in Hs. apply in_app_iff in Hs as [Hs|Hs]; [exact (lin_names a1 b1 s Hs)|exact (lin_names a2 b2 s Hs)]. }
  destruct (tcp_mfx c HX v n d _ M O Hd) as (r & _ & Fr & Or & Vr & ->). destruct (coeffs_nform c v r Fr Or) as (l & E & (Vl & _) & _).
  exists (map ERat l). split; [apply E|]. rewrite map_length. destruct (le_lt_dec (List.length l) 2) as [L|L]; [exfalso|lia]. pose proof (rpoly_affine l L) as A.
  pose proof D1 as (La & Lb & Za & _). pose proof D2 as (Lc & Ld & Zc & _).
  assert (V : forall x, rpoly l x = ((Q2R a1 * x + Q2R b1) * (Q2R a2 * x + Q2R b2))%R).
  { intros x. specialize (Vl (fun _ => x)). rewrite Vr in Vl. rewrite <- Vl. cbn [ev map fold_right]. rewrite !lin_val by auto. unfold Rprod. cbn [fold_right]. ring. }
  rewrite !V in A. assert (P1 := Q2R_n0 a1 Za). assert (P2 := Q2R_n0 a2 Zc). assert (P : (Q2R a1 * Q2R a2 = 0)%R) by Lra.lra. apply Rmult_integral in P. tauto.
Qed.
Lemma dot_rat fk e f a b : exists r, dot2 fk (map ERat [e; f]) (ERat a) (ERat b) = Ok (ERat r) /\ lowest r /\ (r == e * a + f * b)%Q.
Proof.
  cbn [map dot2 op_mul bind op_add]. unfold rat. cbn [op_add]. eexists. split; [reflexivity|]. split; [apply Qred_complete, Qred_correct|]. now rewrite !Qred_correct.
Qed.
Lemma quot_plain a d : den d -> plain (quot a d) = true.
Proof. intros (F & _). pose proof (nform_plain c' d F) as P. unfold quot. destruct (Qeq_bool a 0); [reflexivity|]. destruct (Qeq_bool a 1); cbn; rewrite P; reflexivity. Qed.
Lemma quot_val rho a d : den d -> ev rho d <> 0%R -> wd rho (quot a d) /\ ev rho (quot a d) = (Q2R a / ev rho d)%R.
Proof.
  intros D N. pose proof D as (F & _). destruct (c02_ops_plain c' HX' 10 rho (ERat a) d (quot a d) eq_refl (nform_plain c' d F) Logic.I (nform_wd c' rho d F)) as (_ & V).
  exact (V N (op_div_quot 0 a d D)).
Qed.
(** what the answer is *)
Definition split_form (a1 b1 a2 b2 p q : Q) (r : expr) : Prop :=
  forall rho, (Q2R a1 * rho v + Q2R b1 <> 0)%R -> (Q2R a2 * rho v + Q2R b2 <> 0)%R ->
    wd rho r /\ ev rho r = ((Q2R p * rho v + Q2R q) / ((Q2R a1 * rho v + Q2R b1) * (Q2R a2 * rho v + Q2R b2)))%R.
Theorem pfrac_total n d ts a1 b1 a2 b2 p q : 6 <= d -> denominator a1 b1 -> denominator a2 b2 -> ~ (a1 * b2 - a2 * b1 == 0)%Q ->
  lowest p -> lowest q -> integral p q ->
  filter recip ts = [dp (lin a1 b1); dp (lin a2 b2)] -> filter (fun t => negb (recip t)) ts = factors_of (lin p q) ->
  exists x y r, partial_fractions (PF c (12 + n)) d v (EProd ts) = Ok (Some r) /\ op_add (PF c (12 + n)) (quot x (lin a1 b1)) (quot y (lin a2 b2)) = Ok r /\ split_form a1 b1 a2 b2 p q r.
Proof.
  intros Hd D1 D2 Det Lp Lq Ip F1 F2. set (d1 := lin a1 b1) in *. set (d2 := lin a2 b2) in *.
  pose proof (den_lin a1 b1 D1) as Dn1. pose proof (den_lin a2 b2 D2) as Dn2. fold d1 in Dn1. fold d2 in Dn2.
  assert (Det' : ~ (a2 * b1 - a1 * b2 == 0)%Q) by (intros E; apply Det; lra).
  pose proof (lin_eqb a1 b1 a2 b2 D1 D2 Det) as N1. pose proof (lin_eqb a2 b2 a1 b1 D2 D1 Det') as N2. fold d1 in N1, N2. fold d2 in N1, N2.
  pose proof D1 as (La1 & Lb1 & Za1 & _). pose proof D2 as (La2 & Lb2 & Za2 & _).
  assert (E1 : lin_coeffs a1 b1 = [b1; a1]) by (unfold lin_coeffs; now rewrite (qeqb_false a1 0 Za1)).
  assert (E2 : lin_coeffs a2 b2 = [b2; a2]) by (unfold lin_coeffs; now rewrite (qeqb_false a2 0 Za2)).
  destruct (tcp_den (4 + n) d a1 b1 a2 b2 Hd D1 D2 ltac:(intros (B1 & B2); apply Det; rewrite B1, B2; ring)) as (dl & Ed & Ld). change (8 + (4 + n)) with (12 + n) in Ed. fold d1 in Ed. fold d2 in Ed.
  pose proof (tcp_lin (4 + n) d p q Hd Lp Lq) as En. pose proof (tcp_lin (4 + n) d a1 b1 Hd La1 Lb1) as El1. pose proof (tcp_lin (4 + n) d a2 b2 Hd La2 Lb2) as El2.
  change (8 + (4 + n)) with (12 + n) in *. rewrite E1 in El1. rewrite E2 in El2. fold d1 in El1. fold d2 in El2.
  destruct (invert_lift (PF c (12 + n)) b2 b1 a2 a1) as [(Z & _)|(_ & e & f & g & h & Ei & I1 & I2 & I3 & I4 & I5 & I6 & I7 & I8)]; [exfalso; apply Det; lra|].
  set (n1 := if Qeq_bool p 0 then 0%Q else p).
  assert (Hn1 : (n1 == p)%Q) by (unfold n1; destruct (Qeq_bool p 0) eqn:E; [symmetry; now apply Qeq_bool_eq|reflexivity]).
  destruct (dot_rat (PF c (12 + n)) e f q n1) as (x & Ex & Lx & Hx). destruct (dot_rat (PF c (12 + n)) g h q n1) as (y & Ey & Ly & Hy).
  destruct (add_quot n x y d1 d2 Dn1 Dn2 N1 N2 Lx Ly) as (r & Er).
  assert (Er' : op_add (PF c (12 + n)) (quot x d1) (quot y d2) = Ok r) by exact Er.
  exists x, y, r. split; [|split; [exact Er'|]].
  - unfold partial_fractions. rewrite (numden_lin (12 + n) ts d1 d2 p q F1 F2 Lp Lq Ip). cbn [bind isq]. rewrite En, Ed. cbn [bind catchA].
    assert (Lt : Nat.leb (List.length dl) (List.length (map ERat (lin_coeffs p q))) = false).
    { apply Nat.leb_gt. rewrite map_length. unfold lin_coeffs. destruct (Qeq_bool p 0); cbn [List.length]; lia. }
    rewrite Lt. pose proof Dn1 as (_ & _ & -> & _). pose proof Dn2 as (_ & _ & -> & _). cbn [andb]. rewrite El1, El2. cbn [map transpose2 bind]. change (map ERat) with (map ERat) in Ei. cbn [map] in Ei. rewrite Ei. cbn [bind].
    assert (N : match map ERat (lin_coeffs p q) with [a] => Ok (a, ERat 0) | [a; b] => Ok (a, b) | _ => Raise ValueError end = Ok (ERat q, ERat n1)).
    { unfold lin_coeffs, n1. destruct (Qeq_bool p 0); reflexivity. }
    rewrite N. cbn [bind]. cbn [map] in Ex, Ey. rewrite Ex, Ey. cbn [bind].
    pose proof (div_quot (2 + n) x d1 Dn1) as Q1. pose proof (div_quot (2 + n) y d2 Dn2) as Q2. change (10 + (2 + n)) with (12 + n) in Q1, Q2. rewrite Q1. cbn [bind]. rewrite Q2. cbn [bind]. rewrite Er'. reflexivity.
  - intros rho W1 W2.
    destruct (quot_val rho x d1 Dn1) as (Wx & Vx); [unfold d1; rewrite lin_val by auto; exact W1|]. destruct (quot_val rho y d2 Dn2) as (Wy & Vy); [unfold d2; rewrite lin_val by auto; exact W2|].
    destruct (c01_ops_plain c' HX' (12 + n) rho (quot x d1) (quot y d2) r (quot_plain x d1 Dn1) (quot_plain y d2 Dn2) Wx Wy) as (Va & _). destruct (Va Er) as (Wr & Vr). split; [exact Wr|].
    rewrite Vr, Vx, Vy. unfold d1, d2. rewrite !lin_val by auto.
    assert (G1 : (b2 * x + b1 * y == q)%Q). { rewrite Hx, Hy, Hn1. setoid_replace (b2 * (e * q + f * p) + b1 * (g * q + h * p))%Q with ((b2 * e + b1 * g) * q + (b2 * f + b1 * h) * p)%Q by ring. rewrite I5, I6. ring. }
    assert (G2 : (a2 * x + a1 * y == p)%Q). { rewrite Hx, Hy, Hn1. setoid_replace (a2 * (e * q + f * p) + a1 * (g * q + h * p))%Q with ((a2 * e + a1 * g) * q + (a2 * f + a1 * h) * p)%Q by ring. rewrite I7, I8. ring. }
    apply Qreals.Qeq_eqR in G1, G2. rewrite Qreals.Q2R_plus, !Qreals.Q2R_mult in G1, G2. rewrite <- G1, <- G2. field. auto.
Qed.
Theorem pfrac_none n d ts a1 b1 a2 b2 p q : 6 <= d -> denominator a1 b1 -> denominator a2 b2 -> (a1 * b2 - a2 * b1 == 0)%Q -> ~ (b1 == 0)%Q ->
  lowest p -> lowest q -> integral p q ->
  filter recip ts = [dp (lin a1 b1); dp (lin a2 b2)] -> filter (fun t => negb (recip t)) ts = factors_of (lin p q) ->
  partial_fractions (PF c (12 + n)) d v (EProd ts) = Ok None.
Proof.
  intros Hd D1 D2 Det B1 Lp Lq Ip F1 F2. set (d1 := lin a1 b1) in *. set (d2 := lin a2 b2) in *.
  pose proof (den_lin a1 b1 D1) as Dn1. pose proof (den_lin a2 b2 D2) as Dn2. fold d1 in Dn1. fold d2 in Dn2.
  pose proof D1 as (La1 & Lb1 & Za1 & _). pose proof D2 as (La2 & Lb2 & Za2 & _).
  assert (E1 : lin_coeffs a1 b1 = [b1; a1]) by (unfold lin_coeffs; now rewrite (qeqb_false a1 0 Za1)).
  assert (E2 : lin_coeffs a2 b2 = [b2; a2]) by (unfold lin_coeffs; now rewrite (qeqb_false a2 0 Za2)).
  destruct (tcp_den (4 + n) d a1 b1 a2 b2 Hd D1 D2 ltac:(tauto)) as (dl & Ed & Ld). change (8 + (4 + n)) with (12 + n) in Ed. fold d1 in Ed. fold d2 in Ed.
  pose proof (tcp_lin (4 + n) d p q Hd Lp Lq) as En. pose proof (tcp_lin (4 + n) d a1 b1 Hd La1 Lb1) as El1. pose proof (tcp_lin (4 + n) d a2 b2 Hd La2 Lb2) as El2.
  change (8 + (4 + n)) with (12 + n) in *. rewrite E1 in El1. rewrite E2 in El2. fold d1 in El1. fold d2 in El2.
  destruct (invert_lift (PF c (12 + n)) b2 b1 a2 a1) as [(_ & Ei)|(Z & _)]; [|exfalso; apply Z; lra].
  unfold partial_fractions. rewrite (numden_lin (12 + n) ts d1 d2 p q F1 F2 Lp Lq Ip). cbn [bind isq]. rewrite En, Ed. cbn [bind catchA].
  assert (Lt : Nat.leb (List.length dl) (List.length (map ERat (lin_coeffs p q))) = false).
  { apply Nat.leb_gt. rewrite map_length. unfold lin_coeffs. destruct (Qeq_bool p 0); cbn [List.length]; lia. }
  rewrite Lt. pose proof Dn1 as (_ & _ & -> & _). pose proof Dn2 as (_ & _ & -> & _). cbn [andb]. rewrite El1, El2. cbn [map transpose2 bind]. cbn [map] in Ei. rewrite Ei. reflexivity.
Qed.
End PF.

(** ** C33 *)
(** (p v + q) / ((a1 v + b1) (a2 v + b2)), the factors in any order: the transform applies, without monitoring, at
    every recursion limit from 12 on, and returns the sum of two quotients x / (a1 v + b1) + y / (a2 v + b2). *)
Theorem c33_total c v ts a1 b1 a2 b2 p q : fpow_exact (fpow c) -> ident v ->
  denominator a1 b1 -> denominator a2 b2 -> ~ (a1 * b2 - a2 * b1 == 0)%Q -> lowest p -> lowest q -> integral p q ->
  filter recip ts = [EPow (lin v a1 b1) (ERat (-1)); EPow (lin v a2 b2) (ERat (-1))] ->
  filter (fun t => negb (recip t)) ts = factors_of (lin v p q) ->
  exists x y r,
    (forall m d, 12 <= m -> 6 <= d -> partial_fractions (PF c m) d v (EProd ts) = Ok (Some r)) /\
    (forall m, 12 <= m -> op_add (PF c m) (quot x (lin v a1 b1)) (quot y (lin v a2 b2)) = Ok r) /\
    split_form v a1 b1 a2 b2 p q r.
Proof.
  intros HX Hv D1 D2 Det Lp Lq Ip F1 F2. destruct (pfrac_total c HX v Hv 0 6 ts a1 b1 a2 b2 p q ltac:(lia) D1 D2 Det Lp Lq Ip F1 F2) as (x & y & r & E & A & V).
  change (12 + 0) with 12 in E, A. exists x, y, r. split; [|split; [|exact V]].
  - intros m d Hm Hd. eapply rle_ok; [|exact E]. apply partial_fractions_mono; [|exact Hd]. unfold PF. apply F_mono; [intros z Hz; exact Hz|apply cle_refl|exact Hm].
  - intros m Hm. destruct (pfrac_total c HX v Hv (m - 12) 6 ts a1 b1 a2 b2 p q ltac:(lia) D1 D2 Det Lp Lq Ip F1 F2) as (x' & y' & r' & E' & A' & V').
    assert (Hk : kle (K (faithful c) 12) (K (faithful c) m)) by (apply K_mono; [apply cle_refl|exact Hm]).
    exact (rle_ok _ _ _ (op_add_mono _ _ Hk _ _) A).
Qed.
(** proportional denominators: the determinant is zero and the transform does not apply *)
Theorem c33_proportional c v ts a1 b1 a2 b2 p q : fpow_exact (fpow c) -> ident v ->
  denominator a1 b1 -> denominator a2 b2 -> (a1 * b2 - a2 * b1 == 0)%Q -> ~ (b1 == 0)%Q -> lowest p -> lowest q -> integral p q ->
  filter recip ts = [EPow (lin v a1 b1) (ERat (-1)); EPow (lin v a2 b2) (ERat (-1))] ->
  filter (fun t => negb (recip t)) ts = factors_of (lin v p q) ->
  forall m d, 12 <= m -> 6 <= d -> partial_fractions (PF c m) d v (EProd ts) = Ok None.
Proof.
  intros HX Hv D1 D2 Det B1 Lp Lq Ip F1 F2 m d Hm Hd. replace m with (12 + (m - 12)) by lia. now apply (pfrac_none c HX v Hv (m - 12) d ts a1 b1 a2 b2 p q).
Qed.
(** the instance (x + 5) / ((x + 1)(2x - 3)), as the operators build it *)
Definition exfrac : res expr :=
  a <- op_add (PF exact_cfg 12) (ESym "x") (ERat 1);; t <- op_mul (PF exact_cfg 12) (ERat 2) (ESym "x");; b <- op_sub (PF exact_cfg 12) t (ERat 3);;
  s <- op_add (PF exact_cfg 12) (ESym "x") (ERat 5);; u <- op_div (PF exact_cfg 12) s a;; op_div (PF exact_cfg 12) u b.
Lemma c33_ex : exists ts, exfrac = Ok (EProd ts) /\ denominator 1 1 /\ denominator 2 (-3) /\ ~ (1 * -3 - 2 * 1 == 0)%Q /\ integral 1 5 /\
  (filter recip ts = [EPow (lin "x" 1 1) (ERat (-1)); EPow (lin "x" 2 (-3)) (ERat (-1))] \/ filter recip ts = [EPow (lin "x" 2 (-3)) (ERat (-1)); EPow (lin "x" 1 1) (ERat (-1))]) /\
  filter (fun t => negb (recip t)) ts = factors_of (lin "x" 1 5) /\
  partial_fractions (PF exact_cfg 12) 6 "x" (EProd ts) =
    Ok (Some (ESum [EProd [ERat (13 # 5); EPow (ESum [EProd [ERat 2; ESym "x"]; ERat (-3)]) (ERat (-1))]; EProd [ERat (-4 # 5); EPow (ESum [ESym "x"; ERat 1]) (ERat (-1))]])).
Proof.
  eexists. split; [vm_compute; reflexivity|].
  split; [unfold denominator; splits; try reflexivity; try (intros E; discriminate E); left; reflexivity|].
  split; [unfold denominator; splits; try reflexivity; try (intros E; discriminate E); left; reflexivity|].
  split; [intros E; discriminate E|]. split; [split; intros E; reflexivity|].
  split; [first [left; vm_compute; reflexivity|right; vm_compute; reflexivity]|]. split; [vm_compute; reflexivity|]. vm_compute. reflexivity.
Qed.
