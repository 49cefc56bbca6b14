(** * PolyTot: to_const_polynomial is total on polynomials in one symbol (for C31, C33, C91). *)
From Coquelicot Require Import Coquelicot.
From Verif Require Import Base Expr Kernel Mono Funcs FMono Sound Frag FragLib CanonR Poly PolyQ Regex NForm NUniq NOps NExp.
From Coq Require Import Lqa Sorting.Permutation.
From Coq Require Lra.
Local Ltac splits := repeat match goal with |- _ /\ _ => split end.
Close Scope R_scope.
Local Open Scope nat_scope.

(** ** Specification: the polynomial with coefficients [l], constant term first *)
Definition rpoly (l : list Q) (x : R) : R := fold_right (fun a r => Q2R a + x * r)%R 0%R l.

Lemma q2r_red q : Q2R (Qred q) = Q2R q.
Proof. apply Qreals.Qeq_eqR, Qred_correct. Qed.
Lemma rpoly_zeros n x : rpoly (repeat 0%Q n) x = 0%R.
Proof. induction n as [|n IH]; cbn [repeat rpoly fold_right]; [reflexivity|]. fold (rpoly (repeat 0%Q n) x). rewrite IH, RMicromega.Q2R_0. Lra.lra. Qed.

(** ** Adding a coefficient *)
Section Add.
Context (fk : fkern).
Fixpoint qadd (l : list Q) (i : nat) (q : Q) : list Q :=
  match l, i with
  | [], O => [q]
  | [], S i' => 0%Q :: qadd [] i' q
  | a :: r, O => Qred (a + q) :: r
  | a :: r, S i' => a :: qadd r i' q
  end.
Lemma add_at_q : forall i l q, add_at fk (map ERat l) i (ERat q) = Ok (map ERat (qadd l i q)).
Proof.
  induction i as [|i IH]; intros [|a l] q; cbn [map add_at qadd]; try reflexivity.
  - change (@nil expr) with (map ERat []). rewrite IH. reflexivity.
  - rewrite IH. reflexivity.
Qed.
Lemma qadd_val : forall i l q x, rpoly (qadd l i q) x = (rpoly l x + Q2R q * x ^ i)%R.
Proof.
  induction i as [|i IH]; intros [|a l] q x; cbn [qadd rpoly fold_right pow]; try fold (rpoly (qadd [] i q) x); try fold (rpoly (qadd l i q) x); try fold (rpoly l x).
  - Lra.lra.
  - rewrite q2r_red, Q2R_plus. Lra.lra.
  - rewrite IH, RMicromega.Q2R_0. cbn [rpoly fold_right]. Lra.lra.
  - rewrite IH. Lra.lra.
Qed.
Lemma qadd_len : forall i l q, List.length (qadd l i q) = Nat.max (List.length l) (S i).
Proof. induction i as [|i IH]; intros [|a l] q; cbn [qadd List.length]; try rewrite IH; cbn [List.length]; lia. Qed.
Lemma qadd_nth : forall i l q j, (nth j (qadd l i q) 0 == nth j l 0 + (if Nat.eqb i j then q else 0))%Q.
Proof.
  induction i as [|i IH]; intros [|a l] q [|j]; cbn [qadd nth Nat.eqb]; try (destruct j; cbn [nth]); rewrite ?Qred_correct, ?IH; cbn [nth]; try ring.
Qed.
Lemma qadd_low : forall i l q, lowest q -> Forall lowest l -> Forall lowest (qadd l i q).
Proof.
  induction i as [|i IH]; intros [|a l] q Hq H; cbn [qadd].
  - auto.
  - inversion H; subst. constructor; auto. apply lowest_red.
  - constructor; [reflexivity|]. apply IH; auto.
  - inversion H; subst. constructor; auto.
Qed.
End Add.

(** ** Terms in one symbol *)
Section Terms.
Context (c : cfg) (v : string).
Notation natom := (natom natq). Notation nterm := (nterm natq c). Notation nform := (nform natq c).
Definition only (e : expr) : Prop := forall s, In s (names e) -> s = v.
Definition deg (l : list expr) : nat := match l with [] => 0 | x :: _ => Z.to_nat (numer (xpo x)) end.

Lemma natom_only x : natom x -> only x -> names x = [v].
Proof. intros [s Hs|s q Hs _ _ _ _] O; cbn [names] in *; now rewrite (O s (or_introl eq_refl)). Qed.
Lemma in_term a l s : In s (flat_map names l) -> In s (names (term (a, l))).
Proof.
  unfold term. intros H. destruct (Qeq_bool a 1); destruct l as [|x [|y l]]; cbn [names flat_map] in *; auto; rewrite ?app_nil_r in *; auto.
Qed.
Lemma term_shape a l : nterm (a, l) -> only (term (a, l)) -> l = [] \/ exists x, l = [x] /\ natom x /\ names x = [v].
Proof.
  intros (_ & _ & (F & N & _)) O. cbn [snd] in *.
  assert (Ol : forall x, In x l -> only x). { intros x Hx s Hs. apply O, in_term, in_flat_map. eauto. }
  destruct l as [|x [|y l]]; [auto|right; exists x; rewrite Forall_forall in F|exfalso].
  - splits; auto; [apply F; now left|apply natom_only; [apply F|apply Ol]; now left].
  - rewrite Forall_forall in F. assert (Ex : names x = [v]) by (apply natom_only; [apply F|apply Ol]; now left).
    assert (Ey : names y = [v]) by (apply natom_only; [apply F|apply Ol]; right; now left).
    cbn [flat_map] in N. rewrite Ex, Ey in N. cbn in N. inversion N as [|? ? B]. apply B. now left.
Qed.
Lemma is_var_v : is_var v (ESym v) = true.
Proof. apply String.eqb_refl. Qed.
Lemma contains_atom x : names x = [v] -> contains v x = true.
Proof. intros E. apply contains_names. rewrite E. now left. Qed.
Lemma natq_numer q : natq q -> ~ (q == 0)%Q -> (1 <=? numer q)%Z = true.
Proof.
  intros N Z. pose proof (natq_0 q N Z) as H. destruct N as [A B]. pose proof (numer_int q A) as E. rewrite E in H. unfold Qle in H. cbn in H. apply Z.leb_le. lia.
Qed.
Lemma to_poly_atom fk ans m x : natom x -> names x = [v] ->
  to_poly fk v (map ERat ans) (ERat m) x = Ok (map ERat (qadd ans (deg [x]) (Qred (1 * m)))).
Proof.
  intros [s Hs|s q Hs Nq Lq Z0 Z1] E; cbn [names] in E; injection E as ->; cbn [deg xpo].
  - cbn [to_poly contains]. rewrite String.eqb_refl. cbn [negb]. unfold add_answer. cbn [op_mul bind]. unfold rat. rewrite add_at_q. reflexivity.
  - cbn [to_poly]. replace (contains v (EPow (ESym v) (ERat q))) with true by (symmetry; now apply contains_atom). cbn [negb].
    rewrite is_var_v, (proj1 Nq), natq_numer by auto. cbn [andb]. unfold add_answer. cbn [op_mul bind]. unfold rat. now rewrite add_at_q.
Qed.
Lemma to_poly_term a l : nterm (a, l) -> only (term (a, l)) ->
  exists q, (q == a)%Q /\ lowest q /\ forall fk ans, to_poly fk v (map ERat ans) (ERat 1) (term (a, l)) = Ok (map ERat (qadd ans (deg l) q)).
Proof.
  intros T O. destruct (term_shape a l T O) as [->|(x & -> & N & E)].
  - exists (Qred (a * 1)). split; [rewrite Qred_correct; ring|]. split; [apply lowest_red|]. intros fk ans. rewrite term_nil. cbn [to_poly contains negb deg]. unfold add_answer. cbn [op_mul bind]. unfold rat. now rewrite add_at_q.
  - unfold term. destruct (Qeq_bool a 1) eqn:Ea.
    + exists (Qred (1 * 1)). split; [apply Qeq_bool_eq in Ea; rewrite Ea; reflexivity|]. split; [apply lowest_red|]. intros fk ans. now apply to_poly_atom.
    + exists (Qred (1 * a)). split; [rewrite Qred_correct; ring|]. split; [apply lowest_red|]. intros fk ans. rewrite <- (to_poly_atom fk) by auto.
      assert (C : contains v (EProd [ERat a; x]) = true). { apply contains_names. cbn [names flat_map]. rewrite E. now left. }
      transitivity (if negb (contains v (EProd [ERat a; x])) then add_answer fk (map ERat ans) (ERat 1) (EProd [ERat a; x]) 0 else
        guard (negb (k_strict fk) || isq (ERat 1) 1) (to_poly fk v (map ERat ans) (ERat a) x)); [reflexivity|].
      rewrite C. cbn [negb]. change (isq (ERat 1) 1) with true. now rewrite orb_true_r.
Qed.
Lemma atom_val rho x : natom x -> names x = [v] -> ev rho x = (rho v ^ deg [x])%R.
Proof.
  intros [s Hs|s q Hs Nq Lq Z0 Z1] E; cbn [names] in E; injection E as ->; cbn [deg xpo ev].
  - change (Z.to_nat (numer 1)) with 1. cbn. Lra.lra.
  - pose proof (natq_numer q Nq Z0) as P. apply Z.leb_le in P. pose proof (numer_int q (proj1 Nq)) as Eq.
    rewrite (Qreals.Qeq_eqR _ _ Eq). unfold Q2R, inject_Z. cbn [Qnum Qden]. rewrite Rinv_1, Rmult_1_r.
    rewrite RealLemmas.rpow_int by (right; lia). rewrite <- (Z2Nat.id (numer q)) at 1 by lia. symmetry. apply pow_powerRZ.
Qed.
Lemma term_rval rho a l : nterm (a, l) -> only (term (a, l)) -> ev rho (term (a, l)) = (Q2R a * rho v ^ deg l)%R.
Proof.
  intros T O. rewrite (term_val natq c rho (a, l) T). cbn [fst snd]. destruct (term_shape a l T O) as [->|(x & -> & N & E)].
  - reflexivity.
  - rewrite mval_cons, (atom_val rho x N E). unfold mval. cbn [map Rprod fold_right]. f_equal. apply Rmult_1_r.
Qed.
Lemma deg_inj a b l m : nterm (a, l) -> only (term (a, l)) -> nterm (b, m) -> only (term (b, m)) -> deg l = deg m -> l = m.
Proof.
  intros T O T' O' D. pose proof (term_shape a l T O) as A. pose proof (term_shape b m T' O') as B.
  assert (G : forall x, natom x -> 1 <= deg [x]).
  { intros x [s Hs|s q Hs Nq Lq Z0 Z1]; cbn [deg xpo]; [apply le_n|]. pose proof (natq_numer q Nq Z0) as P. apply Z.leb_le in P. lia. }
  destruct A as [->|(x & -> & N & E)], B as [->|(y & -> & N' & E')]; auto.
  - pose proof (G y N'). cbn [deg] in *. lia.
  - pose proof (G x N). cbn [deg] in *. lia.
  - f_equal. apply (atom_det natq x y v); auto. cbn [deg] in D.
    assert (I : forall z, natom z -> qisint (xpo z) = true /\ (1 <= numer (xpo z))%Z).
    { intros z [s Hs|s q Hs Nq Lq Z0 Z1]; cbn [xpo]; [split; [reflexivity|apply Z.le_refl]|]. split; [apply Nq|]. apply Z.leb_le, natq_numer; auto. }
    destruct (I x N) as [I1 I2], (I y N') as [J1 J2]. rewrite (numer_int _ I1), (numer_int _ J1). assert (numer (xpo x) = numer (xpo y)) as -> by lia. reflexivity.
Qed.
(** the loop over the terms of a sum *)
Definition go (fk : fkern) : list expr -> list expr -> res (list expr) :=
  fix go ans l := match l with [] => Ok ans | t :: r => a <- to_poly fk v ans (ERat 1) t;; go a r end.
Lemma to_poly_go : forall L ans, Forall nterm L -> Forall (fun t => only (term t)) L -> NoDup (map snd L) ->
  exists l, (forall fk, go fk (map ERat ans) (map term L) = Ok (map ERat l)) /\
    (Forall lowest ans -> Forall lowest l) /\
    (forall rho, rpoly l (rho v) = rpoly ans (rho v) + lc rho L)%R /\
    List.length l = fold_right Nat.max (List.length ans) (map (fun t => S (deg (snd t))) L) /\
    (forall t, In t L -> nth (deg (snd t)) l 0 == nth (deg (snd t)) ans 0 + fst t)%Q /\
    (forall j, (forall t, In t L -> deg (snd t) <> j) -> nth j l 0 == nth j ans 0)%Q.
Proof.
  induction L as [|[a m] L IH]; intros ans F O N.
  - exists ans. cbn [map go lc fold_right]. splits; try reflexivity; [auto|intros rho; unfold lc; cbn; Lra.lra|intros t []].
  - inversion F as [|? ? T F']; subst. inversion O as [|? ? Ot O']; subst. inversion N as [|? ? Nin N']; subst.
    destruct (to_poly_term a m T Ot) as (q & Eq & Lq & E).
    destruct (IH (qadd ans (deg m) q) F' O' N') as (l & El & Lw & V & Ln & C & D). exists l. splits; auto.
    + intros fk. cbn [map go]. rewrite E. cbn [bind]. apply El.
    + intros Ha. apply Lw. now apply qadd_low.
    + intros rho. rewrite V, qadd_val. unfold lc. cbn [fold_right fst snd]. fold (lc rho L).
      pose proof (term_rval rho a m T Ot) as R1. rewrite (term_val natq c rho (a, m) T) in R1. cbn [fst snd] in R1. rewrite R1, (Qreals.Qeq_eqR _ _ Eq). Lra.lra.
    + rewrite Ln, qadd_len. cbn [map fold_right snd]. clear. induction L as [|t L IH]; cbn [map fold_right]; lia.
    + assert (Dm : forall t, In t L -> deg (snd t) <> deg m).
      { intros [b m'] Ht Ed. apply Nin. cbn [snd] in *. rewrite Forall_forall in F', O'. rewrite <- (deg_inj b a m' m (F' _ Ht) (O' _ Ht) T Ot Ed). now apply (in_map snd) in Ht. }
      intros t [<-|Ht]; cbn [fst snd].
      * rewrite (D (deg m) Dm), qadd_nth, Nat.eqb_refl, Eq. reflexivity.
      * rewrite (C t Ht), qadd_nth. destruct (Nat.eqb_spec (deg m) (deg (snd t))) as [e|_]; [exfalso; apply (Dm t Ht); auto|]. ring.
    + intros j Hj. rewrite D by (intros t Ht; apply Hj; now right). rewrite qadd_nth. destruct (Nat.eqb_spec (deg m) j) as [e|_]; [exfalso; apply (Hj (a, m)); auto; now left|]. ring.
Qed.
Lemma max_attained : forall L : list (Q * list expr), L <> [] -> exists t, In t L /\ fold_right Nat.max 0 (map (fun t => S (deg (snd t))) L) = S (deg (snd t)).
Proof.
  induction L as [|t L IH]; intros H; [congruence|]. cbn [map fold_right]. destruct L as [|u L].
  - exists t. split; [now left|]. cbn. lia.
  - destruct IH as (w & Hw & E); [discriminate|]. rewrite E. destruct (Nat.max_spec (S (deg (snd t))) (S (deg (snd w)))) as [[_ ->]|[_ ->]]; [exists w|exists t]; split; auto; [now right|now left].
Qed.
Lemma last_nth (l : list Q) n : List.length l = S n -> last l 0%Q = nth n l 0%Q.
Proof. revert n. induction l as [|a [|b l] IH]; intros n H; cbn [List.length] in H; [lia|replace n with 0 by lia; reflexivity|]. destruct n as [|n]; [lia|]. change (last (b :: l) 0%Q = nth n (b :: l) 0%Q). apply IH. cbn [List.length]. lia. Qed.

Theorem to_poly_nform e : nform e -> only e ->
  exists l, (forall fk, to_poly fk v [] (ERat 1) e = Ok (map ERat l)) /\ Forall lowest l /\ (forall rho, ev rho e = rpoly l (rho v)) /\
    ((e = ERat 0 /\ l = [0%Q]) \/ (l <> [] /\ ~ (last l 0 == 0)%Q)) /\ (is_sum e = true -> 2 <= List.length l).
Proof.
  intros (L & F & N & _ & ->) O.
  assert (Ot : Forall (fun t => only (term t)) L).
  { rewrite Forall_forall. intros t Ht s Hs. apply O. destruct L as [|t1 [|t2 L]]; [destruct Ht|destruct Ht as [<-|[]]; exact Hs|].
    unfold sum_of. change (names (ESum (map term (t1 :: t2 :: L)))) with (flat_map names (map term (t1 :: t2 :: L))). apply in_flat_map. exists (term t). split; auto. now apply in_map. }
  assert (G : L <> [] -> exists l, (forall fk, go fk [] (map term L) = Ok (map ERat l)) /\ Forall lowest l /\ (forall rho, ev rho (sum_of (map term L)) = rpoly l (rho v)) /\ (l <> [] /\ ~ (last l 0 == 0)%Q) /\ (2 <= List.length L -> 2 <= List.length l)).
  { intros Ne. destruct (to_poly_go L [] F Ot N) as (l & E & Lw & V & Ln & C & D). exists l. splits; auto.
    - intros rho. rewrite (lc_val natq c rho L F), V. cbn [rpoly fold_right]. Lra.lra.
    - destruct (max_attained L Ne) as (t & Ht & M). cbn [List.length] in Ln. rewrite M in Ln. intros ->. discriminate.
    - destruct (max_attained L Ne) as (t & Ht & M). cbn [List.length] in Ln. rewrite M in Ln. rewrite (last_nth l _ Ln), (C t Ht).
      rewrite Forall_forall in F. destruct (F t Ht) as (_ & Z & _). destruct (deg (snd t)); cbn [nth]; intros Q; apply Z; rewrite <- Q; ring.
    - intros L2. destruct L as [|[a m] [|[b m'] L]]; cbn [List.length] in L2; try lia. cbn [map fold_right snd List.length] in Ln.
      assert (Dm : deg m <> deg m').
      { intros Ed. inversion N as [|? ? Nin _]; subst. apply Nin. inversion F as [|? ? T F']; subst. inversion F' as [|? ? T' _]; subst. inversion Ot as [|? ? P Q]; subst. inversion Q as [|? ? P' _]; subst.
        cbn [map snd]. left. symmetry. exact (deg_inj a b m m' T P T' P' Ed). }
      lia. }
  destruct L as [|t1 [|t2 L]].
  - exists [0%Q]. splits; auto; [constructor; [reflexivity|auto]| |discriminate]. intros rho. unfold sum_of. cbn [map ev rpoly fold_right]. Lra.lra.
  - destruct G as (l & E & Lw & V & Z & _); [discriminate|]. exists l. splits; auto.
    + intros fk. unfold sum_of. cbn [map] in *. specialize (E fk). cbn [go] in E. apply bind_ok in E as (x & Hx & E). congruence.
    + cbn [map]. unfold sum_of. intros S. exfalso. inversion F as [|? ? T _]; subst. destruct t1 as [a m]. inversion Ot as [|? ? P _]; subst.
      destruct (term_shape a m T P) as [->|(x & -> & Nx & _)]; [rewrite term_nil in S; discriminate|]. unfold term in S. destruct (Qeq_bool a 1); [destruct Nx; discriminate|discriminate].
  - destruct G as (l & E & Lw & V & Z & L2); [discriminate|]. exists l. splits; auto; [|intros _; apply L2; cbn [List.length]; lia].
    intros fk. specialize (E fk). set (ts := map term (t1 :: t2 :: L)) in *. change (sum_of ts) with (ESum ts) in *.
    transitivity (if negb (contains v (ESum ts)) then add_answer fk [] (ERat 1) (ESum ts) 0 else guard (negb (k_strict fk) || isq (ERat 1) 1) (go fk [] ts)).
    { cbn [to_poly]. destruct (negb (contains v (ESum ts))); reflexivity. }
    assert (C : contains v (ESum ts) = true).
    { apply contains_names. change (names (ESum ts)) with (flat_map names ts). unfold ts. cbn [map flat_map]. 
      destruct t1 as [a m], t2 as [b m']. inversion F as [|? ? T F']; subst. inversion F' as [|? ? T' _]; subst. inversion Ot as [|? ? P Q]; subst. inversion Q as [|? ? P' _]; subst.
      inversion N as [|? ? Nin _]; subst. cbn [map snd] in Nin.
      destruct (term_shape a m T P) as [->|(x & -> & Nx & Ex)].
      - destruct (term_shape b m' T' P') as [->|(x & -> & Nx & Ex)]; [exfalso; apply Nin; now left|]. apply in_or_app. right. apply in_or_app. left. apply in_term. cbn [flat_map]. rewrite Ex. now left.
      - apply in_or_app. left. apply in_term. cbn [flat_map]. rewrite Ex. now left. }
    rewrite C. cbn [negb]. change (isq (ERat 1) 1) with true. rewrite orb_true_r. exact E.
Qed.
End Terms.
