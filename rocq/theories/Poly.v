(** * Poly: src/simpy/polynomial.py, src/simpy/linalg.py and the forward step of
    PolynomialDivision (src/simpy/transforms.py), with monotonicity and soundness. *)
From Coquelicot Require Import Coquelicot.
From Verif Require Export TrigSimp.
Open Scope R_scope.

(** [try: r except AssertionError]: None when an AssertionError was raised.  [SelfInit] is an
    AssertionError that has destroyed its operand (Base.v); Python would go on with a cyclic object. *)
Definition catchA {A} (r : res A) : res (option A) :=
  match r with
  | Ok a => Ok (Some a)
  | Raise AssertionError => Ok None
  | Raise SelfInit => Stop Cycle
  | Raise e => Raise e
  | Stop s => Stop s
  end.

Section Poly.
Context (fk : fkern).
Let strictg {A} (b : bool) (r : res A) : res A := guard (negb (k_strict fk) || b) r.

(** [answer[idx] += x] *)
Fixpoint add_at (l : list expr) (i : nat) (x : expr) : res (list expr) :=
  match l, i with
  | [], O => Ok [x]
  | [], S i' => r <- add_at [] i' x;; Ok (ERat 0 :: r)
  | a :: r, O => s <- op_add fk a x;; Ok (s :: r)
  | a :: r, S i' => r' <- add_at r i' x;; Ok (a :: r')
  end.

(** _add_answer, polynomial.py:20-29: adds const * multiplier at position idx, padding with zeros. *)
Definition add_answer (ans : list expr) (mult const : expr) (idx : nat) : res (list expr) :=
  c <- op_mul fk const mult;; add_at ans idx c.

Definition is_var (v : string) (e : expr) : bool :=
  match e with ESym s => String.eqb s v | _ => false end.

(** _to_const_polynomial, polynomial.py:16-57.  The recursive calls on the terms of a sum use the
    default multiplier 1 (line 37), so the multiplier of an enclosing product is lost when the other
    factor is a sum, and a nested product would replace it (line 45): strict mode stops there (C31). *)
Fixpoint to_poly (v : string) (ans : list expr) (mult : expr) (e : expr) : res (list expr) :=
  let fix go (ans : list expr) (l : list expr) : res (list expr) :=
    match l with
    | [] => Ok ans
    | t :: r => a <- to_poly v ans (ERat 1) t;; go a r
    end in
  if negb (contains v e) then add_answer ans mult e 0
  else
    match e with
    | ESum ts => strictg (isq mult 1) (go ans ts)
    | EProd [ERat q; o] => strictg (isq mult 1) (to_poly v ans (ERat q) o)
    | EProd _ => Raise AssertionError
    | EPow b (ERat q) =>
        if is_var v b && qisint q && (1 <=? numer q)%Z
        then add_answer ans mult (ERat 1) (Z.to_nat (numer q))
        else Raise AssertionError
    | ESym _ => add_answer ans mult (ERat 1) 1
    | _ => Raise AssertionError
    end.

(** to_const_polynomial, polynomial.py:60-62; [n] bounds the recursion of expand *)
Definition to_const_polynomial (n : nat) (v : string) (e : expr) : res (list expr) :=
  e' <- expand_if fk n e;; to_poly v [] (ERat 1) e'.

(** is_polynomial, polynomial.py:8-13 *)
Definition is_polynomial (n : nat) (v : string) (e : expr) : res bool :=
  o <- catchA (to_const_polynomial n v e);; Ok (match o with Some _ => true | None => false end).

(** polynomial_to_expr, polynomial.py:65-69 *)
Fixpoint poly_expr_go (v : string) (i : Z) (acc : expr) (l : list expr) : res expr :=
  match l with
  | [] => Ok acc
  | a :: r =>
      p <- op_pow fk (ESym v) (ratz i);; m <- op_mul fk a p;; s <- op_add fk acc m;;
      poly_expr_go v (i + 1) s r
  end.
Definition polynomial_to_expr (v : string) (l : list expr) : res expr := poly_expr_go v 0 (ERat 0) l.

(** rid_ending_zeros, polynomial.py:72-80 *)
Fixpoint rid_zeros (l : list expr) : list expr :=
  match l with
  | [] => []
  | a :: r => match rid_zeros r with [] => if isq a 0 then [] else [a] | r' => a :: r' end
  end.

(** [l[-1]] *)
Fixpoint lastM (l : list expr) : res expr :=
  match l with [] => Raise IndexError | [a] => Ok a | _ :: r => lastM r end.

(** [a - b] elementwise, arrays of equal length *)
Fixpoint sub_arr (l m : list expr) : res (list expr) :=
  match l, m with
  | [], [] => Ok []
  | a :: l', b :: m' => s <- op_sub fk a b;; r <- sub_arr l' m';; Ok (s :: r)
  | _, _ => Raise ValueError
  end.

Fixpoint set_nth (i : nat) (x : expr) (l : list expr) : list expr :=
  match l, i with
  | [], _ => []
  | _ :: r, O => x :: r
  | a :: r, S i' => a :: set_nth i' x r
  end.

(** The loop of PolynomialDivision.forward, transforms.py:297-302: (remainder, quotient).  Strict mode
    stops when a quotient entry would be overwritten, i.e. when the leading coefficient did not cancel
    syntactically. *)
Fixpoint pd_loop (n : nat) (num den quot : list expr) : res (list expr * list expr) :=
  match n with
  | O => Stop OutOfFuel
  | S n' =>
      if Nat.ltb (List.length num) (List.length den) then Ok (num, quot)
      else
        let d := (List.length num - List.length den)%nat in
        ln <- lastM num;; ld <- lastM den;; q <- op_div fk ln ld;;
        strictg (match nth_error quot d with Some x => isq x 0 | None => false end)
        (m <- mapM (fun t => op_mul fk t q) den;;
         num' <- sub_arr num (repeat (ERat 0) d ++ m);;
         pd_loop n' (rid_zeros num') den (set_nth d q quot))
  end.

(** PolynomialDivision.forward, transforms.py:292-307: quotient + remainder / denominator *)
Definition poly_div (n : nat) (v : string) (num den : list expr) : res expr :=
  '(rem, quot) <- pd_loop n num den (repeat (ERat 0) (List.length num - List.length den + 1));;
  re <- polynomial_to_expr v rem;; de <- polynomial_to_expr v den;;
  r <- op_div fk re de;;
  qe <- polynomial_to_expr v quot;; op_add fk qe r.

(** linalg.invert, linalg.py:4-21, on a matrix given by its rows.  A ragged matrix cannot be built
    (np.array raises ValueError since NumPy 1.24). *)
Definition invert (m : list (list expr)) : res (option (list (list expr))) :=
  match m with
  | [[a; b]; [c; d]] =>
      p <- op_mul fk a d;; q <- op_mul fk b c;; det <- op_sub fk p q;;
      if isq det 0 then Ok None
      else
        e11 <- op_div fk d det;; nb <- op_neg fk b;; e12 <- op_div fk nb det;;
        nc <- op_neg fk c;; e21 <- op_div fk nc det;; e22 <- op_div fk a det;;
        Ok (Some [[e11; e12]; [e21; e22]])
  | [] => Raise AssertionError
  | r :: _ =>
      if negb (forallb (fun x => Nat.eqb (List.length x) (List.length r)) m) then Raise ValueError
      else if Nat.eqb (List.length r) (List.length m) then Raise NotImplementedError
      else Raise AssertionError
  end.
End Poly.

(** ** Monotonicity *)
Lemma catchA_mono {A} (r1 r2 : res A) : rle r1 r2 -> rle (catchA r1) (catchA r2).
Proof. unfold rle. destruct r1 as [a|x|t]; simpl; auto; intros <-; auto. destruct x; simpl; auto. Qed.
#[export] Hint Resolve catchA_mono : mono.

Section PolyMono.
Context (f1 f2 : fkern) (HF : fle f1 f2).

Lemma sg_mono {A} b (r1 r2 : res A) : rle r1 r2 ->
  rle (guard (negb (k_strict f1) || b) r1) (guard (negb (k_strict f2) || b) r2).
Proof. apply (strictg_mono f1 f2 HF). Qed.
#[local] Hint Resolve sg_mono expand_if_mono : mono.

Lemma add_at_mono x l : forall i, rle (add_at f1 l i x) (add_at f2 l i x).
Proof.
  induction l as [|a l IH]; intros i.
  - induction i as [|i IHi]; cbn [add_at]; mono.
  - destruct i; cbn [add_at]; mono.
Qed.
#[local] Hint Resolve add_at_mono : mono.
Lemma add_answer_mono a m c i : rle (add_answer f1 a m c i) (add_answer f2 a m c i).
Proof. unfold add_answer. mono. Qed.
#[local] Hint Resolve add_answer_mono : mono.
Lemma to_poly_mono v e : forall a m, rle (to_poly f1 v a m e) (to_poly f2 v a m e).
Proof.
  induction e as [q| | | | |s| |ts IH|ts IH|b x IHb IHx|i b IHi IHb|f i IHi|i IHi] using expr_ind';
    intros a m; cbn [to_poly]; try (mono; fail).
  - destruct (negb _); [mono|]. apply sg_mono. revert a.
    induction IH as [|t l Ht Hl IHl]; intros a; mono.
  - destruct (negb _); [mono|]. destruct ts as [|t [|o [|? ?]]]; try (destruct t; apply rle_refl); try apply rle_refl.
    destruct t; try apply rle_refl. inversion IH as [|? ? _ IH']; subst. inversion IH' as [|? ? Ho _]; subst. apply sg_mono. apply Ho.
Qed.
#[local] Hint Resolve to_poly_mono : mono.
Lemma to_const_polynomial_mono n m v e : (n <= m)%nat ->
  rle (to_const_polynomial f1 n v e) (to_const_polynomial f2 m v e).
Proof. intros. unfold to_const_polynomial. mono. Qed.
#[local] Hint Resolve to_const_polynomial_mono : mono.
Lemma is_polynomial_mono n m v e : (n <= m)%nat -> rle (is_polynomial f1 n v e) (is_polynomial f2 m v e).
Proof. intros. unfold is_polynomial. mono. Qed.
Lemma poly_expr_go_mono v l : forall i a, rle (poly_expr_go f1 v i a l) (poly_expr_go f2 v i a l).
Proof. induction l as [|x l IH]; intros i a; cbn [poly_expr_go]; mono. Qed.
Lemma polynomial_to_expr_mono v l : rle (polynomial_to_expr f1 v l) (polynomial_to_expr f2 v l).
Proof. apply poly_expr_go_mono. Qed.
Lemma sub_arr_mono l : forall m, rle (sub_arr f1 l m) (sub_arr f2 l m).
Proof. induction l as [|x l IH]; intros [|y m]; cbn [sub_arr]; mono. Qed.
#[local] Hint Resolve polynomial_to_expr_mono sub_arr_mono : mono.
Lemma pd_loop_mono n : forall m num den q, (n <= m)%nat -> rle (pd_loop f1 n num den q) (pd_loop f2 m num den q).
Proof.
  induction n as [|n IH]; intros m num den q H; [apply rle_stop|]. destruct m as [|m]; [lia|].
  assert (H' : (n <= m)%nat) by lia. cbn [pd_loop]. destruct (Nat.ltb _ _); [mono|].
  apply rle_bind; [mono|intros ln]. apply rle_bind; [mono|intros ld]. apply rle_bind; [mono|intros x].
  apply sg_mono. mono.
Qed.
#[local] Hint Resolve pd_loop_mono : mono.
Lemma poly_div_mono n m v a b : (n <= m)%nat -> rle (poly_div f1 n v a b) (poly_div f2 m v a b).
Proof. intros. unfold poly_div. mono. Qed.
Lemma invert_mono m : rle (invert f1 m) (invert f2 m).
Proof.
  unfold invert. destruct m as [|r1 m]; [mono|].
  destruct r1 as [|a [|b [|]]]; try apply rle_refl. destruct m as [|[|c [|d [|]]] [|]]; try apply rle_refl. mono.
Qed.
End PolyMono.

(** ** Soundness *)
(** Value at [x] of the polynomial with coefficients [l], constant term first. *)
Definition pval (rho : env) (x : R) (l : list expr) : R := fold_right (fun a r => ev rho a + x * r) 0 l.

Lemma pval_cons rho x a l : pval rho x (a :: l) = ev rho a + x * pval rho x l.
Proof. reflexivity. Qed.
Lemma pval_app rho x l m : pval rho x (l ++ m) = pval rho x l + x ^ List.length l * pval rho x m.
Proof. induction l as [|a l IH]; simpl; [ring|]. rewrite IH. ring. Qed.
Lemma pval_zeros rho x d : pval rho x (repeat (ERat 0) d) = 0.
Proof. induction d as [|d IH]; simpl; auto. rewrite IH, Q2R_0. ring. Qed.

Section PolySound.
Context (rho : env) (fk : fkern) (HF : FSound rho fk) (v : string).
Let HG : GSound rho fk := f_k _ _ HF.
Notation W := (wd rho).
Notation V := (ev rho).
Let X := rho v.
Notation P := (pval rho (rho v)).

Lemma sg_ok {A} b (r : res A) a : guard (negb (k_strict fk) || b) r = Ok a -> b = true /\ r = Ok a.
Proof. intros H. apply guard_ok in H as [H H']. rewrite (f_strict _ _ HF) in H. auto. Qed.

Lemma add_at_sound x l : forall i l', add_at fk l i x = Ok l' -> Forall W l -> W x ->
  Forall W l' /\ P l' = P l + V x * X ^ i.
Proof.
  induction l as [|a l IH]; intros i l' H Wl Wx.
  - revert l' H. induction i as [|i IHi]; cbn [add_at]; intros l' H.
    + injection H as <-. split; [constructor; auto|]. simpl. ring.
    + apply bind_ok in H as (r & Hr & H). injection H as <-. destruct (IHi _ Hr) as [A B].
      split; [constructor; [exact I|auto]|]. rewrite pval_cons, B. simpl. rewrite Q2R_0. unfold X. ring.
  - inversion Wl as [|? ? Wa Wl']; subst. destruct i; cbn [add_at] in H.
    + apply bind_ok in H as (s & Hs & H). injection H as <-.
      destruct (g_add rho fk HG _ _ _ Hs) as [A B]; auto. split; [constructor; auto|].
      rewrite !pval_cons, B. simpl. ring.
    + apply bind_ok in H as (r & Hr & H). injection H as <-. destruct (IH _ _ Hr) as [A B]; auto.
      split; [constructor; auto|]. rewrite !pval_cons, B. simpl. unfold X. ring.
Qed.

Lemma add_answer_sound ans mult c i l' : add_answer fk ans mult c i = Ok l' -> Forall W ans -> W mult -> W c ->
  Forall W l' /\ P l' = P ans + V mult * V c * X ^ i.
Proof.
  intros H Wa Wm Wc. unfold add_answer in H. apply bind_ok in H as (x & Hx & H).
  destruct (g_mul rho fk HG _ _ _ Hx) as [A B]; auto.
  destruct (add_at_sound _ _ _ _ H Wa A) as [C D]. split; auto. rewrite D, B. ring.
Qed.

Lemma to_poly_sound e : forall ans mult l', to_poly fk v ans mult e = Ok l' -> Forall W ans -> W mult -> W e ->
  Forall W l' /\ P l' = P ans + V mult * V e.
Proof.
  induction e as [q| | | | |s| |ts IH|ts IH|b x IHb IHx|i b IHi IHb|f i IHi|i IHi] using expr_ind';
    intros ans mult l' H Wa Wm We; cbn [to_poly] in H;
    (destruct (negb _) eqn:Ec; [destruct (add_answer_sound _ _ _ _ _ H Wa Wm We) as [A B]; split; auto; rewrite B; simpl; ring|]);
    try discriminate.
  - (* symbol *) cbn [contains] in Ec. apply negb_false_iff, String.eqb_eq in Ec. subst s.
    destruct (add_answer_sound _ _ _ _ _ H Wa Wm I) as [A B]. split; auto. rewrite B. simpl. rewrite Q2R_1. unfold X. ring.
  - (* sum *) apply sg_ok in H as [Hm H]. rewrite (isq_ev _ _ _ Hm).
    clear Ec Hm Wm mult. apply wd_sum in We. rewrite Q2R_1. revert ans l' H Wa.
    induction IH as [|t l Ht Hl IHl]; intros ans l' H Wa.
    + injection H as <-. split; auto. simpl. ring.
    + apply bind_ok in H as (a & Ha & H). inversion We as [|? ? Wt Wl]; subst.
      destruct (Ht _ _ _ Ha Wa I Wt) as [A B]. destruct (IHl Wl _ _ H A) as [C D]. split; auto.
      rewrite D, B. simpl. rewrite Q2R_1. change (Rsum (map V l)) with (V (ESum l)). simpl. ring.
  - (* prod *) destruct ts as [|t [|o [|? ?]]]; try discriminate; try (destruct t; discriminate).
    destruct t; try discriminate. inversion IH as [|? ? _ IH']; subst. inversion IH' as [|? ? Ho _]; subst.
    apply wd_prod in We as [We _]. inversion We as [|? ? _ We']; subst. inversion We' as [|? ? Wo _]; subst.
    apply sg_ok in H as [Hm H]. rewrite (isq_ev _ _ _ Hm), Q2R_1.
    destruct (Ho _ _ _ H Wa I Wo) as [A B]. split; auto. rewrite B. simpl. ring.
  - (* power *) destruct x; try discriminate.
    destruct (is_var v b && qisint q && (1 <=? numer q)%Z) eqn:E; [|discriminate].
    apply andb_prop in E as [E E3]. apply andb_prop in E as [E1 E2].
    destruct b; try discriminate. cbn [is_var] in E1. apply String.eqb_eq in E1. subst s.
    apply Z.leb_le in E3.
    destruct (add_answer_sound _ _ _ _ _ H Wa Wm I) as [A B]. split; auto. rewrite B. cbn [ev].
    rewrite (qisint_Q2R _ E2), rpow_int by (right; lia). rewrite powerRZ_nonneg_pow by lia.
    rewrite Q2R_1. unfold X. ring.
Qed.

Theorem to_const_polynomial_sound n e l : to_const_polynomial fk n v e = Ok l -> W e ->
  Forall W l /\ P l = V e.
Proof.
  intros H We. unfold to_const_polynomial in H. apply bind_ok in H as (e1 & H1 & H).
  destruct (expand_if_sound rho fk HF n _ _ H1 We) as [A B].
  destruct (to_poly_sound _ _ _ _ H (Forall_nil _) I A) as [C D]. split; auto.
  rewrite D, B. simpl. rewrite Q2R_1. ring.
Qed.

Lemma poly_expr_go_sound l : forall i acc e, (0 <= i)%Z -> poly_expr_go fk v i acc l = Ok e -> Forall W l -> W acc ->
  W e /\ V e = V acc + X ^ Z.to_nat i * P l.
Proof.
  induction l as [|a l IH]; intros i acc e Hi H Wl Wa; cbn [poly_expr_go] in H.
  - injection H as <-. split; auto. simpl. ring.
  - apply bind_ok in H as (p & Hp & H). apply bind_ok in H as (m & Hm & H). apply bind_ok in H as (s & Hs & H).
    inversion Wl as [|? ? Wx Wl']; subst.
    destruct (g_opow rho fk HG _ _ _ Hp) as (_ & A & B); try exact I.
    destruct (g_mul rho fk HG _ _ _ Hm) as [C D]; auto. destruct (g_add rho fk HG _ _ _ Hs) as [E F']; auto.
    destruct (IH (i + 1)%Z _ _ ltac:(lia) H Wl' E) as [G J]. split; auto.
    rewrite J, F', D, B, pval_cons. cbn [ev]. unfold ratz. cbn [ev]. rewrite Q2R_inject, rpow_int by (right; lia).
    rewrite powerRZ_nonneg_pow by lia. replace (Z.to_nat (i + 1)) with (S (Z.to_nat i)) by lia.
    simpl. unfold X. ring.
Qed.
Theorem polynomial_to_expr_sound l e : polynomial_to_expr fk v l = Ok e -> Forall W l -> W e /\ V e = P l.
Proof.
  intros H Wl. destruct (poly_expr_go_sound l 0 (ERat 0) e ltac:(lia) H Wl I) as [A B]. split; auto.
  rewrite B. simpl. rewrite Q2R_0. ring.
Qed.

Lemma rid_zeros_sound l : Forall W l -> Forall W (rid_zeros l) /\ P (rid_zeros l) = P l.
Proof.
  induction l as [|a l IH]; intros Wl; [split; auto|]. inversion Wl as [|? ? Ha Hl]; subst.
  destruct (IH Hl) as [A B]. cbn [rid_zeros].
  destruct (rid_zeros l) as [|b r] eqn:E.
  - destruct (isq a 0) eqn:Ea.
    + split; auto. rewrite pval_cons, <- B, (isq_ev _ _ _ Ea), Q2R_0. simpl. ring.
    + split; [constructor; auto|]. rewrite !pval_cons, <- B. simpl. ring.
  - split; [constructor; auto|]. rewrite pval_cons, B. reflexivity.
Qed.

Lemma sub_arr_sound l : forall m r, sub_arr fk l m = Ok r -> Forall W l -> Forall W m ->
  Forall W r /\ P r = P l - P m /\ List.length l = List.length m.
Proof.
  induction l as [|a l IH]; intros [|b m] r H Wl Wm; cbn [sub_arr] in H; try discriminate.
  - injection H as <-. repeat split; auto. simpl. ring.
  - apply bind_ok in H as (s & Hs & H). apply bind_ok in H as (r' & Hr & H). injection H as <-.
    inversion Wl; subst. inversion Wm; subst. destruct (g_sub rho fk HG _ _ _ Hs) as [A B]; auto.
    destruct (IH _ _ Hr) as (C & D & E); auto. split; [constructor; auto|]. split; [|simpl; auto].
    rewrite !pval_cons, B, D. ring.
Qed.

Lemma scale_sound q l : forall m, mapM (fun t => op_mul fk t q) l = Ok m -> Forall W l -> W q ->
  Forall W m /\ P m = V q * P l.
Proof.
  induction l as [|a l IH]; intros m H Wl Wq; cbn [mapM] in H.
  - injection H as <-. split; auto. simpl. ring.
  - apply bind_ok in H as (s & Hs & H). apply bind_ok in H as (r' & Hr & H). injection H as <-.
    inversion Wl; subst. destruct (g_mul rho fk HG _ _ _ Hs) as [A B]; auto.
    destruct (IH _ Hr) as (C & D); auto. split; [constructor; auto|]. rewrite !pval_cons, B, D. ring.
Qed.

Lemma set_nth_sound q l : forall d x, nth_error l d = Some x -> Forall W l -> W q ->
  Forall W (set_nth d q l) /\ P (set_nth d q l) = P l + (V q - V x) * X ^ d.
Proof.
  induction l as [|a l IH]; intros [|d] x H Wl Wq; cbn [nth_error set_nth] in *; try discriminate.
  - injection H as <-. inversion Wl; subst. split; [constructor; auto|]. rewrite !pval_cons. simpl. ring.
  - inversion Wl; subst. destruct (IH _ _ H) as [A B]; auto. split; [constructor; auto|].
    rewrite !pval_cons, B. simpl. unfold X. ring.
Qed.

Lemma lastM_W l a : lastM l = Ok a -> Forall W l -> W a.
Proof.
  induction l as [|b l IH]; [discriminate|]. intros H Wl. inversion Wl; subst. cbn [lastM] in H.
  destruct l; [injection H as <-; auto|auto].
Qed.

Lemma repeat_W d : Forall W (repeat (ERat 0) d).
Proof. induction d; simpl; constructor; auto. exact I. Qed.

(** Loop invariant: numerator + quotient * denominator is constant. *)
Lemma pd_loop_sound n : forall num den quot rem q, pd_loop fk n num den quot = Ok (rem, q) ->
  Forall W num -> Forall W den -> Forall W quot ->
  Forall W rem /\ Forall W q /\ P rem + P q * P den = P num + P quot * P den /\ (List.length rem < List.length den)%nat.
Proof.
  induction n as [|n IH]; intros num den quot rem q H Wn Wd Wq; cbn [pd_loop] in H; [discriminate|].
  destruct (Nat.ltb _ _) eqn:El.
  - injection H as <- <-. apply Nat.ltb_lt in El. auto.
  - apply Nat.ltb_ge in El. apply bind_ok in H as (ln & Hln & H). apply bind_ok in H as (ld & Hld & H).
    apply bind_ok in H as (c & Hc & H). apply sg_ok in H as [Hz H].
    apply bind_ok in H as (m & Hm & H). apply bind_ok in H as (num' & Hn' & H).
    apply lastM_W in Hln; auto. apply lastM_W in Hld; auto.
    destruct (g_div rho fk HG _ _ _ Hc) as (_ & Wc & _); auto.
    destruct (scale_sound _ _ _ Hm Wd Wc) as [Wm Em].
    destruct (nth_error quot _) as [x|] eqn:Ex; [|discriminate].
    destruct (set_nth_sound c _ _ _ Ex Wq Wc) as [Ws Es].
    destruct (sub_arr_sound _ _ _ Hn' Wn) as (Wn' & En' & _); [apply Forall_app; auto using repeat_W|].
    destruct (rid_zeros_sound _ Wn') as [Wr Er].
    destruct (IH _ _ _ _ _ H Wr Wd Ws) as (A & B & C & D). repeat split; auto.
    rewrite C, Er, En', Es, pval_app, pval_zeros, repeat_length, Em, (isq_ev _ _ _ Hz), Q2R_0. unfold X. ring.
Qed.

(** The new integrand has the value of numerator / denominator. *)
Theorem poly_div_sound n num den e : poly_div fk n v num den = Ok e -> Forall W num -> Forall W den ->
  W e /\ P den <> 0 /\ V e = P num / P den.
Proof.
  intros H Wn Wd. unfold poly_div in H. apply bind_ok in H as ([rem q] & Hl & H).
  apply bind_ok in H as (re & Hre & H). apply bind_ok in H as (de & Hde & H).
  apply bind_ok in H as (r & Hr & H). apply bind_ok in H as (qe & Hq & H).
  destruct (pd_loop_sound _ _ _ _ _ _ Hl Wn Wd (repeat_W _)) as (A & B & C & _).
  rewrite pval_zeros in C.
  destruct (polynomial_to_expr_sound _ _ Hre A) as [W1 E1]. destruct (polynomial_to_expr_sound _ _ Hde Wd) as [W2 E2].
  destruct (polynomial_to_expr_sound _ _ Hq B) as [W3 E3].
  destruct (g_div rho fk HG _ _ _ Hr) as (N & W4 & E4); auto. destruct (g_add rho fk HG _ _ _ H) as [W5 E5]; auto.
  rewrite E2 in N. repeat split; auto. rewrite E5, E3, E4, E1, E2.
  apply Rmult_eq_reg_r with (P den); auto. unfold Rdiv. rewrite Rmult_plus_distr_r, !Rmult_assoc, Rinv_l by auto. lra.
Qed.

(** The inverse of [[a b][c d]] is a two-sided inverse. *)
Theorem invert_sound a b c d m : invert fk [[a; b]; [c; d]] = Ok (Some m) -> W a -> W b -> W c -> W d ->
  exists e f g h, m = [[e; f]; [g; h]] /\ W e /\ W f /\ W g /\ W h /\
    V a * V d - V b * V c <> 0 /\
    V e = V d / (V a * V d - V b * V c) /\ V f = - V b / (V a * V d - V b * V c) /\
    V g = - V c / (V a * V d - V b * V c) /\ V h = V a / (V a * V d - V b * V c).
Proof.
  intros H Wa Wb Wc Wd. cbn [invert] in H.
  apply bind_ok in H as (p & Hp & H). apply bind_ok in H as (q & Hq & H). apply bind_ok in H as (det & Hdet & H).
  destruct (isq det 0); [discriminate|].
  apply bind_ok in H as (e & He & H). apply bind_ok in H as (nb & Hnb & H). apply bind_ok in H as (f & Hf & H).
  apply bind_ok in H as (nc & Hnc & H). apply bind_ok in H as (g & Hg & H). apply bind_ok in H as (h & Hh & H).
  injection H as <-. exists e, f, g, h. split; [reflexivity|].
  destruct (g_mul rho fk HG _ _ _ Hp) as [W1 E1]; auto. destruct (g_mul rho fk HG _ _ _ Hq) as [W2 E2]; auto.
  destruct (g_sub rho fk HG _ _ _ Hdet) as [W3 E3]; auto. rewrite E1, E2 in E3.
  destruct (g_neg rho fk HG _ _ Hnb) as [W4 E4]; auto. destruct (g_neg rho fk HG _ _ Hnc) as [W5 E5]; auto.
  destruct (g_div rho fk HG _ _ _ He) as (N & W6 & E6); auto. destruct (g_div rho fk HG _ _ _ Hf) as (_ & W7 & E7); auto.
  destruct (g_div rho fk HG _ _ _ Hg) as (_ & W8 & E8); auto. destruct (g_div rho fk HG _ _ _ Hh) as (_ & W9 & E9); auto.
  rewrite E3 in *. rewrite E4 in E7. rewrite E5 in E8. repeat split; auto.
Qed.
End PolySound.
