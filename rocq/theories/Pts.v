(** * Pts: src/simpy/simplify/product_to_sum.py, with monotonicity and soundness. *)
From Coquelicot Require Import Coquelicot.
From Verif Require Export Simp.

(** isinstance(t, (sin, cos)) *)
Definition is_sc (e : expr) : bool := match e with ETrig Sin _ | ETrig Cos _ => true | _ => false end.
(** is_valid_power, product_to_sum.py:48-54 *)
Definition valid_power (e : expr) : bool :=
  match e with
  | EPow b (ERat q) => is_sc b && qisint q && negb (Qle_bool q 1)
  | _ => false
  end.

Section Pts.
Context (fk : fkern).

(** _perform_on_terms, product_to_sum.py:7-25.  [m] is the multiplier. *)
Definition perform_on_terms (a b m : expr) : res (option (list expr)) :=
  c <- op_div fk m (ERat 2);;
  match a, b with
  | ETrig Sin i, ETrig Cos j =>
      p <- op_add fk i j;; s <- k_trig fk Sin p;; x <- op_mul fk s c;;
      d <- op_sub fk i j;; t <- k_trig fk Sin d;; y <- op_mul fk t c;; Ok (Some [x; y])
  | ETrig Cos i, ETrig Sin j =>
      p <- op_add fk i j;; s <- k_trig fk Sin p;; x <- op_mul fk s c;;
      d <- op_sub fk i j;; t <- k_trig fk Sin d;; t' <- op_neg fk t;; y <- op_mul fk t' c;;
      Ok (Some [x; y])
  | ETrig Cos i, ETrig Cos j =>
      p <- op_add fk i j;; s <- k_trig fk Cos p;; x <- op_mul fk s c;;
      d <- op_sub fk i j;; t <- k_trig fk Cos d;; y <- op_mul fk t c;; Ok (Some [x; y])
  | ETrig Sin i, ETrig Sin j =>
      d <- op_sub fk i j;; t <- k_trig fk Cos d;; x <- op_mul fk t c;;
      p <- op_add fk i j;; s <- k_trig fk Cos p;; s' <- op_neg fk s;; y <- op_mul fk s' c;;
      Ok (Some [x; y])
  | _, _ => Ok None
  end.

(** product_to_sum_unit, product_to_sum.py:28-35, given the list version. *)
Definition unit_of (u : expr -> res (option (list expr))) (e : expr) : res (option expr) :=
  o <- u e;; match o with Some l => s <- k_sum fk l;; Ok (Some s) | None => Ok None end.

(** _product_to_sum, product_to_sum.py:95-114, given the unit function.  [None] as argument is
    iterated over: TypeError. *)
Definition list_of (u : expr -> res (option (list expr))) (l : option (list expr)) (m : option expr)
  : res (option (list expr)) :=
  match l with
  | None => Raise TypeError
  | Some l =>
      rs <- mapM u l;;
      if forallb (fun r => match r with None => true | _ => false end) rs then Ok None
      else
        let final := flat_map (fun p => match fst p with
                                        | Some (x :: r) => x :: r
                                        | _ => [snd p] end) (combine rs l) in
        match m with
        | Some e => if isq e 1 then Ok (Some final)
                    else f <- mapM (fun t => op_mul fk t e) final;; Ok (Some f)
        | None => Ok (Some final)
        end
  end.

(** _product_to_sum_unit, product_to_sum.py:38-92.  For three or more factors of which some are
    powers, the plain sin/cos factors are dropped (line 80): strict mode stops in that case. *)
Fixpoint pts_unit (n : nat) (mult : option expr) (e : expr) : res (option (list expr)) :=
  match n with
  | O => Stop OutOfFuel
  | S n' =>
      let unit := unit_of (pts_unit n' None) in
      let lst := fun l m => list_of (pts_unit n' None) l (Some m) in
      '(ne, c0) <- rcf e;;
      c <- match mult with Some m => op_mul fk c0 m | None => Ok c0 end;;
      match ne with
      | EProd [t1; t2] =>
          if is_sc t1 && is_sc t2 then perform_on_terms t1 t2 c
          else if is_sc t1 && valid_power t2 then i <- pts_unit n' (Some t1) t2;; lst i c
          else if is_sc t2 && valid_power t1 then i <- pts_unit n' (Some t2) t1;; lst i c
          else if valid_power t2 && valid_power t1 then
            a <- unit t1;; b <- unit t2;;
            match a, b with
            | Some a, Some b =>
                p <- op_mul fk a b;; x <- expandE fk n' p;;
                match x with ESum us | EProd us => 
                  guard (negb (k_strict fk) || is_sum x) (lst (Some us) c)
                | _ => Raise TypeError end
            | _, _ => Raise TypeError
            end
          else Ok None
      | EProd ts =>
          if negb (forallb (fun t => is_sc t || valid_power t) ts) then Ok None
          else if existsb (fun t => negb (is_sc t)) ts then
            guard (negb (k_strict fk) || forallb (fun t => negb (is_sc t)) ts)
            (us <- mapM unit (filter (fun t => negb (is_sc t)) ts);;
             vs <- mapM (fun o => match o with Some v => Ok v | None => Stop Unmodelled end) us;;
             p <- k_prod fk vs;; x <- expandE fk n' p;;
             match x with
             | ESum ws | EProd ws => guard (negb (k_strict fk) || is_sum x) (lst (Some ws) c)
             | _ => Raise AttributeError end)
          else
            match ts with
            | t1 :: t2 :: rest => r <- prod_skip rest;; m <- op_mul fk r c;; perform_on_terms t1 t2 m
            | _ => Raise IndexError
            end
      | EPow b (ERat q) =>
          if valid_power ne then
            if Qeq_bool q 2 then perform_on_terms b b c
            else
              i <- (if Qeq_bool q 3 then perform_on_terms b b b
                    else x <- op_sub fk (ERat q) (ERat 2);; perform_on_terms b b (EPow b x));;
              lst i c
          else Ok None
      | _ => Ok None
      end
  end.

(** product_to_sum_unit (the public one) and product_to_sum, product_to_sum.py:28-35, 117-139. *)
Definition product_to_sum_unit (n : nat) (e : expr) : res (option expr) := unit_of (pts_unit n None) e.
Definition product_to_sum (n : nat) (e : expr) : res pres :=
  match e with
  | ESum ts =>
      o <- list_of (pts_unit n None) (Some ts) None;;
      match o with
      | None => Ok PNone
      | Some l =>
          f <- k_sum fk l;;
          match f with
          | ESum us =>
              if Nat.ltb (List.length us) (List.length ts) then Ok (PNew f)
              else if Nat.eqb (List.length us) (List.length ts) && is_simpler f e then Ok (PNew f)
              else Ok PNone
          | _ => Ok (PNew f)
          end
      end
  | _ => Ok PNone
  end.
End Pts.

(** ** Monotonicity *)
Section PtsMono.
Context (f1 f2 : fkern) (HF : fle f1 f2).
Lemma perform_on_terms_mono a b m : rle (perform_on_terms f1 a b m) (perform_on_terms f2 a b m).
Proof. unfold perform_on_terms. mono; destruct b; mono. Qed.
Lemma unit_of_mono u1 u2 e : (forall t, rle (u1 t) (u2 t)) -> rle (unit_of f1 u1 e) (unit_of f2 u2 e).
Proof. intros H. unfold unit_of. mono. Qed.
Lemma list_of_mono u1 u2 l m : (forall t, rle (u1 t) (u2 t)) -> rle (list_of f1 u1 l m) (list_of f2 u2 l m).
Proof. intros H. unfold list_of. cbv zeta. mono. Qed.
Lemma pts_unit_mono n : forall m mu e, (n <= m)%nat -> rle (pts_unit f1 n mu e) (pts_unit f2 m mu e).
Proof.
  induction n as [|n IH]; intros m mu e H; [apply rle_stop|]. destruct m as [|m]; [lia|].
  assert (H' : (n <= m)%nat) by lia.
  pose proof perform_on_terms_mono. pose proof (fun e => expandE_mono f1 f2 HF n m e H').
  assert (HU : forall mu e, rle (pts_unit f1 n mu e) (pts_unit f2 m mu e)) by auto.
  pose proof (fun e => unit_of_mono _ _ e (HU None)). pose proof (fun l q => list_of_mono _ _ l q (HU None)).
  assert (HS : forall b, negb (k_strict f1) || b = true -> negb (k_strict f2) || b = true) by (intros; eapply nstrict_mono; eauto).
  cbn [pts_unit]. cbv zeta. apply rle_bind; [apply rle_refl|]. intros [ne c0].
  apply rle_bind; [mono|]. intros c. destruct ne as [| | | | | | | |ts|b x| | |]; try apply rle_refl.
  - destruct ts as [|t1 [|t2 [|t3 ts]]]; mono; apply guard_mono; auto; mono; apply guard_mono; auto; mono.
  - destruct x; mono.
Qed.
Lemma product_to_sum_unit_mono n m e : (n <= m)%nat -> rle (product_to_sum_unit f1 n e) (product_to_sum_unit f2 m e).
Proof. intros H. apply unit_of_mono. intros. now apply pts_unit_mono. Qed.
Lemma product_to_sum_mono n m e : (n <= m)%nat -> rle (product_to_sum f1 n e) (product_to_sum f2 m e).
Proof.
  intros H. pose proof (fun l q => list_of_mono _ _ l q (fun t => pts_unit_mono n m None t H)).
  unfold product_to_sum. destruct e; try apply rle_refl. mono.
Qed.
End PtsMono.

(** ** Soundness *)
Section PtsSound.
Context (rho : env) (fk : fkern) (HF : FSound rho fk).
Let HG : GSound rho fk := f_k _ _ HF.
Local Notation W := (wd rho).
Local Notation V := (ev rho).

Lemma one_const_filter p ts : one_const ts -> one_const (filter p ts).
Proof.
  unfold one_const. intros H. etransitivity; [|exact H]. clear H.
  induction ts as [|t ts IH]; simpl; auto. destruct (p t), (is_acc t) eqn:E; simpl; rewrite ?E; simpl; lia.
Qed.
Lemma Forall_filter {A} (P : A -> Prop) p l : Forall P l -> Forall P (filter p l).
Proof. induction 1; simpl; auto. destruct (p x); auto. Qed.
Lemma prod_skip_sound ts e : prod_skip ts = Ok e -> Forall W ts -> one_const ts -> W e /\ V e = Rprod (map V ts).
Proof.
  intros H Wt O. destruct ts as [|t [|u ts]].
  - injection H as <-. split; [exact I|]. simpl. apply Q2R_1.
  - assert (t = e) by (destruct t; try discriminate; injection H as <-; auto). subst. inversion Wt; subst.
    split; auto. simpl. ring.
  - assert (E : e = EProd (t :: u :: ts)) by (destruct t; injection H as <-; auto). subst. split; auto.
    now apply wd_prod.
Qed.
Lemma rcf_sound e s c : rcf e = Ok (s, c) -> W e -> W s /\ W c /\ V s * V c = V e.
Proof.
  intros H We.
  assert (G : Ok (e, ERat 1) = Ok (s, c) -> W s /\ W c /\ V s * V c = V e).
  { intros G. injection G as <- <-. repeat split; auto. simpl. rewrite Q2R_1. ring. }
  destruct e; try exact (G H). clear G. cbn [rcf] in H.
  apply bind_ok in H as (s' & Hs & H). apply bind_ok in H as (c' & Hc & H). injection H as <- <-.
  apply wd_prod in We as [Wt O].
  apply prod_skip_sound in Hs as [A1 A2]; auto using Forall_filter, one_const_filter.
  apply prod_skip_sound in Hc as [B1 B2]; auto using Forall_filter, one_const_filter.
  repeat split; auto. rewrite A2, B2. simpl. clear. induction ts as [|t ts IH]; simpl; [ring|].
  rewrite <- IH. destruct (has_symany t); simpl; ring.
Qed.

Definition sumok (l : list expr) (v : R) : Prop := Forall W l /\ Rsum (map V l) = v.

Lemma perform_sound a b m l : perform_on_terms fk a b m = Ok (Some l) -> W a -> W b -> W m ->
  sumok l (V a * V b * V m).
Proof.
  unfold perform_on_terms. intros H Wa Wb Wm. apply bind_ok in H as (c & Hc & H).
  apply (g_div _ _ HG) in Hc as (_ & C1 & C2); [|auto|exact I].
  change (V (ERat 2)) with (Q2R 2) in C2. replace (Q2R 2) with 2 in C2 by (unfold Q2R; simpl; field).
  destruct a as [| | | | | | | | | | |f i|]; try discriminate.
  destruct f; try discriminate; destruct b as [| | | | | | | | | | |g j|]; try discriminate; destruct g; try discriminate;
    destruct Wa as [Wi _], Wb as [Wj _]; cbn [ev tev].
  - apply bind_ok in H as (d & Hd & H). apply bind_ok in H as (t & Ht & H). apply bind_ok in H as (x & Hx & H).
    apply bind_ok in H as (p & Hp & H). apply bind_ok in H as (s & Hs & H). apply bind_ok in H as (s' & Hs' & H).
    apply bind_ok in H as (y & Hy & H). injection H as <-.
    apply (g_sub _ _ HG) in Hd as [D1 D2]; auto. apply (f_trig _ _ HF) in Ht as (_ & T1 & T2); auto.
    apply (g_mul _ _ HG) in Hx as [X1 X2]; auto. apply (g_add _ _ HG) in Hp as [P1 P2]; auto.
    apply (f_trig _ _ HF) in Hs as (_ & S1 & S2); auto. apply (g_neg _ _ HG) in Hs' as [N1 N2]; auto.
    apply (g_mul _ _ HG) in Hy as [Y1 Y2]; auto. split; auto. cbn [map Rsum fold_right].
    rewrite X2, Y2, N2, T2, S2, D2, P2, C2. cbn [tev]. rewrite cos_minus, cos_plus. field.
  - apply bind_ok in H as (p & Hp & H). apply bind_ok in H as (s & Hs & H). apply bind_ok in H as (x & Hx & H).
    apply bind_ok in H as (d & Hd & H). apply bind_ok in H as (t & Ht & H). 
    apply bind_ok in H as (y & Hy & H). injection H as <-.
    apply (g_sub _ _ HG) in Hd as [D1 D2]; auto. apply (f_trig _ _ HF) in Ht as (_ & T1 & T2); auto.
    apply (g_add _ _ HG) in Hp as [P1 P2]; auto.
    apply (f_trig _ _ HF) in Hs as (_ & S1 & S2); auto. apply (g_mul _ _ HG) in Hx as [X1 X2]; auto.
    apply (g_mul _ _ HG) in Hy as [Y1 Y2]; auto. split; auto. cbn [map Rsum fold_right].
    rewrite X2, Y2, T2, S2, D2, P2, C2. cbn [tev]. rewrite sin_minus, sin_plus. field.
  - apply bind_ok in H as (p & Hp & H). apply bind_ok in H as (s & Hs & H). apply bind_ok in H as (x & Hx & H).
    apply bind_ok in H as (d & Hd & H). apply bind_ok in H as (t & Ht & H). apply bind_ok in H as (t' & Ht' & H).
    apply bind_ok in H as (y & Hy & H). injection H as <-.
    apply (g_sub _ _ HG) in Hd as [D1 D2]; auto. apply (f_trig _ _ HF) in Ht as (_ & T1 & T2); auto.
    apply (g_neg _ _ HG) in Ht' as [N1 N2]; auto.
    apply (g_add _ _ HG) in Hp as [P1 P2]; auto.
    apply (f_trig _ _ HF) in Hs as (_ & S1 & S2); auto. apply (g_mul _ _ HG) in Hx as [X1 X2]; auto.
    apply (g_mul _ _ HG) in Hy as [Y1 Y2]; auto. split; auto. cbn [map Rsum fold_right].
    rewrite X2, Y2, N2, T2, S2, D2, P2, C2. cbn [tev]. rewrite sin_minus, sin_plus. field.
  - apply bind_ok in H as (p & Hp & H). apply bind_ok in H as (s & Hs & H). apply bind_ok in H as (x & Hx & H).
    apply bind_ok in H as (d & Hd & H). apply bind_ok in H as (t & Ht & H). 
    apply bind_ok in H as (y & Hy & H). injection H as <-.
    apply (g_sub _ _ HG) in Hd as [D1 D2]; auto. apply (f_trig _ _ HF) in Ht as (_ & T1 & T2); auto.
    apply (g_add _ _ HG) in Hp as [P1 P2]; auto.
    apply (f_trig _ _ HF) in Hs as (_ & S1 & S2); auto. apply (g_mul _ _ HG) in Hx as [X1 X2]; auto.
    apply (g_mul _ _ HG) in Hy as [Y1 Y2]; auto. split; auto. cbn [map Rsum fold_right].
    rewrite X2, Y2, T2, S2, D2, P2, C2. cbn [tev]. rewrite cos_minus, cos_plus. field.
Qed.

Definition usound (u : expr -> res (option (list expr))) : Prop :=
  forall e l, u e = Ok (Some l) -> W e -> sumok l (V e).

Lemma unit_of_sound u e e' : usound u -> unit_of fk u e = Ok (Some e') -> W e -> good rho e e'.
Proof.
  unfold unit_of. intros U H We. apply bind_ok in H as (o & Ho & H). destruct o as [l|]; [|discriminate].
  apply bind_ok in H as (s & Hs & H). injection H as <-. apply U in Ho as [A B]; auto.
  apply (g_sum _ _ HG) in Hs as [S1 S2]; auto. split; auto. now rewrite S2.
Qed.

Lemma isq_ev e q : isq e q = true -> V e = Q2R q.
Proof. destruct e; try discriminate. simpl. apply Qeq_bool_true. Qed.

Lemma list_of_sound u l m r : usound u -> list_of fk u (Some l) m = Ok (Some r) -> Forall W l ->
  (forall e, m = Some e -> W e) ->
  sumok r (Rsum (map V l) * match m with Some e => V e | None => 1 end).
Proof.
  unfold list_of. intros U H Wl Wm. apply bind_ok in H as (rs & Hr & H).
  destruct (forallb _ rs); [discriminate|]. cbv zeta in H.
  set (final := flat_map _ _) in H.
  assert (Fin : sumok final (Rsum (map V l))).
  { unfold final. apply mapM_ok in Hr. clear -U Hr Wl.
    induction Hr as [|t o l rs Ht _ IH]; [split; simpl; auto|]. inversion Wl; subst. destruct (IH H2) as [A B].
    assert (X : sumok (match o with Some (x :: r) => x :: r | _ => [t] end) (V t)).
    { destruct o as [[|x r]|].
      - split; auto. simpl. ring.
      - apply (U _ _ Ht); auto.
      - split; auto. simpl. ring. }
    destruct X as [X1 X2]. cbn [combine flat_map fst snd]. split; [now apply Forall_app|].
    rewrite map_app, Rsum_app. cbn [map Rsum fold_right]. fold (Rsum (map V l)). now rewrite X2, B. }
  destruct Fin as [F1 F2]. destruct m as [e|].
  - destruct (isq e 1) eqn:E1.
    + injection H as <-. split; auto. rewrite (isq_ev _ _ E1), Q2R_1, F2. ring.
    + apply bind_ok in H as (f & Hf & H). injection H as <-.
      apply (mapM_rel _ W (fun t t' => W t' /\ V t' = V t * V e)) in Hf; auto.
      2:{ intros t t' Ht Wt. apply (g_mul _ _ HG) in Ht as [T1 T2]; auto. }
      rewrite <- F2. clear -Hf. induction Hf as [|t t' a b [A B] _ [IH1 IH2]]; [split; simpl; auto; ring|].
      split; auto. cbn [map Rsum fold_right]. fold (Rsum (map V a)) (Rsum (map V b)). rewrite B, IH2. ring.
  - injection H as <-. split; auto. rewrite F2. ring.
Qed.

#[local] Arguments list_of : simpl never.
#[local] Arguments unit_of : simpl never.
Lemma filter_all {A} (p : A -> bool) l : forallb p l = true -> filter p l = l.
Proof. induction l as [|t l IH]; simpl; auto. intros H. apply andb_prop in H as [E B]. rewrite E. f_equal. auto. Qed.
Lemma valid_power_inv e : valid_power e = true -> exists b q, e = EPow b (ERat q) /\ is_sc b = true /\ qisint q = true /\ 1 < Q2R q.
Proof.
  destruct e as [| | | | | | | | |b x| | |]; try discriminate. destruct x; try discriminate. simpl.
  intros H. apply andb_prop in H as [H L]. apply andb_prop in H as [S I]. exists b, q. repeat split; auto.
  apply negb_true_iff in L. rewrite <- Q2R_1. apply Qlt_Q2R. apply Qnot_le_lt. intros C.
  apply Qle_bool_iff in C. congruence.
Qed.

Lemma pow_split b q p : qisint q = true -> 1 < Q2R q -> Q2R p = Q2R q - 2 -> 
  V b * V b * rpow (V b) (Q2R p) = rpow (V b) (Q2R q) /\ qisint p = true /\ 0 <= Q2R p.
Proof.
  intros I L E. pose proof (qisint_Q2R _ I) as Z. rewrite Z in *.
  assert (Z1 : (1 < numer q)%Z) by now apply lt_IZR. rewrite <- minus_IZR in E.
  destruct (qisint_Z p _ E) as [Ip _]. rewrite E. split; [|split; auto; apply IZR_le; lia].
  rewrite !rpow_int by (right; lia). rewrite !powerRZ_nonneg_pow by lia.
  replace (Z.to_nat (numer q)) with (2 + Z.to_nat (numer q - 2))%nat by lia. simpl. ring.
Qed.

Lemma pts_unit_sound n : forall mu e l, pts_unit fk n mu e = Ok (Some l) -> W e -> (forall m, mu = Some m -> W m) ->
  sumok l (V e * match mu with Some m => V m | None => 1 end).
Proof.
  induction n as [|n IH]; intros mu e l H We Wmu; [discriminate|]. cbn [pts_unit] in H. cbv zeta in H.
  assert (U : usound (pts_unit fk n None)).
  { intros t r Ht Wt. apply IH in Ht as [A B]; auto; [|discriminate]. split; auto. rewrite B. ring. }
  apply bind_ok in H as ([ne c0] & Hc & H). apply rcf_sound in Hc as (Wn & Wc0 & Ec); auto.
  apply bind_ok in H as (c & Hc & H).
  assert (C : W c /\ V c = V c0 * match mu with Some m => V m | None => 1 end).
  { destruct mu as [m|]; [|injection Hc as <-; split; auto; ring].
    apply (g_mul _ _ HG) in Hc as [A B]; auto. }
  clear Hc. destruct C as [C1 C2].
  assert (T : V e * match mu with Some m => V m | None => 1 end = V ne * V c) by (rewrite C2, <- Ec; ring).
  rewrite T. clear T C2 Ec We Wmu Wc0.
  pose proof (f_strict _ _ HF) as St.
  assert (LS : forall i r v, (i0 <- (i : res (option (list expr)));; list_of fk (pts_unit fk n None) i0 (Some c)) = Ok (Some r) ->
     (forall l, i = Ok (Some l) -> sumok l v) -> sumok r (v * V c)).
  { intros i r v Hi Si. apply bind_ok in Hi as (o & Ho & Hi). destruct o as [l0|]; [|discriminate].
    destruct (Si _ Ho) as [A B]. apply list_of_sound in Hi; auto; [|intros ? [= <-]; auto]. now rewrite <- B. }
  assert (US : forall t x, unit_of fk (pts_unit fk n None) t = Ok (Some x) -> W t -> good rho t x).
  { intros t x Ht Wt. now apply (unit_of_sound _ _ _ U Ht). }
  destruct ne as [| | | | | | | |ts|b x| | |]; try discriminate.
  - apply wd_prod in Wn as [Wt O].
    destruct ts as [|t1 [|t2 [|t3 ts]]].
    + discriminate.
    + destruct (is_sc t1) eqn:S1; simpl in H; rewrite S1 in H; simpl in H.
      { discriminate. }
      destruct (valid_power t1) eqn:P1; cbn [negb orb andb] in H; [|discriminate].
      rewrite St in H. apply guard_ok in H as [_ H]. inversion Wt; subst.
      apply bind_ok in H as (us & Hu & H). apply bind_ok in Hu as (o & Ho & Hu). injection Hu as <-.
      apply bind_ok in H as (vs & Hv & H). destruct o as [v|]; [|discriminate]. injection Hv as <-.
      apply bind_ok in H as (p & Hp & H). apply bind_ok in H as (xx & Hx & H).
      apply US in Ho as [A B]; auto.
      apply (g_prod _ _ HG) in Hp as [P2 P3]; auto. apply (expandE_sound rho fk HF) in Hx as [X1 X2]; auto.
      destruct xx as [| | | | | | |ws|ws| | | |]; try discriminate; apply guard_ok in H as [G' H]; try discriminate G'.
      apply wd_sum in X1. apply list_of_sound in H; auto; [|intros ? [= <-]; auto].
      assert (E : Rsum (map V ws) = V (EProd [t1])).
      { change (V (ESum ws) = V (EProd [t1])). rewrite X2, P3. simpl. now rewrite B. }
      now rewrite E in H.
    + inversion Wt as [|? ? W1 Wt']; subst. inversion Wt' as [|? ? W2 _]; subst.
      change (V (EProd [t1; t2])) with (V t1 * (V t2 * 1)).
      replace (V t1 * (V t2 * 1)) with (V t1 * V t2) by ring.
      destruct (is_sc t1) eqn:S1.
      { simpl in H. destruct (is_sc t2) eqn:S2. 
        - now apply perform_sound in H.
        - simpl in H. destruct (valid_power t2) eqn:P2; simpl in H.
          + eapply LS; [exact H|]. intros l0 Hl. apply IH in Hl; auto; [|intros ? [= <-]; auto].
            now rewrite Rmult_comm.
          + discriminate. }
      simpl in H. destruct (is_sc t2) eqn:S2.
      { simpl in H. destruct (valid_power t1) eqn:P1; simpl in H.
        - eapply LS; [exact H|]. intros l0 Hl. apply IH in Hl; auto. intros ? [= <-]; auto.
        - rewrite andb_false_r in H. discriminate. }
      simpl in H. destruct (valid_power t2) eqn:P2; simpl in H; [|discriminate].
      destruct (valid_power t1) eqn:P1; simpl in H; [|discriminate].
      apply bind_ok in H as (a & Ha & H). apply bind_ok in H as (b & Hb & H).
      destruct a as [a|]; [|discriminate]. destruct b as [b|]; [|discriminate].
      apply bind_ok in H as (p & Hp & H). apply bind_ok in H as (xx & Hx & H).
      apply US in Ha as [A1 A2]; auto. apply US in Hb as [B1 B2]; auto.
      apply (g_mul _ _ HG) in Hp as [Q1 Q2]; auto.
      apply (expandE_sound rho fk HF) in Hx as [X1 X2]; auto.
      rewrite St in H; destruct xx as [| | | | | | |ws|ws| | | |]; try discriminate; apply guard_ok in H as [G' H]; try discriminate G'.
      apply wd_sum in X1. apply list_of_sound in H; auto; [|intros ? [= <-]; auto].
      change (Rsum (map V ws)) with (V (ESum ws)) in H. now rewrite X2, Q2, A2, B2 in H.
    + set (tt := t1 :: t2 :: t3 :: ts) in *.
      destruct (forallb (fun t => is_sc t || valid_power t) tt) eqn:All; simpl negb in H; [|discriminate].
      destruct (existsb (fun t => negb (is_sc t)) tt) eqn:Ex.
      * apply guard_ok in H as [G H]. rewrite St in G. simpl in G.
        assert (FE : filter (fun t => negb (is_sc t)) tt = tt).
        { now apply filter_all. }
        rewrite FE in H. apply bind_ok in H as (us & Hu & H). apply bind_ok in H as (vs & Hv & H).
        apply bind_ok in H as (p & Hp & H). apply bind_ok in H as (xx & Hx & H).
        assert (VS : Forall W vs /\ map V vs = map V tt).
        { apply mapM_ok in Hu, Hv. clear -Hu Hv US Wt. revert vs Hv.
          induction Hu as [|t o l us Ht _ IHu]; intros vs Hv; inversion Hv as [|? v' ? vs' Hov Hvs]; subst; [split; auto|].
          inversion Wt; subst. destruct o as [v|]; [|discriminate]. injection Hov as <-.
          apply US in Ht as [A B]; auto. destruct (IHu H2 _ Hvs) as [C D]. split; auto. simpl. now rewrite B, D. }
        destruct VS as [VS1 VS2].
        apply (g_prod _ _ HG) in Hp as [P2 P3]; auto. apply (expandE_sound rho fk HF) in Hx as [X1 X2]; auto.
        rewrite St in H; destruct xx as [| | | | | | |ws|ws| | | |]; try discriminate; apply guard_ok in H as [G' H]; try discriminate G'.
        apply wd_sum in X1. apply list_of_sound in H; auto; [|intros ? [= <-]; auto].
        change (Rsum (map V ws)) with (V (ESum ws)) in H. rewrite X2, P3, VS2 in H. exact H.
      * unfold tt in *. clear tt. inversion Wt as [|? ? W1 Wt']; subst. inversion Wt' as [|? ? W2 Wr]; subst.
        apply bind_ok in H as (r & Hr & H). apply bind_ok in H as (m & Hm & H).
        apply prod_skip_sound in Hr as [R1 R2]; auto.
        -- apply (g_mul _ _ HG) in Hm as [M1 M2]; auto. apply perform_sound in H; auto.
           rewrite M2, R2 in H. cbn [ev]. cbn [map Rprod fold_right] in H |- *.
           replace (V t1 * (V t2 * (V t3 * fold_right Rmult 1 (map V ts))) * V c)
             with (V t1 * V t2 * (V t3 * fold_right Rmult 1 (map V ts) * V c)) by ring. exact H.
        -- clear -O. unfold one_const in *. simpl in *. destruct (is_acc t1), (is_acc t2); simpl in O; lia.
  - destruct x as [q| | | | | | | | | | | |]; try discriminate.
    destruct (valid_power (EPow b (ERat q))) eqn:VP; [|discriminate].
    destruct (valid_power_inv _ VP) as (b' & q' & E & SC & Iq & Lq). injection E as <- <-.
    destruct Wn as (Wb & _ & _). change (V (EPow b (ERat q))) with (rpow (V b) (Q2R q)).
    destruct (Qeq_bool q 2) eqn:Q2.
    + apply perform_sound in H; auto.
      destruct (pow_split b q 0 Iq Lq) as (Ep & _).
      { rewrite (Qeq_bool_true _ _ Q2). unfold Q2R; simpl; field. }
      rewrite Q2R_0, rpow_0 in Ep. rewrite <- Ep. now replace (V b * V b * 1) with (V b * V b) by ring.
    + eapply LS; [exact H|]. intros l0 Hl. destruct (Qeq_bool q 3) eqn:Q3.
      * apply perform_sound in Hl; auto.
        destruct (pow_split b q 1 Iq Lq) as (Ep & _).
        { rewrite (Qeq_bool_true _ _ Q3). unfold Q2R; simpl; field. }
        rewrite Q2R_1, rpow_1 in Ep. now rewrite <- Ep.
      * cbn [op_sub bind] in Hl. 
        destruct (pow_split b q (q - 2) Iq Lq) as (Ep & Ip & Np).
        { rewrite Q2R_minus. f_equal. unfold Q2R; simpl; field. }
        apply perform_sound in Hl; auto.
        -- change (V (EPow b (rat (q - 2)))) with (rpow (V b) (V (rat (q - 2)))) in Hl. rewrite ev_rat in Hl.
           now rewrite Ep in Hl.
        -- repeat split; auto. left. exists (Qred (q - 2)). split; [reflexivity|].
           split; [rewrite <- Ip; apply qisint_compat, Qred_correct|].
           right. apply Q2R_nonneg. now rewrite Q2R_red.
Qed.

Theorem product_to_sum_unit_sound n e e' : product_to_sum_unit fk n e = Ok (Some e') -> W e -> good rho e e'.
Proof.
  intros H We. apply unit_of_sound in H; auto. intros t r Ht Wt. apply pts_unit_sound in Ht as [A B]; auto; [|discriminate].
  split; auto. rewrite B. ring.
Qed.
Theorem product_to_sum_sound n e e' : product_to_sum fk n e = Ok (PNew e') -> W e -> good rho e e'.
Proof.
  unfold product_to_sum. intros H We. destruct e as [| | | | | | |ts| | | | |]; try discriminate.
  apply bind_ok in H as (o & Ho & H). destruct o as [l|]; [|discriminate].
  apply bind_ok in H as (f & Hf & H). apply wd_sum in We. apply list_of_sound in Ho as [A B]; auto.
  2:{ intros t r Ht Wt. apply pts_unit_sound in Ht as [A B]; auto; [|discriminate]. split; auto. rewrite B. ring. }
  2:{ discriminate. }
  apply (g_sum _ _ HG) in Hf as [F1 F2]; auto.
  assert (f = e').
  { destruct f as [| | | | | | |us| | | | |]; try (injection H as <-; reflexivity).
    destruct (Nat.ltb _ _); [injection H as <-; auto|]. destruct (Nat.eqb _ _ && _); [injection H as <-; auto|discriminate]. }
  subst f. split; auto. rewrite F2, B. simpl. ring.
Qed.
End PtsSound.
