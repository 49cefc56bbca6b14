(** * Interval: a computable oracle that is provably right (not in /repo).

    The theorems about the integrator speak about any oracle that is right on a box.  This file gives
    one such oracle for every box of open intervals with rational ends, by interval arithmetic, so that
    the monitored integrator becomes an executable that only returns proved antiderivatives. *)
From Coquelicot Require Import Coquelicot.
From Verif Require Import SearchSound PropsC.
From Coq Require Lqa.
Open Scope R_scope.

(** ** Boxes *)
Notation ibox := (list (string * (option Q * option Q))).
Fixpoint bnds (bx : ibox) (s : string) : option Q * option Q :=
  match bx with
  | [] => (None, None)
  | (t, b) :: r => if String.eqb s t then b else bnds r s
  end.
Definition box_of (bx : ibox) : box := fun s t =>
  match fst (bnds bx s) with Some q => Q2R q < t | None => True end /\
  match snd (bnds bx s) with Some q => t < Q2R q | None => True end.
Lemma box_of_open bx v : openv (box_of bx) v.
Proof.
  intros t [H1 H2]. unfold box_of.
  assert (A : locally t (fun t => match fst (bnds bx v) with Some q => Q2R q < t | None => True end)).
  { destruct (fst (bnds bx v)); [now apply (open_gt (Q2R q))|now exists (mkposreal 1 Rlt_0_1)]. }
  assert (B : locally t (fun t => match snd (bnds bx v) with Some q => t < Q2R q | None => True end)).
  { destruct (snd (bnds bx v)); [now apply (open_lt (Q2R q))|now exists (mkposreal 1 Rlt_0_1)]. }
  now apply filter_and.
Qed.

(** ** Bounds: an optional rational, and whether the inequality is strict *)
Definition bound := option (Q * bool).
Definition below (b : bound) (v : R) : Prop :=
  match b with None => True | Some (q, true) => Q2R q < v | Some (q, false) => Q2R q <= v end.
Definition above (b : bound) (v : R) : Prop :=
  match b with None => True | Some (q, true) => v < Q2R q | Some (q, false) => v <= Q2R q end.
Definition iv : Type := bound * bound.
Definition inI (i : iv) (v : R) : Prop := below (fst i) v /\ above (snd i) v.
Definition itop : iv := (None, None).
Definition qpt (q : Q) : iv := (Some (q, false), Some (q, false)).

Definition badd (a b : bound) : bound :=
  match a, b with Some (p, s), Some (q, t) => Some (p + q, s || t)%Q | _, _ => None end.
Definition iadd (a b : iv) : iv := (badd (fst a) (fst b), badd (snd a) (snd b)).
Definition bneg (b : bound) : bound := match b with Some (q, s) => Some (- q, s)%Q | None => None end.
Definition ineg (a : iv) : iv := (bneg (snd a), bneg (fst a)).
Definition bscale (q : Q) (b : bound) : bound := match b with Some (p, s) => Some (q * p, s)%Q | None => None end.
Definition iscale (q : Q) (a : iv) : iv :=
  if qis0 q then qpt 0
  else if qgt0 q then (bscale q (fst a), bscale q (snd a)) else (bscale q (snd a), bscale q (fst a)).
Definition ipoint (a : iv) : option Q :=
  match a with (Some (p, _), Some (q, _)) => if Qeq_bool p q then Some p else None | _ => None end.
Definition nonneg (a : iv) : bool := match fst a with Some (q, _) => Qle_bool 0 q | None => false end.
Definition nonpos (a : iv) : bool := nonneg (ineg a).
(** product of two intervals of non-negative numbers *)
Definition mpos (a b : iv) : iv :=
  (match fst a, fst b with
   | Some (p, s), Some (q, t) => Some (p * q, (s && (t || qgt0 q)) || (t && qgt0 p))%Q
   | _, _ => None end,
   match snd a, snd b with
   | Some (p, s), Some (q, t) => Some (p * q, (s && qgt0 q) || (t && qgt0 p))%Q
   | _, _ => None end).
Definition imul (a b : iv) : iv :=
  match ipoint a, ipoint b with
  | Some q, _ => iscale q b
  | _, Some q => iscale q a
  | None, None =>
      if nonneg a && nonneg b then mpos a b
      else if nonpos a && nonneg b then ineg (mpos (ineg a) b)
      else if nonneg a && nonpos b then ineg (mpos a (ineg b))
      else if nonpos a && nonpos b then mpos (ineg a) (ineg b)
      else itop
  end.
Fixpoint ipow (a : iv) (k : nat) : iv := match k with O => qpt 1 | S k' => mpos a (ipow a k') end.
(** |a| *)
Definition iabs (a : iv) : iv :=
  if nonneg a then a else if nonpos a then ineg a
  else (Some (0, false)%Q,
        match fst a, snd a with
        | Some (p, s), Some (q, t) => if Qle_bool (- p) q then (if Qle_bool q (-p) then Some (q, s && t) else Some (q, t)) else Some (- p, s)%Q
        | _, _ => None end).

Definition ipos (a : iv) : bool := match fst a with Some (q, s) => qgt0 q || (s && Qle_bool 0 q) | None => false end.
Definition inegv (a : iv) : bool := ipos (ineg a).
(** at least / at most *)
Definition ige (a : iv) (q : Q) : bool := match fst a with Some (p, _) => Qle_bool q p | None => false end.
Definition ile (a : iv) (q : Q) : bool := match snd a with Some (p, _) => Qle_bool p q | None => false end.
Definition pos_iv : iv := (Some (0, true)%Q, None).

Section Ival.
Context (bx : ibox).

Definition exp_int (x : expr) : option Z :=
  match x with ERat q => if qisint q then Some (numer q) else None | _ => None end.

Fixpoint ival (e : expr) : iv :=
  match e with
  | ERat q => qpt q
  | EPi => (Some (3, true)%Q, Some (4, false)%Q)
  | EE => (Some (2, true)%Q, Some (3, false)%Q)
  | ESym s => (match fst (bnds bx s) with Some q => Some (q, true) | None => None end,
               match snd (bnds bx s) with Some q => Some (q, true) | None => None end)
  | ESum ts => fold_right (fun t a => iadd (ival t) a) (qpt 0) ts
  | EProd ts => fold_right (fun t a => imul (ival t) a) (qpt 1) ts
  | EPow b x =>
      let i := ival b in
      match exp_int x with
      | Some (Zpos p) =>
          if nonneg i then ipow i (Pos.to_nat p)
          else if Z.even (Zpos p) then ipow (iabs i) (Pos.to_nat p)
          else if nonpos i then ineg (ipow (ineg i) (Pos.to_nat p)) else itop
      | Some Z0 => qpt 1
      | Some (Zneg p) => if ipos i then pos_iv
                         else if inegv i then (if Z.even (Zneg p) then pos_iv else ineg pos_iv) else itop
      | None => if ipos i then pos_iv else itop
      end
  | ETrig f i =>
      let a := ival i in
      match f with
      | Sin => if ipos a && ile a 3 then (Some (0, true)%Q, Some (1, ile a (3 # 2))%Q)
               else if inegv a && ige a (-3) then (Some (-1, ige a (-3 # 2))%Q, Some (0, true)%Q)
               else (Some (-1, false)%Q, Some (1, false)%Q)
      | Cos => if ige a (-3 # 2) && ile a (3 # 2) then (Some (0, true)%Q, Some (1, ipos a || inegv a)%Q)
               else (Some (-1, false)%Q, Some (1, false)%Q)
      | Tan => if ige a (-3 # 2) && ile a (3 # 2) then
                 (if ipos a then pos_iv else if inegv a then ineg pos_iv else itop) else itop
      | Sec => if ige a (-3 # 2) && ile a (3 # 2) then (Some (1, false)%Q, None) else itop
      | Csc => if ipos a && ile a 3 then (Some (1, false)%Q, None)
               else if inegv a && ige a (-3) then (None, Some (-1, false)%Q) else itop
      | Cot => if ipos a && ile a (3 # 2) then pos_iv
               else if inegv a && ige a (-3 # 2) then ineg pos_iv else itop
      | Atan => let small := ige a (-8 # 5) && ile a (8 # 5) in
                (if ipos a then Some (0, true)%Q else Some ((if small then -3 # 2 else -2), true)%Q,
                 if inegv a then Some (0, true)%Q else Some ((if small then 3 # 2 else 2), true)%Q)
      | Asin => if ige a (-4 # 5) && ile a (4 # 5) then
                  (if ipos a then Some (0, true)%Q else Some (-3 # 2, true)%Q,
                   if inegv a then Some (0, true)%Q else Some (3 # 2, true)%Q)
                else itop
      | _ => itop
      end
  | ELog i EE => if ige (ival i) 1 then (Some (0, match fst (ival i) with Some (q, s) => s || qgt0 (q - 1) | None => false end)%Q, None) else itop
  | EAbs i => iabs (ival i)
  | _ => itop
  end.

(** ** The oracles *)
Fixpoint rpb (e : expr) : bool :=
  match e with
  | EProd ts => ipos (ival e) && (is_sub e || forallb rpb ts)
  | EPow b _ => rpb b
  | _ => ipos (ival e)
  end.
Definition nzi (e : expr) : bool := ipos (ival e) || inegv (ival e).
Definition within (a : iv) (p q : Q) : bool := ige a p && ile a q.
Definition tdomb (f : trig) (a : iv) : bool :=
  match f with
  | Tan | Sec => within a (-3 # 2) (3 # 2)
  | Csc | Cot => (ipos a && ile a 3) || (inegv a && ige a (-3))
  | Asin | Acos => within a (-1) 1
  | _ => true
  end.
Definition invb (f : trig) (i : expr) : bool :=
  match f, i with
  | Asin, ETrig Sin j | Atan, ETrig Tan j => within (ival j) (-3 # 2) (3 # 2)
  | Acos, ETrig Cos j => within (ival j) 0 3
  | Asin, ETrig Csc _ | Acos, ETrig Sec _ | Atan, ETrig Cot _ => false
  | _, _ => true
  end.
Definition ivdom (t : expr) : bool :=
  match t with
  | EPow b x => rpb b || (match x with ERat q => qisint q && nzi b | _ => false end)
  | ELog i EE => rpb i
  | ETrig f i => tdomb f (ival i) && invb f i
  | EAbs i => ipos (ival i)
  | _ => false
  end.
Definition ivrng (y : string) (u : expr) : bool :=
  match fst (bnds bx y) with
  | None => true
  | Some q => match fst (ival u) with Some (p, s) => qgt0 (p - q) || (s && Qle_bool q p) | None => false end
  end &&
  match snd (bnds bx y) with
  | None => true
  | Some q => match snd (ival u) with Some (p, s) => qgt0 (q - p) || (s && Qle_bool p q) | None => false end
  end.
End Ival.

(** ** Correctness *)
Lemma below_w q s v : below (Some (q, s)) v -> Q2R q <= v.
Proof. destruct s; simpl; lra. Qed.
Lemma above_w q s v : above (Some (q, s)) v -> v <= Q2R q.
Proof. destruct s; simpl; lra. Qed.
Lemma Qle_b p q : Qle_bool p q = true -> Q2R p <= Q2R q.
Proof. intros H. apply Qle_Rle. now apply Qle_bool_iff. Qed.
Lemma inI_top v : inI itop v. Proof. split; exact I. Qed.
Lemma inI_pt q : inI (qpt q) (Q2R q). Proof. split; simpl; lra. Qed.

Lemma badd_below a b v w : below a v -> below b w -> below (badd a b) (v + w).
Proof.
  destruct a as [[p []]|], b as [[q []]|]; cbn; auto; rewrite Q2R_plus; lra.
Qed.
Lemma badd_above a b v w : above a v -> above b w -> above (badd a b) (v + w).
Proof.
  destruct a as [[p []]|], b as [[q []]|]; cbn; auto; rewrite Q2R_plus; lra.
Qed.
Lemma inI_add a b v w : inI a v -> inI b w -> inI (iadd a b) (v + w).
Proof. intros [H1 H2] [H3 H4]. split; simpl; auto using badd_below, badd_above. Qed.
Lemma bneg_below b v : above b v -> below (bneg b) (- v).
Proof. destruct b as [[q []]|]; cbn; auto; rewrite Q2R_opp; lra. Qed.
Lemma bneg_above b v : below b v -> above (bneg b) (- v).
Proof. destruct b as [[q []]|]; cbn; auto; rewrite Q2R_opp; lra. Qed.
Lemma inI_neg a v : inI a v -> inI (ineg a) (- v).
Proof. intros [H1 H2]. split; simpl; auto using bneg_below, bneg_above. Qed.
Lemma inI_neg' a v : inI a (- v) -> inI (ineg a) v.
Proof. intros H. apply inI_neg in H. now rewrite Ropp_involutive in H. Qed.
Lemma inI_scale q a v : inI a v -> inI (iscale q a) (Q2R q * v).
Proof.
  intros [H1 H2]. unfold iscale. destruct (qis0 q) eqn:Z.
  - apply qis0_true in Z. rewrite Z, Rmult_0_l, <- Q2R_0. apply inI_pt.
  - apply qis0_false in Z. destruct (qgt0 q) eqn:G.
    + apply qgt0_true in G. split; cbn; [destruct (fst a) as [[p []]|]|destruct (snd a) as [[p []]|]]; cbn in *; auto;
        rewrite Q2R_mult; nra.
    + assert (L : Q2R q < 0).
      { assert (~ 0 < Q2R q); [|lra]. intros L. unfold qgt0 in G. apply Z.ltb_ge in G. rewrite Q2R_sgn in L.
        apply IZR_le in G. pose proof (qden_pos q). nra. }
      split; cbn; [destruct (snd a) as [[p []]|]|destruct (fst a) as [[p []]|]]; cbn in *; auto; rewrite Q2R_mult; nra.
Qed.
Lemma ipoint_ok a q v : ipoint a = Some q -> inI a v -> v = Q2R q.
Proof.
  destruct a as [[[p s]|] [[r t]|]]; try discriminate. cbn. destruct (Qeq_bool p r) eqn:E; [|discriminate].
  intros H [H1 H2]. injection H as <-. apply Qeq_bool_eq, Qeq_eqR in E. apply below_w in H1. apply above_w in H2. lra.
Qed.
Lemma nonneg_ok a v : nonneg a = true -> inI a v -> 0 <= v.
Proof.
  unfold nonneg. intros H [H1 _]. destruct (fst a) as [[q s]|]; [|discriminate]. apply Qle_b in H. rewrite Q2R_0 in H.
  apply below_w in H1. lra.
Qed.
Lemma nonpos_ok a v : nonpos a = true -> inI a v -> v <= 0.
Proof. intros H Hi. apply inI_neg in Hi. apply (nonneg_ok _ _ H) in Hi. lra. Qed.
Lemma nonneg_lo a p s : nonneg a = true -> fst a = Some (p, s) -> 0 <= Q2R p.
Proof. unfold nonneg. intros H E. rewrite E in H. apply Qle_b in H. now rewrite Q2R_0 in H. Qed.

Lemma inI_mpos a b v w : nonneg a = true -> nonneg b = true -> inI a v -> inI b w -> inI (mpos a b) (v * w).
Proof.
  intros Na Nb Ha Hb. pose proof (nonneg_ok _ _ Na Ha) as Pv. pose proof (nonneg_ok _ _ Nb Hb) as Pw.
  destruct Ha as [A1 A2], Hb as [B1 B2]. unfold mpos. split; cbn [fst snd].
  - destruct (fst a) as [[p s]|] eqn:E1; [|exact I]. destruct (fst b) as [[q t]|] eqn:E2; [|exact I].
    pose proof (nonneg_lo _ _ _ Na E1) as Pp. pose proof (nonneg_lo _ _ _ Nb E2) as Pq.
    pose proof (below_w _ _ _ A1). pose proof (below_w _ _ _ B1).
    destruct (_ || _)%bool eqn:S; cbn [below]; rewrite Q2R_mult; [|nra].
    apply orb_prop in S as [S|S]; apply andb_prop in S as [S1 S2]; subst; cbn in A1, B1.
    + apply orb_prop in S2 as [S2|S2]; subst; [|apply qgt0_true in S2]; cbn in B1; nra.
    + apply qgt0_true in S2. nra.
  - destruct (snd a) as [[p s]|] eqn:E1; [|exact I]. destruct (snd b) as [[q t]|] eqn:E2; [|exact I].
    pose proof (above_w _ _ _ A2). pose proof (above_w _ _ _ B2).
    destruct (_ || _)%bool eqn:S; cbn [above]; rewrite Q2R_mult; [|nra].
    apply orb_prop in S as [S|S]; apply andb_prop in S as [S1 S2]; subst; cbn in A2, B2; apply qgt0_true in S2; nra.
Qed.
Lemma inI_mul a b v w : inI a v -> inI b w -> inI (imul a b) (v * w).
Proof.
  intros Ha Hb. unfold imul.
  destruct (ipoint a) as [q|] eqn:Ea; [rewrite (ipoint_ok _ _ _ Ea Ha); now apply inI_scale|].
  destruct (ipoint b) as [q|] eqn:Eb; [rewrite (ipoint_ok _ _ _ Eb Hb), Rmult_comm; now apply inI_scale|].
  pose proof (inI_neg _ _ Ha) as Ha'. pose proof (inI_neg _ _ Hb) as Hb'.
  destruct (nonneg a && nonneg b)%bool eqn:S1; [apply andb_prop in S1 as [S S']; now apply inI_mpos|].
  destruct (nonpos a && nonneg b)%bool eqn:S2.
  { apply andb_prop in S2 as [S S']. apply inI_neg'. rewrite Ropp_mult_distr_l. now apply inI_mpos. }
  destruct (nonneg a && nonpos b)%bool eqn:S3.
  { apply andb_prop in S3 as [S S']. apply inI_neg'. rewrite Ropp_mult_distr_r. now apply inI_mpos. }
  destruct (nonpos a && nonpos b)%bool eqn:S4; [|apply inI_top].
  apply andb_prop in S4 as [S S']. rewrite <- Rmult_opp_opp. now apply inI_mpos.
Qed.
Lemma nonneg_mpos a b : nonneg a = true -> nonneg b = true -> nonneg (mpos a b) = true.
Proof.
  unfold nonneg, mpos. cbn [fst]. destruct (fst a) as [[p s]|]; [|discriminate]. destruct (fst b) as [[q t]|]; [|discriminate].
  rewrite !Qle_bool_iff. intros. now apply Qmult_le_0_compat.
Qed.
Lemma nonneg_ipow a k : nonneg a = true -> nonneg (ipow a k) = true.
Proof. intros H. induction k; cbn [ipow]; auto using nonneg_mpos. Qed.
Lemma inI_pow a v k : nonneg a = true -> inI a v -> inI (ipow a k) (v ^ k).
Proof.
  intros N H. induction k as [|k IH]; cbn [ipow pow].
  - rewrite <- Q2R_1. apply inI_pt.
  - apply inI_mpos; auto using nonneg_ipow.
Qed.
Lemma nonneg_iabs a : nonneg (iabs a) = true.
Proof. unfold iabs. destruct (nonneg a) eqn:E; auto. destruct (nonpos a) eqn:E'; auto. Qed.
Lemma inI_abs a v : inI a v -> inI (iabs a) (Rabs v).
Proof.
  intros H. unfold iabs. destruct (nonneg a) eqn:E; [rewrite Rabs_pos_eq; auto; now apply (nonneg_ok a)|].
  destruct (nonpos a) eqn:E'; [rewrite Rabs_left1; [now apply inI_neg|now apply (nonpos_ok a)]|].
  split; cbn [fst snd below]; [rewrite Q2R_0; apply Rabs_pos|]. destruct H as [H1 H2].
  destruct (fst a) as [[p s]|]; [|exact I]. destruct (snd a) as [[q t]|]; [|exact I].
  assert (NO : Q2R (- p) = - Q2R p) by apply Q2R_opp.
  pose proof (below_w _ _ _ H1). pose proof (above_w _ _ _ H2).
  destruct (Qle_bool (- p) q) eqn:L1.
  - apply Qle_b in L1. destruct (Qle_bool q (- p)) eqn:L2.
    + apply Qle_b in L2. destruct s, t; cbn in *; unfold Rabs; destruct (Rcase_abs v); lra.
    + assert (L : Q2R (- p) < Q2R q).
      { apply Qlt_Rlt. apply Qnot_le_lt. intros C. apply Qle_bool_iff in C. congruence. }
      destruct t; cbn in *; unfold Rabs; destruct (Rcase_abs v); lra.
  - assert (L : Q2R q < Q2R (- p)).
    { apply Qlt_Rlt. apply Qnot_le_lt. intros C. apply Qle_bool_iff in C. congruence. }
    destruct s; cbn in *; unfold Rabs; destruct (Rcase_abs v); lra.
Qed.
Lemma ipos_ok a v : ipos a = true -> inI a v -> 0 < v.
Proof.
  unfold ipos. intros H [H1 _]. destruct (fst a) as [[q s]|]; [|discriminate]. pose proof (below_w _ _ _ H1) as B.
  apply orb_prop in H as [H|H]; [apply qgt0_true in H; lra|]. apply andb_prop in H as [-> H].
  apply Qle_b in H. rewrite Q2R_0 in H. cbn in H1. lra.
Qed.
Lemma inegv_ok a v : inegv a = true -> inI a v -> v < 0.
Proof. intros H Hi. apply inI_neg in Hi. apply (ipos_ok _ _ H) in Hi. lra. Qed.
Lemma ige_ok a q v : ige a q = true -> inI a v -> Q2R q <= v.
Proof.
  unfold ige. intros H [H1 _]. destruct (fst a) as [[p s]|]; [|discriminate]. apply below_w in H1. apply Qle_b in H. lra.
Qed.
Lemma ile_ok a q v : ile a q = true -> inI a v -> v <= Q2R q.
Proof.
  unfold ile. intros H [_ H1]. destruct (snd a) as [[p s]|]; [|discriminate]. apply above_w in H1. apply Qle_b in H. lra.
Qed.
Lemma pi_gt_3 : 3 < PI. Proof. pose proof PI2_3_2. lra. Qed.
Lemma exp1_gt2 : 2 < exp 1.
Proof.
  pose proof (exp_ineq1 (1/2) ltac:(lra)) as H. replace 1 with (1/2 + 1/2) by lra. rewrite exp_plus. nra.
Qed.
Lemma inI_posiv v : 0 < v -> inI pos_iv v.
Proof. intros H. split; [cbn; now rewrite Q2R_0|exact I]. Qed.
Lemma Q2R_m1 : Q2R (-1) = -1. Proof. unfold Q2R; simpl; lra. Qed.
Lemma q32 : Q2R (3 # 2) = 3 / 2 /\ Q2R (-3 # 2) = - (3 / 2) /\ Q2R 3 = 3 /\ Q2R (-3) = -3.
Proof. unfold Q2R; simpl; lra. Qed.
Lemma cos_pos32 v : - (3 / 2) <= v <= 3 / 2 -> 0 < cos v.
Proof. intros H. pose proof pi_gt_3. apply cos_gt_0; lra. Qed.
Lemma sin_pos3 v : 0 < v <= 3 -> 0 < sin v.
Proof. intros H. pose proof pi_gt_3. apply sin_gt_0; lra. Qed.
Lemma sin_neg3 v : -3 <= v < 0 -> sin v < 0.
Proof. intros H. pose proof (sin_pos3 (- v) ltac:(lra)) as P. rewrite sin_neg in P. lra. Qed.
Lemma inv_ge1 v : 0 < v <= 1 -> 1 <= / v.
Proof. intros H. rewrite <- Rinv_1. apply Rinv_le_contravar; lra. Qed.

Lemma sin_cos32 : 4 / 5 < sin (3 / 2) /\ 0 < cos (3 / 2) <= 1 / 2.
Proof.
  pose proof pi_gt_3 as P3. pose proof PI_4 as P4. pose proof (cos_pos32 (3 / 2) ltac:(lra)) as CP.
  assert (C : cos (3 / 2) <= 1 / 2).
  { rewrite cos_sin. assert (E : sin (PI / 2 + 3 / 2) = sin (PI / 2 - 3 / 2)).
    { replace (PI / 2 - 3 / 2) with (PI - (PI / 2 + 3 / 2)) by lra. now rewrite sin_PI_x. }
    rewrite E. destruct (Req_dec (PI / 2 - 3 / 2) 0) as [Z|Z]; [rewrite Z, sin_0; lra|].
    pose proof (sin_lt_x (PI / 2 - 3 / 2) ltac:(lra)). lra. }
  pose proof (sin2_cos2 (3 / 2)) as SC. unfold Rsqr in SC. pose proof (sin_pos3 (3 / 2) ltac:(lra)). split; [nra|lra].
Qed.
Lemma atan_bounds v : - (8 / 5) <= v <= 8 / 5 -> - (3 / 2) < atan v < 3 / 2.
Proof.
  intros H. pose proof pi_gt_3 as P3. destruct sin_cos32 as [S C].
  assert (T : 8 / 5 < tan (3 / 2)).
  { unfold tan. apply Rmult_lt_reg_r with (cos (3 / 2)); [lra|]. replace (sin (3 / 2) / cos (3 / 2) * cos (3 / 2)) with (sin (3 / 2)) by (field; lra). lra. }
  assert (E : atan (tan (3 / 2)) = 3 / 2) by (apply atan_tan; lra).
  split.
  - rewrite <- E, <- atan_opp. apply atan_increasing. lra.
  - rewrite <- E. apply atan_increasing. lra.
Qed.
Lemma asin_bounds v : - (4 / 5) <= v <= 4 / 5 -> - (3 / 2) < asin v < 3 / 2.
Proof.
  intros H. pose proof pi_gt_3 as P3. pose proof (asin_bound v) as AB. pose proof (sin_asin v ltac:(lra)) as SA.
  destruct sin_cos32 as [S32 _]. split.
  - apply Rnot_le_lt. intros C. assert (sin (asin v) <= sin (- (3 / 2))) by (apply sin_incr_1; lra).
    rewrite sin_neg in H0. lra.
  - apply Rnot_le_lt. intros C. assert (sin (3 / 2) <= sin (asin v)) by (apply sin_incr_1; lra). lra.
Qed.
Lemma asin_sign v : -1 < v < 1 -> (0 < v -> 0 < asin v) /\ (v < 0 -> asin v < 0).
Proof.
  intros H. pose proof pi_gt_3 as P3. pose proof (asin_bound v) as AB. pose proof (sin_asin v ltac:(lra)) as SA. split; intros Hv.
  - apply Rnot_le_lt. intros C. assert (sin (asin v) <= sin 0) by (apply sin_incr_1; lra). rewrite sin_0 in H0. lra.
  - apply Rnot_le_lt. intros C. assert (sin 0 <= sin (asin v)) by (apply sin_incr_1; lra). rewrite sin_0 in H0. lra.
Qed.

Section Correct.
Context (bx : ibox) (rho : env) (Hr : inB (box_of bx) rho).

Lemma powRZ_neg_even x p : x <> 0 -> Z.even (Zneg p) = true -> 0 < powerRZ x (Zneg p).
Proof.
  intros Hx He. cbn [powerRZ]. apply Rinv_0_lt_compat.
  assert (E : exists k, Pos.to_nat p = (2 * k)%nat).
  { apply Z.even_spec in He as [j Hj]. exists (Z.to_nat (- j)). lia. }
  destruct E as [k ->]. rewrite pow_mult. apply pow_lt. nra.
Qed.
Lemma powRZ_neg_odd x p : x < 0 -> Z.even (Zneg p) = false -> powerRZ x (Zneg p) < 0.
Proof.
  intros Hx He. cbn [powerRZ]. apply Rinv_lt_0_compat.
  assert (E : exists k, Pos.to_nat p = (2 * k + 1)%nat).
  { rewrite <- Z.negb_odd in He. apply negb_false_iff, Z.odd_spec in He as [j Hj]. exists (Z.to_nat (- j - 1)). lia. }
  destruct E as [k ->]. rewrite pow_add, pow_mult, pow_1. assert (0 < (x ^ 2) ^ k) by (apply pow_lt; nra). nra.
Qed.

Lemma ival_pow i b x : inI i b -> forall xe, x = ev rho xe ->
  inI (match exp_int xe with
      | Some (Zpos p) =>
          if nonneg i then ipow i (Pos.to_nat p)
          else if Z.even (Zpos p) then ipow (iabs i) (Pos.to_nat p)
          else if nonpos i then ineg (ipow (ineg i) (Pos.to_nat p)) else itop
      | Some Z0 => qpt 1
      | Some (Zneg p) => if ipos i then pos_iv
                         else if inegv i then (if Z.even (Zneg p) then pos_iv else ineg pos_iv) else itop
      | None => if ipos i then pos_iv else itop
      end) (rpow b x).
Proof.
  intros Hb xe ->. destruct (exp_int xe) as [z|] eqn:E.
  - assert (EX : ev rho xe = IZR z).
    { destruct xe; try discriminate. cbn [exp_int] in E. destruct (qisint q) eqn:Q; [|discriminate]. injection E as <-.
      cbn [ev]. now apply qisint_Q2R. }
    rewrite EX. destruct z as [|p|p].
    + rewrite rpow_0, <- Q2R_1. apply inI_pt.
    + rewrite rpow_int by (right; lia). cbn [powerRZ]. destruct (nonneg i) eqn:N; [now apply inI_pow|].
      destruct (Z.even (Z.pos p)) eqn:Ev.
      * assert (A : b ^ Pos.to_nat p = Rabs b ^ Pos.to_nat p).
        { apply Z.even_spec in Ev as [j Hj]. replace (Pos.to_nat p) with (2 * Z.to_nat j)%nat by lia.
          rewrite !pow_mult. f_equal. rewrite RPow_abs, Rabs_pos_eq; auto. nra. }
        rewrite A. apply inI_pow; [apply nonneg_iabs|now apply inI_abs].
      * destruct (nonpos i) eqn:N'; [|apply inI_top]. apply inI_neg'.
        assert (A : - b ^ Pos.to_nat p = (- b) ^ Pos.to_nat p).
        { rewrite <- Z.negb_odd in Ev. apply negb_false_iff, Z.odd_spec in Ev as [j Hj].
          replace (Pos.to_nat p) with (2 * Z.to_nat j + 1)%nat by lia.
          rewrite !pow_add, !pow_mult, !pow_1. replace ((- b) ^ 2) with (b ^ 2) by ring. ring. }
        rewrite A. apply inI_pow; [exact N'|now apply inI_neg].
    + destruct (ipos i) eqn:P.
      * apply inI_posiv, rpow_gt0. now apply (ipos_ok i).
      * destruct (inegv i) eqn:P'; [|apply inI_top]. pose proof (inegv_ok _ _ P' Hb) as Nb.
        rewrite rpow_int by (left; lra). destruct (Z.even (Z.neg p)) eqn:Ev.
        -- apply inI_posiv, powRZ_neg_even; auto. lra.
        -- apply inI_neg', inI_posiv. pose proof (powRZ_neg_odd b p Nb Ev). lra.
  - destruct (ipos i) eqn:P; [|apply inI_top]. apply inI_posiv, rpow_gt0. now apply (ipos_ok i).
Qed.

Theorem ival_ok e : inI (ival bx e) (ev rho e).
Proof.
  pose proof q32 as (E1 & E2 & E3 & E4). pose proof pi_gt_3 as PI3. pose proof Q2R_m1 as M1.
  induction e as [q| | | | |s| |ts IH|ts IH|b x IHb IHx|i b IHi IHb|f i IHi|i IHi] using expr_ind'; cbn [ival ev]; try apply inI_top.
  - apply inI_pt.
  - split; cbn.
    + unfold Q2R; simpl. lra.
    + pose proof PI_4. unfold Q2R; simpl. lra.
  - split; cbn; [pose proof exp1_gt2|pose proof exp_le_3]; unfold Q2R; simpl; lra.
  - destruct (Hr s) as [A B]. split; cbn [fst snd].
    + destruct (fst (bnds bx s)); exact A.
    + destruct (snd (bnds bx s)); exact B.
  - induction IH as [|t ts Ht _ IHl]; cbn [fold_right map Rsum].
    + rewrite <- Q2R_0. apply inI_pt.
    + now apply inI_add.
  - induction IH as [|t ts Ht _ IHl]; cbn [fold_right map Rprod].
    + rewrite <- Q2R_1. apply inI_pt.
    + now apply inI_mul.
  - cbv zeta. now apply ival_pow.
  - destruct b; try apply inI_top. cbn [ev]. destruct (ige (ival bx i) 1) eqn:G; [|apply inI_top].
    pose proof (ige_ok _ _ _ G IHi) as G'. rewrite Q2R_1 in G'.
    rewrite ln_exp, Rdiv_1. split; [|exact I]. cbn [fst snd].
    assert (LN : 0 <= ln (ev rho i)).
    { rewrite <- ln_1. destruct G' as [G'|<-]; [left; apply ln_increasing; lra|lra]. }
    destruct IHi as [I1 _]. unfold ige in G. destruct (fst (ival bx i)) as [[q s]|]; [|discriminate].
    destruct (s || qgt0 (q - 1))%bool eqn:S; cbn [below]; rewrite Q2R_0; auto.
    apply Qle_b in G. rewrite Q2R_1 in G. pose proof (below_w _ _ _ I1) as BW.
    assert (L : 1 < ev rho i).
    { apply orb_prop in S as [S|S]; [subst s; cbn in I1; lra|].
      apply qgt0_true in S. rewrite Q2R_minus, Q2R_1 in S. lra. }
    rewrite <- ln_1. apply ln_increasing; lra.
  - cbv zeta.
    pose proof (SIN_bound (ev rho i)) as SB. pose proof (COS_bound (ev rho i)) as CB.
    destruct f; cbn [tev]; try apply inI_top.
    + pose proof (sin2_cos2 (ev rho i)) as SC. unfold Rsqr in SC.
      destruct (_ && _)%bool eqn:A.
      { apply andb_prop in A as [A1 A2]; apply (fun h => ipos_ok _ _ h IHi) in A1; apply (fun h => ile_ok _ _ _ h IHi) in A2; rewrite E3 in A2.
        pose proof (sin_pos3 _ (conj A1 A2)) as SP. split; cbn [fst snd]; [cbn; rewrite ?Q2R_0; exact SP|].
        destruct (ile _ (3 # 2)) eqn:A3; cbn; rewrite ?Q2R_1; [|lra]. apply (fun h => ile_ok _ _ _ h IHi) in A3. rewrite E1 in A3.
        pose proof (cos_pos32 (ev rho i) ltac:(lra)). nra. }
      destruct (inegv _ && _)%bool eqn:A'.
      { apply andb_prop in A' as [A1 A2]; apply (fun h => inegv_ok _ _ h IHi) in A1; apply (fun h => ige_ok _ _ _ h IHi) in A2; rewrite E4 in A2.
        pose proof (sin_neg3 _ (conj A2 A1)) as SP. split; cbn [fst snd]; [|cbn; rewrite ?Q2R_0; exact SP].
        destruct (ige _ (-3 # 2)) eqn:A3; cbn; rewrite ?M1; [|lra]. apply (fun h => ige_ok _ _ _ h IHi) in A3. rewrite E2 in A3.
        pose proof (cos_pos32 (ev rho i) ltac:(lra)). nra. }
      split; cbn; rewrite ?Q2R_1, ?M1; lra.
    + pose proof (sin2_cos2 (ev rho i)) as SC. unfold Rsqr in SC.
      destruct (_ && _)%bool eqn:A.
      { apply andb_prop in A as [A1 A2]; apply (fun h => ige_ok _ _ _ h IHi) in A1; apply (fun h => ile_ok _ _ _ h IHi) in A2; rewrite E1 in A2; rewrite E2 in A1.
        pose proof (cos_pos32 _ (conj A1 A2)) as CP. split; cbn [fst snd]; [cbn; rewrite ?Q2R_0; exact CP|].
        destruct (_ || _)%bool eqn:A3; cbn; rewrite ?Q2R_1; [|lra]. apply orb_prop in A3 as [A3|A3].
        - apply (fun h => ipos_ok _ _ h IHi) in A3. pose proof (sin_pos3 (ev rho i) ltac:(lra)). nra.
        - apply (fun h => inegv_ok _ _ h IHi) in A3. pose proof (sin_neg3 (ev rho i) ltac:(lra)). nra. }
      split; cbn; rewrite ?Q2R_1, ?M1; lra.
    + destruct (_ && _)%bool eqn:A; [|apply inI_top]. apply andb_prop in A as [A1 A2]; apply (fun h => ige_ok _ _ _ h IHi) in A1; apply (fun h => ile_ok _ _ _ h IHi) in A2; rewrite E1 in A2; rewrite E2 in A1.
      pose proof (cos_pos32 _ (conj A1 A2)) as CP.
      destruct (ipos _) eqn:P; [apply (fun h => ipos_ok _ _ h IHi) in P; apply inI_posiv, Rdiv_lt_0_compat; auto; apply sin_pos3; lra|].
      destruct (inegv _) eqn:P'; [apply (fun h => inegv_ok _ _ h IHi) in P'|apply inI_top]. apply inI_neg', inI_posiv.
      pose proof (sin_neg3 (ev rho i) ltac:(lra)). unfold Rdiv. rewrite Ropp_mult_distr_l. apply Rdiv_lt_0_compat; lra.
    + destruct (_ && _)%bool eqn:A; [apply andb_prop in A as [A1 A2]; apply (fun h => ipos_ok _ _ h IHi) in A1; apply (fun h => ile_ok _ _ _ h IHi) in A2; rewrite E3 in A2;
        split; cbn; rewrite ?Q2R_1; auto; apply inv_ge1; split; [now apply sin_pos3|lra]|].
      destruct (inegv _ && _)%bool eqn:A'; [apply andb_prop in A' as [A1 A2]; apply (fun h => inegv_ok _ _ h IHi) in A1; apply (fun h => ige_ok _ _ _ h IHi) in A2; rewrite E4 in A2|apply inI_top].
      split; [exact I|]. cbn. rewrite M1. pose proof (sin_neg3 _ (conj A2 A1)) as SN.
      pose proof (inv_ge1 (- sin (ev rho i)) ltac:(lra)) as IG. rewrite Rinv_opp in IG. lra.
    + destruct (_ && _)%bool eqn:A; [apply andb_prop in A as [A1 A2]; apply (fun h => ige_ok _ _ _ h IHi) in A1; apply (fun h => ile_ok _ _ _ h IHi) in A2; rewrite E1 in A2; rewrite E2 in A1|apply inI_top].
      split; [|exact I]. cbn. rewrite Q2R_1. apply inv_ge1. split; [now apply cos_pos32|lra].
    + destruct (_ && _)%bool eqn:A; [apply andb_prop in A as [A1 A2]; apply (fun h => ipos_ok _ _ h IHi) in A1; apply (fun h => ile_ok _ _ _ h IHi) in A2; rewrite E1 in A2;
        apply inI_posiv, Rdiv_lt_0_compat; [apply cos_pos32|apply sin_pos3]; lra|].
      destruct (inegv _ && _)%bool eqn:A'; [apply andb_prop in A' as [A1 A2]; apply (fun h => inegv_ok _ _ h IHi) in A1; apply (fun h => ige_ok _ _ _ h IHi) in A2; rewrite E2 in A2|apply inI_top].
      apply inI_neg', inI_posiv. pose proof (sin_neg3 (ev rho i) ltac:(lra)) as SN. pose proof (cos_pos32 (ev rho i) ltac:(lra)) as CP.
      unfold Rdiv. rewrite Ropp_mult_distr_r, <- Rinv_opp. apply Rdiv_lt_0_compat; lra.
    + destruct (_ && _)%bool eqn:A; [|apply inI_top]. apply andb_prop in A as [A1 A2].
      apply (fun h => ige_ok _ _ _ h IHi) in A1; apply (fun h => ile_ok _ _ _ h IHi) in A2.
      assert (EQ : Q2R (4 # 5) = 4 / 5 /\ Q2R (-4 # 5) = - (4 / 5)) by (unfold Q2R; simpl; lra). destruct EQ as [Q1 Q2].
      rewrite Q1 in A2. rewrite Q2 in A1. split; cbn [fst snd].
      * destruct (ipos _) eqn:P; cbn.
        -- apply (fun h => ipos_ok _ _ h IHi) in P. rewrite Q2R_0. now apply asin_sign; [lra|].
        -- rewrite E2. apply asin_bounds; lra.
      * destruct (inegv _) eqn:P; cbn.
        -- apply (fun h => inegv_ok _ _ h IHi) in P. rewrite Q2R_0. now apply asin_sign; [lra|].
        -- rewrite E1. apply asin_bounds; lra.
    + pose proof (atan_bound (ev rho i)) as AB. pose proof PI_4.
      assert (SM : (ige (ival bx i) (-8 # 5) && ile (ival bx i) (8 # 5))%bool = true -> - (3 / 2) < atan (ev rho i) < 3 / 2).
      { intros A. apply andb_prop in A as [A1 A2].
        apply (fun h => ige_ok _ _ _ h IHi) in A1; apply (fun h => ile_ok _ _ _ h IHi) in A2.
        assert (EQ : Q2R (8 # 5) = 8 / 5 /\ Q2R (-8 # 5) = - (8 / 5)) by (unfold Q2R; simpl; lra). destruct EQ as [Q1 Q2].
        rewrite Q1 in A2. rewrite Q2 in A1. now apply atan_bounds. }
      split; cbn [fst snd].
      * destruct (ipos _) eqn:P; cbn.
        -- rewrite Q2R_0, <- atan_0. apply atan_increasing. apply (ipos_ok _ _ P IHi).
        -- destruct (_ && _)%bool; [rewrite E2; apply SM; reflexivity|unfold Q2R; simpl; lra].
      * destruct (inegv _) eqn:P; cbn.
        -- rewrite Q2R_0, <- atan_0. apply atan_increasing. apply (inegv_ok _ _ P IHi).
        -- destruct (_ && _)%bool; [rewrite E1; apply SM; reflexivity|unfold Q2R; simpl; lra].
  - now apply inI_abs.
Qed.

Lemma ipos_v e : ipos (ival bx e) = true -> 0 < ev rho e.
Proof. intros H. eapply ipos_ok; [exact H|apply ival_ok]. Qed.
Lemma inegv_v e : inegv (ival bx e) = true -> ev rho e < 0.
Proof. intros H. eapply inegv_ok; [exact H|apply ival_ok]. Qed.
Lemma nzi_v e : nzi bx e = true -> ev rho e <> 0.
Proof. intros H. apply orb_prop in H as [H|H]; [apply ipos_v in H|apply inegv_v in H]; lra. Qed.
Lemma within_v e p q : within (ival bx e) p q = true -> Q2R p <= ev rho e <= Q2R q.
Proof. intros H. apply andb_prop in H as [A B]. split; [eapply ige_ok|eapply ile_ok]; eauto using ival_ok. Qed.
Lemma rpb_v e : rpb bx e = true -> rp rho e.
Proof.
  induction e as [q| | | | |s| |ts IH|ts IH|b x IHb IHx|i b IHi IHb|f i IHi|i IHi] using expr_ind'; cbn [rpb]; intros H;
    try (apply rp_unfold; split; [now apply ipos_v|exact I]).
  - apply andb_prop in H as [H H']. apply rp_unfold. split; [now apply ipos_v|].
    apply orb_prop in H' as [H'|H']; [now left|right]. rewrite forallb_forall in H'. rewrite Forall_forall in *. auto.
  - specialize (IHb H). apply rp_unfold. split; auto. cbn [ev]. apply rpow_gt0. now apply rp_gt0.
Qed.
Lemma tdomb_v f e : tdomb f (ival bx e) = true -> tdom f (ev rho e).
Proof.
  pose proof q32 as (E1 & E2 & E3 & E4). pose proof Q2R_m1. pose proof Q2R_1.
  destruct f; cbn [tdomb tdom]; intros Hd; auto.
  - apply within_v in Hd. rewrite E1, E2 in Hd. apply cos_pos32 in Hd. lra.
  - apply orb_prop in Hd as [A|A]; apply andb_prop in A as [A1 A2].
    + apply ipos_v in A1. eapply ile_ok in A2; [|apply ival_ok]. rewrite E3 in A2. pose proof (sin_pos3 (ev rho e)). lra.
    + apply inegv_v in A1. eapply ige_ok in A2; [|apply ival_ok]. rewrite E4 in A2. pose proof (sin_neg3 (ev rho e)). lra.
  - apply within_v in Hd. rewrite E1, E2 in Hd. apply cos_pos32 in Hd. lra.
  - apply orb_prop in Hd as [A|A]; apply andb_prop in A as [A1 A2].
    + apply ipos_v in A1. eapply ile_ok in A2; [|apply ival_ok]. rewrite E3 in A2. pose proof (sin_pos3 (ev rho e)). lra.
    + apply inegv_v in A1. eapply ige_ok in A2; [|apply ival_ok]. rewrite E4 in A2. pose proof (sin_neg3 (ev rho e)). lra.
  - apply within_v in Hd. lra.
  - apply within_v in Hd. lra.
Qed.
Lemma invb_v f e : invb bx f e = true -> inv_dom rho f e.
Proof.
  pose proof q32 as (E1 & E2 & E3 & E4). pose proof pi_gt_3. pose proof Q2R_0.
  destruct f; cbn; auto; destruct e; cbn; auto; destruct f; cbn; auto; try discriminate; intros Hd; apply within_v in Hd; lra.
Qed.
Theorem ivdom_right : right_at rho (ivdom bx).
Proof.
  intros t Ht. destruct t as [| | | | | | | | |b x|i b|f i|i]; try discriminate; cbn [ivdom] in Ht.
  - apply orb_prop in Ht as [Ht|Ht]; [right; now apply rpb_v|]. destruct x; try discriminate. apply andb_prop in Ht as [A B].
    left. exists q. repeat split; auto. left. now apply nzi_v.
  - destruct b; try discriminate. split; [now apply rpb_v|]. split; [apply exp_pos|apply exp1_ne1].
  - apply andb_prop in Ht as [A B]. split; [now apply tdomb_v|now apply invb_v].
  - now apply ipos_v.
Qed.
End Correct.

Theorem ivrng_ok bx : rng_ok (box_of bx) (ivrng bx).
Proof.
  intros y u H. split; [apply box_of_open|]. intros rho Hr. pose proof (ival_ok bx rho Hr u) as [I1 I2].
  unfold ivrng in H. apply andb_prop in H as [A B]. split.
  - destruct (fst (bnds bx y)) as [q|]; auto. destruct (fst (ival bx u)) as [[p s]|]; [|discriminate].
    pose proof (below_w _ _ _ I1). apply orb_prop in A as [A|A].
    + apply qgt0_true in A. rewrite Q2R_minus in A. lra.
    + apply andb_prop in A as [-> A]. apply Qle_b in A. cbn in I1. lra.
  - destruct (snd (bnds bx y)) as [q|]; auto. destruct (snd (ival bx u)) as [[p s]|]; [|discriminate].
    pose proof (above_w _ _ _ I2). apply orb_prop in B as [B|B].
    + apply qgt0_true in B. rewrite Q2R_minus in B. lra.
    + apply andb_prop in B as [-> B]. apply Qle_b in B. cbn in I2. lra.
Qed.

(** The definedness of an expression on a box can be computed as well. *)
Theorem cert_wdB bx dom e : (forall rho, inB (box_of bx) rho -> right_at rho dom) -> cert dom e = true -> wdB (box_of bx) e.
Proof.
  intros HD H rho Hr. specialize (HD rho Hr).
  induction e as [q| | | | |s| |ts IH|ts IH|b x IHb IHx|i b IHi IHb|f i IHi|i IHi] using expr_ind';
    cbn [cert] in H; try exact I; try discriminate.
  - apply wd_sum. rewrite forallb_forall in H. rewrite Forall_forall in *. auto.
  - apply andb_prop in H as [H H']. apply wd_prod. split; [|now apply one_constb_ok].
    rewrite forallb_forall in H. rewrite Forall_forall in *. auto.
  - apply andb_prop in H as [H H3]. apply andb_prop in H as [H1 H2]. cbn [wd]. repeat split; auto.
    apply orb_prop in H3 as [H3|H3]; [apply pow_always_ok; auto|]. now apply HD in H3.
  - apply andb_prop in H as [H H3]. apply andb_prop in H as [H1 H2]. apply HD in H3 as (A & B & C). cbn [wd]. auto.
  - apply andb_prop in H as [H1 H3]. cbn [wd]. split; auto.
    apply orb_prop in H3 as [H3|H3]; [destruct f; try discriminate; exact I|]. now apply HD in H3 as [A _].
  - cbn [wd]. auto.
Qed.
